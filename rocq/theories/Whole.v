(** * Whole: executions of an instrumented program

    An abstract machine that runs the functions of a binary under the plans of Decision.v.
    It is not a model of tool code; it fixes what the analysed program can do, so that the
    tool's decisions can be judged by their effect.

    A frame is one activation of a function.  [fr_cfa] is the address above its return
    address, [fr_ra] the return address stored by the call, [fr_evs] what it has still to
    execute along its path, and [fr_st] what the instrumentation has done for it.  A frame
    is wild when its stack pointer can no longer be relied on because code has written
    through an unknown pointer, or over the stack of a caller.

    What is left out: exceptions (see C35), threads (see C17), jumps and calls into the middle of
    functions, code between a moved snippet and the block boundary (see C21, C51). The
    shadow stack is the list of recorded addresses; that the snippets implement it, and
    trap on an address not in it, is C02-C08. *)
From Coq Require Import ZArith Bool Lia Arith String List.
From Verif Require Import Machine MachineFacts Jit ShadowSpec Dfs Binary CallGraph MemPasses
  SafePaths Lowering FastPath Decision.
Import ListNotations.
Open Scope Z_scope.

Inductive status := Clean | OnShadow | InReg (w : Z) | Checked.
Record frame := mkFrame {
  fr_fn : nat; fr_cfa : Z; fr_ra : Z; fr_evs : list ev; fr_last : option nat;
  fr_st : status; fr_wild : bool }.
(** [Broken]: a return went to an address that no active call had stored, or a snippet ran
    out of step with the calls. *)
Inductive conf := Run (fs : list frame) (m : memory) (sh : list Z) | Broken.

Definition adv (F : frame) (es : list ev) (l : option nat) (st : status) : frame :=
  mkFrame (fr_fn F) (fr_cfa F) (fr_ra F) es l st (fr_wild F).
Definition wilden (F : frame) : frame :=
  mkFrame (fr_fn F) (fr_cfa F) (fr_ra F) (fr_evs F) (fr_last F) (fr_st F) true.

Section WHOLE.
Variable co : code.
Variable plan_of : nat -> plan.
(** Functions that can return. *)
Variable returns : nat -> bool.
(** Size of the store of an instruction. *)
Variable width : insn -> Z.
(** The addresses of the stack. *)
Variable stk : Z -> Prop.

Definition on_reg (p : plan) : bool :=
  match p with ByLowering l => l_reg l | ByEntry _ _ r => r | _ => false end.

(** ** What a block can do to memory *)
Definition covers (c : Z) (i : insn) (l : absloc) (x : Z) : Prop :=
  match l with
  | AStack off => c + off <= x < c + off + width i
  | AUnknown => True
  | AHeap => ~ stk x
  | ARegister => False
  end.
Definition only_writes (c : Z) (b : nat) (m m' : memory) : Prop :=
  forall x, m' x <> m x -> exists i l, In i (b_insns (co_block co b)) /\ i_frame i = false /\
    i_wmem i = true /\ In l (i_outs i) /\ covers c i l x.
(** The stack from the return address upwards. *)
Definition above (c x : Z) : Prop := stk x /\ c - 8 <= x.
Definition same_on (P : Z -> Prop) (m m' : memory) : Prop := forall x, P x -> m' x = m x.

Inductive body (F : frame) (r : list frame) (b : nat) (m : memory) : frame -> list frame -> memory -> Prop :=
| body_tame m' : fr_wild F = false -> only_writes (fr_cfa F) b m m' ->
    same_on (above (fr_cfa F)) m m' -> ~ block_has co insn_unknown_write b ->
    body F r b m F r m'
| body_wild m' :
    (fr_wild F = true \/
     only_writes (fr_cfa F) b m m' /\ (block_has co insn_unknown_write b \/ ~ same_on (above (fr_cfa F)) m m')) ->
    body F r b m (wilden F) (map wilden r) m'.

(** A library function called by [F]. *)
Inductive library (F : frame) (r : list frame) (m : memory) (name : option string)
    : frame -> list frame -> memory -> Prop :=
| lib_trusted s m' : name = Some s -> trusted_lib s -> fr_wild F = false ->
    same_on (above (fr_cfa F)) m m' -> library F r m name F r m'
| lib_other m' : fr_wild F = true \/ (forall s, name = Some s -> ~ trusted_lib s) ->
    library F r m name (wilden F) (map wilden r) m'.

(** The functions of the binary, without the stubs of library functions. *)
Definition own (g : nat) : Prop :=
  In g (co_funcs co) /\ co_link co (f_addr (co_fun co g)) = None.
(** Where an edge out of the function leads. *)
Definition goes_to (e : edge) (g : nat) : Prop :=
  own g /\
  (e_sink e = true \/
   co_link co (b_start (co_block co (e_trg e))) = None /\ enters co (e_trg e) g).
Definition goes_out (e : edge) (name : option string) : Prop :=
  match name with
  | Some s => e_sink e = false /\ co_link co (b_start (co_block co (e_trg e))) = Some s
  | None => e_sink e = true
  end.
Definition edge_in (b : nat) (e : edge) : Prop := In e (b_targets (co_block co b)).
Definition is_call (b : nat) (e : edge) : Prop := edge_in b e /\ e_ty e = CALL.
Definition is_tail (b : nat) (e : edge) : Prop :=
  edge_in b e /\ e_inter e = true /\ e_ty e <> CALL /\ e_ty e <> RET /\ e_ty e <> CATCH.
Definition is_ret (b : nat) : Prop := exists e, edge_in b e /\ e_ty e = RET.

(** A new activation. *)
Definition enter (g : nat) (c ra : Z) (G : frame) : Prop :=
  exists ks evs, run_plan co g (plan_of g) ks = Some evs /\
    no_catch co (f_entry (co_fun co g)) ks /\
    G = mkFrame g c ra evs None Clean false.
Definition slot (c x : Z) : Prop := c - 8 <= x < c.
Definition slot_word (F : frame) (m : memory) (v : Z) : Prop :=
  fr_wild F = false -> v = load64 m (fr_cfa F - 8).
(** Nothing happens between a check and the return. *)
Definition quiet (b : nat) : Prop :=
  (forall i, In i (b_insns (co_block co b)) -> i_wmem i = false) /\ (forall e, ~ is_call b e).

Inductive mstep : conf -> conf -> Prop :=
(* push *)
| s_push F r m sh es w : fr_evs F = Push :: es -> fr_st F = Clean -> slot_word F m w ->
    on_reg (plan_of (fr_fn F)) = false ->
    mstep (Run (F :: r) m sh) (Run (adv F es (fr_last F) OnShadow :: r) m (w :: sh))
| s_push_reg F r m sh es w : fr_evs F = Push :: es -> fr_st F = Clean -> slot_word F m w ->
    on_reg (plan_of (fr_fn F)) = true ->
    mstep (Run (F :: r) m sh) (Run (adv F es (fr_last F) (InReg w) :: r) m sh)
| s_push_bad F r m sh es : fr_evs F = Push :: es -> fr_st F <> Clean ->
    mstep (Run (F :: r) m sh) Broken
(* a block without a call *)
| s_block F r m sh b es F' r' m' : fr_evs F = Blk b :: es -> (fr_st F = Checked -> quiet b) ->
    (forall e, ~ is_call b e) -> body F r b m F' r' m' ->
    mstep (Run (F :: r) m sh) (Run (adv F' es (Some b) (fr_st F) :: r') m' sh)
| s_block_bad F r m sh b es : fr_evs F = Blk b :: es -> fr_st F = Checked -> ~ quiet b ->
    mstep (Run (F :: r) m sh) Broken
(* a call to a function of the binary *)
| s_call F r m sh b es F' r' m' e g c ra m'' G : fr_evs F = Blk b :: es -> fr_st F <> Checked ->
    is_call b e -> body F r b m F' r' m' -> goes_to e g ->
    (fr_wild F' = false -> c <= fr_cfa F - 8) -> (forall x, slot c x -> stk x) ->
    load64 m'' (c - 8) = ra -> same_on (fun x => ~ slot c x) m' m'' ->
    enter g c ra G ->
    mstep (Run (F :: r) m sh) (Run (G :: adv F' es (Some b) (fr_st F) :: r') m'' sh)
(* a call to a library function or to unknown code *)
| s_lib F r m sh b es F' r' m' e name F'' r'' m'' : fr_evs F = Blk b :: es -> fr_st F <> Checked ->
    is_call b e -> body F r b m F' r' m' -> goes_out e name ->
    library F' r' m' name F'' r'' m'' ->
    mstep (Run (F :: r) m sh) (Run (adv F'' es (Some b) (fr_st F) :: r'') m'' sh)
(* check of the return address: the own one, an older one, or one of no active call *)
| s_pop F r m sh es v sh' : fr_evs F = Pop :: es -> fr_st F = OnShadow -> slot_word F m v ->
    unwind v sh = Some sh' -> v = fr_ra F ->
    mstep (Run (F :: r) m sh) (Run (adv F es (fr_last F) Checked :: r) m sh')
| s_pop_older F sk G below m sh es v sh' : fr_evs F = Pop :: es -> fr_st F = OnShadow -> slot_word F m v ->
    unwind v sh = Some sh' -> v <> fr_ra F ->
    fr_st G = OnShadow -> fr_ra G = v -> (forall H, In H sk -> fr_st H = OnShadow -> fr_ra H <> v) ->
    mstep (Run (F :: sk ++ G :: below) m sh)
         (Run (mkFrame (fr_fn F) (fr_cfa F) v es (fr_last F) Checked true :: map wilden below) m sh')
| s_pop_bad F r m sh es v sh' : fr_evs F = Pop :: es -> fr_st F = OnShadow -> slot_word F m v ->
    unwind v sh = Some sh' -> v <> fr_ra F ->
    (forall H, In H r -> fr_st H = OnShadow -> fr_ra H <> v) ->
    mstep (Run (F :: r) m sh) Broken
| s_pop_reg F r m sh es w : fr_evs F = Pop :: es -> fr_st F = InReg w -> slot_word F m w ->
    w = fr_ra F -> mstep (Run (F :: r) m sh) (Run (adv F es (fr_last F) Checked :: r) m sh)
| s_pop_reg_bad F r m sh es w : fr_evs F = Pop :: es -> fr_st F = InReg w -> slot_word F m w ->
    w <> fr_ra F -> mstep (Run (F :: r) m sh) Broken
| s_pop_none F r m sh es : fr_evs F = Pop :: es -> fr_st F = Clean \/ fr_st F = Checked ->
    mstep (Run (F :: r) m sh) Broken
(* return *)
| s_ret F r m sh b v : fr_evs F = [] -> fr_last F = Some b -> is_ret b -> returns (fr_fn F) = true ->
    fr_st F = Clean -> slot_word F m v -> v = fr_ra F ->
    mstep (Run (F :: r) m sh) (Run r m sh)
| s_ret_checked F r m sh b : fr_evs F = [] -> fr_last F = Some b -> is_ret b -> returns (fr_fn F) = true ->
    fr_st F = Checked -> mstep (Run (F :: r) m sh) (Run r m sh)
| s_ret_bad F r m sh b v : fr_evs F = [] -> fr_last F = Some b -> is_ret b -> returns (fr_fn F) = true ->
    (fr_st F = Clean /\ slot_word F m v /\ v <> fr_ra F) \/ fr_st F = OnShadow \/ (exists w, fr_st F = InReg w) ->
    mstep (Run (F :: r) m sh) Broken
(* jump to another function *)
| s_tail F r m sh b e g c G : fr_evs F = [] -> fr_last F = Some b -> is_tail b e -> returns (fr_fn F) = true ->
    fr_st F = Checked \/ fr_st F = Clean /\ fr_wild F = false ->
    goes_to e g -> (fr_wild F = false -> c = fr_cfa F) ->
    (fr_wild F = true -> (forall x, slot c x -> stk x) /\ load64 m (c - 8) = fr_ra F) ->
    enter g c (fr_ra F) G ->
    mstep (Run (F :: r) m sh) (Run (G :: r) m sh)
| s_tail_lib F r m sh b e name F' r' m' : fr_evs F = [] -> fr_last F = Some b -> is_tail b e ->
    returns (fr_fn F) = true -> fr_st F = Checked \/ fr_st F = Clean /\ fr_wild F = false ->
    goes_out e name -> library F r m name F' r' m' ->
    mstep (Run (F :: r) m sh) (Run r' m' sh)
| s_tail_bad F r m sh b e : fr_evs F = [] -> fr_last F = Some b -> is_tail b e -> returns (fr_fn F) = true ->
    fr_st F <> Checked -> ~ (fr_st F = Clean /\ fr_wild F = false) ->
    mstep (Run (F :: r) m sh) Broken.

Inductive msteps : conf -> conf -> Prop :=
| st_refl x : msteps x x
| st_step x y z : msteps x y -> mstep y z -> msteps x z.

(** A program starts in some function of the binary, with an empty shadow stack. *)
Inductive starts : conf -> Prop :=
| starts_intro g c ra m F : own g -> enter g c ra F ->
    (forall x, slot c x -> stk x) -> load64 m (c - 8) = ra -> starts (Run [F] m []).

(** ** The invariant *)
(** [sf]: the functions relied upon to leave their callers' stack alone. *)
Variable sf : nat -> bool.
(** A block that only writes below the return address, and only calls such functions. *)
Definition calm (b : nat) : Prop :=
  (forall i off x, In i (b_insns (co_block co b)) -> i_frame i = false -> i_wmem i = true ->
     In (AStack off) (i_outs i) -> off <= x < off + width i -> x < -8) /\
  ~ block_has co insn_unknown_write b /\
  (forall e, is_call b e ->
     (forall g, goes_to e g -> sf g = true) /\
     (forall name, goes_out e name -> exists s, name = Some s /\ trusted_lib s)).
Definition runs_of (f : nat) (evs : list ev) : Prop :=
  exists ks, run_plan co f (plan_of f) ks = Some evs /\ no_catch co (f_entry (co_fun co f)) ks.
Definition disciplined (f : nat) (evs : list ev) : Prop :=
  (count_occ ev_eq_dec evs Push <= 1)%nat /\
  (forall pre post, evs = pre ++ Pop :: post -> In Push pre) /\
  (forall pre post, evs = pre ++ Pop :: post -> post = [] \/ exists b, post = [Blk b] /\ quiet b) /\
  (forall l b, executed evs = l ++ [b] -> (is_ret b \/ exists e, is_tail b e) ->
     count_occ ev_eq_dec evs Pop = count_occ ev_eq_dec evs Push) /\
  (returns f = false -> ~ In Push evs) /\
  (returns f = true -> forall pre b post, evs = pre ++ Blk b :: post -> calm b \/ In Push pre) /\
  (sf f = true -> forall b, In (Blk b) evs -> calm b).
Hypothesis DISC : forall f evs, own f -> runs_of f evs -> disciplined f evs.
Hypothesis TAIL : forall f evs l b e, own f -> sf f = true -> runs_of f evs ->
  executed evs = l ++ [b] -> is_tail b e ->
  (forall g, goes_to e g -> sf g = true) /\
  (forall name, goes_out e name -> exists s, name = Some s /\ trusted_lib s).

Definition status_ok (dn : list ev) (F : frame) : Prop :=
  match fr_st F with
  | Clean => ~ In Push dn /\ ~ In Pop dn
  | OnShadow => In Push dn /\ ~ In Pop dn
  | InReg w => In Push dn /\ ~ In Pop dn /\ w = fr_ra F
  | Checked => In Pop dn
  end.
Definition frame_ok (F : frame) : Prop :=
  own (fr_fn F) /\
  exists evs dn, runs_of (fr_fn F) evs /\ evs = dn ++ fr_evs F /\
    (forall b, fr_last F = Some b -> exists l, executed dn = l ++ [b]) /\ status_ok dn F.
Definition live_clean (F : frame) : Prop := fr_st F = Clean /\ returns (fr_fn F) = true.
Definition no_live (fs : list frame) : Prop := forall F, In F fs -> ~ live_clean F.
Fixpoint stack_ok (fs : list frame) : Prop :=
  match fs with
  | [] => True
  | F :: r =>
      frame_ok F /\ stack_ok r /\
      (live_clean F -> fr_wild F = false) /\
      (fr_wild F = true -> forall G, In G r -> fr_wild G = true) /\
      (fr_wild F = false -> forall G, In G r -> fr_wild G = false -> fr_cfa F <= fr_cfa G - 8) /\
      (sf (fr_fn F) = false -> no_live r)
  end.
Definition slot_ok (m : memory) (F : frame) : Prop :=
  fr_wild F = false -> load64 m (fr_cfa F - 8) = fr_ra F /\ forall x, slot (fr_cfa F) x -> stk x.
Definition slots_ok (m : memory) (fs : list frame) : Prop := forall F, In F fs -> slot_ok m F.
Definition shadow_of (fs : list frame) : list Z :=
  map fr_ra (filter (fun F => match fr_st F with OnShadow => true | _ => false end) fs).
Definition inv (x : conf) : Prop :=
  match x with
  | Run fs m sh => stack_ok fs /\ slots_ok m fs /\ sh = shadow_of fs
  | Broken => False
  end.

(** *** Lemmas *)
Lemma executed_snoc (l : list ev) b : executed (l ++ [Blk b]) = executed l ++ [b].
Proof. unfold executed. rewrite flat_map_app. reflexivity. Qed.
Lemma wilden_frame F : frame_ok F -> frame_ok (wilden F).
Proof. intros H. exact H. Qed.
Lemma wilden_live F : live_clean (wilden F) <-> live_clean F.
Proof. split; intros H; exact H. Qed.
Lemma wilden_no_live fs : no_live fs -> no_live (map wilden fs).
Proof. intros H F K. apply in_map_iff in K. destruct K as (G & <- & K). rewrite wilden_live. auto. Qed.
Lemma wilden_ok fs : no_live fs -> stack_ok fs -> stack_ok (map wilden fs).
Proof.
  induction fs as [|F r IH]; intros N H; [exact I|]. cbn [map stack_ok] in *.
  destruct H as (H1 & H2 & _ & _ & _ & H6).
  assert (NR : no_live r) by (intros G HG; apply N; right; auto).
  split; [apply wilden_frame; auto|]. split; [auto|]. split; [|split; [|split]].
  - intros L. destruct (N F (or_introl eq_refl)). apply wilden_live. exact L.
  - intros _ G HG. apply in_map_iff in HG. destruct HG as (G' & <- & _). reflexivity.
  - discriminate.
  - intros _. apply wilden_no_live. auto.
Qed.
Lemma wilden_shadow fs : shadow_of (map wilden fs) = shadow_of fs.
Proof.
  unfold shadow_of. induction fs as [|F r IH]; auto. cbn [map filter].
  change (fr_st (wilden F)) with (fr_st F). destruct (fr_st F); cbn [map]; auto. rewrite IH. reflexivity.
Qed.
Lemma wilden_slots m fs : slots_ok m (map wilden fs).
Proof. intros F K. apply in_map_iff in K. destruct K as (G & <- & _). intros H. discriminate. Qed.
Lemma wild_no_live F r : stack_ok (F :: r) -> fr_wild F = true -> no_live (F :: r).
Proof.
  intros (_ & H2 & H3 & H4 & _ & _) W G [<-|HG].
  - intros L. apply H3 in L. congruence.
  - specialize (H4 W). clear H3 W. induction r as [|A r IH]; [contradiction|].
    destruct H2 as (_ & H2' & H3' & H4' & _). destruct HG as [->|HG].
    + intros L. apply H3' in L. rewrite (H4 G) in L; [discriminate|left; auto].
    + apply IH; auto. intros B HB. apply H4. right. auto.
Qed.

(** What [F] does now depends on its next event only. *)
Lemma next_calm F r b es : stack_ok (F :: r) -> fr_evs F = Blk b :: es -> calm b \/ no_live (F :: r).
Proof.
  intros SO E. destruct SO as ((HF & evs & dn & RO & EE & _ & ST) & _ & _ & _ & _ & HS).
  pose proof (DISC _ _ HF RO) as (_ & _ & _ & _ & _ & D5 & D6). rewrite E in EE.
  destruct (sf (fr_fn F)) eqn:SF.
  - left. apply D6; auto. rewrite EE. apply in_or_app. right. left. auto.
  - specialize (HS eq_refl). destruct (returns (fr_fn F)) eqn:RT.
    + destruct (D5 eq_refl dn b es EE) as [K|K]; [auto|]. right.
      intros G [<-|HG]; [|auto]. intros (L & _). unfold status_ok in ST. rewrite L in ST.
      destruct ST as [ST _]. contradiction.
    + right. intros G [<-|HG]; [|auto]. intros (_ & L). congruence.
Qed.
Lemma frame_adv_blk F b es (st := fr_st F) :
  frame_ok F -> fr_evs F = Blk b :: es -> frame_ok (adv F es (Some b) st).
Proof.
  intros (HF & evs & dn & RO & EE & _ & ST) E. split; auto. exists evs, (dn ++ [Blk b]).
  split; auto. split; [rewrite <- app_assoc; cbn; rewrite EE, E; auto|]. split.
  - intros b' H. injection H as <-. exists (executed dn). apply executed_snoc.
  - unfold status_ok, st in *. cbn [adv fr_st].
    assert (A : forall x, x <> Blk b -> (In x (dn ++ [Blk b]) <-> In x dn)).
    { intros x N. rewrite in_app_iff. cbn. split; [intros [K|[K|[]]]; [auto|congruence]|auto]. }
    assert (NP : Push <> Blk b) by discriminate. assert (NQ : Pop <> Blk b) by discriminate.
    apply A in NP, NQ. destruct (fr_st F); rewrite ?NP, ?NQ; auto.
Qed.
(** Changing the top frame's progress only. *)
Lemma stack_top F F' r : stack_ok (F :: r) -> frame_ok F' -> fr_fn F' = fr_fn F -> fr_cfa F' = fr_cfa F ->
  fr_wild F' = fr_wild F -> (live_clean F' -> fr_wild F = false) -> stack_ok (F' :: r).
Proof.
  intros (H1 & H2 & H3 & H4 & H5 & H6) K E1 E2 E3 L. cbn [stack_ok]. rewrite E1, E2, E3. auto 10.
Qed.
Lemma slots_change m m' fs : slots_ok m fs ->
  (forall F, In F fs -> fr_wild F = false -> forall x, slot (fr_cfa F) x -> m' x = m x) -> slots_ok m' fs.
Proof.
  intros H K F HF W. destruct (H F HF W) as [A B]. split; auto.
  rewrite (load64_ext m' m (fr_cfa F - 8)); [exact A|]. intros x Hx. apply (K F HF W). unfold slot. lia.
Qed.
(** A change below the top frame's return address leaves every slot intact. *)
Lemma slots_above F r m m' : stack_ok (F :: r) -> fr_wild F = false -> slots_ok m (F :: r) ->
  same_on (above (fr_cfa F)) m m' -> slots_ok m' (F :: r).
Proof.
  intros (_ & _ & _ & _ & H5 & _) W S A. apply (slots_change m); auto.
  intros G HG WG x Hx. apply A. destruct (S G HG WG) as [_ ST]. split; [auto|].
  unfold slot in Hx. destruct HG as [<-|HG]; [lia|]. specialize (H5 W G HG WG). lia.
Qed.

(** The body of a block. *)
Lemma body_inv F r b es m F' r' m' :
  stack_ok (F :: r) -> slots_ok m (F :: r) -> fr_evs F = Blk b :: es -> body F r b m F' r' m' ->
  stack_ok (F' :: r') /\ slots_ok m' (F' :: r') /\ shadow_of r' = shadow_of r /\
  (calm b \/ no_live (F' :: r')) /\
  fr_evs F' = fr_evs F /\ fr_st F' = fr_st F /\ fr_fn F' = fr_fn F /\ fr_cfa F' = fr_cfa F /\ fr_ra F' = fr_ra F.
Proof.
  intros SO SL E B. destruct B as [m' W OW SA NU|m' C].
  - split; auto. split; [apply (slots_above F r m); auto|]. split; auto.
    split; [apply (next_calm F r b es); auto|]. repeat split.
  - assert (NL : no_live (F :: r)).
    { destruct (fr_wild F) eqn:W; [apply wild_no_live; auto|].
      destruct (next_calm F r b es SO E) as [K|K]; auto. exfalso.
      destruct C as [C|[OW C]]; [congruence|]. destruct K as (K1 & K2 & _).
      destruct C as [C|C]; [contradiction|]. apply C. intros x (SX & GE).
      destruct (Z.eq_dec (m' x) (m x)) as [Q|Q]; auto. exfalso.
      destruct (OW x Q) as (i & l & I1 & I2 & I3 & I4 & CV). destruct l as [off| | |]; cbn in CV.
      - assert (x - fr_cfa F < -8) by (apply (K1 i off); auto; lia). lia.
      - apply K2. exists i. split; auto. split; auto.
      - contradiction.
      - contradiction. }
    change (wilden F :: map wilden r) with (map wilden (F :: r)).
    split; [apply wilden_ok; auto|]. split; [apply wilden_slots|].
    split; [apply wilden_shadow|]. split; [right; apply wilden_no_live; auto|]. repeat split.
Qed.
Lemma library_inv F r m name F' r' m' :
  stack_ok (F :: r) -> slots_ok m (F :: r) -> library F r m name F' r' m' ->
  ((exists s, name = Some s /\ trusted_lib s) \/ no_live (F :: r)) ->
  stack_ok (F' :: r') /\ slots_ok m' (F' :: r') /\ shadow_of r' = shadow_of r /\
  fr_evs F' = fr_evs F /\ fr_st F' = fr_st F /\ fr_fn F' = fr_fn F /\ fr_cfa F' = fr_cfa F /\ fr_ra F' = fr_ra F.
Proof.
  intros SO SL L K. destruct L as [s m' E T W SA|m' C].
  - split; auto. split; [apply (slots_above F r m); auto|]. repeat split.
  - assert (NL : no_live (F :: r)).
    { destruct K as [(s & E & T)|K]; auto. destruct C as [C|C]; [apply wild_no_live; auto|].
      destruct (C s E T). }
    change (wilden F :: map wilden r) with (map wilden (F :: r)).
    split; [apply wilden_ok; auto|]. split; [apply wilden_slots|]. split; [apply wilden_shadow|]. repeat split.
Qed.
Lemma enter_ok g c ra G : own g -> enter g c ra G ->
  frame_ok G /\ fr_fn G = g /\ fr_cfa G = c /\ fr_ra G = ra /\ fr_wild G = false /\ fr_st G = Clean.
Proof.
  intros HG (ks & evs & R & NC & ->). cbn. split; [|auto]. split; auto. exists evs, [].
  split; [exists ks; auto|]. split; auto. split; [discriminate|]. cbn. auto.
Qed.
Lemma shadow_adv F es l st r :
  shadow_of (adv F es l st :: r) = match st with OnShadow => [fr_ra F] | _ => [] end ++ shadow_of r.
Proof. unfold shadow_of. cbn [filter adv fr_st]. destruct st; reflexivity. Qed.
Lemma shadow_cons F r :
  shadow_of (F :: r) = match fr_st F with OnShadow => [fr_ra F] | _ => [] end ++ shadow_of r.
Proof. unfold shadow_of. cbn [filter]. destruct (fr_st F); reflexivity. Qed.
Lemma unwind_shadow v : forall r sh', unwind v (shadow_of r) = Some sh' ->
  exists sk G below, r = sk ++ G :: below /\ fr_st G = OnShadow /\ fr_ra G = v /\
    (forall H, In H sk -> fr_st H = OnShadow -> fr_ra H <> v) /\ sh' = shadow_of below.
Proof.
  induction r as [|F r IH]; intros sh' H; [discriminate|]. rewrite shadow_cons in H.
  destruct (fr_st F) eqn:S; cbn [app] in H;
    try (destruct (IH _ H) as (sk & G & bl & -> & A & B & C & D); exists (F :: sk), G, bl;
         split; auto; split; auto; split; auto; split; auto; intros K [<-|HK]; [congruence|auto]).
  cbn [unwind] in H. destruct (Z.eqb_spec (fr_ra F) v) as [E|N].
  - injection H as <-. exists [], F, r. repeat split; auto.
  - destruct (IH _ H) as (sk & G & bl & -> & A & B & C & D). exists (F :: sk), G, bl.
    split; auto. split; auto. split; auto. split; auto. intros K [<-|HK]; auto.
Qed.
Lemma nearest_unique sk G bl sk' G' bl' v : sk ++ G :: bl = sk' ++ G' :: bl' ->
  fr_st G = OnShadow -> fr_ra G = v -> (forall H, In H sk -> fr_st H = OnShadow -> fr_ra H <> v) ->
  fr_st G' = OnShadow -> fr_ra G' = v -> (forall H, In H sk' -> fr_st H = OnShadow -> fr_ra H <> v) ->
  bl = bl'.
Proof.
  revert sk'. induction sk as [|A sk IH]; intros sk' E S R N S' R' N'; destruct sk' as [|B sk']; cbn [app] in E.
  - injection E as _ E. auto.
  - injection E as <- E. destruct (N' G (or_introl eq_refl) S R).
  - injection E as -> E. destruct (N G' (or_introl eq_refl) S' R').
  - injection E as _ E. eapply IH; eauto; intros H K; [apply N|apply N']; right; auto.
Qed.
Lemma stack_suffix sk : forall r, stack_ok (sk ++ r) -> stack_ok r.
Proof. induction sk as [|A sk IH]; intros r H; auto. apply IH. apply H. Qed.

Lemma frame_step F x es st : fr_evs F = x :: es -> x = Push \/ x = Pop -> frame_ok F ->
  (forall dn, status_ok dn F -> status_ok (dn ++ [x]) (adv F es (fr_last F) st)) ->
  frame_ok (adv F es (fr_last F) st).
Proof.
  intros E NB (HF & evs & dn & RO & EE & LA & ST) K. split; auto. exists evs, (dn ++ [x]).
  split; auto. split; [rewrite <- app_assoc; cbn; rewrite EE, E; auto|].
  split; [|apply (K dn ST)].
  intros b H. destruct (LA b H) as (l & Q). exists l. unfold executed in *. rewrite flat_map_app, Q.
  destruct NB as [-> | ->]; cbn; rewrite ?app_nil_r; auto.
Qed.
Lemma not_twice (dn es : list ev) x : (count_occ ev_eq_dec (dn ++ x :: es) x <= 1)%nat -> ~ In x dn.
Proof.
  intros H K. rewrite count_occ_app in H. cbn [count_occ] in H.
  destruct (ev_eq_dec x x) as [_|N]; [|congruence].
  apply (count_occ_In ev_eq_dec) in K. lia.
Qed.
(** The next event is a push: nothing has been recorded yet. *)
Lemma push_clean F es : frame_ok F -> fr_evs F = Push :: es -> fr_st F = Clean /\ returns (fr_fn F) = true.
Proof.
  intros (HF & evs & dn & RO & EE & _ & ST) E. pose proof (DISC _ _ HF RO) as (D1 & D2 & _ & _ & D4 & _).
  rewrite EE, E in D1. apply not_twice in D1. split.
  - unfold status_ok in ST. destruct (fr_st F) as [| |w|] eqn:S; auto; exfalso.
    + apply D1. apply ST. + apply D1. apply ST.
    + apply in_split in ST. destruct ST as (a & c & ->). apply D1. apply in_or_app. left.
      apply (D2 a (c ++ fr_evs F)). rewrite EE, <- app_assoc. reflexivity.
  - destruct (returns (fr_fn F)); auto. exfalso. apply D4; auto. rewrite EE, E. apply in_or_app. right; left; auto.
Qed.
(** The next event is a check: there is something recorded. *)
Lemma pop_recorded F es : frame_ok F -> fr_evs F = Pop :: es ->
  fr_st F = OnShadow \/ exists w, fr_st F = InReg w /\ w = fr_ra F.
Proof.
  intros (HF & evs & dn & RO & EE & _ & ST) E. pose proof (DISC _ _ HF RO) as (_ & D2 & D3 & _).
  rewrite E in EE. pose proof (D2 _ _ EE) as HP. unfold status_ok in ST.
  destruct (fr_st F) as [| |w|] eqn:S; auto.
  - destruct ST; contradiction.
  - right. exists w. split; auto. apply ST.
  - exfalso. apply in_split in ST. destruct ST as (a & c & ->).
    rewrite <- app_assoc in EE. cbn [app] in EE. destruct (D3 _ _ EE) as [K|(b & K & _)].
    + destruct c; discriminate.
    + destruct c as [|y [|z c]]; cbn [app] in K; discriminate.
Qed.
(** At the end of the path, nothing is left recorded. *)
Lemma end_clean F b : frame_ok F -> fr_evs F = [] -> fr_last F = Some b ->
  (is_ret b \/ exists e, is_tail b e) -> fr_st F = Clean \/ fr_st F = Checked.
Proof.
  intros (HF & evs & dn & RO & EE & LA & ST) E L X. pose proof (DISC _ _ HF RO) as (_ & _ & _ & D4 & _).
  rewrite E, app_nil_r in EE. subst dn. destruct (LA b L) as (l & EL). specialize (D4 l b EL X).
  unfold status_ok in ST. destruct (fr_st F) as [| |w|]; auto; exfalso.
  - destruct ST as [A B]. apply (count_occ_In ev_eq_dec) in A. apply (count_occ_not_In ev_eq_dec) in B. lia.
  - destruct ST as (A & B & _). apply (count_occ_In ev_eq_dec) in A. apply (count_occ_not_In ev_eq_dec) in B. lia.
Qed.
Lemma checked_quiet F b es : frame_ok F -> fr_evs F = Blk b :: es -> fr_st F = Checked -> quiet b.
Proof.
  intros (HF & evs & dn & RO & EE & LA & ST) E S. pose proof (DISC _ _ HF RO) as (_ & _ & D3 & _).
  unfold status_ok in ST. rewrite S in ST. apply in_split in ST. destruct ST as (a & c & ->).
  rewrite E, <- app_assoc in EE. cbn [app] in EE. destruct (D3 _ _ EE) as [K|(b' & K & Q)].
  - destruct c; discriminate.
  - destruct c as [|y c]; cbn [app] in K; [injection K as <- _; auto|]. destruct c; discriminate.
Qed.
Lemma tail_safe F b e : frame_ok F -> fr_evs F = [] -> fr_last F = Some b -> is_tail b e -> sf (fr_fn F) = true ->
  (forall g, goes_to e g -> sf g = true) /\
  (forall name, goes_out e name -> exists s, name = Some s /\ trusted_lib s).
Proof.
  intros (HF & evs & dn & RO & EE & LA & ST) E L T S. destruct (LA b L) as (l & EL).
  rewrite E, app_nil_r in EE. subst dn. eapply TAIL; eauto.
Qed.

(** *** Every mstep keeps the invariant *)
Lemma stack_frame F r : stack_ok (F :: r) -> frame_ok F.
Proof. intros H. apply H. Qed.
Lemma slots_adv m F F' r : slots_ok m (F :: r) -> fr_cfa F' = fr_cfa F -> fr_ra F' = fr_ra F ->
  fr_wild F' = fr_wild F -> slots_ok m (F' :: r).
Proof.
  intros H E1 E2 E3 G [<-|HG].
  - intros W. rewrite E3 in W. rewrite E1, E2. apply (H F (or_introl eq_refl) W).
  - apply H. right. auto.
Qed.

Theorem step_inv x y : inv x -> mstep x y -> inv y.
Proof.
  intros I S. destruct S; cbn [inv] in *; destruct I as (SO & SL & SH);
    try (pose proof (stack_frame _ _ SO) as FO).
  - (* push *)
    destruct (push_clean F es FO H) as [_ RT].
    assert (W : fr_wild F = false) by (apply SO; split; auto).
    assert (E : w = fr_ra F) by (rewrite (H1 W); apply (SL F (or_introl eq_refl) W)).
    split; [|split].
    + apply (stack_top F); auto.
      apply (frame_step F Push es); auto. intros dn ST. unfold status_ok in *. rewrite H0 in ST. cbn [adv fr_st].
      rewrite !in_app_iff. cbn. destruct ST. split; [auto|]. intros [K|[K|[]]]; [auto|discriminate].
    + apply (slots_adv m F); auto.
    + rewrite shadow_adv. rewrite shadow_cons, H0 in SH. cbn [app] in *. congruence.
  - destruct (push_clean F es FO H) as [_ RT].
    assert (W : fr_wild F = false) by (apply SO; split; auto).
    assert (E : w = fr_ra F) by (rewrite (H1 W); apply (SL F (or_introl eq_refl) W)).
    split; [|split].
    + apply (stack_top F); auto.
      apply (frame_step F Push es); auto. intros dn ST. unfold status_ok in *. rewrite H0 in ST. cbn [adv fr_st fr_ra].
      rewrite !in_app_iff. cbn. destruct ST. split; [auto|]. split; auto. intros [K|[K|[]]]; [auto|discriminate].
    + apply (slots_adv m F); auto.
    + rewrite shadow_adv. rewrite shadow_cons, H0 in SH. exact SH.
  - destruct (push_clean F es FO H) as [K _]. congruence.
  - (* block *)
    destruct (body_inv F r b es m F' r' m' SO SL H H2) as (A & B & C & _ & E1 & E2 & E3 & E4 & E5).
    split; [|split].
    + apply (stack_top F'); auto.
      * rewrite <- E2. apply frame_adv_blk; [apply A|congruence].
      * intros (L & R). cbn in L, R. apply A. split; congruence.
    + apply (slots_adv m' F'); auto.
    + rewrite shadow_adv. rewrite shadow_cons in SH. rewrite E5, C. exact SH.
  - apply H1. eapply checked_quiet; eauto.
  - (* call *)
    destruct (body_inv F r b es m F' r' m' SO SL H H2) as (A & B & C & D & E1 & E2 & E3 & E4 & E5).
    destruct H3 as [HG GO].
    destruct (enter_ok g c ra G HG H8) as (G1 & G2 & G3 & G4 & G5 & G6).
    set (F1 := adv F' es (Some b) (fr_st F)).
    assert (A1 : stack_ok (F1 :: r')).
    { apply (stack_top F'); auto.
      - unfold F1. rewrite <- E2. apply frame_adv_blk; [apply A|congruence].
      - intros (L & R). cbn in L, R. apply A. split; congruence. }
    assert (B1 : slots_ok m' (F1 :: r')) by (apply (slots_adv m' F'); auto).
    assert (NR : fr_wild F1 = false -> c <= fr_cfa F1 - 8) by (cbn; rewrite E4; auto).
    split; [|split].
    + change (frame_ok G /\ stack_ok (F1 :: r') /\ (live_clean G -> fr_wild G = false) /\
        (fr_wild G = true -> forall X, In X (F1 :: r') -> fr_wild X = true) /\
        (fr_wild G = false -> forall X, In X (F1 :: r') -> fr_wild X = false -> fr_cfa G <= fr_cfa X - 8) /\
        (sf (fr_fn G) = false -> no_live (F1 :: r'))).
      split; auto. split; auto. split; auto. split; [congruence|]. rewrite G3, G2. split.
      * intros _ X HX WX. destruct HX as [<-|HX]; [auto|].
        destruct (fr_wild F1) eqn:WF.
        -- assert (Q : fr_wild X = true) by (apply A1; auto). congruence.
        -- assert (Q : fr_cfa F1 <= fr_cfa X - 8) by (apply A1; auto). specialize (NR eq_refl). lia.
      * intros NS. destruct D as [D|D].
        -- destruct D as (_ & _ & D). destruct (D e H1) as [D1 _]. rewrite (D1 g (conj HG GO)) in NS. discriminate.
        -- intros X [<-|HX]; [|apply D; right; auto]. intros (L & R). apply (D F' (or_introl eq_refl)).
           cbn in L, R. split; congruence.
    + intros X [<-|HX].
      * intros _. rewrite G3, G4. split; auto.
      * apply (slots_change m' m'' (F1 :: r') B1); auto. intros Y HY WY x Hx. apply H7. unfold slot in *.
        intros K. destruct (fr_wild F1) eqn:WF.
        -- destruct HY as [<-|HY]; [congruence|]. assert (Q : fr_wild Y = true) by (apply A1; auto). congruence.
        -- specialize (NR eq_refl). destruct HY as [<-|HY]; [lia|].
           assert (Q : fr_cfa F1 <= fr_cfa Y - 8) by (apply A1; auto). lia.
    + rewrite shadow_cons, G6. cbn [app]. unfold F1. rewrite shadow_adv, E5, C, SH, shadow_cons. reflexivity.
  - (* library *)
    destruct (body_inv F r b es m F' r' m' SO SL H H2) as (A & B & C & D & E1 & E2 & E3 & E4 & E5).
    destruct (library_inv F' r' m' name F'' r'' m'' A B H4) as (A' & B' & C' & E1' & E2' & E3' & E4' & E5').
    { destruct D as [D|D]; auto. left. destruct D as (_ & _ & D). apply (D e H1). exact H3. }
    split; [|split].
    + apply (stack_top F''); auto.
      * rewrite <- E2, <- E2'. apply frame_adv_blk; [apply A'|congruence].
      * intros (L & R). cbn in L, R. apply A'. split; congruence.
    + apply (slots_adv m'' F''); auto.
    + rewrite shadow_adv, E5', E5, C', C, SH, shadow_cons. reflexivity.
  - (* pop *)
    subst v. split; [|split].
    + apply (stack_top F); auto.
      * apply (frame_step F Pop es); auto. intros dn ST. unfold status_ok. cbn [adv fr_st].
        apply in_or_app. right; left; auto.
      * intros (L & _). discriminate.
    + apply (slots_adv m F); auto.
    + rewrite shadow_adv. cbn [app]. rewrite shadow_cons, H0 in SH. cbn [app] in SH. rewrite SH in H2.
      cbn [unwind] in H2. rewrite Z.eqb_refl in H2. congruence.
  - (* pop of an older address *)
    assert (W : fr_wild F = true).
    { destruct (fr_wild F) eqn:W; auto. exfalso. apply H3. rewrite (H1 W). apply (SL F (or_introl eq_refl) W). }
    assert (NL : no_live below).
    { intros X HX. apply (wild_no_live F _ SO W). right. apply in_or_app. right. right. auto. }
    assert (SB : stack_ok below).
    { destruct SO as (_ & SO & _). apply stack_suffix in SO. apply SO. }
    split; [|split].
    + cbn [stack_ok fr_fn fr_cfa fr_wild]. split; [|split; [apply wilden_ok; auto|split; [|split; [|split]]]].
      * destruct FO as (HF & evs & dn & RO & EE & LA & ST). split; auto. exists evs, (dn ++ [Pop]).
        split; auto. split; [rewrite <- app_assoc; cbn; rewrite EE, H; auto|]. split.
        -- intros b0 HB. destruct (LA b0 HB) as (l & Q). exists l. unfold executed in *.
           rewrite flat_map_app, Q. cbn. rewrite app_nil_r. auto.
        -- unfold status_ok. cbn. apply in_or_app. right; left; auto.
      * intros (L & _). discriminate.
      * intros _ X HX. apply in_map_iff in HX. destruct HX as (Y & <- & _). reflexivity.
      * discriminate.
      * intros _. apply wilden_no_live. auto.
    + intros X [<-|HX]; [intros K; discriminate|]. apply (wilden_slots m below X HX).
    + rewrite shadow_cons. cbn [fr_st app]. rewrite wilden_shadow. rewrite shadow_cons, H0 in SH.
      cbn [app] in SH. rewrite SH in H2. cbn [unwind] in H2.
      destruct (Z.eqb_spec (fr_ra F) v) as [K|_]; [congruence|].
      destruct (unwind_shadow _ _ _ H2) as (sk' & G' & bl' & E & A & B & C & ->).
      f_equal. symmetry. eapply (nearest_unique sk G below sk' G' bl'); eauto.
  - (* address of no active call *)
    rewrite shadow_cons, H0 in SH. cbn [app] in SH. rewrite SH in H2. cbn [unwind] in H2.
    destruct (Z.eqb_spec (fr_ra F) v) as [K|_]; [congruence|].
    destruct (unwind_shadow _ _ _ H2) as (sk' & G' & bl' & E & A & B & C & _).
    apply (H4 G'); auto. rewrite E. apply in_or_app. right; left; auto.
  - (* register *)
    split; [|split].
    + apply (stack_top F); auto.
      * apply (frame_step F Pop es); auto. intros dn ST. unfold status_ok. cbn [adv fr_st].
        apply in_or_app. right; left; auto.
      * intros (L & _). discriminate.
    + apply (slots_adv m F); auto.
    + rewrite shadow_adv. rewrite shadow_cons, H0 in SH. exact SH.
  - destruct (pop_recorded F es FO H) as [K|(w' & K & E)]; congruence.
  - destruct (pop_recorded F es FO H) as [K|(w' & K & E)]; destruct H0; congruence.
  - (* return *)
    split; [apply SO|]. split; [intros X HX; apply SL; right; auto|].
    rewrite shadow_cons, H3 in SH. exact SH.
  - split; [apply SO|]. split; [intros X HX; apply SL; right; auto|].
    rewrite shadow_cons, H3 in SH. exact SH.
  - destruct (end_clean F b FO H H0 (or_introl H1)) as [K|K]; rewrite K in H3.
    + destruct H3 as [(_ & S & N)|[S|(w & S)]]; try discriminate.
      assert (W : fr_wild F = false) by (apply SO; split; auto).
      apply N. rewrite (S W). apply (SL F (or_introl eq_refl) W).
    + destruct H3 as [(S & _)|[S|(w & S)]]; discriminate.
  - (* tail call *)
    destruct H4 as [HG GO]. destruct (enter_ok g c (fr_ra F) G HG H7) as (G1 & G2 & G3 & G4 & G5 & G6).
    split; [|split].
    + cbn [stack_ok]. split; auto. split; [apply SO|]. split; auto. split; [congruence|]. rewrite G2, G3. split.
      * intros _ X HX WX. destruct (fr_wild F) eqn:W.
        -- assert (Q : fr_wild X = true) by (apply SO; auto). congruence.
        -- rewrite (H5 eq_refl). apply SO; auto.
      * intros NS. destruct (sf (fr_fn F)) eqn:SF; [|apply SO; auto].
        destruct (tail_safe F b e FO H H0 H1 SF) as [T _]. rewrite (T g (conj HG GO)) in NS. discriminate.
    + intros X [<-|HX]; [|apply SL; right; auto]. intros _. rewrite G3, G4.
      destruct (fr_wild F) eqn:W.
      * destruct (H6 eq_refl). auto.
      * rewrite (H5 eq_refl). apply (SL F (or_introl eq_refl) W).
    + rewrite shadow_cons, G6. rewrite shadow_cons in SH.
      destruct (end_clean F b FO H H0 (or_intror (ex_intro _ e H1))) as [K|K]; rewrite K in SH; exact SH.
  - assert (NC : shadow_of (F :: r) = shadow_of r).
    { rewrite shadow_cons. destruct (end_clean F b FO H H0 (or_intror (ex_intro _ e H1))) as [K|K]; rewrite K; reflexivity. }
    rewrite NC in SH. destruct H5 as [s m' E T W SA|m' C].
    + split; [apply SO|]. split; [|auto].
      intros X HX. apply (slots_above F r m m' SO W SL SA). right; auto.
    + assert (NL : no_live r).
      { destruct (fr_wild F) eqn:W; [intros X HX; apply (wild_no_live F r SO W); right; auto|].
        destruct (sf (fr_fn F)) eqn:SF; [|apply SO; auto].
        destruct (tail_safe F b e FO H H0 H1 SF) as [_ T]. destruct (T name H4) as (s & E & TL).
        destruct C as [C|C]; [congruence|]. destruct (C s E TL). }
      split; [apply wilden_ok; auto; apply SO|]. split; [apply wilden_slots|]. rewrite wilden_shadow. exact SH.
  - destruct (end_clean F b FO H H0 (or_intror (ex_intro _ e H1))) as [K|K]; [|congruence].
    apply H4. split; auto. apply SO. split; auto.
Qed.
Lemma starts_inv x : starts x -> inv x.
Proof.
  intros [g c ra m F HG HE HS HL]. destruct (enter_ok g c ra F HG HE) as (G1 & G2 & G3 & G4 & G5 & G6).
  cbn [inv stack_ok]. split; [|split].
  - split; auto. split; auto. split; auto. split; [intros _ X []|]. split; [intros _ X []|]. intros _ X [].
  - intros X [<-|[]] _. rewrite G3, G4. auto.
  - rewrite shadow_cons, G6. reflexivity.
Qed.
Theorem run_inv x y : starts x -> msteps x y -> inv y.
Proof. intros S R. induction R as [x|x y z R IH S1]; [apply starts_inv; auto|]. eapply step_inv; eauto. Qed.
Theorem never_broken x : starts x -> ~ msteps x Broken.
Proof. intros S R. exact (run_inv _ _ S R). Qed.
(** A frame that is not wild passes its check. *)
Theorem check_passes x F r m sh es : starts x -> msteps x (Run (F :: r) m sh) -> fr_evs F = Pop :: es ->
  fr_wild F = false ->
  exists sh', mstep (Run (F :: r) m sh) (Run (adv F es (fr_last F) Checked :: r) m sh') /\
    unwind (fr_ra F) (match fr_st F with OnShadow => sh | _ => fr_ra F :: sh end) = Some sh'.
Proof.
  intros S R E W. destruct (run_inv _ _ S R) as (SO & SL & SH).
  assert (V : fr_ra F = load64 m (fr_cfa F - 8)) by (symmetry; apply (SL F (or_introl eq_refl) W)).
  destruct (pop_recorded F es (stack_frame _ _ SO) E) as [K|(w & K & ->)].
  - rewrite K. rewrite shadow_cons, K in SH. cbn [app] in SH. exists (shadow_of r).
    assert (U : unwind (fr_ra F) sh = Some (shadow_of r)) by (rewrite SH; cbn; rewrite Z.eqb_refl; auto).
    split; auto. apply (s_pop F r m sh es (fr_ra F)); auto. intros _. exact V.
  - rewrite K. exists sh. split; [|cbn; rewrite Z.eqb_refl; auto].
    apply (s_pop_reg F r m sh es (fr_ra F)); auto. intros _. exact V.
Qed.
End WHOLE.
