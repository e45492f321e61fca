(** * Activation: one call of an instrumented function, instruction by instruction
    The snippets that jit.cc emits run at the places where instrument.cc puts them, between
    the instructions of the function.  This is not a model of tool code; it fixes what
    happens when the patched function runs.  [pushBack] (instrument.cc:181, 497, 529, 559,
    786, 801, 822, 839) puts the snippets of one point in the order of insertion; a point at
    the end of a block comes before its return instruction. *)
From Coq Require Import ZArith Bool Lia ZifyBool ZifyNat Arith String List.
From Verif Require Import Machine MachineFacts Jit ShadowSpec JitFacts JitPushPop History.
From Verif Require Import Dfs Binary CallGraph InterProc MemPasses Pipeline RegNames BlockLive
  Reach SafePaths Lowering FastPath Decision FullRun Whole Sites Order.
Import ListNotations.
Open Scope Z_scope.
Local Notation mem := Machine.mem.

(** ** What is executed along a path *)
Inductive item :=
| Here (n : node)                 (* start of a block *)
| Ins (n : node) (i : insn)       (* an instruction of the program *)
| Snip (sn : snip)                (* inserted code *)
| Out (n : node).                 (* end of a block, before the next one *)

Definition place_dec (a b : place) : {a = b} + {a <> b}.
Proof.
  decide equality; try apply node_dec; try apply Z.eq_dec.
  decide equality; apply Nat.eq_dec.
Defined.
Definition placeb (a b : place) : bool := if place_dec a b then true else false.
(** The snippets at a place, in the order of insertion. *)
Definition snips (ss : list (place * snip)) (pl : place) : list snip :=
  map snd (filter (fun q => placeb (fst q) pl) ss).

Section ITEMS.
Variable co : code.
Variable ss : list (place * snip).

(** Instructions with the code [g] before them. *)
Definition weaveg (g : Z -> list snip) (n : node) (is : list insn) : list item :=
  flat_map (fun i => map Snip (g (i_addr i)) ++ [Ins n i]) is.
Definition weave (n : node) (is : list insn) : list item :=
  weaveg (fun a => snips ss (BeforeInsn n a)) n is.
(** The instructions up to the return, and the rest. *)
Fixpoint cut (is : list insn) : list insn * list insn :=
  match is with
  | [] => ([], [])
  | i :: t => if isop (i_op i) ORet then ([], is) else (i :: fst (cut t), snd (cut t))
  end.
(** A block; the last one of the path up to, but not including, its return. *)
Definition node_items (n : node) (last : bool) : list item :=
  let '(bd, tl) := cut (b_insns (co_block co (snd n))) in
  Here n :: map Snip (snips ss (AtStart n)) ++ weave n bd ++ map Snip (snips ss (AtEnd n)) ++
  (if last then flat_map (fun i => map Snip (snips ss (BeforeInsn n (i_addr i)))) tl
   else weave n tl ++ [Out n]).

(** A segment of a path: a block and the number of the edge it is left by. *)
Definition seg : Type := node * option nat.
Definition seg_items (sg : seg) : list item :=
  match sg with
  | (n, None) => node_items n true
  | (n, Some k) => node_items n false ++
      (if fst n then [] else map Snip (snips ss (OnEdge (snd n, k))))
  end.
(** Where control goes: lowering changes edges (Lowering.v), the other schemes do not. *)
Definition next (p : plan) (n : node) (k : nat) (e : edge) : node :=
  match p with
  | ByLowering l => patched_trg (l_ndebug l) (l_red l) n k e
  | _ => (false, e_trg e)
  end.
Fixpoint segs (p : plan) (n : node) (ks : list nat) : option (list seg) :=
  match ks with
  | [] => Some [(n, None)]
  | k :: r =>
      match nth_error (b_targets (co_block co (snd n))) k with
      | Some e => if e_sink e || e_inter e then None
                  else option_map (cons (n, Some k)) (segs p (next p n k e) r)
      | None => None
      end
  end.
(** Code at the function entry runs once, before the first block. *)
Definition plan_items (fn : nat) (p : plan) (ks : list nat) : option (list item) :=
  match p with
  | PAbort | PNoFuel => None
  | _ => option_map (fun l => map Snip (snips ss AtEntry) ++ flat_map seg_items l)
           (segs p (false, f_entry (co_fun co fn)) ks)
  end.
End ITEMS.

(** ** Running the items *)
(** What can be relied on.  A frame turns wild when code has written through an unknown pointer,
    or over the stack of a caller: then saved registers may have been overwritten and rsp may be
    anywhere.  [usable] are the values of rsp, in a wild frame, with accessible memory around. *)
Record scope (X : Type) := mkScope { wild : X -> bool; usable : Z -> Prop }.
Arguments mkScope {X}. Arguments wild {X}. Arguments usable {X}.
(** Programs that stay within their frames. *)
Definition steady {X : Type} : scope X := mkScope (fun _ => false) (fun _ => False).
(** A state of the program: registers, memory, flags, and anything else. *)
Section RUN.
Variable X : Type.
Notation pstate := (pst Machine.flags X).
Variable co : code.
Variable sem : insn -> pstate -> option pstate.
Variable mp : perm.
Variable o : opts.
Variable base : Z.              (* gs base: the shadow stack of the thread *)
Variables lo cfa : Z.           (* the stack below the frame; the address above the return address *)
Variable width : insn -> Z.
Variable stk : Z -> Prop.
(** Functions of the binary that leave their caller's return address alone. *)
Variable gentle : nat -> Prop.
Variable sc : scope X.
Definition gone (p : pstate) : bool := wild sc (p_rest p).

Definition as_state (p : pstate) : state := mkState (p_rg p) (p_mem p) base (p_fl p) 0.
Definition of_state (st : state) (p : pstate) : pstate :=
  mkPst (rg st) (mem st) (Machine.fl st) (p_rest p).
Definition snip_code (sn : snip) : option (list Machine.instr) :=
  match sn with
  | StackPush q => match e_code q with EOk (c, _) => Some c | _ => None end
  | StackPop q => match x_code q with EOk (c, _) => Some c | _ => None end
  | RegPush js h => match jit_register_push o kRegisterMap js h with EOk c => Some c | _ => None end
  | RegPop js => match jit_register_pop o kRegisterMap js with EOk c => Some c | _ => None end
  end.

(** What is assumed of an instruction [i] of block [n] that the program executes, a call
    together with the function it calls. *)
Definition wfp (p : pstate) : Prop := forall r, 0 <= p_rg p r < W.
(** rsp stays in the frame, with room for two words below, as long as the frame is not wild. *)
Definition in_frame (p : pstate) : Prop :=
  if gone p then usable sc (p_rg p RSP) else lo + 16 <= p_rg p RSP <= cfa - 8.
(** The shadow stack is out of the program's reach; functions called leave it as it was. *)
Definition keeps_shadow (p p' : pstate) : Prop :=
  forall l, shadow_rep (p_mem p) base l -> shadow_rep (p_mem p') base l.
(** The return address changes only by a store that the decoder says may reach it, or in a
    call of a function that is not gentle. *)
Definition rough_call (e : edge) : Prop :=
  ~ ((forall g, goes_to co e g -> gentle g) /\
     (forall name, goes_out co e name -> exists s, name = Some s /\ trusted_lib s)).
Definition as_decoded (n : node) (i : insn) (p p' : pstate) : Prop :=
  forall x, Whole.slot cfa x -> p_mem p' x <> p_mem p x ->
    (i_frame i = false /\ i_wmem i = true /\
     exists l, In l (i_outs i) /\ covers width stk cfa i l x) \/
    (exists e, is_call co (snd n) e /\ rough_call e).
(** What makes a frame wild: a store that may reach the stack from the return address upwards, or
    a call of a function that is not gentle. *)
Definition may_turn (n : node) (i : insn) : Prop :=
  i_wmem i = true /\ i_op i <> OPush /\
  ((i_frame i = false /\ exists l x, In l (i_outs i) /\ above stk cfa x /\ covers width stk cfa i l x) \/
   (exists e, is_call co (snd n) e /\ rough_call e)).
Definition step_ok (n : node) (i : insn) (p p' : pstate) : Prop :=
  wfp p' /\ in_frame p' /\ keeps_shadow p p' /\
  (gone p = false -> as_decoded n i p p' /\ (gone p' = true -> may_turn n i)).
(** The stack heights that the stack analysis reports are right, unless the frame is wild. *)
Definition height_at (h : option Z) (p : pstate) : Prop :=
  gone p = false -> forall z, h = Some z -> p_rg p RSP = cfa + z.
(** A block that just returns is entered with rsp at the return address. *)
Definition only_ret (c : nat) : Prop :=
  exists i, b_insns (co_block co c) = [i] /\ i_op i = ORet.
Definition here_ok (n : node) (p : pstate) : Prop := height_at (b_sp_entry (co_block co (snd n))) p.
Definition out_ok (n : node) (p : pstate) : Prop :=
  height_at (b_sp_end (co_block co (snd n))) p /\
  (gone p = false -> forall c, FastPath.step co (snd n) c -> only_ret c -> p_rg p RSP = cfa - 8).

(** The path has been run; or inserted code has trapped or faulted in state [p] with
    [rest] still to do. *)
Inductive outcome := Fin (p : pstate) | Stopped (p : pstate) (rest : list item) | Crashed (p : pstate) (rest : list item).
Inductive irun : list item -> pstate -> outcome -> Prop :=
| ir_nil p : irun [] p (Fin p)
| ir_here n r p out : here_ok n p -> irun r p out -> irun (Here n :: r) p out
| ir_out n r p out : out_ok n p -> irun r p out -> irun (Out n :: r) p out
| ir_ins n i r p p' out : sem i p = Some p' -> step_ok n i p p' -> irun r p' out ->
    irun (Ins n i :: r) p out
| ir_snip sn c st r p out : snip_code sn = Some c -> exec c mp (as_state p) (Done st) ->
    irun r (of_state st p) out -> irun (Snip sn :: r) p out
| ir_trap sn c r p : snip_code sn = Some c -> exec c mp (as_state p) Trap ->
    irun (Snip sn :: r) p (Stopped p r)
| ir_fault sn c r p : snip_code sn = Some c -> exec c mp (as_state p) Fault ->
    irun (Snip sn :: r) p (Crashed p r)
| ir_none sn r p : snip_code sn = None -> irun (Snip sn :: r) p (Crashed p r).

(** A run of instructions. *)
Fixpoint steps (n : node) (is : list insn) (p p' : pstate) : Prop :=
  match is with
  | [] => p' = p
  | i :: t => exists q, sem i p = Some q /\ step_ok n i p q /\ steps n t q p'
  end.
Lemma steps_prun n is : forall p p', steps n is p p' -> prun sem is p = Some p'.
Proof.
  induction is as [|i t IH]; intros p p' H; cbn [steps prun] in *; [congruence|].
  destruct H as (q & -> & _ & H). auto.
Qed.
Lemma irun_ins n is r : forall p out, irun (map (Ins n) is ++ r) p out ->
  exists p', steps n is p p' /\ irun r p' out.
Proof.
  induction is as [|i t IH]; intros p out H; cbn [map app] in H; [exists p; split; [reflexivity|auto]|].
  inversion H; subst. match goal with K : irun (map _ _ ++ _) _ _ |- _ => apply IH in K; destruct K as (p1 & A & B) end.
  exists p1. split; auto. cbn [steps]. eauto.
Qed.
Lemma irun_here n r p out : irun (Here n :: r) p out -> here_ok n p /\ irun r p out.
Proof. intros H; inversion H; auto. Qed.
Lemma irun_out n r p out : irun (Out n :: r) p out -> out_ok n p /\ irun r p out.
Proof. intros H; inversion H; auto. Qed.
Lemma irun_nil p out : irun [] p out -> out = Fin p.
Proof. intros H; inversion H; auto. Qed.
(** Putting runs together. *)
Lemma irun_app a : forall r p p' out, irun a p (Fin p') -> irun r p' out -> irun (a ++ r) p out.
Proof.
  induction a as [|x a IH]; intros r p p' out H K; cbn [app].
  - apply irun_nil in H. injection H as <-. exact K.
  - inversion H; subst; [constructor|constructor|econstructor|econstructor]; eauto.
Qed.
Lemma steps_irun n is : forall p p', steps n is p p' -> irun (map (Ins n) is) p (Fin p').
Proof.
  induction is as [|i t IH]; intros p p' H; cbn [steps map] in *; [subst; constructor|].
  destruct H as (q & A & B & C). econstructor; eauto.
Qed.

(** ** What the instructions keep *)
Definition ground (lst : list Z) (p : pstate) : Prop :=
  wfp p /\ in_frame p /\ shadow_rep (p_mem p) base lst.
Lemma steps_ground n is lst : forall p p', steps n is p p' -> ground lst p -> ground lst p'.
Proof.
  induction is as [|i t IH]; intros p p' H G; cbn [steps] in H; [subst; auto|].
  destruct H as (q & _ & (A & B & C & _) & H). apply (IH q); auto. destruct G as (_ & _ & G).
  split; [auto|]. split; auto.
Qed.
(** A block that cannot reach the return address. *)
Definition slot_safe (b : nat) : Prop :=
  (forall i off x, In i (b_insns (co_block co b)) -> i_frame i = false -> i_wmem i = true ->
     In (AStack off) (i_outs i) -> off <= x < off + width i -> x < -8) /\
  ~ block_has co insn_unknown_write b /\
  (forall e, is_call co b e -> ~ rough_call e).
Lemma safe_stays n i p p' : In i (b_insns (co_block co (snd n))) -> slot_safe (snd n) ->
  step_ok n i p p' -> gone p = false -> gone p' = false.
Proof.
  intros HI (S1 & S2 & S3) (_ & _ & _ & ST) G. destruct (gone p') eqn:G'; auto. exfalso.
  destruct (proj2 (ST G) eq_refl) as (WM & _ & [(F & l & x & L1 & (A1 & A2) & L2)|(e & C & R)]); [|apply (S3 e C R)].
  destruct l as [off| | |]; cbn [covers] in L2; try contradiction.
  - assert (x - cfa < -8); [|lia]. apply (S1 i off (x - cfa)); auto. lia.
  - apply S2. exists i. split; auto. split; auto.
Qed.
Lemma steps_slot n is (ISB : incl is (b_insns (co_block co (snd n)))) :
  slot_safe (snd n) -> (forall x, Whole.slot cfa x -> stk x) ->
  forall p p', steps n is p p' -> gone p = false ->
  gone p' = false /\ forall x, Whole.slot cfa x -> p_mem p' x = p_mem p x.
Proof.
  intros SS ST. pose proof SS as (S1 & S2 & S3). revert ISB. induction is as [|i t IH]; intros ISB p p' H G; cbn [steps] in H; [subst; auto|].
  destruct H as (q & _ & SO & H).
  assert (HI : In i (b_insns (co_block co (snd n)))) by (apply ISB; left; auto).
  pose proof (safe_stays n i p q HI SS SO G) as GQ.
  destruct (IH (fun j K => ISB j (or_intror K)) q p' H GQ) as [GP IHM]. split; [exact GP|]. intros x HX. rewrite (IHM x HX).
  destruct SO as (_ & _ & _ & AD). apply proj1 in AD; [|exact G].
  destruct (Z.eq_dec (p_mem q x) (p_mem p x)) as [E|E]; auto. exfalso.
  destruct (AD x HX E) as [(F1 & F2 & l & L1 & L2)|(e & C & R)]; [|apply (S3 e C R)].
  destruct l as [off| | |]; cbn [covers] in L2; try contradiction.
  - unfold Whole.slot in HX. assert (x - cfa < -8); [|lia].
    apply (S1 i off (x - cfa)); auto. lia.
  - apply S2. exists i. split; auto. split; auto.
  - apply L2. apply ST. exact HX.
Qed.
(** Pushes, and instructions that do not write memory, do not turn a frame wild. *)
Lemma steps_stay n is : Forall entry_passable is -> forall p p', steps n is p p' -> gone p = false -> gone p' = false.
Proof.
  induction is as [|i t IH]; intros F p p' H G; cbn [steps] in H; [subst; auto|]. inversion F as [|? ? F1 F2]; subst.
  destruct H as (q & _ & (_ & _ & _ & SO) & H). apply (IH F2 q p' H).
  destruct (gone q) eqn:E; auto. destruct (proj2 (SO G) eq_refl) as (A & B & _).
  destruct F1 as [K|(_ & K & _)]; congruence.
Qed.
End RUN.

(** ** Shape of the code of a block *)
Lemma placeb_iff a b : placeb a b = true <-> a = b.
Proof. unfold placeb. destruct (place_dec a b); split; intros; congruence. Qed.
Lemma placeb_false a b : placeb a b = false <-> a <> b.
Proof. unfold placeb. destruct (place_dec a b); split; intros; congruence. Qed.
Lemma snips_app a b pl : snips (a ++ b) pl = snips a pl ++ snips b pl.
Proof. unfold snips. rewrite filter_app, map_app. reflexivity. Qed.
Lemma snips_none ss pl : (forall q, In q ss -> fst q <> pl) -> snips ss pl = [].
Proof.
  unfold snips. induction ss as [|q t IH]; intros H; cbn [filter map]; auto.
  replace (placeb (fst q) pl) with false; [apply IH; intros r K; apply H; right; auto|].
  symmetry. apply placeb_false. apply H. left; auto.
Qed.
(** Sites made from a list of blocks. *)
Lemma snips_map {A} (dec : forall x y : A, {x = y} + {x <> y}) (f : A -> place * snip) l pl b :
  (forall c, In c l -> fst (f c) = pl -> c = b) ->
  snips (map f l) pl = if placeb (fst (f b)) pl then repeat (snd (f b)) (count_occ dec l b) else [].
Proof.
  induction l as [|c l IH]; intros H; cbn [map count_occ].
  - destruct (placeb _ _); reflexivity.
  - change (map f l) with (map f l). unfold snips in *. cbn [filter].
    destruct (placeb (fst (f c)) pl) eqn:E.
    + assert (c = b) by (apply H; [left; auto|apply placeb_iff; auto]). subst c. rewrite E in *.
      cbn [map]. destruct (dec b b) as [_|N]; [|congruence]. cbn [repeat]. f_equal. apply IH.
      intros c K. apply H. right; auto.
    + rewrite IH by (intros x K; apply H; right; auto).
      destruct (dec c b) as [->|N]; [rewrite E; reflexivity|reflexivity].
Qed.

Lemma weaveg_app g n a b : weaveg g n (a ++ b) = weaveg g n a ++ weaveg g n b.
Proof. apply flat_map_app. Qed.
Lemma weaveg_ext g h n is : (forall i, In i is -> g (i_addr i) = h (i_addr i)) -> weaveg g n is = weaveg h n is.
Proof.
  unfold weaveg. induction is as [|i t IH]; intros H; cbn [flat_map]; auto.
  rewrite (H i (or_introl eq_refl)). f_equal. apply IH. intros j K. apply H. right; auto.
Qed.
Lemma weaveg_none g n is : (forall i, In i is -> g (i_addr i) = []) -> weaveg g n is = map (Ins n) is.
Proof.
  unfold weaveg. induction is as [|i t IH]; intros H; cbn [flat_map map]; auto.
  rewrite (H i (or_introl eq_refl)). cbn [map app]. f_equal. apply IH. intros j K. apply H. right; auto.
Qed.
Definition at_head (g : Z -> list snip) (is : list insn) : list snip :=
  match is with i :: _ => g (i_addr i) | [] => [] end.
Lemma weaveg_head p q n is : (forall i, In i (tl is) -> p (i_addr i) = []) ->
  weaveg (fun a => p a ++ q a) n is = map Snip (at_head p is) ++ weaveg q n is.
Proof.
  intros H. destruct is as [|i t]; [reflexivity|]. cbn [tl at_head] in *.
  change (weaveg (fun a => p a ++ q a) n (i :: t)) with
    ((map Snip (p (i_addr i) ++ q (i_addr i)) ++ [Ins n i]) ++ weaveg (fun a => p a ++ q a) n t).
  change (weaveg q n (i :: t)) with ((map Snip (q (i_addr i)) ++ [Ins n i]) ++ weaveg q n t).
  rewrite (weaveg_ext (fun a => p a ++ q a) q n t) by (intros j K; rewrite (H j K); reflexivity).
  rewrite map_app, <- !app_assoc. reflexivity.
Qed.
Lemma weaveg_one q n is : (forall i, In i (tl is) -> q (i_addr i) = []) ->
  weaveg q n is = map Snip (at_head q is) ++ map (Ins n) is.
Proof.
  intros H. destruct is as [|i t]; [reflexivity|]. cbn [tl at_head map] in *.
  change (weaveg q n (i :: t)) with ((map Snip (q (i_addr i)) ++ [Ins n i]) ++ weaveg q n t).
  rewrite (weaveg_none q n t H), <- app_assoc. reflexivity.
Qed.

(** The return comes last, if at all. *)
Lemma cut_shape is body tail : block_shape is body tail -> cut is = (body, tail).
Proof.
  intros (-> & NR & TL). induction body as [|i t IH]; cbn [app cut].
  - destruct TL as [->|(r & -> & O)]; [reflexivity|]. cbn [cut].
    replace (isop (i_op r) ORet) with true by (symmetry; apply isop_true; auto). reflexivity.
  - inversion NR as [|? ? H1 H2]; subst. replace (isop (i_op i) ORet) with false by (symmetry; apply isop_false; auto).
    rewrite (IH H2). reflexivity.
Qed.

(** A push before the instructions [rest]; a check before the instructions [C]. *)
Definition push_at (n : node) (pl : place) (A rest : list insn) : Prop :=
  (pl = AtStart n /\ A = []) \/ exists i r, rest = i :: r /\ pl = BeforeInsn n (i_addr i).
Definition pop_at (n : node) (pl : place) (C : list insn) : Prop :=
  (pl = AtEnd n /\ C = []) \/ exists i r, C = i :: r /\ pl = BeforeInsn n (i_addr i).
Definition opt {A} (b : bool) (x : A) : list A := if b then [x] else [].
Definition in_node (n : node) (pl : place) : Prop :=
  pl = AtStart n \/ pl = AtEnd n \/ exists a, pl = BeforeInsn n a.

Lemma nodup_inj (l : list insn) i j : NoDup (map i_addr l) -> In i l -> In j l -> i_addr i = i_addr j -> i = j.
Proof.
  induction l as [|x l IH]; intros N Hi Hj E; [contradiction|]. cbn [map] in N. inversion N as [|? ? N1 N2]; subst.
  destruct Hi as [->|Hi], Hj as [->|Hj]; auto.
  - destruct N1. rewrite E. apply in_map. auto.
  - destruct N1. rewrite <- E. apply in_map. auto.
Qed.
Lemma nodup_app {A} (a b : list A) : NoDup (a ++ b) -> NoDup a /\ NoDup b.
Proof.
  induction a as [|x a IH]; intros H; [split; [constructor|auto]|]. cbn [app] in H. inversion H as [|? ? N1 N2]; subst.
  destruct (IH N2) as [I1 I2]. split; auto. constructor; auto. intros K. apply N1. apply in_or_app; auto.
Qed.
Lemma nodup_app_addr (a b : list insn) i j : NoDup (map i_addr (a ++ b)) -> In i a -> In j b -> i_addr i <> i_addr j.
Proof.
  induction a as [|x a IH]; intros N Hi Hj E; [contradiction|]. cbn [app map] in N. inversion N as [|? ? N1 N2]; subst.
  destruct Hi as [->|Hi]; [|apply (IH N2 Hi Hj E)]. apply N1. rewrite E. apply in_map. apply in_or_app. auto.
Qed.

Lemma node_weave co ss n last body tail np nq P Q A B C :
  block_shape (b_insns (co_block co (snd n))) body tail ->
  NoDup (map i_addr (b_insns (co_block co (snd n)))) ->
  (forall pl, in_node n pl -> snips ss pl =
     opt (np && placeb (fst P) pl) (snd P) ++ opt (nq && placeb (fst Q) pl) (snd Q)) ->
  body = A ++ B ++ C ->
  (np = true -> push_at n (fst P) A (B ++ C)) -> (nq = true -> pop_at n (fst Q) C) ->
  (np = false -> A = []) -> (nq = false -> C = []) ->
  node_items co ss n last =
    Here n :: map (Ins n) A ++ map Snip (opt np (snd P)) ++ map (Ins n) B ++ map Snip (opt nq (snd Q)) ++
    map (Ins n) C ++ (if last then [] else map (Ins n) tail ++ [Out n]).
Proof.
  intros SH ND HS EB HP HQ NP NQ. unfold node_items. rewrite (cut_shape _ _ _ SH). f_equal.
  assert (EI : b_insns (co_block co (snd n)) = (A ++ B ++ C) ++ tail) by (rewrite <- EB; apply SH).
  rewrite EI in ND.
  set (p := fun a => opt (np && placeb (fst P) (BeforeInsn n a)) (snd P)).
  set (q := fun a => opt (nq && placeb (fst Q) (BeforeInsn n a)) (snd Q)).
  assert (G : forall a, snips ss (BeforeInsn n a) = p a ++ q a).
  { intros a. rewrite HS by (right; right; eauto). reflexivity. }
  assert (P0 : forall i, In i ((A ++ B ++ C) ++ tail) -> p (i_addr i) <> [] ->
             exists r, B ++ C = i :: r).
  { intros i Hi H. unfold p in H. destruct np; cbn [andb] in H; [|destruct H; reflexivity].
    destruct (placeb (fst P) (BeforeInsn n (i_addr i))) eqn:E; [|destruct H; reflexivity].
    apply placeb_iff in E. destruct (HP eq_refl) as [(K & _)|(j & r & K & L)]; [congruence|].
    exists r. rewrite K. f_equal. rewrite E in L. injection L as L.
    assert (In j ((A ++ B ++ C) ++ tail)) by (rewrite K; rewrite !in_app_iff; left; right; left; auto).
    symmetry. eapply nodup_inj; eauto. }
  assert (Q0 : forall i, In i ((A ++ B ++ C) ++ tail) -> q (i_addr i) <> [] -> exists r, C = i :: r).
  { intros i Hi H. unfold q in H. destruct nq; cbn [andb] in H; [|destruct H; reflexivity].
    destruct (placeb (fst Q) (BeforeInsn n (i_addr i))) eqn:E; [|destruct H; reflexivity].
    apply placeb_iff in E. destruct (HQ eq_refl) as [(K & _)|(j & r & K & L)]; [congruence|].
    exists r. rewrite K. f_equal. rewrite E in L. injection L as L.
    assert (In j ((A ++ B ++ C) ++ tail)) by (rewrite K; rewrite !in_app_iff; left; right; right; left; auto).
    symmetry. eapply nodup_inj; eauto. }
  assert (DP : forall x : list snip, x = [] \/ x <> []) by (intros [|]; [auto|right; discriminate]).
  assert (NDA : forall i j, In i A -> In j (B ++ C) -> i <> j).
  { intros i j Hi Hj ->. rewrite <- app_assoc in ND. apply (nodup_app_addr A ((B ++ C) ++ tail) j j ND Hi); auto.
    apply in_or_app; auto. }
  assert (NDT : forall i j, In i tail -> In j (A ++ B ++ C) -> i <> j).
  { intros i j Hi Hj ->. apply (nodup_app_addr (A ++ B ++ C) tail j j ND Hj Hi). auto. }
  assert (ND2 : NoDup (map i_addr (B ++ C))).
  { rewrite map_app in ND. apply nodup_app in ND. destruct ND as [ND _]. rewrite map_app in ND. apply nodup_app in ND. apply ND. }
  (* start, end, tail *)
  assert (ST : snips ss (AtStart n) = opt (np && placeb (fst P) (AtStart n)) (snd P)).
  { rewrite HS by (left; auto). replace (nq && placeb (fst Q) (AtStart n))%bool with false; [apply app_nil_r|].
    symmetry. destruct nq; auto. apply placeb_false. destruct (HQ eq_refl) as [(-> & _)|(? & ? & _ & ->)]; discriminate. }
  assert (EN : snips ss (AtEnd n) = opt (nq && placeb (fst Q) (AtEnd n)) (snd Q)).
  { rewrite HS by (right; left; auto). replace (np && placeb (fst P) (AtEnd n))%bool with false; [reflexivity|].
    symmetry. destruct np; auto. apply placeb_false. destruct (HP eq_refl) as [(-> & _)|(? & ? & _ & ->)]; discriminate. }
  assert (TN : forall i, In i tail -> snips ss (BeforeInsn n (i_addr i)) = []).
  { intros i Hi. rewrite G. destruct (DP (p (i_addr i))) as [E|E].
    - rewrite E. destruct (DP (q (i_addr i))) as [F|F]; [rewrite F; auto|]. exfalso.
      destruct (Q0 i) as (r & K); auto; [apply in_or_app; auto|].
      apply (NDT i i Hi); auto. rewrite K, !in_app_iff. right; right; left; auto.
    - exfalso. destruct (P0 i) as (r & K); auto; [apply in_or_app; auto|].
      apply (NDT i i Hi); auto. rewrite K, !in_app_iff. right; left; auto. }
  assert (TW : (if last then flat_map (fun i => map Snip (snips ss (BeforeInsn n (i_addr i)))) tail
                else weave ss n tail ++ [Out n]) = (if last then [] else map (Ins n) tail ++ [Out n])).
  { destruct last.
    - clear - TN. induction tail as [|i t IH]; auto. cbn [flat_map]. rewrite (TN i (or_introl eq_refl)).
      apply IH. intros j K. apply TN. right; auto.
    - unfold weave. rewrite weaveg_none; auto. }
  rewrite TW, EB, ST, EN.
  (* body *)
  assert (WB : weave ss n (A ++ B ++ C) = map (Ins n) A ++ map Snip (at_head p (B ++ C)) ++ map (Ins n) B ++
            map Snip (at_head q C) ++ map (Ins n) C).
  { unfold weave. rewrite (weaveg_ext _ (fun a => p a ++ q a) n) by (intros; apply G). rewrite weaveg_app.
    rewrite weaveg_none.
    2:{ intros i Hi. assert (I1 : In i ((A ++ B ++ C) ++ tail)) by (rewrite !in_app_iff; auto).
        destruct (DP (p (i_addr i))) as [E|E].
        - rewrite E. destruct (DP (q (i_addr i))) as [F|F]; [rewrite F; auto|]. exfalso.
          destruct (Q0 i I1 F) as (r & K). apply (NDA i i Hi); auto. rewrite K, in_app_iff. right; left; auto.
        - exfalso. destruct (P0 i I1 E) as (r & K). apply (NDA i i Hi); auto. rewrite K. left; auto. }
    f_equal. rewrite weaveg_head.
    2:{ intros i Hi. destruct (DP (p (i_addr i))) as [E|E]; auto. exfalso.
        assert (I0 : In i (B ++ C)) by (destruct (B ++ C); [contradiction|right; auto]).
        destruct (P0 i) as (r & K); auto; [rewrite in_app_iff; left; apply in_or_app; auto|].
        rewrite K in *. cbn [tl] in Hi. cbn [map] in ND2. inversion ND2 as [|? ? N1 N2]; subst.
        apply N1. apply in_map. auto. }
    f_equal. rewrite weaveg_app. rewrite weaveg_none.
    2:{ intros i Hi. destruct (DP (q (i_addr i))) as [F|F]; [rewrite F; auto|]. exfalso.
        destruct (Q0 i) as (r & K); auto; [rewrite !in_app_iff; auto|].
        rewrite map_app in ND2. apply (nodup_app_addr B C i i); auto; [rewrite map_app; auto|]. rewrite K. left; auto. }
    f_equal. apply weaveg_one. intros i Hi. destruct (DP (q (i_addr i))) as [F|F]; auto. exfalso.
    assert (I0 : In i C) by (destruct C; [contradiction|right; auto]).
    destruct (Q0 i) as (r & K); auto; [rewrite !in_app_iff; auto|].
    rewrite map_app in ND2. apply nodup_app in ND2. destruct ND2 as [_ ND2]. rewrite K in *. cbn [tl] in Hi. cbn [map] in ND2.
    inversion ND2 as [|? ? N1 N2]; subst. apply N1. apply in_map. auto. }
  rewrite WB.
  assert (HPP : map Snip (opt (np && placeb (fst P) (AtStart n)) (snd P)) ++ map (Ins n) A ++
                map Snip (at_head p (B ++ C)) = map (Ins n) A ++ map Snip (opt np (snd P))).
  { destruct np eqn:EP.
    - cbn [andb]. destruct (HP eq_refl) as [(K & ->)|(i & r & K & L)].
      + rewrite K. replace (placeb (AtStart n) (AtStart n)) with true by (symmetry; apply placeb_iff; auto).
        cbn [map app opt]. replace (at_head p (B ++ C)) with (@nil snip); auto.
        destruct (B ++ C) as [|i r]; auto. cbn [at_head]. unfold p. rewrite K. cbn [andb].
        replace (placeb (AtStart n) (BeforeInsn n (i_addr i))) with false by (symmetry; apply placeb_false; discriminate). reflexivity.
      + rewrite L. replace (placeb (BeforeInsn n (i_addr i)) (AtStart n)) with false by (symmetry; apply placeb_false; discriminate).
        cbn [opt map app]. f_equal. rewrite K. cbn [at_head]. unfold p. rewrite L. cbn [andb].
        replace (placeb (BeforeInsn n (i_addr i)) (BeforeInsn n (i_addr i))) with true by (symmetry; apply placeb_iff; auto).
        reflexivity.
    - cbn [andb opt map app]. rewrite (NP eq_refl). cbn [map app]. destruct (B ++ C); auto. }
  assert (HQQ : map Snip (at_head q C) ++ map (Ins n) C ++ map Snip (opt (nq && placeb (fst Q) (AtEnd n)) (snd Q)) =
                map Snip (opt nq (snd Q)) ++ map (Ins n) C).
  { destruct nq eqn:EQ.
    - cbn [andb]. destruct (HQ eq_refl) as [(K & ->)|(i & r & K & L)].
      + rewrite K. replace (placeb (AtEnd n) (AtEnd n)) with true by (symmetry; apply placeb_iff; auto); reflexivity.
      + rewrite L. replace (placeb (BeforeInsn n (i_addr i)) (AtEnd n)) with false by (symmetry; apply placeb_false; discriminate).
        cbn [opt map app]. rewrite app_nil_r. f_equal. rewrite K. cbn [at_head]. unfold q. rewrite L. cbn [andb].
        replace (placeb (BeforeInsn n (i_addr i)) (BeforeInsn n (i_addr i))) with true by (symmetry; apply placeb_iff; auto).
        reflexivity.
    - rewrite (NQ eq_refl). reflexivity. }
  generalize dependent (if last then [] else map (Ins n) tail ++ [Out n]). intros R _.
  transitivity ((map Snip (opt (np && placeb (fst P) (AtStart n)) (snd P)) ++ map (Ins n) A ++
                map Snip (at_head p (B ++ C))) ++ map (Ins n) B ++
      (map Snip (at_head q C) ++ map (Ins n) C ++ map Snip (opt (nq && placeb (fst Q) (AtEnd n)) (snd Q))) ++ R).
  { rewrite <- !app_assoc. reflexivity. }
  rewrite HPP, HQQ, <- !app_assoc. reflexivity.
Qed.
