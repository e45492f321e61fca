(** * LightSame: the program as it is next to the program instrumented in light mode
    This is not a model of tool code.  Both programs are run in the same way, through calls of any
    depth: the instructions of a function along a path, with the inserted code between them in
    the instrumented program.  What is left out: exceptions, longjmp, signal handlers, other threads,
    and jumps and calls into the middle of functions.  Library code may call back. *)
From Coq Require Import ZArith Bool Lia ZifyBool ZifyNat Arith String List.
From Verif Require Import Machine MachineFacts Jit ShadowSpec JitFacts JitPushPop History.
From Verif Require Import Dfs Binary CallGraph InterProc MemPasses Pipeline RegNames BlockLive
  Reach SafePaths Lowering FastPath Decision P_Instr FullRun Whole P_Whole Sites P_Sites P_SiteUse Order Activation PlanCode ActRun P_Activation
  Follow Tree TreeFacts.
Import ListNotations.
Open Scope Z_scope.
Local Notation mem := Machine.mem.

(** Library code starts at a function, or where a function of the program returns to that it has
    called; it goes on to its return, or to a call of a function of the program, where it has stored
    the address [ra]. *)
Inductive lcode := Start (name : option string) | Resume (ra : Z).
Inductive lnext := Back | Callback (g : nat) (ra : Z).
Section SPEC.
Variables (co : code) (fl : Lowering.flags) (fs : list finfo) (m : sums).
Variables (o : opts) (d : nat -> dead_info).
Variable mp : perm.
Variable base : Z.               (* the shadow stack, with room for [k] addresses *)
Variable k : nat.
Variable X : Type.
Notation pstate := (pst Machine.flags X).
(** An instruction.  A call instruction just stores the return address.  What the program can be seen
    to do, and which way it goes, can be made part of [X]. *)
Variable sem : insn -> pstate -> option pstate.
(** The address after a call instruction. *)
Variable after : insn -> Z.
(** Functions of other libraries: up to their return, or to where they call back. *)
Variable lib : lcode -> pstate -> option (pstate * lnext).

(** Where the end of a block, and a call, may lead to. *)
Inductive turn := ToBlock (b : nat) | ToFun (g : nat) | ToLib (name : option string) | Return.
Inductive callee := Own (g : nat) | Foreign (name : option string).
Variable turns : nat -> X -> turn -> Prop.
Variable dials : nat -> X -> callee -> Prop.

(** ** Both programs *)
(** A run is over, or it is looked at no further, or inserted code traps or faults. *)
Inductive fin := Ended (p : pstate) | Paused (x : X) | Tripped (x : X).
Definition unfinished (z : fin) : Prop := match z with Ended _ => False | _ => True end.
(** Running a function: the function, the return address stored, the state at its entry. *)
Definition caller : Type := nat -> Z -> pstate -> fin -> Prop.
(** Library code, with what it calls back. *)
Inductive lrun (A : caller) : lcode -> pstate -> fin -> Prop :=
| lr_back c p q : lib c p = Some (q, Back) -> lrun A c p (Ended q)
| lr_call c p p1 g ra q z : lib c p = Some (p1, Callback g ra) -> own co g -> A g ra p1 (Ended q) -> lrun A (Resume ra) q z -> lrun A c p z
| lr_inner c p p1 g ra z : lib c p = Some (p1, Callback g ra) -> own co g -> unfinished z -> A g ra p1 z -> lrun A c p z.
(** A call by instruction [i] of block [n]. *)
Definition through (A : caller) (n : node) (i : insn) (p : pstate) (z : fin) : Prop :=
  exists e p1, is_call co (snd n) e /\ sem i p = Some p1 /\
    ((exists g, goes_to co e g /\ dials (snd n) (p_rest p1) (Own g) /\ A g (after i) p1 z) \/
     (exists name, goes_out co e name /\ dials (snd n) (p_rest p1) (Foreign name) /\ lrun A (Start name) p1 z)).
(** The block entered next. *)
Fixpoint entering (its : list item) : option nat :=
  match its with [] => None | Here n :: _ => Some (snd n) | _ :: r => entering r end.
Definition may_enter (n : node) (r : list item) (p : pstate) : Prop :=
  forall b, entering r = Some b -> turns (snd n) (p_rest p) (ToBlock b).
Definition fails (sn : snip) (p : pstate) : Prop :=
  snip_code o sn = None \/
  exists c, snip_code o sn = Some c /\ (exec c mp (as_state X base p) Trap \/ exec c mp (as_state X base p) Fault).
Inductive trun (A : caller) : list item -> pstate -> fin -> Prop :=
| t_end p : trun A [] p (Ended p)
| t_pause n i r p : trun A (Ins n i :: r) p (Paused (p_rest p))
| t_here n r p z : trun A r p z -> trun A (Here n :: r) p z
| t_out n r p z : may_enter n r p -> trun A r p z -> trun A (Out n :: r) p z
| t_ins n i r p p' z : i_op i <> OCall -> sem i p = Some p' -> trun A r p' z -> trun A (Ins n i :: r) p z
| t_call n i r p q z : i_op i = OCall -> through A n i p (Ended q) -> trun A r q z -> trun A (Ins n i :: r) p z
| t_inner n i r p z : i_op i = OCall -> unfinished z -> through A n i p z -> trun A (Ins n i :: r) p z
| t_snip sn c u r p z : snip_code o sn = Some c -> exec c mp (as_state X base p) (Done u) ->
    trun A r (of_state X u p) z -> trun A (Snip sn :: r) p z
| t_trip sn r p : fails sn p -> trun A (Snip sn :: r) p (Tripped (p_rest p)).
(** The end of a function: its return, or a jump to another function. *)
Inductive leaves (T : caller) (last : nat) (ra : Z) : fin -> fin -> Prop :=
| l_pause z : unfinished z -> leaves T last ra z z
| l_ret p : is_ret co last -> turns last (p_rest p) Return -> word_at X p = ra -> leaves T last ra (Ended p) (Ended (popped X p))
| l_tail p e g z : is_tail co last e -> goes_to co e g -> turns last (p_rest p) (ToFun g) -> T g ra p z -> leaves T last ra (Ended p) z
| l_tail_lib p e name z : is_tail co last e -> goes_out co e name -> turns last (p_rest p) (ToLib name) -> lrun T (Start name) p z ->
    leaves T last ra (Ended p) z.
(** The code that is run along a path: of the program as it is, and of the instrumented one. *)
Definition code_of (touched : bool) (g : nat) (ks : list nat) : option (list item) :=
  let p := planned co fl m fs g in
  if touched then plan_items co (plan_sites co fl o (d g) (m g) g p) g p ks else plan_items co [] g Untouched ks.
(** [h] bounds the nesting of calls and jumps. *)
Fixpoint call (touched : bool) (h : nat) (g : nat) (ra : Z) (p : pstate) (z : fin) : Prop :=
  match h with
  | O => z = Paused (p_rest p)
  | S h' => exists ks path last items z0,
      orig_blocks co (f_entry (co_fun co g)) ks = Some (path ++ [last]) /\ no_catch co (f_entry (co_fun co g)) ks /\
      code_of touched g ks = Some items /\
      trun (call touched h') items p z0 /\ leaves (call touched h') last ra z0 z
  end.

(** ** Programs that do not notice *)
(** Bytes whose value matters and bytes written whatever was there before. *)
Variables loads stores : insn -> pstate -> Z -> Prop.
Variables lloads lstores : lcode -> pstate -> Z -> Prop.
(** The instruction sets the flags whatever they were. *)
Variable fsets : insn -> bool.
Definition reserved (a : Z) : Prop := inside base (32 + 8 * Z.of_nat k) a.
Definition plus (C D : Z -> Prop) (a : Z) : Prop := C a \/ D a.
Definition less (C : Z -> Prop) (lo n : Z) (a : Z) : Prop := C a /\ ~ inside lo n a.

(** A run of the program as it is, along the items of the instrumented code, in a frame from [lo] to
    [cfa].  [C] are the bytes that are as in the instrumented program, [fi] says that the flags may not
    be.  The program uses neither other bytes nor such flags; it does not write to the shadow stack;
    it leaves the return address alone; the stack analysis is right.  [cs]: what the calls lead to. *)
Inductive qfin := QEnd (p : pstate) (C : Z -> Prop) | QPause (x : X).
Definition qcaller : Type := nat -> Z -> Z -> Z -> (Z -> Prop) -> pstate -> qfin -> Prop.
Definition lib_fine (c : lcode) (C : Z -> Prop) (p q : pstate) (x : lnext) : Prop :=
  lib c p = Some (q, x) /\ (forall a, lloads c p a -> C a) /\ (forall a, lstores c p a -> ~ reserved a).
(** Library code entered with its return address at [sp]: what it calls back has its frame below. *)
Inductive qlrun (A : qcaller) (sp : Z) : (Z -> Prop) -> lcode -> pstate -> qfin -> Prop :=
| qr_back C c p q : lib_fine c C p q Back -> p_rg q RSP = sp + 8 -> qlrun A sp C c p (QEnd q (plus C (lstores c p)))
| qr_call C c p p1 g ra lo q D z : lib_fine c C p p1 (Callback g ra) -> own co g -> p_rg p1 RSP + 8 <= sp ->
    A g lo (p_rg p1 RSP + 8) ra (plus C (lstores c p)) p1 (QEnd q D) -> qlrun A sp D (Resume ra) q z -> qlrun A sp C c p z
| qr_inner C c p p1 g ra lo x : lib_fine c C p p1 (Callback g ra) -> own co g -> p_rg p1 RSP + 8 <= sp ->
    A g lo (p_rg p1 RSP + 8) ra (plus C (lstores c p)) p1 (QPause x) -> qlrun A sp C c p (QPause x).
Definition asks (fi : bool) (C : Z -> Prop) (i : insn) (p : pstate) : Prop :=
  (fi = true -> flagless i) /\ (forall a, loads i p a -> C a) /\ (forall a, stores i p a -> ~ reserved a).
Definition is_check (sn : snip) : bool := match sn with StackPop _ | RegPop _ => true | _ => false end.
Definition keeps_slot (cfa : Z) (p p' : pstate) : Prop := forall x, Whole.slot cfa x -> p_mem p' x = p_mem p x.
Inductive qthrough (A : qcaller) (C : Z -> Prop) (n : node) (i : insn) (p : pstate) : qfin -> Prop :=
| qt_own e p1 g lo z : is_call co (snd n) e -> sem i p = Some p1 -> goes_to co e g -> dials (snd n) (p_rest p1) (Own g) ->
    A g lo (p_rg p RSP) (after i) (plus C (stores i p)) p1 z -> qthrough A C n i p z
| qt_lib e p1 name z : is_call co (snd n) e -> sem i p = Some p1 -> goes_out co e name -> dials (snd n) (p_rest p1) (Foreign name) ->
    qlrun A (p_rg p1 RSP) (plus C (stores i p)) (Start name) p1 z -> qthrough A C n i p z.
Inductive qrun (A : qcaller) (lo cfa : Z) : (Z -> Prop) -> bool -> list item -> pstate -> list (pstate * (Z -> Prop)) -> qfin -> Prop :=
| q_end C fi p : qrun A lo cfa C fi [] p [] (QEnd p C)
| q_pause C fi n i r p : qrun A lo cfa C fi (Ins n i :: r) p [] (QPause (p_rest p))
| q_here C fi n r p cs z : here_ok X co cfa steady n p -> qrun A lo cfa C fi r p cs z -> qrun A lo cfa C fi (Here n :: r) p cs z
| q_out C fi n r p cs z : out_ok X co cfa steady n p -> may_enter n r p -> qrun A lo cfa C fi r p cs z -> qrun A lo cfa C fi (Out n :: r) p cs z
| q_ins C fi n i r p p' cs z : i_op i <> OCall -> sem i p = Some p' -> asks fi C i p ->
    lo + 16 <= p_rg p' RSP <= cfa - 8 -> keeps_slot cfa p p' ->
    qrun A lo cfa (plus C (stores i p)) (fi && negb (fsets i)) r p' cs z -> qrun A lo cfa C fi (Ins n i :: r) p cs z
| q_call C fi n i r p q C2 cs z : i_op i = OCall -> asks fi C i p -> qthrough A C n i p (QEnd q C2) -> keeps_slot cfa p q ->
    qrun A lo cfa C2 true r q cs z -> qrun A lo cfa C fi (Ins n i :: r) p ((q, C2) :: cs) z
| q_inner C fi n i r p x : i_op i = OCall -> asks fi C i p -> qthrough A C n i p (QPause x) ->
    qrun A lo cfa C fi (Ins n i :: r) p [] (QPause x)
(* Inserted code leaves some bytes below rsp changed; a check runs when only pops separate rsp from the
   return address, and leaves the flags changed. *)
| q_snip C fi sn r p cs z : (is_check sn = true -> p_rg p RSP + pops (left_of r) = cfa - 8) ->
    qrun A lo cfa (less C (p_rg p RSP - snip_scratch sn) (snip_scratch sn)) (fi || is_check sn) r p cs z ->
    qrun A lo cfa C fi (Snip sn :: r) p cs z.
Inductive qleaves (T : qcaller) (last : nat) (cfa ra : Z) : qfin -> qfin -> Prop :=
| ql_pause x : qleaves T last cfa ra (QPause x) (QPause x)
| ql_ret p C : is_ret co last -> turns last (p_rest p) Return -> p_rg p RSP = cfa - 8 -> qleaves T last cfa ra (QEnd p C) (QEnd (popped X p) C)
| ql_tail p C e g lo z : is_tail co last e -> goes_to co e g -> turns last (p_rest p) (ToFun g) -> p_rg p RSP = cfa - 8 -> T g lo cfa ra C p z ->
    qleaves T last cfa ra (QEnd p C) z
| ql_tail_lib p C e name z : is_tail co last e -> goes_out co e name -> turns last (p_rest p) (ToLib name) -> p_rg p RSP = cfa - 8 ->
    qlrun T (p_rg p RSP) C (Start name) p z -> qleaves T last cfa ra (QEnd p C) z.
(** There is room on the stack and, with [n] calls active, on the shadow stack. *)
Definition has_space (g : nat) (lo cfa : Z) : Prop :=
  lo + 24 <= cfa < W /\ exists hi, room co g X mp base lo cfa hi (fun _ => True) steady k.
Fixpoint quiet (h n : nat) (g : nat) (lo cfa ra : Z) (C : Z -> Prop) (p : pstate) (z : qfin) : Prop :=
  match h with
  | O => z = QPause (p_rest p)
  | S h' => (n < k)%nat /\ has_space g lo cfa /\
      exists ks path last items cs z0,
        orig_blocks co (f_entry (co_fun co g)) ks = Some (path ++ [last]) /\ no_catch co (f_entry (co_fun co g)) ks /\
        code_of true g ks = Some items /\
        qrun (quiet h' (S n)) lo cfa C true items p cs z0 /\ qleaves (quiet h' n) last cfa ra z0 z
  end.

(** ** What is assumed of instructions and library functions *)
Record machine_ok : Prop := {
  mo_stack : stack_facts sem;
  mo_foot : footprint X sem sem loads stores (fun _ _ _ => False) fsets (fun _ => false);
  mo_stores : forall i s t fi, looks_same X loads i fi s t -> forall a, stores i t a -> stores i s a;
  mo_frame : forall i p p' a, sem i p = Some p' -> ~ stores i p a -> p_mem p' a = p_mem p a;
  mo_unwritten : keeps_unwritten sem;
  mo_wf : forall i p p', wfp X p -> sem i p = Some p' -> wfp X p';
  mo_after : forall i, 0 < after i < W;
  mo_call : forall i p p', i_op i = OCall -> sem i p = Some p' ->
    p_rg p' RSP = p_rg p RSP - 8 /\ load64 (p_mem p') (p_rg p RSP - 8) = after i /\
    forall a, inside (p_rg p RSP - 8) 8 a -> stores i p a }.
(** Registers, the bytes of [C], and the rest are the same. *)
Definition alike (C : Z -> Prop) (s t : pstate) : Prop :=
  (forall r, p_rg s r = p_rg t r) /\ (forall a, C a -> p_mem s a = p_mem t a) /\ p_rest s = p_rest t.
Record library_ok : Prop := {
  lo_foot : forall c s t s' x, alike (lloads c s) s t -> lib c s = Some (s', x) ->
    exists t', lib c t = Some (t', x) /\ (forall r, p_rg s' r = p_rg t' r) /\ p_rest s' = p_rest t' /\
      (forall a, lstores c s a \/ p_mem s a = p_mem t a -> p_mem s' a = p_mem t' a) /\
      (forall a, ~ lstores c s a -> p_mem t' a = p_mem t a);
  lo_wf : forall c p p' x, wfp X p -> lib c p = Some (p', x) -> wfp X p';
  lo_call : forall c p p' g ra, lib c p = Some (p', Callback g ra) ->
    0 < ra < W /\ load64 (p_mem p') (p_rg p' RSP) = ra /\ forall a, inside (p_rg p' RSP) 8 a -> lstores c p a }.
End SPEC.
Arguments Ended {X}. Arguments Paused {X}. Arguments Tripped {X}. Arguments unfinished {X}. Arguments QEnd {X}. Arguments QPause {X}.

(** ** The program as it is, from the items of the instrumented code *)
Definition erase (its : list item) : list item :=
  flat_map (fun x => match x with
    | Snip _ => []
    | Here n => [Here (false, snd n)] | Ins n i => [Ins (false, snd n) i] | Out n => [Out (false, snd n)]
    end) its.
Lemma erase_app a b : erase (a ++ b) = erase a ++ erase b.
Proof. apply flat_map_app. Qed.
Lemma entering_erase its : entering (erase its) = entering its.
Proof. induction its as [|[n|n i|sn|n] r IH]; cbn; auto. Qed.
Lemma erase_snips l : erase (map Snip l) = [].
Proof. induction l; auto. Qed.
Lemma erase_weave ss n is : erase (weave ss n is) = weave [] (false, snd n) is.
Proof.
  unfold weave, weaveg. induction is as [|i t IH]; [reflexivity|]. cbn [flat_map]. rewrite !erase_app, erase_snips, IH. reflexivity.
Qed.
Lemma snips_nil pl : snips [] pl = [].
Proof. reflexivity. Qed.
Lemma erase_tl (ss : list (place * snip)) n tl : erase (flat_map (fun i => map Snip (snips ss (BeforeInsn n (i_addr i)))) tl) = [].
Proof. induction tl as [|i t IH]; [reflexivity|]. cbn [flat_map]. rewrite erase_app, erase_snips, IH. reflexivity. Qed.
Lemma nil_tl n tl : flat_map (fun i : insn => map Snip (snips [] (BeforeInsn n (i_addr i)))) tl = [].
Proof. induction tl as [|i t IH]; [reflexivity|]. cbn [flat_map]. rewrite IH. reflexivity. Qed.
Lemma erase_node co ss n last : erase (node_items co ss n last) = node_items co [] (false, snd n) last.
Proof.
  unfold node_items. cbn [snd]. destruct (cut (b_insns (co_block co (snd n)))) as [bd tl].
  change (Here n :: ?l) with ([Here n] ++ l). change (Here (false, snd n) :: ?l) with ([Here (false, snd n)] ++ l).
  rewrite !erase_app, !erase_snips, erase_weave. cbn [erase flat_map app].
  rewrite !snips_nil. cbn [map app]. f_equal. f_equal.
  destruct last; [rewrite erase_tl, nil_tl; reflexivity|]. rewrite erase_app, erase_weave. reflexivity.
Qed.
Definition unclone (sg : seg) : seg := ((false, snd (fst sg)), snd sg).
Lemma erase_seg co ss sg : erase (seg_items co ss sg) = seg_items co [] (unclone sg).
Proof.
  destruct sg as [n [k|]]; cbn [seg_items unclone fst snd]; [|apply erase_node].
  rewrite erase_app, erase_node, snips_nil. f_equal. destruct (fst n); [reflexivity|apply erase_snips].
Qed.
Lemma segs_unclone co p : forall ks n sl, segs co p n ks = Some sl ->
  segs co Untouched (false, snd n) ks = Some (map unclone sl).
Proof.
  induction ks as [|k r IH]; intros n sl H; cbn [segs] in *; [injection H as <-; reflexivity|]. cbn [snd].
  destruct (nth_error _ _) as [e|]; [|discriminate]. destruct (_ || _)%bool; [discriminate|].
  destruct (segs co p (next p n k e) r) as [sl'|] eqn:E; [|discriminate]. injection H as <-.
  apply IH in E. rewrite next_trg in E. cbn [next]. rewrite E. reflexivity.
Qed.
Lemma erase_plan co ss fn p ks items : plan_items co ss fn p ks = Some items ->
  plan_items co [] fn Untouched ks = Some (erase items).
Proof.
  intros H.
  assert (H2 : option_map (fun l => map Snip (snips ss AtEntry) ++ flat_map (seg_items co ss) l)
           (segs co p (false, f_entry (co_fun co fn)) ks) = Some items) by (unfold plan_items in H; destruct p; try discriminate; exact H).
  destruct (segs co p _ ks) as [sl|] eqn:E; [|discriminate]. injection H2 as <-.
  apply segs_unclone in E. cbn [snd] in E. unfold plan_items. rewrite E. cbn [option_map]. f_equal.
  rewrite erase_app, erase_snips, snips_nil. cbn [map app]. clear. induction sl as [|x sl IH]; [reflexivity|].
  cbn [map flat_map]. rewrite erase_app, erase_seg, IH. reflexivity.
Qed.

(** ** Calls come last in their blocks *)
Fixpoint calls_last (its : list item) : Prop :=
  match its with
  | [] => True
  | Ins _ i :: r => (i_op i = OCall -> block_rest r = []) /\ calls_last r
  | _ :: r => calls_last r
  end.
Definition call_ends (is : list insn) : Prop := forall a i b, is = a ++ i :: b -> i_op i = OCall -> b = [].
Lemma call_ends_app a b : call_ends (a ++ b) -> call_ends b.
Proof. intros H x i y -> O. apply (H (a ++ x) i y); [rewrite app_assoc; reflexivity|exact O]. Qed.
Lemma rest_weave ss n is r : block_rest (weave ss n is ++ r) = is ++ block_rest r.
Proof.
  unfold weave, weaveg. induction is as [|i t IH]; [reflexivity|]. cbn [flat_map]. rewrite <- !app_assoc, rest_snip.
  cbn [app block_rest]. rewrite IH. reflexivity.
Qed.
Lemma calls_snips l r : calls_last (map Snip l ++ r) <-> calls_last r.
Proof. induction l; [reflexivity|exact IHl]. Qed.
Lemma calls_weave ss n is r : call_ends (is ++ block_rest r) -> calls_last r -> calls_last (weave ss n is ++ r).
Proof.
  unfold weave, weaveg. induction is as [|i t IH]; intros CE CL; [exact CL|]. cbn [flat_map]. rewrite <- !app_assoc. apply calls_snips.
  cbn [app calls_last]. split.
  - intros O. change (block_rest (weave ss n t ++ r) = []). rewrite rest_weave. apply (CE [] i (t ++ block_rest r)); auto.
  - apply IH; [|exact CL]. apply (call_ends_app [i]). exact CE.
Qed.
Lemma cut_parts is : fst (cut is) ++ snd (cut is) = is.
Proof. induction is as [|i t IH]; [reflexivity|]. cbn [cut]. destruct (isop _ _); [reflexivity|]. cbn [fst snd app]. rewrite IH. reflexivity. Qed.
Lemma call_ends_pre a b : call_ends (a ++ b) -> call_ends a.
Proof.
  intros H x i y -> O. specialize (H x i (y ++ b)). rewrite <- app_assoc in H. specialize (H eq_refl O).
  destruct y; [reflexivity|discriminate].
Qed.
Lemma rest_tl ss n (tl : list insn) : block_rest (flat_map (fun i => map Snip (snips ss (BeforeInsn n (i_addr i)))) tl) = [].
Proof. induction tl as [|i t IH]; [reflexivity|]. cbn [flat_map]. rewrite rest_snip. exact IH. Qed.
Lemma calls_tl ss n (tl : list insn) : calls_last (flat_map (fun i => map Snip (snips ss (BeforeInsn n (i_addr i)))) tl).
Proof. induction tl as [|i t IH]; [exact I|]. cbn [flat_map]. apply calls_snips. exact IH. Qed.
Lemma calls_node co ss n last r : call_ends (b_insns (co_block co (snd n))) -> (last = true -> r = []) -> calls_last r ->
  calls_last (node_items co ss n last ++ r).
Proof.
  intros CE LR CR. unfold node_items. pose proof (cut_parts (b_insns (co_block co (snd n)))) as CP.
  destruct (cut (b_insns (co_block co (snd n)))) as [bd tl]. cbn [fst snd] in CP. rewrite <- CP in CE.
  cbn [app calls_last]. rewrite <- !app_assoc. apply calls_snips. destruct last.
  - rewrite (LR eq_refl), !app_nil_r. apply calls_weave; [|apply calls_snips; apply calls_tl].
    rewrite rest_snip, rest_tl, app_nil_r. eapply call_ends_pre; exact CE.
  - apply calls_weave.
    + rewrite rest_snip, <- app_assoc, rest_weave. cbn [app block_rest]. rewrite app_nil_r. exact CE.
    + apply calls_snips. rewrite <- app_assoc. apply calls_weave; [|exact CR]. cbn [app block_rest]. rewrite app_nil_r.
      eapply call_ends_app; exact CE.
Qed.
Lemma calls_segs co ss p : forall ks n sl, segs co p n ks = Some sl ->
  (forall x, In x sl -> call_ends (b_insns (co_block co (snd (fst x))))) -> calls_last (flat_map (seg_items co ss) sl).
Proof.
  induction ks as [|k r IH]; intros n sl H CE; cbn [segs] in H.
  - injection H as <-. cbn [flat_map seg_items]. apply calls_node; [apply (CE (n, None)); left; reflexivity|reflexivity|exact I].
  - destruct (nth_error _ _) as [e|]; [|discriminate]. destruct (_ || _)%bool; [discriminate|].
    destruct (segs co p (next p n k e) r) as [sl'|] eqn:E; [|discriminate]. injection H as <-.
    cbn [flat_map seg_items]. rewrite <- app_assoc. apply calls_node; [apply (CE (n, Some k)); left; reflexivity|discriminate|].
    assert (K : calls_last (flat_map (seg_items co ss) sl')) by (eapply IH; [exact E|intros x Hx; apply CE; right; exact Hx]).
    destruct (fst n); [exact K|apply calls_snips; exact K].
Qed.
