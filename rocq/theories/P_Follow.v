(** * Properties C73 and C74: light mode leaves the program as it was *)
From Coq Require Import ZArith Bool Lia ZifyBool ZifyNat Arith String List.
From Verif Require Import Machine MachineFacts Jit ShadowSpec JitFacts JitPushPop History Witness.
From Verif Require Import Dfs Binary CallGraph InterProc MemPasses Pipeline RegNames BlockLive ExSem
  Reach SafePaths Lowering P_Lower FastPath Decision P_Instr FullRun Whole P_Whole Sites SiteEx P_Sites
  Order Activation PlanCode ActRun P_Activation Follow.
Import ListNotations.
Open Scope Z_scope.
Local Notation mem := Machine.mem.

(** The instrumented call ends, so the call of the program as it is ends, and in the same state but
    for bytes that the inserted code leaves behind.
    Partial: frames on the shadow stack, without --optimize_regs (with it the claim is false, C59);
    a word of zero at the check; the flags at the end are not covered. *)
Theorem C73_same_program_partial : forall co fl fs m width,
  parsed co fs -> (forall k, within co fl width k) -> fl_light fl = true -> run_light co = Ok m ->
  forall fn, own co fn -> can_return fs fn = true -> analysed co m fn -> tidy co fn ->
  let p := planned co fl m fs fn in on_reg p = false ->
  forall o d, plain o -> o_optimize_regs o = false ->
  forall ks l b, orig_blocks co (f_entry (co_fun co fn)) ks = Some (l ++ [b]) ->
  (is_ret co b \/ exists e, is_tail co b e) -> no_catch co (f_entry (co_fun co fn)) ks ->
  forall items, plan_items co (plan_sites co fl o d (m fn) fn p) fn p ks = Some items ->
  left_of items = path_insns co (l ++ [b]) /\
  forall X sem sem' loads stores spoils fsets fspoils, footprint X sem sem' loads stores spoils fsets fspoils ->
  forall mp base lo cfa hi stk sc k, stack_facts sem' -> room co fn X mp base lo cfa hi stk sc k ->
  forall l0 (p0 : pst Machine.flags X), (List.length l0 < k)%nat ->
  ground X base lo cfa sc l0 p0 -> wild sc (p_rest p0) = false -> p_rg p0 RSP = cfa - 8 ->
  unseen X sem loads stores spoils fsets fspoils base l0 (fun _ => True) false items p0 ->
  forall p1, irun X co sem' mp o base lo cfa width stk (harmless co) sc items p0 (Fin X p1) ->
  (load64 (p_mem p1) (p_rg p1 RSP) = 0 /\ unwind 0 (load64 (p_mem p0) (cfa - 8) :: l0) = None) \/
  exists r0, prun sem (path_insns co (l ++ [b])) p0 = Some r0 /\
    (forall r, p_rg r0 r = p_rg p1 r) /\ p_rest r0 = p_rest p1 /\
    forall a, settled X sem stores spoils base l0 (fun _ => True) items p0 a -> p_mem r0 a = p_mem p1 a.
Proof.
  intros co fl fs m width PA SU LI RL fn HF CR AN TIDY p NREG o d PL NO ks l b OB LASTB NC items IT.
  assert (PLAN : Decision.instr fl co fn (Some (m fn)) = p).
  { unfold p. rewrite (planned_at co fl fs m PA fn HF), CR, (analyses_at co fl fs m PA fn (proj1 HF) LI). reflexivity. }
  destruct (p_fn _ _ PA fn HF) as (FO & CO & RW).
  assert (TE : terminal_exits co fn) by (apply (SU Exits); auto).
  assert (NA : p <> PAbort) by (intros K; rewrite K in IT; discriminate).
  assert (NF : p <> PNoFuel) by (intros K; rewrite K in IT; discriminate).
  assert (GE : good_dead o (di_entry d)) by (left; exact NO).
  assert (GX : forall a x, zfind (di_exit d) a = Some x -> good_dead o x) by (left; exact NO).
  destruct (items_code co m fn fl o d p AN FO TE PLAN NREG PL GE GX TIDY ks items _ IT NA NF OB) as [SS LO].
  pose proof (items_dead co m fn fl o d p AN FO TE PLAN NREG PL GE GX TIDY NO ks items IT NA NF) as DF.
  split; [exact LO|].
  intros X sem sem' loads stores spoils fsets fspoils FP mp base lo cfa hi stk sc k SF RM l0 p0 DEP G TM RS US p1 IR.
  destruct (activation_at co fl fs m width) with (fn := fn) (o := o) (d := d) (ks := ks) (l := l) (b := b)
    (items := items) (X := X) (sem := sem') (mp := mp) (base := base) (lo := lo) (cfa := cfa) (hi := hi) (stk := stk) (sc := sc)
    (k := k) (ra := load64 (p_mem p0) (cfa - 8)) (l0 := l0) (p0 := p0) (out := Fin X p1) as [K|(_ & D & _)]; auto.
  { left. edestruct nulled_end as (p1' & E1 & E2); [..|exact K|exact IR|]; eauto. injection E1 as <-. exact E2. }
  right. rewrite <- LO.
  eapply (follow co o X sem sem' loads stores spoils fsets fspoils FP); eauto.
  split; [auto|]. split; [auto|]. auto.
Qed.
Print Assumptions C73_same_program_partial.

(** The call of the program as it is ends with rsp at the return address.  Then the instrumented
    call ends too, in the same state but for bytes that the inserted code leaves behind; or it is
    stopped, and the return address has indeed been changed.
    Partial: as C73. *)
Theorem C74_same_result_partial : forall co fl fs m width,
  parsed co fs -> (forall k, within co fl width k) -> fl_light fl = true -> run_light co = Ok m ->
  forall fn, own co fn -> can_return fs fn = true -> analysed co m fn -> tidy co fn ->
  let p := planned co fl m fs fn in on_reg p = false ->
  forall o d, plain o -> o_optimize_regs o = false ->
  forall ks l b, orig_blocks co (f_entry (co_fun co fn)) ks = Some (l ++ [b]) ->
  (is_ret co b \/ exists e, is_tail co b e) -> no_catch co (f_entry (co_fun co fn)) ks ->
  forall items, plan_items co (plan_sites co fl o d (m fn) fn p) fn p ks = Some items ->
  forall X sem sem' loads stores spoils fsets fspoils, footprint X sem sem' loads stores spoils fsets fspoils ->
  forall mp base lo cfa hi stk k, stack_facts sem -> stack_facts sem' -> room co fn X mp base lo cfa hi stk steady k ->
  tame X sem sem' loads stores spoils base cfa k ->
  forall l0 (p0 r0 : pst Machine.flags X), (List.length l0 < k)%nat ->
  ground X base lo cfa steady l0 p0 -> p_rg p0 RSP = cfa - 8 ->
  unseen X sem loads stores spoils fsets fspoils base l0 (fun _ => True) false items p0 ->
  clear_of X sem stores base k items p0 ->
  irun X co sem mp o base lo cfa width stk (harmless co) steady (program_of items) p0 (Fin X r0) -> p_rg r0 RSP = cfa - 8 ->
  load64 (p_mem r0) (cfa - 8) <> 0 ->
  exists out, irun X co sem' mp o base lo cfa width stk (harmless co) steady items p0 out /\
  match out with
  | Fin _ p1 => (forall r, p_rg r0 r = p_rg p1 r) /\ p_rest r0 = p_rest p1 /\
      forall a, settled X sem stores spoils base l0 (fun _ => True) items p0 a -> p_mem r0 a = p_mem p1 a
  | Stopped _ _ _ => load64 (p_mem r0) (cfa - 8) <> load64 (p_mem p0) (cfa - 8)
  | Crashed _ _ _ => False
  end.
Proof.
  intros co fl fs m width PA SU LI RL fn HF CR AN TIDY p NREG o d PL NO ks l b OB LASTB NC items IT
    X sem sem' loads stores spoils fsets fspoils FP mp base lo cfa hi stk k SF SF' RM TM l0 p0 r0 DEP G RS US CL OR RE NZ.
  assert (PLAN : Decision.instr fl co fn (Some (m fn)) = p).
  { unfold p. rewrite (planned_at co fl fs m PA fn HF), CR, (analyses_at co fl fs m PA fn (proj1 HF) LI). reflexivity. }
  destruct (p_fn _ _ PA fn HF) as (FO & CO & RW).
  assert (TE : terminal_exits co fn) by (apply (SU Exits); auto).
  assert (NA : p <> PAbort) by (intros K; rewrite K in IT; discriminate).
  assert (NF : p <> PNoFuel) by (intros K; rewrite K in IT; discriminate).
  assert (GE : good_dead o (di_entry d)) by (left; exact NO).
  assert (GX : forall a x, zfind (di_exit d) a = Some x -> good_dead o x) by (left; exact NO).
  destruct (items_code co m fn fl o d p AN FO TE PLAN NREG PL GE GX TIDY ks items _ IT NA NF OB) as [SS LO].
  pose proof (items_dead co m fn fl o d p AN FO TE PLAN NREG PL GE GX TIDY NO ks items IT NA NF) as DF.
  set (gd := along co o X sem loads stores spoils fsets fspoils mp base lo cfa width stk (harmless co) k l0 r0).
  assert (G0 : gd items p0).
  { exists (fun _ => True), false, p0, l0. split; [exact OR|]. split; [exact US|]. split; [exact CL|].
    split; [split; [auto|split; auto]|]. split; [exact DF|]. split; [exact SS|]. split; [auto|]. split; [exact G|lia]. }
  assert (AL : forall a r st st', gd (a ++ r) st ->
     drun co o X sem' mp base lo cfa width stk (harmless co) steady k l0 a st st' -> gd r st').
  { intros a r st st'. eapply along_app; eauto; try apply FO. }
  assert (WORD : forall st r, checked co o X sem' mp base lo cfa width stk (harmless co) steady k l0 items p0 st r ->
     return_word X st r = load64 (p_mem r0) (cfa - 8)).
  { intros st r (a & q & EI & D & E1 & E2).
    assert (GR : gd (Snip (StackPop q) :: r) st) by (eapply AL; [rewrite <- EI; exact G0|exact D]).
    change (return_word X st r) with (return_word X st (Snip (StackPop q) :: r)).
    eapply along_word; [exact DEP|exact SF|exact GR|exact E1|exact E2|exact RE]. }
  destruct (activation_goes co fl fs m width) with (fn := fn) (o := o) (d := d) (ks := ks) (l := l) (b := b)
    (items := items) (X := X) (sem := sem') (mp := mp) (base := base) (lo := lo) (cfa := cfa) (hi := hi) (stk := stk) (sc := @steady X)
    (k := k) (ra := load64 (p_mem p0) (cfa - 8)) (l0 := l0) (p0 := p0) (good := gd) as [(st & r & CK & W & _)|(out & I1 & I2 & I3)]; auto.
  - intros n r st. apply along_here.
  - intros n r st. apply along_out.
  - intros n i r st. eapply along_ins; eauto.
  - intros sn r st st' K D. exact (AL [Snip sn] r st st' K D).
  - exfalso. apply NZ. rewrite <- (WORD st r CK). exact W.
  - exists out. split; [exact I1|]. destruct out as [p1|st r|st r]; [| |exact I2].
    + destruct (follow co o X sem sem' loads stores spoils fsets fspoils FP mp base lo cfa width stk (harmless co) k l0 steady
        items p0 p1 (proj1 I3) DF SS (fun _ => True) false p0 US) as (r1 & K1 & K2); [split; [auto|split; auto]|].
      rewrite (orun_prun co o X sem mp base lo cfa width stk (harmless co) items p0 r0 OR) in K1. injection K1 as <-. exact K2.
    + rewrite <- (WORD st r I3). apply I2.
Qed.
Print Assumptions C74_same_result_partial.

(** *** A call that meets the hypotheses: no functions are called, so both semantics are the same *)
Definition a_loads (i : insn) (s : ast) (a : Z) : bool := isop (i_op i) OPop && (a =? p_rg s RSP).
Definition a_stores (i : insn) (s : ast) (a : Z) : bool :=
  if isop (i_op i) OPush then (p_rg s RSP - word i <=? a) && (a <? p_rg s RSP)
  else i_wmem i && (a =? xval (mkPst (p_rg s) (p_mem s) 0 tt) i).
Definition b_loads i s a : Prop := a_loads i s a = true.
Definition b_stores i s a : Prop := a_stores i s a = true.
Definition no_spoils (i : insn) (s : ast) (a : Z) : Prop := False.
Definition no_flags (i : insn) : bool := false.
Lemma asem_footprint : footprint unit asem asem b_loads b_stores no_spoils no_flags no_flags.
Proof.
  intros i s t fi (H1 & H2 & H3 & H4 & H5). unfold asem, xsem.
  destruct (stack_op i && _)%bool eqn:E; auto.
  set (xs := mkPst (p_rg s) (p_mem s) 0 tt). set (xt := mkPst (p_rg t) (p_mem t) 0 tt).
  assert (V : xval xs i = xval xt i) by (apply (xval_eq _ _ _ fi); auto).
  assert (SP : stack_op i = true -> p_rg s RSP = p_rg t RSP /\ killsb RSP (i_written i) = true).
  { intros K. rewrite K in E. cbn [andb] in E. apply negb_false_iff, andb_true_iff in E.
    destruct E as [E1 E2]. split; auto. apply H2. apply mg_in_reads; auto. }
  cbn [p_rg p_mem p_fl p_rest]. split; [|split; [|split]].
  - intros r K. destruct (reg_eq_dec r RSP) as [->|NR].
    + unfold xrsp. unfold stack_op in SP. change (p_rg xs RSP) with (p_rg s RSP). change (p_rg xt RSP) with (p_rg t RSP).
      destruct (isop (i_op i) OPush); [destruct SP as [-> _]; auto|].
      destruct (isop (i_op i) OPop) eqn:EP; cbn [andb orb] in *.
      * destruct SP as [-> KS]; auto. rewrite KS, V. destruct (pop_to_sp i); reflexivity.
      * destruct (killsb RSP (i_written i)) eqn:KB; auto.
        destruct K as [K|K]; auto. apply killsb_kills in K. congruence.
    + destruct (killsb r (i_written i)) eqn:KB.
      * rewrite V. f_equal. destruct (isop (i_op i) OPop) eqn:EP; auto. cbn [xs xt p_mem p_rg].
        unfold stack_op in SP. rewrite EP, orb_true_r in SP. destruct SP as [SP _]; auto. rewrite <- SP.
        apply H3. unfold b_loads, a_loads. rewrite EP, Z.eqb_refl. reflexivity.
      * destruct K as [K|K]; auto. apply killsb_kills in K. congruence.
  - intros a K _. unfold xmem. unfold stack_op in SP. unfold b_stores, a_stores in K. cbn [p_rg p_mem xs xt] in *. fold xs in K |- *. fold xt.
    revert K. destruct (isop (i_op i) OPush) eqn:EP; intros K.
    + destruct SP as [SP _]; [reflexivity|]. rewrite SP in K |- *. rewrite V.
      destruct ((_ <=? a) && _)%bool; [reflexivity|]. destruct K; [discriminate|auto].
    + destruct (i_wmem i); cbn [andb] in K; [|destruct K; [discriminate|auto]].
      rewrite V in K |- *. destruct (a =? _); [reflexivity|]. destruct K; [discriminate|auto].
  - intros [K|K] _; [auto|discriminate].
  - reflexivity.
Qed.
Lemma asem_tame base cfa k : tame unit asem asem b_loads b_stores no_spoils base cfa k.
Proof.
  intros i fi s t s' t' E1 E2 LS. split; [intros x []|]. pose proof (asem_footprint i s t fi LS) as FT. rewrite E1, E2 in FT.
  destruct FT as (FR & _ & _ & _). destruct LS as (H1 & H2 & H3 & H4 & H5).
  unfold asem, xsem in E2. destruct (stack_op i && _)%bool eqn:E; [discriminate|]. injection E2 as <-.
  set (xt := mkPst (p_rg t) (p_mem t) 0 tt) in *. set (t' := mkPst _ _ (p_fl t) tt) in *.
  assert (SP : stack_op i = true -> p_rg s RSP = p_rg t RSP /\ killsb RSP (i_written i) = true).
  { intros K. rewrite K in E. cbn [andb] in E. apply negb_false_iff, andb_true_iff in E.
    destruct E as [A1 A2]. split; auto. apply H2. apply mg_in_reads; auto. }
  split.
  - intros W1 W2 r. destruct (killsb r (i_written i)) eqn:KB.
    { rewrite <- FR; [apply W1|]. left. apply killsb_kills. exact KB. }
    replace (p_rg t' r) with (p_rg t r); [apply W2|]. unfold t'. cbn [p_rg]. rewrite KB. destruct (reg_eq_dec r RSP) as [->|_]; [|reflexivity].
    unfold xrsp. unfold stack_op in SP. destruct (isop (i_op i) OPush); [destruct SP; [reflexivity|congruence]|].
    destruct (isop (i_op i) OPop); [destruct SP; [reflexivity|congruence]|]. cbn [andb]. rewrite KB. reflexivity.
  - intros NS (l1 & S1 & LK) l2 S2.
    assert (LL : List.length l2 = List.length l1).
    { destruct S1 as (A1 & _), S2 as (A2 & _). unfold ShadowSpec.slot in *. lia. }
    assert (V : xval (mkPst (p_rg s) (p_mem s) 0 tt) i = xval xt i) by (apply (xval_eq _ _ _ fi); auto).
    assert (SAME : forall x, inside base (32 + 8 * Z.of_nat k) x -> p_mem t' x = p_mem t x).
    { intros x Hx. specialize (NS x Hx). unfold b_stores, a_stores in NS. unfold t'. cbn [p_mem]. unfold xmem.
      unfold stack_op in SP. revert NS. destruct (isop (i_op i) OPush); intros NS.
      - destruct SP as [SP _]; [reflexivity|]. rewrite SP in NS. cbn [xt p_rg p_mem]. destruct ((_ <=? x) && _)%bool; [congruence|reflexivity].
      - destruct (i_wmem i); [|reflexivity]. cbn [andb] in NS. rewrite V in NS. destruct (x =? _); [congruence|reflexivity]. }
    assert (LD : forall z, base <= z -> z + 8 <= base + 32 + 8 * Z.of_nat k -> load64 (p_mem t') z = load64 (p_mem t) z).
    { intros z Hz1 Hz2. apply load64_ext. intros y Hy. apply SAME. unfold inside. lia. }
    destruct S2 as (A1 & A2 & A3). split; [rewrite LD by lia; exact A1|]. split; [rewrite LD by lia; exact A2|].
    intros j v Hj. rewrite LD; [apply A3; exact Hj|unfold ShadowSpec.slot; lia|].
    assert (j < List.length (rev l2))%nat by (apply nth_error_Some; congruence). rewrite rev_length in *. unfold ShadowSpec.slot. lia.
Qed.
(** Checkers for [unseen] and [clear_of]. *)
Section SEEN.
Variables (base : Z) (l0 : list Z) (k : nat).
Definition touchesb (sn : snip) (s : ast) (a : Z) : bool :=
  ((p_rg s RSP - snip_scratch sn <=? a) && (a <? p_rg s RSP)) || ((base <=? a) && (a <? base + 8)) ||
  ((ShadowSpec.slot base (List.length l0) <=? a) && (a <? ShadowSpec.slot base (List.length l0) + 8)).
Fixpoint unseenb (C : Z -> bool) (fi : bool) (its : list item) (s : ast) : bool :=
  match its with
  | [] => true
  | Ins _ i :: r =>
      (negb fi || negb (uses_flags i)) && (negb (isop (i_op i) OPop) || C (p_rg s RSP)) &&
      match asem i s with
      | Some s' => unseenb (fun a => C a || a_stores i s a) fi r s'
      | None => true
      end
  | Snip sn :: r => unseenb (fun a => C a && negb (touchesb sn s a)) (fi || is_pop sn) r s
  | _ :: r => unseenb C fi r s
  end.
Notation unseen := (unseen unit asem b_loads b_stores no_spoils no_flags no_flags base l0).
Lemma unseenb_ok its : forall C (D : Z -> Prop) fi s, unseenb C fi its s = true -> (forall a, C a = true -> D a) ->
  unseen D fi its s.
Proof.
  induction its as [|x its IH]; intros C D fi s H CD; cbn [unseenb Follow.unseen] in *; [exact I|].
  destruct x as [n|n i|sn|n]; [eapply IH; eauto| | |eapply IH; eauto].
  - rewrite !andb_true_iff in H. destruct H as ((A1 & A2) & A3). split; [|split].
    + intros ->. cbn [negb orb] in A1. intros f Hf. apply negb_true_iff in A1.
      assert (uses_flags i = true); [|congruence]. apply existsb_exists. exists (MFlag f). auto.
    + intros a L. unfold b_loads, a_loads in L. apply andb_true_iff in L. destruct L as [L1 L2]. rewrite L1 in A2.
      apply Z.eqb_eq in L2. subst a. apply CD. exact A2.
    + intros s' E. rewrite E in A3. unfold flags_after, no_flags. cbn [orb negb]. rewrite andb_true_r.
      eapply IH; [exact A3|]. intros a K. split; [|intros []]. apply orb_true_iff in K. destruct K as [K|K]; [left; auto|right; exact K].
  - eapply IH; [exact H|]. intros a K. apply andb_true_iff in K. destruct K as [K1 K2]. split; [auto|].
    unfold touches, inside. unfold touchesb in K2. lia.
Qed.
Fixpoint settledb (C : Z -> bool) (its : list item) (s : ast) : Z -> bool :=
  match its with
  | [] => C
  | Ins _ i :: r => match asem i s with Some s' => settledb (fun a => C a || a_stores i s a) r s' | None => C end
  | Snip sn :: r => settledb (fun a => C a && negb (touchesb sn s a)) r s
  | _ :: r => settledb C r s
  end.
Lemma settledb_ok its : forall C (D : Z -> Prop) s a, settledb C its s a = true -> (forall a, C a = true -> D a) ->
  settled unit asem b_stores no_spoils base l0 D its s a.
Proof.
  induction its as [|x its IH]; intros C D s a H CD; cbn [settledb settled] in *; [auto|].
  destruct x as [n|n i|sn|n]; [eapply IH; eauto| | |eapply IH; eauto].
  - destruct (asem i s) as [s'|]; [|auto]. eapply IH; [exact H|]. intros y K. split; [|intros []].
    apply orb_true_iff in K. destruct K as [K|K]; [left; auto|right; exact K].
  - eapply IH; [exact H|]. intros y K. apply andb_true_iff in K. destruct K as [K1 K2]. split; [auto|].
    unfold touches, inside. unfold touchesb in K2. lia.
Qed.
Fixpoint clearb (its : list item) (s : ast) : bool :=
  match its with
  | [] => true
  | Ins _ i :: r =>
      (if isop (i_op i) OPush then p_rg s RSP <=? base
       else negb (i_wmem i) || (xval (mkPst (p_rg s) (p_mem s) 0 tt) i <? base)) &&
      match asem i s with Some s' => clearb r s' | None => true end
  | _ :: r => clearb r s
  end.
Lemma clearb_ok its : forall s, clearb its s = true -> clear_of unit asem b_stores base k its s.
Proof.
  induction its as [|x its IH]; intros s H; cbn [clearb clear_of] in *; [exact I|].
  destruct x as [n|n i|sn|n]; [apply IH; exact H| |apply IH; exact H|apply IH; exact H].
  apply andb_true_iff in H. destruct H as [A1 A2]. split; [|intros s' E; rewrite E in A2; apply IH; exact A2].
  intros x Hx K. unfold inside in Hx. unfold b_stores, a_stores in K. revert A1 K. destruct (isop (i_op i) OPush); intros A1 K; [lia|].
  destruct (i_wmem i); [|discriminate]. cbn [negb orb andb] in A1, K. lia.
Qed.
End SEEN.
Definition a_orig (ks : list nat) (target : Z) : option (list item * ast) :=
  match a_items ks with
  | Some its =>
      if unseenb 1048576 [7777] (fun _ => true) false its (a_start target) && clearb 1048576 its (a_start target)
      then match irunb asem (c_frame false) (fun _ => true) wopts 1048576 60000 65536 (program_of its) (a_start target) with
           | Some (Fin _ r0) => Some (its, r0)
           | _ => None
           end
      else None
  | None => None
  end.
Lemma a_orig_ok ks target its r0 : a_orig ks target = Some (its, r0) ->
  a_items ks = Some its /\
  unseen unit asem b_loads b_stores no_spoils no_flags no_flags 1048576 [7777] (fun _ => True) false its (a_start target) /\
  clear_of unit asem b_stores 1048576 10 its (a_start target) /\
  irun unit (c_frame false) asem (fun _ => true) wopts 1048576 60000 65536 eight all (harmless (c_frame false)) steady
    (program_of its) (a_start target) (Fin unit r0).
Proof.
  unfold a_orig. destruct (a_items ks) as [z|]; [|discriminate]. destruct (unseenb _ _ _ _ z _ && _)%bool eqn:E; [|discriminate].
  apply andb_true_iff in E. destruct E as [E1 E2].
  destruct (irunb _ _ _ _ _ _ _ (program_of z) _) as [[q| |]|] eqn:R; try discriminate. intros K. injection K as <- <-.
  split; [reflexivity|]. split; [eapply unseenb_ok; eauto|]. split; [eapply clearb_ok; eauto|]. apply irunb_ok. exact R.
Qed.
Lemma a_orig_case ks target ra (ys : list Z) :
  match a_orig ks target with
  | Some (its, r0) => (p_rg r0 RSP =? 65528) && (load64 (p_mem r0) 65528 =? ra) &&
      forallb (settledb 1048576 [7777] (fun _ => true) its (a_start target)) ys
  | None => false
  end = true ->
  exists its r0, a_items ks = Some its /\
  unseen unit asem b_loads b_stores no_spoils no_flags no_flags 1048576 [7777] (fun _ => True) false its (a_start target) /\
  clear_of unit asem b_stores 1048576 10 its (a_start target) /\
  irun unit (c_frame false) asem (fun _ => true) wopts 1048576 60000 65536 eight all (harmless (c_frame false)) steady
    (program_of its) (a_start target) (Fin unit r0) /\
  p_rg r0 RSP = 65528 /\ load64 (p_mem r0) 65528 = ra /\
  forall a, In a ys -> settled unit asem b_stores no_spoils 1048576 [7777] (fun _ => True) its (a_start target) a.
Proof.
  destruct (a_orig ks target) as [[its r0]|] eqn:E; [|discriminate]. intros H. rewrite !andb_true_iff, forallb_forall in H.
  destruct H as ((H1 & H2) & H3). apply a_orig_ok in E. destruct E as (E1 & E2 & E3 & E4). exists its, r0.
  split; [exact E1|]. split; [exact E2|]. split; [exact E3|]. split; [exact E4|]. apply Z.eqb_eq in H1, H2.
  split; [exact H1|]. split; [exact H2|]. intros a K. eapply settledb_ok; eauto.
Qed.
(** The call of C65_case.  A write through the pointer to 70000, and one to the return address. *)
Example C74_case :
  o_optimize_regs wopts = false /\
  footprint unit asem asem b_loads b_stores no_spoils no_flags no_flags /\
  stack_facts asem /\ tame unit asem asem b_loads b_stores no_spoils 1048576 65536 10 /\
  (exists its r0, a_items [0; 0]%nat = Some its /\
    unseen unit asem b_loads b_stores no_spoils no_flags no_flags 1048576 [7777] (fun _ => True) false its (a_start 70000) /\
    clear_of unit asem b_stores 1048576 10 its (a_start 70000) /\
    irun unit (c_frame false) asem (fun _ => true) wopts 1048576 60000 65536 eight all (harmless (c_frame false)) steady
      (program_of its) (a_start 70000) (Fin unit r0) /\
    p_rg r0 RSP = 65528 /\ load64 (p_mem r0) 65528 = 5555 /\
    forall a, In a [70000; 65520; 65528; 65535; 1048608] ->
      settled unit asem b_stores no_spoils 1048576 [7777] (fun _ => True) its (a_start 70000) a) /\
  (exists its r0, a_items [0; 0]%nat = Some its /\
    unseen unit asem b_loads b_stores no_spoils no_flags no_flags 1048576 [7777] (fun _ => True) false its (a_start 65528) /\
    clear_of unit asem b_stores 1048576 10 its (a_start 65528) /\
    irun unit (c_frame false) asem (fun _ => true) wopts 1048576 60000 65536 eight all (harmless (c_frame false)) steady
      (program_of its) (a_start 65528) (Fin unit r0) /\
    p_rg r0 RSP = 65528 /\ load64 (p_mem r0) 65528 = 5624 /\
    forall a, In a [65520] -> settled unit asem b_stores no_spoils 1048576 [7777] (fun _ => True) its (a_start 65528) a).
Proof.
  split; [reflexivity|]. split; [apply asem_footprint|]. split; [apply asem_facts|]. split; [apply asem_tame|].
  split; apply a_orig_case; vm_compute; reflexivity.
Qed.
Lemma a_run_case ks target :
  match a_items ks with
  | Some its => unseenb 1048576 [7777] (fun _ => true) false its (a_start target) && (P_Activation.ended (a_run ks target) =? 0)%nat
  | None => false
  end = true ->
  exists its p1, a_items ks = Some its /\
    unseen unit asem b_loads b_stores no_spoils no_flags no_flags 1048576 [7777] (fun _ => True) false its (a_start target) /\
    irun unit (c_frame false) asem (fun _ => true) wopts 1048576 60000 65536 eight all (harmless (c_frame false)) steady
      its (a_start target) (Fin unit p1).
Proof.
  unfold a_run. destruct (a_items ks) as [its|]; [|discriminate]. intros H. apply andb_true_iff in H. destruct H as [H1 H2].
  destruct (irunb _ _ _ _ _ _ _ its _) as [[p1| |]|] eqn:R; try discriminate. exists its, p1.
  split; [reflexivity|]. split; [eapply unseenb_ok; eauto|]. apply irunb_ok. exact R.
Qed.
Example C73_case : exists its p1, a_items [0; 0]%nat = Some its /\
  unseen unit asem b_loads b_stores no_spoils no_flags no_flags 1048576 [7777] (fun _ => True) false its (a_start 70000) /\
  irun unit (c_frame false) asem (fun _ => true) wopts 1048576 60000 65536 eight all (harmless (c_frame false)) steady
    its (a_start 70000) (Fin unit p1).
Proof. apply a_run_case. vm_compute. reflexivity. Qed.
