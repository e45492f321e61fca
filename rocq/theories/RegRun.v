(** * RegRun: one call of a function that keeps its return address in a register
      (DoStackOpsUsingRegisters, instrument.cc:287-317; register frames of lowered functions, 470-560) *)
From Coq Require Import ZArith Bool Lia ZifyBool ZifyNat Arith String List.
From Verif Require Import Machine MachineFacts Jit ShadowSpec JitFacts JitPushPop History RegFrame ZeroWord.
From Verif Require Import Dfs Binary CallGraph InterProc MemPasses Pipeline RegNames BlockLive
  Reach SafePaths Lowering FastPath Decision P_Instr FullRun Whole Sites P_Sites P_SiteUse Order Activation PlanCode ActRun.
Import ListNotations.
Open Scope Z_scope.
Local Notation mem := Machine.mem.

Section RR.
Variables (co : code) (m : sums) (fn : nat) (fl : Lowering.flags) (o : opts) (d : dead_info) (p : plan).
Hypothesis AN : analysed co m fn.
Hypothesis FO : fn_ok co fn.
Hypothesis TE : terminal_exits co fn.
Hypothesis PLAN : Decision.instr fl co fn (Some (m fn)) = p.
Hypothesis REG : on_reg p = true.
Hypothesis PL : plain o.
Notation blk b := (co_block co b).
Notation s := (m fn).
Notation js := (jsum_of d s).
Notation bs := (f_blocks (co_fun co fn)).
Notation entry := (f_entry (co_fun co fn)).
Notation sites := (plan_sites co fl o d s fn p).
Notation pushn := (push_in co fn p).
Notation popn := (pop_in p).
Notation edge_pushn := (edge_push p).
Notation seg_evs := (seg_evs co fn p).

Lemma reg_forms : (exists l, p = ByLowering l /\ l_reg l = true /\ lower co fl fn s = Lowered l) \/
  (exists ps, p = ByEntry false ps true).
Proof.
  pose proof (plan_lowered co m fn fl _ PLAN) as LOW. revert REG PLAN LOW. unfold Decision.instr.
  intros R P LOW. destruct p as [|l|mv ps rg|slow ps fast| |]; try discriminate.
  - left. exists l. auto.
  - right. cbn [on_reg] in R. subst rg. exists ps.
    destruct (fl_light fl); [|discriminate]. destruct (skippable _ _ _); [discriminate|].
    destruct (lower co fl fn s); try discriminate. destruct (use_reg fl s).
    + injection P as <- _. reflexivity.
    + destruct (fast_path co fl fn) as [[[? ?] ?]|]; [discriminate|]. injection P as _ _ K. discriminate.
Qed.
Lemma reg_use : use_reg fl s = true.
Proof.
  destruct reg_forms as [(l & E & R & LOW)|(ps & E)].
  - pose proof (lower_checks co fl fn s l (an_cfg _ _ _ AN) LOW) as (_ & LR & _). congruence.
  - destruct (plan_entry co m fn fl _ PLAN false ps true E) as [_ UR]. auto.
Qed.

(** ** Where the code is *)
Definition bheight (b : nat) : Z := zget (s_entryHeight s) (startof co b).
Definition eheight (b : nat) : Z := zget (s_endHeight s) (startof co b).
Lemma pops_at cl ps (n : node) : NoDup ps ->
  snips (map (pop_site co fl o d s cl true) ps) (AtEnd n) =
  opt (Bool.eqb (fst n) cl && Dfs.mem (snd n) ps) (RegPop js).
Proof.
  intros ND. destruct n as [c b]. cbn [fst snd]. destruct (Bool.eqb c cl) eqn:EC.
  - apply eqb_prop in EC. subst cl. cbn [andb].
    rewrite (snips_map Nat.eq_dec _ _ _ b).
    2:{ intros c0 _ E. unfold pop_site in E. cbn [fst] in E. congruence. }
    replace (placeb _ _) with true by (symmetry; apply placeb_iff; reflexivity).
    cbn [pop_site snd]. apply opt_repeat. apply once. exact ND.
  - cbn [andb opt]. apply snips_none. intros q Hq. apply in_map_iff in Hq. destruct Hq as (x & <- & _).
    unfold pop_site. cbn [fst]. intros K. injection K as K _. subst. rewrite eqb_reflx in EC. discriminate.
Qed.
Lemma pops_else cl ps pl : (forall n, pl <> AtEnd n) -> snips (map (pop_site co fl o d s cl true) ps) pl = [].
Proof.
  intros H. apply snips_none. intros q Hq. apply in_map_iff in Hq. destruct Hq as (x & <- & _).
  unfold pop_site. cbn [fst]. intros K. apply (H (cl, x)). auto.
Qed.
Lemma popn_nodup l : p = ByLowering l -> NoDup (l_push_edges l) /\ NoDup (l_push_blocks l) /\ NoDup (l_pops l).
Proof.
  intros E. destruct FO as (_ & _ & NDB & NDX).
  apply (lower_nodup co fl fn s l NDB NDX). apply (plan_lowered co m fn fl _ PLAN l E).
Qed.
Lemma entry_nodup ps : p = ByEntry false ps true -> NoDup ps.
Proof.
  intros E. destruct FO as (_ & _ & _ & NDX). revert PLAN. rewrite E. unfold Decision.instr.
  assert (R : NoDup (returning_pops co fn)) by (apply NoDup_filter; auto).
  destruct (fl_light fl); [|intros K; injection K as <-; auto]. destruct (skippable _ _ _); [discriminate|].
  destruct (lower co fl fn s); try discriminate. destruct (use_reg fl s); [intros K; injection K as <-; auto|].
  destruct (fast_path co fl fn) as [[[? ?] ?]|]; [discriminate|]. intros K; injection K as _ <- _. auto.
Qed.

Lemma reg_at (n : node) : In (snd n) bs ->
  snips sites (AtStart n) = opt (pushn n) (RegPush js (bheight (snd n))) /\
  snips sites (AtEnd n) = opt (popn n) (RegPop js) /\
  (forall a, snips sites (BeforeInsn n a) = []) /\
  (pushn n = true -> exists v, b_sp_entry (blk (snd n)) = Some v /\ bheight (snd n) = -8 - v).
Proof.
  intros HB. destruct n as [c b]. cbn [snd] in HB. unfold push_in, pop_in.
  destruct reg_forms as [(l & E & R & LOW)|(ps & E)].
  - destruct (popn_nodup l E) as (N1 & N2 & N3). rewrite E. cbn [plan_sites fst snd]. unfold lowered_sites. rewrite R.
    assert (EE : forall pl, (forall x, pl <> OnEdge x) -> snips (map (edge_site co fl o d s true) (l_push_edges l)) pl = []).
    { intros pl H. apply snips_none. intros q Hq. apply in_map_iff in Hq. destruct Hq as (x & <- & _).
      cbn [edge_site fst]. intros K. apply (H x). auto. }
    assert (BE : forall pl, (forall x, pl <> AtStart x) -> snips (map (block_site co fl o d s true) (l_push_blocks l)) pl = []).
    { intros pl H. apply snips_none. intros q Hq. apply in_map_iff in Hq. destruct Hq as (x & <- & _).
      cbn [block_site fst]. intros K. apply (H (true, x)). auto. }
    split; [|split; [|split]].
    + rewrite !snips_app, EE, (pops_else true) by discriminate. rewrite app_nil_l, app_nil_r. destruct c.
      * rewrite (snips_map Nat.eq_dec _ _ _ b).
        2:{ intros c0 _ K. cbn [block_site fst] in K. congruence. }
        replace (placeb _ _) with true by (symmetry; apply placeb_iff; reflexivity).
        cbn [block_site snd andb]. apply opt_repeat. apply once. exact N2.
      * cbn [andb opt]. apply snips_none. intros q Hq. apply in_map_iff in Hq. destruct Hq as (x & <- & _).
        cbn [block_site fst]. discriminate.
    + rewrite !snips_app, EE, BE by discriminate. rewrite !app_nil_l, pops_at by auto. cbn [fst snd].
      destruct c; reflexivity.
    + intros a. rewrite !snips_app, EE, BE, (pops_else true) by discriminate. reflexivity.
    + intros H. apply andb_true_iff in H. destruct H as [_ H]. apply mem_in in H.
      pose proof (lower_checks co fl fn s l (an_cfg _ _ _ AN) LOW) as (_ & _ & _ & _ & PB & _).
      destruct (PB b H) as (B1 & _ & (v & ZV)).
      destruct (heights co m fn AN b v B1) as [_ HH]. destruct (HH ZV) as (w & SH & EV).
      exists w. split; auto. unfold bheight, zget. rewrite ZV. exact EV.
  - rewrite E. cbn [plan_sites fst snd andb opt]. unfold entry_site.
    change ((AtEntry, RegPush js 0) :: map (pop_site co fl o d s false true) ps) with
      ([(AtEntry, RegPush js 0)] ++ map (pop_site co fl o d s false true) ps).
    split; [|split; [|split]].
    + rewrite snips_app, (pops_else false) by discriminate. reflexivity.
    + rewrite snips_app, pops_at by (eapply entry_nodup; eauto). cbn [fst snd]. destruct c; reflexivity.
    + intros a. rewrite snips_app, (pops_else false) by discriminate. reflexivity.
    + discriminate.
Qed.
Lemma reg_entry : snips sites AtEntry = opt (match evs0 p with [] => false | _ => true end) (RegPush js 0).
Proof.
  unfold evs0. destruct reg_forms as [(l & E & R & LOW)|(ps & E)]; rewrite E; cbn [plan_sites opt].
  - unfold lowered_sites. rewrite R. apply snips_none. intros q Hq. rewrite !in_app_iff in Hq.
    destruct Hq as [Hq|[Hq|Hq]]; apply in_map_iff in Hq; destruct Hq as (x & <- & _); discriminate.
  - unfold entry_site. change ((AtEntry, RegPush js 0) :: ?t) with ([(AtEntry, RegPush js 0)] ++ t).
    rewrite snips_app, (pops_else false) by discriminate. reflexivity.
Qed.
Lemma reg_edge (n : node) k : In (snd n) bs ->
  (if fst n then @nil item else map Snip (snips sites (OnEdge (snd n, k)))) =
    map Snip (opt (edge_pushn n k) (RegPush js (eheight (snd n)))) /\
  (edge_pushn n k = true -> exists v, b_sp_end (blk (snd n)) = Some v /\ eheight (snd n) = -8 - v).
Proof.
  intros HB. unfold edge_push. destruct reg_forms as [(l & E & R & LOW)|(ps & E)].
  - destruct (popn_nodup l E) as (N1 & N2 & N3). rewrite E. cbn [plan_sites].
    assert (ES : snips (lowered_sites co fl o d s l) (OnEdge (snd n, k)) =
                 opt (emem (snd n, k) (l_push_edges l)) (RegPush js (eheight (snd n)))).
    { unfold lowered_sites. rewrite R, !snips_app, (pops_else true) by discriminate.
      rewrite (snips_none (map (block_site co fl o d s true) (l_push_blocks l))).
      2:{ intros q Hq. apply in_map_iff in Hq. destruct Hq as (b & <- & _). discriminate. }
      rewrite !app_nil_r. set (dec := fun x y : eid => ltac:(decide equality; apply Nat.eq_dec) : {x = y} + {x <> y}).
      rewrite (snips_map dec _ _ _ (snd n, k)).
      2:{ intros c _ K. cbn [edge_site fst] in K. congruence. }
      replace (placeb _ _) with true by (symmetry; apply placeb_iff; reflexivity).
      destruct (emem (snd n, k) (l_push_edges l)) eqn:EM.
      - apply emem_in in EM. pose proof (once dec _ (snd n, k) N1). apply (count_occ_In dec) in EM.
        replace (count_occ dec (l_push_edges l) (snd n, k)) with 1%nat by lia. reflexivity.
      - apply emem_nin in EM. apply (count_occ_not_In dec) in EM. rewrite EM. reflexivity. }
    rewrite ES. split; [destruct (fst n); reflexivity|].
    intros H. apply andb_true_iff in H. destruct H as [_ H]. apply emem_in in H.
    pose proof (lower_checks co fl fn s l (an_cfg _ _ _ AN) LOW) as (_ & _ & RE & PE & _).
    destruct (RE _ (PE _ H)) as (B1 & _ & (v & ZV) & _). cbn [fst] in *.
    destruct (heights co m fn AN (snd n) v B1) as [HH _]. destruct (HH ZV) as (w & SH & EV).
    exists w. split; auto. unfold eheight, zget. rewrite ZV. exact EV.
  - rewrite E. split; [|discriminate]. cbn [plan_sites opt map].
    replace (snips _ _) with (@nil snip); [destruct (fst n); reflexivity|].
    unfold entry_site. change ((AtEntry, RegPush js 0) :: ?t) with ([(AtEntry, RegPush js 0)] ++ t).
    rewrite snips_app, (pops_else false) by discriminate. reflexivity.
Qed.
(** The code of a block. *)
Lemma reg_shape (n : node) body tail last : In (snd n) bs ->
  block_shape (b_insns (blk (snd n))) body tail ->
  node_items co sites n last =
    Here n :: map Snip (opt (pushn n) (RegPush js (bheight (snd n)))) ++ map (Ins n) body ++
    map Snip (opt (popn n) (RegPop js)) ++ (if last then [] else map (Ins n) tail ++ [Out n]).
Proof.
  intros HB SH. destruct (reg_at n HB) as (E1 & E2 & E3 & _). unfold node_items, weave.
  rewrite (cut_shape _ _ _ SH), E1, E2.
  rewrite !weaveg_none by (intros; apply E3).
  replace (flat_map _ tail) with (@nil item); [reflexivity|].
  symmetry. clear - E3. induction tail as [|i t IH]; cbn [flat_map]; [auto|]. rewrite E3, IH. reflexivity.
Qed.

(** ** The machine *)
Variable X : Type.
Variable sem : insn -> pst Machine.flags X -> option (pst Machine.flags X).
Variable mp : perm.
Variables base lo cfa hi : Z.
Variable width : insn -> Z.
Variable stk : Z -> Prop.
Variable gentle : nat -> Prop.
Variable sc : scope X.
Variable k : nat.
Variable r : reg.
Hypothesis BR : borrows js r.
(** The function does not name the borrowed register, and leaves registers alone that it does not
    write.  The word next to the shadow stack pointer is out of its reach. *)
Hypothesis UT : forall b i, In b bs -> In i (b_insns (blk b)) -> untouched r i.
Hypothesis KU : keeps_unwritten sem.
Hypothesis KW : forall i st st', sem i st = Some st' -> load64 (p_mem st') (base + 8) = load64 (p_mem st) (base + 8).
Hypothesis TIDY : tidy co fn.
Notation pstate := (pst Machine.flags X).
Notation irun := (irun X co sem mp o base lo cfa width stk gentle sc).
Notation steps := (steps X co sem base lo cfa width stk gentle sc).
Notation ground := (ground X base lo cfa sc).
Notation gone := (gone X sc).
Notation as_state := (as_state X base).
Notation of_state := (of_state X).
Hypothesis RM : room co fn X mp base lo cfa hi stk sc k.
Variables (ra : Z) (l0 : list Z) (r0 : Z).
Hypothesis DEPTH : (List.length l0 <= k)%nat.

Lemma steps_reg n is : incl is (b_insns (blk (snd n))) -> In (snd n) bs ->
  forall st st', steps n is st st' ->
  p_rg st' r = p_rg st r /\ load64 (p_mem st') (base + 8) = load64 (p_mem st) (base + 8).
Proof.
  intros II HB. induction is as [|i t IH]; intros st st' H; cbn [Activation.steps] in H; [subst; auto|].
  destruct H as (q & A & _ & C). destruct (IH (fun x K => II x (or_intror K)) q st' C) as [I1 I2].
  rewrite I1, I2. split.
  - apply (KU i st q r A). intros pt. apply (UT (snd n) i HB (II i (or_introl eq_refl))).
  - apply (KW i st q A).
Qed.
Lemma r_cfa_hi : cfa <= hi.
Proof. pose proof (rm_frame _ _ _ _ _ _ _ _ _ _ _ RM entry (proj1 FO)). lia. Qed.
Lemma r_stack_part a n : lo <= a -> 0 <= n -> a + n <= hi ->
  mapped mp a n /\ apart a n base (32 + 8 * Z.of_nat k).
Proof.
  intros G1 G2 G3. pose proof (rm_apart _ _ _ _ _ _ _ _ _ _ _ RM) as A. destruct (rm_stack _ _ _ _ _ _ _ _ _ _ _ RM) as (X1 & X2 & X3).
  split; [split; [lia|]; split; [lia|]; intros x Hx; apply X3; unfold inside in *; lia|]. unfold apart in *. lia.
Qed.
(** Three words around rsp, wild or not. *)
Lemma r_around st : ground l0 st -> mapped mp (p_rg st RSP - 16) 24 /\ apart (p_rg st RSP - 16) 24 base (32 + 8 * Z.of_nat k).
Proof.
  intros (WF & IF & SR). pose proof r_cfa_hi. unfold in_frame in IF. destruct (gone st).
  - destruct (rm_wild _ _ _ _ _ _ _ _ _ _ _ RM _ entry IF (proj1 FO)) as ((X1 & X2 & X3) & A).
    split; [split; [lia|]; split; [lia|]; intros x Hx; apply X3; unfold inside in *; lia|]. unfold apart in *. lia.
  - apply r_stack_part; lia.
Qed.
Lemma r_env st : ground l0 st -> env mp (as_state st) l0 0 k.
Proof.
  intros G. destruct (r_around st G) as (M & A). destruct G as (WF & IF & SR).
  pose proof (rm_shadow _ _ _ _ _ _ _ _ _ _ _ RM) as M2. pose proof (rm_top _ _ _ _ _ _ _ _ _ _ _ RM) as T.
  assert (MS : forall a n, p_rg st RSP - 16 <= a -> 0 <= n -> a + n <= p_rg st RSP + 8 -> mapped mp a n).
  { intros a n G1 G2 G3. destruct M as (X1 & X2 & X3). split; [lia|]. split; [lia|]. intros x Hx. apply X3. unfold inside in *. lia. }
  constructor; change (gs (as_state st)) with base; change (rg (as_state st)) with (p_rg st); change (mem (as_state st)) with (p_mem st); auto.
  - split; [exact WF|]. change (0 <= base < W). destruct M2 as (X1 & X2 & _). lia.
  - apply MS; lia.
  - lia.
  - apply MS; lia.
  - unfold apart in *. lia.
Qed.
Lemma r_push h st rest out : ground l0 st -> gone st = false -> load64 (p_mem st) (cfa - 8) = ra ->
  h = cfa - 8 - p_rg st RSP -> irun (Snip (RegPush js h) :: rest) st out ->
  exists st', irun [Snip (RegPush js h)] st (Fin X st') /\ irun rest st' out /\
    ground l0 st' /\ p_rg st' r = ra /\ load64 (p_mem st') (base + 8) = p_rg st r /\ p_rg st' RSP = p_rg st RSP.
Proof.
  intros G GO W EH R. pose proof r_cfa_hi as CH. pose proof (r_env st G) as EV.
  destruct G as (G1 & IF & G3). pose proof IF as G2. unfold in_frame in G2. rewrite GO in G2.
  pose proof (reg_push_shape o js r h (is_empty_plain _ PL) (is_only_plain _ PL) BR) as CODE.
  assert (EA : rg (as_state st) RSP + h = cfa - 8) by (unfold Activation.as_state; cbn [rg]; lia).
  pose proof RM as RM'. destruct RM' as [M1 M2 T A FR SL _].
  destruct (reg_push_run mp (as_state st) r h) as (st1 & C1 & C2 & C3 & C4 & _ & _ & C7); rewrite ?EA.
  - apply EV. - apply BR.
  - change (gs (as_state st)) with base. eapply mapped_sub; [exact M2| |]; lia.
  - eapply mapped_sub; [exact M1| |]; lia.
  - change (gs (as_state st)) with base. unfold apart in *. lia.
  - rewrite EA in C2.
    assert (WF1 : wf st1) by (eapply exec_wf; [apply EV|exact C1]).
    unfold Activation.as_state in C2, C3, C4, C7; cbn [mem gs rg] in C2, C3, C4, C7. rewrite W in C2.
    assert (SC : snip_code o (RegPush js h) = Some (reg_push_code r h)) by (cbn [snip_code]; rewrite CODE; reflexivity).
    exists (of_state st1 st).
    assert (RR : irun rest (of_state st1 st) out).
    { inversion R; subst; rewrite SC in *; try discriminate;
        match goal with K : Some _ = Some _ |- _ => injection K as <- end;
        match goal with K : exec (reg_push_code r _) mp _ _ |- _ => pose proof (exec_det _ _ _ _ _ C1 K) as EE end; try discriminate.
      injection EE as ->. assumption. }
    assert (RS : rg st1 RSP = p_rg st RSP) by (apply C4; intros K; apply (proj1 BR); auto).
    split; [econstructor; eauto; constructor|]. split; [auto|]. split.
    { split; [exact (proj1 WF1)|]. split; [unfold in_frame, Activation.gone in *; change (p_rg (of_state st1 st) RSP) with (rg st1 RSP); rewrite RS; exact IF|].
      change (shadow_rep (mem st1) base l0). destruct G3 as (Q1 & Q2 & Q3).
      assert (EL : forall a, a + 8 <= base + 8 \/ base + 16 <= a -> load64 (mem st1) a = load64 (p_mem st) a).
      { intros a Ha. apply load64_ext. intros x Hx. apply C7. unfold inside. lia. }
      split; [rewrite EL by lia; auto|]. split; [rewrite EL by lia; auto|].
      intros j v Hj. rewrite EL by (unfold ShadowSpec.slot; lia). auto. }
    split; [exact C2|]. split; [exact C3|exact RS].
Qed.
Lemma r_check st rest out : ground l0 st -> p_rg st r = ra -> load64 (p_mem st) (base + 8) = r0 ->
  irun (Snip (RegPop js) :: rest) st out ->
  let w := load64 (p_mem st) (p_rg st RSP) in
  (w = 0 /\ unwind 0 (ra :: l0) = None /\ exists st', irun [Snip (RegPop js)] st (Fin X st') /\ irun rest st' out /\
     load64 (p_mem st') (p_rg st RSP) = w /\ p_rg st' RSP = p_rg st RSP /\ p_rg st' r = r0) \/
  (exists st' l', irun [Snip (RegPop js)] st (Fin X st') /\ irun rest st' out /\
     unwind w (ra :: l0) = Some l' /\ shadow_rep (p_mem st') base l' /\
     load64 (p_mem st') (p_rg st RSP) = w /\ p_rg st' RSP = p_rg st RSP /\ p_rg st' r = r0) \/
  (out = Stopped X st rest /\ w <> ra).
Proof.
  intros G PR SV R w. pose proof (r_env st G) as EV. pose proof (proj2 (r_around st G)) as AR.
  destruct G as (G1 & G2 & G3).
  pose proof (reg_pop_shape o js r (is_empty_plain _ PL) (is_only_plain _ PL) BR) as CODE.
  set (c := reg_pop_code r) in *.
  assert (SC : snip_code o (RegPop js) = Some c) by (cbn [snip_code]; rewrite CODE; reflexivity).
  assert (AP : apart (rg (as_state st) RSP) 8 (gs (as_state st)) 8).
  { unfold Activation.as_state; cbn [gs rg]. unfold apart in *. lia. }
  destruct (reg_pop_run mp (as_state st) l0 k r EV AP (proj1 BR)) as [GOOD BAD].
  fold c in GOOD, BAD. change (load64 (mem (as_state st)) (rg (as_state st) RSP)) with w in GOOD, BAD.
  change (rg (as_state st) r) with (p_rg st r) in GOOD, BAD. rewrite PR in GOOD, BAD.
  change (gs (as_state st)) with base in GOOD, BAD. change (load64 (mem (as_state st)) (base + 8)) with (load64 (p_mem st) (base + 8)) in GOOD, BAD.
  rewrite SV in GOOD, BAD.
  assert (TRAP : exec c mp (as_state st) Trap -> out = Stopped X st rest).
  { intros T. inversion R; subst; rewrite SC in *; try discriminate;
      match goal with K : Some _ = Some _ |- _ => injection K as <- end;
      match goal with K : exec c mp _ _ |- _ => pose proof (exec_det _ _ _ _ _ T K) as EE end; try discriminate. reflexivity. }
  assert (DONE : forall st1, exec c mp (as_state st) (Done st1) ->
     irun [Snip (RegPop js)] st (Fin X (of_state st1 st)) /\ irun rest (of_state st1 st) out).
  { intros st1 E1. split; [econstructor; eauto; constructor|].
    inversion R; subst; rewrite SC in *; try discriminate;
      match goal with K : Some _ = Some _ |- _ => injection K as <- end;
      match goal with K : exec c mp _ _ |- _ => pose proof (exec_det _ _ _ _ _ E1 K) as EE end; try discriminate.
    injection EE as ->. assumption. }
  destruct (Z.eq_dec w ra) as [EW|NW].
  - right. left. destruct (GOOD EW) as (st1 & E1 & E2 & E3 & _ & E5). destruct (DONE st1 E1) as [D1 D2].
    exists (of_state st1 st), l0. split; [exact D1|]. split; [exact D2|].
    split; [cbn [unwind]; rewrite EW, Z.eqb_refl; reflexivity|].
    assert (EM : forall x, p_mem (of_state st1 st) x = p_mem st x) by exact E5.
    split; [eapply shadow_rep_ext; [exact G3|intros; apply EM]|].
    split; [apply load64_ext; intros; apply EM|].
    split; [apply (E3 RSP); intros K; apply (proj1 BR); auto|exact E2].
  - specialize (BAD NW). assert (UN : unwind w (ra :: l0) = unwind w l0).
    { cbn [unwind]. replace (ra =? w) with false by lia. reflexivity. }
    rewrite UN. destruct (unwind w l0) as [l'|] eqn:UL.
    + destruct BAD as [D T].
      assert (DEC : clean_above w l0 \/ ~ clean_above w l0).
      { clear. induction l0 as [|v l IH]; cbn; [auto|]. destruct (Z.eq_dec v w); [auto|].
        destruct (Z.eq_dec (v mod 2 ^ 32) 0) as [E|E]; [right; intros [K|[K _]]; auto|].
        destruct IH; [left; auto|right; intros [K|[_ K]]; auto]. }
      destruct DEC as [CA|NC]; [right; left|right; right; split; [apply TRAP; auto|auto]].
      destruct (D CA) as (st1 & E1 & E2 & E3 & E4 & _ & E6). destruct (DONE st1 E1) as [D1 D2].
      exists (of_state st1 st), l'. split; [exact D1|]. split; [exact D2|]. split; [reflexivity|]. split; [exact E2|].
      split.
      { unfold w. apply load64_ext. intros x Hx. cbn [p_mem]. change (rg (as_state st) RSP) with (p_rg st RSP) in *.
        change (gs (as_state st)) with base in *. apply E6; unfold below, inside, apart in *; lia. }
      split; [apply (E4 RSP); intros K; apply (proj1 BR); auto|exact E3].
    + destruct (Z.eq_dec w 0) as [WZ|NZ]; [|right; right; split; [apply TRAP; auto|auto]].
      destruct (reg_pop_zero mp (as_state st) l0 k r EV AP (proj1 BR)) as [Z1 Z2].
      { exact WZ. } { change (p_rg st r <> 0). congruence. } { rewrite <- WZ. exact UL. }
      fold c in Z1, Z2. destruct (sound_dec l0) as [SD|NS]; [left|right; right; split; [apply TRAP, Z2, NS|exact NW]].
      destruct (Z1 SD) as (st1 & E1 & _ & E3 & E4 & _ & E6). destruct (DONE st1 E1) as [D1 D2].
      split; [exact WZ|]. split; [rewrite <- WZ; exact UN|]. exists (of_state st1 st). split; [exact D1|]. split; [exact D2|].
      split.
      { unfold w. apply load64_ext. intros x Hx. cbn [p_mem]. change (rg (as_state st) RSP) with (p_rg st RSP) in *.
        change (gs (as_state st)) with base in *. apply E6; unfold below, inside, apart in *; lia. }
      split; [apply (E4 RSP); intros K; apply (proj1 BR); auto|].
      change (rg st1 r = r0). rewrite E3. exact SV.
Qed.

(** ** The run *)
Variable evs : list ev.
Hypothesis ONE : (count_occ ev_eq_dec evs Push <= 1)%nat.
Hypothesis CALM : forall pre b post, evs = pre ++ Blk b :: post -> slot_safe co width gentle b \/ In Push pre.
Hypothesis AFTER : forall pre post, evs = pre ++ Pop :: post -> In Push pre.
Hypothesis LAST : forall pre post, evs = pre ++ Pop :: post ->
  post = [] \/ exists b i, post = [Blk b] /\ b_insns (blk b) = [i] /\ i_op i = ORet.
(** [L]: the path stops short of the end of the function. *)
Variable L : Prop.
Hypothesis EVEN : count_occ ev_eq_dec evs Pop = count_occ ev_eq_dec evs Push \/ L.
Variable items : list item.
Variable p0 : pstate.

(** The word that a check looks at is zero, which is not recorded, and the check lets it pass: the
    function comes to its end and is about to return to address zero. *)
Definition reg_nulled (out : outcome X) : Prop := (exists a j rest st,
  items = a ++ Snip (RegPop j) :: rest /\ irun a p0 (Fin X st) /\ return_word X st rest = 0) /\
  exists p1, out = Fin X p1 /\ load64 (p_mem p1) (p_rg p1 RSP) = 0 /\ unwind 0 (ra :: l0) = None /\ p_rg p1 r = r0.
(** As in ActRun.v; moreover, the borrowed register has its value back. *)
Definition reg_result (out : outcome X) : Prop :=
  result X sem base cfa ra l0 out /\ match out with Fin _ p1 => p_rg p1 r = r0 | _ => True end.
(** More precisely, and for paths that stop short as well. *)
Definition reg_fine (out : outcome X) : Prop :=
  (reg_result out /\
   match out with
   | Fin _ p1 => gone p1 = false \/
       (exists l', unwind (load64 (p_mem p1) (p_rg p1 RSP)) (ra :: l0) = Some l' /\ shadow_rep (p_mem p1) base l')
   | _ => True
   end) \/ (L /\ exists st, out = Fin X st).
Definition rphase (dn : list ev) (st : pstate) : Prop :=
  (~ In Push dn /\ ground l0 st /\ load64 (p_mem st) (cfa - 8) = ra /\ p_rg st r = r0 /\ gone st = false) \/
  (In Push dn /\ ~ In Pop dn /\ ground l0 st /\ p_rg st r = ra /\ load64 (p_mem st) (base + 8) = r0) \/
  (In Pop dn /\ p_rg st r = r0 /\
   exists l', unwind (load64 (p_mem st) (p_rg st RSP)) (ra :: l0) = Some l' /\ shadow_rep (p_mem st) base l').

Lemma r_after_check n ks sl pre : segs co p n ks = Some sl -> In (snd n) bs ->
  evs = pre ++ Pop :: flat_map seg_evs sl -> ks = [] /\ flat_map (seg_items co sites) sl = [Here n].
Proof.
  intros SG HB E. destruct (segs_cons _ _ _ _ _ SG) as (rr & ES & RK).
  destruct (LAST _ _ E) as [K|(b & i & K & B1 & B2)].
  - exfalso. rewrite ES in K. cbn [flat_map] in K. destruct (evs_nonempty co fn p (n, hd_error ks)) as (a & c & EE).
    rewrite EE, <- app_assoc in K. destruct a; discriminate.
  - assert (RN : rr = []).
    { destruct rr as [|sg rr]; auto. exfalso. rewrite ES in K. cbn [flat_map] in K.
      destruct (evs_nonempty co fn p (n, hd_error ks)) as (a & c & EE). destruct (evs_nonempty co fn p sg) as (a' & c' & EE').
      rewrite EE, EE', <- !app_assoc in K. apply (f_equal (@List.length ev)) in K.
      repeat (progress (rewrite ?app_length in K; cbn [List.length app] in K)). lia. }
    apply RK in RN as KN. split; auto. subst rr ks. rewrite ES in *. cbn [flat_map hd_error seg_items] in *. rewrite !app_nil_r in *.
    unfold ActRun.seg_evs in K. cbn [fst snd] in K. rewrite app_nil_r in K.
    destruct (pushn n) eqn:PN; [discriminate|]. cbn [opt app] in K. injection K as K1 K2.
    destruct (popn n) eqn:QN; [discriminate|].
    destruct (TIDY (snd n) HB) as (body & tail & SH & RP & _ & _).
    rewrite <- K1 in B1. pose proof (lone_shape co _ _ _ _ B1 B2 SH) as BN.
    rewrite (reg_shape n body tail true HB SH), PN, QN, BN. reflexivity.
Qed.
Lemma r_push_twice a c : evs = a ++ Push :: c -> ~ In Push a /\ ~ In Push c.
Proof.
  intros E. rewrite E, count_occ_app in ONE. cbn [count_occ] in ONE.
  destruct (ev_eq_dec Push Push) as [_|N]; [|congruence].
  split; apply (count_occ_not_In ev_eq_dec); lia.
Qed.
Lemma r_snoc done p1 st rest out : irun done p1 (Fin X st) -> irun rest st out -> irun (done ++ rest) p1 out.
Proof. intros H K. eapply irun_app; eauto. Qed.

(** The part of a block from its instructions on, once the return address is in the register. *)
Lemma r_end_block n body R dn done st out :
  In (snd n) bs -> incl body (b_insns (blk (snd n))) -> (popn n = true -> left_of R = [] /\ no_more R) ->
  ground l0 st -> p_rg st r = ra -> load64 (p_mem st) (base + 8) = r0 -> In Push dn -> ~ In Pop dn ->
  items = done ++ map (Ins n) body ++ map Snip (opt (popn n) (RegPop js)) ++ R ->
  irun done p0 (Fin X st) ->
  irun (map (Ins n) body ++ map Snip (opt (popn n) (RegPop js)) ++ R) st out ->
  reg_nulled out \/ reg_fine out \/
  exists st', irun (done ++ map (Ins n) body ++ map Snip (opt (popn n) (RegPop js))) p0 (Fin X st') /\
    irun R st' out /\ rphase (dn ++ [Blk (snd n)] ++ opt (popn n) Pop) st'.
Proof.
  intros HB II LR G PR SV IP NP EI RD R0.
  apply irun_ins in R0. destruct R0 as (st1 & S1 & R1). pose proof (steps_ground _ _ _ _ _ _ _ _ _ _ _ _ _ _ _ S1 G) as G1.
  destruct (steps_reg n body II HB _ _ S1) as [PR1 SV1]. rewrite PR in PR1. rewrite SV in SV1.
  apply steps_irun with (mp := mp) (o := o) in S1 as RB.
  destruct (popn n) eqn:QN; cbn [opt map app] in *.
  - destruct (r_check st1 _ out G1 PR1 SV1 R1) as [(W0 & UN & st2 & K1 & K2 & K3 & K4 & K5)|[(st2 & l' & K1 & K2 & K3 & K4 & K5 & K6 & K7)|(K1 & K2)]];
      destruct (LR eq_refl) as [LR1 LR2].
    + left. split.
      2:{ edestruct irun_bare as (p1 & E1 & E2); [exact LR2|exact K2|]. rewrite LR1 in E2. injection E2 as <-.
          exists st2. rewrite K4, K3. auto. }
      exists (done ++ map (Ins n) body), js, R, st1.
      split; [rewrite EI, <- app_assoc; reflexivity|]. split; [eapply r_snoc; eauto|].
      unfold return_word. rewrite LR1. unfold pops. cbn. rewrite Z.add_0_r. exact W0.
    + right. right. exists st2. split.
      { eapply r_snoc; [exact RD|]. eapply r_snoc; [exact RB|exact K1]. }
      split; [exact K2|]. right. right. split; [rewrite !in_app_iff; right; right; left; auto|].
      split; [exact K7|]. exists l'. rewrite K6, K5. auto.
    + right. left. rewrite K1. left. split; [|exact I]. split; [|exact I]. cbn [result]. unfold return_word. rewrite LR1.
      unfold pops. cbn. rewrite Z.add_0_r. split; [exact K2|]. intros p1 RUN. injection RUN as <-. reflexivity.
  - right. right. exists st1. rewrite app_nil_r. split; [eapply r_snoc; [exact RD|exact RB]|]. split; auto.
    right. left. rewrite !in_app_iff. split; [auto|]. split; [|auto].
    intros [K|[K|[]]]; [auto|discriminate].
Qed.
Lemma r_block n body tail R dn post done st out :
  In (snd n) bs -> block_shape (b_insns (blk (snd n))) body tail ->
  (popn n = true -> left_of R = [] /\ no_more R) ->
  evs = dn ++ opt (pushn n) Push ++ [Blk (snd n)] ++ opt (popn n) Pop ++ post ->
  let its := Here n :: map Snip (opt (pushn n) (RegPush js (bheight (snd n)))) ++ map (Ins n) body ++
      map Snip (opt (popn n) (RegPop js)) in
  items = done ++ its ++ R -> irun done p0 (Fin X st) -> irun (its ++ R) st out ->
  ~ In Pop dn -> rphase dn st ->
  reg_nulled out \/ reg_fine out \/
  exists st', irun (done ++ its) p0 (Fin X st') /\ irun R st' out /\
    rphase (dn ++ opt (pushn n) Push ++ [Blk (snd n)] ++ opt (popn n) Pop) st'.
Proof.
  intros HB SH LR EV its EI RD R0 NP PH. unfold its in *. clear its.
  assert (II : incl body (b_insns (blk (snd n)))) by (rewrite (proj1 SH); intros x K; apply in_or_app; auto).
  cbn [app] in R0. apply irun_here in R0. destruct R0 as [HO R0]. rewrite <- !app_assoc in R0.
  destruct (reg_at n HB) as (_ & _ & _ & PV).
  destruct PH as [(NPU & G & SW & PR & TM)|[(PU & _ & G & PR & SV)|(K & _)]]; [| |contradiction].
  - destruct (pushn n) eqn:PN; cbn [opt map app] in *.
    + destruct (PV eq_refl) as (v & HV & EH).
      assert (RH : p_rg st RSP = cfa + v) by (apply (HO TM); exact HV).
      destruct (r_push (bheight (snd n)) st _ out G TM SW ltac:(lia) R0) as (st2 & K1 & K2 & K3 & K4 & K5 & K6).
      destruct (r_end_block n body R (dn ++ [Push]) (done ++ [Here n; Snip (RegPush js (bheight (snd n)))]) st2 out)
        as [J|[J|(st' & J1 & J2 & J3)]]; auto; try congruence.
      * rewrite in_app_iff; right; left; auto.
      * rewrite in_app_iff. intros [K|[K|[]]]; [auto|discriminate].
      * rewrite EI. repeat (progress (cbn [app]; rewrite <- ?app_assoc)). reflexivity.
      * change (done ++ [Here n; Snip (RegPush js (bheight (snd n)))]) with (done ++ [Here n] ++ [Snip (RegPush js (bheight (snd n)))]).
        eapply r_snoc; [exact RD|]. eapply r_snoc; [|exact K1]. constructor; [exact HO|constructor].
      * right. right. exists st'. split; [|split; auto].
        { rewrite <- app_assoc in J1. exact J1. }
        rewrite <- app_assoc in J3. exact J3.
    + assert (QN : popn n = false).
      { destruct (popn n) eqn:QN; auto. exfalso. cbn [opt app] in EV.
        assert (AF := AFTER (dn ++ [Blk (snd n)]) post). rewrite <- app_assoc in AF. specialize (AF EV).
        rewrite in_app_iff in AF. destruct AF as [AF|[AF|[]]]; [auto|discriminate]. }
      rewrite QN in *. cbn [opt map app] in *.
      assert (SS : slot_safe co width gentle (snd n)) by (destruct (CALM dn (snd n) post EV); [auto|contradiction]).
      apply irun_ins in R0. destruct R0 as (st2 & S2 & R2).
      apply steps_irun with (mp := mp) (o := o) in S2 as RBC.
      destruct (steps_reg n body II HB _ _ S2) as [PR1 _].
      right. right. exists st2. rewrite app_nil_r. split.
      { eapply r_snoc; [exact RD|]. constructor; auto. }
      split; auto. left. split; [rewrite in_app_iff; intros [K|[K|[]]]; [auto|discriminate]|].
      split; [eapply steps_ground; eauto|]. destruct (steps_slot _ _ _ _ _ _ _ _ _ _ n body II SS (rm_slot _ _ _ _ _ _ _ _ _ _ _ RM) _ _ S2 TM) as [TM2 KS].
      split; [|split; [congruence|exact TM2]]. rewrite <- SW. apply load64_ext. intros x Hx. apply KS. unfold Whole.slot. lia.
  - assert (PN : pushn n = false).
    { destruct (pushn n); auto. exfalso. cbn [opt app] in EV. apply r_push_twice in EV. tauto. }
    rewrite PN in *. cbn [opt map app] in *.
    destruct (r_end_block n body R dn (done ++ [Here n]) st out) as [J|[J|(st' & J1 & J2 & J3)]]; auto.
    + rewrite EI. repeat (progress (cbn [app]; rewrite <- ?app_assoc)). reflexivity.
    + eapply r_snoc; [exact RD|]. constructor; [exact HO|constructor].
    + right. right. exists st'. split; [|split; auto]. rewrite <- app_assoc in J1. exact J1.
Qed.

Lemma r_go_checked ks n sl dn st out : segs co p n ks = Some sl -> In (snd n) bs ->
  evs = dn ++ flat_map seg_evs sl -> In Pop dn -> irun (flat_map (seg_items co sites) sl) st out ->
  rphase dn st -> reg_fine out.
Proof.
  intros SG HB EV IP R PH. apply in_split in IP. destruct IP as (a & c & ->).
  destruct (segs_cons _ _ _ _ _ SG) as (rr & ES & _). rewrite <- app_assoc in EV. cbn [app] in EV.
  assert (CN : c = []).
  { destruct c as [|x c]; auto. exfalso.
    destruct (LAST _ _ EV) as [K|(b & i & K & _)]; [discriminate|]. cbn [app] in K. injection K as _ K.
    apply app_eq_nil in K. destruct K as [_ K]. rewrite ES in K. cbn [flat_map] in K.
    destruct (evs_nonempty co fn p (n, hd_error ks)) as (u & v & EE). rewrite EE, <- app_assoc in K. destruct u; discriminate. }
  subst c. cbn [app] in EV. destruct (r_after_check n ks sl a SG HB EV) as [_ EH]. rewrite EH in R.
  apply irun_here in R. destruct R as [_ R]. apply irun_nil in R. subst out.
  assert (IN : In Push a) by (eapply AFTER; eauto).
  destruct PH as [(K & _)|[(_ & K & _)|(_ & K1 & K2)]].
  - destruct K. rewrite in_app_iff; auto.
  - destruct K. rewrite in_app_iff; right; left; auto.
  - left. split; [split; [right; exact K2|exact K1]|right; exact K2].
Qed.
Lemma r_go : forall ks n sl dn done st out,
  segs co p n ks = Some sl -> In (snd n) bs ->
  evs = dn ++ flat_map seg_evs sl -> items = done ++ flat_map (seg_items co sites) sl ->
  irun done p0 (Fin X st) -> irun (flat_map (seg_items co sites) sl) st out ->
  rphase dn st -> reg_nulled out \/ reg_fine out.
Proof.
  induction ks as [|kk ks IH]; intros n sl dn done st out SG HB EV EI RD R PH;
    (destruct (in_dec ev_eq_dec Pop dn) as [IP|NP]; [right; eapply r_go_checked; eauto|]);
    destruct (TIDY (snd n) HB) as (body & tail & SH & RP & PS & TL); cbn [segs] in SG.
  - injection SG as <-. cbn [flat_map seg_items] in EI, R. rewrite app_nil_r in EI, R.
    pose proof (reg_shape n body tail true HB SH) as ET. rewrite app_nil_r in ET. rewrite ET in EI, R.
    cbn [flat_map] in EV. unfold ActRun.seg_evs in EV. cbn [fst snd] in EV. rewrite !app_nil_r in EV.
    destruct (r_block n body tail [] dn [] done st out HB SH (fun _ => conj eq_refl (fun _ K => K))) as [K|[K|(st' & K1 & K2 & K3)]]; auto.
    + rewrite app_nil_r. exact EV.
    + rewrite app_nil_r. exact EI.
    + rewrite app_nil_r. exact R.
    + right. apply irun_nil in K2. subst out. rewrite <- EV in K3.
      destruct EVEN as [EVN|LL]; [|right; eauto]. left.
      destruct K3 as [(_ & (_ & _ & G) & W & K & TM)|[(P1 & P2 & _)|(_ & K & LL)]];
        [split; [split; [left; auto|exact K]|left; exact TM]| |split; [split; [right; auto|exact K]|right; exact LL]].
      exfalso. apply (count_occ_In ev_eq_dec) in P1. apply (count_occ_not_In ev_eq_dec) in P2. lia.
  - destruct (nth_error (b_targets (blk (snd n))) kk) as [e|] eqn:NE; [|discriminate].
    destruct (e_sink e || e_inter e)%bool eqn:SI; [discriminate|]. apply orb_false_iff in SI. destruct SI as [S1 S2].
    destruct (segs co p (next p n kk e) ks) as [sl'|] eqn:SG'; [|discriminate]. injection SG as <-.
    assert (ST : FastPath.step co (snd n) (e_trg e)).
    { exists e. split; auto. apply filter_In. split; [eapply nth_error_In; eauto|]. unfold bp_edge. rewrite S1, S2. reflexivity. }
    assert (TN : tail = []).
    { destruct tail as [|i t]; auto. exfalso. destruct ST as (e' & He & _). rewrite (TL ltac:(discriminate)) in He. exact He. }
    assert (EX : snd (next p n kk e) = e_trg e).
    { unfold next, patched_trg. clear. destruct p; auto. destruct n as [c b]. destruct (l_ndebug l); auto. destruct c; auto. }
    assert (HB' : In (snd (next p n kk e)) bs) by (rewrite EX; apply (an_step _ _ _ AN (snd n)); auto).
    pose proof (reg_shape n body tail false HB SH) as ET.
    destruct (reg_edge n kk HB) as (EE & QE).
    cbn [flat_map seg_items] in EI, R. rewrite EE, ET, TN in EI, R. cbn [map app] in EI, R.
    set (h := eheight (snd n)) in *.
    set (R1 := Out n :: map Snip (opt (edge_pushn n kk) (RegPush js h)) ++ flat_map (seg_items co sites) sl').
    set (its := Here n :: map Snip (opt (pushn n) (RegPush js (bheight (snd n)))) ++ map (Ins n) body ++
        map Snip (opt (popn n) (RegPop js))).
    assert (EI1 : items = done ++ its ++ R1).
    { rewrite EI. unfold its, R1. repeat (progress (cbn [map app]; rewrite <- ?app_assoc)). reflexivity. }
    assert (RI : irun (its ++ R1) st out).
    { revert R. unfold its, R1. repeat (progress (cbn [map app]; rewrite <- ?app_assoc)). auto. }
    set (dn1 := dn ++ opt (pushn n) Push ++ [Blk (snd n)] ++ opt (popn n) Pop).
    assert (EV1 : evs = dn1 ++ opt (edge_pushn n kk) Push ++ flat_map seg_evs sl').
    { rewrite EV. cbn [flat_map]. unfold ActRun.seg_evs at 1, dn1. cbn [fst snd]. repeat (progress (cbn [app]; rewrite <- ?app_assoc)). reflexivity. }
    assert (NEP : popn n = true -> edge_pushn n kk = false /\ flat_map (seg_items co sites) sl' = [Here (next p n kk e)]).
    { intros QN. unfold dn1 in EV1. rewrite QN in EV1. cbn [opt] in EV1.
      assert (EV2 : evs = (dn ++ opt (pushn n) Push ++ [Blk (snd n)]) ++ Pop :: opt (edge_pushn n kk) Push ++ flat_map seg_evs sl').
      { rewrite EV1. repeat (progress (cbn [app]; rewrite <- ?app_assoc)). reflexivity. }
      destruct (edge_pushn n kk) eqn:EPN; cbn [opt app] in EV2.
      - exfalso. destruct (LAST _ _ EV2) as [K|(b & i & K & _)]; discriminate.
      - split; auto. eapply r_after_check; eauto. }
    destruct (r_block n body tail R1 dn (opt (edge_pushn n kk) Push ++ flat_map seg_evs sl') done st out
       HB SH) as [K|[K|(st' & K1 & K2 & K3)]]; auto.
    { intros QN. destruct (NEP QN) as [E1 E2]. unfold R1. rewrite E1, E2. split; [reflexivity|]. intros sn [K|[K|[]]]; discriminate. }
    { rewrite EV1. unfold dn1. repeat (progress (cbn [app]; rewrite <- ?app_assoc)). reflexivity. }
    fold its in K1. fold dn1 in K3.
    unfold R1 in K2. apply irun_out in K2. destruct K2 as [OO K2].
    assert (RO : irun ((done ++ its) ++ [Out n]) p0 (Fin X st')).
    { eapply r_snoc; [exact K1|]. constructor; [exact OO|constructor]. }
    destruct (edge_pushn n kk) eqn:EPN; cbn [opt map app] in *.
    + destruct (QE eq_refl) as (v & SPH & EO).
      assert (NPU : ~ In Push dn1) by (apply (proj1 (r_push_twice _ _ EV1))).
      assert (NPO : ~ In Pop dn1).
      { intros K. apply in_split in K. destruct K as (u & w & K). apply NPU. rewrite K, in_app_iff. left.
        apply (AFTER u (w ++ Push :: flat_map seg_evs sl')). rewrite EV1, K, <- app_assoc. reflexivity. }
      destruct K3 as [(_ & G & W & PR & TM)|[(K & _)|(K & _)]]; [|contradiction|contradiction].
      assert (RS : p_rg st' RSP = cfa + v) by (apply (proj1 OO TM); exact SPH).
      destruct (r_push h st' _ out G TM W ltac:(lia) K2) as (st2 & J1 & J2 & J3 & J4 & J5 & J6).
      apply (IH (next p n kk e) sl' (dn1 ++ [Push]) (((done ++ its) ++ [Out n]) ++ [Snip (RegPush js h)]) st2 out); auto.
      * rewrite EV1, <- app_assoc. reflexivity.
      * rewrite EI1. unfold R1. rewrite <- !app_assoc. reflexivity.
      * eapply r_snoc; eauto.
      * right. left. rewrite !in_app_iff. split; [right; left; auto|]. split.
        { intros [K|[K|[]]]; [contradiction|discriminate]. }
        split; [auto|]. split; [auto|congruence].
    + apply (IH (next p n kk e) sl' dn1 ((done ++ its) ++ [Out n]) st' out); auto.
      rewrite EI1. unfold R1. rewrite <- !app_assoc. reflexivity.
Qed.
(** From the entry of the function. *)
Lemma r_run_all ks out : run_plan co fn p ks = Some evs ->
  plan_items co sites fn p ks = Some items ->
  ground l0 p0 -> gone p0 = false -> p_rg p0 RSP = cfa - 8 -> load64 (p_mem p0) (cfa - 8) = ra -> p_rg p0 r = r0 ->
  irun items p0 out -> reg_nulled out \/ reg_fine out.
Proof.
  intros RPL PI G TM RS W PR R.
  assert (NA : p <> PAbort) by (intros K; rewrite K in REG; discriminate).
  assert (NF : p <> PNoFuel) by (intros K; rewrite K in REG; discriminate).
  assert (PI2 : option_map (fun l => map Snip (snips sites AtEntry) ++ flat_map (seg_items co sites) l)
           (segs co p (false, entry) ks) = Some items).
  { rewrite <- PI. unfold plan_items. clear - NA NF. destruct p; auto; congruence. }
  destruct (segs co p (false, entry) ks) as [sl|] eqn:SG; [|discriminate]. cbn [option_map] in PI2.
  injection PI2 as EI. symmetry in EI. rewrite (run_segs co m fn fl p AN FO TE PLAN ks sl NA NF SG) in RPL. injection RPL as EV. symmetry in EV.
  rewrite reg_entry in EI.
  assert (HE : In (snd (false, entry)) bs) by apply FO.
  destruct (evs0 p) as [|x y] eqn:E0; cbn [opt map app] in EI.
  - cbn [app] in EV. rewrite EI in R. apply (r_go ks (false, entry) sl [] [] p0 out); auto.
    + constructor.
    + left. cbn. auto.
  - assert (XY : x = Push /\ y = []).
    { revert E0. unfold evs0. clear. destruct p; try discriminate. destruct moved; [discriminate|]. intros E; injection E as <- <-. auto. }
    destruct XY as [-> ->].
    rewrite EI in R. destruct (r_push 0 p0 _ out G TM W ltac:(lia) R) as (st2 & J1 & J2 & J3 & J4 & J5 & J6).
    apply (r_go ks (false, entry) sl [Push] [Snip (RegPush js 0)] st2 out); auto.
    right. left. split; [left; auto|]. split; [intros [K|[]]; discriminate|]. split; [auto|]. split; [auto|congruence].
Qed.
End RR.
