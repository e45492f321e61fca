(** * Properties C58-C60: red zone, live registers and register frames at the places where
      the tool puts its snippets *)
From Coq Require Import ZArith Bool Lia ZifyBool ZifyNat Arith String List.
From Verif Require Import Machine MachineFacts Jit ShadowSpec JitFacts JitPushPop History RegFrame Witness.
From Verif Require Import Dfs Binary CallGraph InterProc MemPasses Pipeline RegNames BlockLive ExSem
  Reach SafePaths Lowering FastPath Decision FullRun Sites SiteEx P_Regs P_Sites.
Import ListNotations.
Open Scope Z_scope.
Local Notation mem := Machine.mem.

(** ** C58: pushes and the red zone *)
(** A memory operand [rsp + z] with z < 0, in either order of the sum. *)
Definition rsp_below (e : expr) : Prop :=
  exists z, z < 0 /\
    (e = EAdd (EReg (MG RSP P64)) (EImm z) \/ e = EAdd (EImm z) (EReg (MG RSP P64)) \/
     e = EDeref (EAdd (EReg (MG RSP P64)) (EImm z)) \/ e = EDeref (EAdd (EImm z) (EReg (MG RSP P64)))).
Definition uses_red_zone (co : code) (fn : nat) : Prop :=
  exists b i e, In b (f_blocks (co_fun co fn)) /\ In i (b_insns (co_block co b)) /\
    (i_wmem i = true \/ i_rmem i = true) /\ In e (i_memops i) /\ rsp_below e.
Lemma rsp_below_seen e : rsp_below e -> rz_access e <> None.
Proof.
  intros (z & HZ & [->|[->|[->| ->]]]); unfold rz_access; cbn -[Z.ltb];
    replace (z <? 0) with true by lia; discriminate.
Qed.
(** Fixed entry data with two registers and moved entry data agree. *)
Lemma entry_two is md : NoDup (map i_addr is) -> (forall i, In i is -> 0 < i_addr i) ->
  entry_fixed is = Some md -> 2 <= m_saveCount md -> entry_point is = Some md.
Proof.
  intros N P E S. unfold entry_fixed in E. destruct is as [|i t]; [discriminate|].
  assert (C : q_save (choose (live_map (i :: t)) i ipt0) = 2 /\ q_addr (choose (live_map (i :: t)) i ipt0) = i_addr i).
  { revert E. generalize (live_map (i :: t)). intros dm.
    destruct (0 <? q_save (choose dm i ipt0)) eqn:Q; [|discriminate].
    intros E. injection E as <-. unfold make_mid in S. cbn [m_saveCount] in S. revert Q S.
    unfold choose. cbn [ipt0 q_save q_h].
    destruct (0 <? Z.of_nat (List.length (dead_at dm (i_addr i)))); unfold ipt0; cbn [q_save q_addr]; lia. }
  destruct C as [C1 C2].
  assert (C0 : entry_loop (live_map (i :: t)) (i :: t) ipt0 = choose (live_map (i :: t)) i ipt0).
  { cbn [entry_loop]. rewrite C1. reflexivity. }
  unfold entry_point. rewrite C0, C1, C2.
  rewrite C1 in E. replace (0 <? i_addr i) with true by (specialize (P i (or_introl eq_refl)); lia).
  exact E.
Qed.

(** Partial: functions without calls to functions of the binary whose red-zone operands are written
    relative to rsp without a further register, and no --disable_reg_save_opt. *)
Theorem C58_lowered_partial :
  forall co m fn fl o d l pl q,
    analysed co m fn -> lower co fl fn (m fn) = Lowered l ->
    (forall b i, In b (f_blocks (co_fun co fn)) -> In i (b_insns (co_block co b)) -> 0 < i_addr i) ->
    (forall g, ~ calls co fn g) -> uses_red_zone co fn -> fl_no_reg_save fl = false -> plain o ->
    In (pl, StackPush q) (lowered_sites co fl o d (m fn) l) ->
    forall mp st lst k, env mp st lst (e_off q) k -> (List.length lst < k)%nat ->
      exists c st', e_code q = EOk (c, kRegisterMap) /\ exec c mp st (Done st') /\
        forall x, ~ inside (gs st) (32 + 8 * Z.of_nat k) x -> mem st' x = mem st x.
Proof.
  intros co m fn fl o d l pl q AN LOW POS NC (b & i & e & HB & HI & HM & HE & RB) NR HP H mp st lst k EV HK.
  pose proof (lower_checks co fl fn (m fn) l (an_cfg _ _ _ AN) LOW) as (EH & LR & RE & PE & PB & _).
  assert (RZ : s_redZone (m fn) <> []).
  { apply (run_light_red co m fn (nd co m fn AN) (an_run _ _ _ AN) (an_in _ _ _ AN) (an_wf _ _ _ AN) EH).
    split; [auto|]. exists b, i. split; [auto|]. split; [auto|]. split; [auto|].
    exists e. split; [auto|]. apply rsp_below_seen; auto. }
  assert (TWO : l_reg l = false -> forall x, In x (l_red l) -> exists md, In (trg co x) (f_blocks (co_fun co fn)) /\
            entry_fixed (b_insns (co_block co (trg co x))) = Some md /\ 2 <= m_saveCount md).
  { intros LF x Hx. destruct (RE x Hx) as (_ & B2 & _ & K). destruct (K LF RZ) as (md & Z & S).
    exists md. split; [auto|]. split; [|auto]. destruct (data co m fn AN _ B2) as (_ & _ & DF).
    unfold startof in *. congruence. }
  assert (MID : exists md, e_mid q = Some md /\ good_mid md /\ m_saveCount md = 2 /\ e_o q = o).
  { destruct (in_sites _ _ _ _ _ _ _ _ H) as [(x & Hx & E)|[(b' & Hb & E)|(b' & _ & E)]].
    - unfold edge_site in E. destruct (l_reg l) eqn:LF; [discriminate|].
      injection E as <- _. destruct (edge_request co m fn fl o d l AN LOW x q H) as (_ & _ & B2 & _ & _ & EO & _ & EM).
      rewrite NR in EM. destruct (TWO eq_refl x (PE x Hx)) as (md & _ & EF & S). rewrite EF in EM.
      exists md. split; [auto|]. destruct (entry_fixed_ok _ _ (an_insns _ _ _ AN _ B2) EF) as (? & ? & _ & _ & _ & GM & _).
      split; [auto|]. split; [|auto]. destruct GM as [[G _]|[G _]]; lia.
    - destruct (l_reg l) eqn:LF; [unfold block_site in E; discriminate|].
      assert (HL : pl = AtStart (true, b') \/ (exists a, pl = BeforeInsn (true, b') a)).
      { unfold block_site in E. destruct (opt_mid _ _ _); injection E as <- _; eauto. }
      destruct (block_request co m fn fl o d l AN LOW pl q b' HL H) as (_ & B1 & _ & _ & EO & _ & EM & _).
      destruct (PB b' Hb) as (_ & (x & Hx & ET) & _).
      destruct (TWO eq_refl x Hx) as (md & _ & EF & S). rewrite ET in EF.
      rewrite NR in EM. rewrite (entry_two _ md (an_insns _ _ _ AN _ B1) (fun i Hi => POS b' i B1 Hi) EF S) in EM.
      exists md. split; [auto|]. destruct (entry_fixed_ok _ _ (an_insns _ _ _ AN _ B1) EF) as (? & ? & _ & _ & _ & GM & _).
      split; [auto|]. split; [|auto]. destruct GM as [[G _]|[G _]]; lia.
    - unfold pop_site in E. destruct (l_reg l); [discriminate|]. destruct (opt_mid _ _ _); discriminate. }
  destruct MID as (md & EM & GM & SC & EO).
  apply (C23_two_dead_entry_partial q md mp st lst k); auto. rewrite EO. auto.
Qed.
Print Assumptions C58_lowered_partial.
Example C58_case :
  exists l q1 l' q2, analysed (c_red true) (ssum (c_red true)) 0 /\ analysed (c_red false) (ssum (c_red false)) 0 /\
    lower (c_red true) fl_stack 0 (ssum (c_red true) 0%nat) = Lowered l /\
    lower (c_red false) fl_stack 0 (ssum (c_red false) 0%nat) = Lowered l' /\
    uses_red_zone (c_red true) 0 /\ uses_red_zone (c_red false) 0 /\
    In (OnEdge (0, 0)%nat, StackPush q1) (lowered_sites (c_red true) fl_stack wopts no_dead (ssum (c_red true) 0%nat) l) /\
    In (BeforeInsn (true, 2%nat) 4300, StackPush q2)
       (lowered_sites (c_red false) fl_stack wopts no_dead (ssum (c_red false) 0%nat) l').
Proof.
  assert (U : forall lp, uses_red_zone (c_red lp) 0).
  { intros lp. exists 0%nat, (x_store 4096 RSP (-8) RDI), (EAdd (EReg (MG RSP P64)) (EImm (-8))).
    split; [left; auto|]. split; [left; auto|]. split; [left; auto|]. split; [left; auto|].
    exists (-8). split; [lia|auto]. }
  do 4 eexists. split; [apply scode_analysed; vm_compute; reflexivity|].
  split; [apply scode_analysed; vm_compute; reflexivity|].
  split; [vm_compute; reflexivity|]. split; [vm_compute; reflexivity|]. split; [auto|]. split; [auto|].
  split; left; vm_compute; reflexivity.
Qed.

(** Refuted in general.  The variable of [c_rbp] is at [rbp-8], below rsp; the tool does not see
    that, and the push on the edge replaces it. *)
Definition zst : state :=
  let s := wstate [20; 10] 4242 in
  let r := fun x => match x with RSP => wsp - 8 | RBP => wsp - 8 | y => rg s y end in
  mkState r (store64 (mem s) (wsp - 16) 555) (gs s) (Machine.fl s) 0.
Lemma zst_env : env mp_all zst [20; 10] 8 8.
Proof.
  assert (E : env mp_all (wstate [20; 10] 4242) [20; 10] 0 8).
  { apply wstate_env; [|cbn; lia|lia]. intros v Hv. cbn in Hv. unfold W. lia. }
  destruct E as [E1 E2 E3 E4 E5 E6 E7 E8 E9].
  constructor; unfold zst; cbn [rg mem gs].
  - destruct E1 as [A B]. split; [|exact B]. intros r.
    assert (A1 := A r). assert (A2 := A RSP). change (rg (wstate [20; 10] 4242) RSP) with wsp in A2.
    unfold wsp in *. cbn [rg]. destruct r; try exact A1; lia.
  - split; [vm_compute; discriminate|split; [vm_compute; discriminate|reflexivity]].
  - lia.
  - split; [vm_compute; discriminate|split; [vm_compute; discriminate|reflexivity]].
  - exact E5.
  - exact E6.
  - exact E7.
  - change (gs (wstate [20; 10] 4242)) with wgs. unfold apart, wsp, wgs. lia.
  - eapply shadow_rep_ext; [exact E9|].
    intros x Hx. apply store64_out. change (gs (wstate [20; 10] 4242)) with wgs in Hx.
    unfold inside, wsp, wgs in *. cbn [List.length] in Hx. lia.
Qed.
Theorem C58_refuted :
  exists co m fn fl o d l x q i c st s1 s2,
    analysed co m fn /\ lower co fl fn (m fn) = Lowered l /\ plain o /\ fl_no_reg_save fl = false /\
    In (OnEdge x, StackPush q) (lowered_sites co fl o d (m fn) l) /\
    In i (b_insns (co_block co (trg co x))) /\ i_memops i = [EAdd (EReg (MG RBP P64)) (EImm (-8))] /\
    In (MG RAX P64) (i_written i) /\
    env mp_all st [20; 10] (e_off q) 8 /\ e_code q = EOk (c, kRegisterMap) /\
    exec [IMovRM RAX (MBase RBP (-8))] mp_all st (Done s1) /\
    exec (c ++ [IMovRM RAX (MBase RBP (-8))]) mp_all st (Done s2) /\ rg s1 RAX <> rg s2 RAX.
Proof.
  exists c_rbp, (ssum c_rbp), 0%nat, fl_stack, wopts, no_dead. do 2 eexists. eexists.
  exists (x_load 4300 RAX RBP (-8)). eexists. exists zst. do 2 eexists.
  split; [apply scode_analysed; vm_compute; reflexivity|].
  split; [vm_compute; reflexivity|]. split; [repeat split; discriminate|]. split; [reflexivity|].
  split; [left; vm_compute; reflexivity|]. split; [left; reflexivity|]. split; [reflexivity|].
  split; [left; reflexivity|]. split; [exact zst_env|]. split; [vm_compute; reflexivity|].
  split; [apply (exec_done 50); vm_compute; reflexivity|].
  split; [apply (exec_done 50); vm_compute; reflexivity|]. vm_compute. discriminate.
Qed.
Print Assumptions C58_refuted.
(** With --disable_reg_save_opt the tool checks that two registers are dead, and then saves
    registers in the red zone anyway. *)
Definition zst0 : state :=
  let s := wstate [20; 10] 4242 in mkState (rg s) (store64 (mem s) (wsp - 8) 555) (gs s) (Machine.fl s) 0.
Lemma zst0_env : env mp_all zst0 [20; 10] 0 8.
Proof.
  assert (E : env mp_all (wstate [20; 10] 4242) [20; 10] 0 8).
  { apply wstate_env; [|cbn; lia|lia]. intros v Hv. cbn in Hv. unfold W. lia. }
  destruct E as [E1 E2 E3 E4 E5 E6 E7 E8 E9]. constructor; auto.
  unfold zst0. cbn [mem gs]. eapply shadow_rep_ext; [exact E9|].
  intros x Hx. apply store64_out. change (gs (wstate [20; 10] 4242)) with wgs in Hx.
  unfold inside, wsp, wgs in *. cbn [List.length] in Hx. lia.
Qed.
Theorem C58_option_refuted :
  exists co m fn fl o d l x q i c st s1 s2,
    analysed co m fn /\ lower co fl fn (m fn) = Lowered l /\ plain o /\
    (forall g, ~ calls co fn g) /\ uses_red_zone co fn /\
    In (OnEdge x, StackPush q) (lowered_sites co fl o d (m fn) l) /\
    In i (b_insns (co_block co (trg co x))) /\ i_memops i = [EAdd (EReg (MG RSP P64)) (EImm (-8))] /\
    In (MG RAX P64) (i_written i) /\
    env mp_all st [20; 10] (e_off q) 8 /\ e_code q = EOk (c, kRegisterMap) /\
    exec [IMovRM RAX (MBase RSP (-8))] mp_all st (Done s1) /\
    exec (c ++ [IMovRM RAX (MBase RSP (-8))]) mp_all st (Done s2) /\ rg s1 RAX <> rg s2 RAX.
Proof.
  exists (c_red true), (ssum (c_red true)), 0%nat, fl_nosave, wopts, no_dead. do 2 eexists. eexists.
  exists (x_load 4300 RAX RSP (-8)). eexists. exists zst0. do 2 eexists.
  split; [apply scode_analysed; vm_compute; reflexivity|].
  split; [vm_compute; reflexivity|]. split; [repeat split; discriminate|].
  split.
  { intros g (b & e & [HB HE] & K & _). cbn in HB.
    repeat (destruct HB as [<-|HB]; [cbn in HE; repeat (destruct HE as [<-|HE]; [discriminate|]); contradiction|]).
    contradiction. }
  split.
  { exists 0%nat, (x_store 4096 RSP (-8) RDI), (EAdd (EReg (MG RSP P64)) (EImm (-8))).
    split; [left; auto|]. split; [left; auto|]. split; [left; auto|]. split; [left; auto|].
    exists (-8). split; [lia|auto]. }
  split; [left; vm_compute; reflexivity|]. split; [left; reflexivity|]. split; [reflexivity|].
  split; [left; reflexivity|]. split; [exact zst0_env|]. split; [vm_compute; reflexivity|].
  split; [apply (exec_done 50); vm_compute; reflexivity|].
  split; [apply (exec_done 50); vm_compute; reflexivity|]. vm_compute. discriminate.
Qed.
Print Assumptions C58_option_refuted.

(** Pushes of the other schemes: at the place of the push, the code that the function has run
    in this block has left everything below rsp as it was. *)
Theorem C58_entry_partial :
  forall co m fn fl o d p pl q,
    analysed co m fn -> Decision.instr fl co fn (Some (m fn)) = p ->
    (forall l, p <> ByLowering l) -> In (pl, StackPush q) (plan_sites co fl o d (m fn) fn p) ->
    exists b pre post,
      match p with ByEntry _ _ _ => b = f_entry (co_fun co fn) | ByFastPath slow _ _ => b = slow | _ => False end /\
      b_insns (co_block co b) = pre ++ post /\ where_at pl false b pre post /\
      forall (F X : Type) (sem : insn -> pst F X -> option (pst F X)) p0 p1 a,
        stack_facts sem -> Forall plain_stack (b_insns (co_block co b)) ->
        prun sem pre p0 = Some p1 -> a < p_rg p1 RSP -> p_mem p1 a = p_mem p0 a.
Proof.
  intros co m fn fl o d p pl q AN PLAN NL H.
  assert (K : forall b, In b (f_blocks (co_fun co fn)) ->
     (pl = AtStart (false, b) \/ pl = AtEntry) \/
     (exists md, zfind (s_entryData (m fn)) (startof co b) = Some md /\ pl = BeforeInsn (false, b) (m_addr md)) ->
     exists pre post, b_insns (co_block co b) = pre ++ post /\ where_at pl false b pre post /\
      forall (F X : Type) (sem : insn -> pst F X -> option (pst F X)) p0 p1 a,
        stack_facts sem -> Forall plain_stack (b_insns (co_block co b)) ->
        prun sem pre p0 = Some p1 -> a < p_rg p1 RSP -> p_mem p1 a = p_mem p0 a).
  { intros b HB [K|(md & Z & K)].
    - exists [], (b_insns (co_block co b)). split; [auto|]. split; [left; split; [tauto|auto]|].
      intros F X sem p0 p1 a _ _ R _. cbn in R. injection R as <-. auto.
    - destruct (data co m fn AN b HB) as (DE & _). rewrite DE in Z.
      destruct (entry_point_ok _ _ (an_insns _ _ _ AN _ HB) Z) as (pre & i & post & A & B & C & _).
      exists pre, (i :: post). split; [auto|]. split; [right; exists i, post; rewrite K, B; auto|].
      intros F X sem p0 p1 a SF PL R Ha.
      assert (PP : Forall plain_stack pre) by (rewrite A in PL; apply Forall_app in PL; tauto).
      apply (entry_walk F X sem SF pre C PP p0 p1 R). auto. }
  destruct p as [|l|mv ps rg|slow ps fast| |]; try contradiction.
  - exfalso. apply (NL l). auto.
  - cbn [plan_sites] in H. destruct H as [H|H]; [|exfalso; eapply pop_no_push; eauto].
    destruct (K (f_entry (co_fun co fn)) (proj1 (an_cfg _ _ _ AN))) as (pre & post & R); [|exists (f_entry (co_fun co fn)), pre, post; auto].
    unfold entry_site in H. destruct rg; [discriminate|].
    destruct mv; [destruct (zfind _ _) as [md|] eqn:Z|]; injection H as <- <-; eauto.
  - cbn [plan_sites] in H. destruct H as [H|H]; [|exfalso; eapply pop_no_push; eauto].
    destruct (slow_in co m fn fl _ AN PLAN slow ps fast eq_refl) as [B _].
    destruct (K slow B) as (pre & post & R); [|exists slow, pre, post; auto].
    unfold slow_site, opt_mid in H. destruct (fl_no_reg_save fl); [injection H as <- <-; auto|].
    destruct (zfind _ _) as [md|] eqn:Z; injection H as <- <-; eauto.
Qed.
Print Assumptions C58_entry_partial.

(** ** C59: the snippets disturb no live register *)
(** Without --optimize_regs the code that runs after the push, up to the end of the block, does
    the same as without the push. *)
Lemma push_invisible (X : Type) (sem : insn -> pst Machine.flags X -> option (pst Machine.flags X)) (x : X)
    q mp st lst k rest :
  e_ok q -> (forall n, In n (e_dead q) -> In n (dead_before rest)) ->
  env mp st lst (e_off q) k -> (List.length lst < k)%nat ->
  respects sem (snippet_bytes st (e_scratch q) k) ->
  exists c st', e_code q = EOk (c, kRegisterMap) /\ exec c mp st (Done st') /\
    agree_out (snippet_bytes st (e_scratch q) k) false (prun sem rest (to_pst x st)) (prun sem rest (to_pst x st')).
Proof.
  intros OK DI HE HK RS.
  destruct (entry_run_tight q mp st lst k OK HE HK) as (c & s' & X1 & X2 & _ & X3 & X4 & X5 & X6 & X7).
  exists c, s'. split; [auto|]. split; [auto|].
  apply (dead_agree Machine.flags X sem _ RS false rest); [discriminate|].
  unfold to_pst. split; [|split; [|split]]; cbn [p_rg p_mem p_fl p_rest].
  - intros r Hr. symmetry. apply X3. intros K. apply Hr. apply DI. exact K.
  - intros a Ha. symmetry. apply X7; intros K; apply Ha; unfold snippet_bytes, inside, slot in *; [left|right|right]; lia.
  - auto.
  - reflexivity.
Qed.
Lemma no_opt_dead o dead : o_optimize_regs o = false -> good_dead o dead.
Proof. left; auto. Qed.
Theorem C59_push_partial :
  forall co m fn fl o d p pl q,
    analysed co m fn -> Decision.instr fl co fn (Some (m fn)) = p -> plain o -> o_optimize_regs o = false ->
    In (pl, StackPush q) (plan_sites co fl o d (m fn) fn p) ->
    exists cl b pre post,
      b_insns (co_block co b) = pre ++ post /\
      match pl with OnEdge x => b = trg co x /\ pre = [] | _ => where_at pl cl b pre post end /\
      forall (X : Type) (sem : insn -> pst Machine.flags X -> option (pst Machine.flags X)) (x : X) mp st lst k,
        env mp st lst (e_off q) k -> (List.length lst < k)%nat ->
        respects sem (snippet_bytes st (e_scratch q) k) ->
        exists c st', e_code q = EOk (c, kRegisterMap) /\ exec c mp st (Done st') /\
          agree_out (snippet_bytes st (e_scratch q) k) false
            (prun sem post (to_pst x st)) (prun sem post (to_pst x st')).
Proof.
  intros co m fn fl o d p pl q AN PLAN HP NO H.
  assert (ED : e_o q = o -> e_mid q = None -> forall n, In n (e_dead q) -> False).
  { intros E1 E2 n. unfold e_dead. rewrite E2. cbn [request_dead]. rewrite E1, NO. auto. }
  assert (BLK : forall cl b, In b (f_blocks (co_fun co fn)) -> e_o q = o -> e_ok q ->
     (e_mid q = None /\ (pl = AtStart (cl, b) \/ pl = AtEntry /\ cl = false)) \/
     (exists md, entry_point (b_insns (co_block co b)) = Some md /\ e_mid q = Some md /\
                 pl = BeforeInsn (cl, b) (m_addr md)) ->
     exists cl b pre post,
      b_insns (co_block co b) = pre ++ post /\
      match pl with OnEdge x => b = trg co x /\ pre = [] | _ => where_at pl cl b pre post end /\
      forall (X : Type) (sem : insn -> pst Machine.flags X -> option (pst Machine.flags X)) (x : X) mp st lst k,
        env mp st lst (e_off q) k -> (List.length lst < k)%nat ->
        respects sem (snippet_bytes st (e_scratch q) k) ->
        exists c st', e_code q = EOk (c, kRegisterMap) /\ exec c mp st (Done st') /\
          agree_out (snippet_bytes st (e_scratch q) k) false
            (prun sem post (to_pst x st)) (prun sem post (to_pst x st'))).
  { intros cl b HB EO OK [(EM & PL)|(md & EP & EM & PL)].
    - exists cl, b, [], (b_insns (co_block co b)). split; [auto|]. split.
      { destruct PL as [->|[-> ->]]; left; auto. }
      intros X sem x mp st lst k HE HK RS. eapply push_invisible; eauto. intros n K. exfalso. eauto.
    - destruct (entry_point_ok _ _ (an_insns _ _ _ AN _ HB) EP) as (pre & i & post & A & B & _ & _ & _ & DI).
      exists cl, b, pre, (i :: post). split; [auto|]. split.
      { rewrite PL. right. exists i, post. rewrite B. auto. }
      intros X sem x mp st lst k HE HK RS. eapply push_invisible; eauto.
      intros n K. apply DI. unfold e_dead in K. rewrite EM in K. exact K. }
  assert (OKM : forall b md, In b (f_blocks (co_fun co fn)) -> e_o q = o -> e_mid q = Some md ->
             entry_point (b_insns (co_block co b)) = Some md -> e_ok q).
  { intros b md HB EO EM EP. split; [rewrite EO; auto|]. rewrite EM.
    destruct (entry_point_ok _ _ (an_insns _ _ _ AN _ HB) EP) as (pre & i & post & _ & _ & _ & _ & GM & _). exact GM. }
  assert (OKN : e_o q = o -> e_mid q = None -> e_ok q).
  { intros EO EM. split; [rewrite EO; auto|]. rewrite EM. left. rewrite EO. auto. }
  destruct p as [|l|mv ps rg|slow ps fast| |]; try contradiction; cbn [plan_sites] in H.
  - pose proof (plan_lowered co m fn fl _ PLAN l eq_refl) as LOW.
    destruct (in_sites _ _ _ _ _ _ _ _ H) as [(x & Hx & E)|[(b' & Hb & E)|(b' & _ & E)]].
    + unfold edge_site in E. injection E as <- _.
      destruct (edge_request co m fn fl o d l AN LOW x q H) as (_ & _ & B2 & _ & _ & EO & _ & EM).
      exists true, (trg co x), [], (b_insns (co_block co (trg co x))). split; [auto|]. split; [auto|].
      intros X sem y mp st lst k HE HK RS. eapply push_invisible; eauto.
      * eapply edge_ok_request; eauto. apply no_opt_dead; auto.
      * intros n K. destruct (fl_no_reg_save fl); [exfalso; eauto|].
        destruct (entry_fixed (b_insns (co_block co (trg co x)))) as [md|] eqn:F; [|exfalso; eauto].
        destruct (entry_fixed_ok _ _ (an_insns _ _ _ AN _ B2) F) as (i & post & _ & _ & _ & _ & DI).
        apply DI. unfold e_dead in K. rewrite EM in K. exact K.
    + assert (HL : pl = AtStart (true, b') \/ (exists a, pl = BeforeInsn (true, b') a)).
      { unfold block_site in E. destruct (l_reg l); [discriminate|]. destruct (opt_mid _ _ _); injection E as <- _; eauto. }
      destruct (block_request co m fn fl o d l AN LOW pl q b' HL H) as (_ & B1 & _ & _ & EO & _ & EM & EP).
      apply (BLK true b'); auto.
      * eapply block_ok_request; eauto. apply no_opt_dead; auto.
      * destruct (e_mid q) as [md|] eqn:Q; [right; exists md|left; auto].
        destruct (fl_no_reg_save fl); [discriminate|]. auto.
    + unfold pop_site in E. destruct (l_reg l); [discriminate|]. destruct (opt_mid _ _ _); discriminate.
  - destruct H as [H|H]; [|exfalso; eapply pop_no_push; eauto].
    unfold entry_site in H. destruct rg; [discriminate|].
    pose proof (proj1 (an_cfg _ _ _ AN)) as HB.
    destruct (data co m fn AN _ HB) as (DE & _).
    destruct mv; [destruct (zfind _ _) as [md|] eqn:Z|]; injection H as <- <-.
    + assert (EP : entry_point (b_insns (co_block co (f_entry (co_fun co fn)))) = Some md) by congruence.
      apply (BLK false (f_entry (co_fun co fn))); auto; [eapply OKM; eauto|]. right. exists md. auto.
    + apply (BLK false (f_entry (co_fun co fn))); auto.
    + apply (BLK false (f_entry (co_fun co fn))); auto.
  - destruct H as [H|H]; [|exfalso; eapply pop_no_push; eauto].
    destruct (slow_in co m fn fl _ AN PLAN slow ps fast eq_refl) as [HB _].
    destruct (data co m fn AN _ HB) as (DE & _).
    unfold slow_site, opt_mid in H. destruct (fl_no_reg_save fl); [injection H as <- <-; apply (BLK false slow); auto|].
    destruct (zfind _ _) as [md|] eqn:Z; injection H as <- <-; [|apply (BLK false slow); auto].
    assert (EP : entry_point (b_insns (co_block co slow)) = Some md) by congruence.
    apply (BLK false slow); auto; [eapply OKM; eauto|]. right. exists md. auto.
Qed.
Print Assumptions C59_push_partial.
(** r10 and r11 are in use: rcx and rdx, which the block sets first, serve as temporaries. *)
Example C59_case :
  exists p q, analysed (c_frame true) (ssum (c_frame true)) 0 /\
    Decision.instr fl_stack (c_frame true) 0 (Some (ssum (c_frame true) 0%nat)) = p /\
    In (OnEdge (0, 0)%nat, StackPush q) (plan_sites (c_frame true) fl_stack wopts no_dead (ssum (c_frame true) 0%nat) 0 p) /\
    e_dead q = ["x86_64::rcx"; "x86_64::rdx"]%string /\ e_scratch q = 0 /\
    (forall st k, respects (rsem Machine.flags unit) (snippet_bytes st (e_scratch q) k)).
Proof.
  do 2 eexists. split; [apply scode_analysed; vm_compute; reflexivity|].
  split; [vm_compute; reflexivity|]. split; [left; vm_compute; reflexivity|].
  split; [vm_compute; reflexivity|]. split; [vm_compute; reflexivity|]. intros. apply rsem_respects.
Qed.
(** Refuted with --optimize_regs: the push on the edge of [c_live] uses registers that are dead
    where the function starts, among them r9, which the block after the edge stores. *)
Theorem C59_refuted :
  exists co m fn fl o d p x q i c st st',
    analysed co m fn /\ Decision.instr fl co fn (Some (m fn)) = p /\ plain o /\ good_dead o (di_entry d) /\
    incl (di_entry d) (dead_before (b_insns (co_block co (f_entry (co_fun co fn))))) /\
    In (OnEdge x, StackPush q) (plan_sites co fl o d (m fn) fn p) /\
    hd_error (b_insns (co_block co (trg co x))) = Some i /\ In (MG R9 P64) (i_read i) /\ i_wmem i = true /\
    env mp_all st [20; 10] (e_off q) 8 /\ e_code q = EOk (c, kRegisterMap) /\
    exec c mp_all st (Done st') /\ rg st' R9 <> rg st R9.
Proof.
  exists c_live, (ssum c_live), 0%nat, fl_stack, wopts_regs, (mkDead wdead []). do 5 eexists.
  exists zst0. eexists.
  split; [apply scode_analysed; vm_compute; reflexivity|].
  split; [vm_compute; reflexivity|]. split; [apply wopts_regs_plain|].
  split; [right; right; split; [apply wdead_names|cbn; lia]|].
  split; [vm_compute; tauto|].
  split; [left; vm_compute; reflexivity|]. split; [reflexivity|]. split; [right; left; reflexivity|].
  split; [reflexivity|].
  split; [exact zst0_env|]. split; [vm_compute; reflexivity|].
  split; [apply (exec_done 50); vm_compute; reflexivity|]. vm_compute. discriminate.
Qed.
Print Assumptions C59_refuted.

(** The exit checks: everything after the check, up to and including the return instruction,
    does the same as without it. *)
Theorem C59_pop_partial :
  forall co m fn fl o d p pl q,
    analysed co m fn -> Decision.instr fl co fn (Some (m fn)) = p -> plain o -> o_optimize_regs o = false ->
    In (pl, StackPop q) (plan_sites co fl o d (m fn) fn p) ->
    exists cl b, In b (f_blocks (co_fun co fn)) /\
      forall body r, block_shape (b_insns (co_block co b)) body [r] ->
      exists pre post, body = pre ++ post /\
        (pl = AtEnd (cl, b) /\ post = [] \/
         exists i post', post = i :: post' /\ pl = BeforeInsn (cl, b) (i_addr i)) /\
        forall (X : Type) (sem : insn -> pst Machine.flags X -> option (pst Machine.flags X)) (x : X) mp st ra lst k,
          (forall j, In j (b_insns (co_block co b)) -> i_op j = OPop \/ i_op j = ORet -> flagless j) ->
          env mp st (ra :: lst) (x_off q) k -> apart (rg st RSP + x_off q) 8 (gs st) 8 ->
          load64 (mem st) (rg st RSP + x_off q) = ra ->
          respects sem (snippet_bytes st (x_scratch q) k) ->
          exists c st', x_code q = EOk (c, kRegisterMap) /\ exec c mp st (Done st') /\
            agree_out (snippet_bytes st (x_scratch q) k) true
              (prun sem (post ++ [r]) (to_pst x st)) (prun sem (post ++ [r]) (to_pst x st')).
Proof.
  intros co m fn fl o d p pl q AN PLAN HP NO H.
  destruct (pop_sites_in co m fn fl o d p pl q AN PLAN H) as (cl & b & HB & E).
  exists cl, b. split; [auto|]. intros body r SH.
  destruct (data co m fn AN b HB) as (_ & DX & _).
  assert (RUN : x_ok q -> forall pre post, body = pre ++ post ->
     (forall n, In n (x_dead q) -> In n (dead_before (post ++ [r]))) ->
     (forall j, In j post -> i_op j = OPop \/ flagless j) ->
     forall (X : Type) (sem : insn -> pst Machine.flags X -> option (pst Machine.flags X)) (x : X) mp st ra lst k,
          (forall j, In j (b_insns (co_block co b)) -> i_op j = OPop \/ i_op j = ORet -> flagless j) ->
          env mp st (ra :: lst) (x_off q) k -> apart (rg st RSP + x_off q) 8 (gs st) 8 ->
          load64 (mem st) (rg st RSP + x_off q) = ra ->
          respects sem (snippet_bytes st (x_scratch q) k) ->
          exists c st', x_code q = EOk (c, kRegisterMap) /\ exec c mp st (Done st') /\
            agree_out (snippet_bytes st (x_scratch q) k) true
              (prun sem (post ++ [r]) (to_pst x st)) (prun sem (post ++ [r]) (to_pst x st'))).
  { intros OK pre post EB DI FR X sem x mp st ra lst k FL HE HA HR RS.
    destruct (exit_run_tight q mp st (ra :: lst) k OK HE HA) as (c & X1 & X2).
    rewrite HR in X2. cbn [unwind clean_above] in X2. rewrite Z.eqb_refl in X2. destruct X2 as [X2 _].
    destruct X2 as (s' & Y1 & _ & Y2 & Y3 & Y4 & Y5); auto.
    exists c, s'. split; [auto|]. split; [auto|]. destruct SH as (S1 & S2 & S3).
    apply (dead_agree Machine.flags X sem _ RS true (post ++ [r])).
    - intros _ j Hj.
      assert (Hi : In j (b_insns (co_block co b))).
      { rewrite S1, EB, <- app_assoc. apply in_or_app. right. exact Hj. }
      apply in_app_or in Hj. destruct Hj as [Hj|[<-|[]]].
      + destruct (FR j Hj); auto.
      + destruct S3 as [S3|(r' & S3 & S4)]; [discriminate|]. injection S3 as <-. auto.
    - unfold to_pst. split; [|split; [|split]]; cbn [p_rg p_mem p_fl p_rest].
      + intros r0 Hr. symmetry. apply Y2. intros K. apply Hr. apply DI. exact K.
      + intros a Ha. symmetry. apply Y5; intros K; apply Ha; unfold snippet_bytes, inside in *; [left|right]; lia.
      + discriminate.
      + reflexivity. }
  unfold pop_site in E.
  destruct (opt_mid fl (s_exitData (m fn)) (startof co b)) as [md|] eqn:OM; injection E as <- <-.
  - assert (EP : exit_point (b_insns (co_block co b)) = Some md).
    { unfold opt_mid in OM. destruct (fl_no_reg_save fl); [discriminate|]. rewrite DX in OM. auto. }
    assert (EM : x_mid (mkXreq o (bpoint co b) (jsum_of d (m fn)) true) = Some md).
    { unfold x_mid, exit_mid. cbn [x_pt x_js x_orig bpoint p_block jsum_of j_exitData].
      unfold startof in *. rewrite DX. exact EP. }
    destruct (exit_point_ok _ body [r] md (an_insns _ _ _ AN _ HB) SH EP) as (pre & i & post & A & B & C & D & GM & DI).
    exists pre, (i :: post). split; [auto|]. split.
    { right. exists i, post. rewrite B. auto. }
    assert (OK : x_ok (mkXreq o (bpoint co b) (jsum_of d (m fn)) true)).
    { split; [exact HP|]. rewrite EM. exact GM. }
    apply (RUN OK pre (i :: post) A).
    + intros n K. apply DI. unfold x_dead in K. rewrite EM in K. exact K.
    + intros j Hj. rewrite Forall_forall in C. destruct (C j Hj) as [_ [C2|[_ C2]]]; auto.
  - exists body, []. rewrite app_nil_r. split; [auto|]. split; [auto|].
    assert (EM : x_mid (mkXreq o (bpoint co b) (jsum_of d (m fn)) false) = None) by reflexivity.
    assert (OK : x_ok (mkXreq o (bpoint co b) (jsum_of d (m fn)) false)).
    { split; [exact HP|]. rewrite EM. left. exact NO. }
    apply (RUN OK body [] (eq_sym (app_nil_r body))).
    + intros n K. exfalso. unfold x_dead in K. rewrite EM in K. cbn [request_dead x_o] in K. rewrite NO in K. exact K.
    + intros j [].
Qed.
Print Assumptions C59_pop_partial.
Example C59_pop_case :
  exists p q body, analysed c_line (ssum c_line) 0 /\ Decision.instr fl_stack c_line 0 (Some (ssum c_line 0%nat)) = p /\
    In (BeforeInsn (false, 0%nat) 4109, StackPop q) (plan_sites c_line fl_stack wopts no_dead (ssum c_line 0%nat) 0 p) /\
    x_dead q = ["x86_64::rcx"]%string /\ block_shape (b_insns (co_block c_line 0)) body [x_ret 4110] /\
    Forall flagless (b_insns (co_block c_line 0)).
Proof.
  do 2 eexists. exists (firstn 6 (b_insns (co_block c_line 0))). split; [apply scode_analysed; vm_compute; reflexivity|].
  split; [vm_compute; reflexivity|]. split; [right; left; vm_compute; reflexivity|].
  split; [vm_compute; reflexivity|]. split; [|repeat constructor; intros n K; cbn in K; intuition discriminate]. split; [reflexivity|]. split; [repeat constructor; discriminate|].
  right. eexists; split; reflexivity.
Qed.

(** ** C60: register frames *)
(** An instruction that does not write a register leaves it alone. *)
Definition keeps_unwritten {F X} (sem : insn -> pst F X -> option (pst F X)) : Prop :=
  forall i s s' r, sem i s = Some s' -> (forall p, ~ In (MG r p) (i_written i)) -> p_rg s' r = p_rg s r.
(** Two states that differ in [r] only. *)
Definition same_but {F X} (r : reg) (s t : pst F X) : Prop :=
  (forall r', r' <> r -> p_rg s r' = p_rg t r') /\ (forall a, p_mem s a = p_mem t a) /\
  p_fl s = p_fl t /\ p_rest s = p_rest t.
Definition untouched (r : reg) (i : insn) : Prop :=
  forall p, ~ In (MG r p) (i_read i) /\ ~ In (MG r p) (i_written i).
Lemma untouched_run F X (sem : insn -> pst F X -> option (pst F X)) r is :
  respects sem (fun _ => False) -> keeps_unwritten sem -> Forall (untouched r) is ->
  forall s t, same_but r s t ->
    match prun sem is s, prun sem is t with
    | None, None => True
    | Some s', Some t' => same_but r s' t' /\ p_rg s' r = p_rg s r /\ p_rg t' r = p_rg t r
    | _, _ => False
    end.
Proof.
  intros RS KU. induction is as [|i is IH]; intros FA s t SB; cbn [prun]; [auto|].
  inversion FA as [|? ? U1 U2]; subst. destruct SB as (S1 & S2 & S3 & S4).
  pose proof (RS i s t false) as R.
  destruct (sem i s) as [s1|] eqn:E1, (sem i t) as [t1|] eqn:E2.
  - destruct R as (R1 & R2 & R3 & R4); auto.
    { discriminate. } { intros r' (p & Hp). apply S1. intros ->. exact (proj1 (U1 p) Hp). }
    assert (SB1 : same_but r s1 t1).
    { split; [|split; [|split]]; auto. }
    assert (K1 : p_rg s1 r = p_rg s r) by (apply (KU i s s1 r E1); intros p; apply U1).
    assert (K2 : p_rg t1 r = p_rg t r) by (apply (KU i t t1 r E2); intros p; apply U1).
    specialize (IH U2 s1 t1 SB1).
    destruct (prun sem is s1) as [s2|], (prun sem is t1) as [t2|]; auto.
    destruct IH as (I1 & I2 & I3). split; [auto|]. split; congruence.
  - exfalso. apply R; auto. { discriminate. } intros r' (p & Hp). apply S1. intros ->. exact (proj1 (U1 p) Hp).
  - exfalso. apply R; auto. { discriminate. } intros r' (p & Hp). apply S1. intros ->. exact (proj1 (U1 p) Hp).
  - auto.
Qed.
(** A register frame is used only in functions that call nothing, and the value of the borrowed
    register survives, and does not matter to, whatever the function executes. *)
Theorem C60_frames_partial :
  forall co m fn fl o d p pl js h,
    analysed co m fn -> Decision.instr fl co fn (Some (m fn)) = p ->
    In (pl, RegPush js h) (plan_sites co fl o d (m fn) fn p) ->
    (forall g, ~ calls co fn g) /\ (forall a n, ~ plt_call co fn a n) /\ ~ unresolved co fn /\
    exists r, borrows js r /\
      ((forall b i, In b (f_blocks (co_fun co fn)) -> In i (b_insns (co_block co b)) ->
         (forall r p, In (MG r p) (i_read i) \/ In (MG r p) (i_written i) -> has_part r p = true) /\
         (forall r, r = RSI \/ r = RDI -> ~ In (MG r P8l) (i_read i) /\ ~ In (MG r P8l) (i_written i))) ->
       forall (F X : Type) (sem : insn -> pst F X -> option (pst F X)) is s t,
         respects sem (fun _ => False) -> keeps_unwritten sem ->
         (forall i, In i is -> exists b, In b (f_blocks (co_fun co fn)) /\ In i (b_insns (co_block co b))) ->
         same_but r s t ->
         match prun sem is s, prun sem is t with
         | None, None => True
         | Some s', Some t' => same_but r s' t' /\ p_rg s' r = p_rg s r /\ p_rg t' r = p_rg t r
         | _, _ => False
         end).
Proof.
  intros co m fn fl o d p pl js h AN PLAN H.
  destruct (reg_sites co m fn fl o d p pl js h AN PLAN H) as (-> & UR & _).
  destruct (reg_frame_inv co m fn fl d AN UR) as (C1 & C2 & C3 & r & NB & BR & TT).
  split; [auto|]. split; [auto|]. split; [auto|]. exists r. split; [auto|].
  intros LOW F X sem is s t RS KU IN SB. apply (untouched_run F X sem r is RS KU); auto.
  apply Forall_forall. intros i Hi. destruct (IN i Hi) as (b & HB & HI).
  destruct (LOW b i HB HI) as [L1 L2].
  assert (A : forall q, In (MG r q) (i_read i) \/ In (MG r q) (i_written i) -> False).
  { intros q Hq. apply (TT b i (MG r q) HB HI Hq). cbn [mreg_name]. apply normalize_alias; [apply L1; auto|].
    destruct BR as [NS _]. destruct (rex_low r q) eqn:R; [|auto]. exfalso.
    destruct r, q; try discriminate; try congruence; [destruct (L2 RSI); auto|destruct (L2 RDI); auto]; tauto. }
  intros q. split; intros K; apply (A q); auto.
Qed.
Print Assumptions C60_frames_partial.
Definition low_freeb (m : mreg) : bool :=
  match m with MG r p => (has_part r p && negb match r, p with RSI, P8l | RDI, P8l => true | _, _ => false end)%bool | _ => true end.
Example C60_case :
  exists p js, analysed (c_frame true) (ssum (c_frame true)) 0 /\
    Decision.instr fl_plain (c_frame true) 0 (Some (ssum (c_frame true) 0%nat)) = p /\
    In (OnEdge (0, 0)%nat, RegPush js 8) (plan_sites (c_frame true) fl_plain wopts no_dead (ssum (c_frame true) 0%nat) 0 p) /\
    forallb (fun b => forallb (fun i => forallb low_freeb (i_read i ++ i_written i)) (b_insns (co_block (c_frame true) b)))
      (f_blocks (co_fun (c_frame true) 0)) = true /\
    respects xsem (fun _ => False) /\ keeps_unwritten xsem.
Proof.
  do 2 eexists. split; [apply scode_analysed; vm_compute; reflexivity|].
  split; [vm_compute; reflexivity|]. split; [left; vm_compute; reflexivity|]. split; [reflexivity|].
  split; [apply xsem_respects|].
  assert (KF : forall r l, (forall p, ~ In (MG r p) l) -> killsb r l = false).
  { intros r l NW. destruct (killsb r l) eqn:K; [|auto]. exfalso. unfold killsb in K.
    apply existsb_exists in K. destruct K as (w & Hw & K). destruct w as [r' p'| |]; try discriminate.
    destruct p'; try discriminate; destruct (reg_eq_dec r r') as [->|]; try discriminate; eapply NW; eauto. }
  intros i s s' r E NW. pose proof (KF r _ NW) as KR. unfold xsem in E.
  destruct (stack_op i && negb (mg_in RSP (i_read i) && killsb RSP (i_written i)))%bool eqn:SO; [discriminate|].
  injection E as <-. cbn [p_rg]. destruct (reg_eq_dec r RSP) as [->|NE]; [|rewrite KR; reflexivity].
  unfold xrsp. rewrite KR in *. rewrite andb_false_r in SO. cbn [negb] in SO. rewrite andb_true_r in SO.
  unfold stack_op in SO. apply orb_false_iff in SO. destruct SO as [-> ->]. reflexivity.
Qed.
(** Refuted without the condition on sil and dil: [c_sil] keeps a value in sil, and the register
    frame borrows rsi. *)
Theorem C60_refuted :
  exists co m fn fl o d p pl js h b i,
    analysed co m fn /\ Decision.instr fl co fn (Some (m fn)) = p /\
    In (pl, RegPush js h) (plan_sites co fl o d (m fn) fn p) /\ borrows js RSI /\
    In b (f_blocks (co_fun co fn)) /\ In i (b_insns (co_block co b)) /\ In (MG RSI P8l) (i_written i).
Proof.
  exists c_sil, (ssum c_sil), 0%nat, fl_plain, wopts, no_dead. do 4 eexists.
  exists 0%nat. eexists. split; [apply scode_analysed; vm_compute; reflexivity|].
  split; [vm_compute; reflexivity|]. split; [left; vm_compute; reflexivity|].
  split; [split; [discriminate|]; eexists; vm_compute; reflexivity|].
  split; [left; reflexivity|]. split; [right; left; reflexivity|]. left; reflexivity.
Qed.
Print Assumptions C60_refuted.
