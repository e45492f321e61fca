(** * C68, C69: checks in front of jumps to other functions, and registers taken as dead *)
From Coq Require Import ZArith Bool Lia ZifyBool ZifyNat Arith String List.
From Verif Require Import Machine MachineFacts Jit ShadowSpec JitFacts JitPushPop History RegFrame Witness.
From Verif Require Import Dfs Binary CallGraph InterProc MemPasses Pipeline RegNames BlockLive ExSem
  Reach SafePaths Lowering FastPath Decision FullRun Sites SiteEx DeadRegs P_Regs P_Sites P_SiteUse.
Import ListNotations.
Open Scope Z_scope.
Local Notation mem := Machine.mem.

Lemma end_site co m fn fl o d p cl b q :
  analysed co m fn -> Decision.instr fl co fn (Some (m fn)) = p ->
  In (AtEnd (cl, b), StackPop q) (plan_sites co fl o d (m fn) fn p) ->
  In b (f_blocks (co_fun co fn)) /\ q = mkXreq o (bpoint co b) (jsum_of d (m fn)) false.
Proof.
  intros AN PLAN H. destruct (pop_sites_in co m fn fl o d p _ q AN PLAN H) as (cl' & b' & HB & E).
  unfold pop_site in E. destruct (opt_mid fl (s_exitData (m fn)) (startof co b')) as [md|]; [discriminate|].
  injection E as <- <- <-. auto.
Qed.
(** Without register data the check keeps every register not in the dead set found for the point. *)
Lemma end_run co o d s b mp st ra lst k :
  plain o -> good_dead o (exit_dead_set (bpoint co b) (jsum_of d s)) ->
  let q := mkXreq o (bpoint co b) (jsum_of d s) false in
  env mp st (ra :: lst) 0 k -> apart (rg st RSP) 8 (gs st) 8 -> load64 (mem st) (rg st RSP) = ra ->
  exists c st', x_code q = EOk (c, kRegisterMap) /\ exec c mp st (Done st') /\
    (forall r, o_optimize_regs o = false \/ ~ In (reg_name r) (exit_dead_set (bpoint co b) (jsum_of d s)) ->
       rg st' r = rg st r) /\ gs st' = gs st /\
    (forall a, ~ snippet_bytes st (x_scratch q) k a -> mem st' a = mem st a).
Proof.
  intros HP GD q HE HA HR.
  assert (OK : x_ok q) by (split; [exact HP|exact GD]).
  destruct (exit_run_tight q mp st (ra :: lst) k OK) as (c & X1 & X2).
  { change (x_off q) with 0. exact HE. }
  { change (x_off q) with 0. rewrite Z.add_0_r. exact HA. }
  change (x_off q) with 0 in X2. rewrite Z.add_0_r, HR in X2.
  cbn [unwind clean_above] in X2. rewrite Z.eqb_refl in X2. destruct X2 as [X2 _].
  destruct X2 as (s' & Y1 & _ & Y2 & Y3 & Y4 & Y5); auto.
  exists c, s'. repeat match goal with |- _ /\ _ => split end; auto.
  - intros r Hr. apply Y2. change (x_dead q) with
      (if o_optimize_regs o then exit_dead_set (bpoint co b) (jsum_of d s) else []).
    destruct (o_optimize_regs o); [|intros []]. destruct Hr; [discriminate|auto].
  - intros a Ha. apply Y5; intros K; apply Ha; unfold snippet_bytes, inside in *; [left|right]; lia.
Qed.

(** ** C68

    A check at the end of a block runs in front of the last instruction.  If this jumps to another
    function, the callee must find every register, every byte and the jump's condition as they were. *)
Theorem C68_partial :
  forall co m fn fl o d p cl b q,
    analysed co m fn -> Decision.instr fl co fn (Some (m fn)) = p -> plain o -> o_optimize_regs o = false ->
    In (AtEnd (cl, b), StackPop q) (plan_sites co fl o d (m fn) fn p) ->
    forall body j, b_insns (co_block co b) = body ++ [j] -> flagless j ->
    forall (X : Type) (sem : insn -> pst Machine.flags X -> option (pst Machine.flags X)) (x : X) mp st ra lst k,
      env mp st (ra :: lst) 0 k -> apart (rg st RSP) 8 (gs st) 8 -> load64 (mem st) (rg st RSP) = ra ->
      respects sem (snippet_bytes st 16 k) ->
      exists c st', x_code q = EOk (c, kRegisterMap) /\ exec c mp st (Done st') /\
        (forall r, rg st' r = rg st r) /\ gs st' = gs st /\
        (forall a, ~ snippet_bytes st 16 k a -> mem st' a = mem st a) /\
        agree_out (snippet_bytes st 16 k) true (prun sem [j] (to_pst x st)) (prun sem [j] (to_pst x st')).
Proof.
  intros co m fn fl o d p cl b q AN PLAN HP NO H body j EB FJ X sem x mp st ra lst k HE HA HR RS.
  destruct (end_site co m fn fl o d p cl b q AN PLAN H) as [HB ->].
  destruct (end_run co o d (m fn) b mp st ra lst k HP (or_introl NO) HE HA HR)
    as (c & s' & Y1 & Y2 & Y3 & Y4 & Y5).
  assert (E16 : x_scratch (mkXreq o (bpoint co b) (jsum_of d (m fn)) false) = 16).
  { unfold x_scratch, request_scratch. cbn. rewrite NO. reflexivity. }
  rewrite E16 in Y5.
  exists c, s'. repeat match goal with |- _ /\ _ => split end; auto.
  apply (dead_agree Machine.flags X sem _ RS true [j]).
  - intros _ i [<-|[]]. exact FJ.
  - unfold to_pst. split; [|split; [|split]]; cbn [p_rg p_mem p_fl p_rest].
    + intros r _. symmetry. auto.
    + intros a Ha. symmetry. auto.
    + discriminate.
    + reflexivity.
Qed.
Print Assumptions C68_partial.

(** [s_tail] stores through rsi, sets rdx, rcx and r8, then either returns or jumps to a function
    with five arguments.  The jump is a block of its own, right after the return. *)
Definition t_jump (t : etype) : edge := mkEdge t false true 50.
Definition s_tail : nat -> block := fun b =>
  match b with
  | 0%nat => mkBlock 4096 4116 4118 [s_edge COND_TAKEN 2; s_edge COND_NOT_TAKEN 1]
      [x_wild 4096 RSI RDI; x_op 4100 [] [MG RDX P64]; x_op 4104 [] [MG RCX P64]; x_op 4108 [] [MG R8 P64];
       x_op 4112 [MG RDI P64] [MFlag "x86_64::zf"]; x_op 4116 [MFlag "x86_64::zf"] []] (Some (-8)) (Some (-8))
  | 1%nat => mkBlock 4118 4118 4119 [s_ret] [x_ret 4118] (Some (-8)) (Some (-8))
  | _ => mkBlock 4119 4119 4124 [t_jump DIRECT] [x_op 4119 [] []] (Some (-8)) (Some (-8))
  end.
Definition c_tail : code := scode 3 [1; 2]%nat s_tail.
Example C68_case :
  exists p q, analysed c_tail (ssum c_tail) 0 /\ Decision.instr fl_stack c_tail 0 (Some (ssum c_tail 0%nat)) = p /\
    In (AtEnd (false, 2%nat), StackPop q) (plan_sites c_tail fl_stack wopts no_dead (ssum c_tail 0%nat) 0 p) /\
    b_insns (co_block c_tail 2) = [] ++ [x_op 4119 [] []] /\ flagless (x_op 4119 [] []) /\
    env mp_all (wstate [20; 10] 20) [20; 10] 0 8 /\ load64 (mem (wstate [20; 10] 20)) wsp = 20 /\
    (forall st k, respects (rsem Machine.flags unit) (snippet_bytes st 16 k)).
Proof.
  do 2 eexists. split; [apply scode_analysed; vm_compute; reflexivity|].
  split; [vm_compute; reflexivity|]. split; [right; right; left; vm_compute; reflexivity|].
  split; [reflexivity|]. split; [intros n []|]. split; [|split].
  - apply wstate_env; [|cbn; lia|lia]. intros v [<-|[<-|[]]]; unfold W; lia.
  - apply wstate_ra. unfold W; lia.
  - intros. apply rsem_respects.
Qed.

(** A conditional jump to another function. *)
Definition s_cond : nat -> block := fun b =>
  match b with
  | 0%nat => mkBlock 4096 4104 4110 [t_jump COND_TAKEN; s_edge COND_NOT_TAKEN 1]
      [x_wild 4096 RSI RDI; x_op 4100 [MG RDI P64] [MFlag "x86_64::zf"]; x_op 4104 [MFlag "x86_64::zf"] []]
      (Some (-8)) (Some (-8))
  | _ => mkBlock 4110 4110 4111 [s_ret] [x_ret 4110] (Some (-8)) (Some (-8))
  end.
Definition c_cond : code := scode 2 [0; 1]%nat s_cond.
(** Refuted for these: the check ends with the comparison that found the return address, so the
    zero flag is set when the jump is reached, whatever the function had computed. *)
Theorem C68_refuted :
  exists co m fn fl o d p b q j e c st st',
    analysed co m fn /\ Decision.instr fl co fn (Some (m fn)) = p /\ plain o /\ o_optimize_regs o = false /\
    In (AtEnd (false, b), StackPop q) (plan_sites co fl o d (m fn) fn p) /\
    In j (b_insns (co_block co b)) /\ i_addr j = b_last (co_block co b) /\ In (MFlag "x86_64::zf") (i_read j) /\
    In e (b_targets (co_block co b)) /\ e_ty e = COND_TAKEN /\ e_inter e = true /\
    env mp_all st [20; 10] 0 8 /\ load64 (mem st) (rg st RSP) = 20 /\
    x_code q = EOk (c, kRegisterMap) /\ exec c mp_all st (Done st') /\
    ZF (Machine.fl st) = false /\ ZF (Machine.fl st') = true.
Proof.
  exists c_cond, (ssum c_cond), 0%nat, fl_stack, wopts, no_dead. eexists. exists 0%nat. eexists.
  exists (x_op 4104 [MFlag "x86_64::zf"] []), (t_jump COND_TAKEN). eexists. exists (wstate [20; 10] 20). eexists.
  split; [apply scode_analysed; vm_compute; reflexivity|].
  split; [vm_compute; reflexivity|]. split; [apply wopts_plain|]. split; [reflexivity|].
  split; [right; left; vm_compute; reflexivity|].
  split; [right; right; left; reflexivity|]. split; [reflexivity|]. split; [left; reflexivity|].
  split; [left; reflexivity|]. split; [reflexivity|]. split; [reflexivity|].
  split; [apply wstate_env; [intros v [<-|[<-|[]]]; unfold W; lia|cbn; lia|lia]|].
  split; [apply wstate_ra; unfold W; lia|].
  split; [vm_compute; reflexivity|].
  split; [apply (exec_done 50); vm_compute; reflexivity|]. split; reflexivity.
Qed.
Print Assumptions C68_refuted.

(** ** C69

    With --optimize_regs the snippets use registers the liveness analyzer calls dead without saving
    them.  No register it calls live, and none of those a callee must keep, may change. *)
Definition never_dead : list reg := [RAX; RBX; RBP; RSP; R12; R13; R14; R15].
Definition needed (live : option (reg -> bool)) (r : reg) : Prop :=
  In r never_dead \/ match live with Some l => l r = true | None => True end.
Lemma needed_not_dead lv b af r : needed (lv b af) r -> ~ In (reg_name r) (dead_regs lv b af).
Proof.
  intros N K. apply dead_regs_in in K. destruct K as [A (l & E & B)]. rewrite E in N.
  destruct N as [N|N]; [|congruence].
  cbn in A, N. intuition (subst; discriminate).
Qed.

Theorem C69_entry :
  forall co m fn fl o lv p q,
    let d := dead_pass lv co fn (m fn) in
    analysed co m fn -> Decision.instr fl co fn (Some (m fn)) = p -> plain o -> good_dead o (di_entry d) ->
    In (AtEntry, StackPush q) (plan_sites co fl o d (m fn) fn p) ->
    forall mp st lst k, env mp st lst 0 k -> (List.length lst < k)%nat ->
      exists c st', e_code q = EOk (c, kRegisterMap) /\ exec c mp st (Done st') /\
        (forall r, needed (lv (f_entry (co_fun co fn)) false) r -> rg st' r = rg st r) /\
        Machine.fl st' = Machine.fl st /\ gs st' = gs st.
Proof.
  intros co m fn fl o lv p q d AN PLAN HP GD H mp st lst k HE HL.
  assert (EQ : q = mkEreq o (bpoint co (f_entry (co_fun co fn))) (jsum_of d (m fn)) false 0 false).
  { destruct p as [|l|mv ps rg|slow ps fast| |]; try contradiction; cbn [plan_sites] in H.
    - exfalso. unfold lowered_sites in H. rewrite !in_app_iff, !in_map_iff in H.
      unfold edge_site, block_site, pop_site in H.
      destruct H as [(x & E & _)|[(x & E & _)|(x & E & _)]].
      + discriminate.
      + destruct (l_reg l); [discriminate|]. destruct (opt_mid _ _ _); discriminate.
      + destruct (l_reg l); [discriminate|]. destruct (opt_mid _ _ _); discriminate.
    - destruct H as [H|H].
      + unfold entry_site in H. destruct rg; [discriminate|].
        destruct mv; [destruct (zfind _ _)|]; congruence.
      + exfalso. apply in_map_iff in H. destruct H as (x & E & _). unfold pop_site in E.
        destruct rg; [discriminate|]. destruct (opt_mid _ _ _); discriminate.
    - exfalso. destruct H as [H|H].
      + unfold slow_site in H. destruct (opt_mid _ _ _); discriminate.
      + apply in_map_iff in H. destruct H as (x & E & _). unfold pop_site in E.
        destruct (opt_mid _ _ _); discriminate. }
  subst q. set (q := mkEreq _ _ _ _ _ _).
  assert (OK : e_ok q) by (split; [exact HP|exact GD]).
  destruct (entry_run_tight q mp st lst k OK HE HL) as (c & s' & X1 & X2 & _ & X4 & _ & X6 & X7 & _).
  exists c, s'. repeat match goal with |- _ /\ _ => split end; auto.
  intros r N. apply X4. intros K.
  apply (needed_not_dead lv (f_entry (co_fun co fn)) false r N).
  change (In (reg_name r) (if o_optimize_regs o then di_entry d else [])) in K.
  destruct (o_optimize_regs o); [|destruct K].
  unfold d, dead_pass in K. destruct (s_assume_unsafe (m fn)); [destruct K|exact K].
Qed.
Print Assumptions C69_entry.

(** The sets of the exits are stored under the end of the block and looked up with the address of its
    last instruction.  Unless an exit block ends where this one's last instruction starts, no set is
    found and every register survives. *)
Theorem C69_exit_partial :
  forall co m fn fl o lv p cl b q,
    let d := dead_pass lv co fn (m fn) in
    analysed co m fn -> Decision.instr fl co fn (Some (m fn)) = p -> plain o ->
    In (AtEnd (cl, b), StackPop q) (plan_sites co fl o d (m fn) fn p) ->
    (forall b', In b' (f_exits (co_fun co fn)) -> b_end (co_block co b') <> b_last (co_block co b)) ->
    forall mp st ra lst k,
      env mp st (ra :: lst) 0 k -> apart (rg st RSP) 8 (gs st) 8 -> load64 (mem st) (rg st RSP) = ra ->
      exists c st', x_code q = EOk (c, kRegisterMap) /\ exec c mp st (Done st') /\
        (forall r, rg st' r = rg st r) /\ gs st' = gs st.
Proof.
  intros co m fn fl o lv p cl b q d AN PLAN HP H NE mp st ra lst k HE HA HR.
  destruct (end_site co m fn fl o d p cl b q AN PLAN H) as [HB ->].
  assert (EN : exit_dead_set (bpoint co b) (jsum_of d (m fn)) = []).
  { unfold exit_dead_set. cbn [jsum_of j_dead_exit bpoint p_addr].
    destruct (zfind (di_exit d) (b_last (co_block co b))) as [v|] eqn:E; [|reflexivity]. exfalso.
    unfold d, dead_pass in E. destruct (s_assume_unsafe (m fn)); [discriminate|]. cbn [di_exit] in E.
    apply (fold_zset (fun b0 => b_end (co_block co b0)) (fun b0 => dead_regs lv b0 true)) in E.
    destruct E as [E|(b' & I & E & _)]; [discriminate|]. apply (NE b' I E). }
  destruct (end_run co o d (m fn) b mp st ra lst k HP) as (c & s' & Y1 & Y2 & Y3 & Y4 & _); auto.
  { right. left. exact EN. }
  exists c, s'. repeat match goal with |- _ /\ _ => split end; auto.
  intros r. apply Y3. right. rewrite EN. intros [].
Qed.
Print Assumptions C69_exit_partial.

(** In [c_tail] two registers are live at the start, five in front of the jump to the other function,
    none of the eight after the return. *)
Definition lv_tail : liveness := fun b after => Some (fun r =>
  match b, after, r with
  | 1%nat, true, _ => match r with RAX => true | _ => false end
  | 2%nat, _, (RDI | RSI | RDX | RCX | R8) => true
  | _, _, (RDI | RSI) => true
  | _, _, _ => false
  end).
Definition d_tail : dead_info := dead_pass lv_tail c_tail 0 (ssum c_tail 0%nat).
Example C69_case :
  exists p q q', analysed c_tail (ssum c_tail) 0 /\ Decision.instr fl_nosave c_tail 0 (Some (ssum c_tail 0%nat)) = p /\
    o_optimize_regs wopts_regs = true /\ List.length (di_entry d_tail) = 6%nat /\
    In (AtEntry, StackPush q) (plan_sites c_tail fl_nosave wopts_regs d_tail (ssum c_tail 0%nat) 0 p) /\
    e_scratch q = 0 /\
    In (AtEnd (false, 1%nat), StackPop q') (plan_sites c_tail fl_nosave wopts_regs d_tail (ssum c_tail 0%nat) 0 p) /\
    x_scratch q' = 16 /\
    (forall b', In b' (f_exits (co_fun c_tail 0)) -> b_end (co_block c_tail b') <> b_last (co_block c_tail 1)).
Proof.
  do 3 eexists. split; [apply scode_analysed; vm_compute; reflexivity|].
  split; [vm_compute; reflexivity|]. split; [reflexivity|]. split; [vm_compute; reflexivity|].
  split; [left; vm_compute; reflexivity|]. split; [vm_compute; reflexivity|].
  split; [right; left; vm_compute; reflexivity|]. split; [vm_compute; reflexivity|].
  intros b' [<-|[<-|[]]]; vm_compute; discriminate.
Qed.
(** Refuted otherwise: the check in front of the jump of [c_tail] finds the set of the return right
    before it and overwrites r8, which holds the fifth argument. *)
Theorem C69_refuted :
  exists co m fn fl o lv p b q r c st st',
    let d := dead_pass lv co fn (m fn) in
    analysed co m fn /\ Decision.instr fl co fn (Some (m fn)) = p /\ plain o /\
    In (AtEnd (false, b), StackPop q) (plan_sites co fl o d (m fn) fn p) /\
    In r [RDI; RSI; RDX; RCX; R8; R9] /\
    (exists l, lv b true = Some l /\ l r = true) /\ (exists l, lv b false = Some l /\ l r = true) /\
    env mp_all st [20; 10] 0 8 /\ load64 (mem st) (rg st RSP) = 20 /\
    x_code q = EOk (c, kRegisterMap) /\ exec c mp_all st (Done st') /\ rg st' r <> rg st r.
Proof.
  exists c_tail, (ssum c_tail), 0%nat, fl_stack, wopts_regs, lv_tail. eexists. exists 2%nat. eexists.
  exists R8. eexists. exists (wstate [20; 10] 20). eexists. cbv zeta.
  split; [apply scode_analysed; vm_compute; reflexivity|].
  split; [vm_compute; reflexivity|]. split; [apply wopts_regs_plain|].
  split; [right; right; left; vm_compute; reflexivity|].
  split; [cbn; tauto|]. split; [eexists; split; reflexivity|]. split; [eexists; split; reflexivity|].
  split; [apply wstate_env; [intros v [<-|[<-|[]]]; unfold W; lia|cbn; lia|lia]|].
  split; [apply wstate_ra; unfold W; lia|].
  split; [vm_compute; reflexivity|].
  split; [apply (exec_done 50); vm_compute; reflexivity|]. vm_compute. discriminate.
Qed.
Print Assumptions C69_refuted.
