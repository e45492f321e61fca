(** * Properties C10, C11, C13-C19: runtime, register frames, options. *)
From Coq Require Import ZArith List Bool String Lia ZifyBool ZifyNat.
From Verif Require Import Machine MachineFacts Jit ShadowSpec JitPushPop History RegFrame
  Runtime FrameVal Opts Witness Capacity.
Import ListNotations.
Open Scope Z_scope.

(** ** C10: --validate_frame accepts legitimate returns -- false of the code.
    Every legitimate return traps: after the entry code, any body that leaves
    the shadow region alone and comes back with the same rsp, the exit code
    raises SIGILL.  [ps] are the older entries (recorded word, recorded
    frame); older frames lie at or above rsp. *)
Theorem C10_validate_frame_refuted :
  forall e x mp s ps,
    framed (e_o e) -> e_orig e = false -> e_fixed e = false ->
    o_optimize_regs (e_o e) = false -> e_height e = 0 ->
    framed (x_o x) -> x_orig x = false -> o_optimize_regs (x_o x) = false ->
    wf s -> mapped mp (rg s RSP - 24) 24 -> mapped mp (rg s RSP) 8 ->
    8 < rg s RSP -> rg s RSP + 8 < W ->
    mapped mp (gs s) (48 + 16 * Z.of_nat (List.length ps)) ->
    gs s + 48 + 16 * Z.of_nat (List.length ps) < W ->
    apart (rg s RSP - 24) 24 (gs s) (48 + 16 * Z.of_nat (List.length ps)) ->
    frame_rep (mem s) (gs s) ps ->
    (forall v fr, In (v, fr) ps -> rg s RSP <= fr) ->
    exists ce cx s1, e_code e = EOk (ce, kRegisterMap) /\ x_code x = EOk (cx, kRegisterMap) /\
      exec ce mp s (Done s1) /\ rg s1 RSP = rg s RSP /\ gs s1 = gs s /\
      forall s2, wf s2 -> gs s2 = gs s -> rg s2 RSP = rg s RSP ->
        (forall y, inside (gs s) (48 + 16 * Z.of_nat (List.length ps)) y ->
                   mem s2 y = mem s1 y) ->
        exec cx mp s2 Trap.
Proof. exact frame_always_traps. Qed.
Print Assumptions C10_validate_frame_refuted.
Example C10_case :
  framed wopts_frame /\
  frame_rep (store64 (mem (wstate [] 4242)) (wgs + 16) 0) wgs [] /\
  is_trap (run 100 (ecode (x_code (mkXreq wopts_frame wpt wjs false))) mp_all
    (enter (final (wstate [] 4242)
      (run 100 (ecode (e_code (mkEreq wopts_frame wpt wjs false 0 false))) mp_all
           (enter (wstate [] 4242)))))) = true.
Proof.
  split; [repeat split; discriminate|]. split.
  - split; [vm_compute; reflexivity|]. split; [vm_compute; reflexivity|].
    split; [vm_compute; reflexivity|]. intros i v f H. destruct i; discriminate.
  - vm_compute. reflexivity.
Qed.

(** The entry code on its own disturbs nothing, flags included: it writes the three words below
    rsp, the pointer of the shadow stack and the new entry.  The entry is the value of r10 and
    rsp, and not the return address, whatever it is. *)
Theorem C10_entry :
  forall e mp s ps,
    framed (e_o e) -> e_orig e = false -> e_fixed e = false ->
    o_optimize_regs (e_o e) = false -> e_height e = 0 ->
    wf s -> mapped mp (rg s RSP - 24) 24 -> mapped mp (rg s RSP) 8 -> rg s RSP + 8 < W ->
    mapped mp (gs s) (48 + 16 * Z.of_nat (List.length ps)) ->
    gs s + 48 + 16 * Z.of_nat (List.length ps) < W ->
    apart (rg s RSP - 24) 24 (gs s) (48 + 16 * Z.of_nat (List.length ps)) ->
    frame_rep (mem s) (gs s) ps ->
    exists c s', e_code e = EOk (c, kRegisterMap) /\ exec c mp s (Done s') /\
      frame_rep (mem s') (gs s') ((rg s R10, rg s RSP) :: ps) /\
      (forall r, rg s' r = rg s r) /\ fl s' = fl s /\ gs s' = gs s /\
      (forall x, ~ inside (rg s RSP - 24) 24 x -> ~ inside (gs s) 8 x ->
         ~ inside (gs s + 32 + 16 * Z.of_nat (List.length ps)) 16 x -> mem s' x = mem s x).
Proof.
  intros e mp s ps F E1 E2 E3 EH HW HS MR SW MG HT HA HF.
  destruct (frame_entry e mp s ps) as (c & s' & A1 & A2 & A3 & _ & A5 & A6 & A7 & A8); auto.
  exists c, s'. rewrite A3. auto 10.
Qed.
Print Assumptions C10_entry.
(** All flags set *)
Example C10_entry_case :
  let s0 := wstate [] 4242 in
  let s := mkState (rg s0) (store64 (mem s0) (wgs + 16) 0) (gs s0) (mkFlags true true true true true true true) 0 in
  let s' := final s (run 100 (ecode (e_code (mkEreq wopts_frame wpt wjs false 0 false))) mp_all (enter s)) in
  framed wopts_frame /\ frame_rep (mem s) (gs s) [] /\ fl s' = fl s /\ rg s' R10 = rg s R10 /\
  load64 (mem s') (gs s) = gs s + 48 /\ load64 (mem s') (gs s + 32) = rg s R10 /\ load64 (mem s') (gs s + 40) = rg s RSP.
Proof.
  split; [repeat split; discriminate|]. split; [|vm_compute; auto 10].
  split; [vm_compute; reflexivity|]. split; [vm_compute; reflexivity|].
  split; [vm_compute; reflexivity|]. intros i v f H. destruct i; discriminate.
Qed.

(** ** C11: the entry code stays inside the shadow region *)
Theorem C11_inside_region_partial :
  forall q mp s l,
    e_ok q -> env mp s l (e_off q) capacity -> (List.length l < capacity)%nat ->
    exists c s', e_code q = EOk (c, kRegisterMap) /\ exec c mp s (Done s') /\
      (forall x, mem s' x <> mem s x ->
         inside (rg s RSP - 16) 16 x \/ inside (gs s) stack_sz x).
Proof. exact entry_inside. Qed.
Print Assumptions C11_inside_region_partial.
Example C11_case :
  env mp_all (wstate [30; 20; 10] 4242) [30; 20; 10] (e_off wenter) capacity /\
  (List.length [30; 20; 10]%Z < capacity)%nat.
Proof.
  pose proof capacity_eq. split; [|cbn [List.length]; lia].
  apply wstate_env; [|cbn [List.length]; lia|lia].
  intros v Hv. cbn in Hv. unfold W. intuition lia.
Qed.
(** At depth 1048572 the next protected call writes behind the allocation. *)
Theorem C11_deep_recursion_refuted :
  exists c s',
    let l := repeat 1 capacity in
    let s := wstate l 77 in
    e_code wenter = EOk (c, kRegisterMap) /\
    env mp_all s l 0 (S capacity) /\
    exec c mp_all s (Done s') /\
    load64 (mem s) (gs s + stack_sz) = 0 /\
    load64 (mem s') (gs s + stack_sz) = 77.
Proof. exact entry_overflow. Qed.
Print Assumptions C11_deep_recursion_refuted.

(** ** C13: a created thread runs the caller's function on a fresh stack *)
Theorem C13_thread_runs_requested_function :
  forall mp m base es p i t g fn arg,
    psteps mp (proc0 m base) es p ->
    nth_error (threads p) i = Some t -> t_st t = Running g fn arg ->
    nth_error (creates es) i = Some (fn, arg) /\ starts i es = 1%nat /\
    (forall j u g' fn' arg', i <> j -> nth_error (threads p) j = Some u ->
       t_st u = Running g' fn' arg' -> apart g stack_sz g' stack_sz) /\
    In (g, stack_sz) (blocks p).
Proof. exact thread_runs. Qed.
Print Assumptions C13_thread_runs_requested_function.

(** At its start the thread's shadow stack is empty, and neither creating nor
    starting it changes any other shadow stack or pending request. *)
Theorem C13_fresh_shadow_stack :
  forall mp p p',
    (forall i addr, pstep mp p (PStart i addr) p' ->
       shadow_rep (pm p') addr [] /\
       forall b k x, In (b, k) (blocks p) -> inside b k x -> pm p' x = pm p x) /\
    (forall fn arg info, pstep mp p (PCreate fn arg info) p' ->
       forall b k x, In (b, k) (blocks p) -> inside b k x -> pm p' x = pm p x).
Proof.
  intros mp p p'. split.
  - intros i addr H. destruct (start_effect _ _ _ _ _ H) as (A & B & _). auto.
  - intros fn arg info H. eapply create_effect; eauto.
Qed.
Print Assumptions C13_fresh_shadow_stack.
Theorem C13_start_possible :
  forall mp p i t addr,
    nth_error (threads p) i = Some t -> t_st t = Created ->
    fresh mp (blocks p) addr stack_sz -> exists p', pstep mp p (PStart i addr) p'.
Proof. exact start_possible. Qed.
Print Assumptions C13_start_possible.

(** Instance: two threads created, the second started first. *)
Example C13_case :
  exists p t, psteps mp_all (proc0 (fun _ => 0) 16777216)
     [PCreate 5000 11 1024; PCreate 6000 22 2048; PStart 1 33554432] p /\
     nth_error (threads p) 1 = Some t /\ t_st t = Running 33554432 6000 22.
Proof.
  pose (p0 := proc0 (fun _ => 0) 16777216).
  assert (FR : forall bs a n, 0 <= a -> a + n < W ->
      (forall b k, In (b, k) bs -> apart a n b k) -> fresh mp_all bs a n).
  { intros bs a n H1 H2 H3. split; [apply mapped_all; lia|]. auto. }
  eassert (S1 : pstep mp_all p0 (PCreate 5000 11 1024) _).
  { apply ps_create; [|unfold W; lia|unfold W; lia].
    apply FR; [lia|unfold W; lia|]. intros b k [E|[]]. inversion E; subst.
    unfold apart, stack_sz. lia. }
  match type of S1 with pstep _ _ _ ?q => set (p1 := q) in * end.
  eassert (S2 : pstep mp_all p1 (PCreate 6000 22 2048) _).
  { apply ps_create; [|unfold W; lia|unfold W; lia].
    apply FR; [lia|unfold W; lia|]. intros b k [E|[E|[]]]; inversion E; subst;
    unfold apart, stack_sz; lia. }
  match type of S2 with pstep _ _ _ ?q => set (p2 := q) in * end.
  destruct (start_possible mp_all p2 1 (mkThread 2048 6000 22 Created) 33554432)
    as [p3 S3]; try reflexivity.
  { apply FR; [lia|unfold W, stack_sz; lia|].
    intros b k [E|[E|[E|[]]]]; inversion E; subst; unfold apart, stack_sz; lia. }
  assert (SS : psteps mp_all p0 [PCreate 5000 11 1024; PCreate 6000 22 2048; PStart 1 33554432] p3).
  { econstructor; [exact S1|]. econstructor; [exact S2|]. econstructor; [exact S3|]. constructor. }
  exists p3. inversion S3 as [| |q j a t m Ht Hst F HI| |]; subst.
  eexists. split; [exact SS|]. split; [reflexivity|]. cbn [t_st].
  assert (HR : nth_error (threads {| pm := m; blocks := (33554432, stack_sz) :: blocks p2;
     threads := set_nth 1 (mkThread (t_info t) (t_fn t) (t_arg t)
       (Running 33554432 (load64 m (t_info t + 8)) (load64 m (t_info t)))) (threads p2) |}) 1 =
     Some (mkThread (t_info t) (t_fn t) (t_arg t)
       (Running 33554432 (load64 m (t_info t + 8)) (load64 m (t_info t))))) by reflexivity.
  destruct (thread_runs _ _ _ _ _ _ _ _ _ _ SS HR eq_refl) as (K & _).
  cbn in K. inversion K. reflexivity.
Qed.

(** ** C14: initialisation yields an empty, guarded shadow stack *)
Theorem C14_init_empty_and_guarded :
  forall mp m addr,
    mapped mp addr 32 -> addr + 32 < W ->
    exists m', init_stack mp m addr true = ROk m' addr /\
      shadow_rep m' addr [] /\
      load64 m' (addr + 16) = 0 /\ load64 m' (addr + 24) = 0 /\
      (forall x, ~ inside addr 32 x -> m' x = m x).
Proof.
  intros mp m addr H1 H2.
  destruct (init_ok mp m addr H1 H2) as (m' & A & B & C & D & E).
  exists m'. repeat match goal with |- _ /\ _ => split end; auto. apply B.
Qed.
Print Assumptions C14_init_empty_and_guarded.

(** The scratch word (second word of the region) is neither the shadow pointer,
    nor a guard word, nor an entry: changing it changes nothing. *)
Theorem C14_scratch_is_separate :
  forall m b l v,
    0 <= b -> shadow_rep m b l ->
    shadow_rep (store64 m (b + 8) v) b l /\
    load64 (store64 m (b + 8) v) (b + 16) = load64 m (b + 16).
Proof.
  intros m b l v HB (A & B & C). split; [|apply load64_store64_disj; lia].
  split; [|split].
  - rewrite load64_store64_disj by lia. auto.
  - rewrite load64_store64_disj by lia. auto.
  - intros i w Hi. rewrite load64_store64_disj by (unfold slot; lia). auto.
Qed.
Print Assumptions C14_scratch_is_separate.

(** Directly after initialisation every exit check traps. *)
Theorem C14_exit_at_depth_zero_traps :
  forall q mp m addr s m',
    x_ok q -> mapped mp addr stack_sz -> addr + stack_sz < W ->
    init_stack mp m addr true = ROk m' addr ->
    wf s -> gs s = addr ->
    (forall x, inside addr 32 x -> mem s x = m' x) ->
    stack_ok mp capacity s (x_off q) ->
    load64 (mem s) (rg s RSP + x_off q) <> 0 ->
    exists c, x_code q = EOk (c, kRegisterMap) /\ exec c mp s Trap.
Proof. exact init_then_exit. Qed.
Print Assumptions C14_exit_at_depth_zero_traps.

(** Failure of either system service never leaves the thread unprotected. *)
Theorem C14_failures_stop_the_thread :
  forall mp m addr,
    init_stack mp m addr false = RAbort /\
    (mp 8 = false -> init_stack mp m 0 true = RFault).
Proof. intros mp m addr. split; [reflexivity|]. apply init_null. Qed.
Print Assumptions C14_failures_stop_the_thread.
Example C14_case :
  exists m', init_stack mp_all (fun _ => 171) wgs true = ROk m' wgs /\
    load64 m' wgs = wgs + 32 /\
    is_trap (run 100 (ecode (x_code wexit)) mp_all
       (enter (mkState wregs (store64 m' wsp 5) wgs wfl 0))) = true.
Proof. eexists. split; [vm_compute; reflexivity|]. split; vm_compute; reflexivity. Qed.

(** ** C15: register frames *)
(** Entry, any body that leaves the borrowed register, the scratch word and
    the shadow stack alone and returns with the same rsp, exit.  [t] is the
    state at the return instruction. *)
Theorem C15_register_frame :
  forall o js r mp s l k,
    plain o -> borrows js r -> env mp s l 0 k -> apart (rg s RSP) 8 (gs s) 16 ->
    exists cp cq s1,
      jit_register_push o kRegisterMap js 0 = EOk cp /\
      jit_register_pop o kRegisterMap js = EOk cq /\
      exec cp mp s (Done s1) /\
      (forall r', r' <> r -> rg s1 r' = rg s r') /\ fl s1 = fl s /\ gs s1 = gs s /\
      shadow_rep (mem s1) (gs s) l /\
      (forall x, ~ inside (gs s + 8) 8 x -> mem s1 x = mem s x) /\
      forall t, env mp t l 0 k -> apart (rg t RSP) 8 (gs t) 16 ->
        gs t = gs s -> rg t RSP = rg s RSP -> rg t r = rg s1 r ->
        load64 (mem t) (gs s + 8) = load64 (mem s1) (gs s + 8) ->
        let ra := load64 (mem t) (rg t RSP) in
        (* intact return address *)
        (ra = load64 (mem s) (rg s RSP) ->
         exists t', exec cq mp t (Done t') /\ rg t' r = rg s r /\
           (forall r', r' <> r -> rg t' r' = rg t r') /\ gs t' = gs t /\
           (forall x, mem t' x = mem t x)) /\
        (* forged return address *)
        (ra <> load64 (mem s) (rg s RSP) -> ra <> 0 -> ~ In ra l -> exec cq mp t Trap).
Proof.
  intros o js r mp s l k HP HB ES AS.
  exists (reg_push_code r 0), (reg_pop_code r).
  pose proof (reg_push_shape o js r 0 (is_empty_plain _ HP) (is_only_plain _ HP) HB) as SP.
  pose proof (reg_pop_shape o js r (is_empty_plain _ HP) (is_only_plain _ HP) HB) as SQ.
  destruct HB as [NR _].
  destruct (reg_push_run mp s r 0) as (s1 & A1 & A2 & A3 & A4 & A5 & A6 & A7).
  { apply ES. } { auto. }
  { eapply mapped_sub; [apply (env_region _ _ _ _ _ ES)| |]; lia. }
  { apply (env_ra _ _ _ _ _ ES). } { rewrite Z.add_0_r. auto. }
  rewrite Z.add_0_r in *.
  exists s1. do 6 (split; [solve [auto]|]). split.
  { destruct (env_rep _ _ _ _ _ ES) as (U1 & U2 & U3). split; [|split].
    - rewrite <- U1. apply load64_ext. intros x Hx. apply A7. unfold inside. lia.
    - rewrite <- U2. apply load64_ext. intros x Hx. apply A7. unfold inside. lia.
    - intros i v Hi. rewrite <- (U3 i v Hi). apply load64_ext. intros x Hx. apply A7.
      unfold inside, slot in *. lia. }
  split; [auto|].
  intros t ET AT GT RT RR LS. cbv zeta.
  destruct (reg_pop_run mp t l k r ET) as [P1 P2]; auto. { unfold apart in *. lia. }
  split.
  - intros E. destruct P1 as (t' & B1 & B2 & B3 & B4 & B5). { rewrite E, RR, A2. auto. }
    exists t'. repeat match goal with |- _ /\ _ => split end; auto.
    rewrite B2, GT, LS, A3. auto.
  - intros E Z N. rewrite RR, A2 in P2. specialize (P2 E).
    assert (EU : unwind (load64 (mem t) (rg t RSP)) l = None).
    { clear - N. induction l as [|v l IH]; cbn [unwind]; auto.
      destruct (v =? load64 (mem t) (rg t RSP)) eqn:E; [exfalso; apply N; left; lia|].
      apply IH. intros H. apply N. right; auto. }
    rewrite EU in P2. auto.
Qed.
Print Assumptions C15_register_frame.
Example C15_case :
  borrows wjs R12 /\ plain wopts /\
  env mp_all (wstate [30; 20; 10] 4242) [30; 20; 10] 0 8 /\
  apart (rg (wstate [30; 20; 10] 4242) RSP) 8 wgs 16.
Proof.
  split; [split; [discriminate|eexists; reflexivity]|].
  split; [apply wopts_plain|]. split.
  - apply wstate_env; [|cbn; lia|lia]. intros v Hv. cbn in Hv. unfold W. intuition lia.
  - vm_compute. left. discriminate.
Qed.

(** ** C16: register frames under nested protected code *)
(** What holds: nested code protected by stack snippets leaves the scratch word
    alone, so C15 applies.  Missing: nested register frames. *)
Theorem C16_nested_stack_snippets_partial :
  forall mp k s l,
    thread_ok mp k s l ->
    (forall q c m s', e_ok q -> stack_ok mp k s (e_off q) -> (List.length l < k)%nat ->
       e_code q = EOk (c, m) -> exec c mp s (Done s') ->
       load64 (mem s') (gs s + 8) = load64 (mem s) (gs s + 8)) /\
    (forall q c m s', x_ok q -> stack_ok mp k s (x_off q) ->
       load64 (mem s) (rg s RSP + x_off q) <> 0 ->
       x_code q = EOk (c, m) -> exec c mp s (Done s') ->
       load64 (mem s') (gs s + 8) = load64 (mem s) (gs s + 8)).
Proof.
  intros mp k s l HT. split.
  - intros q c m s' HQ HS HL HC HX.
    destruct (entry_scratch q mp s l k HQ (thread_env _ _ _ _ _ HT HS) HL) as (c2 & s2 & A & B & C).
    rewrite HC in A. inversion A; subst. pose proof (exec_det _ _ _ _ _ HX B) as E.
    inversion E; subst. auto.
  - intros. eapply exit_scratch; eauto.
Qed.
Print Assumptions C16_nested_stack_snippets_partial.
Example C16_case :
  thread_ok mp_all 8 (wstate [30; 20; 10] 30) [30; 20; 10] /\
  stack_ok mp_all 8 (wstate [30; 20; 10] 30) (x_off wexit).
Proof.
  split; [|apply wstate_stack; lia].
  apply wstate_thread; [|cbn; lia|lia]. intros v Hv. cbn in Hv. unfold W. intuition lia.
Qed.

(** The full property is false: whenever a second register frame with the same
    borrowed register runs in between, the register ends up holding the outer
    return address instead of the caller's value. *)
Theorem C16_nested_register_frames_refuted :
  forall js r mp o (s h : state) l k lh kh,
    plain o -> borrows js r ->
    env mp s l 0 k -> apart (rg s RSP) 8 (gs s) 16 ->
    env mp h lh 0 kh -> apart (rg h RSP) 8 (gs h) 16 -> gs h = gs s ->
    rg h r = load64 (mem s) (rg s RSP) ->
    exists cp cq s1 h1 h2,
      jit_register_push o kRegisterMap js 0 = EOk cp /\
      jit_register_pop o kRegisterMap js = EOk cq /\
      exec cp mp s (Done s1) /\ rg s1 r = rg h r /\
      exec cp mp h (Done h1) /\ exec cq mp h1 (Done h2) /\
      rg h2 r = rg h r /\
      forall t lt kt, env mp t lt 0 kt -> gs t = gs s -> rg t RSP = rg s RSP ->
        rg t r = rg h2 r -> load64 (mem t) (rg t RSP) = load64 (mem s) (rg s RSP) ->
        apart (rg t RSP) 8 (gs t) 8 ->
        load64 (mem t) (gs t + 8) = load64 (mem h2) (gs s + 8) ->
        exists t', exec cq mp t (Done t') /\ rg t' r = load64 (mem s) (rg s RSP).
Proof. intros js r mp o. exact (nested_register_frames js r mp o). Qed.
Print Assumptions C16_nested_register_frames_refuted.
(** Concrete run: r12 was 1212 and is 4242 (the return address) afterwards. *)
Example C16_refuted_case :
  let cp := match jit_register_push wopts kRegisterMap wjs 0 with EOk c => c | _ => [] end in
  let cq := match jit_register_pop wopts kRegisterMap wjs with EOk c => c | _ => [] end in
  let s0 := wstate [30; 20; 10] 4242 in
  let go c s := final s (run 100 c mp_all (enter s)) in
  let s1 := go cp s0 in
  let at_sp p s := mkState (updr (rg s) RSP p) (mem s) (gs s) (fl s) 0 in
  let h0 := at_sp (wsp - 256) (mkState (rg s1) (store64 (mem s1) (wsp - 256) 99) (gs s1) (fl s1) 0) in
  let h2 := go cq (go cp h0) in
  let s2 := go cq (at_sp wsp h2) in
  rg s0 R12 = 1212 /\ rg h2 R12 = 4242 /\ rg s2 R12 = 4242.
Proof. repeat split; vm_compute; reflexivity. Qed.

(** ** C17: dry-run modes *)
Theorem C17_empty_emits_nothing :
  forall o m pt s js use_orig height use_fixed,
    o_dry_run o = "empty"%string ->
    jit_stack_push o m pt s use_orig height use_fixed = EOk ([], m) /\
    jit_stack_pop o m pt s use_orig = EOk ([], m) /\
    jit_register_push o m js height = EOk [] /\
    jit_register_pop o m js = EOk [].
Proof.
  intros. repeat split; [apply empty_push|apply empty_pop|apply empty_reg_push|
    apply empty_reg_pop]; auto.
Qed.
Print Assumptions C17_empty_emits_nothing.
Theorem C17_only_save_entry :
  forall q mp s,
    o_dry_run (e_o q) = "only-save"%string ->
    request_ok (e_o q) (e_mid q) (j_dead_entry (e_js q)) ->
    wf s -> mapped mp (rg s RSP - 16) 16 ->
    exists c s', e_code q = EOk (c, kRegisterMap) /\ exec c mp s (Done s') /\
      (forall r, rg s' r = rg s r) /\ fl s' = fl s /\ gs s' = gs s /\
      (forall x, ~ inside (rg s RSP - 16) 16 x -> mem s' x = mem s x).
Proof. exact only_entry. Qed.
Print Assumptions C17_only_save_entry.
Theorem C17_only_save_exit :
  forall q mp s,
    o_dry_run (x_o q) = "only-save"%string ->
    request_ok (x_o q) (x_mid q) (exit_dead_set (x_pt q) (x_js q)) ->
    wf s -> mapped mp (rg s RSP - 16) 16 ->
    exists c s', x_code q = EOk (c, kRegisterMap) /\ exec c mp s (Done s') /\
      (forall r, rg s' r = rg s r) /\ fl s' = fl s /\ gs s' = gs s /\
      (forall x, ~ inside (rg s RSP - 16) 16 x -> mem s' x = mem s x).
Proof. exact only_exit. Qed.
Print Assumptions C17_only_save_exit.
(** Register frames in only-save mode: the entry changes only the scratch word,
    the exit only reloads the borrowed register from it. *)
Theorem C17_only_save_register_frame :
  forall o js r height mp s,
    o_dry_run o = "only-save"%string -> borrows js r -> wf s -> mapped mp (gs s) 16 ->
    (exists c s', jit_register_push o kRegisterMap js height = EOk c /\
      exec c mp s (Done s') /\ (forall r', rg s' r' = rg s r') /\ fl s' = fl s /\
      gs s' = gs s /\ load64 (mem s') (gs s + 8) = rg s r /\
      (forall x, ~ inside (gs s + 8) 8 x -> mem s' x = mem s x)) /\
    (exists c s', jit_register_pop o kRegisterMap js = EOk c /\
      exec c mp s (Done s') /\ (forall r', r' <> r -> rg s' r' = rg s r') /\ fl s' = fl s /\
      gs s' = gs s /\ rg s' r = load64 (mem s) (gs s + 8) /\
      (forall x, mem s' x = mem s x)).
Proof.
  intros. split; [apply only_reg_push|eapply only_reg_pop]; auto.
Qed.
Print Assumptions C17_only_save_register_frame.
Example C17_case :
  o_dry_run (e_o (mkEreq wopts_only wpt wjs true 0 false)) = "only-save"%string /\
  request_ok wopts_only (e_mid (mkEreq wopts_only wpt wjs true 0 false)) wdead /\
  request_ok wopts_only (x_mid (mkXreq wopts_only wpt wjs true)) wdead.
Proof.
  split; [reflexivity|]. split.
  - left. split; [reflexivity|]. dec_names.
  - right. split; [reflexivity|]. dec_names.
Qed.

(** ** C18: --optimize_regs only uses registers reported dead *)
(** Missing from the full property: dead sets of one to three registers. *)
Theorem C18_optimize_regs_partial :
  forall q mp s l k,
    plain (e_o q) -> o_optimize_regs (e_o q) = true -> e_orig q = false -> e_fixed q = false ->
    names (j_dead_entry (e_js q)) ->
    (List.length (j_dead_entry (e_js q)) = 0 \/ 4 <= List.length (j_dead_entry (e_js q)))%nat ->
    env mp s l (e_height q) k -> (List.length l < k)%nat ->
    exists c s', e_code q = EOk (c, kRegisterMap) /\ exec c mp s (Done s') /\
      shadow_rep (mem s') (gs s) (load64 (mem s) (rg s RSP + e_height q) :: l) /\
      (forall r, ~ In (reg_name r) (j_dead_entry (e_js q)) -> rg s' r = rg s r).
Proof.
  intros q mp s l k HP HO Q1 Q2 HN HL HE HK.
  assert (EM : e_mid q = None). { unfold e_mid, entry_mid. rewrite Q1, Q2. auto. }
  assert (EO : e_off q = e_height q). { unfold e_off. rewrite EM. auto. }
  assert (ED : e_dead q = j_dead_entry (e_js q)).
  { unfold e_dead. rewrite EM. cbn. rewrite HO. auto. }
  assert (HQ : e_ok q).
  { split; auto. rewrite EM. cbn. right. destruct HL as [HL|HL]; [left|right; auto].
    destruct (j_dead_entry (e_js q)); [auto|discriminate]. }
  rewrite <- EO in HE. destruct (entry_run q mp s l k HQ HE HK) as (c & s' & A & B & C & D & _).
  exists c, s'. rewrite <- EO, <- ED. auto.
Qed.
Print Assumptions C18_optimize_regs_partial.
Example C18_case :
  o_optimize_regs (e_o wenter_regs) = true /\ names wdead /\ (4 <= List.length wdead)%nat /\
  env mp_all (wstate [30; 20; 10] 4242) [30; 20; 10] (e_height wenter_regs) 8.
Proof.
  split; [auto|]. split; [apply wdead_names|]. split; [cbn; lia|].
  apply wstate_env; [|cbn; lia|lia]. intros v Hv. cbn in Hv. unfold W. intuition lia.
Qed.
(** With one to three dead registers the emitter runs off the end of the set,
    at every entry and every exit. *)
Theorem C18_few_dead_registers_refuted :
  forall o pt js height,
    o_dry_run o <> "empty"%string -> o_optimize_regs o = true ->
    ((1 <= List.length (j_dead_entry js) <= 3)%nat ->
       jit_stack_push o kRegisterMap pt (Some js) false height false = EUB) /\
    ((1 <= List.length (exit_dead_set pt js) <= 3)%nat ->
       jit_stack_pop o kRegisterMap pt (Some js) false = EUB).
Proof.
  intros o pt js height H1 H2. apply String.eqb_neq in H1.
  split; intros H3; [apply few_dead_push|apply few_dead_pop]; auto.
Qed.
Print Assumptions C18_few_dead_registers_refuted.

(** ** C19: emitted temporaries are well formed *)
Theorem C19_entry_temporaries :
  forall q,
    o_dry_run (e_o q) <> "empty"%string ->
    request_ok (e_o q) (e_mid q) (j_dead_entry (e_js q)) ->
    exists c, e_code q = EOk (c, kRegisterMap) /\ two_temps c (e_dead q).
Proof. exact entry_temps. Qed.
Print Assumptions C19_entry_temporaries.
Theorem C19_exit_temporaries :
  forall q,
    o_dry_run (x_o q) <> "empty"%string ->
    request_ok (x_o q) (x_mid q) (exit_dead_set (x_pt q) (x_js q)) ->
    exists c, x_code q = EOk (c, kRegisterMap) /\ two_temps c (x_dead q).
Proof. exact exit_temps. Qed.
Print Assumptions C19_exit_temporaries.
(** [dest], used by [two_temps], lists every register an instruction changes. *)
Theorem C19_dest_complete :
  forall c mp s s' i r,
    nth_error c (pc s) = Some i -> step c mp s = SNext s' -> ~ In r (dest i) ->
    rg s' r = rg s r.
Proof. exact dest_ok. Qed.
Print Assumptions C19_dest_complete.
Example C19_case :
  request_ok wopts (e_mid wenter_moved) wdead /\ e_dead wenter_moved = ["x86_64::r10"%string] /\
  exists c, e_code wenter_moved = EOk (c, kRegisterMap) /\ In (IPush R11) c.
Proof.
  split; [left; split; [reflexivity|dec_names]|]. split; [reflexivity|].
  eexists. split; [vm_compute; reflexivity|]. left. reflexivity.
Qed.
