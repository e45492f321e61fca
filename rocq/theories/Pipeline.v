(** * Pipeline: the memory passes in the order instrument.cc runs them

    PassManager::Run (pass_manager.h:380-440) with the passes registered by
    InstrumentCodeObject (instrument.cc:1056-1078).  CFGAnalysis, SafePathsCounting
    and the three register passes write summary fields that no memory pass reads;
    they have their own models (Components.v, SafePaths.v, BlockLive.v).
    HeapWriteAnalysis is commented out in the code and so is absent here. *)
From Coq Require Import ZArith Bool String Lia Arith List.
From Verif Require Import Machine Jit Dfs Binary CallGraph InterProc MemPasses.
Import ListNotations.
Open Scope Z_scope.

Definition bind {A B} (r : res A) (k : A -> res B) : res B :=
  match r with Ok a => k a | UB => UB | NoFuel => NoFuel end.

Definition run_memory (co : code) : res sums :=
  bind (cg_run co (fun _ => summary0)) (fun '(_, m1) =>
  let m2 := local_pass co (large_filter co) m1 in
  let m3 := local_pass co (stack_height co) m2 in
  bind (ip_run co m3) (fun '(_, m4) =>
  bind (ex_run co m4) (fun '(_, m5) =>
  Ok (ucb_run co m5)))).

(** IsSafeFunction of the last pass (pass_manager.h:334 and 425-432). *)
Definition classified_safe (m : sums) (f : nat) : Prop := s_writes (m f) = false.

(** ** Specification, in terms of the binary *)
Definition unsafe_itself (co : code) (f : nat) : Prop :=
  oversized co (co_fun co f) \/
  func_has co insn_bad_stack f \/
  func_has co insn_unknown_write f \/
  unresolved co f \/
  exists a name, plt_call co f a name /\ ~ trusted_lib name.

(** [transfers co f g]: control can get from [f] into [g] through calls. *)
Inductive call_reach (co : code) : nat -> nat -> Prop :=
| cr_refl f : call_reach co f f
| cr_step f c g : calls co f c -> call_reach co c g -> call_reach co f g.

Definition no_mutual (co : code) (f : nat) : Prop :=
  forall g c, call_reach co f g -> calls co g c -> c <> g -> ~ call_reach co c g.

(** A call site goes to one library function. *)
Definition one_plt (co : code) : Prop :=
  forall f a n n', plt_call co f a n -> plt_call co f a n' -> n = n'.

Definition well_formed (co : code) : Prop :=
  NoDup (co_funcs co) /\ (owners_known co /\ one_entry co) /\ one_plt co /\
  forall f, In f (co_funcs co) -> 0 <= f_addr (co_fun co f).

(** What earlier passes leave for the inter-procedural one. *)
Section RUN.
Variable co : code.
Hypothesis WF : well_formed co.

Lemma calls_known f g : calls co f g -> In g (co_funcs co).
Proof.
  intros (b & e & _ & _ & _ & _ & E). destruct WF as (_ & [HO _] & _). eapply HO. apply E.
Qed.
Lemma reach_known f g : call_reach co f g -> In f (co_funcs co) -> In g (co_funcs co).
Proof. induction 1; auto. intros _. apply IHcall_reach. eapply calls_known; eauto. Qed.

Lemma stack_height_frame f s :
  s_child_writes (stack_height co f s) = s_child_writes s /\
  s_writes (stack_height co f s) = s_writes s /\
  s_callees (stack_height co f s) = s_callees s /\
  s_exc_safe (stack_height co f s) = s_exc_safe s /\
  s_plt_calls (stack_height co f s) = s_plt_calls s /\
  s_unknown_cf (stack_height co f s) = s_unknown_cf s /\
  s_assume_unsafe (stack_height co f s) = s_assume_unsafe s.
Proof.
  destruct (s_assume_unsafe s) eqn:E.
  - unfold stack_height. rewrite E. repeat split; auto.
  - destruct (stack_height_spec co f s E) as ((A & B & C & D & F & G & H) & _).
    repeat split; auto. congruence.
Qed.

Lemma local_keep {A} (p : summary -> A) run m :
  (forall f s, p (run f s) = p s) -> forall f, p (local_pass co run m f) = p (m f).
Proof.
  intros H f. destruct WF as (HN & _). destruct (in_dec Nat.eq_dec f (co_funcs co)) as [I|I].
  - rewrite local_at by auto. apply H.
  - rewrite local_other by auto. auto.
Qed.

(** The state after the three local passes. *)
Lemma before_ip :
  exists m1, (exists vis, cg_run co (fun _ => summary0) = Ok (vis, m1)) /\
    let m3 := local_pass co (stack_height co) (local_pass co (large_filter co) m1) in
    (forall f, s_child_writes (m3 f) = false) /\ (forall f, s_writes (m3 f) = false) /\
    (forall f, s_exc_safe (m3 f) = false) /\
    (forall f g, In f (co_funcs co) -> (In g (s_callees (m3 f)) <-> calls co f g)) /\
    (forall f, In f (co_funcs co) -> (s_unknown_cf (m3 f) = true <-> unresolved co f)) /\
    (forall f k v, In f (co_funcs co) -> (In (k, v) (s_plt_calls (m3 f)) <-> plt_call co f k v)) /\
    (forall f, In f (co_funcs co) -> (bad (m3 f) <-> unsafe_itself co f)) /\
    (forall f b, In f (co_funcs co) -> ~ oversized co (co_fun co f) ->
       (In b (s_unsafe_blocks (m3 f)) <-> In b (f_blocks (co_fun co f)) /\
          (block_has co insn_bad_stack b \/ block_has co insn_unknown_write b))) /\
    (forall f b, In f (co_funcs co) -> oversized co (co_fun co f) ->
       ~ In b (s_unsafe_blocks (m3 f))).
Proof.
  destruct WF as (HN & [HO HE] & HP & HA).
  destruct (cg_run_ok co HE (fun _ => summary0) HO HN) as (vis & m1 & R & _ & V & D & S & _).
  { intros f. repeat split. } { intros f. auto. }
  exists m1. split; [exists vis; auto|]. cbv zeta.
  set (m2 := local_pass co (large_filter co) m1).
  set (m3 := local_pass co (stack_height co) m2).
  assert (K : forall A (p : summary -> A),
    (forall f s, p (large_filter co f s) = p s) -> (forall f s, p (stack_height co f s) = p s) ->
    forall f, p (m3 f) = p (m1 f)).
  { intros A p H1 H2 f. unfold m3. rewrite (local_keep p _ _ H2). apply (local_keep p _ _ H1). }
  assert (KC : forall f, s_callees (m3 f) = s_callees (m1 f)).
  { apply K; intros; [apply large_frame|apply stack_height_frame]. }
  assert (KU : forall f, s_unknown_cf (m3 f) = s_unknown_cf (m1 f)).
  { apply K; intros; [apply large_frame|apply stack_height_frame]. }
  assert (KP : forall f, s_plt_calls (m3 f) = s_plt_calls (m1 f)).
  { apply K; intros; [apply large_frame|apply stack_height_frame]. }
  assert (PL : forall f k v, In f (co_funcs co) -> (In (k, v) (s_plt_calls (m3 f)) <-> plt_call co f k v)).
  { intros f k v Hf. rewrite KP. destruct (D f Hf) as (_ & _ & D3 & D4 & _). split; auto.
    intros H. destruct (D4 k v H) as [w Hw]. pose proof (D3 _ _ Hw) as H'.
    rewrite (HP _ _ _ _ H H'). auto. }
  assert (UC : forall f, In f (co_funcs co) -> (s_unknown_cf (m3 f) = true <-> unresolved co f)).
  { intros f Hf. rewrite KU. apply (D f Hf). }
  assert (E2 : forall f, In f (co_funcs co) -> m2 f = large_filter co f (m1 f)).
  { intros. apply local_at; auto. }
  assert (E3 : forall f, In f (co_funcs co) -> m3 f = stack_height co f (m2 f)).
  { intros. apply local_at; auto. }
  assert (AU : forall f, In f (co_funcs co) -> (s_assume_unsafe (m2 f) = true <-> oversized co (co_fun co f))).
  { intros f Hf. rewrite E2, large_exact by auto. destruct (S f) as (S1 & _). rewrite S1. cbn.
    split; [intros [H|H]; [discriminate|auto]|auto]. }
  assert (F2 : forall f, s_self_unsafe (m2 f) = false /\ s_unknown_writes (m2 f) = [] /\
                         s_unsafe_blocks (m2 f) = []).
  { intros f. destruct (S f) as (_ & S2 & _ & _ & S5 & S6 & _).
    assert (L : forall A (p : summary -> A), (forall f s, p (large_filter co f s) = p s) ->
              p (m2 f) = p (m1 f)).
    { intros A p H. apply (local_keep p _ _ H). }
    rewrite (L _ s_self_unsafe), (L _ s_unknown_writes), (L _ s_unsafe_blocks)
      by (intros; apply large_frame).
    rewrite S2, S5, S6. auto. }
  assert (FA : forall f, s_assume_unsafe (m3 f) = s_assume_unsafe (m2 f)).
  { intros f. apply (local_keep s_assume_unsafe). intros. apply stack_height_frame. }
  split; [|split; [|split; [|split; [|split; [|split; [|split; [|split]]]]]]].
  - intros f. rewrite (K _ s_child_writes) by (intros; solve [apply large_frame|apply stack_height_frame]).
    destruct (S f) as (_ & _ & S3 & _). auto.
  - intros f. rewrite (K _ s_writes) by (intros; solve [apply large_frame|apply stack_height_frame]).
    destruct (S f) as (_ & _ & _ & S4 & _). auto.
  - intros f. rewrite (K _ s_exc_safe) by (intros; solve [apply large_frame|apply stack_height_frame]).
    destruct (S f) as (_ & _ & _ & _ & _ & _ & S4). auto.
  - intros f g Hf. rewrite KC. apply (D f Hf).
  - exact UC.
  - exact PL.
  - intros f Hf. unfold bad, unsafe_itself. rewrite FA, (AU f Hf), (UC f Hf).
    destruct (F2 f) as (F21 & F22 & F23).
    assert (EP : (exists a name, In (a, name) (s_plt_calls (m3 f)) /\ is_safe_plt name = false) <->
                 (exists a name, plt_call co f a name /\ ~ trusted_lib name)).
    { split; intros (a & n & H1 & H2); exists a, n; split; try (apply PL; auto);
        apply is_safe_plt_false; auto. }
    rewrite EP. rewrite E3 by auto. destruct (s_assume_unsafe (m2 f)) eqn:EA.
    + pose proof (proj1 (AU f Hf) EA). tauto.
    + destruct (stack_height_spec co f (m2 f) EA) as (_ & T1 & T2 & _).
      rewrite T1, T2, F21, F22. intuition discriminate.
  - intros f b Hf HS. rewrite E3 by auto. destruct (F2 f) as (F21 & F22 & F23).
    destruct (s_assume_unsafe (m2 f)) eqn:EA; [exfalso; apply HS, AU; auto|].
    destruct (stack_height_spec co f (m2 f) EA) as (_ & _ & _ & T3). rewrite T3, F23. cbn. tauto.
  - intros f b Hf HS. rewrite E3 by auto. destruct (F2 f) as (F21 & F22 & F23).
    unfold stack_height. rewrite (proj2 (AU f Hf)) by auto. rewrite F23. intros [].
Qed.

Theorem run_memory_ok :
  exists m, run_memory co = Ok m /\
    (* no false alarms *)
    (forall f, In f (co_funcs co) -> ~ classified_safe m f ->
       exists g, call_reach co f g /\ unsafe_itself co g) /\
    (* soundness *)
    (forall f, In f (co_funcs co) -> no_mutual co f ->
       (exists g, call_reach co f g /\ unsafe_itself co g) -> ~ classified_safe m f) /\
    (forall f rest, co_funcs co = f :: rest ->
       (exists g, call_reach co f g /\ unsafe_itself co g) -> ~ classified_safe m f) /\
    (* the function's own faults are always seen *)
    (forall f, In f (co_funcs co) -> unsafe_itself co f -> ~ classified_safe m f) /\
    (* call blocks *)
    (forall f b, In f (co_funcs co) ->
       (In b (s_unsafe_blocks (m f)) <->
        In b (f_blocks (co_fun co f)) /\
        ((~ oversized co (co_fun co f) /\
          (block_has co insn_bad_stack b \/ block_has co insn_unknown_write b)) \/
         exists e, first_call (co_block co b) e /\
           (e_sink e = true \/
            ~ exists g, In g (co_funcs co) /\
                f_addr (co_fun co g) = b_start (co_block co (e_trg e)) /\
                (forall name, co_link co (b_start (co_block co (e_trg e))) = Some name ->
                   trusted_lib name) /\
                classified_safe m g)))) /\
    (* exceptions *)
    (forall f, In f (co_funcs co) -> s_exc_safe (m f) = true ->
       (~ unresolved co f /\ forall a name, ~ plt_call co f a name) /\
       forall c, calls co f c -> s_exc_safe (m c) = true \/ ~ classified_safe m c).
Proof.
  destruct before_ip as (m1 & (vis1 & R1) & B1 & B2 & B2' & B3 & B4 & B5 & B6 & B7 & B7').
  set (m3 := local_pass co (stack_height co) (local_pass co (large_filter co) m1)) in *.
  destruct WF as (HN & [HO HE] & HP & HA).
  assert (HC3 : forall f g, In f (co_funcs co) -> In g (s_callees (m3 f)) -> In g (co_funcs co)).
  { intros f g Hf Hg. apply B3 in Hg; auto. eapply calls_known; eauto. }
  destruct (ip_run_ok co m3 B1 B2 HN HC3) as (vis4 & m4 & R4 & F4 & I1 & I2 & I3 & I4).
  assert (HC4 : forall f g, In f (co_funcs co) -> In g (s_callees (m4 f)) -> In g (co_funcs co)).
  { intros f g Hf Hg. destruct (F4 f) as (_ & _ & _ & _ & E & _). rewrite E in Hg. eauto. }
  destruct (ex_run_ok co m4 HN HC4) as (vis5 & m5 & R5 & (X1 & X2) & X3).
  { intros f. destruct (F4 f) as (_ & _ & _ & _ & _ & _ & _ & E & _). rewrite E. auto. }
  assert (RR : forall f g, In f (co_funcs co) -> (reach m3 f g <-> call_reach co f g)).
  { intros f g Hf. split; intros H; revert Hf.
    - induction H as [f|f c g Hc Hr IH]; intros Hf; [constructor|]. econstructor.
      + apply B3; eauto.
      + apply IH. eauto.
    - induction H as [f|f c g Hc Hr IH]; intros Hf; [constructor|]. econstructor.
      + apply B3; eauto.
      + apply IH. eapply calls_known; eauto. }
  assert (RB : forall f, In f (co_funcs co) ->
     (reaches_bad m3 f <-> exists g, call_reach co f g /\ unsafe_itself co g)).
  { intros f Hf. split; intros (g & H1 & H2); exists g.
    - apply RR in H1; auto. split; auto. apply B6; auto. eapply reach_known; eauto.
    - split; [apply RR; auto|]. apply B6; auto. eapply reach_known; eauto. }
  assert (W6 : forall f, s_writes (ucb_run co m5 f) = s_writes (m4 f)).
  { intros f. rewrite (proj1 (ucb_frame co m5 f)). destruct (X1 f) as (_ & _ & _ & E & _). auto. }
  exists (ucb_run co m5). split.
  { unfold run_memory. rewrite R1. cbn [bind]. fold m3. rewrite R4. cbn [bind]. rewrite R5. auto. }
  unfold classified_safe.
  assert (NS : forall f, s_writes (m4 f) <> false <-> s_writes (m4 f) = true).
  { intros f. destruct (s_writes (m4 f)); split; congruence. }
  split; [|split; [|split; [|split; [|split]]]].
  - intros f Hf. rewrite W6, NS. intros H. apply RB; auto.
  - intros f Hf NM H. rewrite W6, NS. apply I2; auto; [|apply RB; auto].
    intros g c Hg Hc NE K. apply RR in Hg; auto.
    assert (Ig : In g (co_funcs co)) by (eapply reach_known; eauto).
    apply B3 in Hc; auto. apply (NM g c Hg Hc NE). apply RR; auto. eapply calls_known; eauto.
  - intros f rest E H. rewrite W6, NS. eapply I3; eauto. apply RB; auto. rewrite E. left; auto.
  - intros f Hf HU. rewrite W6, NS.
    apply I4; auto. apply B6; auto.
  - intros f b Hf. rewrite ucb_exact by auto.
    destruct (X1 f) as (_ & _ & _ & _ & E5). destruct (F4 f) as (_ & _ & _ & _ & _ & _ & E4 & _).
    rewrite E5, E4. unfold trusted_target.
    assert (ET : forall a, (exists g, In g (co_funcs co) /\ f_addr (co_fun co g) = a /\
        (forall name, co_link co a = Some name -> trusted_lib name) /\ s_writes (m5 g) = false) <->
      (exists g, In g (co_funcs co) /\ f_addr (co_fun co g) = a /\
        (forall name, co_link co a = Some name -> trusted_lib name) /\
        s_writes (ucb_run co m5 g) = false)).
    { intros a. split; intros (g & H1 & H2 & H3 & H4); exists g; repeat (split; auto);
        rewrite (proj1 (ucb_frame co m5 g)) in *; auto. }
    assert (EX : (exists e, first_call (co_block co b) e /\ (e_sink e = true \/
        ~ (exists g, In g (co_funcs co) /\ f_addr (co_fun co g) = b_start (co_block co (e_trg e)) /\
        (forall name, co_link co (b_start (co_block co (e_trg e))) = Some name -> trusted_lib name) /\
           s_writes (m5 g) = false))) <->
       (exists e, first_call (co_block co b) e /\ (e_sink e = true \/
        ~ (exists g, In g (co_funcs co) /\ f_addr (co_fun co g) = b_start (co_block co (e_trg e)) /\
        (forall name, co_link co (b_start (co_block co (e_trg e))) = Some name -> trusted_lib name) /\
           s_writes (ucb_run co m5 g) = false)))).
    { split; intros (e & H1 & [H2|H2]); exists e; split; auto; right; [rewrite <- ET|rewrite ET]; auto. }
    rewrite EX.
    destruct (oversized_dec co (co_fun co f)) as [OV|OV].
    + specialize (B7' f b Hf OV). tauto.
    + rewrite (B7 f b Hf OV). tauto.
  - intros f Hf. rewrite (proj2 (ucb_frame co m5 f)). intros H. destruct (X2 f H) as [C1 C2].
    destruct (F4 f) as (_ & E1 & _ & E2 & E3 & _). split; [split|].
    + intros U. apply B4 in U; auto. congruence.
    + intros a n P. apply B5 in P; auto. rewrite <- E2, C1 in P. destruct P.
    + intros c Hc. apply B3 in Hc; auto. rewrite <- E3 in Hc.
      rewrite (proj2 (ucb_frame co m5 c)), W6, NS. eapply X3; eauto.
Qed.
End RUN.
