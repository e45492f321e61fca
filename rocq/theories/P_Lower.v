(** * P_Lower: properties C33-C36 (instrumentation lowering) *)
From Coq Require Import ZArith Bool Lia ZifyBool ZifyNat Arith String List.
From Verif Require Import Machine Jit Dfs Binary Reach SafePaths ExCode P_Paths Lowering.
Import ListNotations.
Open Scope Z_scope.

(** What the lowering takes from Dyninst and the call graph pass: the blocks contain
    the entry and are closed under intra-procedural edges, return edges leave the
    function, and the indirect-jump flag of the summary is not missing a jump. *)
Definition lowering_input (co : code) (fn : nat) (s : summary) : Prop :=
  cfg_ok co fn /\
  (forall b e, In b (f_blocks (co_fun co fn)) -> In e (b_targets (co_block co b)) ->
     followable e -> e_ty e <> RET) /\
  (s_indirect_cf s = false -> no_indirect co (f_blocks (co_fun co fn))).

(** A path of the function: edge numbers [ks] from the entry, over blocks [path],
    without exception edges. *)
Definition plain_path (co : code) (fn : nat) (ks : list nat) (path : list nat) : Prop :=
  orig_blocks co (f_entry (co_fun co fn)) ks = Some path /\ no_catch co (f_entry (co_fun co fn)) ks.
Definition run_fn (co : code) (fn : nat) (l : lowered) (ks : list nat) : option (list ev) :=
  run_lowered co l (false, f_entry (co_fun co fn)) ks.
(** An exit block at which the function can return. *)
Definition returning_exit (co : code) (fn : nat) (b : nat) : Prop :=
  In b (f_exits (co_fun co fn)) /\
  ~ ((exists e, In e (b_targets (co_block co b)) /\ e_ty e = CALL) /\
     (forall e, In e (b_targets (co_block co b)) -> e_ty e <> CALL_FT)).

(** Decision procedures for the examples. *)
Definition input_okb (nb : nat) (t : nat -> list edge) : bool :=
  forallb (fun b => forallb (fun e => skipped e ||
     ((e_trg e <? nb)%nat && negb (is (e_ty e) RET) && negb (is (e_ty e) INDIRECT))) (t b)) (seq 0 nb).
Lemma input_ok nb t s : (0 < nb)%nat -> input_okb nb t = true -> lowering_input (g_co nb t) 0 s.
Proof.
  intros P H.
  assert (G : forall b e, In b (seq 0 nb) -> In e (t b) -> followable e ->
            (e_trg e < nb)%nat /\ e_ty e <> RET /\ e_ty e <> INDIRECT).
  { intros b e Hb He F. unfold input_okb in H. rewrite forallb_forall in H. apply H in Hb.
    rewrite forallb_forall in Hb. apply Hb in He. apply skipped_false in F. rewrite F in He.
    cbn [orb] in He. rewrite !andb_true_iff, !negb_true_iff, !is_false, Nat.ltb_lt in He. tauto. }
  split; [|split].
  - split; [cbn; apply in_seq; lia|]. intros b c Hb (e & He & F & <-). cbn in *. apply in_seq.
    destruct (G b e Hb He F) as (A & _). lia.
  - intros b e Hb He F. apply (G b e Hb He F).
  - intros _ b e Hb He F. apply (G b e Hb He F).
Qed.
Definition heights (nb : nat) : list (Z * Z) := map (fun b => (ex_start b, 0)) (seq 0 nb).
Definition lsum (nb : nat) (unsafe : list nat) (paths : Z) : summary :=
  set_entryHeight (set_endHeight (set_safe_paths (with_unsafe unsafe) paths) (heights nb)) (heights nb).
Definition fl0 : flags := mkFlags false false false false false true [] false.
Definition fl_nd : flags := mkFlags false false false false false true [] true.

(** ** C33 *)
Lemma nonret_prop co fn b : returning_exit co fn b <->
  (mem b (f_exits (co_fun co fn)) && negb (nonreturning_call (co_block co b)))%bool = true.
Proof.
  unfold returning_exit, nonreturning_call. rewrite andb_true_iff, mem_in.
  assert (A : existsb (fun e => is (e_ty e) CALL) (b_targets (co_block co b)) = true <->
              exists e, In e (b_targets (co_block co b)) /\ e_ty e = CALL).
  { rewrite existsb_exists. split; intros (e & H & K); exists e; split; auto; apply is_true; auto. }
  assert (B : existsb (fun e => is (e_ty e) CALL_FT) (b_targets (co_block co b)) = false <->
              forall e, In e (b_targets (co_block co b)) -> e_ty e <> CALL_FT).
  { split.
    - intros H e He K. assert (X : existsb (fun e => is (e_ty e) CALL_FT) (b_targets (co_block co b)) = true).
      { apply existsb_exists. exists e. split; auto. apply is_true; auto. } congruence.
    - intros H. destruct (existsb (fun e => is (e_ty e) CALL_FT) _) eqn:E; auto. apply existsb_exists in E. destruct E as (e & He & K).
      apply is_true in K. destruct (H e He K). }
  destruct (existsb (fun e => is (e_ty e) CALL) _); destruct (existsb (fun e => is (e_ty e) CALL_FT) _);
    cbn [negb andb]; intuition discriminate.
Qed.

(** The full sequence of pushes, blocks and pops along any path. *)
Theorem C33_lowering co fl fn s l ks path :
  lowering_input co fn s -> fl_ndebug fl = false -> lower co fl fn s = Lowered l ->
  plain_path co fn ks path ->
  exists evs, run_fn co fn l ks = Some evs /\
    (* the blocks of the path are executed in order *)
    executed evs = path /\
    (* at most one push, exactly if the path enters an unsafe block *)
    (((exists b, In b path /\ In b (s_unsafe_blocks s)) -> count_occ ev_eq_dec evs Push = 1%nat) /\
     ((forall b, In b path -> ~ In b (s_unsafe_blocks s)) -> ~ In Push evs)) /\
    (* an unsafe block runs after the push *)
    (forall pre b post, evs = pre ++ Blk b :: post -> In b (s_unsafe_blocks s) -> In Push pre) /\
    (* at a returning exit, a pop exactly if there has been a push; no pop elsewhere *)
    (forall pre b post, evs = pre ++ Blk b :: post ->
       ((exists r, post = Pop :: r) <-> In Push pre /\ returning_exit co fn b)).
Proof.
  intros (CFG & RETS & FLAG) DB LOW (HO & NC).
  eexists. split.
  { apply (lowered_events co fl fn s CFG RETS FLAG l LOW DB ks path HO).
    apply no_catch_tame. exact NC. }
  set (dang := fun b => mem b (s_unsafe_blocks s)).
  set (ex := fun b => (mem b (f_exits (co_fun co fn)) && negb (nonreturning_call (co_block co b)))%bool).
  assert (D : forall p, existsb dang p = true <-> exists b, In b p /\ In b (s_unsafe_blocks s)).
  { intros p. rewrite existsb_exists. unfold dang. split; intros (b & H & K); exists b; split; auto; apply mem_in; auto. }
  split; [|split; [split|split]].
  - apply protect_executed.
  - intros H. apply D in H. pose proof (protect_pushes dang ex path) as P. rewrite H in P. exact P.
  - intros H. pose proof (protect_pushes dang ex path) as P.
    destruct (existsb dang path) eqn:E.
    + apply D in E. destruct E as (b & K1 & K2). destruct (H b K1 K2).
    + apply (count_occ_not_In ev_eq_dec). exact P.
  - intros pre b post E Hb. destruct (protect_split dang ex path _ _ _ _ E) as (bf & af & _ & A & _).
    apply (A eq_refl). apply D. exists b. split; auto. apply in_or_app. right; left; auto.
  - intros pre b post E. destruct (protect_split dang ex path _ _ _ _ E) as (bf & af & _ & A & _ & C).
    rewrite C. cbn [orb]. rewrite (A eq_refl), nonret_prop. fold (ex b). apply andb_true_iff.
Qed.
(** Example: block 2 is unsafe and loops; 0-1-4 is safe. *)
Definition t_low (b : nat) : list edge :=
  match b with
  | 0 => [ct_e 1; cn_e 2] | 1 => [jmp_e 4] | 2 => [ct_e 2; cn_e 3] | 3 => [ct_e 0; cn_e 4]
  | _ => [ret_e] end%nat.
Example C33_case :
  let co := g_co 5 t_low in let s := lsum 5 [2]%nat 1 in
  lowering_input co 0 s /\
  exists l, lower co fl0 0 s = Lowered l /\
    plain_path co 0 [1; 0; 1; 0; 0; 0]%nat [0; 2; 2; 3; 0; 1; 4]%nat /\
    run_fn co 0 l [1; 0; 1; 0; 0; 0]%nat =
      Some [Blk 0; Push; Blk 2; Blk 2; Blk 3; Blk 0; Blk 1; Blk 4; Pop]%nat /\
    run_fn co 0 l [0; 0]%nat = Some [Blk 0; Blk 1; Blk 4]%nat.
Proof.
  cbv zeta. split; [apply input_ok; [lia|reflexivity]|].
  eexists. split; [vm_compute; reflexivity|]. split; [|split; vm_compute; reflexivity].
  split; [reflexivity|]. cbn. repeat split; discriminate.
Qed.
(** Example with coalescing: two transition edges enter block 3, whose clone gets the push. *)
Definition t_coal (b : nat) : list edge :=
  match b with
  | 0 => [ct_e 1; cn_e 2] | 1 => [ct_e 3; cn_e 4] | 2 => [jmp_e 3] | 3 => [jmp_e 4]
  | _ => [ret_e] end%nat.
Example C33_case_coalesced :
  let co := g_co 5 t_coal in let s := lsum 5 [3]%nat 1 in
  lowering_input co 0 s /\
  exists l, lower co fl0 0 s = Lowered l /\ l_push_blocks l = [3]%nat /\ l_push_edges l = [] /\
    run_fn co 0 l [1; 0; 0]%nat = Some [Blk 0; Blk 2; Push; Blk 3; Blk 4; Pop]%nat.
Proof.
  cbv zeta. split; [apply input_ok; [lia|reflexivity]|].
  eexists. split; [vm_compute; reflexivity|]. repeat split; vm_compute; reflexivity.
Qed.
Print Assumptions C33_lowering.

(** The lowering decision is always reached. *)
Theorem C33_terminates co fl fn s :
  lowering_input co fn s -> lower co fl fn s <> LNoFuel.
Proof. intros (CFG & _). apply lower_total. exact CFG. Qed.
Print Assumptions C33_terminates.

(** ** C34: the patched function has exactly the paths of the original *)
Theorem C34_control_flow co fl fn s l ks :
  lower co fl fn s = Lowered l ->
  let entry := f_entry (co_fun co fn) in
  (forall ns, lowered_blocks co l (false, entry) ks = Some ns ->
     orig_blocks co entry ks = Some (map snd ns)) /\
  (forall path, orig_blocks co entry ks = Some path ->
     exists ns, lowered_blocks co l (false, entry) ks = Some ns /\ map snd ns = path).
Proof.
  intros _ entry. pose proof (lowered_control_flow co l ks (false, entry)) as H. cbn [snd] in H. split.
  - intros ns E. rewrite E in H. exact H.
  - intros path E. destruct (lowered_blocks co l (false, entry) ks) as [ns|]; [|congruence].
    exists ns. split; auto. congruence.
Qed.
(** Every block that is executed exists: the original or a clone of one of the
    function's blocks; and clones are entered only over transition edges. *)
Theorem C34_blocks_exist co fl fn s l ks ns :
  lowering_input co fn s ->
  (forall b e, In b (f_blocks (co_fun co fn)) -> In e (b_targets (co_block co b)) ->
     e_sink e = false -> e_inter e = false -> In (e_trg e) (f_blocks (co_fun co fn))) ->
  lower co fl fn s = Lowered l ->
  lowered_blocks co l (false, f_entry (co_fun co fn)) ks = Some ns ->
  forall n, In n ns -> In (snd n) (f_blocks (co_fun co fn)).
Proof.
  intros ((HE & _) & _) CL _.
  assert (G : forall ks n ns, In (snd n) (f_blocks (co_fun co fn)) -> lowered_blocks co l n ks = Some ns ->
     forall m, In m ns -> In (snd m) (f_blocks (co_fun co fn))).
  { clear ks ns. induction ks as [|k r IH]; intros n ns Hn E m Hm; cbn in E.
    - injection E as <-. destruct Hm as [<-|[]]; auto.
    - destruct (nth_error _ _) as [e|] eqn:HN; [|discriminate].
      destruct (e_sink e || e_inter e)%bool eqn:SI; [discriminate|].
      destruct (lowered_blocks _ _ _ r) as [ns'|] eqn:E'; [|discriminate].
      cbn in E. injection E as <-. destruct Hm as [<-|Hm]; auto.
      eapply IH; [|exact E'|exact Hm]. apply orb_false_iff in SI.
      assert (SN : snd (patched_trg (l_ndebug l) (l_red l) n k e) = e_trg e).
      { destruct n as [c b]. unfold patched_trg. destruct (l_ndebug l); auto. destruct c; auto. }
      rewrite SN. apply (CL (snd n)); [auto|eapply nth_error_In; eauto|tauto|tauto]. }
  intros E n Hn. eapply G; [|exact E|exact Hn]. exact HE.
Qed.
Example C34_case :
  let co := g_co 5 t_low in let s := lsum 5 [2]%nat 1 in
  exists l, lower co fl0 0 s = Lowered l /\
    lowered_blocks co l (false, 0%nat) [1; 0; 1; 0]%nat =
      Some [(false, 0); (true, 2); (true, 2); (true, 3); (true, 0)]%nat.
Proof. cbv zeta. eexists. split; vm_compute; reflexivity. Qed.
Print Assumptions C34_control_flow.
Print Assumptions C34_blocks_exist.

(** ** C35: exception edges *)
(** Refuted. Block 5 is safe and may throw to handler 3, which is unsafe: it runs without
    a push. Block 1 is unsafe and may throw to handler 2: the push is executed, but the
    function returns through the original blocks, without a pop. *)
Definition catch_e (b : nat) : edge := mkEdge CATCH false false b.
Definition t_catch (b : nat) : list edge :=
  match b with
  | 0 => [ct_e 5; cn_e 1] | 1 => [jmp_e 4; catch_e 2] | 2 => [jmp_e 4] | 3 => [jmp_e 4]
  | 5 => [jmp_e 4; catch_e 3]
  | _ => [ret_e] end%nat.
Definition co_catch : code :=
  mkCode [0]%nat (fun _ => mkFunc "f" 100 0 (seq 0 6) [4]%nat [4]%nat [])
    (fun b => xblock b (t_catch b) []) (fun _ => [0]%nat) (fun _ => None).
Theorem C35_refuted :
  exists co fl fn s l, lowering_input co fn s /\ fl_ndebug fl = false /\ lower co fl fn s = Lowered l /\
    (exists ks evs b, run_fn co fn l ks = Some evs /\ In (Blk b) evs /\ In b (s_unsafe_blocks s) /\
       ~ In Push evs) /\
    (exists ks evs b, run_fn co fn l ks = Some (evs ++ [Blk b]) /\ returning_exit co fn b /\
       In Push evs /\ ~ In Pop evs).
Proof.
  exists co_catch, fl0, 0%nat, (lsum 6 [1; 3]%nat 1). eexists.
  split.
  { split; [|split].
    - split; [cbn; auto|]. intros b c Hb (e & He & F & <-). cbn in Hb.
      repeat (destruct Hb as [<-|Hb]; [cbn in He; repeat (destruct He as [<-|He]; [cbn; auto 10|]); try contradiction|]);
        contradiction.
    - intros b e Hb He F. cbn in Hb.
      repeat (destruct Hb as [<-|Hb]; [cbn in He; repeat (destruct He as [<-|He]; [cbn; try discriminate|]); try contradiction|]);
        try contradiction; destruct F as (F & _); discriminate.
    - intros _ b e Hb He F. cbn in Hb.
      repeat (destruct Hb as [<-|Hb]; [cbn in He; repeat (destruct He as [<-|He]; [cbn; discriminate|]); try contradiction|]);
        contradiction. }
  split; [reflexivity|]. split; [vm_compute; reflexivity|]. split.
  - exists [0; 1]%nat, [Blk 0; Blk 5; Blk 3]%nat, 3%nat. split; [vm_compute; reflexivity|].
    split; [cbn; auto|]. split; [cbn; auto|]. cbn. intros H.
    repeat (destruct H as [H|H]; [discriminate|]). exact H.
  - exists [1; 1; 0]%nat, [Blk 0; Push; Blk 1; Blk 2]%nat, 4%nat. split; [vm_compute; reflexivity|].
    split; [apply nonret_prop; reflexivity|]. split; [cbn; auto|]. cbn. intros H.
    repeat (destruct H as [H|H]; [discriminate|]). exact H.
Qed.
(** Partial: the same as C33 for paths whose exception edges are taken before the first
    unsafe block and lead to handlers that ordinary edges reach too without passing an
    unsafe block. Missing: exceptions thrown after the push, and handlers that only
    exception edges reach, for which the claim is false. *)
Theorem C35_early_catch_partial co fl fn s l ks path :
  lowering_input co fn s -> fl_ndebug fl = false -> lower co fl fn s = Lowered l ->
  orig_blocks co (f_entry (co_fun co fn)) ks = Some path ->
  tame co fn s false (f_entry (co_fun co fn)) ks ->
  run_fn co fn l ks =
    Some (protect (fun b => mem b (s_unsafe_blocks s))
            (fun b => mem b (f_exits (co_fun co fn)) && negb (nonreturning_call (co_block co b))) false path).
Proof.
  intros (CFG & RETS & FLAG) DB LOW HO HT. exact (lowered_events co fl fn s CFG RETS FLAG l LOW DB ks path HO HT).
Qed.
(** Example: block 0 may throw to block 1, which is also reached by a jump. *)
Definition t_tame (b : nat) : list edge :=
  match b with
  | 0 => [ct_e 1; cn_e 3; catch_e 1] | 1 => [ct_e 2; cn_e 3] | 2 => [jmp_e 3]
  | _ => [ret_e] end%nat.
Example C35_case :
  let co := g_co 4 t_tame in let s := lsum 4 [2]%nat 1 in
  lowering_input co 0 s /\ tame co 0 s false 0 [2; 0; 0]%nat /\
  exists l, lower co fl0 0 s = Lowered l /\
    run_fn co 0 l [2; 0; 0]%nat = Some [Blk 0; Blk 1; Push; Blk 2; Blk 3; Pop]%nat.
Proof.
  cbv zeta. split; [apply input_ok; [lia|reflexivity]|]. split.
  - cbn. split; [|split; [|split]]; auto; try (left; discriminate).
    right. split; auto. eapply (calm_step _ _ _ 0%nat (0, 0)%nat); [constructor|reflexivity| |reflexivity].
    exists (ct_e 1). split; [reflexivity|]. split; [|reflexivity]. repeat split; discriminate.
  - eexists. split; vm_compute; reflexivity.
Qed.
Print Assumptions C35_refuted.
Print Assumptions C35_early_catch_partial.

(** ** C36: builds without assertions *)
(** Refuted: the same function and options; with assertions compiled out the edges are
    not redirected: the path 0-2-0-2-1 pushes twice and returns without a pop. *)
Definition t_nd (b : nat) : list edge :=
  match b with 0 => [ct_e 3; cn_e 2] | 2 => [ct_e 0; cn_e 3] | _ => [ret_e] end%nat.
Theorem C36_refuted :
  exists co fn s l ld ks path evs, lowering_input co fn s /\
    lower co fl0 fn s = Lowered l /\ lower co fl_nd fn s = Lowered ld /\
    plain_path co fn ks path /\
    run_fn co fn l ks = Some (evs ++ [Pop]) /\ count_occ ev_eq_dec evs Push = 1%nat /\
    exists evs', run_fn co fn ld ks = Some evs' /\ count_occ ev_eq_dec evs' Push = 2%nat /\ ~ In Pop evs'.
Proof.
  exists (g_co 4 t_nd), 0%nat, (lsum 4 [2]%nat 1). eexists _, _.
  exists [1; 0; 1; 1]%nat, [0; 2; 0; 2; 3]%nat, [Blk 0; Push; Blk 2; Blk 0; Blk 2; Blk 3]%nat.
  split; [apply input_ok; [lia|reflexivity]|].
  split; [vm_compute; reflexivity|]. split; [vm_compute; reflexivity|].
  split; [split; [reflexivity|cbn; repeat split; discriminate]|].
  split; [vm_compute; reflexivity|]. split; [reflexivity|].
  eexists. split; [vm_compute; reflexivity|]. split; [reflexivity|].
  cbn. intros H. repeat (destruct H as [H|H]; [discriminate|]). exact H.
Qed.
(** Partial: at least the decision whether to lower does not depend on the build, nor do
    the transition edges; only a build with assertions can end in an assertion failure. What is
    missing is the protection itself. *)
Definition debug_of (fl : flags) : flags :=
  mkFlags (fl_no_lowering fl) (fl_no_reg_frame fl) (fl_no_reg_save fl) (fl_no_inline fl) (fl_no_sfe fl)
    (fl_light fl) (fl_skip fl) false.
Theorem C36_decision_partial co fl fn s :
  lowering_input co fn s -> fl_ndebug fl = true ->
  (lower co fl fn s = NotLowered <-> lower co (debug_of fl) fn s = NotLowered) /\
  (forall l ld, lower co fl fn s = Lowered l -> lower co (debug_of fl) fn s = Lowered ld ->
     l_red l = l_red ld /\ l_pops l = l_pops ld).
Proof.
  intros (CFG & RETS & FLAG) ND.
  pose proof (lower_total co fl fn s CFG) as T1. pose proof (lower_total co (debug_of fl) fn s CFG) as T2.
  unfold lower in *. cbn [debug_of fl_no_lowering fl_ndebug] in *.
  unfold use_reg in *. cbn [debug_of fl_no_reg_frame] in *. unfold edge_ok in *.
  destruct (_ || _ || _)%bool; [split; [tauto|discriminate]|].
  destruct (redir _ _ _ _ _) as [[red vis]|]; [|congruence].
  destruct (negb (forallb _ red)); [split; [tauto|discriminate]|].
  match goal with |- context [if ?c then NotLowered else _] => destruct c; [split; [tauto|discriminate]|] end.
  rewrite ND in *. cbv zeta in *.
  destruct (mark _ (gr_succ co true red) _ _ _) as [v1|]; [|congruence].
  destruct (mark _ (gr_succ co false red) _ _ _) as [v2|]; [|congruence].
  cbn [negb andb] in *.
  match goal with |- context [if ?c then LAbort else _] => destruct c end.
  - split; [split; discriminate|]. intros l ld _ H. discriminate.
  - split; [split; discriminate|]. intros l ld H1 H2. injection H1 as <-. injection H2 as <-. auto.
Qed.
Example C36_case : lowering_input (g_co 4 t_nd) 0 (lsum 4 [2]%nat 1) /\ fl_ndebug fl_nd = true /\
  exists l, lower (g_co 4 t_nd) fl_nd 0 (lsum 4 [2]%nat 1) = Lowered l /\ l_red l = [(0, 1)]%nat.
Proof.
  split; [apply input_ok; [lia|reflexivity]|]. split; [reflexivity|]. eexists. split; vm_compute; reflexivity.
Qed.
Print Assumptions C36_refuted.
Print Assumptions C36_decision_partial.
