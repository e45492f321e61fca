(** * P_Paths: properties C31, C32 (safe path counting) *)
From Coq Require Import ZArith Bool Lia ZifyBool ZifyNat Arith String List.
From Verif Require Import Machine Jit Dfs Binary SafePaths ExCode.
Import ListNotations.
Open Scope Z_scope.

Lemma safe_paths_inv co fn s s' : safe_paths co fn s = Some s' ->
  exists c vis, count_paths co (s_unsafe_blocks s) (f_exits (co_fun co fn))
     (fuel_of co (f_blocks (co_fun co fn))) (f_entry (co_fun co fn)) [] = Some (c, vis) /\
     s' = set_safe_paths s c /\ s_safe_paths s' = c.
Proof.
  unfold safe_paths, fuel_of. destruct (count_paths _ _ _ _ _ _) as [[c vis]|]; [|discriminate].
  intros H. injection H as <-. exists c, vis. auto.
Qed.

(** Example graphs. Function 0, blocks 0.., exit block last. *)
Definition jmp_e (b : nat) : edge := mkEdge DIRECT false false b.
Definition ct_e (b : nat) : edge := mkEdge COND_TAKEN false false b.
Definition cn_e (b : nat) : edge := mkEdge COND_NOT_TAKEN false false b.
Definition ind_e (b : nat) : edge := mkEdge INDIRECT false false b.
Definition g_co (nb : nat) (t : nat -> list edge) : code :=
  xcode [0%nat] (fun _ => nb) (fun b => (t b, [])) (fun _ => None).
Lemma g_ok nb t : (0 < nb)%nat ->
  forallb (fun b => forallb (fun e => skipped e || (e_trg e <? nb)%nat) (t b)) (seq 0 nb) = true ->
  cfg_ok (g_co nb t) 0.
Proof.
  intros P H. split.
  - cbn [co_fun g_co xcode f_entry f_blocks xfunc]. apply in_seq. lia.
  - intros b c Hb (e & He & F & <-).
    cbn [co_fun g_co xcode f_entry f_blocks xfunc co_block xblock b_targets fst] in *.
    rewrite forallb_forall in H. apply H in Hb. rewrite forallb_forall in Hb. apply Hb in He.
    apply skipped_false in F. rewrite F in He. cbn [orb] in He. apply Nat.ltb_lt in He. apply in_seq. cbn. lia.
Qed.
Lemma g_ni nb t :
  forallb (fun b => forallb (fun e => skipped e || negb (is (e_ty e) INDIRECT)) (t b)) (seq 0 nb) = true ->
  no_indirect (g_co nb t) (f_blocks (co_fun (g_co nb t) 0)).
Proof.
  intros H b e Hb He F.
  cbn [co_fun g_co xcode f_entry f_blocks xfunc co_block xblock b_targets fst] in *.
  rewrite forallb_forall in H. apply H in Hb. rewrite forallb_forall in Hb. apply Hb in He.
  apply skipped_false in F. rewrite F in He. cbn in He. apply negb_true_iff, is_false in He. auto.
Qed.
(** A loop with an unsafe block, a safe way out, and a catch edge. *)
Definition t_loop (b : nat) : list edge :=
  match b with
  | 0 => [ct_e 1; cn_e 2; mkEdge CATCH false false 1]
  | 1 => [jmp_e 0]
  | 2 => [ct_e 0; cn_e 3]
  | _ => [ret_e] end%nat.
(** Two diamonds in sequence. *)
Definition t_diamonds (b : nat) : list edge :=
  match b with
  | 0 => [ct_e 1; cn_e 2] | 1 => [jmp_e 3] | 2 => [jmp_e 3]
  | 3 => [ct_e 4; cn_e 5] | 4 => [jmp_e 6] | 5 => [jmp_e 6]
  | _ => [ret_e] end%nat.
(** A binary branching function; all leaves jump to the exit. *)
Definition t_tree (b : nat) : list edge :=
  match b with
  | 0 => [ct_e 1; cn_e 2] | 1 => [ct_e 3; cn_e 4] | 2 => [jmp_e 5]
  | 3 => [jmp_e 5] | 4 => [jmp_e 5]
  | _ => [ret_e] end%nat.
(** The only safe path lies beyond an indirect jump's sibling. *)
Definition t_ind (b : nat) : list edge :=
  match b with
  | 0 => [ct_e 2; cn_e 1] | 1 => [ind_e 2; jmp_e 2]
  | _ => [ret_e] end%nat.
Definition with_unsafe (l : list nat) : summary := set_unsafe_blocks summary0 l.

(** ** C31 *)
(** The count terminates on every graph. *)
Theorem C31_terminates co fn s :
  cfg_ok co fn -> exists c, safe_paths co fn s = Some (set_safe_paths s c) /\ 0 <= c.
Proof.
  intros (HE & CB).
  destruct (cp_runs co (s_unsafe_blocks s) (f_exits (co_fun co fn)) _ _ CB HE) as (c & vis & R).
  exists c. unfold safe_paths, fuel_of in *. rewrite R. split; auto. eapply cp_nonneg; eauto.
Qed.
(** Without indirect jumps it is positive exactly when a safe path to an exit exists. *)
Theorem C31_positive_iff co fn s s' :
  cfg_ok co fn -> no_indirect co (f_blocks (co_fun co fn)) ->
  safe_paths co fn s = Some s' ->
  (0 < s_safe_paths s' <->
   exists p, safe_path co (s_unsafe_blocks s) (f_exits (co_fun co fn)) (f_entry (co_fun co fn)) p).
Proof.
  intros (HE & CB) NI H. destruct (safe_paths_inv _ _ _ _ H) as (c & vis & R & -> & ->).
  eapply count_pos_iff; eauto.
Qed.
(** With indirect jumps a positive count still implies a safe path. *)
Theorem C31_sound co fn s s' :
  safe_paths co fn s = Some s' -> 0 < s_safe_paths s' ->
  exists p, safe_path co (s_unsafe_blocks s) (f_exits (co_fun co fn)) (f_entry (co_fun co fn)) p.
Proof.
  intros H P. destruct (safe_paths_inv _ _ _ _ H) as (c & vis & R & -> & E).
  rewrite E in P. eapply cp_pos; eauto.
Qed.
Example C31_case :
  cfg_ok (g_co 4 t_loop) 0 /\ no_indirect (g_co 4 t_loop) (f_blocks (co_fun (g_co 4 t_loop) 0)) /\
  option_map s_safe_paths (safe_paths (g_co 4 t_loop) 0 (with_unsafe [1]%nat)) = Some 1 /\
  option_map s_safe_paths (safe_paths (g_co 4 t_loop) 0 (with_unsafe [1; 2]%nat)) = Some 0 /\
  safe_path (g_co 4 t_loop) [1]%nat [3]%nat 0 [2; 0; 2; 3]%nat /\
  cfg_ok (g_co 3 t_ind) 0 /\
  option_map s_safe_paths (safe_paths (g_co 3 t_ind) 0 (with_unsafe [])) = Some 1.
Proof.
  split; [apply g_ok; [lia|reflexivity]|]. split; [apply g_ni; reflexivity|].
  split; [reflexivity|]. split; [reflexivity|].
  split; [|split; [apply g_ok; [lia|reflexivity]|reflexivity]].
  cbn [safe_path]. repeat split; try (cbn; intros K; intuition lia).
  - exists (cn_e 2). cbn. unfold followable. cbn. intuition discriminate.
  - exists (ct_e 0). cbn. unfold followable. cbn. intuition discriminate.
  - exists (cn_e 2). cbn. unfold followable. cbn. intuition discriminate.
  - exists (cn_e 3). cbn. unfold followable. cbn. intuition discriminate.
  - cbn. auto.
Qed.
Print Assumptions C31_terminates.
Print Assumptions C31_positive_iff.
Print Assumptions C31_sound.

(** ** C32: the number of safe paths *)
(** Refuted: on two diamonds in sequence (acyclic, all blocks safe) there are four
    paths, but the count is two: the visited set is kept from one path to the next. *)
Fixpoint all_paths (co : code) (n : nat) (b : nat) (exits : list nat) : list (list eid) :=
  match n with
  | O => []
  | S n => if mem b exits then [[]] else
      List.concat (map (fun k => match nth_error (b_targets (co_block co b)) k with
         | Some e => map (cons (b, k)) (all_paths co n (e_trg e) exits)
         | None => [] end) (seq 0 (List.length (b_targets (co_block co b)))))
  end.
Theorem C32_refuted :
  exists co fn s s', cfg_ok co fn /\ no_indirect co (f_blocks (co_fun co fn)) /\
    safe_paths co fn s = Some s' /\ s_safe_paths s' = 2 /\
    exists ps, NoDup ps /\ List.length ps = 4%nat /\
      Forall (safe_epath co (s_unsafe_blocks s) (f_exits (co_fun co fn)) (f_entry (co_fun co fn))) ps.
Proof.
  exists (g_co 7 t_diamonds), 0%nat, (with_unsafe []), (set_safe_paths (with_unsafe []) 2).
  split; [apply g_ok; [lia|reflexivity]|]. split; [apply g_ni; reflexivity|].
  split; [reflexivity|]. split; [reflexivity|].
  exists (all_paths (g_co 7 t_diamonds) 6 0 [6]%nat).
  vm_compute all_paths. split; [|split; [reflexivity|]].
  - repeat constructor; cbn; intuition discriminate.
  - repeat constructor; exists 6%nat; (split; [|split; [intros []|left; reflexivity]]);
      cbn [epath fst]; unfold is_edge, followable; cbn;
      repeat (split; [reflexivity|]; split; [intros []|]; split; [intros [K|[]]; discriminate K|];
              eexists; split; [eexists; split; [reflexivity|]; cbn; split; [repeat split; discriminate|reflexivity]|]);
      reflexivity.
Qed.
(** Partial. What the count is, on every graph without indirect jumps: the number of
    distinct edges over which a safe path enters its exit (one if the entry itself is a
    safe exit). Missing for the full claim: it equals the number of paths only if no two
    paths share their last edge. *)
Theorem C32_final_edges_partial co fn s s' :
  cfg_ok co fn -> no_indirect co (f_blocks (co_fun co fn)) ->
  safe_paths co fn s = Some s' ->
  let u := s_unsafe_blocks s in let x := f_exits (co_fun co fn) in let e := f_entry (co_fun co fn) in
  (~ In e u /\ In e x -> s_safe_paths s' = 1) /\
  (~ (~ In e u /\ In e x) ->
     exactly (fun l => exists p, safe_epath co u x e (p ++ [l])) (s_safe_paths s')).
Proof.
  intros (HE & CB) NI H. destruct (safe_paths_inv _ _ _ _ H) as (c & vis & R & -> & ->).
  cbn zeta. eapply count_final_edges; eauto.
Qed.
(** In particular, for functions that only branch (paths join at exit blocks only) it is
    the number of safe paths. *)
Theorem C32_branching_partial co fn s s' :
  cfg_ok co fn -> no_indirect co (f_blocks (co_fun co fn)) ->
  no_join co (f_exits (co_fun co fn)) (f_entry (co_fun co fn)) ->
  safe_paths co fn s = Some s' ->
  exactly (safe_epath co (s_unsafe_blocks s) (f_exits (co_fun co fn)) (f_entry (co_fun co fn)))
    (s_safe_paths s').
Proof.
  intros (HE & CB) NI J H. destruct (safe_paths_inv _ _ _ _ H) as (c & vis & R & -> & ->).
  eapply count_no_join; eauto.
Qed.
Lemma t_tree_edge x t : is_edge (g_co 6 t_tree) x t ->
  (x, t) = ((0, 0), 1)%nat \/ (x, t) = ((0, 1), 2)%nat \/ (x, t) = ((1, 0), 3)%nat \/
  (x, t) = ((1, 1), 4)%nat \/ t = 5%nat.
Proof.
  intros (e & A & F & <-). destruct x as [b k]. cbn [fst snd] in A.
  cbn [g_co xcode co_block xblock b_targets fst] in A.
  destruct b as [|[|[|[|[|b]]]]]; destruct k as [|[|k]]; cbn in A; try discriminate;
    try (injection A as <-; cbn; auto 10; destruct F as (F & _); discriminate);
    destruct k; discriminate.
Qed.
Example C32_case :
  cfg_ok (g_co 6 t_tree) 0 /\ no_indirect (g_co 6 t_tree) (f_blocks (co_fun (g_co 6 t_tree) 0)) /\
  no_join (g_co 6 t_tree) [5]%nat 0 /\
  option_map s_safe_paths (safe_paths (g_co 6 t_tree) 0 (with_unsafe [])) = Some 3 /\
  option_map s_safe_paths (safe_paths (g_co 6 t_tree) 0 (with_unsafe [3]%nat)) = Some 2.
Proof.
  split; [apply g_ok; [lia|reflexivity]|]. split; [apply g_ni; reflexivity|].
  split; [|split; reflexivity]. split.
  - intros x H. apply t_tree_edge in H.
    repeat match goal with H : _ \/ _ |- _ => destruct H as [H|H] end; congruence.
  - intros x y t H1 H2 X. apply t_tree_edge in H1. apply t_tree_edge in H2.
    repeat match goal with H : _ \/ _ |- _ => destruct H as [H|H] end; try congruence;
      subst; cbn in X; tauto.
Qed.
Print Assumptions C32_refuted.
Print Assumptions C32_final_edges_partial.
Print Assumptions C32_branching_partial.
