(** * Lemmas about [Machine]. *)
From Coq Require Import ZArith List Bool Lia ZifyBool ZifyNat.
From Verif Require Import Machine.
Import ListNotations.
Open Scope Z_scope.
Ltac Zify.zify_post_hook ::= Z.div_mod_to_equations.
#[global] Arguments load64 : simpl never.
#[global] Arguments load32 : simpl never.
#[global] Arguments store64 : simpl never.
#[global] Arguments sub_flags : simpl never.
#[global] Arguments add_flags : simpl never.
#[global] Arguments encode_flags : simpl never.
#[global] Arguments decode_flags : simpl never.
#[global] Arguments updr : simpl never.

Lemma updr_same f r v : updr f r v r = v.
Proof. unfold updr. destruct (reg_eq_dec r r); congruence. Qed.
Lemma updr_other f r v x : x <> r -> updr f r v x = f x.
Proof. unfold updr. destruct (reg_eq_dec x r); congruence. Qed.

Lemma load_range m n : forall a, 0 <= load m a n < 256 ^ Z.of_nat n.
Proof.
  induction n as [|n IH]; intros a.
  - cbn. lia.
  - cbn [load]. specialize (IH (a + 1)).
    rewrite Nat2Z.inj_succ, Z.pow_succ_r by lia.
    pose proof (Z.mod_pos_bound (m a) 256). lia.
Qed.

Lemma load64_range m a : 0 <= load64 m a < W.
Proof. exact (load_range m 8 a). Qed.

Lemma load_ext m m' n : forall a,
  (forall x, a <= x < a + Z.of_nat n -> m x = m' x) -> load m a n = load m' a n.
Proof.
  induction n as [|n IH]; intros a H; cbn [load]; auto.
  rewrite (H a) by lia. rewrite (IH (a + 1)); auto.
  intros x Hx. apply H. lia.
Qed.

Lemma store_out m n : forall a v x,
  x < a \/ a + Z.of_nat n <= x -> store m a n v x = m x.
Proof.
  revert m. induction n as [|n IH]; intros m a v x H; cbn [store]; auto.
  rewrite IH by lia. unfold updm. destruct (Z.eq_dec x a); auto. lia.
Qed.

Lemma load_store_same n : forall m a v,
  load (store m a n v) a n = v mod 256 ^ Z.of_nat n.
Proof.
  induction n as [|n IH]; intros m a v.
  - cbn. rewrite Z.mod_1_r. reflexivity.
  - cbn [load store]. rewrite IH.
    rewrite store_out by lia. unfold updm. destruct (Z.eq_dec a a); [|congruence].
    rewrite Z.mod_mod by lia.
    rewrite Nat2Z.inj_succ, Z.pow_succ_r by lia.
    rewrite Z.rem_mul_r by (try apply Z.pow_pos_nonneg; lia). reflexivity.
Qed.

Lemma load_store_disj m a n v b k :
  b + Z.of_nat k <= a \/ a + Z.of_nat n <= b ->
  load (store m a n v) b k = load m b k.
Proof. intros H. apply load_ext. intros x Hx. apply store_out. lia. Qed.

Lemma load64_store64_same m a v : 0 <= v < W -> load64 (store64 m a v) a = v.
Proof.
  intros H. unfold load64, store64. rewrite load_store_same.
  change (256 ^ Z.of_nat 8) with W. apply Z.mod_small; auto.
Qed.
Lemma load64_store64_disj m a v b :
  b + 8 <= a \/ a + 8 <= b -> load64 (store64 m a v) b = load64 m b.
Proof. intros H. apply load_store_disj. lia. Qed.
Lemma load32_store64_disj m a v b :
  b + 4 <= a \/ a + 8 <= b -> load32 (store64 m a v) b = load32 m b.
Proof. intros H. apply load_store_disj. lia. Qed.
Lemma store64_out m a v x : x < a \/ a + 8 <= x -> store64 m a v x = m x.
Proof. intros H. apply store_out. lia. Qed.
Lemma load64_ext m m' a :
  (forall x, a <= x < a + 8 -> m x = m' x) -> load64 m a = load64 m' a.
Proof. intros H. apply load_ext. intros; apply H; lia. Qed.
Lemma load32_ext m m' a :
  (forall x, a <= x < a + 4 -> m x = m' x) -> load32 m a = load32 m' a.
Proof. intros H. apply load_ext. intros; apply H; lia. Qed.

Lemma load_split m i : forall a j,
  load m a (i + j) = load m a i + 256 ^ Z.of_nat i * load m (a + Z.of_nat i) j.
Proof.
  induction i as [|i IH]; intros a j.
  - cbn [load plus]. replace (a + Z.of_nat 0) with a by lia.
    change (256 ^ Z.of_nat 0) with 1. lia.
  - cbn [load plus]. rewrite IH. rewrite Nat2Z.inj_succ, Z.pow_succ_r by lia.
    replace (a + 1 + Z.of_nat i) with (a + Z.succ (Z.of_nat i)) by lia. lia.
Qed.

Lemma load32_low m a : load32 m a = load64 m a mod 2 ^ 32.
Proof.
  unfold load32, load64. change 8%nat with (4 + 4)%nat. rewrite load_split.
  change (256 ^ Z.of_nat 4) with (2 ^ 32).
  pose proof (load_range m 4 a) as H. change (256 ^ Z.of_nat 4) with (2 ^ 32) in H.
  set (y := load m (a + Z.of_nat 4) 4). clearbody y.
  replace (load m a 4 + 2 ^ 32 * y) with (load m a 4 + y * 2 ^ 32) by ring.
  rewrite Z.mod_add by (intro; discriminate). symmetry. apply Z.mod_small. exact H.
Qed.

Lemma decode_encode f : decode_flags (encode_flags f) = f.
Proof. destruct f as [[] [] [] [] [] [] []]; reflexivity. Qed.
Lemma encode_range f : 0 <= encode_flags f < W.
Proof. destruct f as [[] [] [] [] [] [] []]; cbv; split; congruence. Qed.

Lemma all_perm_spec mp n : forall a,
  all_perm mp a n = true <-> (forall x, a <= x < a + Z.of_nat n -> mp x = true).
Proof.
  induction n as [|n IH]; intros a; cbn [all_perm].
  - split; auto. intros. lia.
  - rewrite andb_true_iff, IH. split.
    + intros [H1 H2] x Hx. destruct (Z.eq_dec x a); [subst; auto|]. apply H2. lia.
    + intros H. split; [apply H; lia|]. intros; apply H; lia.
Qed.

Lemma acc_spec mp a n :
  acc mp a n = true <->
  0 <= a /\ a + Z.of_nat n <= W /\ (forall x, a <= x < a + Z.of_nat n -> mp x = true).
Proof.
  unfold acc. rewrite !andb_true_iff, all_perm_spec, !Z.leb_le. tauto.
Qed.

Lemma acc8 mp a :
  0 <= a -> a + 8 <= W -> (forall x, a <= x < a + 8 -> mp x = true) ->
  acc mp a 8 = true.
Proof. intros. apply acc_spec. repeat split; auto. Qed.
Lemma acc4 mp a :
  0 <= a -> a + 4 <= W -> (forall x, a <= x < a + 4 -> mp x = true) ->
  acc mp a 4 = true.
Proof. intros. apply acc_spec. repeat split; auto. Qed.

(** ** Fuel *)

Lemma run_mono c mp n : forall s r,
  run n c mp s = r -> r <> OutOfFuel -> forall k, run (n + k) c mp s = r.
Proof.
  induction n as [|n IH]; intros s r H Hr k; cbn in *; [congruence|].
  destruct (step c mp s); auto.
Qed.

Lemma exec_det c mp s r1 r2 : exec c mp s r1 -> exec c mp s r2 -> r1 = r2.
Proof.
  intros [N1 [n1 H1]] [N2 [n2 H2]].
  pose proof (run_mono _ _ _ _ _ H1 N1 n2) as A.
  pose proof (run_mono _ _ _ _ _ H2 N2 n1) as B.
  rewrite Nat.add_comm in B. congruence.
Qed.

(** Multi-step relation used by the proofs. *)
Inductive steps (c : list instr) (mp : perm) : state -> state -> Prop :=
| steps_refl s : steps c mp s s
| steps_next s s1 s2 : step c mp s = SNext s1 -> steps c mp s1 s2 -> steps c mp s s2.

Lemma steps_trans c mp s1 s2 s3 :
  steps c mp s1 s2 -> steps c mp s2 s3 -> steps c mp s1 s3.
Proof. induction 1; auto. intros. econstructor; eauto. Qed.

Lemma steps_run c mp s s' r :
  steps c mp s s' -> (exists n, run n c mp s' = r) -> exists n, run n c mp s = r.
Proof.
  induction 1 as [|s s1 s2 H HS IH]; auto.
  intros K. destruct (IH K) as [n Hn]. exists (S n). cbn. rewrite H. exact Hn.
Qed.

Lemma steps_done c mp s s' :
  steps c mp (enter s) s' -> step c mp s' = SEnd -> exec c mp s (Done s').
Proof.
  intros H E. split; [congruence|]. apply (steps_run _ _ _ _ _ H).
  exists 1%nat. cbn. rewrite E. reflexivity.
Qed.
Lemma steps_trap c mp s s' :
  steps c mp (enter s) s' -> step c mp s' = STrap -> exec c mp s Trap.
Proof.
  intros H E. split; [congruence|]. apply (steps_run _ _ _ _ _ H).
  exists 1%nat. cbn. rewrite E. reflexivity.
Qed.

(** ZF of a comparison decides equality. *)
Lemma sub_flags_zf bits f a b :
  0 < bits -> 0 <= a < 2 ^ bits -> 0 <= b < 2 ^ bits ->
  ZF (sub_flags bits f a b) = (a =? b).
Proof.
  intros Hb Ha Hb'. unfold sub_flags. cbn [ZF].
  destruct (a =? b) eqn:E.
  - apply Z.eqb_eq in E. subst. rewrite Z.sub_diag, Z.mod_0_l; auto. lia.
  - apply Z.eqb_neq in E. apply Z.eqb_neq. intros H.
    apply Z.mod_divide in H; [|lia]. destruct H as [k Hk].
    assert (k = 0 \/ k >= 1 \/ k <= -1) as [|[|]] by lia; subst; nia.
Qed.

(** ** Preservation of 64-bit well-formedness *)
Lemma W_pos : 0 < W. Proof. reflexivity. Qed.

Lemma step_wf c mp s s' : wf s -> step c mp s = SNext s' -> wf s'.
Proof.
  intros [Hr Hg] H. unfold step in H.
  pose proof (fun x => Z.mod_pos_bound x W W_pos) as MB.
  destruct (nth_error c (pc s)) as [i|]; [|discriminate].
  assert (U : forall f r v, (forall x, 0 <= f x < W) -> 0 <= v < W ->
                            forall x, 0 <= updr f r v x < W).
  { intros f r v Hf Hv x. unfold updr. destruct (reg_eq_dec x r); auto. }
  destruct i; cbn in H;
    repeat match type of H with
           | context [if ?b then _ else _] => destruct b; try discriminate
           end;
    unfold goto in H;
    try (destruct (find_label c l); try discriminate);
    unfold upd_state in H; inversion H; subst; clear H; split; cbn; auto;
    try (apply U; auto); try (apply U; auto); try apply load64_range; apply MB.
Qed.

Lemma run_wf c mp n : forall s s', wf s -> run n c mp s = Done s' -> wf s'.
Proof.
  induction n as [|n IH]; intros s s' Hw H; cbn in H; [discriminate|].
  destruct (step c mp s) eqn:E; try discriminate.
  - eapply IH; [|eauto]. eapply step_wf; eauto.
  - inversion H; subst; auto.
Qed.

Lemma exec_wf c mp s s' : wf s -> exec c mp s (Done s') -> wf s'.
Proof. intros Hw [_ [n H]]. eapply run_wf; [|eauto]. destruct Hw; split; auto. Qed.

(** The gs base never changes. *)
Lemma step_gs c mp s s' : step c mp s = SNext s' -> gs s' = gs s.
Proof.
  intros H. unfold step in H.
  destruct (nth_error c (pc s)) as [i|]; [|discriminate].
  destruct i; cbn in H;
    repeat match type of H with
           | context [if ?b then _ else _] => destruct b; try discriminate
           end;
    unfold goto in H;
    try (destruct (find_label c l); try discriminate);
    unfold upd_state in H; inversion H; subst; reflexivity.
Qed.
Lemma run_gs c mp n : forall s s', run n c mp s = Done s' -> gs s' = gs s.
Proof.
  induction n as [|n IH]; intros s s' H; cbn in H; [discriminate|].
  destruct (step c mp s) eqn:E; try discriminate.
  - rewrite (IH _ _ H). eapply step_gs; eauto.
  - inversion H; subst; auto.
Qed.
Lemma exec_gs c mp s s' : exec c mp s (Done s') -> gs s' = gs s.
Proof. intros [_ [n H]]. apply run_gs in H. exact H. Qed.
