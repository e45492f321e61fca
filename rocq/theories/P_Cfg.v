(** * P_Cfg: property C47 (control flow components) *)
From Coq Require Import ZArith Bool Lia ZifyBool ZifyNat Arith String List.
From Verif Require Import Machine Jit Dfs Binary Reach Components ExCode SafePaths P_Paths Lowering P_Lower.
Import ListNotations.
Open Scope Z_scope.

(** What Dyninst provides: the entry is a block of the function, the blocks are closed
    under the edges followed, and no block lies in two outer loops. *)
Definition cfg_input (co : code) (fn : nat) : Prop :=
  In (f_entry (co_fun co fn)) (f_blocks (co_fun co fn)) /\
  (forall a t, In a (f_blocks (co_fun co fn)) -> flow co a t -> In t (f_blocks (co_fun co fn))) /\
  disjoint_loops co fn.
Definition in_comp (st : cst) (b c : nat) : Prop := In (c, b) (c_blks st).

Theorem C47_components co fn s :
  cfg_input co fn -> s_assume_unsafe s = false -> s_unknown_cf s = false ->
  let entry := f_entry (co_fun co fn) in
  exists root st, cfg_analysis co fn s = CCfg root st /\ in_comp st entry root /\
    (* every reachable block is in exactly one component *)
    (forall b, flows co entry b -> exists c, in_comp st b c) /\
    (forall b c c', in_comp st b c -> in_comp st b c' -> c = c') /\
    (* a component is one block or one outer loop *)
    (forall a b c, in_comp st a c -> in_comp st b c -> a = b \/ same_loop co fn a b) /\
    (forall a b, same_loop co fn a b -> exists c, in_comp st a c /\ in_comp st b c) /\
    (* every edge between components is recorded, and nothing else *)
    (forall a t c c', flows co entry a -> flow co a t -> in_comp st a c -> in_comp st t c' -> c <> c' ->
       In (c, c') (c_kids st) /\ In (c, (t, c')) (c_outs st)) /\
    (forall c c', In (c, c') (c_kids st) -> c <> c' /\
       exists a t, flow co a t /\ in_comp st a c /\ in_comp st t c') /\
    (forall c t c', In (c, (t, c')) (c_outs st) -> c <> c' /\ in_comp st t c' /\
       exists a, flow co a t /\ in_comp st a c) /\
    (* returning blocks *)
    (forall b c, flows co entry b -> in_comp st b c -> (In (c, b) (c_rets st) <-> has_ret co b)).
Proof.
  intros (HE & CL & D) A1 A2 entry.
  destruct (cfg_ok_thm co fn CL s D HE A1 A2) as (root & st & E & W & ER & V & DN).
  assert (IC : forall b c, in_comp st b c <-> c_map st b = Some c).
  { intros b c. unfold in_comp. symmetry. apply (w_blks _ _ _ W). }
  exists root, st. split; [exact E|]. split; [apply IC; exact ER|].
  split.
  { intros b F. apply V in F. pose proof (w_vis _ _ _ W _ F) as M. destruct (c_map st b) as [c|] eqn:Q; [|congruence].
    exists c. apply IC. exact Q. }
  split; [intros b c c' H1 H2; apply IC in H1, H2; congruence|].
  split; [intros a b c H1 H2; apply IC in H1, H2; eapply (w_one _ _ _ W); eauto|].
  split; [intros a b L; destruct (w_loop _ _ _ W a b L) as (c & H1 & H2); exists c; split; apply IC; auto|].
  split.
  { intros a t c c' F (e & He & <- & F1 & F2 & F3 & F4) H1 H2 N. apply IC in H1, H2.
    apply V in F. destruct (DN a F e He) as (c0 & M & _ & K). assert (c0 = c) by congruence. subst c0.
    apply K; auto. }
  split.
  { intros c c' K. destruct (w_kids _ _ _ W c c' K) as (N & a & t & F & H1 & H2). split; auto.
    exists a, t. split; auto. split; apply IC; auto. }
  split.
  { intros c t c' K. destruct (w_outs _ _ _ W c t c' K) as (N & H1 & a & F & H2). split; auto.
    split; [apply IC; auto|]. exists a. split; auto. apply IC; auto. }
  intros b c F H. apply IC in H. split; [intros K; apply (w_rets _ _ _ W) in K; apply K|].
  intros (e & He & T). apply V in F. destruct (DN b F e He) as (c0 & M & K & _).
  assert (c0 = c) by congruence. subst c0. auto.
Qed.

(** The graph is not built exactly for functions assumed unsafe or with unknown control flow. *)
Theorem C47_null co fn s : cfg_input co fn ->
  (cfg_analysis co fn s = CNull <-> s_assume_unsafe s = true \/ s_unknown_cf s = true).
Proof.
  intros H. unfold cfg_analysis. destruct (s_assume_unsafe s) eqn:A; [split; auto|].
  destruct (s_unknown_cf s) eqn:B; [split; auto|]. cbn [orb].
  destruct (c_comp _ _) as [r st]. destruct (c_walk _ _ _ _ _); split; try discriminate; intros [K|K]; discriminate.
Qed.

(** If the outer loops are exactly the sets of blocks that reach each other, then the
    component graph has no cycle, as the traversals in reverse post order assume. *)
Inductive kid_path (st : cst) : nat -> nat -> Prop :=
| kp_one a b : In (a, b) (c_kids st) -> kid_path st a b
| kp_step a b c : In (a, b) (c_kids st) -> kid_path st b c -> kid_path st a c.
Theorem C47_acyclic co fn s :
  cfg_input co fn -> s_assume_unsafe s = false -> s_unknown_cf s = false ->
  (forall a b, a <> b -> (same_loop co fn a b <-> flows co a b /\ flows co b a)) ->
  exists root st, cfg_analysis co fn s = CCfg root st /\ forall c, ~ kid_path st c c.
Proof.
  intros I A1 A2 SL.
  destruct (C47_components co fn s I A1 A2) as (root & st & E & _ & _ & UQ & ONE & LOOP & _ & KID & _).
  exists root, st. split; auto.
  assert (IN : forall a b c, in_comp st a c -> in_comp st b c -> flows co a b).
  { intros a b c Ha Hb. destruct (Nat.eq_dec a b) as [->|N]; [constructor|].
    destruct (ONE a b c Ha Hb) as [K|K]; [contradiction|]. apply SL in K; auto. apply K. }
  assert (KF : forall c c', In (c, c') (c_kids st) -> forall a b, in_comp st a c -> in_comp st b c' -> flows co a b).
  { intros c c' K a b Ha Hb. destruct (KID c c' K) as (_ & x & y & F & Hx & Hy).
    eapply flows_trans; [exact (IN a x c Ha Hx)|]. eapply flows_trans; [|exact (IN y b c' Hy Hb)].
    econstructor; [constructor|exact F]. }
  assert (PF : forall c c', kid_path st c c' -> forall a b, in_comp st a c -> in_comp st b c' -> flows co a b).
  { induction 1 as [c c' K|c m c' K P IH]; intros a b Ha Hb; [eapply KF; eauto|].
    destruct (KID c m K) as (_ & x & y & _ & _ & Hy). eapply flows_trans; [eapply KF; eauto|]. eauto. }
  assert (G : forall c m, In (c, m) (c_kids st) -> (m = c \/ kid_path st m c) -> False).
  { intros c m K P. destruct (KID c m K) as (N & x & y & F & Hx & Hy).
    destruct P as [->|P]; [congruence|].
    assert (NE : x <> y) by (intros ->; apply N; eapply UQ; eauto).
    assert (L : same_loop co fn x y).
    { apply SL; auto. split; [eapply KF; eauto|]. eapply PF; eauto. }
    destruct (LOOP x y L) as (k & Hk1 & Hk2). apply N.
    rewrite (UQ x c k Hx Hk1), (UQ y m k Hy Hk2). reflexivity. }
  intros c P. inversion P as [a b K|a m b K P']; subst; eapply G; eauto.
Qed.

(** Example: a loop of blocks 1 and 2 between 0 and 3. *)
Definition t_cfg (b : nat) : list edge :=
  match b with 0 => [jmp_e 1] | 1 => [ct_e 2; cn_e 3; catch_e 3] | 2 => [jmp_e 1] | _ => [ret_e] end%nat.
Definition co_cfg : code :=
  mkCode [0]%nat (fun _ => mkFunc "f" 100 0 (seq 0 4) [3]%nat [3]%nat [[1; 2]%nat])
    (fun b => xblock b (t_cfg b) []) (fun _ => [0]%nat) (fun _ => None).
Lemma co_cfg_flow a t : flow co_cfg a t <-> In (a, t) [(0, 1); (1, 2); (1, 3); (2, 1)]%nat.
Proof.
  split.
  - intros (e & He & <- & F1 & F2 & F3 & F4). cbn [co_cfg co_block b_targets xblock] in He.
    destruct a as [|[|[|a]]]; cbn in He;
      repeat (destruct He as [<-|He]; [cbn in *; try congruence; auto 10|]); contradiction.
  - cbn. intros H. repeat (destruct H as [H|H]; [injection H as <- <-|]).
    + exists (jmp_e 1). cbn. repeat split; auto; discriminate.
    + exists (ct_e 2). cbn. repeat split; auto; discriminate.
    + exists (cn_e 3). cbn. repeat split; auto; discriminate.
    + exists (jmp_e 1). cbn. repeat split; auto; discriminate.
    + contradiction.
Qed.
Example C47_case : cfg_input co_cfg 0 /\
  (forall a b, a <> b -> (same_loop co_cfg 0 a b <-> flows co_cfg a b /\ flows co_cfg b a)) /\
  exists st, cfg_analysis co_cfg 0 summary0 = CCfg 1 st /\
    c_blks st = [(2, 3); (0, 2); (0, 1); (1, 0); (0, 2); (0, 1)]%nat /\
    c_kids st = [(0, 2); (1, 0)]%nat /\ c_rets st = [(2, 3)]%nat.
Proof.
  split; [|split].
  - split; [cbn; auto|]. split.
    + intros a t _ F. apply co_cfg_flow in F. cbn in F. cbn.
      repeat (destruct F as [F|F]; [injection F as <- <-; auto 10|]). contradiction.
    + intros i j l l' b Hi Hj _ _. cbn in Hi, Hj. destruct i as [|i]; destruct j as [|j]; auto;
        [destruct j|destruct i|destruct i]; discriminate.
  - assert (R0 : forall b, flows co_cfg b 0 -> b = 0%nat).
    { intros b H. remember 0%nat as z. induction H; auto. subst c. apply co_cfg_flow in H0. cbn in H0.
      repeat (destruct H0 as [H0|H0]; [discriminate|]). contradiction. }
    assert (R3 : forall b, flows co_cfg 3 b -> b = 3%nat).
    { intros b H. induction H; auto. rewrite IHflows in H0. apply co_cfg_flow in H0. cbn in H0.
      repeat (destruct H0 as [H0|H0]; [discriminate|]). contradiction. }
    assert (RR : forall a b, flows co_cfg a b -> a <> b -> (a < 4)%nat /\ (b < 4)%nat).
    { intros a b H N. split.
      - induction H; [congruence|]. destruct (Nat.eq_dec a b) as [->|N']; auto.
        apply co_cfg_flow in H0. cbn in H0. repeat (destruct H0 as [H0|H0]; [injection H0 as <- <-; lia|]). contradiction.
      - destruct H; [congruence|]. apply co_cfg_flow in H0. cbn in H0.
        repeat (destruct H0 as [H0|H0]; [injection H0 as <- <-; lia|]). contradiction. }
    intros a b N. split.
    + intros (l & [<-|[]] & Ha & Hb). cbn in Ha, Hb.
      assert (F12 : flows co_cfg 1 2) by (econstructor; [constructor|apply co_cfg_flow; cbn; auto]).
      assert (F21 : flows co_cfg 2 1) by (econstructor; [constructor|apply co_cfg_flow; cbn; auto]).
      destruct Ha as [<-|[<-|[]]], Hb as [<-|[<-|[]]]; try congruence; auto.
    + intros [F1 F2]. destruct (RR a b F1 N) as [La Lb].
      exists [1; 2]%nat. split; [cbn; auto|].
      assert (a <> 0)%nat by (intros ->; apply R0 in F2; congruence).
      assert (b <> 0)%nat by (intros ->; apply R0 in F1; congruence).
      assert (a <> 3)%nat by (intros ->; apply R3 in F1; congruence).
      assert (b <> 3)%nat by (intros ->; apply R3 in F2; congruence).
      cbn. lia.
  - eexists. split; [vm_compute; reflexivity|]. repeat split; reflexivity.
Qed.
Print Assumptions C47_components.
Print Assumptions C47_null.
Print Assumptions C47_acyclic.
