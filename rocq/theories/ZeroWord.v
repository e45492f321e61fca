(** * ZeroWord: the exit code when the word it checks is zero and no recorded address is
    (jit.cc:233-278, 338-383, 423-487)

    The loop of the check then gets as far as the word below the oldest entry, which is zero as
    well.  The check accepts, and leaves the top pointer at that word. *)
From Coq Require Import ZArith Bool Lia ZifyBool ZifyNat Arith String List.
From Verif Require Import Machine MachineFacts Jit ShadowSpec JitFacts JitPushPop History RegFrame.
Import ListNotations.
Open Scope Z_scope.

(** No recorded address has a low half of zero, which the loop takes for the bottom. *)
Definition sound (l : list Z) : Prop := forall v, In v l -> v mod 2 ^ 32 <> 0.
Lemma sound_dec l : sound l \/ ~ sound l.
Proof.
  induction l as [|v l IH]; [left; intros v []|]. destruct (Z.eq_dec (v mod 2 ^ 32) 0) as [E|E].
  - right. intros K. apply (K v); [left; auto|exact E].
  - destruct IH as [IH|IH]; [left; intros x [<-|H]; auto|right; intros K; apply IH; intros x H; apply K; right; auto].
Qed.

Section Validate.
  Context (c : list instr) (mp : perm) (n : nat) (b : Z) (t1 t2 : reg) (off : Z)
          (le ld ll : nat).
  Hypothesis HC : code_at c n (validate_frag t1 t2 off le ld ll).
  Hypothesis Lerr : find_label c le = Some (n + 10)%nat.
  Hypothesis Ldone : find_label c ld = Some (n + 12)%nat.
  Hypothesis Lloop : find_label c ll = Some (n + 1)%nat.
  Hypothesis N1 : t1 <> RSP.
  Hypothesis N2 : t2 <> RSP.
  Hypothesis N3 : t1 <> t2.
  Hypothesis MB : mapped mp b 8.
  Let at_ i x : nth_error (validate_frag t1 t2 off le ld ll) i = Some x ->
                nth_error c (n + i) = Some x.
  Proof. apply HC. Qed.
  Lemma zero_loop l : forall g m f,
    (forall i v, nth_error (rev l) i = Some v -> load64 m (slot b i) = v) ->
    load64 m (b + 24) = 0 ->
    g t1 = slot b (List.length l) ->
    mapped mp b (32 + 8 * Z.of_nat (List.length l)) ->
    slot b (List.length l) < W ->
    mapped mp (g RSP + off) 8 -> apart (g RSP + off) 8 b 8 ->
    load64 m (g RSP + off) = 0 -> unwind 0 l = None ->
    (sound l ->
     exists g' m' f',
       steps c mp (mkState g m b f (n + 1)) (mkState g' m' b f' (n + 13)) /\
       (forall r, r <> t1 -> r <> t2 -> g' r = g r) /\
       load64 m' b = b + 24 /\
       (forall x, ~ inside b 8 x -> m' x = m x)) /\
    (~ sound l -> exists g' m' f', steps c mp (mkState g m b f (n + 1)) (mkState g' m' b f' (n + 11))).
  Proof.
    induction l as [|v l IH]; intros g m f HV HG0 HT HM HW MR AR HRA NU.
    - cbn [List.length] in *. unfold slot in *. destruct HM as (M1 & M2 & M3). split; [intros _|intros K; destruct K; intros v []].
      assert (MQ : mapped mp (b + 24) 8).
      { repeat split; try lia. intros x Hx. apply M3. unfold inside in *. lia. }
      destruct (validate_head c mp n b t1 t2 off le ld ll HC N1 N2 N3 MB g m f (b + 24) 0) as (g' & f' & HS & HT' & HZ & HO); auto;
        try (unfold apart; lia); try lia.
      rewrite HG0 in HZ. change (0 =? 0) with true in HZ.
      eexists _, _, _. split; [|split; [exact HO|split]].
      + eapply steps_trans; [exact HS|].
        eapply steps_next. { eapply st_je; [apply at_; reflexivity|exact Ldone]. }
        rewrite HZ. replace (n + 13)%nat with (S (n + 12)) by lia.
        apply steps_one. eapply st_bind. apply at_. reflexivity.
      + apply load64_store64_same. lia.
      + intros x Hx. apply store64_out. unfold inside in Hx. lia.
    - cbn [List.length] in *. set (k := List.length l) in *.
      assert (EQ : slot b (S k) = slot b k + 8) by (unfold slot; lia).
      pose proof HM as (M1 & M2 & M3).
      assert (MQ : mapped mp (slot b k) 8).
      { unfold slot. repeat split; try lia.
        intros x Hx. apply M3. unfold inside in *. lia. }
      assert (HVk : load64 m (slot b k) = v).
      { apply HV. cbn [rev]. rewrite nth_error_app2; rewrite rev_length; fold k; [|lia].
        rewrite Nat.sub_diag. reflexivity. }
      assert (AK : slot b k >= b + 32) by (unfold slot; lia).
      destruct (validate_head c mp n b t1 t2 off le ld ll HC N1 N2 N3 MB g m f (slot b k) 0) as (g' & f' & HS & HT' & HZ & HO);
        auto; try (unfold apart; lia); try lia.
      rewrite HVk in HZ. cbn [unwind] in NU. destruct (v =? 0) eqn:EV; [discriminate|].
      pose proof (validate_tail c mp n b t1 t2 off le ld ll HC Lerr Ldone Lloop g' (store64 m b (slot b k)) f' (slot b k) HT' MQ HZ) as HT2.
      rewrite load64_store64_disj in HT2 by lia. rewrite HVk in HT2.
      destruct (v mod 2 ^ 32 =? 0) eqn:EL.
      + apply Z.eqb_eq in EL. split; [intros K; destruct (K v (or_introl eq_refl) EL)|]. intros _.
        eexists _, _, _. eapply steps_trans; [exact HS|]. eapply steps_trans; [exact HT2|].
        eapply validate_trap; eauto.
      + apply Z.eqb_neq in EL.
        assert (HR' : g' RSP = g RSP) by (apply HO; congruence).
        specialize (IH g' (store64 m b (slot b k))
                       (sub_flags 32 f' (load32 (store64 m b (slot b k)) (slot b k)) 0)).
        assert (A1 : forall i w, nth_error (rev l) i = Some w ->
                     load64 (store64 m b (slot b k)) (slot b i) = w).
        { intros i w Hi. rewrite load64_store64_disj by (unfold slot; lia).
          apply HV. cbn [rev]. rewrite nth_error_app1; auto.
          apply nth_error_Some. congruence. }
        assert (A2 : load64 (store64 m b (slot b k)) (b + 24) = 0).
        { rewrite load64_store64_disj by lia. auto. }
        assert (A3 : mapped mp b (32 + 8 * Z.of_nat k)).
        { repeat split; try lia. intros x Hx. apply M3. unfold inside in *. lia. }
        assert (A4 : load64 (store64 m b (slot b k)) (g RSP + off) = 0).
        { rewrite load64_store64_disj; auto. }
        specialize (IH A1 A2 HT' A3). rewrite HR' in IH. specialize (IH ltac:(lia) MR AR A4 NU).
        assert (SS : steps c mp (mkState g m b f (n + 1))
                      (mkState g' (store64 m b (slot b k)) b
                         (sub_flags 32 f' (load32 (store64 m b (slot b k)) (slot b k)) 0)
                         (n + 1))).
        { eapply steps_trans; [exact HS|]. exact HT2. }
        destruct IH as [I1 I2]. split.
        * intros Hs. destruct I1 as (g2 & m2 & f2 & S2 & O2 & L2 & E2). { intros x Hx. apply Hs. right; auto. }
          eexists _, _, _. split; [|split; [|split]].
          -- eapply steps_trans; [exact SS|exact S2].
          -- intros r H1 H2. rewrite O2, HO; auto.
          -- exact L2.
          -- intros x Hx. rewrite E2; auto. apply store64_out. unfold inside in Hx. lia.
        * intros Hn. destruct I2 as (g2 & m2 & f2 & S2). { intros K. apply Hn. intros x [<-|Hx]; auto. }
          eexists _, _, _. eapply steps_trans; [exact SS|exact S2].
  Qed.
  Lemma zero_ok l g m f :
    shadow_rep m b l ->
    mapped mp b (32 + 8 * Z.of_nat (List.length l)) ->
    slot b (List.length l) < W ->
    mapped mp (g RSP + off) 8 -> apart (g RSP + off) 8 b 8 ->
    load64 m (g RSP + off) = 0 -> unwind 0 l = None ->
    (sound l ->
     exists g' m' f',
       steps c mp (mkState g m b f n) (mkState g' m' b f' (n + 13)) /\
       (forall r, r <> t1 -> r <> t2 -> g' r = g r) /\
       load64 m' b = b + 24 /\
       (forall x, ~ inside b 8 x -> m' x = m x)) /\
    (~ sound l -> exists s', steps c mp (mkState g m b f n) s' /\ step c mp s' = STrap).
  Proof.
    intros (HP & HZ & HV) HM HW MR AR HRA NU. pose proof MB as (B1 & B2 & B3).
    assert (S0 : steps c mp (mkState g m b f n)
                   (mkState (updr g t1 (load64 m b)) m b f (n + 1))).
    { replace (n + 1)%nat with (S n) by lia. apply steps_one.
      eapply st_load; [eapply code_at_0; exact HC| |auto].
      unfold ea; cbn [gs]. rewrite Z.add_0_r. apply Z.mod_small. lia. }
    pose proof (zero_loop l (updr g t1 (load64 m b)) m f HV HZ) as K.
    rewrite updr_same in K. rewrite (updr_other g t1 _ RSP) in K by congruence.
    specialize (K HP HM HW MR AR HRA NU). destruct K as [K1 K2]. split.
    - intros Hs. destruct (K1 Hs) as (g' & m' & f' & S1 & O1 & L1 & E1).
      eexists _, _, _. split; [|split; [|split]].
      + eapply steps_trans; [exact S0|exact S1].
      + intros r H1 H2. rewrite O1 by auto. rsimpl. reflexivity.
      + exact L1.
      + exact E1.
    - intros Hs. destruct (K2 Hs) as (g' & m' & f' & S1). eexists. split.
      + eapply steps_trans; [exact S0|exact S1].
      + eapply validate_trap_step; eauto.
  Qed.
End Validate.

(** ** The code of JitStackPop *)
Lemma pop_zero mp s l off k s1 s2 t1 t2 :
  env mp s l off k -> apart (rg s RSP + off) 8 (gs s) 8 ->
  t1 <> RSP -> t2 <> RSP -> t1 <> t2 ->
  load64 (mem s) (rg s RSP + off) = 0 -> unwind 0 l = None ->
  let c := pop_code s1 s2 t1 t2 off in
  (sound l ->
   exists s', exec c mp s (Done s') /\
     load64 (mem s') (gs s) = gs s + 24 /\
     (forall r, (r = t1 -> s1 = true) -> (r = t2 -> s2 = true) -> rg s' r = rg s r) /\
     gs s' = gs s /\
     (forall x, ~ inside (rg s RSP - ksaves s1 s2) (ksaves s1 s2) x -> ~ inside (gs s) 8 x -> mem s' x = mem s x)) /\
  (~ sound l -> exec c mp s Trap).
Proof.
  intros E HAR N1 N2 N3 RA NU c.
  destruct E as [[HW HG] HS HO MR HL MG HT HA HR].
  set (sp := rg s RSP) in *. set (b := gs s) in *.
  pose proof MG as (G1 & G2 & G3). pose proof HS as (S1 & S2 & S3).
  pose proof MR as (R1 & R2 & R3).
  assert (KS : 0 <= ksaves s1 s2 <= 16) by (unfold ksaves, b2z; destruct s1, s2; lia).
  set (n1 := List.length (save_frag s1 s2 t1 t2)).
  assert (C1 : code_at c 0 (save_frag s1 s2 t1 t2)).
  { exact (code_at_self [] _ _). }
  assert (C2 : code_at c n1 (validate_frag t1 t2 (off + ksaves s1 s2) 0 1 2)).
  { apply code_at_self. }
  assert (C3 : code_at c (n1 + 13) (restore_frag s1 s2 t1 t2)).
  { unfold c, pop_code. rewrite app_assoc.
    replace (n1 + 13)%nat with (List.length (save_frag s1 s2 t1 t2 ++
       validate_frag t1 t2 (off + ksaves s1 s2) 0 1 2)) by (rewrite app_length; reflexivity).
    apply code_at_last. }
  destruct (pop_labels s1 s2 t1 t2 off) as (L0 & L1 & L2). fold c n1 in L0, L1, L2.
  destruct (save_ok c mp (rg s) (mem s) b (fl s) 0 s1 s2 t1 t2 C1 HS N1 N2 HW)
    as (g1 & m1 & ST1 & RS1 & RO1 & SV1 & ME1). fold n1 sp in ST1, RS1, SV1, ME1.
  cbn [plus] in ST1.
  assert (HR1 : shadow_rep m1 b l).
  { eapply shadow_rep_ext; [exact HR|]. intros x Hx. apply ME1.
    unfold inside, apart in *. lia. }
  assert (ERA : g1 RSP + (off + ksaves s1 s2) = sp + off) by lia.
  assert (EL : load64 m1 (sp + off) = 0).
  { rewrite <- RA. apply load64_ext. intros x Hx. apply ME1. unfold inside. lia. }
  pose proof (zero_ok c mp n1 b t1 t2 (off + ksaves s1 s2) 0 1 2 C2 L0 L1 L2 N1 N2 N3)
    as VK.
  specialize (VK ltac:(eapply mapped_sub; eauto; lia) l g1 m1 (fl s) HR1).
  specialize (VK ltac:(eapply mapped_sub; eauto; lia) ltac:(unfold slot in *; lia)).
  rewrite ERA in VK. specialize (VK MR HAR EL NU). destruct VK as [V1 V2]. split.
  2:{ intros Hs. destruct (V2 Hs) as (s' & A & B). eapply steps_trap; [|exact B].
      unfold enter. fold b. eapply steps_trans; [exact ST1|exact A]. }
  intros Hs. destruct (V1 Hs) as (g2 & m2 & f2 & ST2 & RO2 & LP2 & ME2).
  assert (SV2 : saved s1 s2 t1 t2 (rg s) m2 sp).
  { destruct SV1 as [U1 U2]. split; intros H.
    - rewrite <- (U1 H). apply load64_ext. intros x Hx.
      apply ME2; unfold inside, apart, slot in *; lia.
    - rewrite <- (U2 H). apply load64_ext. intros x Hx.
      assert (8 <= ksaves s1 s2) by (subst; unfold ksaves, b2z; destruct s1; lia).
      apply ME2; unfold inside, apart, slot in *; lia. }
  destruct (restore_ok c mp g2 m2 b f2 (n1 + 13) s1 s2 t1 t2 (rg s) sp)
    as (g3 & ST3 & RS3 & U1 & U2 & RO3); auto.
  { fold sp in HS. lia. }
  { rewrite RO2 by congruence. lia. }
  eexists. split; [|split; [|split; [|split]]].
  - eapply steps_done.
    + unfold enter. fold b. eapply steps_trans; [exact ST1|].
      eapply steps_trans; [exact ST2|]. exact ST3.
    + apply st_end. replace (n1 + 13 + List.length (restore_frag s1 s2 t1 t2))%nat
        with (List.length c); [apply nth_end|].
      unfold c, pop_code. rewrite !app_length. cbn [validate_frag List.length].
      fold n1. lia.
  - cbn [mem]. exact LP2.
  - cbn [rg]. intros r H1 H2.
    destruct (reg_eq_dec r t1) as [->|E1]; [apply U1; auto|].
    destruct (reg_eq_dec r t2) as [->|E2]; [apply U2; auto|].
    destruct (reg_eq_dec r RSP) as [->|E3]; [auto|].
    rewrite RO3, RO2, RO1; auto.
  - reflexivity.
  - cbn [mem]. intros x X1 X2. rewrite ME2; auto.
Qed.
Lemma exit_zero q mp s l k :
  x_ok q -> env mp s l (x_off q) k -> apart (rg s RSP + x_off q) 8 (gs s) 8 ->
  load64 (mem s) (rg s RSP + x_off q) = 0 -> unwind 0 l = None ->
  exists c, x_code q = EOk (c, kRegisterMap) /\
    (sound l ->
     exists s', exec c mp s (Done s') /\
       load64 (mem s') (gs s) = gs s + 24 /\
       (forall r, ~ In (reg_name r) (x_dead q) -> rg s' r = rg s r) /\
       rg s' RSP = rg s RSP /\ gs s' = gs s /\
       (forall x, ~ inside (rg s RSP - x_scratch q) (x_scratch q) x -> ~ inside (gs s) 8 x -> mem s' x = mem s x)) /\
    (~ sound l -> exec c mp s Trap).
Proof.
  intros [HP HR] HE HA RA NU.
  destruct (pop_shape (x_o q) (x_pt q) (x_js q) (x_orig q) (is_empty_plain _ HP) HR)
    as (t1 & t2 & s1 & s2 & EC & KS & N1 & N2 & N3 & D1 & D2).
  rewrite (is_only_plain _ HP) in EC. rewrite (proj2 (proj2 HP)) in EC.
  destruct (pop_zero mp s l (x_off q) k s1 s2 t1 t2 HE HA N1 N2 N3 RA NU) as [K1 K2].
  eexists. split; [exact EC|]. split; [|exact K2].
  intros Hs. destruct (K1 Hs) as (s' & X1 & X2 & X3 & X4 & X5).
  rewrite KS in X5. fold (x_scratch q) in X5.
  exists s'. split; [exact X1|]. split; [exact X2|]. split; [|split; [|split]]; auto.
  intros r Hr. apply X3; intros ->.
  - destruct s1; auto; exfalso; auto.
  - destruct s2; auto; exfalso; auto.
Qed.

(** ** The code of JitRegisterPop *)
Lemma reg_pop_zero mp s l k r :
  env mp s l 0 k -> apart (rg s RSP) 8 (gs s) 8 -> r <> RSP ->
  load64 (mem s) (rg s RSP) = 0 -> rg s r <> 0 -> unwind 0 l = None ->
  let c := reg_pop_code r in
  (sound l ->
   exists s', exec c mp s (Done s') /\
     load64 (mem s') (gs s) = gs s + 24 /\
     rg s' r = load64 (mem s) (gs s + 8) /\
     (forall r', r' <> r -> rg s' r' = rg s r') /\
     gs s' = gs s /\
     (forall x, ~ below (rg s RSP) x -> ~ inside (gs s) 8 x -> mem s' x = mem s x)) /\
  (~ sound l -> exec c mp s Trap).
Proof.
  intros E HAR N RA NR NU c.
  destruct E as [[HW HG] HS HO MR HL MG HT HA HR].
  destruct s as [g m b f n]. cbn [rg mem gs fl] in *.
  rewrite Z.add_0_r in MR.
  set (sp := g RSP) in *.
  pose proof MG as (G1 & G2 & G3). pose proof HS as (S1 & S2 & S3).
  pose proof MR as (R1 & R2 & R3).
  destruct (rt_ok r N) as (N1 & N2 & N3 & N4 & N5).
  set (t1 := rt1 r) in *. set (t2 := rt2 r) in *.
  assert (MB16 : mapped mp (b + 8) 8) by (eapply mapped_sub; [exact MG| |]; lia).
  assert (C0 : steps c mp (mkState g m b f 0)
                 (mkState g m b (sub_flags 64 f (g r) 0) 2)).
  { eapply steps_next.
    { eapply st_cmp with (a := sp); [reflexivity| |exact MR].
      unfold ea; cbn [rg]. fold sp. rewrite Z.add_0_r. apply Z.mod_small. lia. }
    apply steps_one. rewrite RA.
    rewrite (st_je c mp g m b _ 1 0 19); [|reflexivity|reflexivity].
    rewrite sub_flags_zf; try lia; [|apply HW].
    destruct (g r =? 0) eqn:E1; [lia|reflexivity]. }
  assert (CL : forall g' m' f',
             steps c mp (mkState g' m' b f' 19)
                        (mkState (updr g' r (load64 m' (b + 8))) m' b f' 21)).
  { intros g' m' f'. eapply steps_next. { eapply st_bind. reflexivity. }
    apply steps_one. eapply st_load; [reflexivity| |exact MB16].
    unfold ea; cbn [gs]. apply Z.mod_small. lia. }
  assert (C1 : code_at c 2 (save_frag true true t1 t2)).
  { intros i x Hi. destruct i as [|[|i]]; cbn in Hi |- *; try discriminate; auto.
    destruct i; discriminate. }
  assert (C2 : code_at c 4 (validate_frag t1 t2 16 1 2 3)).
  { intros i x Hi. do 13 (destruct i as [|i]; [exact Hi|]).
    destruct i; discriminate. }
  assert (C3 : code_at c 17 (restore_frag true true t1 t2)).
  { intros i x Hi. do 2 (destruct i as [|i]; [exact Hi|]).
    destruct i; discriminate. }
  set (f1 := sub_flags 64 f (g r) 0) in *.
  destruct (save_ok c mp g m b f1 2 true true t1 t2 C1 HS N1 N2 HW)
    as (g1 & m1 & ST1 & RS1 & RO1 & SV1 & ME1). fold sp in RS1, SV1, ME1.
  cbn [save_frag app List.length plus] in ST1.
  change (ksaves true true) with 16 in *.
  assert (HR1 : shadow_rep m1 b l).
  { eapply shadow_rep_ext; [exact HR|]. intros x Hx. apply ME1.
    unfold inside, apart in *. lia. }
  assert (ERA : g1 RSP + 16 = sp) by lia.
  assert (EL : load64 m1 sp = 0).
  { rewrite <- RA. apply load64_ext. intros x Hx. apply ME1. unfold inside. lia. }
  pose proof (zero_ok c mp 4 b t1 t2 16 1 2 3 C2 eq_refl eq_refl eq_refl N1 N2 N3) as VK.
  specialize (VK ltac:(eapply mapped_sub; [exact MG| |]; lia) l g1 m1 f1 HR1).
  specialize (VK ltac:(eapply mapped_sub; [exact MG| |]; lia) ltac:(unfold slot in *; lia)).
  rewrite ERA in VK. specialize (VK MR HAR EL NU). destruct VK as [V1 V2]. split.
  2:{ intros Hs. destruct (V2 Hs) as (s' & A & B). eapply steps_trap; [|exact B].
      unfold enter. cbn [rg mem gs fl]. eapply steps_trans; [exact C0|].
      eapply steps_trans; [exact ST1|exact A]. }
  intros Hs. destruct (V1 Hs) as (g2 & m2 & f2 & ST2 & RO2 & LP2 & ME2).
  assert (SV2 : saved true true t1 t2 g m2 sp).
  { destruct SV1 as [U1 U2]. split; intros H.
    - rewrite <- (U1 H). apply load64_ext. intros x Hx.
      apply ME2; unfold inside, apart, slot in *; lia.
    - rewrite <- (U2 H). change (ksaves true true) with 16 in *.
      apply load64_ext. intros x Hx.
      apply ME2; unfold inside, apart, slot in *; lia. }
  destruct (restore_ok c mp g2 m2 b f2 17 true true t1 t2 g sp)
    as (g3 & ST3 & RS3 & U1 & U2 & RO3); auto.
  { apply HW. }
  { rewrite RO2 by congruence. change (ksaves true true) with 16. lia. }
  cbn [restore_frag app List.length plus] in ST3.
  eexists. split; [|split; [|split; [|split; [|split]]]].
  - eapply steps_done.
    + unfold enter. cbn [rg mem gs fl]. eapply steps_trans; [exact C0|].
      eapply steps_trans; [exact ST1|]. eapply steps_trans; [exact ST2|].
      eapply steps_trans; [exact ST3|]. apply CL.
    + apply st_end. reflexivity.
  - cbn [mem]. exact LP2.
  - cbn [rg]. rsimpl. apply load64_ext. intros x Hx.
    rewrite ME2 by (unfold inside; lia). apply ME1. unfold inside, apart in *. lia.
  - cbn [rg]. intros r' Hr. rsimpl.
    destruct (reg_eq_dec r' t1) as [->|E1]; [apply U1; auto|].
    destruct (reg_eq_dec r' t2) as [->|E2]; [apply U2; auto|].
    destruct (reg_eq_dec r' RSP) as [->|E3]; [auto|].
    rewrite RO3, RO2, RO1; auto.
  - reflexivity.
  - cbn [mem]. intros x X1 X2. rewrite ME2; auto.
Qed.
