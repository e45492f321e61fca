(** * JitFacts: behaviour of the fragments emitted by jit.cc. *)
From Coq Require Import ZArith List Bool String Lia ZifyBool ZifyNat.
From Verif Require Import Machine MachineFacts Jit ShadowSpec.
Import ListNotations.
Open Scope Z_scope.
Ltac Zify.zify_post_hook ::= Z.div_mod_to_equations.

(** [frag] occurs in [c] at position [n]. *)
Definition code_at (c : list instr) (n : nat) (frag : list instr) : Prop :=
  forall i x, nth_error frag i = Some x -> nth_error c (n + i) = Some x.

Lemma code_at_app c n f1 f2 :
  code_at c n (f1 ++ f2) -> code_at c n f1 /\ code_at c (n + List.length f1) f2.
Proof.
  intros H. split; intros i x Hx.
  - apply H. rewrite nth_error_app1; auto. apply nth_error_Some. congruence.
  - rewrite <- Nat.add_assoc. apply H. rewrite nth_error_app2 by lia.
    replace (List.length f1 + i - List.length f1)%nat with i by lia. auto.
Qed.

Lemma code_at_self p f q : code_at (p ++ f ++ q) (List.length p) f.
Proof.
  intros i x H. rewrite nth_error_app2 by lia.
  replace (List.length p + i - List.length p)%nat with i by lia.
  rewrite nth_error_app1; auto. apply nth_error_Some. congruence.
Qed.

Lemma code_at_0 c n i f : code_at c n (i :: f) -> nth_error c n = Some i.
Proof. intros H. rewrite <- (Nat.add_0_r n). apply H. reflexivity. Qed.

Lemma code_at_S c n i f : code_at c n (i :: f) -> code_at c (S n) f.
Proof.
  intros H k x Hx. replace (S n + k)%nat with (n + S k)%nat by lia.
  apply H. exact Hx.
Qed.

(** ** One-step lemmas with explicit states. *)
Section Steps.
  Context (c : list instr) (mp : perm).
  Context (g : regs) (m : memory) (b : Z) (f : flags) (n : nat).

  Lemma st_push r a :
    nth_error c n = Some (IPush r) -> a = g RSP - 8 -> mapped mp a 8 ->
    step c mp (mkState g m b f n) =
      SNext (mkState (updr g RSP a) (store64 m a (g r)) b f (S n)).
  Proof.
    intros H -> (H1 & H2 & H3). unfold step. cbn [pc rg mem gs fl]. rewrite H.
    rewrite Z.mod_small by lia. rewrite acc8; auto.
  Qed.

  Lemma st_pop r a :
    nth_error c n = Some (IPop r) -> a = g RSP -> mapped mp a 8 -> a + 8 < W ->
    step c mp (mkState g m b f n) =
      SNext (mkState (updr (updr g RSP (a + 8)) r (load64 m a)) m b f (S n)).
  Proof.
    intros H -> (H1 & H2 & H3) H4. unfold step. cbn [pc rg mem gs fl]. rewrite H.
    rewrite acc8; auto. unfold upd_state. cbn [gs pc]. rewrite Z.mod_small by lia.
    reflexivity.
  Qed.

  Lemma st_pushfq a :
    nth_error c n = Some IPushfq -> a = g RSP - 8 -> mapped mp a 8 ->
    step c mp (mkState g m b f n) =
      SNext (mkState (updr g RSP a) (store64 m a (encode_flags f)) b f (S n)).
  Proof.
    intros H -> (H1 & H2 & H3). unfold step. cbn [pc rg mem gs fl]. rewrite H.
    rewrite Z.mod_small by lia. rewrite acc8; auto.
  Qed.

  Lemma st_popfq a :
    nth_error c n = Some IPopfq -> a = g RSP -> mapped mp a 8 -> a + 8 < W ->
    step c mp (mkState g m b f n) =
      SNext (mkState (updr g RSP (a + 8)) m b (decode_flags (load64 m a)) (S n)).
  Proof.
    intros H -> (H1 & H2 & H3) H4. unfold step. cbn [pc rg mem gs fl]. rewrite H.
    rewrite acc8; auto. unfold upd_state. cbn [gs pc]. rewrite Z.mod_small by lia.
    reflexivity.
  Qed.

  Lemma st_load r o a :
    nth_error c n = Some (IMovRM r o) -> ea (mkState g m b f n) o = a ->
    mapped mp a 8 ->
    step c mp (mkState g m b f n) =
      SNext (mkState (updr g r (load64 m a)) m b f (S n)).
  Proof.
    intros H <- (H1 & H2 & H3). unfold step. cbn [pc rg mem gs fl]. rewrite H.
    rewrite acc8; auto.
  Qed.

  Lemma st_store r o a :
    nth_error c n = Some (IMovMR o r) -> ea (mkState g m b f n) o = a ->
    mapped mp a 8 ->
    step c mp (mkState g m b f n) =
      SNext (mkState g (store64 m a (g r)) b f (S n)).
  Proof.
    intros H <- (H1 & H2 & H3). unfold step. cbn [pc rg mem gs fl]. rewrite H.
    rewrite acc8; auto.
  Qed.

  Lemma st_lea r rb d :
    nth_error c n = Some (ILea r rb d) ->
    step c mp (mkState g m b f n) =
      SNext (mkState (updr g r ((g rb + d) mod W)) m b f (S n)).
  Proof. intros H. unfold step. cbn [pc rg mem gs fl]. rewrite H. reflexivity. Qed.

  Lemma st_cmp r o a :
    nth_error c n = Some (ICmpRM r o) -> ea (mkState g m b f n) o = a ->
    mapped mp a 8 ->
    step c mp (mkState g m b f n) =
      SNext (mkState g m b (sub_flags 64 f (g r) (load64 m a)) (S n)).
  Proof.
    intros H <- (H1 & H2 & H3). unfold step. cbn [pc rg mem gs fl]. rewrite H.
    rewrite acc8; auto.
  Qed.

  Lemma st_cmp32 o i a :
    nth_error c n = Some (ICmpM32I o i) -> ea (mkState g m b f n) o = a ->
    mapped mp a 4 ->
    step c mp (mkState g m b f n) =
      SNext (mkState g m b (sub_flags 32 f (load32 m a) (i mod 2 ^ 32)) (S n)).
  Proof.
    intros H <- (H1 & H2 & H3). unfold step. cbn [pc rg mem gs fl]. rewrite H.
    rewrite acc4; auto.
  Qed.

  Lemma st_je l k :
    nth_error c n = Some (IJe l) -> find_label c l = Some k ->
    step c mp (mkState g m b f n) =
      SNext (mkState g m b f (if ZF f then k else S n)).
  Proof.
    intros H L. unfold step, goto. cbn [pc rg mem gs fl]. rewrite H, L.
    destruct (ZF f); reflexivity.
  Qed.

  Lemma st_jne l k :
    nth_error c n = Some (IJne l) -> find_label c l = Some k ->
    step c mp (mkState g m b f n) =
      SNext (mkState g m b f (if ZF f then S n else k)).
  Proof.
    intros H L. unfold step, goto. cbn [pc rg mem gs fl]. rewrite H, L.
    destruct (ZF f); reflexivity.
  Qed.

  Lemma st_jmp l k :
    nth_error c n = Some (IJmp l) -> find_label c l = Some k ->
    step c mp (mkState g m b f n) = SNext (mkState g m b f k).
  Proof.
    intros H L. unfold step, goto. cbn [pc rg mem gs fl]. rewrite H, L. reflexivity.
  Qed.

  Lemma st_bind l :
    nth_error c n = Some (IBind l) ->
    step c mp (mkState g m b f n) = SNext (mkState g m b f (S n)).
  Proof. intros H. unfold step. cbn [pc rg mem gs fl]. rewrite H. reflexivity. Qed.

  Lemma st_sigill :
    nth_error c n = Some (IByte 98) -> step c mp (mkState g m b f n) = STrap.
  Proof. intros H. unfold step. cbn [pc rg mem gs fl]. rewrite H. reflexivity. Qed.

  Lemma st_end :
    nth_error c n = None -> step c mp (mkState g m b f n) = SEnd.
  Proof. intros H. unfold step. cbn [pc rg mem gs fl]. rewrite H. reflexivity. Qed.
End Steps.

Lemma steps_one c mp s s' : step c mp s = SNext s' -> steps c mp s s'.
Proof. intros. econstructor; eauto. constructor. Qed.

Ltac rsimpl :=
  repeat first [ rewrite updr_same | rewrite updr_other by congruence ].
Tactic Notation "rsimpl" "in" hyp(H) :=
  repeat first [ rewrite updr_same in H | rewrite updr_other in H by congruence ].

(** ** Saving and restoring the temporaries (jit.cc:97-149). *)
Definition ksaves (s1 s2 : bool) : Z := 8 * (b2z s1 + b2z s2).
Definition save_frag (s1 s2 : bool) (t1 t2 : reg) : list instr :=
  (if s1 then [IPush t1] else []) ++ (if s2 then [IPush t2] else []).
Definition restore_frag (s1 s2 : bool) (t1 t2 : reg) : list instr :=
  (if s2 then [IPop t2] else []) ++ (if s1 then [IPop t1] else []).

(** The saved values lie below [sp]. *)
Definition saved (s1 s2 : bool) (t1 t2 : reg) (g : regs) (m : memory) (sp : Z) : Prop :=
  (s1 = true -> load64 m (sp - 8) = g t1) /\
  (s2 = true -> load64 m (sp - ksaves s1 s2) = g t2).

Lemma save_ok c mp g m b f n s1 s2 t1 t2 :
  code_at c n (save_frag s1 s2 t1 t2) ->
  mapped mp (g RSP - 16) 16 -> t1 <> RSP -> t2 <> RSP ->
  (forall r, 0 <= g r < W) ->
  exists g' m',
    steps c mp (mkState g m b f n)
               (mkState g' m' b f (n + List.length (save_frag s1 s2 t1 t2))) /\
    g' RSP = g RSP - ksaves s1 s2 /\
    (forall r, r <> RSP -> g' r = g r) /\
    saved s1 s2 t1 t2 g m' (g RSP) /\
    (forall x, ~ inside (g RSP - ksaves s1 s2) (ksaves s1 s2) x -> m' x = m x).
Proof.
  intros HC (M1 & M2 & M3) N1 N2 HW. unfold save_frag in *.
  assert (MM1 : mapped mp (g RSP - 8) 8).
  { repeat split; try lia. intros x Hx. apply M3. unfold inside in *. lia. }
  assert (MM2 : mapped mp (g RSP - 16) 8).
  { repeat split; try lia. intros x Hx. apply M3. unfold inside in *. lia. }
  destruct s1, s2; cbn [app List.length] in *; unfold saved, ksaves, b2z, inside; cbn.
  - eexists _, _. split.
    + eapply steps_next. { eapply st_push; eauto. eapply code_at_0; eauto. }
      apply code_at_S in HC.
      replace (n + 2)%nat with (S (S n)) by lia.
      apply steps_one. eapply st_push with (a := g RSP - 16).
      { eapply code_at_0; eauto. } { rsimpl. lia. } auto.
    + rsimpl. repeat split; auto; intros; rsimpl; auto.
      * rewrite load64_store64_disj by lia. apply load64_store64_same. auto.
      * apply load64_store64_same. auto.
      * rewrite !store64_out by lia. auto.
  - eexists _, _. split.
    + replace (n + 1)%nat with (S n) by lia. apply steps_one.
      eapply st_push; eauto. eapply code_at_0; eauto.
    + rsimpl. repeat split; auto; intros; rsimpl; auto; try discriminate.
      * apply load64_store64_same. auto.
      * rewrite !store64_out by lia. auto.
  - eexists _, _. split.
    + replace (n + 1)%nat with (S n) by lia. apply steps_one.
      eapply st_push; eauto. eapply code_at_0; eauto.
    + rsimpl. repeat split; auto; intros; rsimpl; auto; try discriminate.
      * apply load64_store64_same. auto.
      * rewrite !store64_out by lia. auto.
  - exists g, m. rewrite Nat.add_0_r. split; [constructor|].
    repeat split; auto; intros; try discriminate; lia.
Qed.

Lemma restore_keep c mp g m b f n s1 s2 t1 t2 g0 sp :
  code_at c n (restore_frag s1 s2 t1 t2) ->
  mapped mp (sp - 16) 16 -> sp < W -> t1 <> RSP -> t2 <> RSP -> t1 <> t2 ->
  g RSP = sp - ksaves s1 s2 ->
  saved s1 s2 t1 t2 g0 m sp ->
  exists g',
    steps c mp (mkState g m b f n)
               (mkState g' m b f (n + List.length (restore_frag s1 s2 t1 t2))) /\
    g' RSP = sp /\
    (s1 = true -> g' t1 = g0 t1) /\ (s2 = true -> g' t2 = g0 t2) /\
    (forall r, r <> RSP -> (r = t1 -> s1 = false) -> (r = t2 -> s2 = false) ->
               g' r = g r).
Proof.
  intros HC (M1 & M2 & M3) HB N1 N2 N3 HR [S1 S2]. unfold restore_frag in *.
  assert (MM1 : mapped mp (sp - 8) 8).
  { repeat split; try lia. intros x Hx. apply M3. unfold inside in *. lia. }
  assert (MM2 : mapped mp (sp - 16) 8).
  { repeat split; try lia. intros x Hx. apply M3. unfold inside in *. lia. }
  destruct s1, s2; cbn [app List.length] in *; unfold ksaves, b2z in *; cbn in *.
  - eexists. split.
    + eapply steps_next.
      { eapply st_pop with (a := sp - 16); auto; try lia. eapply code_at_0; eauto. }
      apply code_at_S in HC. replace (n + 2)%nat with (S (S n)) by lia.
      apply steps_one. eapply st_pop with (a := sp - 8); auto; try lia.
      { eapply code_at_0; eauto. } { rsimpl. lia. }
    + rsimpl. repeat split; try lia; intros; rsimpl; auto.
      destruct (reg_eq_dec r t1) as [->|]; [discriminate (H0 eq_refl)|].
      destruct (reg_eq_dec r t2) as [->|]; [discriminate (H1 eq_refl)|].
      rsimpl; auto.
  - eexists. split.
    + replace (n + 1)%nat with (S n) by lia. apply steps_one.
      eapply st_pop with (a := sp - 8); auto; try lia. eapply code_at_0; eauto.
    + rsimpl. repeat split; try lia; intros; try discriminate; rsimpl; auto.
      destruct (reg_eq_dec r t1) as [->|]; [first [discriminate (H0 eq_refl)|rsimpl; auto]|].
      destruct (reg_eq_dec r t2) as [->|]; [first [discriminate (H1 eq_refl)|rsimpl; auto]|].
      rsimpl; auto.
  - eexists. split.
    + replace (n + 1)%nat with (S n) by lia. apply steps_one.
      eapply st_pop with (a := sp - 8); auto; try lia. eapply code_at_0; eauto.
    + rsimpl. repeat split; try lia; intros; try discriminate; rsimpl; auto.
      destruct (reg_eq_dec r t1) as [->|]; [first [discriminate (H0 eq_refl)|rsimpl; auto]|].
      destruct (reg_eq_dec r t2) as [->|]; [first [discriminate (H1 eq_refl)|rsimpl; auto]|].
      rsimpl; auto.
  - exists g. rewrite Nat.add_0_r. split; [constructor|].
    repeat split; auto; intros; try discriminate; lia.
Qed.

Lemma restore_ok c mp g m b f n s1 s2 t1 t2 g0 sp :
  code_at c n (restore_frag s1 s2 t1 t2) ->
  mapped mp (sp - 16) 16 -> sp < W -> t1 <> RSP -> t2 <> RSP -> t1 <> t2 ->
  g RSP = sp - ksaves s1 s2 ->
  saved s1 s2 t1 t2 g0 m sp ->
  exists g',
    steps c mp (mkState g m b f n)
               (mkState g' m b f (n + List.length (restore_frag s1 s2 t1 t2))) /\
    g' RSP = sp /\
    (s1 = true -> g' t1 = g0 t1) /\ (s2 = true -> g' t2 = g0 t2) /\
    (forall r, r <> RSP -> r <> t1 -> r <> t2 -> g' r = g r).
Proof.
  intros HC HM HB N1 N2 N3 HR HS.
  destruct (restore_keep c mp g m b f n s1 s2 t1 t2 g0 sp HC HM HB N1 N2 N3 HR HS)
    as (g' & X1 & X2 & X3 & X4 & X5).
  exists g'. repeat split; auto. intros r R0 R1 R2. apply X5; auto; congruence.
Qed.

(** ** SaveRa (jit.cc:151-166). *)
Definition save_ra_frag (t1 t2 : reg) (off : Z) : list instr :=
  [ IMovRM t2 (MBase RSP off); IMovRM t1 (MGs 0); IMovMR (MBase t1 0) t2;
    ILea t1 t1 8; IMovMR (MGs 0) t1 ].

Lemma save_ra_ok c mp g m b f n t1 t2 off p :
  code_at c n (save_ra_frag t1 t2 off) ->
  t1 <> RSP -> t2 <> RSP -> t1 <> t2 ->
  mapped mp (g RSP + off) 8 -> mapped mp b 8 -> mapped mp p 8 ->
  load64 m b = p -> p + 8 < W ->
  exists g',
    steps c mp (mkState g m b f n)
      (mkState g' (store64 (store64 m p (load64 m (g RSP + off))) b (p + 8)) b f
               (n + 5)) /\
    (forall r, r <> t1 -> r <> t2 -> g' r = g r).
Proof.
  intros HC N1 N2 N3 MR MB MP HL HP.
  pose proof MR as (R1 & R2 & R3). pose proof MB as (B1 & B2 & B3).
  pose proof MP as (P1 & P2 & P3).
  eexists. split.
  - eapply steps_next.
    { eapply st_load with (a := g RSP + off); [eapply code_at_0; eauto| |auto].
      unfold ea; cbn [rg]. apply Z.mod_small. lia. }
    apply code_at_S in HC. eapply steps_next.
    { eapply st_load with (a := b); [eapply code_at_0; eauto| |auto].
      unfold ea; cbn [gs]. rewrite Z.add_0_r. apply Z.mod_small. lia. }
    apply code_at_S in HC. eapply steps_next.
    { eapply st_store with (a := p); [eapply code_at_0; eauto| |auto].
      unfold ea; cbn [rg]. rsimpl. rewrite HL, Z.add_0_r. apply Z.mod_small. lia. }
    apply code_at_S in HC. eapply steps_next.
    { eapply st_lea. eapply code_at_0; eauto. }
    apply code_at_S in HC. rsimpl. rewrite HL.
    replace (n + 5)%nat with (S (S (S (S (S n))))) by lia.
    rewrite (Z.mod_small (p + 8)) by lia.
    apply steps_one.
    match goal with
    | |- step _ _ (mkState ?g1 ?m1 _ _ ?n1) = _ =>
        pose proof (st_store c mp g1 m1 b f n1 t1 (MGs 0) b
                             (code_at_0 _ _ _ _ HC)) as K
    end.
    rewrite updr_same in K. apply K; auto.
    unfold ea; cbn [gs]. rewrite Z.add_0_r. apply Z.mod_small. lia.
  - intros r H1 H2. rsimpl. reflexivity.
Qed.

(** ** ValidateRa (jit.cc:233-278). *)
Definition validate_frag (t1 t2 : reg) (off : Z) (le ld ll : nat) : list instr :=
  [ IMovRM t1 (MGs 0); IBind ll; ILea t1 t1 (-8); IMovRM t2 (MBase t1 0);
    IMovMR (MGs 0) t1; ICmpRM t2 (MBase RSP off); IJe ld;
    ICmpM32I (MBase t1 0) 0; IJe le; IJmp ll; IBind le; IByte 98; IBind ld ].

Section Validate.
  Context (c : list instr) (mp : perm) (n : nat) (b : Z) (t1 t2 : reg) (off : Z)
          (le ld ll : nat).
  Hypothesis HC : code_at c n (validate_frag t1 t2 off le ld ll).
  Hypothesis Lerr : find_label c le = Some (n + 10)%nat.
  Hypothesis Ldone : find_label c ld = Some (n + 12)%nat.
  Hypothesis Lloop : find_label c ll = Some (n + 1)%nat.
  Hypothesis N1 : t1 <> RSP.
  Hypothesis N2 : t2 <> RSP.
  Hypothesis N3 : t1 <> t2.
  Hypothesis MB : mapped mp b 8.

  Let at_ i x : nth_error (validate_frag t1 t2 off le ld ll) i = Some x ->
                nth_error c (n + i) = Some x.
  Proof. apply HC. Qed.

  (** One iteration from the loop head, shadow pointer register at [q+8]. *)
  Lemma validate_head g m f q ra :
    g t1 = q + 8 -> mapped mp q 8 -> q + 8 < W -> apart q 8 b 8 ->
    mapped mp (g RSP + off) 8 -> apart (g RSP + off) 8 b 8 ->
    load64 m (g RSP + off) = ra ->
    exists g' f',
      steps c mp (mkState g m b f (n + 1))
        (mkState g' (store64 m b q) b f' (n + 6)) /\
      g' t1 = q /\ ZF f' = (load64 m q =? ra) /\
      (forall r, r <> t1 -> r <> t2 -> g' r = g r).
  Proof.
    intros HG MQ HQ AQ MR AR HRA.
    pose proof MR as (R1 & R2 & R3). pose proof MB as (B1 & B2 & B3).
    pose proof MQ as (P1 & P2 & P3).
    eexists _, _. split; [|split; [|split]].
    - eapply steps_next. { eapply st_bind. apply at_. reflexivity. }
      replace (S (n + 1)) with (n + 2)%nat by lia.
      eapply steps_next. { eapply st_lea. apply at_. reflexivity. }
      rewrite HG. replace (q + 8 + -8) with q by lia. rewrite (Z.mod_small q) by lia.
      replace (S (n + 2)) with (n + 3)%nat by lia.
      eapply steps_next.
      { eapply st_load with (a := q); [apply at_; reflexivity| |auto].
        unfold ea; cbn [rg]. rsimpl. rewrite Z.add_0_r. apply Z.mod_small. lia. }
      replace (S (n + 3)) with (n + 4)%nat by lia.
      eapply steps_next.
      { eapply st_store with (a := b); [apply at_; reflexivity| |auto].
        unfold ea; cbn [gs]. rewrite Z.add_0_r. apply Z.mod_small. lia. }
      rsimpl.
      replace (S (n + 4)) with (n + 5)%nat by lia.
      eapply steps_next.
      { eapply st_cmp with (a := g RSP + off); [apply at_; reflexivity| |auto].
        unfold ea; cbn [rg]. rsimpl. apply Z.mod_small. lia. }
      replace (S (n + 5)) with (n + 6)%nat by lia. apply steps_refl.
    - rsimpl. reflexivity.
    - rsimpl. unfold apart in *.
      rewrite load64_store64_disj by lia.
      rewrite sub_flags_zf; try apply load64_range; [|lia]. rewrite HRA. reflexivity.
    - intros r H1 H2. rsimpl. reflexivity.
  Qed.

  (** Tail of an iteration on a mismatch. *)
  Lemma validate_tail g m f q :
    g t1 = q -> mapped mp q 8 -> ZF f = false ->
    steps c mp (mkState g m b f (n + 6))
      (mkState g m b (sub_flags 32 f (load32 m q) 0)
         (if load64 m q mod 2 ^ 32 =? 0 then (n + 10)%nat else (n + 1)%nat)).
  Proof.
    intros HG MQ HZ. pose proof MQ as (P1 & P2 & P3).
    eapply steps_next. { eapply st_je; [apply at_; reflexivity|exact Ldone]. }
    rewrite HZ. replace (S (n + 6)) with (n + 7)%nat by lia.
    eapply steps_next.
    { eapply st_cmp32 with (a := q); [apply at_; reflexivity| |].
      - unfold ea; cbn [rg]. rewrite HG, Z.add_0_r. apply Z.mod_small. lia.
      - repeat split; try lia. intros x Hx. apply P3. unfold inside in *. lia. }
    change (0 mod 2 ^ 32) with 0. replace (S (n + 7)) with (n + 8)%nat by lia.
    eapply steps_next. { eapply st_je; [apply at_; reflexivity|exact Lerr]. }
    rewrite sub_flags_zf; try lia.
    2: { rewrite load32_low. apply Z.mod_pos_bound. lia. }
    rewrite load32_low.
    destruct (load64 m q mod 2 ^ 32 =? 0) eqn:E.
    - apply steps_refl.
    - replace (S (n + 8)) with (n + 9)%nat by lia.
      apply steps_one. eapply st_jmp; [apply at_; reflexivity|exact Lloop].
  Qed.

  Lemma validate_trap g m b' f :
    steps c mp (mkState g m b' f (n + 10)) (mkState g m b' f (n + 11)).
  Proof.
    replace (n + 11)%nat with (S (n + 10)) by lia.
    apply steps_one. eapply st_bind. apply at_. reflexivity.
  Qed.
  Lemma validate_trap_step g m b' f :
    step c mp (mkState g m b' f (n + 11)) = STrap.
  Proof. apply st_sigill. apply at_. reflexivity. Qed.

  (** [l] above the bottom, in memory, ending just below the register [t1]. *)
  Lemma validate_loop l : forall g m f ra,
    (forall i v, nth_error (rev l) i = Some v -> load64 m (slot b i) = v) ->
    load64 m (b + 24) = 0 ->
    g t1 = slot b (List.length l) ->
    mapped mp b (32 + 8 * Z.of_nat (List.length l)) ->
    slot b (List.length l) < W ->
    mapped mp (g RSP + off) 8 -> apart (g RSP + off) 8 b 8 ->
    load64 m (g RSP + off) = ra ->
    match unwind ra l with
    | Some l' =>
        (clean_above ra l ->
         exists g' m' f',
           steps c mp (mkState g m b f (n + 1)) (mkState g' m' b f' (n + 13)) /\
           (forall r, r <> t1 -> r <> t2 -> g' r = g r) /\
           load64 m' b = slot b (List.length l') /\
           (forall x, ~ inside b 8 x -> m' x = m x)) /\
        (~ clean_above ra l ->
         exists g' m' f', steps c mp (mkState g m b f (n + 1)) (mkState g' m' b f' (n + 11)))
    | None =>
        ra <> 0 ->
        exists g' m' f', steps c mp (mkState g m b f (n + 1)) (mkState g' m' b f' (n + 11))
    end.
  Proof.
    induction l as [|v l IH]; intros g m f ra HV HG0 HT HM HW MR AR HRA.
    - cbn [unwind]. intros Hnz. cbn [List.length] in *. unfold slot in *.
      destruct HM as (M1 & M2 & M3).
      assert (MQ : mapped mp (b + 24) 8).
      { repeat split; try lia. intros x Hx. apply M3. unfold inside in *. lia. }
      destruct (validate_head g m f (b + 24) ra) as (g' & f' & HS & HT' & HZ & HO); auto;
        try (unfold apart; lia); try lia.
      rewrite HG0 in HZ. replace (0 =? ra) with false in HZ by lia.
      eexists _, _, _. eapply steps_trans; [exact HS|].
      eapply steps_trans.
      { eapply validate_tail; eauto. }
      rewrite load64_store64_disj by lia. rewrite HG0.
      change (0 mod 2 ^ 32 =? 0) with true. cbn iota. apply validate_trap.
    - cbn [List.length] in *. set (k := List.length l) in *.
      assert (EQ : slot b (S k) = slot b k + 8) by (unfold slot; lia).
      pose proof HM as (M1 & M2 & M3).
      assert (MQ : mapped mp (slot b k) 8).
      { unfold slot. repeat split; try lia.
        intros x Hx. apply M3. unfold inside in *. lia. }
      assert (HVk : load64 m (slot b k) = v).
      { apply HV. cbn [rev]. rewrite nth_error_app2; rewrite rev_length; fold k; [|lia].
        rewrite Nat.sub_diag. reflexivity. }
      assert (AK : slot b k >= b + 32) by (unfold slot; lia).
      destruct (validate_head g m f (slot b k) ra) as (g' & f' & HS & HT' & HZ & HO);
        auto; try (unfold apart; lia); try lia.
      rewrite HVk in HZ. cbn [unwind clean_above].
      destruct (v =? ra) eqn:EV.
      + split.
        * intros _. eexists _, _, _. split; [|split; [exact HO|split]].
          -- eapply steps_trans; [exact HS|].
             eapply steps_next. { eapply st_je; [apply at_; reflexivity|exact Ldone]. }
             rewrite HZ. replace (n + 13)%nat with (S (n + 12)) by lia.
             apply steps_one. eapply st_bind. apply at_. reflexivity.
          -- fold k. apply load64_store64_same. destruct MQ as (? & ? & ?). lia.
          -- intros x Hx. apply store64_out. unfold inside in Hx. lia.
        * intros Hn. exfalso. apply Hn. left. lia.
      + pose proof (validate_tail g' (store64 m b (slot b k)) f' (slot b k) HT' MQ HZ) as HT2.
        rewrite load64_store64_disj in HT2 by lia. rewrite HVk in HT2.
        assert (Hne : v <> ra) by lia.
        destruct (v mod 2 ^ 32 =? 0) eqn:EL.
        * assert (TR : exists g' m' f',
                    steps c mp (mkState g m b f (n + 1)) (mkState g' m' b f' (n + 11))).
          { eexists _, _, _. eapply steps_trans; [exact HS|].
            eapply steps_trans; [exact HT2|]. apply validate_trap. }
          destruct (unwind ra l); auto. split; auto.
          intros [?|[? ?]]; [congruence|]. apply Z.eqb_eq in EL. contradiction.
        * assert (HR' : g' RSP = g RSP) by (apply HO; congruence).
          specialize (IH g' (store64 m b (slot b k))
                         (sub_flags 32 f' (load32 (store64 m b (slot b k)) (slot b k)) 0) ra).
          assert (A1 : forall i w, nth_error (rev l) i = Some w ->
                       load64 (store64 m b (slot b k)) (slot b i) = w).
          { intros i w Hi. rewrite load64_store64_disj by (unfold slot; lia).
            apply HV. cbn [rev]. rewrite nth_error_app1; auto.
            apply nth_error_Some. congruence. }
          assert (A2 : load64 (store64 m b (slot b k)) (b + 24) = 0).
          { rewrite load64_store64_disj by lia. auto. }
          assert (A3 : mapped mp b (32 + 8 * Z.of_nat k)).
          { repeat split; try lia. intros x Hx. apply M3. unfold inside in *. lia. }
          assert (A4 : load64 (store64 m b (slot b k)) (g' RSP + off) = ra).
          { rewrite HR'. rewrite load64_store64_disj; auto. }
          specialize (IH A1 A2 HT' A3).
          rewrite HR' in IH. rewrite HR' in A4. specialize (IH ltac:(lia) MR AR A4).
          assert (SS : steps c mp (mkState g m b f (n + 1))
                        (mkState g' (store64 m b (slot b k)) b
                           (sub_flags 32 f' (load32 (store64 m b (slot b k)) (slot b k)) 0)
                           (n + 1))).
          { eapply steps_trans; [exact HS|]. exact HT2. }
          destruct (unwind ra l) as [l'|].
          -- destruct IH as [I1 I2]. split.
             ++ intros [?|[_ Hc]]; [congruence|].
                destruct (I1 Hc) as (g2 & m2 & f2 & S2 & O2 & L2 & E2).
                eexists _, _, _. split; [|split; [|split]].
                ** eapply steps_trans; [exact SS|exact S2].
                ** intros r H1 H2. rewrite O2, HO; auto.
                ** exact L2.
                ** intros x Hx. rewrite E2; auto. apply store64_out.
                   unfold inside in Hx. lia.
             ++ intros Hn. apply Z.eqb_neq in EL.
                destruct I2 as (g2 & m2 & f2 & S2). { intros Hc. apply Hn. auto. }
                eexists _, _, _. eapply steps_trans; [exact SS|exact S2].
          -- intros Hnz. destruct (IH Hnz) as (g2 & m2 & f2 & S2).
             eexists _, _, _. eapply steps_trans; [exact SS|exact S2].
  Qed.

  (** The whole fragment, from its first instruction. *)
  Lemma validate_ok l g m f ra :
    shadow_rep m b l ->
    mapped mp b (32 + 8 * Z.of_nat (List.length l)) ->
    slot b (List.length l) < W ->
    mapped mp (g RSP + off) 8 -> apart (g RSP + off) 8 b 8 ->
    load64 m (g RSP + off) = ra ->
    match unwind ra l with
    | Some l' =>
        (clean_above ra l ->
         exists g' m' f',
           steps c mp (mkState g m b f n) (mkState g' m' b f' (n + 13)) /\
           (forall r, r <> t1 -> r <> t2 -> g' r = g r) /\
           load64 m' b = slot b (List.length l') /\
           (forall x, ~ inside b 8 x -> m' x = m x)) /\
        (~ clean_above ra l ->
         exists s', steps c mp (mkState g m b f n) s' /\ step c mp s' = STrap)
    | None =>
        ra <> 0 ->
        exists s', steps c mp (mkState g m b f n) s' /\ step c mp s' = STrap
    end.
  Proof.
    intros (HP & HZ & HV) HM HW MR AR HRA. pose proof MB as (B1 & B2 & B3).
    assert (S0 : steps c mp (mkState g m b f n)
                   (mkState (updr g t1 (load64 m b)) m b f (n + 1))).
    { replace (n + 1)%nat with (S n) by lia. apply steps_one.
      eapply st_load; [eapply code_at_0; exact HC| |auto].
      unfold ea; cbn [gs]. rewrite Z.add_0_r. apply Z.mod_small. lia. }
    pose proof (validate_loop l (updr g t1 (load64 m b)) m f ra HV HZ) as K.
    rewrite updr_same in K. rewrite (updr_other g t1 _ RSP) in K by congruence.
    specialize (K HP HM HW MR AR HRA).
    assert (TR : (exists g' m' f', steps c mp
                    (mkState (updr g t1 (load64 m b)) m b f (n + 1))
                    (mkState g' m' b f' (n + 11))) ->
                 exists s', steps c mp (mkState g m b f n) s' /\ step c mp s' = STrap).
    { intros (g' & m' & f' & S1). eexists. split.
      - eapply steps_trans; [exact S0|exact S1].
      - apply validate_trap_step. }
    destruct (unwind ra l) as [l'|]; [|auto].
    destruct K as [K1 K2]. split; auto.
    intros Hc. destruct (K1 Hc) as (g' & m' & f' & S1 & O1 & L1 & E1).
    eexists _, _, _. split; [|split; [|split]].
    - eapply steps_trans; [exact S0|exact S1].
    - intros r H1 H2. rewrite O1 by auto. rsimpl. reflexivity.
    - exact L1.
    - exact E1.
  Qed.
End Validate.
