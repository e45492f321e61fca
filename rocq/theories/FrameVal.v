(** * FrameVal: what the --validate_frame exit check accepts (jit.cc:280-336). *)
From Coq Require Import ZArith List Bool String Lia ZifyBool ZifyNat.
From Verif Require Import Machine MachineFacts Jit ShadowSpec JitFacts JitPushPop History.
Import ListNotations.
Open Scope Z_scope.
Ltac Zify.zify_post_hook ::= Z.div_mod_to_equations.

(** With --validate_frame an entry is two words: return address, frame. *)
Definition frame_rep (m : memory) (b : Z) (ps : list (Z * Z)) : Prop :=
  load64 m b = b + 32 + 16 * Z.of_nat (List.length ps) /\
  load64 m (b + 16) = 0 /\ load64 m (b + 24) = 0 /\
  forall i v f, nth_error (rev ps) i = Some (v, f) ->
    load64 m (b + 32 + 16 * Z.of_nat i) = v /\
    load64 m (b + 40 + 16 * Z.of_nat i) = f.

Definition frame_frag (t1 t2 : reg) (off : Z) : list instr :=
  [IPushfq; IMovRM t1 (MGs 0); IBind 2; IMovRM t2 (MBase t1 (-16));
   ISubMI (MGs 0) 16; ICmpRM t2 (MBase RSP off);
   IJne 3; ILea t2 RSP off; ICmpRM t2 (MBase t1 (-8)); IJe 1; IBind 3; ISubRI t1 16;
   ICmpM32I (MBase t1 0) 0; IJe 0; IJmp 2; IBind 0; IByte 98; IBind 1; IPopfq].

Lemma st_subri c mp g m b f n r i :
  nth_error c n = Some (ISubRI r i) ->
  step c mp (mkState g m b f n) =
    SNext (mkState (updr g r ((g r - i mod W) mod W)) m b
             (sub_flags 64 f (g r) (i mod W)) (S n)).
Proof. intros H. unfold step. cbn [pc rg mem gs fl]. rewrite H. reflexivity. Qed.
Lemma st_submi c mp g m b f n o i a :
  nth_error c n = Some (ISubMI o i) -> ea (mkState g m b f n) o = a -> mapped mp a 8 ->
  step c mp (mkState g m b f n) =
    SNext (mkState g (store64 m a ((load64 m a - i mod W) mod W)) b
             (sub_flags 64 f (load64 m a) (i mod W)) (S n)).
Proof.
  intros H <- (H1 & H2 & H3). unfold step. cbn [pc rg mem gs fl]. rewrite H.
  rewrite acc8; auto.
Qed.

Section Frame.
  Context (c : list instr) (mp : perm) (n : nat) (b : Z) (t1 t2 : reg) (off : Z).
  Hypothesis HC : code_at c n (frame_frag t1 t2 off).
  Hypothesis L0 : find_label c 0 = Some (n + 15)%nat.
  Hypothesis L1 : find_label c 1 = Some (n + 17)%nat.
  Hypothesis L2 : find_label c 2 = Some (n + 2)%nat.
  Hypothesis L3 : find_label c 3 = Some (n + 10)%nat.
  Hypothesis N1 : t1 <> RSP.
  Hypothesis N2 : t2 <> RSP.
  Hypothesis N3 : t1 <> t2.

  Local Notation at_ i := (HC i _ eq_refl).

  (** From label 3 on: skip one entry or trap. *)
  Lemma frame_tail g m f P :
    g t1 = P + 16 -> 0 <= P -> P + 16 < W -> mapped mp P 8 ->
    (load32 m P <> 0 /\
     exists g' f', steps c mp (mkState g m b f (n + 10)) (mkState g' m b f' (n + 2)) /\
        g' t1 = P /\ (forall r, r <> t1 -> r <> t2 -> g' r = g r)) \/
    (exists s', steps c mp (mkState g m b f (n + 10)) s' /\ step c mp s' = STrap).
  Proof.
    intros HT P0 PW MP.
    assert (S1 : exists f1, steps c mp (mkState g m b f (n + 10))
              (mkState (updr g t1 P) m b (sub_flags 32 f1 (load32 m P) (0 mod 2 ^ 32)) (n + 13)) ).
    { eexists. eapply steps_next. { eapply st_bind. exact (at_ 10%nat). }
      replace (S (n + 10)) with (n + 11)%nat by lia.
      eapply steps_next. { eapply st_subri. exact (at_ 11%nat). }
      replace (S (n + 11)) with (n + 12)%nat by lia.
      change (16 mod W) with 16. rewrite HT. replace (P + 16 - 16) with P by lia.
      rewrite (Z.mod_small P) by lia.
      replace (n + 13)%nat with (S (n + 12)) by lia.
      apply steps_one.
      eapply (st_cmp32 c mp (updr g t1 P) m b _ (n + 12)) with (a := P); [exact (at_ 12%nat)| |].
      - unfold ea; cbn [rg]. rsimpl. rewrite Z.add_0_r. apply Z.mod_small. lia.
      - eapply mapped_sub; [exact MP| |]; lia. }
    destruct S1 as [f1 S1].
    destruct (ZF (sub_flags 32 f1 (load32 m P) (0 mod 2 ^ 32))) eqn:EZ.
    - right. eexists. split.
      + eapply steps_trans; [exact S1|].
        eapply steps_next. { eapply st_je; [exact (at_ 13%nat)|exact L0]. }
        rewrite EZ. apply steps_one. eapply st_bind. exact (at_ 15%nat).
      + replace (S (n + 15)) with (n + 16)%nat by lia. apply st_sigill. exact (at_ 16%nat).
    - left. split.
      { intros E. rewrite E in EZ. cbn in EZ. discriminate. }
      eexists _, _. split; [|split].
      + eapply steps_trans; [exact S1|].
        eapply steps_next. { eapply st_je; [exact (at_ 13%nat)|exact L0]. }
        rewrite EZ. replace (S (n + 13)) with (n + 14)%nat by lia.
        apply steps_one. eapply st_jmp; [exact (at_ 14%nat)|exact L2].
      + rsimpl. reflexivity.
      + intros r R1 R2. rsimpl. reflexivity.
  Qed.

  (** One round up to label 3, when the recorded frame differs. *)
  Lemma frame_head g m f P fr :
    g t1 = P + 16 -> b + 16 <= P -> P + 16 < W -> 0 <= b ->
    mapped mp b (P + 16 - b) -> load64 m b = P + 16 ->
    load64 m (P + 8) = fr -> fr <> (g RSP + off) mod W ->
    mapped mp ((g RSP + off) mod W) 8 ->
    exists g' f', steps c mp (mkState g m b f (n + 2))
                        (mkState g' (store64 m b P) b f' (n + 10)) /\
      g' t1 = P + 16 /\ (forall r, r <> t1 -> r <> t2 -> g' r = g r).
  Proof.
    intros HT HP PW HB HM HL HF HN MO.
    assert (S1 : exists f1 v, steps c mp (mkState g m b f (n + 2))
              (mkState (updr g t2 v) (store64 m b P) b f1 (n + 6))).
    { eexists _, _. eapply steps_next. { eapply st_bind. exact (at_ 2%nat). }
      replace (S (n + 2)) with (n + 3)%nat by lia.
      eapply steps_next.
      { eapply st_load with (a := P); [exact (at_ 3%nat)| |].
        - unfold ea; cbn [rg]. rewrite HT. replace (P + 16 + -16) with P by lia.
          apply Z.mod_small. lia.
        - eapply mapped_sub; [exact HM| |]; lia. }
      replace (S (n + 3)) with (n + 4)%nat by lia.
      eapply steps_next.
      { eapply st_submi with (a := b); [exact (at_ 4%nat)| |].
        - unfold ea; cbn [gs]. rewrite Z.add_0_r. apply Z.mod_small. lia.
        - eapply mapped_sub; [exact HM| |]; lia. }
      replace (S (n + 4)) with (n + 5)%nat by lia.
      change (16 mod W) with 16. rewrite HL. replace (P + 16 - 16) with P by lia.
      rewrite (Z.mod_small P) by lia.
      replace (n + 6)%nat with (S (n + 5)) by lia. apply steps_one.
      eapply st_cmp; [exact (at_ 5%nat)| |].
      - unfold ea; cbn [rg]. rewrite updr_other by congruence. reflexivity.
      - exact MO. }
    destruct S1 as (f1 & v & S1).
    destruct (ZF f1) eqn:EZ.
    - eexists _, _. split; [|split].
      + eapply steps_trans; [exact S1|].
        eapply steps_next. { eapply st_jne; [exact (at_ 6%nat)|exact L3]. }
        rewrite EZ. replace (S (n + 6)) with (n + 7)%nat by lia.
        eapply steps_next. { eapply st_lea. exact (at_ 7%nat). }
        replace (S (n + 7)) with (n + 8)%nat by lia.
        eapply steps_next.
        { eapply st_cmp with (a := P + 8); [exact (at_ 8%nat)| |].
          - unfold ea; cbn [rg]. rewrite !updr_other by congruence. rewrite HT.
            replace (P + 16 + -8) with (P + 8) by lia. apply Z.mod_small. lia.
          - eapply mapped_sub; [exact HM| |]; lia. }
        replace (S (n + 8)) with (n + 9)%nat by lia.
        replace (n + 10)%nat with (S (n + 9)) by lia.
        apply steps_one. rewrite updr_same, updr_other by congruence.
        rewrite load64_store64_disj by lia. rewrite HF.
        match goal with |- step _ _ (mkState ?gg _ _ ?ff _) = _ =>
          pose proof (st_je c mp gg (store64 m b P) b ff (n + 9) 1 (n + 17) (at_ 9%nat) L1) as K;
          assert (EF : ZF ff = false) end.
        { rewrite (sub_flags_zf 64); [| lia | |]. 2:{ apply Z.mod_pos_bound. unfold W; lia. }
          2:{ rewrite <- HF. apply load64_range. } apply Z.eqb_neq. congruence. }
        rewrite EF in K. exact K.
      + rsimpl. exact HT.
      + intros r R1 R2. rsimpl. reflexivity.
    - eexists _, _. split; [|split].
      + eapply steps_trans; [exact S1|].
        apply steps_one.
        pose proof (st_jne c mp (updr g t2 v) (store64 m b P) b f1 (n + 6) 3 (n + 10)
                      (at_ 6%nat) L3) as K. rewrite EZ in K. exact K.
      + rsimpl. exact HT.
      + intros r R1 R2. rsimpl. reflexivity.
  Qed.

  Lemma frame_loop ps : forall g m f,
    frame_rep m b ps ->
    g t1 = b + 32 + 16 * Z.of_nat (List.length ps) -> 0 <= b ->
    b + 32 + 16 * Z.of_nat (List.length ps) < W ->
    mapped mp b (32 + 16 * Z.of_nat (List.length ps)) ->
    (g RSP + off) mod W <> 0 ->
    (forall v fr, In (v, fr) ps -> fr <> (g RSP + off) mod W) ->
    mapped mp ((g RSP + off) mod W) 8 ->
    exists s', steps c mp (mkState g m b f (n + 2)) s' /\ step c mp s' = STrap.
  Proof.
    induction ps as [|[v fr] ps IH]; intros g m f HR HT HB HW HM HZ HF MO.
    - destruct HR as (R1 & R2 & R3 & R4). cbn [List.length] in *.
      destruct (frame_head g m f (b + 16) 0) as (g' & f' & X1 & X2 & X3); auto; try lia.
      { eapply mapped_sub; [exact HM| |]; lia. }
      { rewrite <- R3. f_equal. lia. }
      destruct (frame_tail g' (store64 m b (b + 16)) f' (b + 16)) as
        [(Y0 & _)|(s' & Y1 & Y2)]; auto; try lia.
      { eapply mapped_sub; [exact HM| |]; lia. }
      + exfalso. apply Y0. rewrite load32_low, load64_store64_disj, R2 by lia. reflexivity.
      + exists s'. split; auto. eapply steps_trans; eauto.
    - destruct HR as (R1 & R2 & R3 & R4). cbn [List.length] in *.
      set (k := List.length ps) in *.
      assert (EK : load64 m (b + 40 + 16 * Z.of_nat k) = fr).
      { apply (R4 k v fr). cbn [rev]. rewrite nth_error_app2; rewrite rev_length; fold k; [|lia].
        rewrite Nat.sub_diag. reflexivity. }
      set (P := b + 32 + 16 * Z.of_nat k) in *.
      destruct (frame_head g m f P fr) as (g' & f' & X1 & X2 & X3); auto; try (unfold P; lia).
      { eapply mapped_sub; [exact HM| |]; unfold P; lia. }
      { rewrite <- EK. f_equal. unfold P. lia. }
      { eapply HF. left. reflexivity. }
      destruct (frame_tail g' (store64 m b P) f' P) as
        [(_ & g2 & f2 & Y1 & Y2 & Y3)|(s' & Y1 & Y2)]; auto; try (unfold P; lia).
      { eapply mapped_sub; [exact HM| |]; unfold P; lia. }
      + assert (ER : g2 RSP = g RSP) by (rewrite Y3, X3; congruence).
        destruct (IH g2 (store64 m b P) f2) as (s' & Z1 & Z2); rewrite ?ER; auto; try lia.
        * split; [|split; [|split]].
          -- apply load64_store64_same. unfold P; lia.
          -- rewrite load64_store64_disj by lia. auto.
          -- rewrite load64_store64_disj by lia. auto.
          -- intros i v' f'' Hi. rewrite !load64_store64_disj by lia. apply R4.
             cbn [rev]. rewrite nth_error_app1; auto. apply nth_error_Some. congruence.
        * eapply mapped_sub; [exact HM| |]; lia.
        * intros v' f'' Hin. eapply HF. right. eauto.
        * exists s'. split; auto. eapply steps_trans; [exact X1|].
          eapply steps_trans; eauto.
      + exists s'. split; auto. eapply steps_trans; eauto.
  Qed.
End Frame.

Definition frame_push_frag (t1 t2 : reg) (off : Z) : list instr :=
  [IPushfq; IMovRM t2 (MBase RSP off); IMovRM t1 (MGs 0); IAddMI (MGs 0) 16;
   IMovMR (MBase t1 0) t2; ILea t2 RSP 24; IMovMR (MBase t1 8) t2; IPopfq].

(** Options: --validate_frame, no dry run. *)
Definition framed (o : opts) : Prop :=
  o_dry_run o <> "empty"%string /\ o_dry_run o <> "only-save"%string /\
  o_validate_frame o = true.

(** The exit check traps whenever no recorded frame is 8 below the
    return-address slot, whatever the return address is. *)
Lemma frame_exit_traps q mp s ps :
  framed (x_o q) ->
  request_ok (x_o q) (x_mid q) (exit_dead_set (x_pt q) (x_js q)) ->
  wf s -> mapped mp (rg s RSP - 24) 24 -> 0 < x_off q + rg s RSP - 8 ->
  mapped mp (rg s RSP + x_off q - 8) 8 ->
  mapped mp (gs s) (32 + 16 * Z.of_nat (List.length ps)) ->
  gs s + 32 + 16 * Z.of_nat (List.length ps) < W ->
  apart (rg s RSP - 24) 24 (gs s) (32 + 16 * Z.of_nat (List.length ps)) ->
  frame_rep (mem s) (gs s) ps ->
  (forall v fr, In (v, fr) ps -> fr <> rg s RSP + x_off q - 8) ->
  exists c, x_code q = EOk (c, kRegisterMap) /\ exec c mp s Trap.
Proof.
  intros (F1 & F2 & F3) HR [HW HG] HS HZ MO MG HT HA HF HN.
  apply String.eqb_neq in F1. apply String.eqb_neq in F2.
  destruct (pop_shape (x_o q) (x_pt q) (x_js q) (x_orig q) F1 HR)
    as (t1 & t2 & s1 & s2 & EC & _ & N1 & N2 & N3 & _).
  unfold is_only_save in EC. rewrite F2, F3 in EC. fold (x_mid q) (x_off q) in EC.
  eexists. split; [exact EC|]. clear EC HR.
  change (request_off (exit_mid (x_pt q) (x_js q) (x_orig q)) 0) with (x_off q).
  set (off := x_off q) in *.
  match goal with |- exec (_ ++ ?f ++ _) _ _ _ =>
    change f with (frame_frag t1 t2 (off + ksaves s1 s2)) end.
  set (c := save_frag s1 s2 t1 t2 ++ frame_frag t1 t2 (off + ksaves s1 s2)
            ++ restore_frag s1 s2 t1 t2).
  destruct s as [g m b f pc0]. cbn [rg mem gs fl] in *.
  set (sp := g RSP) in *. set (n1 := List.length (save_frag s1 s2 t1 t2)).
  assert (KS : 0 <= ksaves s1 s2 <= 16) by (unfold ksaves, b2z; destruct s1, s2; lia).
  pose proof HS as (S1 & S2 & S3). pose proof MG as (G1 & G2 & G3).
  destruct (save_ok c mp g m b f 0 s1 s2 t1 t2) as (g1 & m1 & ST1 & RS1 & RO1 & _ & ME1); auto.
  { exact (code_at_self [] _ _). } { eapply mapped_sub; [exact HS| |]; fold sp; lia. }
  fold n1 sp in ST1, RS1, ME1. cbn [plus] in ST1.
  assert (C2 : code_at c n1 (frame_frag t1 t2 (off + ksaves s1 s2))) by apply code_at_self.
  assert (LB : find_label c 0 = Some (n1 + 15)%nat /\ find_label c 1 = Some (n1 + 17)%nat /\
               find_label c 2 = Some (n1 + 2)%nat /\ find_label c 3 = Some (n1 + 10)%nat).
  { unfold c, n1. destruct s1, s2; repeat split; reflexivity. }
  destruct LB as (L0 & L1 & L2 & L3).
  set (sp2 := sp - ksaves s1 s2 - 8).
  set (m2 := store64 m1 sp2 (encode_flags f)).
  assert (FR : frame_rep m2 b ps).
  { assert (EX : forall a, b <= a -> a + 8 <= b + 32 + 16 * Z.of_nat (List.length ps) ->
                 load64 m2 a = load64 m a).
    { intros a A1 A2. apply load64_ext. intros x Hx. unfold m2, sp2.
      unfold apart in HA. rewrite store64_out by lia. apply ME1. unfold inside. lia. }
    destruct HF as (R1 & R2 & R3 & R4).
    split; [|split; [|split]]; try (rewrite EX by lia; auto).
    intros i v fr Hi.
    assert (i < List.length ps)%nat.
    { rewrite <- rev_length. apply nth_error_Some. congruence. }
    rewrite !EX by lia. auto. }
  assert (SA : steps c mp (mkState g1 m1 b f n1)
      (mkState (updr (updr g1 RSP sp2) t1 (load64 m2 b)) m2 b f (n1 + 2))).
  { eapply steps_next.
    { eapply st_pushfq with (a := sp2).
      - rewrite <- (Nat.add_0_r n1). apply (C2 0%nat). reflexivity.
      - rewrite RS1. unfold sp2. lia.
      - eapply mapped_sub; [exact HS| |]; unfold sp2; lia. }
    fold m2. replace (n1 + 2)%nat with (S (S n1)) by lia. apply steps_one.
    eapply st_load with (a := b).
    - replace (S n1) with (n1 + 1)%nat by lia. apply (C2 1%nat). reflexivity.
    - unfold ea; cbn [gs]. rewrite Z.add_0_r. apply Z.mod_small. lia.
    - eapply mapped_sub; [exact MG| |]; lia. }
  destruct (frame_loop c mp n1 b t1 t2 (off + ksaves s1 s2) C2 L0 L1 L2 L3 N1 N2 N3 ps
              (updr (updr g1 RSP sp2) t1 (load64 m2 b)) m2 f) as (s' & X1 & X2); auto; try lia.
  - rewrite updr_same. apply FR.
  - rewrite updr_other, updr_same by congruence.
    rewrite Z.mod_small; unfold sp2; destruct MO as (? & ? & ?); lia.
  - intros v fr Hin. rewrite updr_other, updr_same by congruence.
    rewrite Z.mod_small by (unfold sp2; destruct MO as (? & ? & ?); lia).
    specialize (HN v fr Hin). unfold sp2. lia.
  - rewrite updr_other, updr_same by congruence.
    rewrite Z.mod_small by (unfold sp2; destruct MO as (? & ? & ?); lia).
    replace (sp2 + (off + ksaves s1 s2)) with (sp + off - 8) by (unfold sp2; lia). exact MO.
  - eapply steps_trap; [|exact X2]. unfold enter. cbn [rg mem gs fl].
    eapply steps_trans; [exact ST1|]. eapply steps_trans; [exact SA|exact X1].
Qed.

Lemma st_addmi c mp g m b f n o i a :
  nth_error c n = Some (IAddMI o i) -> ea (mkState g m b f n) o = a -> mapped mp a 8 ->
  step c mp (mkState g m b f n) =
    SNext (mkState g (store64 m a ((load64 m a + i mod W) mod W)) b
             (add_flags f (load64 m a) (i mod W)) (S n)).
Proof.
  intros H <- (H1 & H2 & H3). unfold step. cbn [pc rg mem gs fl]. rewrite H.
  rewrite acc8; auto.
Qed.

(** The entry code without register data: the recorded frame is rsp. *)
Lemma frame_entry q mp s ps :
  framed (e_o q) -> e_orig q = false -> e_fixed q = false -> o_optimize_regs (e_o q) = false ->
  wf s -> mapped mp (rg s RSP - 24) 24 -> rg s RSP + 8 < W ->
  e_height q = 0 -> mapped mp (rg s RSP) 8 ->
  mapped mp (gs s) (48 + 16 * Z.of_nat (List.length ps)) ->
  gs s + 48 + 16 * Z.of_nat (List.length ps) < W ->
  apart (rg s RSP - 24) 24 (gs s) (48 + 16 * Z.of_nat (List.length ps)) ->
  frame_rep (mem s) (gs s) ps ->
  exists c s', e_code q = EOk (c, kRegisterMap) /\ exec c mp s (Done s') /\
    gs s' = gs s /\ rg s' RSP = rg s RSP /\
    frame_rep (mem s') (gs s) ((rg s R10, rg s RSP) :: ps) /\
    (forall r, rg s' r = rg s r) /\ fl s' = fl s /\
    (forall x, ~ inside (rg s RSP - 24) 24 x -> ~ inside (gs s) 8 x ->
       ~ inside (gs s + 32 + 16 * Z.of_nat (List.length ps)) 16 x -> mem s' x = mem s x).
Proof.
  intros (F1 & F2 & F3) Q1 Q2 Q3 [HW HG] HS HSW QH MR MG HT HA HF.
  apply String.eqb_neq in F1. apply String.eqb_neq in F2.
  set (c := [IPush R10; IPush R11] ++ frame_push_frag R10 R11 16 ++ [IPop R11; IPop R10]).
  assert (EC : e_code q = EOk (c, kRegisterMap)).
  { unfold e_code, jit_stack_push, is_empty_run, is_only_save.
    rewrite F1, F2, F3, Q1, Q2, QH. cbn [ebind].
    unfold save_temps. change (temps_default kRegisterMap [] 0)
      with (EOk (mkTemps (Some R10) (Some R11) None true true true 0)).
    cbn [ebind]. rewrite Q3. reflexivity. }
  exists c.
  destruct s as [g m b f pc0]. cbn [rg mem gs fl] in *. set (sp := g RSP) in *.
  set (P := b + 32 + 16 * Z.of_nat (List.length ps)).
  pose proof HS as (S1 & S2 & S3). pose proof MG as (G1 & G2 & G3).
  destruct HF as (R1 & R2 & R3 & R4). fold P in R1.
  set (m1 := store64 m (sp - 8) (g R10)).
  set (m2 := store64 m1 (sp - 16) (g R11)).
  set (m3 := store64 m2 (sp - 24) (encode_flags f)).
  assert (LP : load64 m3 b = P).
  { unfold m3, m2, m1. unfold apart in HA. rewrite !load64_store64_disj by lia. exact R1. }
  assert (L8 : load64 m3 (sp - 8) = g R10).
  { unfold m3, m2, m1. rewrite !load64_store64_disj by lia. apply load64_store64_same. auto. }
  set (m4 := store64 m3 b (P + 16)).
  set (m5 := store64 m4 P (g R10)).
  set (m6 := store64 m5 (P + 8) sp).
  assert (MS : forall d, 8 <= d <= 24 -> mapped mp (sp - d) 8).
  { intros d Hd. eapply mapped_sub; [exact HS| |]; lia. }
  assert (MB : forall d, 0 <= d <= 40 + 16 * Z.of_nat (List.length ps) -> mapped mp (b + d) 8).
  { intros d Hd. eapply mapped_sub; [exact MG| |]; lia. }
  assert (X : steps c mp (mkState g m b f 0)
     (mkState (updr (updr (updr (updr (updr (updr (updr (updr (updr (updr (updr g RSP (sp - 8))
         RSP (sp - 16)) RSP (sp - 24)) R11 (g R10)) R10 P) R11 sp) RSP (sp - 16)) RSP (sp - 8))
         R11 (g R11)) RSP sp) R10 (g R10)) m6 b f 12)).
  {
    eapply steps_next. { eapply st_push with (a := sp - 8); [reflexivity|reflexivity|apply MS; lia]. }
    eapply steps_next. { eapply st_push with (a := sp - 16); [reflexivity| |apply MS; lia].
      rsimpl. lia. }
    rsimpl. fold m1. fold m2.
    eapply steps_next. { eapply st_pushfq with (a := sp - 24); [reflexivity| |apply MS; lia].
      rsimpl. lia. }
    fold m3.
    eapply steps_next. { eapply st_load with (a := sp - 8); [reflexivity| |apply MS; lia].
      unfold ea; cbn [rg]. rsimpl. rewrite Z.mod_small; lia. }
    rewrite L8.
    eapply steps_next. { eapply st_load with (a := b); [reflexivity| |].
      - unfold ea; cbn [gs]. rewrite Z.add_0_r. apply Z.mod_small; lia.
      - rewrite <- (Z.add_0_r b). apply MB. lia. }
    rewrite LP.
    eapply steps_next. { eapply st_addmi with (a := b); [reflexivity| |].
      - unfold ea; cbn [gs]. rewrite Z.add_0_r. apply Z.mod_small; lia.
      - rewrite <- (Z.add_0_r b). apply MB. lia. }
    rewrite LP. change (16 mod W) with 16. rewrite (Z.mod_small (P + 16)) by (unfold P; lia).
    fold m4.
    eapply steps_next. { eapply st_store with (a := P); [reflexivity| |].
      - unfold ea; cbn [rg]. rsimpl. rewrite Z.add_0_r. apply Z.mod_small; unfold P; lia.
      - unfold P. rewrite <- Z.add_assoc. apply MB. lia. }
    rsimpl. fold m5.
    eapply steps_next. { eapply st_lea; reflexivity. }
    rsimpl. replace (sp - 24 + 24) with sp by lia. rewrite (Z.mod_small sp) by lia.
    eapply steps_next. { eapply st_store with (a := P + 8); [reflexivity| |].
      - unfold ea; cbn [rg]. rsimpl. apply Z.mod_small; unfold P; lia.
      - replace (P + 8) with (b + (40 + 16 * Z.of_nat (List.length ps))) by (unfold P; lia).
        apply MB. lia. }
    rsimpl. fold m6.
    eapply steps_next. { eapply st_popfq with (a := sp - 24); [reflexivity| |apply MS; lia|lia].
      rsimpl. reflexivity. }
    assert (EF : load64 m6 (sp - 24) = encode_flags f).
    { unfold m6, m5, m4, P. unfold apart in HA. rewrite !load64_store64_disj by lia.
      unfold m3. apply load64_store64_same. apply encode_range. }
    rewrite EF, decode_encode.
    eapply steps_next. { eapply st_pop with (a := sp - 24 + 8); [reflexivity| | |lia].
      - rsimpl. reflexivity.
      - replace (sp - 24 + 8) with (sp - 16) by lia. apply MS; lia. }
    replace (sp - 24 + 8) with (sp - 16) by lia. replace (sp - 16 + 8) with (sp - 8) by lia.
    assert (E11 : load64 m6 (sp - 16) = g R11).
    { unfold m6, m5, m4, m3, P. unfold apart in HA. rewrite !load64_store64_disj by lia.
      unfold m2. apply load64_store64_same. auto. }
    rewrite E11.
    apply steps_one.
    assert (E10 : load64 m6 (sp - 8) = g R10).
    { unfold m6, m5, m4, P. unfold apart in HA. rewrite !load64_store64_disj by lia. exact L8. }
    eapply eq_trans.
    { eapply st_pop with (a := sp - 8); [reflexivity| |apply MS; lia|lia].
      rsimpl. reflexivity. }
    rewrite E10. replace (sp - 8 + 8) with sp by lia. reflexivity. }
  eexists. split; [exact EC|]. split; [|split; [|split; [|split; [|split; [|split]]]]].
  - eapply steps_done; [exact X|]. apply st_end. reflexivity.
  - reflexivity.
  - cbn [rg]. rsimpl. reflexivity.
  - cbn [mem]. unfold apart in HA.
    assert (EX : forall a, b <= a -> a + 8 <= P -> (a + 8 <= b \/ b + 8 <= a) ->
                 load64 m6 a = load64 m a).
    { intros a A1 A2 A3. unfold m6, m5, m4, m3, m2, m1.
      rewrite !load64_store64_disj by (unfold P in *; lia). reflexivity. }
    split; [|split; [|split]].
    + unfold m6, m5. rewrite !load64_store64_disj by (unfold P in *; lia).
      unfold m4. rewrite load64_store64_same by (unfold P; lia). cbn [List.length].
      unfold P. lia.
    + rewrite EX by (unfold P; lia). auto.
    + rewrite EX by (unfold P; lia). auto.
    + intros i v fr Hi. cbn [rev] in Hi.
      destruct (Nat.lt_ge_cases i (List.length ps)) as [L|L].
      * rewrite nth_error_app1 in Hi by (rewrite rev_length; auto).
        rewrite !EX by (unfold P; lia). auto.
      * rewrite nth_error_app2 in Hi by (rewrite rev_length; auto). rewrite rev_length in Hi.
        destruct (i - List.length ps)%nat as [|z] eqn:EI; [|destruct z; discriminate].
        cbn in Hi. inversion Hi; subst v fr.
        replace i with (List.length ps) by lia. fold P.
        replace (b + 40 + 16 * Z.of_nat (List.length ps)) with (P + 8) by (unfold P; lia).
        split.
        -- unfold m6. rewrite load64_store64_disj by lia. unfold m5.
           apply load64_store64_same. auto.
        -- unfold m6. apply load64_store64_same. unfold sp. auto.
  - intros r. cbn [rg]. unfold updr, sp.
    repeat match goal with |- context [reg_eq_dec r ?x] => destruct (reg_eq_dec r x); try (subst r) end; try congruence; reflexivity.
  - reflexivity.
  - intros x N1 N2 N3. cbn [mem]. unfold inside in *. unfold m6, m5, m4, m3, m2, m1, P in *.
    rewrite !store64_out by lia. reflexivity.
Qed.

(** Every legitimate return traps: entry code, any body that leaves the shadow
    region alone and returns with the same rsp, exit code. *)
Lemma frame_always_traps e x mp s ps :
  framed (e_o e) -> e_orig e = false -> e_fixed e = false -> o_optimize_regs (e_o e) = false ->
  e_height e = 0 ->
  framed (x_o x) -> x_orig x = false -> o_optimize_regs (x_o x) = false ->
  wf s -> mapped mp (rg s RSP - 24) 24 -> mapped mp (rg s RSP) 8 ->
  8 < rg s RSP -> rg s RSP + 8 < W ->
  mapped mp (gs s) (48 + 16 * Z.of_nat (List.length ps)) ->
  gs s + 48 + 16 * Z.of_nat (List.length ps) < W ->
  apart (rg s RSP - 24) 24 (gs s) (48 + 16 * Z.of_nat (List.length ps)) ->
  frame_rep (mem s) (gs s) ps ->
  (forall v fr, In (v, fr) ps -> rg s RSP <= fr) ->
  exists ce cx s1, e_code e = EOk (ce, kRegisterMap) /\ x_code x = EOk (cx, kRegisterMap) /\
    exec ce mp s (Done s1) /\ rg s1 RSP = rg s RSP /\ gs s1 = gs s /\
    forall s2, wf s2 -> gs s2 = gs s -> rg s2 RSP = rg s RSP ->
      (forall y, inside (gs s) (48 + 16 * Z.of_nat (List.length ps)) y -> mem s2 y = mem s1 y) ->
      exec cx mp s2 Trap.
Proof.
  intros FE E1 E2 E3 EH FX X1 X3 HW HS MR S8 SW MG HT HA HF HN.
  destruct (frame_entry e mp s ps) as (ce & s1 & A1 & A2 & A3 & A4 & A5 & _); auto.
  assert (RX : request_ok (x_o x) (x_mid x) (exit_dead_set (x_pt x) (x_js x))).
  { unfold x_mid, exit_mid. rewrite X1. left. auto. }
  assert (OX : x_off x = 0).
  { unfold x_off, x_mid, exit_mid. rewrite X1. reflexivity. }
  assert (CX : exists cx, x_code x = EOk (cx, kRegisterMap)).
  { destruct FX as (F1 & _). apply String.eqb_neq in F1.
    destruct (pop_shape (x_o x) (x_pt x) (x_js x) (x_orig x) F1 RX)
      as (t1 & t2 & u1 & u2 & EC & _). eexists. exact EC. }
  destruct CX as [cx CX].
  exists ce, cx, s1. split; [auto|]. split; [auto|]. split; [auto|]. split; [auto|]. split; [auto|].
  intros s2 W2 G2 R2 K2.
  destruct (frame_exit_traps x mp s2 ((rg s R10, rg s RSP) :: ps)) as (c & Y1 & Y2); auto;
    rewrite ?OX, ?G2, ?R2; cbn [List.length]; try lia; auto.
  - eapply mapped_sub; [exact HS| |]; lia.
  - eapply mapped_sub; [exact MG| |]; lia.
  - unfold apart in *. lia.
  - assert (EX : forall a, gs s <= a -> a + 8 <= gs s + 48 + 16 * Z.of_nat (List.length ps) ->
                 load64 (mem s2) a = load64 (mem s1) a).
    { intros a B1 B2. apply load64_ext. intros y Hy. apply K2. unfold inside. lia. }
    destruct A5 as (R1 & R3 & R4 & R5).
    split; [|split; [|split]]; try (rewrite EX by lia; auto).
    intros i v fr Hi.
    assert (i < List.length ((rg s R10, rg s RSP) :: ps))%nat.
    { rewrite <- rev_length. apply nth_error_Some. congruence. }
    cbn [List.length] in *. rewrite !EX by lia. auto.
  - intros v fr [Hin|Hin]; [inversion Hin; lia|]. specialize (HN v fr Hin). lia.
  - rewrite CX in Y1. inversion Y1; subst. auto.
Qed.
