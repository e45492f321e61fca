(** * RegFrame: register frames (jit.cc:385-487). *)
From Coq Require Import ZArith List Bool String Lia ZifyBool ZifyNat.
From Verif Require Import Machine MachineFacts Jit ShadowSpec JitFacts JitPushPop History.
Import ListNotations.
Open Scope Z_scope.
Ltac Zify.zify_post_hook ::= Z.div_mod_to_equations.

(** The unused registers of a function, borrowed register first
    (pass_manager.h:217, jit.cc:387). *)
Definition borrows (js : jsum) (r : reg) : Prop :=
  r <> RSP /\ exists rest, j_unused js = reg_name r :: rest.

(** Temporaries chosen by jit.cc:35-61 when [r] is excluded. *)
Definition rt1 (r : reg) : reg := match r with R10 => R11 | _ => R10 end.
Definition rt2 (r : reg) : reg := match r with R10 | R11 => R12 | _ => R11 end.

Definition reg_push_code (r : reg) (height : Z) : list instr :=
  [IMovMR (MGs 8) r; IMovRM r (MBase RSP height)].
Definition reg_pop_code (r : reg) : list instr :=
  [ICmpRM r (MBase RSP 0); IJe 0] ++
  (save_frag true true (rt1 r) (rt2 r) ++
   validate_frag (rt1 r) (rt2 r) 16 1 2 3 ++
   restore_frag true true (rt1 r) (rt2 r)) ++
  [IBind 0; IMovRM r (MGs 8)].

Lemma reg_push_shape o js r height :
  is_empty_run o = false -> is_only_save o = false -> borrows js r ->
  jit_register_push o kRegisterMap js height = EOk (reg_push_code r height).
Proof.
  intros H1 H2 [N [rest E]]. unfold jit_register_push. rewrite H1.
  unfold get_unused. rewrite E, map_find_name by auto. cbn [ebind]. rewrite H2.
  reflexivity.
Qed.

Lemma reg_pop_shape o js r :
  is_empty_run o = false -> is_only_save o = false -> borrows js r ->
  jit_register_pop o kRegisterMap js = EOk (reg_pop_code r).
Proof.
  intros H1 H2 [N [rest E]]. unfold jit_register_pop. rewrite H1.
  unfold get_unused. rewrite E, map_find_name by auto. cbn [ebind]. rewrite H2.
  assert (ST : forall a, save_temps o kRegisterMap [] [reg_name r] 0 a =
             EOk (save (Some (rt2 r)) (save (Some (rt1 r))
                  (a, mkTemps (Some (rt1 r)) (Some (rt2 r)) None true true true 0)))).
  { intros a. unfold save_temps.
    assert (ET : temps_default kRegisterMap [reg_name r] 0 =
                 EOk (mkTemps (Some (rt1 r)) (Some (rt2 r)) None true true true 0)).
    { destruct r; reflexivity. }
    rewrite ET. cbn [ebind]. destruct (o_optimize_regs o); reflexivity. }
  cbn [new_label asm0 code nlabel]. rewrite ST. reflexivity.
Qed.

(** ** Entry *)
Lemma reg_push_run mp s r height :
  wf s -> r <> RSP ->
  mapped mp (gs s) 16 -> mapped mp (rg s RSP + height) 8 ->
  apart (rg s RSP + height) 8 (gs s) 16 ->
  exists s',
    exec (reg_push_code r height) mp s (Done s') /\
    rg s' r = load64 (mem s) (rg s RSP + height) /\
    load64 (mem s') (gs s + 8) = rg s r /\
    (forall r', r' <> r -> rg s' r' = rg s r') /\
    fl s' = fl s /\ gs s' = gs s /\
    (forall x, ~ inside (gs s + 8) 8 x -> mem s' x = mem s x).
Proof.
  intros [HW HG] N MG MR HA. destruct s as [g m b f n]. cbn [rg mem gs fl] in *.
  pose proof MG as (G1 & G2 & G3). pose proof MR as (R1 & R2 & R3).
  assert (MS : mapped mp (b + 8) 8) by (eapply mapped_sub; [exact MG| |]; lia).
  eexists. split; [|split; [|split; [|split; [|split; [|split]]]]].
  - eapply steps_done.
    + unfold enter. cbn [rg mem gs fl].
      eapply steps_next.
      { eapply st_store with (a := b + 8); [reflexivity| |auto].
        unfold ea; cbn [gs]. apply Z.mod_small. lia. }
      apply steps_one. eapply st_load with (a := g RSP + height); [reflexivity| |auto].
      unfold ea; cbn [rg]. apply Z.mod_small. lia.
    + apply st_end. reflexivity.
  - cbn [rg]. rsimpl. unfold apart in HA. apply load64_store64_disj. lia.
  - cbn [mem]. apply load64_store64_same. auto.
  - intros r' Hr. cbn [rg]. rsimpl. reflexivity.
  - reflexivity.
  - reflexivity.
  - cbn [mem]. intros x Hx. unfold inside in Hx. apply store64_out. lia.
Qed.

(** ** Exit *)
Lemma rt_ok r : r <> RSP ->
  rt1 r <> RSP /\ rt2 r <> RSP /\ rt1 r <> rt2 r /\ rt1 r <> r /\ rt2 r <> r.
Proof. destruct r; cbn; repeat split; congruence. Qed.

Lemma reg_pop_run mp s l k r :
  env mp s l 0 k -> apart (rg s RSP) 8 (gs s) 8 -> r <> RSP ->
  let ra := load64 (mem s) (rg s RSP) in
  let c := reg_pop_code r in
  (ra = rg s r ->
   exists s', exec c mp s (Done s') /\
     rg s' r = load64 (mem s) (gs s + 8) /\
     (forall r', r' <> r -> rg s' r' = rg s r') /\
     gs s' = gs s /\ (forall x, mem s' x = mem s x)) /\
  (ra <> rg s r ->
   match unwind ra l with
   | Some l' =>
       (clean_above ra l ->
        exists s', exec c mp s (Done s') /\
          shadow_rep (mem s') (gs s) l' /\
          rg s' r = load64 (mem s) (gs s + 8) /\
          (forall r', r' <> r -> rg s' r' = rg s r') /\
          gs s' = gs s /\
          (forall x, ~ below (rg s RSP) x -> ~ inside (gs s) 8 x -> mem s' x = mem s x)) /\
       (~ clean_above ra l -> exec c mp s Trap)
   | None => ra <> 0 -> exec c mp s Trap
   end).
Proof.
  intros E HAR N ra c.
  destruct E as [[HW HG] HS HO MR HL MG HT HA HR].
  destruct s as [g m b f n]. cbn [rg mem gs fl] in *.
  rewrite Z.add_0_r in MR.
  set (sp := g RSP) in *.
  pose proof MG as (G1 & G2 & G3). pose proof HS as (S1 & S2 & S3).
  pose proof MR as (R1 & R2 & R3).
  destruct (rt_ok r N) as (N1 & N2 & N3 & N4 & N5).
  set (t1 := rt1 r) in *. set (t2 := rt2 r) in *.
  assert (MB16 : mapped mp (b + 8) 8) by (eapply mapped_sub; [exact MG| |]; lia).
  assert (C0 : steps c mp (mkState g m b f 0)
                 (mkState g m b (sub_flags 64 f (g r) ra)
                    (if ra =? g r then 19%nat else 2%nat))).
  { eapply steps_next.
    { eapply st_cmp with (a := sp); [reflexivity| |exact MR].
      unfold ea; cbn [rg]. fold sp. rewrite Z.add_0_r. apply Z.mod_small. lia. }
    apply steps_one. fold ra.
    rewrite (st_je c mp g m b _ 1 0 19); [|reflexivity|reflexivity].
    rewrite sub_flags_zf; try lia; [|apply HW|apply load64_range].
    destruct (g r =? ra) eqn:E1; destruct (ra =? g r) eqn:E2; try lia; reflexivity. }
  assert (CL : forall g' m' f',
             steps c mp (mkState g' m' b f' 19)
                        (mkState (updr g' r (load64 m' (b + 8))) m' b f' 21)).
  { intros g' m' f'. eapply steps_next. { eapply st_bind. reflexivity. }
    apply steps_one. eapply st_load; [reflexivity| |exact MB16].
    unfold ea; cbn [gs]. apply Z.mod_small. lia. }
  split.
  - intros Hra.
    eexists. split; [|split; [|split; [|split]]].
    + eapply steps_done.
      * unfold enter. cbn [rg mem gs fl]. eapply steps_trans; [exact C0|].
        rewrite (proj2 (Z.eqb_eq _ _) Hra). apply CL.
      * apply st_end. reflexivity.
    + cbn [rg]. rsimpl. reflexivity.
    + intros r' Hr. cbn [rg]. rsimpl. reflexivity.
    + reflexivity.
    + reflexivity.
  - intros Hra. rewrite (proj2 (Z.eqb_neq _ _) Hra) in C0.
    assert (C1 : code_at c 2 (save_frag true true t1 t2)).
    { intros i x Hi. destruct i as [|[|i]]; cbn in Hi |- *; try discriminate; auto.
      destruct i; discriminate. }
    assert (C2 : code_at c 4 (validate_frag t1 t2 16 1 2 3)).
    { intros i x Hi. do 13 (destruct i as [|i]; [exact Hi|]).
      destruct i; discriminate. }
    assert (C3 : code_at c 17 (restore_frag true true t1 t2)).
    { intros i x Hi. do 2 (destruct i as [|i]; [exact Hi|]).
      destruct i; discriminate. }
    set (f1 := sub_flags 64 f (g r) ra) in *.
    destruct (save_ok c mp g m b f1 2 true true t1 t2 C1 HS N1 N2 HW)
      as (g1 & m1 & ST1 & RS1 & RO1 & SV1 & ME1). fold sp in RS1, SV1, ME1.
    cbn [save_frag app List.length plus] in ST1.
    change (ksaves true true) with 16 in *.
    assert (HR1 : shadow_rep m1 b l).
    { eapply shadow_rep_ext; [exact HR|]. intros x Hx. apply ME1.
      unfold inside, apart in *. lia. }
    assert (ERA : g1 RSP + 16 = sp) by lia.
    assert (EL : load64 m1 sp = ra).
    { apply load64_ext. intros x Hx. apply ME1. unfold inside. lia. }
    pose proof (validate_ok c mp 4 b t1 t2 16 1 2 3 C2 eq_refl eq_refl eq_refl N1 N2 N3) as VK.
    specialize (VK ltac:(eapply mapped_sub; [exact MG| |]; lia) l g1 m1 f1 ra HR1).
    specialize (VK ltac:(eapply mapped_sub; [exact MG| |]; lia) ltac:(unfold slot in *; lia)).
    rewrite ERA in VK. specialize (VK MR HAR EL).
    assert (TR : (exists s', steps c mp (mkState g1 m1 b f1 4) s' /\ step c mp s' = STrap)
                 -> exec c mp (mkState g m b f n) Trap).
    { intros (s' & A & B). eapply steps_trap; [|exact B].
      unfold enter. cbn [rg mem gs fl]. eapply steps_trans; [exact C0|].
      eapply steps_trans; [exact ST1|exact A]. }
    destruct (unwind ra l) as [l'|] eqn:EU; [|intros Hz; apply TR; auto].
    destruct VK as [V1 V2]. split; [|intros Hc; apply TR; auto].
    intros Hc. destruct (V1 Hc) as (g2 & m2 & f2 & ST2 & RO2 & LP2 & ME2).
    assert (SV2 : saved true true t1 t2 g m2 sp).
    { destruct SV1 as [U1 U2]. split; intros Hs.
      - rewrite <- (U1 Hs). apply load64_ext. intros x Hx.
        apply ME2; unfold inside, apart, slot in *; lia.
      - rewrite <- (U2 Hs). change (ksaves true true) with 16 in *.
        apply load64_ext. intros x Hx.
        apply ME2; unfold inside, apart, slot in *; lia. }
    destruct (restore_ok c mp g2 m2 b f2 17 true true t1 t2 g sp)
      as (g3 & ST3 & RS3 & U1 & U2 & RO3); auto.
    { apply HW. }
    { rewrite RO2 by congruence. change (ksaves true true) with 16. lia. }
    cbn [restore_frag app List.length plus] in ST3.
    eexists. split; [|split; [|split; [|split; [|split]]]].
    + eapply steps_done.
      * unfold enter. cbn [rg mem gs fl]. eapply steps_trans; [exact C0|].
        eapply steps_trans; [exact ST1|]. eapply steps_trans; [exact ST2|].
        eapply steps_trans; [exact ST3|]. apply CL.
      * apply st_end. reflexivity.
    + cbn [mem]. destruct (unwind_suffix _ _ _ EU) as [p EP].
      eapply (shadow_rep_drop m1 m2 b p l').
      * rewrite <- EP. exact HR1.
      * exact LP2.
      * intros x Hx. apply ME2. unfold inside in *. lia.
    + cbn [rg]. rsimpl. apply load64_ext. intros x Hx.
      rewrite ME2 by (unfold inside; lia). apply ME1. unfold inside, apart in *. lia.
    + cbn [rg]. intros r' Hr. rsimpl.
      destruct (reg_eq_dec r' t1) as [->|E1]; [apply U1; auto|].
      destruct (reg_eq_dec r' t2) as [->|E2]; [apply U2; auto|].
      destruct (reg_eq_dec r' RSP) as [->|E3]; [auto|].
      rewrite RO3, RO2, RO1; auto.
    + reflexivity.
    + cbn [mem]. intros x X1 X2. rewrite ME2; auto.
Qed.
