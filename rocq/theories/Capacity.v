(** * Capacity: the emitted entry code and the size of the shadow region. *)
From Coq Require Import ZArith List Bool String Lia ZifyBool ZifyNat.
From Verif Require Import Machine MachineFacts Jit ShadowSpec JitPushPop History Runtime
  RegFrame Witness.
Import ListNotations.
Open Scope Z_scope.
Ltac Zify.zify_post_hook ::= Z.div_mod_to_equations.

Lemma capacity_eq : Z.of_nat capacity = 1048572.
Proof. unfold capacity. rewrite Z2Nat.id; [reflexivity|]. unfold stack_sz. cbn. lia. Qed.

Global Opaque capacity.

Lemma entry_inside q mp s l :
  e_ok q -> env mp s l (e_off q) capacity -> (List.length l < capacity)%nat ->
  exists c s', e_code q = EOk (c, kRegisterMap) /\ exec c mp s (Done s') /\
    (forall x, mem s' x <> mem s x ->
       inside (rg s RSP - 16) 16 x \/ inside (gs s) stack_sz x).
Proof.
  intros HQ HE HL. destruct (entry_run q mp s l capacity HQ HE HL)
    as (c & s' & X1 & X2 & _ & _ & _ & _ & _ & X3).
  exists c, s'. split; auto. split; auto. intros x Hx.
  pose proof capacity_eq as CE.
  assert (D : inside (rg s RSP - 16) 16 x \/ ~ inside (rg s RSP - 16) 16 x)
    by (unfold inside; lia).
  destruct D as [D|D]; auto. right.
  assert (D2 : inside (gs s) stack_sz x \/ ~ inside (gs s) stack_sz x)
    by (unfold inside; lia).
  destruct D2 as [D2|D2]; auto. exfalso. apply Hx. apply X3; auto;
    unfold inside, slot, stack_sz in *; lia.
Qed.

(** At full depth the next entry writes just behind the region. *)
Lemma entry_overflow :
  exists c s',
    let l := repeat 1 capacity in
    let s := wstate l 77 in
    e_code wenter = EOk (c, kRegisterMap) /\
    env mp_all s l 0 (S capacity) /\
    exec c mp_all s (Done s') /\
    load64 (mem s) (gs s + stack_sz) = 0 /\
    load64 (mem s') (gs s + stack_sz) = 77.
Proof.
  pose proof capacity_eq as CE.
  set (l := repeat 1 capacity).
  assert (HL : List.length l = capacity) by apply repeat_length.
  assert (HE : env mp_all (wstate l 77) l 0 (S capacity)).
  { apply wstate_env; [| |lia].
    - intros v Hv. apply repeat_spec in Hv. subst. unfold W. lia.
    - rewrite HL. lia. }
  assert (HL2 : (List.length l < S capacity)%nat) by (rewrite HL; lia).
  destruct (entry_run wenter mp_all (wstate l 77) l (S capacity) wenter_ok HE HL2) as
    (c & s' & X1 & X2 & X3 & _).
  clearbody l.
  exists c, s'. cbv zeta. split; auto. split; auto. split; auto.
  assert (ES : slot wgs capacity = wgs + stack_sz).
  { unfold slot, stack_sz. lia. }
  split.
  - cbn [mem gs wstate].
    erewrite load64_ext with (m' := fun _ => 0); [reflexivity|].
    intros x Hx. rewrite build_out.
    + apply store64_out. unfold wsp, wgs, stack_sz in *. lia.
    + unfold inside, stack_sz in *. lia.
    + rewrite HL. unfold inside, slot, stack_sz in *. lia.
  - destruct X3 as (_ & _ & X3). cbn [gs wstate] in *. rewrite <- ES. apply X3.
    cbn [rev]. rewrite nth_error_app2 by (rewrite rev_length, HL; lia).
    rewrite rev_length, HL, Nat.sub_diag. cbn [nth_error]. f_equal.
    change (rg (wstate l 77) RSP + e_off wenter) with wsp. apply wstate_ra. unfold W. lia.
Qed.

(** ** Depth zero (C14) *)
Lemma init_then_exit q mp m addr s m' :
  x_ok q -> mapped mp addr stack_sz -> addr + stack_sz < W ->
  init_stack mp m addr true = ROk m' addr ->
  wf s -> gs s = addr ->
  (forall x, inside addr 32 x -> mem s x = m' x) ->
  stack_ok mp capacity s (x_off q) ->
  load64 (mem s) (rg s RSP + x_off q) <> 0 ->
  exists c, x_code q = EOk (c, kRegisterMap) /\ exec c mp s Trap.
Proof.
  intros HQ HM HW HI WF HG HK HS HZ. pose proof capacity_eq as CE.
  destruct (init_ok mp m addr) as (m2 & E1 & E2 & _).
  { eapply mapped_sub; [exact HM| |]; unfold stack_sz; lia. }
  { unfold stack_sz in *. lia. }
  rewrite HI in E1. inversion E1; subst m2.
  assert (HT : thread_ok mp capacity s []).
  { constructor; auto.
    - cbn. lia.
    - rewrite HG. eapply mapped_sub; [exact HM| |]; unfold stack_sz; lia.
    - rewrite HG. unfold slot, stack_sz in *. lia.
    - rewrite HG. eapply shadow_rep_ext; [exact E2|].
      intros x Hx. symmetry. symmetry. apply HK. cbn in Hx. unfold inside in *. lia. }
  destruct (exit_cases q mp s [] capacity HQ HT HS HZ) as (c & X1 & X2).
  exists c. split; auto.
Qed.

(** ** Register frames and nested protected code (C16) *)

(** Stack snippets leave the scratch word alone. *)
Lemma entry_scratch q mp s l k :
  e_ok q -> env mp s l (e_off q) k -> (List.length l < k)%nat ->
  exists c s', e_code q = EOk (c, kRegisterMap) /\ exec c mp s (Done s') /\
    load64 (mem s') (gs s + 8) = load64 (mem s) (gs s + 8).
Proof.
  intros HQ HE HL. destruct (entry_run q mp s l k HQ HE HL)
    as (c & s' & X1 & X2 & _ & _ & _ & _ & _ & X3).
  exists c, s'. split; auto. split; auto. destruct HE.
  apply load64_ext. intros x Hx.
  unfold below, apart, inside, slot in *. apply X3; unfold below, inside; lia.
Qed.
Lemma exit_scratch q mp s l k s' c m :
  x_ok q -> thread_ok mp k s l -> stack_ok mp k s (x_off q) ->
  load64 (mem s) (rg s RSP + x_off q) <> 0 ->
  x_code q = EOk (c, m) -> exec c mp s (Done s') ->
  load64 (mem s') (gs s + 8) = load64 (mem s) (gs s + 8).
Proof.
  intros HQ HT HS HZ HC HX.
  destruct (exit_cases q mp s l k HQ HT HS HZ) as (c' & EC & K).
  rewrite HC in EC. inversion EC; subst c' m.
  destruct (sret _ l) as [l'|].
  - destruct K as (s2 & X1 & X2 & X3 & X4 & X5).
    pose proof (exec_det _ _ _ _ _ HX X1) as E. inversion E; subst s2.
    destruct HS as (O1 & O2 & O3 & O4 & O5).
    apply load64_ext. intros x Hx. unfold apart in *.
    apply X5; unfold below, inside; lia.
  - pose proof (exec_det _ _ _ _ _ HX K). discriminate.
Qed.

(** Two nested register frames that borrow the same register: the caller's
    value is lost, the register ends up holding the outer return address. *)
Lemma nested_register_frames js r mp o (s h : state) l k lh kh :
  plain o -> borrows js r ->
  (* outer function entered at s *)
  env mp s l 0 k -> apart (rg s RSP) 8 (gs s) 16 ->
  (* handler entered at h: same thread, borrowed register as the outer left it *)
  env mp h lh 0 kh -> apart (rg h RSP) 8 (gs h) 16 -> gs h = gs s ->
  rg h r = load64 (mem s) (rg s RSP) ->
  exists cp cq s1 h1 h2,
    jit_register_push o kRegisterMap js 0 = EOk cp /\
    jit_register_pop o kRegisterMap js = EOk cq /\
    exec cp mp s (Done s1) /\ rg s1 r = rg h r /\
    exec cp mp h (Done h1) /\ exec cq mp h1 (Done h2) /\
    rg h2 r = rg h r /\
    (* back in the outer function, at its return *)
    forall t lt kt, env mp t lt 0 kt -> gs t = gs s -> rg t RSP = rg s RSP ->
      rg t r = rg h2 r -> load64 (mem t) (rg t RSP) = load64 (mem s) (rg s RSP) ->
      apart (rg t RSP) 8 (gs t) 8 ->
      load64 (mem t) (gs t + 8) = load64 (mem h2) (gs s + 8) ->
      exists t', exec cq mp t (Done t') /\ rg t' r = load64 (mem s) (rg s RSP).
Proof.
  intros HP HB ES AS EH AH GH RH.
  pose proof (reg_push_shape o js r 0 (is_empty_plain _ HP) (is_only_plain _ HP) HB) as SP.
  pose proof (reg_pop_shape o js r (is_empty_plain _ HP) (is_only_plain _ HP) HB) as SQ.
  destruct HB as [NR _].
  destruct (reg_push_run mp s r 0) as (s1 & A1 & A2 & A3 & A4 & A5 & A6 & A7).
  { apply ES. } { auto. }
  { eapply mapped_sub; [apply (env_region _ _ _ _ _ ES)| |]; lia. }
  { apply (env_ra _ _ _ _ _ ES). } { rewrite Z.add_0_r. auto. }
  destruct (reg_push_run mp h r 0) as (h1 & B1 & B2 & B3 & B4 & B5 & B6 & B7).
  { apply EH. } { auto. }
  { eapply mapped_sub; [apply (env_region _ _ _ _ _ EH)| |]; lia. }
  { apply (env_ra _ _ _ _ _ EH). } { rewrite Z.add_0_r. auto. }
  rewrite Z.add_0_r in *.
  assert (SPR : rg h1 RSP = rg h RSP) by (apply B4; congruence).
  assert (EH1 : env mp h1 lh 0 kh).
  { destruct EH as [W1 W2 W3 W4 W5 W6 W7 W8 W9]. constructor; rewrite ?SPR, ?B6; auto.
    - eapply exec_wf; eauto.
    - destruct W9 as (U1 & U2 & U3). split; [|split].
      + rewrite <- U1. apply load64_ext. intros x Hx. apply B7. unfold inside. lia.
      + rewrite <- U2. apply load64_ext. intros x Hx. apply B7. unfold inside. lia.
      + intros i v Hi. rewrite <- (U3 i v Hi). apply load64_ext. intros x Hx. apply B7.
        unfold inside, slot in *. lia. }
  assert (RA1 : load64 (mem h1) (rg h1 RSP) = load64 (mem h) (rg h RSP)).
  { rewrite SPR. apply load64_ext. intros x Hx. apply B7. unfold apart, inside in *. lia. }
  destruct (reg_pop_run mp h1 lh kh r) as [P1 _]; auto.
  { rewrite SPR, B6. unfold apart in *. lia. }
  destruct P1 as (h2 & C1 & C2 & C3 & C4 & C5).
  { rewrite RA1, B2. reflexivity. }
  exists (reg_push_code r 0), (reg_pop_code r), s1, h1, h2.
  split; [auto|]. split; [auto|]. split; [auto|]. split; [congruence|].
  split; [auto|]. split; [auto|]. split.
  { rewrite C2, B6, B3. reflexivity. }
  intros t lt kt ET GT RT RR LA AT LS.
  destruct (reg_pop_run mp t lt kt r) as [P2 _]; auto.
  destruct P2 as (t' & D1 & D2 & _).
  { rewrite LA, RR, C2, B6, B3. auto. }
  exists t'. split; auto. rewrite D2, LS.
  assert (EM : load64 (mem h2) (gs s + 8) = load64 (mem h1) (gs s + 8)).
  { apply load64_ext. intros x _. apply C5. }
  rewrite EM, <- GH, B3. auto.
Qed.
