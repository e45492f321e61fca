(** * Opts: dry-run modes, --optimize_regs, choice of temporaries. *)
From Coq Require Import ZArith List Bool String Lia ZifyBool ZifyNat.
From Verif Require Import Machine MachineFacts Jit ShadowSpec JitFacts JitPushPop History
  RegFrame.
Import ListNotations.
Open Scope Z_scope.

(** ** --dry_run=empty *)
Lemma empty_push o m pt s uo h uf :
  o_dry_run o = "empty"%string -> jit_stack_push o m pt s uo h uf = EOk ([], m).
Proof. intros H. unfold jit_stack_push, is_empty_run. rewrite H. reflexivity. Qed.
Lemma empty_pop o m pt s uo :
  o_dry_run o = "empty"%string -> jit_stack_pop o m pt s uo = EOk ([], m).
Proof. intros H. unfold jit_stack_pop, is_empty_run. rewrite H. reflexivity. Qed.
Lemma empty_reg_push o m s h :
  o_dry_run o = "empty"%string -> jit_register_push o m s h = EOk [].
Proof. intros H. unfold jit_register_push, is_empty_run. rewrite H. reflexivity. Qed.
Lemma empty_reg_pop o m s :
  o_dry_run o = "empty"%string -> jit_register_pop o m s = EOk [].
Proof. intros H. unfold jit_register_pop, is_empty_run. rewrite H. reflexivity. Qed.

(** ** --dry_run=only-save *)
Lemma only_run mp s s1 s2 t1 t2 :
  wf s -> mapped mp (rg s RSP - 16) 16 -> t1 <> RSP -> t2 <> RSP -> t1 <> t2 ->
  exists s', exec (save_frag s1 s2 t1 t2 ++ [] ++ restore_frag s1 s2 t1 t2) mp s (Done s') /\
    (forall r, rg s' r = rg s r) /\ fl s' = fl s /\ gs s' = gs s /\
    (forall x, ~ inside (rg s RSP - 16) 16 x -> mem s' x = mem s x).
Proof.
  intros [HW HG] HS N1 N2 N3. destruct s as [g m b f n]. cbn [rg mem gs fl] in *.
  set (c := save_frag s1 s2 t1 t2 ++ [] ++ restore_frag s1 s2 t1 t2).
  destruct (save_ok c mp g m b f 0 s1 s2 t1 t2) as (g1 & m1 & X1 & X2 & X3 & X4 & X5); auto.
  { unfold c. apply (code_at_self []). }
  cbn [Nat.add] in X1.
  pose proof (HW RSP) as HR.
  destruct (restore_keep c mp g1 m1 b f (List.length (save_frag s1 s2 t1 t2)) s1 s2 t1 t2 g (g RSP))
    as (g2 & Y1 & Y2 & Y3 & Y4 & Y5); auto; try lia.
  { unfold c. rewrite app_nil_l. intros i x Hi. rewrite nth_error_app2 by lia.
    rewrite <- Hi. f_equal. lia. }
  eexists. split.
  - eapply steps_done.
    + unfold enter. cbn [rg mem gs fl]. eapply steps_trans; [exact X1|exact Y1].
    + apply st_end. unfold c. apply nth_error_None. rewrite !app_length. cbn [List.length]. lia.
  - cbn [rg mem gs fl]. repeat split; auto.
    + intros r. destruct (reg_eq_dec r RSP) as [->|R0]; auto.
      destruct (reg_eq_dec r t1) as [->|R1]; [|destruct (reg_eq_dec r t2) as [->|R2]].
      * destruct s1; auto. rewrite Y5, X3; auto. congruence.
      * destruct s2; auto. rewrite Y5, X3; auto. congruence.
      * rewrite Y5, X3; auto; congruence.
    + intros x Hx. apply X5. unfold inside, ksaves, b2z in *. destruct s1, s2; lia.
Qed.

Lemma only_is o : o_dry_run o = "only-save"%string ->
  is_empty_run o = false /\ is_only_save o = true.
Proof. intros H. unfold is_empty_run, is_only_save. rewrite H. auto. Qed.

Lemma only_entry q mp s :
  o_dry_run (e_o q) = "only-save"%string ->
  request_ok (e_o q) (e_mid q) (j_dead_entry (e_js q)) ->
  wf s -> mapped mp (rg s RSP - 16) 16 ->
  exists c s', e_code q = EOk (c, kRegisterMap) /\ exec c mp s (Done s') /\
    (forall r, rg s' r = rg s r) /\ fl s' = fl s /\ gs s' = gs s /\
    (forall x, ~ inside (rg s RSP - 16) 16 x -> mem s' x = mem s x).
Proof.
  intros HO HR HW HM. destruct (only_is _ HO) as [H1 H2].
  destruct (push_shape (e_o q) (e_pt q) (e_js q) (e_orig q) (e_height q) (e_fixed q) H1 HR)
    as (t1 & t2 & s1 & s2 & EC & _ & N1 & N2 & N3 & _).
  rewrite H2 in EC.
  destruct (only_run mp s s1 s2 t1 t2 HW HM N1 N2 N3) as (s' & X).
  eexists _, s'. split; [exact EC|exact X].
Qed.

Lemma only_exit q mp s :
  o_dry_run (x_o q) = "only-save"%string ->
  request_ok (x_o q) (x_mid q) (exit_dead_set (x_pt q) (x_js q)) ->
  wf s -> mapped mp (rg s RSP - 16) 16 ->
  exists c s', x_code q = EOk (c, kRegisterMap) /\ exec c mp s (Done s') /\
    (forall r, rg s' r = rg s r) /\ fl s' = fl s /\ gs s' = gs s /\
    (forall x, ~ inside (rg s RSP - 16) 16 x -> mem s' x = mem s x).
Proof.
  intros HO HR HW HM. destruct (only_is _ HO) as [H1 H2].
  destruct (pop_shape (x_o q) (x_pt q) (x_js q) (x_orig q) H1 HR)
    as (t1 & t2 & s1 & s2 & EC & _ & N1 & N2 & N3 & _).
  rewrite H2 in EC.
  destruct (only_run mp s s1 s2 t1 t2 HW HM N1 N2 N3) as (s' & X).
  eexists _, s'. split; [exact EC|exact X].
Qed.

(** Register frames with only-save: the entry stores the borrowed register in
    the scratch word, the exit loads it back. *)
Lemma only_reg_push o js r height mp s :
  o_dry_run o = "only-save"%string -> borrows js r -> wf s -> mapped mp (gs s) 16 ->
  exists c s', jit_register_push o kRegisterMap js height = EOk c /\
    exec c mp s (Done s') /\ (forall r', rg s' r' = rg s r') /\ fl s' = fl s /\
    gs s' = gs s /\ load64 (mem s') (gs s + 8) = rg s r /\
    (forall x, ~ inside (gs s + 8) 8 x -> mem s' x = mem s x).
Proof.
  intros HO [N [rest E]] [HW HG] MG. destruct (only_is _ HO) as [H1 H2].
  exists [IMovMR (MGs 8) r].
  destruct s as [g m b f n]. cbn [rg mem gs fl] in *. pose proof MG as (G1 & G2 & G3).
  assert (MS : mapped mp (b + 8) 8) by (eapply mapped_sub; [exact MG| |]; lia).
  eexists. split; [|split].
  - unfold jit_register_push. rewrite H1. unfold get_unused.
    rewrite E, map_find_name by auto. cbn [ebind]. rewrite H2. reflexivity.
  - eapply steps_done.
    + unfold enter. cbn [rg mem gs fl]. apply steps_one.
      eapply st_store with (a := b + 8); [reflexivity| |auto].
      unfold ea; cbn [gs]. apply Z.mod_small. lia.
    + apply st_end. reflexivity.
  - cbn [rg mem gs fl]. repeat split; auto.
    + apply load64_store64_same. auto.
    + intros x Hx. apply store64_out. unfold inside in Hx. lia.
Qed.
Lemma only_reg_pop o js r mp s :
  o_dry_run o = "only-save"%string -> borrows js r -> wf s -> mapped mp (gs s) 16 ->
  exists c s', jit_register_pop o kRegisterMap js = EOk c /\
    exec c mp s (Done s') /\ (forall r', r' <> r -> rg s' r' = rg s r') /\ fl s' = fl s /\
    gs s' = gs s /\ rg s' r = load64 (mem s) (gs s + 8) /\
    (forall x, mem s' x = mem s x).
Proof.
  intros HO [N [rest E]] [HW HG] MG. destruct (only_is _ HO) as [H1 H2].
  exists [IMovRM r (MGs 8)].
  destruct s as [g m b f n]. cbn [rg mem gs fl] in *. pose proof MG as (G1 & G2 & G3).
  assert (MS : mapped mp (b + 8) 8) by (eapply mapped_sub; [exact MG| |]; lia).
  eexists. split; [|split].
  - unfold jit_register_pop. rewrite H1. unfold get_unused.
    rewrite E, map_find_name by auto. cbn [ebind]. rewrite H2. reflexivity.
  - eapply steps_done.
    + unfold enter. cbn [rg mem gs fl]. apply steps_one.
      eapply st_load with (a := b + 8); [reflexivity| |auto].
      unfold ea; cbn [gs]. apply Z.mod_small. lia.
    + apply st_end. reflexivity.
  - cbn [rg mem gs fl]. repeat split; auto.
    + intros r' Hr. rsimpl. reflexivity.
    + rsimpl. reflexivity.
Qed.

(** ** --optimize_regs *)
Lemma few_dead_ub o dead height a :
  o_optimize_regs o = true -> (1 <= List.length dead <= 3)%nat ->
  save_temps o kRegisterMap dead [] height a = EUB.
Proof.
  intros HO HL. unfold save_temps.
  change (temps_default kRegisterMap [] height)
    with (EOk (mkTemps (Some R10) (Some R11) None true true true height)).
  cbn [ebind]. rewrite HO.
  destruct dead as [|d1 [|d2 [|d3 [|d4 r]]]]; cbn in HL; try lia; reflexivity.
Qed.
Lemma few_dead_push o pt js height :
  is_empty_run o = false -> o_optimize_regs o = true ->
  (1 <= List.length (j_dead_entry js) <= 3)%nat ->
  jit_stack_push o kRegisterMap pt (Some js) false height false = EUB.
Proof.
  intros H1 H2 H3. unfold jit_stack_push. rewrite H1. cbn [ebind].
  rewrite few_dead_ub; auto.
Qed.
Lemma few_dead_pop o pt js :
  is_empty_run o = false -> o_optimize_regs o = true ->
  (1 <= List.length (exit_dead_set pt js) <= 3)%nat ->
  jit_stack_pop o kRegisterMap pt (Some js) false = EUB.
Proof.
  intros H1 H2 H3. unfold jit_stack_pop. rewrite H1. cbn [ebind].
  unfold exit_dead_set in H3. rewrite few_dead_ub; auto.
Qed.

(** ** Which registers a piece of code overwrites *)
Definition dest (i : instr) : list reg :=
  match i with
  | IPush _ | IPushfq | IPopfq => [RSP]
  | IPop r => [RSP; r]
  | IMovRM r _ | ILea r _ _ | ISubRI r _ => [r]
  | _ => []
  end.

(** [dest] is right: other registers keep their value. *)
Lemma dest_ok c mp s s' i r :
  nth_error c (pc s) = Some i -> step c mp s = SNext s' -> ~ In r (dest i) ->
  rg s' r = rg s r.
Proof.
  intros HI HS HN. unfold step in HS. rewrite HI in HS.
  destruct i; cbn [dest In] in HN;
    repeat match type of HS with context [if acc ?m ?a ?k then _ else _] =>
             destruct (acc m a k) end; try discriminate;
    repeat match type of HS with context [if ZF ?f then _ else _] =>
             destruct (ZF f) end;
    unfold goto, upd_state in HS;
    try match type of HS with context [find_label c ?z] => destruct (find_label c z) end;
    try discriminate; try (destruct (_ =? _); discriminate);
    inversion HS; subst; cbn [rg]; auto; unfold updr;
    repeat match goal with |- context [reg_eq_dec ?a ?b] => destruct (reg_eq_dec a b) end;
    subst; auto; exfalso; intuition.
Qed.

(** [c] uses two distinct temporaries other than rsp; besides rsp it overwrites
    no other register; a temporary that was not declared dead is pushed before
    its first overwrite and popped afterwards. *)
Definition two_temps (c : list instr) (dead : list string) : Prop :=
  exists t1 t2, t1 <> t2 /\ t1 <> RSP /\ t2 <> RSP /\
    (forall i r, In i c -> In r (dest i) -> r = RSP \/ r = t1 \/ r = t2) /\
    (forall t, t = t1 \/ t = t2 ->
       In (reg_name t) dead \/
       exists c1 c2, c = c1 ++ IPush t :: c2 /\ (forall i, In i c1 -> ~ In t (dest i)) /\
                     In (IPop t) c2).

Lemma two_temps_shape s1 s2 t1 t2 body dead :
  t1 <> RSP -> t2 <> RSP -> t1 <> t2 ->
  (s1 = false -> In (reg_name t1) dead) -> (s2 = false -> In (reg_name t2) dead) ->
  (forall i r, In i body -> In r (dest i) -> r = RSP \/ r = t1 \/ r = t2) ->
  two_temps (save_frag s1 s2 t1 t2 ++ body ++ restore_frag s1 s2 t1 t2) dead.
Proof.
  intros N1 N2 N3 D1 D2 HB. exists t1, t2. repeat split; auto.
  - intros i r Hi Hr. apply in_app_or in Hi. destruct Hi as [Hi|Hi].
    + unfold save_frag in Hi. destruct s1, s2; cbn in Hi; decompose [or] Hi; subst;
        cbn in Hr; intuition.
    + apply in_app_or in Hi. destruct Hi as [Hi|Hi]; [eauto|].
      unfold restore_frag in Hi. destruct s1, s2; cbn in Hi; decompose [or] Hi; subst;
        cbn in Hr; intuition.
  - intros t [->| ->].
    + destruct s1; [right|left; auto].
      exists [], ((if s2 then [IPush t2] else []) ++ body ++ restore_frag true s2 t1 t2).
      split; [reflexivity|]. split; [intros i []|].
      apply in_or_app. right. apply in_or_app. right. unfold restore_frag.
      apply in_or_app. right. left; auto.
    + destruct s2; [right|left; auto].
      exists (if s1 then [IPush t1] else []), (body ++ restore_frag s1 true t1 t2).
      split; [unfold save_frag; rewrite <- app_assoc; reflexivity|]. split.
      * intros i Hi. destruct s1; [|destruct Hi]. destruct Hi as [<-|[]]. cbn. intuition.
      * apply in_or_app. right. unfold restore_frag. left; auto.
Qed.

Lemma entry_temps q :
  o_dry_run (e_o q) <> "empty"%string ->
  request_ok (e_o q) (e_mid q) (j_dead_entry (e_js q)) ->
  exists c, e_code q = EOk (c, kRegisterMap) /\ two_temps c (e_dead q).
Proof.
  intros HO HR. assert (H1 : is_empty_run (e_o q) = false) by (apply String.eqb_neq; auto).
  destruct (push_shape (e_o q) (e_pt q) (e_js q) (e_orig q) (e_height q) (e_fixed q) H1 HR)
    as (t1 & t2 & s1 & s2 & EC & _ & N1 & N2 & N3 & D1 & D2).
  eexists. split; [exact EC|]. apply two_temps_shape; auto.
  intros i r Hi Hr. destruct (is_only_save (e_o q)); [destruct Hi|].
  destruct (o_validate_frame (e_o q)); cbn in Hi; decompose [or] Hi; subst; cbn in Hr;
    intuition.
Qed.
Lemma exit_temps q :
  o_dry_run (x_o q) <> "empty"%string ->
  request_ok (x_o q) (x_mid q) (exit_dead_set (x_pt q) (x_js q)) ->
  exists c, x_code q = EOk (c, kRegisterMap) /\ two_temps c (x_dead q).
Proof.
  intros HO HR. assert (H1 : is_empty_run (x_o q) = false) by (apply String.eqb_neq; auto).
  destruct (pop_shape (x_o q) (x_pt q) (x_js q) (x_orig q) H1 HR)
    as (t1 & t2 & s1 & s2 & EC & _ & N1 & N2 & N3 & D1 & D2).
  eexists. split; [exact EC|]. apply two_temps_shape; auto.
  intros i r Hi Hr. destruct (is_only_save (x_o q)); [destruct Hi|].
  destruct (o_validate_frame (x_o q)); cbn in Hi; decompose [or] Hi; subst; cbn in Hr;
    intuition.
Qed.
