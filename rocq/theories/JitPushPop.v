(** * JitPushPop: correctness of the stack snippets (jit.cc:190-231, 338-383). *)
From Coq Require Import ZArith List Bool String Lia ZifyBool ZifyNat.
From Verif Require Import Machine MachineFacts Jit ShadowSpec JitFacts.
Import ListNotations.
Open Scope Z_scope.
Ltac Zify.zify_post_hook ::= Z.div_mod_to_equations.

Lemma map_find_name r : r <> RSP -> map_find kRegisterMap (reg_name r) = Some (Some r).
Proof. destruct r; intros H; try reflexivity. congruence. Qed.
Lemma map_index_name r :
  r <> RSP -> map_index kRegisterMap (reg_name r) = (Some r, kRegisterMap).
Proof. intros H. unfold map_index. rewrite map_find_name; auto. Qed.
Lemma reg_name_inj a b : reg_name a = reg_name b -> a = b.
Proof. destruct a, b; cbn; intros H; congruence. Qed.


Definition resolve (o : opts) (omid : option mid) (dead : list string) (height : Z)
  (a : asm) : eres (asm * temps * rmap) :=
  match omid with
  | Some d => use_specified kRegisterMap d height a
  | None => ebind (save_temps o kRegisterMap dead [] height a)
                  (fun at_ => EOk (at_, kRegisterMap))
  end.

Lemma resolve_ok o omid dead height a :
  request_ok o omid dead ->
  exists t1 t2 s1 s2 t3 s3 off',
    resolve o omid dead height a =
      EOk (mkAsm (code a ++ save_frag s1 s2 t1 t2) (nlabel a),
           mkTemps (Some t1) (Some t2) t3 s1 s2 s3 off', kRegisterMap) /\
    off' = request_off omid height + ksaves s1 s2 /\
    ksaves s1 s2 = request_scratch o omid dead /\
    t1 <> RSP /\ t2 <> RSP /\ t1 <> t2 /\
    (s1 = false -> In (reg_name t1) (request_dead o omid dead)) /\
    (s2 = false -> In (reg_name t2) (request_dead o omid dead)).
Proof.
  destruct omid as [d|]; cbn [request_ok request_off request_dead request_scratch resolve].
  - intros [[HC HN]|[HC HN]].
    + destruct HN as [_ HN]. destruct (HN (m_reg1 d)) as (r1 & N1 & E1); [left; auto|].
      unfold mid_dead, use_specified, temps_mid. rewrite E1, map_index_name by auto.
      rewrite HC. cbn [Z.eqb Pos.eqb kRegisterMap].
      destruct (String.eqb "x86_64::r10" (reg_name r1)) eqn:EQ.
      * assert (r1 = R10) as -> by (apply reg_name_inj; apply String.eqb_eq in EQ; auto).
        exists R10, R11, false, true, None, true. eexists.
        split; [reflexivity|]. unfold ksaves. cbn.
        repeat split; try congruence; try lia; auto; discriminate.
      * assert (r1 <> R10) by (intros ->; discriminate).
        exists r1, R10, false, true, None, true. eexists.
        split; [reflexivity|]. unfold ksaves. cbn.
        repeat split; try congruence; try lia; auto; discriminate.
    + destruct HN as [HD HN].
      destruct (HN (m_reg1 d)) as (r1 & N1 & E1); [left; auto|].
      destruct (HN (m_reg2 d)) as (r2 & N2 & E2); [right; left; auto|].
      assert (r1 <> r2).
      { intros ->. rewrite E1, E2 in HD. inversion HD; subst. apply H1. left; auto. }
      unfold mid_dead, use_specified, temps_mid. rewrite E1, map_index_name by auto.
      rewrite HC. cbn [Z.eqb Pos.eqb]. rewrite E2, map_index_name by auto.
      exists r1, r2, false, false, None, true. eexists.
      split; [cbn; rewrite app_nil_r; destruct a; reflexivity|]. unfold ksaves. cbn.
      repeat split; try congruence; try lia; auto.
  - intros H.
    assert (D : ((o_optimize_regs o = false \/ dead = []) /\
                 save_temps o kRegisterMap dead [] height a =
                  EOk (save (Some R11) (save (Some R10)
                        (a, mkTemps (Some R10) (Some R11) None true true true height))))
                \/ (o_optimize_regs o = true /\ names dead /\ (4 <= List.length dead)%nat)).
    { destruct H as [H|[H|[H1 H2]]].
      - left. split; auto. unfold save_temps. cbn. rewrite H. reflexivity.
      - left. split; auto. subst. unfold save_temps. cbn. destruct (o_optimize_regs o); reflexivity.
      - destruct (o_optimize_regs o) eqn:E; auto.
        left. split; auto. unfold save_temps. cbn. rewrite E. reflexivity. }
    destruct D as [[DD D]|(HO & [HD HN] & HL)].
    + assert (DS : (if (o_optimize_regs o && negb (Nat.eqb (List.length dead) 0))%bool then 0 else 16) = 16).
      { destruct DD as [->| ->]; [reflexivity|]. rewrite andb_false_r. reflexivity. }
      rewrite DS. clear DS DD. rewrite D. exists R10, R11, true, true, None, true. eexists.
      split.
      { cbn. unfold emit, add_off. cbn. rewrite <- app_assoc. reflexivity. }
      unfold ksaves. cbn. repeat split; try congruence; lia.
    + destruct dead as [|d0 [|d1 [|d2 [|d3 dr]]]]; cbn in HL; try lia.
      destruct (HN d1) as (r1 & N1 & E1); [cbn; auto|].
      destruct (HN d2) as (r2 & N2 & E2); [cbn; auto|].
      destruct (HN d3) as (r3 & N3 & E3); [cbn; auto|].
      assert (r1 <> r2).
      { intros ->. subst. inversion HD; subst. inversion H3; subst.
        apply H4. left; auto. }
      exists r1, r2, false, false, (Some r3), false. eexists.
      split.
      { unfold save_temps.
        change (temps_default kRegisterMap [] height) with
          (EOk (mkTemps (Some R10) (Some R11) None true true true height)).
        rewrite HO. cbn [orb andb negb ebind]. unfold dead_step.
        cbn [List.length Nat.eqb nth_error ebind]. subst.
        unfold save_or_skip. rewrite !map_find_name by auto.
        cbn [set_t1 set_t2 set_t3 tmp1 tmp2 tmp3 sv1 sv2 sv3 spo save_frag app].
        rewrite app_nil_r. destruct a; reflexivity. }
      rewrite HO. subst. unfold ksaves. cbn. repeat split; try congruence; try lia; auto.
Qed.

(** ** Form of the emitted code *)
Definition push_code s1 s2 t1 t2 off : list instr :=
  save_frag s1 s2 t1 t2 ++ save_ra_frag t1 t2 (off + ksaves s1 s2)
  ++ restore_frag s1 s2 t1 t2.
Definition pop_code s1 s2 t1 t2 off : list instr :=
  save_frag s1 s2 t1 t2 ++ validate_frag t1 t2 (off + ksaves s1 s2) 0 1 2
  ++ restore_frag s1 s2 t1 t2.

Lemma is_empty_plain o : plain o -> is_empty_run o = false.
Proof. intros (H & _ & _). apply String.eqb_neq. auto. Qed.
Lemma is_only_plain o : plain o -> is_only_save o = false.
Proof. intros (_ & H & _). apply String.eqb_neq. auto. Qed.

Lemma restore_code t1 t2 t3 s1 s2 s3 off a :
  code (restore_temps (mkTemps (Some t1) (Some t2) t3 s1 s2 s3 off) a) =
  code a ++ restore_frag s1 s2 t1 t2.
Proof.
  unfold restore_temps, restore_frag, a_pop, with_reg, emit. cbn.
  destruct s1, s2; cbn; rewrite <- ?app_assoc, ?app_nil_r; reflexivity.
Qed.

(** Shape of a stack snippet, before the run-time part is chosen. *)
Lemma push_shape o pt js use_orig height use_fixed :
  is_empty_run o = false ->
  let omid := entry_mid pt js use_orig use_fixed in
  request_ok o omid (j_dead_entry js) ->
  exists t1 t2 s1 s2,
    jit_stack_push o kRegisterMap pt (Some js) use_orig height use_fixed =
      EOk (save_frag s1 s2 t1 t2 ++
           (if is_only_save o then []
            else if o_validate_frame o then
              [IPushfq; IMovRM t2 (MBase RSP (request_off omid height + ksaves s1 s2));
               IMovRM t1 (MGs 0); IAddMI (MGs 0) 16; IMovMR (MBase t1 0) t2;
               ILea t2 RSP 24; IMovMR (MBase t1 8) t2; IPopfq]
            else save_ra_frag t1 t2 (request_off omid height + ksaves s1 s2))
           ++ restore_frag s1 s2 t1 t2, kRegisterMap) /\
    ksaves s1 s2 = request_scratch o omid (j_dead_entry js) /\
    t1 <> RSP /\ t2 <> RSP /\ t1 <> t2 /\
    (s1 = false -> In (reg_name t1) (request_dead o omid (j_dead_entry js))) /\
    (s2 = false -> In (reg_name t2) (request_dead o omid (j_dead_entry js))).
Proof.
  intros HE omid HR.
  destruct (resolve_ok o omid (j_dead_entry js) height asm0 HR)
    as (t1 & t2 & s1 & s2 & t3 & s3 & off' & E & HO & KS & N1 & N2 & N3 & D1 & D2).
  exists t1, t2, s1, s2. split; [|repeat split; auto].
  unfold jit_stack_push. rewrite HE.
  assert (EM : (if use_orig then EOk (zfind (j_entryData js) (p_block pt))
                else if use_fixed then EOk (zfind (j_entryFixed js) (p_edge_trg pt))
                     else EOk None) = EOk omid).
  { unfold omid, entry_mid. destruct use_orig, use_fixed; reflexivity. }
  rewrite EM. cbn [ebind]. unfold resolve in E.
  destruct omid as [d|].
  - rewrite E. cbn [ebind]. rewrite restore_code. subst off'. cbn [tmp1 tmp2].
    destruct (is_only_save o), (o_validate_frame o); cbn; rewrite <- ?app_assoc; reflexivity.
  - rewrite E. cbn [ebind]. rewrite restore_code. subst off'. cbn [tmp1 tmp2].
    destruct (is_only_save o), (o_validate_frame o); cbn; rewrite <- ?app_assoc; reflexivity.
Qed.

Lemma pop_shape o pt js use_orig :
  is_empty_run o = false ->
  let omid := exit_mid pt js use_orig in
  let dead := exit_dead_set pt js in
  request_ok o omid dead ->
  exists t1 t2 s1 s2,
    jit_stack_pop o kRegisterMap pt (Some js) use_orig =
      EOk (save_frag s1 s2 t1 t2 ++
           (if is_only_save o then []
            else if o_validate_frame o then
              [IPushfq; IMovRM t1 (MGs 0); IBind 2; IMovRM t2 (MBase t1 (-16));
               ISubMI (MGs 0) 16; ICmpRM t2 (MBase RSP (request_off omid 0 + ksaves s1 s2));
               IJne 3; ILea t2 RSP (request_off omid 0 + ksaves s1 s2);
               ICmpRM t2 (MBase t1 (-8)); IJe 1; IBind 3; ISubRI t1 16;
               ICmpM32I (MBase t1 0) 0; IJe 0; IJmp 2; IBind 0; IByte 98; IBind 1; IPopfq]
            else validate_frag t1 t2 (request_off omid 0 + ksaves s1 s2) 0 1 2)
           ++ restore_frag s1 s2 t1 t2, kRegisterMap) /\
    ksaves s1 s2 = request_scratch o omid dead /\
    t1 <> RSP /\ t2 <> RSP /\ t1 <> t2 /\
    (s1 = false -> In (reg_name t1) (request_dead o omid dead)) /\
    (s2 = false -> In (reg_name t2) (request_dead o omid dead)).
Proof.
  intros HE omid dead HR.
  destruct (resolve_ok o omid dead 0 asm0 HR)
    as (t1 & t2 & s1 & s2 & t3 & s3 & off' & E & HO & KS & N1 & N2 & N3 & D1 & D2).
  exists t1, t2, s1, s2. split; [|repeat split; auto].
  unfold jit_stack_pop. rewrite HE.
  assert (EM : (if use_orig then EOk (zfind (j_exitData js) (p_block pt)) else EOk None)
               = EOk omid).
  { unfold omid, exit_mid. destruct use_orig; reflexivity. }
  rewrite EM. cbn [ebind]. unfold resolve in E. fold (exit_dead_set pt js). fold dead.
  destruct omid as [d|].
  - rewrite E. cbn [ebind]. rewrite restore_code. subst off'. cbn [tmp1 tmp2].
    destruct (is_only_save o), (o_validate_frame o); cbn; rewrite <- ?app_assoc; reflexivity.
  - rewrite E. cbn [ebind]. rewrite restore_code. subst off'. cbn [tmp1 tmp2].
    destruct (is_only_save o), (o_validate_frame o); cbn; rewrite <- ?app_assoc; reflexivity.
Qed.

(** ** Running the snippets *)
Lemma nth_end (c : list instr) : nth_error c (List.length c) = None.
Proof. apply nth_error_None. lia. Qed.

Lemma code_at_last p f : code_at (p ++ f) (List.length p) f.
Proof. rewrite <- (app_nil_r f) at 1. apply code_at_self. Qed.

Lemma mapped_sub mp a n b k :
  mapped mp a n -> a <= b -> b + k <= a + n -> mapped mp b k.
Proof.
  intros (H1 & H2 & H3) Ha Hb. repeat split; try lia.
  intros x Hx. apply H3. unfold inside in *. lia.
Qed.

Lemma shadow_rep_ext m m' b l :
  shadow_rep m b l ->
  (forall x, inside b (32 + 8 * Z.of_nat (List.length l)) x -> m' x = m x) ->
  shadow_rep m' b l.
Proof.
  intros (H1 & H2 & H3) HE. unfold inside in HE.
  split; [|split].
  - rewrite <- H1. apply load64_ext. intros x Hx. apply HE. lia.
  - rewrite <- H2. apply load64_ext. intros x Hx. apply HE. lia.
  - intros i v Hi. rewrite <- (H3 i v Hi). apply load64_ext.
    assert ((i < List.length l)%nat).
    { rewrite <- rev_length. apply nth_error_Some. congruence. }
    unfold slot. intros x Hx. apply HE. lia.
Qed.

Lemma shadow_rep_push m b l ra :
  0 <= b -> slot b (S (List.length l)) < W ->
  shadow_rep m b l -> 0 <= ra < W ->
  shadow_rep (store64 (store64 m (slot b (List.length l)) ra) b
                      (slot b (List.length l) + 8)) b (ra :: l).
Proof.
  intros HB HW (H1 & H2 & H3) HR. unfold shadow_rep, slot in *.
  split; [|split].
  - cbn [List.length]. rewrite load64_store64_same by lia. lia.
  - rewrite !load64_store64_disj by lia. exact H2.
  - intros i v Hi. cbn [rev] in Hi. rewrite load64_store64_disj by lia.
    destruct (Nat.lt_ge_cases i (List.length l)) as [L|L].
    + rewrite nth_error_app1 in Hi by (rewrite rev_length; auto).
      rewrite load64_store64_disj by lia. apply H3. exact Hi.
    + rewrite nth_error_app2 in Hi by (rewrite rev_length; auto).
      rewrite rev_length in Hi.
      destruct (i - List.length l)%nat eqn:E; [|destruct n; discriminate].
      cbn in Hi. inversion Hi; subst.
      replace i with (List.length l) by lia. apply load64_store64_same. auto.
Qed.

Lemma unwind_suffix ra l l' : unwind ra l = Some l' -> exists p, l = p ++ l'.
Proof.
  revert l'. induction l as [|v l IH]; intros l' H; cbn in H; [discriminate|].
  destruct (v =? ra).
  - inversion H; subst. exists [v]. reflexivity.
  - destruct (IH _ H) as [p ->]. exists (v :: p). reflexivity.
Qed.

Lemma shadow_rep_drop m m' b p l :
  shadow_rep m b (p ++ l) ->
  load64 m' b = slot b (List.length l) ->
  (forall x, inside (b + 8) (24 + 8 * Z.of_nat (List.length l)) x -> m' x = m x) ->
  shadow_rep m' b l.
Proof.
  intros (H1 & H2 & H3) HP HE. unfold inside in HE. split; [|split]; auto.
  - rewrite <- H2. apply load64_ext. intros x Hx. apply HE. lia.
  - intros i v Hi.
    assert ((i < List.length l)%nat).
    { rewrite <- rev_length. apply nth_error_Some. congruence. }
    rewrite <- (H3 i v).
    + apply load64_ext. unfold slot. intros x Hx. apply HE. lia.
    + rewrite rev_app_distr. rewrite nth_error_app1; auto. rewrite rev_length. auto.
Qed.

Definition below (sp x : Z) : Prop := inside (sp - 16) 16 x.

Lemma save_nil_pc s g m b f n : s = mkState g m b f n -> enter s = mkState g m b f 0.
Proof. intros ->. reflexivity. Qed.

Lemma push_run mp s l off k s1 s2 t1 t2 :
  env mp s l off k -> (List.length l < k)%nat ->
  t1 <> RSP -> t2 <> RSP -> t1 <> t2 ->
  exists s',
    exec (push_code s1 s2 t1 t2 off) mp s (Done s') /\
    shadow_rep (mem s') (gs s) (load64 (mem s) (rg s RSP + off) :: l) /\
    (forall r, (r = t1 -> s1 = true) -> (r = t2 -> s2 = true) -> rg s' r = rg s r) /\
    fl s' = fl s /\ gs s' = gs s /\
    (forall x, ~ inside (rg s RSP - ksaves s1 s2) (ksaves s1 s2) x -> ~ inside (gs s) 8 x ->
               ~ inside (slot (gs s) (List.length l)) 8 x -> mem s' x = mem s x).
Proof.
  intros E HK N1 N2 N3.
  destruct E as [[HW HG] HS HO MR HL MG HT HA HR].
  set (c := push_code s1 s2 t1 t2 off).
  set (sp := rg s RSP) in *. set (b := gs s) in *.
  pose proof MG as (G1 & G2 & G3). pose proof HS as (S1 & S2 & S3).
  pose proof MR as (R1 & R2 & R3).
  assert (KS : 0 <= ksaves s1 s2 <= 16) by (unfold ksaves, b2z; destruct s1, s2; lia).
  set (n1 := List.length (save_frag s1 s2 t1 t2)).
  assert (C1 : code_at c 0 (save_frag s1 s2 t1 t2)).
  { exact (code_at_self [] _ _). }
  assert (C2 : code_at c n1 (save_ra_frag t1 t2 (off + ksaves s1 s2))).
  { apply code_at_self. }
  assert (C3 : code_at c (n1 + 5) (restore_frag s1 s2 t1 t2)).
  { unfold c, push_code. rewrite app_assoc.
    replace (n1 + 5)%nat with (List.length (save_frag s1 s2 t1 t2 ++
       save_ra_frag t1 t2 (off + ksaves s1 s2))) by (rewrite app_length; reflexivity).
    apply code_at_last. }
  destruct (save_ok c mp (rg s) (mem s) b (fl s) 0 s1 s2 t1 t2 C1 HS N1 N2 HW)
    as (g1 & m1 & ST1 & RS1 & RO1 & SV1 & ME1). fold n1 sp in ST1, RS1, SV1, ME1.
  cbn [plus] in ST1.
  assert (HR1 : shadow_rep m1 b l).
  { eapply shadow_rep_ext; [exact HR|]. intros x Hx. apply ME1.
    unfold inside, apart in *. lia. }
  assert (SL : slot b (S (List.length l)) < W) by (unfold slot in *; lia).
  pose proof (proj1 HR1) as HP.
  assert (ERA : g1 RSP + (off + ksaves s1 s2) = sp + off) by lia.
  destruct (save_ra_ok c mp g1 m1 b (fl s) n1 t1 t2 (off + ksaves s1 s2)
              (slot b (List.length l))) as (g2 & ST2 & RO2); auto.
  { rewrite ERA. exact MR. }
  { eapply mapped_sub; eauto; lia. }
  { eapply mapped_sub; eauto; unfold slot; lia. }
  { unfold slot in *. lia. }
  rewrite ERA in ST2.
  assert (EL : load64 m1 (sp + off) = load64 (mem s) (sp + off)).
  { apply load64_ext. intros x Hx. apply ME1. unfold inside. lia. }
  rewrite EL in ST2.
  set (ra := load64 (mem s) (sp + off)) in *.
  set (m2 := store64 (store64 m1 (slot b (List.length l)) ra) b
                     (slot b (List.length l) + 8)) in *.
  assert (M2O : forall x, ~ inside b 8 x -> ~ inside (slot b (List.length l)) 8 x ->
                          m2 x = m1 x).
  { intros x X1 X2. unfold m2. unfold inside in *. rewrite !store64_out by lia. auto. }
  assert (SV2 : saved s1 s2 t1 t2 (rg s) m2 sp).
  { destruct SV1 as [V1 V2]. split; intros Hs.
    - rewrite <- (V1 Hs). apply load64_ext. intros x Hx.
      apply M2O; unfold inside, apart, slot in *; lia.
    - rewrite <- (V2 Hs). apply load64_ext. intros x Hx.
      assert (8 <= ksaves s1 s2) by (subst; unfold ksaves, b2z; destruct s1; lia).
      apply M2O; unfold inside, apart, slot in *; lia. }
  destruct (restore_ok c mp g2 m2 b (fl s) (n1 + 5) s1 s2 t1 t2 (rg s) sp)
    as (g3 & ST3 & RS3 & V1 & V2 & RO3); auto.
  { fold sp in HS. lia. }
  { rewrite RO2 by congruence. lia. }
  eexists. split; [|split; [|split; [|split; [|split]]]].
  - eapply steps_done.
    + unfold enter. fold b. eapply steps_trans; [exact ST1|].
      eapply steps_trans; [exact ST2|]. exact ST3.
    + apply st_end. replace (n1 + 5 + List.length (restore_frag s1 s2 t1 t2))%nat
        with (List.length c); [apply nth_end|].
      unfold c, push_code. rewrite !app_length. cbn [save_ra_frag List.length].
      fold n1. lia.
  - cbn [mem]. unfold m2. apply shadow_rep_push; auto. apply load64_range.
  - cbn [rg]. intros r H1 H2.
    destruct (reg_eq_dec r t1) as [->|E1]; [apply V1; auto|].
    destruct (reg_eq_dec r t2) as [->|E2]; [apply V2; auto|].
    destruct (reg_eq_dec r RSP) as [->|E3]; [auto|].
    rewrite RO3, RO2, RO1; auto.
  - reflexivity.
  - reflexivity.
  - cbn [mem]. intros x X1 X2 X3. rewrite M2O; auto.
Qed.

(** Label resolution inside the exit snippet. *)
Lemma pop_labels s1 s2 t1 t2 off :
  let c := pop_code s1 s2 t1 t2 off in
  let n := List.length (save_frag s1 s2 t1 t2) in
  find_label c 0 = Some (n + 10)%nat /\ find_label c 1 = Some (n + 12)%nat /\
  find_label c 2 = Some (n + 1)%nat.
Proof. destruct s1, s2; repeat split. Qed.

Lemma pop_run mp s l off k s1 s2 t1 t2 :
  env mp s l off k -> apart (rg s RSP + off) 8 (gs s) 8 ->
  t1 <> RSP -> t2 <> RSP -> t1 <> t2 ->
  let ra := load64 (mem s) (rg s RSP + off) in
  let c := pop_code s1 s2 t1 t2 off in
  match unwind ra l with
  | Some l' =>
      (clean_above ra l ->
       exists s',
         exec c mp s (Done s') /\
         shadow_rep (mem s') (gs s) l' /\
         (forall r, (r = t1 -> s1 = true) -> (r = t2 -> s2 = true) -> rg s' r = rg s r) /\
         gs s' = gs s /\
         (forall x, ~ inside (rg s RSP - ksaves s1 s2) (ksaves s1 s2) x -> ~ inside (gs s) 8 x -> mem s' x = mem s x)) /\
      (~ clean_above ra l -> exec c mp s Trap)
  | None => ra <> 0 -> exec c mp s Trap
  end.
Proof.
  intros E HAR N1 N2 N3 ra c.
  destruct E as [[HW HG] HS HO MR HL MG HT HA HR].
  set (sp := rg s RSP) in *. set (b := gs s) in *.
  pose proof MG as (G1 & G2 & G3). pose proof HS as (S1 & S2 & S3).
  pose proof MR as (R1 & R2 & R3).
  assert (KS : 0 <= ksaves s1 s2 <= 16) by (unfold ksaves, b2z; destruct s1, s2; lia).
  set (n1 := List.length (save_frag s1 s2 t1 t2)).
  assert (C1 : code_at c 0 (save_frag s1 s2 t1 t2)).
  { exact (code_at_self [] _ _). }
  assert (C2 : code_at c n1 (validate_frag t1 t2 (off + ksaves s1 s2) 0 1 2)).
  { apply code_at_self. }
  assert (C3 : code_at c (n1 + 13) (restore_frag s1 s2 t1 t2)).
  { unfold c, pop_code. rewrite app_assoc.
    replace (n1 + 13)%nat with (List.length (save_frag s1 s2 t1 t2 ++
       validate_frag t1 t2 (off + ksaves s1 s2) 0 1 2)) by (rewrite app_length; reflexivity).
    apply code_at_last. }
  destruct (pop_labels s1 s2 t1 t2 off) as (L0 & L1 & L2). fold c n1 in L0, L1, L2.
  destruct (save_ok c mp (rg s) (mem s) b (fl s) 0 s1 s2 t1 t2 C1 HS N1 N2 HW)
    as (g1 & m1 & ST1 & RS1 & RO1 & SV1 & ME1). fold n1 sp in ST1, RS1, SV1, ME1.
  cbn [plus] in ST1.
  assert (HR1 : shadow_rep m1 b l).
  { eapply shadow_rep_ext; [exact HR|]. intros x Hx. apply ME1.
    unfold inside, apart in *. lia. }
  assert (ERA : g1 RSP + (off + ksaves s1 s2) = sp + off) by lia.
  assert (EL : load64 m1 (sp + off) = ra).
  { apply load64_ext. intros x Hx. apply ME1. unfold inside. lia. }
  pose proof (validate_ok c mp n1 b t1 t2 (off + ksaves s1 s2) 0 1 2 C2 L0 L1 L2 N1 N2 N3)
    as VK.
  specialize (VK ltac:(eapply mapped_sub; eauto; lia) l g1 m1 (fl s) ra HR1).
  specialize (VK ltac:(eapply mapped_sub; eauto; lia) ltac:(unfold slot in *; lia)).
  rewrite ERA in VK. specialize (VK MR HAR EL).
  assert (TR : (exists s', steps c mp (mkState g1 m1 b (fl s) n1) s' /\ step c mp s' = STrap)
               -> exec c mp s Trap).
  { intros (s' & A & B). eapply steps_trap; [|exact B].
    unfold enter. fold b. eapply steps_trans; [exact ST1|exact A]. }
  destruct (unwind ra l) as [l'|] eqn:EU; [|intros Hz; apply TR; auto].
  destruct VK as [V1 V2]. split; [|intros Hc; apply TR; auto].
  intros Hc. destruct (V1 Hc) as (g2 & m2 & f2 & ST2 & RO2 & LP2 & ME2).
  assert (SV2 : saved s1 s2 t1 t2 (rg s) m2 sp).
  { destruct SV1 as [U1 U2]. split; intros Hs.
    - rewrite <- (U1 Hs). apply load64_ext. intros x Hx.
      apply ME2; unfold inside, apart, slot in *; lia.
    - rewrite <- (U2 Hs). apply load64_ext. intros x Hx.
      assert (8 <= ksaves s1 s2) by (subst; unfold ksaves, b2z; destruct s1; lia).
      apply ME2; unfold inside, apart, slot in *; lia. }
  destruct (restore_ok c mp g2 m2 b f2 (n1 + 13) s1 s2 t1 t2 (rg s) sp)
    as (g3 & ST3 & RS3 & U1 & U2 & RO3); auto.
  { fold sp in HS. lia. }
  { rewrite RO2 by congruence. lia. }
  eexists. split; [|split; [|split; [|split]]].
  - eapply steps_done.
    + unfold enter. fold b. eapply steps_trans; [exact ST1|].
      eapply steps_trans; [exact ST2|]. exact ST3.
    + apply st_end. replace (n1 + 13 + List.length (restore_frag s1 s2 t1 t2))%nat
        with (List.length c); [apply nth_end|].
      unfold c, pop_code. rewrite !app_length. cbn [validate_frag List.length].
      fold n1. lia.
  - cbn [mem]. destruct (unwind_suffix _ _ _ EU) as [p EP].
    eapply (shadow_rep_drop m1 m2 b p l').
    + rewrite <- EP. exact HR1.
    + exact LP2.
    + intros x Hx. apply ME2. unfold inside in *. lia.
  - cbn [rg]. intros r H1 H2.
    destruct (reg_eq_dec r t1) as [->|E1]; [apply U1; auto|].
    destruct (reg_eq_dec r t2) as [->|E2]; [apply U2; auto|].
    destruct (reg_eq_dec r RSP) as [->|E3]; [auto|].
    rewrite RO3, RO2, RO1; auto.
  - reflexivity.
  - cbn [mem]. intros x X1 X2. rewrite ME2; auto.
Qed.
