(** * Property C76: what the options turn off *)
From Coq Require Import ZArith Bool Lia ZifyBool ZifyNat Arith String List.
From Verif Require Import Machine Jit ShadowSpec History Witness.
From Verif Require Import Dfs Binary CallGraph InterProc MemPasses Pipeline RegNames BlockLive ExSem
  Reach SafePaths Lowering FastPath Decision FullRun Sites SiteEx P_Instr P_Sites.
Import ListNotations.
Open Scope Z_scope.

(** AddInlineHint, instrument.cc:567-573, behind Skippable (729-732). *)
Definition inline_hint (fl : flags) (addr : Z) (os : option summary) : bool :=
  fl_light fl && negb (skippable fl addr os) && negb (fl_no_inline fl) &&
  negb (match os with Some s => sum_safe s | None => false end).

(** ** C76: what is inserted into an analysed function under each option *)
Section C76.
Variables (co : code) (fn : nat) (s : summary) (o : opts) (d : dead_info).
Notation addr := (f_addr (co_fun co fn)).
Notation entry := (f_entry (co_fun co fn)).
Definition inserted (fl : flags) : list (place * snip) := plan_sites co fl o d s fn (instr fl co fn (Some s)).
(** Places in the code as it was, without copies of blocks and without code on edges. *)
Definition original (pl : place) : Prop :=
  match pl with
  | OnEdge _ => False
  | AtStart n | AtEnd n | BeforeInsn n _ => fst n = false
  | AtEntry => True
  end.
Definition is_spush (x : place * snip) : bool := match snd x with StackPush _ | RegPush _ _ => true | _ => false end.
Definition in_register (sn : snip) : Prop := match sn with RegPush _ _ | RegPop _ => True | _ => False end.
(** Code at the borders of blocks and functions that saves and restores the registers it uses. *)
Definition unmoved (x : place * snip) : Prop :=
  match snd x with
  | StackPush q => e_orig q = false /\ e_fixed q = false
  | StackPop q => x_orig q = false
  | _ => True
  end /\ match fst x with BeforeInsn _ _ => False | _ => True end.
(** No edge leads back to the entry of the function. *)
Definition entered_once : Prop :=
  forall b e, In b (f_blocks (co_fun co fn)) -> In e (b_targets (co_block co b)) ->
    e_sink e = false -> e_inter e = false -> e_trg e <> entry.
Definition calls_nothing : Prop := s_callees s = [] /\ s_unknown_cf s = false /\ s_plt_calls s = [].

Lemma entered_iff : in_sources co (f_blocks (co_fun co fn)) entry = [] <-> entered_once.
Proof.
  split.
  - intros H b e HB HE NS NI E. assert (K : In b (in_sources co (f_blocks (co_fun co fn)) entry)).
    { unfold in_sources. apply in_flat_map. exists b. split; auto. apply in_map_iff. exists e. split; auto.
      apply filter_In. split; [|apply Nat.eqb_eq; auto]. apply filter_In. split; auto. unfold bp_edge. rewrite NS, NI. reflexivity. }
    rewrite H in K. contradiction.
  - intros H. destruct (in_sources _ _ _) as [|b r] eqn:E; auto. exfalso.
    assert (K : In b (in_sources co (f_blocks (co_fun co fn)) entry)) by (rewrite E; left; auto).
    unfold in_sources in K. apply in_flat_map in K. destruct K as (a & HA & K). apply in_map_iff in K. destruct K as (e & -> & K).
    apply filter_In in K. destruct K as (K & T). apply filter_In in K. destruct K as (K & B). unfold bp_edge in B.
    rewrite andb_true_iff, !negb_true_iff in B. destruct B. apply (H b e); auto. apply Nat.eqb_eq. exact T.
Qed.
Lemma not_lowered fl : fl_no_lowering fl = true -> lower co fl fn s = NotLowered /\ fast_path co fl fn = None.
Proof. intros H. unfold lower, fast_path. rewrite H. auto. Qed.
Lemma instr_cases fl : fl_light fl = true ->
  instr fl co fn (Some s) = Untouched \/
  (skippable fl addr (Some s) = false /\ (
    (exists l, lower co fl fn s = Lowered l /\ instr fl co fn (Some s) = ByLowering l) \/
    (lower co fl fn s = LAbort /\ instr fl co fn (Some s) = PAbort) \/ (lower co fl fn s = LNoFuel /\ instr fl co fn (Some s) = PNoFuel) \/
    (lower co fl fn s = NotLowered /\ use_reg fl s = true /\ instr fl co fn (Some s) = ByEntry false (returning_pops co fn) true) \/
    (lower co fl fn s = NotLowered /\ use_reg fl s = false /\ exists a b c, fast_path co fl fn = Some (a, b, c) /\
       instr fl co fn (Some s) = ByFastPath a b c) \/
    (lower co fl fn s = NotLowered /\ use_reg fl s = false /\ fast_path co fl fn = None /\
       instr fl co fn (Some s) = ByEntry (entry_moved fl co fn s) (returning_pops co fn) false))).
Proof.
  intros L. unfold instr. rewrite L. destruct (skippable _ _ _); [left; auto|]. right. split; auto.
  destruct (lower co fl fn s) as [|l| |]; eauto 8.
  - destruct (use_reg fl s); [do 3 right; left; auto|]. destruct (fast_path co fl fn) as [[[a b] c]|]; [|do 5 right; auto].
    do 4 right. left. split; auto. split; auto. exists a, b, c. auto.
Qed.
Lemma pop_plain fl clone b : fl_no_reg_save fl = true -> unmoved (pop_site co fl o d s clone false b).
Proof. intros H. unfold pop_site, opt_mid. rewrite H. split; cbn; auto. Qed.
Lemma pop_place fl reg b : original (fst (pop_site co fl o d s false reg b)).
Proof. unfold pop_site. destruct reg; cbn; auto. destruct (opt_mid _ _ _); cbn; auto. Qed.
Lemma pop_kind fl clone b : ~ in_register (snd (pop_site co fl o d s clone false b)).
Proof. unfold pop_site. destruct (opt_mid _ _ _); cbn; auto. Qed.
Lemma pop_reg fl clone b : in_register (snd (pop_site co fl o d s clone true b)).
Proof. exact I. Qed.
Lemma pop_push fl clone reg b : is_spush (pop_site co fl o d s clone reg b) = false.
Proof. unfold pop_site. destruct reg; [reflexivity|]. destruct (opt_mid _ _ _); reflexivity. Qed.
Lemma pops_filter fl clone reg ps : filter is_spush (map (pop_site co fl o d s clone reg) ps) = [].
Proof. induction ps as [|b ps IH]; cbn [map filter]; auto. rewrite pop_push. exact IH. Qed.
Lemma low_reg fl l : lower co fl fn s = Lowered l -> l_reg l = use_reg fl s.
Proof.
  unfold lower. destruct (_ || _ || _)%bool; [discriminate|]. destruct (redir _ _ _ _ _) as [[red vis]|]; [|discriminate].
  destruct (negb (forallb _ _)); [discriminate|]. destruct (_ && _ && _)%bool; [discriminate|].
  destruct (mark _ _ _ _ _); [|discriminate]. destruct (_ && _)%bool; [discriminate|]. intros H. injection H as <-. reflexivity.
Qed.

Theorem C76_options fl : fl_light fl = true ->
  (fl_no_lowering fl = true ->
     (forall pl sn, In (pl, sn) (inserted fl) -> original pl) /\
     (inserted fl = [] \/ exists pl sn, filter is_spush (inserted fl) = [(pl, sn)] /\ (pl = AtEntry \/ exists a, pl = BeforeInsn (false, entry) a))) /\
  (fl_no_reg_frame fl = true -> forall pl sn, In (pl, sn) (inserted fl) -> ~ in_register sn) /\
  (fl_no_reg_save fl = true -> forall x, In x (inserted fl) -> unmoved x) /\
  (fl_no_sfe fl = true -> instr fl co fn (Some s) <> Untouched) /\
  (fl_no_inline fl = true -> inline_hint fl addr (Some s) = false) /\
  (fl_no_lowering fl = true -> fl_no_reg_frame fl = true -> fl_no_reg_save fl = true -> fl_no_sfe fl = true ->
     instr fl co fn (Some s) = instr (mkFlags false false false false false false [] false) co fn None /\
     forall x, In x (inserted fl) -> unmoved x /\ original (fst x) /\ ~ in_register (snd x)).
Proof.
  intros L.
  assert (P1 : fl_no_lowering fl = true ->
     (forall pl sn, In (pl, sn) (inserted fl) -> original pl) /\
     (inserted fl = [] \/ exists pl sn, filter is_spush (inserted fl) = [(pl, sn)] /\ (pl = AtEntry \/ exists a, pl = BeforeInsn (false, entry) a))).
  { intros H. destruct (not_lowered fl H) as (NL & NF). unfold inserted.
    destruct (instr_cases fl L) as [E|(_ & [(l & K & _)|[(K & _)|[(K & _)|[(_ & _ & E)|[(_ & _ & a & b & c & K & _)|(_ & _ & _ & E)]]]]])];
      try (rewrite NL in K; discriminate); try (rewrite NF in K; discriminate).
    - rewrite E. cbn [plan_sites]. split; [contradiction|left; auto].
    - rewrite E. cbn [plan_sites entry_site]. split.
      + intros pl sn [K|K]; [injection K as <- _; exact I|]. apply in_map_iff in K. destruct K as (b & K & _).
        generalize (pop_place fl true b). rewrite K. auto.
      + right. cbn [filter is_spush snd]. rewrite pops_filter. eauto 6.
    - rewrite E. cbn [plan_sites entry_site]. split.
      + intros pl sn [K|K].
        * destruct (entry_moved _ _ _ _); [destruct (zfind _ _)|]; injection K as <- _; exact I || reflexivity.
        * apply in_map_iff in K. destruct K as (b & K & _). generalize (pop_place fl false b). rewrite K. auto.
      + right. cbn [filter]. rewrite pops_filter.
        destruct (entry_moved _ _ _ _); [destruct (zfind _ _) as [mm|]|]; cbn [is_spush snd]; eauto 7. }
  assert (P2 : fl_no_reg_frame fl = true -> forall pl sn, In (pl, sn) (inserted fl) -> ~ in_register sn).
  { intros H pl sn. assert (U : use_reg fl s = false) by (unfold use_reg; rewrite H; apply andb_false_r). unfold inserted.
    destruct (instr_cases fl L) as [E|(_ & [(l & K & E)|[(_ & E)|[(_ & E)|[(_ & K & _)|[(_ & _ & a & b & c & _ & E)|(_ & _ & _ & E)]]]]])];
      try (rewrite E; cbn [plan_sites]; contradiction); [| |rewrite E|rewrite E].
    - rewrite E. cbn [plan_sites]. unfold lowered_sites. rewrite (low_reg fl l K), U. rewrite !in_app_iff, !in_map_iff.
      intros [(x & J & _)|[(x & J & _)|(x & J & _)]].
      + unfold edge_site in J. injection J as _ <-. cbn. auto.
      + unfold block_site in J. destruct (opt_mid _ _ _); injection J as _ <-; cbn; auto.
      + generalize (pop_kind fl true x). rewrite J. auto.
    - congruence.
    - cbn [plan_sites]. intros [J|J].
      + unfold slow_site in J. destruct (opt_mid _ _ _); injection J as _ <-; cbn; auto.
      + apply in_map_iff in J. destruct J as (x & J & _). generalize (pop_kind fl false x). rewrite J. auto.
    - cbn [plan_sites]. intros [J|J].
      + unfold entry_site in J. destruct (entry_moved _ _ _ _); [destruct (zfind _ _)|]; injection J as _ <-; cbn; auto.
      + apply in_map_iff in J. destruct J as (x & J & _). generalize (pop_kind fl false x). rewrite J. auto. }
  assert (P3 : fl_no_reg_save fl = true -> forall x, In x (inserted fl) -> unmoved x).
  { intros H x. assert (ME : entry_moved fl co fn s = false) by (unfold entry_moved; rewrite H; reflexivity). unfold inserted.
    assert (PP : forall clone reg b, unmoved (pop_site co fl o d s clone reg b)).
    { intros clone [] b; [split; exact I|apply pop_plain; auto]. }
    destruct (instr_cases fl L) as [E|(_ & [(l & K & E)|[(_ & E)|[(_ & E)|[(_ & K & E)|[(_ & _ & a & b & c & _ & E)|(_ & _ & _ & E)]]]]])];
      rewrite E; try (cbn [plan_sites]; contradiction); cbn [plan_sites].
    - unfold lowered_sites. rewrite !in_app_iff, !in_map_iff.
      intros [(y & <- & _)|[(y & <- & _)|(y & <- & _)]]; [| |apply PP].
      + unfold edge_site, opt_mid. rewrite H. destruct (l_reg l); split; cbn; auto.
      + unfold block_site, opt_mid. rewrite H. destruct (l_reg l); split; cbn; auto.
    - intros [<-|J]; [split; exact I|]. apply in_map_iff in J. destruct J as (y & <- & _). apply PP.
    - intros [<-|J]; [unfold slow_site, opt_mid; rewrite H; split; cbn; auto|]. apply in_map_iff in J. destruct J as (y & <- & _). apply PP.
    - rewrite ME. intros [<-|J]; [split; cbn; auto|]. apply in_map_iff in J. destruct J as (y & <- & _). apply PP. }
  assert (P4 : fl_no_sfe fl = true -> instr fl co fn (Some s) <> Untouched).
  { intros H K. apply C38_untouched in K. destruct K as (_ & K & _). congruence. }
  split; [exact P1|]. split; [exact P2|]. split; [exact P3|]. split; [exact P4|]. split.
  - intros H. unfold inline_hint. rewrite H. rewrite andb_false_r. reflexivity.
  - intros H1 H2 H3 H4. split.
    + destruct (not_lowered fl H1) as (NL & NF). assert (ME : entry_moved fl co fn s = false) by (unfold entry_moved; rewrite H3; reflexivity).
      assert (U : use_reg fl s = false) by (unfold use_reg; rewrite H2; apply andb_false_r).
      assert (SK : skippable fl addr (Some s) = false) by (unfold skippable; rewrite H4; reflexivity).
      unfold instr. rewrite L, SK, NL, U, NF, ME. reflexivity.
    + intros x Hx. split; [apply P3; auto|]. destruct x as [pl sn]. split; [apply (proj1 (P1 H1) pl sn Hx)|apply (P2 H2 pl sn Hx)].
Qed.

(** Without the option, the optimisation is used wherever it can be. *)
Theorem C76_used fl : fl_light fl = true ->
  (fl_no_sfe fl = false -> s_writes s = false \/ In addr (fl_skip fl) ->
     inserted fl = [] /\ inline_hint fl addr (Some s) = false) /\
  (instr fl co fn (Some s) <> Untouched ->
     (fl_no_reg_frame fl = false -> calls_nothing -> s_unused s <> [] ->
        (forall pl sn, In (pl, sn) (inserted fl) -> in_register sn) /\
        (fl_no_lowering fl = true -> exists js, In (AtEntry, RegPush js 0) (inserted fl))) /\
     (forall m, fl_no_reg_save fl = false -> fl_no_lowering fl = true -> fl_no_reg_frame fl = true -> entered_once ->
        zfind (s_entryData s) (b_start (co_block co entry)) = Some m ->
        exists q, filter is_spush (inserted fl) = [(BeforeInsn (false, entry) (m_addr m), StackPush q)]) /\
     (fl_no_inline fl = false -> s_writes s = true -> inline_hint fl addr (Some s) = true)).
Proof.
  intros L. split.
  { intros H K. assert (SK : skippable fl addr (Some s) = true).
    { unfold skippable, sum_safe. rewrite H. destruct K as [K|K]; [rewrite K; reflexivity|].
      destruct (negb (s_writes s)); [reflexivity|]. apply existsb_exists. exists addr. split; auto. apply Z.eqb_refl. }
    unfold inserted, instr, inline_hint. rewrite L, SK. split; reflexivity. }
  intros NU. assert (SK : skippable fl addr (Some s) = false).
  { destruct (skippable fl addr (Some s)) eqn:E; auto. destruct NU. unfold instr. rewrite L, E. reflexivity. }
  split; [|split].
  - intros H (C1 & C2 & C3) U.
    assert (UR : use_reg fl s = true).
    { unfold use_reg, use_reg_frame. rewrite C1, C2, C3, H. destruct (s_unused s); [contradiction|reflexivity]. }
    unfold inserted. split.
    + intros pl sn.
      destruct (instr_cases fl L) as [E|(_ & [(l & K & E)|[(_ & E)|[(_ & E)|[(_ & K & E)|[(_ & K & _)|(_ & K & _)]]]]])]; try congruence;
        rewrite E; cbn [plan_sites]; try contradiction.
      * unfold lowered_sites. rewrite (low_reg fl l K), UR. rewrite !in_app_iff, !in_map_iff.
        intros [(x & J & _)|[(x & J & _)|(x & J & _)]]; injection J as _ <-; exact I.
      * intros [J|J]; [injection J as _ <-; exact I|]. apply in_map_iff in J. destruct J as (x & J & _). injection J as _ <-. exact I.
    + intros H2. destruct (not_lowered fl H2) as (NL & _). unfold instr. rewrite L, SK, NL, UR. cbn [plan_sites entry_site].
      eexists. left. reflexivity.
  - intros m H1 H2 H3 EO F. destruct (not_lowered fl H2) as (NL & NF).
    assert (U : use_reg fl s = false) by (unfold use_reg; rewrite H3; apply andb_false_r).
    assert (ME : entry_moved fl co fn s = true).
    { unfold entry_moved. rewrite H1, F. rewrite (proj2 entered_iff EO). reflexivity. }
    unfold inserted, instr. rewrite L, SK, NL, U, NF, ME. cbn [plan_sites entry_site]. unfold startof. rewrite F.
    cbn [filter is_spush snd]. rewrite pops_filter. eauto.
  - intros H W. unfold inline_hint. rewrite L, SK, H. unfold sum_safe. rewrite W. reflexivity.
Qed.
End C76.
Print Assumptions C76_options.
Print Assumptions C76_used.

(** The function of C57's examples: a register frame on an edge; a push on the edge; a push in the
    entry block; a push at the entry. *)
Definition only (lo rf rs : bool) : flags := mkFlags lo rf rs false false true [] false.
Example C76_case :
  let sm := ssum (c_frame true) 0%nat in
  let ins fl := inserted (c_frame true) 0 sm wopts no_dead fl in
  (exists h, hd_error (ins fl_plain) = Some (OnEdge (0, 0)%nat, RegPush (jsum_of no_dead sm) h)) /\
  (exists q, hd_error (ins (only false true false)) = Some (OnEdge (0, 0)%nat, StackPush q)) /\
  (exists q, hd_error (ins (only true true false)) = Some (BeforeInsn (false, 0%nat) 4097, StackPush q)) /\
  (exists q, hd_error (ins (only true true true)) = Some (AtEntry, StackPush q)) /\
  calls_nothing sm /\ s_unused sm <> [] /\ instr fl_plain (c_frame true) 0 (Some sm) <> Untouched /\
  inline_hint fl_plain (f_addr (co_fun (c_frame true) 0%nat)) (Some sm) = true.
Proof.
  cbv zeta. split; [eexists; vm_compute; reflexivity|]. split; [eexists; vm_compute; reflexivity|].
  split; [eexists; vm_compute; reflexivity|]. split; [eexists; vm_compute; reflexivity|].
  split; [split; [|split]; vm_compute; reflexivity|]. split; [vm_compute; discriminate|]. split; [vm_compute; discriminate|reflexivity].
Qed.
