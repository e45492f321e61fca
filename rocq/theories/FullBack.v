(** * FullBack: what an instrumented program does, the program does
    The other direction of FullSame.v: from executions with inserted code to executions without. *)
From Coq Require Import ZArith Bool Lia ZifyBool ZifyNat Arith String List.
From Verif Require Import Machine MachineFacts Jit ShadowSpec JitFacts JitPushPop History.
From Verif Require Import Dfs Binary CallGraph InterProc MemPasses Pipeline RegNames BlockLive
  Reach SafePaths Lowering P_Lower FastPath Decision P_Instr FullRun Whole P_Whole Sites P_Sites Order Activation PlanCode ActRun FullMode
  Tree TreeFacts FullExec FullExecFacts FullSame.
Import ListNotations.
Open Scope Z_scope.
Local Notation mem := Machine.mem.

Section SPEC.
Variables (co : code) (fs : list finfo).
Variables (base : Z) (k : nat) (X : Type).
Variable sem : insn -> pst Machine.flags X -> option (pst Machine.flags X).
Variable L : Type.
Variable lib : L -> pst Machine.flags X -> option (pst Machine.flags X).
Variable ac : access X L.
Notation pstate := (pst Machine.flags X).
(** Whether an action is possible, and what it accesses, does not depend on what inserted code has
    touched. *)
Definition ready (g : ghost) (x : action L) (p : pstate) : Prop :=
  forall q, alike_to X g p q -> act_on X sem L lib x q <> None ->
    act_on X sem L lib x p <> None /\ (forall a, reads ac x p a = true -> g_ok g a = true) /\
    (tests ac x p = true -> g_fl g = true) /\ (forall a, writes ac x p a = true -> reserved base k a = false).
(** A program that does not rely on anything that inserted code touches, and at the end of a
    function has its return address in place. *)
Definition careful (g : ghost) (p : pstate) (fr : list frame) : Prop :=
  match fr with
  | mkFrame (Some a) _ :: _ =>
      match a_its a with
      | Ins _ i :: _ => i_op i <> OCall -> ready g (inl i) p
      | [] => can_return fs (a_fn a) = true -> returning_exit co (a_fn a) (a_last a) ->
          (forall b, within (p_rg p RSP) 8 b = true -> g_ok g b = true) /\ word_at X p = a_ra a
      | _ => True
      end
  | mkFrame None _ :: _ => forall x, ready g (inr x) p
  | [] => True
  end.
(** Without the two words below rsp, and the flags. *)
Definition dimmed (p : pstate) (g : ghost) : ghost :=
  mkGhost (fun a => g_ok g a && negb (within (p_rg p RSP - 16) 16 a)) false.
Definition low_calls (tr : list (event L)) : Prop := forall f ra, In (CallTo f ra) tr -> ra mod 2 ^ 32 <> 0.
End SPEC.

Lemma rep_nil base mm l : shadow_rep mm base [] -> shadow_rep mm base l -> l = [].
Proof.
  intros (A & _) (B & _). rewrite A in B. unfold ShadowSpec.slot in B. cbn [List.length] in B. destruct l; [reflexivity|]. cbn [List.length] in B. lia.
Qed.
Section BACK.
Variables (co : code) (fl : Lowering.flags) (fs : list finfo) (m : sums).
Variables (o : opts) (mp : perm) (base : Z) (k : nat) (usable : Z -> Prop) (X : Type).
Variable sem : insn -> pst Machine.flags X -> option (pst Machine.flags X).
Variable L : Type.
Variable lib : L -> pst Machine.flags X -> option (pst Machine.flags X).
Variable throws : bool.
Variable ac : access X L.
Notation pstate := (pst Machine.flags X).
Notation rep p l := (shadow_rep (p_mem p) base l).
Hypothesis PA : parsed co fs.
Hypothesis NL : fl_light fl = false.
Hypothesis TE : forall g, own co g -> terminal_exits co g.
Hypothesis RL : forall g, own co g -> ret_last co g.
Hypothesis PL : plain o.
Hypothesis SP : spaces mp base k usable.
Hypothesis DS : described X sem L lib ac.
Notation stepo := (step co fl fs m false o mp base k usable X sem L lib throws).
Notation stepi := (step co fl fs m true o mp base k usable X sem L lib throws).
Notation beginso := (begins co fl fs m false o).
Notation beginsi := (begins co fl fs m true o).
Notation check_at := (check_at co o).
Notation reserved := (reserved base k).
Notation alike_to := (alike_to X).
Notation same_items := (same_items co fs o).
Notation fr_sim := (fr_sim co fs o).
Notation related := (related co fs o base k usable X).
Notation careful := (careful co fs base k X sem L lib ac).
Notation tidy_step := (tidy_step fs base k X L ac).

(** ** The code *)
Lemma goes_on_back g last its' : own co g -> goes_on co fl fs m true o g last its' ->
  exists its, goes_on co fl fs m false o g last its /\ same_items g last its its' /\ Forall bare its /\ In last (f_blocks (co_fun co g)).
Proof.
  intros HG (b & ks & path & sl & HB & OB & SG & ->).
  assert (SG0 : segs co Untouched (false, b) ks = Some sl).
  { rewrite (plan_is co fl fs m PA NL g HG) in SG. destruct (can_return fs g); [rewrite segs_full in SG|]; exact SG. }
  assert (GO : goes_on co fl fs m false o g last (flat_map (seg_items co []) sl)).
  { exists b, ks, path, sl. auto. }
  exists (flat_map (seg_items co []) sl). split; [exact GO|].
  destruct (goes_on_same co fl fs m o PA NL TE RL g last _ HG GO) as (_ & _ & _ & B3 & B4).
  split; [|auto]. unfold FullSame.same_items, sites_of. rewrite (plan_is co fl fs m PA NL g HG). destruct (can_return fs g); [|rewrite app_nil_r; reflexivity].
  destruct (full_body co fs o PA TE RL g HG ks b sl last path ltac:(rewrite segs_full; exact SG0) HB OB) as (mid & M1 & M2 & _ & sl0 & M3 & M4).
  cbn [full_plan]. rewrite M1. assert (E : sl0 = sl) by congruence. subst sl0. rewrite <- M4. reflexivity.
Qed.
Lemma begins_back g ra a' : beginsi g ra a' ->
  exists its its0, beginso g ra (mkAct g (a_last a') ra false its) /\ same_items g (a_last a') its its0 /\
    a' = mkAct g (a_last a') ra false (if can_return fs g then Snip (StackPush (full_entry o co g)) :: its0 else its0) /\
    Forall bare its /\ own co g /\ In (a_last a') (f_blocks (co_fun co g)).
Proof.
  intros (HG & ks & path & last & its' & OB & IT & ->). cbn [a_last].
  destruct (p_fn _ _ PA g HG) as (FO & _). unfold plan_items, sites_of in IT. rewrite (plan_is co fl fs m PA NL g HG) in IT.
  assert (SG : exists sl, segs co Untouched (false, f_entry (co_fun co g)) ks = Some sl /\
    its' = if can_return fs g then map Snip (snips (full_sites o co g) AtEntry) ++ flat_map (seg_items co (full_sites o co g)) sl
           else flat_map (seg_items co []) sl).
  { destruct (can_return fs g).
    - cbn [full_plan] in IT. fold (full_plan co g) in IT. rewrite segs_full in IT.
      destruct (segs co Untouched _ ks) as [sl|]; [|discriminate]. exists sl. split; [auto|]. cbn [option_map] in IT. congruence.
    - destruct (segs co Untouched _ ks) as [sl|]; [|discriminate]. exists sl. split; [auto|]. cbn [option_map snips filter map app] in IT. congruence. }
  destruct SG as (sl & SG & EI).
  assert (BG : beginso g ra (mkAct g last ra false (flat_map (seg_items co []) sl))).
  { split; [auto|]. exists ks, path, last, (flat_map (seg_items co []) sl). split; [auto|]. split; [|reflexivity].
    unfold plan_items, sites_of, plan_of. rewrite SG. reflexivity. }
  assert (GO : goes_on co fl fs m true o g last (flat_map (seg_items co (sites_of co fl fs m true o g)) sl)).
  { exists (f_entry (co_fun co g)), ks, path, sl. split; [apply FO|]. split; [auto|]. split; [|reflexivity].
    rewrite (plan_is co fl fs m PA NL g HG). destruct (can_return fs g); [rewrite segs_full|]; exact SG. }
  destruct (begins_same co fl fs m o PA NL TE RL g ra _ BG) as (_ & _ & _ & _ & BR & _ & IL). cbn [a_last a_its] in BR, IL.
  exists (flat_map (seg_items co []) sl).
  unfold FullSame.same_items in *. destruct (can_return fs g) eqn:CR.
  - assert (ES : snips (full_sites o co g) AtEntry = [StackPush (full_entry o co g)]).
    { unfold full_sites. set (l := map _ _). change (_ :: l) with ([(AtEntry, StackPush (full_entry o co g))] ++ l).
      rewrite snips_app, (snips_none l). { reflexivity. }
      intros q Hq. apply in_map_iff in Hq. destruct Hq as (z & <- & _). discriminate. }
    rewrite ES in EI. cbn [map app] in EI.
    destruct (full_body co fs o PA TE RL g HG ks _ sl last path ltac:(rewrite segs_full; exact SG) (proj1 FO) OB) as (mid & M1 & M2 & _ & sl0 & M3 & M4).
    assert (E : sl0 = sl) by congruence. subst sl0.
    exists (flat_map (seg_items co (full_sites o co g)) sl). split; [auto|]. split; [rewrite M1, M4; reflexivity|]. split; [rewrite EI; reflexivity|auto].
  - exists (flat_map (seg_items co []) sl). split; [auto|]. split; [rewrite app_nil_r; reflexivity|]. split; [rewrite EI; reflexivity|auto].
Qed.

(** ** Within inserted code *)
(** About to record the return address. *)
Definition entering (g : ghost) (p : pstate) (fr : list frame) (q : pstate) (fr' : list frame) : Prop :=
  exists a r r' its0, fr = mkFrame (Some a) [] :: r /\
    fr' = mkFrame (Some (mkAct (a_fn a) (a_last a) (a_ra a) false (Snip (StackPush (full_entry o co (a_fn a))) :: its0))) [] :: r' /\
    related g p r q r' /\ (List.length (addresses r') < k)%nat /\
    own co (a_fn a) /\ In (a_last a) (f_blocks (co_fun co (a_fn a))) /\ a_rec a = false /\ Forall bare (a_its a) /\
    can_return fs (a_fn a) = true /\ low (a_ra a) /\ word_at X q = a_ra a /\ same_items (a_fn a) (a_last a) (a_its a) its0 /\
    (forall y, g_ok g y = true -> within (p_rg p RSP - 16) 16 y = false).
(** The check is passed. *)
Definition checked (g : ghost) (p : pstate) (fr : list frame) (q : pstate) (fr' : list frame) : Prop :=
  exists a r old' r' l', fr = mkFrame (Some a) [] :: r /\
    fr' = mkFrame (Some (mkAct (a_fn a) (a_last a) (a_ra a) true [])) old' :: r' /\ a_its a = [] /\
    alike_to (dimmed X p g) p q /\ (forall y, g_ok g y = true -> reserved y = false) /\
    (forall y, within (p_rg p RSP) 8 y = true -> g_ok g y = true) /\ word_at X p = a_ra a /\ word_at X q = a_ra a /\
    can_return fs (a_fn a) = true /\ low (a_ra a) /\ Forall low old' /\ Forall2 fr_sim r r' /\ bottomed r' /\
    wfp X q /\ usable (p_rg q RSP) /\ unwind (a_ra a) (addresses fr') = Some l' /\ rep q l' /\ (List.length l' < k)%nat.
Definition phase (g : ghost) (p : pstate) (fr : list frame) (q : pstate) (fr' : list frame) : Prop :=
  rep p [] /\ (related g p fr q fr' \/ entering g p fr q fr' \/ checked g p fr q fr').

Lemma does_back g x p q q' l : alike_to g p q -> (forall a, g_ok g a = true -> reserved a = false) ->
  rep p [] -> rep q l -> (List.length l <= k)%nat ->
  ready base k X sem L lib ac g x p -> act_on X sem L lib x q = Some q' -> good base usable X q q' ->
  exists p' g', act_on X sem L lib x p = Some p' /\ good base usable X p p' /\ does base k X L ac g x p g' /\ alike_to g' p' q' /\
    (forall a, g_ok g' a = true -> reserved a = false) /\ rep p' [].
Proof.
  intros AL OK RP RQ LN RD AO (W1 & W2 & W3). destruct (RD q AL) as (N & D1 & D2 & D3); [congruence|].
  destruct (act_on X sem L lib x p) as [p'|] eqn:AP; [|contradiction]. pose proof AL as (A1 & A2 & A3 & A4).
  destruct (d_same _ _ _ _ _ DS x p q p' AP A1 A2) as (WE & q2 & Q1 & Q2 & Q3 & Q4 & Q5); [auto|auto|].
  assert (E : q2 = q') by congruence. subst q2.
  assert (KS : keeps_shadow X base p p').
  { intros l0 R. assert (EL : l0 = []) by (eapply rep_nil; eauto). subst l0.
    apply shadow_rep_ext with (m := p_mem p); [exact R|]. intros y Hy.
    apply (d_frame _ _ _ _ _ DS x p p' y AP). destruct (writes ac x p y) eqn:WR; auto. exfalso.
    apply D3 in WR. apply (proj1 (reserved_inside base k y)) in WR. apply WR. unfold inside in *. cbn [List.length] in Hy. lia. }
  assert (WP : wfp X p') by (intros r; rewrite <- Q2; apply W1).
  assert (UP : usable (p_rg p' RSP)) by (rewrite <- Q2; exact W2).
  exists p', (mkGhost (fun a => g_ok g a || writes ac x p a) (g_fl g || sets ac x p)).
  split; [reflexivity|]. split; [split; [exact WP|split; [exact UP|exact KS]]|]. split; [split; auto|]. split; [|split; [|apply KS; exact RP]].
  - split; [auto|]. split; [auto|]. cbn [g_ok g_fl]. split.
    + intros a Ha. destruct (writes ac x p a) eqn:WR; [apply Q4; auto|]. rewrite orb_false_r in Ha.
      rewrite (d_frame _ _ _ _ _ DS x p p' a AP WR), (d_frame _ _ _ _ _ DS x q q' a Q1 (eq_trans (WE a) WR)). auto.
    + intros F. apply Q5. apply orb_true_iff in F. destruct F; auto.
  - cbn [g_ok]. intros a Ha. apply orb_true_iff in Ha. destruct Ha; auto.
Qed.

(** A function begins. *)
Lemma begin_back g p fr q fr' f ra a' : related g p fr q fr' -> beginsi f ra a' -> word_at X q = ra -> low ra ->
  (List.length (addresses fr') < k)%nat ->
  exists a, beginso f ra a /\
    (related (scratched X (can_return fs f) p g) p (mkFrame (Some a) [] :: fr) q (mkFrame (Some a') [] :: fr') \/
     entering (scratched X (can_return fs f) p g) p (mkFrame (Some a) [] :: fr) q (mkFrame (Some a') [] :: fr')).
Proof.
  intros REL BG WA LO LT. pose proof REL as ((A1 & A2 & A3 & A4) & OK & FS & BO & WF & US & RP & LN).
  destruct (begins_back f ra a' BG) as (its & its0 & B1 & B2 & B3 & B4 & B5 & B6).
  exists (mkAct f (a_last a') ra false its). split; [exact B1|].
  assert (REL2 : related (scratched X (can_return fs f) p g) p fr q fr').
  { eapply related_less; [| |exact REL]; cbn [g_ok g_fl scratched]; [|auto]. intros y Hy. apply andb_true_iff in Hy. tauto. }
  destruct (can_return fs f) eqn:CR.
  - right. exists (mkAct f (a_last a') ra false its), fr, fr', its0. cbn [a_fn a_last a_ra a_rec a_its].
    split; [reflexivity|]. split; [rewrite B3; reflexivity|]. do 10 (split; [assumption || reflexivity|]).
    cbn [g_ok scratched]. intros y Hy. apply andb_true_iff in Hy. destruct Hy as [_ Hy]. cbn [andb] in Hy. apply negb_true_iff in Hy. exact Hy.
  - left. destruct REL2 as (R1 & R2 & R3 & R4 & R5 & R6 & R7 & R8). split; [exact R1|]. split; [exact R2|]. split.
    { constructor; [|exact R3]. unfold FullSame.fr_sim. rewrite B3. cbn [fr_old fr_act a_fn a_last a_ra a_rec a_its].
      split; [reflexivity|]. split; [constructor|]. do 7 (split; [assumption || reflexivity|]). split; [symmetry; exact CR|]. split; [exact B4|exact B2]. }
    split; [apply bottom_up; exact R4|]. split; [exact R5|]. split; [exact R6|].
    replace (addresses (mkFrame (Some a') [] :: fr')) with (addresses fr'); [auto|].
    rewrite B3. cbn [addresses flat_map]. unfold recorded, own_address. reflexivity.
Qed.
Lemma call_back g p fr q fr' f ra a' : related g p fr q fr' -> rep p [] -> beginsi f ra a' -> 0 <= ra < W -> usable (p_rg q RSP - 8) ->
  low ra -> (List.length (addresses fr') < k)%nat ->
  exists a g', beginso f ra a /\ usable (p_rg p RSP - 8) /\ calls fs X g p f ra g' /\
    phase g' (pushed X p ra) (mkFrame (Some a) [] :: fr) (pushed X q ra) (mkFrame (Some a') [] :: fr').
Proof.
  intros ((A1 & A2 & A3 & A4) & OK & FS & BO & WF & US & RP & LN) RP0 BG RA UQ LO LT.
  assert (US' : usable (p_rg p RSP - 8)) by (rewrite <- A1; auto).
  assert (WP : wfp X p) by (intros r; rewrite <- A1; apply WF).
  destruct (pushed_ok co fl mp base k usable X sem L lib TE RL SP q ra (addresses fr') WF RA UQ LN RP) as (P1 & P2 & P3 & P4).
  destruct (pushed_ok co fl mp base k usable X sem L lib TE RL SP p ra [] WP RA US' ltac:(cbn; lia) RP0) as (_ & _ & _ & O4).
  set (g1 := mkGhost (fun a => g_ok g a || within (p_rg p RSP - 8) 8 a) (g_fl g)).
  set (g' := mkGhost (fun a => (g_ok g a || within (p_rg p RSP - 8) 8 a) && negb (can_return fs f && within (p_rg p RSP - 24) 16 a)) (g_fl g)).
  assert (EG : scratched X (can_return fs f) (pushed X p ra) g1 = g').
  { unfold scratched, g1, g'. cbn [g_ok g_fl pushed p_rg]. rewrite updr_same. replace (p_rg p RSP - 8 - 16) with (p_rg p RSP - 24) by lia. reflexivity. }
  destruct (begin_back g1 (pushed X p ra) fr (pushed X q ra) fr' f ra a') as (a & B1 & B2); auto.
  - split; [|split; [|split; [auto|split; [auto|split; [auto|split; [rewrite P2; auto|auto]]]]]].
    + split; [|split; [exact A2|split]]; cbn [g_ok g_fl pushed p_rg p_mem p_fl g1].
      * intros r. destruct (reg_eq_dec r RSP) as [->|N]; [rewrite !updr_same, A1; reflexivity|rewrite !updr_other by auto; auto].
      * intros y Hy. rewrite A1. unfold store64. destruct (within (p_rg p RSP - 8) 8 y) eqn:WI.
        -- apply within_inside in WI. apply store_in_ext. unfold inside in WI. change (Z.of_nat 8) with 8. lia.
        -- rewrite orb_false_r in Hy.
           assert (NI : ~ inside (p_rg p RSP - 8) 8 y) by (rewrite <- within_inside; congruence). unfold inside in NI.
           rewrite !store_out by (change (Z.of_nat 8) with 8; lia). auto.
      * exact A4.
    + cbn [g_ok g1]. intros y Hy. apply orb_true_iff in Hy. destruct Hy as [Hy|Hy]; [auto|]. apply within_inside in Hy.
      apply reserved_inside. destruct (sp_stack _ _ _ _ SP _ US') as (_ & AP). unfold apart, inside in *. lia.
  - exists a, g'. split; [exact B1|]. split; [exact US'|]. split; [split; [exact LO|reflexivity]|]. split; [exact O4|].
    rewrite EG in B2. destruct B2 as [B2|B2]; [left|right; left]; exact B2.
Qed.
(** The address is recorded. *)
Lemma push_back g p fr q fr' e c' : entering g p fr q fr' -> stepi e (Run q fr') c' ->
  e = [] /\ exists q2 fr2', c' = Run q2 fr2' /\ related g p fr q2 fr2'.
Proof.
  intros (a & r & r' & its0 & -> & -> & ((A1 & A2 & A3 & A4) & OK & FS & BO & WF & US & RP & LN) & LT & HG & HL & RC & BA & CR & LO & WA & SI & GS) S.
  destruct (push_same co fl o mp base k usable X sem L lib TE RL PL SP q (a_fn a) (addresses r') WF US RP LT) as (c & st & C1 & C2 & C3 & C4 & C5 & C6 & C7).
  set (a' := mkAct (a_fn a) (a_last a) (a_ra a) false (Snip (StackPush (full_entry o co (a_fn a))) :: its0)) in *.
  remember (Run q (mkFrame (Some a') [] :: r')) as c0 eqn:E0.
  destruct S; injection E0; intros; subst; try discriminate;
    match goal with K : a_its a' = _ |- _ => cbn [a_its a'] in K; try discriminate; injection K; intros; subst end;
    try (match goal with K : snip_code o _ = Some ?c1 |- _ => rewrite C1 in K; injection K; intros; subst end);
    try (match goal with K : exec _ _ _ _ |- _ => pose proof (exec_det _ _ _ _ _ C2 K) as EE; try discriminate EE; injection EE; intros; subst end);
    try (match goal with K : is_check _ = true |- _ => discriminate K end); try congruence.
  split; [reflexivity|]. eexists _, _. split; [reflexivity|].
  rewrite WA in C3. cbn [a' a_fn a_last a_ra a_rec is_push orb].
  split; [|split; [|split; [|split; [|split; [|split; [|split]]]]]].
  - split; [intros z; rewrite C5; auto|]. split; [exact A2|]. split.
    + intros y Hy. rewrite C7; [auto| |auto]. rewrite A1, <- within_inside, (GS y Hy). discriminate.
    + intros F. rewrite C6. auto.
  - exact OK.
  - constructor; [|exact FS]. unfold FullSame.fr_sim. cbn [fr_old fr_act a_fn a_last a_ra a_rec a_its].
    split; [reflexivity|]. split; [constructor|]. do 7 (split; [assumption || reflexivity|]). split; [symmetry; exact CR|]. split; [exact BA|exact SI].
  - apply bottom_up; auto.
  - exact C4.
  - rewrite C5. exact US.
  - exact C3.
  - cbn [addresses flat_map]. change (flat_map recorded r') with (addresses r'). cbn. lia.
Qed.
(** The check lets the function return. *)
Lemma check_back g p a r q a' old' r' e c' : related g p (mkFrame (Some a) [] :: r) q (mkFrame (Some a') old' :: r') ->
  a_its a = [] -> can_return fs (a_fn a) = true -> Dfs.mem (a_last a) (returning_pops co (a_fn a)) = true ->
  (forall y, within (p_rg p RSP) 8 y = true -> g_ok g y = true) -> word_at X p = a_ra a ->
  stepi e (Run q (mkFrame (Some a') old' :: r')) c' ->
  e = [] /\ exists q2 fr2', c' = Run q2 fr2' /\ checked g p (mkFrame (Some a) [] :: r) q2 fr2'.
Proof.
  intros ((A1 & A2 & A3 & A4) & OK & FS & BO & WF & US & RP & LN) EI CR IX CL WP S.
  pose proof FS as FS0. inversion FS as [|? ? ? ? SM FR]; subst.
  destruct SM as (_ & S2 & S3 & S4 & S5 & S6 & S7 & S8 & S9 & S10 & S11 & S12). cbn [fr_old fr_act] in *.
  unfold FullSame.same_items in S12. rewrite EI, CR in S12. cbn [app] in S12. unfold FullExecFacts.check_at in S12.
  rewrite IX in S12. cbn [opt map] in S12. rewrite CR in S10.
  assert (EW : word_at X q = a_ra a).
  { rewrite <- WP. unfold word_at. rewrite A1. apply load64_ext. intros y Hy. apply A3, CL, within_inside. exact Hy. }
  destruct (sim_addresses co fs o _ _ FS0) as (_ & LA).
  destruct (unwind (word_at X q) (addresses (mkFrame (Some a') old' :: r'))) as [l'|] eqn:U.
  2:{ exfalso. apply unwind_none in U. apply U. rewrite EW. cbn [addresses flat_map]. unfold recorded, own_address. cbn [fr_act fr_old].
      rewrite S10. apply in_or_app. left. apply in_or_app. right. left. exact S7. }
  destruct (check_same co fl o mp base k usable X sem L lib TE RL PL SP q (a_last a) _ l' WF US RP LN U (low_clean _ _ LA)) as (c & st & C1 & C2 & C3 & C4 & C5 & C6).
  remember (Run q (mkFrame (Some a') old' :: r')) as c0 eqn:E0.
  destruct S; injection E0; intros; subst; try discriminate;
    match goal with K : a_its a' = _ |- _ => rewrite S12 in K; try discriminate K; injection K; intros; subst end;
    try (match goal with K : snip_code o _ = Some ?c1 |- _ => rewrite C1 in K; injection K; intros; subst end);
    try (match goal with K : exec _ _ _ _ |- _ => pose proof (exec_det _ _ _ _ _ C2 K) as EE; try discriminate EE; injection EE; intros; subst end);
    try congruence.
  split; [reflexivity|]. eexists _, _. split; [reflexivity|].
  exists a, r, old', r', l'. cbn [is_push]. rewrite orb_false_r, S5, S6, S7, S10.
  split; [reflexivity|]. split; [reflexivity|]. split; [exact EI|]. split.
  { split; [intros z; rewrite C5; auto|]. split; [exact A2|]. cbn [g_ok g_fl dimmed]. split; [|discriminate].
    intros y Hy. apply andb_true_iff in Hy. destruct Hy as [Y1 Y2]. rewrite C6; [auto| |auto].
    rewrite A1, <- within_inside. destruct (within _ _ y); [discriminate|congruence]. }
  split; [exact OK|]. split; [exact CL|]. split; [exact WP|]. split.
  { rewrite <- EW. unfold word_at. rewrite C5. apply load64_ext. intros y Hy. rewrite C6; [reflexivity| |].
    - unfold inside in *. lia.
    - apply OK, CL, within_inside. rewrite <- A1. exact Hy. }
  split; [exact CR|]. split; [exact S8|]. split; [exact S2|]. split; [exact FR|]. split; [eapply bottom_act; exact BO|]. split; [exact C4|].
  split; [rewrite C5; exact US|]. split; [|split; [exact C3|pose proof (unwind_len _ _ _ U); lia]].
  rewrite <- U, EW. cbn [addresses flat_map]. unfold recorded, own_address. cbn [fr_act fr_old a_rec a_ra]. rewrite S10, S7. reflexivity.
Qed.
(** The function is left. *)
Lemma leave_back g p fr q fr' e c' : checked g p fr q fr' -> rep p [] -> stepi e (Run q fr') c' ->
  exists q2 fr2' g' p2 fr2, c' = Run q2 fr2' /\ stepo e (Run p fr) (Run p2 fr2) /\ tidy_step g p e g' /\ phase g' p2 fr2 q2 fr2'.
Proof.
  intros (a & r & old' & r' & l' & -> & -> & EI & (A1 & A2 & A3 & A4) & OK & CL & WP & WQ & CR & LO & LOL & FR & BR & WF & US & U & RP & LN) RP0 S.
  set (a' := mkAct (a_fn a) (a_last a) (a_ra a) true []) in *.
  pose proof (leave_ok (a_ra a) a' old' r' l' eq_refl BR U) as LK.
  assert (EL : leave (a_ra a) (a_ra a') old' r' = At (give (behind (a_ra a) old') r')).
  { unfold leave. cbn [a' a_ra]. rewrite Z.eqb_refl. reflexivity. }
  rewrite EL in LK. destruct LK as (L1 & L2 & _ & _).
  assert (EO : leave (a_ra a) (a_ra a) [] r = At (give [] r)) by (unfold leave; rewrite Z.eqb_refl; reflexivity).
  assert (REL : related (dimmed X p g) p (give [] r) q (give (behind (a_ra a) old') r')).
  { split; [split; auto|]. split; [cbn [g_ok dimmed]; intros y Hy; apply andb_true_iff in Hy; apply OK; tauto|].
    split; [|split; [exact L2|split; [exact WF|split; [exact US|rewrite L1; split; [exact RP|lia]]]]].
    apply sim_give; [|exact FR]. unfold behind. destruct (unwind _ old') as [j|] eqn:UJ; [|constructor].
    apply Forall_app. split; [|constructor; [exact LO|constructor]].
    clear - UJ LOL. revert j UJ. induction old' as [|v l IH]; intros j UJ; [discriminate|]. inversion LOL; subst. cbn [unwind] in UJ.
    destruct (v =? _); [injection UJ as <-; auto|auto]. }
  assert (LV : leaves X g p (dimmed X p g)) by (split; [exact CL|reflexivity]).
  remember (Run q (mkFrame (Some a') old' :: r')) as c0 eqn:E0.
  destruct S as [p1 a0 old r0 n its E|p1 a0 old r0 n its E|p1 p' a0 old r0 n i its E OC SE (Q1 & Q2 & Q3)
    |p1 a0 old r0 n i its e g1 ra a1 E OC IC GT RA BG US1 LN1|p1 a0 old r0 n i its e name E OC IC GO|p1 a0 old r0 n i its E
    |p1 p' x old r0 LX (Q1 & Q2 & Q3)|p1 old r0 g1 ra a1 RA BG US1 LN1|p1 old f r0
    |p1 old u a0 old1 r0 last its TH GO
    |p1 a0 old r0 sn c u its E SC EX|p1 a0 old r0 sn c its E SC EX|p1 a0 old r0 sn c its E SC EX|p1 a0 old r0 sn its E SC
    |p1 a0 old r0 E IR CR1 WP1 US1|p1 a0 old r0 e g1 a1 E IT CR1 GT BG|p1 a0 old r0 e name E IT CR1 GO];
    injection E0; intros; subst; try discriminate E; try discriminate.
  - rewrite WQ, EL. cbn [resume]. exists (popped X q), (give (behind (a_ra a) old') r'), (dimmed X p g), (popped X p), (give [] r).
    assert (EP : forall z, p_rg (popped X p) z = p_rg (popped X q) z).
    { intros z. unfold popped. cbn [p_rg]. destruct (reg_eq_dec z RSP) as [->|N]; [rewrite !updr_same, A1; reflexivity|rewrite !updr_other by auto; auto]. }
    split; [reflexivity|]. split; [|split; [exact LV|]].
    + pose proof (s_ret co fl fs m false o mp base k usable X sem L lib throws p a [] r EI IR CR) as ST. rewrite WP, EO in ST. cbn [resume] in ST.
      apply ST; [intros z; rewrite EP; apply WP1|rewrite <- A1; exact US1].
    + split; [exact RP0|]. left. destruct REL as (_ & B2 & B3 & B4 & B5 & B6 & B7).
      split; [|split; [exact B2|split; [exact B3|split; [exact B4|split; [exact WP1|split; [|exact B7]]]]]].
      * split; [intros z; symmetry; apply EP|]. split; [exact A2|]. split; [exact A3|exact A4].
      * unfold popped. cbn [p_rg]. rewrite updr_same. exact US1.
  - rewrite WQ in BG |- *. rewrite EL. cbn [resume].
    destruct (begin_back (dimmed X p g) p (give [] r) q (give (behind (a_ra a) old') r') g1 (a_ra a) a1 REL BG WQ LO) as (a2 & B1 & B2).
    { exact LN. }
    exists q, (mkFrame (Some a1) [] :: give (behind (a_ra a) old') r'), (dimmed X p g), p, (mkFrame (Some a2) [] :: give [] r).
    split; [reflexivity|]. split; [|split; [exact LV|]].
    + pose proof (s_tail co fl fs m false o mp base k usable X sem L lib throws p a [] r e g1 a2 EI IT CR GT) as ST. rewrite WP, EO in ST. cbn [resume] in ST.
      apply ST. exact B1.
    + split; [exact RP0|].
      assert (GE : forall y, g_ok (dimmed X p g) y = true -> g_ok (scratched X (can_return fs g1) p (dimmed X p g)) y = true).
      { cbn [g_ok dimmed scratched]. intros y Hy. rewrite Hy. apply andb_true_iff in Hy. destruct Hy as [_ Hy]. destruct (within _ _ y); [discriminate|].
        rewrite andb_false_r. reflexivity. }
      destruct B2 as [B2|B2]; [left|right; left].
      * eapply related_less; [exact GE| |exact B2]. auto.
      * destruct B2 as (b & r2 & r2' & its0 & T1 & T2 & T3 & T). exists b, r2, r2', its0. split; [exact T1|]. split; [exact T2|].
        split; [eapply related_less; [exact GE| |exact T3]; auto|]. decompose [and] T. repeat (split; [assumption|]).
        intros y Hy. match goal with K : forall y, g_ok (scratched _ _ _ _) y = true -> _ |- _ => apply K, GE, Hy end.
  - rewrite WQ, EL. cbn [resume].
    exists q, (library :: give (behind (a_ra a) old') r'), (dimmed X p g), p, (library :: give [] r).
    split; [reflexivity|]. split; [|split; [exact LV|]].
    + pose proof (s_tail_out co fl fs m false o mp base k usable X sem L lib throws p a [] r e name EI IT CR GO) as ST. rewrite WP, EO in ST. exact ST.
    + split; [exact RP0|]. left. destruct REL as (B1 & B2 & B3 & B4 & B5). split; [exact B1|]. split; [exact B2|].
      split; [constructor; [split; [reflexivity|split; [constructor|exact I]]|exact B3]|]. split; [apply bottom_up; exact B4|exact B5].
Qed.
(** ** One step *)
Lemma head_back a old' r' a' x its' : fr_sim (mkFrame (Some a) []) (mkFrame (Some a') old') -> a_its a' = x :: its' ->
  (exists its, a_its a = x :: its /\ bare x /\
    fr_sim (mkFrame (Some (with_items a its)) []) (mkFrame (Some (with_items a' its')) old') /\
    addresses (mkFrame (Some (with_items a' its')) old' :: r') = addresses (mkFrame (Some a') old' :: r')) \/
  (a_its a = [] /\ can_return fs (a_fn a) = true /\ Dfs.mem (a_last a) (returning_pops co (a_fn a)) = true /\ exists sn, x = Snip sn).
Proof.
  intros SM E. destruct (a_its a) as [|y its] eqn:EA.
  - right. destruct SM as (_ & _ & S3 & S4 & S5 & S6 & S7 & S8 & S9 & S10 & S11 & S12). unfold FullSame.same_items in S12. rewrite E, EA in S12.
    cbn [app] in S12. split; [reflexivity|]. destruct (can_return fs (a_fn a)); [|discriminate]. split; [reflexivity|].
    unfold FullExecFacts.check_at in S12. destruct (Dfs.mem _ _); cbn [opt map] in S12; [|discriminate]. split; [reflexivity|].
    injection S12 as -> _. eauto.
  - left. destruct (top_item co fs o a old' r' a' y its SM EA) as (its1 & I1 & I2 & I3 & I4). rewrite E in I1. injection I1 as -> ->. exists its. auto.
Qed.
Lemma back_top a' old' r' fr : Forall2 fr_sim fr (mkFrame (Some a') old' :: r') ->
  exists a r, fr = mkFrame (Some a) [] :: r /\ fr_sim (mkFrame (Some a) []) (mkFrame (Some a') old') /\ Forall2 fr_sim r r'.
Proof.
  intros F. inversion F as [|f ? r ? S FR]; subst. destruct f as [[a|] old]; [|destruct S as (_ & _ & [])].
  pose proof (proj1 S) as O. cbn in O. subst old. exists a, r. auto.
Qed.
Lemma back_lib old' r' fr : Forall2 fr_sim fr (mkFrame None old' :: r') ->
  exists r, fr = mkFrame None [] :: r /\ Forall low old' /\ Forall2 fr_sim r r'.
Proof.
  intros F. inversion F as [|f ? r ? S FR]; subst. destruct f as [[a|] old]; [destruct S as (_ & _ & [])|].
  pose proof (proj1 S) as O. cbn in O. subst old. exists r. destruct S as (_ & S & _). auto.
Qed.
Lemma same_fn a a' old' : fr_sim (mkFrame (Some a) []) (mkFrame (Some a') old') -> a_fn a' = a_fn a /\ a_last a' = a_last a.
Proof. intros (_ & _ & S3 & S4 & S5 & S6 & _). auto. Qed.
Lemma no_check a a' old' : fr_sim (mkFrame (Some a) []) (mkFrame (Some a') old') -> a_its a' = [] -> can_return fs (a_fn a) = true ->
  ~ (is_ret co (a_last a) \/ exists e, is_tail co (a_last a) e).
Proof.
  intros (_ & _ & S3 & S4 & S5 & S6 & S7 & S8 & S9 & S10 & S11 & S12) E CR LB. unfold FullSame.same_items in S12. rewrite E, CR in S12.
  symmetry in S12. apply app_eq_nil in S12. destruct S12 as [_ K]. unfold FullExecFacts.check_at in K.
  pose proof (p_exits _ _ PA _ _ S3 S4 LB) as RE. apply nonret_prop in RE. apply andb_true_iff in RE. destruct RE as [R1 R2].
  replace (Dfs.mem (a_last a) (returning_pops co (a_fn a))) with true in K; [discriminate|]. symmetry.
  apply mem_in. apply filter_In. split; [apply mem_in; auto|auto].
Qed.
Lemma none_here fr fr' : Forall2 fr_sim fr fr' -> addresses fr = [].
Proof. intros F. apply (sim_addresses co fs o _ _ F). Qed.

Lemma step_back g p fr q fr' e c' : phase g p fr q fr' -> careful g p fr -> stepi e (Run q fr') c' -> low_calls L e ->
  exists q2 fr2', c' = Run q2 fr2' /\
    ((e = [] /\ phase g p fr q2 fr2') \/
     exists g' p2 fr2, stepo e (Run p fr) (Run p2 fr2) /\ tidy_step g p e g' /\ phase g' p2 fr2 q2 fr2').
Proof.
  intros (RP0 & [REL|[EN|CH]]) CA S LC.
  2:{ destruct (push_back g p fr q fr' e c' EN S) as (-> & q2 & fr2' & -> & REL). exists q2, fr2'. split; [auto|]. left. split; [auto|]. split; auto. }
  2:{ destruct (leave_back g p fr q fr' e c' CH RP0 S) as (q2 & fr2' & g' & p2 & fr2 & -> & S1 & S2 & S3). exists q2, fr2'. split; [auto|]. right. eauto 7. }
  pose proof REL as ((A1 & A2 & A3 & A4) & OK & FS & BO & WF & US & RP & LN). pose proof S as S0.
  remember (Run q fr') as c0 eqn:E0.
  assert (SN : forall a0 old r0 sn its, fr' = mkFrame (Some a0) old :: r0 -> a_its a0 = Snip sn :: its ->
    exists q2 fr2', c' = Run q2 fr2' /\ e = [] /\ phase g p fr q2 fr2').
  { intros a0 old r0 sn its -> E. subst c0. destruct (back_top _ _ _ _ FS) as (a & r & -> & SM & FR).
    destruct (head_back a old r0 a0 _ its SM E) as [(its1 & _ & [] & _)|(H1 & H2 & H3 & _)].
    cbn [FullBack.careful] in CA. rewrite H1 in CA.
    assert (RE : returning_exit co (a_fn a) (a_last a)).
    { apply nonret_prop. apply mem_in in H3. apply filter_In in H3. destruct H3 as [H3 H4]. apply andb_true_iff. split; [apply mem_in; exact H3|exact H4]. }
    destruct (CA H2 RE) as (CL & WP).
    destruct (check_back g p a r q a0 old r0 e c' REL H1 H2 H3 CL WP S0) as (-> & q2 & fr2' & -> & CH).
    exists q2, fr2'. split; [reflexivity|]. split; [reflexivity|]. split; [exact RP0|]. right; right. exact CH. }
  destruct S as [p1 a0 old r0 n its E|p1 a0 old r0 n its E|p1 p' a0 old r0 n i its E OC SE GQ
    |p1 a0 old r0 n i its e g1 ra a1 E OC IC GT RA BG US1 LN1|p1 a0 old r0 n i its e name E OC IC GO|p1 a0 old r0 n i its E
    |p1 p' x old r0 LX GQ|p1 old r0 g1 ra a1 RA BG US1 LN1|p1 old f r0
    |p1 old u a0 old1 r0 last its TH GO
    |p1 a0 old r0 sn c u its E SC EX|p1 a0 old r0 sn c its E SC EX|p1 a0 old r0 sn c its E SC EX|p1 a0 old r0 sn its E SC
    |p1 a0 old r0 E IR CR WP US1|p1 a0 old r0 e g1 a1 E IT CR GT BG|p1 a0 old r0 e name E IT CR GO];
    injection E0 as -> <-;
    try (destruct (SN _ _ _ _ _ eq_refl E) as (q2 & fr2' & K1 & K2 & K3); first [discriminate K1 | exists q2, fr2'; split; [exact K1|left; split; [exact K2|exact K3]]]);
    clear SN S0.
  - (* Here *) destruct (back_top _ _ _ _ FS) as (a & r & -> & SM & FR).
    destruct (head_back a old r0 a0 _ its SM E) as [(its1 & I1 & _ & I2 & I3)|(_ & _ & _ & sn & K)]; [|discriminate K].
    eexists _, _. split; [reflexivity|]. right. eexists g, p, _. split; [eapply s_here; exact I1|]. split; [reflexivity|]. split; [exact RP0|]. left.
    split; [split; auto|]. split; [auto|]. split; [constructor; auto|]. split; [eapply bottom_same; eauto|]. rewrite I3. auto.
  - (* Out *) destruct (back_top _ _ _ _ FS) as (a & r & -> & SM & FR).
    destruct (head_back a old r0 a0 _ its SM E) as [(its1 & I1 & _ & I2 & I3)|(_ & _ & _ & sn & K)]; [|discriminate K].
    eexists _, _. split; [reflexivity|]. right. eexists g, p, _. split; [eapply s_out; exact I1|]. split; [reflexivity|]. split; [exact RP0|]. left.
    split; [split; auto|]. split; [auto|]. split; [constructor; auto|]. split; [eapply bottom_same; eauto|]. rewrite I3. auto.
  - (* instruction *) destruct (back_top _ _ _ _ FS) as (a & r & -> & SM & FR).
    destruct (head_back a old r0 a0 _ its SM E) as [(its1 & I1 & _ & I2 & I3)|(_ & _ & _ & sn & K)]; [|discriminate K].
    cbn [FullBack.careful] in CA. rewrite I1 in CA.
    destruct (does_back g (inl i) p q p' _ (conj A1 (conj A2 (conj A3 A4))) OK RP0 RP LN (CA OC) SE GQ) as (p2 & g' & D1 & D2 & D3 & D4 & D5 & D6).
    eexists _, _. split; [reflexivity|]. right. eexists g', p2, _. split; [eapply s_ins; [exact I1|exact OC|exact D1|exact D2]|]. split; [exact D3|]. split; [exact D6|]. left.
    split; [exact D4|]. split; [auto|]. split; [constructor; auto|]. split; [eapply bottom_same; eauto|]. rewrite I3.
    destruct GQ as (Q1 & Q2 & Q3). split; [exact Q1|]. split; [exact Q2|]. split; [apply Q3; exact RP|exact LN].
  - (* call *) destruct (back_top _ _ _ _ FS) as (a & r & -> & SM & FR).
    destruct (head_back a old r0 a0 _ its SM E) as [(its1 & I1 & _ & I2 & I3)|(_ & _ & _ & sn & K)]; [|discriminate K].
    destruct (call_back g p (mkFrame (Some (with_items a its1)) [] :: r) q (mkFrame (Some (with_items a0 its)) old :: r0) g1 ra a1)
      as (a2 & g' & B1 & B2 & B3 & B4); auto.
    + split; [split; auto|]. split; [auto|]. split; [constructor; auto|]. split; [eapply bottom_same; eauto|]. rewrite I3. auto.
    + apply (LC g1). left. reflexivity.
    + eexists _, _. split; [reflexivity|]. right. eexists g', _, _. split; [|split; [exact B3|exact B4]].
      eapply s_call; eauto. rewrite (none_here _ _ FS). cbn [List.length]. lia.
  - (* call of library code *) destruct (back_top _ _ _ _ FS) as (a & r & -> & SM & FR).
    destruct (head_back a old r0 a0 _ its SM E) as [(its1 & I1 & _ & I2 & I3)|(_ & _ & _ & sn & K)]; [|discriminate K].
    eexists _, _. split; [reflexivity|]. right. eexists g, p, _. split; [eapply s_call_out; eauto|]. split; [reflexivity|]. split; [exact RP0|]. left.
    split; [split; auto|]. split; [auto|]. split; [constructor; [split; [auto|split; [constructor|exact I]]|constructor; auto]|].
    split; [apply bottom_up; eapply bottom_same; eauto|]. change (addresses (library :: ?x)) with (addresses x). rewrite I3. auto.
  - (* signal *) destruct (back_top _ _ _ _ FS) as (a & r & -> & SM & FR).
    destruct (head_back a old r0 a0 _ its SM E) as [(its1 & I1 & _ & I2 & I3)|(_ & _ & _ & sn & K)]; [|discriminate K].
    eexists _, _. split; [reflexivity|]. right. eexists g, p, _. split; [eapply s_signal; eauto|]. split; [reflexivity|]. split; [exact RP0|]. left.
    split; [split; auto|]. split; [auto|]. split; [constructor; [split; [auto|split; [constructor|exact I]]|constructor; auto]|].
    split; [apply bottom_up; auto|]. change (addresses (library :: ?x)) with (addresses x). auto.
  - (* library code *) destruct (back_lib _ _ _ FS) as (r & -> & LO & FR). cbn [FullBack.careful] in CA.
    destruct (does_back g (inr x) p q p' _ (conj A1 (conj A2 (conj A3 A4))) OK RP0 RP LN (CA x) LX GQ) as (p2 & g' & D1 & D2 & D3 & D4 & D5 & D6).
    eexists _, _. split; [reflexivity|]. right. eexists g', p2, _. split; [eapply s_lib; [exact D1|exact D2]|]. split; [exact D3|]. split; [exact D6|]. left.
    destruct GQ as (Q1 & Q2 & Q3).
    split; [exact D4|]. split; [auto|]. split; [auto|]. split; [auto|]. split; [exact Q1|]. split; [exact Q2|]. split; [apply Q3; exact RP|exact LN].
  - (* call from library code *) destruct (back_lib _ _ _ FS) as (r & -> & LO & FR).
    destruct (call_back g p (mkFrame None [] :: r) q (mkFrame None old :: r0) g1 ra a1) as (a2 & g' & B1 & B2 & B3 & B4); auto.
    + apply (LC g1). left. reflexivity.
    + eexists _, _. split; [reflexivity|]. right. eexists g', _, _. split; [|split; [exact B3|exact B4]].
      eapply s_lib_call; eauto. rewrite (none_here _ _ FS). cbn [List.length]. lia.
  - (* library code returns *) destruct (back_lib _ _ _ FS) as (r & -> & LO & FR). destruct r as [|f1 r]; [inversion FR|].
    eexists _, _. split; [reflexivity|]. right. eexists g, p, _. split; [apply s_lib_back|]. split; [reflexivity|]. split; [exact RP0|]. left.
    split; [split; auto|]. split; [auto|]. split; [apply (sim_give co fs o old (f1 :: r) (f :: r0)); auto|].
    assert (BR : bottomed (f :: r0)) by (eapply bottom_cons; [discriminate|exact BO]).
    split; [apply bottom_give; exact BR|]. rewrite addresses_give by discriminate.
    replace (old ++ addresses (f :: r0)) with (addresses (mkFrame None old :: f :: r0))
      by (cbn [addresses flat_map]; unfold recorded, own_address; cbn [fr_old fr_act]; rewrite app_nil_r; reflexivity). auto.
  - (* exception, longjmp *) destruct (back_lib _ _ _ FS) as (r & -> & LO & FR).
    apply Forall2_app_inv_r in FR. destruct FR as (u1 & w1 & FU & FW & ->). destruct (back_top _ _ _ _ FW) as (a & r & -> & SM & FR).
    pose proof SM as (_ & S2 & S3 & S4 & S5 & S6 & S7 & S8 & S9 & S10 & S11 & S12). cbn [fr_old fr_act] in *.
    rewrite S5 in GO.
    destruct (goes_on_back (a_fn a) last its S3 GO) as (its1 & G1 & G2 & G3 & G4).
    destruct (sim_addresses co fs o _ _ FU) as (U1 & U2).
    eexists _, _. split; [reflexivity|]. right. eexists g, p, _. split; [rewrite S5; eapply s_throw; [exact TH|exact G1]|]. split; [reflexivity|]. split; [exact RP0|]. left.
    split; [split; auto|]. split; [auto|].
    assert (EA : forall its, addresses (mkFrame (Some (mkAct (a_fn a0) last (a_ra a0) (a_rec a0) its)) (addresses (mkFrame None old :: u) ++ old1) :: r0) =
                 addresses (mkFrame None old :: u ++ mkFrame (Some a0) old1 :: r0)).
    { intros z. cbn [addresses flat_map]. fold (addresses u) (addresses r0). change (flat_map recorded) with addresses.
      rewrite addresses_app. cbn [addresses flat_map]. unfold recorded, own_address. cbn [fr_old fr_act a_rec a_ra]. rewrite <- !app_assoc. reflexivity. }
    split.
    { constructor; [|exact FR]. unfold FullSame.fr_sim. cbn [fr_old fr_act a_fn a_last a_ra a_rec a_its].
      split; [cbn [addresses flat_map recorded own_address fr_old fr_act app]; change (flat_map recorded u1) with (addresses u1); rewrite U1; reflexivity|].
      split; [apply Forall_app; split; [|exact S2]; cbn [addresses flat_map]; unfold recorded, own_address; cbn [fr_old fr_act]; rewrite app_nil_r;
              apply Forall_app; split; [exact LO|exact U2]|].
      repeat (split; [auto|]). exact G2. }
    split.
    { apply bottom_up. apply (bottom_act a0 old1). eapply (bottom_drop (mkFrame None old :: u)); [discriminate|exact BO]. }
    rewrite EA. auto.
  - (* leaving a function without a check *) exfalso. destruct (back_top _ _ _ _ FS) as (a & r & -> & SM & FR).
    apply (no_check a a0 old SM E); [rewrite <- (proj1 (same_fn a a0 old SM)); exact CR|]. left. rewrite <- (proj2 (same_fn a a0 old SM)). exact IR.
  - exfalso. destruct (back_top _ _ _ _ FS) as (a & r & -> & SM & FR).
    apply (no_check a a0 old SM E); [rewrite <- (proj1 (same_fn a a0 old SM)); exact CR|]. right. exists e. rewrite <- (proj2 (same_fn a a0 old SM)). exact IT.
  - exfalso. destruct (back_top _ _ _ _ FS) as (a & r & -> & SM & FR).
    apply (no_check a a0 old SM E); [rewrite <- (proj1 (same_fn a a0 old SM)); exact CR|]. right. exists e. rewrite <- (proj2 (same_fn a a0 old SM)). exact IT.
Qed.
End BACK.
