(** * FullExecFacts: what holds in the executions of FullExec.v *)
From Coq Require Import ZArith Bool Lia ZifyBool ZifyNat Arith String List.
From Verif Require Import Machine MachineFacts Jit ShadowSpec JitFacts JitPushPop History RegFrame ZeroWord.
From Verif Require Import Dfs Binary CallGraph InterProc MemPasses Pipeline RegNames BlockLive
  Reach SafePaths Lowering P_Lower FastPath Decision P_Instr FullRun Whole P_Whole Sites P_Sites Order Activation PlanCode ActRun FullMode
  Tree TreeFacts FullExec.
Import ListNotations.
Open Scope Z_scope.
Local Notation mem := Machine.mem.

(** ** Leaving calls *)
Lemma among_in w l : among w l = true <-> In w l.
Proof.
  unfold among. rewrite existsb_exists. split; [intros (x & H & E); apply Z.eqb_eq in E; subst; auto|].
  intros H. exists w. split; [auto|apply Z.eqb_refl].
Qed.
Lemma unwind_none w l : unwind w l = None <-> ~ In w l.
Proof.
  induction l as [|v l IH]; cbn [unwind In]; [split; auto|]. destruct (Z.eqb_spec v w) as [->|N].
  - split; [discriminate|]. intros H. destruct H. auto.
  - rewrite IH. intuition.
Qed.
Lemma unwind_app w a b : unwind w (a ++ b) = match unwind w a with Some j => Some (j ++ b) | None => unwind w b end.
Proof. induction a as [|v a IH]; cbn [unwind app]; auto. destruct (v =? w); auto. Qed.
Lemma addresses_give j fr : fr <> [] -> addresses (give j fr) = j ++ addresses fr.
Proof.
  destruct fr as [|f r]; [contradiction|]. intros _. cbn [give addresses flat_map]. unfold recorded, own_address. cbn [fr_old fr_act].
  rewrite <- !app_assoc. reflexivity.
Qed.
Lemma addresses_app a b : addresses (a ++ b) = addresses a ++ addresses b.
Proof. apply flat_map_app. Qed.
(** The outermost frame is library code. *)
Definition bottomed (fr : list frame) : Prop := exists u old, fr = u ++ [mkFrame None old].
Lemma bottom_nil : bottomed [] -> False.
Proof. intros (u & old & E). destruct u; discriminate. Qed.
Lemma bottom_cons f fr : fr <> [] -> bottomed (f :: fr) -> bottomed fr.
Proof.
  intros N (u & old & E). destruct u as [|g u]; cbn [app] in E; [injection E as _ ->; contradiction|]. injection E as _ ->. exists u, old. auto.
Qed.
Lemma bottom_up f fr : bottomed fr -> bottomed (f :: fr).
Proof. intros (u & old & ->). exists (f :: u), old. reflexivity. Qed.
Lemma bottom_give j fr : bottomed fr -> bottomed (give j fr).
Proof.
  intros (u & old & ->). destruct u as [|f u]; cbn [give app].
  - exists [], (j ++ old). reflexivity.
  - exists (mkFrame (fr_act f) (j ++ fr_old f) :: u), old. reflexivity.
Qed.
Lemma bottom_act a old fr : bottomed (mkFrame (Some a) old :: fr) -> bottomed fr.
Proof.
  intros (u & o & E). destruct u as [|g u]; cbn [app] in E; [discriminate|]. injection E as _ ->. exists u, o. auto.
Qed.
Lemma bottom_drop u fr : fr <> [] -> bottomed (u ++ fr) -> bottomed fr.
Proof.
  intros N. induction u as [|f u IH]; cbn [app]; auto. intros H. apply IH. apply bottom_cons in H; auto.
  intros E. apply app_eq_nil in E. destruct E; auto.
Qed.

Definition fresh (fr : list frame) : Prop := forall f, In f fr -> fr_old f = [].
Lemma search_ok w : forall fr l', unwind w (addresses fr) = Some l' ->
  match search w fr with
  | At fr' => addresses fr' = l' /\ (exists u, fr = u ++ fr') /\ (bottomed fr -> bottomed fr')
  | Gone => ~ fresh fr
  | Nowhere => False
  end.
Proof.
  induction fr as [|f r IH]; intros l' H; [discriminate|]. cbn [search addresses flat_map] in *. unfold recorded in H.
  rewrite <- app_assoc, unwind_app in H. destruct (among w (fr_old f)) eqn:E1.
  - intros K. rewrite (K f (or_introl eq_refl)) in E1. discriminate.
  - assert (N1 : unwind w (fr_old f) = None).
    { apply unwind_none. intros K. apply among_in in K. congruence. }
    rewrite N1, unwind_app in H. unfold own_address in *. destruct (fr_act f) as [a|] eqn:FA; [destruct (a_rec a)|]; cbn in H.
    + cbn [among existsb] in *. rewrite orb_false_r, Z.eqb_sym. destruct (a_ra a =? w).
      * injection H as <-. split; [reflexivity|]. split; [exists [f]; reflexivity|]. intros B. destruct f as [fa old]; cbn in *; subst fa.
        eapply bottom_act; eauto.
      * apply IH in H. destruct (search w r); auto. destruct H as (H1 & (u & H2) & H3). split; [auto|]. split; [exists (f :: u); rewrite H2; reflexivity|].
        intros B. apply H3. destruct f as [fa old]; cbn in *; subst fa. eapply bottom_act; eauto.
        intros K. apply H. intros g G. apply K. right; auto.
    + cbn [among existsb]. apply IH in H. destruct (search w r); auto.
      destruct H as (H1 & (u & H2) & H3). split; [auto|]. split; [exists (f :: u); rewrite H2; reflexivity|].
      intros B. apply H3. destruct f as [fa old]; cbn in *; subst fa. eapply bottom_act; eauto.
      intros K. apply H. intros g G. apply K. right; auto.
    + cbn [among existsb]. assert (RN : r <> []).
      { intros ->. cbn in H. discriminate. }
      apply IH in H. destruct (search w r); auto.
      destruct H as (H1 & (u & H2) & H3). split; [auto|]. split; [exists (f :: u); rewrite H2; reflexivity|].
      intros B. apply H3. eapply bottom_cons; eauto.
      intros K. apply H. intros g G. apply K. right; auto.
Qed.
Lemma search_none w fr : unwind w (addresses fr) = None -> search w fr = Nowhere.
Proof.
  intros H. apply unwind_none in H. induction fr as [|f r IH]; [reflexivity|]. cbn [addresses flat_map search] in *. unfold recorded in H.
  destruct (among w (fr_old f)) eqn:E1; [apply among_in in E1; destruct H; apply in_or_app; left; apply in_or_app; auto|].
  destruct (among w (own_address f)) eqn:E2; [apply among_in in E2; destruct H; apply in_or_app; left; apply in_or_app; auto|].
  apply IH. intros K. apply H. apply in_or_app. right. exact K.
Qed.
Lemma leave_none w a old r : a_rec a = true -> unwind w (addresses (mkFrame (Some a) old :: r)) = None ->
  leave w (a_ra a) old r = Nowhere.
Proof.
  intros AR H. apply search_none in H. cbn [search] in H. unfold own_address in H. cbn [fr_old fr_act] in H. rewrite AR in H.
  unfold leave. destruct (Z.eqb_spec w (a_ra a)) as [->|N].
  - destruct (among (a_ra a) old); [discriminate|]. cbn [among existsb] in H. rewrite Z.eqb_refl in H. discriminate.
  - destruct (among w old); [discriminate|]. replace (among w [a_ra a]) with false in H; [exact H|]. cbn [among existsb]. lia.
Qed.
Lemma leave_ok w a old r l' : a_rec a = true -> bottomed r -> unwind w (addresses (mkFrame (Some a) old :: r)) = Some l' ->
  match leave w (a_ra a) old r with
  | At fr' => addresses fr' = l' /\ bottomed fr' /\ (forall P : option act -> Prop, Forall (fun f => P (fr_act f)) r -> Forall (fun f => P (fr_act f)) fr') /\
      (old = [] -> fresh r -> fresh fr')
  | Gone => ~ fresh (mkFrame (Some a) old :: r)
  | Nowhere => False
  end.
Proof.
  intros AR B H. assert (RN : r <> []) by (intros ->; apply bottom_nil in B; auto).
  cbn [addresses flat_map] in H. unfold recorded, own_address in H. cbn [fr_old fr_act] in H. rewrite AR in H.
  unfold leave, behind. rewrite <- app_assoc, unwind_app in H. destruct (Z.eqb_spec w (a_ra a)) as [->|N].
  - split; [|split; [|split]].
    + rewrite (addresses_give _ _ RN). destruct (unwind (a_ra a) old); [injection H as <-; rewrite <- app_assoc; reflexivity|].
      cbn [app unwind] in H. rewrite Z.eqb_refl in H. injection H as <-. reflexivity.
    + apply bottom_give. exact B.
    + intros P F. destruct r as [|f r]; cbn [give]; auto. inversion F; subst. constructor; auto.
    + intros -> F. cbn [unwind]. destruct r as [|f r]; cbn [give]; auto. intros g [<-|G]; cbn [fr_old app]; [apply F; left; auto|apply F; right; auto].
  - destruct (among w old) eqn:E.
    + intros K. specialize (K _ (or_introl eq_refl)). cbn in K. subst old. discriminate.
    + assert (N1 : unwind w old = None) by (apply unwind_none; intros K; apply among_in in K; congruence).
      rewrite N1 in H. cbn [app unwind] in H. replace (a_ra a =? w) with false in H by lia.
      apply search_ok in H. destruct (search w r) as [fr'| |]; auto.
      * destruct H as (H1 & (u & H2) & H3). split; [auto|]. split; [auto|]. split.
        -- intros P F. rewrite H2 in F. apply Forall_app in F. apply F.
        -- intros _ F f G. apply F. rewrite H2. apply in_or_app. auto.
      * intros K. apply H. intros g G. apply K. right; auto.
Qed.

Section FX.
Variables (co : code) (fl : Lowering.flags) (fs : list finfo) (m : sums).
Variables (o : opts) (mp : perm) (base : Z) (k : nat) (usable : Z -> Prop) (X : Type).
Variable sem : insn -> pst Machine.flags X -> option (pst Machine.flags X).
Variable L : Type.
Variable lib : L -> pst Machine.flags X -> option (pst Machine.flags X).
Variable throws : bool.
Notation pstate := (pst Machine.flags X).
Notation plan_of := (plan_of co fl fs m true).
Notation rep p l := (shadow_rep (p_mem p) base l).
Hypothesis PA : parsed co fs.
Hypothesis NL : fl_light fl = false.
Hypothesis TE : forall g, own co g -> terminal_exits co g.
Hypothesis RL : forall g, own co g -> ret_last co g.
Hypothesis PL : plain o.
Hypothesis SP : spaces mp base k usable.

Lemma plan_is g : own co g -> plan_of g = if can_return fs g then full_plan co g else Untouched.
Proof.
  intros HG. unfold FullExec.plan_of. rewrite (planned_at co fl fs m PA g HG). destruct (can_return fs g); auto.
  unfold analyses, Decision.instr. rewrite NL. reflexivity.
Qed.
(** The code of a path: the check comes last, before an exit. *)
Definition check_at (g x : nat) : list item := map Snip (opt (Dfs.mem x (returning_pops co g)) (StackPop (full_exit o co x))).
Lemma full_body g : own co g -> forall ks b sl x path, segs co (full_plan co g) (false, b) ks = Some sl -> In b (f_blocks (co_fun co g)) ->
  orig_blocks co b ks = Some (path ++ [x]) ->
  exists mid, flat_map (seg_items co (full_sites o co g)) sl = mid ++ check_at g x /\ Forall bare mid /\ In x (f_blocks (co_fun co g)) /\
    exists sl0, segs co Untouched (false, b) ks = Some sl0 /\ flat_map (seg_items co []) sl0 = mid.
Proof.
  intros HG. destruct (p_fn _ _ PA g HG) as (FO & _).
  assert (BI : forall n is, Forall bare (map (Ins n) is)).
  { intros n is. rewrite Forall_map. rewrite Forall_forall. intros i _. exact I. }
  assert (BW : forall n is, weave [] n is = map (Ins n) is).
  { intros n is. unfold weave, weaveg. induction is as [|i is IHi]; cbn [flat_map map]; [auto|]. rewrite <- IHi. reflexivity. }
  assert (BN : forall b body tail last, block_shape (b_insns (co_block co b)) body tail ->
    node_items co [] (false, b) last = Here (false, b) :: map (Ins (false, b)) body ++ (if last then [] else map (Ins (false, b)) tail ++ [Out (false, b)])).
  { intros b body tail last SH. unfold node_items. cbn [snd]. rewrite (cut_shape _ _ _ SH). rewrite !BW. cbn [snips filter map app].
    replace (flat_map _ tail) with (@nil item); [reflexivity|]. clear. induction tail; auto. }
  induction ks as [|kk ks IH]; intros b sl x path SG HB OB;
    destruct (RL g HG b HB) as (body & tail & SH & TL); cbn [segs orig_blocks snd] in SG, OB.
  - injection SG as <-. injection OB as OB. destruct path as [|y [|]]; try discriminate. injection OB as ->.
    cbn [flat_map seg_items app]. rewrite app_nil_r. rewrite (full_shape co g o FO x body tail true HB SH), !app_nil_r.
    exists (Here (false, x) :: map (Ins (false, x)) body).
    split; [reflexivity|]. split; [constructor; [exact I|apply BI]|]. split; [exact HB|].
    exists [((false, x), None)]. split; [reflexivity|]. cbn [flat_map seg_items]. rewrite (BN x body tail true SH), !app_nil_r. reflexivity.
  - destruct (nth_error (b_targets (co_block co b)) kk) as [e|] eqn:NE; [|discriminate].
    destruct (e_sink e || e_inter e)%bool eqn:SI; [discriminate|]. pose proof SI as SI'. apply orb_false_iff in SI'. destruct SI' as [S1 S2].
    cbn [next full_plan] in SG. fold (full_plan co g) in SG.
    destruct (segs co (full_plan co g) (false, e_trg e) ks) as [sl'|] eqn:SG'; [|discriminate]. injection SG as <-.
    assert (ST : FastPath.step co b (e_trg e)).
    { exists e. split; auto. apply filter_In. split; [eapply nth_error_In; eauto|]. unfold bp_edge. rewrite S1, S2. reflexivity. }
    assert (TN : tail = []).
    { destruct tail as [|i t]; auto. exfalso. destruct ST as (e' & He & _). rewrite (TL ltac:(discriminate)) in He. exact He. }
    assert (QN : Dfs.mem b (returning_pops co g) = false).
    { destruct (Dfs.mem b (returning_pops co g)) eqn:Q; auto. exfalso. apply mem_in in Q. apply filter_In in Q. destruct Q as [Q _].
      destruct (TE g HG b e Q (nth_error_In _ _ NE)); congruence. }
    assert (HB' : In (e_trg e) (f_blocks (co_fun co g))) by (eapply FO; eauto).
    destruct (orig_blocks co (e_trg e) ks) as [pt|] eqn:OB'; [|discriminate]. cbn [option_map] in OB. injection OB as OB.
    assert (NN : pt <> []).
    { intros ->. clear - OB'. destruct ks as [|n ks]; cbn [orig_blocks] in OB'; [discriminate|].
      destruct (nth_error _ n) as [e'|]; [|discriminate]. destruct (_ || _)%bool; [discriminate|].
      destruct (orig_blocks co (e_trg e') ks); discriminate. }
    destruct path as [|y path]; cbn [app] in OB; [injection OB as _ OB; congruence|].
    injection OB as EY OB. subst y pt.
    destruct (IH (e_trg e) sl' x path SG' HB' OB') as (mid & M1 & M2 & M3 & sl0 & M4 & M5).
    cbn [flat_map seg_items fst snd app]. rewrite (full_shape co g o FO b body tail false HB SH), QN, TN, M1. cbn [opt map app].
    replace (snips (full_sites o co g) (OnEdge (b, kk))) with (@nil snip).
    2:{ symmetry. apply snips_none. intros q [<-|Hq]; [discriminate|].
        apply in_map_iff in Hq. destruct Hq as (z & <- & _). discriminate. }
    exists (Here (false, b) :: map (Ins (false, b)) body ++ [Out (false, b)] ++ mid).
    split; [cbn [map]; repeat (progress (cbn [app]; rewrite <- ?app_assoc)); reflexivity|].
    split; [constructor; [exact I|]; apply Forall_app; split; [apply BI|]; constructor; [exact I|auto]|].
    split; [exact M3|]. exists (((false, b), Some kk) :: sl0). cbn [segs snd next]. rewrite NE, SI, M4. split; [reflexivity|].
    cbn [flat_map seg_items fst snd]. rewrite (BN b body tail false SH), TN, M5. cbn [map app]. rewrite <- !app_assoc. reflexivity.
Qed.
Lemma bare_of its : (forall sn, ~ In (Snip sn) its) -> Forall bare its.
Proof. intros H. rewrite Forall_forall. intros [n|n i|sn|n] K; cbn; auto. apply (H sn K). Qed.

(** ** What holds of the frames *)
Definition going (a : act) : Prop :=
  own co (a_fn a) /\ In (a_last a) (f_blocks (co_fun co (a_fn a))) /\
  if can_return fs (a_fn a)
  then a_rec a = true /\ exists mid, a_its a = mid ++ check_at (a_fn a) (a_last a) /\ Forall bare mid
  else Forall bare (a_its a).
Definition entered (a : act) : Prop :=
  own co (a_fn a) /\ In (a_last a) (f_blocks (co_fun co (a_fn a))) /\ can_return fs (a_fn a) = true /\ a_rec a = false /\
  exists mid, a_its a = Snip (StackPush (full_entry o co (a_fn a))) :: mid ++ check_at (a_fn a) (a_last a) /\ Forall bare mid.
Definition checked (a : act) : Prop :=
  own co (a_fn a) /\ a_rec a = true /\ a_its a = [].
Definition going_o (x : option act) : Prop := match x with Some a => going a | None => True end.
Definition all_going (fr : list frame) : Prop := Forall (fun f => going_o (fr_act f)) fr.
Definition top_ok (p : pstate) (f : frame) (fr : list frame) : Prop :=
  (going_o (fr_act f) /\ rep p (addresses fr)) \/
  (exists a, fr_act f = Some a /\ entered a /\ fr_old f = [] /\ load64 (p_mem p) (p_rg p RSP) = a_ra a /\
     (List.length (addresses fr) < k)%nat /\ rep p (addresses fr)) \/
  (exists a, fr_act f = Some a /\ checked a /\
     ((exists l', unwind (word_at X p) (addresses fr) = Some l' /\ rep p l') \/ (word_at X p = 0 /\ unwind 0 (addresses fr) = None))).
Definition inv (c : conf X) : Prop :=
  match c with
  | Run p fr => wfp X p /\ usable (p_rg p RSP) /\ bottomed fr /\ (throws = false -> fresh fr) /\ (List.length (addresses fr) <= k)%nat /\
      match fr with [] => False | f :: r => all_going r /\ top_ok p f fr end
  | Halt w ra old => (w <> ra \/ exists v, In v old /\ v mod 2 ^ 32 = 0) /\ (throws = false -> old = [])
  | Fail => False
  | Stray w => w = 0
  | Stale _ => throws = true
  end.

Notation begins := (begins co fl fs m true o).
Notation step := (step co fl fs m true o mp base k usable X sem L lib throws).
Lemma begins_ok g ra a : begins g ra a -> a_fn a = g /\ a_ra a = ra /\ a_rec a = false /\ (entered a \/ going a /\ can_return fs g = false).
Proof.
  intros (HG & ks & path & last & its & OB & IT & ->). cbn [a_fn a_ra a_rec]. split; [auto|]. split; [auto|]. split; [auto|].
  pose proof (path_blocks co fs PA g ks _ HG OB last) as HL. specialize (HL ltac:(apply in_or_app; right; left; auto)).
  unfold sites_of in IT. rewrite (plan_is g HG) in IT. destruct (can_return fs g) eqn:CR.
  - left. unfold entered. cbn [a_fn a_last a_rec a_its]. split; [auto|]. split; [auto|]. split; [auto|]. split; [auto|].
    unfold plan_items, full_plan in IT. fold (full_plan co g) in IT.
    destruct (segs co (full_plan co g) _ ks) as [sl|] eqn:SG; [|discriminate]. cbn [option_map] in IT.
    assert (EI : its = map Snip (snips (full_sites o co g) AtEntry) ++ flat_map (seg_items co (full_sites o co g)) sl) by congruence. clear IT.
    assert (ES : snips (full_sites o co g) AtEntry = [StackPush (full_entry o co g)]).
    { unfold full_sites. set (l := map _ _). change (_ :: l) with ([(AtEntry, StackPush (full_entry o co g))] ++ l).
      rewrite snips_app, (snips_none l). { reflexivity. }
      intros q Hq. apply in_map_iff in Hq. destruct Hq as (z & <- & _). discriminate. }
    rewrite ES in EI. cbn [map app] in EI.
    destruct (full_body g HG ks _ sl last path SG (proj1 (proj1 (p_fn _ _ PA g HG))) OB) as (mid & M1 & M2 & _ & _).
    exists mid. rewrite EI, M1. auto.
  - right. split; [|auto]. unfold going. cbn [a_fn a_last a_its]. split; [auto|]. split; [auto|]. rewrite CR.
    apply bare_of. eapply items_plain. exact IT.
Qed.
Lemma goes_on_ok a last its : own co (a_fn a) -> (can_return fs (a_fn a) = true -> a_rec a = true) ->
  goes_on co fl fs m true o (a_fn a) last its -> going (mkAct (a_fn a) last (a_ra a) (a_rec a) its).
Proof.
  intros HG AR (b & ks & path & sl & HB & OB & SG & ->). unfold going. cbn [a_fn a_last a_rec a_its].
  unfold sites_of. rewrite (plan_is _ HG) in *. destruct (can_return fs (a_fn a)) eqn:CR.
  - destruct (full_body _ HG ks b sl last path SG HB OB) as (mid & M1 & M2 & M3 & _). split; [auto|]. split; [auto|]. split; [auto|].
    exists mid. rewrite <- M1. auto.
  - assert (HL : In last (f_blocks (co_fun co (a_fn a)))).
    { destruct (p_fn _ _ PA _ HG) as ((_ & CL & _) & _). destruct (orig_bp co ks _ _ OB) as (r & E & P).
      assert (K : In last (b :: r)) by (rewrite <- E; apply in_or_app; right; left; auto). destruct K as [<-|K]; auto. eapply bp_in; eauto. }
    split; [auto|]. split; [auto|]. apply bare_of. intros sn K.
    assert (PI : plan_items co [] (a_fn a) Untouched [] = plan_items co [] (a_fn a) Untouched []) by reflexivity. clear PI.
    apply in_flat_map in K. destruct K as (sg & _ & K).
    assert (WV : forall n is, ~ In (Snip sn) (weave [] n is)).
    { intros n is Q. apply in_flat_map in Q. destruct Q as (j & _ & Q). cbn in Q. destruct Q as [Q|[]]. discriminate. }
    assert (NI : forall n la, ~ In (Snip sn) (node_items co [] n la)).
    { intros n la Q. unfold node_items in Q. destruct (cut _) as [bd tl]. destruct Q as [Q|Q]; [discriminate|].
      cbn [snips map filter app] in Q. apply in_app_or in Q. destruct Q as [Q|Q]; [apply (WV _ _ Q)|].
      destruct la.
      - apply in_flat_map in Q. destruct Q as (? & _ & []).
      - apply in_app_or in Q. destruct Q as [Q|[Q|[]]]; [apply (WV _ _ Q)|discriminate]. }
    destruct sg as [n [kk|]]; cbn [seg_items] in K; [|apply (NI _ _ K)].
    apply in_app_or in K. destruct K as [K|K]; [apply (NI _ _ K)|]. destruct (fst n); [|cbn in K]; contradiction.
Qed.

(** ** The inserted code *)
Lemma env_of p l : wfp X p -> usable (p_rg p RSP) -> rep p l -> (List.length l <= k)%nat ->
  env mp (as_state X base p) l (p_rg p RSP - rg (as_state X base p) RSP) k.
Proof.
  intros WF US RP LN. destruct (sp_stack _ _ _ _ SP _ US) as ((M1 & M2 & M3) & AP). pose proof (sp_shadow _ _ _ _ SP) as SH.
  pose proof (sp_top _ _ _ _ SP) as ST. unfold as_state. cbn [rg].
  constructor; cbn [rg gs mem]; auto.
  - split; [exact WF|]. destruct SH as (H1 & H2 & _). cbn. lia.
  - split; [lia|]. split; [lia|]. intros x Hx. apply M3. unfold inside in *. lia.
  - lia.
  - split; [lia|]. split; [lia|]. intros x Hx. apply M3. unfold inside in *. lia.
  - unfold apart in *. lia.
Qed.

Lemma push_step p g l : wfp X p -> usable (p_rg p RSP) -> rep p l -> (List.length l < k)%nat ->
  exists c, snip_code o (StackPush (full_entry o co g)) = Some c /\
  (exists out, exec c mp (as_state X base p) out) /\
  forall out, exec c mp (as_state X base p) out ->
  exists st, out = Done st /\ wfp X (of_state X st p) /\ p_rg (of_state X st p) RSP = p_rg p RSP /\
    rep (of_state X st p) (load64 (p_mem p) (p_rg p RSP) :: l).
Proof.
  intros WF US RP LN. destruct (full_e_ok co g o PL) as [OK EO].
  pose proof (env_of p l WF US RP ltac:(lia)) as EV.
  destruct (pushes_off (full_entry o co g) mp (as_state X base p) l k (p_rg p RSP) OK) as (c & st1 & C1 & C2 & C3 & C4 & _); auto.
  { rewrite EO. unfold as_state; cbn [rg]. lia. }
  exists c. split; [cbn [snip_code]; rewrite C1; reflexivity|]. split; [eauto|]. intros out EX. exists st1. split; [eapply exec_det; eauto|].
  pose proof (exec_wf _ _ _ _ (env_wf _ _ _ _ _ EV) C2) as WF1. split; [exact (proj1 WF1)|]. split; [exact C4|exact C3].
Qed.
Lemma check_step p g l : wfp X p -> usable (p_rg p RSP) -> rep p l -> (List.length l <= k)%nat ->
  exists c, snip_code o (StackPop (full_exit o co g)) = Some c /\
  (exists out, exec c mp (as_state X base p) out) /\
  (forall out, exec c mp (as_state X base p) out ->
   match out with
   | Done st => wfp X (of_state X st p) /\ p_rg (of_state X st p) RSP = p_rg p RSP /\ word_at X (of_state X st p) = word_at X p /\
       ((exists l', unwind (word_at X p) l = Some l' /\ rep (of_state X st p) l') \/ (word_at X p = 0 /\ unwind 0 l = None))
   | Trap => unwind (word_at X p) l = None \/ ~ clean_above (word_at X p) l
   | _ => False
   end).
Proof.
  intros WF US RP LN. destruct (full_x_ok co o PL g) as (_ & OK & XO & _).
  pose proof (env_of p l WF US RP LN) as EV. destruct (sp_stack _ _ _ _ SP _ US) as (_ & AP).
  destruct (checks_off (full_exit o co g) mp (as_state X base p) l k (p_rg p RSP) OK) as (c & C1 & C2); auto.
  { unfold as_state; cbn [rg]. change (x_off (full_exit o co g)) with 0. lia. }
  { unfold as_state; cbn [gs]. unfold apart in *. lia. }
  change (load64 (mem (as_state X base p)) (p_rg p RSP)) with (word_at X p) in C2.
  exists c. split; [cbn [snip_code]; rewrite C1; reflexivity|].
  assert (ZC : word_at X p = 0 -> unwind (word_at X p) l = None ->
    (sound l -> exists s', exec c mp (as_state X base p) (Done s') /\
       load64 (mem s') base = base + 24 /\ (forall r, ~ In (reg_name r) (x_dead (full_exit o co g)) -> rg s' r = p_rg p r) /\
       rg s' RSP = p_rg p RSP /\ gs s' = base /\
       (forall x, ~ inside (p_rg p RSP - x_scratch (full_exit o co g)) (x_scratch (full_exit o co g)) x -> ~ inside base 8 x ->
          mem s' x = p_mem p x)) /\ (~ sound l -> exec c mp (as_state X base p) Trap)).
  { intros W0 U. destruct (exit_zero (full_exit o co g) mp (as_state X base p) l k OK) as (c' & C1' & Z1 & Z2).
    - change (x_off (full_exit o co g)) with 0. replace 0 with (p_rg p RSP - rg (as_state X base p) RSP) by (unfold as_state; cbn [rg]; lia). exact EV.
    - change (x_off (full_exit o co g)) with 0. rewrite Z.add_0_r. unfold as_state; cbn [rg gs]. unfold apart in *. lia.
    - change (x_off (full_exit o co g)) with 0. rewrite Z.add_0_r. exact W0.
    - rewrite <- W0. exact U.
    - rewrite C1 in C1'. injection C1' as <-. split; [exact Z1|exact Z2]. }
  assert (DEC : clean_above (word_at X p) l \/ ~ clean_above (word_at X p) l).
  { clear. induction l as [|v l IH]; cbn; [auto|]. destruct (Z.eq_dec v (word_at X p)); [auto|].
    destruct (Z.eq_dec (v mod 2 ^ 32) 0) as [E|E]; [right; intros [K|[K _]]; auto|].
    destruct IH; [left; auto|right; intros [K|[_ K]]; auto]. }
  split.
  { destruct (unwind (word_at X p) l) as [l'|] eqn:U.
    - destruct C2 as [D T]. destruct DEC as [CA|NC]; [destruct (D CA) as (st1 & E1 & _); eauto|eauto].
    - destruct (Z.eq_dec (word_at X p) 0) as [W0|NZ]; [|eauto]. destruct (ZC W0 eq_refl) as [Z1 Z2].
      destruct (sound_dec l) as [SD|NS]; [destruct (Z1 SD) as (st1 & E1 & _); eauto|eauto]. }
  intros out EX.
  assert (WORD : forall st1, rg st1 RSP = p_rg p RSP ->
    (forall x, ~ inside (rg (as_state X base p) RSP - x_scratch (full_exit o co g)) (x_scratch (full_exit o co g)) x ->
       ~ inside (gs (as_state X base p)) 8 x -> mem st1 x = mem (as_state X base p) x) ->
    word_at X (of_state X st1 p) = word_at X p).
  { intros st1 E3 E6. unfold word_at. change (p_rg (of_state X st1 p) RSP) with (rg st1 RSP). rewrite E3.
    apply load64_ext. intros x Hx. cbn [of_state p_mem]. rewrite E6; [reflexivity| |].
    - pose proof (request_scratch_range (x_o (full_exit o co g)) (x_mid (full_exit o co g))
             (exit_dead_set (x_pt (full_exit o co g)) (x_js (full_exit o co g))) (proj2 OK)) as Q.
      fold (x_scratch (full_exit o co g)) in Q. unfold inside. cbn [as_state rg]. lia.
    - unfold inside. cbn [as_state gs]. unfold apart in AP. lia. }
  destruct (unwind (word_at X p) l) as [l'|] eqn:U.
  - destruct C2 as [D T].
    destruct DEC as [CA|NC].
    + destruct (D CA) as (st1 & E1 & E2 & E3 & _ & _ & E6). pose proof (exec_det _ _ _ _ _ E1 EX) as <-.
      pose proof (exec_wf _ _ _ _ (env_wf _ _ _ _ _ EV) E1) as WF1. split; [exact (proj1 WF1)|]. split; [exact E3|].
      split; [apply WORD; auto|left; exists l'; auto].
    + pose proof (exec_det _ _ _ _ _ (T NC) EX) as <-. auto.
  - destruct (Z.eq_dec (word_at X p) 0) as [W0|NZ]; [|pose proof (exec_det _ _ _ _ _ (C2 NZ) EX) as <-; auto].
    destruct (ZC W0 eq_refl) as [Z1 Z2].
    destruct (sound_dec l) as [SD|NS]; [|pose proof (exec_det _ _ _ _ _ (Z2 NS) EX) as <-; auto].
    destruct (Z1 SD) as (st1 & E1 & _ & _ & E3 & _ & E6). pose proof (exec_det _ _ _ _ _ E1 EX) as <-.
    pose proof (exec_wf _ _ _ _ (env_wf _ _ _ _ _ EV) E1) as WF1. split; [exact (proj1 WF1)|]. split; [exact E3|].
    split; [apply WORD; auto|]. right. split; [exact W0|]. rewrite <- W0. exact U.
Qed.

(** ** Every step *)
Lemma pushed_ok p ra l : wfp X p -> 0 <= ra < W -> usable (p_rg p RSP - 8) -> (List.length l <= k)%nat -> rep p l ->
  wfp X (pushed X p ra) /\ p_rg (pushed X p ra) RSP = p_rg p RSP - 8 /\ load64 (p_mem (pushed X p ra)) (p_rg p RSP - 8) = ra /\
  rep (pushed X p ra) l.
Proof.
  intros WF RA US LN RP. destruct (sp_stack _ _ _ _ SP _ US) as ((M1 & M2 & M3) & AP). unfold pushed. cbn [p_rg p_mem].
  split; [|split; [apply updr_same|split; [apply load64_store64_same; exact RA|]]].
  - intros r. cbn [p_rg]. destruct (reg_eq_dec r RSP) as [->|N]; [rewrite updr_same; pose proof (WF RSP); lia|].
    rewrite updr_other by auto. apply WF.
  - apply shadow_rep_ext with (m := p_mem p); [exact RP|]. unfold inside. intros x Hx. unfold store64. apply store_out.
    unfold apart in AP. cbn. lia.
Qed.
Lemma enter_top p ra g a fr l : begins g ra a -> l = addresses fr -> load64 (p_mem p) (p_rg p RSP) = ra -> (List.length l < k)%nat -> rep p l ->
  top_ok p (mkFrame (Some a) []) (mkFrame (Some a) [] :: fr) /\ addresses (mkFrame (Some a) [] :: fr) = l.
Proof.
  intros BG -> LW LN RP. destruct (begins_ok _ _ _ BG) as (B1 & B2 & B3 & B4).
  assert (E : addresses (mkFrame (Some a) [] :: fr) = addresses fr).
  { cbn [addresses flat_map]. unfold recorded, own_address. cbn [fr_old fr_act]. rewrite B3. reflexivity. }
  split; [|exact E]. unfold top_ok. rewrite E. destruct B4 as [B4|(B4 & _)].
  - right. left. exists a. split; [reflexivity|]. split; [exact B4|]. split; [reflexivity|]. split; [congruence|]. auto.
  - left. cbn [fr_act going_o]. auto.
Qed.
Lemma bare_going a x its : going a -> a_its a = x :: its -> bare x -> going (with_items a its).
Proof.
  intros (G1 & G2 & G3) E B. unfold going, with_items. cbn [a_fn a_last a_rec a_its]. split; [auto|]. split; [auto|].
  destruct (can_return fs (a_fn a)).
  - destruct G3 as (G3 & mid & M1 & M2). split; [auto|]. rewrite E in M1. destruct mid as [|y mid].
    + cbn [app] in M1. unfold check_at in M1. destruct (Dfs.mem _ _); cbn in M1; [|discriminate]. injection M1 as -> _. destruct B.
    + cbn [app] in M1. injection M1 as <- ->. inversion M2; subst. exists mid. auto.
  - rewrite E in G3. inversion G3; auto.
Qed.
(** A frame whose next item is an instruction or a block border. *)
Lemma top_bare p a old r x its : a_its a = x :: its -> bare x -> top_ok p (mkFrame (Some a) old) (mkFrame (Some a) old :: r) ->
  going a /\ rep p (addresses (mkFrame (Some a) old :: r)).
Proof.
  intros E B [(T1 & T2)|[(a' & T1 & (_ & _ & _ & _ & mid & T2 & _) & _)|(a' & T1 & (_ & _ & T2) & _)]]; auto; cbn [fr_act] in T1; injection T1 as <-.
  - rewrite E in T2. injection T2 as -> _. destruct B.
  - congruence.
Qed.
Lemma top_items p (a : act) its old r : going a -> going (with_items a its) -> rep p (addresses (mkFrame (Some a) old :: r)) ->
  top_ok p (mkFrame (Some (with_items a its)) old) (mkFrame (Some (with_items a its)) old :: r).
Proof. intros _ G R. left. split; [exact G|exact R]. Qed.
Lemma bottom_same a a' old r : bottomed (mkFrame (Some a) old :: r) -> bottomed (mkFrame (Some a') old :: r).
Proof. intros B. apply bottom_act in B. apply bottom_up. exact B. Qed.
Lemma fresh_same a a' old r : fresh (mkFrame a old :: r) -> fresh (mkFrame a' old :: r).
Proof. intros F f [<-|K]; [apply (F _ (or_introl eq_refl))|apply F; right; auto]. Qed.
Lemma fresh_up a r : fresh r -> fresh (mkFrame a [] :: r).
Proof. intros F f [<-|K]; auto. Qed.
Lemma clean_own old ra r : (forall v, In v old -> v mod 2 ^ 32 <> 0) -> clean_above ra (old ++ ra :: r).
Proof.
  induction old as [|v old IH]; intros H; cbn [app clean_above]; [auto|]. right. split; [apply H; left; auto|]. apply IH. intros x K. apply H. right; auto.
Qed.
Lemma dirty old : (exists v, In v old /\ v mod 2 ^ 32 = 0) \/ (forall v, In v old -> v mod 2 ^ 32 <> 0).
Proof.
  induction old as [|v old IH]; [right; contradiction|]. destruct (Z.eq_dec (v mod 2 ^ 32) 0) as [E|E].
  - left. exists v. split; [left; auto|auto].
  - destruct IH as [(x & K1 & K2)|IH]; [left; exists x; split; [right; auto|auto]|right]. intros x [<-|K]; auto.
Qed.
Lemma all_going_give j r : all_going r -> all_going (give j r).
Proof. unfold all_going. destruct r as [|f r]; cbn [give]; auto. intros F. inversion F; subst. constructor; auto. Qed.
(** Going on where a return leads. *)
Lemma at_ok p fr l : all_going fr -> bottomed fr -> wfp X p -> usable (p_rg p RSP) -> (throws = false -> fresh fr) -> addresses fr = l -> rep p l -> (List.length l <= k)%nat ->
  inv (Run p fr).
Proof.
  intros G B WF US FR <- RP LN. cbn [inv]. split; [auto|]. split; [auto|]. split; [auto|]. split; [auto|]. split; [auto|].
  destruct fr as [|f r]; [destruct (bottom_nil B)|]. inversion G; subst. split; [auto|]. left. auto.
Qed.

(** At the end of a path out of the function the check has been passed. *)
Lemma at_exit p a old r : a_its a = [] -> (is_ret co (a_last a) \/ exists e, is_tail co (a_last a) e) -> can_return fs (a_fn a) = true ->
  top_ok p (mkFrame (Some a) old) (mkFrame (Some a) old :: r) ->
  a_rec a = true /\ ((exists l', unwind (word_at X p) (addresses (mkFrame (Some a) old :: r)) = Some l' /\ rep p l') \/
    (word_at X p = 0 /\ leave (word_at X p) (a_ra a) old r = Nowhere)).
Proof.
  intros E LB CR [(T1 & T2)|[(a1 & T1 & (_ & _ & _ & _ & mid & T2 & _) & _)|(a1 & T1 & (T2 & T3 & T4) & T5)]]; cbn [fr_act] in T1.
  - exfalso. destruct T1 as (G1 & G2 & G3). rewrite CR in G3. destruct G3 as (_ & mid & M1 & _). rewrite E in M1.
    symmetry in M1. apply app_eq_nil in M1. destruct M1 as (_ & M1). unfold check_at in M1.
    pose proof (p_exits _ _ PA _ _ G1 G2 LB) as RE. apply nonret_prop in RE. apply andb_true_iff in RE. destruct RE as [R1 R2].
    assert (IX : Dfs.mem (a_last a) (returning_pops co (a_fn a)) = true).
    { apply mem_in. apply filter_In. split; [apply mem_in; auto|auto]. }
    rewrite IX in M1. discriminate.
  - injection T1 as <-. congruence.
  - injection T1 as <-. split; [exact T3|]. destruct T5 as [T5|(T5 & T6)]; [left; exact T5|right]. split; [exact T5|].
    rewrite T5. apply leave_none; auto.
Qed.
Lemma step_inv e c c' : inv c -> step e c c' -> inv c'.
Proof.
  intros I S. destruct S as [p a old r n its E|p a old r n its E|p p' a old r n i its E OC SE (Q1 & Q2 & Q3)
    |p a old r n i its e g ra a' E OC IC GT RA BG US LN|p a old r n i its e name E OC IC GO|p a old r n i its E
    |p p' x old r LX (Q1 & Q2 & Q3)|p old r g ra a' RA BG US LN|p old f r
    |p old u a old' r last its TH GO
    |p a old r sn c u its E SC EX|p a old r sn c its E SC EX|p a old r sn c its E SC EX|p a old r sn its E SC
    |p a old r E IR CR WP US|p a old r e g a' E IT CR GT BG|p a old r e name E IT CR GO];
    destruct I as (WF & UP & B & FR & LA & AG & TOP).
  - destruct (top_bare _ _ _ _ _ _ E I TOP) as (G & RP). cbn [inv]. split; [auto|]. split; [auto|].
    split; [eapply bottom_same; eauto|]. split; [intros T; eapply fresh_same; eauto|]. split; [exact LA|]. split; [auto|].
    apply top_items; auto. eapply bare_going; eauto. exact I.
  - destruct (top_bare _ _ _ _ _ _ E I TOP) as (G & RP). cbn [inv]. split; [auto|]. split; [auto|].
    split; [eapply bottom_same; eauto|]. split; [intros T; eapply fresh_same; eauto|]. split; [exact LA|]. split; [auto|].
    apply top_items; auto. eapply bare_going; eauto. exact I.
  - destruct (top_bare _ _ _ _ _ _ E I TOP) as (G & RP). cbn [inv]. split; [auto|]. split; [auto|].
    split; [eapply bottom_same; eauto|]. split; [intros T; eapply fresh_same; eauto|]. split; [exact LA|]. split; [auto|].
    apply top_items; auto. eapply bare_going; eauto. exact I.
  - destruct (top_bare _ _ _ _ _ _ E I TOP) as (G & RP). destruct (pushed_ok p ra _ WF RA US LA RP) as (P1 & P2 & P3 & P4).
    assert (LW : load64 (p_mem (pushed X p ra)) (p_rg (pushed X p ra) RSP) = ra) by (rewrite P2; exact P3).
    destruct (enter_top (pushed X p ra) ra g a' (mkFrame (Some (with_items a its)) old :: r) _ BG eq_refl LW LN P4) as (T1 & T2).
    cbn [inv]. split; [auto|]. split; [rewrite P2; auto|]. split; [apply bottom_up; eapply bottom_same; eauto|].
    split; [intros T; apply fresh_up; eapply fresh_same; eauto|]. rewrite T2. split; [exact LA|]. split; [|exact T1].
    constructor; [|exact AG]. cbn [fr_act going_o]. eapply bare_going; eauto. exact I.
  - destruct (top_bare _ _ _ _ _ _ E I TOP) as (G & RP). cbn [inv]. split; [auto|]. split; [auto|].
    split; [apply bottom_up; eapply bottom_same; eauto|]. split; [intros T; apply fresh_up; eapply fresh_same; eauto|].
    split; [exact LA|]. split; [constructor; [cbn [fr_act going_o]; eapply bare_going; eauto; exact I|exact AG]|]. left. split; [exact I|exact RP].
  - destruct (top_bare _ _ _ _ _ _ E I TOP) as (G & RP). cbn [inv]. split; [auto|]. split; [auto|].
    split; [apply bottom_up; eapply bottom_same; eauto|]. split; [intros T; apply fresh_up; eapply fresh_same; eauto|].
    split; [exact LA|]. split; [constructor; [exact G|exact AG]|]. left. split; [exact I|exact RP].
  - assert (RP : rep p (addresses (mkFrame None old :: r))).
    { destruct TOP as [(_ & T)|[(a' & T & _)|(a' & T & _)]]; auto; discriminate. }
    cbn [inv]. split; [auto|]. split; [auto|]. split; [auto|]. split; [auto|]. split; [auto|]. split; [auto|]. left. split; [exact I|]. apply Q3; auto.
  - assert (RP : rep p (addresses (mkFrame None old :: r))).
    { destruct TOP as [(_ & T)|[(a'' & T & _)|(a'' & l' & T & _)]]; auto; discriminate. }
    destruct (pushed_ok p ra _ WF RA US LA RP) as (P1 & P2 & P3 & P4).
    assert (LW : load64 (p_mem (pushed X p ra)) (p_rg (pushed X p ra) RSP) = ra) by (rewrite P2; exact P3).
    destruct (enter_top (pushed X p ra) ra g a' (mkFrame None old :: r) _ BG eq_refl LW LN P4) as (T1 & T2).
    cbn [inv]. split; [auto|]. split; [rewrite P2; auto|]. split; [apply bottom_up; auto|].
    split; [intros T; apply fresh_up; auto|]. rewrite T2. split; [exact LA|]. split; [|exact T1].
    constructor; [exact I|exact AG].
  - assert (RP : rep p (addresses (mkFrame None old :: f :: r))).
    { destruct TOP as [(_ & T)|[(a' & T & _)|(a' & T & _)]]; auto; discriminate. }
    assert (EA : addresses (mkFrame None old :: f :: r) = old ++ addresses (f :: r)).
    { cbn [addresses flat_map]. unfold recorded at 1. cbn [fr_old own_address fr_act]. rewrite app_nil_r. reflexivity. }
    apply (at_ok p (give old (f :: r)) (old ++ addresses (f :: r))); auto.
    + apply all_going_give; auto.
    + apply bottom_give. eapply bottom_cons; eauto. discriminate.
    + intros T. specialize (FR T). intros x [<-|K].
      * cbn [fr_old]. pose proof (FR _ (or_introl eq_refl)) as F1. pose proof (FR f (or_intror (or_introl eq_refl))) as F2. cbn in F1. subst old. exact F2.
      * apply FR. right. right. auto.
    + apply addresses_give. discriminate.
    + rewrite <- EA. exact RP.
    + rewrite <- EA. exact LA.
  - assert (RP : rep p (addresses (mkFrame None old :: u ++ mkFrame (Some a) old' :: r))).
    { destruct TOP as [(_ & T)|[(a' & T & _)|(a' & T & _)]]; auto; discriminate. }
    unfold all_going in AG. apply Forall_app in AG. destruct AG as (AG1 & AG2). inversion AG2 as [|x y G1 G2]; subst. cbn [fr_act going_o] in G1.
    set (a2 := mkAct (a_fn a) last (a_ra a) (a_rec a) its).
    assert (GA : going a2).
    { apply goes_on_ok; auto; [apply G1|]. intros CR. destruct G1 as (_ & _ & G1). rewrite CR in G1. apply G1. }
    assert (EA : addresses (mkFrame (Some a2) (addresses (mkFrame None old :: u) ++ old') :: r) =
                 addresses (mkFrame None old :: u ++ mkFrame (Some a) old' :: r)).
    { change (mkFrame None old :: u ++ mkFrame (Some a) old' :: r) with ((mkFrame None old :: u) ++ mkFrame (Some a) old' :: r).
      rewrite addresses_app. generalize (addresses (mkFrame None old :: u)). intros l. cbn [addresses flat_map]. unfold recorded, own_address.
      cbn [fr_old fr_act a_rec a_ra a2]. rewrite <- !app_assoc. reflexivity. }
    cbn [inv]. rewrite EA. split; [auto|]. split; [auto|]. split.
    { apply bottom_up. assert (K : bottomed (mkFrame (Some a) old' :: r)).
      { apply (bottom_drop (mkFrame None old :: u)); [discriminate|exact B]. }
      eapply bottom_act; eauto. }
    split; [congruence|]. split; [exact LA|]. split; [exact G2|]. left. rewrite EA. split; [exact GA|]. exact RP.
  - destruct TOP as [(T1 & T2)|[(a1 & T1 & (T2 & T3 & T4 & T5 & mid & T6 & T7) & T8 & T9 & T10 & T11)|(a1 & T1 & (_ & _ & T2) & _)]];
      cbn [fr_act fr_old] in *.
    + destruct T1 as (G1 & G2 & G3). destruct (can_return fs (a_fn a)) eqn:CR.
      2:{ rewrite E in G3. inversion G3 as [|? ? K]; subst. destruct K. }
      destruct G3 as (G3 & mid & M1 & M2). rewrite E in M1. destruct mid as [|x mid].
      2:{ cbn [app] in M1. injection M1 as <- _. inversion M2 as [|? ? K]; subst. destruct K. }
      cbn [app] in M1. unfold check_at in M1. destruct (Dfs.mem (a_last a) _) eqn:IX; cbn [opt map] in M1; [|discriminate]. injection M1 as -> ->.
      destruct (check_step p (a_last a) _ WF UP T2 LA) as (c' & C1 & _ & C2). rewrite SC in C1. injection C1 as <-.
      assert (RW : return_word X p [] = word_at X p).
      { unfold return_word, word_at. change (pops (left_of [])) with 0. rewrite Z.add_0_r. reflexivity. }
      destruct (C2 _ EX) as (D1 & D2 & D3 & D4). cbn [is_push]. rewrite orb_false_r.
      cbn [inv]. split; [auto|]. split; [rewrite D2; auto|]. split; [eapply bottom_same; eauto|].
      split; [intros T; eapply fresh_same; eauto|].
      change (addresses (mkFrame (Some (mkAct (a_fn a) (a_last a) (a_ra a) (a_rec a) [])) old :: r)) with (addresses (mkFrame (Some a) old :: r)).
      split; [exact LA|]. split; [exact AG|]. right. right. eexists. split; [reflexivity|]. split; [split; [exact G1|split; [exact G3|reflexivity]]|].
      rewrite D3. exact D4.
    + injection T1 as <-. rewrite E in T6. injection T6 as -> ->. subst old.
      assert (EA : addresses (mkFrame (Some a) [] :: r) = addresses r).
      { cbn [addresses flat_map]. unfold recorded, own_address. cbn [fr_old fr_act]. rewrite T5. reflexivity. }
      destruct (push_step p (a_fn a) _ WF UP T11 T10) as (c' & C1 & _ & C2). rewrite SC in C1. injection C1 as <-.
      destruct (C2 _ EX) as (st & D0 & D1 & D2 & D3). injection D0 as <-. rewrite T9, EA in D3. rewrite EA in T10.
      rewrite T5. cbn [is_push orb]. set (a2 := mkAct _ _ _ true _).
      assert (EA2 : addresses (mkFrame (Some a2) [] :: r) = a_ra a :: addresses r) by reflexivity.
      cbn [inv]. rewrite EA2. split; [auto|]. split; [rewrite D2; auto|]. split; [eapply bottom_same; eauto|]. split; [intros T; eapply fresh_same; eauto|].
      split; [cbn [List.length]; lia|]. split; [auto|]. left. rewrite EA2. split; [|exact D3].
      cbn [fr_act going_o]. unfold going, a2. cbn [a_fn a_last a_rec a_its]. rewrite T4. split; [auto|]. split; [auto|]. split; [auto|]. exists mid. auto.
    + injection T1 as <-. congruence.
  - destruct TOP as [(T1 & T2)|[(a1 & T1 & (T2 & T3 & T4 & T5 & mid & T6 & T7) & T8 & T9 & T10 & T11)|(a1 & T1 & (_ & _ & T2) & _)]];
      cbn [fr_act fr_old] in *.
    + destruct T1 as (G1 & G2 & G3). destruct (can_return fs (a_fn a)) eqn:CR.
      2:{ rewrite E in G3. inversion G3 as [|? ? K]; subst. destruct K. }
      destruct G3 as (G3 & mid & M1 & M2). rewrite E in M1. destruct mid as [|x mid].
      2:{ cbn [app] in M1. injection M1 as <- _. inversion M2 as [|? ? K]; subst. destruct K. }
      cbn [app] in M1. unfold check_at in M1. destruct (Dfs.mem (a_last a) _) eqn:IX; cbn [opt map] in M1; [|discriminate]. injection M1 as -> ->.
      destruct (check_step p (a_last a) _ WF UP T2 LA) as (c' & C1 & _ & C2). rewrite SC in C1. injection C1 as <-.
      assert (RW : return_word X p [] = word_at X p).
      { unfold return_word, word_at. change (pops (left_of [])) with 0. rewrite Z.add_0_r. reflexivity. }
      pose proof (C2 _ EX) as D. cbn [inv]. rewrite RW. split.
      * destruct (Z.eq_dec (word_at X p) (a_ra a)) as [WE|WE]; [|auto]. right.
        assert (EA : addresses (mkFrame (Some a) old :: r) = old ++ a_ra a :: addresses r).
        { cbn [addresses flat_map]. unfold recorded, own_address. cbn [fr_old fr_act]. rewrite G3, <- app_assoc. reflexivity. }
        rewrite EA, WE in D. destruct D as [D|D].
        -- apply unwind_none in D. destruct D. apply in_or_app. right. left. auto.
        -- destruct (dirty old) as [K|K]; [exact K|]. destruct D. apply clean_own. exact K.
      * intros T. apply (FR T _ (or_introl eq_refl)).
    + injection T1 as <-. rewrite E in T6. injection T6 as -> ->.
      destruct (push_step p (a_fn a) _ WF UP T11 T10) as (c' & C1 & _ & C2). rewrite SC in C1. injection C1 as <-.
      destruct (C2 _ EX) as (st & D0 & _). discriminate.
    + injection T1 as <-. congruence.
  - destruct TOP as [(T1 & T2)|[(a1 & T1 & (T2 & T3 & T4 & T5 & mid & T6 & T7) & T8 & T9 & T10 & T11)|(a1 & T1 & (_ & _ & T2) & _)]];
      cbn [fr_act fr_old] in *.
    + destruct T1 as (G1 & G2 & G3). destruct (can_return fs (a_fn a)) eqn:CR.
      2:{ rewrite E in G3. inversion G3 as [|? ? K]; subst. destruct K. }
      destruct G3 as (G3 & mid & M1 & M2). rewrite E in M1. destruct mid as [|x mid].
      2:{ cbn [app] in M1. injection M1 as <- _. inversion M2 as [|? ? K]; subst. destruct K. }
      cbn [app] in M1. unfold check_at in M1. destruct (Dfs.mem (a_last a) _) eqn:IX; cbn [opt map] in M1; [|discriminate]. injection M1 as -> ->.
      destruct (check_step p (a_last a) _ WF UP T2 LA) as (c' & C1 & _ & C2). rewrite SC in C1. injection C1 as <-.
      assert (RW : return_word X p [] = word_at X p).
      { unfold return_word, word_at. change (pops (left_of [])) with 0. rewrite Z.add_0_r. reflexivity. }
      destruct (C2 _ EX).
    + injection T1 as <-. rewrite E in T6. injection T6 as -> ->.
      destruct (push_step p (a_fn a) _ WF UP T11 T10) as (c' & C1 & _ & C2). rewrite SC in C1. injection C1 as <-.
      destruct (C2 _ EX) as (st & D0 & _). discriminate.
    + injection T1 as <-. congruence.
  - destruct TOP as [(T1 & T2)|[(a1 & T1 & (T2 & T3 & T4 & T5 & mid & T6 & T7) & T8 & T9 & T10 & T11)|(a1 & T1 & (_ & _ & T2) & _)]];
      cbn [fr_act fr_old] in *.
    + destruct T1 as (G1 & G2 & G3). destruct (can_return fs (a_fn a)) eqn:CR.
      2:{ rewrite E in G3. inversion G3 as [|? ? K]; subst. destruct K. }
      destruct G3 as (G3 & mid & M1 & M2). rewrite E in M1. destruct mid as [|x mid].
      2:{ cbn [app] in M1. injection M1 as <- _. inversion M2 as [|? ? K]; subst. destruct K. }
      cbn [app] in M1. unfold check_at in M1. destruct (Dfs.mem (a_last a) _) eqn:IX; cbn [opt map] in M1; [|discriminate]. injection M1 as -> ->.
      destruct (check_step p (a_last a) _ WF UP T2 LA) as (c' & C1 & _). congruence.
    + injection T1 as <-. rewrite E in T6. injection T6 as -> ->.
      destruct (push_step p (a_fn a) _ WF UP T11 T10) as (c' & C1 & _). congruence.
    + injection T1 as <-. congruence.
  - destruct (at_exit p a old r E (or_introl IR) CR TOP) as (AR & [(l' & U & RP)|(W0 & LV)]); [|rewrite LV; exact W0].
    pose proof (leave_ok (word_at X p) a old r l' AR (bottom_act _ _ _ B) U) as LV.
    destruct (leave _ _ _ _) as [fr'| |]; cbn [resume].
    + destruct LV as (L1 & L2 & L3 & L4). apply (at_ok _ _ l'); auto.
      * apply L3. exact AG.
      * intros T. apply L4; [apply (FR T _ (or_introl eq_refl))|]. intros f K. apply (FR T). right; auto.
      * pose proof (unwind_len _ _ _ U). lia.
    + cbn [inv]. destruct throws eqn:TH; [reflexivity|]. destruct (LV (FR eq_refl)).
    + destruct LV.
  - destruct (at_exit p a old r E (or_intror (ex_intro _ e IT)) CR TOP) as (AR & [(l' & U & RP)|(W0 & LV)]); [|rewrite LV; exact W0].
    pose proof (leave_ok (word_at X p) a old r l' AR (bottom_act _ _ _ B) U) as LV.
    destruct (leave _ _ _ _) as [fr'| |]; cbn [resume].
    + destruct LV as (L1 & L2 & L3 & L4). pose proof (unwind_len _ _ _ U) as UL.
      destruct (enter_top p (word_at X p) g a' fr' l' BG (eq_sym L1) eq_refl ltac:(lia) RP) as (T1 & T2).
      cbn [inv]. split; [auto|]. split; [auto|]. split; [apply bottom_up; auto|].
      split; [intros T; apply fresh_up; apply L4; [apply (FR T _ (or_introl eq_refl))|]; intros f K; apply (FR T); right; auto|].
      rewrite T2. split; [lia|]. split; [apply L3; exact AG|exact T1].
    + cbn [inv]. destruct throws eqn:TH; [reflexivity|]. destruct (LV (FR eq_refl)).
    + destruct LV.
  - destruct (at_exit p a old r E (or_intror (ex_intro _ e IT)) CR TOP) as (AR & [(l' & U & RP)|(W0 & LV)]); [|rewrite LV; exact W0].
    pose proof (leave_ok (word_at X p) a old r l' AR (bottom_act _ _ _ B) U) as LV.
    destruct (leave _ _ _ _) as [fr'| |]; cbn [resume].
    + destruct LV as (L1 & L2 & L3 & L4). pose proof (unwind_len _ _ _ U) as UL.
      apply (at_ok p (library :: fr') l'); auto.
      * constructor; [exact I|]. apply L3. exact AG.
      * apply bottom_up; auto.
      * intros T; apply fresh_up; apply L4; [apply (FR T _ (or_introl eq_refl))|]; intros f K; apply (FR T); right; auto.
      * lia.
    + cbn [inv]. destruct throws eqn:TH; [reflexivity|]. destruct (LV (FR eq_refl)).
    + destruct LV.
Qed.

(** ** Inserted code comes to an end *)
Lemma snip_runs p a old r sn its : inv (Run p (mkFrame (Some a) old :: r)) -> a_its a = Snip sn :: its ->
  exists c', step [] (Run p (mkFrame (Some a) old :: r)) c'.
Proof.
  intros (WF & UP & B & FR & LA & AG & TOP) E.
  assert (GO : forall c out, snip_code o sn = Some c -> exec c mp (as_state X base p) out ->
    exists c', step [] (Run p (mkFrame (Some a) old :: r)) c').
  { intros c [u| | |] SC EX; [eexists; eapply s_snip; eauto|eexists; eapply s_trap; eauto|eexists; eapply s_fault; eauto|].
    destruct EX as (K & _). congruence. }
  destruct TOP as [(T1 & T2)|[(a1 & T1 & (T2 & T3 & T4 & T5 & mid & T6 & T7) & T8 & T9 & T10 & T11)|(a1 & T1 & (_ & _ & T2) & _)]];
    cbn [fr_act fr_old] in *.
  - destruct T1 as (G1 & G2 & G3). destruct (can_return fs (a_fn a)) eqn:CR.
    2:{ rewrite E in G3. inversion G3 as [|? ? K]; subst. destruct K. }
    destruct G3 as (G3 & mid & M1 & M2). rewrite E in M1. destruct mid as [|x mid].
    2:{ cbn [app] in M1. injection M1 as <- _. inversion M2 as [|? ? K]; subst. destruct K. }
    cbn [app] in M1. unfold check_at in M1. destruct (Dfs.mem (a_last a) _) eqn:IX; cbn [opt map] in M1; [|discriminate]. injection M1 as -> ->.
    destruct (check_step p (a_last a) _ WF UP T2 LA) as (c' & C1 & C2 & _).
    destruct C2 as (out & EX). exact (GO c' out C1 EX).
  - injection T1 as <-. rewrite E in T6. injection T6 as -> ->.
    destruct (push_step p (a_fn a) _ WF UP T11 T10) as (c' & C1 & (out & EX) & _). exact (GO c' out C1 EX).
  - injection T1 as <-. congruence.
Qed.
End FX.
