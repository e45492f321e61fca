(** * FullMode: instrumentation without analyses (--shadow_stack=full)
      (instrument.cc:700-720, 849-873: the summary is a null pointer) *)
From Coq Require Import ZArith Bool Lia ZifyBool ZifyNat Arith String List.
From Verif Require Import Machine MachineFacts Jit ShadowSpec JitFacts JitPushPop History RegFrame ZeroWord.
From Verif Require Import Dfs Binary CallGraph InterProc MemPasses Pipeline RegNames BlockLive
  Reach SafePaths Lowering FastPath Decision P_Instr FullRun Whole Sites P_Sites Order Activation PlanCode ActRun.
Import ListNotations.
Open Scope Z_scope.
Local Notation mem := Machine.mem.
Local Notation pushes := BlockLive.pushes.

(** Snippets made without a summary (jit.cc:190-230 and 338-383 with [summary == nullptr]) are
    those for a summary in which nothing has been found. *)
Definition none_dead : dead_info := mkDead [] [].
Definition none_js : jsum := jsum_of none_dead summary0.
Lemma push_none o rm pt h : jit_stack_push o rm pt None false h false = jit_stack_push o rm pt (Some none_js) false 0 false.
Proof. unfold jit_stack_push. destruct (is_empty_run o); reflexivity. Qed.
Lemma pop_none o rm pt : jit_stack_pop o rm pt None false = jit_stack_pop o rm pt (Some none_js) false.
Proof. unfold jit_stack_pop. destruct (is_empty_run o); reflexivity. Qed.

(** Places and snippets (849-860; exits that are calls of non-returning functions are left out, 168-183). *)
Definition full_entry (o : opts) (co : code) (fn : nat) : ereq :=
  mkEreq o (bpoint co (f_entry (co_fun co fn))) none_js false 0 false.
Definition full_exit (o : opts) (co : code) (b : nat) : xreq := mkXreq o (bpoint co b) none_js false.
Definition full_sites (o : opts) (co : code) (fn : nat) : list (place * snip) :=
  (AtEntry, StackPush (full_entry o co fn)) ::
  map (fun b => (AtEnd (false, b), StackPop (full_exit o co b))) (returning_pops co fn).
Definition full_plan (co : code) (fn : nat) : plan := ByEntry false (returning_pops co fn) false.

Lemma full_sites_eq fl o co fn : full_sites o co fn = plan_sites co fl o none_dead summary0 fn (full_plan co fn).
Proof.
  unfold full_sites, full_plan, plan_sites, entry_site. f_equal. apply map_ext. intros b.
  unfold pop_site, opt_mid. cbn [summary0 s_exitData zfind]. destruct (fl_no_reg_save fl); reflexivity.
Qed.
(** A return ends its block, and nothing of the function follows. *)
Definition ret_last (co : code) (fn : nat) : Prop :=
  forall b, In b (f_blocks (co_fun co fn)) -> exists body tail,
    block_shape (b_insns (co_block co b)) body tail /\ (tail <> [] -> out_edges co b = []).
Lemma tidy_last co fn : tidy co fn -> ret_last co fn.
Proof. intros T b HB. destruct (T b HB) as (body & tail & A & _ & _ & B). eauto. Qed.

Section FM.
Variables (co : code) (fn : nat) (o : opts).
Hypothesis FO : fn_ok co fn.
Hypothesis TE : terminal_exits co fn.
Hypothesis PL : plain o.
Hypothesis RL : ret_last co fn.
Notation blk b := (co_block co b).
Notation bs := (f_blocks (co_fun co fn)).
Notation entry := (f_entry (co_fun co fn)).
Notation sites := (full_sites o co fn).
Notation p := (full_plan co fn).

Lemma full_e_ok : e_ok (full_entry o co fn) /\ e_off (full_entry o co fn) = 0.
Proof.
  split; [|reflexivity]. split; [exact PL|]. right. left. reflexivity.
Qed.
Lemma full_x_ok b : pop_ok o [] (full_exit o co b).
Proof.
  split; [constructor|]. split; [|split; [reflexivity|]].
  - split; [exact PL|]. right. left. reflexivity.
  - intros NO. unfold x_dead. change (x_mid (full_exit o co b)) with (@None mid). cbn [request_dead full_exit x_o]. rewrite NO. intros x [].
Qed.
Lemma full_shape b body tail last : In b bs -> block_shape (b_insns (blk b)) body tail ->
  node_items co sites (false, b) last =
    Here (false, b) :: map (Ins (false, b)) body ++
    map Snip (opt (Dfs.mem b (returning_pops co fn)) (StackPop (full_exit o co b))) ++
    (if last then [] else map (Ins (false, b)) tail ++ [Out (false, b)]).
Proof.
  intros HB SH.
  assert (OTHER : forall pl, (forall x, pl <> AtEnd x) -> pl <> AtEntry -> snips sites pl = []).
  { intros pl H1 H2. apply snips_none. intros q [<-|Hq]; [cbn; congruence|].
    apply in_map_iff in Hq. destruct Hq as (x & <- & _). cbn [fst]. intros K. apply (H1 (false, x)). auto. }
  assert (ATEND : snips sites (AtEnd (false, b)) = opt (Dfs.mem b (returning_pops co fn)) (StackPop (full_exit o co b))).
  { unfold full_sites. set (l := map _ _). change (_ :: l) with ([(AtEntry, StackPush (full_entry o co fn))] ++ l).
    rewrite snips_app. unfold l. rewrite (snips_map Nat.eq_dec _ _ _ b).
    2:{ intros c0 _ E. cbn [fst] in E. congruence. }
    replace (placeb _ _) with true by (symmetry; apply placeb_iff; reflexivity).
    cbn [snd]. change (snips [_] _) with (@nil snip). rewrite app_nil_l. apply opt_repeat. apply once.
    apply NoDup_filter. apply FO. }
  unfold node_items, weave. cbn [snd]. rewrite (cut_shape _ _ _ SH), OTHER, ATEND by discriminate.
  rewrite !weaveg_none by (intros; apply OTHER; discriminate). cbn [map app].
  replace (flat_map _ tail) with (@nil item); [reflexivity|].
  symmetry. clear - OTHER. induction tail as [|i t IH]; cbn [flat_map]; [auto|]. rewrite OTHER, IH by discriminate. reflexivity.
Qed.

Variable X : Type.
Variable sem : insn -> pst Machine.flags X -> option (pst Machine.flags X).
Variable mp : perm.
Variables base lo cfa hi : Z.
Variable width : insn -> Z.
Variable stk : Z -> Prop.
Variable gentle : nat -> Prop.
Variable sc : scope X.
Variable k : nat.
Notation pstate := (pst Machine.flags X).
Notation irun := (irun X co sem mp o base lo cfa width stk gentle sc).
Notation ground := (ground X base lo cfa sc).
Notation gone := (gone X sc).
Hypothesis RM : room co fn X mp base lo cfa hi stk sc k.
Variables (ra : Z) (l0 : list Z).
Hypothesis DEPTH : (List.length l0 < k)%nat.
Variable items : list item.
Variable p0 : pstate.
(** The word at the top of the stack, just before the return. *)
Definition full_result (out : outcome X) : Prop :=
  match out with
  | Fin _ p1 => (exists l', unwind (load64 (p_mem p1) (p_rg p1 RSP)) (ra :: l0) = Some l' /\ shadow_rep (p_mem p1) base l') \/
      (load64 (p_mem p1) (p_rg p1 RSP) = 0 /\ ~ In 0 (ra :: l0))
  | Stopped _ st r => left_of r = [] /\ load64 (p_mem st) (p_rg st RSP) <> ra
  | Crashed _ _ _ => False
  end.
Lemma none_exit a l : zfind (di_exit none_dead) a = Some l -> good_dead o l.
Proof. discriminate. Qed.

Lemma unwind_absent w l : unwind w l = None -> ~ In w l.
Proof.
  induction l as [|v l IH]; cbn [unwind]; intros H; [intros []|]. destruct (v =? w) eqn:E; [discriminate|].
  intros [K|K]; [lia|]. exact (IH H K).
Qed.
Lemma full_go : forall ks b sl done st out x path,
  segs co p (false, b) ks = Some sl -> In b bs ->
  orig_blocks co b ks = Some (path ++ [x]) -> In x (returning_pops co fn) ->
  items = done ++ flat_map (seg_items co sites) sl ->
  irun done p0 (Fin X st) -> irun (flat_map (seg_items co sites) sl) st out ->
  ground (ra :: l0) st -> full_result out.
Proof.
  induction ks as [|kk ks IH]; intros b sl done st out x path SG HB OB IX EI RD R G;
    destruct (RL b HB) as (body & tail & SH & TL); cbn [segs orig_blocks snd] in SG, OB.
  - injection SG as <-. injection OB as OB. destruct path as [|y [|]]; try discriminate. injection OB as ->.
    cbn [flat_map seg_items] in EI, R. rewrite app_nil_r in EI, R. rewrite (full_shape x body tail true HB SH), app_nil_r in EI, R.
    apply mem_in in IX. rewrite IX in EI, R. cbn [opt map app] in EI, R.
    apply irun_here in R. destruct R as [HO R]. apply irun_ins in R. destruct R as (st1 & S1 & R1).
    pose proof (steps_ground _ _ _ _ _ _ _ _ _ _ _ _ _ _ _ S1 G) as G1.
    apply steps_irun with (mp := mp) (o := o) in S1 as RB.
    destruct (do_check co fn o none_dead p
      none_exit X sem mp base lo cfa hi width stk gentle sc k RM ra l0 DEPTH
      (full_exit o co x) x [] st1 [] out G1 HB (incl_nil_l _) (Nat.le_0_l _) (full_x_ok x) R1)
      as [(W0 & UN & st2 & K1 & K2 & K3)|[(st2 & l' & K1 & K2 & K3 & K4 & K5 & K6)|(K1 & K2)]];
      change (pops []) with 0 in *; rewrite ?Z.add_0_r in *.
    + apply irun_nil in K1. subst out. right. rewrite K3, K2. split; [exact W0|]. rewrite W0 in UN. apply unwind_absent. exact UN.
    + apply irun_nil in K2. subst out. left. exists l'. rewrite K6, K5. auto.
    + rewrite K1. split; [reflexivity|exact K2].
  - destruct (nth_error (b_targets (blk b)) kk) as [e|] eqn:NE; [|discriminate].
    destruct (e_sink e || e_inter e)%bool eqn:SI; [discriminate|]. pose proof SI as SI'. apply orb_false_iff in SI'. destruct SI' as [S1 S2].
    cbn [next full_plan] in SG. fold p in SG.
    destruct (segs co p (false, e_trg e) ks) as [sl'|] eqn:SG'; [|discriminate]. injection SG as <-.
    assert (ST : FastPath.step co b (e_trg e)).
    { exists e. split; auto. apply filter_In. split; [eapply nth_error_In; eauto|]. unfold bp_edge. rewrite S1, S2. reflexivity. }
    assert (TN : tail = []).
    { destruct tail as [|i t]; auto. exfalso. destruct ST as (e' & He & _). rewrite (TL ltac:(discriminate)) in He. exact He. }
    assert (QN : Dfs.mem b (returning_pops co fn) = false).
    { destruct (Dfs.mem b (returning_pops co fn)) eqn:Q; auto. exfalso. apply mem_in in Q. apply filter_In in Q. destruct Q as [Q _].
      destruct (TE b e Q (nth_error_In _ _ NE)); congruence. }
    assert (HB' : In (e_trg e) bs) by (eapply FO; eauto).
    cbn [flat_map seg_items fst snd] in EI, R. rewrite (full_shape b body tail false HB SH), QN, TN in EI, R. cbn [opt map app] in EI, R.
    replace (snips sites (OnEdge (b, kk))) with (@nil snip) in EI, R.
    2:{ symmetry. apply snips_none. intros q [<-|Hq]; [discriminate|].
        apply in_map_iff in Hq. destruct Hq as (z & <- & _). discriminate. }
    cbn [map] in EI, R. rewrite app_nil_r in EI, R.
    apply irun_here in R. destruct R as [HO R]. rewrite <- app_assoc in R. apply irun_ins in R. destruct R as (st1 & S3 & R1).
    pose proof (steps_ground _ _ _ _ _ _ _ _ _ _ _ _ _ _ _ S3 G) as G1.
    apply steps_irun with (mp := mp) (o := o) in S3 as RB.
    cbn [app] in R1. apply irun_out in R1. destruct R1 as [OO R1].
    destruct (orig_blocks co (e_trg e) ks) as [pt|] eqn:OB'; [|discriminate]. cbn [option_map] in OB. injection OB as OB.
    assert (NN : pt <> []).
    { intros ->. clear - OB'. destruct ks as [|n ks]; cbn [orig_blocks] in OB'; [discriminate|].
      destruct (nth_error _ n) as [e'|]; [|discriminate]. destruct (_ || _)%bool; [discriminate|].
      destruct (orig_blocks co (e_trg e') ks); discriminate. }
    destruct path as [|y path].
    + cbn [app] in OB. injection OB as _ OB. congruence.
    + cbn [app] in OB. injection OB as _ OB. subst pt.
      apply (IH (e_trg e) sl' (done ++ Here (false, b) :: map (Ins (false, b)) body ++ [Out (false, b)]) st1 out x path); auto.
      * rewrite EI. repeat (progress (cbn [app]; rewrite <- ?app_assoc)). reflexivity.
      * eapply irun_app; [exact RD|]. constructor; [exact HO|]. eapply irun_app; [exact RB|]. constructor; [exact OO|constructor].
Qed.
Lemma full_run ks out x path : orig_blocks co entry ks = Some (path ++ [x]) -> In x (returning_pops co fn) ->
  plan_items co sites fn p ks = Some items ->
  ground l0 p0 -> gone p0 = false -> p_rg p0 RSP = cfa - 8 -> load64 (p_mem p0) (cfa - 8) = ra ->
  irun items p0 out -> full_result out.
Proof.
  intros OB IX PI G TM RS W R. unfold plan_items, full_plan in PI. fold p in PI.
  destruct (segs co p (false, entry) ks) as [sl|] eqn:SG; [|discriminate]. cbn [option_map] in PI.
  assert (EI : items = map Snip (snips sites AtEntry) ++ flat_map (seg_items co sites) sl) by congruence. clear PI.
  assert (ES : snips sites AtEntry = [StackPush (full_entry o co fn)]).
  { unfold full_sites. set (l := map _ _). change (_ :: l) with ([(AtEntry, StackPush (full_entry o co fn))] ++ l).
    rewrite snips_app, (snips_none l). { reflexivity. }
    intros q Hq. apply in_map_iff in Hq. destruct Hq as (z & <- & _). discriminate. }
  rewrite ES in EI. cbn [map app] in EI. rewrite EI in R. destruct full_e_ok as [OK EO].
  destruct (do_push co fn o none_dead p FO
      none_exit X sem mp base lo cfa hi width stk gentle sc k RM ra l0 DEPTH
      (full_entry o co fn) p0 _ out G TM W OK ltac:(lia) R) as (st2 & J1 & J2 & J3 & J4).
  apply (full_go ks entry sl [Snip (StackPush (full_entry o co fn))] st2 out x path); auto; [apply FO|].
  eapply drun_irun. exact J1.
Qed.

(** ** What the inserted code leaves as it was *)
Definition bare (x : item) : Prop := match x with Snip _ => False | _ => True end.
Lemma bare_run mid r : forall st out, Forall bare mid -> irun (mid ++ r) st out ->
  exists st', irun mid st (Fin X st') /\ irun r st' out.
Proof.
  induction mid as [|x mid IH]; intros st out B H; cbn [app] in H; [exists st; split; [constructor|auto]|].
  inversion B as [|? ? B1 B2]; subst. inversion H; subst; cbn [bare] in B1; try contradiction;
    match goal with K : irun (mid ++ r) _ _ |- _ => apply (IH _ _ B2) in K; destruct K as (st' & K1 & K2) end;
    exists st'; split; auto; econstructor; eauto.
Qed.
Lemma bare_prun mid : forall st st', Forall bare mid -> irun mid st (Fin X st') -> prun sem (left_of mid) st = Some st'.
Proof.
  induction mid as [|x mid IH]; intros st st' B H; [apply irun_nil in H; injection H as <-; reflexivity|].
  inversion B as [|? ? B1 B2]; subst. inversion H; subst; cbn [bare] in B1; try contradiction;
    cbn [left_of flat_map app]; fold (left_of mid); auto.
  cbn [prun]. match goal with K : sem _ _ = Some _ |- _ => rewrite K end. auto.
Qed.
Lemma bare_ground mid lst : forall st st', Forall bare mid -> irun mid st (Fin X st') -> ground lst st -> ground lst st'.
Proof.
  induction mid as [|x mid IH]; intros st st' B H G; [apply irun_nil in H; injection H as <-; auto|].
  inversion B as [|? ? B1 B2]; subst. inversion H; subst; cbn [bare] in B1; try contradiction; eauto.
  match goal with K : step_ok _ _ _ _ _ _ _ _ _ _ _ _ _ |- _ => destruct K as (A1 & A2 & A3 & _) end.
  eapply IH; eauto. destruct G as (_ & _ & G3). split; [auto|]. split; auto.
Qed.

(** The code along a path: the push, the path as it was, the check. *)
Lemma full_mid : forall ks b sl x path, segs co p (false, b) ks = Some sl -> In b bs ->
  orig_blocks co b ks = Some (path ++ [x]) -> In x (returning_pops co fn) ->
  exists mid, flat_map (seg_items co sites) sl = mid ++ [Snip (StackPop (full_exit o co x))] /\ Forall bare mid /\
    left_of mid = flat_map (fun c => fst (cut (b_insns (blk c)))) (path ++ [x]).
Proof.
  assert (BI : forall n is, Forall bare (map (Ins n) is)).
  { intros n is. rewrite Forall_map. rewrite Forall_forall. intros i _. exact I. }
  induction ks as [|kk ks IH]; intros b sl x path SG HB OB IX;
    destruct (RL b HB) as (body & tail & SH & TL); cbn [segs orig_blocks snd] in SG, OB.
  - injection SG as <-. injection OB as OB. destruct path as [|y [|]]; try discriminate. injection OB as ->.
    cbn [flat_map seg_items app]. rewrite app_nil_r. rewrite (full_shape x body tail true HB SH), !app_nil_r.
    apply mem_in in IX. rewrite IX. exists (Here (false, x) :: map (Ins (false, x)) body).
    split; [reflexivity|]. split; [constructor; [exact I|apply BI]|].
    rewrite (cut_shape _ _ _ SH). cbn [fst]. change (left_of (Here (false, x) :: map (Ins (false, x)) body)) with (left_of (map (Ins (false, x)) body)).
    apply left_of_ins.
  - destruct (nth_error (b_targets (blk b)) kk) as [e|] eqn:NE; [|discriminate].
    destruct (e_sink e || e_inter e)%bool eqn:SI; [discriminate|]. pose proof SI as SI'. apply orb_false_iff in SI'. destruct SI' as [S1 S2].
    cbn [next full_plan] in SG. fold p in SG.
    destruct (segs co p (false, e_trg e) ks) as [sl'|] eqn:SG'; [|discriminate]. injection SG as <-.
    assert (ST : FastPath.step co b (e_trg e)).
    { exists e. split; auto. apply filter_In. split; [eapply nth_error_In; eauto|]. unfold bp_edge. rewrite S1, S2. reflexivity. }
    assert (TN : tail = []).
    { destruct tail as [|i t]; auto. exfalso. destruct ST as (e' & He & _). rewrite (TL ltac:(discriminate)) in He. exact He. }
    assert (QN : Dfs.mem b (returning_pops co fn) = false).
    { destruct (Dfs.mem b (returning_pops co fn)) eqn:Q; auto. exfalso. apply mem_in in Q. apply filter_In in Q. destruct Q as [Q _].
      destruct (TE b e Q (nth_error_In _ _ NE)); congruence. }
    assert (HB' : In (e_trg e) bs) by (eapply FO; eauto).
    destruct (orig_blocks co (e_trg e) ks) as [pt|] eqn:OB'; [|discriminate]. cbn [option_map] in OB. injection OB as OB.
    assert (NN : pt <> []).
    { intros ->. clear - OB'. destruct ks as [|n ks]; cbn [orig_blocks] in OB'; [discriminate|].
      destruct (nth_error _ n) as [e'|]; [|discriminate]. destruct (_ || _)%bool; [discriminate|].
      destruct (orig_blocks co (e_trg e') ks); discriminate. }
    destruct path as [|y path]; cbn [app] in OB; [injection OB as _ OB; congruence|].
    injection OB as EY OB. subst y pt.
    destruct (IH (e_trg e) sl' x path SG' HB' OB' IX) as (mid & M1 & M2 & M3).
    cbn [flat_map seg_items fst snd app]. rewrite (full_shape b body tail false HB SH), QN, TN, M1. cbn [opt map app].
    replace (snips sites (OnEdge (b, kk))) with (@nil snip).
    2:{ symmetry. apply snips_none. intros q [<-|Hq]; [discriminate|].
        apply in_map_iff in Hq. destruct Hq as (z & <- & _). discriminate. }
    exists (Here (false, b) :: map (Ins (false, b)) body ++ [Out (false, b)] ++ mid).
    split; [cbn [map]; repeat (progress (cbn [app]; rewrite <- ?app_assoc)); reflexivity|]. split.
    + constructor; [exact I|]. apply Forall_app. split; [apply BI|]. constructor; [exact I|auto].
    + rewrite (cut_shape _ _ _ SH). cbn [fst].
      change (left_of (Here (false, b) :: map (Ins (false, b)) body ++ [Out (false, b)] ++ mid)) with
        (left_of (map (Ins (false, b)) body ++ [Out (false, b)] ++ mid)).
      rewrite left_of_app, left_of_ins. change (left_of ([Out (false, b)] ++ mid)) with (left_of mid). rewrite M3. reflexivity.
Qed.
Lemma full_items ks x path : orig_blocks co entry ks = Some (path ++ [x]) -> In x (returning_pops co fn) ->
  plan_items co sites fn p ks = Some items ->
  exists mid, items = Snip (StackPush (full_entry o co fn)) :: mid ++ [Snip (StackPop (full_exit o co x))] /\
    Forall bare mid /\ left_of mid = flat_map (fun c => fst (cut (b_insns (blk c)))) (path ++ [x]).
Proof.
  intros OB IX PI. unfold plan_items, full_plan in PI. fold p in PI.
  destruct (segs co p (false, entry) ks) as [sl|] eqn:SG; [|discriminate]. cbn [option_map] in PI.
  assert (EI : items = map Snip (snips sites AtEntry) ++ flat_map (seg_items co sites) sl) by congruence. clear PI.
  assert (ES : snips sites AtEntry = [StackPush (full_entry o co fn)]).
  { unfold full_sites. set (l := map _ _). change (_ :: l) with ([(AtEntry, StackPush (full_entry o co fn))] ++ l).
    rewrite snips_app, (snips_none l). { reflexivity. }
    intros q Hq. apply in_map_iff in Hq. destruct Hq as (z & <- & _). discriminate. }
  rewrite ES in EI. cbn [map app] in EI.
  destruct (full_mid ks entry sl x path SG (proj1 FO) OB IX) as (mid & M1 & M2 & M3).
  exists mid. rewrite EI, M1. auto.
Qed.

(** Registers, and memory outside [D]. *)
Definition alike (D : Z -> Prop) (a b : pstate) : Prop :=
  (forall r, p_rg a r = p_rg b r) /\ p_rest a = p_rest b /\ forall x, ~ D x -> p_mem a x = p_mem b x.
(** The sixteen bytes below rsp, the top pointer of the shadow stack and its next free word. *)
Definition scratch (a : pstate) (x : Z) : Prop :=
  inside (p_rg a RSP - 16) 16 x \/ inside base 8 x \/ inside (ShadowSpec.slot base (List.length l0)) 8 x.

Lemma full_push st : ground l0 st -> gone st = false -> p_rg st RSP = cfa - 8 -> load64 (p_mem st) (cfa - 8) = ra ->
  exists st', irun [Snip (StackPush (full_entry o co fn))] st (Fin X st') /\ ground (ra :: l0) st' /\
    alike (scratch st) st st' /\ p_fl st' = p_fl st.
Proof.
  intros G TM RS W. destruct full_e_ok as [OK EO].
  assert (EV : env mp (Activation.as_state X base st) l0 (cfa - 8 - rg (Activation.as_state X base st) RSP) k).
  { unfold Activation.as_state; cbn [rg]. apply (env_at co fn o none_dead p none_exit X mp base lo cfa hi stk gentle sc k RM l0 DEPTH); [exact G|exact TM|lia|lia|].
    pose proof (cfa_hi co fn o none_dead p FO none_exit X mp base lo cfa hi stk gentle sc k RM ra l0 DEPTH). lia. }
  destruct (pushes_off (full_entry o co fn) mp (Activation.as_state X base st) l0 k (cfa - 8) OK) as (c & st1 & C1 & C2 & C3 & C4 & C5 & C6 & C7 & C8); auto.
  { unfold Activation.as_state; cbn [rg]. lia. }
  assert (WF : wf (Activation.as_state X base st)) by apply EV. pose proof (exec_wf _ _ _ _ WF C2) as WF1.
  unfold Activation.as_state in C3, C4, C5, C7, C8; cbn [mem gs rg Machine.fl] in C3, C4, C5, C7, C8. rewrite W in C3.
  exists (of_state X st1 st). split; [econstructor; [cbn [snip_code]; rewrite C1; reflexivity|exact C2|constructor]|].
  destruct G as (G1 & G2 & G3). split; [split; [exact (proj1 WF1)|split; [|exact C3]]|].
  { unfold in_frame, Activation.gone in *. change (p_rg (of_state X st1 st) RSP) with (rg st1 RSP). rewrite C4. exact G2. }
  split; [|exact C5]. split; [|split; [reflexivity|]]; cbn [of_state p_rg p_mem].
  - intros r. symmetry. apply C7. unfold e_dead, request_dead. cbn. destruct (o_optimize_regs o); auto.
  - intros x N. symmetry. apply C8; intros K; apply N; unfold scratch; auto. left.
    pose proof (request_scratch_range (e_o (full_entry o co fn)) (e_mid (full_entry o co fn)) (j_dead_entry (e_js (full_entry o co fn))) (proj2 OK)) as Q.
    fold (e_scratch (full_entry o co fn)) in Q. unfold inside in *. lia.
Qed.
Lemma full_check x st : In x bs -> ground (ra :: l0) st ->
  let w := load64 (p_mem st) (p_rg st RSP) in
  (forall out, irun [Snip (StackPop (full_exit o co x))] st out ->
     match out with Fin _ p1 => alike (scratch st) st p1 | _ => w <> ra end) /\
  (w = ra -> exists p1, irun [Snip (StackPop (full_exit o co x))] st (Fin X p1)).
Proof.
  intros HB G w. pose proof (full_x_ok x) as (_ & OK & XO & _). pose proof G as (G1 & G2 & G3).
  destruct (around co fn o none_dead p none_exit X mp base lo cfa hi stk gentle sc k RM l0 DEPTH _ _ x G HB) as [_ AR].
  assert (EV : env mp (Activation.as_state X base st) (ra :: l0) (p_rg st RSP - rg (Activation.as_state X base st) RSP) k).
  { unfold Activation.as_state; cbn [rg]. apply (env_in co fn o none_dead p none_exit X mp base lo cfa hi stk gentle sc k RM l0 DEPTH _ _ x); [exact G|exact HB|cbn; lia|lia]. }
  assert (AP : apart (p_rg st RSP) 8 (gs (Activation.as_state X base st)) 8).
  { unfold Activation.as_state; cbn [gs]. unfold apart in *. lia. }
  destruct (checks_off (full_exit o co x) mp (Activation.as_state X base st) (ra :: l0) k (p_rg st RSP) OK) as (c & C1 & C2); auto.
  { unfold Activation.as_state; cbn [rg]. change (x_off (full_exit o co x)) with 0. lia. }
  change (load64 (mem (Activation.as_state X base st)) (p_rg st RSP)) with w in C2.
  assert (SC : snip_code o (StackPop (full_exit o co x)) = Some c) by (cbn [snip_code]; rewrite C1; reflexivity).
  assert (INV : forall out res, irun [Snip (StackPop (full_exit o co x))] st out -> exec c mp (Activation.as_state X base st) res ->
    match res with
    | Done s' => out = Fin X (of_state X s' st) | Trap => exists r, out = Stopped X st r | Fault => exists r, out = Crashed X st r | OutOfFuel => True
    end).
  { intros out res R E. inversion R; subst; rewrite SC in *; try discriminate;
      match goal with K : Some _ = Some _ |- _ => injection K as <- end;
      match goal with K : exec c mp _ _ |- _ => pose proof (exec_det _ _ _ _ _ E K) as EE end; subst res; eauto.
    match goal with K : irun [] _ _ |- _ => apply irun_nil in K; auto end. }
  split.
  - intros out R. destruct (unwind w (ra :: l0)) as [l'|] eqn:U.
    + destruct C2 as [D T].
      assert (DEC : clean_above w (ra :: l0) \/ ~ clean_above w (ra :: l0)).
      { clear. induction (ra :: l0) as [|v l IH]; cbn; [auto|]. destruct (Z.eq_dec v w); [auto|].
        destruct (Z.eq_dec (v mod 2 ^ 32) 0) as [E|E]; [right; intros [K|[K _]]; auto|].
        destruct IH; [left; auto|right; intros [K|[_ K]]; auto]. }
      destruct DEC as [CA|NC].
      * destruct (D CA) as (st1 & E1 & E2 & E3 & _ & E5 & E6). rewrite (INV _ _ R E1).
        unfold Activation.as_state in E2, E3, E5, E6; cbn [gs mem rg] in E2, E3, E5, E6.
        split; [|split; [reflexivity|]]; cbn [of_state p_rg p_mem].
        -- intros r. symmetry. apply E5. unfold x_dead, request_dead. cbn. destruct (o_optimize_regs o); auto.
        -- intros a N. symmetry. apply E6; intros K; apply N; unfold scratch; auto. left.
           pose proof (request_scratch_range (x_o (full_exit o co x)) (x_mid (full_exit o co x))
             (exit_dead_set (x_pt (full_exit o co x)) (x_js (full_exit o co x))) (proj2 OK)) as Q.
           fold (x_scratch (full_exit o co x)) in Q. unfold inside in *. lia.
      * destruct (INV _ _ R (T NC)) as (r & ->). intros E. apply NC. cbn. auto.
    + assert (NRA : w <> ra) by (intros E; rewrite E in U; cbn in U; rewrite Z.eqb_refl in U; discriminate).
      destruct (Z.eq_dec w 0) as [WZ|NZ]; [|destruct (INV _ _ R (C2 NZ)) as (r & ->); exact NRA].
      destruct (exit_zero (full_exit o co x) mp (Activation.as_state X base st) (ra :: l0) k OK) as (c' & C1' & Z1 & Z2).
      { change (x_off (full_exit o co x)) with 0. replace 0 with (p_rg st RSP - rg (Activation.as_state X base st) RSP) by (unfold Activation.as_state; cbn [rg]; lia). exact EV. }
      { change (x_off (full_exit o co x)) with 0. rewrite Z.add_0_r. exact AP. }
      { change (x_off (full_exit o co x)) with 0. rewrite Z.add_0_r. exact WZ. }
      { rewrite <- WZ. exact U. }
      rewrite C1 in C1'. injection C1' as <-.
      destruct (sound_dec (ra :: l0)) as [SD|NS]; [|destruct (INV _ _ R (Z2 NS)) as (r & ->); exact NRA].
      destruct (Z1 SD) as (st1 & E1 & _ & E3 & _ & _ & E6). rewrite (INV _ _ R E1).
      unfold Activation.as_state in E3, E6; cbn [gs mem rg] in E3, E6.
      split; [|split; [reflexivity|]]; cbn [of_state p_rg p_mem].
      -- intros r. symmetry. apply E3. unfold x_dead, request_dead. cbn. destruct (o_optimize_regs o); auto.
      -- intros a N. symmetry. apply E6; intros K; apply N; unfold scratch; auto. left.
         pose proof (request_scratch_range (x_o (full_exit o co x)) (x_mid (full_exit o co x))
           (exit_dead_set (x_pt (full_exit o co x)) (x_js (full_exit o co x))) (proj2 OK)) as Q.
         fold (x_scratch (full_exit o co x)) in Q. unfold inside in *. lia.
  - intros E. rewrite E in C2. cbn [unwind] in C2. rewrite Z.eqb_refl in C2. destruct C2 as [D _].
    destruct (D ltac:(left; reflexivity)) as (st1 & E1 & _). exists (of_state X st1 st).
    econstructor; [exact SC|exact E1|constructor].
Qed.
End FM.
