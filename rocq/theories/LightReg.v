(** * LightReg: the order of the code that keeps a return address in a register, see LightSame.v
    (DoStackOpsUsingRegisters, instrument.cc:287-317; register frames of lowered functions, 470-560) *)
From Coq Require Import ZArith Bool Lia ZifyBool ZifyNat Arith String List.
From Verif Require Import Machine MachineFacts Jit ShadowSpec JitFacts JitPushPop History RegFrame.
From Verif Require Import Dfs Binary CallGraph InterProc MemPasses Pipeline RegNames BlockLive
  Reach SafePaths Lowering FastPath Decision P_Instr FullRun Whole Sites P_Sites P_SiteUse Order Activation PlanCode ActRun P_Activation RegRun Follow Tree TreeFacts.
Import ListNotations.
Open Scope Z_scope.

(** The inserted code among the items, as events. *)
Definition ev_kind (x : item) : list ev :=
  match x with Snip (RegPush _ _) => [Push] | Snip (RegPop _) => [Pop] | _ => [] end.
Definition kinds (its : list item) : list ev := flat_map ev_kind its.
Definition stores_only (l : list ev) : list ev := filter (fun e => match e with Blk _ => false | _ => true end) l.
Lemma kinds_app a b : kinds (a ++ b) = kinds a ++ kinds b.
Proof. apply flat_map_app. Qed.
Lemma kinds_ins n is : kinds (map (Ins n) is) = [].
Proof. induction is; auto. Qed.
Lemma only_app a b : stores_only (a ++ b) = stores_only a ++ stores_only b.
Proof. unfold stores_only. induction a as [|x a IH]; [reflexivity|]; destruct x; cbn; rewrite ?IH; reflexivity. Qed.

(** A store is where the height of the frame is known: [kn] are the heights possible by what has just
    been passed.  After a check no instruction but a return is left. *)
Fixpoint sited (co : code) (js : jsum) (kn : Z -> Prop) (its : list item) : Prop :=
  match its with
  | [] => True
  | Here n :: r => sited co js (fun v => b_sp_entry (co_block co (snd n)) = Some v) r
  | Out n :: r => sited co js (fun v => b_sp_end (co_block co (snd n)) = Some v) r
  | Ins _ _ :: r => sited co js (fun _ => False) r
  | Snip (RegPush j h) :: r => j = js /\ (exists v, kn v /\ h = -8 - v) /\ sited co js (fun _ => False) r
  | Snip (RegPop j) :: r => j = js /\ left_of r = [] /\ sited co js (fun _ => False) r
  | Snip _ :: _ => False
  end.
Lemma sited_ins co js n is r : forall kn, sited co js (fun _ => False) r -> sited co js kn r -> sited co js kn (map (Ins n) is ++ r).
Proof. induction is as [|i t IH]; intros kn K1 K2; cbn [map app sited]; auto. Qed.
Lemma sited_more co js r : forall (kn kn' : Z -> Prop), (forall v, kn v -> kn' v) -> sited co js kn r -> sited co js kn' r.
Proof.
  destruct r as [|[n|n i|[q|q|j h|j]|n] r]; intros kn kn' S K; cbn [sited] in *; auto.
  destruct K as (K1 & (v & K2 & K3) & K4). split; [exact K1|]. split; [|exact K4]. exists v. auto.
Qed.

Section RO.
Variables (co : code) (m : sums) (fn : nat) (fl : Lowering.flags) (o : opts) (d : dead_info) (p : plan).
Hypothesis AN : analysed co m fn.
Hypothesis FO : fn_ok co fn.
Hypothesis TE : terminal_exits co fn.
Hypothesis PLAN : Decision.instr fl co fn (Some (m fn)) = p.
Hypothesis REG : on_reg p = true.
Hypothesis TIDY : tidy co fn.
Notation blk b := (co_block co b).
Notation s := (m fn).
Notation js := (jsum_of d s).
Notation bs := (f_blocks (co_fun co fn)).
Notation entry := (f_entry (co_fun co fn)).
Notation sites := (plan_sites co fl o d s fn p).
Notation pushn := (push_in co fn p).
Notation popn := (pop_in p).
Notation edge_pushn := (edge_push p).
Notation seg_evs := (seg_evs co fn p).
Notation node_shape := (reg_shape co m fn fl o d p AN FO PLAN REG).
Notation edge_shape := (reg_edge co m fn fl o d p AN FO PLAN REG).

Lemma seg_kinds sg : In (snd (fst sg)) bs -> kinds (seg_items co sites sg) = stores_only (seg_evs sg).
Proof.
  intros HB. destruct sg as [n k]. cbn [fst snd] in HB. destruct (TIDY (snd n) HB) as (body & tail & SH & _).
  unfold ActRun.seg_evs. cbn [fst snd]. destruct k as [k|]; cbn [seg_items].
  - rewrite (node_shape n body tail false HB SH), (proj1 (edge_shape n k HB)).
    repeat (progress (rewrite ?kinds_app, ?kinds_ins, ?only_app, ?app_nil_r; cbn [map app kinds flat_map ev_kind])).
    destruct (pushn n), (popn n), (edge_pushn n k); cbn [opt map app kinds flat_map ev_kind stores_only filter];
      repeat (progress (rewrite ?kinds_app, ?kinds_ins, ?only_app, ?app_nil_r; cbn [map app kinds flat_map ev_kind])); reflexivity.
  - rewrite (node_shape n body tail true HB SH).
    repeat (progress (rewrite ?kinds_app, ?kinds_ins, ?only_app, ?app_nil_r; cbn [map app kinds flat_map ev_kind])).
    destruct (pushn n), (popn n); cbn [opt map app kinds flat_map ev_kind stores_only filter];
      repeat (progress (rewrite ?kinds_app, ?kinds_ins, ?only_app, ?app_nil_r; cbn [map app kinds flat_map ev_kind])); reflexivity.
Qed.
Lemma segs_kinds : forall ks n sl, segs co p n ks = Some sl -> In (snd n) bs ->
  kinds (flat_map (seg_items co sites) sl) = stores_only (flat_map seg_evs sl).
Proof.
  induction ks as [|kk ks IH]; intros n sl SG HB; cbn [segs] in SG.
  - injection SG as <-. cbn [flat_map]. rewrite !app_nil_r. apply seg_kinds. exact HB.
  - destruct (nth_error (b_targets (blk (snd n))) kk) as [e|] eqn:NE; [|discriminate].
    destruct (e_sink e || e_inter e)%bool eqn:SI; [discriminate|]. apply orb_false_iff in SI. destruct SI as [S1 S2].
    destruct (segs co p (next p n kk e) ks) as [sl'|] eqn:SG'; [|discriminate]. injection SG as <-.
    cbn [flat_map]. rewrite kinds_app, only_app, seg_kinds by exact HB. f_equal.
    apply (IH _ _ SG'). rewrite next_trg. apply (an_step _ _ _ AN (snd n)); auto.
    exists e. split; auto. apply filter_In. split; [eapply nth_error_In; eauto|]. unfold bp_edge. rewrite S1, S2. reflexivity.
Qed.

Variable evs : list ev.
Hypothesis LAST : forall pre post, evs = pre ++ Pop :: post ->
  post = [] \/ exists b i, post = [Blk b] /\ b_insns (blk b) = [i] /\ i_op i = ORet.
Lemma after_pop n ks sl pre : segs co p n ks = Some sl -> In (snd n) bs ->
  evs = pre ++ Pop :: flat_map seg_evs sl -> flat_map (seg_items co sites) sl = [Here n].
Proof.
  intros SG HB E. destruct (segs_cons _ _ _ _ _ SG) as (rr & ES & RK).
  destruct (LAST _ _ E) as [K|(b & i & K & B1 & B2)].
  - exfalso. rewrite ES in K. cbn [flat_map] in K. destruct (evs_nonempty co fn p (n, hd_error ks)) as (a & c & EE).
    rewrite EE, <- app_assoc in K. destruct a; discriminate.
  - assert (RN : rr = []).
    { destruct rr as [|sg rr]; auto. exfalso. rewrite ES in K. cbn [flat_map] in K.
      destruct (evs_nonempty co fn p (n, hd_error ks)) as (a & c & EE). destruct (evs_nonempty co fn p sg) as (a' & c' & EE').
      rewrite EE, EE', <- !app_assoc in K. apply (f_equal (@List.length ev)) in K.
      repeat (progress (rewrite ?app_length in K; cbn [List.length app] in K)). lia. }
    apply RK in RN as KN. subst rr ks. rewrite ES in *. cbn [flat_map hd_error seg_items] in *. rewrite !app_nil_r in *.
    unfold ActRun.seg_evs in K. cbn [fst snd] in K. rewrite app_nil_r in K.
    destruct (pushn n) eqn:PN; [discriminate|]. cbn [opt app] in K. injection K as K1 K2.
    destruct (popn n) eqn:QN; [discriminate|].
    destruct (TIDY (snd n) HB) as (body & tail & SH & RP & _ & _).
    rewrite <- K1 in B1. pose proof (lone_shape co _ _ _ _ B1 B2 SH) as BN.
    rewrite (node_shape n body tail true HB SH), PN, QN, BN. reflexivity.
Qed.
Lemma segs_sited : forall ks n sl pre kn, segs co p n ks = Some sl -> In (snd n) bs -> evs = pre ++ flat_map seg_evs sl ->
  sited co js kn (flat_map (seg_items co sites) sl).
Proof.
  induction ks as [|kk ks IH]; intros n sl pre kn SG HB EV; cbn [segs] in SG; destruct (TIDY (snd n) HB) as (body & tail & SH & RP & PS & TL);
    destruct (reg_at co m fn fl o d p AN FO PLAN REG n HB) as (_ & _ & _ & PV).
  - injection SG as <-. cbn [flat_map seg_items]. rewrite app_nil_r, (node_shape n body tail true HB SH), app_nil_r. cbn [sited].
    assert (ENDS : forall kn', sited co js kn' (map (Ins n) body ++ map Snip (opt (popn n) (RegPop js)))).
    { intros kn'. destruct (popn n); cbn [opt map]; apply sited_ins; cbn [sited]; auto. }
    destruct (pushn n); cbn [opt map app sited]; [|apply ENDS]. split; [reflexivity|]. split; [exact (PV eq_refl)|apply ENDS].
  - destruct (nth_error (b_targets (blk (snd n))) kk) as [e|] eqn:NE; [|discriminate].
    destruct (e_sink e || e_inter e)%bool eqn:SI; [discriminate|]. apply orb_false_iff in SI. destruct SI as [S1 S2].
    destruct (segs co p (next p n kk e) ks) as [sl'|] eqn:SG'; [|discriminate]. injection SG as <-.
    assert (ST : FastPath.step co (snd n) (e_trg e)).
    { exists e. split; auto. apply filter_In. split; [eapply nth_error_In; eauto|]. unfold bp_edge. rewrite S1, S2. reflexivity. }
    assert (TN : tail = []).
    { destruct tail as [|i t]; auto. exfalso. destruct ST as (e' & He & _). rewrite (TL ltac:(discriminate)) in He. exact He. }
    assert (HB' : In (snd (next p n kk e)) bs) by (rewrite next_trg; apply (an_step _ _ _ AN (snd n)); auto).
    destruct (edge_shape n kk HB) as (EE & QE).
    cbn [flat_map] in EV |- *. cbn [seg_items]. rewrite (node_shape n body tail false HB SH), EE, TN. cbn [map app sited].
    unfold ActRun.seg_evs at 1 in EV. cbn [fst snd] in EV.
    set (R1 := Out n :: map Snip (opt (edge_pushn n kk) (RegPush js (eheight co m fn (snd n)))) ++ flat_map (seg_items co sites) sl').
    assert (SR : forall kn', sited co js kn' R1).
    { intros kn'. unfold R1. cbn [sited].
      assert (SI' : forall kn2, sited co js kn2 (flat_map (seg_items co sites) sl')).
      { intros kn2. apply (IH (next p n kk e) sl' (pre ++ opt (pushn n) Push ++ [Blk (snd n)] ++ opt (popn n) Pop ++ opt (edge_pushn n kk) Push) kn2 SG' HB').
        rewrite EV. repeat (progress (cbn [app]; rewrite <- ?app_assoc)). reflexivity. }
      destruct (edge_pushn n kk); cbn [opt map app sited]; [|apply SI']. split; [reflexivity|]. split; [exact (QE eq_refl)|apply SI']. }
    assert (LR : popn n = true -> left_of R1 = []).
    { intros QN. rewrite QN in EV. cbn [opt] in EV.
      assert (EV2 : evs = (pre ++ opt (pushn n) Push ++ [Blk (snd n)]) ++ Pop :: opt (edge_pushn n kk) Push ++ flat_map seg_evs sl').
      { rewrite EV. repeat (progress (cbn [app]; rewrite <- ?app_assoc)). reflexivity. }
      unfold R1. destruct (edge_pushn n kk) eqn:EPN; cbn [opt app] in EV2.
      - exfalso. destruct (LAST _ _ EV2) as [K|(b & i & K & _)]; discriminate.
      - cbn [opt map app]. rewrite (after_pop _ _ _ _ SG' HB' EV2). reflexivity. }
    assert (ENDS : forall kn', sited co js kn' (map (Ins n) body ++ map Snip (opt (popn n) (RegPop js)) ++ R1)).
    { intros kn'. assert (K : forall kn2, sited co js kn2 (map Snip (opt (popn n) (RegPop js)) ++ R1)).
      { intros kn2. destruct (popn n); cbn [opt map app sited]; [|apply SR]. split; [reflexivity|]. split; [apply LR; reflexivity|apply SR]. }
      apply sited_ins; apply K. }
    assert (EI : forall kn', sited co js kn' (map (Ins n) body ++ map Snip (opt (popn n) (RegPop js)) ++ R1) ->
      sited co js kn' (((map (Ins n) body ++ map Snip (opt (popn n) (RegPop js)) ++ [Out n]) ++
        map Snip (opt (edge_pushn n kk) (RegPush js (eheight co m fn (snd n))))) ++ flat_map (seg_items co sites) sl')).
    { intros kn' K. unfold R1 in K. repeat (progress (cbn [app] in K |- *; rewrite <- ?app_assoc)). exact K. }
    destruct (pushn n); cbn [opt map app sited].
    + split; [reflexivity|]. split; [exact (PV eq_refl)|]. apply EI, ENDS.
    + apply EI, ENDS.
Qed.
Hypothesis ONE : (count_occ ev_eq_dec evs Push <= 1)%nat.
Hypothesis AFTER : forall pre post, evs = pre ++ Pop :: post -> In Push pre.
Lemma only_split l : forall x r, stores_only l = x :: r -> exists a c, l = a ++ x :: c /\ stores_only a = [] /\ stores_only c = r.
Proof.
  induction l as [|y l IH]; intros x r E; [discriminate|]. destruct y as [|b|]; cbn [stores_only filter] in E.
  - injection E as <- <-. exists [], l. auto.
  - destruct (IH x r E) as (a & c & -> & A & C). exists (Blk b :: a), c. auto.
  - injection E as <- <-. exists [], l. auto.
Qed.
Lemma only_in l x : stores_only l = [] -> x <> Push \/ ~ In x l.
Proof.
  intros E. destruct x as [|b|]; try (left; discriminate). right. intros K.
  assert (In Push (stores_only l)) by (apply filter_In; auto). rewrite E in *. auto.
Qed.
Lemma order : stores_only evs = [] \/ stores_only evs = [Push] \/ stores_only evs = [Push; Pop].
Proof.
  destruct (stores_only evs) as [|x r] eqn:E; [auto|]. right. destruct (only_split _ _ _ E) as (a & c & EV & A & C).
  assert (NB : forall b, x <> Blk b).
  { intros b ->. assert (K : In (Blk b) (stores_only evs)) by (rewrite E; left; reflexivity). apply filter_In in K. destruct K. discriminate. }
  destruct x as [|b|]; [|destruct (NB b); reflexivity|].
  2:{ exfalso. apply AFTER in EV. destruct (only_in a Push A) as [K|K]; auto. }
  destruct r as [|y r]; [auto|]. destruct (only_split _ _ _ C) as (a2 & c2 & -> & A2 & C2).
  destruct y as [|b|].
  2:{ exfalso. assert (K : In (Blk b) (stores_only evs)) by (rewrite E; right; left; reflexivity). apply filter_In in K. destruct K. discriminate. }
  - exfalso. rewrite EV in ONE. rewrite count_occ_app in ONE. cbn [count_occ] in ONE.
    destruct (ev_eq_dec Push Push); [|congruence]. rewrite count_occ_app in ONE. cbn [count_occ] in ONE.
    destruct (ev_eq_dec Push Push); [lia|congruence].
  - right. change (a ++ Push :: a2 ++ Pop :: c2) with (a ++ (Push :: a2) ++ Pop :: c2) in EV. rewrite app_assoc in EV.
    destruct (LAST _ _ EV) as [->|(b & i & -> & _)]; cbn in C2; rewrite <- C2; reflexivity.
Qed.
Lemma items_order ks items : run_plan co fn p ks = Some evs -> plan_items co sites fn p ks = Some items ->
  sited co js (fun v => v = -8) items /\ (kinds items = [] \/ kinds items = [Push] \/ kinds items = [Push; Pop]) /\
  (count_occ ev_eq_dec evs Pop = count_occ ev_eq_dec evs Push -> kinds items <> [Push]).
Proof.
  intros RPL PI.
  assert (NA : p <> PAbort) by (intros K; rewrite K in REG; discriminate).
  assert (NF : p <> PNoFuel) by (intros K; rewrite K in REG; discriminate).
  assert (PI2 : option_map (fun l => map Snip (snips sites AtEntry) ++ flat_map (seg_items co sites) l)
           (segs co p (false, entry) ks) = Some items).
  { rewrite <- PI. unfold plan_items. clear - NA NF. destruct p; auto; congruence. }
  destruct (segs co p (false, entry) ks) as [sl|] eqn:SG; [|discriminate]. cbn [option_map] in PI2.
  injection PI2 as EI. symmetry in EI. rewrite (run_segs co m fn fl p AN FO TE PLAN ks sl NA NF SG) in RPL. injection RPL as EV. symmetry in EV.
  rewrite (reg_entry co m fn fl o d p PLAN REG) in EI.
  assert (HE : In (snd (false, entry)) bs) by apply FO.
  assert (E0 : evs0 p = [] \/ evs0 p = [Push]).
  { unfold evs0. clear. destruct p; auto. destruct moved; auto. }
  assert (EK : kinds items = stores_only evs).
  { rewrite EI, EV, kinds_app, only_app, (segs_kinds _ _ _ SG HE). f_equal. destruct E0 as [-> | ->]; reflexivity. }
  split; [|split; [rewrite EK; apply order|]].
  - pose proof (fun kn => segs_sited _ _ _ _ kn SG HE EV) as SS. rewrite EI. destruct E0 as [-> | ->]; cbn [opt map app sited]; [apply SS|].
    split; [reflexivity|]. split; [exists (-8); split; [reflexivity|lia]|apply SS].
  - intros EQ K. rewrite EK in K.
    assert (CO : forall l x, (forall b, x <> Blk b) -> count_occ ev_eq_dec (stores_only l) x = count_occ ev_eq_dec l x).
    { clear. intros l x H. induction l as [|y l IH]; [reflexivity|]. destruct y as [|b|]; cbn [stores_only filter count_occ].
      - destruct (ev_eq_dec Push x); unfold stores_only in IH; rewrite IH; reflexivity.
      - destruct (ev_eq_dec (Blk b) x) as [E|_]; [destruct (H b); auto|exact IH].
      - destruct (ev_eq_dec Pop x); unfold stores_only in IH; rewrite IH; reflexivity. }
    rewrite <- (CO evs Pop) in EQ by discriminate. rewrite <- (CO evs Push) in EQ by discriminate. rewrite K in EQ. discriminate.
Qed.
End RO.
