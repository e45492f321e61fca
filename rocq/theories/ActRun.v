(** * ActRun: one call of an instrumented function, run to its end or to a trap *)
From Coq Require Import ZArith Bool Lia ZifyBool ZifyNat Arith String List.
From Verif Require Import Machine MachineFacts Jit ShadowSpec JitFacts JitPushPop History RegFrame ZeroWord.
From Verif Require Import Dfs Binary CallGraph InterProc MemPasses Pipeline RegNames BlockLive
  Reach SafePaths Lowering FastPath Decision P_Instr FullRun Whole Sites P_Sites Order Activation PlanCode.
Import ListNotations.
Open Scope Z_scope.
Local Notation mem := Machine.mem.
Local Notation pushes := BlockLive.pushes.

(** ** The instructions among the items *)
Definition left_of (r : list item) : list insn :=
  flat_map (fun x => match x with Ins _ i => [i] | _ => [] end) r.
Lemma left_of_app a b : left_of (a ++ b) = left_of a ++ left_of b.
Proof. apply flat_map_app. Qed.
Lemma left_of_ins n is : left_of (map (Ins n) is) = is.
Proof. induction is as [|i t IH]; cbn; [auto|]. f_equal. exact IH. Qed.

(** The instructions of a path, up to the return. *)
Definition path_insns (co : code) (path : list nat) : list insn :=
  flat_map (fun b => fst (cut (b_insns (co_block co b)))) path.
(** The items without the inserted code. *)
Definition program_of (items : list item) : list item :=
  filter (fun x => match x with Snip _ => false | _ => true end) items.
(** Items without code for a frame in a register. *)
Definition stack_snip (x : item) : Prop :=
  match x with Snip (StackPush _) | Snip (StackPop _) => True | Snip _ => False | _ => True end.
Lemma stack_ins n is : Forall stack_snip (map (Ins n) is).
Proof. induction is; constructor; cbn; auto. Qed.
Lemma left_of_snips l : left_of (map Snip l) = [].
Proof. induction l as [|x l IH]; auto. Qed.

(** A function whose blocks have a usual shape: one return at most, at the end, where nothing
    follows; 8-byte pushes and pops. *)
Definition tidy (co : code) (fn : nat) : Prop :=
  forall b, In b (f_blocks (co_fun co fn)) -> exists body tail,
    block_shape (b_insns (co_block co b)) body tail /\
    Forall ret_plain (b_insns (co_block co b)) /\ Forall plain_stack (b_insns (co_block co b)) /\
    (tail <> [] -> out_edges co b = []).

Section AR.
Variables (co : code) (m : sums) (fn : nat) (fl : Lowering.flags) (o : opts) (d : dead_info) (p : plan).
Hypothesis AN : analysed co m fn.
Hypothesis FO : fn_ok co fn.
Hypothesis TE : terminal_exits co fn.
Hypothesis PLAN : Decision.instr fl co fn (Some (m fn)) = p.
Hypothesis NREG : on_reg p = false.
Hypothesis PL : plain o.
Hypothesis GE : good_dead o (di_entry d).
Hypothesis GX : forall a l, zfind (di_exit d) a = Some l -> good_dead o l.
Hypothesis TIDY : tidy co fn.
Notation blk b := (co_block co b).
Notation s := (m fn).
Notation bs := (f_blocks (co_fun co fn)).
Notation entry := (f_entry (co_fun co fn)).
Notation sites := (plan_sites co fl o d s fn p).
Notation pushn := (push_in co fn p).
Notation popn := (pop_in p).

(** ** Events of a segment *)
Definition edge_push (n : node) (k : nat) : bool :=
  match p with ByLowering l => negb (fst n) && emem (snd n, k) (l_push_edges l) | _ => false end.
Definition seg_evs (sg : seg) : list ev :=
  opt (pushn (fst sg)) Push ++ [Blk (snd (fst sg))] ++ opt (popn (fst sg)) Pop ++
  match snd sg with Some k => opt (edge_push (fst sg) k) Push | None => [] end.
Definition evs0 : list ev := match p with ByEntry false _ _ => [Push] | _ => [] end.

Lemma segs_cons n ks sl : segs co p n ks = Some sl -> exists r,
  sl = (n, hd_error ks) :: r /\ (r = [] <-> ks = []).
Proof.
  destruct ks as [|k ks]; cbn [segs hd_error].
  - intros E. injection E as <-. exists []. split; auto. tauto.
  - destruct (nth_error _ k) as [e|]; [|discriminate]. destruct (_ || _)%bool; [discriminate|].
    destruct (segs co p _ ks) as [r|] eqn:E; [|discriminate]. intros H. injection H as <-.
    exists r. split; auto. split; [|discriminate]. intros ->. exfalso.
    destruct ks as [|k' ks]; cbn [segs] in E; [discriminate|].
    destruct (nth_error _ k'); [|discriminate]. destruct (_ || _)%bool; [discriminate|].
    destruct (segs co p _ ks); discriminate.
Qed.
Lemma run_segs_low l : p = ByLowering l -> forall ks n sl, segs co p n ks = Some sl ->
  run_lowered co l n ks = Some (flat_map seg_evs sl).
Proof.
  clear NREG. intros EP. induction ks as [|k ks IH]; intros n sl H; cbn [segs run_lowered] in *.
  - injection H as <-. cbn [flat_map]. rewrite app_nil_r. unfold seg_evs, push_in, pop_in, node_evs. rewrite EP.
    cbn [fst snd]. rewrite app_nil_r. unfold opt. reflexivity.
  - destruct (nth_error _ k) as [e|]; [|discriminate]. destruct (_ || _)%bool; [discriminate|].
    destruct (segs co p (next p n k e) ks) as [r|] eqn:E; [|discriminate]. injection H as <-.
    apply IH in E. unfold next in E. rewrite EP in E. rewrite E. cbn [flat_map]. f_equal. rewrite app_assoc. f_equal.
    unfold seg_evs, push_in, pop_in, node_evs, edge_evs, edge_push, opt. rewrite EP. cbn [fst snd].
    rewrite <- !app_assoc. reflexivity.
Qed.
Lemma run_segs_orig : (forall l, p <> ByLowering l) -> forall ks n sl, segs co p n ks = Some sl -> fst n = false ->
  orig_blocks co (snd n) ks = Some (map (fun x => snd (fst x)) sl) /\ (forall x, In x sl -> fst (fst x) = false).
Proof.
  clear NREG. intros NL. induction ks as [|k ks IH]; intros n sl H N; cbn [segs orig_blocks] in *.
  - injection H as <-. split; auto. intros x [<-|[]]; auto.
  - destruct (nth_error _ k) as [e|]; [|discriminate]. destruct (_ || _)%bool; [discriminate|].
    destruct (segs co p (next p n k e) ks) as [r|] eqn:E; [|discriminate]. injection H as <-.
    assert (EX : next p n k e = (false, e_trg e)) by (unfold next; destruct p; auto; edestruct NL; reflexivity).
    rewrite EX in E. destruct (IH _ _ E eq_refl) as [A B]. cbn [snd] in A. rewrite A. split; auto.
    intros x [<-|Hx]; auto.
Qed.
Lemma segs_in ks : forall n sl, segs co p n ks = Some sl -> In (snd n) bs ->
  forall x, In x sl -> In (snd (fst x)) bs.
Proof.
  clear NREG. induction ks as [|k ks IH]; intros n sl H N; cbn [segs] in *.
  - injection H as <-. intros x [<-|[]]; auto.
  - destruct (nth_error _ k) as [e|] eqn:NE; [|discriminate]. destruct (_ || _)%bool eqn:SI; [discriminate|].
    destruct (segs co p (next p n k e) ks) as [r|] eqn:E; [|discriminate]. injection H as <-.
    intros x [<-|Hx]; auto. apply (IH _ _ E); auto.
    assert (EX : snd (next p n k e) = e_trg e).
    { unfold next, patched_trg. destruct p; auto. destruct n as [c b]. destruct (l_ndebug l); auto. destruct c; auto. }
    rewrite EX. apply (an_step _ _ _ AN (snd n)); auto. exists e. split; auto. apply filter_In.
    split; [eapply nth_error_In; eauto|]. unfold bp_edge. apply orb_false_iff in SI. destruct SI as [-> ->]. reflexivity.
Qed.
Lemma flat_one (l : list nat) : flat_map (fun b => [Blk b]) l = map Blk l.
Proof. induction l as [|b l IH]; cbn; congruence. Qed.
Lemma run_segs ks sl : p <> PAbort -> p <> PNoFuel -> segs co p (false, entry) ks = Some sl ->
  run_plan co fn p ks = Some (evs0 ++ flat_map seg_evs sl).
Proof.
  clear NREG. intros NA NF H.
  assert (HE : In entry bs) by apply FO.
  pose proof (segs_in ks _ _ H HE) as IN. pose proof run_segs_low as LOWR. pose proof run_segs_orig as ORIG.
  pose proof (fast_once co m fn fl p FO TE PLAN) as FO1.
  assert (G : forall (f : nat -> list ev), (forall l, p <> ByLowering l) ->
     (forall x, In x sl -> fst (fst x) = false -> seg_evs x = f (snd (fst x))) ->
     flat_map seg_evs sl = flat_map f (map (fun x => snd (fst x)) sl)).
  { intros f NL HF. destruct (ORIG NL ks _ _ H eq_refl) as [_ ALL]. clear - HF ALL.
    induction sl as [|x l IH]; auto. cbn [flat_map map]. rewrite (HF x (or_introl eq_refl)); [|apply ALL; left; auto].
    f_equal. apply IH; intros; [apply HF|apply ALL]; auto; right; auto. }
  unfold evs0. unfold seg_evs, push_in, pop_in, edge_push in *.
  destruct p as [|l|mv ps rg|slow ps fast| |] eqn:EP; try congruence; cbn [run_plan].
  - destruct (ORIG ltac:(discriminate) ks _ _ H eq_refl) as [A _]. cbn [snd] in A. rewrite A. cbn [option_map]. rewrite app_nil_l. f_equal.
    rewrite (G (fun b => [Blk b])); [|discriminate|].
    + symmetry. apply flat_one.
    + intros x _ _. destruct (snd x); reflexivity.
  - rewrite app_nil_l. apply LOWR; auto.
  - destruct (ORIG ltac:(discriminate) ks _ _ H eq_refl) as [A _]. cbn [snd] in A. rewrite A. cbn [option_map]. f_equal.
    unfold run_entry, exit_evs. destruct mv.
    + rewrite app_nil_l. symmetry. apply G; [discriminate|]. intros x _ E. rewrite E. cbn [negb andb]. unfold opt.
      destruct (snd x); rewrite app_nil_r; reflexivity.
    + match goal with |- _ = Some ([Push] ++ ?x) => change ([Push] ++ x) with (Push :: x) | |- _ = [Push] ++ ?x => change ([Push] ++ x) with (Push :: x) end. f_equal. symmetry. apply G; [discriminate|]. intros x _ E. rewrite E. cbn [negb andb]. unfold opt.
      destruct (snd x); rewrite app_nil_r; reflexivity.
  - destruct (ORIG ltac:(discriminate) ks _ _ H eq_refl) as [A _]. cbn [snd] in A. rewrite A. cbn [option_map]. rewrite app_nil_l. f_equal.
    unfold run_fast. symmetry. apply G; [discriminate|]. intros x Hx E. rewrite E. cbn [negb andb]. unfold fp_evs.
    rewrite (opt_repeat Pop ps (snd (fst x))) by (eapply FO1; eauto).
    unfold opt. destruct (snd x); rewrite app_nil_r; reflexivity.
Qed.

(** ** Snippets outside blocks *)
Lemma entry_snips : exists q, snips sites AtEntry = opt (match evs0 with [] => false | _ => true end) (StackPush q) /\
  (evs0 <> [] -> e_ok q /\ e_off q = 0 /\ (o_optimize_regs o = false -> e_dead q = [])).
Proof.
  unfold evs0. pose proof (entry_mv co m fn fl p PLAN) as EMV.
  assert (POPS : forall cl ps, snips (map (pop_site co fl o d s cl false) ps) AtEntry = []).
  { intros cl ps. apply snips_none. intros q Hq. apply in_map_iff in Hq. destruct Hq as (b & <- & _).
    unfold pop_site. destruct (opt_mid _ _ _); discriminate. }
  destruct p as [|l|mv ps rg|slow ps fast| |] eqn:EP; cbn [plan_sites]; try (exists (mkEreq o (bpoint co entry) (jsum_of d s) false 0 false); split; [reflexivity|congruence]).
  - cbn [on_reg] in NREG. exists (mkEreq o (bpoint co entry) (jsum_of d s) false 0 false). split; [|congruence].
    unfold lowered_sites. rewrite NREG. apply snips_none. intros q Hq. rewrite !in_app_iff in Hq.
    destruct Hq as [Hq|[Hq|Hq]]; apply in_map_iff in Hq; destruct Hq as (x & <- & _).
    + discriminate. + unfold block_site. destruct (opt_mid _ _ _); discriminate.
    + unfold pop_site. destruct (opt_mid _ _ _); discriminate.
  - cbn [on_reg] in NREG. subst rg. exists (mkEreq o (bpoint co entry) (jsum_of d s) false 0 false).
    change (entry_site co o d s mv false entry :: map (pop_site co fl o d s false false) ps) with
      ([entry_site co o d s mv false entry] ++ map (pop_site co fl o d s false false) ps).
    rewrite snips_app, POPS, app_nil_r. unfold entry_site. destruct mv.
    + destruct (EMV true ps false eq_refl eq_refl) as (_ & md & ->). split; [reflexivity|congruence].
    + split; [reflexivity|]. intros _. split; [split; [exact PL|exact GE]|]. split; [reflexivity|].
      intros NO. unfold e_dead. change (e_mid (mkEreq o (bpoint co entry) (jsum_of d s) false 0 false)) with (@None mid).
      cbn [request_dead e_o]. rewrite NO. reflexivity.
  - exists (mkEreq o (bpoint co entry) (jsum_of d s) false 0 false). split; [|congruence].
    change (slow_site co fl o d s slow :: map (pop_site co fl o d s false false) ps) with
      ([slow_site co fl o d s slow] ++ map (pop_site co fl o d s false false) ps).
    rewrite snips_app, POPS, app_nil_r. unfold slow_site. destruct (opt_mid _ _ _); reflexivity.
Qed.
Lemma edge_snips (n : node) k : In (snd n) bs -> exists q,
  (if fst n then @nil item else map Snip (snips sites (OnEdge (snd n, k)))) = map Snip (opt (edge_push n k) (StackPush q)) /\
  (edge_push n k = true -> e_ok q /\ (exists h, b_sp_end (blk (snd n)) = Some h /\ e_off q = -8 - h) /\
     forall e, nth_error (b_targets (blk (snd n))) k = Some e -> o_optimize_regs o = false ->
       incl (e_dead q) (dead_before (b_insns (blk (e_trg e))))).
Proof.
  intros HB.
  assert (POPS : forall cl ps x, snips (map (pop_site co fl o d s cl false) ps) (OnEdge x) = []).
  { intros cl ps x. apply snips_none. intros q Hq. apply in_map_iff in Hq. destruct Hq as (b & <- & _).
    unfold pop_site. destruct (opt_mid _ _ _); discriminate. }
  assert (NONE : snips sites (OnEdge (snd n, k)) = [] -> edge_push n k = false ->
    exists q, (if fst n then @nil item else map Snip (snips sites (OnEdge (snd n, k)))) = map Snip (opt (edge_push n k) (StackPush q)) /\
    (edge_push n k = true -> e_ok q /\ (exists h, b_sp_end (blk (snd n)) = Some h /\ e_off q = -8 - h) /\
     forall e, nth_error (b_targets (blk (snd n))) k = Some e -> o_optimize_regs o = false ->
       incl (e_dead q) (dead_before (b_insns (blk (e_trg e)))))).
  { intros E F. rewrite E, F. exists (mkEreq o (bpoint co entry) (jsum_of d s) false 0 false).
    split; [destruct (fst n); reflexivity|discriminate]. }
  revert NONE. unfold edge_push.
  destruct p as [|l|mv ps rg|slow ps fast| |] eqn:EP; cbn [plan_sites]; intros NONE; try (apply NONE; reflexivity).
  - clear NONE. cbn [on_reg] in NREG.
    pose proof (plan_lowered co m fn fl _ PLAN l eq_refl) as LOW. destruct FO as (_ & _ & NDB & NDX).
    destruct (lower_nodup co fl fn s l NDB NDX LOW) as (N1 & _ & _).
    assert (ES : snips (lowered_sites co fl o d s l) (OnEdge (snd n, k)) =
                 opt (emem (snd n, k) (l_push_edges l)) (snd (edge_site co fl o d s false (snd n, k)))).
    { unfold lowered_sites. rewrite NREG, !snips_app, POPS.
      rewrite (snips_none (map (block_site co fl o d s false) (l_push_blocks l))).
      2:{ intros q Hq. apply in_map_iff in Hq. destruct Hq as (b & <- & _). unfold block_site. destruct (opt_mid _ _ _); discriminate. }
      rewrite !app_nil_r. set (dec := fun x y : eid => ltac:(decide equality; apply Nat.eq_dec) : {x = y} + {x <> y}).
      rewrite (snips_map dec _ _ _ (snd n, k)).
      2:{ intros c _ E. cbn [edge_site fst] in E. congruence. }
      replace (placeb _ _) with true by (symmetry; apply placeb_iff; reflexivity).
      destruct (emem (snd n, k) (l_push_edges l)) eqn:EM.
      - apply emem_in in EM. pose proof (once dec _ (snd n, k) N1). apply (count_occ_In dec) in EM.
        replace (count_occ dec (l_push_edges l) (snd n, k)) with 1%nat by lia. reflexivity.
      - apply emem_nin in EM. apply (count_occ_not_In dec) in EM. rewrite EM. reflexivity. }
    rewrite ES.
    assert (SQ : exists q, snd (edge_site co fl o d s false (snd n, k)) = StackPush q) by (cbn; eauto).
    destruct SQ as (q & SQ). exists q. rewrite SQ. split.
    + destruct (fst n); cbn [negb andb]; [reflexivity|]. reflexivity.
    + intros H. apply andb_true_iff in H. destruct H as [_ H]. apply emem_in in H.
      assert (IN : In (OnEdge (snd n, k), StackPush q) (lowered_sites co fl o d s l)).
      { unfold lowered_sites. rewrite NREG, !in_app_iff. left. apply in_map_iff. exists (snd n, k). split; auto.
        unfold edge_site. unfold edge_site in SQ. cbn [snd] in SQ. rewrite SQ. reflexivity. }
      split; [eapply edge_ok_request; eauto|].
      destruct (edge_request co m fn fl o d l AN LOW _ q IN) as (_ & _ & TB & _ & (h & A & _ & B) & EO & _ & EM).
      split; [eauto|]. intros e NE NO. unfold trg in TB, EM. cbn [fst snd] in TB, EM. rewrite NE in TB, EM.
      unfold e_dead. rewrite EM, EO. destruct (fl_no_reg_save fl); [cbn [request_dead]; rewrite NO; intros x []|].
      destruct (entry_fixed (b_insns (blk (e_trg e)))) as [md|] eqn:F; [|cbn [request_dead]; rewrite NO; intros x []].
      destruct (entry_fixed_ok _ _ (an_insns _ _ _ AN _ TB) F) as (i & post & _ & _ & _ & _ & DI). exact DI.
  - cbn [on_reg] in NREG. subst rg. apply NONE; [|reflexivity].
    change (entry_site co o d s mv false entry :: map (pop_site co fl o d s false false) ps) with
      ([entry_site co o d s mv false entry] ++ map (pop_site co fl o d s false false) ps).
    rewrite snips_app, POPS, app_nil_r. unfold entry_site. destruct mv; [destruct (zfind _ _)|]; reflexivity.
  - apply NONE; [|reflexivity].
    change (slow_site co fl o d s slow :: map (pop_site co fl o d s false false) ps) with
      ([slow_site co fl o d s slow] ++ map (pop_site co fl o d s false false) ps).
    rewrite snips_app, POPS, app_nil_r. unfold slow_site. destruct (opt_mid _ _ _); reflexivity.
Qed.
(** A push that takes rsp to point to the return address sits in a block entered that way. *)
Lemma at_top_enter (n : node) k e : In (snd n) bs -> nth_error (b_targets (blk (snd n))) k = Some e ->
  e_sink e = false -> e_inter e = false -> at_top p = true -> pushn (next p n k e) = true ->
  exists c, FastPath.step co (snd n) c /\ only_ret co c.
Proof.
  intros HB NE S1 S2. assert (ST : FastPath.step co (snd n) (e_trg e)).
  { exists e. split; auto. apply filter_In. split; [eapply nth_error_In; eauto|]. unfold bp_edge. rewrite S1, S2. reflexivity. }
  pose proof (entry_mv co m fn fl p PLAN) as EMV. pose proof (plan_fast co m fn fl p PLAN) as PF.
  unfold at_top, push_in, next. destruct p as [|l|mv ps rg|slow ps fast| |] eqn:EP; try discriminate; intros _ H; cbn [fst snd negb andb] in H.
  - rewrite andb_true_r in H. apply andb_true_iff in H. destruct H as [-> H]. apply Nat.eqb_eq in H. exfalso.
    destruct (EMV true ps rg eq_refl eq_refl) as (IS & _). rewrite H in ST.
    apply (in_sources_in co fn (snd n) entry HB) in ST. rewrite IS in ST. exact ST.
  - apply Nat.eqb_eq in H. pose proof (PF slow ps fast eq_refl) as FP.
    destruct (fast_path_inv co fl fn (proj1 FO) slow fast ps FP) as (_ & _ & SF & _ & _ & _ & _ & SS & LR & _).
    rewrite H in ST. apply SS in ST; auto. rewrite ST. exists fast. split; auto.
Qed.

(** ** The registers that a snippet may change are dead in the rest of the block *)
Definition snip_dead (sn : snip) : list string :=
  match sn with StackPush q => e_dead q | StackPop q => x_dead q | _ => [] end.
(** The instructions up to the end of the block. *)
Fixpoint block_rest (its : list item) : list insn :=
  match its with
  | [] | Out _ :: _ => []
  | Ins _ i :: r => i :: block_rest r
  | Here _ :: r | Snip _ :: r => block_rest r
  end.
Fixpoint dead_fine (its : list item) : Prop :=
  match its with
  | [] => True
  | Snip sn :: r => incl (snip_dead sn) (dead_before (block_rest r)) /\ dead_fine r
  | _ :: r => dead_fine r
  end.
Lemma rest_ins n is r : block_rest (map (Ins n) is ++ r) = is ++ block_rest r.
Proof. induction is as [|i t IH]; cbn [map app block_rest]; congruence. Qed.
Lemma rest_snip l r : block_rest (map Snip l ++ r) = block_rest r.
Proof. induction l as [|i t IH]; cbn [map app block_rest]; congruence. Qed.
Lemma fine_ins n is r : dead_fine (map (Ins n) is ++ r) <-> dead_fine r.
Proof. induction is as [|i t IH]; cbn [map app dead_fine]; tauto. Qed.
Lemma segs_dead (NO : o_optimize_regs o = false) : forall ks n sl, segs co p n ks = Some sl -> In (snd n) bs ->
  dead_fine (flat_map (seg_items co sites) sl) /\
  dead_before (block_rest (flat_map (seg_items co sites) sl)) = dead_before (b_insns (blk (snd n))).
Proof.
  induction ks as [|kk ks IH]; intros n sl SG HB; destruct (TIDY (snd n) HB) as (body & tail & SH & RP & PS & TL); cbn [segs] in SG;
    pose proof (dead_tail _ _ _ SH RP) as DT; pose proof (proj1 SH) as EB0.
  - injection SG as <-. cbn [flat_map seg_items]. rewrite app_nil_r.
    destruct (node_shape co m fn fl o d p AN FO TE PLAN NREG PL GE GX n body tail HB SH RP true)
      as (A & B & C & qp & qc & EB & PO & QO & _ & ET). rewrite ET, app_nil_r. cbn [dead_fine block_rest].
    rewrite fine_ins, !rest_ins, !rest_snip, !rest_ins, !rest_snip. rewrite EB0, (dead_app _ _ DT), EB.
    split.
    + assert (F2 : dead_fine (map Snip (opt (popn n) (StackPop qc)) ++ map (Ins n) C)).
      { replace (map (Ins n) C) with (map (Ins n) C ++ []) by apply app_nil_r.
        destruct (popn n) eqn:E; cbn [opt map app dead_fine]; rewrite fine_ins; [|exact I]. split; [|exact I].
        rewrite rest_ins. cbn [block_rest]. rewrite app_nil_r. apply (QO eq_refl). exact NO. }
      destruct (pushn n) eqn:E; cbn [opt map app dead_fine]; rewrite fine_ins; [|exact F2]. split; [|exact F2].
      rewrite rest_ins, rest_snip. replace (map (Ins n) C) with (map (Ins n) C ++ []) by apply app_nil_r. rewrite rest_ins.
      cbn [block_rest]. rewrite app_nil_r. apply (PO eq_refl). exact NO.
    + replace (map (Ins n) C) with (map (Ins n) C ++ []) by apply app_nil_r. rewrite rest_ins. cbn [block_rest].
      rewrite app_nil_r. reflexivity.
  - destruct (nth_error (b_targets (blk (snd n))) kk) as [e|] eqn:NE; [|discriminate].
    destruct (e_sink e || e_inter e)%bool eqn:SI; [discriminate|]. apply orb_false_iff in SI. destruct SI as [S1 S2].
    destruct (segs co p (next p n kk e) ks) as [sl'|] eqn:SG'; [|discriminate]. injection SG as <-.
    assert (ST : FastPath.step co (snd n) (e_trg e)).
    { exists e. split; auto. apply filter_In. split; [eapply nth_error_In; eauto|]. unfold bp_edge. rewrite S1, S2. reflexivity. }
    assert (TN : tail = []).
    { destruct tail as [|i t]; auto. exfalso. destruct ST as (e' & He & _). rewrite (TL ltac:(discriminate)) in He. exact He. }
    assert (EX : snd (next p n kk e) = e_trg e).
    { unfold next, patched_trg. clear. destruct p; auto. destruct n as [c b]. destruct (l_ndebug l); auto. destruct c; auto. }
    assert (HB' : In (snd (next p n kk e)) bs) by (rewrite EX; apply (an_step _ _ _ AN (snd n)); auto).
    destruct (IH _ _ SG' HB') as [D1 D2]. rewrite EX in D2.
    destruct (node_shape co m fn fl o d p AN FO TE PLAN NREG PL GE GX n body tail HB SH RP false)
      as (A & B & C & qp & qc & EB & PO & QO & _ & ET).
    destruct (edge_snips n kk HB) as (qe & EE & QE).
    cbn [flat_map seg_items]. rewrite EE, ET, TN. rewrite EB0, TN, app_nil_r, EB.
    set (R1 := Out n :: map Snip (opt (edge_push n kk) (StackPush qe)) ++ flat_map (seg_items co sites) sl').
    assert (FR : dead_fine R1).
    { unfold R1. cbn [dead_fine]. destruct (edge_push n kk) eqn:EPN; cbn [opt map app dead_fine]; [|exact D1]. split; [|exact D1].
      rewrite D2. apply (QE eq_refl); auto. }
    match goal with |- dead_fine ?z /\ _ => replace z with (Here n :: map (Ins n) A ++ map Snip (opt (pushn n) (StackPush qp)) ++
       map (Ins n) B ++ map Snip (opt (popn n) (StackPop qc)) ++ map (Ins n) C ++ R1) end.
    2:{ unfold R1. repeat (progress (cbn [map app]; rewrite <- ?app_assoc)). reflexivity. }
    assert (RC : block_rest (map (Ins n) C ++ R1) = C) by (rewrite rest_ins; apply app_nil_r).
    cbn [dead_fine block_rest]. rewrite fine_ins, !rest_ins, !rest_snip, !rest_ins, !rest_snip, RC.
    split; [|reflexivity].
    assert (F2 : dead_fine (map Snip (opt (popn n) (StackPop qc)) ++ map (Ins n) C ++ R1)).
    { destruct (popn n) eqn:E; cbn [opt map app dead_fine]; rewrite fine_ins; [|exact FR]. split; [|exact FR].
      rewrite RC. apply (QO eq_refl). exact NO. }
    destruct (pushn n) eqn:E; cbn [opt map app dead_fine]; rewrite fine_ins; [|exact F2]. split; [|exact F2].
    rewrite rest_ins, rest_snip, RC. apply (PO eq_refl). exact NO.
Qed.
Lemma items_dead (NO : o_optimize_regs o = false) ks items : plan_items co sites fn p ks = Some items -> p <> PAbort -> p <> PNoFuel -> dead_fine items.
Proof.
  intros PI NA NF.
  assert (PI2 : option_map (fun l => map Snip (snips sites AtEntry) ++ flat_map (seg_items co sites) l)
           (segs co p (false, entry) ks) = Some items).
  { rewrite <- PI. unfold plan_items. clear - NA NF. destruct p; auto; congruence. }
  destruct (segs co p (false, entry) ks) as [sl|] eqn:SG; [|discriminate]. cbn [option_map] in PI2.
  injection PI2 as <-. destruct (segs_dead NO ks _ _ SG (proj1 FO)) as [D _].
  destruct entry_snips as (q & ES & EQ). rewrite ES. destruct evs0; cbn [opt map app dead_fine]; [exact D|].
  split; [|exact D]. destruct (EQ ltac:(discriminate)) as (_ & _ & E). cbn [snip_dead]. rewrite (E NO). intros x [].
Qed.

(** ** The items of a path: its instructions, and pushes and checks for the shadow stack *)
Lemma segs_code : forall ks n sl, segs co p n ks = Some sl -> In (snd n) bs ->
  Forall stack_snip (flat_map (seg_items co sites) sl) /\
  left_of (flat_map (seg_items co sites) sl) = path_insns co (map (fun x => snd (fst x)) sl) /\
  orig_blocks co (snd n) ks = Some (map (fun x => snd (fst x)) sl).
Proof.
  assert (OPT : forall (c : bool) sn, stack_snip (Snip sn) -> Forall stack_snip (map Snip (opt c sn))).
  { intros [] sn H; cbn [opt map]; auto. }
  induction ks as [|kk ks IH]; intros n sl SG HB; destruct (TIDY (snd n) HB) as (body & tail & SH & RP & PS & TL); cbn [segs] in SG;
    pose proof (cut_shape _ _ _ SH) as CUT.
  - injection SG as <-. cbn [flat_map seg_items path_insns map fst snd orig_blocks]. rewrite CUT, !app_nil_r. cbn [fst].
    destruct (node_shape co m fn fl o d p AN FO TE PLAN NREG PL GE GX n body tail HB SH RP true)
      as (A & B & C & qp & qc & EB & _ & _ & _ & ET). rewrite ET, app_nil_r. split; [|split; [|reflexivity]].
    + constructor; [exact I|]. repeat (apply Forall_app; split); auto using stack_ins; apply OPT; exact I.
    + change (left_of (Here n :: ?z)) with (left_of z). rewrite !left_of_app, !left_of_ins, !left_of_snips. symmetry. exact EB.
  - destruct (nth_error (b_targets (blk (snd n))) kk) as [e|] eqn:NE; [|discriminate].
    destruct (e_sink e || e_inter e)%bool eqn:SI; [discriminate|]. pose proof SI as SI2. apply orb_false_iff in SI. destruct SI as [S1 S2].
    destruct (segs co p (next p n kk e) ks) as [sl'|] eqn:SG'; [|discriminate]. injection SG as <-.
    assert (ST : FastPath.step co (snd n) (e_trg e)).
    { exists e. split; auto. apply filter_In. split; [eapply nth_error_In; eauto|]. unfold bp_edge. rewrite S1, S2. reflexivity. }
    assert (TN : tail = []).
    { destruct tail as [|i t]; auto. exfalso. destruct ST as (e' & He & _). rewrite (TL ltac:(discriminate)) in He. exact He. }
    assert (EX : snd (next p n kk e) = e_trg e).
    { unfold next, patched_trg. clear. destruct p; auto. destruct n as [c b]. destruct (l_ndebug l); auto. destruct c; auto. }
    assert (HB' : In (snd (next p n kk e)) bs) by (rewrite EX; apply (an_step _ _ _ AN (snd n)); auto).
    destruct (IH _ _ SG' HB') as (D1 & D2 & D3). rewrite EX in D3.
    destruct (node_shape co m fn fl o d p AN FO TE PLAN NREG PL GE GX n body tail HB SH RP false)
      as (A & B & C & qp & qc & EB & _ & _ & _ & ET).
    destruct (edge_snips n kk HB) as (qe & EE & _).
    cbn [flat_map seg_items orig_blocks map fst snd]. rewrite NE, SI2, D3, EE, ET, TN. split; [|split; [|reflexivity]].
    + apply Forall_app. split; [|exact D1]. apply Forall_app. split; [|apply OPT; exact I]. constructor; [exact I|].
      repeat (apply Forall_app; split); auto using stack_ins; try (apply OPT; exact I). constructor; [exact I|constructor].
    + unfold path_insns. cbn [flat_map]. rewrite CUT. cbn [fst]. rewrite !left_of_app, D2. f_equal. rewrite left_of_snips, app_nil_r.
      change (left_of (Here n :: ?z)) with (left_of z). rewrite !left_of_app, !left_of_ins, !left_of_snips. cbn [app left_of flat_map].
      rewrite !app_nil_r. symmetry. exact EB.
Qed.
Lemma items_code ks items path : plan_items co sites fn p ks = Some items -> p <> PAbort -> p <> PNoFuel ->
  orig_blocks co entry ks = Some path -> Forall stack_snip items /\ left_of items = path_insns co path.
Proof.
  intros PI NA NF OB.
  assert (PI2 : option_map (fun l => map Snip (snips sites AtEntry) ++ flat_map (seg_items co sites) l)
           (segs co p (false, entry) ks) = Some items).
  { rewrite <- PI. unfold plan_items. clear - NA NF. destruct p; auto; congruence. }
  destruct (segs co p (false, entry) ks) as [sl|] eqn:SG; [|discriminate]. cbn [option_map] in PI2.
  injection PI2 as <-. destruct (segs_code ks _ _ SG (proj1 FO)) as (D1 & D2 & D3). cbn [snd] in D3. rewrite D3 in OB. injection OB as <-.
  destruct entry_snips as (q & ES & _). rewrite ES. split.
  - apply Forall_app. split; [|exact D1]. destruct evs0; cbn [opt map]; auto. constructor; [exact I|constructor].
  - rewrite left_of_app, left_of_snips. exact D2.
Qed.

(** ** The machine *)
Variable X : Type.
Variable sem : insn -> pst Machine.flags X -> option (pst Machine.flags X).
Variable mp : perm.
Variables base lo cfa hi : Z.
Variable width : insn -> Z.
Variable stk : Z -> Prop.
Variable gentle : nat -> Prop.
Variable sc : scope X.
Variable k : nat.
Hypothesis SF : stack_facts sem.
Notation pstate := (pst Machine.flags X).
Notation irun := (irun X co sem mp o base lo cfa width stk gentle sc).
Notation steps := (steps X co sem base lo cfa width stk gentle sc).
Notation ground := (ground X base lo cfa sc).
Notation gone := (gone X sc).
Notation as_state := (as_state X base).
Notation of_state := (of_state X).
(** The stack from [lo] to [hi] and the shadow stack with room for [k] addresses. *)
Record room : Prop := {
  rm_stack : mapped mp lo (hi - lo);
  rm_shadow : mapped mp base (32 + 8 * Z.of_nat k);
  rm_top : ShadowSpec.slot base k < W;
  rm_apart : apart lo (hi - lo) base (32 + 8 * Z.of_nat k);
  rm_frame : forall b, In b bs -> cfa + 8 * Z.of_nat (List.length (b_insns (blk b))) <= hi;
  rm_slot : forall x, Whole.slot cfa x -> stk x;
  (* a wild frame: the words that a block can pop and two words below rsp *)
  rm_wild : forall a b, usable sc a -> In b bs -> let n := 8 * Z.of_nat (List.length (b_insns (blk b))) in
    mapped mp (a - 16) (24 + n) /\ apart (a - 16) (24 + n) base (32 + 8 * Z.of_nat k) }.
Hypothesis RM : room.
Variables (ra : Z) (l0 : list Z).
Hypothesis DEPTH : (List.length l0 < k)%nat.

Lemma cfa_hi : cfa <= hi.
Proof. pose proof (rm_frame RM entry (proj1 FO)). lia. Qed.
Lemma env_of lst st off : wfp X st -> shadow_rep (p_mem st) base lst -> (List.length lst <= k)%nat -> 0 <= off ->
  mapped mp (p_rg st RSP - 16) (24 + off) -> apart (p_rg st RSP - 16) (24 + off) base (32 + 8 * Z.of_nat k) ->
  env mp (as_state st) lst off k.
Proof.
  intros WF SR LK H0 M AP. pose proof (rm_shadow RM) as M2. pose proof (rm_top RM) as T.
  assert (MS : forall a n, p_rg st RSP - 16 <= a -> 0 <= n -> a + n <= p_rg st RSP + 8 + off -> mapped mp a n).
  { intros a n G1 G2 G3. destruct M as (X1 & X2 & X3). split; [lia|]. split; [lia|]. intros x Hx. apply X3. unfold inside in *. lia. }
  constructor; change (gs (as_state st)) with base; change (rg (as_state st)) with (p_rg st); change (mem (as_state st)) with (p_mem st); auto.
  - split; [exact WF|]. change (0 <= base < W). destruct M2 as (X1 & X2 & _). lia.
  - apply MS; lia.
  - apply MS; lia.
  - unfold apart in *. lia.
Qed.
Lemma stack_part a n : lo <= a -> 0 <= n -> a + n <= hi ->
  mapped mp a n /\ apart a n base (32 + 8 * Z.of_nat k).
Proof.
  intros G1 G2 G3. pose proof (rm_apart RM) as A. destruct (rm_stack RM) as (X1 & X2 & X3).
  split; [split; [lia|]; split; [lia|]; intros x Hx; apply X3; unfold inside in *; lia|]. unfold apart in *. lia.
Qed.
(** In a frame that is not wild. *)
Lemma env_at lst st off : ground lst st -> gone st = false -> (List.length lst <= k)%nat -> 0 <= off ->
  p_rg st RSP + off + 8 <= hi -> env mp (as_state st) lst off k.
Proof.
  intros (WF & IF & SR) GO LK H0 HH. unfold in_frame in IF. rewrite GO in IF.
  destruct (stack_part (p_rg st RSP - 16) (24 + off)) as [M A]; [lia..|]. apply env_of; auto.
Qed.
(** The words that a block can pop, wild or not. *)
Lemma around lst st b : ground lst st -> In b bs -> let n := 8 * Z.of_nat (List.length (b_insns (blk b))) in
  mapped mp (p_rg st RSP - 16) (24 + n) /\ apart (p_rg st RSP - 16) (24 + n) base (32 + 8 * Z.of_nat k).
Proof.
  intros (WF & IF & SR) HB n. unfold in_frame in IF. destruct (gone st).
  - apply (rm_wild RM); auto.
  - pose proof (rm_frame RM b HB). unfold n. apply stack_part; lia.
Qed.
Lemma env_in lst st b off : ground lst st -> In b bs -> (List.length lst <= k)%nat ->
  0 <= off <= 8 * Z.of_nat (List.length (b_insns (blk b))) -> env mp (as_state st) lst off k.
Proof.
  intros G HB LK HO. destruct (around lst st b G HB) as ((X1 & X2 & X3) & A). destruct G as (WF & _ & SR).
  apply env_of; auto; [lia| |].
  - split; [lia|]. split; [lia|]. intros x Hx. apply X3. unfold inside in *. lia.
  - unfold apart in *. lia.
Qed.

(** ** Runs in which the snippets disturb little *)
Definition snip_scratch (sn : snip) : Z :=
  match sn with StackPush q => e_scratch q | StackPop q => x_scratch q | _ => 0 end.
Definition mild (sn : snip) (a b : pstate) : Prop :=
  p_rest b = p_rest a /\ p_rg b RSP = p_rg a RSP /\
  (forall r, ~ In (reg_name r) (snip_dead sn) -> p_rg b r = p_rg a r) /\
  (forall x, ~ inside (p_rg a RSP - snip_scratch sn) (snip_scratch sn) x -> ~ inside base 8 x ->
     ~ inside (ShadowSpec.slot base (List.length l0)) 8 x -> p_mem b x = p_mem a x) /\
  match sn with StackPush _ => p_fl b = p_fl a | _ => True end.
Inductive drun : list item -> pstate -> pstate -> Prop :=
| dr_nil st : drun [] st st
| dr_here n r st st' : here_ok X co cfa sc n st -> drun r st st' -> drun (Here n :: r) st st'
| dr_out n r st st' : out_ok X co cfa sc n st -> drun r st st' -> drun (Out n :: r) st st'
| dr_ins n i r st st1 st' : sem i st = Some st1 -> step_ok X co base lo cfa width stk gentle sc n i st st1 ->
    drun r st1 st' -> drun (Ins n i :: r) st st'
| dr_snip sn c u r st st' : snip_code o sn = Some c -> exec c mp (as_state st) (Done u) ->
    mild sn st (of_state u st) -> (exists l, ground l (of_state u st) /\ (List.length l <= k)%nat) ->
    drun r (of_state u st) st' -> drun (Snip sn :: r) st st'.
Lemma drun_irun its st st' : drun its st st' -> irun its st (Fin X st').
Proof. intros H. induction H; econstructor; eauto. Qed.
Lemma drun_snoc a : forall r st st1 st2, drun a st st1 -> drun r st1 st2 -> drun (a ++ r) st st2.
Proof.
  induction a as [|x a IH]; intros r st st1 st2 H K; inversion H; subst; cbn [app]; [exact K|econstructor; eauto..].
Qed.
Lemma steps_drun n is : forall st st', steps n is st st' -> drun (map (Ins n) is) st st'.
Proof.
  induction is as [|i t IH]; intros st st' H; cbn [Activation.steps map] in *; [subst; constructor|].
  destruct H as (q & A & B & C). econstructor; eauto.
Qed.

(** ** The push *)
Lemma can_push q st : ground l0 st -> gone st = false -> load64 (p_mem st) (cfa - 8) = ra ->
  e_ok q -> e_off q = cfa - 8 - p_rg st RSP ->
  exists st', drun [Snip (StackPush q)] st st' /\ ground (ra :: l0) st' /\ p_rg st' RSP = p_rg st RSP /\ gone st' = false.
Proof.
  intros G GO W OK EO. pose proof cfa_hi as CH.
  assert (EV : env mp (as_state st) l0 (cfa - 8 - rg (as_state st) RSP) k).
  { unfold Activation.as_state; cbn [rg]. destruct G as (G1 & G2 & G3). pose proof G2 as G2'. unfold in_frame in G2'. rewrite GO in G2'.
    apply env_at; [split; auto|exact GO|lia|lia|lia]. }
  destruct (pushes_off q mp (as_state st) l0 k (cfa - 8) OK EO EV DEPTH) as (c & st1 & C1 & C2 & C3 & C4 & C5 & C6 & C7 & C8).
  assert (WF : wf (as_state st)) by apply EV. pose proof (exec_wf _ _ _ _ WF C2) as WF1.
  unfold Activation.as_state in C3, C4; cbn [mem gs rg] in C3, C4. rewrite W in C3.
  assert (SC : snip_code o (StackPush q) = Some c) by (cbn [snip_code]; rewrite C1; reflexivity).
  destruct G as (G1 & G2 & G3).
  assert (G' : ground (ra :: l0) (of_state st1 st)).
  { split; [exact (proj1 WF1)|]. split; [unfold in_frame, Activation.gone in *; change (p_rg (of_state st1 st) RSP) with (rg st1 RSP); rewrite C4; exact G2|exact C3]. }
  exists (of_state st1 st). split; [|split; [exact G'|split; [exact C4|exact GO]]].
  eapply dr_snip; [exact SC|exact C2| |exists (ra :: l0); split; [exact G'|exact DEPTH]|constructor].
  split; [reflexivity|]. split; [exact C4|]. split; [exact C7|]. split; [exact C8|exact C5].
Qed.
Lemma drun_next sn st st' r out : drun [Snip sn] st st' -> irun (Snip sn :: r) st out -> irun r st' out.
Proof.
  clear PLAN NREG. intros D R. inversion D as [| | | |? c u ? ? ? SC C2 M GL D']; subst. inversion D'; subst.
  inversion R; subst; rewrite SC in *; try discriminate;
    match goal with K : Some _ = Some _ |- _ => injection K as <- end;
    match goal with K : exec c mp _ _ |- _ => pose proof (exec_det _ _ _ _ _ C2 K) as EE end; try discriminate.
  injection EE as ->. assumption.
Qed.
Lemma do_push q st r out : ground l0 st -> gone st = false -> load64 (p_mem st) (cfa - 8) = ra ->
  e_ok q -> e_off q = cfa - 8 - p_rg st RSP -> irun (Snip (StackPush q) :: r) st out ->
  exists st', drun [Snip (StackPush q)] st st' /\ irun r st' out /\
    ground (ra :: l0) st' /\ p_rg st' RSP = p_rg st RSP.
Proof.
  intros G GO W OK EO R. destruct (can_push q st G GO W OK EO) as (st' & D & K). exists st'. split; [exact D|].
  split; [eapply drun_next; eauto|tauto].
Qed.
(** ** The check *)
Lemma pops_len C : 0 <= pops C <= 8 * Z.of_nat (List.length C).
Proof.
  unfold pops. assert ((List.length (filter (fun i => isop (i_op i) OPop) C) <= List.length C)%nat); [|lia].
  induction C as [|i C IH]; cbn; [lia|]. destruct (isop _ _); cbn; lia.
Qed.
Lemma can_check q b C st : ground (ra :: l0) st -> In b bs -> incl C (b_insns (blk b)) ->
  (List.length C <= List.length (b_insns (blk b)))%nat -> pop_ok o C q ->
  let w := load64 (p_mem st) (p_rg st RSP + pops C) in
  (w = 0 /\ unwind w (ra :: l0) = None /\ exists st', irun [Snip (StackPop q)] st (Fin X st') /\
     load64 (p_mem st') (p_rg st RSP + pops C) = w /\ p_rg st' RSP = p_rg st RSP) \/
  (exists st' l', drun [Snip (StackPop q)] st st' /\
     unwind w (ra :: l0) = Some l' /\ shadow_rep (p_mem st') base l' /\
     load64 (p_mem st') (p_rg st RSP + pops C) = w /\ p_rg st' RSP = p_rg st RSP) \/
  ((forall r, irun (Snip (StackPop q) :: r) st (Stopped X st r)) /\ w <> ra).
Proof.
  intros G HB IC LC (PC & OK & XO & _) w. pose proof (pops_len C) as PLN.
  destruct (around _ _ b G HB) as [_ AR].
  assert (EV : env mp (as_state st) (ra :: l0) (p_rg st RSP + pops C - rg (as_state st) RSP) k).
  { unfold Activation.as_state; cbn [rg]. apply (env_in _ _ b); [exact G|exact HB|cbn; lia|lia]. }
  assert (AP : apart (p_rg st RSP + pops C) 8 (gs (as_state st)) 8).
  { unfold Activation.as_state; cbn [gs]. unfold apart in *. lia. }
  destruct G as (G1 & G2 & G3).
  destruct (checks_off q mp (as_state st) (ra :: l0) k (p_rg st RSP + pops C) OK) as (c & C1 & C2); auto.
  { unfold Activation.as_state; cbn [rg]. lia. }
  change (load64 (mem (as_state st)) (p_rg st RSP + pops C)) with w in C2.
  assert (SC : snip_code o (StackPop q) = Some c) by (cbn [snip_code]; rewrite C1; reflexivity).
  assert (TRAP : exec c mp (as_state st) Trap -> forall r, irun (Snip (StackPop q) :: r) st (Stopped X st r)).
  { intros T r. eapply ir_trap; eauto. }
  destruct (unwind w (ra :: l0)) as [l'|] eqn:U.
  - right. destruct C2 as [D T].
    assert (DEC : clean_above w (ra :: l0) \/ ~ clean_above w (ra :: l0)).
    { clear. induction (ra :: l0) as [|v l IH]; cbn; [auto|]. destruct (Z.eq_dec v w); [auto|].
      destruct (Z.eq_dec (v mod 2 ^ 32) 0) as [E|E]; [right; intros [K|[K _]]; auto|].
      destruct IH; [left; auto|right; intros [K|[_ K]]; auto]. }
    destruct DEC as [CA|NC].
    + left. destruct (D CA) as (st1 & E1 & E2 & E3 & _ & E5 & E6). unfold Activation.as_state in E2, E3, E6, AP; cbn [gs mem rg] in E2, E3, E6, AP.
      exists (of_state st1 st), l'.
      assert (G' : ground l' (of_state st1 st)).
      { split; [exact (proj1 (exec_wf _ _ _ _ (env_wf _ _ _ _ _ EV) E1))|]. split; [|exact E2].
        unfold in_frame, Activation.gone in *. change (p_rg (of_state st1 st) RSP) with (rg st1 RSP). rewrite E3. exact G2. }
      split.
      { eapply dr_snip; [exact SC|exact E1| |exists l'; split; [exact G'|apply unwind_length in U; cbn [List.length] in U; lia]|constructor]. split; [reflexivity|]. split; [exact E3|]. split; [exact E5|].
        split; [|exact I]. intros x N1 N2 _. apply E6; assumption. }
      split; auto. split; auto. split; [|exact E3].
      unfold w. apply load64_ext. intros x Hx. cbn [p_mem]. apply E6.
      * unfold inside. unfold x_scratch. pose proof (request_scratch_range (x_o q) (x_mid q) (exit_dead_set (x_pt q) (x_js q))). lia.
      * unfold inside, apart in *. lia.
    + right. split; [apply TRAP; auto|]. intros E. apply NC. cbn. auto.
  - assert (NRA : w <> ra) by (intros E; rewrite E in U; cbn in U; rewrite Z.eqb_refl in U; discriminate).
    destruct (Z.eq_dec w 0) as [WZ|NZ]; [|right; right; split; [apply TRAP; auto|exact NRA]].
    assert (EXO : rg (as_state st) RSP + x_off q = p_rg st RSP + pops C) by (unfold Activation.as_state; cbn [rg]; lia).
    destruct (exit_zero q mp (as_state st) (ra :: l0) k OK) as (c' & C1' & Z1 & Z2).
    { replace (x_off q) with (p_rg st RSP + pops C - rg (as_state st) RSP) by lia. exact EV. }
    { rewrite EXO. exact AP. }
    { rewrite EXO. exact WZ. }
    { rewrite <- WZ. exact U. }
    rewrite C1 in C1'. injection C1' as <-.
    destruct (sound_dec (ra :: l0)) as [SD|NS]; [|right; right; split; [apply TRAP; auto|exact NRA]].
    left. split; [exact WZ|]. split; [reflexivity|].
    destruct (Z1 SD) as (st1 & E1 & _ & _ & E3 & _ & E6). unfold Activation.as_state in E3, E6, AP; cbn [gs mem rg] in E3, E6, AP.
    exists (of_state st1 st). split; [eapply ir_snip; [exact SC|exact E1|constructor]|]. split; [|exact E3].
    unfold w. apply load64_ext. intros x Hx. cbn [p_mem]. apply E6.
    + unfold inside. unfold x_scratch. pose proof (request_scratch_range (x_o q) (x_mid q) (exit_dead_set (x_pt q) (x_js q)) (proj2 OK)). lia.
    + unfold inside, apart in *. lia.
Qed.
(** A run has one outcome. *)
Lemma irun_det its : forall st a b, irun its st a -> irun its st b -> a = b.
Proof.
  clear PLAN NREG. induction its as [|x its IH]; intros st a b A B; inversion A; subst; inversion B; subst; eauto;
    repeat match goal with
    | K : snip_code _ ?z = _, K' : snip_code _ ?z = _ |- _ => rewrite K in K'; injection K' as K' || discriminate K'; subst
    | K : sem ?i ?z = _, K' : sem ?i ?z = _ |- _ => rewrite K in K'; injection K' as K'; subst
    | K : exec ?c _ ?z _, K' : exec ?c _ ?z _ |- _ => pose proof (exec_det _ _ _ _ _ K K'); clear K'
    end; try congruence;
    try match goal with K : Done _ = Done _ |- _ => injection K as -> end; eauto.
Qed.
Lemma irun_rest x r st st' out : irun [x] st (Fin X st') -> irun (x :: r) st out -> irun r st' out.
Proof.
  clear PLAN NREG. intros A B. inversion A; subst; inversion B; subst;
    repeat match goal with
    | K : irun [] _ _ |- _ => apply irun_nil in K
    | K : Fin _ _ = Fin _ _ |- _ => injection K as K; subst
    | K : snip_code _ ?z = _, K' : snip_code _ ?z = _ |- _ => rewrite K in K'; injection K' as K' || discriminate K'; subst
    | K : sem ?i ?z = _, K' : sem ?i ?z = _ |- _ => rewrite K in K'; injection K' as K'; subst
    | K : exec ?c _ ?z _, K' : exec ?c _ ?z _ |- _ => pose proof (exec_det _ _ _ _ _ K K'); clear K'
    end; try discriminate; try assumption;
    try match goal with K : Done _ = Done _ |- _ => injection K as -> end; eauto.
Qed.
Lemma do_check q b C st r out : ground (ra :: l0) st -> In b bs -> incl C (b_insns (blk b)) ->
  (List.length C <= List.length (b_insns (blk b)))%nat -> pop_ok o C q ->
  irun (Snip (StackPop q) :: r) st out ->
  let w := load64 (p_mem st) (p_rg st RSP + pops C) in
  (w = 0 /\ unwind w (ra :: l0) = None /\ exists st', irun r st' out /\
     load64 (p_mem st') (p_rg st RSP + pops C) = w /\ p_rg st' RSP = p_rg st RSP) \/
  (exists st' l', drun [Snip (StackPop q)] st st' /\ irun r st' out /\
     unwind w (ra :: l0) = Some l' /\ shadow_rep (p_mem st') base l' /\
     load64 (p_mem st') (p_rg st RSP + pops C) = w /\ p_rg st' RSP = p_rg st RSP) \/
  (out = Stopped X st r /\ w <> ra).
Proof.
  intros G HB IC LC PO R w. destruct (can_check q b C st G HB IC LC PO) as [(K1 & K2 & st' & K3 & K4)|[(st' & l' & D & K)|(K1 & K2)]].
  - left. split; [exact K1|]. split; [exact K2|]. exists st'. split; [|exact K4]. eapply irun_rest; eauto.
  - right. left. exists st', l'. split; [exact D|]. split; [eapply drun_next; eauto|]. tauto.
  - right. right. split; [|exact K2]. eapply irun_det; eauto.
Qed.

(** ** The run *)
Variable evs : list ev.
Hypothesis ONE : (count_occ ev_eq_dec evs Push <= 1)%nat.
Hypothesis CALM : forall pre b post, evs = pre ++ Blk b :: post -> slot_safe co width gentle b \/ In Push pre.
Hypothesis AFTER : forall pre post, evs = pre ++ Pop :: post -> In Push pre.
Hypothesis LAST : forall pre post, evs = pre ++ Pop :: post ->
  post = [] \/ exists b i, post = [Blk b] /\ b_insns (blk b) = [i] /\ i_op i = ORet.
Variable items : list item.
Variable p0 : pstate.
(** Whether the return address has been recorded. *)
Definition recorded (done : list item) : bool :=
  existsb (fun x => match x with Snip (StackPush _) => true | _ => false end) done.
(** A state on the way, before the check. *)
Definition standing (its : list item) (st : pstate) : Prop := exists done,
  items = done ++ its /\ drun done p0 st /\ ground (if recorded done then ra :: l0 else l0) st.
(** The program can go on: at most an inserted piece of code stops it.  [Q] is for calls that do
    not come back, and for paths that stop short of the end of the function. *)
Variable good : list item -> pstate -> Prop.
Variable Q : Prop.
Hypothesis EVEN : count_occ ev_eq_dec evs Pop = count_occ ev_eq_dec evs Push \/ (forall st, good [] st -> Q).
Hypothesis good_here : forall n r st, good (Here n :: r) st -> here_ok X co cfa sc n st /\ good r st.
Hypothesis good_out : forall n r st, good (Out n :: r) st -> out_ok X co cfa sc n st /\ good r st.
Hypothesis good_ins1 : forall n i r st, good (Ins n i :: r) st -> exit_passable i \/ standing (Ins n i :: r) st ->
  Q \/ exists st', sem i st = Some st' /\ step_ok X co base lo cfa width stk gentle sc n i st st' /\ good r st'.
Hypothesis good_snip : forall sn r st st', good (Snip sn :: r) st -> drun [Snip sn] st st' -> good r st'.
Lemma recorded_app a b : recorded (a ++ b) = (recorded a || recorded b)%bool.
Proof. apply existsb_app. Qed.
Lemma recorded_ins n is : recorded (map (Ins n) is) = false.
Proof. induction is; auto. Qed.
Lemma good_ins n is r : forall done st, items = done ++ map (Ins n) is ++ r -> drun done p0 st ->
  ground (if recorded done then ra :: l0 else l0) st -> good (map (Ins n) is ++ r) st ->
  Q \/ exists st', steps n is st st' /\ good r st'.
Proof.
  induction is as [|i t IH]; intros done st EI RD G H; cbn [map app Activation.steps] in *; [right; eauto|].
  destruct (good_ins1 _ _ _ _ H) as [K|(q & A & B & C)]; [right; exists done; auto|auto|].
  destruct (IH (done ++ [Ins n i]) q) as [K|(st' & D & E)]; [| | |exact C|auto|right; eauto 8].
  - rewrite <- app_assoc. exact EI.
  - eapply drun_snoc; [exact RD|]. econstructor; eauto. constructor.
  - rewrite recorded_app. cbn. rewrite orb_false_r. apply (steps_ground X co sem base lo cfa width stk gentle sc n [i] _ st q); [|exact G].
    cbn [Activation.steps]. eauto.
Qed.
Lemma good_exit n is r : Forall exit_passable is -> forall st, good (map (Ins n) is ++ r) st ->
  Q \/ exists st', steps n is st st' /\ good r st'.
Proof.
  induction is as [|i t IH]; intros F st H; cbn [map app Activation.steps] in *; [right; eauto|].
  inversion F as [|? ? F1 F2]; subst.
  destruct (good_ins1 _ _ _ _ H (or_introl F1)) as [K|(q & A & B & C)]; [auto|].
  destruct (IH F2 q C) as [K|(st' & D & E)]; [auto|]. right. eauto 8.
Qed.

(** What the function would return to if the rest of the code ran on from [st]: the word above
    the words that the remaining instructions pop. *)
Definition return_word (st : pstate) (r : list item) : Z :=
  load64 (p_mem st) (p_rg st RSP + pops (left_of r)).
Definition result (out : outcome X) : Prop :=
  match out with
  | Fin _ p1 =>
      (shadow_rep (p_mem p1) base l0 /\ load64 (p_mem p1) (cfa - 8) = ra) \/
      (exists l', unwind (load64 (p_mem p1) (p_rg p1 RSP)) (ra :: l0) = Some l' /\ shadow_rep (p_mem p1) base l')
  | Stopped _ st r => return_word st r <> ra /\
      (forall p1, prun sem (left_of r) st = Some p1 -> load64 (p_mem p1) (p_rg p1 RSP) = return_word st r)
  | Crashed _ _ _ => False
  end.
(** The same, and the snippets disturb little up to the end or to the check that stops it. *)
Definition checked (st : pstate) (r : list item) : Prop := exists a q,
  items = a ++ Snip (StackPop q) :: r /\ drun a p0 st /\
  Forall exit_passable (left_of r) /\ Forall plain_stack (left_of r).
(** No code is inserted in what is left. *)
Definition no_more (r : list item) : Prop := forall sn, ~ In (Snip sn) r.
Definition fine (out : outcome X) : Prop :=
  result out /\
  match out with
  | Fin _ p1 => drun items p0 p1 /\
      ((shadow_rep (p_mem p1) base l0 /\ load64 (p_mem p1) (cfa - 8) = ra /\ gone p1 = false) \/
       (exists l', unwind (load64 (p_mem p1) (p_rg p1 RSP)) (ra :: l0) = Some l' /\ shadow_rep (p_mem p1) base l'))
  | Stopped _ st r => checked st r
  | _ => True
  end.
(** The word that the check looks at is zero, which is not recorded, and the check lets it pass. *)
Definition passes (st : pstate) (r : list item) : Prop := exists a q st',
  items = a ++ Snip (StackPop q) :: r /\ irun a p0 (Fin X st) /\ irun [Snip (StackPop q)] st (Fin X st') /\
  unwind 0 (ra :: l0) = None /\ return_word st' r = 0 /\ no_more r.
Definition nulled_at : Prop := exists st r, checked st r /\ return_word st r = 0 /\ passes st r.
Lemma irun_after a r : forall st st' out, irun a st (Fin X st') -> irun (a ++ r) st out -> irun r st' out.
Proof.
  clear PLAN NREG. induction a as [|x a IH]; intros st st' out A B.
  - apply irun_nil in A. injection A as ->. exact B.
  - assert (S1 : exists st1, irun [x] st (Fin X st1) /\ irun a st1 (Fin X st')).
    { inversion A; subst; eexists; (split; [|eassumption]); econstructor; eauto; constructor. }
    destruct S1 as (st1 & S1 & S2). apply (IH st1); [exact S2|]. eapply irun_rest; [exact S1|exact B].
Qed.
Lemma irun_bare r : no_more r -> forall st out, irun r st out ->
  exists p1, out = Fin X p1 /\ prun sem (left_of r) st = Some p1.
Proof.
  clear PLAN NREG. induction r as [|x r IH]; intros NM st out R; inversion R; subst; cbn [left_of flat_map app prun];
    try (match goal with sn : snip |- _ => destruct (NM sn (or_introl eq_refl)) end).
  - eauto.
  - apply IH; [intros sn K; exact (NM sn (or_intror K))|assumption].
  - apply IH; [intros sn K; exact (NM sn (or_intror K))|assumption].
  - match goal with K : sem _ _ = Some _ |- _ => rewrite K end. apply IH; [intros sn K; exact (NM sn (or_intror K))|assumption].
Qed.
(** What follows: the function comes to its end and is about to return to address zero. *)
Lemma nulled_end out : nulled_at -> irun items p0 out ->
  exists p1, out = Fin X p1 /\ load64 (p_mem p1) (p_rg p1 RSP) = 0 /\ unwind 0 (ra :: l0) = None.
Proof.
  clear PLAN NREG. intros (st & r & (a & q & E & D & F1 & F2) & _ & (a' & q' & st' & E' & R1 & R2 & UN & W & NM)) R.
  rewrite E' in R. pose proof (irun_after _ _ _ _ _ R1 R) as R3. pose proof (irun_rest _ _ _ _ _ R2 R3) as R4.
  destruct (irun_bare r NM _ _ R4) as (p1 & -> & PR). exists p1. split; [reflexivity|]. split; [|exact UN].
  destruct (exit_walk _ _ sem SF _ F1 F2 _ _ PR) as [K1 K2]. rewrite K1. unfold return_word in W. rewrite <- W. apply load64_ext. intros; apply K2.
Qed.
Definition ended : Prop := exists out, irun items p0 out /\ fine out.
Definition over : Prop := Q \/ ended.
Definition phase (dn : list ev) (st : pstate) : Prop :=
  (~ In Push dn /\ ground l0 st /\ load64 (p_mem st) (cfa - 8) = ra /\ gone st = false) \/
  (In Push dn /\ ~ In Pop dn /\ ground (ra :: l0) st) \/
  (In Pop dn /\ exists l', unwind (load64 (p_mem st) (p_rg st RSP)) (ra :: l0) = Some l' /\ shadow_rep (p_mem st) base l').

Lemma lone_shape b body tail i : b_insns (blk b) = [i] -> i_op i = ORet ->
  block_shape (b_insns (blk b)) body tail -> body = [].
Proof.
  clear PLAN NREG. intros E O (S1 & S2 & _). rewrite E in S1. destruct body as [|x body]; auto. cbn [app] in S1. injection S1 as <- _.
  inversion S2; subst. contradiction.
Qed.
Lemma evs_nonempty sg : exists a c, seg_evs sg = a ++ Blk (snd (fst sg)) :: c.
Proof. unfold seg_evs. eexists. eexists. cbn [app]. reflexivity. Qed.
(** After a check, there is at most a block that just returns. *)
Lemma after_check n ks sl pre : segs co p n ks = Some sl -> In (snd n) bs ->
  evs = pre ++ Pop :: flat_map seg_evs sl -> ks = [] /\ flat_map (seg_items co sites) sl = [Here n].
Proof.
  intros SG HB E. destruct (segs_cons _ _ _ SG) as (r & ES & RK).
  destruct (LAST _ _ E) as [K|(b & i & K & B1 & B2)].
  - exfalso. rewrite ES in K. cbn [flat_map] in K. destruct (evs_nonempty (n, hd_error ks)) as (a & c & EE).
    rewrite EE, <- app_assoc in K. destruct a; discriminate.
  - assert (RN : r = []).
    { destruct r as [|sg r]; auto. exfalso. rewrite ES in K. cbn [flat_map] in K.
      destruct (evs_nonempty (n, hd_error ks)) as (a & c & EE). destruct (evs_nonempty sg) as (a' & c' & EE').
      rewrite EE, EE', <- !app_assoc in K. apply (f_equal (@List.length ev)) in K.
      repeat (progress (rewrite ?app_length in K; cbn [List.length app] in K)). lia. }
    apply RK in RN as KN. split; auto. subst r ks. rewrite ES in *. cbn [flat_map hd_error seg_items] in *. rewrite !app_nil_r in *.
    unfold seg_evs in K. cbn [fst snd] in K. rewrite app_nil_r in K.
    destruct (pushn n) eqn:PN; [discriminate|]. cbn [opt app] in K. injection K as K1 K2.
    destruct (popn n) eqn:QN; [discriminate|].
    destruct (TIDY (snd n) HB) as (body & tail & SH & RP & _ & _).
    destruct (node_shape co m fn fl o d p AN FO TE PLAN NREG PL GE GX n body tail HB SH RP true)
      as (A & B & C & qp & qc & EB & _ & _ & _ & EI).
    rewrite <- K1 in B1. pose proof (lone_shape _ _ _ _ B1 B2 SH) as BN. rewrite BN in EB.
    symmetry in EB. apply app_eq_nil in EB. destruct EB as [-> EB]. apply app_eq_nil in EB. destruct EB as [-> ->].
    rewrite EI, PN, QN. reflexivity.
Qed.

Lemma irun_fin_nil st out : irun [] st out -> out = Fin X st.
Proof. apply irun_nil. Qed.
Lemma in_opt {A} (b : bool) (x y : A) : In x (opt b y) -> b = true /\ x = y.
Proof. destruct b; cbn; intros H; [destruct H as [->|[]]; auto|contradiction]. Qed.


(** The end of a block, from a state in which the return address has been recorded. *)
Lemma end_block n B C qc R dn done st :
  In (snd n) bs -> incl (B ++ C) (b_insns (blk (snd n))) ->
  (List.length C <= List.length (b_insns (blk (snd n))))%nat -> Forall plain_stack C ->
  (popn n = true -> pop_ok o C qc) -> (popn n = true -> left_of R = [] /\ no_more R) ->
  ground (ra :: l0) st -> recorded done = true -> In Push dn -> ~ In Pop dn ->
  items = done ++ map (Ins n) B ++ map Snip (opt (popn n) (StackPop qc)) ++ map (Ins n) C ++ R ->
  drun done p0 st ->
  good (map (Ins n) B ++ map Snip (opt (popn n) (StackPop qc)) ++ map (Ins n) C ++ R) st ->
  nulled_at \/ over \/
  exists st', drun (done ++ map (Ins n) B ++ map Snip (opt (popn n) (StackPop qc)) ++ map (Ins n) C) p0 st' /\
    good R st' /\ phase (dn ++ [Blk (snd n)] ++ opt (popn n) Pop) st'.
Proof.
  intros HB IC LC PC PO LR G RC0 IP NP EI RD R0.
  assert (GR : ground (if recorded done then ra :: l0 else l0) st) by (rewrite RC0; exact G).
  destruct (good_ins n B _ done st EI RD GR R0) as [K|(st1 & S1 & R1)]; [right; left; left; exact K|]. pose proof (steps_ground _ _ _ _ _ _ _ _ _ _ _ _ _ _ _ S1 G) as G1.
  apply steps_drun in S1 as RB.
  destruct (popn n) eqn:QN; cbn [opt map app] in *.
  - assert (CK : checked st1 (map (Ins n) C ++ R)).
    { exists (done ++ map (Ins n) B), qc. split; [rewrite EI, <- app_assoc; reflexivity|]. split; [eapply drun_snoc; eauto|].
      rewrite left_of_app, left_of_ins, (proj1 (LR eq_refl)), app_nil_r. split; [exact (proj1 (PO eq_refl))|exact PC]. }
    destruct (can_check qc (snd n) C st1 G1 HB (fun x K => IC x (in_or_app _ _ _ (or_intror K))) LC (PO eq_refl))
      as [(W0 & UN & st2 & K1 & K2 & K3)|[(st2 & l' & K1 & K3 & K4 & K5 & K6)|(K1 & K2)]].
    + left. exists st1, (map (Ins n) C ++ R). split; [exact CK|].
      assert (LL : left_of (map (Ins n) C ++ R) = C) by (rewrite left_of_app, left_of_ins, (proj1 (LR eq_refl)), app_nil_r; reflexivity).
      unfold return_word. rewrite LL. split; [exact W0|].
      exists (done ++ map (Ins n) B), qc, st2. split; [rewrite EI, <- app_assoc; reflexivity|].
      split; [apply drun_irun; eapply drun_snoc; eauto|]. split; [exact K1|]. split; [rewrite <- W0; exact UN|].
      unfold return_word. rewrite LL, K3, K2. split; [exact W0|].
      intros sn HI. apply in_app_or in HI. destruct HI as [HI|HI]; [|exact (proj2 (LR eq_refl) sn HI)].
      apply in_map_iff in HI. destruct HI as (? & HI & _). discriminate.
    + right. pose proof (good_snip _ _ _ _ R1 K1) as K2.
      destruct (good_exit n C R (proj1 (PO eq_refl)) _ K2) as [K|(st3 & S3 & R3)]; [left; left; exact K|]. right.
      apply steps_drun in S3 as RC.
      destruct (exit_walk _ _ sem SF C (proj1 (PO eq_refl)) PC _ _ (steps_prun _ _ _ _ _ _ _ _ _ _ _ _ _ _ S3)) as [E1 E2].
      exists st3. split.
      { eapply drun_snoc; [exact RD|]. eapply drun_snoc; [exact RB|].
        change (drun ([Snip (StackPop qc)] ++ map (Ins n) C) st1 st3). eapply drun_snoc; eauto. }
      split; [exact R3|]. right. right. split; [rewrite !in_app_iff; right; right; left; auto|].
      exists l'. rewrite E1, K6. split.
      * rewrite <- K3. f_equal. rewrite <- K5. apply load64_ext. intros; apply E2.
      * assert (EM : forall x, p_mem st3 x = p_mem st2 x) by apply E2. destruct K4 as (Q1 & Q2 & Q3).
        assert (EL : forall a, load64 (p_mem st3) a = load64 (p_mem st2) a) by (intros; apply load64_ext; intros; apply EM).
        split; [rewrite EL; auto|]. split; [rewrite EL; auto|]. intros j v Hj. rewrite EL. auto.
    + right. left. right. exists (Stopped X st1 (map (Ins n) C ++ R)).
      split; [rewrite EI, app_assoc; eapply irun_app; [apply drun_irun; eapply drun_snoc; eauto|apply K1]|].
      split; [|exact CK]. cbn [result]. unfold return_word. rewrite left_of_app, left_of_ins, (proj1 (LR eq_refl)), app_nil_r.
      split; [exact K2|]. intros p1 RUN.
      destruct (exit_walk _ _ sem SF C (proj1 (PO eq_refl)) PC _ _ RUN) as [E1 E2]. rewrite E1. apply load64_ext. intros; apply E2.
  - assert (RD1 : drun (done ++ map (Ins n) B) p0 st1) by (eapply drun_snoc; eauto).
    assert (GR1 : ground (if recorded (done ++ map (Ins n) B) then ra :: l0 else l0) st1) by (rewrite recorded_app, RC0; exact G1).
    destruct (good_ins n C R (done ++ map (Ins n) B) st1) as [K|(st2 & S2 & R2)];
      [rewrite EI, <- app_assoc; reflexivity|exact RD1|exact GR1|exact R1|right; left; left; exact K|].
    right. right. pose proof (steps_ground _ _ _ _ _ _ _ _ _ _ _ _ _ _ _ S2 G1) as G2.
    apply steps_drun in S2 as RC.
    exists st2. split; [eapply drun_snoc; [exact RD|]; eapply drun_snoc; [exact RB|exact RC]|]. split; auto.
    right. left. rewrite !in_app_iff. split; [auto|]. split; [|auto].
    intros [K|[K|[]]]; [auto|discriminate].
Qed.
Lemma push_twice a c : evs = a ++ Push :: c -> ~ In Push a /\ ~ In Push c.
Proof.
  intros E. rewrite E, count_occ_app in ONE. cbn [count_occ] in ONE.
  destruct (ev_eq_dec Push Push) as [_|N]; [|congruence].
  split; apply (count_occ_not_In ev_eq_dec); lia.
Qed.
Lemma block_run n body tail A B C qp qc R dn post done st :
  In (snd n) bs -> block_shape (b_insns (blk (snd n))) body tail -> Forall plain_stack (b_insns (blk (snd n))) ->
  body = A ++ B ++ C -> (pushn n = true -> push_ok co o p n A (B ++ C) qp) -> (popn n = true -> pop_ok o C qc) ->
  (pushn n = false -> A = []) -> (popn n = true -> left_of R = [] /\ no_more R) ->
  evs = dn ++ opt (pushn n) Push ++ [Blk (snd n)] ++ opt (popn n) Pop ++ post ->
  let its := Here n :: map (Ins n) A ++ map Snip (opt (pushn n) (StackPush qp)) ++ map (Ins n) B ++
      map Snip (opt (popn n) (StackPop qc)) ++ map (Ins n) C in
  items = done ++ its ++ R -> drun done p0 st -> good (its ++ R) st ->
  (recorded done = true <-> In Push dn) -> ~ In Pop dn -> phase dn st -> (gone st = false -> pushn n = true -> at_top p = true -> p_rg st RSP = cfa - 8) ->
  nulled_at \/ over \/
  exists st', drun (done ++ its) p0 st' /\ good R st' /\
    phase (dn ++ opt (pushn n) Push ++ [Blk (snd n)] ++ opt (popn n) Pop) st'.
Proof.
  intros HB SH PS EB PO QO NA LR EV its EI RD R0 REC NP PH TOP. unfold its in *. clear its.
  assert (II : b_insns (blk (snd n)) = A ++ B ++ C ++ tail).
  { rewrite (proj1 SH), EB, <- !app_assoc. reflexivity. }
  assert (PLA : Forall plain_stack A /\ Forall plain_stack C).
  { rewrite II, !Forall_app in PS. tauto. }
  assert (IA : incl A (b_insns (blk (snd n)))) by (rewrite II; intros x K; rewrite !in_app_iff; auto).
  assert (IBC : incl (B ++ C) (b_insns (blk (snd n)))) by (rewrite II; intros x K; rewrite !in_app_iff in *; tauto).
  assert (LC : (List.length C <= List.length (b_insns (blk (snd n))))%nat) by (rewrite II, !app_length; lia).
  cbn [app] in R0. apply good_here in R0. destruct R0 as [HO R0]. rewrite <- !app_assoc in R0.
  assert (RD0 : drun (done ++ [Here n]) p0 st) by (eapply drun_snoc; [exact RD|]; constructor; [exact HO|constructor]).
  assert (REC0 : forall x, recorded ((done ++ [Here n]) ++ x) = (recorded done || recorded x)%bool).
  { intros x. rewrite !recorded_app. cbn. rewrite orb_false_r. reflexivity. }
  assert (GR : ground (if recorded (done ++ [Here n]) then ra :: l0 else l0) st).
  { rewrite <- (app_nil_r (done ++ [Here n])), REC0. cbn. rewrite orb_false_r. destruct PH as [(K & G & _)|[(K & _ & G)|(K & _)]]; [| |contradiction].
    - destruct (recorded done); [destruct K; apply REC; auto|exact G].
    - apply REC in K. rewrite K. exact G. }
  destruct (good_ins n A (map Snip (opt (pushn n) (StackPush qp)) ++ map (Ins n) B ++ map Snip (opt (popn n) (StackPop qc)) ++
    map (Ins n) C ++ R) (done ++ [Here n]) st) as [K|(st1 & S1 & R1)]; [|exact RD0|exact GR|exact R0|right; left; left; exact K|].
  { rewrite EI. repeat (progress (cbn [app]; rewrite <- ?app_assoc)). reflexivity. }
  apply steps_drun in S1 as RA.
  assert (RD1 : drun (done ++ Here n :: map (Ins n) A) p0 st1).
  { eapply drun_snoc; [exact RD|]. constructor; auto. }
  assert (EI1 : items = (done ++ Here n :: map (Ins n) A) ++ map Snip (opt (pushn n) (StackPush qp)) ++ map (Ins n) B ++
      map Snip (opt (popn n) (StackPop qc)) ++ map (Ins n) C ++ R).
  { rewrite EI. repeat (progress (cbn [app]; rewrite <- ?app_assoc)). reflexivity. }
  assert (GO : forall dn' done' st2, recorded done' = true -> In Push dn' -> ~ In Pop dn' -> ground (ra :: l0) st2 ->
    drun done' p0 st2 ->
    items = done' ++ map (Ins n) B ++ map Snip (opt (popn n) (StackPop qc)) ++ map (Ins n) C ++ R ->
    good (map (Ins n) B ++ map Snip (opt (popn n) (StackPop qc)) ++ map (Ins n) C ++ R) st2 ->
    done' ++ map (Ins n) B ++ map Snip (opt (popn n) (StackPop qc)) ++ map (Ins n) C =
      done ++ Here n :: map (Ins n) A ++ map Snip (opt (pushn n) (StackPush qp)) ++ map (Ins n) B ++
      map Snip (opt (popn n) (StackPop qc)) ++ map (Ins n) C ->
    dn' = dn ++ opt (pushn n) Push ->
    nulled_at \/ over \/
    exists st', drun (done ++ Here n :: map (Ins n) A ++ map Snip (opt (pushn n) (StackPush qp)) ++ map (Ins n) B ++
      map Snip (opt (popn n) (StackPop qc)) ++ map (Ins n) C) p0 st' /\ good R st' /\
      phase (dn ++ opt (pushn n) Push ++ [Blk (snd n)] ++ opt (popn n) Pop) st').
  { intros dn' done' st2 D0 D1 D2 G RD' EI' RR ED EN.
    destruct (end_block n B C qc R dn' done' st2 HB IBC LC (proj2 PLA) QO LR G D0 D1 D2 EI' RD' RR)
      as [K|[K|(st' & K1 & K2 & K3)]]; auto. right; right. exists st'. rewrite <- ED. split; auto. split; auto.
    rewrite EN, <- app_assoc in K3. exact K3. }
  destruct PH as [(NPU & G & SW & TM)|[(PU & _ & G)|(K & _)]]; [| |contradiction].
  - destruct (pushn n) eqn:PN.
    + destruct (PO eq_refl) as (EP & OK & (h & EO & EH) & _).
      destruct (entry_walk _ _ sem SF A EP (proj1 PLA) _ _ (steps_prun _ _ _ _ _ _ _ _ _ _ _ _ _ _ S1)) as [W1 W2].
      assert (RH : p_rg st RSP = cfa + h).
      { destruct (at_top p) eqn:AT; [rewrite (TOP TM eq_refl eq_refl), EH; lia|]. apply (HO TM). exact EH. }
      destruct G as (G1 & G2 & G3). pose proof G2 as G2'. unfold in_frame in G2'. rewrite TM in G2'.
      assert (GG : ground l0 st1) by (eapply steps_ground; eauto; split; auto).
      cbn [opt map app] in R1.
      assert (SW1 : load64 (p_mem st1) (cfa - 8) = ra) by (rewrite <- SW; apply load64_ext; intros x Hx; apply W2; lia).
      pose proof (steps_stay _ _ _ _ _ _ _ _ _ _ n A EP _ _ S1 TM) as TM1.
      destruct (can_push qp st1 GG TM1 SW1 OK ltac:(lia)) as (st2 & K1 & K3 & K4 & _). pose proof (good_snip _ _ _ _ R1 K1) as K2.
      { apply (GO (dn ++ [Push]) ((done ++ Here n :: map (Ins n) A) ++ [Snip (StackPush qp)]) st2); auto.
        -- rewrite recorded_app. cbn. rewrite orb_true_r. reflexivity.
        -- rewrite in_app_iff; right; left; auto.
        -- rewrite in_app_iff. intros [K|[K|[]]]; [auto|discriminate].
        -- eapply drun_snoc; eauto.
        -- rewrite EI1. repeat (progress (cbn [opt map app]; rewrite <- ?app_assoc)). reflexivity.
        -- repeat (progress (cbn [opt map app]; rewrite <- ?app_assoc)). reflexivity. }
    + rewrite (NA eq_refl) in *. cbn [opt map app] in *. clear GO.
      cbn [Activation.steps] in S1. subst st1.
      assert (QN : popn n = false).
      { destruct (popn n) eqn:QN; auto. exfalso. cbn [opt app] in EV.
        assert (AF := AFTER (dn ++ [Blk (snd n)]) post). rewrite <- app_assoc in AF. specialize (AF EV).
        rewrite in_app_iff in AF. destruct AF as [AF|[AF|[]]]; [auto|discriminate]. }
      rewrite QN in *. cbn [opt map app] in *.
      assert (SS : slot_safe co width gentle (snd n)) by (destruct (CALM dn (snd n) post EV); [auto|contradiction]).
      rewrite app_assoc, <- map_app in R1.
      destruct (good_ins n (B ++ C) R (done ++ [Here n]) st) as [K|(st2 & S2 & R2)];
        [|exact RD0|exact GR|exact R1|right; left; left; exact K|].
      { rewrite EI, map_app. repeat (progress (cbn [app]; rewrite <- ?app_assoc)). reflexivity. }
      apply steps_drun in S2 as RBC.
      right. right. exists st2. split.
      { eapply drun_snoc; [exact RD|]. constructor; auto. rewrite <- map_app. exact RBC. }
      split; auto. left. split; [rewrite in_app_iff; intros [K|[K|[]]]; [auto|discriminate]|].
      split; [eapply steps_ground; eauto|].
      destruct (steps_slot _ _ _ _ _ _ _ _ _ _ n (B ++ C) IBC SS (rm_slot RM) _ _ S2 TM) as [TM2 SL].
      split; [|exact TM2]. rewrite <- SW. apply load64_ext. intros x Hx. apply SL. unfold Whole.slot. lia.
  - assert (PN : pushn n = false).
    { destruct (pushn n); auto. exfalso. cbn [opt app] in EV. apply push_twice in EV. tauto. }
    rewrite PN in *. rewrite (NA eq_refl) in *. cbn [opt map app] in *. cbn [Activation.steps] in S1. subst st1.
    apply (GO dn (done ++ [Here n]) st); auto.
    + rewrite recorded_app. apply REC in PU. rewrite PU. reflexivity.
    + rewrite <- app_assoc. reflexivity.
    + rewrite app_nil_r. reflexivity.
Qed.

(** After a check nothing is left to do. *)
Lemma go_checked ks n sl dn done st : segs co p n ks = Some sl -> In (snd n) bs ->
  evs = dn ++ flat_map seg_evs sl -> items = done ++ flat_map (seg_items co sites) sl -> drun done p0 st ->
  In Pop dn -> good (flat_map (seg_items co sites) sl) st ->
  phase dn st -> over.
Proof.
  intros SG HB EV EI RD IP R PH. apply in_split in IP. destruct IP as (a & c & ->).
  destruct (segs_cons _ _ _ SG) as (r & ES & _). rewrite <- app_assoc in EV. cbn [app] in EV.
  assert (CN : c = []).
  { destruct c as [|x c]; auto. exfalso.
    destruct (LAST _ _ EV) as [K|(b & i & K & _)]; [discriminate|]. cbn [app] in K. injection K as _ K.
    apply app_eq_nil in K. destruct K as [_ K]. rewrite ES in K. cbn [flat_map] in K.
    destruct (evs_nonempty (n, hd_error ks)) as (u & v & EE). rewrite EE, <- app_assoc in K. destruct u; discriminate. }
  subst c. cbn [app] in EV. destruct (after_check n ks sl a SG HB EV) as [_ EH]. rewrite EH in R.
  apply good_here in R. destruct R as [HO R]. right. exists (Fin X st).
  assert (RE : drun items p0 st) by (rewrite EI, EH; eapply drun_snoc; [exact RD|]; constructor; [exact HO|constructor]).
  split; [apply drun_irun; exact RE|].
  assert (IN : In Push a) by (eapply AFTER; eauto).
  destruct PH as [(K & _)|[(_ & K & _)|(_ & K)]].
  - destruct K. rewrite in_app_iff; auto.
  - destruct K. rewrite in_app_iff; right; left; auto.
  - split; [right; exact K|]. split; [exact RE|right; exact K].
Qed.
Lemma go : forall ks n sl dn done st,
  segs co p n ks = Some sl -> In (snd n) bs ->
  evs = dn ++ flat_map seg_evs sl -> items = done ++ flat_map (seg_items co sites) sl ->
  drun done p0 st -> good (flat_map (seg_items co sites) sl) st -> (recorded done = true <-> In Push dn) ->
  phase dn st -> (gone st = false -> pushn n = true -> at_top p = true -> p_rg st RSP = cfa - 8) ->
  nulled_at \/ over.
Proof.
  induction ks as [|kk ks IH]; intros n sl dn done st SG HB EV EI RD R REC PH TOP;
    (destruct (in_dec ev_eq_dec Pop dn) as [IP|NP]; [right; eapply go_checked; eauto|]);
    destruct (TIDY (snd n) HB) as (body & tail & SH & RP & PS & TL); cbn [segs] in SG.
  - injection SG as <-. cbn [flat_map seg_items] in EI, R. rewrite app_nil_r in EI, R.
    destruct (node_shape co m fn fl o d p AN FO TE PLAN NREG PL GE GX n body tail HB SH RP true)
      as (A & B & C & qp & qc & EB & PO & QO & NA & ET).
    rewrite app_nil_r in ET. rewrite ET in EI, R.
    cbn [flat_map] in EV. unfold seg_evs in EV. cbn [fst snd] in EV. rewrite !app_nil_r in EV.
    destruct (block_run n body tail A B C qp qc [] dn [] done st HB SH PS EB PO QO NA (fun _ => conj eq_refl (fun _ K => K))) as [K|[K|(st' & K1 & K2 & K3)]]; auto.
    + rewrite app_nil_r. exact EV.
    + rewrite app_nil_r. exact EI.
    + rewrite app_nil_r. exact R.
    + right. destruct EVEN as [EVN|QN]; [|left; eapply QN; exact K2]. right. exists (Fin X st'). rewrite <- EV in K3. rewrite <- EI in K1.
      split; [apply drun_irun; exact K1|]. unfold fine. cbn [result].
      destruct K3 as [(_ & (_ & _ & G) & W & TM)|[(P1 & P2 & _)|(_ & K)]]; [split; [left; auto|split; [exact K1|left; auto]]| |split; [right; auto|split; [exact K1|right; exact K]]].
      exfalso. apply (count_occ_In ev_eq_dec) in P1. apply (count_occ_not_In ev_eq_dec) in P2. lia.
  - destruct (nth_error (b_targets (blk (snd n))) kk) as [e|] eqn:NE; [|discriminate].
    destruct (e_sink e || e_inter e)%bool eqn:SI; [discriminate|]. apply orb_false_iff in SI. destruct SI as [S1 S2].
    destruct (segs co p (next p n kk e) ks) as [sl'|] eqn:SG'; [|discriminate]. injection SG as <-.
    assert (ST : FastPath.step co (snd n) (e_trg e)).
    { exists e. split; auto. apply filter_In. split; [eapply nth_error_In; eauto|]. unfold bp_edge. rewrite S1, S2. reflexivity. }
    assert (TN : tail = []).
    { destruct tail as [|i t]; auto. exfalso. destruct ST as (e' & He & _). rewrite (TL ltac:(discriminate)) in He. exact He. }
    assert (EX : snd (next p n kk e) = e_trg e).
    { unfold next, patched_trg. clear. destruct p; auto. destruct n as [c b]. destruct (l_ndebug l); auto. destruct c; auto. }
    assert (HB' : In (snd (next p n kk e)) bs) by (rewrite EX; apply (an_step _ _ _ AN (snd n)); auto).
    destruct (node_shape co m fn fl o d p AN FO TE PLAN NREG PL GE GX n body tail HB SH RP false)
      as (A & B & C & qp & qc & EB & PO & QO & NA & ET).
    destruct (edge_snips n kk HB) as (qe & EE & QE).
    cbn [flat_map seg_items] in EI, R. rewrite EE, ET, TN in EI, R. cbn [map app] in EI, R.
    set (R1 := Out n :: map Snip (opt (edge_push n kk) (StackPush qe)) ++ flat_map (seg_items co sites) sl').
    set (its := Here n :: map (Ins n) A ++ map Snip (opt (pushn n) (StackPush qp)) ++ map (Ins n) B ++
        map Snip (opt (popn n) (StackPop qc)) ++ map (Ins n) C).
    assert (EI1 : items = done ++ its ++ R1).
    { rewrite EI. unfold its, R1. repeat (progress (cbn [map app]; rewrite <- ?app_assoc)). reflexivity. }
    assert (RI : good (its ++ R1) st).
    { revert R. unfold its, R1. repeat (progress (cbn [map app]; rewrite <- ?app_assoc)). auto. }
    set (dn1 := dn ++ opt (pushn n) Push ++ [Blk (snd n)] ++ opt (popn n) Pop).
    assert (EV1 : evs = dn1 ++ opt (edge_push n kk) Push ++ flat_map seg_evs sl').
    { rewrite EV. cbn [flat_map]. unfold seg_evs at 1, dn1. cbn [fst snd]. repeat (progress (cbn [app]; rewrite <- ?app_assoc)). reflexivity. }
    assert (NEP : popn n = true -> edge_push n kk = false /\ flat_map (seg_items co sites) sl' = [Here (next p n kk e)]).
    { intros QN. unfold dn1 in EV1. rewrite QN in EV1. cbn [opt] in EV1.
      assert (EV2 : evs = (dn ++ opt (pushn n) Push ++ [Blk (snd n)]) ++ Pop :: opt (edge_push n kk) Push ++ flat_map seg_evs sl').
      { rewrite EV1. repeat (progress (cbn [app]; rewrite <- ?app_assoc)). reflexivity. }
      destruct (edge_push n kk) eqn:EPN; cbn [opt app] in EV2.
      - exfalso. destruct (LAST _ _ EV2) as [K|(b & i & K & _)]; discriminate.
      - split; auto. eapply after_check; eauto. }
    destruct (block_run n body tail A B C qp qc R1 dn (opt (edge_push n kk) Push ++ flat_map seg_evs sl') done st
       HB SH PS EB PO QO NA) as [K|[K|(st' & K1 & K2 & K3)]]; auto.
    { intros QN. destruct (NEP QN) as [E1 E2]. unfold R1. rewrite E1, E2. split; [reflexivity|].
      intros sn [K|[K|[]]]; discriminate. }
    { rewrite EV1. unfold dn1. repeat (progress (cbn [app]; rewrite <- ?app_assoc)). reflexivity. }
    fold its in K1. fold dn1 in K3.
    unfold R1 in K2. apply good_out in K2. destruct K2 as [OO K2].
    assert (TOP' : gone st' = false -> pushn (next p n kk e) = true -> at_top p = true -> p_rg st' RSP = cfa - 8).
    { intros T0 T1 T2. destruct (at_top_enter n kk e HB NE S1 S2 T2 T1) as (c & C1 & C2). apply (proj2 OO T0 c C1 C2). }
    assert (RECI : recorded ((done ++ its) ++ [Out n]) = true <-> In Push dn1).
    { unfold dn1, its. rewrite !recorded_app. cbn [recorded existsb]. rewrite orb_false_r.
      change (existsb ?g (?a ++ ?b)) with (recorded (a ++ b)). rewrite !recorded_app, !recorded_ins.
      replace (recorded (map Snip (opt (popn n) (StackPop qc)))) with false by (destruct (popn n); reflexivity).
      rewrite !orb_false_r. cbn [orb]. rewrite orb_true_iff, REC, !in_app_iff.
      destruct (pushn n), (popn n); cbn; intuition discriminate. }
    assert (RO : drun ((done ++ its) ++ [Out n]) p0 st').
    { eapply drun_snoc; [exact K1|]. constructor; [exact OO|constructor]. }
    destruct (edge_push n kk) eqn:EPN; cbn [opt map app] in *.
    + destruct (QE eq_refl) as (OK & (h & SPH & EO) & _).
      assert (NPU : ~ In Push dn1) by (apply (proj1 (push_twice _ _ EV1))).
      destruct K3 as [(_ & G & W & TM)|[(K & _)|(K & _)]]; [|contradiction|].
      2:{ exfalso. apply in_split in K. destruct K as (u & v & K). apply NPU. rewrite K, in_app_iff. left.
          apply (AFTER u (v ++ Push :: flat_map seg_evs sl')). rewrite EV1, K, <- app_assoc. reflexivity. }
      assert (RS : p_rg st' RSP = cfa + h) by (apply (proj1 OO TM); exact SPH).
      destruct (can_push qe st' G TM W OK ltac:(lia)) as (st2 & J1 & J3 & J4 & J5). pose proof (good_snip _ _ _ _ K2 J1) as J2.
      apply (IH (next p n kk e) sl' (dn1 ++ [Push]) (((done ++ its) ++ [Out n]) ++ [Snip (StackPush qe)]) st2); auto.
      * rewrite EV1, <- app_assoc. reflexivity.
      * rewrite EI1. unfold R1. rewrite <- !app_assoc. reflexivity.
      * eapply drun_snoc; eauto.
      * rewrite recorded_app. cbn. rewrite orb_true_r, in_app_iff. cbn. tauto.
      * right. left. rewrite !in_app_iff. split; [right; left; auto|]. split; auto.
        intros [K|[K|[]]]; [|discriminate]. apply NPU. apply in_split in K. destruct K as (u & v & K).
        rewrite K, in_app_iff. left.
        apply (AFTER u (v ++ Push :: flat_map seg_evs sl')). rewrite EV1, K, <- app_assoc. reflexivity.
      * intros _ T1 T2. rewrite J4. auto.
    + apply (IH (next p n kk e) sl' dn1 ((done ++ its) ++ [Out n]) st'); auto.
      rewrite EI1. unfold R1. rewrite <- !app_assoc. reflexivity.
Qed.
(** From the entry of the function. *)
Lemma run_all ks : p <> PAbort -> p <> PNoFuel -> run_plan co fn p ks = Some evs ->
  plan_items co sites fn p ks = Some items ->
  ground l0 p0 -> gone p0 = false -> p_rg p0 RSP = cfa - 8 -> load64 (p_mem p0) (cfa - 8) = ra ->
  good items p0 -> nulled_at \/ over.
Proof.
  intros NA NF RPL PI G TM RS W R.
  assert (PI2 : option_map (fun l => map Snip (snips sites AtEntry) ++ flat_map (seg_items co sites) l)
           (segs co p (false, entry) ks) = Some items).
  { rewrite <- PI. unfold plan_items. clear - NA NF. destruct p; auto; congruence. }
  destruct (segs co p (false, entry) ks) as [sl|] eqn:SG; [|discriminate]. cbn [option_map] in PI2.
  injection PI2 as EI. symmetry in EI. rewrite (run_segs ks sl NA NF SG) in RPL. injection RPL as EV. symmetry in EV.
  destruct entry_snips as (q & ES & EQ). rewrite ES in EI.
  assert (HE : In (snd (false, entry)) bs) by apply FO.
  destruct evs0 as [|x y] eqn:E0; cbn [opt map app] in EI.
  - cbn [app] in EV. rewrite EI in R. apply (go ks (false, entry) sl [] [] p0); auto.
    + constructor.
    + cbn. split; [discriminate|intros []].
    + left. cbn. auto.
  - assert (XY : x = Push /\ y = []).
    { revert E0. unfold evs0. clear. destruct p; try discriminate. destruct moved; [discriminate|]. intros E; injection E as <- <-. auto. }
    destruct XY as [-> ->]. destruct (EQ ltac:(discriminate)) as (OK & EO & _).
    rewrite EI in R. destruct (can_push q p0 G TM W OK ltac:(lia)) as (st2 & J1 & J3 & J4 & _). pose proof (good_snip _ _ _ _ R J1) as J2.
    apply (go ks (false, entry) sl [Push] [Snip (StackPush q)] st2); auto.
    + cbn. tauto.
    + right. left. split; [left; auto|]. split; auto. intros [K|[]]; discriminate.
    + intros _ _ _. rewrite J4. auto.
Qed.
End AR.
