(** * PlanCode: what the code of a block looks like once the snippets of a plan are in it *)
From Coq Require Import ZArith Bool Lia ZifyBool ZifyNat Arith String List.
From Verif Require Import Machine MachineFacts Jit ShadowSpec JitFacts JitPushPop History.
From Verif Require Import Dfs Binary CallGraph InterProc MemPasses Pipeline RegNames BlockLive
  Reach SafePaths Lowering FastPath Decision P_Instr FullRun Whole Sites P_Sites Order Activation.
Import ListNotations.
Open Scope Z_scope.
Local Notation mem := Machine.mem.
Local Notation pushes := BlockLive.pushes.

(** ** Nothing is listed twice *)
Lemma redir_nodup co unsafe n : forall cur st st', redir co unsafe n cur st = Some st' ->
  NoDup (fst st) -> incl (fst st) (snd st) ->
  NoDup (fst st') /\ incl (fst st') (snd st') /\ incl (snd st) (snd st').
Proof.
  induction n as [|n IH]; intros cur st st' H ND IN; [discriminate|]. rewrite redir_S in H.
  revert st H ND IN. generalize O as k. generalize (b_targets (co_block co cur)) as ts.
  induction ts as [|e r IHr]; intros k st H ND IN; cbn [redir_loop] in H.
  - injection H as <-. split; auto. split; auto. apply incl_refl.
  - destruct (skipped e); [apply (IHr _ _ H); auto|].
    destruct (emem (cur, k) (snd st)) eqn:EV; [apply (IHr _ _ H); auto|]. apply emem_nin in EV. cbv zeta in H.
    destruct (danger co unsafe (e_trg e)).
    + apply IHr in H; cbn [fst snd] in *.
      * destruct H as (A & B & C). split; auto. split; auto. intros x Hx. apply C. right; auto.
      * constructor; auto.
      * intros x [<-|Hx]; [left; auto|right; auto].
    + destruct (redir co unsafe n (e_trg e) (fst st, (cur, k) :: snd st)) as [st1|] eqn:E; [|discriminate].
      apply IH in E; cbn [fst snd] in *; [|auto|intros x Hx; right; auto].
      destruct E as (A & B & C). apply IHr in H; auto. destruct H as (A' & B' & C'). split; auto. split; auto.
      intros x Hx. apply C', C. right; auto.
Qed.
Lemma lower_nodup co fl fn s l : NoDup (f_blocks (co_fun co fn)) -> NoDup (f_exits (co_fun co fn)) ->
  lower co fl fn s = Lowered l ->
  NoDup (l_push_edges l) /\ NoDup (l_push_blocks l) /\ NoDup (l_pops l).
Proof.
  intros NB NX. unfold lower.
  destruct (_ || _)%bool; [discriminate|].
  destruct (redir _ _ _ _ _) as [[red vis]|] eqn:R; [|discriminate].
  apply redir_nodup in R; cbn [fst snd] in *; [|constructor|apply incl_refl].
  destruct (negb (forallb _ red)); [discriminate|].
  match goal with |- context [if ?c then NotLowered else _] => destruct c; [discriminate|] end. cbv zeta.
  destruct (mark _ _ _ _ _) as [v|]; [|discriminate].
  match goal with |- context [if ?c then LAbort else _] => destruct c; [discriminate|] end.
  intros K. injection K as <-. cbn [l_push_edges l_push_blocks l_pops].
  split; [apply NoDup_filter; apply R|]. split; [|apply NoDup_filter; auto].
  unfold coalesce. destruct (fl_ndebug fl); [constructor|apply NoDup_filter; auto].
Qed.
Lemma opt_repeat {A} (x : A) l b : (count_occ Nat.eq_dec l b <= 1)%nat ->
  repeat x (count_occ Nat.eq_dec l b) = opt (Dfs.mem b l) x.
Proof.
  intros H. destruct (Dfs.mem b l) eqn:M.
  - apply mem_in in M. apply (count_occ_In Nat.eq_dec) in M. replace (count_occ Nat.eq_dec l b) with 1%nat by lia. reflexivity.
  - apply mem_nin in M. apply (count_occ_not_In Nat.eq_dec) in M. rewrite M. reflexivity.
Qed.
Lemma once {A} (dec : forall x y : A, {x = y} + {x <> y}) l b : NoDup l -> (count_occ dec l b <= 1)%nat.
Proof. intros H. apply (NoDup_count_occ dec). auto. Qed.

Section PC.
Variables (co : code) (m : sums) (fn : nat) (fl : Lowering.flags) (o : opts) (d : dead_info) (p : plan).
Hypothesis AN : analysed co m fn.
Hypothesis FO : fn_ok co fn.
Hypothesis TE : terminal_exits co fn.
Hypothesis PLAN : Decision.instr fl co fn (Some (m fn)) = p.
Hypothesis NREG : on_reg p = false.
Hypothesis PL : plain o.
Hypothesis GE : good_dead o (di_entry d).
Hypothesis GX : forall a l, zfind (di_exit d) a = Some l -> good_dead o l.
Notation blk b := (co_block co b).
Notation s := (m fn).
Notation bs := (f_blocks (co_fun co fn)).
Notation entry := (f_entry (co_fun co fn)).
Notation sites := (plan_sites co fl o d s fn p).

(** ** Which blocks have a push or a check *)
Definition push_in (n : node) : bool :=
  match p with
  | ByLowering l => fst n && Dfs.mem (snd n) (l_push_blocks l)
  | ByEntry mv _ _ => mv && negb (fst n) && Nat.eqb (snd n) entry
  | ByFastPath slow _ _ => negb (fst n) && Nat.eqb (snd n) slow
  | _ => false
  end.
Definition pop_in (n : node) : bool :=
  match p with
  | ByLowering l => fst n && Dfs.mem (snd n) (l_pops l)
  | ByEntry _ ps _ | ByFastPath _ ps _ => negb (fst n) && Dfs.mem (snd n) ps
  | _ => false
  end.
(** Pushes that take the return address to be at the top of the stack at block entry. *)
Definition at_top : bool := match p with ByLowering _ => false | _ => true end.
Definition psite (n : node) : place * snip :=
  match p with
  | ByLowering l => block_site co fl o d s false (snd n)
  | ByEntry mv _ _ => entry_site co o d s mv false entry
  | _ => slow_site co fl o d s (snd n)
  end.
Definition qsite (n : node) : place * snip := pop_site co fl o d s (fst n) false (snd n).

Lemma fast_once slow ps fast b : p = ByFastPath slow ps fast -> In b bs -> (count_occ Nat.eq_dec ps b <= 1)%nat.
Proof.
  intros E HB. pose proof (plan_fast co m fn fl p PLAN _ _ _ E) as FP.
  destruct FO as (HE & CL & NDB & NDX). pose proof (terminal_out _ _ TE) as TO.
  destruct (in_dec Nat.eq_dec b (f_exits (co_fun co fn))) as [X|X].
  - destruct (Nat.eq_dec b fast) as [->|NF].
    + rewrite (pops_fast co fl fn HE TO slow fast ps FP). lia.
    + rewrite (pops_exit co fl fn HE TO NDX slow fast ps FP b HB X NF). lia.
  - destruct (Nat.eq_dec b entry) as [->|NE].
    + destruct (fast_path_inv co fl fn HE slow fast ps FP) as (_ & _ & _ & SS & _ & NS & _).
      rewrite (pops_inner co fl fn HE TO slow fast ps FP entry slow HE SS); [lia|].
      intros ->. destruct (fast_path_inv co fl fn HE fast fast ps FP) as (_ & _ & _ & _ & FX & NX & _). contradiction.
    + apply (pops_other co fl fn HE CL TO NDB slow fast ps FP); auto.
Qed.
Lemma entry_once mv ps rg b : p = ByEntry mv ps rg -> (count_occ Nat.eq_dec ps b <= 1)%nat.
Proof.
  intros E. apply once. destruct FO as (_ & _ & _ & NDX).
  assert (R : NoDup (returning_pops co fn)) by (apply NoDup_filter; auto).
  revert PLAN. rewrite E. unfold Decision.instr.
  destruct (fl_light fl); [|intros K; injection K as _ <- _; auto].
  destruct (skippable _ _ _); [discriminate|].
  destruct (lower co fl fn s); try discriminate.
  destruct (use_reg fl s); [intros K; injection K as _ <- _; auto|].
  destruct (fast_path co fl fn) as [[[? ?] ?]|]; [discriminate|]. intros K; injection K as _ <- _; auto.
Qed.
Lemma entry_mv mv ps rg : p = ByEntry mv ps rg -> mv = true ->
  in_sources co bs entry = [] /\ exists md, zfind (s_entryData s) (startof co entry) = Some md.
Proof.
  intros E M. revert PLAN. rewrite E, M. unfold Decision.instr.
  destruct (fl_light fl); [|discriminate]. destruct (skippable _ _ _); [discriminate|].
  destruct (lower co fl fn s); try discriminate. destruct (use_reg fl s); [discriminate|].
  destruct (fast_path co fl fn) as [[[? ?] ?]|]; [discriminate|]. intros K; injection K as K _ _.
  unfold entry_moved in K. rewrite !andb_true_iff in K. destruct K as [[_ K1] K2].
  split; [destruct (in_sources _ _ _); [auto|discriminate]|].
  unfold startof. destruct (zfind _ _) as [md|]; [eauto|discriminate].
Qed.

(** ** The snippets in the code of a block *)
Lemma place_pop cl b : exists pl, fst (pop_site co fl o d s cl false b) = pl /\ in_node (cl, b) pl.
Proof. unfold pop_site. destruct (opt_mid _ _ _); eexists; (split; [reflexivity|]); cbv; eauto. Qed.
Lemma place_block b : exists pl, fst (block_site co fl o d s false b) = pl /\ in_node (true, b) pl.
Proof. unfold block_site. destruct (opt_mid _ _ _); eexists; (split; [reflexivity|]); cbv; eauto. Qed.
Lemma place_slow b : exists pl, fst (slow_site co fl o d s b) = pl /\ in_node (false, b) pl.
Proof. unfold slow_site. destruct (opt_mid _ _ _); eexists; (split; [reflexivity|]); cbv; eauto. Qed.
Lemma in_node_inj n n' pl : in_node n pl -> in_node n' pl -> n = n'.
Proof. intros [->|[->|(a & ->)]] [K|[K|(b & K)]]; congruence. Qed.

Lemma pop_snips ps cl n pl : in_node n pl -> (count_occ Nat.eq_dec ps (snd n) <= 1)%nat ->
  snips (map (pop_site co fl o d s cl false) ps) pl =
  opt (Bool.eqb (fst n) cl && Dfs.mem (snd n) ps && placeb (fst (qsite n)) pl) (snd (qsite n)).
Proof.
  intros HN HC. destruct (Bool.eqb (fst n) cl) eqn:EC.
  - apply eqb_prop in EC. rewrite (snips_map Nat.eq_dec _ ps pl (snd n)).
    + unfold qsite. rewrite EC, (opt_repeat _ _ _ HC).
      destruct (placeb (fst (pop_site co fl o d s cl false (snd n))) pl), (Dfs.mem (snd n) ps); reflexivity.
    + intros c _ E. destruct (place_pop cl c) as (pl' & E1 & E2). rewrite E in E1. subst pl'.
      pose proof (in_node_inj _ _ _ HN E2) as K. rewrite K. reflexivity.
  - cbn [andb opt]. apply snips_none. intros q Hq. apply in_map_iff in Hq. destruct Hq as (c & <- & _).
    intros E. destruct (place_pop cl c) as (pl' & E1 & E2). rewrite E in E1. subst pl'.
    pose proof (in_node_inj _ _ _ HN E2) as K. rewrite K in EC. cbn [fst] in EC. rewrite eqb_reflx in EC. discriminate.
Qed.

Lemma node_snips n pl : In (snd n) bs -> in_node n pl ->
  snips sites pl = opt (push_in n && placeb (fst (psite n)) pl) (snd (psite n)) ++
                   opt (pop_in n && placeb (fst (qsite n)) pl) (snd (qsite n)).
Proof.
  intros HB HN. pose proof entry_once as EO. pose proof fast_once as FO1. unfold push_in, pop_in, psite.
  destruct p as [|l|mv ps rg|slow ps fast| |] eqn:EP; cbn [plan_sites]; try reflexivity.
  - cbn [on_reg] in NREG. destruct FO as (_ & _ & NDB & NDX).
    pose proof (plan_lowered co m fn fl _ PLAN l eq_refl) as LOW.
    destruct (lower_nodup co fl fn s l NDB NDX LOW) as (_ & N2 & N3).
    unfold lowered_sites. rewrite NREG, !snips_app. rewrite (pop_snips (l_pops l) true n pl HN) by (apply once; auto).
    rewrite (snips_none (map (edge_site co fl o d s false) (l_push_edges l))).
    2:{ intros q Hq. apply in_map_iff in Hq. destruct Hq as (x & <- & _). unfold edge_site. cbn [fst].
        intros K. rewrite <- K in HN. destruct HN as [HN|[HN|(a & HN)]]; discriminate. }
    cbn [app]. f_equal.
    + destruct (fst n) eqn:EF.
      * rewrite (snips_map Nat.eq_dec _ (l_push_blocks l) pl (snd n)).
        -- rewrite opt_repeat by (apply once; auto).
           destruct (placeb _ _), (Dfs.mem _ _); reflexivity.
        -- intros c _ E. destruct (place_block c) as (pl' & E1 & E2). rewrite E in E1. subst pl'.
           pose proof (in_node_inj _ _ _ HN E2) as K. rewrite K. reflexivity.
      * cbn [andb opt]. apply snips_none. intros q Hq. apply in_map_iff in Hq. destruct Hq as (c & <- & _).
        intros E. destruct (place_block c) as (pl' & E1 & E2). rewrite E in E1. subst pl'.
        pose proof (in_node_inj _ _ _ HN E2) as K. rewrite K in EF. discriminate.
    + destruct (fst n); reflexivity.
  - cbn [on_reg] in NREG. subst rg.
    change (entry_site co o d s mv false entry :: map (pop_site co fl o d s false false) ps) with
      ([entry_site co o d s mv false entry] ++ map (pop_site co fl o d s false false) ps).
    rewrite snips_app, (pop_snips ps false n pl HN) by (eapply EO; eauto).
    f_equal.
    unfold snips. cbn [filter]. destruct (placeb (fst (entry_site co o d s mv false entry)) pl) eqn:EB;
      [|rewrite andb_false_r; reflexivity].
    rewrite andb_true_r. cbn [map]. apply placeb_iff in EB.
    unfold entry_site in EB. destruct mv; [destruct (zfind _ _) as [md|] eqn:Z|]; cbn [fst] in EB.
    + assert (n = (false, entry)). { apply (in_node_inj n (false, entry) pl HN). rewrite <- EB. right; right; eauto. }
      subst n. cbn [fst snd negb andb]. rewrite Nat.eqb_refl. reflexivity.
    + exfalso. rewrite <- EB in HN. destruct HN as [HN|[HN|(a & HN)]]; discriminate.
    + exfalso. rewrite <- EB in HN. destruct HN as [HN|[HN|(a & HN)]]; discriminate.
  - change (slow_site co fl o d s slow :: map (pop_site co fl o d s false false) ps) with
      ([slow_site co fl o d s slow] ++ map (pop_site co fl o d s false false) ps).
    rewrite snips_app, (pop_snips ps false n pl HN) by (eapply FO1; eauto).
    f_equal.
    unfold snips. cbn [filter]. destruct (place_slow slow) as (pl' & E1 & E2).
    destruct (placeb (fst (slow_site co fl o d s slow)) pl) eqn:EB.
    + apply placeb_iff in EB. rewrite <- E1, EB in E2. pose proof (in_node_inj _ _ _ HN E2) as K. rewrite K.
      cbn [fst snd negb andb map]. rewrite Nat.eqb_refl. replace (placeb (fst (slow_site co fl o d s slow)) pl) with true.
      { reflexivity. } symmetry. apply placeb_iff. auto.
    + cbn [map]. destruct (Nat.eqb_spec (snd n) slow) as [->|]; [rewrite EB|]; rewrite ?andb_false_r; reflexivity.
Qed.

(** ** The requests *)
(** The offset from rsp to the return address, for a push after the instructions [A]. *)
Definition push_ok (n : node) (A R : list insn) (q : ereq) : Prop :=
  Forall entry_passable A /\ e_ok q /\
  (exists h, e_off q = -8 - h + pushes A /\
    (if at_top then h = -8 else b_sp_entry (blk (snd n)) = Some h)) /\
  (o_optimize_regs o = false -> incl (e_dead q) (dead_before R)).
Definition pop_ok (C : list insn) (q : xreq) : Prop :=
  Forall exit_passable C /\ x_ok q /\ x_off q = pops C /\
  (o_optimize_regs o = false -> incl (x_dead q) (dead_before C)).
(** The return reads what it writes, so it makes no register dead. *)
Lemma dead_app a b : dead_before b = [] -> dead_before (a ++ b) = dead_before a.
Proof. intros E. induction a as [|i t IH]; cbn [app dead_before]; [exact E|rewrite IH; reflexivity]. Qed.
Lemma dead_tail is body tail : block_shape is body tail -> Forall ret_plain is -> dead_before tail = [].
Proof.
  intros (S1 & _ & [->|(r & -> & O)]) RP; [reflexivity|]. apply ret_dead; auto.
  rewrite Forall_forall in RP. apply RP. rewrite S1. apply in_or_app; right; left; auto.
Qed.

(** A moved push lies before the return. *)
Lemma entry_in_body is body tail md : NoDup (map i_addr is) -> block_shape is body tail -> Forall ret_plain is ->
  entry_point is = Some md ->
  exists A i B, body = A ++ i :: B /\ i_addr i = m_addr md /\ Forall entry_passable A /\
    m_raOffset md = pushes A /\ good_mid md /\ incl (mid_dead md) (dead_before (i :: B)).
Proof.
  intros ND SH RP E. pose proof (dead_tail _ _ _ SH RP) as DT. destruct (entry_point_ok _ _ ND E) as (pre & i & post & A1 & A2 & A3 & A4 & A5 & A6).
  destruct SH as (SH & NR & TL).
  assert (DB : dead_before (i :: post) <> []).
  { intros K. rewrite K in A6. assert (In (m_reg1 md) []); [|contradiction]. apply A6. unfold mid_dead.
    destruct (m_saveCount md =? 2); left; auto. }
  destruct (destruct_list_rev post) as [->|(b' & z & ->)].
  - destruct TL as [->|(r & -> & O)].
    + exists pre, i, []. rewrite app_nil_r in SH. rewrite <- SH. auto 12.
    + exfalso. rewrite A1 in SH. apply app_inj_tail in SH. destruct SH as [_ ->].
      apply DB. apply ret_dead; auto. rewrite Forall_forall in RP. apply RP. rewrite A1. apply in_or_app; right; left; auto.
  - destruct TL as [->|(r & -> & O)].
    + exists pre, i, (b' ++ [z]). rewrite app_nil_r in SH. rewrite <- SH. auto 12.
    + exists pre, i, b'. rewrite A1 in SH. change (pre ++ i :: b' ++ [z]) with (pre ++ (i :: b') ++ [z]) in SH.
      rewrite app_assoc in SH. apply app_inj_tail in SH. destruct SH as [<- EZ]. subst z.
      change (i :: b' ++ [r]) with ((i :: b') ++ [r]) in A6. rewrite dead_app in A6 by exact DT. auto 12.
Qed.
Lemma split_at (is a r pre post : list insn) i j : NoDup (map i_addr is) ->
  is = a ++ r -> hd_error r = Some i -> is = pre ++ j :: post -> i_addr i = i_addr j -> a = pre /\ r = j :: post.
Proof.
  intros ND E H F K. destruct r as [|i' r]; [discriminate|]. injection H as ->.
  assert (i = j). { eapply nodup_inj; eauto; [rewrite E|rewrite F]; apply in_or_app; right; left; auto. } subst j.
  assert (SP := eq_trans (eq_sym E) F). clear K. rewrite E in ND. clear E F is.
  revert pre SP. induction a as [|x a IH]; intros pre SP.
  - destruct pre as [|y pre]; [split; auto|]. cbn [app] in *. injection SP as -> SP. exfalso.
    cbn [map] in ND. inversion ND as [|? ? N1 N2]; subst. apply N1. apply in_map. apply in_or_app; right; left; auto.
  - destruct pre as [|y pre]; cbn [app] in SP.
    + injection SP as -> SP. exfalso. cbn [app map] in ND. inversion ND as [|? ? N1 N2]; subst. apply N1.
      apply in_map. apply in_or_app; right; left; auto.
    + injection SP as -> SP. cbn [app map] in ND. inversion ND as [|? ? N1 N2]; subst.
      destruct (IH N2 pre SP) as [-> ->]. auto.
Qed.

Section NODE.
Variable n : node.
Variables body tail : list insn.
Hypothesis HB : In (snd n) bs.
Hypothesis SH : block_shape (b_insns (blk (snd n))) body tail.
Hypothesis RP : Forall ret_plain (b_insns (blk (snd n))).

(** The push of the block. *)
Definition pmoved (md : mid) : Prop :=
  entry_point (b_insns (blk (snd n))) = Some md /\ fst (psite n) = BeforeInsn n (m_addr md).
Lemma push_site : push_in n = true ->
  exists q, snd (psite n) = StackPush q /\
   ((fst (psite n) = AtStart n /\ forall R, push_ok n [] R q) \/
    (exists md A i B, pmoved md /\ body = A ++ i :: B /\ i_addr i = m_addr md /\ push_ok n A (i :: B) q)).
Proof.
  intros PI. pose proof (an_insns _ _ _ AN _ HB) as ND.
  destruct (data co m fn AN (snd n) HB) as (DE & _ & _). pose proof entry_mv as EMV.
  unfold push_in, pmoved, psite, push_ok, at_top in *.
  destruct p as [|l|mv ps rg|slow ps fast| |] eqn:EP; try discriminate.
  - cbn [on_reg] in NREG. apply andb_true_iff in PI. destruct PI as [PI1 PI2]. apply mem_in in PI2.
    assert (EN : n = (true, snd n)) by (destruct n; cbn [fst snd] in *; congruence).
    pose proof (plan_lowered co m fn fl _ PLAN l eq_refl) as LOW.
    destruct (block_site co fl o d s false (snd n)) as [pl sn] eqn:BS.
    assert (IN : In (pl, sn) (lowered_sites co fl o d s l)).
    { unfold lowered_sites. rewrite NREG, !in_app_iff. right; left. apply in_map_iff. exists (snd n). auto. }
    destruct (place_block (snd n)) as (pl' & E1 & E2). rewrite BS in E1. cbn [fst] in E1. subst pl'.
    assert (SQ : exists q, sn = StackPush q).
    { unfold block_site in BS. destruct (opt_mid _ _ _); injection BS as _ <-; eauto. }
    destruct SQ as (q & ->). exists q. split; [reflexivity|]. cbn [fst snd].
    assert (HL : pl = AtStart (true, snd n) \/ (exists a, pl = BeforeInsn (true, snd n) a)).
    { unfold block_site in BS. destruct (opt_mid _ _ _); injection BS as <- _; eauto. }
    destruct (block_request co m fn fl o d l AN LOW pl q (snd n) HL IN)
      as (_ & _ & _ & (h & SH1 & SH2) & EO & _ & EM & EW).
    pose proof (block_ok_request co m fn fl o d l AN LOW pl q (snd n) HL PL GE IN) as OK.
    destruct (e_mid q) as [md|] eqn:ED.
    + right. destruct (fl_no_reg_save fl); [discriminate|]. symmetry in EM.
      destruct (entry_in_body _ body tail md ND SH RP EM) as (A & i & B & X1 & X2 & X3 & X4 & X5 & X6).
      exists md, A, i, B. rewrite EN. cbn [snd]. split; [split; auto|]. split; auto. split; auto. split; auto.
      split; auto. split; [|intros _; unfold e_dead; rewrite ED; exact X6].
      exists h. split; auto. unfold e_off. rewrite ED. cbn [request_off]. lia.
    + left. rewrite EN. split; auto. intros R. split; [constructor|]. split; auto. split.
      * exists h. split; auto. unfold e_off. rewrite ED. cbn [request_off]. change (pushes []) with 0. lia.
      * intros NO. unfold e_dead. rewrite ED, EO. cbn [request_dead]. rewrite NO. intros x [].
  - cbn [on_reg] in NREG. subst rg. rewrite !andb_true_iff in PI. destruct PI as [[-> PI1] PI2].
    apply Nat.eqb_eq in PI2. apply negb_true_iff in PI1.
    assert (EN : n = (false, entry)) by (destruct n; cbn [fst snd] in *; congruence).
    destruct (EMV true ps false eq_refl eq_refl) as (_ & md & ZM).
    rewrite PI2 in *. rewrite ZM in DE. symmetry in DE.
    unfold entry_site. rewrite ZM. cbn [fst snd]. eexists. split; [reflexivity|]. right.
    destruct (entry_in_body _ body tail md ND SH RP DE) as (A & i & B & X1 & X2 & X3 & X4 & X5 & X6).
    exists md, A, i, B. split; [split; [auto|rewrite EN; auto]|]. split; auto. split; auto. split; auto.
    assert (EM : e_mid (mkEreq o (bpoint co entry) (jsum_of d s) true 0 false) = Some md) by exact ZM.
    split.
    + split; [exact PL|]. rewrite EM. exact X5.
    + split; [|intros _; unfold e_dead; rewrite EM; exact X6].
      exists (-8). split; [|reflexivity]. unfold e_off. rewrite EM. cbn [request_off e_height]. lia.
  - apply andb_true_iff in PI. destruct PI as [PI1 PI2]. apply Nat.eqb_eq in PI2. apply negb_true_iff in PI1.
    assert (EN : n = (false, snd n)) by (destruct n; cbn [fst snd] in *; congruence).
    unfold slow_site, opt_mid. rewrite DE.
    assert (NONE : exists q, snd (AtStart (false, snd n), StackPush (mkEreq o (bpoint co (snd n)) (jsum_of d s) false 0 false)) = StackPush q /\
      (fst (AtStart (false, snd n), StackPush (mkEreq o (bpoint co (snd n)) (jsum_of d s) false 0 false)) = AtStart n /\
       forall R, Forall entry_passable [] /\ e_ok q /\ (exists h, e_off q = -8 - h + pushes [] /\ h = -8) /\
         (o_optimize_regs o = false -> incl (e_dead q) (dead_before R)))).
    { eexists. split; [reflexivity|]. cbn [fst]. split; [rewrite EN; auto|]. intros R. split; [constructor|]. split.
      - split; [exact PL|]. exact GE.
      - split; [exists (-8); split; reflexivity|]. intros NO. unfold e_dead.
        change (e_mid (mkEreq o (bpoint co (snd n)) (jsum_of d s) false 0 false)) with (@None mid).
        cbn [request_dead e_o]. rewrite NO. intros x []. }
    destruct (fl_no_reg_save fl); [destruct NONE as (q & N1 & N2); exists q; auto|].
    destruct (entry_point (b_insns (blk (snd n)))) as [md|] eqn:EPT;
      [|destruct NONE as (q & N1 & N2); exists q; auto].
    clear NONE. cbn [fst snd]. eexists. split; [reflexivity|]. right.
    destruct (entry_in_body _ body tail md ND SH RP EPT) as (A & i & B & X1 & X2 & X3 & X4 & X5 & X6).
    exists md, A, i, B. split; [split; [auto|rewrite EN; auto]|]. split; auto. split; auto. split; auto.
    assert (EM : e_mid (mkEreq o (bpoint co (snd n)) (jsum_of d s) true 0 false) = Some md) by exact DE.
    split.
    + split; [exact PL|]. rewrite EM. exact X5.
    + split; [|intros _; unfold e_dead; rewrite EM; exact X6].
      exists (-8). split; [|reflexivity]. unfold e_off. rewrite EM. cbn [request_off e_height]. lia.
Qed.
(** The check of the block. *)
Definition qmoved (md : mid) : Prop :=
  exit_point (b_insns (blk (snd n))) = Some md /\ fst (qsite n) = BeforeInsn n (m_addr md).
Lemma check_site : pop_in n = true ->
  exists q, snd (qsite n) = StackPop q /\
   ((fst (qsite n) = AtEnd n /\ pop_ok [] q) \/
    (exists md A i C, qmoved md /\ body = A ++ i :: C /\ i_addr i = m_addr md /\ pop_ok (i :: C) q)).
Proof.
  intros _. pose proof (an_insns _ _ _ AN _ HB) as ND.
  destruct (data co m fn AN (snd n) HB) as (_ & DX & _).
  unfold qmoved, qsite, pop_site, pop_ok.
  assert (EN : n = (fst n, snd n)) by (destruct n; auto).
  destruct (opt_mid fl (s_exitData s) (startof co (snd n))) as [md|] eqn:OM; cbn [fst snd]; rewrite <- EN.
  - assert (EP : exit_point (b_insns (co_block co (snd n))) = Some md).
    { unfold opt_mid in OM. destruct (fl_no_reg_save fl); [discriminate|]. rewrite DX in OM. auto. }
    assert (EM : x_mid (mkXreq o (bpoint co (snd n)) (jsum_of d s) true) = Some md).
    { unfold x_mid, exit_mid. cbn [x_pt x_js x_orig bpoint p_block jsum_of j_exitData].
      unfold startof in *. rewrite DX. exact EP. }
    destruct (exit_point_ok _ body tail md ND SH EP) as (pre & i & post & A & B & C & D & GM & DI).
    eexists. split; [reflexivity|]. right. exists md, pre, i, post. split; [split; auto|]. split; auto. split; auto.
    split; auto. split; [split; [exact PL|rewrite EM; exact GM]|].
    split; [unfold x_off; rewrite EM; cbn [request_off]; lia|]. intros _. unfold x_dead. rewrite EM.
    change (i :: post ++ tail) with ((i :: post) ++ tail) in DI. rewrite dead_app in DI by (eapply dead_tail; eauto). exact DI.
  - eexists. split; [reflexivity|]. left. split; auto. split; [constructor|].
    split.
    + split; [exact PL|]. change (x_mid (mkXreq o (bpoint co (snd n)) (jsum_of d s) false)) with (@None mid).
      cbn [request_ok x_pt x_js x_o]. unfold exit_dead_set, bpoint. cbn [jsum_of j_dead_exit p_addr].
      destruct (zfind (di_exit d) (b_last (co_block co (snd n)))) eqn:Z;
        [eapply GX; eauto|right; left; auto].
    + split; [reflexivity|]. intros NO. unfold x_dead.
      change (x_mid (mkXreq o (bpoint co (snd n)) (jsum_of d s) false)) with (@None mid).
      cbn [request_dead x_o]. rewrite NO. intros x [].
Qed.

(** The code of the block, in three parts: what runs before the push, what runs between the
    push and the check, and what runs after the check. *)
Lemma node_shape last : exists A B C qp qc,
  body = A ++ B ++ C /\
  (push_in n = true -> push_ok n A (B ++ C) qp) /\ (pop_in n = true -> pop_ok C qc) /\
  (push_in n = false -> A = []) /\
  node_items co sites n last =
    Here n :: map (Ins n) A ++ map Snip (opt (push_in n) (StackPush qp)) ++ map (Ins n) B ++
    map Snip (opt (pop_in n) (StackPop qc)) ++ map (Ins n) C ++
    (if last then [] else map (Ins n) tail ++ [Out n]).
Proof.
  pose proof (an_insns _ _ _ AN _ HB) as ND. pose proof push_site as HP. pose proof check_site as HQ.
  assert (W : forall A B C,
    body = A ++ B ++ C ->
    (push_in n = true -> push_at n (fst (psite n)) A (B ++ C)) -> (pop_in n = true -> pop_at n (fst (qsite n)) C) ->
    (push_in n = false -> A = []) -> (pop_in n = false -> C = []) ->
    (push_in n = true -> exists q, snd (psite n) = StackPush q /\ push_ok n A (B ++ C) q) ->
    (pop_in n = true -> exists q, snd (qsite n) = StackPop q /\ pop_ok C q) ->
    exists A B C qp qc, body = A ++ B ++ C /\
      (push_in n = true -> push_ok n A (B ++ C) qp) /\ (pop_in n = true -> pop_ok C qc) /\
      (push_in n = false -> A = []) /\
      node_items co sites n last =
        Here n :: map (Ins n) A ++ map Snip (opt (push_in n) (StackPush qp)) ++ map (Ins n) B ++
        map Snip (opt (pop_in n) (StackPop qc)) ++ map (Ins n) C ++
        (if last then [] else map (Ins n) tail ++ [Out n])).
  { intros A B C EB PA QA NA NC PQ QQ. exists A, B, C.
    pose proof (node_weave co sites n last body tail (push_in n) (pop_in n) (psite n) (qsite n) A B C SH ND
       (fun pl => node_snips n pl HB) EB PA QA NA NC) as E.
    rewrite E. clear E.
    destruct (push_in n).
    - destruct (PQ eq_refl) as (q1 & E1 & K1). exists q1. rewrite E1.
      destruct (pop_in n).
      + destruct (QQ eq_refl) as (q2 & E2 & K2). exists q2. rewrite E2. auto 10.
      + exists (mkXreq o (bpoint co (snd n)) (jsum_of d s) false). split; auto. split; auto. split; [discriminate|]. split; auto.
    - exists (mkEreq o (bpoint co (snd n)) (jsum_of d s) false 0 false).
      destruct (pop_in n).
      + destruct (QQ eq_refl) as (q2 & E2 & K2). exists q2. rewrite E2. split; auto. split; [discriminate|]. auto 10.
      + exists (mkXreq o (bpoint co (snd n)) (jsum_of d s) false). split; auto. split; [discriminate|]. split; [discriminate|]. split; auto. }
  destruct (push_in n) eqn:PI; destruct (pop_in n) eqn:QI.
  - destruct (HP eq_refl) as (q1 & E1 & [(F1 & K1)|(md1 & A1 & i1 & B1 & M1 & F1 & G1 & K1)]);
    destruct (HQ eq_refl) as (q2 & E2 & [(F2 & K2)|(md2 & A2 & i2 & C2 & M2 & F2 & G2 & K2)]).
    + apply (W [] body []); [cbn [app]; rewrite app_nil_r; auto|..]; intros; try discriminate; eauto.
      * left; auto. * left; auto.
    + apply (W [] A2 (i2 :: C2)); [cbn [app]; auto|..]; intros; try discriminate; eauto.
      * left; auto. * right. exists i2, C2. split; auto. rewrite G2. apply M2.
    + apply (W A1 (i1 :: B1) []); [rewrite app_nil_r; auto|..]; intros; try discriminate; eauto.
      * right. exists i1, B1. rewrite app_nil_r. split; auto. rewrite G1. apply M1. * left; auto.
      * rewrite app_nil_r. eauto.
    + destruct (entry_before_exit _ body tail md1 md2 ND SH RP (proj1 M1) (proj1 M2))
        as (a & b & c & i & j & X1 & X2 & X3 & X4 & X5).
      assert (S1 : b_insns (blk (snd n)) = A1 ++ i1 :: B1 ++ tail) by (rewrite (proj1 SH), F1, <- app_assoc; auto).
      assert (S2 : b_insns (blk (snd n)) = A2 ++ i2 :: C2 ++ tail) by (rewrite (proj1 SH), F2, <- app_assoc; auto).
      destruct (split_at _ a (b ++ c) A1 (B1 ++ tail) i i1 ND X1 X2 S1) as [-> _]; [congruence|].
      rewrite app_assoc in X1.
      destruct (split_at _ (A1 ++ b) c A2 (C2 ++ tail) j i2 ND X1 X4 S2) as [Q1 Q2]; [congruence|].
      assert (EBD : body = A1 ++ b ++ i2 :: C2) by (rewrite F2, <- Q1, <- app_assoc; auto).
      apply (W A1 b (i2 :: C2)); auto; intros; try discriminate; eauto.
      * right. assert (EE : i1 :: B1 = b ++ i2 :: C2) by (rewrite F1 in EBD; apply app_inv_head in EBD; auto).
        exists i1, B1. split; auto. rewrite G1. apply M1.
      * right. exists i2, C2. split; auto. rewrite G2. apply M2.
      * assert (EE : i1 :: B1 = b ++ i2 :: C2) by (rewrite F1 in EBD; apply app_inv_head in EBD; auto).
        rewrite <- EE. eauto.
  - destruct (HP eq_refl) as (q1 & E1 & [(F1 & K1)|(md1 & A1 & i1 & B1 & M1 & F1 & G1 & K1)]).
    + apply (W [] body []); [cbn [app]; rewrite app_nil_r; auto|..]; intros; try discriminate; eauto. left; auto.
    + apply (W A1 (i1 :: B1) []); [rewrite app_nil_r; auto|..]; intros; try discriminate; eauto.
      * right. exists i1, B1. rewrite app_nil_r. split; auto. rewrite G1. apply M1.
      * rewrite app_nil_r. eauto.
  - destruct (HQ eq_refl) as (q2 & E2 & [(F2 & K2)|(md2 & A2 & i2 & C2 & M2 & F2 & G2 & K2)]).
    + apply (W [] body []); [cbn [app]; rewrite app_nil_r; auto|..]; intros; try discriminate; eauto. left; auto.
    + apply (W [] A2 (i2 :: C2)); [cbn [app]; auto|..]; intros; try discriminate; eauto.
      right. exists i2, C2. split; auto. rewrite G2. apply M2.
  - apply (W [] body []); [cbn [app]; rewrite app_nil_r; auto|..]; intros; try discriminate; eauto.
Qed.
End NODE.
End PC.
