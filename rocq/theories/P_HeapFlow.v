(** * P_HeapFlow: functions without loops in the heap write analysis (C45); comparing facts (C43) *)
From Coq Require Import ZArith Bool Lia ZifyBool ZifyNat Arith String List.
From Verif Require Import Machine Jit Dfs Binary MemPasses Reach Components P_Cfg Heap HeapFacts HeapRun ExCode P_Paths P_Heap.
Import ListNotations.
Open Scope Z_scope.

(** ** Lists in which everything a member leads to comes after it *)
Fixpoint sorted (R : nat -> nat -> Prop) (l : list nat) : Prop :=
  match l with
  | [] => True
  | c :: t => (forall k, R c k -> In k t) /\ ~ In c t /\ sorted R t
  end.
Lemma sorted_nodup R l : sorted R l -> NoDup l.
Proof. induction l as [|c t IH]; cbn; [constructor|]. intros (_ & N & S). constructor; auto. Qed.
Lemma sorted_closed R l a b : sorted R l -> In a l -> R a b -> In b l.
Proof. induction l as [|c t IH]; cbn; [auto|]. intros (K & _ & S) [<-|H] E; [right; auto|right; apply IH; auto]. Qed.
Lemma sorted_at R l : sorted R l -> forall pre a post, l = pre ++ a :: post -> forall b, R a b -> In b post.
Proof.
  induction l as [|c t IH]; intros S pre a post E b H; [destruct pre; discriminate|].
  destruct S as (K & _ & S). destruct pre as [|x pre]; cbn in E; injection E as <- ->; [auto|].
  eapply (IH S pre a post); auto.
Qed.

(** Post order of a graph without cycles. *)
Section POST.
Variable st : cst.
Notation kids := (comp_kids st).
Notation pre := (fun (c : nat) (l : list nat) => (l, tt, comp_kids st c)).
Notation before := (fun (_ _ : nat) (l : list nat) => l).
Notation after := (fun (_ _ : nat) (_ : bool) (u : unit) (l : list nat) => (u, l)).
Notation post := (fun (c : nat) (_ : unit) (l : list nat) => c :: l).
Notation walk := (dfs (list nat) unit (seq 0 (c_next st)) pre before after post).
Notation walks := (dfs_loop (list nat) unit (seq 0 (c_next st)) pre before after post).
Hypothesis ACYC : forall c, ~ kid_path st c c.
Notation R := (fun c k => In k (kids c)).
Lemma kid c k : In k (kids c) -> In (c, k) (c_kids st).
Proof. unfold comp_kids. rewrite (comp_in c_kids st c k). auto. Qed.
Lemma kid_path_last a b c : kid_path st a b -> In (b, c) (c_kids st) -> kid_path st a c.
Proof. induction 1; intros K; [eapply kp_step; [eassumption|apply kp_one; auto]|eapply kp_step; eauto]. Qed.
Lemma walk_sorted :
  (forall f w w', walk f w w' -> forall G,
     (forall x, In x (fst w) -> In x (snd w) \/ In x G) -> (forall g, In g G -> kid_path st g f) ->
     incl (snd w) (fst w) -> ~ In f (fst w) -> sorted R (snd w) ->
     sorted R (snd w') /\ (forall x, In x (fst w') -> In x (snd w') \/ In x G) /\ incl (snd w') (fst w') /\
     In f (snd w') /\ incl (snd w) (snd w') /\ (forall x, In x (snd w') -> In x (snd w) \/ ~ In x (fst w))) /\
  (forall f ch vis l u vis' l' u', walks f ch vis l u vis' l' u' -> forall G,
     (forall x, In x vis -> In x l \/ In x G) -> In f G -> (forall g, In g G -> g = f \/ kid_path st g f) -> incl ch (kids f) ->
     incl l vis -> sorted R l ->
     sorted R l' /\ (forall x, In x vis' -> In x l' \/ In x G) /\ incl l' vis' /\
     incl ch l' /\ incl l l' /\ (forall x, In x l' -> In x l \/ ~ In x vis)).
Proof.
  apply dfs_mutind.
  - intros f vis l l1 u ch vis2 l2 u2 EP D IH G HG GP LV NF SO. injection EP as <- _ <-. cbn [fst snd] in *.
    destruct (IH (f :: G)) as (S2 & V2 & I2 & C2 & L2 & N2); auto.
    + intros x [<-|Hx]; [right; left; auto|]. destruct (HG x Hx); [left; auto|right; right; auto].
    + left; auto.
    + intros g [<-|Hg]; [left; auto|right; auto].
    + apply incl_refl.
    + intros x Hx. right. apply LV. exact Hx.
    + assert (NL : ~ In f l2).
      { intros K. destruct (N2 f K) as [K'|K']; [apply NF, LV, K'|apply K'; left; auto]. }
      cbn [sorted]. split; [split; [exact C2|split; [exact NL|exact S2]]|]. split.
      { intros x Hx. destruct (V2 x Hx) as [K|[<-|K]]; [left; right; auto|left; left; auto|right; auto]. }
      split.
      { intros x [<-|Hx]; [|apply I2; auto].
        (* f is visited after the loop *)
        pose proof (proj2 (dfs_grow _ _ _ _ _ _ _) _ _ _ _ _ _ _ _ D) as K. apply K. left. auto. }
      split; [left; auto|]. split; [intros x Hx; right; auto|].
      intros x [<-|Hx]; [right; exact NF|]. destruct (N2 x Hx) as [K|K]; [left; auto|right]. intros Q. apply K. right. exact Q.
  - intros f vis l u G HG FG GP CK LV SO. split; [auto|]. split; [auto|]. split; [auto|]. split; [intros x []|]. split; [apply incl_refl|auto].
  - intros f c t vis l u u' l' vis2 l2 u2 _ SEEN EA _ IH G HG FG GP CK LV SO. injection EA as _ <-.
    destruct (IH G HG FG GP (fun x H => CK x (or_intror H)) LV SO) as (S2 & V2 & I2 & C2 & L2 & N2).
    split; [auto|]. split; [auto|]. split; [auto|]. split; [|auto].
    intros x [<-|Hx]; [|apply C2; auto]. apply L2. destruct (HG c SEEN) as [K|K]; [exact K|]. exfalso.
    pose proof (kid f c (CK c (or_introl eq_refl))) as KF.
    destruct (GP c K) as [->|P]; [apply (ACYC f); apply kp_one; exact KF|apply (ACYC c); eapply kid_path_last; eauto].
  - intros f c t vis l u vis1 l1 u' l' vis2 l2 u2 _ NEW D IH1 EA _ IH G HG FG GP CK LV SO. injection EA as _ <-. cbn [fst snd] in *.
    pose proof (kid f c (CK c (or_introl eq_refl))) as KF.
    destruct (IH1 G HG) as (S1 & V1 & I1 & C1 & L1 & N1); auto.
    { intros g Hg. destruct (GP g Hg) as [->|P]; [apply kp_one; exact KF|eapply kid_path_last; eauto]. }
    destruct (IH G V1 FG GP (fun x H => CK x (or_intror H)) I1 S1) as (S2 & V2 & I2 & C2 & L2 & N2).
    split; [auto|]. split; [auto|]. split; [auto|]. split; [intros x [<-|Hx]; [apply L2; exact C1|apply C2; auto]|].
    split; [intros x Hx; apply L2, L1, Hx|].
    intros x Hx. destruct (N2 x Hx) as [K|K]; [apply N1; exact K|]. right. intros Q. apply K.
    apply (proj1 (dfs_grow _ _ _ _ _ _ _) _ _ _ D). right. exact Q.
Qed.
End POST.

(** ** Merging and covering *)
Lemma meet_opt_cov k a b m : vopt k a -> vopt k b -> meet_opt a b = Some m ->
  forall p, covers k a p \/ covers k b p -> covers k m p.
Proof.
  intros A B E p H. destruct a as [a|], b as [b|]; cbn [meet_opt vopt] in *.
  - destruct (C43_laws_partial k a b b A B B) as ((z & EZ & _ & B1 & B2 & _) & _). rewrite EZ in E. injection E as <-.
    destruct H as [H|H]; [apply B1; exact H|apply B2; exact H].
  - injection E as <-. destruct H as [H|H]; [exact H|apply cov_unt; exact H].
  - injection E as <-. destruct H as [H|H]; [apply cov_unt; exact H|exact H].
  - injection E as <-. destruct H; auto.
Qed.
Lemma meet_ctx_cov U c d m : vctx c -> vctx d -> meet_ctx U c d = Some m -> vctx m /\ cle c m /\ cle d m.
Proof.
  intros C D E. destruct (meet_ctx_v U c d C D) as (m' & E' & VM & _). rewrite E in E'. injection E' as <-.
  split; [exact VM|]. unfold meet_ctx in E. destruct (meet_ok U c d); [|discriminate]. injection E as <-.
  split; intros k p H; unfold meet_val; destruct (meet_opt_v k (c k) (d k) (C k) (D k)) as (z & EZ & _); rewrite EZ;
    apply (meet_opt_cov k (c k) (d k) z (C k) (D k) EZ); auto.
Qed.
Lemma cle_refl c : cle c c.
Proof. intros k p H. exact H. Qed.
Lemma cle_trans a b c : cle a b -> cle b c -> cle a c.
Proof. intros H1 H2 k p H. auto. Qed.

Section FLOW.
Variable co : code.
Variable fn : nat.
Variable s : summary.
Variables hdst hsrc : insn -> hreg.
Notation blocks := (f_blocks (co_fun co fn)).
Notation entry := (f_entry (co_fun co fn)).
Notation insns b := (b_insns (co_block co b)).
Notation keys := (hkeys co fn s hdst hsrc).
Notation trans := (transfer co s hdst hsrc).
Notation work := (h_work co fn s hdst hsrc).
Notation args := (fold_left set_arg arg_regs hctx0).

Lemma meets_cov me st ps : (forall b i, vctx (st b i)) -> forall c, vctx c ->
  exists c', meets co fn s hdst hsrc me st ps c = Some c' /\ vctx c' /\ cle c c' /\
    forall q, In q ps -> q <> me -> cle (st (fst q) (snd q)) c'.
Proof.
  intros V. induction ps as [|[b i] r IH]; intros c C; cbn [meets].
  - exists c. split; [auto|]. split; [auto|]. split; [apply cle_refl|intros q []].
  - destruct (Nat.eqb b (fst me) && Nat.eqb i (snd me)) eqn:ME.
    + destruct (IH c C) as (c' & E & VC & LC & K). exists c'. split; [auto|]. split; [auto|]. split; [auto|].
      intros q [<-|Hq] NQ; [|auto]. exfalso. apply NQ. apply andb_true_iff in ME. destruct ME as [M1 M2].
      apply Nat.eqb_eq in M1, M2. destruct me. cbn in *. congruence.
    + destruct (meet_ctx_v keys c (st b i) C (V b i)) as (m & EM & _ & _). rewrite EM.
      destruct (meet_ctx_cov keys c (st b i) m C (V b i) EM) as (VM & L1 & L2).
      destruct (IH m VM) as (c' & E & VC & LC & K). exists c'. split; [auto|]. split; [auto|].
      split; [eapply cle_trans; eauto|]. intros q [<-|Hq] NQ; [|auto]. cbn [fst snd]. eapply cle_trans; eauto.
Qed.

(** ** The stack pointer, once it has been moved *)
(** A mov or lea into the stack pointer *)
Definition sets_sp (i : insn) : Prop :=
  hdst i = RG RSP /\ (i_op i = OLea \/ (i_op i = OMov /\ (i_rmem i = true \/ i_wmem i = false))).
Definition sp_top (c : hctx) : Prop := covers (HG RSP) (c (HG RSP)) POther.
Lemma sp_top_iff c : sp_top c <-> exists a, c (HG RSP) = Some a /\ a_ty a = TOP.
Proof.
  unfold sp_top. destruct (c (HG RSP)) as [a|]; cbn [covers untracked].
  - unfold ty_covers. cbn [untracked]. split.
    + intros [[]|H]. exists a. split; [auto|]. destruct (a_ty a); auto; try discriminate; try contradiction. destruct H; discriminate.
    + intros (b & E & T). injection E as <-. rewrite T. right. exact I.
  - split; [intros []|intros (a & E & _); discriminate].
Qed.
Lemma tops_sp rs c : sp_top c -> sp_top (fold_left (fun c r => hset c (HG r) a_top) rs c).
Proof. unfold sp_top. intros H. rewrite tops_at. destruct (existsb _ rs); [apply cov_top|exact H]. Qed.
Lemma set_sp c k v : (k = HG RSP -> Some v = c (HG RSP)) -> sp_top c -> sp_top (hset c k v).
Proof. unfold sp_top, hset. intros E H. destruct (hloc_eq_dec (HG RSP) k) as [Q|]; [rewrite (E (eq_sym Q)); exact H|exact H]. Qed.
Lemma get_sp c r : sp_top c -> r = RG RSP -> Some (hget c (HR r)) = c (HG RSP).
Proof. intros H ->. apply sp_top_iff in H. destruct H as (a & E & _). unfold hget. rewrite E. reflexivity. Qed.
Lemma trans_sp b i c c' : trans b i c = Some c' -> ~ sets_sp i -> sp_top c -> sp_top c'.
Proof.
  intros T NS H. unfold transfer in T. unfold sets_sp in NS.
  assert (UNK : sp_top (t_unknown i c)) by (apply tops_sp; exact H).
  destruct (i_op i) eqn:OP; try (injection T as <-; exact UNK).
  - unfold t_mov in T. destruct (hreg_eq_dec (hdst i) RNone); [injection T as <-; exact H|].
    destruct (i_rmem i) eqn:RM.
    { assert (ND : hdst i <> RG RSP) by (intros K; apply NS; auto).
      destruct (heights s i) as [[h h']|].
      - destruct (assign _) as [v|]; [|discriminate]. injection T as <-. apply set_sp; [congruence|]. unfold sp_top. rewrite ensure_reg. exact H.
      - injection T as <-. apply set_sp; [congruence|exact H]. }
    destruct (i_wmem i) eqn:WM.
    { destruct (heights s i) as [[h h']|]; [|injection T as <-; exact H].
      destruct (set_point _ _) as [x|]; [|discriminate]. injection T as <-. apply set_sp; [discriminate|].
      assert (H1 : sp_top (ensure c h')) by (unfold sp_top; rewrite ensure_reg; exact H).
      apply set_sp; [|exact H1]. intros K. injection K as K. apply get_sp; auto. }
    assert (ND : hdst i <> RG RSP) by (intros K; apply NS; auto).
    destruct (hreg_eq_dec (hsrc i) RNone); [injection T as <-; apply set_sp; [congruence|exact H]|].
    destruct (assign _) as [v|]; [|discriminate]. injection T as <-. apply set_sp; [congruence|].
    apply set_sp; [|exact H]. intros K. injection K as K. apply get_sp; auto.
  - unfold t_lea in T. destruct (_ && _)%bool; [|injection T as <-; exact UNK].
    destruct (assign _) as [v|]; [|discriminate]. injection T as <-. apply set_sp; [|exact H].
    intros K. injection K as K. exfalso. apply NS. auto.
  - injection T as <-. unfold t_call. apply set_sp; [discriminate|]. apply tops_sp. exact H.
Qed.
Lemma sp_key : In (HG RSP) keys.
Proof. unfold hkeys. apply in_app_iff. left. apply in_map_iff. exists RSP. cbn. auto 20. Qed.
Lemma sp_differs c d : c (HG RSP) = Some a_bot -> sp_top d -> ctx_eqb keys c d = false.
Proof.
  intros C D. apply (eqb_false keys c d (HG RSP) sp_key). apply sp_top_iff in D. destruct D as ([t h p] & -> & T). rewrite C. cbn in T. subst t. reflexivity.
Qed.

(** ** One block *)
(** The facts of instruction [i] of block [b] are the effect of the instruction on facts that cover [c0]. *)
Definition follows (st : hstate) (c0 : hctx) (b i : nat) : Prop :=
  forall x, nth_error (insns b) i = Some x -> exists c, vctx c /\ cle c0 c /\ trans b x c = Some (st b i).
Lemma no_updates b : (forall e, In e (b_targets (co_block co b)) -> e_trg e <> b) ->
  forall ts st, incl ts (b_targets (co_block co b)) -> updates co fn [b] ts st = (st, []).
Proof.
  intros NS. induction ts as [|e r IH]; intros st HI; cbn [updates]; [reflexivity|].
  replace (Dfs.mem (e_trg e) [b]) with false; [apply IH; intros x Hx; apply HI; right; auto|].
  symmetry. apply mem_nin. intros [K|[]]. apply (NS e (HI e (or_introl eq_refl))). auto.
Qed.
Lemma work_block b : (forall e, In e (b_targets (co_block co b)) -> e_trg e <> b) ->
  (forall x, In x (insns b) -> ~ sets_sp x) ->
  forall fuel i ps st st' x c c2, (forall b' j, vctx (st b' j)) -> (forall j, (i <= j)%nat -> st b j (HG RSP) = Some a_bot) ->
  nth_error (insns b) i = Some x -> meets co fn s hdst hsrc (b, i) st ps (st b i) = Some c -> vctx c -> trans b x c = Some c2 -> vctx c2 -> sp_top c2 ->
  work fuel [b] st [((b, i), ps)] = HDone st' ->
  (forall b' j, vctx (st' b' j)) /\ (forall b' j, b' <> b \/ (j < i)%nat -> st' b' j = st b' j) /\
  st' b i = c2 /\ (forall j, (i <= j < List.length (insns b))%nat -> sp_top (st' b j)) /\
  (forall j, (i <= j)%nat -> follows st' (st' b j) b (S j)).
Proof.
  intros NS NP. induction fuel as [|fuel IH]; intros i ps st st' x c c2 V BOT NX M VC T V2 TOP W; cbn [h_work] in W; [discriminate|].
  unfold process in W. cbn [fst snd] in W. unfold h_insns in W. rewrite NX, M, T in W.
  rewrite (sp_differs _ _ (BOT i (Nat.le_refl _)) TOP) in W.
  set (st1 := hput st b i c2) in *.
  assert (V1 : forall b' j, vctx (st1 b' j)) by (intros b' j; unfold st1, hput; destruct (_ && _)%bool; auto).
  assert (S1 : st1 b i = c2) by apply hput_same.
  unfold follow in W. cbn [fst snd] in W. unfold h_insns in W.
  destruct (Nat.ltb (S i) (List.length (insns b))) eqn:LT.
  - apply Nat.ltb_lt in LT. cbn [app] in W.
    assert (NY : exists y, nth_error (insns b) (S i) = Some y).
    { destruct (nth_error (insns b) (S i)) eqn:E; [eauto|]. apply nth_error_None in E. lia. }
    destruct NY as (y & NY).
    destruct (meets_cov (b, S i) st1 [(b, i)] V1 (st1 b (S i)) (V1 _ _)) as (d & MD & VD & _ & LD).
    specialize (LD (b, i) (or_introl eq_refl) ltac:(intros K; injection K; lia)). cbn [fst snd] in LD. rewrite S1 in LD.
    destruct (transfer_v co s hdst hsrc b y d VD) as (d2 & TD & VD2 & _).
    assert (SD : sp_top d) by (apply LD; exact TOP).
    assert (TD2 : sp_top d2) by (eapply trans_sp; [exact TD|apply NP; eapply nth_error_In; eauto|exact SD]).
    destruct (IH (S i) [(b, i)] st1 st' y d d2 V1) as (A1 & A2 & A3 & A4 & A5); auto.
    { intros j Hj. unfold st1. rewrite hput_other by (intros K; injection K; lia). apply BOT. lia. }
    split; [exact A1|]. split.
    { intros b' j H. rewrite A2 by (destruct H; [left; auto|right; lia]). unfold st1. apply hput_other. intros K. injection K. destruct H; [congruence|lia]. }
    assert (SI : st' b i = c2) by (rewrite A2 by (right; lia); exact S1).
    split; [exact SI|]. split.
    { intros j Hj. destruct (Nat.eq_dec j i) as [->|N]; [rewrite SI; exact TOP|apply A4; lia]. }
    intros j Hj. destruct (Nat.eq_dec j i) as [->|N]; [|apply A5; lia].
    intros z NZ. rewrite NY in NZ. injection NZ as <-. exists d. split; [exact VD|]. rewrite SI, A3. auto.
  - apply Nat.ltb_ge in LT. rewrite (no_updates b NS _ _ (incl_refl _)) in W. cbn [app] in W.
    assert (st' = st1) by (destruct fuel; cbn [h_work] in W; congruence). subst st'.
    split; [exact V1|]. split.
    { intros b' j H. apply hput_other. intros K. injection K. destruct H; [congruence|lia]. }
    split; [exact S1|]. split.
    { intros j Hj. assert (j = i) by lia. subst j. rewrite S1. exact TOP. }
    intros j Hj z NZ. assert (K : (S j < List.length (insns b))%nat) by (apply nth_error_Some; congruence). lia.
Qed.

(** ** All blocks, in order *)
(** The function has no cycles, returns and calls leave it, and the first instruction moves
    the stack pointer, which is then not set to something else by mov or lea. *)
Definition straight : Prop :=
  f_loops (co_fun co fn) = [] /\
  (forall a b, flow co a b -> ~ flows co b a) /\
  (forall b e, In b blocks -> In e (b_targets (co_block co b)) ->
     e_trg e <> b /\ (e_ty e = CALL \/ e_ty e = RET -> e_inter e = true)) /\
  (exists x pt, nth_error (insns entry) 0 = Some x /\ In (MG RSP pt) (i_written x) /\
     i_op x <> OMov /\ i_op x <> OCall /\ i_op x <> OLea) /\
  (forall b x, In b blocks -> In x (insns b) -> ~ sets_sp x).
Hypothesis INP : heap_input co fn.
Hypothesis STR : straight.

Lemma hflow_flow a b : In a blocks -> hflow co a b -> flow co a b.
Proof.
  intros B (e & He & T & I & C). destruct STR as (_ & _ & K & _). destruct (K a e B He) as [_ L].
  exists e. split; [auto|]. split; [auto|]. split; [auto|]. split; [auto|].
  split; intros Q; rewrite L in I by auto; discriminate.
Qed.
Lemma flows_blocks a b : In a blocks -> flows co a b -> In b blocks.
Proof. intros H F. induction F as [|x y F IH E]; auto. destruct INP as ((_ & CL & _) & _). eapply CL; eauto. Qed.
Lemma flows_trans a b c : flows co a b -> flows co b c -> flows co a c.
Proof. intros F G. induction G; auto. eapply fl_step; eauto. Qed.
Lemma sorted_closure bl : sorted (flow co) bl -> forall a b, In a bl -> flows co a b -> In b bl.
Proof. intros S a b H F. induction F as [|x y F IH E]; auto. eapply sorted_closed; eauto. Qed.

(** The facts of the blocks [dn] solve the flow equations among these blocks. *)
Definition solved (st : hstate) (dn : list nat) : Prop :=
  forall b, In b dn ->
    (forall j, (j < List.length (insns b))%nat -> sp_top (st b j)) /\
    (forall j, follows st (st b j) b (S j)) /\
    (b = entry -> follows st args b 0) /\
    (forall a, In a dn -> hflow co a b -> follows st (st a (last_ix co a)) b 0).
Lemma args_sp : args (HG RSP) = Some a_bot.
Proof. reflexivity. Qed.
Lemma follows_same st st' c0 b i : st' b i = st b i -> follows st c0 b i -> follows st' c0 b i.
Proof. intros E H x N. destruct (H x N) as (c & V & L & T). exists c. rewrite E. auto. Qed.

Lemma block_step fuel dn b rest st st' : sorted (flow co) (dn ++ b :: rest) -> In entry (dn ++ b :: rest) ->
  (forall x, In x (dn ++ b :: rest) -> flows co entry x) ->
  (forall x j, vctx (st x j)) -> (forall x, ~ In x dn -> forall j, st x j = hctx0) -> solved st dn ->
  analyse_blocks co fn s hdst hsrc fuel [b] st = HDone st' ->
  (forall x j, vctx (st' x j)) /\ (forall x, ~ In x (dn ++ [b]) -> forall j, st' x j = hctx0) /\ solved st' (dn ++ [b]).
Proof.
  intros SO EN RE V FRESH SOL W. destruct STR as (_ & ACYC & ED & (x0 & pt & NX0 & WX & N1 & N2 & N3) & NSP).
  destruct INP as ((HE & CL & _) & _ & FULL).
  assert (INB : forall x, In x (dn ++ b :: rest) -> In x blocks) by (intros x Hx; eapply flows_blocks; eauto).
  assert (BB : In b (dn ++ b :: rest)) by (apply in_or_app; right; left; auto).
  assert (BD : ~ In b dn).
  { pose proof (sorted_nodup _ _ SO) as ND. apply NoDup_remove_2 in ND. intros K. apply ND. apply in_or_app. auto. }
  assert (NR : ~ In b rest).
  { pose proof (sorted_nodup _ _ SO) as ND. apply NoDup_remove_2 in ND. intros K. apply ND. apply in_or_app. auto. }
  assert (SELF : forall e, In e (b_targets (co_block co b)) -> e_trg e <> b) by (intros e He; apply (ED b e (INB b BB) He)).
  assert (PRED : forall a, In a (dn ++ b :: rest) -> flow co a b -> In a dn).
  { intros a Ha F. apply in_app_or in Ha. destruct Ha as [Ha|[<-|Ha]]; auto.
    - exfalso. apply (ACYC _ _ F). constructor.
    - exfalso. apply in_split in Ha. destruct Ha as (r1 & r2 & ->). apply NR. apply in_or_app. right. right.
      eapply (sorted_at _ _ SO (dn ++ b :: r1) a r2); [|exact F]. rewrite <- app_assoc. reflexivity. }
  assert (NX : exists x, nth_error (insns b) 0 = Some x).
  { destruct (insns b) eqn:E; [exfalso; apply (FULL b (INB b BB)); auto|]. eexists. reflexivity. }
  destruct NX as (x & NX).
  (* the facts before the first instruction *)
  assert (START : exists st1 ps c c2, update co fn b st = (st1, ((b, 0%nat), ps)) /\
    (forall y j, vctx (st1 y j)) /\ (forall j, st1 b j (HG RSP) = Some a_bot) /\ (forall y j, y <> b -> st1 y j = st y j) /\
    meets co fn s hdst hsrc (b, 0%nat) st1 ps (st1 b 0%nat) = Some c /\ vctx c /\ trans b x c = Some c2 /\ vctx c2 /\ sp_top c2 /\
    (b = entry -> cle args c) /\ (forall a, In a dn -> hflow co a b -> cle (st a (last_ix co a)) c)).
  { unfold update. destruct (Nat.eqb b entry) eqn:QE.
    - apply Nat.eqb_eq in QE. rewrite (FRESH b BD 0%nat). exists (hput st b 0 args), [], args.
      assert (VA : vctx args) by (apply args_v, vctx0).
      destruct (transfer_v co s hdst hsrc b x args VA) as (c2 & T & V2 & _). exists c2.
      split; [reflexivity|]. split; [intros y j; unfold hput; destruct (_ && _)%bool; auto|].
      split.
      { intros j. destruct j as [|j]; [rewrite hput_same; apply args_sp|]. rewrite hput_other by congruence. rewrite (FRESH b BD). reflexivity. }
      split; [intros y j Hy; apply hput_other; congruence|]. split; [cbn [meets]; rewrite hput_same; reflexivity|].
      split; [exact VA|]. split; [exact T|]. split; [exact V2|]. split.
      { subst b. rewrite NX0 in NX. injection NX as <-. unfold transfer in T.
        assert (KT : sp_top (t_unknown x0 args)).
        { unfold sp_top, t_unknown. rewrite tops_at. replace (existsb _ _) with true; [apply cov_top|]. symmetry.
          apply existsb_exists. exists RSP. split; [|destruct (hloc_eq_dec (HG RSP) (HG RSP)); congruence].
          unfold wregs. apply in_flat_map. exists (MG RSP pt). split; [exact WX|left; auto]. }
        destruct (i_op x0); try contradiction; injection T as <-; exact KT. }
      split; [intros _; apply cle_refl|]. intros a Ha F. exfalso.
      assert (Ha' : In a (dn ++ b :: rest)) by (apply in_or_app; auto).
      apply (ACYC a b); [apply hflow_flow; auto|]. subst b. apply RE. exact Ha'.
    - apply Nat.eqb_neq in QE. exists st, (h_preds co fn b).
      destruct (meets_cov (b, 0%nat) st (h_preds co fn b) V (st b 0%nat) (V _ _)) as (c & M & VC & _ & LC).
      destruct (transfer_v co s hdst hsrc b x c VC) as (c2 & T & V2 & _). exists c, c2.
      assert (LA : forall a, In a dn -> hflow co a b -> cle (st a (last_ix co a)) c).
      { intros a Ha F. apply (LC (a, last_ix co a)); [|intros K; injection K as -> _; contradiction].
        unfold h_preds. apply in_map_iff. exists a. split; [reflexivity|]. apply filter_In. split; [apply INB; apply in_or_app; auto|].
        destruct F as (e & He & TE & IE & CE). unfold h_edge. apply existsb_exists. exists e. split; [exact He|].
        rewrite TE, Nat.eqb_refl, IE. cbn. destruct (e_ty e); auto; congruence. }
      split; [reflexivity|]. split; [exact V|]. split; [intros j; rewrite (FRESH b BD); reflexivity|]. split; [auto|].
      split; [exact M|]. split; [exact VC|]. split; [exact T|]. split; [exact V2|]. split; [|split; [congruence|exact LA]].
      eapply trans_sp; [exact T|apply (NSP b x (INB b BB)); eapply nth_error_In; eauto|].
      (* some predecessor *)
      assert (PR : exists a, flows co entry a /\ flow co a b).
      { pose proof (RE b BB) as F. inversion F as [|y z F1 F2]; subst; [congruence|eauto]. }
      destruct PR as (a & F1 & F2). assert (Ha : In a dn) by (apply PRED; [exact (sorted_closure _ SO entry a EN F1)|exact F2]).
      apply (LA a Ha).
      { destruct F2 as (e & K1 & K2 & K3 & K4 & _). exists e. auto. }
      apply (SOL a Ha). unfold last_ix, h_insns.
      assert (insns a <> []) by (apply FULL, INB, in_or_app; auto). destruct (insns a); [congruence|cbn; lia]. }
  destruct START as (st1 & ps & c & c2 & EU & V1 & BOT & OTH & M & VC & T & V2 & TOP & ENTR & PR).
  unfold analyse_blocks in W. rewrite EU in W.
  destruct (work_block b SELF (fun y => NSP b y (INB b BB)) fuel 0 ps st1 st' x c c2 V1 (fun j _ => BOT j) NX M VC T V2 TOP W) as (A1 & A2 & A3 & A4 & A5).
  assert (KEEP : forall y j, y <> b -> st' y j = st y j) by (intros y j Hy; rewrite A2 by auto; apply OTH; exact Hy).
  split; [exact A1|]. split.
  { intros y Hy j. rewrite KEEP; [apply FRESH; intros K; apply Hy, in_or_app; auto|]. intros ->. apply Hy, in_or_app. right. left. auto. }
  intros y Hy. apply in_app_or in Hy. destruct Hy as [Hy|[<-|[]]].
  - assert (YB : y <> b) by (intros ->; contradiction).
    destruct (SOL y Hy) as (S1 & S2 & S3 & S4). split; [intros j Hj; rewrite KEEP; auto|].
    split; [intros j; rewrite KEEP by auto; eapply follows_same; [apply KEEP; auto|apply S2]|].
    split; [intros E; eapply follows_same; [apply KEEP; auto|apply S3; exact E]|].
    intros a Ha F. apply in_app_or in Ha. destruct Ha as [Ha|[<-|[]]].
    + rewrite KEEP by (intros ->; contradiction). eapply follows_same; [apply KEEP; auto|apply S4; auto].
    + exfalso. apply hflow_flow in F; [|apply INB; auto]. apply in_split in Hy. destruct Hy as (d1 & d2 & ->).
      pose proof (sorted_at _ _ SO (d1 ++ y :: d2) b rest eq_refl y F) as K.
      pose proof (sorted_nodup _ _ SO) as ND. rewrite <- app_assoc in ND. cbn in ND. apply NoDup_remove_2 in ND. apply ND.
      apply in_or_app. right. apply in_or_app. right. right. exact K.
  - assert (F0 : forall c0, cle c0 c -> follows st' c0 b 0).
    { intros c0 L z NZ. rewrite NX in NZ. injection NZ as <-. exists c. rewrite A3. auto. }
    split; [intros j Hj; apply A4; lia|]. split; [intros j; apply A5; lia|]. split; [intros E; apply F0, ENTR, E|].
    intros a Ha F. apply in_app_or in Ha. destruct Ha as [Ha|[<-|[]]].
    + rewrite KEEP by (intros ->; contradiction). apply F0, PR; auto.
    + exfalso. destruct F as (e & He & TE & _). apply (SELF e He). exact TE.
Qed.
Lemma blocks_solved fuel rest : forall dn st st', sorted (flow co) (dn ++ rest) -> In entry (dn ++ rest) ->
  (forall x, In x (dn ++ rest) -> flows co entry x) ->
  (forall x j, vctx (st x j)) -> (forall x, ~ In x dn -> forall j, st x j = hctx0) -> solved st dn ->
  analyse_all co fn s hdst hsrc fuel (map (fun b => [b]) rest) st = HDone st' ->
  (forall x j, vctx (st' x j)) /\ solved st' (dn ++ rest).
Proof.
  induction rest as [|b rest IH]; intros dn st st' SO EN RE V FRESH SOL W; cbn [map analyse_all] in W.
  - injection W as <-. rewrite app_nil_r. auto.
  - destruct (analyse_blocks co fn s hdst hsrc fuel [b] st) as [st1| |] eqn:E; try discriminate.
    destruct (block_step fuel dn b rest st st1 SO EN RE V FRESH SOL E) as (V1 & F1 & S1).
    assert (AP : dn ++ b :: rest = (dn ++ [b]) ++ rest) by (rewrite <- app_assoc; reflexivity).
    rewrite AP in *. apply (IH _ st1); auto.
Qed.

(** ** The order of the blocks *)
Lemma sins_same b l : (forall x, In x l -> x = b) -> l <> [] -> fold_right sins [] l = [b].
Proof.
  induction l as [|a l IH]; intros H N; [congruence|]. cbn [fold_right]. rewrite (H a (or_introl eq_refl)).
  destruct l as [|a' l]; [reflexivity|]. rewrite IH; [|intros x Hx; apply H; right; auto|discriminate].
  cbn [sins]. rewrite Nat.ltb_irrefl. rewrite ?Nat.eqb_refl. reflexivity.
Qed.
Lemma block_order : s_assume_unsafe s = false -> s_unknown_cf s = false ->
  exists bl, (forall fuel, heap_analysis co fn s hdst hsrc fuel = Some (analyse_all co fn s hdst hsrc fuel (map (fun b => [b]) bl) hst0)) /\
    sorted (flow co) bl /\ In entry bl /\ forall x, In x bl -> flows co entry x.
Proof.
  intros A1 A2. destruct STR as (NL & ACYC & _). pose proof INP as (CI & LP & FULL). pose proof CI as (HE & CL & D).
  destruct (cfg_ok_thm co fn CL s D HE A1 A2) as (root & st & E & W & ER & V & DONE).
  assert (NSL : forall a b, ~ same_loop co fn a b) by (intros a b (l & Hl & _); rewrite NL in Hl; destruct Hl).
  assert (AK : forall c, ~ kid_path st c c).
  { destruct (C47_acyclic co fn s CI A1 A2) as (root' & st' & E' & K).
    - intros a b AB. split; [intros H; destruct (NSL _ _ H)|]. intros [F G]. exfalso.
      inversion F as [|y z F1 F2]; subst; [congruence|]. apply (ACYC _ _ F2). eapply flows_trans; eauto.
    - rewrite E in E'. injection E' as <- <-. exact K. }
  destruct (rpo_ok co fn root st W (ex_intro _ _ ER)) as (vis & order & R & O).
  assert (SO : sorted (fun c k => In k (comp_kids st c)) order /\ In root order).
  { destruct (visit_dfs (list nat) unit (seq 0 (c_next st)) (fun (c : nat) (l : list nat) => (l, tt, comp_kids st c)) (fun (_ _ : nat) (l : list nat) => l)
      (fun (_ _ : nat) (_ : bool) (u : unit) (l : list nat) => (u, l)) (fun (c : nat) (_ : unit) (l : list nat) => c :: l) (fun _ => True)) with
      (fuel := S (c_next st)) (f := root) (vis := @nil nat) (st := @nil nat) as (vis' & order' & E' & _ & DF & _); auto.
    - intros f l _ _ x Hx. cbn in Hx. unfold comp_kids in Hx. rewrite (comp_in c_kids st f x) in Hx.
      destruct (w_kids _ _ _ W _ _ Hx) as (_ & a & t & _ & _ & M). apply in_seq. apply (w_next _ _ _ W) in M. lia.
    - constructor.
    - intros x [].
    - apply in_seq. apply (w_next _ _ _ W) in ER. lia.
    - rewrite seq_length. cbn. lia.
    - unfold rpo in R. rewrite E' in R. injection R as -> ->.
      destruct (proj1 (walk_sorted st AK) _ _ _ DF []) as (S1 & _ & _ & S2 & _); auto.
      + intros g [].
      + apply incl_refl.
      + exact I. }
  destruct SO as [SO RO].
  assert (ONE : forall a b c, c_map st a = Some c -> c_map st b = Some c -> a = b).
  { intros a b c Ha Hb. destruct (w_one _ _ _ W a b c Ha Hb) as [K|K]; [exact K|destruct (NSL _ _ K)]. }
  assert (BL : forall l, (forall c, In c l -> In c order) -> exists bl, map (fun b => [b]) bl = map (comp_blocks st) l /\
    Forall2 (fun b c => c_map st b = Some c) bl l).
  { induction l as [|c l IH]; intros HL; [exists []; split; [reflexivity|constructor]|].
    destruct IH as (bl & EB & FB); [intros x Hx; apply HL; right; auto|].
    destruct (O c (HL c (or_introl eq_refl))) as (b & Hb). exists (b :: bl). apply (w_blks _ _ _ W) in Hb. split; [|constructor; auto].
    cbn [map]. rewrite EB. f_equal. symmetry. unfold comp_blocks. apply sins_same.
    - intros x Hx. apply in_map_iff in Hx. destruct Hx as ([c' x'] & EX & Hx). cbn in EX. subst x'. apply filter_In in Hx.
      destruct Hx as [Hx Q]. cbn in Q. apply Nat.eqb_eq in Q. subst c'. apply (w_blks _ _ _ W) in Hx. eapply ONE; eauto.
    - intros K. apply (w_blks _ _ _ W) in Hb.
      assert (Hn : In b (map snd (filter (fun p => Nat.eqb (fst p) c) (c_blks st)))); [|rewrite K in Hn; destruct Hn].
      apply in_map_iff. exists (c, b). split; [reflexivity|]. apply filter_In. split; [exact Hb|]. cbn. apply Nat.eqb_refl. }
  destruct (BL order (fun c H => H)) as (bl & EB & FB). exists bl. split.
  { intros fuel. unfold heap_analysis. rewrite E, R, EB. reflexivity. }
  assert (VIS : forall b c, c_map st b = Some c -> In b (c_vis st)).
  { intros b c M. destruct (w_in _ _ _ W _ _ M) as [K|K]; [exact K|destruct (NSL _ _ K)]. }
  assert (FIND : forall bl0 l, Forall2 (fun b c => c_map st b = Some c) bl0 l -> forall b c, c_map st b = Some c -> In c l -> In b bl0).
  { induction 1 as [|b c bl0 l M F IH]; intros b' c' M' Hc; [destruct Hc|]. destruct Hc as [<-|Hc]; [left; eapply ONE; eauto|right; eauto]. }
  assert (BACK : forall bl0 l, Forall2 (fun b c => c_map st b = Some c) bl0 l -> forall b, In b bl0 -> exists c, c_map st b = Some c /\ In c l).
  { induction 1 as [|b c bl0 l M F IH]; intros b' Hb; [destruct Hb|]. destruct Hb as [<-|Hb]; [exists c; split; [auto|left; auto]|].
    destruct (IH b' Hb) as (c' & K1 & K2). exists c'. split; [auto|right; auto]. }
  split.
  { clear EB. revert SO. clear BL RO R O. induction FB as [|b c bl l M F IH]; intros SO; [exact I|].
    destruct SO as (K & N & SO). cbn [sorted]. split; [|split; [|apply IH; exact SO]].
    - intros t FT. destruct FT as (e & He & TE & IE & C1 & C2 & C3).
      destruct (DONE b (VIS b c M) e He) as (c1 & M1 & _ & H3). rewrite M in M1. injection M1 as <-.
      destruct (H3 C1 C2 C3 IE) as [VT KID]. rewrite TE in *. pose proof (w_vis _ _ _ W _ VT) as MT. destruct (c_map st t) as [ct|] eqn:ET; [|congruence].
      apply (FIND bl l F t ct ET). apply K. unfold comp_kids. rewrite (comp_in c_kids st c ct).
      apply KID; [reflexivity|]. intros <-. assert (b = t) by (eapply ONE; eauto). subst t.
      apply (ACYC b b); [|constructor]. exists e. repeat (split; [auto|]). auto.
    - intros Hb. destruct (BACK _ _ F b Hb) as (c' & M' & Hc). rewrite M in M'. injection M' as <-. contradiction. }
  split; [apply (FIND _ _ FB _ root ER RO)|].
  intros x Hx. destruct (BACK _ _ FB x Hx) as (c & M & _). apply V. eapply VIS; eauto.
Qed.

Lemma flow_sound fuel st : s_assume_unsafe s = false -> s_unknown_cf s = false -> one_call co fn ->
  heap_analysis co fn s hdst hsrc fuel = Some (HDone st) ->
  forall b i p, before co fn s hdst hsrc b i p -> In b blocks /\ forall x, nth_error (insns b) i = Some x ->
    exists c, vctx c /\ sound c p /\ trans b x c = Some (st b i).
Proof.
  intros A1 A2 O R. destruct (block_order A1 A2) as (bl & E & SO & EN & RE). rewrite E in R. injection R as R.
  destruct (blocks_solved fuel bl [] hst0 st SO EN RE) as (V & SOL); auto.
  { intros x j. apply vctx0. }
  { intros b []. }
  cbn [app] in SOL. assert (INB : forall x, In x bl -> In x blocks) by (intros x Hx; eapply flows_blocks; [apply INP|apply RE; exact Hx]).
  assert (POST : forall b i x p p', In b bl -> nth_error (insns b) i = Some x -> pstep co s hdst hsrc b x p p' ->
    (exists c, vctx c /\ sound c p /\ trans b x c = Some (st b i)) -> sound (st b i) p').
  { intros b i x p p' B N P (c & VC & S & T). eapply transfer_sound; eauto. }
  assert (K : forall b i p, before co fn s hdst hsrc b i p -> In b bl /\ forall x, nth_error (insns b) i = Some x ->
    exists c, vctx c /\ sound c p /\ trans b x c = Some (st b i)).
  { induction 1 as [p EP|b i x p p' H IH N P L|a b i x p p' H IH N L P F B].
    - split; [exact EN|]. intros x N. destruct (SOL _ EN) as (_ & _ & S3 & _). destruct (S3 eq_refl x N) as (c & VC & LC & T).
      exists c. split; [exact VC|]. split; [|exact T]. intros k. apply LC. apply entry_sound. exact EP.
    - destruct IH as [HB IH]. split; [exact HB|]. intros y Ny. destruct (SOL _ HB) as (_ & S2 & _). destruct (S2 i y Ny) as (c & VC & LC & T).
      exists c. split; [exact VC|]. split; [|exact T]. intros k. apply LC. eapply POST; eauto.
    - destruct IH as [HA IH]. assert (HB : In b bl) by (eapply sorted_closed; [exact SO|exact HA|apply hflow_flow; auto]).
      split; [exact HB|]. intros y Ny. assert (i = last_ix co a) by (unfold last_ix, h_insns; lia). subst i.
      destruct (SOL _ HB) as (_ & _ & _ & S4). destruct (S4 a HA F y Ny) as (c & VC & LC & T).
      exists c. split; [exact VC|]. split; [|exact T]. intros k. apply LC. eapply POST; eauto. }
  intros b i p H. destruct (K b i p H) as [HB Q]. auto.
Qed.
End FLOW.

(** Without the assumption of [C45_sound_partial] that the facts computed solve the flow
    equations: in a function without loops whose first instruction moves the stack pointer,
    they do.  Missing: functions with loops ([C45_loop_refuted]), functions that start
    otherwise ([C45_refuted]), and the values [C45_sound_partial] does not follow. *)
Theorem C45_loop_free_partial co fn s hdst hsrc fuel st : heap_input co fn ->
  s_assume_unsafe s = false -> s_unknown_cf s = false -> one_call co fn -> straight co fn hdst ->
  heap_analysis co fn s hdst hsrc fuel = Some (HDone st) ->
  forall b n i p, before co fn s hdst hsrc b n p -> nth_error (b_insns (co_block co b)) n = Some i ->
    (forall m j, nth_error (b_insns (co_block co b)) m = Some j -> i_addr j = i_addr i -> m = n) ->
    plain_write i -> classify co hdst st b (i_addr i) = Some HEAP ->
    p (HR (hdst i)) = PHeap \/ untracked (p (HR (hdst i))).
Proof.
  intros I A1 A2 O SR R b n i p H N U PW CL.
  destruct (flow_sound co fn s hdst hsrc I SR fuel st A1 A2 O R b n p H) as [B K]. destruct (K i N) as (c & VC & S & T).
  pose proof (plain_dst co s hdst hsrc b i c _ _ PW VC T (S _)) as Q.
  unfold classify in CL. rewrite (find_ctx_at co st b n i N U) in CL. destruct (hreg_eq_dec (hdst i) RNone); [discriminate|].
  injection CL as CL. apply cov_get in Q. rewrite CL in Q. destruct Q as [Q|Q]; auto.
Qed.
(** push; then allocate on one path and, on the other, allocate too or take the address of a
    local; then store to the result.  The store is a heap write only if both paths allocate. *)
Definition t_two (al : bool) (b : nat) : list edge :=
  match b with
  | 0 => [ct_e 1; cn_e 2] | 1 => if al then [alloc_e; ft_e 3] else [jmp_e 3] | 2 => [alloc_e; ft_e 3] | _ => [ret_e]
  end%nat.
Definition i_two (al : bool) (b : nat) : list insn :=
  match b with
  | 0 => [w_insn 100 OPush [RSP]; w_insn 104 OOther []]
  | 1 => [if al then call_insn 200 else lea_insn 200 RAX RSP]
  | 2 => [call_insn 300]
  | _ => [sto_insn 500 RAX RCX; w_insn 504 ORet [RSP]]
  end%nat.
Definition co_two (al : bool) : code :=
  mkCode [0]%nat (fun _ => mkFunc "f" 100 0 [0; 1; 2; 3]%nat [3]%nat [3]%nat [])
    (fun b => xblock b (t_two al b) (i_two al b)) (fun _ => [0]%nat) plt_link.
Lemma two_up al a b : flow (co_two al) a b -> (a < b)%nat.
Proof.
  intros (e & He & <- & F1 & F2 & F3 & F4). cbn [co_two co_block xblock b_targets] in He.
  destruct al, a as [|[|[|a]]]; cbn in He; repeat (destruct He as [<-|He]; [cbn in *; lia || congruence|]); contradiction.
Qed.
Lemma two_le al a b : flows (co_two al) a b -> (a <= b)%nat.
Proof. induction 1 as [|x y _ IH F]; [lia|]. apply two_up in F. lia. Qed.
Lemma two_input al : heap_input (co_two al) 0 /\ one_call (co_two al) 0 /\ straight (co_two al) 0 ex_dst.
Proof.
  assert (BL : forall b, In b (f_blocks (co_fun (co_two al) 0)) -> b = 0%nat \/ b = 1%nat \/ b = 2%nat \/ b = 3%nat) by (cbn; intros b H; intuition).
  split; [|split].
  - split; [|split; [intros l b []|intros b _; destruct b as [|[|[|b]]]; discriminate]].
    split; [cbn; auto|]. split; [|intros i j l l' b Hi; destruct i; discriminate].
    intros a t Ha (e & He & <- & F1 & F2 & F3 & F4). cbn [co_two co_block xblock b_targets] in He.
    destruct al, (BL a Ha) as [->|[->|[->| ->]]]; cbn in He; repeat (destruct He as [<-|He]; [cbn in *; auto 10; congruence|]); contradiction.
  - intros b e e' Hb H1 H2 T1 S1 T2 S2. cbn [co_two co_block xblock b_targets] in H1, H2.
    destruct al, (BL b Hb) as [->|[->|[->| ->]]]; cbn in H1, H2;
      repeat (destruct H1 as [<-|H1]; [repeat (destruct H2 as [<-|H2]; [discriminate || reflexivity|]); contradiction|]); contradiction.
  - split; [reflexivity|]. split; [intros a b F G; apply two_up in F; apply two_le in G; lia|]. split; [|split].
    + intros b e Hb He. cbn [co_two co_block xblock b_targets] in He.
      destruct al, (BL b Hb) as [->|[->|[->| ->]]]; cbn in He;
        repeat (destruct He as [<-|He]; [cbn; split; [discriminate|intros [K|K]; reflexivity || discriminate]|]); contradiction.
    + exists (w_insn 100 OPush [RSP]), P64. repeat split; discriminate || (cbn; auto).
    + intros b x Hb Hx (D & K). cbn [co_two co_block xblock b_insns] in Hx.
      destruct al, (BL b Hb) as [->|[->|[->| ->]]]; cbn in Hx; repeat (destruct Hx as [<-|Hx]; [cbn in D; discriminate|]); contradiction.
Qed.
Example C45_loop_free_case :
  heap_input (co_two true) 0 /\ one_call (co_two true) 0 /\ straight (co_two true) 0 ex_dst /\
  heap_analysis (co_two true) 0 summary0 ex_dst ex_src 100 = Some (HDone (run_heap (co_two true) summary0)) /\
  plain_write (sto_insn 500 RAX RCX) /\ classify (co_two true) ex_dst (run_heap (co_two true) summary0) 3 500 = Some HEAP /\
  straight (co_two false) 0 ex_dst /\ classify (co_two false) ex_dst (run_heap (co_two false) summary0) 3 500 = Some TOP.
Proof.
  split; [apply two_input|]. split; [apply two_input|]. split; [apply two_input|]. split; [reflexivity|].
  split; [repeat split; discriminate|]. split; [vm_compute; reflexivity|]. split; [apply two_input|vm_compute; reflexivity].
Qed.

(** Loops: the blocks of a component are taken in the order of their addresses in memory, and the
    first is the only one the work list starts with.  Here that is the body of a loop: it is
    analysed before the header, with no facts, changes none, and the analysis of the loop ends
    there.  What the function did before the loop is lost behind it, and a store to a local array
    is classified as a heap write.  The function starts with a push. *)
Definition t_late (b : nat) : list edge :=
  match b with
  | 0 => [ct_e 2; cn_e 4] | 1 => [jmp_e 2] | 2 => [ct_e 1; cn_e 5]
  | 4 => [alloc_e; ft_e 6] | 6 => [jmp_e 5] | _ => [ret_e]
  end%nat.
Definition i_late (b : nat) : list insn :=
  match b with
  | 0 => [w_insn 100 OPush [RSP]; lea_insn 104 RBX RSP]
  | 1 => [w_insn 200 OOther []]
  | 2 => [w_insn 300 OOther []]
  | 4 => [call_insn 400]
  | 6 => [mv_insn 600 RBX RAX]
  | _ => [sto_insn 500 RBX RCX; w_insn 504 ORet [RSP]]
  end%nat.
Definition co_late : code :=
  mkCode [0]%nat (fun _ => mkFunc "f" 100 0 [0; 1; 2; 4; 5; 6]%nat [5]%nat [5]%nat [[1; 2]%nat])
    (fun b => xblock b (t_late b) (i_late b)) (fun _ => [0]%nat) plt_link.
Lemma late_input : heap_input co_late 0.
Proof.
  split; [|split].
  - split; [cbn; auto|]. split.
    + intros a t _ (e & He & <- & F1 & F2 & F3 & F4). cbn [co_late co_block xblock b_targets] in He.
      destruct a as [|[|[|[|[|[|[|a]]]]]]]; cbn in He; repeat (destruct He as [<-|He]; [cbn in *; auto 10; congruence|]); contradiction.
    + intros i j l l' b Hi Hj _ _. cbn in Hi, Hj. destruct i as [|[|i]], j as [|[|j]]; auto; discriminate.
  - intros l b [<-|[]] Hb. cbn in *. intuition.
  - intros b _. cbn. destruct b as [|[|[|[|[|[|[|b]]]]]]]; discriminate.
Qed.
Theorem C45_loop_refuted : exists co fn s hdst hsrc st b n i p,
  heap_input co fn /\ heap_analysis co fn s hdst hsrc 100 = Some (HDone st) /\
  (* the first instruction moves the stack pointer *)
  (exists x pt, nth_error (b_insns (co_block co (f_entry (co_fun co fn)))) 0 = Some x /\ In (MG RSP pt) (i_written x) /\ i_op x = OPush) /\
  (* the only loop is a cycle *)
  (exists a c, f_loops (co_fun co fn) = [[a; c]] /\ flow co a c /\ flow co c a) /\
  before co fn s hdst hsrc b n p /\ nth_error (b_insns (co_block co b)) n = Some i /\ plain_write i /\
  classify co hdst st b (i_addr i) = Some HEAP /\
  (* the base register holds a pointer derived from the stack pointer *)
  p (HR (hdst i)) = POther.
Proof.
  exists co_late, 0%nat, summary0, ex_dst, ex_src, (run_heap co_late summary0), 5%nat, 0%nat, (sto_insn 500 RBX RCX).
  set (p1 := pset p0 (HG RSP) POther). set (p2 := pset p1 (HG RBX) POther). exists p2.
  assert (B0 : before co_late 0 summary0 ex_dst ex_src 0 0 p0).
  { apply be_entry. intros [[r|n|]|h]; reflexivity. }
  assert (B1 : before co_late 0 summary0 ex_dst ex_src 0 1 p1).
  { eapply be_next; [exact B0|reflexivity| |cbn; lia]. apply pset_but. }
  assert (B2 : before co_late 0 summary0 ex_dst ex_src 2 0 p2).
  { eapply be_edge; [exact B1|reflexivity|reflexivity| | |cbn; auto 10].
    - cbn. split; [apply pset_but|reflexivity].
    - exists (ct_e 2). cbn. repeat split; auto; discriminate. }
  assert (B5 : before co_late 0 summary0 ex_dst ex_src 5 0 p2).
  { eapply be_edge; [exact B2|reflexivity|reflexivity| | |cbn; auto 10].
    - intros k _. reflexivity.
    - exists (cn_e 5). cbn. repeat split; auto; discriminate. }
  split; [apply late_input|]. split; [reflexivity|]. split; [exists (w_insn 100 OPush [RSP]), P64; cbn; auto|]. split.
  { exists 1%nat, 2%nat. split; [reflexivity|]. split; [exists (jmp_e 2)|exists (ct_e 1)]; cbn; repeat split; auto; discriminate. }
  split; [exact B5|]. split; [reflexivity|]. split; [repeat split; discriminate|]. split; [vm_compute; reflexivity|reflexivity].
Qed.
Print Assumptions C45_loop_free_partial.
Print Assumptions C45_loop_refuted.

(** ** C43: comparing *)
(** Two abstract locations are the same: of the same kind and, on the stack, at the same height
    and pointing to the same. *)
Inductive same_loc : aloc -> aloc -> Prop :=
| sl_slot h : same_loc (AL STACK h None) (AL STACK h None)
| sl_point h q q' : same_loc q q' -> same_loc (AL STACK h (Some q)) (AL STACK h (Some q'))
| sl_other t h h' p p' : t <> STACK -> same_loc (AL t h p) (AL t h' p').
(** The registers, and the slots that instructions of the function access *)
Definition named (co : code) (fn : nat) (s : summary) (hdst hsrc : insn -> hreg) (k : hloc) : Prop :=
  (exists r, k = HG r) \/ k = HR RNone \/
  exists b i, In b (f_blocks (co_fun co fn)) /\ In i (b_insns (co_block co b)) /\
    (k = HR (hdst i) \/ k = HR (hsrc i) \/
     exists h h', zfind (s_stack_heights s) (i_addr i) = Some (h, h') /\ (k = HS h \/ k = HS h')).
Lemma lty_eqb_iff a b : lty_eqb a b = true <-> a = b.
Proof. unfold lty_eqb. destruct (lty_eq_dec a b); split; congruence. Qed.
Lemma same_aeqb a b : same_loc a b -> aeqb a b = true.
Proof.
  induction 1 as [h|h q q' H IH|t h h' p p' N]; cbn [aeqb].
  - rewrite Z.eqb_refl. reflexivity.
  - rewrite Z.eqb_refl, IH. reflexivity.
  - rewrite (proj2 (lty_eqb_iff t t) eq_refl). destruct (lty_eqb t STACK) eqn:T; [apply lty_eqb_iff in T; contradiction|reflexivity].
Qed.
Fixpoint aeqb_same' (a b : aloc) {struct a} : aeqb a b = true -> same_loc a b.
Proof.
  destruct a as [t h p], b as [t' h' p']. cbn [aeqb]. intros E. apply andb_true_iff in E. destruct E as [TT H].
  apply lty_eqb_iff in TT. destruct (lty_eqb t STACK) eqn:T.
  - apply lty_eqb_iff in T. apply andb_true_iff in H. destruct H as [H K]. apply Z.eqb_eq in H.
    destruct p as [q|], p' as [q'|]; try discriminate.
    + pose proof (aeqb_same' q q' K) as S. subst. apply sl_point. exact S.
    + subst. apply sl_slot.
  - assert (N : t <> STACK) by (intros ->; discriminate). rewrite <- TT. apply sl_other. exact N.
Qed.
Lemma aeqb_same a b : aeqb a b = true <-> same_loc a b.
Proof. split; [apply aeqb_same'|apply same_aeqb]. Qed.
Lemma flat_same a b : vflat a -> vflat b -> aeqb a b = true -> a = b.
Proof.
  intros [_ A] [_ B] E. apply aeqb_same in E. assert (T : a_ty a = a_ty b) by (inversion E; reflexivity).
  rewrite A, B, T. reflexivity.
Qed.
Lemma val_same k a b : vval k a -> vval k b -> (aeqb a b = true <-> a = b).
Proof.
  intros A B. split.
  - destruct k as [r|h]; cbn [vval] in *; [apply flat_same; assumption|].
    destruct a as [t h1 p], b as [t' h2 p'], A as (A1 & A2 & A3), B as (B1 & B2 & B3). cbn in *. subst.
    cbn [lty_eqb]. rewrite Z.eqb_refl. cbn. destruct p as [q|], p' as [q'|]; try discriminate; [|reflexivity].
    intros E. rewrite (flat_same q q' A3 B3 E). reflexivity.
  - intros <-. apply aeqb_same. destruct k as [r|h]; cbn [vval] in *.
    + destruct A as [N _]. destruct a as [t h p]. apply sl_other. exact N.
    + destruct a as [t h1 p], A as (A1 & _ & A3). cbn in *. subst t. destruct p as [q|]; [|apply sl_slot]. apply sl_point.
      destruct A3 as [N _]. destruct q. apply sl_other. exact N.
Qed.
Lemma keys_named co fn s hdst hsrc k : In k (hkeys co fn s hdst hsrc) <-> named co fn s hdst hsrc k.
Proof.
  unfold hkeys, named. rewrite in_app_iff, in_map_iff. cbn [In]. rewrite in_flat_map. split.
  - intros [(r & <- & _)|[<-|(b & Hb & H)]]; [left; eauto|right; left; reflexivity|]. right. right.
    apply in_flat_map in H. destruct H as (i & Hi & H). exists b, i. split; [exact Hb|]. split; [exact Hi|].
    unfold insn_keys, heights in H. cbn [app In] in H. destruct H as [<-|[<-|H]]; auto. right. right.
    destruct (zfind (s_stack_heights s) (i_addr i)) as [[h h']|]; [|destruct H]. exists h, h'. split; [reflexivity|].
    destruct H as [<-|[<-|[]]]; auto.
  - intros [(r & ->)|[->|(b & i & Hb & Hi & H)]]; [left; exists r; split; [reflexivity|]; destruct r; cbn; auto 20|auto|].
    right. right. exists b. split; [exact Hb|]. apply in_flat_map. exists i. split; [exact Hi|].
    unfold insn_keys, heights. cbn [app In]. destruct H as [->|[->|(h & h' & -> & H)]]; auto.
    right. right. destruct H as [->| ->]; cbn; auto.
Qed.
(** Contexts as the analysis stores them compare equal if and only if they hold the same for
    every register and every slot accessed; [C43_stored] says that these are all that is stored. *)
Theorem C43_equal :
  (forall a b, aeqb a b = true <-> same_loc a b) /\
  (forall co fn s hdst hsrc c d, vctx c -> vctx d ->
     (ctx_eqb (hkeys co fn s hdst hsrc) c d = true <-> forall k, named co fn s hdst hsrc k -> c k = d k)).
Proof.
  split; [exact aeqb_same|]. intros co fn s hdst hsrc c d C D. unfold ctx_eqb. rewrite forallb_forall.
  assert (K : forall k, opt_eqb (c k) (d k) = true <-> c k = d k).
  { intros k. pose proof (C k) as CK. pose proof (D k) as DK. destruct (c k) as [a|], (d k) as [b|]; cbn [opt_eqb vopt] in *.
    - rewrite (val_same k a b CK DK). split; congruence.
    - split; discriminate.
    - split; discriminate.
    - split; reflexivity. }
  split; intros H k Hk; apply K, H, keys_named, Hk.
Qed.
Example C43_equal_case : same_loc (AL STACK (-8) (Some (flat HEAP))) (AL STACK (-8) (Some (flat HEAP))) /\
  ~ same_loc (AL STACK (-8) (Some (flat HEAP))) (AL STACK (-8) None) /\ vctx hctx0 /\ vctx (hset hctx0 (HG RSP) a_top) /\
  ctx_eqb (hkeys (co_two true) 0 summary0 ex_dst ex_src) hctx0 (hset hctx0 (HG RSP) a_top) = false.
Proof.
  split; [apply aeqb_same; reflexivity|]. split; [intros H; inversion H; congruence|]. split; [apply vctx0|].
  split; [|vm_compute; reflexivity]. intros k. unfold hset. destruct (hloc_eq_dec k (HG RSP)) as [->|]; [split; [discriminate|reflexivity]|apply vctx0].
Qed.
Print Assumptions C43_equal.
