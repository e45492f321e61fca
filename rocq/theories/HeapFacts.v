(** * HeapFacts: abstract locations, and termination of the work list *)
From Coq Require Import ZArith Bool Lia ZifyBool ZifyNat Arith String List.
From Verif Require Import Machine Jit Dfs Binary Reach Components Heap.
Import ListNotations.
Open Scope Z_scope.

(** ** Values the analysis stores *)
Definition vflat (a : aloc) : Prop := a_ty a <> STACK /\ a = flat (a_ty a).
Definition vstk (h : Z) (a : aloc) : Prop :=
  a_ty a = STACK /\ a_ht a = h /\ match a_pt a with None => True | Some q => vflat q end.
Definition vval (k : hloc) (a : aloc) : Prop := match k with HR _ => vflat a | HS h => vstk h a end.
Definition vopt (k : hloc) (o : option aloc) : Prop := match o with None => True | Some a => vval k a end.
Definition vctx (c : hctx) : Prop := forall k, vopt k (c k).

Lemma vflat_inv a : vflat a ->
  a = flat HEAP \/ a = flat ARG \/ a = flat HEAP_OR_ARG \/ a = flat TOP \/ a = flat BOTTOM.
Proof. intros [N E]. destruct (a_ty a) eqn:T; rewrite E; auto. congruence. Qed.
Lemma vflat_flat t : t <> STACK -> vflat (flat t).
Proof. split; auto. Qed.
Lemma vstk_inv h a : vstk h a -> exists p, a = AL STACK h p /\ match p with None => True | Some q => vflat q end.
Proof. destruct a as [t h' p]. intros (T & H & P). cbn in *. subst. eauto. Qed.

Ltac flats := repeat match goal with H : vflat ?a |- _ =>
  apply vflat_inv in H; destruct H as [H|[H|[H|[H|H]]]]; subst a end.

(** Rank of a value: it grows while the analysis runs *)
Definition lrank (t : lty) : nat :=
  match t with BOTTOM => 1 | HEAP | ARG => 2 | HEAP_OR_ARG => 3 | TOP => 4 | STACK => 0 end.
Definition lle (t t' : lty) : bool :=
  lty_eqb t t' || (lrank t <? lrank t')%nat.
Definition ale (a b : aloc) : bool :=
  match a_ty a, a_ty b with
  | STACK, STACK => match a_pt a, a_pt b with
                    | _, None => true
                    | None, Some _ => false
                    | Some p, Some q => lle (a_ty p) (a_ty q)
                    end
  | t, t' => lle t t'
  end.
Definition ole (a b : option aloc) : bool :=
  match a, b with None, _ => true | Some x, Some y => ale x y | Some _, None => false end.
Definition arank (a : aloc) : nat :=
  match a_ty a with
  | STACK => match a_pt a with None => 5 | Some q => lrank (a_ty q) end
  | t => lrank t
  end.
Definition orank (o : option aloc) : nat := match o with None => 0 | Some a => arank a end.

Lemma assign_flat a : vflat a -> assign a = Some a.
Proof. intros H. flats; reflexivity. Qed.
Lemma assign_stk h a : vstk h a -> assign a = Some a.
Proof.
  intros H. apply vstk_inv in H. destruct H as ([q|] & -> & P); cbn; auto. unfold assign. cbn. flats; reflexivity.
Qed.
Lemma meet_flat a b : vflat a -> vflat b ->
  exists m, meet a b = Some m /\ vflat m /\ ale a m = true /\ ale b m = true.
Proof.
  intros A B. flats; eexists; (split; [reflexivity|]); (split; [apply vflat_flat; discriminate|split; reflexivity]).
Qed.
Lemma point_flat h a : vstk h a -> vflat (point_to a).
Proof. intros H. apply vstk_inv in H. destruct H as ([q|] & -> & P); cbn; auto. apply vflat_flat. discriminate. Qed.
Lemma meet_stk_eq h p b : vstk h b -> meet (AL STACK h p) b =
  match p with
  | None => Some (AL STACK h p)
  | Some q => match meet q (point_to b) with Some q' => Some (AL STACK h (Some q')) | None => None end
  end.
Proof.
  intros H. apply vstk_inv in H. destruct H as (p' & -> & _). cbn [meet a_ty a_ht].
  unfold lty_eqb. cbn. rewrite Z.eqb_refl. reflexivity.
Qed.
Lemma ale_ty a b : vflat a -> vflat b -> ale a b = lle (a_ty a) (a_ty b).
Proof. intros A B. flats; reflexivity. Qed.
Lemma meet_stk h a b : vstk h a -> vstk h b ->
  exists m, meet a b = Some m /\ vstk h m /\ ale a m = true.
Proof.
  intros A B. pose proof (point_flat _ _ B) as PB. apply vstk_inv in A. destruct A as (p & -> & P).
  rewrite meet_stk_eq by auto. destruct p as [q|].
  - destruct (meet_flat q (point_to b) P PB) as (m & -> & V & L & _). eexists. split; [reflexivity|].
    split; [repeat split; auto; apply V|]. cbn. rewrite <- ale_ty; auto.
  - eexists. split; [reflexivity|]. split; [repeat split; auto|reflexivity].
Qed.
Lemma ale_refl k a : vval k a -> ale a a = true.
Proof.
  destruct k; cbn.
  - intros H. flats; reflexivity.
  - intros H. apply vstk_inv in H. destruct H as ([q|] & -> & P); cbn; auto. flats; reflexivity.
Qed.
Lemma lle_trans a b c : lle a b = true -> lle b c = true -> lle a c = true.
Proof. destruct a, b, c; cbn; auto. Qed.
Lemma ale_trans k a b c : vval k a -> vval k b -> vval k c ->
  ale a b = true -> ale b c = true -> ale a c = true.
Proof.
  destruct k; cbn [vval].
  - intros A B C. rewrite !ale_ty by auto. apply lle_trans.
  - intros A B C. apply vstk_inv in A, B, C. destruct A as (p & -> & _), B as (q & -> & _), C as (r & -> & _).
    cbn. destruct p, q, r; cbn; auto; try discriminate. apply lle_trans.
Qed.
Lemma ole_trans k a b c : vopt k a -> vopt k b -> vopt k c ->
  ole a b = true -> ole b c = true -> ole a c = true.
Proof. destruct a, b, c; cbn; auto; try discriminate. apply ale_trans. Qed.
Lemma ole_refl k a : vopt k a -> ole a a = true.
Proof. destruct a; cbn; auto. apply ale_refl. Qed.
Lemma ale_top k a b : vval k a -> vval k b -> a_ty b = TOP \/ (a_ty b = STACK /\ a_pt b = None) -> ale a b = true.
Proof.
  destruct k; cbn [vval].
  - intros A B T. flats; cbn in T; destruct T as [T|[T _]]; try discriminate; reflexivity.
  - intros A B T. apply vstk_inv in A, B. destruct A as (p & -> & _), B as (q & -> & _). cbn in *.
    destruct T as [T|[_ T]]; [discriminate|]. subst q. destruct p; reflexivity.
Qed.
(** A change under operator== is a growth in rank. *)
Lemma grow k a b : vopt k a -> vopt k b -> ole a b = true ->
  (orank a <= orank b)%nat /\ (opt_eqb a b = false -> orank a < orank b)%nat.
Proof.
  destruct a as [a|], b as [b|]; cbn [vopt ole orank opt_eqb]; try discriminate.
  - destruct k; cbn [vval].
    + intros A B. flats; cbn; intros; split; try lia; discriminate.
    + intros A B. apply vstk_inv in A, B. destruct A as (p & -> & P), B as (q & -> & Q).
      cbn. rewrite Z.eqb_refl. cbn.
      destruct p as [p|], q as [q|]; try discriminate.
      * cbn. flats; cbn; intros; split; try lia; discriminate.
      * intros _. flats; cbn; split; intros; lia.
      * intros _. split; [lia|discriminate].
  - intros _ B _. assert (0 < arank b)%nat; [|lia]. destruct k; cbn [vval] in B.
    + flats; cbn; lia.
    + apply vstk_inv in B. destruct B as ([q|] & -> & Q); cbn; [flats; cbn; lia|lia].
  - intros _ _ _. split; [lia|discriminate].
Qed.
Lemma orank_le k a : vopt k a -> (orank a <= 5)%nat.
Proof.
  destruct a as [a|]; cbn; [|lia]. destruct k; cbn.
  - intros A. flats; cbn; lia.
  - intros A. apply vstk_inv in A. destruct A as ([q|] & -> & Q); cbn; [flats; cbn; lia|lia].
Qed.

(** ** Contexts *)
Lemma hset_same c k v : hset c k v k = Some v.
Proof. unfold hset. destruct (hloc_eq_dec k k); congruence. Qed.
Lemma hset_other c k v k' : k' <> k -> hset c k v k' = c k'.
Proof. unfold hset. destruct (hloc_eq_dec k' k); congruence. Qed.
Lemma hget_set2 c a b v : hget (hset (hset c a v) b v) a = v.
Proof. unfold hget, hset. destruct (hloc_eq_dec a b); auto. destruct (hloc_eq_dec a a); congruence. Qed.
Lemma hget_set1 c a b : hget (hset c b (hget c a)) a = hget c a.
Proof. unfold hget at 1. unfold hset. destruct (hloc_eq_dec a b); auto. Qed.
Lemma vctx_set c k v : vctx c -> vval k v -> vctx (hset c k v).
Proof. intros V H k'. unfold hset. destruct (hloc_eq_dec k' k); subst; [auto|apply V]. Qed.
Lemma vctx0 : vctx hctx0.
Proof. intros [[]|]; cbn; auto; apply vflat_flat; discriminate. Qed.
Lemma hget_v c r : vctx c -> vflat (hget c (HR r)).
Proof.
  intros V. unfold hget. pose proof (V (HR r)) as H. destruct (c (HR r)); cbn in H; auto.
  apply vflat_flat. discriminate.
Qed.
Lemma vtop r : vval (HR r) a_top.
Proof. apply vflat_flat. discriminate. Qed.
Lemma meet_opt_v k a b : vopt k a -> vopt k b ->
  exists m, meet_opt a b = Some m /\ vopt k m /\ ole a m = true.
Proof.
  destruct a as [a|], b as [b|]; cbn [vopt meet_opt]; intros A B.
  - destruct k; cbn [vval] in *.
    + destruct (meet_flat a b A B) as (m & -> & V & L & _). exists (Some m). auto.
    + destruct (meet_stk _ a b A B) as (m & -> & V & L). exists (Some m). auto.
  - exists (Some a). split; auto. split; auto. eapply (ole_refl k). exact A.
  - exists (Some b). auto.
  - exists None. auto.
Qed.
Lemma meet_ctx_v U c d : vctx c -> vctx d ->
  exists m, meet_ctx U c d = Some m /\ vctx m /\ forall k, ole (c k) (m k) = true.
Proof.
  intros C D. unfold meet_ctx. assert (E : meet_ok U c d = true).
  { apply forallb_forall. intros k _. destruct (meet_opt_v k (c k) (d k) (C k) (D k)) as (m & -> & _). auto. }
  rewrite E. eexists. split; [reflexivity|]. split.
  - intros k. unfold meet_val. destruct (meet_opt_v k (c k) (d k) (C k) (D k)) as (m & -> & V & _). auto.
  - intros k. unfold meet_val. destruct (meet_opt_v k (c k) (d k) (C k) (D k)) as (m & -> & _ & L). auto.
Qed.

(** ** Transfer functions *)
Section FACTS.
Variable co : code.
Variable fn : nat.
Variable s : summary.
Variables hdst hsrc : insn -> hreg.
Notation trans := (transfer co s hdst hsrc).
Notation hts := (heights s).

(** What a context that was the result of the transfer function, or was never
    processed, satisfies. *)
Definition ptq (o : option aloc) : aloc := match o with None => a_bot | Some a => point_to a end.
Definition canon (h : Z) (v : aloc) : aloc :=
  if aeqb v a_top then AL STACK h None else AL STACK h (Some v).
Definition post_ok (b : nat) (i : insn) (c : hctx) : Prop :=
  match i_op i with
  | OMov =>
      if hreg_eq_dec (hdst i) RNone then True
      else if i_rmem i then
        match hts i with
        | Some (h, _) => ole (c (HR (hdst i))) (Some (ptq (c (HS h)))) = true
        | None => True
        end
      else if i_wmem i then
        match hts i with
        | Some (_, h) => ole (c (HS h)) (Some (canon h (hget c (HR (hsrc i))))) = true
        | None => True
        end
      else if hreg_eq_dec (hsrc i) RNone then True
      else ole (c (HR (hdst i))) (Some (hget c (HR (hsrc i)))) = true
  | OCall => ole (c (HG RAX)) (Some (if allocates co b then flat HEAP else a_top)) = true
  | OLea => if is_gpr (hsrc i) && is_gpr (hdst i) then ole (c (HR (hdst i))) (Some (hget c (HR (hsrc i)))) = true else True
  | _ => True
  end.

Lemma post_ok0 b i : post_ok b i hctx0.
Proof.
  assert (Q : forall x y, ole (hctx0 (HR x)) (Some (hget hctx0 (HR y))) = true).
  { intros x y. destruct x, y; reflexivity. }
  unfold post_ok. destruct (i_op i); auto.
  - destruct (hreg_eq_dec (hdst i) RNone); auto. destruct (i_rmem i).
    { destruct (hts i) as [[h ?]|]; auto. destruct (hdst i); reflexivity. }
    destruct (i_wmem i).
    { destruct (hts i) as [[? h]|]; auto. }
    destruct (hreg_eq_dec (hsrc i) RNone); auto.
  - destruct (_ && _); auto.
  - destruct (allocates co b); reflexivity.
Qed.

Lemma tops_v rs : forall c, vctx c -> vctx (fold_left (fun c r => hset c (HG r) a_top) rs c).
Proof. induction rs as [|r rs IH]; cbn; intros c V; auto. apply IH, vctx_set; auto using vtop. Qed.
Lemma tops_at rs : forall c k, fold_left (fun c r => hset c (HG r) a_top) rs c k =
  if existsb (fun r => if hloc_eq_dec k (HG r) then true else false) rs then Some a_top else c k.
Proof.
  induction rs as [|r rs IH]; cbn; intros c k; auto. rewrite IH. unfold hset.
  destruct (hloc_eq_dec k (HG r)); cbn; auto. destruct (existsb _ _); auto.
Qed.
Lemma set_point_v h a v : vstk h a -> vflat v -> set_point a v = Some (canon h v).
Proof.
  intros A V. apply vstk_inv in A. destruct A as (p & -> & _). unfold set_point, canon. cbn [a_ty a_ht].
  rewrite (assign_flat v V). destruct (aeqb v a_top); reflexivity.
Qed.
Lemma canon_v h v : vflat v -> vstk h (canon h v).
Proof. intros V. unfold canon. destruct (aeqb v a_top); repeat split; auto; apply V. Qed.
Lemma canon_mono h v w : vflat v -> vflat w -> ale v w = true -> ale (canon h v) (canon h w) = true.
Proof. intros V W. flats; cbn; auto. Qed.
Lemma ensure_v c h : vctx c -> vctx (ensure c h).
Proof. intros V. unfold ensure. destruct (c (HS h)); auto. apply vctx_set; auto. repeat split. Qed.
Lemma ensure_reg c h r : ensure c h (HR r) = c (HR r).
Proof. unfold ensure. destruct (c (HS h)); [reflexivity|]. apply hset_other. discriminate. Qed.
Lemma ensure_stk c h : vctx c -> exists a, ensure c h (HS h) = Some a /\ vstk h a /\
  (c (HS h) = None \/ c (HS h) = Some a).
Proof.
  intros V. unfold ensure. pose proof (V (HS h)) as H. destruct (c (HS h)) as [a|] eqn:E; cbn in H.
  - exists a. auto.
  - exists (stack_loc h). rewrite hset_same. split; auto. split; auto. repeat split.
Qed.
Lemma ensure_le c h k : vctx c -> ole (c k) (ensure c h k) = true.
Proof.
  intros V. unfold ensure. destruct (c (HS h)) eqn:E; [eapply ole_refl, V|]. unfold hset.
  destruct (hloc_eq_dec k (HS h)); [subst; rewrite E; reflexivity|eapply ole_refl, V].
Qed.
Lemma oget c d r : vctx c -> vctx d -> ole (c (HR r)) (d (HR r)) = true ->
  ale (hget c (HR r)) (hget d (HR r)) = true.
Proof.
  intros C D H. unfold hget. pose proof (C (HR r)) as X. pose proof (D (HR r)) as Y.
  destruct (c (HR r)), (d (HR r)); cbn in *; try discriminate; auto.
  flats; reflexivity.
Qed.
Lemma ptq_mono h a b : vopt (HS h) a -> vopt (HS h) b -> ole a b = true -> ale (ptq a) (ptq b) = true.
Proof.
  intros A B L. destruct a as [a|], b as [b|]; cbn in *; try discriminate; auto.
  - apply vstk_inv in A, B. destruct A as ([p|] & -> & P), B as ([q|] & -> & Q); cbn in L |- *; try discriminate;
      flats; auto.
  - apply point_flat in B. revert B. generalize (point_to b). intros x B. flats; reflexivity.
Qed.
Lemma ptq_v h a : vopt (HS h) a -> vflat (ptq a).
Proof. destruct a; cbn; [apply point_flat|intros _; apply vflat_flat; discriminate]. Qed.

(** The transfer functions succeed, keep the invariant and do not shrink a context
    that was grown from a processed one. *)
Lemma transfer_ok b i c0 c : vctx c0 -> vctx c -> (forall k, ole (c0 k) (c k) = true) -> post_ok b i c0 ->
  exists c', trans b i c = Some c' /\ vctx c' /\ post_ok b i c' /\ (forall k, ole (c0 k) (c' k) = true).
Proof.
  intros V0 V L P.
  assert (UNK : exists c', Some (t_unknown i c) = Some c' /\ vctx c' /\ (forall k, ole (c0 k) (c' k) = true)).
  { eexists. split; [reflexivity|]. split; [apply tops_v; auto|]. intros k. unfold t_unknown. rewrite tops_at.
    destruct (existsb _ _) eqn:E; [|apply L]. apply existsb_exists in E. destruct E as (r & _ & E).
    destruct (hloc_eq_dec k (HG r)) as [->|]; [|discriminate]. pose proof (V0 (HG r)) as X.
    destruct (c0 (HG r)); cbn in X |- *; auto. eapply (ale_top (HG r)); auto. apply vtop. }
  assert (COPY : forall d r, ole (c0 (HR d)) (Some (hget c0 (HR r))) = true ->
     vctx (hset (hset c (HR r) (hget c (HR r))) (HR d) (hget c (HR r))) /\
     (forall k, ole (c0 k) (hset (hset c (HR r) (hget c (HR r))) (HR d) (hget c (HR r)) k) = true)).
  { intros d r Q. split; [repeat apply vctx_set; auto; apply hget_v; auto|]. intros k.
    pose proof (oget c0 c r V0 V (L _)) as O.
    assert (D : ole (c0 (HR d)) (Some (hget c (HR r))) = true).
    { eapply (ole_trans (HR d)); [apply V0| | |exact Q|exact O]; cbn; apply hget_v; auto. }
    unfold hset at 1. destruct (hloc_eq_dec k (HR d)) as [->|N]; auto.
    unfold hset. destruct (hloc_eq_dec k (HR r)) as [->|N']; [|apply L].
    unfold hget in *. pose proof (V0 (HR r)) as X. destruct (c0 (HR r)); cbn; auto. }
  unfold transfer, post_ok in *. destruct (i_op i) eqn:OP;
    try (destruct UNK as (c' & E & A & B); exists c'; auto; fail).
  - (* mov *)
    unfold t_mov. destruct (hreg_eq_dec (hdst i) RNone) as [DN|DN]; [exists c; auto|].
    destruct (i_rmem i).
    { destruct (hts i) as [[h h2]|] eqn:HT.
      - destruct (ensure_stk c h V) as (a & EA & VA & OA). unfold hget. rewrite EA.
        pose proof (point_flat _ _ VA) as PF. rewrite (assign_flat _ PF). eexists. split; [reflexivity|].
        split; [apply vctx_set; auto; apply ensure_v; auto|]. split.
        + rewrite hset_same, hset_other by discriminate. rewrite EA. cbn. eapply (ale_refl (HR RNone)). exact PF.
        + intros k. unfold hset. destruct (hloc_eq_dec k (HR (hdst i))) as [->|N].
          * eapply (ole_trans (HR (hdst i))); [apply V0| |exact PF|exact P|].
            { cbn. apply (ptq_v h). apply V0. }
            change (point_to a) with (ptq (Some a)). cbn [ole]. apply (ptq_mono h); [apply V0|exact VA|].
            pose proof (L (HS h)) as LH. destruct OA as [OA|OA].
            { rewrite OA in LH. destruct (c0 (HS h)); [discriminate|reflexivity]. }
            { rewrite OA in LH. exact LH. }
          * eapply (ole_trans k); [apply V0|apply V|apply ensure_v; auto|apply L|apply ensure_le; auto].
      - eexists. split; [reflexivity|]. split; [apply vctx_set; auto using vtop|]. split; auto.
        intros k. unfold hset. destruct (hloc_eq_dec k (HR (hdst i))) as [->|N]; [|apply L].
        pose proof (V0 (HR (hdst i))) as X. destruct (c0 (HR (hdst i))); cbn in X |- *; auto.
        eapply (ale_top (HR RNone)); auto. apply vtop. }
    destruct (i_wmem i).
    { destruct (hts i) as [[h2 h]|] eqn:HT; [|exists c; auto].
      destruct (ensure_stk c h V) as (a & EA & VA & OA).
      set (v := hget (ensure c h) (HR (hsrc i))).
      assert (EV : v = hget c (HR (hsrc i))) by (unfold v, hget; rewrite ensure_reg; reflexivity).
      assert (VV : vflat v) by (rewrite EV; apply hget_v; auto).
      unfold hget at 1. rewrite hset_other by discriminate. rewrite EA, (set_point_v h a v VA VV).
      eexists. split; [reflexivity|].
      split. { repeat apply vctx_set; auto; [apply ensure_v; auto|apply canon_v; auto]. }
      split.
      + rewrite hset_same. cbn [ole]. unfold hget. rewrite hset_other by discriminate. rewrite hset_same.
        eapply (ale_refl (HS h)). apply canon_v; auto.
      + intros k. unfold hset at 1. destruct (hloc_eq_dec k (HS h)) as [->|N].
        * eapply (ole_trans (HS h)); [apply V0| | |exact P|]; [apply canon_v, hget_v; auto|apply canon_v; auto|].
          cbn [ole]. apply canon_mono; [apply hget_v; auto|auto|]. rewrite EV. apply oget; auto.
        * unfold hset. destruct (hloc_eq_dec k (HR (hsrc i))) as [->|N'].
          { pose proof (oget c0 c (hsrc i) V0 V (L _)) as O. rewrite <- EV in O. unfold hget in O at 1.
            destruct (c0 (HR (hsrc i))); cbn; auto. }
          { eapply (ole_trans k); [apply V0|apply V|apply ensure_v; auto|apply L|apply ensure_le; auto]. } }
    destruct (hreg_eq_dec (hsrc i) RNone) as [SN|SN].
    { eexists. split; [reflexivity|]. split; [apply vctx_set; auto using vtop|]. split; auto.
      intros k. unfold hset. destruct (hloc_eq_dec k (HR (hdst i))) as [->|N]; [|apply L].
      pose proof (V0 (HR (hdst i))) as X. destruct (c0 (HR (hdst i))); cbn in X |- *; auto.
      eapply (ale_top (HR RNone)); auto. apply vtop. }
    pose proof (hget_v c (hsrc i) V) as VV. rewrite (assign_flat _ VV).
    destruct (COPY (hdst i) (hsrc i) P) as (A & B). eexists. split; [reflexivity|]. split; auto. split; auto.
    rewrite hset_same, hget_set2. apply (ale_refl (HR RNone)); auto.
  - (* lea *)
    unfold t_lea. destruct (is_gpr (hsrc i) && is_gpr (hdst i)).
    + pose proof (hget_v c (hsrc i) V) as VV. rewrite (assign_flat _ VV). eexists. split; [reflexivity|].
      split; [apply vctx_set; auto|]. split.
      * rewrite hset_same, hget_set1. apply (ale_refl (HR RNone)); auto.
      * intros k. unfold hset. destruct (hloc_eq_dec k (HR (hdst i))) as [->|N]; [|apply L].
        eapply (ole_trans (HR (hdst i))); [apply V0| | |exact P|]; [cbn; apply hget_v; auto|exact VV|].
        cbn [ole]. apply oget; auto.
    + destruct UNK as (c' & E & A & B). exists c'. auto.
  - (* call *)
    eexists. split; [reflexivity|]. unfold t_call. split; [|split].
    + apply vctx_set; [apply tops_v; auto|]. destruct (allocates co b); apply vflat_flat; discriminate.
    + rewrite hset_same. destruct (allocates co b); reflexivity.
    + intros k. unfold hset. destruct (hloc_eq_dec k (HG RAX)) as [->|N]; [exact P|]. rewrite tops_at.
      destruct (existsb _ _) eqn:E; [|apply L]. apply existsb_exists in E. destruct E as (r & _ & E).
      destruct (hloc_eq_dec k (HG r)) as [->|]; [|discriminate]. pose proof (V0 (HG r)) as X.
      destruct (c0 (HG r)); cbn in X |- *; auto. eapply (ale_top (HG r)); auto. apply vtop.
Qed.
End FACTS.
