(** * HeapRun: the work list of the heap analysis terminates *)
From Coq Require Import ZArith Bool Lia ZifyBool ZifyNat Arith String List.
From Verif Require Import Machine Jit Dfs Binary Reach Components Heap HeapFacts.
Import ListNotations.
Open Scope nat_scope.

Section RUN.
Variable co : code.
Variable fn : nat.
Variable s : summary.
Variables hdst hsrc : insn -> hreg.
Notation blocks_of := (f_blocks (co_fun co fn)).
Notation entry := (f_entry (co_fun co fn)).
Notation insns := (h_insns co).
Notation keys := (hkeys co fn s hdst hsrc).
Notation trans := (transfer co s hdst hsrc).
Notation post := (post_ok co s hdst hsrc).
Notation proc := (process co fn s hdst hsrc).
Notation work := (h_work co fn s hdst hsrc).

Definition at_entry (b i : nat) : bool := Nat.eqb b entry && Nat.eqb i 0.
Definition hinv (st : hstate) : Prop :=
  (forall b i, vctx (st b i)) /\
  (forall b i x, nth_error (insns b) i = Some x -> at_entry b i = false -> post b x (st b i)).
Definition ids : list cid :=
  flat_map (fun b => map (fun i => (b, i)) (filter (fun i => negb (at_entry b i)) (seq 0 (List.length (insns b)))))
    (nodup Nat.eq_dec blocks_of).
Definition witem (w : cid * list cid) : Prop :=
  In (fst (fst w)) blocks_of /\ snd (fst w) < List.length (insns (fst (fst w))).

Lemma hinv0 : hinv hst0.
Proof. split; intros; [apply vctx0|apply post_ok0]. Qed.
Lemma transfer_v b i c : vctx c -> exists c', trans b i c = Some c' /\ vctx c' /\ post b i c'.
Proof.
  intros V. destruct (transfer_ok co s hdst hsrc b i (fun _ => None) c) as (c' & E & A & B & _); eauto.
  - intros k. exact I.
  - unfold post_ok. repeat match goal with |- context [match ?x with _ => _ end] => destruct x end; exact I || reflexivity.
Qed.
Lemma meets_ok me st ps : (forall b i, vctx (st b i)) -> forall c, vctx c ->
  exists c', meets co fn s hdst hsrc me st ps c = Some c' /\ vctx c' /\ forall k, ole (c k) (c' k) = true.
Proof.
  intros V. induction ps as [|[b i] r IH]; intros c C; cbn [meets].
  - exists c. split; auto. split; auto. intros k. eapply ole_refl, C.
  - destruct (_ && _); [apply IH; auto|]. destruct (meet_ctx_v keys c (st b i) C (V b i)) as (m & -> & VM & LM).
    destruct (IH m VM) as (c' & E & VC & LC). exists c'. split; auto. split; auto.
    intros k. eapply (ole_trans k); [apply C|apply VM|apply VC|apply LM|apply LC].
Qed.
Lemma process_ok st me ps x : hinv st -> nth_error (insns (fst me)) (snd me) = Some x ->
  exists c, proc st me ps = Some c /\ vctx c /\ post (fst me) x c /\
    (at_entry (fst me) (snd me) = false -> forall k, ole (st (fst me) (snd me) k) (c k) = true).
Proof.
  intros [V P] E. unfold process. rewrite E.
  destruct (meets_ok me st ps V (st (fst me) (snd me)) (V _ _)) as (c & -> & VC & L).
  destruct (at_entry (fst me) (snd me)) eqn:AE.
  - destruct (transfer_v (fst me) x c VC) as (c' & T & V' & P'). exists c'. split; auto. split; auto. split; auto. discriminate.
  - destruct (transfer_ok co s hdst hsrc (fst me) x _ c (V _ _) VC L (P _ _ _ E AE)) as (c' & T & V' & P' & L').
    exists c'. auto.
Qed.
Lemma hput_same st b i c : hput st b i c b i = c.
Proof. unfold hput. rewrite !Nat.eqb_refl. reflexivity. Qed.
Lemma hput_other st b i c b' i' : (b', i') <> (b, i) -> hput st b i c b' i' = st b' i'.
Proof.
  unfold hput. intros N. destruct (Nat.eqb b' b) eqn:A; auto. destruct (Nat.eqb i' i) eqn:B; auto.
  apply Nat.eqb_eq in A, B. subst. congruence.
Qed.
Lemma hinv_put st b i c : hinv st -> vctx c ->
  (forall x, nth_error (insns b) i = Some x -> at_entry b i = false -> post b x c) -> hinv (hput st b i c).
Proof.
  intros [V P] C Q. split.
  - intros b' i'. unfold hput. destruct (_ && _); auto.
  - intros b' i' x E A. unfold hput. destruct (Nat.eqb b' b && Nat.eqb i' i) eqn:K; auto.
    apply andb_prop in K. destruct K as [K1 K2]. apply Nat.eqb_eq in K1, K2. subst. auto.
Qed.

(** The potential: how much the contexts can still grow. *)
Lemma lsum_cons a l : list_sum (a :: l) = a + list_sum l.
Proof. reflexivity. Qed.
Definition gap (c : hctx) : nat := list_sum (map (fun k => 5 - orank (c k)) keys).
Definition pot (st : hstate) : nat := list_sum (map (fun x => gap (st (fst x) (snd x))) ids).
Lemma gap_le c d : vctx c -> vctx d -> (forall k, ole (c k) (d k) = true) -> gap d <= gap c.
Proof.
  intros C D L. unfold gap. induction keys as [|k l IH]; cbn [map]; rewrite ?lsum_cons; auto.
  destruct (grow k (c k) (d k) (C k) (D k) (L k)) as [G _]. lia.
Qed.
Lemma gap_lt c d : vctx c -> vctx d -> (forall k, ole (c k) (d k) = true) -> ctx_eqb keys c d = false ->
  gap d < gap c.
Proof.
  intros C D L. unfold gap, ctx_eqb. induction keys as [|k l IH]; cbn [map forallb]; rewrite ?lsum_cons; [discriminate|].
  destruct (grow k (c k) (d k) (C k) (D k) (L k)) as [G1 G2]. pose proof (orank_le k _ (D k)).
  destruct (opt_eqb (c k) (d k)); cbn [andb].
  - intros E. apply IH in E. lia.
  - intros _. specialize (G2 eq_refl).
    assert (list_sum (map (fun k => 5 - orank (d k)) l) <= list_sum (map (fun k => 5 - orank (c k)) l)); [|lia].
    clear -C D L. induction l as [|k l IH]; cbn [map]; rewrite ?lsum_cons; auto.
    destruct (grow k (c k) (d k) (C k) (D k) (L k)) as [G _]. lia.
Qed.
Lemma ids_in b i : In (b, i) ids <-> In b blocks_of /\ i < List.length (insns b) /\ at_entry b i = false.
Proof.
  unfold ids. rewrite in_flat_map. split.
  - intros (x & Hx & H). apply in_map_iff in H. destruct H as (j & E & H). injection E as -> ->.
    apply filter_In in H. destruct H as [H1 H2]. apply nodup_In in Hx. apply in_seq in H1.
    apply negb_true_iff in H2. repeat split; auto. lia.
  - intros (H1 & H2 & H3). exists b. split; [apply nodup_In; auto|]. apply in_map_iff. exists i. split; auto.
    apply filter_In. split; [apply in_seq; lia|]. rewrite H3. reflexivity.
Qed.
Lemma sum_put (g : cid -> nat) (g' : cid -> nat) (x : cid) l : (forall y, y <> x -> g' y = g y) -> g' x <= g x ->
  list_sum (map g' l) <= list_sum (map g l) /\ (In x l -> g' x < g x -> list_sum (map g' l) < list_sum (map g l)).
Proof.
  intros O L. assert (G : forall y, g' y <= g y).
  { intros y. assert (D : {y = x} + {y <> x}) by (decide equality; apply Nat.eq_dec).
    destruct D as [->|N]; auto. rewrite O; auto. }
  induction l as [|a l [IH1 IH2]]; cbn [map In]; rewrite ?lsum_cons; [split; [lia|intros []]|]. split.
  - specialize (G a). lia.
  - intros [->|H] K; [lia|]. specialize (IH2 H K). specialize (G a). lia.
Qed.
Lemma pot_put st b i c : gap c <= gap (st b i) ->
  pot (hput st b i c) <= pot st /\ (In (b, i) ids -> gap c < gap (st b i) -> pot (hput st b i c) < pot st).
Proof.
  intros L. unfold pot.
  destruct (sum_put (fun x => gap (st (fst x) (snd x))) (fun x => gap (hput st b i c (fst x) (snd x))) (b, i) ids) as [A B].
  - intros [b' i'] N. cbn. rewrite hput_other; auto.
  - cbn. rewrite hput_same. auto.
  - split; auto. intros I K. apply B; auto. cbn. rewrite hput_same. auto.
Qed.
Lemma pot_entry st c : pot (hput st entry 0 c) = pot st.
Proof.
  unfold pot. f_equal. apply map_ext_in. intros [b i] H. apply ids_in in H. destruct H as (_ & _ & H).
  cbn. rewrite hput_other; auto. intros E. injection E as -> ->. unfold at_entry in H. rewrite !Nat.eqb_refl in H. discriminate.
Qed.

(** Pushing targets *)
Lemma args_v rs : forall c, vctx c -> vctx (fold_left set_arg rs c).
Proof.
  induction rs as [|r rs IH]; cbn; intros c V; auto. apply IH. unfold set_arg. apply vctx_set; auto.
  pose proof (hget_v c (RG r) V) as H. destruct H as [_ ->]. apply vflat_flat. discriminate.
Qed.
Lemma update_ok b st : hinv st -> hinv (fst (update co fn b st)) /\ pot (fst (update co fn b st)) = pot st /\
  fst (snd (update co fn b st)) = (b, 0) /\
  (forall b' i', at_entry b' i' = false -> fst (update co fn b st) b' i' = st b' i').
Proof.
  intros H. unfold update. destruct (Nat.eqb b entry) eqn:E; cbn [fst snd].
  - apply Nat.eqb_eq in E. subst b. split; [|split; [apply pot_entry|]].
    + apply hinv_put; auto; [apply args_v, H|]. intros x _ A. unfold at_entry in A. rewrite !Nat.eqb_refl in A. discriminate.
    + split; auto. intros b' i' A. apply hput_other. intros K. injection K as -> ->. unfold at_entry in A. rewrite !Nat.eqb_refl in A. discriminate.
  - auto.
Qed.
Definition is_entry (w : cid * list cid) : bool := at_entry (fst (fst w)) (snd (fst w)).
Definition ecount (wl : list (cid * list cid)) : nat := List.length (filter is_entry wl).
Lemma ecount_app a b : ecount (a ++ b) = ecount a + ecount b.
Proof. unfold ecount. rewrite filter_app, app_length. reflexivity. Qed.

Variable blocks : list nat.
Hypothesis BIN : incl blocks blocks_of.
Hypothesis FULL : forall b, In b blocks_of -> insns b <> [].

Lemma first_item b ps : In b blocks_of -> witem ((b, 0), ps).
Proof. intros H. split; cbn; auto. specialize (FULL b H). destruct (insns b); [congruence|cbn; lia]. Qed.
Lemma updates_ok ts : forall st, hinv st ->
  hinv (fst (updates co fn blocks ts st)) /\ pot (fst (updates co fn blocks ts st)) = pot st /\
  Forall witem (snd (updates co fn blocks ts st)) /\
  ((forall e, In e ts -> e_trg e <> entry) -> ecount (snd (updates co fn blocks ts st)) = 0).
Proof.
  induction ts as [|e r IH]; intros st H; cbn [updates].
  - cbn. split; auto.
  - destruct (mem (e_trg e) blocks) eqn:M.
    + apply mem_in in M. destruct (update_ok (e_trg e) st H) as (U1 & U2 & U3 & _).
      destruct (update co fn (e_trg e) st) as [st1 w]. cbn [fst snd] in *.
      destruct (IH st1 U1) as (A & B & C & D). destruct (updates co fn blocks r st1) as [st2 ws]. cbn [fst snd] in *.
      split; auto. split; [congruence|]. split.
      * constructor; auto. destruct w as [me ps]. cbn in U3. subst me. apply first_item. auto.
      * intros N. unfold ecount. cbn [filter]. unfold is_entry at 1. rewrite U3. cbn [fst snd].
        unfold at_entry. rewrite (proj2 (Nat.eqb_neq _ _) (N e (or_introl eq_refl))). cbn [andb].
        apply D. intros e' He'. apply N. right. auto.
    + destruct (IH st H) as (A & B & C & D). split; auto. split; auto. split; auto.
      intros N. apply D. intros e' He'. apply N. right. auto.
Qed.
(** No assertion fails, terminating or not. *)
Lemma work_safe : forall fuel st wl, hinv st -> Forall witem wl ->
  match work fuel blocks st wl with HDone st' => hinv st' | HAbort => False | HNoFuel => True end.
Proof.
  induction fuel as [|n IH]; intros st wl H W; destruct wl as [|[me ps] r]; cbn [h_work]; auto.
  inversion W as [|? ? [WB WL] WR]; subst. cbn [fst] in WB, WL.
  destruct (nth_error (insns (fst me)) (snd me)) as [x|] eqn:E; [|apply nth_error_None in E; lia].
  destruct (process_ok st me ps x H E) as (c & -> & VC & QC & LC).
  set (st1 := hput st (fst me) (snd me) c).
  assert (H1 : hinv st1).
  { apply hinv_put; auto. intros x' E' _. assert (x' = x) by congruence. subst. auto. }
  destruct (ctx_eqb _ _ _); [apply IH; auto|].
  unfold follow. destruct (Nat.ltb (S (snd me)) (List.length (insns (fst me)))) eqn:L.
  - apply IH; auto. apply Forall_app. split; auto. constructor; auto. apply Nat.ltb_lt in L. split; auto.
  - destruct (updates_ok (b_targets (co_block co (fst me))) st1 H1) as (A1 & A2 & A3 & A4).
    destruct (updates co fn blocks _ st1) as [st2 ws]. apply IH; auto. apply Forall_app. auto.
Qed.
(** The entry block is not a single instruction that is its own successor. *)
Hypothesis ENTRY : List.length (insns entry) = 1 -> forall e, In e (b_targets (co_block co entry)) -> e_trg e <> entry.

Lemma follow_ok me st : hinv st -> In (fst me) blocks_of -> snd me < List.length (insns (fst me)) ->
  hinv (fst (follow co fn blocks me st)) /\ pot (fst (follow co fn blocks me st)) = pot st /\
  Forall witem (snd (follow co fn blocks me st)) /\
  (at_entry (fst me) (snd me) = true -> ecount (snd (follow co fn blocks me st)) = 0).
Proof.
  intros H B L. unfold follow. destruct (Nat.ltb (S (snd me)) (List.length (insns (fst me)))) eqn:E.
  - apply Nat.ltb_lt in E. cbn [fst snd]. split; auto. split; auto. split.
    + constructor; auto. split; auto.
    + intros _. unfold ecount. cbn [filter]. unfold is_entry, at_entry. cbn [fst snd]. rewrite andb_comm. reflexivity.
  - apply Nat.ltb_ge in E. destruct (updates_ok (b_targets (co_block co (fst me))) st H) as (A1 & A2 & A3 & A4).
    split; auto. split; auto. split; auto. intros AE. apply A4. unfold at_entry in AE. apply andb_prop in AE.
    destruct AE as [K1 K2]. apply Nat.eqb_eq in K1, K2. rewrite K1 in *. rewrite K2 in *. apply ENTRY. lia.
Qed.

Lemma work_term : forall n st wl, hinv st -> Forall witem wl -> pot st <= n ->
  exists fuel st', work fuel blocks st wl = HDone st' /\ hinv st'.
Proof.
  induction n as [n IHn] using lt_wf_ind.
  assert (G : forall m l st wl, hinv st -> Forall witem wl -> pot st <= n -> ecount wl <= m -> List.length wl <= l ->
    exists fuel st', work fuel blocks st wl = HDone st' /\ hinv st').
  { induction m as [m IHm] using lt_wf_ind. induction l as [|l IHl]; intros st wl H W P M L.
    - destruct wl; [|cbn in L; lia]. exists 0, st. auto.
    - destruct wl as [|[me ps] r]; [exists 0, st; auto|]. inversion W as [|? ? [WB WL] WR]; subst. cbn [fst] in WB, WL.
      destruct (nth_error (insns (fst me)) (snd me)) as [x|] eqn:E; [|apply nth_error_None in E; lia].
      destruct (process_ok st me ps x H E) as (c & PC & VC & QC & LC).
      set (st1 := hput st (fst me) (snd me) c).
      assert (H1 : hinv st1).
      { apply hinv_put; auto. intros x' E' _. assert (x' = x) by congruence. subst. auto. }
      destruct (follow_ok me st1 H1 WB WL) as (F1 & F2 & F3 & F4).
      destruct (at_entry (fst me) (snd me)) eqn:AE.
      + assert (EC : ecount ((me, ps) :: r) = S (ecount r)).
        { unfold ecount. cbn [filter]. unfold is_entry at 1. cbn [fst snd]. rewrite AE. reflexivity. }
        assert (P1 : pot st1 = pot st).
        { unfold st1. unfold at_entry in AE. apply andb_prop in AE. destruct AE as [K1 K2].
          apply Nat.eqb_eq in K1, K2. rewrite K1, K2. apply pot_entry. }
        destruct (ctx_eqb keys (st (fst me) (snd me)) c) eqn:CE.
        * destruct (IHm (ecount r) ltac:(lia) (List.length r) st1 r) as (fu & st' & R & I'); auto; [lia|].
          exists (S fu), st'. cbn [h_work]. rewrite PC. fold st1. rewrite CE. auto.
        * destruct (follow co fn blocks me st1) as [st2 ws] eqn:FO. cbn [fst snd] in *.
          destruct (IHm (ecount (r ++ ws)) ltac:(rewrite ecount_app, F4 by auto; lia) (List.length (r ++ ws)) st2 (r ++ ws))
            as (fu & st' & R & I'); auto; [apply Forall_app; auto|lia|].
          exists (S fu), st'. cbn [h_work]. rewrite PC. fold st1. rewrite CE, FO. auto.
      + assert (IX : In (fst me, snd me) ids) by (apply ids_in; auto).
        specialize (LC eq_refl). pose proof (proj1 H (fst me) (snd me)) as VO.
        pose proof (gap_le _ _ VO VC LC) as GL.
        destruct (pot_put st (fst me) (snd me) c GL) as [PL PS]. fold st1 in PL, PS.
        assert (EC : ecount ((me, ps) :: r) = ecount r).
        { unfold ecount. cbn [filter]. unfold is_entry at 1. cbn [fst snd]. rewrite AE. reflexivity. }
        destruct (ctx_eqb keys (st (fst me) (snd me)) c) eqn:CE.
        * destruct (IHl st1 r) as (fu & st' & R & I'); auto; [lia|lia|cbn in L; lia|].
          exists (S fu), st'. cbn [h_work]. rewrite PC. fold st1. rewrite CE. auto.
        * specialize (PS IX (gap_lt _ _ VO VC LC CE)).
          destruct (follow co fn blocks me st1) as [st2 ws] eqn:FO. cbn [fst snd] in *.
          destruct (IHn (pot st2) ltac:(lia) st2 (r ++ ws)) as (fu & st' & R & I'); auto; [apply Forall_app; auto|].
          exists (S fu), st'. cbn [h_work]. rewrite PC. fold st1. rewrite CE, FO. auto. }
  intros st wl H W P. eapply (G (ecount wl) (List.length wl)); eauto.
Qed.
Lemma work_mono : forall fuel st wl st', work fuel blocks st wl = HDone st' ->
  forall k, work (fuel + k) blocks st wl = HDone st'.
Proof.
  induction fuel as [|n IH]; intros st wl st' E k; destruct wl as [|[me ps] r].
  - cbn in E. cbn. destruct k; auto.
  - discriminate.
  - exact E.
  - cbn [h_work Nat.add] in E |- *. destruct (proc st me ps); [|discriminate].
    destruct (ctx_eqb _ _ _); [apply IH; auto|]. destruct (follow co fn blocks me _). apply IH. auto.
Qed.
End RUN.
