(** * InterProc: model of InterProceduralMemoryAnalysis (passes.h:379-420) *)
From Coq Require Import ZArith List Bool String Lia Arith.
From Verif Require Import Machine Jit Dfs Binary.
Import ListNotations.

Section IP.
Variable co : code.

(** VisitFunction, passes.h:399-419, as an instance of [Dfs.visit]. *)
Definition ip_pre (f : nat) (m : sums) : sums * unit * list nat := (m, tt, s_callees (m f)).
Definition ip_before (p c : nat) (m : sums) : sums := m.
Definition ip_after (p c : nat) (fresh : bool) (l : unit) (m : sums) : unit * sums :=
  let s := m p in
  let s1 := set_child_writes s (s_child_writes s || s_writes (m c)) in
  let m1 := upd m p s1 in
  (l, upd m1 p (set_assume_unsafe s1 (s_assume_unsafe s1 || s_assume_unsafe (m1 c)))).
Definition ip_post (f : nat) (l : unit) (m : sums) : sums :=
  let s := m f in
  upd m f (set_writes s
    (s_self_unsafe s || s_child_writes s || s_assume_unsafe s || s_unknown_cf s ||
     negb (match s_unknown_writes s with [] => true | _ => false end) || unsafe_plt s)).

(** RunGlobalAnalysis, passes.h:385-396. *)
Definition ip_run (m : sums) : res (list nat * sums) :=
  visit_all sums unit (co_funcs co) ip_pre ip_before ip_after ip_post
    (S (List.length (co_funcs co))) (co_funcs co) ([], m).

(** ** Specification *)
(** A function that is unsafe by itself. *)
Definition bad (s : summary) : Prop :=
  s_self_unsafe s = true \/ s_assume_unsafe s = true \/ s_unknown_cf s = true \/
  s_unknown_writes s <> [] \/
  exists a name, In (a, name) (s_plt_calls s) /\ is_safe_plt name = false.

(** Reachability in the call graph recorded in the summaries. *)
Inductive reach (m : sums) : nat -> nat -> Prop :=
| r_refl f : reach m f f
| r_step f c g : In c (s_callees (m f)) -> reach m c g -> reach m f g.

Definition reaches_bad (m : sums) (f : nat) : Prop := exists g, reach m f g /\ bad (m g).

(** No function reachable from [f] lies on a cycle of two or more functions. *)
Definition no_mutual_recursion (m : sums) (f : nat) : Prop :=
  forall g c, reach m f g -> In c (s_callees (m g)) -> c <> g -> ~ reach m c g.

Lemma reach_trans m a b c : reach m a b -> reach m b c -> reach m a c.
Proof. induction 1; auto. intros. econstructor; eauto. Qed.
Lemma reach_one m a b : In b (s_callees (m a)) -> reach m a b.
Proof. intros. econstructor; eauto. constructor. Qed.
Lemma reach_leave m f g : reach m f g -> g <> f ->
  exists c, In c (s_callees (m f)) /\ c <> f /\ reach m c g.
Proof.
  induction 1 as [f|f c g Hc Hr IH]; intros NE; [contradiction|].
  destruct (Nat.eq_dec c f) as [->|NC]; [auto|]. exists c. auto.
Qed.

(** ** Framing *)
(** Everything but the three result fields. *)
Definition ip_frame (s s' : summary) : Prop :=
  s_self_unsafe s' = s_self_unsafe s /\ s_unknown_cf s' = s_unknown_cf s /\
  s_unknown_writes s' = s_unknown_writes s /\ s_plt_calls s' = s_plt_calls s /\
  s_callees s' = s_callees s /\ s_callers s' = s_callers s /\
  s_unsafe_blocks s' = s_unsafe_blocks s /\ s_exc_safe s' = s_exc_safe s /\
  (s_assume_unsafe s = true -> s_assume_unsafe s' = true).
Lemma ip_frame_refl s : ip_frame s s.
Proof. repeat split; auto. Qed.
Lemma ip_frame_trans a b c : ip_frame a b -> ip_frame b c -> ip_frame a c.
Proof. unfold ip_frame. intuition congruence. Qed.

Lemma after_at p c fresh l m l' m' :
  ip_after p c fresh l m = (l', m') ->
  (forall g, g <> p -> m' g = m g) /\
  s_child_writes (m' p) = s_child_writes (m p) || s_writes (m c) /\
  s_assume_unsafe (m' p) = s_assume_unsafe (m p) || s_assume_unsafe (m c) /\
  s_writes (m' p) = s_writes (m p) /\ ip_frame (m p) (m' p).
Proof.
  unfold ip_after. intros E. inversion E; subst. clear E. unfold upd.
  rewrite !Nat.eqb_refl. cbn. split; [|split; [auto|split; [|split; [auto|]]]].
  - intros g Hg. destruct (Nat.eqb_spec g p); [contradiction|auto].
  - destruct (Nat.eqb_spec c p) as [->|]; cbn; auto.
  - unfold ip_frame; cbn. repeat split; auto. intros ->. auto.
Qed.

Lemma post_at f l m :
  (forall g, g <> f -> ip_post f l m g = m g) /\
  s_child_writes (ip_post f l m f) = s_child_writes (m f) /\
  s_assume_unsafe (ip_post f l m f) = s_assume_unsafe (m f) /\
  ip_frame (m f) (ip_post f l m f) /\
  (s_writes (ip_post f l m f) = true <-> bad (m f) \/ s_child_writes (m f) = true).
Proof.
  unfold ip_post, upd. rewrite Nat.eqb_refl. cbn.
  split; [|split; [auto|split; [auto|split; [repeat split; auto|]]]].
  - intros g Hg. destruct (Nat.eqb_spec g f); [contradiction|auto].
  - unfold bad, unsafe_plt. rewrite !orb_true_iff, existsb_exists. split.
    + intros [[[[[H|H]|H]|H]|H]|([a n] & H1 & H2)]; try tauto.
      * left. right. right. right. left. destruct (s_unknown_writes (m f)); discriminate.
      * cbn in H2. apply negb_true_iff in H2. left. right. right. right. right. exists a, n. auto.
    + intros [[H|[H|[H|[H|(a & n & H1 & H2)]]]]|H]; try tauto.
      * left. right. destruct (s_unknown_writes (m f)); [exfalso; apply H; reflexivity|reflexivity].
      * right. exists (a, n). split; auto. cbn. rewrite H2. auto.
Qed.

Notation idfs := (dfs sums unit (co_funcs co) ip_pre ip_before ip_after ip_post).
Notation iloop := (dfs_loop sums unit (co_funcs co) ip_pre ip_before ip_after ip_post).
Notation iall := (dfs_all sums unit (co_funcs co) ip_pre ip_before ip_after ip_post).

(** Visited functions other than the current one are not modified. *)
Lemma ip_untouched :
  (forall f w w', idfs f w w' -> ~ In f (fst w) ->
     (forall g, In g (fst w) -> snd w' g = snd w g) /\
     (forall g, ip_frame (snd w g) (snd w' g))) /\
  (forall f ch vis m l vis' m' l', iloop f ch vis m l vis' m' l' -> In f vis ->
     (forall g, In g vis -> g <> f -> m' g = m g) /\
     (forall g, ip_frame (m g) (m' g)) /\
     s_writes (m' f) = s_writes (m f) /\
     (s_child_writes (m f) = true -> s_child_writes (m' f) = true)).
Proof.
  apply dfs_mutind; cbn [fst snd].
  - intros f vis st st1 l ch vis2 st2 l2 EP _ IH HN. inversion EP; subst. clear EP.
    destruct (IH (or_introl eq_refl)) as (A & B & _). clear IH.
    destruct (post_at f l2 st2) as (P1 & _ & _ & P4 & _). split.
    + intros g Hg. assert (g <> f) by (intros ->; contradiction).
      rewrite P1 by auto. apply A; auto. right; auto.
    + intros g. destruct (Nat.eq_dec g f) as [->|NE].
      * eapply ip_frame_trans; [apply B|auto].
      * rewrite P1 by auto. apply B.
  - intros. repeat split; auto using ip_frame_refl.
  - intros f c t vis st l l' st' vis2 st2 l2 HK HV EA _ IH Hf.
    unfold ip_before in EA. destruct (after_at _ _ _ _ _ _ _ EA) as (A1 & A2 & A3 & A4 & A5).
    destruct (IH Hf) as (B1 & B2 & B3 & B4). split; [|split; [|split]].
    + intros g Hg NE. rewrite B1, A1; auto.
    + intros g. eapply ip_frame_trans; [|apply B2]. destruct (Nat.eq_dec g f) as [->|NE]; auto.
      rewrite A1 by auto. apply ip_frame_refl.
    + congruence.
    + intros H. apply B4. rewrite A2, H. auto.
  - intros f c t vis st l vis1 st1 l' st' vis2 st2 l2 HK HV HD IH1 EA _ IH2 Hf.
    unfold ip_before in *. destruct (IH1 HV) as (C1 & C2).
    destruct (after_at _ _ _ _ _ _ _ EA) as (A1 & A2 & A3 & A4 & A5).
    pose proof (proj1 (dfs_grow _ _ _ _ _ _ _) _ _ _ HD) as G. cbn [fst] in G.
    destruct IH2 as (B1 & B2 & B3 & B4). { apply G. right; auto. }
    split; [|split; [|split]].
    + intros g Hg NE. rewrite B1, A1; auto. apply G. right; auto.
    + intros g. eapply ip_frame_trans; [apply C2|]. eapply ip_frame_trans; [|apply B2].
      destruct (Nat.eq_dec g f) as [->|NE]; auto. rewrite A1 by auto. apply ip_frame_refl.
    + rewrite B3, A4, C1; auto.
    + intros H. apply B4. rewrite A2, C1, H; auto.
Qed.

Section RUN.
Variable m0 : sums.
Hypothesis fresh_child : forall f, s_child_writes (m0 f) = false.
Hypothesis fresh_writes : forall f, s_writes (m0 f) = false.

(** ** No false alarms, on every call graph *)
Definition alarms_ok (m : sums) : Prop :=
  (forall f, ip_frame (m0 f) (m f)) /\
  forall f, s_child_writes (m f) = true \/ s_assume_unsafe (m f) = true \/
            s_writes (m f) = true -> reaches_bad m0 f.

Lemma alarms_after p c fresh l m l' m' :
  In c (s_callees (m0 p)) ->
  ip_after p c fresh l m = (l', m') -> alarms_ok m -> alarms_ok m'.
Proof.
  intros HC EA [F H]. destruct (after_at _ _ _ _ _ _ _ EA) as (A1 & A2 & A3 & A4 & A5).
  split.
  - intros f. destruct (Nat.eq_dec f p) as [->|NE].
    + eapply ip_frame_trans; [apply F|auto].
    + rewrite A1; auto.
  - intros f. destruct (Nat.eq_dec f p) as [->|NE]; [|rewrite A1 by auto; apply H].
    rewrite A2, A3, A4, !orb_true_iff.
    intros [[K|K]|[[K|K]|K]]; try (apply H; auto; fail).
    + assert (R : reaches_bad m0 c) by (apply H; auto).
      destruct R as (g & R1 & R2). exists g. split; auto. econstructor; eauto.
    + assert (R : reaches_bad m0 c) by (apply H; auto).
      destruct R as (g & R1 & R2). exists g. split; auto. econstructor; eauto.
Qed.

Lemma frame_bad s s' : ip_frame s s' ->
  bad s' -> bad s \/ s_assume_unsafe s' = true.
Proof.
  intros (F1 & F2 & F3 & F4 & _). unfold bad. rewrite F1, F2, F3, F4. tauto.
Qed.
Lemma bad_frame s s' : ip_frame s s' -> bad s -> bad s'.
Proof.
  intros (F1 & F2 & F3 & F4 & _ & _ & _ & _ & F5). unfold bad. rewrite F1, F2, F3, F4. tauto.
Qed.

Lemma ip_alarms :
  (forall f w w', idfs f w w' -> alarms_ok (snd w) -> alarms_ok (snd w')) /\
  (forall f ch vis m l vis' m' l', iloop f ch vis m l vis' m' l' ->
     (forall c, In c ch -> In c (s_callees (m0 f))) -> alarms_ok m -> alarms_ok m').
Proof.
  apply dfs_mutind; cbn [fst snd].
  - intros f vis st st1 l ch vis2 st2 l2 EP _ IH HA. inversion EP; subst. clear EP.
    assert (HA2 : alarms_ok st2).
    { apply IH; auto. intros c Hc. destruct HA as [F _]. destruct (F f) as (_ & _ & _ & _ & E & _).
      rewrite <- E. auto. }
    destruct (post_at f l2 st2) as (P1 & P2 & P3 & P4 & P5). destruct HA2 as [F H]. split.
    + intros g. destruct (Nat.eq_dec g f) as [->|NE].
      * eapply ip_frame_trans; [apply F|auto].
      * rewrite P1; auto.
    + intros g. destruct (Nat.eq_dec g f) as [->|NE]; [|rewrite P1 by auto; apply H].
      rewrite P2, P3, P5. intros [K|[K|[K|K]]]; try (apply H; auto; fail).
      destruct (frame_bad _ _ (F f) K) as [B|B]; [|apply H; auto].
      exists f. split; [constructor|auto].
  - auto.
  - intros f c t vis st l l' st' vis2 st2 l2 HK HV EA _ IH Hch HA. unfold ip_before in *.
    apply IH. { intros x Hx. apply Hch. right; auto. }
    eapply alarms_after; [|exact EA|auto]. apply Hch. left; auto.
  - intros f c t vis st l vis1 st1 l' st' vis2 st2 l2 HK HV HD IH1 EA _ IH2 Hch HA.
    unfold ip_before in *. apply IH2. { intros x Hx. apply Hch. right; auto. }
    eapply alarms_after; [|exact EA|auto]. apply Hch. left; auto.
Qed.

(** ** Soundness where there is no mutual recursion *)
Definition exact_below (stk vis : list nat) (m : sums) : Prop :=
  forall g, In g vis -> ~ In g stk -> no_mutual_recursion m0 g -> reaches_bad m0 g ->
    s_writes (m g) = true.

Lemma nmr_callee f c :
  no_mutual_recursion m0 f -> In c (s_callees (m0 f)) -> no_mutual_recursion m0 c.
Proof. intros H Hc g d Hg Hd NE. apply H; auto. econstructor; eauto. Qed.

Lemma ip_sound :
  (forall f w w', idfs f w w' -> ~ In f (fst w) ->
     forall stk, incl stk (fst w) -> (forall s, In s stk -> reach m0 s f) ->
     (forall g, ip_frame (m0 g) (snd w g)) -> exact_below stk (fst w) (snd w) ->
     exact_below stk (fst w') (snd w')) /\
  (forall f ch vis m l vis' m' l', iloop f ch vis m l vis' m' l' -> In f vis ->
     forall stk, incl stk vis -> (forall s, In s stk -> reach m0 s f) ->
     (forall c, In c ch -> In c (s_callees (m0 f))) ->
     (forall g, ip_frame (m0 g) (m g)) -> exact_below (f :: stk) vis m ->
     exact_below (f :: stk) vis' m' /\
     (no_mutual_recursion m0 f -> forall c, In c ch -> c <> f -> reaches_bad m0 c ->
        s_child_writes (m' f) = true)).
Proof.
  apply dfs_mutind; cbn [fst snd].
  - intros f vis st st1 l ch vis2 st2 l2 EP HL IH HN stk HS HR HF HE. inversion EP; subst. clear EP.
    pose proof (proj2 ip_untouched _ _ _ _ _ _ _ _ HL (or_introl eq_refl)) as (U1 & U2 & U3 & U4).
    assert (EC : s_callees (st1 f) = s_callees (m0 f)).
    { destruct (HF f) as (_ & _ & _ & _ & E & _). auto. }
    destruct (IH (or_introl eq_refl) stk) as [I1 I2]; auto.
    { intros x Hx. right; auto. } { intros c Hc. rewrite <- EC. auto. }
    { intros g Hg Hns. apply HE.
      - destruct Hg as [<-|Hg]; auto. exfalso. apply Hns. left; auto.
      - intros K. apply Hns. right; auto. }
    clear IH. destruct (post_at f l2 st2) as (P1 & P2 & P3 & P4 & P5).
    intros g Hg Hns NMR RB. destruct (Nat.eq_dec g f) as [->|NE].
    + apply P5. destruct RB as (b & R & B). destruct (Nat.eq_dec b f) as [->|NB].
      * left. eapply bad_frame; [|exact B]. eapply ip_frame_trans; [apply HF|apply U2].
      * right. destruct (reach_leave _ _ _ R NB) as (c & C1 & C2 & C3).
        apply (I2 NMR c); auto. { rewrite EC; auto. } exists b. auto.
    + rewrite P1 by auto. apply I1; auto. intros [K|K]; congruence.
  - intros f vis st l Hf stk HS HR HC HF HE. split; [exact HE|]. intros _ c [].
  - intros f c t vis st l l' st' vis2 st2 l2 HK HV EA HL IH Hf stk HS HR HC HF HE.
    unfold ip_before in *. destruct (after_at _ _ _ _ _ _ _ EA) as (A1 & A2 & A3 & A4 & A5).
    assert (HF' : forall g, ip_frame (m0 g) (st' g)).
    { intros g. destruct (Nat.eq_dec g f) as [->|NE].
      - eapply ip_frame_trans; [apply HF|auto].
      - rewrite A1; auto. }
    assert (HE' : exact_below (f :: stk) vis st').
    { intros g Hg Hns. rewrite A1. apply HE; auto. intros ->. apply Hns. left; auto. }
    destruct (IH Hf stk) as [I1 I2]; auto. { intros x Hx. apply HC. right; auto. }
    split; auto. intros NMR x [<-|Hx] NE RB; [|apply (I2 NMR x); auto].
    pose proof (proj2 ip_untouched _ _ _ _ _ _ _ _ HL Hf) as (U1 & U2 & U3 & U4).
    apply U4. rewrite A2, orb_true_iff. right. apply HE; auto.
    + intros [K|K]; [congruence|].
      apply (NMR f c); [constructor|apply HC; left; auto|auto|apply HR; auto].
    + eapply nmr_callee; eauto. apply HC. left; auto.
  - intros f c t vis st l vis1 st1 l' st' vis2 st2 l2 HK HV HD IH1 EA HL IH2 Hf stk HS HR HC HF HE.
    unfold ip_before in *. destruct (after_at _ _ _ _ _ _ _ EA) as (A1 & A2 & A3 & A4 & A5).
    pose proof (proj1 (dfs_grow _ _ _ _ _ _ _) _ _ _ HD) as G. cbn [fst] in G.
    pose proof (proj1 ip_untouched _ _ _ HD HV) as (V1 & V2). cbn [fst snd] in V1, V2.
    assert (HE1 : exact_below (f :: stk) vis1 st1).
    { apply IH1; auto.
      - intros x [<-|Hx]; auto.
      - intros s [<-|Hs]; [apply reach_one; apply HC; left; auto|].
        eapply reach_trans; [apply HR; auto|]. apply reach_one. apply HC. left; auto. }
    assert (HF1 : forall g, ip_frame (m0 g) (st1 g)).
    { intros g. eapply ip_frame_trans; [apply HF|apply V2]. }
    assert (HF' : forall g, ip_frame (m0 g) (st' g)).
    { intros g. destruct (Nat.eq_dec g f) as [->|NE].
      - eapply ip_frame_trans; [apply HF1|auto].
      - rewrite A1; auto. }
    assert (HE' : exact_below (f :: stk) vis1 st').
    { intros g Hg Hns. rewrite A1. apply HE1; auto. intros ->. apply Hns. left; auto. }
    assert (Hf1 : In f vis1) by (apply G; right; auto).
    destruct (IH2 Hf1 stk) as [I1 I2]; auto.
    { intros x Hx. apply G. right; auto. } { intros x Hx. apply HC. right; auto. }
    split; auto. intros NMR x [<-|Hx] NE RB; [|apply (I2 NMR x); auto].
    pose proof (proj2 ip_untouched _ _ _ _ _ _ _ _ HL Hf1) as (U1 & U2 & U3 & U4).
    apply U4. rewrite A2, orb_true_iff. right. apply HE1; auto.
    + apply G. left; auto.
    + intros [K|K]; [congruence|]. apply HV. apply HS; auto.
    + eapply nmr_callee; eauto. apply HC. left; auto.
Qed.

(** ** The functions first visited are classified right on every graph *)
Lemma ip_descend :
  (forall f w w', idfs f w w' -> ~ In f (fst w) -> (forall g, ip_frame (m0 g) (snd w g)) ->
     (forall g, In g (fst w') -> ~ In g (fst w) -> bad (m0 g) -> s_writes (snd w' f) = true) /\
     (forall g c, In g (fst w') -> ~ In g (fst w) -> In c (s_callees (m0 g)) -> In c (fst w'))) /\
  (forall f ch vis m l vis' m' l', iloop f ch vis m l vis' m' l' -> In f vis ->
     (forall g, ip_frame (m0 g) (m g)) ->
     (forall g, In g vis' -> ~ In g vis -> bad (m0 g) -> s_child_writes (m' f) = true) /\
     (forall g c, In g vis' -> ~ In g vis -> In c (s_callees (m0 g)) -> In c vis') /\
     incl ch vis').
Proof.
  apply dfs_mutind; cbn [fst snd].
  - intros f vis st st1 l ch vis2 st2 l2 EP HL IH HN HF. inversion EP; subst. clear EP.
    pose proof (proj2 ip_untouched _ _ _ _ _ _ _ _ HL (or_introl eq_refl)) as (U1 & U2 & U3 & U4).
    destruct (IH (or_introl eq_refl) HF) as (I1 & I2 & I3).
    destruct (post_at f l2 st2) as (P1 & P2 & P3 & P4 & P5). split.
    + intros g Hg HNg HB. apply P5. destruct (Nat.eq_dec g f) as [->|NE].
      * left. eapply bad_frame; [|exact HB]. eapply ip_frame_trans; [apply HF|apply U2].
      * right. apply (I1 g); auto. intros [K|K]; congruence.
    + intros g c Hg HNg Hc. destruct (Nat.eq_dec g f) as [->|NE].
      * apply I3. destruct (HF f) as (_ & _ & _ & _ & E & _). rewrite E. auto.
      * apply (I2 g); auto. intros [K|K]; congruence.
  - intros f vis st l Hf HF. split; [|split]; [intros; contradiction|intros; contradiction|].
    intros x [].
  - intros f c t vis st l l' st' vis2 st2 l2 HK HV EA HL IH Hf HF. unfold ip_before in *.
    destruct (after_at _ _ _ _ _ _ _ EA) as (A1 & A2 & A3 & A4 & A5).
    destruct IH as (I1 & I2 & I3); auto.
    { intros g. destruct (Nat.eq_dec g f) as [->|NE].
      - eapply ip_frame_trans; [apply HF|auto].
      - rewrite A1; auto. }
    split; [auto|]. split; [auto|]. intros x [<-|Hx]; auto.
    eapply (proj2 (dfs_grow _ _ _ _ _ _ _)); eauto.
  - intros f c t vis st l vis1 st1 l' st' vis2 st2 l2 HK HV HD IH1 EA HL IH2 Hf HF.
    unfold ip_before in *. destruct (after_at _ _ _ _ _ _ _ EA) as (A1 & A2 & A3 & A4 & A5).
    pose proof (proj1 (dfs_grow _ _ _ _ _ _ _) _ _ _ HD) as G. cbn [fst] in G.
    pose proof (proj2 (dfs_grow _ _ _ _ _ _ _) _ _ _ _ _ _ _ _ HL) as G2.
    pose proof (proj1 ip_untouched _ _ _ HD HV) as (V1 & V2). cbn [fst snd] in V1, V2.
    destruct (IH1 HV HF) as [J1 J2].
    assert (HF' : forall g, ip_frame (m0 g) (st' g)).
    { intros g. eapply ip_frame_trans; [apply HF|]. eapply ip_frame_trans; [apply V2|].
      destruct (Nat.eq_dec g f) as [->|NE]; auto. rewrite A1 by auto. apply ip_frame_refl. }
    assert (Hf1 : In f vis1) by (apply G; right; auto).
    destruct (IH2 Hf1 HF') as (I1 & I2 & I3).
    pose proof (proj2 ip_untouched _ _ _ _ _ _ _ _ HL Hf1) as (U1 & U2 & U3 & U4).
    split; [|split].
    + intros g Hg HNg HB. destruct (in_dec Nat.eq_dec g vis1) as [I|I].
      * apply U4. rewrite A2, orb_true_iff. right. apply (J1 g); auto.
      * apply (I1 g); auto.
    + intros g x Hg HNg Hx. destruct (in_dec Nat.eq_dec g vis1) as [I|I].
      * apply G2. apply (J2 g); auto.
      * apply (I2 g); auto.
    + intros x [<-|Hx]; auto. apply G2, G. left; auto.
Qed.

(** ** A function's own faults are seen on every graph *)
Lemma ip_own :
  (forall f w w', idfs f w w' -> ~ In f (fst w) -> (forall g, ip_frame (m0 g) (snd w g)) ->
     forall g, In g (fst w') -> ~ In g (fst w) -> bad (m0 g) -> s_writes (snd w' g) = true) /\
  (forall f ch vis m l vis' m' l', iloop f ch vis m l vis' m' l' -> In f vis ->
     (forall g, ip_frame (m0 g) (m g)) ->
     forall g, In g vis' -> ~ In g vis -> bad (m0 g) -> s_writes (m' g) = true).
Proof.
  apply dfs_mutind; cbn [fst snd].
  - intros f vis st st1 l ch vis2 st2 l2 EP HL IH HN HF g Hg HNg HB. inversion EP; subst. clear EP.
    pose proof (proj2 ip_untouched _ _ _ _ _ _ _ _ HL (or_introl eq_refl)) as (U1 & U2 & U3 & U4).
    destruct (post_at f l2 st2) as (P1 & P2 & P3 & P4 & P5).
    destruct (Nat.eq_dec g f) as [->|NE].
    + apply P5. left. eapply bad_frame; [|exact HB]. eapply ip_frame_trans; [apply HF|apply U2].
    + rewrite P1 by auto. apply IH; auto.
      * left; auto.
      * intros [K|K]; congruence.
  - intros. contradiction.
  - intros f c t vis st l l' st' vis2 st2 l2 HK HV EA HL IH Hf HF g Hg HNg HB. unfold ip_before in *.
    destruct (after_at _ _ _ _ _ _ _ EA) as (A1 & A2 & A3 & A4 & A5).
    apply IH; auto. intros x. destruct (Nat.eq_dec x f) as [->|NE].
    + eapply ip_frame_trans; [apply HF|auto].
    + rewrite A1; auto.
  - intros f c t vis st l vis1 st1 l' st' vis2 st2 l2 HK HV HD IH1 EA HL IH2 Hf HF g Hg HNg HB.
    unfold ip_before in *. destruct (after_at _ _ _ _ _ _ _ EA) as (A1 & A2 & A3 & A4 & A5).
    pose proof (proj1 (dfs_grow _ _ _ _ _ _ _) _ _ _ HD) as G. cbn [fst] in G.
    pose proof (proj1 ip_untouched _ _ _ HD HV) as (V1 & V2). cbn [fst snd] in V1, V2.
    assert (HF' : forall x, ip_frame (m0 x) (st' x)).
    { intros x. eapply ip_frame_trans; [apply HF|]. eapply ip_frame_trans; [apply V2|].
      destruct (Nat.eq_dec x f) as [->|NE]; auto. rewrite A1 by auto. apply ip_frame_refl. }
    assert (Hf1 : In f vis1) by (apply G; right; auto).
    assert (NE : g <> f) by (intros ->; contradiction).
    destruct (in_dec Nat.eq_dec g vis1) as [I|I]; [|apply IH2; auto].
    pose proof (proj2 ip_untouched _ _ _ _ _ _ _ _ HL Hf1) as (U1 & U2 & U3 & U4).
    rewrite U1, A1; auto.
Qed.

(** Later top-level visits do not change earlier results. *)
Lemma iall_untouched fs w w' : iall fs w w' ->
  (forall g, In g (fst w) -> snd w' g = snd w g) /\ (forall g, ip_frame (snd w g) (snd w' g)).
Proof.
  induction 1 as [w|f t w w' HS HD IH|f t w w1 w' HS HD1 HD IH].
  - split; auto using ip_frame_refl.
  - auto.
  - destruct (proj1 ip_untouched _ _ _ HD1 HS) as [A B]. destruct IH as [C D].
    pose proof (proj1 (dfs_grow _ _ _ _ _ _ _) _ _ _ HD1) as G. split.
    + intros g Hg. rewrite C, A; auto. apply G. right; auto.
    + intros g. eapply ip_frame_trans; eauto.
Qed.

Lemma ip_run_ok :
  NoDup (co_funcs co) ->
  (forall f g, In f (co_funcs co) -> In g (s_callees (m0 f)) -> In g (co_funcs co)) ->
  exists vis m, ip_run m0 = Ok (vis, m) /\
    (forall f, ip_frame (m0 f) (m f)) /\
    (forall f, s_writes (m f) = true -> reaches_bad m0 f) /\
    (forall f, In f (co_funcs co) -> no_mutual_recursion m0 f -> reaches_bad m0 f ->
       s_writes (m f) = true) /\
    (forall f rest, co_funcs co = f :: rest -> reaches_bad m0 f -> s_writes (m f) = true) /\
    (forall f, In f (co_funcs co) -> bad (m0 f) -> s_writes (m f) = true).
Proof.
  intros HN HC.
  pose (good := fun m : sums => forall f, ip_frame (m0 f) (m f)).
  destruct (visit_all_dfs sums unit (co_funcs co) ip_pre ip_before ip_after ip_post good)
    with (fuel := S (List.length (co_funcs co))) (fs := co_funcs co) (vis := @nil nat) (st := m0)
    as (vis & m & A & B & C & D & E & F); auto.
  - intros f st G Hf x Hx. cbn [ip_pre snd] in Hx. destruct (G f) as (_ & _ & _ & _ & EE & _).
    rewrite EE in Hx. eapply HC; eauto.
  - intros p c b l st G g. destruct (ip_after p c b l st) as [l' st'] eqn:EA.
    destruct (after_at _ _ _ _ _ _ _ EA) as (A1 & _ & _ & _ & A5). cbn [snd].
    destruct (Nat.eq_dec g p) as [->|NE].
    + eapply ip_frame_trans; [apply G|auto].
    + rewrite A1; auto.
  - intros f l st G g. destruct (post_at f l st) as (P1 & _ & _ & P4 & _).
    destruct (Nat.eq_dec g f) as [->|NE].
    + eapply ip_frame_trans; [apply G|auto].
    + rewrite P1; auto.
  - apply incl_refl.
  - intros f. apply ip_frame_refl.
  - constructor.
  - intros x [].
  - rewrite app_nil_r in F. exists vis, m. split; [exact A|]. split; [exact B|].
    split; [|split; [|split]].
    + (* no false alarms *)
      assert (K : alarms_ok m0).
      { split; [auto using ip_frame_refl|]. intros f. rewrite fresh_child, fresh_writes.
        intros [H|[H|H]]; try discriminate. exists f. split; [constructor|].
        right. left. auto. }
      assert (KA : forall fs w w', iall fs w w' -> alarms_ok (snd w) -> alarms_ok (snd w')).
      { induction 1; auto. intros. apply IHdfs_all. eapply (proj1 ip_alarms); eauto. }
      destruct (KA _ _ _ C K) as [_ H]. cbn [snd] in H. intros f Hf. apply H. auto.
    + (* soundness *)
      assert (KA : forall fs w w', iall fs w w' -> (forall g, ip_frame (m0 g) (snd w g)) ->
          exact_below [] (fst w) (snd w) -> exact_below [] (fst w') (snd w')).
      { induction 1 as [w|f t w w' HS HD IH|f t w w1 w' HS HD1 HD IH]; auto.
        intros HF HE. destruct (proj1 ip_untouched _ _ _ HD1 HS) as [_ U2].
        apply IH.
        - intros g. eapply ip_frame_trans; [apply HF|apply U2].
        - eapply (proj1 ip_sound); eauto; [intros x []|intros s []]. }
      intros f Hf NMR RB.
      refine (KA _ _ _ C _ _ f _ _ NMR RB); cbn [fst snd].
      * auto using ip_frame_refl.
      * intros g [].
      * apply F; auto.
      * intros [].
    + (* the first function *)
      intros f rest Ef RB. rewrite Ef in C. inversion C as [|f' t w w' HS HD|f' t w w1 w' HS HD1 HD];
        subst; [destruct HS|]. cbn [fst] in HS. rewrite <- Ef in HD1, HD.
      destruct (proj1 ip_descend _ _ _ HD1 HS (fun g => ip_frame_refl _)) as [I1 I2].
      cbn [fst snd] in I1, I2.
      pose proof (proj1 (dfs_grow _ _ _ _ _ _ _) _ _ _ HD1 f (or_introl eq_refl)) as Gf.
      destruct (iall_untouched _ _ _ HD) as [U1 _]. cbn [snd] in U1. rewrite U1 by auto.
      destruct RB as (g & R & Bd). apply (I1 g); auto.
      clear - I2 Gf R.
      induction R as [f|f c g Hc Hr IH]; auto. apply IH. apply (I2 f); auto.
    + (* own faults *)
      assert (KA : forall fs w w', iall fs w w' -> (forall g, ip_frame (m0 g) (snd w g)) ->
          forall g, In g (fst w') -> ~ In g (fst w) -> bad (m0 g) -> s_writes (snd w' g) = true).
      { induction 1 as [w|f t w w' HS HD IH|f t w w1 w' HS HD1 HD IH]; intros HF g Hg HNg HB.
        - contradiction.
        - apply IH; auto.
        - destruct (proj1 ip_untouched _ _ _ HD1 HS) as [_ U2].
          destruct (in_dec Nat.eq_dec g (fst w1)) as [I|I].
          + rewrite (proj1 (iall_untouched _ _ _ HD)) by auto. eapply (proj1 ip_own); eauto.
          + apply IH; auto. intros x. eapply ip_frame_trans; [apply HF|apply U2]. }
      intros f Hf HB. apply (KA _ _ _ C); cbn [fst snd]; auto using ip_frame_refl.
Qed.
End RUN.
End IP.
