(** * P_Heap: properties C43 - C46 (heap write analysis) *)
From Coq Require Import ZArith Bool Lia ZifyBool ZifyNat Arith String List.
From Verif Require Import Machine Jit Dfs Binary MemPasses Reach Components P_Cfg Heap HeapFacts HeapRun ExCode P_Paths.
Import ListNotations.
Open Scope Z_scope.

(** ** What abstract locations mean *)
(** Where a value comes from: an allocation, an argument, the value a register or a
    stack slot had when the function was entered, a constant, or anything else. *)
Inductive prov := PHeap | PArg | PReg (r : hreg) | PSlot (h : Z) | PConst | POther.
(** Values the analysis does not follow *)
Definition untracked (p : prov) : Prop :=
  match p with PReg _ | PSlot _ | PConst => True | _ => False end.
Definition ty_covers (t : lty) (p : prov) : Prop :=
  untracked p \/
  match t with
  | TOP => True
  | HEAP => p = PHeap
  | ARG => p = PArg
  | HEAP_OR_ARG => p = PHeap \/ p = PArg
  | STACK | BOTTOM => False
  end.
(** The values a register or the contents of a slot may have *)
Definition covers (k : hloc) (o : option aloc) (p : prov) : Prop :=
  match o with
  | None => untracked p
  | Some a => match k with HR _ => ty_covers (a_ty a) p | HS _ => ty_covers (a_ty (point_to a)) p end
  end.
Definition same_meaning (k : hloc) (a b : aloc) : Prop :=
  forall p, covers k (Some a) p <-> covers k (Some b) p.
Definition below (k : hloc) (a b : aloc) : Prop :=
  forall p, covers k (Some a) p -> covers k (Some b) p.

(** ** C43 *)
(** The values stored for a register are those without a pointer, for a slot of the
    frame the stack location of that height, possibly pointing to one of the former. *)
Lemma meet_val_ok k a b : vval k a -> vval k b -> exists m, meet a b = Some m /\ vval k m.
Proof.
  destruct k; cbn [vval]; intros A B.
  - destruct (meet_flat a b A B) as (m & E & V & _). eauto.
  - destruct (meet_stk _ a b A B) as (m & E & V & _). eauto.
Qed.
Lemma flat_lub a b : vflat a -> vflat b -> exists m, meet a b = Some m /\ vflat m /\
  (forall p, ty_covers (a_ty a) p -> ty_covers (a_ty m) p) /\
  (forall p, ty_covers (a_ty b) p -> ty_covers (a_ty m) p) /\
  (forall u, vflat u -> (forall p, ty_covers (a_ty a) p -> ty_covers (a_ty u) p) ->
     (forall p, ty_covers (a_ty b) p -> ty_covers (a_ty u) p) ->
     forall p, ty_covers (a_ty m) p -> ty_covers (a_ty u) p).
Proof.
  intros A B. destruct (meet_flat a b A B) as (m & E & V & _). exists m. split; auto. split; auto.
  flats; cbn in E; try discriminate;
    (split; [unfold ty_covers; cbn; intuition|split; [unfold ty_covers; cbn; intuition|]]);
    intros u U H1 H2 p H; flats; cbn in *; auto;
    try (specialize (H1 PHeap); specialize (H2 PArg); unfold ty_covers in *; cbn in *; intuition congruence);
    try (specialize (H1 PArg); specialize (H2 PHeap); unfold ty_covers in *; cbn in *; intuition congruence);
    try (specialize (H1 POther); specialize (H2 POther); unfold ty_covers in *; cbn in *; intuition congruence).
Qed.
Lemma cov_ty k a p : vval k a -> (covers k (Some a) p <->
  ty_covers (match k with HR _ => a_ty a | HS _ => a_ty (point_to a) end) p).
Proof. destruct k; cbn; tauto. Qed.
Lemma meet_point h a b m : vstk h a -> vstk h b -> meet a b = Some m ->
  exists m', meet (point_to a) (point_to b) = Some m' /\ a_ty (point_to m) = a_ty m'.
Proof.
  intros A B E. pose proof (point_flat _ _ B) as PB. apply vstk_inv in A. destruct A as (p & -> & P).
  rewrite meet_stk_eq in E by auto. destruct p as [q|].
  - cbn [point_to a_pt]. destruct (meet q (point_to b)) as [q'|] eqn:M; [|discriminate]. injection E as <-.
    exists q'. auto.
  - injection E as <-. cbn [point_to a_pt]. revert PB. generalize (point_to b). intros x PB. flats; eexists; split; reflexivity.
Qed.

(** Full claim: as below, and [aeqb] (operator==) of the two orders of a merge. *)
Theorem C43_laws_partial k a b c : vval k a -> vval k b -> vval k c ->
  (* the failing branch is never reached and the result is again such a value *)
  (exists m, meet a b = Some m /\ vval k m /\
     (* it is the least upper bound *)
     below k a m /\ below k b m /\ (forall u, vval k u -> below k a u -> below k b u -> below k m u)) /\
  (* idempotent *)
  (exists m, meet a a = Some m /\ aeqb m a = true) /\
  (* commutative, up to meaning *)
  (exists m m', meet a b = Some m /\ meet b a = Some m' /\ same_meaning k m m') /\
  (* associative *)
  (exists ab bc m m', meet a b = Some ab /\ meet b c = Some bc /\ meet ab c = Some m /\ meet a bc = Some m' /\
     aeqb m m' = true).
Proof.
  intros A B C.
  assert (LUB : forall x y, vval k x -> vval k y -> exists m, meet x y = Some m /\ vval k m /\
     below k x m /\ below k y m /\ (forall u, vval k u -> below k x u -> below k y u -> below k m u)).
  { intros x y X Y. destruct k; cbn [vval] in X, Y.
    - destruct (flat_lub x y X Y) as (m & E & V & H1 & H2 & H3). exists m. auto.
    - destruct (meet_stk _ x y X Y) as (m & E & V & _). exists m. split; auto. split; auto.
      destruct (meet_point _ x y m X Y E) as (m' & E' & T).
      destruct (flat_lub _ _ (point_flat _ _ X) (point_flat _ _ Y)) as (m2 & E2 & V2 & H1 & H2 & H3).
      rewrite E' in E2. injection E2 as <-. unfold below, covers. rewrite T. split; auto. split; auto.
      intros u Vu U1 U2. apply (H3 (point_to u)); auto. eapply point_flat. exact Vu. }
  split; [apply LUB; auto|]. split; [|split].
  - destruct k; cbn [vval] in A.
    + flats; eexists; split; reflexivity.
    + pose proof A as A'. apply vstk_inv in A. destruct A as (p & -> & P). rewrite meet_stk_eq by auto.
      destruct p as [q|]; cbn [point_to a_pt].
      * flats; eexists; (split; [reflexivity|]); cbn; rewrite ?Z.eqb_refl; reflexivity.
      * eexists; (split; [reflexivity|]); cbn; rewrite ?Z.eqb_refl; reflexivity.
  - destruct (LUB a b A B) as (m & E & V & H1 & H2 & H3). destruct (LUB b a B A) as (m' & E' & V' & H1' & H2' & H3').
    exists m, m'. split; auto. split; auto. intros p. split; [apply H3|apply H3']; auto.
  - destruct k; cbn [vval] in A, B, C.
    + flats; do 4 eexists; repeat (split; [reflexivity|]); reflexivity.
    + pose proof A as A'. pose proof B as B'. pose proof C as C'. pose proof (point_flat _ _ C) as PC.
      apply vstk_inv in A, B. destruct A as (p & -> & P), B as (q & -> & Q). rewrite meet_stk_eq by auto.
      destruct (meet_stk h _ c B' C') as (bc & EB & VB & _). destruct (meet_point _ _ _ _ B' C' EB) as (pb & EP & TP).
      pose proof (point_flat _ _ VB) as PV.
      assert (AX : point_to bc = flat (a_ty pb)).
      { destruct PV as [_ ->]. rewrite TP. reflexivity. }
      destruct p as [p|].
      * assert (Q2 : exists pq, meet p (point_to (AL STACK h q)) = Some pq /\ vflat pq).
        { destruct (meet_flat p (point_to (AL STACK h q)) P (point_flat _ _ B')) as (pq & Epq & Vpq & _). eauto. }
        destruct Q2 as (pq & Epq & Vpq). rewrite Epq.
        assert (F : exists m m', meet pq (point_to c) = Some m /\ meet p (point_to bc) = Some m' /\ aeqb m m' = true).
        { rewrite AX. pose proof (point_flat _ _ B') as PQ. revert EP Epq PC PQ.
          generalize (point_to c), (point_to (AL STACK h q)). intros x y EP Epq PC PQ. clear -P Vpq EP Epq PC PQ.
          flats; cbn in EP, Epq; injection EP as <-; try discriminate; do 2 eexists; repeat (split; [reflexivity|]); reflexivity. }
        destruct F as (m & m' & F1 & F2 & F3).
        exists (AL STACK h (Some pq)), bc, (AL STACK h (Some m)), (AL STACK h (Some m')).
        split; [reflexivity|]. split; [exact EB|]. rewrite !meet_stk_eq by auto. rewrite F1, F2.
        split; [reflexivity|]. split; [reflexivity|]. cbn [aeqb]. unfold lty_eqb. cbn. rewrite Z.eqb_refl. exact F3.
      * exists (AL STACK h None), bc, (AL STACK h None), (AL STACK h None). split; auto. split; auto.
        rewrite !meet_stk_eq by auto. split; auto. split; auto. cbn. rewrite Z.eqb_refl. reflexivity.
Qed.
Example C43_case : let a := AL STACK (-24) (Some (flat HEAP)) in let b := AL STACK (-24) (Some (flat ARG)) in
  vval (HS (-24)) a /\ vval (HS (-24)) b /\ meet a b = Some (AL STACK (-24) (Some (flat HEAP_OR_ARG))).
Proof. cbn. repeat split; discriminate. Qed.

(** operator== tells apart a slot that points to an explicit TOP from one without
    pointer, so merging in the two orders gives different values. *)
Theorem C43_refuted : exists k a b m m', vval k a /\ vval k b /\
  meet a b = Some m /\ meet b a = Some m' /\ aeqb m m' = false.
Proof.
  exists (HS (-24)), (stack_loc (-24)), (AL STACK (-24) (Some (flat HEAP))), (stack_loc (-24)), (AL STACK (-24) (Some a_top)).
  repeat split; discriminate.
Qed.

(** The same for arbitrary abstract locations, including those the analysis never stores:
    whenever the merge is defined, it covers what both arguments cover. A value is a heap
    pointer, an argument, the address of a slot together with what the slot contains, or
    something else. *)
Inductive aval := VHeap | VArg | VSlot (h : Z) (w : aval) | VElse.
Fixpoint den (a : aloc) (v : aval) {struct a} : Prop :=
  let '(AL t h p) := a in
  match t with
  | TOP => True
  | BOTTOM => False
  | HEAP => v = VHeap
  | ARG => v = VArg
  | HEAP_OR_ARG => v = VHeap \/ v = VArg
  | STACK => exists w, v = VSlot h w /\ match p with None => True | Some q => den q w end
  end.
Fixpoint depth (a : aloc) : nat := let '(AL _ _ p) := a in match p with None => 0 | Some q => S (depth q) end.
Theorem C43_upper : forall a b m, meet a b = Some m -> forall v, den a v \/ den b v -> den m v.
Proof.
  intros a. remember (depth a) as n eqn:D. revert a D.
  induction n as [n IH] using lt_wf_ind. intros [t h p] D b m E v H.
  assert (AS : forall x y, assign x = Some y -> y = x).
  { intros x y. unfold assign. destruct (a_pt x) as [q|]; [destruct (a_pt q); [discriminate|]|]; congruence. }
  destruct b as [t' h' p']. cbn [meet a_ty a_ht] in E.
  destruct (lty_eqb t TOP || lty_eqb t' TOP)%bool eqn:E1; [injection E as <-; exact I|].
  destruct (lty_eqb t BOTTOM) eqn:E2.
  { destruct t; try discriminate. apply AS in E. subst m. destruct H as [[]|H]; exact H. }
  destruct (lty_eqb t' BOTTOM) eqn:E3.
  { destruct t'; try discriminate. injection E as <-. destruct H as [H|[]]; exact H. }
  destruct (lty_eqb t' t) eqn:E4.
  - assert (t' = t) by (destruct t, t'; try discriminate; reflexivity). subst t'.
    destruct (lty_eqb t STACK) eqn:E5.
    + assert (t = STACK) by (destruct t; try discriminate; reflexivity). subst t.
      destruct (negb (h =? h')) eqn:E6; [injection E as <-; exact I|].
      assert (h' = h) by lia. subst h'.
      destruct p as [q|].
      * destruct (meet q (point_to (AL STACK h p'))) as [q'|] eqn:M; [|discriminate]. injection E as <-.
        assert (K : forall w, den q w \/ den (point_to (AL STACK h p')) w -> den q' w).
        { intros w Hw. eapply (IH (depth q)); [subst n; cbn; lia|reflexivity|exact M|exact Hw]. }
        cbn [den] in *. destruct H as [(w & -> & H)|(w & -> & H)]; exists w; (split; [auto|]); apply K; auto.
        right. unfold point_to. cbn [a_pt]. destruct p'; [auto|exact I].
      * injection E as <-. cbn [den] in *. destruct H as [(w & -> & H)|(w & -> & H)]; eauto.
    + injection E as <-. destruct H as [H|H]; destruct t; try discriminate; exact H.
  - destruct t, t'; try discriminate; injection E as <-; cbn [den flat] in *; tauto.
Qed.
(** Slots at different heights, and a slot whose content is unknown on one side. *)
Example C43_upper_case :
  meet (AL STACK (-24) (Some (flat HEAP))) (AL STACK (-16) None) = Some a_top /\
  meet (AL STACK (-24) (Some (flat HEAP))) (AL STACK (-24) None) = Some (AL STACK (-24) (Some a_top)) /\
  den (AL STACK (-24) (Some (flat HEAP))) (VSlot (-24) VHeap) /\ ~ den (AL STACK (-16) None) (VSlot (-24) VHeap).
Proof. repeat split; cbn; eauto. intros (w & E & _). discriminate. Qed.

(** ** C44 *)
(** Input: a control flow graph as for C47, loops consisting of blocks of the function,
    and no block without instructions. *)
Definition heap_input (co : code) (fn : nat) : Prop :=
  cfg_input co fn /\
  (forall l b, In l (f_loops (co_fun co fn)) -> In b l -> In b (f_blocks (co_fun co fn))) /\
  (forall b, In b (f_blocks (co_fun co fn)) -> b_insns (co_block co b) <> []).
(** The entry block is a single instruction and its own successor *)
Definition lone_entry (co : code) (fn : nat) : Prop :=
  let en := f_entry (co_fun co fn) in
  List.length (b_insns (co_block co en)) = 1%nat /\ exists e, In e (b_targets (co_block co en)) /\ e_trg e = en.

Section ALL.
Variable co : code.
Variable fn : nat.
Variable s : summary.
Variables hdst hsrc : insn -> hreg.
Hypothesis INP : heap_input co fn.
Notation inv := (hinv co fn s hdst hsrc).

Lemma comps_term comps : ~ lone_entry co fn -> (forall c, In c comps -> c <> [] /\ incl c (f_blocks (co_fun co fn))) ->
  forall st, inv st -> exists fuel st', inv st' /\
    forall k, analyse_all co fn s hdst hsrc (fuel + k) comps st = HDone st'.
Proof.
  intros LONE. induction comps as [|c r IH]; intros H st I; cbn [analyse_all].
  - exists 0%nat, st. auto.
  - destruct (H c (or_introl eq_refl)) as [NE IN]. destruct c as [|b c]; [congruence|]. cbn [analyse_blocks].
    destruct (update_ok co fn s hdst hsrc b st I) as (U1 & _ & U3 & _). destruct (update co fn b st) as [st1 [me ps]]. cbn [fst snd] in *. subst me.
    destruct INP as (_ & _ & FULL).
    assert (EN : List.length (h_insns co (f_entry (co_fun co fn))) = 1%nat ->
      forall e, In e (b_targets (co_block co (f_entry (co_fun co fn)))) -> e_trg e <> f_entry (co_fun co fn)).
    { intros L e He Q. apply LONE. split; eauto. }
    assert (WI : Forall (witem co fn) [((b, 0%nat), ps)]).
    { constructor; auto. apply first_item; auto. apply IN. left. auto. }
    destruct (work_term co fn s hdst hsrc (b :: c) IN FULL EN _ st1 _ U1 WI (Nat.le_refl _)) as (f1 & st2 & E1 & I2).
    destruct (IH (fun c' Hc => H c' (or_intror Hc)) st2 I2) as (f2 & st3 & I3 & E3).
    exists (f1 + f2)%nat, st3. split; auto. intros k.
    replace (f1 + f2 + k)%nat with (f1 + (f2 + k))%nat by lia.
    rewrite (work_mono co fn s hdst hsrc (b :: c) f1 st1 _ st2 E1 (f2 + k)%nat).
    replace (f1 + (f2 + k))%nat with (f2 + (f1 + k))%nat by lia. apply E3.
Qed.
Lemma comps_safe fuel comps : (forall c, In c comps -> c <> [] /\ incl c (f_blocks (co_fun co fn))) ->
  forall st, inv st -> match analyse_all co fn s hdst hsrc fuel comps st with HDone st' => inv st' | HAbort => False | HNoFuel => True end.
Proof.
  induction comps as [|c r IH]; intros H st I; cbn [analyse_all]; auto.
  destruct (H c (or_introl eq_refl)) as [NE IN]. destruct c as [|b c]; [congruence|]. cbn [analyse_blocks].
  destruct (update_ok co fn s hdst hsrc b st I) as (U1 & _ & U3 & _). destruct (update co fn b st) as [st1 [me ps]]. cbn [fst snd] in *. subst me.
  destruct INP as (_ & _ & FULL).
  assert (WI : Forall (witem co fn) [((b, 0%nat), ps)]).
  { constructor; auto. apply first_item; auto. apply IN. left. auto. }
  pose proof (work_safe co fn s hdst hsrc (b :: c) IN FULL fuel st1 _ U1 WI) as K.
  destruct (h_work co fn s hdst hsrc fuel (b :: c) st1 _) as [st2| |]; auto. apply IH; auto.
  intros c' Hc. apply H. right. auto.
Qed.
Lemma fold_sins_in l x : In x (fold_right sins [] l) <-> In x l.
Proof. induction l as [|a l IH]; cbn; [tauto|]. rewrite sins_in, IH. intuition. Qed.
Lemma comp_in (f : cst -> list (nat * nat)) st c x :
  In x (fold_right sins [] (map snd (filter (fun p => Nat.eqb (fst p) c) (f st)))) <-> In (c, x) (f st).
Proof.
  rewrite fold_sins_in, in_map_iff. split.
  - intros ([c' x'] & E & H). cbn in E. subst x'. apply filter_In in H. destruct H as [H Q]. cbn in Q.
    apply Nat.eqb_eq in Q. subst. auto.
  - intros H. exists (c, x). split; auto. apply filter_In. split; auto. cbn. apply Nat.eqb_refl.
Qed.
(** PostOrderTraverse visits components that have blocks. *)
Lemma rpo_ok root st : winv co fn st -> (exists b, c_map st b = Some root) ->
  exists vis order, rpo st root = Ok (vis, order) /\ forall c, In c order -> exists b, In (c, b) (c_blks st).
Proof.
  intros W (b0 & Hb0).
  assert (KID : forall c c', In c' (comp_kids st c) -> exists b, c_map st b = Some c').
  { intros c c' H. unfold comp_kids in H. rewrite (comp_in c_kids st c c') in H.
    destruct (w_kids _ _ _ W _ _ H) as (_ & a & t & _ & _ & M). eauto. }
  set (pre := fun (c : nat) (l : list nat) => (l, tt, comp_kids st c)).
  set (before := fun (_ _ : nat) (l : list nat) => l).
  set (after := fun (_ _ : nat) (_ : bool) (u : unit) (l : list nat) => (u, l)).
  set (post := fun (c : nat) (_ : unit) (l : list nat) => c :: l).
  assert (KN : forall c b, c_map st b = Some c -> In c (seq 0 (c_next st))).
  { intros c b M. apply in_seq. apply (w_next _ _ _ W) in M. lia. }
  destruct (visit_dfs (list nat) unit (seq 0 (c_next st)) pre before after post (fun _ => True)) with
    (fuel := S (c_next st)) (f := root) (vis := @nil nat) (st := @nil nat) as (vis & order & E & _ & D & _); auto.
  - intros f l _ _ x Hx. cbn in Hx. apply KID in Hx. destruct Hx as (b & M). eauto.
  - constructor.
  - intros x [].
  - eauto.
  - rewrite seq_length. cbn. lia.
  - exists vis, order. split; [exact E|]. intros c Hc.
    assert (Q : forall c, In c order -> exists b, c_map st b = Some c).
    2:{ destruct (Q c Hc) as (b & M). exists b. apply (w_blks _ _ _ W). auto. }
    clear E Hc. set (P := fun c => exists b, c_map st b = Some c) in *.
    assert (G : (forall f w w', dfs (list nat) unit (seq 0 (c_next st)) pre before after post f w w' ->
        P f -> (forall c, In c (snd w) -> P c) -> forall c, In c (snd w') -> P c) /\
      (forall f ch vis l u vis' l' u', dfs_loop (list nat) unit (seq 0 (c_next st)) pre before after post f ch vis l u vis' l' u' ->
        (forall c, In c ch -> P c) -> (forall c, In c l -> P c) -> forall c, In c l' -> P c)).
    { apply dfs_mutind.
      - intros f vis0 l l1 u ch vis2 l2 u2 EP _ IH Pf Pl x Hx. cbn in EP. injection EP as <- _ <-.
        destruct Hx as [<-|Hx]; auto. apply (IH (fun c Hc => KID f c Hc) Pl x Hx).
      - intros f vis0 l u _ Pl. auto.
      - intros f x t vis0 l u u' l' vis2 l2 u2 _ _ EA _ IH Pc Pl. cbn in EA. injection EA as _ <-.
        apply IH; auto. intros y Hy. apply Pc. right. auto.
      - intros f x t vis0 l u vis1 l1 u' l' vis2 l2 u2 _ _ _ IH1 EA _ IH Pc Pl. cbn in EA. injection EA as _ <-.
        apply IH; [intros y Hy; apply Pc; right; auto|]. cbn [snd] in IH1. apply IH1; auto. apply Pc. left. auto. }
    destruct G as [G _]. apply (G _ _ _ D); [exists b0; auto|intros x []].
Qed.
Lemma comp_blocks_in st : winv co fn st -> (forall x, In x (c_vis st) <-> flows co (f_entry (co_fun co fn)) x) ->
  forall b c, In (c, b) (c_blks st) -> In b (f_blocks (co_fun co fn)).
Proof.
  intros W V b c H. apply (w_blks _ _ _ W) in H. destruct INP as ((HE & CL & _) & LP & _).
  destruct (w_in _ _ _ W _ _ H) as [K|(l & Hl & Hb & _)]; [|eauto]. apply V in K. clear -K HE CL.
  induction K as [|x y K IH F]; auto. eapply CL; [|exact F]. apply IH.
Qed.
(** The components in the order they are analysed *)
Lemma order_ok : s_assume_unsafe s = false -> s_unknown_cf s = false ->
  exists comps, (forall fuel, heap_analysis co fn s hdst hsrc fuel = Some (analyse_all co fn s hdst hsrc fuel comps hst0)) /\
    forall c, In c comps -> c <> [] /\ incl c (f_blocks (co_fun co fn)).
Proof.
  intros A1 A2. pose proof INP as ((HE & CL & D) & LP & FULL).
  destruct (cfg_ok_thm co fn CL s D HE A1 A2) as (root & st & E & W & ER & V & _).
  destruct (rpo_ok root st W (ex_intro _ _ ER)) as (vis & order & R & O).
  exists (map (comp_blocks st) order). split.
  - intros fuel. unfold heap_analysis. rewrite E, R. reflexivity.
  - intros c Hc. apply in_map_iff in Hc. destruct Hc as (k & <- & Hk). destruct (O k Hk) as (b & Hb).
    assert (Q : forall x, In x (comp_blocks st k) <-> In (k, x) (c_blks st)) by (intros x; apply (comp_in c_blks)).
    split.
    + intros K. apply Q in Hb. rewrite K in Hb. destruct Hb.
    + intros x Hx. apply Q in Hx. eapply comp_blocks_in; eauto.
Qed.
End ALL.

(** Every value stored is one of those of [C43_laws_partial], and no assertion fails,
    whether or not the analysis terminates. *)
Theorem C43_stored co fn s hdst hsrc fuel : heap_input co fn ->
  s_assume_unsafe s = false -> s_unknown_cf s = false ->
  heap_analysis co fn s hdst hsrc fuel <> Some HAbort /\
  forall st, heap_analysis co fn s hdst hsrc fuel = Some (HDone st) ->
    forall b i k a, st b i k = Some a -> vval k a.
Proof.
  intros I A1 A2. destruct (order_ok co fn s hdst hsrc I A1 A2) as (comps & E & OK). rewrite E.
  pose proof (comps_safe co fn s hdst hsrc I fuel comps OK hst0 (hinv0 _ _ _ _ _)) as K.
  destruct (analyse_all _ _ _ _ _ _ _ _) as [st'| |]; [|contradiction|]; (split; [discriminate|]); intros st Q; [|discriminate].
  injection Q as <-. intros b i k a Ha. pose proof (proj1 K b i k) as V. rewrite Ha in V. exact V.
Qed.

(** Missing: functions whose entry block is one instruction that jumps (or calls) to itself. *)
Theorem C44_terminates_partial co fn s hdst hsrc : heap_input co fn -> ~ lone_entry co fn ->
  s_assume_unsafe s = false -> s_unknown_cf s = false ->
  exists fuel st, forall k, heap_analysis co fn s hdst hsrc (fuel + k) = Some (HDone st).
Proof.
  intros I L A1 A2. destruct (order_ok co fn s hdst hsrc I A1 A2) as (comps & E & OK).
  destruct (comps_term co fn s hdst hsrc I comps L OK hst0 (hinv0 _ _ _ _ _)) as (fuel & st & _ & R).
  exists fuel, st. intros k. rewrite E, R. reflexivity.
Qed.

(** A function that starts with the instruction LOOP to itself: at every visit the
    count register is an argument before and unknown after the instruction. *)
Definition w_insn (a : Z) (op : opid) (w : list reg) : insn :=
  mkInsn a op false false false [] (map (fun r => MG r P64) w) [] [] [] [] None.
Definition t_spin (b : nat) : list edge := match b with O => [ct_e 0; cn_e 1] | _ => [ret_e] end.
Definition co_spin : code :=
  mkCode [0]%nat (fun _ => mkFunc "f" 100 0 [0; 1]%nat [1]%nat [1]%nat [[0]%nat])
    (fun b => xblock b (t_spin b) (match b with O => [w_insn 100 OOther [RCX]] | _ => [w_insn 200 ORet [RSP]] end))
    (fun _ => [0]%nat) (fun _ => None).
Definition no_reg (i : insn) : hreg := RNone.
Lemma co_spin_input : heap_input co_spin 0.
Proof.
  split; [|split].
  - split; [cbn; auto|]. split.
    + intros a t _ (e & He & <- & F). destruct a as [|a]; cbn in He.
      * destruct He as [<-|[<-|[]]]; cbn; auto.
      * destruct He as [<-|[]]. cbn. auto.
    + intros i j l l' b Hi Hj _ _. cbn in Hi, Hj. destruct i as [|[|i]], j as [|[|j]]; auto; discriminate.
  - intros l b [<-|[]] [<-|[]]. cbn. auto.
  - intros [|b] _; discriminate.
Qed.
Lemma eqb_false U c d k : In k U -> opt_eqb (c k) (d k) = false -> ctx_eqb U c d = false.
Proof.
  intros H E. unfold ctx_eqb. destruct (forallb _ U) eqn:F; auto. rewrite forallb_forall in F.
  rewrite (F k H) in E. discriminate.
Qed.
Lemma spin fuel : forall st, st 0%nat 0%nat (HG RCX) = Some (flat ARG) ->
  h_work co_spin 0 summary0 no_reg no_reg fuel [0]%nat st [((0, 0)%nat, [])] = HNoFuel.
Proof.
  induction fuel as [|n IH]; intros st H; [reflexivity|]. cbn [h_work].
  change (process co_spin 0 summary0 no_reg no_reg st (0, 0)%nat []) with (Some (hset (st 0%nat 0%nat) (HG RCX) a_top)).
  cbn [fst snd]. rewrite (eqb_false _ _ _ (HG RCX)); [|cbn; auto|rewrite H; reflexivity].
  change (follow co_spin 0 [0]%nat (0, 0)%nat ?x) with
    (hput x 0 0 (fold_left set_arg arg_regs (x 0%nat 0%nat)), [((0, 0)%nat, @nil cid)]).
  cbn [app]. apply IH. rewrite !hput_same. reflexivity.
Qed.
Theorem C44_refuted : exists co fn s hdst hsrc, heap_input co fn /\ s_assume_unsafe s = false /\ s_unknown_cf s = false /\
  forall fuel, heap_analysis co fn s hdst hsrc fuel = Some HNoFuel.
Proof.
  exists co_spin, 0%nat, summary0, no_reg, no_reg. split; [apply co_spin_input|]. split; auto. split; auto.
  intros fuel. change (heap_analysis co_spin 0 summary0 no_reg no_reg fuel) with
    (Some (analyse_all co_spin 0 summary0 no_reg no_reg fuel [[0]%nat; [1]%nat] hst0)).
  pose proof (spin fuel (hput hst0 0 0 (fold_left set_arg arg_regs hctx0)) eq_refl) as S.
  cbn [analyse_all].
  assert (analyse_blocks co_spin 0 summary0 no_reg no_reg fuel [0]%nat hst0 = HNoFuel) as -> by exact S. reflexivity.
Qed.
Example C44_case : exists co fn, heap_input co fn /\ ~ lone_entry co fn /\ f_loops (co_fun co fn) <> [].
Proof.
  exists (mkCode [0]%nat (fun _ => mkFunc "f" 100 0 [0; 1]%nat [1]%nat [1]%nat [[0]%nat])
    (fun b => xblock b (t_spin b) (match b with O => [w_insn 100 OOther [RAX]; w_insn 104 OOther [RCX]] | _ => [w_insn 200 ORet [RSP]] end))
    (fun _ => [0]%nat) (fun _ => None)), 0%nat.
  split; [|split; [intros [H _]; discriminate|discriminate]].
  split; [|split].
  - split; [cbn; auto|]. split.
    + intros a t _ (e & He & <- & F). destruct a as [|a]; cbn in He.
      * destruct He as [<-|[<-|[]]]; cbn; auto.
      * destruct He as [<-|[]]. cbn. auto.
    + intros i j l l' b Hi Hj _ _. cbn in Hi, Hj. destruct i as [|[|i]], j as [|[|j]]; auto; discriminate.
  - intros l b [<-|[]] [<-|[]]. cbn. auto.
  - intros [|b] _; discriminate.
Qed.

(** ** C45 *)
(** Executions, as far as the origin of values is concerned.  A store whose address
    is not known to be a stack slot is taken not to change the slots, and slots do
    not overlap. *)
Definition pstate := hloc -> prov.
Section EXEC.
Variable co : code.
Variable fn : nat.
Variable s : summary.
Variables hdst hsrc : insn -> hreg.
Notation blocks := (f_blocks (co_fun co fn)).
Notation entry := (f_entry (co_fun co fn)).
Notation insns b := (b_insns (co_block co b)).
Definition same_but (ks : list hloc) (p p' : pstate) : Prop := forall k, ~ In k ks -> p' k = p k.
Definition written_regs (i : insn) : list hloc :=
  flat_map (fun m => match m with MG r _ => [HG r] | _ => [] end) (i_written i).
(** All targets of the call are malloc or operator new[] *)
Definition alloc_call (b : nat) : Prop :=
  forall e, In e (b_targets (co_block co b)) -> e_ty e = CALL -> e_sink e = false ->
    exists n, co_link co (b_start (co_block co (e_trg e))) = Some n /\ (n = "malloc" \/ String.prefix "_Zna" n = true)%string.
Definition pstep (b : nat) (i : insn) (p p' : pstate) : Prop :=
  let dst := HR (hdst i) in
  let slots := zfind (s_stack_heights s) (i_addr i) in
  let unknown := same_but (written_regs i) p p' in
  match i_op i with
  | OCall =>
      same_but (map (fun r => HG r) [RAX; RCX; RDX; RSI; RDI; R8; R9; R10; R11]) p p' /\ (alloc_call b -> p' (HG RAX) = PHeap)
  | OMov =>
      if hreg_eq_dec (hdst i) RNone then same_but [] p p'
      else if i_rmem i then
        same_but [dst] p p' /\ match slots with Some (h, _) => p' dst = p (HS h) | None => True end
      else if i_wmem i then
        match slots with
        | Some (_, h) => same_but [HS h] p p' /\
            (if hreg_eq_dec (hsrc i) RNone then p' (HS h) = PConst else p' (HS h) = p (HR (hsrc i)))
        | None => same_but [] p p'
        end
      else same_but [dst] p p' /\ (hsrc i <> RNone -> p' dst = p (HR (hsrc i)))
  | OLea =>
      match hsrc i, hdst i with
      | RG r, RG _ => same_but [dst] p p' /\ p' dst = p (HG r)
      | _, _ => unknown
      end
  | _ => unknown
  end.
Definition entry_state (p : pstate) : Prop :=
  forall k, p k = match k with
                  | HR (RG r) => if existsb (reg_eqb r) [RDI; RSI; RDX; RCX; R8; R9] then PArg else PReg (RG r)
                  | HR r => PReg r
                  | HS h => PSlot h
                  end.
Definition hflow (a b : nat) : Prop :=
  exists e, In e (b_targets (co_block co a)) /\ e_trg e = b /\ e_inter e = false /\ e_ty e <> CATCH.
(** [before b i p]: an execution is about to execute instruction [i] of block [b] *)
Inductive before : nat -> nat -> pstate -> Prop :=
| be_entry p : entry_state p -> before entry 0 p
| be_next b i x p p' : before b i p -> nth_error (insns b) i = Some x -> pstep b x p p' ->
    (S i < List.length (insns b))%nat -> before b (S i) p'
| be_edge a b i x p p' : before a i p -> nth_error (insns a) i = Some x -> S i = List.length (insns a) ->
    pstep a x p p' -> hflow a b -> In b blocks -> before b 0 p'.

(** The facts computed are a solution of the flow equations: each covers the effect of
    its instruction on the facts of its predecessors. *)
Definition cle (c d : hctx) : Prop := forall k p, covers k (c k) p -> covers k (d k) p.
Definition covered (st : hstate) (c : hctx) (b i : nat) : Prop :=
  forall x, nth_error (insns b) i = Some x ->
  exists c', transfer co s hdst hsrc b x c = Some c' /\ cle c' (st b i).
Definition consistent (st : hstate) : Prop :=
  covered st (fold_left set_arg arg_regs hctx0) entry 0 /\
  (forall b i, In b blocks -> covered st (st b i) b (S i)) /\
  (forall a b, In a blocks -> In b blocks -> hflow a b -> covered st (st a (last_ix co a)) b 0).
(** Calls have one known target at most. *)
Definition one_call : Prop := forall b e e', In b blocks ->
  In e (b_targets (co_block co b)) -> In e' (b_targets (co_block co b)) ->
  e_ty e = CALL -> e_sink e = false -> e_ty e' = CALL -> e_sink e' = false -> e_trg e = e_trg e'.
(** A store, and not one of the other forms the transfer function looks at *)
Definition plain_write (i : insn) : Prop :=
  i_wmem i = true /\ i_op i <> OCall /\ i_op i <> OLea /\ (i_op i = OMov -> i_rmem i = false).

Definition sound (c : hctx) (p : pstate) : Prop := forall k, covers k (c k) (p k).
Lemma cov_unt k o p : untracked p -> covers k o p.
Proof. destruct o as [a|]; cbn; auto. intros U. destruct k; left; auto. Qed.
Lemma cov_top r p : covers (HR r) (Some a_top) p.
Proof. right. exact I. Qed.
Lemma cov_get c r p : covers (HR r) (c (HR r)) p -> ty_covers (a_ty (hget c (HR r))) p.
Proof. unfold hget. destruct (c (HR r)); cbn; auto. left. auto. Qed.
Lemma get_cov c r p : covers (HR r) (c (HR r)) p -> covers (HR r) (Some (hget c (HR r))) p.
Proof. exact (cov_get c r p). Qed.
Lemma sound_set c p p' k v : sound c p -> same_but [k] p p' -> covers k (Some v) (p' k) -> sound (hset c k v) p'.
Proof.
  intros S N C k'. unfold hset. destruct (hloc_eq_dec k' k) as [->|D]; auto. rewrite N; [apply S|].
  intros [E|[]]. congruence.
Qed.
Lemma sound_same c p p' : sound c p -> same_but [] p p' -> sound c p'.
Proof. intros S N k. rewrite N; [apply S|intros []]. Qed.
Lemma sound_set_get c p r : sound c p -> sound (hset c (HR r) (hget c (HR r))) p.
Proof.
  intros S. eapply sound_set; eauto; [intros k _; reflexivity|]. apply get_cov. apply S.
Qed.
Lemma written_keys i : map (fun r => HG r) (wregs i) = written_regs i.
Proof. unfold wregs, written_regs. induction (i_written i) as [|[] l IH]; cbn; congruence. Qed.
Lemma sound_tops rs c p p' : sound c p -> same_but (map (fun r => HG r) rs) p p' ->
  sound (fold_left (fun c r => hset c (HG r) a_top) rs c) p'.
Proof.
  intros S N k. rewrite tops_at. destruct (existsb _ rs) eqn:E.
  - apply existsb_exists in E. destruct E as (r & _ & E). destruct (hloc_eq_dec k (HG r)) as [->|]; [|discriminate]. apply cov_top.
  - rewrite N; [apply S|]. intros H. apply in_map_iff in H. destruct H as (r & <- & Hr).
    assert (existsb (fun r0 => if hloc_eq_dec (HG r) (HG r0) then true else false) rs = true); [|congruence].
    apply existsb_exists. exists r. split; auto. destruct (hloc_eq_dec (HG r) (HG r)); congruence.
Qed.
Lemma sound_ensure c p h : sound c p -> sound (ensure c h) p.
Proof.
  intros S. unfold ensure. destruct (c (HS h)); auto. eapply sound_set; eauto; [intros k _; reflexivity|]. right. exact I.
Qed.
Lemma target_last ts : forall acc t,
  fold_left (fun acc e => if is (e_ty e) CALL && negb (e_sink e) then Some (e_trg e) else acc) ts acc = Some t ->
  acc = Some t \/ exists e, In e ts /\ e_ty e = CALL /\ e_sink e = false /\ e_trg e = t.
Proof.
  induction ts as [|e r IH]; cbn; intros acc t H; auto. apply IH in H.
  destruct H as [H|(e' & H1 & H2)]; [|right; exists e'; auto].
  destruct (is (e_ty e) CALL) eqn:T; cbn in H; auto. apply is_true in T. destruct (e_sink e) eqn:K; cbn in H; auto.
  right. exists e. repeat split; auto. congruence.
Qed.
Lemma allocates_spec b : one_call -> In b blocks -> allocates co b = true -> alloc_call b.
Proof.
  intros O B. unfold allocates, call_target. destruct (fold_left _ _ _) as [t|] eqn:F; [|discriminate].
  apply target_last in F. destruct F as [F|(e & H1 & H2 & H3 & H4)]; [discriminate|].
  intros H e' He' T' K'. rewrite (O b e' e) by auto. rewrite H4.
  destruct (co_link co (b_start (co_block co t))) as [n|]; [|discriminate]. exists n. split; auto.
  apply orb_prop in H. destruct H as [H|H]; auto. left. apply String.eqb_eq. exact H.
Qed.

Lemma transfer_sound b i c c' p p' : one_call -> In b blocks -> vctx c -> transfer co s hdst hsrc b i c = Some c' ->
  sound c p -> pstep b i p p' -> sound c' p'.
Proof.
  intros O B V T S P.
  assert (UNK : same_but (written_regs i) p p' -> sound (t_unknown i c) p').
  { intros N. unfold t_unknown. eapply sound_tops; eauto. rewrite written_keys. exact N. }
  unfold transfer, pstep in *. fold (heights s i) in P.
  destruct (i_op i); try (injection T as <-; auto; fail).
  - unfold t_mov in T. destruct (hreg_eq_dec (hdst i) RNone) as [D|D].
    { injection T as <-. eapply sound_same; eauto. }
    destruct (i_rmem i).
    { destruct (heights s i) as [[h h2]|].
      - destruct (ensure_stk c h V) as (a & EA & VA & _). unfold hget in T. rewrite EA in T.
        rewrite (assign_flat _ (point_flat _ _ VA)) in T. injection T as <-. destruct P as [N E].
        eapply sound_set; eauto using sound_ensure. rewrite E.
        pose proof (sound_ensure c p h S (HS h)) as K. rewrite EA in K. exact K.
      - injection T as <-. eapply sound_set; [exact S|apply P|apply cov_top]. }
    destruct (i_wmem i).
    { destruct (heights s i) as [[h2 h]|]; [|injection T as <-; eapply sound_same; eauto].
      destruct (ensure_stk c h V) as (a & EA & VA & _).
      set (v := hget (ensure c h) (HR (hsrc i))) in *.
      assert (VV : vflat v) by (apply hget_v, ensure_v; auto).
      unfold hget in T at 1. rewrite hset_other in T by discriminate. rewrite EA, (set_point_v h a v VA VV) in T.
      injection T as <-. destruct P as [N E]. eapply sound_set; [|exact N|].
      - unfold v. apply sound_set_get. apply sound_ensure. exact S.
      - destruct (hreg_eq_dec (hsrc i) RNone); [rewrite E; apply cov_unt; exact I|]. rewrite E.
        assert (K : ty_covers (a_ty v) (p (HR (hsrc i)))) by (apply cov_get; apply sound_ensure; auto).
        unfold canon. destruct (aeqb v a_top) eqn:Q; [right; exact I|exact K]. }
    destruct (hreg_eq_dec (hsrc i) RNone) as [SN|SN].
    { injection T as <-. eapply sound_set; [exact S|apply P|apply cov_top]. }
    rewrite (assign_flat _ (hget_v c (hsrc i) V)) in T. injection T as <-. destruct P as [N E].
    eapply sound_set; [apply sound_set_get; exact S|exact N|]. rewrite (E SN). apply get_cov. apply S.
  - unfold t_lea in T. destruct (hsrc i) as [r| |], (hdst i) as [r'| |]; cbn [is_gpr andb] in T; try (injection T as <-; auto; fail).
    rewrite (assign_flat _ (hget_v c (RG r) V)) in T. injection T as <-. destruct P as [N E].
    eapply sound_set; [exact S|exact N|]. rewrite E. apply get_cov. apply S.
  - injection T as <-. destruct P as [N E]. unfold t_call. intros k. unfold hset.
    destruct (hloc_eq_dec k (HG RAX)) as [->|D].
    + destruct (allocates co b) eqn:AL; [|apply cov_top]. right. cbn. apply E. apply allocates_spec; auto.
    + assert (K : sound (fold_left (fun c r => hset c (HG r) a_top) clobbered c)
        (fun k => if hloc_eq_dec k (HG RAX) then p k else p' k)).
      { eapply sound_tops; [exact S|]. intros k' Hk. destruct (hloc_eq_dec k' (HG RAX)); auto. apply N.
        intros [Q|Q]; [congruence|]. apply Hk. exact Q. }
      specialize (K k). cbv beta in K. destruct (hloc_eq_dec k (HG RAX)); [contradiction|exact K].
Qed.
Lemma entry_sound p : entry_state p -> sound (fold_left set_arg arg_regs hctx0) p.
Proof.
  intros E k. rewrite E. destruct k as [[r|n|]|h]; [|exact I|exact I|exact I].
  destruct r; cbn; (left; exact I) || (right; reflexivity).
Qed.
Lemma plain_dst b i c c' p : plain_write i -> vctx c -> transfer co s hdst hsrc b i c = Some c' ->
  covers (HR (hdst i)) (c (HR (hdst i))) p -> covers (HR (hdst i)) (c' (HR (hdst i))) p.
Proof.
  intros (PW & NC & NL & NR) V T H.
  assert (UNK : covers (HR (hdst i)) (t_unknown i c (HR (hdst i))) p).
  { unfold t_unknown. rewrite tops_at. destruct (existsb _ _); [apply cov_top|exact H]. }
  unfold transfer in T. destruct (i_op i) eqn:OP; try congruence; try (injection T as <-; exact UNK).
  unfold t_mov in T. rewrite (NR eq_refl), PW in T.
  destruct (hreg_eq_dec (hdst i) RNone); [injection T as <-; exact H|].
  destruct (heights s i) as [[h2 h]|]; [|injection T as <-; exact H].
  destruct (ensure_stk c h V) as (a & EA & VA & _).
  set (v := hget (ensure c h) (HR (hsrc i))) in *.
  assert (VV : vflat v) by (apply hget_v, ensure_v; auto).
  unfold hget in T at 1. rewrite hset_other in T by discriminate. rewrite EA, (set_point_v h a v VA VV) in T.
  injection T as <-. rewrite hset_other by discriminate. unfold hset.
  destruct (hloc_eq_dec (HR (hdst i)) (HR (hsrc i))) as [E|E]; [|rewrite ensure_reg; exact H].
  injection E as E. unfold v. rewrite <- E. apply get_cov. rewrite ensure_reg. exact H.
Qed.

(** The states before an instruction are described by some facts that the stored facts cover. *)
Lemma before_sound st : one_call -> heap_input co fn -> (forall b i, vctx (st b i)) -> consistent st ->
  forall b i p, before b i p -> In b blocks /\ forall x, nth_error (insns b) i = Some x ->
    exists c c', vctx c /\ sound c p /\ transfer co s hdst hsrc b x c = Some c' /\ cle c' (st b i).
Proof.
  intros O ((HE & _) & _ & FULL) V (C1 & C2 & C3).
  assert (POST : forall b i x p p', In b blocks -> nth_error (insns b) i = Some x -> pstep b x p p' ->
    (exists c c', vctx c /\ sound c p /\ transfer co s hdst hsrc b x c = Some c' /\ cle c' (st b i)) -> sound (st b i) p').
  { intros b i x p p' B N P (c & c' & VC & S & T & L) k. apply L. eapply transfer_sound; eauto. }
  induction 1 as [p E|b i x p p' H IH N P L|a b i x p p' H IH N L P F B].
  - split; auto. intros x N. destruct (C1 x N) as (c' & T & K).
    exists (fold_left set_arg arg_regs hctx0), c'. split; [apply args_v, vctx0|]. split; auto. apply entry_sound. auto.
  - destruct IH as [B IH]. split; auto. intros y Ny. destruct (C2 b i B y Ny) as (c' & T & K).
    exists (st b i), c'. split; auto. split; auto. eapply POST; eauto.
  - destruct IH as [A IH]. split; auto. intros y Ny.
    assert (i = last_ix co a) by (unfold last_ix, h_insns; lia). subst i.
    destruct (C3 a b A B F y Ny) as (c' & T & K). exists (st a (last_ix co a)), c'. split; auto. split; auto. eapply POST; eauto.
Qed.
End EXEC.

(** Looking up an instruction by its address *)
Lemma find_ctx_at co st b n i : nth_error (b_insns (co_block co b)) n = Some i ->
  (forall m j, nth_error (b_insns (co_block co b)) m = Some j -> i_addr j = i_addr i -> m = n) ->
  find_ctx co st b (i_addr i) = Some (i, st b n).
Proof.
  intros N U.
  unfold find_ctx, h_insns.
  assert (G : forall l k0, (forall m j, nth_error l m = Some j -> i_addr j = i_addr i -> (k0 + m = n)%nat) ->
    (exists m, nth_error l m = Some i /\ (k0 + m = n)%nat) ->
    (fix go (n0 : nat) (l : list insn) : option (insn * hctx) :=
       match l with [] => None | j :: r => if i_addr j =? i_addr i then Some (j, st b n0) else go (Datatypes.S n0) r end) k0 l
    = Some (i, st b n)).
  { induction l as [|j l IH]; intros k0 H1 (m & H2 & H3); [destruct m; discriminate|].
    destruct (i_addr j =? i_addr i) eqn:E.
    - apply Z.eqb_eq in E. pose proof (H1 0%nat j eq_refl E). assert (m = 0)%nat by lia. subst m. cbn in H2.
      injection H2 as <-. replace k0 with n by lia. reflexivity.
    - destruct m as [|m]; [cbn in H2; injection H2 as ->; rewrite Z.eqb_refl in E; discriminate|].
      apply IH; [|exists m; split; [exact H2|lia]]. intros m' j' Hm Ha. specialize (H1 (Datatypes.S m') j' Hm Ha). lia. }
  apply G; [exact U|]. exists n. auto.
Qed.

(** Missing: that the facts computed are always a solution of the flow equations (they
    are not, see [C45_refuted]), and values the analysis does not follow: what registers
    other than arguments held on entry, contents of unwritten slots, and constants. *)
Theorem C45_sound_partial co fn s hdst hsrc fuel st : heap_input co fn ->
  s_assume_unsafe s = false -> s_unknown_cf s = false -> one_call co fn ->
  heap_analysis co fn s hdst hsrc fuel = Some (HDone st) -> consistent co fn s hdst hsrc st ->
  forall b n i p, before co fn s hdst hsrc b n p -> nth_error (b_insns (co_block co b)) n = Some i ->
    (forall m j, nth_error (b_insns (co_block co b)) m = Some j -> i_addr j = i_addr i -> m = n) ->
    plain_write i -> classify co hdst st b (i_addr i) = Some HEAP ->
    p (HR (hdst i)) = PHeap \/ untracked (p (HR (hdst i))).
Proof.
  intros I A1 A2 O R C b n i p H N U PW CL.
  assert (V : forall b i, vctx (st b i)).
  { intros b' i' k. destruct (C43_stored co fn s hdst hsrc fuel I A1 A2) as [_ K].
    unfold vopt. destruct (st b' i' k) eqn:E; auto. eapply K; eauto. }
  destruct (before_sound co fn s hdst hsrc st O I V C b n p H) as [B K]. destruct (K i N) as (c & c' & VC & S & T & L).
  pose proof (plain_dst co s hdst hsrc b i c c' _ PW VC T (S _)) as Q. apply L in Q.
  pose proof (find_ctx_at co st b n i N U) as F.
  unfold classify in CL. rewrite F in CL. destruct (hreg_eq_dec (hdst i) RNone); [discriminate|].
  injection CL as CL. apply cov_get in Q. rewrite CL in Q. destruct Q as [Q|Q]; auto.
Qed.
(** Operands of the examples: a register, or memory at a register. *)
Definition opnd_reg (e : expr) : hreg :=
  match e with EReg (MG r _) | EDeref (EReg (MG r _)) => RG r | _ => RNone end.
Definition ex_dst (i : insn) : hreg := match i_opnds i with e :: _ => opnd_reg e | [] => RNone end.
Definition ex_src (i : insn) : hreg := match i_opnds i with _ :: e :: _ => opnd_reg e | _ => RNone end.
Definition mv_insn (a : Z) (d r : reg) : insn :=
  mkInsn a OMov false false false [] [MG d P64] [ARegister] [] [] [EReg (MG d P64); EReg (MG r P64)] None.
Definition lea_insn (a : Z) (d r : reg) : insn :=
  mkInsn a OLea false false false [] [MG d P64] [ARegister] [] [] [EReg (MG d P64); EReg (MG r P64)] None.
Definition sto_insn (a : Z) (d r : reg) : insn :=
  mkInsn a OMov false true false [] [] [AUnknown] [] [] [EDeref (EReg (MG d P64)); EReg (MG r P64)] None.
Definition call_insn (a : Z) : insn := mkInsn a OCall true true false [] [MG RSP P64] [] [] [] [] None.
Definition plt_link (a : Z) : option string := if a =? ex_start 9 then Some "malloc"%string else None.
Definition alloc_e : edge := mkEdge CALL false true 9.

(** push; call malloc; store to the result *)
Definition co_alloc : code :=
  mkCode [0]%nat (fun _ => mkFunc "f" 100 0 [0; 1]%nat [1]%nat [1]%nat [])
    (fun b => xblock b (match b with O => [alloc_e; ft_e 1] | _ => [ret_e] end)
       (match b with O => [w_insn 100 OPush [RSP]; call_insn 104] | _ => [sto_insn 200 RAX RCX; w_insn 204 ORet [RSP]] end))
    (fun _ => [0]%nat) plt_link.
Definition run_heap (co : code) (s : summary) : hstate :=
  match heap_analysis co 0 s ex_dst ex_src 100 with Some (HDone st) => st | _ => hst0 end.
Lemma alloc_input : heap_input co_alloc 0.
Proof.
  split; [|split].
  - split; [cbn; auto|]. split.
    + intros a t _ (e & He & <- & F1 & F2 & F3 & F4). destruct a as [|a]; cbn in He.
      * destruct He as [<-|[<-|[]]]; cbn in *; auto; congruence.
      * destruct He as [<-|[]]. cbn. auto.
    + intros i j l l' b Hi. destruct i; discriminate.
  - intros l b [].
  - intros [|b] _; discriminate.
Qed.
Ltac cle_tac := intros [[[]|?|]|?] ?; vm_compute; tauto.
Example C45_case : heap_input co_alloc 0 /\ one_call co_alloc 0 /\
  heap_analysis co_alloc 0 summary0 ex_dst ex_src 100 = Some (HDone (run_heap co_alloc summary0)) /\
  consistent co_alloc 0 summary0 ex_dst ex_src (run_heap co_alloc summary0) /\
  plain_write (sto_insn 200 RAX RCX) /\ classify co_alloc ex_dst (run_heap co_alloc summary0) 1 200 = Some HEAP.
Proof.
  split; [apply alloc_input|]. split; [|split; [|split; [|split]]].
  - intros b e e' _ H1 H2 T1 S1 T2 S2. destruct b as [|b]; cbn in H1, H2.
    + destruct H1 as [<-|[<-|[]]], H2 as [<-|[<-|[]]]; auto; discriminate.
    + destruct H1 as [<-|[]], H2 as [<-|[]]; auto.
  - reflexivity.
  - split; [|split].
    + intros x H. injection H as <-. eexists. split; [reflexivity|]. cle_tac.
    + intros b i [<-|[<-|[]]] x H; (destruct i as [|i]; [|destruct i; discriminate]); injection H as <-;
        eexists; (split; [reflexivity|]); cle_tac.
    + intros a b [<-|[<-|[]]] _ (e & He & <- & F1 & F2); cbn in He.
      * destruct He as [<-|[<-|[]]]; [discriminate|]. intros x H. injection H as <-. eexists. split; [reflexivity|]. cle_tac.
      * destruct He as [<-|[]]. discriminate.
  - repeat split; discriminate.
  - vm_compute. reflexivity.
Qed.

(** A function that starts with a no-op such as ENDBR64, takes either the address of a
    local array or of an allocated block, and stores to it.  The facts of the first
    instruction do not change, so nothing is propagated from it; the stack pointer is
    not followed, and the store is classified as a heap write on both paths. *)
Definition t_endbr (b : nat) : list edge :=
  match b with
  | 0 => [ct_e 1; cn_e 2] | 1 => [jmp_e 4] | 2 => [alloc_e; ft_e 3] | 3 => [jmp_e 4] | _ => [ret_e]
  end%nat.
Definition i_endbr (b : nat) : list insn :=
  match b with
  | 0 => [w_insn 100 OOther []; w_insn 104 OOther [RSP]; w_insn 106 OOther []]
  | 1 => [lea_insn 200 RBX RSP]
  | 2 => [call_insn 300]
  | 3 => [mv_insn 400 RBX RAX]
  | _ => [sto_insn 500 RBX RCX; w_insn 504 ORet [RSP]]
  end%nat.
Definition co_endbr : code :=
  mkCode [0]%nat (fun _ => mkFunc "f" 100 0 [0; 1; 2; 3; 4]%nat [4]%nat [4]%nat [])
    (fun b => xblock b (t_endbr b) (i_endbr b)) (fun _ => [0]%nat) plt_link.
Lemma endbr_input : heap_input co_endbr 0.
Proof.
  split; [|split].
  - split; [cbn; auto|]. split.
    + intros a t _ (e & He & <- & F1 & F2 & F3 & F4). cbn [co_endbr co_block xblock b_targets] in He.
      destruct a as [|[|[|[|a]]]]; cbn in He; repeat (destruct He as [<-|He]; [cbn in *; auto 10; congruence|]); contradiction.
    + intros i j l l' b Hi. destruct i; discriminate.
  - intros l b [].
  - intros b _. cbn. destruct b as [|[|[|[|b]]]]; discriminate.
Qed.
Definition p0 : pstate := fun k =>
  match k with
  | HR (RG r) => if existsb (reg_eqb r) [RDI; RSI; RDX; RCX; R8; R9] then PArg else PReg (RG r)
  | HR r => PReg r
  | HS h => PSlot h
  end.
Definition pset (p : pstate) (k : hloc) (v : prov) : pstate := fun k' => if hloc_eq_dec k' k then v else p k'.
Lemma pset_but p k v : same_but [k] p (pset p k v).
Proof. intros k' N. unfold pset. destruct (hloc_eq_dec k' k) as [->|]; auto. destruct N. left. auto. Qed.
Theorem C45_refuted : exists co fn s hdst hsrc st b n i p,
  heap_input co fn /\ heap_analysis co fn s hdst hsrc 100 = Some (HDone st) /\
  before co fn s hdst hsrc b n p /\ nth_error (b_insns (co_block co b)) n = Some i /\ plain_write i /\
  classify co hdst st b (i_addr i) = Some HEAP /\
  (* the base register holds a pointer derived from the stack pointer *)
  p (HR (hdst i)) = POther /\
  exists m q j, before co fn s hdst hsrc 1 m q /\ nth_error (b_insns (co_block co 1)) m = Some j /\
    i_op j = OLea /\ hsrc j = RG RSP /\ hdst j = hdst i /\ pstep co s hdst hsrc 1 j q p.
Proof.
  exists co_endbr, 0%nat, summary0, ex_dst, ex_src, (run_heap co_endbr summary0), 4%nat, 0%nat, (sto_insn 500 RBX RCX).
  set (p1 := pset p0 (HG RSP) POther). set (p2 := pset p1 (HG RBX) POther). exists p2.
  assert (R : same_but [] p1 p1) by (intros k _; auto).
  assert (B0 : before co_endbr 0 summary0 ex_dst ex_src 0 0 p0).
  { apply be_entry. intros [[r|n|]|h]; reflexivity. }
  assert (B1 : before co_endbr 0 summary0 ex_dst ex_src 0 1 p0).
  { eapply be_next; [exact B0|reflexivity| |cbn; lia]. intros k _. reflexivity. }
  assert (B2 : before co_endbr 0 summary0 ex_dst ex_src 0 2 p1).
  { eapply be_next; [exact B1|reflexivity| |cbn; lia]. apply pset_but. }
  assert (B3 : before co_endbr 0 summary0 ex_dst ex_src 1 0 p1).
  { eapply be_edge; [exact B2|reflexivity|reflexivity| | |cbn; auto].
    - intros k _. reflexivity.
    - exists (ct_e 1). cbn. repeat split; auto; discriminate. }
  assert (ST : pstep co_endbr summary0 ex_dst ex_src 1 (lea_insn 200 RBX RSP) p1 p2).
  { cbn. split; [apply pset_but|reflexivity]. }
  assert (B4 : before co_endbr 0 summary0 ex_dst ex_src 4 0 p2).
  { eapply be_edge; [exact B3|reflexivity|reflexivity|exact ST| |cbn; auto 10].
    exists (jmp_e 4). cbn. repeat split; auto; discriminate. }
  split; [apply endbr_input|]. split; [reflexivity|]. split; [exact B4|]. split; [reflexivity|].
  split; [repeat split; discriminate|]. split; [vm_compute; reflexivity|]. split; [reflexivity|].
  exists 0%nat, p1, (lea_insn 200 RBX RSP). split; [exact B3|]. repeat split; auto. apply pset_but.
Qed.

(** ** C46 *)
(** Missing: a block with another reason to be unsafe stays unsafe ([C46_refuted]). *)
Theorem C46_removed_partial co s hdst st :
  let '(s', cl) := update_summary co s hdst st in
  (* a block leaves the sets only if all its unknown writes are classified heap *)
  (forall b, In b (s_unsafe_blocks s) -> ~ In b (s_unsafe_blocks s') ->
     exists l, In (b, l) (s_unknown_writes s) /\ forall a, In a l -> classify co hdst st b a = Some HEAP) /\
  (forall b l, In (b, l) (s_unknown_writes s) -> ~ In (b, l) (s_unknown_writes s') ->
     exists l', In (b, l') (s_unknown_writes s) /\ forall a, In a l' -> classify co hdst st b a = Some HEAP) /\
  (* and all these blocks leave *)
  (forall b l, In (b, l) (s_unknown_writes s) -> (forall a, In a l -> classify co hdst st b a = Some HEAP) ->
     ~ In b (s_unsafe_blocks s') /\ forall l', ~ In (b, l') (s_unknown_writes s')) /\
  (* nothing is added *)
  incl (s_unsafe_blocks s') (s_unsafe_blocks s) /\ incl (s_unknown_writes s') (s_unknown_writes s) /\
  (* the recorded heap writes are those classified heap *)
  (forall b a, In (b, a) (k_heap cl) <->
     exists l, In (b, l) (s_unknown_writes s) /\ In a l /\ classify co hdst st b a = Some HEAP).
Proof.
  unfold update_summary. cbn [k_heap].
  assert (CI : forall o, cls_is HEAP o = true <-> o = Some HEAP).
  { intros [t|]; cbn; [|split; discriminate]. unfold lty_eqb. destruct (lty_eq_dec t HEAP); split; congruence. }
  assert (CL : forall b, In b (cleared co s hdst st) <-> exists l, In (b, l) (s_unknown_writes s) /\
     forall a, In a l -> classify co hdst st b a = Some HEAP).
  { intros b. unfold cleared. rewrite in_map_iff. split.
    - intros ([b' l] & E & H). cbn in E. subst b'. apply filter_In in H. destruct H as [H F].
      exists l. split; auto. intros a Ha. rewrite forallb_forall in F. apply CI. apply F. auto.
    - intros (l & H & A). exists (b, l). split; auto. apply filter_In. split; auto. apply forallb_forall.
      intros a Ha. apply CI. apply A. auto. }
  set (gone := cleared co s hdst st) in *.
  assert (UB : s_unsafe_blocks (set_unsafe_blocks
     (set_unknown_writes s (filter (fun w => negb (mem (fst w) gone)) (s_unknown_writes s)))
     (filter (fun b => negb (mem b gone)) (s_unsafe_blocks s))) = filter (fun b => negb (mem b gone)) (s_unsafe_blocks s)) by reflexivity.
  assert (UW : s_unknown_writes (set_unsafe_blocks
     (set_unknown_writes s (filter (fun w => negb (mem (fst w) gone)) (s_unknown_writes s)))
     (filter (fun b => negb (mem b gone)) (s_unsafe_blocks s))) = filter (fun w => negb (mem (fst w) gone)) (s_unknown_writes s)) by reflexivity.
  rewrite UB, UW. clear UB UW. repeat match goal with |- _ /\ _ => split end.
  - intros b H N. apply CL. apply mem_in. destruct (mem b gone) eqn:M; auto. destruct N. apply filter_In.
    split; auto. rewrite M. reflexivity.
  - intros b l H N. apply CL. apply mem_in. destruct (mem b gone) eqn:M; auto. destruct N. apply filter_In.
    split; auto. cbn. rewrite M. reflexivity.
  - intros b l H A. assert (M : mem b gone = true) by (apply mem_in, CL; eauto). split.
    + intros K. apply filter_In in K. rewrite M in K. destruct K. discriminate.
    + intros l' K. apply filter_In in K. cbn in K. rewrite M in K. destruct K. discriminate.
  - intros x H. apply filter_In in H. apply H.
  - intros x H. apply filter_In in H. apply H.
  - intros b a. unfold pick. rewrite in_flat_map. split.
    + intros ([b' l] & H & K). apply in_map_iff in K. destruct K as (a' & E & K). cbn in E. injection E as -> ->.
      apply filter_In in K. destruct K as [K1 K2]. exists l. split; auto. split; auto. apply CI. exact K2.
    + intros (l & H & K1 & K2). exists (b, l). split; auto. apply in_map_iff. exists a. split; auto.
      apply filter_In. split; auto. apply CI. exact K2.
Qed.

(** A block that overwrites the return address (stack offset 0) and stores to
    allocated memory: it is unsafe for both reasons, and dropped for the second. *)
Definition co_both : code :=
  mkCode [0]%nat (fun _ => mkFunc "f" 100 0 [0; 1]%nat [1]%nat [1]%nat [])
    (fun b => xblock b (match b with O => [alloc_e; ft_e 1] | _ => [ret_e] end)
       (match b with O => [w_insn 100 OPush [RSP]; call_insn 104]
        | _ => [st_insn 200 0; sto_insn 204 RAX RCX; w_insn 208 ORet [RSP]] end))
    (fun _ => [0]%nat) plt_link.
Definition s_both : summary := stack_height co_both 0 summary0.
Example C46_case : s_unsafe_blocks s_both = [1]%nat /\ s_unknown_writes s_both = [(1%nat, [204])] /\
  let '(s', cl) := update_summary co_both s_both ex_dst (run_heap co_both s_both) in
  s_unsafe_blocks s' = [] /\ s_unknown_writes s' = [] /\ k_heap cl = [(1%nat, 204)].
Proof. vm_compute. auto. Qed.
Theorem C46_refuted : exists co fn st b i,
  let s := stack_height co fn summary0 in
  heap_analysis co fn s ex_dst ex_src 100 = Some (HDone st) /\
  (* the block writes to the return address *)
  In i (b_insns (co_block co b)) /\ i_wmem i = true /\ i_outs i = [AStack 0] /\
  In b (s_unsafe_blocks s) /\ ~ In b (s_unsafe_blocks (fst (update_summary co s ex_dst st))).
Proof.
  exists co_both, 0%nat, (run_heap co_both s_both), 1%nat, (st_insn 200 0). split; [reflexivity|].
  split; [cbn; auto|]. split; [reflexivity|]. split; [reflexivity|]. split; [vm_compute; auto|].
  vm_compute. tauto.
Qed.
Print Assumptions C43_laws_partial.
Print Assumptions C43_stored.
Print Assumptions C43_upper.
Print Assumptions C43_refuted.
Print Assumptions C44_terminates_partial.
Print Assumptions C44_refuted.
Print Assumptions C45_sound_partial.
Print Assumptions C45_refuted.
Print Assumptions C46_removed_partial.
Print Assumptions C46_refuted.
