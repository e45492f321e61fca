(** * SafePaths: SafePathsCounting (/repo/src/passes.h:786-826) *)
From Coq Require Import ZArith Bool Lia ZifyBool ZifyNat Arith String List.
From Verif Require Import Machine Jit Dfs Binary.
Import ListNotations.
Open Scope Z_scope.

(** An edge is identified by its source block and its position in [targets()]. *)
Notation eid := (nat * nat)%type.
Definition eid_eq_dec (a b : eid) : {a = b} + {a <> b}.
Proof. decide equality; apply Nat.eq_dec. Defined.
Definition emem (e : eid) (l : list eid) : bool := if in_dec eid_eq_dec e l then true else false.
Lemma emem_in e l : emem e l = true <-> In e l.
Proof. unfold emem. destruct (in_dec eid_eq_dec e l); split; intros H; auto; discriminate. Qed.
Lemma emem_nin e l : emem e l = false <-> ~ In e l.
Proof. unfold emem. destruct (in_dec eid_eq_dec e l); split; intros H; auto; try discriminate; contradiction. Qed.

Section SP.
Variable co : code.
Variable unsafe exits : list nat.

(** The tests at the head of the loop, passes.h:803-808. *)
Definition skipped (e : edge) : bool := (e_sink e || e_inter e || is (e_ty e) CATCH)%bool.

(** ** countPaths, passes.h:793-816; [None]: out of fuel *)
Fixpoint count_paths (fuel : nat) (cur : nat) (vis : list eid) {struct fuel} : option (Z * list eid) :=
  match fuel with
  | O => None
  | S n =>
    if mem cur unsafe then Some (0, vis)
    else if mem cur exits then Some (1, vis)
    else
      (fix loop (ts : list edge) (k : nat) (c : Z) (vis : list eid) {struct ts} :=
         match ts with
         | [] => Some (c, vis)
         | e :: r =>
             if skipped e then loop r (S k) c vis
             else if emem (cur, k) vis then loop r (S k) c vis
             else if is (e_ty e) INDIRECT then Some (0, vis)
             else match count_paths n (e_trg e) ((cur, k) :: vis) with
                  | Some (c', vis') => loop r (S k) (c + c') vis'
                  | None => None
                  end
         end) (b_targets (co_block co cur)) O 0 vis
  end.
End SP.

(** All edges of a list of blocks. *)
Definition edges_of (co : code) (bs : list nat) : list eid :=
  List.concat (map (fun b => map (fun k => (b, k)) (seq 0 (List.length (b_targets (co_block co b))))) bs).

(** RunLocalAnalysis, passes.h:818-825. The fuel is proved sufficient. *)
Definition safe_paths (co : code) (fn : nat) (s : summary) : option summary :=
  let f := co_fun co fn in
  match count_paths co (s_unsafe_blocks s) (f_exits f) (S (List.length (edges_of co (f_blocks f))))
          (f_entry f) [] with
  | Some (c, _) => Some (set_safe_paths s c)
  | None => None
  end.

(** ** Specification *)
Section SPEC.
Variable co : code.
Variable unsafe exits : list nat.
(** A control-flow edge within the function that is not an exception edge. *)
Definition followable (e : edge) : Prop := e_sink e = false /\ e_inter e = false /\ e_ty e <> CATCH.
Definition linked (b c : nat) : Prop :=
  exists e, In e (b_targets (co_block co b)) /\ followable e /\ e_trg e = c.
(** [safe_path b p]: the blocks [b :: p] follow one another, are all safe, and
    the last one is an exit block. *)
Fixpoint safe_path (b : nat) (p : list nat) : Prop :=
  ~ In b unsafe /\
  match p with
  | [] => In b exits
  | c :: p' => linked b c /\ safe_path c p'
  end.
(** The same by edges, stopping at the first exit block: [epath b p z] *)
Definition is_edge (x : eid) (t : nat) : Prop :=
  exists e, nth_error (b_targets (co_block co (fst x))) (snd x) = Some e /\ followable e /\ e_trg e = t.
Fixpoint epath (b : nat) (p : list eid) (z : nat) : Prop :=
  match p with
  | [] => b = z
  | x :: p' => fst x = b /\ ~ In b unsafe /\ ~ In b exits /\ exists t, is_edge x t /\ epath t p' z
  end.
(** A safe control-flow path from [b], from its first block to the first exit. *)
Definition safe_epath (b : nat) (p : list eid) : Prop :=
  exists z, epath b p z /\ ~ In z unsafe /\ In z exits.
End SPEC.

(** The blocks of a function contain its entry and are closed under its edges. *)
Definition closed_blocks (co : code) (bs : list nat) : Prop :=
  forall b c, In b bs -> linked co b c -> In c bs.
Definition no_indirect (co : code) (bs : list nat) : Prop :=
  forall b e, In b bs -> In e (b_targets (co_block co b)) -> followable e -> e_ty e <> INDIRECT.

(** The blocks of the function contain its entry and every block that one of their
    intra-procedural non-exception edges leads to. *)
Definition cfg_ok (co : code) (fn : nat) : Prop :=
  In (f_entry (co_fun co fn)) (f_blocks (co_fun co fn)) /\ closed_blocks co (f_blocks (co_fun co fn)).

(** ** Proofs *)
Lemma NoDup_app_intro {A} (a b : list A) :
  NoDup a -> NoDup b -> (forall x, In x a -> ~ In x b) -> NoDup (a ++ b).
Proof.
  induction a as [|x a IH]; cbn; intros N1 N2 H; auto. inversion N1; subst. constructor.
  - intros K. apply in_app_or in K. destruct K as [K|K]; auto. apply (H x); auto.
  - apply IH; auto.
Qed.
Lemma skipped_false e : skipped e = false <-> followable e.
Proof.
  unfold skipped, followable. rewrite !orb_false_iff, is_false. tauto.
Qed.

Section P.
Variable co : code.
Variable unsafe exits : list nat.
Variable bs : list nat.
Hypothesis CB : closed_blocks co bs.
Notation cp := (count_paths co unsafe exits).

(** The loop, named. *)
Definition cp_loop (n : nat) (cur : nat) :=
  fix loop (ts : list edge) (k : nat) (c : Z) (vis : list eid) {struct ts} : option (Z * list eid) :=
    match ts with
    | [] => Some (c, vis)
    | e :: r =>
        if skipped e then loop r (S k) c vis
        else if emem (cur, k) vis then loop r (S k) c vis
        else if is (e_ty e) INDIRECT then Some (0, vis)
        else match cp n (e_trg e) ((cur, k) :: vis) with
             | Some (c', vis') => loop r (S k) (c + c') vis'
             | None => None
             end
    end.
Lemma cp_unfold n cur vis :
  cp (S n) cur vis =
  if mem cur unsafe then Some (0, vis)
  else if mem cur exits then Some (1, vis)
  else cp_loop n cur (b_targets (co_block co cur)) O 0 vis.
Proof. reflexivity. Qed.

(** *** Termination: every recursive call marks a new edge *)
Definition unvisited (vis : list eid) : nat :=
  List.length (filter (fun e => negb (emem e vis)) (edges_of co bs)).

Lemma edges_of_in b k e :
  In b bs -> nth_error (b_targets (co_block co b)) k = Some e -> In (b, k) (edges_of co bs).
Proof.
  intros Hb Hk. unfold edges_of. apply in_concat. eexists. split.
  - apply in_map. exact Hb.
  - apply in_map. apply in_seq. apply nth_error_Some_lt in Hk || (assert (nth_error (b_targets (co_block co b)) k <> None) by congruence; apply nth_error_Some in H); lia.
Qed.

Lemma filter_lt {A} (f g : A -> bool) l x :
  In x l -> f x = false -> g x = true -> (forall y, f y = true -> g y = true) ->
  (List.length (filter f l) < List.length (filter g l))%nat.
Proof.
  induction l as [|a l IH]; intros Hx F G I; [contradiction|].
  assert (LE : (List.length (filter f l) <= List.length (filter g l))%nat).
  { clear - I. induction l as [|b l IH]; cbn; auto.
    destruct (f b) eqn:E; [rewrite (I b E); cbn; lia|]. destruct (g b); cbn; lia. }
  cbn [filter]. destruct Hx as [->|Hx].
  - rewrite F, G. cbn. lia.
  - specialize (IH Hx F G I). destruct (f a) eqn:E; [rewrite (I a E); cbn; lia|].
    destruct (g a); cbn; lia.
Qed.

Lemma unvisited_cons x vis :
  In x (edges_of co bs) -> ~ In x vis -> (unvisited (x :: vis) < unvisited vis)%nat.
Proof.
  intros H1 H2. unfold unvisited. eapply filter_lt with (x := x); auto.
  - apply negb_false_iff. apply emem_in. left; auto.
  - apply negb_true_iff. apply emem_nin. auto.
  - intros y Hy. apply negb_true_iff in Hy. apply negb_true_iff. apply emem_nin in Hy.
    apply emem_nin. intros K. apply Hy. right; auto.
Qed.
Lemma unvisited_mono vis vis' : incl vis vis' -> (unvisited vis' <= unvisited vis)%nat.
Proof.
  intros H. unfold unvisited. induction (edges_of co bs) as [|a l IH]; cbn; auto.
  destruct (emem a vis') eqn:E1; destruct (emem a vis) eqn:E2; cbn; try lia.
  apply emem_in in E2. apply H in E2. apply emem_nin in E1. contradiction.
Qed.

Lemma cp_total n : forall cur vis,
  In cur bs -> (unvisited vis < n)%nat -> exists c vis', cp n cur vis = Some (c, vis') /\ incl vis vis'.
Proof.
  induction n as [|n IH]; intros cur vis Hc Hn; [lia|]. rewrite cp_unfold.
  destruct (mem cur unsafe); [eexists _, _; split; [reflexivity|apply incl_refl]|].
  destruct (mem cur exits); [eexists _, _; split; [reflexivity|apply incl_refl]|].
  assert (L : forall ts k c vis1, (forall j e, nth_error ts j = Some e ->
                 nth_error (b_targets (co_block co cur)) (k + j) = Some e) ->
               incl vis vis1 ->
               exists c' vis', cp_loop n cur ts k c vis1 = Some (c', vis') /\ incl vis1 vis').
  { induction ts as [|e r IHr]; intros k c vis1 HT HV; cbn [cp_loop].
    - eexists _, _; split; [reflexivity|apply incl_refl].
    - assert (HT' : forall j e', nth_error r j = Some e' ->
                 nth_error (b_targets (co_block co cur)) (S k + j) = Some e').
      { intros j e' Hj. replace (S k + j)%nat with (k + S j)%nat by lia. apply HT. exact Hj. }
      destruct (skipped e) eqn:ES; [apply IHr; auto|].
      destruct (emem (cur, k) vis1) eqn:EV; [apply IHr; auto|].
      destruct (is (e_ty e) INDIRECT); [eexists _, _; split; [reflexivity|apply incl_refl]|].
      apply emem_nin in EV. apply skipped_false in ES.
      pose proof (HT O e eq_refl) as HE. rewrite Nat.add_0_r in HE.
      destruct (IH (e_trg e) ((cur, k) :: vis1)) as (c' & vis2 & E2 & I2).
      + apply (CB cur); auto. exists e. split; [eapply nth_error_In; eauto|auto].
      + pose proof (unvisited_cons (cur, k) vis1 (edges_of_in cur k e Hc HE) EV).
        pose proof (unvisited_mono vis vis1 HV).
        eapply Nat.lt_le_trans; [eassumption|]. lia.
      + rewrite E2. destruct (IHr (S k) (c + c') vis2) as (c3 & vis3 & E3 & I3); auto.
        { intros x Hx. apply I2. right. auto. }
        exists c3, vis3. split; auto. intros x Hx. apply I3, I2. right; auto. }
  apply (L (b_targets (co_block co cur)) O 0 vis); auto. apply incl_refl.
Qed.

(** *** A positive count comes from a safe path (also with indirect jumps) *)
Lemma cp_nonneg n : forall cur vis c vis', cp n cur vis = Some (c, vis') -> 0 <= c.
Proof.
  induction n as [|n IH]; intros cur vis c vis' H; [discriminate|]. rewrite cp_unfold in H.
  destruct (mem cur unsafe); [injection H as <- <-; lia|].
  destruct (mem cur exits); [injection H as <- <-; lia|].
  assert (L : forall ts k c0 vis1, 0 <= c0 -> cp_loop n cur ts k c0 vis1 = Some (c, vis') -> 0 <= c).
  { induction ts as [|e r IHr]; intros k c0 vis1 P K; cbn [cp_loop] in K.
    - injection K as <- <-. auto.
    - destruct (skipped e); [eauto|]. destruct (emem _ _); [eauto|].
      destruct (is _ _); [injection K as <- <-; lia|].
      destruct (cp n (e_trg e) _) as [[c' vis2]|] eqn:E2; [|discriminate].
      apply IH in E2. eapply IHr; [|exact K]. lia. }
  eapply L; [|exact H]. lia.
Qed.

Lemma cp_pos n : forall cur vis c vis',
  cp n cur vis = Some (c, vis') -> 0 < c -> exists p, safe_path co unsafe exits cur p.
Proof.
  induction n as [|n IH]; intros cur vis c vis' H P; [discriminate|]. rewrite cp_unfold in H.
  destruct (mem cur unsafe) eqn:EU; [injection H as <- <-; lia|]. apply mem_nin in EU.
  destruct (mem cur exits) eqn:EX.
  { exists []. split; auto. apply mem_in; auto. }
  assert (L : forall ts k c0 vis1, incl ts (b_targets (co_block co cur)) -> 0 <= c0 ->
     cp_loop n cur ts k c0 vis1 = Some (c, vis') ->
     0 < c0 \/ exists p, safe_path co unsafe exits cur p).
  { induction ts as [|e r IHr]; intros k c0 vis1 HT P0 K; cbn [cp_loop] in K.
    - injection K as <- <-. auto.
    - assert (HT' : incl r (b_targets (co_block co cur))) by (intros x Hx; apply HT; right; auto).
      destruct (skipped e) eqn:ES; [eauto|]. destruct (emem _ _); [eauto|].
      destruct (is _ _); [injection K as <- <-; lia|].
      destruct (cp n (e_trg e) _) as [[c' vis2]|] eqn:E2; [|discriminate].
      pose proof (cp_nonneg _ _ _ _ _ E2).
      destruct (Z_lt_ge_dec 0 c') as [Q|Q].
      + right. destruct (IH _ _ _ _ E2 Q) as (p & Hp). exists (e_trg e :: p). split; auto.
        split; auto. exists e. split; [apply HT; left; auto|]. split; auto. apply skipped_false; auto.
      + destruct (IHr (S k) (c0 + c') vis2) as [A|A]; auto; try lia. }
  destruct (L _ _ _ _ (incl_refl _) (Z.le_refl 0) H) as [K|K]; [lia|auto].
Qed.

(** *** Exact result without indirect jumps: the edges visited are those
    reachable through safe blocks, and the count is the number of visited edges
    that lead to a safe exit *)
Hypothesis NI : no_indirect co bs.
Definition hits (t : nat) : Z := if (negb (mem t unsafe) && mem t exits)%bool then 1 else 0.
Definition trg (x : eid) : nat :=
  match nth_error (b_targets (co_block co (fst x))) (snd x) with Some e => e_trg e | None => O end.
Definition wsum (l : list eid) : Z := fold_right (fun x a => hits (trg x) + a) 0 l.
Lemma wsum_app a b : wsum (a ++ b) = wsum a + wsum b.
Proof. induction a; cbn [app wsum fold_right]; [reflexivity|]. fold (wsum (a0 ++ b)) (wsum a0). lia. Qed.

(** All followable edges of block [b], if it is safe and no exit, are in [vis]. *)
Definition expanded (b : nat) (vis : list eid) : Prop :=
  ~ In b unsafe -> ~ In b exits ->
  forall k e, nth_error (b_targets (co_block co b)) k = Some e -> followable e -> In (b, k) vis.
Lemma expanded_mono b vis vis' : incl vis vis' -> expanded b vis -> expanded b vis'.
Proof. intros I H A B k e C D. apply I. eapply H; eauto. Qed.

Lemma cp_exact n : forall cur vis c vis',
  In cur bs -> cp n cur vis = Some (c, vis') ->
  exists new, vis' = new ++ vis /\ NoDup new /\ (forall x, In x new -> ~ In x vis) /\
    c = hits cur + wsum new /\ expanded cur vis' /\
    (forall x, In x new -> expanded (trg x) vis') /\
    (forall x, In x new -> exists p, epath co unsafe exits cur (p ++ [x]) (trg x)).
Proof.
  induction n as [|n IH]; intros cur vis c vis' Hc H; [discriminate|]. rewrite cp_unfold in H.
  destruct (mem cur unsafe) eqn:EU.
  { injection H as <- <-. exists []. cbn [app wsum fold_right]. unfold hits. rewrite EU. cbn.
    repeat match goal with |- _ /\ _ => split end; auto; try apply NoDup_nil; try (intros x Hx; exact (False_ind _ Hx)).
    intros A. apply mem_in in EU. contradiction. }
  destruct (mem cur exits) eqn:EX.
  { injection H as <- <-. exists []. cbn [app wsum fold_right]. unfold hits. rewrite EU, EX. cbn.
    repeat match goal with |- _ /\ _ => split end; auto; try apply NoDup_nil; try (intros x Hx; exact (False_ind _ Hx)).
    intros _ A. apply mem_in in EX. contradiction. }
  pose proof EU as EU'. pose proof EX as EX'. apply mem_nin in EU'. apply mem_nin in EX'.
  assert (L : forall ts done c0 vis1, b_targets (co_block co cur) = done ++ ts ->
     cp_loop n cur ts (List.length done) c0 vis1 = Some (c, vis') ->
     exists new, vis' = new ++ vis1 /\ NoDup new /\ (forall x, In x new -> ~ In x vis1) /\
       c = c0 + wsum new /\
       (forall j e, nth_error ts j = Some e -> followable e -> In (cur, (List.length done + j)%nat) vis') /\
       (forall x, In x new -> expanded (trg x) vis') /\
       (forall x, In x new -> exists p, epath co unsafe exits cur (p ++ [x]) (trg x))).
  { induction ts as [|e r IHr]; intros done c0 vis1 HT K; cbn [cp_loop] in K.
    - injection K as <- <-. exists []. cbn [app wsum fold_right].
      repeat match goal with |- _ /\ _ => split end; auto; try apply NoDup_nil; try (intros x Hx; exact (False_ind _ Hx)); try lia.
      intros j e Hj. destruct j; discriminate.
    - assert (HT' : b_targets (co_block co cur) = (done ++ [e]) ++ r) by (rewrite <- app_assoc; auto).
      assert (HL : List.length (done ++ [e]) = S (List.length done)) by (rewrite app_length; cbn; lia).
      assert (HN : nth_error (b_targets (co_block co cur)) (List.length done) = Some e).
      { rewrite HT, nth_error_app2, Nat.sub_diag; auto. }
      rewrite <- HL in K.
      assert (SKIP : forall c1 vis2, cp_loop n cur r (List.length (done ++ [e])) c1 vis2 = Some (c, vis') ->
        (followable e -> In (cur, List.length done) vis2) ->
        exists new, vis' = new ++ vis2 /\ NoDup new /\ (forall x, In x new -> ~ In x vis2) /\
          c = c1 + wsum new /\
          (forall j e', nth_error (e :: r) j = Some e' -> followable e' ->
             In (cur, (List.length done + j)%nat) vis') /\
          (forall x, In x new -> expanded (trg x) vis') /\
          (forall x, In x new -> exists p, epath co unsafe exits cur (p ++ [x]) (trg x))).
      { intros c1 vis2 K2 HF. destruct (IHr _ _ _ HT' K2) as (new & A & B & C & D & G & I & J).
        exists new. repeat split; auto.
        intros [|j] e' Hj FE.
        - cbn in Hj. injection Hj as <-. rewrite Nat.add_0_r. rewrite A. apply in_or_app. right; auto.
        - cbn in Hj. replace (List.length done + S j)%nat with (List.length (done ++ [e]) + j)%nat by lia.
          eapply G; eauto. }
      destruct (skipped e) eqn:ES.
      { apply SKIP; auto. intros F. apply skipped_false in F. congruence. }
      apply skipped_false in ES.
      destruct (emem (cur, List.length done) vis1) eqn:EV.
      { apply SKIP; auto. intros _. apply emem_in; auto. }
      apply emem_nin in EV.
      destruct (is (e_ty e) INDIRECT) eqn:EI.
      { apply is_true in EI. exfalso. eapply (NI cur e); eauto. eapply nth_error_In; eauto. }
      set (x0 := (cur, List.length done)) in *.
      destruct (cp n (e_trg e) (x0 :: vis1)) as [[c' vis2]|] eqn:E2; [|discriminate].
      assert (Ht : In (e_trg e) bs).
      { apply (CB cur); auto. exists e. split; [eapply nth_error_In; eauto|auto]. }
      destruct (IH _ _ _ _ Ht E2) as (new1 & A1 & B1 & C1 & D1 & G1 & I1 & J1).
      assert (T0 : trg x0 = e_trg e). { unfold trg, x0. cbn [fst snd]. rewrite HN. reflexivity. }
      assert (IE : is_edge co x0 (e_trg e)). { exists e. auto. }
      destruct (SKIP (c0 + c') vis2 K) as (new2 & A2 & B2 & C2 & D2 & G2 & I2 & J2).
      { intros _. rewrite A1. apply in_or_app. right. left. auto. }
      assert (INC : incl vis2 vis'). { intros y Hy. rewrite A2. apply in_or_app; auto. }
      exists (new2 ++ new1 ++ [x0]).
      split; [rewrite A2, A1, <- !app_assoc; reflexivity|].
      split.
      { apply NoDup_app_intro; auto.
        - apply NoDup_app_intro; auto.
          + repeat constructor; auto.
          + intros y Hy [<-|[]]. apply (C1 _ Hy). left; auto.
        - intros y Hy K2. apply (C2 _ Hy). rewrite A1. apply in_app_or in K2. apply in_or_app.
          destruct K2 as [K2|[<-|[]]]; [left; auto|right; left; auto]. }
      split.
      { intros y Hy. apply in_app_or in Hy. destruct Hy as [Hy|Hy].
        - intros K2. apply (C2 _ Hy). rewrite A1. apply in_or_app. right. right. auto.
        - apply in_app_or in Hy. destruct Hy as [Hy|[<-|[]]]; auto.
          intros K2. apply (C1 _ Hy). right; auto. }
      split.
      { rewrite !wsum_app. cbn [wsum fold_right]. rewrite T0. lia. }
      split; [exact G2|].
      split.
      + intros y Hy. apply in_app_or in Hy. destruct Hy as [Hy|Hy]; [auto|].
        apply in_app_or in Hy. destruct Hy as [Hy|[<-|[]]].
        * eapply expanded_mono; [exact INC|]. auto.
        * rewrite T0. eapply expanded_mono; [exact INC|]. auto.
      + intros y Hy. apply in_app_or in Hy. destruct Hy as [Hy|Hy]; [auto|].
        apply in_app_or in Hy. destruct Hy as [Hy|[<-|[]]].
        * destruct (J1 _ Hy) as (p & Hp). exists (x0 :: p). cbn [app epath].
          split; [reflexivity|]. split; [auto|]. split; [auto|]. exists (e_trg e). auto.
        * exists []. cbn [app epath]. split; [reflexivity|]. split; [auto|]. split; [auto|].
          exists (e_trg e). rewrite T0. auto. }
  destruct (L (b_targets (co_block co cur)) [] 0 vis eq_refl H) as (new & A & B & C & D & G & I & J).
  exists new. repeat split; auto.
  - unfold hits. rewrite EU, EX. cbn. lia.
  - intros _ _ k e Hk Fe. apply (G k e Hk Fe).
Qed.
End P.

Lemma destruct_list_rev {A} (l : list A) : l = [] \/ exists l0 x, l = l0 ++ [x].
Proof. destruct (rev l) as [|x r] eqn:E.
  - left. rewrite <- (rev_involutive l), E. reflexivity.
  - right. exists (rev r), x. rewrite <- (rev_involutive l), E. reflexivity. Qed.

(** ** Counting *)
(** [P] holds of exactly [n] things. *)
Definition exactly {A} (P : A -> Prop) (n : Z) : Prop :=
  exists l, NoDup l /\ (forall x, In x l <-> P x) /\ n = Z.of_nat (List.length l).
Lemma exactly_unique {A} (P : A -> Prop) n m : exactly P n -> exactly P m -> n = m.
Proof.
  intros (l & N1 & H1 & ->) (k & N2 & H2 & ->). f_equal.
  apply Nat.le_antisymm; apply NoDup_incl_length; auto; intros x Hx;
    [apply H2, H1|apply H1, H2]; auto.
Qed.

Section R.
Variable co : code.
Variable unsafe exits bs : list nat.
Variable entry : nat.
Hypothesis CB : closed_blocks co bs.
Hypothesis HE : In entry bs.

Definition fuel_of := S (List.length (edges_of co bs)).
Lemma cp_runs : exists c vis, count_paths co unsafe exits fuel_of entry [] = Some (c, vis).
Proof.
  destruct (cp_total co unsafe exits bs CB fuel_of entry [] HE) as (c & v & H & _); [|eauto].
  unfold unvisited, fuel_of.
  assert (G : forall l : list eid, (List.length (filter (fun e => negb (emem e [])) l) <= List.length l)%nat).
  { induction l as [|a l IH]; cbn [filter List.length]; [lia|].
    destruct (negb (emem a [])); cbn [List.length]; lia. }
  specialize (G (edges_of co bs)). lia.
Qed.

Hypothesis NI : no_indirect co bs.
Variables (c : Z) (vis : list eid).
Hypothesis RUN : count_paths co unsafe exits fuel_of entry [] = Some (c, vis).

Lemma cp_result :
  NoDup vis /\ c = hits unsafe exits entry + wsum co unsafe exits vis /\
  expanded co unsafe exits entry vis /\
  (forall x, In x vis -> expanded co unsafe exits (trg co x) vis) /\
  (forall x, In x vis -> exists p, epath co unsafe exits entry (p ++ [x]) (trg co x)).
Proof.
  destruct (cp_exact co unsafe exits bs CB NI _ _ _ _ _ HE RUN) as (new & A & B & C & D & G & I & J).
  rewrite app_nil_r in A. subst new. auto.
Qed.

Lemma is_edge_trg x t : is_edge co x t -> trg co x = t.
Proof. intros (e & A & _ & <-). unfold trg. rewrite A. reflexivity. Qed.

(** Every edge on a path through safe blocks has been visited. *)
Lemma path_visited p : forall b z, expanded co unsafe exits b vis -> epath co unsafe exits b p z ->
  forall x, In x p -> In x vis.
Proof.
  destruct cp_result as (_ & _ & _ & EX & _).
  induction p as [|y p IH]; intros b z Hb P x Hx; [contradiction|].
  destruct P as (<- & U & X & t & IE & P).
  assert (Hy : In y vis).
  { destruct IE as (e & A & F & _). destruct y as [b k]. eapply Hb; eauto. }
  destruct Hx as [<-|Hx]; [exact Hy|].
  eapply IH; [|exact P|exact Hx]. rewrite <- (is_edge_trg _ _ IE). auto.
Qed.

(** From a block path to an edge path that stops at the first exit. *)
Lemma to_epath p : forall b, safe_path co unsafe exits b p -> exists q, safe_epath co unsafe exits b q.
Proof.
  induction p as [|d p IH]; intros b [U P].
  - exists [], b. cbn. auto.
  - destruct P as [(e & A & F & <-) P].
    destruct (in_dec Nat.eq_dec b exits) as [X|X]; [exists [], b; cbn; auto|].
    destruct (IH _ P) as (q & z & Q & Z1 & Z2).
    apply In_nth_error in A. destruct A as (k & A).
    exists ((b, k) :: q), z. split; [|auto]. cbn [epath fst].
    split; [auto|]. split; [auto|]. split; [auto|]. exists (e_trg e). split; auto. exists e. auto.
Qed.

Lemma epath_last p : forall b x z, epath co unsafe exits b (p ++ [x]) z -> is_edge co x z /\ ~ In (fst x) exits.
Proof.
  induction p as [|y p IH]; intros b x z P; cbn [app epath] in P.
  - destruct P as (<- & U & X & t & IE & ->). auto.
  - destruct P as (_ & _ & _ & t & _ & P). eapply IH; eauto.
Qed.
Lemma epath_app p : forall b q z, epath co unsafe exits b (p ++ q) z <->
  exists m, epath co unsafe exits b p m /\ epath co unsafe exits m q z.
Proof.
  induction p as [|x p IH]; intros b q z; cbn [app epath].
  - split; [intros H; exists b; auto|intros (m & -> & H); auto].
  - split.
    + intros (A & B & C & t & D & P). apply IH in P. destruct P as (m & P & Q).
      exists m. split; [|auto]. split; [auto|]. split; [auto|]. split; [auto|]. exists t; auto.
    + intros (m & (A & B & C & t & D & P) & Q). split; [auto|]. split; [auto|]. split; [auto|].
      exists t. split; auto. apply IH. exists m; auto.
Qed.
Lemma epath_inj p : forall b z z', epath co unsafe exits b p z -> epath co unsafe exits b p z' -> z = z'.
Proof.
  induction p as [|x p IH]; intros b z z'; cbn [epath]; [congruence|].
  intros (_ & _ & _ & t & E & P) (_ & _ & _ & t' & E' & P').
  apply is_edge_trg in E. apply is_edge_trg in E'. subst. eapply IH; eauto.
Qed.

Lemma hits_1 t : hits unsafe exits t = 1 <-> ~ In t unsafe /\ In t exits.
Proof.
  unfold hits. destruct (mem t unsafe) eqn:A; destruct (mem t exits) eqn:B; cbn [negb andb];
    rewrite ?mem_in, ?mem_nin in *; split; intros; try discriminate; tauto.
Qed.
Lemma hits_01 t : hits unsafe exits t = 0 \/ hits unsafe exits t = 1.
Proof. unfold hits. destruct (_ && _)%bool; auto. Qed.

Lemma wsum_filter l : wsum co unsafe exits l =
  Z.of_nat (List.length (filter (fun x => hits unsafe exits (trg co x) =? 1) l)).
Proof.
  induction l as [|x l IH]; [reflexivity|]. unfold wsum in *. cbn [fold_right filter].
  rewrite IH. destruct (hits_01 (trg co x)) as [K|K]; rewrite K; cbn [Z.eqb Pos.eqb List.length]; lia.
Qed.

(** The final edges of the safe paths. *)
Definition final_edge (x : eid) : Prop := exists p, safe_epath co unsafe exits entry (p ++ [x]).

Lemma count_final_edges :
  (~ In entry unsafe /\ In entry exits -> c = 1) /\
  (~ (~ In entry unsafe /\ In entry exits) -> exactly final_edge c).
Proof.
  pose proof cp_result as (ND & HC & EE & EX & RE). split.
  - intros H. pose proof H as K. apply hits_1 in K. rewrite K in HC.
    assert (W : vis = []).
    { destruct vis as [|x v]; auto. exfalso. destruct (RE x (or_introl eq_refl)) as (p & P).
      destruct p as [|y p]; cbn [app epath] in P; destruct P as (_ & _ & X & _); tauto. }
    rewrite W in HC. cbn in HC. lia.
  - intros H. assert (K : hits unsafe exits entry = 0).
    { destruct (hits_01 entry) as [K|K]; auto. apply hits_1 in K. tauto. }
    exists (filter (fun x => hits unsafe exits (trg co x) =? 1) vis).
    split; [apply NoDup_filter; auto|]. split; [|rewrite <- wsum_filter; lia].
    intros x. rewrite filter_In, Z.eqb_eq, hits_1. split.
    + intros (Hx & T). destruct (RE x Hx) as (p & P). exists p, (trg co x). auto.
    + intros (p & z & P & Z1 & Z2). pose proof (epath_last _ _ _ _ P) as (IE & _).
      apply is_edge_trg in IE. rewrite IE. split; [|auto].
      eapply path_visited; [exact EE|exact P|]. apply in_or_app. right; left; auto.
Qed.

Lemma count_pos_iff : 0 < c <-> exists p, safe_path co unsafe exits entry p.
Proof.
  split; [eapply cp_pos; eauto|].
  intros (p & P). destruct count_final_edges as (A & B).
  destruct (in_dec Nat.eq_dec entry exits) as [X|X].
  - rewrite A; [lia|]. split; auto. destruct p; destruct P; auto.
  - destruct B as (l & N & I & ->); [tauto|].
    destruct (to_epath _ _ P) as (q & z & Q & Z).
    assert (Hl : exists x, In x l).
    { destruct (destruct_list_rev q) as [->|(q' & x & ->)].
      - cbn in Q. subst z. tauto.
      - exists x. apply I. exists q', z. auto. }
    destruct Hl as (x & Hx). destruct l; [contradiction|cbn; lia].
Qed.

(** Branching only: no edge enters the entry, and two edges meet only at exits. *)
Definition no_join : Prop :=
  (forall x, ~ is_edge co x entry) /\
  (forall x y t, is_edge co x t -> is_edge co y t -> ~ In t exits -> x = y).

Lemma no_join_unique p : no_join -> forall q m,
  ~ In m exits -> epath co unsafe exits entry p m -> epath co unsafe exits entry q m -> p = q.
Proof.
  intros (J1 & J2). induction p as [|x p IH] using rev_ind; intros q m X P Q.
  - cbn in P. subst m. destruct (destruct_list_rev q) as [->|(q' & y & ->)]; auto.
    destruct (epath_last _ _ _ _ Q) as (IE & _). destruct (J1 _ IE).
  - destruct (destruct_list_rev q) as [->|(q' & y & ->)].
    + cbn in Q. subst m. destruct (epath_last _ _ _ _ P) as (IE & _). destruct (J1 _ IE).
    + destruct (epath_last _ _ _ _ P) as (E1 & X1). destruct (epath_last _ _ _ _ Q) as (E2 & X2).
      assert (x = y) by (eapply J2; eauto). subst y. f_equal.
      apply epath_app in P. destruct P as (m1 & P & P2). apply epath_app in Q. destruct Q as (m2 & Q & Q2).
      cbn [epath] in P2, Q2. destruct P2 as (<- & _). destruct Q2 as (<- & _).
      eapply IH; eauto.
Qed.

Lemma count_no_join : no_join -> exactly (safe_epath co unsafe exits entry) c.
Proof.
  intros J. destruct count_final_edges as (A & B).
  destruct (in_dec Nat.eq_dec entry exits) as [X|X].
  - destruct (in_dec Nat.eq_dec entry unsafe) as [U|U].
    + destruct B as (l & N & I & ->); [tauto|]. exists []. split; [constructor|].
      assert (NP : forall p, ~ safe_epath co unsafe exits entry p).
      { intros [|x p] (z & P & Z1 & Z2); cbn in P; [subst z; tauto|]. destruct P as (_ & K & _). tauto. }
      split; [intros p; split; [intros []|apply NP]|].
      destruct l as [|x l]; [reflexivity|]. exfalso. destruct (proj1 (I x) (or_introl eq_refl)) as (p & P).
      exact (NP _ P).
    + rewrite A by auto. exists [[]]. split; [repeat constructor; auto|]. split; [|reflexivity].
      intros p. split.
      * intros [<-|[]]. exists entry. cbn. auto.
      * intros (z & P & _). destruct p as [|x p]; [left; auto|]. destruct P as (_ & _ & K & _). tauto.
  - destruct B as (l & N & I & EC); [tauto|].
    assert (G : forall l, NoDup l -> (forall x, In x l -> final_edge x) ->
       exists ps, NoDup ps /\ List.length ps = List.length l /\
         (forall p, In p ps <-> exists q x, p = q ++ [x] /\ In x l /\ safe_epath co unsafe exits entry p)).
    { clear EC I N l. induction l as [|x l IH]; intros N F.
      - exists []. split; [constructor|]. split; auto. intros p. split; [intros []|intros (q & x & _ & [] & _)].
      - inversion N; subst. destruct IH as (ps & N1 & L1 & I1); auto; [intros y Hy; apply F; right; auto|].
        destruct (F x (or_introl eq_refl)) as (q & Q). exists ((q ++ [x]) :: ps).
        split.
        { constructor; auto. intros K. apply I1 in K. destruct K as (q' & x' & E & Hx & _).
          apply app_inj_tail in E. destruct E as [_ <-]. contradiction. }
        split; [cbn; lia|]. intros p. split.
        + intros [<-|Hp]; [exists q, x; split; auto; split; [left; auto|auto]|].
          apply I1 in Hp. destruct Hp as (q' & x' & E & Hx & S). exists q', x'. split; auto. split; auto. right; auto.
        + intros (q' & x' & -> & Hx & S). destruct Hx as [<-|Hx].
          * left. f_equal. destruct Q as (z & P & _). destruct S as (z' & P' & _).
            apply epath_app in P. destruct P as (m1 & P & P2). apply epath_app in P'. destruct P' as (m2 & P' & Q2).
            cbn [epath] in P2, Q2. destruct P2 as (<- & _ & Xm & _). destruct Q2 as (<- & _).
            eapply no_join_unique; eauto.
          * right. apply I1. exists q', x'. auto. }
    destruct (G l N) as (ps & N1 & L1 & I1); [intros x Hx; apply I; auto|].
    exists ps. split; auto. split; [|rewrite L1; exact EC].
    intros p. rewrite I1. split.
    + intros (q & x & -> & _ & S). auto.
    + intros S. destruct (destruct_list_rev p) as [->|(q & x & ->)].
      * destruct S as (z & P & _ & Z). cbn in P. subst z. contradiction.
      * exists q, x. split; auto. split; auto. apply I. exists q. auto.
Qed.
End R.
