(** * CallGraph: model of CallGraphAnalysis (passes.h:39-107) *)
From Coq Require Import ZArith List Bool String Lia Arith.
From Verif Require Import Machine Jit Dfs Binary.
Import ListNotations.
Open Scope Z_scope.

Section CG.
Variable co : code.

(** First function of getFuncs whose entry is the target block
    (passes.h:79-88). *)
Definition callee_of (t : nat) : option nat :=
  find (fun g => Nat.eqb (f_entry (co_fun co g)) t) (co_owners co t).

(** Body of the inner loop of UpdateCallees, passes.h:60-90. *)
Definition cg_edge (b : block) (s : summary) (e : edge) : summary :=
  if e_sink e && is (e_ty e) INDIRECT && e_inter e then s
  else if e_sink e && negb (is (e_ty e) RET) then set_unknown_cf s true
  else if is (e_ty e) INDIRECT then set_indirect_cf s true
  else if negb (is (e_ty e) CALL) then s
  else match co_link co (b_start (co_block co (e_trg e))) with
       | Some name => set_plt_calls s (zset (b_last b) name (s_plt_calls s))
       | None => match callee_of (e_trg e) with
                 | Some g => set_callees s (sins g (s_callees s))
                 | None => s
                 end
       end.

(** UpdateCallees, passes.h:58-92. *)
Definition cg_block (s : summary) (bn : nat) : summary :=
  let b := co_block co bn in fold_left (cg_edge b) (b_targets b) s.
Definition update_callees (f : nat) (s : summary) : summary :=
  fold_left cg_block (f_blocks (co_fun co f)) s.

(** VisitFunction, passes.h:94-106, as an instance of [Dfs.visit]. *)
Definition cg_pre (f : nat) (m : sums) : sums * unit * list nat :=
  let s := update_callees f (m f) in (upd m f s, tt, s_callees s).
Definition cg_before (p c : nat) (m : sums) : sums :=
  upd m c (set_callers (m c) (sins p (s_callers (m c)))).
Definition cg_after (p c : nat) (fresh : bool) (l : unit) (m : sums) : unit * sums := (l, m).
Definition cg_post (f : nat) (l : unit) (m : sums) : sums := m.

(** RunGlobalAnalysis, passes.h:45-55. *)
Definition cg_run (m : sums) : res (list nat * sums) :=
  visit_all sums unit (co_funcs co) cg_pre cg_before cg_after cg_post
    (S (List.length (co_funcs co))) (co_funcs co) ([], m).

(** Every function found as a callee has a summary. *)
Definition owners_known : Prop :=
  forall b g, In g (co_owners co b) -> In g (co_funcs co).

(** ** Specification *)
(** An edge out of a block of [f]. *)
Definition edge_of (f : nat) (b : nat) (e : edge) : Prop :=
  In b (f_blocks (co_fun co f)) /\ In e (b_targets (co_block co b)).
(** [t] is the entry block of function [g]. *)
Definition enters (t g : nat) : Prop := In g (co_owners co t) /\ f_entry (co_fun co g) = t.
(** Different functions have different entry blocks. *)
Definition one_entry : Prop := forall t g g', enters t g -> enters t g' -> g = g'.
(** A direct call from [f] to the function [g] of this binary. *)
Definition calls (f g : nat) : Prop :=
  exists b e, edge_of f b e /\ e_ty e = CALL /\ e_sink e = false /\
    co_link co (b_start (co_block co (e_trg e))) = None /\ enters (e_trg e) g.
(** A call through the PLT at address [a] to the library function [name]. *)
Definition plt_call (f : nat) (a : Z) (name : string) : Prop :=
  exists b e, edge_of f b e /\ e_ty e = CALL /\ e_sink e = false /\
    b_last (co_block co b) = a /\ co_link co (b_start (co_block co (e_trg e))) = Some name.
(** An edge without known target that the analysis counts as unknown. *)
Definition unresolved (f : nat) : Prop :=
  exists b e, edge_of f b e /\ e_sink e = true /\ e_ty e <> RET /\
    ~ (e_ty e = INDIRECT /\ e_inter e = true).
(** An indirect jump (a switch) whose targets the disassembler found. *)
Definition jumps_indirectly (f : nat) : Prop :=
  exists b e, edge_of f b e /\ e_sink e = false /\ e_ty e = INDIRECT.

Hypothesis OE : one_entry.
Lemma callee_of_enters t g : callee_of t = Some g <-> enters t g.
Proof.
  unfold callee_of. split.
  - intros E. apply find_some in E. destruct E as [A B]. apply Nat.eqb_eq in B. split; auto.
  - intros E. destruct (find _ _) as [h|] eqn:F.
    + apply find_some in F. destruct F as [A B]. apply Nat.eqb_eq in B.
      f_equal. apply (OE t); [split|]; auto.
    + destruct E as [A B]. pose proof (find_none _ _ F _ A) as N. cbn in N.
      apply Nat.eqb_neq in N. contradiction.
Qed.

(** ** Facts about UpdateCallees *)
Definition cg_same (s s' : summary) : Prop :=
  s_assume_unsafe s' = s_assume_unsafe s /\ s_self_unsafe s' = s_self_unsafe s /\
  s_child_writes s' = s_child_writes s /\ s_writes s' = s_writes s /\
  s_unsafe_blocks s' = s_unsafe_blocks s /\ s_unknown_writes s' = s_unknown_writes s /\
  s_exc_safe s' = s_exc_safe s.

Lemma cg_edge_callees b s e g :
  In g (s_callees (cg_edge b s e)) <->
  In g (s_callees s) \/
  (e_ty e = CALL /\ e_sink e = false /\
   co_link co (b_start (co_block co (e_trg e))) = None /\ enters (e_trg e) g).
Proof.
  rewrite <- callee_of_enters.
  unfold cg_edge. destruct e as [t k i tr]. cbn [e_ty e_sink e_inter e_trg].
  destruct k; destruct t, i; cbn; try (intuition discriminate);
  (destruct (co_link co _); [cbn; intuition discriminate|];
   destruct (callee_of tr); cbn; rewrite ?sins_in;
   [|intuition discriminate]; intuition (subst; auto; try congruence)).
Qed.
Lemma cg_edge_callers b s e : s_callers (cg_edge b s e) = s_callers s.
Proof.
  unfold cg_edge.
  repeat match goal with |- context [if ?c then _ else _] => destruct c end; auto.
  destruct (co_link co _); [auto|]. destruct (callee_of _); auto.
Qed.
Lemma cg_edge_same b s e : cg_same s (cg_edge b s e).
Proof.
  unfold cg_edge.
  repeat match goal with |- context [if ?c then _ else _] => destruct c end;
  try (repeat split; reflexivity).
  destruct (co_link co _); [repeat split; reflexivity|].
  destruct (callee_of _); repeat split; reflexivity.
Qed.
Lemma cg_edge_unknown b s e :
  s_unknown_cf (cg_edge b s e) = true <->
  s_unknown_cf s = true \/
  (e_sink e = true /\ e_ty e <> RET /\ ~ (e_ty e = INDIRECT /\ e_inter e = true)).
Proof.
  unfold cg_edge. destruct e as [t k i tr]. cbn [e_ty e_sink e_inter e_trg].
  destruct k; destruct t, i; cbn; try (intuition (auto; congruence));
  (destruct (co_link co _); [cbn; intuition discriminate|];
   destruct (callee_of tr); cbn; intuition discriminate).
Qed.

Lemma cg_edge_indirect b s e :
  s_indirect_cf (cg_edge b s e) = true <->
  s_indirect_cf s = true \/
  (e_sink e = false /\ e_ty e = INDIRECT).
Proof.
  unfold cg_edge. destruct e as [t k i tr]. cbn [e_ty e_sink e_inter e_trg].
  destruct k; destruct t, i; cbn; try (intuition (auto; congruence));
  (destruct (co_link co _); [cbn; intuition discriminate|];
   destruct (callee_of tr); cbn; intuition discriminate).
Qed.

Lemma zset_in {A} k (v : A) l k' v' :
  In (k', v') (zset k v l) -> (k' = k /\ v' = v) \/ In (k', v') l.
Proof.
  induction l as [|[a w] l IH]; cbn [zset].
  - cbn. intros [H|[]]. inversion H; auto.
  - destruct (k <? a); [intros [H|H]; [inversion H|]; auto|].
    destruct (k =? a); intros [H|H].
    + inversion H; auto.
    + right; right; auto.
    + right; left; auto.
    + destruct (IH H); auto. right; right; auto.
Qed.
Lemma zset_has {A} k (v : A) l : In (k, v) (zset k v l).
Proof.
  induction l as [|[a w] l IH]; cbn [zset]; [left; auto|].
  destruct (k <? a); [left; auto|]. destruct (k =? a); [left; auto|right; auto].
Qed.
Lemma zset_key {A} k (v : A) l k' v' :
  In (k', v') l -> exists w, In (k', w) (zset k v l).
Proof.
  induction l as [|[a w] l IH]; cbn [zset]; [intros []|].
  destruct (k <? a); [intros H; exists v'; right; auto|].
  destruct (Z.eqb_spec k a) as [->|NE]; intros [H|H].
  - inversion H; subst. exists v. left; auto.
  - exists v'. right; auto.
  - exists v'. left; auto.
  - destruct (IH H) as [u Hu]. exists u. right; auto.
Qed.

Lemma cg_edge_plt b s e :
  (forall k v, In (k, v) (s_plt_calls (cg_edge b s e)) ->
     In (k, v) (s_plt_calls s) \/
     (e_ty e = CALL /\ e_sink e = false /\ k = b_last b /\
      co_link co (b_start (co_block co (e_trg e))) = Some v)) /\
  (forall k v, In (k, v) (s_plt_calls s) -> exists w, In (k, w) (s_plt_calls (cg_edge b s e))) /\
  (forall n, e_ty e = CALL -> e_sink e = false ->
     co_link co (b_start (co_block co (e_trg e))) = Some n ->
     exists w, In (b_last b, w) (s_plt_calls (cg_edge b s e))).
Proof.
  unfold cg_edge. destruct e as [t k i tr]. cbn [e_ty e_sink e_inter e_trg].
  destruct k; destruct t, i; cbn; try (intuition (eauto; discriminate));
  destruct (co_link co _) eqn:EL; cbn.
  1, 3: (split; [|split]; [intros k v H; destruct (zset_in _ _ _ _ _ H) as [[-> ->]|]; auto|
         intros k v H; eapply zset_key; eauto| intros n _ _ E; inversion E; subst;
         eexists; apply zset_has]).
  all: destruct (callee_of tr); cbn; intuition (eauto; discriminate).
Qed.

(** The same for whole blocks and functions. *)
Lemma cg_fold_same l b s : cg_same s (fold_left (cg_edge b) l s).
Proof.
  revert s. induction l as [|e l IH]; intros s; cbn [fold_left]; [repeat split; auto|].
  pose proof (cg_edge_same b s e) as A. pose proof (IH (cg_edge b s e)) as B.
  unfold cg_same in *. intuition congruence.
Qed.
Lemma update_same f s : cg_same s (update_callees f s).
Proof.
  unfold update_callees. generalize (f_blocks (co_fun co f)). intros l. revert s.
  induction l as [|b l IH]; intros s; cbn [fold_left]; [repeat split; auto|].
  pose proof (cg_fold_same (b_targets (co_block co b)) (co_block co b) s) as A.
  pose proof (IH (cg_block s b)) as B. unfold cg_block in *. unfold cg_same in *.
  intuition congruence.
Qed.

Lemma update_callers f s : s_callers (update_callees f s) = s_callers s.
Proof.
  unfold update_callees. generalize (f_blocks (co_fun co f)). intros l. revert s.
  induction l as [|b l IH]; intros s; cbn [fold_left]; auto.
  rewrite IH. unfold cg_block. generalize (b_targets (co_block co b)). intros es.
  revert s. induction es as [|e es IHe]; intros s; cbn [fold_left]; auto.
  rewrite IHe. apply cg_edge_callers.
Qed.

Lemma update_callees_in f s g :
  In g (s_callees (update_callees f s)) <-> In g (s_callees s) \/ calls f g.
Proof.
  unfold update_callees, calls, edge_of. generalize (f_blocks (co_fun co f)).
  intros l. revert s. induction l as [|b l IH]; intros s; cbn [fold_left].
  - split; [auto|]. intros [H|(b & e & [[] _] & _)]; auto.
  - rewrite IH. clear IH. unfold cg_block at 1.
    assert (K : forall es s, In g (s_callees (fold_left (cg_edge (co_block co b)) es s)) <->
      In g (s_callees s) \/ exists e, In e es /\ e_ty e = CALL /\ e_sink e = false /\
        co_link co (b_start (co_block co (e_trg e))) = None /\ enters (e_trg e) g).
    { clear - OE. induction es as [|e es IH]; intros s; cbn [fold_left].
      - split; [auto|]. intros [H|(e & [] & _)]; auto.
      - rewrite IH, cg_edge_callees. split.
        + intros [[H|H]|(e' & H & H')]; [auto| |]; right.
          * exists e. split; [left; auto|]. auto.
          * exists e'. split; [right; auto|]. auto.
        + intros [H|(e' & [->|H] & H')]; [auto|auto|]. right. exists e'. auto. }
    rewrite K. split.
    + intros [[H|(e & H & H')]|(b' & e & [H H1] & H2)]; [auto| |]; right.
      * exists b, e. split; [split; [left; auto|auto]|auto].
      * exists b', e. split; [split; [right; auto|auto]|auto].
    + intros [H|(b' & e & [[->|H] H1] & H2)]; [auto| |].
      * left. right. exists e. auto.
      * right. exists b', e. auto.
Qed.

Lemma update_unknown f s :
  s_unknown_cf (update_callees f s) = true <-> s_unknown_cf s = true \/ unresolved f.
Proof.
  unfold update_callees, unresolved, edge_of. generalize (f_blocks (co_fun co f)).
  intros l. revert s. induction l as [|b l IH]; intros s; cbn [fold_left].
  - split; [auto|]. intros [H|(b & e & [[] _] & _)]; auto.
  - rewrite IH. clear IH. unfold cg_block at 1.
    assert (K : forall es s, s_unknown_cf (fold_left (cg_edge (co_block co b)) es s) = true <->
      s_unknown_cf s = true \/ exists e, In e es /\ e_sink e = true /\ e_ty e <> RET /\
        ~ (e_ty e = INDIRECT /\ e_inter e = true)).
    { clear. induction es as [|e es IH]; intros s; cbn [fold_left].
      - split; [auto|]. intros [H|(e & [] & _)]; auto.
      - rewrite IH, cg_edge_unknown. split.
        + intros [[H|H]|(e' & H & H')]; [auto| |]; right.
          * exists e. split; [left; auto|]. auto.
          * exists e'. split; [right; auto|]. auto.
        + intros [H|(e' & [->|H] & H')]; [auto|auto|]. right. exists e'. auto. }
    rewrite K. split.
    + intros [[H|(e & H & H')]|(b' & e & [H H1] & H2)]; [auto| |]; right.
      * exists b, e. split; [split; [left; auto|auto]|auto].
      * exists b', e. split; [split; [right; auto|auto]|auto].
    + intros [H|(b' & e & [[->|H] H1] & H2)]; [auto| |].
      * left. right. exists e. auto.
      * right. exists b', e. auto.
Qed.

Lemma update_indirect f s :
  s_indirect_cf (update_callees f s) = true <-> s_indirect_cf s = true \/ jumps_indirectly f.
Proof.
  unfold update_callees, jumps_indirectly, edge_of. generalize (f_blocks (co_fun co f)).
  intros l. revert s. induction l as [|b l IH]; intros s; cbn [fold_left].
  - split; [auto|]. intros [H|(b & e & [[] _] & _)]; auto.
  - rewrite IH. clear IH. unfold cg_block at 1.
    assert (K : forall es s, s_indirect_cf (fold_left (cg_edge (co_block co b)) es s) = true <->
      s_indirect_cf s = true \/ exists e, In e es /\ e_sink e = false /\ e_ty e = INDIRECT).
    { clear. induction es as [|e es IH]; intros s; cbn [fold_left].
      - split; [auto|]. intros [H|(e & [] & _)]; auto.
      - rewrite IH, cg_edge_indirect. split.
        + intros [[H|H]|(e' & H & H')]; [auto| |]; right.
          * exists e. split; [left; auto|]. auto.
          * exists e'. split; [right; auto|]. auto.
        + intros [H|(e' & [->|H] & H')]; [auto|auto|]. right. exists e'. auto. }
    rewrite K. split.
    + intros [[H|(e & H & H')]|(b' & e & [H H1] & H2)]; [auto| |]; right.
      * exists b, e. split; [split; [left; auto|auto]|auto].
      * exists b', e. split; [split; [right; auto|auto]|auto].
    + intros [H|(b' & e & [[->|H] H1] & H2)]; [auto| |].
      * left. right. exists e. auto.
      * right. exists b', e. auto.
Qed.

Lemma update_plt_sound f s k v :
  In (k, v) (s_plt_calls (update_callees f s)) -> In (k, v) (s_plt_calls s) \/ plt_call f k v.
Proof.
  unfold update_callees, plt_call, edge_of. generalize (f_blocks (co_fun co f)).
  intros l. revert s. induction l as [|b l IH]; intros s; cbn [fold_left]; [auto|].
  intros H. destruct (IH _ H) as [H1|(b' & e & [A A'] & B)].
  - unfold cg_block in H1.
    assert (K : forall es s, In (k, v) (s_plt_calls (fold_left (cg_edge (co_block co b)) es s)) ->
      In (k, v) (s_plt_calls s) \/ exists e, In e es /\ e_ty e = CALL /\ e_sink e = false /\
        k = b_last (co_block co b) /\ co_link co (b_start (co_block co (e_trg e))) = Some v).
    { clear. induction es as [|e es IH]; intros s; cbn [fold_left]; [auto|].
      intros H. destruct (IH _ H) as [H1|(e' & A & B)].
      - destruct (proj1 (cg_edge_plt _ _ _) _ _ H1) as [H2|H2]; auto.
        right. exists e. split; [left; auto|]. tauto.
      - right. exists e'. split; [right; auto|]. auto. }
    destruct (K _ _ H1) as [H2|(e & A & B1 & B2 & B3 & B4)]; auto.
    right. exists b, e. split; [split; [left; auto|auto]|]. auto.
  - right. exists b', e. split; [split; [right; auto|auto]|]. auto.
Qed.

Lemma update_plt_mono f s k v :
  In (k, v) (s_plt_calls s) -> exists w, In (k, w) (s_plt_calls (update_callees f s)).
Proof.
  unfold update_callees. generalize (f_blocks (co_fun co f)). intros l. revert s v.
  induction l as [|b l IH]; intros s v H; cbn [fold_left]; eauto.
  assert (K : forall es s v, In (k, v) (s_plt_calls s) ->
    exists w, In (k, w) (s_plt_calls (fold_left (cg_edge (co_block co b)) es s))).
  { clear. induction es as [|e es IH]; intros s v H; cbn [fold_left]; eauto.
    destruct (proj1 (proj2 (cg_edge_plt (co_block co b) s e)) _ _ H) as [w Hw]. eauto. }
  destruct (K (b_targets (co_block co b)) s v H) as [w Hw]. eapply IH; eauto.
Qed.

Lemma update_plt_complete f s k v :
  plt_call f k v -> exists w, In (k, w) (s_plt_calls (update_callees f s)).
Proof.
  unfold plt_call, edge_of. unfold update_callees. generalize (f_blocks (co_fun co f)).
  intros l. revert s. induction l as [|b l IH]; intros s (b' & e & [A A'] & B1 & B2 & B3 & B4);
    cbn [fold_left]; [destruct A|].
  destruct A as [->|A].
  - assert (K : forall es s, In e es ->
      exists w, In (k, w) (s_plt_calls (fold_left (cg_edge (co_block co b')) es s))).
    { clear - B1 B2 B3 B4.
      assert (M : forall es s v, In (k, v) (s_plt_calls s) ->
        exists w, In (k, w) (s_plt_calls (fold_left (cg_edge (co_block co b')) es s))).
      { induction es as [|e1 es IH]; intros s v' H; cbn [fold_left]; eauto.
        destruct (proj1 (proj2 (cg_edge_plt (co_block co b') s e1)) _ _ H) as [w Hw]. eauto. }
      induction es as [|e1 es IH]; intros s H; [destruct H|]. cbn [fold_left].
      destruct H as [->|H]; [|auto].
      destruct (proj2 (proj2 (cg_edge_plt (co_block co b') s e)) v B1 B2 B4) as [w Hw].
      rewrite B3 in Hw. eapply M; eauto. }
    destruct (K _ s A') as [w Hw].
    assert (M : forall l s v, In (k, v) (s_plt_calls s) ->
      exists w, In (k, w) (s_plt_calls (fold_left cg_block l s))).
    { clear. induction l as [|b l IH]; intros s v H; cbn [fold_left]; eauto.
      assert (K : forall es s v, In (k, v) (s_plt_calls s) ->
        exists w, In (k, w) (s_plt_calls (fold_left (cg_edge (co_block co b)) es s))).
      { clear. induction es as [|e es IH]; intros s v H; cbn [fold_left]; eauto.
        destruct (proj1 (proj2 (cg_edge_plt (co_block co b) s e)) _ _ H) as [w Hw]. eauto. }
      destruct (K (b_targets (co_block co b)) s v H) as [w Hw]. eapply IH; eauto. }
    eapply M; eauto.
  - apply IH. exists b', e. auto.
Qed.

(** ** The traversal *)
(** [cg_done m f]: f's part of the summary is complete and exact. *)
Definition cg_done (m : sums) (f : nat) : Prop :=
  (forall g, In g (s_callees (m f)) <-> calls f g) /\
  (s_unknown_cf (m f) = true <-> unresolved f) /\
  (forall k v, In (k, v) (s_plt_calls (m f)) -> plt_call f k v) /\
  (forall k v, plt_call f k v -> exists w, In (k, w) (s_plt_calls (m f))) /\
  (s_indirect_cf (m f) = true <-> jumps_indirectly f).

Definition cg_fresh (s : summary) : Prop :=
  s_callees s = [] /\ s_unknown_cf s = false /\ s_plt_calls s = [] /\ s_indirect_cf s = false.

Definition cg_frame (s s' : summary) : Prop :=
  s_callees s' = s_callees s /\ s_unknown_cf s' = s_unknown_cf s /\
  s_plt_calls s' = s_plt_calls s /\ s_indirect_cf s' = s_indirect_cf s /\ cg_same s s'.

Lemma cg_frame_refl s : cg_frame s s.
Proof. repeat split; auto. Qed.
Lemma cg_frame_trans a b c : cg_frame a b -> cg_frame b c -> cg_frame a c.
Proof. unfold cg_frame, cg_same. intuition congruence. Qed.

(** State invariant between steps: unvisited functions are fresh, visited
    ones are done, other fields are as in [m0], and the callers relation is
    contained in the calls relation. *)
Definition cg_inv (m0 : sums) (vis : list nat) (m : sums) : Prop :=
  (forall f, ~ In f vis -> cg_frame (m0 f) (m f)) /\
  (forall f, In f vis -> cg_done m f /\ cg_same (m0 f) (m f)) /\
  (forall f g, In f (s_callers (m g)) -> In f vis /\ calls f g).

Lemma cg_before_inv m0 vis m p c :
  cg_inv m0 vis m -> In p vis -> calls p c -> cg_inv m0 vis (cg_before p c m).
Proof.
  intros (A & B & C) Hp Hc. unfold cg_before, upd.
  assert (F : forall f, cg_frame (m f)
     ((if Nat.eqb f c then set_callers (m c) (sins p (s_callers (m c))) else m f))).
  { intros f. destruct (Nat.eqb_spec f c) as [->|]; [repeat split|apply cg_frame_refl]. }
  split; [|split].
  - intros f Hf. eapply cg_frame_trans; [apply A; auto|apply F].
  - intros f Hf. destruct (B f Hf) as [D E]. specialize (F f).
    destruct F as (F1 & F2 & F3 & F4 & F5). split.
    + unfold cg_done in *. rewrite F1, F2, F3, F4. auto.
    + unfold cg_same in *. intuition congruence.
  - intros f g. destruct (Nat.eqb_spec g c) as [->|].
    + cbn. rewrite sins_in. intros [->|H]; auto.
    + apply C.
Qed.

Lemma cg_dfs_inv m0 (Hfresh : forall f, cg_fresh (m0 f)) :
  (forall f w w', dfs sums unit (co_funcs co) cg_pre cg_before cg_after cg_post f w w' ->
     ~ In f (fst w) -> cg_inv m0 (fst w) (snd w) -> cg_inv m0 (fst w') (snd w') /\
     (forall p c, In p (fst w') -> ~ In p (fst w) -> calls p c -> In p (s_callers (snd w' c))) /\
     forall p q, In p (s_callers (snd w q)) -> In p (s_callers (snd w' q))) /\
  (forall f ch vis m l vis' m' l',
     dfs_loop sums unit (co_funcs co) cg_pre cg_before cg_after cg_post f ch vis m l vis' m' l' ->
     In f vis -> (forall c, In c ch -> calls f c) -> cg_inv m0 vis m ->
     cg_inv m0 vis' m' /\
     (forall c, In c ch -> In f (s_callers (m' c))) /\
     (forall p c, In p vis' -> ~ In p vis -> calls p c -> In p (s_callers (m' c))) /\
     forall p q, In p (s_callers (m q)) -> In p (s_callers (m' q))).
Proof.
  apply dfs_mutind; cbn [fst snd].
  - intros f vis st st1 l ch vis2 st2 l2 EP _ IH HN HI.
    unfold cg_pre in EP. inversion EP; subst. clear EP.
    destruct HI as (A & B & C).
    assert (D : cg_done (upd st f (update_callees f (st f))) f).
    { destruct (A f HN) as (F1 & F2 & F3 & F4 & _). destruct (Hfresh f) as (G1 & G2 & G3 & G4).
      unfold cg_done, upd. rewrite Nat.eqb_refl. split; [|split; [|split; [|split]]].
      - intros g. rewrite update_callees_in, F1, G1. cbn. tauto.
      - rewrite update_unknown, F2, G2. intuition discriminate.
      - intros k v H. destruct (update_plt_sound _ _ _ _ H) as [K|K]; auto.
        rewrite F3, G3 in K. destruct K.
      - intros k v H. eapply update_plt_complete; eauto.
      - rewrite update_indirect, F4, G4. intuition discriminate. }
    assert (D1 : forall c, In c (s_callees (update_callees f (st f))) <-> calls f c).
    { intros c. destruct D as [D _]. unfold upd in D. rewrite Nat.eqb_refl in D. apply D. }
    destruct IH as (I1 & I2 & I4 & I3).
    + left; auto.
    + intros c Hc. apply D1; auto.
    + split; [|split].
      * intros g Hg. unfold upd. destruct (Nat.eqb_spec g f) as [->|].
        { exfalso. apply Hg. left; auto. } apply A. intros H. apply Hg. right; auto.
      * intros g Hg. destruct (Nat.eq_dec g f) as [->|NE].
        -- split; auto. unfold upd. rewrite Nat.eqb_refl.
           destruct (A f HN) as (_ & _ & _ & _ & E). pose proof (update_same f (st f)) as U.
           unfold cg_same in *. intuition congruence.
        -- destruct Hg as [<-|Hg]; [contradiction|]. destruct (B g Hg) as [B1 B2].
           unfold cg_done, upd in *. destruct (Nat.eqb_spec g f); [contradiction|]. auto.
      * intros p q. unfold upd. destruct (Nat.eqb_spec q f) as [->|].
        -- rewrite update_callers. intros H. destruct (C _ _ H). split; [right|]; auto.
        -- intros H. destruct (C _ _ H). split; [right|]; auto.
    + split; [exact I1|]. split.
      * intros p c Hp HNp Hc. unfold cg_post. destruct (Nat.eq_dec p f) as [->|NE].
        -- apply I2, D1; auto.
        -- apply I4; auto. intros [E|E]; [congruence|contradiction].
      * intros p q H. apply I3. unfold upd.
        destruct (Nat.eqb_spec q f) as [->|]; [rewrite update_callers|]; auto.
  - intros f vis st l _ _ HI. split; [auto|]. split; [intros c []|]. split; [|auto].
    intros p c H1 H2. contradiction.
  - intros f c t vis st l l' st' vis2 st2 l2 HK HV EA _ IH Hf Hch HI.
    unfold cg_after in EA. inversion EA; subst.
    destruct IH as (I1 & I2 & I4 & I3); auto.
    { intros x Hx. apply Hch. right; auto. }
    { apply cg_before_inv; auto. apply Hch. left; auto. }
    split; [auto|]. split; [|split; [auto|]].
    + intros x [<-|Hx]; auto. apply I3. unfold cg_before, upd. rewrite Nat.eqb_refl. cbn.
      rewrite sins_in. auto.
    + intros p q H. apply I3. unfold cg_before, upd. destruct (Nat.eqb_spec q c) as [->|]; auto.
      cbn. rewrite sins_in. auto.
  - intros f c t vis st l vis1 st1 l' st' vis2 st2 l2 HK HV HD IH1 EA _ IH2 Hf Hch HI.
    unfold cg_after in EA. inversion EA; subst.
    assert (HI1 : cg_inv m0 vis (cg_before f c st)).
    { apply cg_before_inv; auto. apply Hch. left; auto. }
    destruct (IH1 HV HI1) as (J1 & J3 & J2).
    pose proof (proj1 (dfs_grow _ _ _ _ _ _ _) _ _ _ HD) as G. cbn [fst] in G.
    destruct IH2 as (I1 & I2 & I4 & I3); auto.
    { apply G. right; auto. } { intros x Hx. apply Hch. right; auto. }
    split; [auto|]. split; [|split].
    + intros x [<-|Hx]; auto. apply I3, J2. unfold cg_before, upd. rewrite Nat.eqb_refl. cbn.
      rewrite sins_in. auto.
    + intros p x Hp HNp Hx. destruct (in_dec Nat.eq_dec p vis1) as [I|I]; auto.
    + intros p q H. apply I3, J2. unfold cg_before, upd. destruct (Nat.eqb_spec q c) as [->|]; auto.
      cbn. rewrite sins_in. auto.
Qed.

Lemma cg_all_inv m0 (Hfresh : forall f, cg_fresh (m0 f)) fs w w' :
  dfs_all sums unit (co_funcs co) cg_pre cg_before cg_after cg_post fs w w' ->
  cg_inv m0 (fst w) (snd w) ->
  cg_inv m0 (fst w') (snd w') /\
  (forall p c, In p (fst w') -> ~ In p (fst w) -> calls p c -> In p (s_callers (snd w' c))) /\
  forall p q, In p (s_callers (snd w q)) -> In p (s_callers (snd w' q)).
Proof.
  induction 1 as [w|f t w w' HS HD IH|f t w w1 w' HS HD1 HD IH]; intros HI.
  - split; [auto|]. split; [|auto]. intros; contradiction.
  - auto.
  - destruct (proj1 (cg_dfs_inv m0 Hfresh) _ _ _ HD1 HS HI) as (A & B & C).
    destruct (IH A) as (D & E & F). split; [auto|]. split; [|auto].
    intros p c Hp HN Hc. destruct (in_dec Nat.eq_dec p (fst w1)); auto.
Qed.

(** The whole pass: it terminates without touching a missing summary and its
    results are exact. *)
Lemma cg_run_ok m0 :
  owners_known -> NoDup (co_funcs co) -> (forall f, cg_fresh (m0 f)) ->
  (forall f, s_callers (m0 f) = []) ->
  exists vis m, cg_run m0 = Ok (vis, m) /\ NoDup vis /\
    (forall f, In f vis <-> In f (co_funcs co)) /\
    (forall f, In f (co_funcs co) -> cg_done m f) /\
    (forall f, cg_same (m0 f) (m f)) /\
    (forall f g, In f (co_funcs co) -> (In f (s_callers (m g)) <-> In g (s_callees (m f)))) /\
    (forall f g, In f (s_callers (m g)) -> In f (co_funcs co)) /\
    (forall f g, In f (co_funcs co) -> In g (s_callees (m f)) -> In g (co_funcs co)).
Proof.
  intros HO HN HF HC.
  pose (good := fun m : sums => forall f x, In x (s_callees (m f)) -> In x (co_funcs co)).
  assert (HU : forall f m, good m -> forall x, In x (s_callees (update_callees f (m f))) ->
            In x (co_funcs co)).
  { intros f m G x Hx. apply update_callees_in in Hx.
    destruct Hx as [Hx|(b & e & _ & _ & _ & _ & E)]; [apply (G f); auto|].
    apply HO with (e_trg e). apply E. }
  destruct (visit_all_dfs sums unit (co_funcs co) cg_pre cg_before cg_after cg_post good)
    with (fuel := S (List.length (co_funcs co))) (fs := co_funcs co) (vis := @nil nat) (st := m0)
    as (vis & m & A & B & C & D & E & F); auto.
  - intros f st G _. exact (HU f st G).
  - intros f st G _. cbn [cg_pre fst]. intros g x. unfold upd.
    destruct (Nat.eqb_spec g f) as [->|]; [apply HU; auto|apply G].
  - intros p c st G g x. unfold cg_before, upd. destruct (Nat.eqb_spec g c) as [->|]; apply G.
  - apply incl_refl.
  - intros f x. destruct (HF f) as (-> & _). intros [].
  - constructor.
  - intros x [].
  - rewrite app_nil_r in F.
    assert (I0 : cg_inv m0 [] m0).
    { split; [|split].
      - intros. apply cg_frame_refl.
      - intros f [].
      - intros f g. rewrite HC. intros []. }
    destruct (cg_all_inv m0 HF _ _ _ C I0) as ((I1 & I2 & I3) & S1 & _). cbn [fst snd] in *.
    exists vis, m. split; [exact A|]. split; [auto|].
    assert (V : forall f, In f vis <-> In f (co_funcs co)) by (split; [apply E|apply F]).
    split; [auto|]. split; [|split; [|split; [|split]]].
    + intros f Hf. apply I2, V; auto.
    + intros f. destruct (in_dec Nat.eq_dec f vis) as [I|I]; [apply I2; auto|].
      apply I1 in I. apply I.
    + intros f g Hf. apply V in Hf. destruct (I2 f Hf) as [(K & _) _]. rewrite K. split.
      * intros H. apply I3; auto.
      * intros H. apply S1; auto.
    + intros f g H. apply V, (I3 f g); auto.
    + intros f g Hf Hg. eapply B; eauto.
Qed.
End CG.
