(** * Reach: depth-first marking of a finite graph

    The recursion "if visited return; insert; for each successor recurse" of
    GetReachableBlocks (/repo/src/instrument.cc:381-394), over any node type. *)
From Coq Require Import List Arith Lia Bool.
Import ListNotations.

Section REACH.
Context {A : Type}.
Variable dec : forall a b : A, {a = b} + {a <> b}.
Variable succ : A -> list A.

Definition amem (x : A) (l : list A) : bool := if in_dec dec x l then true else false.
Lemma amem_in x l : amem x l = true <-> In x l.
Proof. unfold amem. destruct (in_dec dec x l); split; intros H; auto; discriminate. Qed.
Lemma amem_nin x l : amem x l = false <-> ~ In x l.
Proof. unfold amem. destruct (in_dec dec x l); split; intros H; auto; try discriminate; contradiction. Qed.

Fixpoint mark (fuel : nat) (x : A) (vis : list A) {struct fuel} : option (list A) :=
  if amem x vis then Some vis
  else match fuel with
       | O => None
       | S n => (fix loop (l : list A) (vis : list A) {struct l} :=
                   match l with
                   | [] => Some vis
                   | y :: r => match mark n y vis with
                               | Some v => loop r v
                               | None => None
                               end
                   end) (succ x) (x :: vis)
       end.
Definition mark_loop (n : nat) :=
  fix loop (l : list A) (vis : list A) {struct l} : option (list A) :=
    match l with
    | [] => Some vis
    | y :: r => match mark n y vis with Some v => loop r v | None => None end
    end.
Lemma mark_S n x vis :
  mark (S n) x vis = if amem x vis then Some vis else mark_loop n (succ x) (x :: vis).
Proof. reflexivity. Qed.

Inductive reaches : A -> A -> Prop :=
| rc_refl x : reaches x x
| rc_step x y z : In y (succ x) -> reaches y z -> reaches x z.
Lemma reaches_trans x y z : reaches x y -> reaches y z -> reaches x z.
Proof. induction 1; auto. intros H2. econstructor; eauto. Qed.
Lemma reaches_snoc x y z : reaches x y -> In z (succ y) -> reaches x z.
Proof. intros H K. eapply reaches_trans; eauto. econstructor; [exact K|constructor]. Qed.

Variable U : list A.
Hypothesis closed : forall x y, In x U -> In y (succ x) -> In y U.

Definition todo (vis : list A) : nat := List.length (filter (fun x => negb (amem x vis)) U).
Lemma todo_cons x vis : In x U -> ~ In x vis -> todo (x :: vis) < todo vis.
Proof.
  unfold todo. clear closed. intros H V. induction U as [|a l IH]; [contradiction|].
  assert (LE : forall l, List.length (filter (fun y => negb (amem y (x :: vis))) l) <=
                    List.length (filter (fun y => negb (amem y vis)) l)).
  { clear. induction l as [|b l IH]; cbn [filter List.length]; auto.
    destruct (amem b vis) eqn:E.
    - assert (E' : amem b (x :: vis) = true) by (apply amem_in; right; apply amem_in; auto).
      rewrite E'. cbn. auto.
    - cbn [negb]. destruct (negb (amem b (x :: vis))); cbn; lia. }
  cbn [filter]. destruct H as [->|H].
  - assert (E1 : amem x (x :: vis) = true) by (apply amem_in; left; auto).
    assert (E2 : amem x vis = false) by (apply amem_nin; auto). rewrite E1, E2. cbn.
    specialize (LE l). lia.
  - specialize (IH H). destruct (amem a vis) eqn:E.
    + assert (E' : amem a (x :: vis) = true) by (apply amem_in; right; apply amem_in; auto).
      rewrite E'. cbn. auto.
    + cbn [negb]. destruct (negb (amem a (x :: vis))); cbn; lia.
Qed.
Lemma todo_mono vis vis' : incl vis vis' -> todo vis' <= todo vis.
Proof.
  unfold todo. clear closed. intros H. induction U as [|a l IH]; cbn [filter]; auto.
  destruct (amem a vis) eqn:E.
  - assert (E' : amem a vis' = true) by (apply amem_in, H, amem_in; auto). rewrite E'. cbn. auto.
  - cbn [negb]. destruct (negb (amem a vis')); cbn; lia.
Qed.
Lemma todo_le vis : todo vis <= List.length U.
Proof. unfold todo. clear closed. induction U; cbn [filter]; auto. destruct (negb _); cbn; lia. Qed.

Lemma mark_ok n : forall x vis, In x U -> todo vis <= n ->
  exists vis', mark n x vis = Some vis' /\ incl vis vis' /\ In x vis' /\
    (forall y, In y vis' -> ~ In y vis -> reaches x y /\ incl (succ y) vis').
Proof.
  induction n as [|n IH]; intros x vis Hx Hn.
  - assert (V : In x vis).
    { destruct (in_dec dec x vis) as [|N]; auto.
      pose proof (todo_cons x vis Hx N). lia. }
    exists vis. cbn. replace (amem x vis) with true by (symmetry; apply amem_in; auto).
    split; [auto|]. split; [apply incl_refl|]. split; auto. intros y H1 H2; contradiction.
  - rewrite mark_S. destruct (amem x vis) eqn:V.
    + apply amem_in in V. exists vis. split; [auto|]. split; [apply incl_refl|].
      split; auto. intros y H1 H2; contradiction.
    + apply amem_nin in V.
      assert (L : forall l vis1, incl l (succ x) -> incl (x :: vis) vis1 ->
        exists vis', mark_loop n l vis1 = Some vis' /\ incl vis1 vis' /\ incl l vis' /\
          (forall y, In y vis' -> ~ In y vis1 -> reaches x y /\ incl (succ y) vis')).
      { induction l as [|y r IHr]; intros vis1 HL HV; cbn [mark_loop].
        - exists vis1. split; auto. split; [apply incl_refl|]. split; [intros z []|]. intros y H1 H2; contradiction.
        - destruct (IH y vis1) as (v2 & E2 & I2 & Y2 & R2).
          + apply (closed x); auto. apply HL. left; auto.
          + pose proof (todo_cons x vis Hx V). pose proof (todo_mono _ _ HV). lia.
          + rewrite E2. destruct (IHr v2) as (v3 & E3 & I3 & L3 & R3).
            * intros z Hz. apply HL. right; auto.
            * intros z Hz. apply I2, HV, Hz.
            * exists v3. split; auto. split; [intros z Hz; apply I3, I2, Hz|].
              split; [intros z [<-|Hz]; [apply I3, Y2|apply L3, Hz]|].
              intros z Hz Nz. destruct (in_dec dec z v2) as [K|K].
              -- destruct (R2 z K Nz) as (A1 & A2). split.
                 ++ econstructor; [apply HL; left; reflexivity|exact A1].
                 ++ intros w Hw. apply I3, A2, Hw.
              -- apply R3; auto. }
      destruct (L (succ x) (x :: vis) (incl_refl _) (incl_refl _)) as (v & E & I & S & R).
      exists v. split; auto. split; [intros z Hz; apply I; right; auto|].
      split; [apply I; left; auto|].
      intros y Hy Ny. destruct (dec y x) as [->|D].
      * split; [constructor|exact S].
      * apply R; auto. intros [K|K]; [congruence|contradiction].
Qed.

(** Marking from scratch computes exactly the reachable nodes. *)
Lemma mark_reaches x : In x U -> exists vis, mark (List.length U) x [] = Some vis /\
  forall y, In y vis <-> reaches x y.
Proof.
  intros Hx. destruct (mark_ok (List.length U) x [] Hx (todo_le [])) as (v & E & _ & X & R).
  exists v. split; auto. intros y. split.
  - intros Hy. apply R; auto.
  - intros H. assert (C : forall a b, In a v -> In b (succ a) -> In b v).
    { intros a b Ha Hb. destruct (R a Ha (fun f => f)) as (_ & K). apply K, Hb. }
    clear - X H C. induction H as [|a b c Hb _ IH]; eauto.
Qed.
End REACH.
