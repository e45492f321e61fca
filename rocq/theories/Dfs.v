(** * Depth-first traversals with a visited set

    CallGraphAnalysis::VisitFunction (passes.h:94-106),
    InterProceduralMemoryAnalysis::VisitFunction (passes.h:399-419) and
    FunctionExceptionAnalysis::VisitFunction (passes.h:886-913) have one shape:
    mark the function visited, prepare, go through the callees in set order,
    recurse into the unvisited ones, do some work per callee, finish.  The shape
    is defined here once; the three analyses instantiate it. *)
From Coq Require Import List Arith Lia Bool.
Import ListNotations.

(** Outcome of code that may dereference a null summary ([UB]) and of a
    recursion on fuel ([NoFuel], proved unreachable). *)
Inductive res (A : Type) := Ok (a : A) | UB | NoFuel.
Arguments Ok {A} _.
Arguments UB {A}.
Arguments NoFuel {A}.

Definition mem (x : nat) (l : list nat) : bool := existsb (Nat.eqb x) l.

Lemma mem_in x l : mem x l = true <-> In x l.
Proof.
  unfold mem. rewrite existsb_exists. split.
  - intros (y & Hy & E). apply Nat.eqb_eq in E. subst. auto.
  - intros H. exists x. split; auto. apply Nat.eqb_refl.
Qed.
Lemma mem_nin x l : mem x l = false <-> ~ In x l.
Proof.
  rewrite <- mem_in. destruct (mem x l); split; intros H; auto; try discriminate.
  exfalso; auto.
Qed.

(** [std::set] of pointers: a list in increasing pointer order. *)
Fixpoint sins (x : nat) (l : list nat) : list nat :=
  match l with
  | [] => [x]
  | y :: t => if x <? y then x :: l else if x =? y then l else y :: sins x t
  end.

Lemma sins_in x l y : In y (sins x l) <-> y = x \/ In y l.
Proof.
  induction l as [|a l IH]; cbn [sins].
  - cbn. intuition.
  - destruct (x <? a); [cbn; intuition|]. destruct (x =? a) eqn:E.
    + apply Nat.eqb_eq in E. subst. cbn. intuition.
    + cbn. rewrite IH. intuition.
Qed.

Section DFS.
Variables (St L : Type).
(** The functions that have a summary; a null summary is dereferenced for others. *)
Variable known : list nat.
(** [pre f st]: state and local variables after the code before the loop, and
    the callees the loop goes through. *)
Variable pre : nat -> St -> St * L * list nat.
(** [before p c st]: the code at the head of the loop body. *)
Variable before : nat -> nat -> St -> St.
(** [after p c fresh l st]: the code at the end of the loop body; [fresh] tells
    whether [c] was visited in this iteration. *)
Variable after : nat -> nat -> bool -> L -> St -> L * St.
Variable post : nat -> L -> St -> St.

Definition vst : Type := list nat * St.

Fixpoint visit (fuel : nat) (f : nat) (w : vst) : res vst :=
  match fuel with
  | O => NoFuel
  | S n =>
      let (vis, st) := w in
      let '(st1, l, ch) := pre f st in
      let fix loop (ch : list nat) (vis : list nat) (st : St) (l : L) : res (vst * L) :=
        match ch with
        | [] => Ok ((vis, st), l)
        | c :: t =>
            if mem c known then
              let st0 := before f c st in
              if mem c vis then
                let (l', st') := after f c false l st0 in loop t vis st' l'
              else
                match visit n c (vis, st0) with
                | Ok (vis1, st1) => let (l', st') := after f c true l st1 in loop t vis1 st' l'
                | UB => UB
                | NoFuel => NoFuel
                end
            else UB
        end in
      match loop ch (f :: vis) st1 l with
      | Ok ((vis2, st2), l2) => Ok (vis2, post f l2 st2)
      | UB => UB
      | NoFuel => NoFuel
      end
  end.

(** The outer loop: [for f in co->funcs(): if not visited: VisitFunction]. *)
Fixpoint visit_all (fuel : nat) (fs : list nat) (w : vst) : res vst :=
  match fs with
  | [] => Ok w
  | f :: t =>
      if mem f (fst w) then visit_all fuel t w
      else match visit fuel f w with
           | Ok w' => visit_all fuel t w'
           | e => e
           end
  end.

(** The same as an inductive definition, without fuel. *)
Inductive dfs : nat -> vst -> vst -> Prop :=
| dfs_intro f vis st st1 l ch vis2 st2 l2 :
    pre f st = (st1, l, ch) ->
    dfs_loop f ch (f :: vis) st1 l vis2 st2 l2 ->
    dfs f (vis, st) (vis2, post f l2 st2)
with dfs_loop : nat -> list nat -> list nat -> St -> L -> list nat -> St -> L -> Prop :=
| dl_nil f vis st l : dfs_loop f [] vis st l vis st l
| dl_seen f c t vis st l l' st' vis2 st2 l2 :
    In c known -> In c vis ->
    after f c false l (before f c st) = (l', st') ->
    dfs_loop f t vis st' l' vis2 st2 l2 ->
    dfs_loop f (c :: t) vis st l vis2 st2 l2
| dl_new f c t vis st l vis1 st1 l' st' vis2 st2 l2 :
    In c known -> ~ In c vis ->
    dfs c (vis, before f c st) (vis1, st1) ->
    after f c true l st1 = (l', st') ->
    dfs_loop f t vis1 st' l' vis2 st2 l2 ->
    dfs_loop f (c :: t) vis st l vis2 st2 l2.

Inductive dfs_all : list nat -> vst -> vst -> Prop :=
| da_nil w : dfs_all [] w w
| da_seen f t w w' : In f (fst w) -> dfs_all t w w' -> dfs_all (f :: t) w w'
| da_new f t w w1 w' : ~ In f (fst w) -> dfs f w w1 -> dfs_all t w1 w' ->
    dfs_all (f :: t) w w'.

Scheme dfs_ind2 := Minimality for dfs Sort Prop
with dfs_loop_ind2 := Minimality for dfs_loop Sort Prop.
Combined Scheme dfs_mutind from dfs_ind2, dfs_loop_ind2.

(** Children are always known, in all states that satisfy the invariant [good]. *)
Variable good : St -> Prop.
Hypothesis closed : forall f st, good st -> In f known -> incl (snd (pre f st)) known.
Hypothesis good_pre : forall f st, good st -> In f known -> good (fst (fst (pre f st))).
Hypothesis good_before : forall p c st, good st -> good (before p c st).
Hypothesis good_after : forall p c b l st, good st -> good (snd (after p c b l st)).
Hypothesis good_post : forall f l st, good st -> good (post f l st).
Hypothesis known_nodup : NoDup known.

Lemma full vis c : NoDup vis -> incl vis known -> ~ In c vis -> In c known ->
  S (length vis) <= length known.
Proof.
  intros HV HI HC HK. change (S (length vis)) with (length (c :: vis)).
  apply NoDup_incl_length; [constructor; auto|].
  intros x [<-|Hx]; auto.
Qed.

Lemma visit_dfs fuel :
  forall f vis st, good st -> NoDup vis -> incl vis known -> In f known -> ~ In f vis ->
    length known < fuel + length vis ->
    exists vis' st', visit fuel f (vis, st) = Ok (vis', st') /\ good st' /\
      dfs f (vis, st) (vis', st') /\ NoDup vis' /\ incl vis' known /\ incl (f :: vis) vis'.
Proof.
  induction fuel as [|n IH]; intros f vis st HG HV HI HK HN HF.
  { pose proof (full _ _ HV HI HN HK). lia. }
  cbn [visit]. destruct (pre f st) as [[st1 l] ch] eqn:EP.
  assert (HC : incl ch known). { pose proof (closed f st HG HK) as H. rewrite EP in H. exact H. }
  assert (HG1 : good st1). { pose proof (good_pre f st HG HK) as H. rewrite EP in H. exact H. }
  assert (HV1 : NoDup (f :: vis)) by (constructor; auto).
  assert (HI1 : incl (f :: vis) known) by (intros x [<-|Hx]; auto).
  assert (HF1 : length known < n + length (f :: vis)) by (cbn; lia).
  match goal with |- context [match ?g ch (f :: vis) st1 l with _ => _ end] => set (loop := g) end.
  assert (LOOP : forall ch vis st l, good st -> incl ch known -> NoDup vis -> incl vis known ->
      length known < n + length vis ->
      exists vis' st' l', loop ch vis st l = Ok ((vis', st'), l') /\ good st' /\
        dfs_loop f ch vis st l vis' st' l' /\ NoDup vis' /\ incl vis' known /\ incl vis vis').
  { clear - IH good_before good_after. induction ch as [|c t IHt]; intros vis st l HG HC HV HI HF.
    - exists vis, st, l. repeat split; auto; [constructor|apply incl_refl].
    - cbn [loop]. fold loop.
      assert (Kc : In c known) by (apply HC; left; auto).
      assert (Kt : incl t known) by (intros x Hx; apply HC; right; auto).
      replace (mem c known) with true by (symmetry; apply mem_in; auto).
      destruct (mem c vis) eqn:EM.
      + apply mem_in in EM. destruct (after f c false l (before f c st)) as [l' st'] eqn:EA.
        assert (HG' : good st').
        { pose proof (good_after f c false l (before f c st) (good_before f c st HG)) as H.
          rewrite EA in H. exact H. }
        destruct (IHt vis st' l' HG' Kt HV HI HF) as (v2 & s2 & l2 & A & G & B & C & D & E).
        exists v2, s2, l2. split; auto. split; auto. split; [eapply dl_seen; eauto|]. auto.
      + apply mem_nin in EM.
        destruct (IH c vis (before f c st) (good_before f c st HG) HV HI Kc EM HF)
          as (v1 & s1 & A1 & G1 & B1 & C1 & D1 & E1).
        rewrite A1. destruct (after f c true l s1) as [l' st'] eqn:EA.
        assert (HL : length vis <= length v1).
        { apply NoDup_incl_length; auto. intros x Hx. apply E1. right; auto. }
        assert (HG' : good st').
        { pose proof (good_after f c true l s1 G1) as H. rewrite EA in H. exact H. }
        destruct (IHt v1 st' l' HG' Kt C1 D1 ltac:(lia)) as (v2 & s2 & l2 & A & G & B & C & D & E).
        exists v2, s2, l2. split; auto. split; auto. split; [eapply dl_new; eauto|].
        repeat split; auto. intros x Hx. apply E, E1. right; auto. }
  destruct (LOOP ch (f :: vis) st1 l HG1 HC HV1 HI1 HF1) as (v2 & s2 & l2 & A & G & B & C & D & E).
  rewrite A. exists v2, (post f l2 s2). repeat split; auto. econstructor; eauto.
Qed.

Lemma visit_all_dfs fuel fs :
  length known < fuel -> incl fs known ->
  forall vis st, good st -> NoDup vis -> incl vis known ->
    exists vis' st', visit_all fuel fs (vis, st) = Ok (vis', st') /\ good st' /\
      dfs_all fs (vis, st) (vis', st') /\ NoDup vis' /\ incl vis' known /\
      incl (fs ++ vis) vis'.
Proof.
  intros HF. induction fs as [|f t IH]; intros HK vis st HG HV HI.
  - exists vis, st. repeat split; auto; [constructor|apply incl_refl].
  - cbn [visit_all fst]. assert (Kt : incl t known) by (intros x Hx; apply HK; right; auto).
    assert (Kf : In f known) by (apply HK; left; auto).
    destruct (mem f vis) eqn:EM.
    + apply mem_in in EM. destruct (IH Kt vis st HG HV HI) as (v2 & s2 & A & G & B & C & D & E).
      exists v2, s2. split; auto. split; auto. split; [apply da_seen; auto|]. repeat split; auto.
      intros x [<-|Hx]; auto. apply E, in_or_app. right; auto.
    + apply mem_nin in EM.
      destruct (visit_dfs fuel f vis st HG HV HI Kf EM ltac:(lia)) as (v1 & s1 & A1 & G1 & B1 & C1 & D1 & E1).
      rewrite A1. destruct (IH Kt v1 s1 G1 C1 D1) as (v2 & s2 & A & G & B & C & D & E).
      exists v2, s2. split; auto. split; auto. split; [eapply da_new; eauto|]. repeat split; auto.
      intros x [<-|Hx].
      * apply E, in_or_app. right. apply E1. left; auto.
      * apply in_app_or in Hx. destruct Hx as [Hx|Hx].
        -- apply E, in_or_app. left; auto.
        -- apply E, in_or_app. right. apply E1. right; auto.
Qed.

(** Visited functions only grow. *)
Lemma dfs_grow :
  (forall f w w', dfs f w w' -> incl (f :: fst w) (fst w')) /\
  (forall f ch vis st l vis' st' l', dfs_loop f ch vis st l vis' st' l' -> incl vis vis').
Proof.
  apply dfs_mutind; cbn [fst].
  - auto.
  - intros. apply incl_refl.
  - auto.
  - intros f c t vis st l vis1 st1 l' st' vis2 st2 l2 _ _ _ H _ _ H2 x Hx.
    apply H2, H. right; auto.
Qed.
Lemma dfs_loop_children :
  forall f ch vis st l vis' st' l', dfs_loop f ch vis st l vis' st' l' -> incl ch vis'.
Proof.
  induction ch as [|c t IH]; intros vis st l vis' st' l' H; [intros x []|].
  inversion H; subst; intros x [<-|Hx].
  - eapply (proj2 dfs_grow); eauto.
  - eapply IH; eauto.
  - eapply (proj2 dfs_grow); eauto. match goal with D : dfs _ _ _ |- _ => apply (proj1 dfs_grow _ _ _ D); left; auto end.
  - eapply IH; eauto.
Qed.
End DFS.
