(** * Components: CFGAnalysis (/repo/src/passes.h:147-231)

    SCComponents are numbered in order of creation; the maps and sets of all
    components are kept as lists of pairs. [targets] (the inverse of [outgoing],
    overwritten for every edge) is not modelled. *)
From Coq Require Import ZArith Bool Lia ZifyBool ZifyNat Arith String List.
From Verif Require Import Machine Jit Dfs Binary Reach.
Import ListNotations.
Open Scope Z_scope.

Record cst := mkC {
  c_vis : list nat;                    (* visited *)
  c_map : nat -> option nat;           (* block_to_sc *)
  c_next : nat;                        (* components created so far *)
  c_blks : list (nat * nat);           (* (component, block) *)
  c_rets : list (nat * nat);           (* (component, block) *)
  c_kids : list (nat * nat);           (* (component, child) *)
  c_outs : list (nat * (nat * nat)) }. (* component, (target block, target component) *)
Definition cst0 : cst := mkC [] (fun _ => None) 0 [] [] [] [].
(** sc->blocks.insert(b); block_to_sc[b] = sc *)
Definition c_put (sc b : nat) (st : cst) : cst :=
  mkC (c_vis st) (fun x => if Nat.eqb x b then Some sc else c_map st x) (c_next st)
    ((sc, b) :: c_blks st) (c_rets st) (c_kids st) (c_outs st).
Definition c_bump (st : cst) : cst :=
  mkC (c_vis st) (c_map st) (S (c_next st)) (c_blks st) (c_rets st) (c_kids st) (c_outs st).
Definition c_visit (b : nat) (st : cst) : cst :=
  mkC (b :: c_vis st) (c_map st) (c_next st) (c_blks st) (c_rets st) (c_kids st) (c_outs st).
Definition c_ret (sc b : nat) (st : cst) : cst :=
  mkC (c_vis st) (c_map st) (c_next st) (c_blks st) ((sc, b) :: c_rets st) (c_kids st) (c_outs st).
Definition c_kid (sc t sc' : nat) (st : cst) : cst :=
  mkC (c_vis st) (c_map st) (c_next st) (c_blks st) (c_rets st) ((sc, sc') :: c_kids st)
    ((sc, (t, sc')) :: c_outs st).
(** 189-191 *)
Definition c_enter (b sc : nat) (st : cst) : cst := c_put sc b (c_visit b st).
(** 207-213 *)
Definition c_comp (t : nat) (st : cst) : nat * cst :=
  match c_map st t with Some c => (c, st) | None => (c_next st, c_bump st) end.
(** 165-175: components of the outer loops *)
Definition c_loop (st : cst) (l : list nat) : cst :=
  fold_left (fun st b => c_put (c_next st - 1) b st) l (c_bump st).
Definition c_seed (ls : list (list nat)) : cst := fold_left c_loop ls cst0.

Lemma filter_length_le' {A} (p : A -> bool) l : (List.length (filter p l) <= List.length l)%nat.
Proof. induction l as [|a l IH]; cbn; auto. destruct (p a); cbn; lia. Qed.

Section COMP.
Variable co : code.

(** ** VisitBlock, passes.h:186-229 *)
Fixpoint c_walk (fuel : nat) (b sc : nat) (st : cst) {struct fuel} : option cst :=
  match fuel with
  | O => None
  | S n =>
      (fix loop (ts : list edge) (st : cst) {struct ts} : option cst :=
         match ts with
         | [] => Some st
         | e :: r =>
             if is (e_ty e) CATCH || is (e_ty e) CALL then loop r st
             else if is (e_ty e) RET then loop r (c_ret sc b st)
             else if e_inter e then loop r st
             else
               let t := e_trg e in
               let '(sc', st1) := c_comp t st in
               let st2 := if Nat.eqb sc sc' then st1 else c_kid sc t sc' st1 in
               if mem t (c_vis st2) then loop r st2
               else match c_walk n t sc' st2 with
                    | Some st3 => loop r st3
                    | None => None
                    end
         end) (b_targets (co_block co b)) (c_enter b sc st)
  end.

(** ** RunLocalAnalysis, passes.h:154-183 *)
Inductive cfg_res := CNull | CCfg (root : nat) (st : cst) | CNoFuel.
Definition cfg_analysis (fn : nat) (s : summary) : cfg_res :=
  let f := co_fun co fn in
  if s_assume_unsafe s || s_unknown_cf s then CNull
  else let '(root, st) := c_comp (f_entry f) (c_seed (f_loops f)) in
       match c_walk (S (List.length (f_blocks f))) (f_entry f) root st with
       | Some st' => CCfg root st'
       | None => CNoFuel
       end.

(** ** Specification *)
(** Edges inside the function, without exceptions. *)
Definition flow (a t : nat) : Prop :=
  exists e, In e (b_targets (co_block co a)) /\ e_trg e = t /\ e_inter e = false /\
    e_ty e <> CATCH /\ e_ty e <> CALL /\ e_ty e <> RET.
Inductive flows (a : nat) : nat -> Prop :=
| fl_refl : flows a a
| fl_step b c : flows a b -> flow b c -> flows a c.
Definition has_ret (b : nat) : Prop := exists e, In e (b_targets (co_block co b)) /\ e_ty e = RET.

(** ** Proofs *)
Variable fn : nat.
Notation U := (f_blocks (co_fun co fn)).
Notation loops := (f_loops (co_fun co fn)).
Hypothesis CL : forall a t, In a U -> flow a t -> In t U.
Definition same_loop (a b : nat) : Prop := exists l, In l loops /\ In a l /\ In b l.

Record winv (st : cst) : Prop := {
  w_blks : forall b c, c_map st b = Some c <-> In (c, b) (c_blks st);
  w_next : forall b c, c_map st b = Some c -> (c < c_next st)%nat;
  w_vis : forall b, In b (c_vis st) -> c_map st b <> None;
  w_one : forall a b c, c_map st a = Some c -> c_map st b = Some c -> a = b \/ same_loop a b;
  w_loop : forall a b, same_loop a b -> exists c, c_map st a = Some c /\ c_map st b = Some c;
  w_kids : forall c c', In (c, c') (c_kids st) -> c <> c' /\
     exists a t, flow a t /\ c_map st a = Some c /\ c_map st t = Some c';
  w_outs : forall c t c', In (c, (t, c')) (c_outs st) -> c <> c' /\ c_map st t = Some c' /\
     exists a, flow a t /\ c_map st a = Some c;
  w_rets : forall c b, In (c, b) (c_rets st) -> has_ret b /\ c_map st b = Some c;
  w_in : forall b c, c_map st b = Some c -> In b (c_vis st) \/ same_loop b b }.

Record ext (st st' : cst) : Prop := {
  x_vis : incl (c_vis st) (c_vis st');
  x_map : forall b c, c_map st b = Some c -> c_map st' b = Some c;
  x_kids : incl (c_kids st) (c_kids st');
  x_outs : incl (c_outs st) (c_outs st');
  x_rets : incl (c_rets st) (c_rets st') }.
Lemma ext_refl st : ext st st.
Proof. split; auto using incl_refl. Qed.
Lemma ext_trans a b c : ext a b -> ext b c -> ext a c.
Proof. intros [] []. split; eauto using incl_tran. Qed.

(** What has been recorded for edge [e] of block [x]. *)
Definition edge_done (x : nat) (e : edge) (st : cst) : Prop :=
  exists c, c_map st x = Some c /\
  (e_ty e = RET -> In (c, x) (c_rets st)) /\
  (e_ty e <> CATCH -> e_ty e <> CALL -> e_ty e <> RET -> e_inter e = false ->
   In (e_trg e) (c_vis st) /\
   (forall c', c_map st (e_trg e) = Some c' -> c <> c' ->
      In (c, c') (c_kids st) /\ In (c, (e_trg e, c')) (c_outs st))).
Lemma edge_done_ext x e st st' : winv st -> ext st st' -> edge_done x e st -> edge_done x e st'.
Proof.
  intros W E (c & H1 & H2 & H3). exists c. destruct E. split; auto. split; [auto|].
  intros K1 K2 K3 K4. destruct (H3 K1 K2 K3 K4) as [V Q]. split; auto.
  intros c' M N. assert (exists c0, c_map st (e_trg e) = Some c0) as (c0 & M0).
  { pose proof (w_vis st W _ V). destruct (c_map st (e_trg e)); eauto. congruence. }
  rewrite (x_map0 _ _ M0) in M. injection M as <-. destruct (Q c0 M0 N). auto.
Qed.
Definition edges_done (x : nat) (st : cst) : Prop :=
  forall e, In e (b_targets (co_block co x)) -> edge_done x e st.

Definition walk_loop (n : nat) (b sc : nat) :=
  fix loop (ts : list edge) (st : cst) {struct ts} : option cst :=
    match ts with
    | [] => Some st
    | e :: r =>
        if is (e_ty e) CATCH || is (e_ty e) CALL then loop r st
        else if is (e_ty e) RET then loop r (c_ret sc b st)
        else if e_inter e then loop r st
        else
          let t := e_trg e in
          let '(sc', st1) := c_comp t st in
          let st2 := if Nat.eqb sc sc' then st1 else c_kid sc t sc' st1 in
          if mem t (c_vis st2) then loop r st2
          else match c_walk n t sc' st2 with
               | Some st3 => loop r st3
               | None => None
               end
    end.
Lemma walk_S n b sc st :
  c_walk (S n) b sc st = walk_loop n b sc (b_targets (co_block co b)) (c_enter b sc st).
Proof. reflexivity. Qed.

Lemma c_map_put sc b st x : c_map (c_put sc b st) x = if Nat.eqb x b then Some sc else c_map st x.
Proof. reflexivity. Qed.

(** Entering a block with its component keeps the invariant. *)
Lemma winv_bump st : winv st -> winv (c_bump st).
Proof. intros []. split; auto. intros b c H. apply w_next0 in H. cbn. lia. Qed.
Lemma winv_enter st t sc : winv st ->
  (c_map st t = Some sc \/ c_map st t = None /\ (sc < c_next st)%nat /\ forall x, c_map st x <> Some sc) ->
  winv (c_enter t sc st) /\ ext st (c_enter t sc st).
Proof.
  intros W H.
  assert (XM : forall b c, c_map st b = Some c -> c_map (c_enter t sc st) b = Some c).
  { intros b c M. unfold c_enter. rewrite c_map_put. cbn [c_map c_visit].
    destruct (Nat.eqb b t) eqn:Q; auto. apply Nat.eqb_eq in Q. subst b.
    destruct H as [H|[H _]]; congruence. }
  destruct W. split.
  - split.
    + intros b c. unfold c_enter. rewrite c_map_put. cbn [c_map c_visit c_blks c_put In].
      destruct (Nat.eqb b t) eqn:Q; [apply Nat.eqb_eq in Q; subst b|apply Nat.eqb_neq in Q].
      * split; [intros K; injection K as <-; auto|]. intros [K|K]; [congruence|].
        apply w_blks0 in K. destruct H as [H|[H _]]; congruence.
      * rewrite w_blks0. split; auto. intros [K|K]; [congruence|auto].
    + intros b c. unfold c_enter. rewrite c_map_put. cbn [c_map c_visit c_next c_put].
      destruct (Nat.eqb b t) eqn:Q; [|apply w_next0]. intros K. injection K as <-.
      destruct H as [H|[_ [H _]]]; auto. eauto.
    + intros b Hb. unfold c_enter. rewrite c_map_put. cbn [c_map c_visit c_vis c_put] in *.
      destruct (Nat.eqb b t) eqn:Q; [discriminate|]. apply Nat.eqb_neq in Q.
      destruct Hb as [Hb|Hb]; [congruence|auto].
    + intros a b c. unfold c_enter. rewrite !c_map_put. cbn [c_map c_visit].
      destruct (Nat.eqb a t) eqn:Qa; [apply Nat.eqb_eq in Qa; subst a|];
        (destruct (Nat.eqb b t) eqn:Qb; [apply Nat.eqb_eq in Qb; subst b|]); intros K1 K2; auto.
      * injection K1 as <-. destruct H as [H|[_ [_ H]]]; [eauto|destruct (H _ K2)].
      * injection K2 as <-. destruct H as [H|[_ [_ H]]]; [eauto|destruct (H _ K1)].
      * eauto.
    + intros a b L. destruct (w_loop0 a b L) as (c & A & B). exists c. auto.
    + intros c c' K. destruct (w_kids0 c c' K) as (N & a & x & F & A & B). split; auto. exists a, x. auto.
    + intros c x c' K. destruct (w_outs0 c x c' K) as (N & A & a & F & B). split; auto. split; auto. exists a. auto.
    + intros c b K. destruct (w_rets0 c b K). auto.
    + intros b c. unfold c_enter. rewrite c_map_put. cbn [c_map c_visit c_vis c_put In].
      destruct (Nat.eqb b t) eqn:Q; [apply Nat.eqb_eq in Q; auto|]. intros K. destruct (w_in0 b c K); auto.
  - split; auto using incl_refl. intros x Hx. right. exact Hx.
Qed.
Lemma winv_kid st sc t sc' b : winv st -> sc <> sc' -> flow b t -> c_map st b = Some sc -> c_map st t = Some sc' ->
  winv (c_kid sc t sc' st).
Proof.
  intros [] N F A B. split; cbn [c_map c_kid c_blks c_next c_vis c_kids c_outs c_rets]; auto.
  - intros c c' [K|K]; [injection K as <- <-; split; auto; exists b, t; auto|auto].
  - intros c x c' [K|K]; [injection K as <- <- <-; split; auto; split; auto; exists b; auto|auto].
Qed.
Lemma winv_ret st sc b : winv st -> has_ret b -> c_map st b = Some sc -> winv (c_ret sc b st).
Proof.
  intros [] N A. split; cbn [c_map c_ret c_blks c_next c_vis c_kids c_outs c_rets]; auto.
  intros c x [K|K]; [injection K as <- <-; auto|auto].
Qed.
Lemma ext_kid st sc t sc' : ext st (c_kid sc t sc' st).
Proof. split; cbn; auto using incl_refl; intros x Hx; right; auto. Qed.
Lemma ext_ret st sc b : ext st (c_ret sc b st).
Proof. split; cbn; auto using incl_refl; intros x Hx; right; auto. Qed.
(** Entering [t] over a new child edge. *)
Lemma enter_kid_comm st sc t sc' :
  c_enter t sc' (c_kid sc t sc' st) = c_kid sc t sc' (c_enter t sc' st).
Proof. reflexivity. Qed.

Lemma flows_trans a b c : flows a b -> flows b c -> flows a c.
Proof. intros H. induction 1; auto. econstructor; eauto. Qed.

Notation todo := (todo Nat.eq_dec U).
Lemma todo_le v v' : incl v v' -> (todo v' <= todo v)%nat.
Proof.
  intros I. unfold Reach.todo. generalize U as l. induction l as [|a l IH]; auto. cbn [filter].
  destruct (amem Nat.eq_dec a v) eqn:A.
  - apply amem_in in A. apply I in A. rewrite (proj2 (amem_in Nat.eq_dec a v') A). cbn [negb]. auto.
  - cbn [negb List.length]. destruct (amem Nat.eq_dec a v'); cbn [negb List.length]; lia.
Qed.

Lemma walk_ok n : forall b sc st, In b U -> ~ In b (c_vis st) -> (todo (c_vis st) <= n)%nat ->
  winv (c_enter b sc st) ->
  exists st', c_walk n b sc st = Some st' /\ winv st' /\ ext (c_enter b sc st) st' /\
    (forall x, In x (c_vis st') -> In x (c_vis st) \/ (edges_done x st' /\ flows b x)).
Proof.
  induction n as [|n IH]; intros b sc st Hb NV Hn W.
  { pose proof (todo_cons Nat.eq_dec U b (c_vis st) Hb NV). lia. }
  rewrite walk_S.
  assert (L : forall ts st1, incl ts (b_targets (co_block co b)) -> winv st1 -> c_map st1 b = Some sc ->
     In b (c_vis st1) -> (todo (c_vis st1) <= n)%nat ->
     exists st', walk_loop n b sc ts st1 = Some st' /\ winv st' /\ ext st1 st' /\
       (forall e, In e ts -> edge_done b e st') /\
       (forall x, In x (c_vis st') -> In x (c_vis st1) \/ (edges_done x st' /\ flows b x))).
  { induction ts as [|e r IHr]; intros st1 IT W1 MB VB T1.
    - exists st1. cbn. split; auto. split; auto. split; [apply ext_refl|]. split; [intros e []|auto].
    - assert (ITr : incl r (b_targets (co_block co b))) by (intros x Hx; apply IT; right; auto).
      assert (He : In e (b_targets (co_block co b))) by (apply IT; left; auto).
      (* continue after the edge has been dealt with in [st2] *)
      assert (GO : forall st2, winv st2 -> ext st1 st2 -> edge_done b e st2 ->
        (forall x, In x (c_vis st2) -> In x (c_vis st1) \/ (edges_done x st2 /\ flows b x)) ->
        exists st', walk_loop n b sc r st2 = Some st' /\ winv st' /\ ext st1 st' /\
          (forall e', In e' (e :: r) -> edge_done b e' st') /\
          (forall x, In x (c_vis st') -> In x (c_vis st1) \/ (edges_done x st' /\ flows b x))).
      { intros st2 W2 X2 D2 V2.
        destruct (IHr st2) as (st' & E & W' & X' & D' & V'); auto.
        - apply (x_map _ _ X2). auto.
        - apply (x_vis _ _ X2). auto.
        - eapply Nat.le_trans; [apply todo_le; exact (x_vis _ _ X2)|auto].
        - exists st'. split; auto. split; auto. split; [eapply ext_trans; eauto|]. split.
          + intros e' [<-|He']; auto. eapply edge_done_ext; [exact W2|exact X'|exact D2].
          + intros x Hx. apply V' in Hx. destruct Hx as [Hx|Hx]; auto.
            apply V2 in Hx. destruct Hx as [Hx|[Hx F]]; auto. right. split; auto.
            intros e' He'. eapply edge_done_ext; [exact W2|exact X'|auto]. }
      cbn [walk_loop].
      destruct (is (e_ty e) CATCH) eqn:TC; [apply is_true in TC|apply is_false in TC].
      { cbn [orb]. apply GO; auto; [apply ext_refl|]. exists sc. split; auto. split; [congruence|]. intros; congruence. }
      destruct (is (e_ty e) CALL) eqn:TL; [apply is_true in TL|apply is_false in TL].
      { cbn [orb]. apply GO; auto; [apply ext_refl|]. exists sc. split; auto. split; [congruence|]. intros; congruence. }
      cbn [orb]. destruct (is (e_ty e) RET) eqn:TR; [apply is_true in TR|apply is_false in TR].
      { apply GO; auto; [apply winv_ret; auto; exists e; auto|apply ext_ret|].
        exists sc. split; auto. split; [intros _; left; auto|]. intros; congruence. }
      destruct (e_inter e) eqn:TI.
      { apply GO; auto; [apply ext_refl|]. exists sc. split; auto. split; [congruence|]. intros; congruence. }
      set (t := e_trg e).
      assert (F : flow b t) by (exists e; repeat split; auto).
      assert (Ht : In t U) by eauto.
      assert (CC : exists sc' st0, c_comp t st1 = (sc', st0) /\ winv st0 /\ ext st1 st0 /\ c_vis st0 = c_vis st1 /\
        (c_map st0 t = Some sc' \/ c_map st0 t = None /\ (sc' < c_next st0)%nat /\ forall x, c_map st0 x <> Some sc')).
      { unfold c_comp. destruct (c_map st1 t) as [c|] eqn:M.
        - exists c, st1. split; auto. split; auto. split; [apply ext_refl|]. auto.
        - exists (c_next st1), (c_bump st1). split; auto. split; [apply winv_bump; auto|].
          split; [split; cbn; auto using incl_refl|]. split; auto. right. split; auto. split; [cbn; lia|].
          intros x K. cbn in K. apply (w_next _ W1) in K. lia. }
      destruct CC as (sc' & st0 & -> & W0 & X0 & V0 & PRE).
      assert (MB0 : c_map st0 b = Some sc) by (apply (x_map _ _ X0); auto).
      set (st2 := if Nat.eqb sc sc' then st0 else c_kid sc t sc' st0).
      assert (V2 : c_vis st2 = c_vis st1) by (unfold st2; destruct (Nat.eqb sc sc'); auto).
      rewrite V2. destruct (mem t (c_vis st1)) eqn:MV.
      + apply mem_in in MV.
        assert (MT : c_map st0 t = Some sc').
        { destruct PRE as [K|[K _]]; auto. destruct (w_vis _ W0 t); auto. rewrite V0. exact MV. }
        assert (W2 : winv st2).
        { unfold st2. destruct (Nat.eqb sc sc') eqn:Q; auto. apply Nat.eqb_neq in Q. eapply winv_kid; eauto. }
        assert (X2 : ext st1 st2).
        { unfold st2. destruct (Nat.eqb sc sc'); auto. eapply ext_trans; [exact X0|apply ext_kid]. }
        apply GO; auto.
        * exists sc. split; [apply (x_map _ _ X2); auto|]. split; [congruence|]. intros _ _ _ _.
          split; [rewrite V2; exact MV|]. intros c' M N. assert (c' = sc').
          { unfold st2 in M. destruct (Nat.eqb sc sc'); cbn in M; fold t in M; congruence. }
          subst c'. unfold st2. rewrite (proj2 (Nat.eqb_neq sc sc') N). split; left; auto.
        * intros x Hx. left. rewrite <- V2. exact Hx.
      + apply mem_nin in MV.
        destruct (winv_enter st0 t sc' W0 PRE) as [WE XE].
        assert (ES : c_enter t sc' st2 = if Nat.eqb sc sc' then c_enter t sc' st0 else c_kid sc t sc' (c_enter t sc' st0)).
        { unfold st2. destruct (Nat.eqb sc sc'); auto. }
        assert (MTE : c_map (c_enter t sc' st0) t = Some sc') by (unfold c_enter; rewrite c_map_put, Nat.eqb_refl; auto).
        assert (W2 : winv (c_enter t sc' st2)).
        { rewrite ES. destruct (Nat.eqb sc sc') eqn:Q; auto. apply Nat.eqb_neq in Q.
          eapply winv_kid; eauto. apply (x_map _ _ XE). auto. }
        assert (X2 : ext st1 (c_enter t sc' st2)).
        { rewrite ES. eapply ext_trans; [exact X0|]. eapply ext_trans; [exact XE|].
          destruct (Nat.eqb sc sc'); [apply ext_refl|apply ext_kid]. }
        destruct (IH t sc' st2) as (st3 & E3 & W3 & X3 & V3); auto; [rewrite V2; auto|rewrite V2; auto|].
        rewrite E3. apply GO; auto.
        * eapply ext_trans; eauto.
        * assert (MT3 : c_map st3 t = Some sc').
          { apply (x_map _ _ X3). rewrite ES. destruct (Nat.eqb sc sc'); auto. }
          exists sc. split; [apply (x_map _ _ X3), (x_map _ _ X2); auto|]. split; [congruence|]. intros _ _ _ _.
          split; [apply (x_vis _ _ X3); left; auto|]. intros c' M N. assert (c' = sc') by (fold t in M; congruence).
          subst c'. rewrite (proj2 (Nat.eqb_neq sc sc') N) in ES.
          split; [apply (x_kids _ _ X3)|apply (x_outs _ _ X3)]; rewrite ES; left; auto.
        * intros x Hx. apply V3 in Hx. rewrite V2 in Hx. destruct Hx as [Hx|[Hx G]]; auto.
          right. split; auto. eapply flows_trans; [|exact G]. econstructor; [constructor|exact F]. }
  destruct (L (b_targets (co_block co b)) (c_enter b sc st)) as (st' & E & W' & X & D & V); auto using incl_refl.
  - unfold c_enter. rewrite c_map_put, Nat.eqb_refl. reflexivity.
  - left. reflexivity.
  - cbn [c_enter c_put c_visit c_vis]. pose proof (todo_cons Nat.eq_dec U b (c_vis st) Hb NV). lia.
  - exists st'. split; auto. split; auto. split; auto. intros x Hx. apply V in Hx.
    destruct Hx as [[<-|Hx]|Hx]; auto. right. split; [exact D|constructor].
Qed.

(** *** The loop components *)
Definition disjoint_loops : Prop :=
  forall i j l l' b, nth_error loops i = Some l -> nth_error loops j = Some l' -> In b l -> In b l' -> i = j.

Record sinv (done : list (list nat)) (st : cst) : Prop := {
  s_blks : forall b c, c_map st b = Some c <-> In (c, b) (c_blks st);
  s_next : forall b c, c_map st b = Some c -> (c < c_next st)%nat;
  s_vis : c_vis st = []; s_kids : c_kids st = []; s_outs : c_outs st = []; s_rets : c_rets st = [];
  s_dom : forall b c, c_map st b = Some c -> exists l, In l done /\ In b l;
  s_one : forall a b c, c_map st a = Some c -> c_map st b = Some c -> exists l, In l done /\ In a l /\ In b l;
  s_loop : forall l a b, In l done -> In a l -> In b l -> exists c, c_map st a = Some c /\ c_map st b = Some c }.
Lemma put_all sc l : forall st, c_next st = S sc -> (forall b, In b l -> c_map st b = None \/ c_map st b = Some sc) ->
  (forall b c, c_map st b = Some c <-> In (c, b) (c_blks st)) ->
  let st' := fold_left (fun st b => c_put (c_next st - 1) b st) l st in
  (forall b, c_map st' b = if mem b l then Some sc else c_map st b) /\
  (forall b c, c_map st' b = Some c <-> In (c, b) (c_blks st')) /\
  c_next st' = S sc /\ c_vis st' = c_vis st /\ c_kids st' = c_kids st /\ c_outs st' = c_outs st /\ c_rets st' = c_rets st.
Proof.
  induction l as [|a l IH]; intros st N M B; cbn [fold_left].
  { cbn. repeat split; auto; apply B. }
  rewrite N. replace (S sc - 1)%nat with sc by lia.
  destruct (IH (c_put sc a st)) as (H1 & H2 & H3 & H4 & H5 & H6 & H7).
  - exact N.
  - intros b Hb. rewrite c_map_put. destruct (Nat.eqb b a); auto. apply M. right. auto.
  - intros b c. rewrite c_map_put. cbn [c_blks c_put In].
    destruct (Nat.eqb b a) eqn:Q; [apply Nat.eqb_eq in Q; subst b|apply Nat.eqb_neq in Q].
    + split; [intros K; injection K as <-; auto|]. intros [K|K]; [congruence|]. apply B in K.
      destruct (M a (or_introl eq_refl)) as [X|X]; congruence.
    + rewrite B. split; auto. intros [K|K]; [congruence|auto].
  - cbv zeta in *. split; [|repeat split; auto; apply H2].
    intros b. rewrite H1, c_map_put. unfold mem. cbn [existsb].
    rewrite Nat.eqb_sym. destruct (Nat.eqb a b) eqn:Q; cbn [orb]; auto.
    destruct (existsb (Nat.eqb b) l); auto.
Qed.

Lemma sinv0 : sinv [] cst0.
Proof.
  split; cbn; auto; try discriminate.
  - intros b c. split; [discriminate|intros []].
  - intros l a b [].
Qed.
Lemma sinv_step done l st : sinv done st -> (forall l' b, In l' done -> In b l' -> ~ In b l) ->
  sinv (l :: done) (c_loop st l).
Proof.
  intros S D. unfold c_loop.
  assert (NM : forall b, In b l -> c_map st b = None).
  { intros b Hb. destruct (c_map st b) as [c|] eqn:M; auto. destruct (s_dom _ _ S b c M) as (l' & H1 & H2).
    destruct (D l' b H1 H2 Hb). }
  destruct (put_all (c_next st) l (c_bump st)) as (H1 & H2 & H3 & H4 & H5 & H6 & H7).
  - reflexivity.
  - intros b Hb. left. apply NM. exact Hb.
  - apply S.
  - cbv zeta in *. set (st' := fold_left _ l (c_bump st)) in *. cbn [c_map c_bump c_vis c_kids c_outs c_rets] in *.
    assert (OLD : forall b c, c_map st b = Some c -> c_map st' b = Some c).
    { intros b c M. rewrite H1. destruct (mem b l) eqn:Q; auto. apply mem_in in Q. rewrite (NM b Q) in M. discriminate. }
    assert (INV : forall b c, c_map st' b = Some c -> In b l /\ c = c_next st \/ c_map st b = Some c /\ c <> c_next st).
    { intros b c. rewrite H1. destruct (mem b l) eqn:Q.
      - intros K. injection K as <-. left. split; auto. apply mem_in. exact Q.
      - intros K. right. split; auto. apply (s_next _ _ S) in K. lia. }
    split; auto.
    + intros b c K. rewrite H3. apply INV in K. destruct K as [[_ ->]|[K _]]; [lia|].
      apply (s_next _ _ S) in K. lia.
    + rewrite H4. apply S.
    + rewrite H5. apply S.
    + rewrite H6. apply S.
    + rewrite H7. apply S.
    + intros b c K. apply INV in K. destruct K as [[K _]|[K _]]; [exists l; split; [left|]; auto|].
      destruct (s_dom _ _ S b c K) as (l' & A & B). exists l'. split; [right|]; auto.
    + intros a b c Ka Kb. apply INV in Ka, Kb.
      destruct Ka as [[Ka ->]|[Ka Na]], Kb as [[Kb Eb]|[Kb Nb]]; try congruence.
      * exists l. split; [left|]; auto.
      * destruct (s_one _ _ S a b c Ka Kb) as (l' & A & B). exists l'. split; [right|]; auto.
    + intros l' a b [<-|Hl'] Ha Hb.
      * exists (c_next st). rewrite !H1, (proj2 (mem_in a l) Ha), (proj2 (mem_in b l) Hb). auto.
      * destruct (s_loop _ _ S l' a b Hl' Ha Hb) as (c & A & B). exists c. auto.
Qed.
Lemma seed_inv : disjoint_loops -> exists done, sinv done (c_seed loops) /\ forall l, In l done <-> In l loops.
Proof.
  unfold disjoint_loops, c_seed. intros D.
  assert (G : forall rest pre done st, loops = pre ++ rest -> (forall l, In l done <-> In l pre) -> sinv done st ->
     exists done', sinv done' (fold_left c_loop rest st) /\ forall l, In l done' <-> In l loops).
  { induction rest as [|l rest IH]; intros pre done st E I S; cbn [fold_left].
    - rewrite app_nil_r in E. exists done. rewrite E. auto.
    - apply (IH (pre ++ [l]) (l :: done)).
      + rewrite <- app_assoc. exact E.
      + intros l'. rewrite in_app_iff, <- I. cbn. tauto.
      + apply sinv_step; auto. intros l' b Hl' Hb Hb'. apply I in Hl'. apply In_nth_error in Hl'.
        destruct Hl' as (i & Hi). assert (i < List.length pre)%nat by (apply nth_error_Some; congruence).
        assert (i = List.length pre).
        { apply (D i (List.length pre) l' l b); auto; rewrite E.
          - rewrite nth_error_app1; auto.
          - rewrite nth_error_app2, Nat.sub_diag; auto. }
        lia. }
  apply (G loops [] [] cst0); auto; [|apply sinv0]. intros l; cbn; tauto.
Qed.
Lemma sinv_winv done st : sinv done st -> (forall l, In l done <-> In l loops) -> winv st.
Proof.
  intros [] I. split; auto.
  - rewrite s_vis0. intros b [].
  - intros a b c A B. right. destruct (s_one0 a b c A B) as (l & H & K). exists l. split; auto. apply I. auto.
  - intros a b (l & H & K1 & K2). apply (s_loop0 l); auto. apply I. auto.
  - rewrite s_kids0. intros c c' [].
  - rewrite s_outs0. intros c t c' [].
  - rewrite s_rets0. intros c b [].
  - intros b c K. right. destruct (s_dom0 b c K) as (l & H & L). exists l. split; auto. apply I. auto.
Qed.

(** The whole pass. *)
Theorem cfg_ok_thm s : disjoint_loops -> In (f_entry (co_fun co fn)) U ->
  s_assume_unsafe s = false -> s_unknown_cf s = false ->
  exists root st, cfg_analysis fn s = CCfg root st /\ winv st /\
    c_map st (f_entry (co_fun co fn)) = Some root /\
    (forall x, In x (c_vis st) <-> flows (f_entry (co_fun co fn)) x) /\
    (forall x, In x (c_vis st) -> edges_done x st).
Proof.
  intros D HE A1 A2. unfold cfg_analysis. rewrite A1, A2. cbn [orb].
  destruct (seed_inv D) as (done & S & I). pose proof (sinv_winv _ _ S I) as W.
  set (entry := f_entry (co_fun co fn)) in *. set (sd := c_seed loops) in *.
  assert (CC : exists sc st0, c_comp entry sd = (sc, st0) /\ winv st0 /\ c_vis st0 = [] /\
    (c_map st0 entry = Some sc \/ c_map st0 entry = None /\ (sc < c_next st0)%nat /\ forall x, c_map st0 x <> Some sc)).
  { unfold c_comp. destruct (c_map sd entry) as [c|] eqn:M.
    - exists c, sd. repeat (split; auto). apply S.
    - exists (c_next sd), (c_bump sd). split; auto. split; [apply winv_bump; auto|]. split; [apply S|].
      right. split; auto. split; [cbn; lia|]. intros x K. cbn in K. apply (w_next _ W) in K. lia. }
  destruct CC as (sc & st0 & -> & W0 & V0 & PRE).
  destruct (winv_enter st0 entry sc W0 PRE) as [WE XE].
  destruct (walk_ok (Datatypes.S (List.length U)) entry sc st0) as (st & E & W1 & X1 & V1); auto.
  - rewrite V0. intros [].
  - unfold Reach.todo. etransitivity; [apply filter_length_le'|]. lia.
  - rewrite E. exists sc, st. split; auto. split; auto.
    split; [apply (x_map _ _ X1); unfold c_enter; rewrite c_map_put, Nat.eqb_refl; auto|].
    assert (VD : forall x, In x (c_vis st) -> edges_done x st /\ flows entry x).
    { intros x Hx. apply V1 in Hx. rewrite V0 in Hx. destruct Hx as [[]|Hx]; auto. }
    split; [|intros x Hx; apply VD; auto].
    intros x. split; [intros Hx; apply VD; auto|].
    induction 1 as [|b c Hb IHb F]; [apply (x_vis _ _ X1); left; auto|].
    destruct F as (e & He & <- & F1 & F2 & F3 & F4). destruct (VD b IHb) as [Q _].
    destruct (Q e He) as (k & _ & _ & K). apply K; auto.
Qed.
End COMP.
