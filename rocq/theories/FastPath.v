(** * FastPath: CheckFastPathFunction (/repo/src/instrument.cc:185-285) and the
    instrumentation it leads to (instrument.cc:762-819) *)
From Coq Require Import ZArith Bool Lia ZifyBool ZifyNat Arith String List.
From Verif Require Import Machine Jit Dfs Binary Reach SafePaths Lowering.
Import ListNotations.
Open Scope Z_scope.

Lemma last_cons (r : list nat) : forall c d, last (c :: r) d = last r c.
Proof.
  induction r as [|x r IH]; intros c d; [reflexivity|].
  change (last (c :: x :: r) d) with (last (x :: r) d). rewrite !IH. reflexivity.
Qed.

Section FP.
Variable co : code.

(** The edges of BPatch's control flow graph: those inside the function (catch edges
    included). A function has one entry block here. *)
Definition bp_edge (e : edge) : bool := negb (e_sink e) && negb (e_inter e).
Definition out_edges (b : nat) : list edge := filter bp_edge (b_targets (co_block co b)).
(** Sources of the incoming edges, one per edge. *)
Definition in_sources (bs : list nat) (b : nat) : list nat :=
  flat_map (fun a => map (fun _ => a) (filter (fun e => Nat.eqb (e_trg e) b) (out_edges a))) bs.

(** The loop of lines 219-232: (fastExitBlock, entry). *)
Definition fp_split (exits : list nat) (es : list edge) : option nat * option nat :=
  fold_left (fun p e => if mem (e_trg e) exits then (Some (e_trg e), snd p) else (fst p, Some (e_trg e)))
    es (None, None).

(** ** CheckFastPathFunction: the slow path entry, the blocks that get a pop, and the
    fast exit *)
Definition fast_path (fl : flags) (fn : nat) : option (nat * list nat * nat) :=
  let f := co_fun co fn in
  let bs := f_blocks f in
  let entry := f_entry f in
  if fl_no_lowering fl then None
  else if existsb i_wmem (b_insns (co_block co entry)) then None
  else
    let es := out_edges entry in
    if negb (Nat.eqb (List.length es) 2) then None
    else if negb (existsb (fun e => is (e_ty e) COND_TAKEN) es &&
                  existsb (fun e => is (e_ty e) COND_NOT_TAKEN) es) then None
    else match fp_split (f_exits f) es with
         | (Some fast, Some slow) =>
             if negb (match in_sources bs entry with [] => true | _ => false end) then None
             else if negb (Nat.eqb (List.length (in_sources bs slow)) 1) then None
             else match b_insns (co_block co fast) with
                  | [i] =>
                      if negb (isop (i_op i) ORet) then None
                      else
                        let srcs := filter (fun a => negb (Nat.eqb a entry)) (in_sources bs fast) in
                        if negb (forallb (fun a => Nat.eqb (List.length (out_edges a)) 1) srcs) then None
                        else Some (slow, srcs ++ filter (fun b => negb (Nat.eqb b fast)) (f_exits f), fast)
                  | _ => None
                  end
         | _ => None
         end.

(** ** Execution: a push at the slow path entry, one pop per occurrence in the list *)
Definition fp_evs (slow : nat) (pops : list nat) (b : nat) : list ev :=
  (if Nat.eqb b slow then [Push] else []) ++ [Blk b] ++ repeat Pop (count_occ Nat.eq_dec pops b).
Definition run_fast (slow : nat) (pops : list nat) (path : list nat) : list ev :=
  flat_map (fp_evs slow pops) path.

(** ** Paths of the function, exception edges included *)
Definition step (b c : nat) : Prop := exists e, In e (out_edges b) /\ e_trg e = c.
Fixpoint bp_path (b : nat) (r : list nat) : Prop :=
  match r with [] => True | c :: r' => step b c /\ bp_path c r' end.

Variable fl : flags.
Variable fn : nat.
Notation f := (co_fun co fn).
Notation bs := (f_blocks (co_fun co fn)).
Notation entry := (f_entry (co_fun co fn)).
Hypothesis HE : In entry bs.
Hypothesis CL : forall b c, In b bs -> step b c -> In c bs.
(** Control does not come back from an exit block. *)
Hypothesis TERM : forall b, In b (f_exits f) -> out_edges b = [].
Hypothesis NDX : NoDup (f_exits f).
Hypothesis NDB : NoDup bs.

Variables (slow fast : nat) (pops : list nat).
Hypothesis FP : fast_path fl fn = Some (slow, pops, fast).

Lemma in_sources_in a b : In a bs -> (In a (in_sources bs b) <-> step a b).
Proof.
  intros Ha. unfold in_sources, step. rewrite in_flat_map. split.
  - intros (x & Hx & K). apply in_map_iff in K. destruct K as (e & <- & K). apply filter_In in K.
    destruct K as [K1 K2]. apply Nat.eqb_eq in K2. exists e. auto.
  - intros (e & He & <-). exists a. split; auto. apply in_map_iff. exists e. split; auto.
    apply filter_In. split; auto. apply Nat.eqb_refl.
Qed.
Lemma in_sources_step a b : In a (in_sources bs b) -> In a bs /\ step a b.
Proof.
  intros H. assert (Ha : In a bs).
  { unfold in_sources in H. apply in_flat_map in H. destruct H as (x & Hx & K).
    apply in_map_iff in K. destruct K as (e & <- & K). auto. }
  split; auto. apply in_sources_in; auto.
Qed.

Lemma fast_path_inv :
  (forall i, In i (b_insns (co_block co entry)) -> i_wmem i = false) /\
  (forall c, step entry c -> c = fast \/ c = slow) /\ step entry fast /\ step entry slow /\
  In fast (f_exits f) /\ ~ In slow (f_exits f) /\
  (forall a, In a bs -> ~ step a entry) /\
  (forall a, In a bs -> step a slow -> a = entry) /\
  (exists i, b_insns (co_block co fast) = [i] /\ i_op i = ORet) /\
  pops = filter (fun a => negb (Nat.eqb a entry)) (in_sources bs fast) ++
         filter (fun b => negb (Nat.eqb b fast)) (f_exits f) /\
  (forall a, In a bs -> a <> entry -> step a fast -> List.length (out_edges a) = 1%nat).
Proof.
  revert FP. unfold fast_path.
  destruct (fl_no_lowering fl); [discriminate|].
  destruct (existsb i_wmem _) eqn:W; [discriminate|].
  destruct (negb (Nat.eqb (List.length (out_edges entry)) 2)) eqn:L2; [discriminate|].
  destruct (negb (_ && _)); [discriminate|].
  destruct (fp_split (f_exits f) (out_edges entry)) as [[ft|] [sl|]] eqn:SP; try discriminate.
  destruct (in_sources bs entry) as [|x0 r0] eqn:IE; cbn [negb]; [|discriminate].
  destruct (negb (Nat.eqb (List.length (in_sources bs sl)) 1)) eqn:LS; [discriminate|].
  destruct (b_insns (co_block co ft)) as [|i [|i2 r]] eqn:BI; try discriminate.
  destruct (negb (isop (i_op i) ORet)) eqn:OR; [discriminate|].
  destruct (negb (forallb _ _)) eqn:FA; [discriminate|].
  intros K. injection K as <- <- <-.
  apply negb_false_iff in L2, LS, OR, FA. apply Nat.eqb_eq in L2, LS.
  destruct (out_edges entry) as [|e1 [|e2 [|e3 r3]]] eqn:OE; try discriminate. clear L2.
  assert (SP' : (e_trg e1 = ft /\ e_trg e2 = sl \/ e_trg e1 = sl /\ e_trg e2 = ft) /\
                In ft (f_exits f) /\ ~ In sl (f_exits f)).
  { unfold fp_split in SP. cbn [fold_left fst snd] in SP.
    destruct (mem (e_trg e1) (f_exits f)) eqn:M1; cbn [fst snd] in SP;
      destruct (mem (e_trg e2) (f_exits f)) eqn:M2; cbn [fst snd] in SP; try discriminate;
      injection SP as <- <-; rewrite ?mem_in, ?mem_nin in *; auto. }
  destruct SP' as (SP1 & SP2 & SP3).
  assert (ST : forall c, step entry c <-> c = e_trg e1 \/ c = e_trg e2).
  { intros c. unfold step. rewrite OE. split.
    - intros (e & [<-|[<-|[]]] & <-); auto.
    - intros [->| ->]; eexists; (split; [|reflexivity]); cbn; auto. }
  split.
  { intros j Hj. destruct (i_wmem j) eqn:Q; auto.
    assert (X : existsb i_wmem (b_insns (co_block co entry)) = true) by (apply existsb_exists; exists j; auto).
    congruence. }
  split; [intros c Hc; apply ST in Hc; intuition congruence|].
  split; [apply ST; intuition congruence|]. split; [apply ST; intuition congruence|].
  split; [auto|]. split; [auto|].
  split; [intros a Ha S; apply in_sources_in in S; auto; rewrite IE in S; exact S|].
  split.
  { intros a Ha S. assert (SE : step entry sl) by (apply ST; intuition congruence).
    apply in_sources_in in S; auto. apply in_sources_in in SE; auto.
    destruct (in_sources bs sl) as [|y [|z q]]; try discriminate.
    destruct S as [<-|[]]. destruct SE as [<-|[]]. auto. }
  split; [exists i; split; auto; unfold isop in OR; destruct (opid_eq_dec (i_op i) ORet); auto; discriminate|].
  split; [reflexivity|].
  intros a Ha NE S. apply in_sources_in in S; auto. rewrite forallb_forall in FA.
  apply Nat.eqb_eq. apply FA. apply filter_In. split; auto. apply negb_true_iff, Nat.eqb_neq. auto.
Qed.

(** A block that is neither the entry nor the fast exit: how often it pops. *)
Lemma pops_exit b : In b bs -> In b (f_exits f) -> b <> fast -> count_occ Nat.eq_dec pops b = 1%nat.
Proof.
  destruct fast_path_inv as (_ & _ & _ & _ & _ & _ & _ & _ & _ & -> & _). intros Hb Hx NF.
  rewrite count_occ_app.
  assert (A : count_occ Nat.eq_dec (filter (fun a => negb (Nat.eqb a entry)) (in_sources bs fast)) b = 0%nat).
  { apply count_occ_not_In. intros K. apply filter_In in K. destruct K as [K _].
    apply in_sources_step in K. destruct K as (_ & e & He & _). rewrite (TERM b Hx) in He. exact He. }
  rewrite A. cbn [Nat.add]. apply NoDup_count_occ'; [apply NoDup_filter; auto|].
  apply filter_In. split; auto. apply negb_true_iff, Nat.eqb_neq. auto.
Qed.
Lemma count_flat (g : nat -> list nat) l b :
  NoDup l -> In b l -> (forall a x, In x (g a) -> x = a) ->
  count_occ Nat.eq_dec (flat_map g l) b = List.length (g b).
Proof.
  intros N H G. assert (CG : forall a, count_occ Nat.eq_dec (g a) b = if Nat.eq_dec a b then List.length (g a) else 0%nat).
  { intros a. specialize (G a). induction (g a) as [|x r IH]; [destruct (Nat.eq_dec a b); auto|].
    assert (x = a) by (apply G; left; auto). subst x. cbn [count_occ List.length].
    rewrite IH by (intros y Hy; apply G; right; auto). destruct (Nat.eq_dec a b); auto. }
  induction l as [|a l IH]; [contradiction|]. inversion N; subst. cbn [flat_map]. rewrite count_occ_app, CG.
  destruct (Nat.eq_dec a b) as [->|D].
  - assert (Z0 : count_occ Nat.eq_dec (flat_map g l) b = 0%nat).
    { apply count_occ_not_In. intros K. apply in_flat_map in K. destruct K as (y & Hy & K).
      apply G in K. subst y. contradiction. }
    lia.
  - destruct H as [H|H]; [congruence|]. rewrite IH; auto.
Qed.
Lemma pops_source b : In b bs -> b <> entry -> step b fast -> count_occ Nat.eq_dec pops b = 1%nat.
Proof.
  destruct fast_path_inv as (_ & _ & _ & _ & _ & _ & _ & _ & _ & -> & ONE). intros Hb NE S.
  rewrite count_occ_app.
  assert (B : count_occ Nat.eq_dec (filter (fun x => negb (Nat.eqb x fast)) (f_exits f)) b = 0%nat).
  { apply count_occ_not_In. intros K. apply filter_In in K. destruct K as [K _].
    destruct S as (e & He & _). rewrite (TERM b K) in He. exact He. }
  rewrite B, Nat.add_0_r.
  assert (C : count_occ Nat.eq_dec (filter (fun a => negb (Nat.eqb a entry)) (in_sources bs fast)) b =
              count_occ Nat.eq_dec (in_sources bs fast) b).
  { clear FP. induction (in_sources bs fast) as [|a l IH]; auto. cbn [filter count_occ].
    destruct (Nat.eqb a entry) eqn:Q; cbn [negb].
    - apply Nat.eqb_eq in Q. rewrite IH. destruct (Nat.eq_dec a b); [congruence|auto].
    - cbn [count_occ]. rewrite IH. reflexivity. }
  rewrite C. unfold in_sources. rewrite count_flat; auto.
  - rewrite map_length. pose proof (ONE b Hb NE S) as L. destruct S as (e & He & Te).
    destruct (out_edges b) as [|x [|y r]]; try discriminate. destruct He as [->|[]].
    cbn [filter]. rewrite Te, Nat.eqb_refl. reflexivity.
  - intros a x K. apply in_map_iff in K. destruct K as (_ & <- & _). reflexivity.
Qed.
Lemma pops_inner b c : In b bs -> step b c -> c <> fast -> count_occ Nat.eq_dec pops b = 0%nat.
Proof.
  destruct fast_path_inv as (_ & _ & _ & _ & _ & _ & _ & _ & _ & E & ONE). intros Hb S NC.
  apply count_occ_not_In. rewrite E. intros K. apply in_app_or in K. destruct K as [K|K]; apply filter_In in K; destruct K as [K1 K2].
  - apply negb_true_iff, Nat.eqb_neq in K2. apply in_sources_step in K1. destruct K1 as [_ SF].
    pose proof (ONE b Hb K2 SF) as L. destruct S as (e & He & Te). destruct SF as (e' & He' & Te').
    destruct (out_edges b) as [|x [|y r]]; try discriminate. destruct He as [->|[]]. destruct He' as [->|[]]. congruence.
  - destruct S as (e & He & _). rewrite (TERM b K1) in He. exact He.
Qed.
Lemma pops_fast : count_occ Nat.eq_dec pops fast = 0%nat.
Proof.
  destruct fast_path_inv as (_ & _ & _ & _ & FX & _ & _ & _ & _ & E & _).
  apply count_occ_not_In. rewrite E. intros K. apply in_app_or in K. destruct K as [K|K]; apply filter_In in K; destruct K as [K1 K2].
  - apply in_sources_step in K1. destruct K1 as [_ (e & He & _)]. rewrite (TERM fast FX) in He. exact He.
  - rewrite Nat.eqb_refl in K2. discriminate.
Qed.

Lemma pops_other b : In b bs -> ~ In b (f_exits f) -> b <> entry ->
  (count_occ Nat.eq_dec pops b <= 1)%nat.
Proof.
  intros Hb NX NE. destruct (in_dec Nat.eq_dec b pops) as [I|I].
  - destruct fast_path_inv as (_ & _ & _ & _ & _ & _ & _ & _ & _ & E & _). rewrite E in I.
    apply in_app_or in I. destruct I as [I|I]; apply filter_In in I; destruct I as [I _]; [|contradiction].
    apply in_sources_step in I. destruct I as [_ I]. rewrite (pops_source b); auto.
  - apply (count_occ_not_In Nat.eq_dec) in I. lia.
Qed.

(** The rest of the slow path: blocks without a pop, then perhaps a pop, then perhaps
    the fast exit. *)
Definition slow_tail (tail : list ev) : Prop :=
  tail = [] \/ tail = [Pop] \/ tail = [Pop; Blk fast].
Lemma slow_rest r : forall b, In b bs -> b <> entry -> b <> fast -> bp_path b r ->
  exists mid tail, run_fast slow pops (b :: r) = mid ++ tail /\ ~ In Pop mid /\
    slow_tail tail /\ (In (last r b) (f_exits f) -> tail <> []) /\
    (b <> slow -> ~ In Push mid) /\ (b = slow -> exists m, mid = Push :: Blk slow :: m /\ ~ In Push m).
Proof.
  destruct fast_path_inv as (_ & _ & _ & SS & FX & SX & NOE & ONS & _ & _ & _).
  assert (MID : forall b, (~ In Pop ((if Nat.eqb b slow then [Push] else []) ++ [Blk b])) /\
     (b <> slow -> ~ In Push ((if Nat.eqb b slow then [Push] else []) ++ [Blk b])) /\
     (b = slow -> exists m, (if Nat.eqb b slow then [Push] else []) ++ [Blk b] = Push :: Blk slow :: m /\ ~ In Push m)).
  { intros b. destruct (Nat.eqb b slow) eqn:Q; [apply Nat.eqb_eq in Q; subst b|apply Nat.eqb_neq in Q]; cbn [app].
    - split; [intros [K|[K|[]]]; discriminate|]. split; [congruence|]. intros _. exists []. auto.
    - split; [intros [K|[]]; discriminate|]. split; [|congruence]. intros _ [K|[]]; discriminate. }
  induction r as [|c r IH]; intros b Hb NE NF P; [cbn [bp_path last] in *|rewrite last_cons; cbn [bp_path] in *].
  - destruct (MID b) as (M1 & M2 & M3).
    exists ((if Nat.eqb b slow then [Push] else []) ++ [Blk b]), (repeat Pop (count_occ Nat.eq_dec pops b)).
    unfold run_fast. cbn [flat_map]. unfold fp_evs. rewrite app_nil_r, <- !app_assoc.
    split; [reflexivity|]. split; [exact M1|]. split; [|split; [|split; [exact M2|exact M3]]].
    + destruct (in_dec Nat.eq_dec b (f_exits f)) as [X|X].
      * rewrite (pops_exit b) by auto. right; left; reflexivity.
      * pose proof (pops_other b Hb X NE) as K.
        destruct (count_occ Nat.eq_dec pops b) as [|[|n]]; [left; reflexivity|right; left; reflexivity|lia].
    + intros X. rewrite (pops_exit b) by auto. discriminate.
  - destruct P as [S P]. assert (Hc : In c bs) by (eapply CL; eauto).
    assert (Nce : c <> entry) by (intros ->; exact (NOE b Hb S)).
    assert (Ncs : c <> slow) by (intros ->; apply NE; exact (ONS b Hb S)).
    destruct (MID b) as (M1 & M2 & M3).
    destruct (Nat.eq_dec c fast) as [->|NCF].
    + assert (r = []).
      { destruct r as [|d r']; auto. cbn in P. destruct P as [(e & He & _) _]. rewrite (TERM fast FX) in He. contradiction. }
      subst r. exists ((if Nat.eqb b slow then [Push] else []) ++ [Blk b]), [Pop; Blk fast].
      unfold run_fast. cbn [flat_map]. unfold fp_evs. rewrite pops_fast, (pops_source b) by auto. cbn [repeat].
      rewrite (proj2 (Nat.eqb_neq fast slow)) by auto. rewrite <- !app_assoc. cbn [app].
      split; [reflexivity|]. split; [exact M1|]. split; [right; right; reflexivity|].
      split; [discriminate|]. split; [exact M2|exact M3].
    + destruct (IH c Hc Nce NCF P) as (mid & tail & E & N1 & T1 & T2 & N2 & _).
      exists (((if Nat.eqb b slow then [Push] else []) ++ [Blk b]) ++ mid), tail.
      unfold run_fast in *. cbn [flat_map] in *. unfold fp_evs at 1.
      rewrite (pops_inner b c) by auto. cbn [repeat]. rewrite app_nil_r.
      rewrite E. rewrite <- !app_assoc. split; [reflexivity|]. specialize (N2 Ncs).
      split; [|split; [exact T1|split; [exact T2|split]]].
      * rewrite app_assoc. intros K. apply in_app_or in K. destruct K as [K|K]; auto.
      * intros Q. rewrite app_assoc. intros K. apply in_app_or in K. destruct K as [K|K]; auto. exact (M2 Q K).
      * intros Q. destruct (M3 Q) as (m & E3 & K3). exists (m ++ mid). rewrite app_assoc, E3. split; [reflexivity|].
        intros K. apply in_app_or in K. destruct K as [K|K]; auto.
Qed.

(** All executions: the fast path, or the slow path with one push and at most one pop. *)
Theorem fast_runs r : bp_path entry r ->
  (r = [] /\ run_fast slow pops (entry :: r) = [Blk entry]) \/
  (r = [fast] /\ run_fast slow pops (entry :: r) = [Blk entry; Blk fast]) \/
  (exists r', r = slow :: r' /\ exists mid tail,
     run_fast slow pops (entry :: r) = Blk entry :: Push :: Blk slow :: mid ++ tail /\
     ~ In Push mid /\ ~ In Pop mid /\ slow_tail tail /\
     (In (last r entry) (f_exits f) -> tail <> [])).
Proof.
  pose proof fast_path_inv as (_ & EO & SF & SS & FX & SX & NOE & ONS & _ & _ & _).
  intros P.
  assert (NES : entry <> slow) by (intros E; apply (NOE entry HE); rewrite E at 2; exact SS).
  assert (NFE : slow <> fast) by (intros E; apply SX; rewrite E; exact FX).
  assert (E0 : fp_evs slow pops entry = [Blk entry]).
  { unfold fp_evs. rewrite (proj2 (Nat.eqb_neq entry slow)) by auto.
    rewrite (pops_inner entry slow) by auto. reflexivity. }
  destruct r as [|c r].
  { left. split; auto. unfold run_fast. cbn [flat_map]. rewrite E0. reflexivity. }
  right. cbn [bp_path] in P. destruct P as [S P]. rewrite last_cons.
  destruct (EO c S) as [->| ->].
  - left. assert (r = []).
    { destruct r as [|d r']; auto. cbn in P. destruct P as [(e & He & _) _]. rewrite (TERM fast FX) in He. contradiction. }
    subst r. split; auto. unfold run_fast. cbn [flat_map]. rewrite E0. unfold fp_evs. rewrite pops_fast.
    rewrite (proj2 (Nat.eqb_neq fast slow)) by auto. reflexivity.
  - right. exists r. split; auto.
    destruct (slow_rest r slow) as (mid & tail & E & M1 & T1 & T2 & _ & M2); auto.
    { eapply CL; eauto. }
    destruct (M2 eq_refl) as (m & -> & M3). exists m, tail.
    unfold run_fast in *. cbn [flat_map] in *. rewrite E0, E. cbn [app]. split; [reflexivity|].
    split; auto. split; auto. intros K. apply M1. right. right. exact K.
Qed.
End FP.
