(** * Properties C78 (the list of stack-protected functions) and C79 (compression of traces) *)
From Coq Require Import ZArith QArith Bool Arith Lia ZifyBool ZifyNat String List.
From Verif Require Import Decision Tools.
Import ListNotations.
Open Scope string_scope.
Open Scope list_scope.
Open Scope nat_scope.

(** ** C78 *)
(** The functions looked at, and those whose first block uses the segment register. *)
Definition looked_at (obs : list pobject) : list pfun :=
  flat_map po_funs (filter (fun ob => negb (contains ".so" (po_path ob))) obs).
Definition uses_fs (i : pinsn) : Prop := In "FS" (pi_read i) \/ In "FS" (pi_written i).
(** The function is protected: it loads the cookie somewhere. *)
Definition protected (f : pfun) : Prop :=
  exists b i, In b (pf_entry f :: pf_others f) /\ In i b /\ pi_cookie i = true.

Lemma any_fs_ok l : any_fs l = true <-> In "FS" l.
Proof.
  induction l as [|r l IH]; cbn; [intuition discriminate|]. destruct (String.eqb_spec r "FS"); [intuition|].
  rewrite IH. intuition.
Qed.
Lemma accessed_ok b : cookie_accessed b = true <-> exists i, In i b /\ uses_fs i.
Proof.
  induction b as [|i b IH]; cbn; [split; [discriminate|intros (? & [] & _)]|].
  destruct (any_fs (pi_read i)) eqn:R; [split; [intros _; exists i; split; [auto|left; apply any_fs_ok; auto]|auto]|].
  destruct (any_fs (pi_written i)) eqn:W; [split; [intros _; exists i; split; [auto|right; apply any_fs_ok; auto]|auto]|].
  rewrite IH. split.
  - intros (j & J & U); exists j; auto.
  - intros (j & [<-|J] & U); [|exists j; auto]. destruct U as [U|U]; apply any_fs_ok in U; congruence.
Qed.
Lemma per_functions fs t names : fold_left per_function fs (t, names) =
  (t + List.length fs, names ++ map pf_name (filter (fun f => cookie_accessed (pf_entry f)) fs)).
Proof.
  revert t names. induction fs as [|f fs IH]; intros t names; cbn; [rewrite Nat.add_0_r, app_nil_r; reflexivity|].
  rewrite IH. f_equal; [lia|]. destruct (cookie_accessed _); cbn; [rewrite <- app_assoc|]; reflexivity.
Qed.
Lemma per_objects obs t names : fold_left per_object obs (t, names) =
  (t + List.length (looked_at obs), names ++ map pf_name (filter (fun f => cookie_accessed (pf_entry f)) (looked_at obs))).
Proof.
  revert t names. induction obs as [|ob obs IH]; intros t names; cbn [fold_left looked_at filter flat_map];
    [cbn; rewrite Nat.add_0_r, app_nil_r; reflexivity|].
  unfold per_object at 2, is_shared_library. destruct (contains ".so" (po_path ob)); cbn [negb].
  - apply IH.
  - rewrite per_functions, IH. unfold looked_at. cbn [flat_map]. rewrite app_length, filter_app, map_app, <- app_assoc. f_equal. lia.
Qed.

(** C78: the functions of all objects but shared libraries are counted.  The file lists, in their
    order, the names of those whose first block has an instruction that reads or writes fs; the
    result counts them.  The ratio is between 0 and 1, and a number unless no function was
    counted. *)
Theorem C78_listed : forall obs,
  let fs := looked_at obs in let r := discover obs in
  pr_total r = List.length fs /\
  (exists sel, pr_lines r = map pf_name (filter sel fs) /\ pr_protected r = List.length (filter sel fs) /\
     forall f, sel f = true <-> exists i, In i (pf_entry f) /\ uses_fs i) /\
  match pr_ratio r with
  | Some q => fs <> [] /\ (0 <= q <= 1 /\ q * inject_Z (Z.of_nat (List.length fs)) == inject_Z (Z.of_nat (pr_protected r)))%Q
  | None => fs = []
  end.
Proof.
  intros obs fs r. unfold r, discover. rewrite per_objects, Nat.add_0_l, app_nil_l. fold fs. cbn [pr_total pr_lines pr_protected pr_ratio].
  set (sel := fun f => cookie_accessed (pf_entry f)).
  assert (LE : List.length (map pf_name (filter sel fs)) <= List.length fs).
  { rewrite map_length. clear. induction fs as [|f l IH]; cbn; [lia|]. destruct (sel f); cbn; lia. }
  split; [reflexivity|]. split.
  - exists sel. split; [reflexivity|]. split; [apply map_length|]. intros f. apply accessed_ok.
  - destruct (List.length fs) as [|n] eqn:L; [destruct fs; [reflexivity|discriminate]|].
    split; [destruct fs; discriminate|]. set (k := List.length _) in *.
    unfold Qle, Qeq, Qmult, inject_Z. cbn [Qnum Qden]. lia.
Qed.
Print Assumptions C78_listed.
(** Three functions, one listed; a shared library is left out. *)
Definition i_cookie := mkPinsn ["FS"] ["RAX"] true.
Definition i_tls := mkPinsn ["FS"] ["RAX"] false.
Definition i_other := mkPinsn ["RDI"] ["RAX"] false.
Definition ex_app := mkPobject "/bin/app" [mkPfun "f" [i_other; i_cookie] []; mkPfun "g" [i_other] [[i_cookie]]; mkPfun "h" [i_other] []].
Definition ex_lib := mkPobject "/lib/libc.so.6" [mkPfun "l" [i_cookie] []].
Example C78_case : discover [ex_app; ex_lib] = mkPresult ["f"] 3 1 (Some (1 # 3)) /\
  discover [ex_lib] = mkPresult [] 0 0 None.
Proof. split; reflexivity. Qed.

(** The file is a list of the functions that load the cookie in their first block, if those are the
    ones that use fs there.  It is not a list of the protected functions: *)
Theorem C78_protected_partial : forall obs f,
  (forall i, In i (pf_entry f) -> (pi_cookie i = true <-> uses_fs i)) ->
  (forall b i, In b (pf_others f) -> In i b -> pi_cookie i = false) ->
  (forall f', In f' (looked_at obs) -> pf_name f' = pf_name f -> f' = f) -> In f (looked_at obs) ->
  (In (pf_name f) (pr_lines (discover obs)) <-> protected f).
Proof.
  intros obs f E O U HF. destruct (C78_listed obs) as (_ & (sel & L & _ & S) & _). rewrite L, in_map_iff. split.
  - intros (f' & N & K). apply filter_In in K. destruct K as [K1 K2]. apply (U f' K1) in N. subst f'.
    apply S in K2. destruct K2 as (i & I1 & I2). exists (pf_entry f), i. split; [left; reflexivity|]. split; [auto|]. apply E; auto.
  - intros (b & i & [<-|B] & I1 & I2).
    + exists f. split; [reflexivity|]. apply filter_In. split; [auto|]. apply S. exists i. split; [auto|]. apply E; auto.
    + rewrite (O b i B I1) in I2. discriminate.
Qed.
Print Assumptions C78_protected_partial.
Example C78_protected_case :
  let f := mkPfun "f" [i_other; i_cookie] [] in
  (forall i, In i (pf_entry f) -> (pi_cookie i = true <-> uses_fs i)) /\
  (forall b i, In b (pf_others f) -> In i b -> pi_cookie i = false) /\
  (forall f', In f' (looked_at [ex_app; ex_lib]) -> pf_name f' = pf_name f -> f' = f) /\ In f (looked_at [ex_app; ex_lib]).
Proof.
  cbv zeta. split; [|split; [|split]].
  - intros i [<-|[<-|[]]]; unfold uses_fs; cbn; intuition congruence.
  - intros b i [].
  - intros f' [<-|[<-|[<-|[]]]]; cbn; [reflexivity|discriminate|discriminate].
  - left; reflexivity.
Qed.
(** A function that loads the cookie in a later block is not listed; one that reads a thread-local
    variable in its first block is. *)
Theorem C78_refuted :
  (exists obs f, In f (looked_at obs) /\ protected f /\ ~ In (pf_name f) (pr_lines (discover obs))) /\
  (exists obs f, In f (looked_at obs) /\ ~ protected f /\ In (pf_name f) (pr_lines (discover obs))).
Proof.
  split.
  - exists [ex_app], (mkPfun "g" [i_other] [[i_cookie]]). split; [right; left; reflexivity|]. split.
    + exists [i_cookie], i_cookie. split; [right; left; reflexivity|]. split; [left; reflexivity|reflexivity].
    + cbn. intros [K|[]]. discriminate.
  - exists [mkPobject "/bin/app" [mkPfun "t" [i_tls] []]], (mkPfun "t" [i_tls] []). split; [left; reflexivity|]. split.
    + intros (b & i & [<-|[]] & [<-|[]] & K). discriminate.
    + left. reflexivity.
Qed.
Print Assumptions C78_refuted.

(** ** C79 *)
(** Line [i] differs from each of the [w] lines before it. *)
Definition fresh_line (w : nat) (lines : list string) (i : nat) : Prop :=
  forall j, i - w <= j < i -> nth_error lines j <> nth_error lines i.
(** [out] is what is left of [lines] when just the lines that are fresh are kept. *)
Definition keeps (w : nat) (lines out : list string) : Prop :=
  exists idx, (forall i, In i idx <-> i < List.length lines /\ fresh_line w lines i) /\
    (forall a b l r, idx = l ++ a :: b :: r -> a < b) /\
    map Some out = map (nth_error lines) idx.
Lemma keeps_snoc w lines out x : keeps w lines out ->
  (fresh_line w (lines ++ [x]) (List.length lines) -> keeps w (lines ++ [x]) (out ++ [x])) /\
  (~ fresh_line w (lines ++ [x]) (List.length lines) -> keeps w (lines ++ [x]) out).
Proof.
  intros (idx & I1 & I2 & I3).
  assert (SAME : forall i, i < List.length lines -> (fresh_line w (lines ++ [x]) i <-> fresh_line w lines i)).
  { intros i Hi. unfold fresh_line. split; intros H j Hj; specialize (H j Hj); rewrite !nth_error_app1 in *; try lia; auto. }
  assert (MAP : map (nth_error (lines ++ [x])) idx = map (nth_error lines) idx).
  { apply map_ext_in. intros i Hi. apply I1 in Hi. rewrite nth_error_app1; [reflexivity|lia]. }
  split; intros F.
  - exists (idx ++ [List.length lines]). split; [|split].
    + intros i. rewrite in_app_iff, I1, app_length. cbn. split.
      * intros [(A & B)|[<-|[]]]; [split; [lia|apply SAME; auto]|split; [lia|exact F]].
      * intros (A & B). destruct (Nat.eq_dec i (List.length lines)) as [->|N]; [auto|]. left. split; [lia|]. apply SAME; [lia|auto].
    + intros a b l r E. destruct r as [|c r] using rev_ind.
      * replace (l ++ [a; b]) with ((l ++ [a]) ++ [b]) in E by (rewrite <- app_assoc; reflexivity).
        apply app_inj_tail in E. destruct E as [E <-]. assert (K : In a idx) by (rewrite E; apply in_or_app; right; left; reflexivity).
        apply I1 in K. lia.
      * replace (l ++ a :: b :: r ++ [c]) with ((l ++ a :: b :: r) ++ [c]) in E by (rewrite <- app_assoc; reflexivity).
        apply app_inj_tail in E. destruct E as [E _]. apply (I2 a b l r E).
    + rewrite !map_app, MAP, I3. cbn. rewrite nth_error_app2, Nat.sub_diag by lia. reflexivity.
  - exists idx. split; [|split; [exact I2|congruence]].
    intros i. rewrite I1, app_length. cbn. split.
    + intros (A & B). split; [lia|apply SAME; auto].
    + intros (A & B). destruct (Nat.eq_dec i (List.length lines)) as [->|N]; [contradiction|]. split; [lia|]. apply SAME; [lia|auto].
Qed.
Lemma keeps_nil w : keeps w [] [].
Proof.
  exists []. split; [intros i; cbn; split; [intros []|lia]|]. split; [|reflexivity]. intros a b [|? l] r E; discriminate.
Qed.
(** The last [w] lines. *)
Definition last_lines (w : nat) (lines : list string) : list string := skipn (List.length lines - w) lines.
Lemma last_lines_in w lines x : In x (last_lines w lines) <-> exists j, List.length lines - w <= j < List.length lines /\ nth_error lines j = Some x.
Proof.
  unfold last_lines. set (d := List.length lines - w). split.
  - intros H. apply In_nth_error in H. destruct H as (j & H). exists (d + j).
    assert (K : nth_error lines (d + j) = Some x).
    { rewrite <- (firstn_skipn d lines), nth_error_app2; rewrite firstn_length; [|lia].
      replace (d + j - min d (List.length lines)) with j by lia. exact H. }
    split; [|exact K]. split; [lia|]. apply nth_error_Some. congruence.
  - intros (j & J & K). rewrite <- (firstn_skipn d lines) in K. rewrite nth_error_app2 in K; rewrite firstn_length in *; [|lia].
    eapply nth_error_In; eauto.
Qed.
Lemma fresh_last w lines x : fresh_line w (lines ++ [x]) (List.length lines) <-> ~ In x (last_lines w lines).
Proof.
  rewrite last_lines_in. unfold fresh_line. rewrite nth_error_app2, Nat.sub_diag by lia. cbn [nth_error]. split.
  - intros H (j & J & K). apply (H j J). rewrite nth_error_app1 by lia. exact K.
  - intros H j J K. apply H. exists j. split; [exact J|]. rewrite nth_error_app1 in K by lia. exact K.
Qed.
Lemma cr1_state lines : exists out, fold_left cr1_line lines ([], None) = (out, nth_error lines (List.length lines - 1)) /\ keeps 1 lines out.
Proof.
  induction lines as [|x lines IH] using rev_ind; [exists []; split; [reflexivity|apply keeps_nil]|].
  destruct IH as (out & E & K). rewrite fold_left_app, E. cbn [fold_left cr1_line].
  rewrite app_length. cbn [List.length]. replace (List.length lines + 1 - 1) with (List.length lines) by lia.
  rewrite (nth_error_app2 lines [x]), Nat.sub_diag by lia. cbn [nth_error].
  destruct (keeps_snoc 1 lines out x K) as [K1 K2]. rewrite fresh_last in K1, K2.
  assert (LAST : In x (last_lines 1 lines) <-> nth_error lines (List.length lines - 1) = Some x).
  { rewrite last_lines_in. split.
    - intros (j & J & H). replace (List.length lines - 1) with j by lia. exact H.
    - intros H. exists (List.length lines - 1). split; [|exact H]. assert (List.length lines - 1 < List.length lines) by (apply nth_error_Some; congruence). lia. }
  destruct (nth_error lines (List.length lines - 1)) as [p|] eqn:P.
  - destruct (String.eqb_spec x p) as [->|N].
    + exists out. split; [reflexivity|]. apply K2. intros H. apply H, LAST. reflexivity.
    + exists (out ++ [x]). split; [reflexivity|]. apply K1. intros H. apply LAST in H. congruence.
  - exists (out ++ [x]). split; [reflexivity|]. apply K1. intros H. apply LAST in H. discriminate.
Qed.
Lemma last_two lines x : last_lines 2 (lines ++ [x]) =
  (let a := last_lines 2 lines ++ [x] in if 2 <? List.length a then tl a else a).
Proof.
  unfold last_lines. cbv zeta. rewrite !app_length. cbn [List.length]. rewrite skipn_length.
  destruct (le_lt_dec 2 (List.length lines)) as [L|L].
  - replace (List.length lines - (List.length lines - 2) + 1) with 3 by lia. cbn [Nat.ltb Nat.leb].
    replace (List.length lines + 1 - 2) with (S (List.length lines - 2)) by lia. set (d := List.length lines - 2).
    assert (D : d < List.length lines) by lia. clearbody d. clear L. revert d D. induction lines as [|y l IH]; intros d D; cbn in D; [lia|].
    destruct d as [|d]; [reflexivity|]. cbn [skipn app]. apply (IH d). lia.
  - replace (List.length lines + 1 - 2) with 0 by lia. replace (List.length lines - 2) with 0 by lia.
    cbn [skipn]. destruct lines as [|a [|b l]]; cbn in L |- *; try reflexivity. lia.
Qed.
Lemma cr2_state lines : exists out, fold_left cr2_line lines ([], []) = (out, last_lines 2 lines) /\ keeps 2 lines out.
Proof.
  induction lines as [|x lines IH] using rev_ind; [exists []; split; [reflexivity|apply keeps_nil]|].
  destruct IH as (out & E & K). rewrite fold_left_app, E. cbn [fold_left cr2_line]. rewrite last_two.
  destruct (keeps_snoc 2 lines out x K) as [K1 K2]. rewrite fresh_last in K1, K2.
  destruct (existsb (String.eqb x) (last_lines 2 lines)) eqn:X.
  - exists out. split; [reflexivity|]. apply K2. intros H. apply H. apply existsb_exists in X. destruct X as (y & Y & EQ).
    apply String.eqb_eq in EQ. subst. exact Y.
  - exists (out ++ [x]). split; [reflexivity|]. apply K1. intros H. assert (T : existsb (String.eqb x) (last_lines 2 lines) = true).
    { apply existsb_exists. exists x. split; [exact H|apply String.eqb_refl]. }
    congruence.
Qed.
Lemma keeps_subset w w' lines out out' : w <= w' -> keeps w lines out -> keeps w' lines out' -> List.length out' <= List.length out /\ List.length out <= List.length lines.
Proof.
  intros LE (i1 & A1 & B1 & C1) (i2 & A2 & B2 & C2).
  assert (INC : forall (idx : list nat), (forall a b l r, idx = l ++ a :: b :: r -> a < b) -> NoDup idx).
  { intros idx H. assert (G : forall n l, (forall a b l1 r, n :: l = l1 ++ a :: b :: r -> a < b) -> ~ In n l /\ NoDup l /\ Forall (lt n) l).
    { intros n l. revert n. induction l as [|y l IH]; intros n K; [split; [auto|split; constructor]|].
      assert (NY : n < y) by (apply (K n y [] l); reflexivity).
      destruct (IH y) as (I1 & I2 & I3). { intros a b l1 r E. apply (K a b (n :: l1) r). cbn. f_equal. exact E. }
      assert (FA : Forall (lt n) (y :: l)) by (constructor; [exact NY|eapply Forall_impl; [|exact I3]; cbn; lia]).
      split; [|split; [constructor; auto|exact FA]]. intros Q. rewrite Forall_forall in FA. apply FA in Q. lia. }
    destruct idx as [|n l]; [constructor|]. destruct (G n l H) as (G1 & G2 & _). constructor; auto. }
  assert (L1 : List.length out = List.length i1) by (apply (f_equal (@List.length _)) in C1; rewrite !map_length in C1; exact C1).
  assert (L2 : List.length out' = List.length i2) by (apply (f_equal (@List.length _)) in C2; rewrite !map_length in C2; exact C2).
  split.
  - rewrite L1, L2. apply NoDup_incl_length; [apply INC; exact B2|]. intros i Hi. apply A2 in Hi. apply A1. split; [tauto|].
    intros j J. apply (proj2 Hi j). lia.
  - rewrite L1, <- (seq_length (List.length lines) 0). apply NoDup_incl_length; [apply INC; exact B1|].
    intros i Hi. apply A1 in Hi. apply in_seq. lia.
Qed.

(** C79: CR1 keeps the lines that differ from the line before, CR2 those that differ from the two
    lines before, in order.  For a trace that is not empty the script prints its depth and those of
    the compressed traces; CR2 never keeps more than CR1; both ratios lie between 0 and 100, less
    than 100 as the first line is kept. *)
Theorem C79_compress : forall lines,
  keeps 1 lines (cr1 lines) /\ keeps 2 lines (cr2 lines) /\
  (lines <> [] -> exists c1 c2 q1 q2, report lines = Some (List.length lines, c1, c2, q1, q2) /\
     c1 = List.length (cr1 lines) /\ c2 = List.length (cr2 lines) /\ 1 <= c2 <= c1 /\ c1 <= List.length lines /\
     (0 <= q1 /\ q1 <= q2 /\ q2 < 100)%Q /\
     (q1 * inject_Z (Z.of_nat (List.length lines)) == inject_Z (100 * (Z.of_nat (List.length lines) - Z.of_nat c1)))%Q /\
     (q2 * inject_Z (Z.of_nat (List.length lines)) == inject_Z (100 * (Z.of_nat (List.length lines) - Z.of_nat c2)))%Q).
Proof.
  intros lines. destruct (cr1_state lines) as (o1 & E1 & K1). destruct (cr2_state lines) as (o2 & E2 & K2).
  assert (R1 : cr1 lines = o1) by (unfold cr1; rewrite E1; reflexivity). assert (R2 : cr2 lines = o2) by (unfold cr2; rewrite E2; reflexivity).
  rewrite R1, R2. split; [exact K1|]. split; [exact K2|]. intros NE.
  destruct (keeps_subset 1 2 lines o1 o2 ltac:(lia) K1 K2) as (L1 & L2).
  assert (L0 : 1 <= List.length o2).
  { destruct K2 as (idx & A & B & C). assert (Z0 : In 0 idx) by (apply A; split; [destruct lines; [congruence|cbn; lia]|intros j J; lia]).
    apply (f_equal (@List.length _)) in C. rewrite !map_length in C. destruct idx; [destruct Z0|cbn in C; lia]. }
  unfold report. rewrite R1, R2. destruct (List.length lines) as [|n] eqn:LN; [destruct lines; [congruence|discriminate]|].
  do 4 eexists. split; [reflexivity|]. split; [reflexivity|]. split; [reflexivity|]. split; [lia|]. split; [lia|].
  set (a := List.length o1) in *. set (b := List.length o2) in *. clearbody a b. clear - L0 L1 L2.
  unfold Qle, Qlt, Qeq, Qminus, Qplus, Qopp, Qmult, inject_Z. cbn [Qnum Qden]. rewrite ?Pos.mul_1_r, ?Pos.mul_1_l, ?Z.mul_1_r.
  split; [split; [|split]|split]; nia.
Qed.
Print Assumptions C79_compress.
Example C79_case : cr1 ["a"; "a"; "b"; "a"; "b"; "c"] = ["a"; "b"; "a"; "b"; "c"] /\ cr2 ["a"; "a"; "b"; "a"; "b"; "c"] = ["a"; "b"; "c"].
Proof. split; reflexivity. Qed.
(** The script fails on an empty trace.  CR2 can leave two equal lines in a row, so a second pass
    would compress further. *)
Theorem C79_refuted : report [] = None /\
  exists lines x, cr2 lines = ["u"; x; x] /\ (List.length (cr2 (cr2 lines)) < List.length (cr2 lines))%nat.
Proof. split; [reflexivity|]. exists ["u"; "v"; "u"; "u"; "v"], "v". split; [reflexivity|cbn; lia]. Qed.
Print Assumptions C79_refuted.
