(** * Properties C84 (benchmark runs), C85 (stack traces) and C86 (spring boards) *)
From Coq Require Import Bool Arith Lia ZifyBool ZifyNat Ascii String List Permutation.
From Verif Require Import Decision Scripts.
Import ListNotations.
Open Scope string_scope.
Open Scope list_scope.
Open Scope nat_scope.

(** ** C84 *)
Definition starts (es : list event) : list (nat * config) :=
  flat_map (fun e => match e with Started n c => [(n, c)] | _ => [] end) es.
Definition finishes (es : list event) : list (nat * config) :=
  flat_map (fun e => match e with Finished n c _ => [(n, c)] | _ => [] end) es.
Definition numbered (cs : list config) : list (nat * config) := combine (seq 0 (List.length cs)) cs.
(** What the processes write fits into the pipes. *)
Definition short (w : world) : Prop :=
  forall n, String.length (w_out w n) <= w_pipe w /\ String.length (w_err w n) <= w_pipe w.
(** All combinations, benchmarks changing fastest. *)
Definition combinations (s : settings) : list config :=
  map (fun '((mode, (column, cfg, module)), bench) => mkConfig mode column cfg bench module)
    (list_prod (list_prod (st_modes s) (st_columns s)) (st_tests s)).
(** The verdict on a text. *)
Definition occurs (x s : string) : Prop := exists p q, s = (p ++ x ++ q)%string.
Definition judged (text : string) (v : verdict) : Prop :=
  match v with
  | Fail => occurs "Error" text
  | Pass => ~ occurs "Error" text /\ occurs "Success:" text
  | Unknown => ~ occurs "Error" text /\ ~ occurs "Success:" text
  end.
(** The cell of a table: the verdict on a run of that mode, column and benchmark. *)
Definition cell (s : settings) (w : world) (mode test : string) (col : string * string * string) (v : verdict) : Prop :=
  exists n c, nth_error (combinations s) n = Some c /\ cf_mode c = mode /\ cf_column c = fst (fst col) /\ cf_bench c = test /\
    judged (w_out w n ++ w_err w n) v.

Lemma combinations_ok s : configurations s = combinations s.
Proof.
  unfold configurations, combinations. induction (st_modes s) as [|m ms IH]; [reflexivity|]. cbn [flat_map list_prod]. rewrite IH.
  assert (LP : forall A B (a b : list A) (c : list B), list_prod (a ++ b) c = list_prod a c ++ list_prod b c)
    by (intros A B a b c; induction a; cbn; [reflexivity|]; rewrite IHa, app_assoc; reflexivity).
  rewrite LP, map_app. f_equal. clear. induction (st_columns s) as [|((c, p), md) cs IH]; [reflexivity|].
  cbn [flat_map map list_prod]. rewrite map_app, IH, map_map. reflexivity.
Qed.
Lemma judge_ok text : judged text (judge text).
Proof.
  unfold judge. destruct (contains "Error" text) eqn:E.
  - apply contains_iff. exact E.
  - assert (N : ~ occurs "Error" text) by (intros K; apply contains_iff in K; congruence).
    destruct (contains "Success:" text) eqn:S; (split; [exact N|]); [apply contains_iff; exact S|intros K; apply contains_iff in K; congruence].
Qed.

Definition tagged (runs : list proc) : list (nat * config) := map (fun p => (pr_no p, pr_conf p)) runs.
Lemma poll_some w : forall runs t t' p r, poll w t runs = (t', Some (p, r)) ->
  t <= t' /\ exists a b, runs = a ++ p :: b /\ r = a ++ b.
Proof.
  induction runs as [|x runs IH]; intros t t' p r H; cbn in H; [discriminate|].
  destruct (ended w t x); [injection H as <- <- <-; split; [lia|]; exists [], runs; auto|].
  destruct (poll w (S t) runs) as (t1, [(q, r1)|]) eqn:P; [|discriminate]. injection H as <- <- <-.
  destruct (IH _ _ _ _ P) as (L & a & b & -> & ->). split; [lia|]. exists (x :: a), b. auto.
Qed.
Lemma poll_none w : forall runs t t', poll w t runs = (t', None) -> t <= t' /\ forall p, In p runs -> exists u, t <= u /\ ended w u p = false.
Proof.
  induction runs as [|x runs IH]; intros t t' H; cbn in H; [injection H as <-; split; [lia|intros p []]|].
  destruct (ended w t x) eqn:E; [discriminate|].
  destruct (poll w (S t) runs) as (t1, [(q, r1)|]) eqn:P; [discriminate|]. injection H as <-.
  destruct (IH _ _ P) as (L & K). split; [lia|]. intros p [<-|Hp]; [exists t; auto|]. destruct (K p Hp) as (u & U & F). exists u. split; [lia|auto].
Qed.
Lemma wait_ends w : short w -> forall fuel t p r, pr_start p + w_life w (pr_no p) < t + fuel -> 0 < fuel ->
  exists t' q r', wait fuel w t (p :: r) = Some (t', q, r').
Proof.
  intros SH. induction fuel as [|f IH]; intros t p r L F; [lia|]. cbn [wait].
  destruct (poll w t (p :: r)) as (t1, [(q, r1)|]) eqn:P; [eauto|].
  destruct (poll_none _ _ _ _ P) as (LE & K). destruct (K p (or_introl eq_refl)) as (u & U & E).
  destruct (SH (pr_no p)) as (S1 & S2). unfold ended in E.
  assert (u < pr_start p + w_life w (pr_no p)) by lia.
  apply IH; lia.
Qed.
Lemma wait_some w : forall fuel t runs t' p r, wait fuel w t runs = Some (t', p, r) ->
  t <= t' /\ exists a b, runs = a ++ p :: b /\ r = a ++ b.
Proof.
  induction fuel as [|f IH]; intros t runs t' p r H; cbn in H; [discriminate|].
  destruct (poll w t runs) as (t1, [(q, r1)|]) eqn:P.
  - injection H as <- <- <-. eapply poll_some; eauto.
  - destruct (poll_none _ _ _ _ P) as (L & _). destruct (IH _ _ _ _ _ H) as (L2 & K). split; [lia|exact K].
Qed.
Definition entry (w : world) (x : nat * config) : key * verdict := (key_of (snd x), judge (w_out w (fst x) ++ w_err w (fst x))).
(** What holds of the events that follow, from the processes running. *)
Definition proceeds (par : nat) (w : world) (run : list (nat * config)) (new : list (nat * config)) (d : table) (es : list event) (d' : table) : Prop :=
  starts es = new /\ Permutation (finishes es) (run ++ new) /\
  (forall a b, es = a ++ b -> incl (finishes a) (run ++ starts a) /\ List.length run + List.length (starts a) <= List.length (finishes a) + par) /\
  (forall n c v, In (Finished n c v) es -> v = judge (w_out w n ++ w_err w n)) /\
  d' = rev (map (entry w) (finishes es)) ++ d.
Definition early (w : world) (fuel t : nat) (runs : list proc) : Prop :=
  Forall (fun p => pr_start p <= t /\ w_life w (pr_no p) < fuel) runs.
Lemma finish_one w fuel t runs d : short w -> early w fuel t runs -> runs <> [] ->
  exists t' a p b, runs = a ++ p :: b /\ t <= t' /\
    finish fuel w t runs d = Some (t', a ++ b, entry w (pr_no p, pr_conf p) :: d,
      Finished (pr_no p) (pr_conf p) (judge (w_out w (pr_no p) ++ w_err w (pr_no p)))).
Proof.
  intros SH EA NE. destruct runs as [|p r]; [contradiction|]. inversion EA as [|? ? (E1 & E2) _]; subst.
  destruct (wait_ends w SH fuel t p r) as (t' & q & r' & W); [lia|lia|].
  destruct (wait_some _ _ _ _ _ _ _ W) as (L & a & b & E & ->). exists t', a, q, b. split; [exact E|]. split; [exact L|].
  unfold finish. rewrite W. reflexivity.
Qed.
Lemma early_sub w fuel t t' a p b : early w fuel t (a ++ p :: b) -> t <= t' -> early w fuel t' (a ++ b).
Proof.
  unfold early. rewrite !Forall_forall. intros H L x Hx. destruct (H x) as (A & B); [|split; [lia|exact B]].
  apply in_app_iff in Hx. apply in_app_iff. cbn. tauto.
Qed.
Lemma proceeds_finish par w p a b new d es d' :
  List.length (a ++ p :: b) <= par ->
  proceeds par w (tagged (a ++ b)) new (entry w (pr_no p, pr_conf p) :: d) es d' ->
  proceeds par w (tagged (a ++ p :: b)) new d
    (Finished (pr_no p) (pr_conf p) (judge (w_out w (pr_no p) ++ w_err w (pr_no p))) :: es) d'.
Proof.
  unfold tagged. rewrite !map_app. cbn [map]. rewrite app_length. cbn [List.length].
  intros LE (S1 & F1 & P1 & V1 & D1). split; [exact S1|]. split; [|split; [|split]].
  - cbn [finishes flat_map app]. fold (finishes es). rewrite F1. rewrite <- !app_assoc. cbn [app]. apply Permutation_middle.
  - intros x y E. destruct x as [|e x].
    + cbn. split; [intros z []|]. rewrite !app_length, !map_length. cbn [List.length]. rewrite map_length. lia.
    + cbn [app] in E. injection E as <- E. destruct (P1 _ _ E) as (I1 & L1). cbn [finishes starts flat_map app]. fold (finishes x). fold (starts x).
      rewrite !app_length in *. cbn [List.length] in *. split; [|lia].
      intros z [<-|Hz]; [rewrite !in_app_iff; cbn; tauto|]. apply I1 in Hz. rewrite !in_app_iff in *. cbn. tauto.
  - intros n c v [E|K]; [injection E as <- <- <-; reflexivity|eauto].
  - rewrite D1. cbn [finishes flat_map app map rev]. rewrite <- app_assoc. reflexivity.
Qed.
Lemma drain_ok par w fuel : short w -> forall k t runs d, early w fuel t runs -> List.length runs <= k -> List.length runs <= par ->
  exists es d', drain k fuel w t runs d = Some (es, d') /\ proceeds par w (tagged runs) [] d es d'.
Proof.
  intros SH. induction k as [|k IH]; intros t runs d EA LK LP.
  - destruct runs; [|cbn in LK; lia]. exists [], d. split; [reflexivity|]. split; [reflexivity|]. split; [constructor|].
    split; [|split; [intros ? ? ? []|reflexivity]]. intros a b E. symmetry in E. apply app_eq_nil in E. destruct E as [-> ->]. cbn. split; [intros z []|lia].
  - destruct runs as [|x r].
    + exists [], d. split; [reflexivity|]. split; [reflexivity|]. split; [constructor|].
      split; [|split; [intros ? ? ? []|reflexivity]]. intros a b E. symmetry in E. apply app_eq_nil in E. destruct E as [-> ->]. cbn. split; [intros z []|lia].
    + destruct (finish_one w fuel t (x :: r) d SH EA) as (t' & a & p & b & E & L & F); [discriminate|].
      cbn [drain]. rewrite F. rewrite E in *. rewrite app_length in LK, LP. cbn [List.length] in LK, LP.
      destruct (IH t' (a ++ b) (entry w (pr_no p, pr_conf p) :: d)) as (es & d' & K1 & K2).
      { eapply early_sub; eauto. } { rewrite app_length. lia. } { rewrite app_length. lia. }
      rewrite K1. eexists _, d'. split; [reflexivity|]. apply proceeds_finish; [rewrite app_length; cbn; lia|exact K2].
Qed.
Lemma proceeds_start par w run n c new d es d' : List.length run < par ->
  proceeds par w (run ++ [(n, c)]) new d es d' -> proceeds par w run ((n, c) :: new) d (Started n c :: es) d'.
Proof.
  intros LE (S1 & F1 & P1 & V1 & D1). split; [cbn; rewrite <- S1; reflexivity|]. split; [|split; [|split]].
  - cbn [finishes flat_map app]. fold (finishes es). rewrite F1, <- app_assoc. reflexivity.
  - intros x y E. destruct x as [|e x].
    + cbn. split; [intros z []|lia].
    + cbn [app] in E. injection E as <- E. destruct (P1 _ _ E) as (I1 & L1). cbn [finishes starts flat_map app]. fold (finishes x). fold (starts x).
      rewrite app_length in L1. cbn [List.length] in *. split; [|lia].
      intros z Hz. apply I1 in Hz. rewrite !in_app_iff in *. cbn in *. tauto.
  - intros n' c' v [E|K]; [discriminate|eauto].
  - rewrite D1. reflexivity.
Qed.
Lemma launch_ok par w fuel : short w -> 0 < par -> forall cs t n runs d, early w fuel t runs -> List.length runs < par ->
  (forall i, n <= i < n + List.length cs -> w_life w i < fuel) ->
  exists es d', launch fuel par w t n cs runs d = Some (es, d') /\
    proceeds par w (tagged runs) (combine (seq n (List.length cs)) cs) d es d'.
Proof.
  intros SH PP. induction cs as [|c cs IH]; intros t n runs d EA LR LF.
  - cbn [launch]. apply drain_ok; auto; lia.
  - cbn [launch List.length seq combine].
    assert (EA' : early w fuel t (runs ++ [mkProc n t c])).
    { apply Forall_app. split; [exact EA|]. constructor; [|constructor]. cbn. split; [lia|]. apply LF. cbn [List.length]. lia. }
    assert (LF' : forall i, S n <= i < S n + List.length cs -> w_life w i < fuel) by (intros i Hi; apply LF; cbn [List.length]; lia).
    assert (TG : tagged (runs ++ [mkProc n t c]) = tagged runs ++ [(n, c)]) by (unfold tagged; rewrite map_app; reflexivity).
    assert (LT : List.length (tagged runs) < par) by (unfold tagged; rewrite map_length; exact LR).
    destruct (List.length (runs ++ [mkProc n t c]) =? par) eqn:Q.
    + destruct (finish_one w fuel t (runs ++ [mkProc n t c]) d SH EA') as (t' & a & p & b & E & L & F); [destruct runs; discriminate|].
      rewrite F. rewrite E in EA', Q, TG. rewrite app_length in Q. cbn [List.length] in Q.
      destruct (IH t' (S n) (a ++ b) (entry w (pr_no p, pr_conf p) :: d)) as (es & d' & K1 & K2); auto.
      { eapply early_sub; eauto. } { rewrite app_length. lia. }
      rewrite K1. eexists _, d'. split; [reflexivity|]. apply proceeds_start; [exact LT|]. rewrite <- TG.
      apply proceeds_finish; [rewrite app_length; cbn; lia|exact K2].
    + destruct (IH t (S n) (runs ++ [mkProc n t c]) d) as (es & d' & K1 & K2); auto.
      { rewrite app_length in *. cbn [List.length] in *. lia. }
      rewrite K1. eexists _, d'. split; [reflexivity|]. apply proceeds_start; [exact LT|]. rewrite <- TG. exact K2.
Qed.
Lemma key_eqb_ok a b : key_eqb a b = true <-> a = b.
Proof.
  destruct a as ((a1, a2), a3), b as ((b1, b2), b3). cbn. rewrite !andb_true_iff, !String.eqb_eq. split; [intros ((-> & ->) & ->); auto|].
  intros E. injection E as -> -> ->. auto.
Qed.
Lemma get_some d x v : get d x = Some v -> In (x, v) d.
Proof.
  induction d as [|(y, u) d IH]; cbn; [discriminate|]. destruct (key_eqb x y) eqn:E; [|auto].
  apply key_eqb_ok in E. intros K. injection K as ->. left. congruence.
Qed.
Lemma get_in d x v : In (x, v) d -> exists u, get d x = Some u.
Proof.
  induction d as [|(y, u) d IH]; cbn; [intros []|]. intros [E|H].
  - injection E as -> ->. replace (key_eqb x x) with true by (symmetry; apply key_eqb_ok; auto). eauto.
  - destruct (key_eqb x y); [eauto|auto].
Qed.
Lemma all_some_ok {A B} (f : A -> option B) (P : A -> B -> Prop) l :
  (forall x, In x l -> exists y, f x = Some y /\ P x y) -> exists r, all_some (map f l) = Some r /\ Forall2 P l r.
Proof.
  induction l as [|x l IH]; intros H; [exists []; split; [reflexivity|constructor]|].
  destruct (H x (or_introl eq_refl)) as (y & E & K). destruct IH as (r & R1 & R2); [intros z Hz; apply H; right; exact Hz|].
  exists (y :: r). cbn. rewrite E, R1. split; [reflexivity|constructor; auto].
Qed.
Lemma seq_combine_nth cs n c : In (n, c) (numbered cs) <-> nth_error cs n = Some c.
Proof.
  unfold numbered. assert (K : forall k, In (n, c) (combine (seq k (List.length cs)) cs) <-> k <= n /\ nth_error cs (n - k) = Some c).
  { induction cs as [|x cs IH]; intros k; cbn [List.length seq combine In].
    - split; [intros []|]. intros (_ & H). destruct (n - k); discriminate.
    - rewrite IH. split.
      + intros [E|(L & H)]; [injection E as -> ->; rewrite Nat.sub_diag; auto|].
        split; [lia|]. replace (n - k) with (S (n - S k)) by lia. exact H.
      + intros (L & H). destruct (Nat.eq_dec k n) as [->|N]; [rewrite Nat.sub_diag in H; injection H as ->; auto|].
        right. split; [lia|]. replace (n - k) with (S (n - S k)) in H by lia. exact H. }
  rewrite K, Nat.sub_0_r. intuition lia.
Qed.

(** C84: whatever order the benchmark runs end in, the script comes to an end.  It has started every
    configuration once, in order; each has finished after its start; never are more than PARALLEL
    running; the verdict is the one on the text of the run.  The table has, for every benchmark and every
    column, the verdict on a run of that benchmark with that configuration. *)
(** Partial: the output of each run fits into a pipe, PARALLEL is not 0, and "full" is among the
    modes. *)
Theorem C84_runs_partial : forall s w, short w -> 0 < st_parallel s -> In "full" (st_modes s) ->
  exists fuel es rs, run_spec fuel s w = Some (es, Some rs) /\
    starts es = numbered (combinations s) /\ Permutation (finishes es) (starts es) /\
    (forall a b, es = a ++ b -> incl (finishes a) (starts a) /\ List.length (starts a) <= List.length (finishes a) + st_parallel s) /\
    (forall n c v, In (Finished n c v) es -> judged (w_out w n ++ w_err w n) v) /\
    Forall2 (fun test r => fst r = test /\ Forall2 (cell s w "full" test) (st_columns s) (snd r)) (st_tests s) rs.
Proof.
  intros s w SH PP FU.
  assert (BD : exists fuel, forall i, i < List.length (combinations s) -> w_life w i < fuel).
  { induction (List.length (combinations s)) as [|k IH]; [exists 0; lia|]. destruct IH as (f & F).
    exists (S (f + w_life w k)). intros i Hi. destruct (Nat.eq_dec i k) as [->|N]; [lia|]. assert (i < k) as Hk by lia. specialize (F i Hk). lia. }
  destruct BD as (fuel & BD).
  destruct (launch_ok (st_parallel s) w fuel SH PP (combinations s) 0 0 [] []) as (es & d & L & (S1 & F1 & P1 & V1 & D1)); [constructor|cbn; lia| |].
  { intros i Hi. apply BD. lia. }
  cbn [tagged map app] in *. rewrite app_nil_r in D1.
  assert (RW : exists rs, rows s "full" d = Some rs /\
    Forall2 (fun test r => fst r = test /\ Forall2 (cell s w "full" test) (st_columns s) (snd r)) (st_tests s) rs).
  { unfold rows. apply all_some_ok. intros test HT. unfold row.
    destruct (all_some_ok (fun '(column, _, _) => get d ("full", column, test)) (cell s w "full" test) (st_columns s)) as (vs & E & K).
    - intros ((column, cfg), module) HC.
      assert (IN : In (mkConfig "full" column cfg test module) (combinations s)).
      { rewrite <- combinations_ok. unfold configurations. apply in_flat_map. exists "full". split; [exact FU|]. apply in_flat_map. exists (column, cfg, module). split; [exact HC|].
        apply in_map_iff. exists test. auto. }
      apply In_nth_error in IN. destruct IN as (n & N).
      destruct (get_in d ("full", column, test) (judge (w_out w n ++ w_err w n))) as (u & U).
      { rewrite D1. apply -> in_rev. apply in_map_iff. exists (n, mkConfig "full" column cfg test module). split; [reflexivity|].
        eapply Permutation_in; [symmetry; exact F1|]. apply seq_combine_nth. exact N. }
      exists u. split; [exact U|]. apply get_some in U. rewrite D1 in U. apply in_rev in U. apply in_map_iff in U.
      destruct U as ((m, c) & E & K). unfold entry in E. cbn [fst snd] in E. injection E as E1 E2 E3 E4.
      exists m, c. split; [apply seq_combine_nth; eapply Permutation_in; [exact F1|exact K]|]. cbn [fst]. subst u. repeat (split; [assumption|]). apply judge_ok.
    - rewrite E. exists (test, vs). auto. }
  destruct RW as (rs & R1 & R2). exists fuel, es, rs. unfold run_spec. rewrite combinations_ok, L, R1. split; [reflexivity|].
  split; [exact S1|]. split; [rewrite S1; exact F1|]. split; [exact P1|]. split; [intros n c v K; rewrite (V1 n c v K); apply judge_ok|exact R2].
Qed.
Print Assumptions C84_runs_partial.
(** Two benchmarks, two columns, two at a time; the second run takes longest. *)
Definition ex_set : settings := mkSettings [("ST", "st", "gcc"); ("MT", "mt", "gcc")] ["600"; "602"] ["full"] 2.
Definition ex_world : world := mkWorld (fun n => nth n [3; 200; 40; 1] 0)
  (fun n => match n with 2 => "Error: no build" | _ => "Success: 1x" end) (fun n => match n with 3 => "Error" | _ => "" end) 64.
Example C84_case : short ex_world /\ 0 < st_parallel ex_set /\ In "full" (st_modes ex_set) /\
  (exists es rs, run_spec 300 ex_set ex_world = Some (es, Some rs) /\ map fst (finishes es) = [0; 2; 3; 1] /\
     rs = [("600", [Pass; Fail]); ("602", [Pass; Fail])]).
Proof.
  split; [|split; [cbn; lia|split; [left; reflexivity|]]].
  - intros n. cbn. destruct n as [|[|[|[|n]]]]; cbn; lia.
  - eexists _, _. split; [vm_compute; reflexivity|]. split; reflexivity.
Qed.
(** A run that ends after one unit of time if its output is read makes the script wait forever; without "full"
    among the modes the script fails when it prints the table; with 0 for PARALLEL two runs are active. *)
Fixpoint xs (n : nat) : string := match n with O => EmptyString | S n => String "x" (xs n) end.
Definition one (modes : list string) (par : nat) : settings := mkSettings [("ST", "st", "gcc")] ["600"] modes par.
Lemma xs_length n : String.length (xs n) = n.
Proof. induction n; cbn; auto. Qed.
Theorem C84_refuted :
  (exists s w, In "full" (st_modes s) /\ 0 < st_parallel s /\ (forall n, w_life w n = 1) /\ forall fuel, run_spec fuel s w = None) /\
  (exists s w, short w /\ 0 < st_parallel s /\ exists fuel es, run_spec fuel s w = Some (es, None)) /\
  (exists s w fuel es r a b, run_spec fuel s w = Some (es, Some r) /\ es = a ++ b /\ st_parallel s < List.length (starts a) - List.length (finishes a)).
Proof.
  split; [|split].
  - exists (one ["full"] 5), (mkWorld (fun _ => 1) (fun _ => xs 9) (fun _ => "") 8). split; [left; reflexivity|]. split; [cbn; lia|].
    split; [reflexivity|]. intros fuel. unfold run_spec. cbn -[wait]. unfold finish.
    assert (K : forall f t, wait f (mkWorld (fun _ => 1) (fun _ => xs 9) (fun _ => "") 8) t [mkProc 0 0 (mkConfig "full" "ST" "st" "600" "gcc")] = None).
    { induction f as [|f IH]; intros t; [reflexivity|]. cbn [wait poll]. unfold ended. cbn [w_out w_err w_pipe pr_no]. rewrite xs_length.
      replace (9 <=? 8) with false by reflexivity. rewrite andb_false_r. cbn [andb]. apply IH. }
    rewrite K. reflexivity.
  - exists (one ["light"] 5), ex_world. split; [apply C84_case|]. split; [cbn; lia|]. exists 10. eexists. vm_compute. reflexivity.
  - exists (mkSettings [("ST", "st", "gcc")] ["600"; "602"] ["full"] 0), ex_world, 300. eexists _, _, [_; _], _.
    split; [vm_compute; reflexivity|]. split; [reflexivity|]. cbn. lia.
Qed.
Print Assumptions C84_refuted.

(** ** Output of objdump *)
(** A line with an instruction; the bytes that did not fit on the line before; any other line. *)
Inductive oline := Code (k : nat) (addr bytes text : string) | More (k : nat) (addr bytes : string) | Other (s : string).
Fixpoint spaces (k : nat) : string := match k with O => EmptyString | S k => String " " (spaces k) end.
Definition NL : string := String nl EmptyString.
Definition TAB : string := String tab EmptyString.
Definition render (x : oline) : string :=
  match x with
  | Code k a b t => String " " (spaces k) ++ a ++ ":" ++ TAB ++ b ++ TAB ++ t
  | More k a b => String " " (spaces k) ++ a ++ ":" ++ TAB ++ b
  | Other s => s
  end%string.
Definition no_blank (s : string) : Prop := forall c, has c s = true -> blank c = false.
Definition word (s : string) : Prop := s <> "" /\ no_blank s.
Definition line_ok (x : oline) : Prop :=
  match x with
  | Code _ a b t => word a /\ has ":" a = false /\ has tab b = false /\ has nl b = false /\ has nl t = false
  | More _ a b => word a /\ has ":" a = false /\ has tab b = false /\ has nl b = false
  | Other s => has nl s = false /\ (has ":" s = false \/ exists c r, s = String c r /\ c <> " "%char /\ c <> ":"%char)
  end.
Definition listing (l : list oline) : string := String.concat NL (map render l).
(** The instructions, and the addresses at the start of lines. *)
Definition insns (l : list oline) : list (string * string) :=
  flat_map (fun x => match x with Code _ a _ t => [(a, t)] | _ => [] end) l.
Definition addrs (l : list oline) : list string :=
  flat_map (fun x => match x with Code _ a _ _ | More _ a _ => [a] | Other _ => [] end) l.
(** [t] is the instruction before the one at [a]. *)
Definition before (l : list oline) (a t : string) : Prop := exists l1 a1 u l2, insns l = l1 ++ (a1, t) :: (a, u) :: l2.

(** *** Strings *)
Lemma sapp_assoc a b c : ((a ++ b) ++ c = a ++ b ++ c)%string.
Proof. induction a; cbn; congruence. Qed.
Lemma sapp_nil a : (a ++ "" = a)%string.
Proof. induction a; cbn; congruence. Qed.
Lemma has_app c a b : has c (a ++ b)%string = has c a || has c b.
Proof. induction a; cbn; auto. rewrite IHa, orb_assoc. reflexivity. Qed.
Lemma slen_app a b : String.length (a ++ b)%string = String.length a + String.length b.
Proof. induction a; cbn; auto. Qed.
Lemma psplit_app c a b : has c a = false -> psplit c (a ++ String c b)%string = a :: psplit c b.
Proof.
  induction a as [|x a IH]; cbn; [rewrite Ascii.eqb_refl; auto|]. rewrite orb_false_iff. intros (E & H). rewrite E, IH; auto.
Qed.
Lemma psplit_one c a : has c a = false -> psplit c a = [a].
Proof. induction a as [|x a IH]; cbn; auto. rewrite orb_false_iff. intros (E & H). rewrite E, IH; auto. Qed.
Lemma psplit_nonempty c s : psplit c s <> [].
Proof. destruct s as [|x s]; cbn; [discriminate|]. destruct (Ascii.eqb x c); [discriminate|]. destruct (psplit c s); discriminate. Qed.
Lemma join_split c s : String.concat (String c EmptyString) (psplit c s) = s.
Proof.
  induction s as [|x s IH]; cbn [psplit]; [reflexivity|]. destruct (Ascii.eqb_spec x c) as [->|N].
  - cbn [String.concat]. destruct (psplit c s) eqn:E; [destruct (psplit_nonempty _ _ E)|]. rewrite IH. reflexivity.
  - destruct (psplit c s) as [|p l] eqn:E; [destruct (psplit_nonempty _ _ E)|]. cbn [String.concat] in *.
    destruct l; cbn [append]; rewrite <- IH; reflexivity.
Qed.
Lemma split_join c l : Forall (fun s => has c s = false) l -> l <> [] -> psplit c (String.concat (String c EmptyString) l) = l.
Proof.
  induction l as [|a l IH]; intros H N; [contradiction|]. inversion H; subst. destruct l as [|b l]; [cbn; apply psplit_one; auto|].
  change (String.concat (String c "") (a :: b :: l)) with (a ++ String c "" ++ String.concat (String c "") (b :: l))%string.
  cbn [append]. rewrite psplit_app; auto. rewrite IH; auto. discriminate.
Qed.
Lemma has_spaces c k : c <> " "%char -> has c (spaces k) = false.
Proof. intros N. induction k; cbn [spaces has]; auto. rewrite IHk, orb_false_r. apply Ascii.eqb_neq. congruence. Qed.
Lemma word_has a c : word a -> blank c = true -> has c a = false.
Proof. intros (_ & H) B. destruct (has c a) eqn:E; auto. apply H in E. congruence. Qed.
Lemma words_go_word : forall a cur, no_blank a -> (cur ++ a)%string <> "" -> words_go cur a = [(cur ++ a)%string].
Proof.
  induction a as [|x a IH]; intros cur NB NE; cbn [words_go].
  - rewrite sapp_nil in *. destruct cur; [contradiction|reflexivity].
  - rewrite (NB x) by (cbn; rewrite Ascii.eqb_refl; reflexivity). rewrite IH.
    + rewrite sapp_assoc. reflexivity.
    + intros c H. apply NB. cbn. rewrite H, orb_true_r. reflexivity.
    + rewrite sapp_assoc. exact NE.
Qed.
Lemma words_padded k a : word a -> words (spaces k ++ a)%string = [a].
Proof. intros (N & NB). induction k; [apply words_go_word; auto|exact IHk]. Qed.
Lemma substring_prefix b c : substring 0 (String.length b) (b ++ c)%string = b.
Proof. induction b; cbn; [destruct c; reflexivity|]. rewrite IHb. reflexivity. Qed.
Lemma slice_mid a b c : slice (String.length a) (String.length a + String.length b) (a ++ b ++ c)%string = b.
Proof.
  unfold slice. replace (String.length a + String.length b - String.length a) with (String.length b) by lia.
  induction a; cbn [append String.length substring]; [apply substring_prefix|exact IHa].
Qed.
Lemma slice_end a b : slice (String.length a) (String.length (a ++ b)) (a ++ b)%string = b.
Proof. rewrite slen_app. rewrite <- (sapp_nil b) at 2. apply slice_mid. Qed.
Lemma prefix_split : forall p h r, prefix p (h ++ r)%string = true ->
  prefix p h = true \/ exists q, p = (h ++ q)%string /\ q <> "" /\ prefix q r = true.
Proof.
  induction p as [|x p IH]; intros h r H; [left; destruct h; reflexivity|].
  destruct h as [|y h]; [right; exists (String x p); cbn in H |- *; split; [auto|split; [discriminate|exact H]]|].
  cbn [append prefix] in *. destruct (ascii_dec x y) as [->|]; [|discriminate].
  destruct (IH _ _ H) as [K|(q & -> & K)]; [left; exact K|right; exists q; auto].
Qed.
Lemma find_first c p h r : has c p = false -> contains (String c p) h = false ->
  find (String c p) (h ++ String c p ++ r)%string = Some (String.length h).
Proof.
  intros NC. induction h as [|x h IH]; intros H.
  - cbn [append]. cbn [find]. replace (prefix (String c p) (String c (p ++ r))) with true; [reflexivity|].
    symmetry. change (String c (p ++ r)) with (String c p ++ r)%string. apply prefix_app. eauto.
  - cbn [contains] in H. apply orb_false_iff in H. destruct H as (H1 & H2). change (String x h ++ String c p ++ r)%string with (String x (h ++ String c p ++ r)).
    cbn [find String.length]. rewrite IH by exact H2.
    destruct (prefix (String c p) (String x (h ++ String c p ++ r))) eqn:E; [|reflexivity].
    change (String x (h ++ String c p ++ r)) with (String x h ++ String c p ++ r)%string in E. apply prefix_split in E.
    destruct E as [E|(q & E & NE & Q)]; [congruence|]. exfalso. cbn [append] in E. injection E as -> E.
    destruct q as [|y q]; [contradiction|]. cbn in Q. destruct (ascii_dec y x) as [->|]; [|discriminate].
    rewrite E, has_app in NC. cbn [has] in NC. rewrite Ascii.eqb_refl, orb_true_r in NC. discriminate.
Qed.

(** *** Reading a listing *)
Definition entries (l : list oline) : dict := flat_map (fun x => match x with Code _ a _ t => [(a, t)] | More _ a _ => [(a, "")] | Other _ => [] end) l.
Definition read_line (st : parse) (x : oline) : parse :=
  match x with
  | Code _ a _ t => mkParse ((a, t) :: ps_reloc st) ((a, ps_last st) :: ps_prev st) t
  | More _ a _ => mkParse ((a, "") :: ps_reloc st) ((a, ps_last st) :: ps_prev st) ""
  | Other _ => st
  end.
Lemma parse_code st k a s r t : word a -> has ":" a = false -> s = ((spaces (S k) ++ a) ++ String ":" r)%string ->
  String.concat TAB (skipn 2 (psplit tab s)) = t ->
  parse_line (Some st) s = Some (mkParse ((a, t) :: ps_reloc st) ((a, ps_last st) :: ps_prev st) t).
Proof.
  intros WA CA E T. cbn [parse_line].
  assert (H : has ":" (spaces (S k) ++ a)%string = false) by (rewrite has_app, has_spaces, CA; [reflexivity|discriminate]).
  assert (HC : has ":" s = true) by (rewrite E, has_app, H; reflexivity).
  rewrite HC. cbn [negb]. assert (P : psplit ":" s = (spaces (S k) ++ a)%string :: psplit ":" r) by (rewrite E; apply psplit_app; exact H).
  rewrite P. cbn [spaces append].
  replace (Ascii.eqb " " " ") with true by reflexivity. cbn [negb].
  change (String " " (spaces k ++ a)) with (spaces (S k) ++ a)%string. rewrite words_padded by exact WA.
  change (String tab EmptyString) with TAB. rewrite T. reflexivity.
Qed.
Lemma parse_read st x : line_ok x -> parse_line (Some st) (render x) = Some (read_line st x).
Proof.
  destruct x as [k a b t|k a b|s]; cbn [line_ok render read_line].
  - intros (WA & CA & TB & _). eapply (parse_code st k a); [exact WA|exact CA|rewrite sapp_assoc; reflexivity|].
    replace (String " " (spaces k) ++ a ++ ":" ++ TAB ++ b ++ TAB ++ t)%string
      with (((spaces (S k) ++ a) ++ ":") ++ String tab (b ++ String tab t))%string by (rewrite !sapp_assoc; reflexivity).
    rewrite !psplit_app; [cbn [skipn]; apply join_split|exact TB|].
    rewrite !has_app, has_spaces, (word_has a tab WA); [reflexivity|reflexivity|discriminate].
  - intros (WA & CA & TB & _). eapply (parse_code st k a); [exact WA|exact CA|rewrite sapp_assoc; reflexivity|].
    replace (String " " (spaces k) ++ a ++ ":" ++ TAB ++ b)%string
      with (((spaces (S k) ++ a) ++ ":") ++ String tab b)%string by (rewrite !sapp_assoc; reflexivity).
    rewrite psplit_app; [rewrite psplit_one by exact TB; reflexivity|].
    rewrite !has_app, has_spaces, (word_has a tab WA); [reflexivity|reflexivity|discriminate].
  - intros (_ & [H|(c & r & -> & N1 & N2)]); cbn [parse_line]; [rewrite H; reflexivity|].
    destruct (has ":" (String c r)) eqn:HC; [|reflexivity]. cbn [negb psplit].
    replace (Ascii.eqb c ":") with false by (symmetry; apply Ascii.eqb_neq; exact N2).
    destruct (psplit ":" r) as [|p l]; replace (Ascii.eqb c " ") with false by (symmetry; apply Ascii.eqb_neq; exact N1); reflexivity.
Qed.
Lemma parse_lines l : forall st, Forall line_ok l -> fold_left parse_line (map render l) (Some st) = Some (fold_left read_line l st).
Proof.
  induction l as [|x l IH]; intros st H; [reflexivity|]. inversion H; subst. cbn [map fold_left]. rewrite parse_read; auto.
Qed.
Lemma render_nl x : line_ok x -> has nl (render x) = false.
Proof.
  destruct x as [k a b t|k a b|s]; cbn [line_ok render].
  - intros (WA & CA & TB & NB & NT). rewrite !has_app. change (String " " (spaces k)) with (spaces (S k)).
    rewrite has_spaces, (word_has a nl WA), NB, NT; [reflexivity|reflexivity|discriminate].
  - intros (WA & CA & TB & NB). rewrite !has_app. change (String " " (spaces k)) with (spaces (S k)).
    rewrite has_spaces, (word_has a nl WA), NB; [reflexivity|reflexivity|discriminate].
  - tauto.
Qed.
Lemma parse_output front l : contains ".dyninstInst" front = false -> Forall line_ok l ->
  parse_objdump (front ++ ".dyninstInst:" ++ NL ++ listing l)%string = Some (fold_left read_line l (mkParse [] [] "")).
Proof.
  intros F H. unfold parse_objdump.
  assert (FD : find ".dyninstInst" (front ++ ".dyninstInst:" ++ NL ++ listing l)%string = Some (String.length front)).
  { exact (find_first "." "dyninstInst" front (":" ++ NL ++ listing l) eq_refl F). }
  rewrite FD. cbn [at_index]. rewrite slice_end.
  change (".dyninstInst:" ++ NL ++ listing l)%string with (".dyninstInst:" ++ String nl (listing l))%string.
  rewrite psplit_app by reflexivity. unfold listing. destruct l as [|x l].
  - reflexivity.
  - rewrite split_join; [|apply Forall_map; eapply Forall_impl; [|exact H]; intros; apply render_nl; auto|discriminate].
    etransitivity; [|apply parse_lines; exact H]. reflexivity.
Qed.
Lemma lookup_in d x v : NoDup (map fst d) -> (lookup d x = Some v <-> In (x, v) d).
Proof.
  induction d as [|(y, u) d IH]; cbn; [intuition discriminate|]. intros N. inversion N as [|? ? N1 N2]; subst.
  destruct (String.eqb_spec x y) as [->|E].
  - split; [intros K; injection K as ->; auto|]. intros [K|K]; [injection K as ->; reflexivity|].
    destruct N1. apply in_map_iff. exists (y, v). auto.
  - rewrite IH by exact N2. split; [auto|]. intros [K|K]; [congruence|auto].
Qed.
Lemma lookup_none d x : lookup d x = None <-> ~ In x (map fst d).
Proof.
  induction d as [|(y, u) d IH]; cbn; [intuition|]. destruct (String.eqb_spec x y) as [->|E]; [intuition discriminate|].
  rewrite IH. intuition.
Qed.
Lemma entries_fst l : map fst (entries l) = addrs l.
Proof. induction l as [|[] l IH]; [reflexivity|apply (f_equal (cons addr)), IH|apply (f_equal (cons addr)), IH|exact IH]. Qed.
Lemma read_reloc l : forall st, ps_reloc (fold_left read_line l st) = rev (entries l) ++ ps_reloc st.
Proof.
  induction l as [|x l IH]; intros st; [reflexivity|]. cbn [fold_left]. rewrite IH. destruct x; cbn; rewrite <- ?app_assoc; reflexivity.
Qed.
Definition unbroken (l : list oline) : Prop := forall k a b, ~ In (More k a b) l.
Lemma unbroken_insns l : unbroken l -> entries l = insns l.
Proof.
  induction l as [|x l IH]; intros U; [reflexivity|]. unfold entries, insns in *. cbn [flat_map]. rewrite IH.
  - destruct x as [| k a b |]; try reflexivity. destruct (U k a b). left. reflexivity.
  - intros k a b K. apply (U k a b). right. exact K.
Qed.
(** The dictionary of what comes before. *)
Fixpoint shift (last : string) (es : dict) : dict := match es with [] => [] | (a, t) :: r => (a, last) :: shift t r end.
Lemma read_prev l : forall st, ps_prev (fold_left read_line l st) = rev (shift (ps_last st) (entries l)) ++ ps_prev st.
Proof.
  induction l as [|x l IH]; intros st; [reflexivity|]. cbn [fold_left]. rewrite IH. destruct x; cbn; rewrite <- ?app_assoc; reflexivity.
Qed.
Lemma shift_fst es : forall last, map fst (shift last es) = map fst es.
Proof. induction es as [|(a, t) es IH]; intros last; cbn; [reflexivity|]. rewrite IH. reflexivity. Qed.
Lemma shift_in l1 : forall last a1 t a u l2, In (a, t) (shift last (l1 ++ (a1, t) :: (a, u) :: l2)).
Proof. induction l1 as [|(x, y) l1 IH]; intros; cbn; [auto|right; apply IH]. Qed.

(** ** C85 *)
(** A file with one return address on each line. *)
Definition blanks (s : string) : Prop := forall c, has c s = true -> blank c = true /\ c <> nl.
Definition plain_address (a : string) : Prop := word a /\ prefix "0x" a = false.
Inductive address_line (a : string) : string -> Prop :=
| al p q : blanks p -> blanks q -> address_line a (p ++ a ++ q)
| al_0x p q : blanks p -> blanks q -> address_line a (p ++ "0x" ++ a ++ q).
Definition trace_file (ras : list string) (file : string) : Prop :=
  exists ls, Forall2 (fun a l => plain_address a /\ address_line a l) ras ls /\ file = String.concat "" (map (fun l => l ++ NL)%string ls).

Lemma srev_app a b : srev (a ++ b)%string = (srev b ++ srev a)%string.
Proof. induction a; cbn; [rewrite sapp_nil; reflexivity|]. rewrite IHa, sapp_assoc. reflexivity. Qed.
Lemma srev_srev a : srev (srev a) = a.
Proof. induction a; cbn; auto. rewrite srev_app. cbn. congruence. Qed.
Lemma has_srev c a : has c (srev a) = has c a.
Proof. induction a; cbn; auto. rewrite has_app, IHa. cbn. rewrite orb_false_r, orb_comm. reflexivity. Qed.
Lemma lstrip_blanks p s : blanks p -> lstrip (p ++ s)%string = lstrip s.
Proof.
  induction p as [|x p IH]; intros B; [reflexivity|]. cbn [append lstrip]. destruct (B x) as (BX & _); [cbn; rewrite Ascii.eqb_refl; reflexivity|].
  rewrite BX. apply IH. intros c H. apply B. cbn. rewrite H, orb_true_r. reflexivity.
Qed.
Lemma lstrip_word a s : word a -> lstrip (a ++ s)%string = (a ++ s)%string.
Proof.
  intros (N & NB). destruct a as [|x a]; [contradiction|]. cbn [append lstrip]. rewrite (NB x); [reflexivity|]. cbn. rewrite Ascii.eqb_refl. reflexivity.
Qed.
Lemma word_srev a : word a -> word (srev a).
Proof.
  intros (N & NB). split; [|intros c H; rewrite has_srev in H; auto]. intros E. apply N. rewrite <- (srev_srev a), E. reflexivity.
Qed.
Lemma strip_ok p a q : blanks p -> blanks q -> word a -> strip (p ++ a ++ q)%string = a.
Proof.
  intros P Q WA. unfold strip. rewrite lstrip_blanks, lstrip_word by auto. rewrite srev_app, lstrip_blanks.
  - rewrite <- (sapp_nil (srev a)), lstrip_word by (apply word_srev; exact WA). rewrite sapp_nil. apply srev_srev.
  - intros c H. rewrite has_srev in H. auto.
Qed.
Lemma address_ok a l : plain_address a -> address_line a l -> address l = a.
Proof.
  intros (WA & X) AL. destruct AL as [p q P Q|p q P Q]; unfold address.
  - rewrite strip_ok by auto. destruct a as [|c a]; [reflexivity|].
    destruct (ascii_dec c "0") as [->|N]; [|destruct c as [[] [] [] [] [] [] [] []]; try reflexivity; destruct N; reflexivity].
    destruct a as [|c a]; [reflexivity|].
    destruct (ascii_dec c "x") as [->|N]; [|destruct c as [[] [] [] [] [] [] [] []]; try reflexivity; destruct N; reflexivity].
    destruct a; discriminate X.
  - replace (p ++ "0x" ++ a ++ q)%string with (p ++ ("0x" ++ a) ++ q)%string by (rewrite sapp_assoc; reflexivity).
    rewrite strip_ok; auto. split; [discriminate|]. intros c H. rewrite has_app in H. apply orb_true_iff in H. destruct H as [H|H]; [|apply WA; exact H].
    cbn [has] in H. rewrite orb_false_r in H. apply orb_true_iff in H. destruct H as [H|H]; apply Ascii.eqb_eq in H; subst; reflexivity.
Qed.
Lemma address_nl a l : plain_address a -> address_line a l -> has nl l = false.
Proof.
  intros (WA & _) AL.
  assert (B : forall s, blanks s -> has nl s = false).
  { intros s H. destruct (has nl s) eqn:E; [|reflexivity]. destruct (H _ E) as (_ & K). congruence. }
  destruct AL as [p q P Q|p q P Q]; rewrite !has_app, (word_has a nl WA), (B p P), (B q Q); reflexivity.
Qed.
Lemma concat_cons x l : String.concat "" (x :: l) = (x ++ String.concat "" l)%string.
Proof. cbn. destruct l; [cbn; rewrite sapp_nil|]; reflexivity. Qed.
Lemma trace_ok ras file : trace_file ras file -> return_addresses file = ras.
Proof.
  intros (ls & H & ->). unfold return_addresses. induction H as [|a l ras ls (PA & AL) H IH]; [reflexivity|].
  cbn [map]. rewrite concat_cons, sapp_assoc. change (NL ++ ?x)%string with (String nl x). rewrite psplit_app by (eapply address_nl; eauto).
  destruct (psplit nl _) eqn:E in |- *; [destruct (psplit_nonempty _ _ E)|]. rewrite E in IH. cbn [file_lines map] in *.
  rewrite IH, (address_ok a l) by auto. reflexivity.
Qed.

(** C85: the script prints every return address of the file with the instruction before it in the relocated
    code, and says so if the address is not there. *)
(** Partial: no instruction takes more than one line, and the file ends with a newline. *)
Theorem C85_stack_partial : forall front l ras file, contains ".dyninstInst" front = false -> Forall line_ok l -> NoDup (addrs l) ->
  unbroken l -> trace_file ras file ->
  forall cs st, check_inst (front ++ ".dyninstInst:" ++ NL ++ listing l)%string (Some file) = Some (cs, st) ->
  exists out, st = Some out /\
    Forall2 (fun ra x => fst x = ra /\ (forall t, before l ra t -> snd x = Some t) /\ (~ In ra (addrs l) -> snd x = None)) ras out.
Proof.
  intros front l ras file F H ND U TF cs st E. unfold check_inst in E. rewrite parse_output in E by auto.
  destruct (check_boards _ _); [|discriminate]. injection E as <- <-. eexists. split; [reflexivity|].
  rewrite read_prev, (trace_ok _ _ TF). cbn [ps_prev ps_last]. rewrite app_nil_r.
  assert (N : NoDup (map fst (rev (shift "" (entries l))))) by (rewrite map_rev, shift_fst, entries_fst; apply NoDup_rev; exact ND).
  clear - ND U N. unfold call_stack. induction ras as [|ra ras IH]; [constructor|]. cbn [map]. constructor; [|exact IH].
  cbn [fst snd]. split; [reflexivity|]. split.
  - intros t (l1 & a1 & u & l2 & B). apply lookup_in; [exact N|]. apply -> in_rev. rewrite unbroken_insns, B by exact U. apply shift_in.
  - intros K. apply lookup_none. rewrite map_rev, <- in_rev, shift_fst, entries_fst. exact K.
Qed.
Print Assumptions C85_stack_partial.
(** Worked case: a library call and a call in relocated code; the last return address is in neither. *)
Definition front1 : string := ("Disassembly of section .text:" ++ NL ++ NL ++ "0000000000400000 <f>:" ++ NL ++
  "  400000:" ++ TAB ++ "e9 fb ff 2f 00" ++ TAB ++ "jmpq   700000 <f_dyninst>" ++ NL ++ NL ++ "Disassembly of section .fini:" ++ NL ++ "Disassembly of section ")%string.
Definition list1 : list oline :=
  [Other ""; Other "0000000000700000 <f_dyninst>:"; Code 1 "700000" "55" "push   %rbp"; Code 1 "700001" "48 89 e5" ("mov    %rsp,%rbp" ++ TAB ++ "# x");
   Code 1 "700004" "e8 00 00 00 00" "callq  700009 <g>"; Code 1 "700009" "c3" "retq   "].
Definition trace1 : string := ("0x700009" ++ NL ++ "  700004 " ++ NL ++ "400123" ++ NL)%string.
Lemma no_blank_dec s : forallb (fun c => negb (blank c)) (list_ascii_of_string s) = true -> no_blank s.
Proof.
  induction s as [|x s IH]; cbn [list_ascii_of_string forallb]; [intros _ c K; discriminate K|]. intros H c K. apply andb_true_iff in H. destruct H as (H1 & H2).
  cbn [has] in K. apply orb_true_iff in K. destruct K as [K|K]; [|exact (IH H2 c K)]. apply Ascii.eqb_eq in K. subst. destruct (blank c); [discriminate H1|reflexivity].
Qed.
Example C85_case : contains ".dyninstInst" front1 = false /\ Forall line_ok list1 /\ NoDup (addrs list1) /\ unbroken list1 /\
  trace_file ["700009"; "700004"; "400123"] trace1 /\
  check_inst (front1 ++ ".dyninstInst:" ++ NL ++ listing list1)%string (Some trace1) =
    Some ([], Some [("700009", Some "callq  700009 <g>"); ("700004", Some ("mov    %rsp,%rbp" ++ TAB ++ "# x")%string); ("400123", None)]) /\
  before list1 "700009" "callq  700009 <g>".
Proof.
  split; [vm_compute; reflexivity|]. split.
  { unfold list1. repeat (apply Forall_cons || apply Forall_nil); cbn [line_ok];
      try (repeat split; try reflexivity; try discriminate; apply no_blank_dec; reflexivity).
    - split; [reflexivity|]. left. reflexivity.
    - split; [reflexivity|]. right. exists "0"%char. eexists. repeat split; discriminate. }
  split; [repeat constructor; cbn; intuition discriminate|].
  split; [intros k a b K; repeat (destruct K as [K|K]; [discriminate|]); destruct K|].
  split.
  { exists ["0x700009"; "  700004 "; "400123"]. split; [|reflexivity].
    assert (W : forall s, s <> "" -> forallb (fun c => negb (blank c)) (list_ascii_of_string s) = true -> prefix "0x" s = false -> plain_address s)
      by (intros s N B P; split; [split; [exact N|apply no_blank_dec; exact B]|exact P]).
    assert (B0 : blanks "") by (intros c K; discriminate K).
    assert (BS : forall k, blanks (spaces k)) by (induction k as [|k IH]; [exact B0|]; intros c K; cbn [has spaces] in K; apply orb_true_iff in K;
      destruct K as [K|K]; [apply Ascii.eqb_eq in K; subst; split; [reflexivity|discriminate]|apply IH; exact K]).
    constructor; [split; [apply W; [discriminate|reflexivity|reflexivity]|]|
      constructor; [split; [apply W; [discriminate|reflexivity|reflexivity]|]|
      constructor; [split; [apply W; [discriminate|reflexivity|reflexivity]|]|constructor]]].
    - exact (al_0x "700009" "" "" B0 B0).
    - exact (al "700004" (spaces 2) (spaces 1) (BS 2) (BS 1)).
    - exact (al "400123" "" "" B0 B0). }
  split; [vm_compute; reflexivity|].
  exists [("700000", "push   %rbp"); ("700001", ("mov    %rsp,%rbp" ++ TAB ++ "# x")%string)], "700004", "retq   ", []. reflexivity.
Qed.
(** Refuted without the two: a call of eight bytes takes two lines, and nothing is printed for its return
    address; and a file without a newline at its end loses the last character of its last address. *)
Definition list2 : list oline :=
  [Other ""; Code 1 "700000" "55" "push   %rbp"; Code 1 "700001" "41 ff 94 c7 00 10 00" "callq  *0x1000(%r15,%rax,8)"; More 1 "700008" "00 "; Code 1 "700009" "c3" "retq   "].
Theorem C85_stack_refuted :
  (exists l ras file, contains ".dyninstInst" front1 = false /\ Forall line_ok l /\ NoDup (addrs l) /\ trace_file ras file /\
     ras = ["700009"] /\ before l "700009" "callq  *0x1000(%r15,%rax,8)" /\
     check_inst (front1 ++ ".dyninstInst:" ++ NL ++ listing l)%string (Some file) = Some ([], Some [("700009", Some "")])) /\
  (exists l, Forall line_ok l /\ NoDup (addrs l) /\ unbroken l /\ before l "700009" "callq  700009 <g>" /\
     check_inst (front1 ++ ".dyninstInst:" ++ NL ++ listing l)%string (Some "700009") = Some ([], Some [("70000", None)])).
Proof.
  split.
  - exists list2, ["700009"], ("700009" ++ NL)%string. split; [vm_compute; reflexivity|]. split.
    { unfold list2. repeat (apply Forall_cons || apply Forall_nil); cbn [line_ok];
        try (repeat split; try reflexivity; try discriminate; apply no_blank_dec; reflexivity).
      split; [reflexivity|]. left. reflexivity. }
    split; [repeat constructor; cbn; intuition discriminate|]. split.
    { exists ["700009"]. split; [|reflexivity]. constructor; [|constructor].
      split; [split; [split; [discriminate|apply no_blank_dec; reflexivity]|reflexivity]|].
      apply (al "700009" "" ""); intros c K; discriminate K. }
    split; [reflexivity|]. split; [exists [("700000", "push   %rbp")], "700001", "retq   ", []; reflexivity|vm_compute; reflexivity].
  - destruct C85_case as (_ & A & B & C & _ & _ & D). exists list1. repeat (split; [assumption|]). vm_compute. reflexivity.
Qed.
Print Assumptions C85_stack_refuted.

(** ** C86 *)
(** A function of the section .text: its line, its first instruction, the other lines. *)
Record fn := mkFn { fn_line : string; fn_k : nat; fn_addr : string; fn_bytes : string; fn_text : string; fn_rest : list oline }.
Definition fn_lines (f : fn) : list oline := Other "" :: Other (fn_line f) :: Code (fn_k f) (fn_addr f) (fn_bytes f) (fn_text f) :: fn_rest f.
(** It is a line with a colon at its end; the other lines have none there; instructions have an operation,
    and jmpq has an operand. *)
Definition fn_ok (f : fn) : Prop :=
  Forall line_ok (fn_lines f) /\ (exists s, fn_line f = s ++ ":")%string /\
  has tab (fn_text f) = false /\ (exists op args, words (fn_text f) = op :: args /\ (op = "jmpq" -> args <> [])) /\
  Forall (fun x => forall s, render x <> s ++ ":")%string (Code (fn_k f) (fn_addr f) (fn_bytes f) (fn_text f) :: fn_rest f).
Definition text_part (fns : list fn) : string := (":" ++ NL ++ listing (flat_map fn_lines fns ++ [Other ""; Other "Disassembly of section "]))%string.
Definition contains_push (s : string) : Prop := exists p q, s = (p ++ "push" ++ q)%string.
(** The function starts with a jump to a push in relocated code. *)
Definition redirected (dyn : list oline) (f : fn) : Prop :=
  exists target args t, words (fn_text f) = "jmpq" :: target :: args /\ In (target, t) (insns dyn) /\ contains_push t.

Lemma last_of_colon s : last_of (s ++ ":")%string = Some ":"%char.
Proof. induction s as [|x s IH]; [reflexivity|]. cbn [append last_of]. rewrite IH. destruct s; reflexivity. Qed.
Lemma last_of_app s : forall c, last_of s = Some c -> exists r, s = (r ++ String c "")%string.
Proof.
  induction s as [|x s IH]; intros c H; [discriminate|]. destruct s as [|y s]; [injection H as ->; exists ""; reflexivity|].
  destruct (IH c H) as (r & E). exists (String x r). cbn. rewrite <- E. reflexivity.
Qed.
Lemma boards_skip reloc x ls : (forall s, x <> s ++ ":")%string -> boards reloc (x :: ls) = boards reloc ls.
Proof.
  intros H. cbn [boards]. destruct (last_of x) as [c|] eqn:E; [|reflexivity]. destruct (Ascii.eqb_spec c ":") as [->|]; [|reflexivity].
  apply last_of_app in E. destruct E as (r & E). destruct (H r E).
Qed.
Lemma boards_skips reloc l ls : Forall (fun x => forall s, render x <> s ++ ":")%string l -> boards reloc (map render l ++ ls) = boards reloc ls.
Proof. induction 1; [reflexivity|]. cbn [map app]. rewrite boards_skip by assumption. assumption. Qed.
Lemma contains_push_ok s : contains "push" s = true <-> contains_push s.
Proof. apply contains_iff. Qed.

Lemma boards_fn reloc f ls : fn_ok f ->
  boards reloc (map render (fn_lines f) ++ ls) =
  match words (fn_text f) with
  | [] => None
  | op :: args =>
      let say k := match boards reloc ls with Some l => Some ((k, fn_line f) :: l) | None => None end in
      if negb (String.eqb op "jmpq") then say NotJmpq
      else match args with
           | [] => None
           | target :: _ => match lookup reloc target with
               | None => say NoTarget
               | Some insn => if contains "push" insn then boards reloc ls else say NotPush
               end
           end
  end.
Proof.
  intros (LO & (s & HL) & TT & (op & args & W & _) & NC). unfold fn_lines. set (first := Code (fn_k f) (fn_addr f) (fn_bytes f) (fn_text f)) in *.
  change (map render (Other "" :: Other (fn_line f) :: first :: fn_rest f) ++ ls)
    with ("" :: fn_line f :: render first :: map render (fn_rest f) ++ ls).
  assert (B : boards reloc (render first :: map render (fn_rest f) ++ ls) = boards reloc ls) by (apply (boards_skips reloc (first :: fn_rest f)); exact NC).
  assert (P : nth_error (psplit tab (render first)) 2 = Some (fn_text f)).
  { unfold first. cbn [render].
    assert (K : line_ok first) by (unfold fn_lines in LO; inversion LO as [|? ? _ L1]; subst; inversion L1 as [|? ? _ L2]; subst; inversion L2; subst; assumption).
    destruct K as (WA & CA & TB & _).
    replace (String " " (spaces (fn_k f)) ++ fn_addr f ++ ":" ++ TAB ++ fn_bytes f ++ TAB ++ fn_text f)%string
      with (((spaces (S (fn_k f)) ++ fn_addr f) ++ ":") ++ String tab (fn_bytes f ++ String tab (fn_text f)))%string by (rewrite !sapp_assoc; reflexivity).
    rewrite !psplit_app; [rewrite psplit_one by exact TT; reflexivity|exact TB|].
    rewrite !has_app, has_spaces, (word_has (fn_addr f) tab WA); [reflexivity|reflexivity|discriminate]. }
  rewrite boards_skip by (intros [|? ?]; discriminate). cbn [boards]. rewrite HL, last_of_colon at 1.
  replace (Ascii.eqb ":" ":") with true by reflexivity. fold (boards reloc). rewrite P, W.
  cbn [boards] in B. rewrite B. rewrite HL. reflexivity.
Qed.
Lemma boards_fns reloc fns ls : Forall fn_ok fns -> boards reloc ls = Some [] ->
  exists cs, boards reloc (map render (flat_map fn_lines fns) ++ ls) = Some cs /\
    exists sel, map snd cs = map fn_line (filter sel fns) /\
      forall f, sel f = false <-> exists target args t, words (fn_text f) = "jmpq" :: target :: args /\ lookup reloc target = Some t /\ contains "push" t = true.
Proof.
  intros H E.
  pose (sel := fun f => match words (fn_text f) with
    | op :: target :: _ => negb (String.eqb op "jmpq" && match lookup reloc target with Some t => contains "push" t | None => false end)
    | _ => true end).
  assert (S : forall f, sel f = false <-> exists target args t, words (fn_text f) = "jmpq" :: target :: args /\ lookup reloc target = Some t /\ contains "push" t = true).
  { intros f. unfold sel. destruct (words (fn_text f)) as [|op [|target args]].
    - split; [discriminate|]. intros (? & ? & ? & K & _). discriminate.
    - split; [discriminate|]. intros (? & ? & ? & K & _). discriminate.
    - rewrite negb_false_iff, andb_true_iff. split.
      + intros (A & B). apply String.eqb_eq in A. subst. destruct (lookup reloc target) as [t|] eqn:L; [|discriminate]. exists target, args, t. auto.
      + intros (x & y & t & K & L & P). injection K as -> -> ->. rewrite L. split; [reflexivity|exact P]. }
  cut (exists cs, boards reloc (map render (flat_map fn_lines fns) ++ ls) = Some cs /\ map snd cs = map fn_line (filter sel fns)).
  { intros (cs & A & B). exists cs. split; [exact A|]. exists sel. auto. }
  clear S. induction H as [|f fns F H IH]; [exists []; auto|]. destruct IH as (cs & A & B).
  cbn [flat_map]. rewrite map_app, <- app_assoc, boards_fn by exact F. rewrite A.
  destruct F as (_ & _ & _ & (op & args & W & J) & _). rewrite W. cbn zeta. cbn [filter]. unfold sel at 1. rewrite W.
  destruct (String.eqb_spec op "jmpq") as [->|N]; cbn [negb andb].
  - destruct args as [|target args]; [destruct (J eq_refl eq_refl)|]. destruct (lookup reloc target) as [t|].
    + destruct (contains "push" t); cbn [negb]; [exists cs; auto|]. eexists. split; [reflexivity|]. cbn. rewrite B. reflexivity.
    + eexists. split; [reflexivity|]. cbn. rewrite B. reflexivity.
  - eexists. split; [reflexivity|]. destruct args; cbn; rewrite B; reflexivity.
Qed.

(** C86: the script reports, in order, exactly the functions of the section .text that do not start with a
    jump to a push instruction in relocated code. *)
(** Partial: a push instruction is one whose text has the letters "push" anywhere. *)
Theorem C86_boards_partial : forall h fns mid dyn trace,
  contains ".text" h = false -> contains ".fini" (h ++ ".text" ++ text_part fns) = false ->
  contains ".dyninstInst" (h ++ ".text" ++ text_part fns ++ ".fini" ++ mid) = false ->
  Forall fn_ok fns -> Forall line_ok dyn -> NoDup (addrs dyn) ->
  exists cs st, check_inst (h ++ ".text" ++ text_part fns ++ ".fini" ++ mid ++ ".dyninstInst:" ++ NL ++ listing dyn)%string trace = Some (cs, st) /\
    exists sel, map snd cs = map fn_line (filter sel fns) /\ forall f, sel f = false <-> redirected dyn f.
Proof.
  intros h fns mid dyn trace H1 H2 H3 FO LO ND. unfold check_inst.
  replace (h ++ ".text" ++ text_part fns ++ ".fini" ++ mid ++ ".dyninstInst:" ++ NL ++ listing dyn)%string
    with ((h ++ ".text" ++ text_part fns ++ ".fini" ++ mid) ++ ".dyninstInst:" ++ NL ++ listing dyn)%string by (rewrite !sapp_assoc; reflexivity).
  rewrite parse_output by auto.
  assert (R : ps_reloc (fold_left read_line dyn (mkParse [] [] "")) = rev (entries dyn)) by (rewrite read_reloc, app_nil_r; reflexivity).
  rewrite R. unfold check_boards.
  set (rest := (mid ++ ".dyninstInst:" ++ NL ++ listing dyn)%string).
  replace ((h ++ ".text" ++ text_part fns ++ ".fini" ++ mid) ++ ".dyninstInst:" ++ NL ++ listing dyn)%string
    with (h ++ (".text" ++ text_part fns) ++ ".fini" ++ rest)%string by (unfold rest; rewrite !sapp_assoc; reflexivity).
  assert (F1 : find ".text" (h ++ (".text" ++ text_part fns) ++ ".fini" ++ rest)%string = Some (String.length h)).
  { rewrite sapp_assoc. exact (find_first "." "text" h _ eq_refl H1). }
  assert (F2 : find ".fini" (h ++ (".text" ++ text_part fns) ++ ".fini" ++ rest)%string = Some (String.length h + String.length (".text" ++ text_part fns)%string)).
  { rewrite <- slen_app, <- sapp_assoc. exact (find_first "." "fini" _ rest eq_refl H2). }
  rewrite F1, F2. cbn [at_index]. rewrite slice_mid.
  set (L := flat_map fn_lines fns ++ [Other ""; Other "Disassembly of section "]).
  assert (LL : Forall line_ok L).
  { apply Forall_app. split.
    - rewrite Forall_forall. intros x K. apply in_flat_map in K. destruct K as (f & K1 & K2). rewrite Forall_forall in FO.
      destruct (FO f K1) as (K & _). rewrite Forall_forall in K. auto.
    - repeat constructor; left; reflexivity. }
  assert (P : psplit nl (".text" ++ text_part fns)%string = ".text:" :: map render L).
  { change (".text" ++ text_part fns)%string with (".text:" ++ String nl (listing L))%string. rewrite psplit_app by reflexivity. f_equal.
    apply split_join; [apply Forall_map; eapply Forall_impl; [|exact LL]; intros; apply render_nl; auto|]. unfold L. destruct (flat_map fn_lines fns); discriminate. }
  rewrite P.
  assert (B0 : boards (rev (entries dyn)) (".text:" :: map render L) = boards (rev (entries dyn)) (map render L)).
  { unfold L. destruct fns as [|f fns]; reflexivity. }
  rewrite B0. unfold L. rewrite map_app.
  destruct (boards_fns (rev (entries dyn)) fns (map render [Other ""; Other "Disassembly of section "]) FO eq_refl) as (cs & E & sel & S1 & S2).
  rewrite E. eexists _, _. split; [reflexivity|]. exists sel. split; [exact S1|]. intros f. rewrite S2. unfold redirected.
  assert (LK : forall x t, contains "push" t = true -> (lookup (rev (entries dyn)) x = Some t <-> In (x, t) (insns dyn))).
  { intros x t PU. rewrite lookup_in by (rewrite map_rev, entries_fst; apply NoDup_rev; exact ND). rewrite <- in_rev. clear - PU.
    unfold entries, insns. rewrite !in_flat_map. split; intros (y & K1 & K2); exists y; (split; [exact K1|]); destruct y; cbn in *; auto.
    destruct K2 as [K2|[]]. injection K2 as _ <-. discriminate PU. }
  split; intros (target & args & t & A & B & C); exists target, args, t.
  - split; [exact A|]. split; [apply LK; auto|apply contains_push_ok; exact C].
  - apply contains_push_ok in C. split; [exact A|]. split; [apply LK; auto|exact C].
Qed.
Print Assumptions C86_boards_partial.
(** Worked case: one function that is redirected, one with its first instruction in place, one that jumps to
    code without a push. *)
Definition fns1 : list fn :=
  [mkFn "0000000000400000 <f>:" 1 "400000" "e9 fb ff 2f 00" "jmpq   700000 <f_dyninst>" [Code 1 "400005" "c3" "retq   "];
   mkFn "0000000000400010 <g>:" 1 "400010" "55" "push   %rbp" [];
   mkFn "0000000000400020 <h>:" 1 "400020" "e9 e4 ff 2f 00" "jmpq   700009 <h_dyninst>" [More 1 "400025" "00 "; Other "..."]].
Lemma no_colon x : (forall c, last_of (render x) = Some c -> c <> ":"%char) -> forall s, render x <> (s ++ ":")%string.
Proof. intros H s E. rewrite E in H. apply (H ":"%char (last_of_colon s)). reflexivity. Qed.
Lemma fns1_ok : Forall fn_ok fns1.
Proof.
  unfold fns1. repeat (apply Forall_cons || apply Forall_nil); (split; [|split; [|split; [reflexivity|split]]]);
    try (repeat (apply Forall_cons || apply Forall_nil); apply no_colon; intros c K; vm_compute in K; injection K as <-; discriminate);
    try (eexists _, _; split; [vm_compute; reflexivity|intros _ K; discriminate K]);
    try (eexists _, _; split; [vm_compute; reflexivity|intros K; discriminate K]).
  all: try (unfold fn_lines; cbn [fn_line fn_k fn_addr fn_bytes fn_text fn_rest]; repeat (apply Forall_cons || apply Forall_nil); cbn [line_ok];
    try (repeat split; try reflexivity; try discriminate; apply no_blank_dec; reflexivity);
    (split; [reflexivity|]); first [left; reflexivity|right; eexists _, _; split; [reflexivity|split; discriminate]]).
  - exists "0000000000400000 <f>". reflexivity.
  - exists "0000000000400010 <g>". reflexivity.
  - exists "0000000000400020 <h>". reflexivity.
Qed.
Example C86_case : contains ".text" "Disassembly of section " = false /\
  contains ".fini" ("Disassembly of section " ++ ".text" ++ text_part fns1) = false /\
  contains ".dyninstInst" ("Disassembly of section " ++ ".text" ++ text_part fns1 ++ ".fini" ++ (":" ++ NL ++ "Disassembly of section ")) = false /\
  Forall fn_ok fns1 /\ Forall line_ok list1 /\ NoDup (addrs list1) /\
  check_inst ("Disassembly of section " ++ ".text" ++ text_part fns1 ++ ".fini" ++ (":" ++ NL ++ "Disassembly of section ") ++ ".dyninstInst:" ++ NL ++ listing list1) None =
    Some ([(NotJmpq, "0000000000400010 <g>:"); (NotPush, "0000000000400020 <h>:")], None).
Proof.
  destruct C85_case as (_ & A & B & _). split; [reflexivity|]. split; [vm_compute; reflexivity|]. split; [vm_compute; reflexivity|].
  split; [exact fns1_ok|]. split; [exact A|]. split; [exact B|]. vm_compute. reflexivity.
Qed.
(** Refuted for push instructions: a function that jumps to a call of a function named push_back is not reported. *)
Definition list3 : list oline := [Other ""; Code 1 "700000" "e8 00 00 00 00" "callq  400100 <push_back>"; Code 1 "700009" "c3" "retq   "].
Theorem C86_boards_refuted : exists h fns mid dyn cs, Forall fn_ok fns /\ Forall line_ok dyn /\ NoDup (addrs dyn) /\
  check_inst (h ++ ".text" ++ text_part fns ++ ".fini" ++ mid ++ ".dyninstInst:" ++ NL ++ listing dyn)%string None = Some (cs, None) /\
  (exists f, In f fns /\ ~ In (fn_line f) (map snd cs) /\
    forall target args t, words (fn_text f) = "jmpq" :: target :: args -> In (target, t) (insns dyn) -> hd "" (words t) <> "push").
Proof.
  exists "Disassembly of section ", fns1, (":" ++ NL ++ "Disassembly of section ")%string, list3.
  eexists. split; [exact fns1_ok|]. split.
  { unfold list3. repeat (apply Forall_cons || apply Forall_nil); cbn [line_ok];
      try (repeat split; try reflexivity; try discriminate; apply no_blank_dec; reflexivity).
    split; [reflexivity|]. left. reflexivity. }
  split; [repeat constructor; cbn; intuition discriminate|]. split; [vm_compute; reflexivity|].
  eexists. split; [left; reflexivity|]. split; [cbn; intuition discriminate|].
  intros target args t W I. vm_compute in W. injection W as <- <-. cbn in I. destruct I as [I|[I|[]]]; [|discriminate]. injection I as <-. vm_compute. discriminate.
Qed.
Print Assumptions C86_boards_refuted.
