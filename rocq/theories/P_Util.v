(** * P_Util: statistics (C49) and string helpers (C50) *)
From Coq Require Import ZArith Bool Ascii String Lia Arith List.
From Verif Require Import Machine Jit Dfs Binary ExCode Util.
Import ListNotations.
Open Scope nat_scope.

(** ** C49 *)
(** [l] lists exactly the functions the last pass calls safe, each once. *)
Definition lists_safe (co : code) (m : sums) (l : list nat) : Prop :=
  NoDup l /\ forall f, In f l <-> In f (co_funcs co) /\ s_writes (m f) = false.

Lemma sset_in x y l : In y (sset_insert x l) <-> y = x \/ In y l.
Proof.
  unfold sset_insert. destruct (in_dec string_dec x l); cbn; intuition (subst; auto).
Qed.
Lemma sset_nodup x l : NoDup l -> NoDup (sset_insert x l).
Proof. intros H. unfold sset_insert. destruct (in_dec string_dec x l); auto. constructor; auto. Qed.
Lemma safe_fns_in co m fs acc n :
  In n (fold_left (fun acc f => if s_writes (m f) then acc else sset_insert (f_name (co_fun co f)) acc) fs acc) <->
  In n acc \/ exists f, In f fs /\ s_writes (m f) = false /\ f_name (co_fun co f) = n.
Proof.
  revert acc. induction fs as [|g fs IH]; intros acc; cbn.
  - split; auto. intros [H|(f & [] & _)]; auto.
  - rewrite IH. destruct (s_writes (m g)) eqn:W.
    + split.
      * intros [H|(f & F1 & F2 & F3)]; [auto|right; exists f; auto].
      * intros [H|(f & [->|F1] & F2 & F3)]; [auto|congruence|right; exists f; auto].
    + rewrite sset_in. split.
      * intros [[->|H]|(f & F1 & F2 & F3)]; [right; exists g; auto|auto|right; exists f; auto].
      * intros [H|(f & [->|F1] & F2 & F3)]; [auto|left; left; auto|right; exists f; auto].
Qed.
Lemma safe_fns_nodup co m fs acc : NoDup acc ->
  NoDup (fold_left (fun acc f => if s_writes (m f) then acc else sset_insert (f_name (co_fun co f)) acc) fs acc).
Proof.
  revert acc. induction fs as [|g fs IH]; intros acc H; cbn; auto. apply IH. destruct (s_writes (m g)); auto.
  apply sset_nodup; auto.
Qed.
Lemma nodup_map_in {A B} (f : A -> B) l :
  NoDup l -> (forall x y, In x l -> In y l -> f x = f y -> x = y) -> NoDup (map f l).
Proof.
  induction 1 as [|x l N H IH]; intros I; cbn; constructor.
  - rewrite in_map_iff. intros (y & E & Y). apply N. rewrite <- (I y x); cbn; auto.
  - apply IH. intros; apply I; cbn; auto.
Qed.
Lemma safe_names co m l : lists_safe co m l ->
  forall n, In n (safe_fns co m) <-> In n (map (fun f => f_name (co_fun co f)) l).
Proof.
  intros [_ H] n. unfold safe_fns. rewrite safe_fns_in, in_map_iff. split.
  - intros [[]|(f & F1 & F2 & F3)]. exists f. split; auto. apply H. auto.
  - intros (f & F1 & F2). right. exists f. apply H in F2. tauto.
Qed.

(** The counts add up and the listed names are those of safe functions, always; the safe
    count is the number of distinct names of safe functions.  Missing: it is the number of
    safe functions only if these have different names ([C49_refuted]). *)
Theorem C49_stats_partial co m l : lists_safe co m l ->
  let '(safe, unsafe) := stats co m in
  (safe + unsafe)%Z = Z.of_nat (List.length (co_funcs co)) /\
  (forall n, In n (safe_fns co m) <-> exists f, In f l /\ f_name (co_fun co f) = n) /\
  safe = Z.of_nat (List.length (nodup string_dec (map (fun f => f_name (co_fun co f)) l))) /\
  (0 <= safe <= Z.of_nat (List.length l))%Z /\
  ((forall f g, In f l -> In g l -> f_name (co_fun co f) = f_name (co_fun co g) -> f = g) ->
   safe = Z.of_nat (List.length l)).
Proof.
  intros H. unfold stats. pose proof (safe_names _ _ _ H) as SN.
  assert (ND : NoDup (safe_fns co m)) by (apply safe_fns_nodup; constructor).
  assert (LE : List.length (safe_fns co m) = List.length (nodup string_dec (map (fun f => f_name (co_fun co f)) l))).
  { apply Nat.le_antisymm; apply NoDup_incl_length; auto using NoDup_nodup.
    - intros n N. apply nodup_In, SN; auto.
    - intros n N. apply SN. apply nodup_In in N. auto. }
  split; [lia|]. split; [|split; [|split]].
  - intros n. rewrite SN, in_map_iff. split; intros (f & A & B); exists f; auto.
  - lia.
  - split; [lia|]. rewrite <- (map_length (fun f => f_name (co_fun co f)) l). apply Nat2Z.inj_le.
    apply NoDup_incl_length; auto. intros n N. apply SN; auto.
  - intros I. rewrite LE. f_equal. rewrite nodup_fixed_point; [apply map_length|].
    apply nodup_map_in; [apply H|auto].
Qed.
Definition two_safe (n1 n2 : string) : code :=
  mkCode [0; 1] (fun f => mkFunc (if Nat.eqb f 0 then n1 else n2) (ex_start (10 * f)) (10 * f) [10 * f] [10 * f] [10 * f] [])
    (fun b => xblock b [ret_e] []) (fun b => [Nat.div b 10]) (fun _ => None).
Lemma two_safe_lists n1 n2 : lists_safe (two_safe n1 n2) (fun _ => summary0) [0; 1].
Proof. split; [apply nodup_dec; reflexivity|]. cbn. intuition. Qed.
Example C49_case : lists_safe (two_safe "f" "g") (fun _ => summary0) [0; 1] /\
  stats (two_safe "f" "g") (fun _ => summary0) = (2, 0)%Z.
Proof. split; [apply two_safe_lists|reflexivity]. Qed.
(** Two static functions of the same name, both safe. *)
Theorem C49_refuted : exists co m l, lists_safe co m l /\ NoDup (co_funcs co) /\
  fst (stats co m) <> Z.of_nat (List.length l) /\ List.length (co_funcs co) = List.length l /\ snd (stats co m) <> 0%Z.
Proof.
  exists (two_safe "f" "f"), (fun _ => summary0), [0; 1]. split; [apply two_safe_lists|].
  split; [apply nodup_dec; reflexivity|]. vm_compute. repeat split; discriminate.
Qed.

(** ** C50 *)
(** Specification: pieces joined by the delimiter. *)
Fixpoint join (d : ascii) (l : list (list ascii)) : list ascii :=
  match l with [] => [] | [p] => p | p :: t => p ++ d :: join d t end.
Definition ends_with (d : ascii) (s : list ascii) : Prop := exists s', s = s' ++ [d].

Lemma getline_go_spec d s i r : getline_go d s = (i, r) ->
  ~ In d i /\ (s = i ++ d :: r \/ s = i /\ r = []).
Proof.
  revert i r. induction s as [|c s IH]; cbn; intros i r H.
  - injection H as <- <-. cbn. auto.
  - destruct (Ascii.eqb c d) eqn:E.
    + apply Ascii.eqb_eq in E. subst c. injection H as <- <-. cbn. auto.
    + apply Ascii.eqb_neq in E. destruct (getline_go d s) as [i' r'] eqn:G. injection H as <- <-.
      destruct (IH _ _ eq_refl) as [A B]. split.
      * cbn. intros [->|K]; auto.
      * cbn. destruct B as [->|[-> ->]]; auto.
Qed.
Lemma join_cons d p l : l <> [] -> join d (p :: l) = p ++ d :: join d l.
Proof. destruct l; [congruence|reflexivity]. Qed.
Lemma split_go_spec n d s : List.length s < n ->
  (split_go n d s = [] <-> s = []) /\ (forall p, In p (split_go n d s) -> ~ In d p) /\
  (ends_with d s /\ join d (split_go n d s) ++ [d] = s \/ ~ ends_with d s /\ join d (split_go n d s) = s).
Proof.
  revert s. induction n as [|n IH]; intros s L; [lia|]. destruct s as [|c t].
  - cbn. split; [tauto|]. split; [tauto|]. right. split; auto. intros (s' & E). destruct s'; discriminate.
  - set (s := c :: t) in *. change (split_go (S n) d s) with (let '(i, r) := getline_go d s in i :: split_go n d r).
    destruct (getline_go d s) as [i r] eqn:G. destruct (getline_go_spec _ _ _ _ G) as [NI SP].
    split; [split; discriminate|].
    destruct SP as [E|[E ->]].
    + assert (Lr : List.length r < n). { rewrite E, app_length in L. cbn in L. lia. }
      destruct (IH r Lr) as (I1 & I2 & I3). split.
      * intros p [<-|H]; auto.
      * destruct r as [|x r'].
        -- destruct (split_go n d []) eqn:Z; [|destruct I1 as [_ I1]; specialize (I1 eq_refl); discriminate].
           cbn. left. split; [exists i; auto|auto].
        -- assert (NE : split_go n d (x :: r') <> []). { intros K. apply I1 in K. discriminate. }
           rewrite join_cons by auto. destruct I3 as [[[s' E'] J]|[N J]].
           ++ left. split.
              ** exists (i ++ d :: s'). rewrite E, E', <- app_assoc. reflexivity.
              ** rewrite <- app_assoc. cbn. rewrite J. auto.
           ++ right. split; [|rewrite J; auto]. intros (s' & E'). apply N. rewrite E in E'.
              destruct (exists_last (l := x :: r')) as (q & y & Q); [discriminate|]. rewrite Q in E' |- *.
              rewrite app_comm_cons, app_assoc in E'. apply app_inj_tail in E'. destruct E' as [_ ->]. exists q. auto.
    + assert (S0 : split_go n d [] = []) by (destruct n; reflexivity). rewrite S0. split.
      * intros p [<-|[]]; auto.
      * cbn. right. split; auto. intros (s' & E'). apply NI. rewrite <- E, E'. apply in_or_app. cbn. auto.
Qed.

(** Splitting, and what it means: pieces without the delimiter that join to the string,
    up to one trailing delimiter; no pieces at all only for the empty string. *)
Theorem C50_split d s :
  (forall p, In p (split d s) -> ~ In d p) /\
  (ends_with d s -> join d (split d s) ++ [d] = s) /\
  (~ ends_with d s -> join d (split d s) = s) /\
  (split d s = [] <-> s = []).
Proof.
  destruct (split_go_spec (S (List.length s)) d s) as (A & B & C); [lia|]. unfold split. split; auto.
  split; [|split]; [| |auto]; intros H; destruct C as [[C1 C2]|[C1 C2]]; auto; contradiction.
Qed.
(** These conditions have only one solution. *)
Lemma join_unique d l l' : l <> [] -> l' <> [] -> (forall p, In p l -> ~ In d p) -> (forall p, In p l' -> ~ In d p) ->
  join d l = join d l' -> l = l'.
Proof.
  revert l'. induction l as [|p l IH]; intros l' N N' H H' J; [congruence|]. destruct l' as [|p' l']; [congruence|].
  assert (Hp : ~ In d p) by (apply H; cbn; auto). assert (Hp' : ~ In d p') by (apply H'; cbn; auto).
  assert (CUT : forall a b x y, ~ In d a -> ~ In d b -> a ++ d :: x = b ++ d :: y -> a = b /\ x = y).
  { clear. induction a as [|u a IH]; intros [|v b] x y Ha Hb E; cbn in *.
    - injection E as ->. auto.
    - injection E as -> _. tauto.
    - injection E as -> _. tauto.
    - injection E as -> E. destruct (IH b x y) as [-> ->]; auto. }
  destruct l as [|q l], l' as [|q' l'].
  - cbn in J. congruence.
  - rewrite (join_cons d p') in J by discriminate. cbn [join] in J. destruct Hp. rewrite J. apply in_or_app. cbn. auto.
  - rewrite (join_cons d p) in J by discriminate. cbn [join] in J. destruct Hp'. rewrite <- J. apply in_or_app. cbn. auto.
  - rewrite (join_cons d p), (join_cons d p') in J by discriminate. destruct (CUT _ _ _ _ Hp Hp' J) as [-> J']. f_equal.
    apply IH; [discriminate|discriminate| | |auto]; intros p K; [apply H|apply H']; cbn; auto.
Qed.
Theorem C50_split_unique d s l :
  (forall p, In p l -> ~ In d p) -> (ends_with d s -> join d l ++ [d] = s) -> (~ ends_with d s -> join d l = s) ->
  (l = [] <-> s = []) -> l = split d s.
Proof.
  intros A B C D. destruct (C50_split d s) as (A' & B' & C' & D').
  destruct s as [|x s]; [transitivity (@nil (list ascii)); [apply D|symmetry; apply D']; auto|].
  assert (N : l <> []) by (intros K; apply D in K; discriminate).
  assert (N' : split d (x :: s) <> []) by (intros K; apply D' in K; discriminate).
  apply (join_unique d); auto.
  destruct (exists_last (l := x :: s)) as (q & y & Q); [discriminate|].
  destruct (ascii_dec y d) as [->|NE].
  - assert (E : ends_with d (x :: s)) by (exists q; auto). specialize (B E). specialize (B' E).
    rewrite <- B' in B at 1. apply app_inj_tail in B. apply B.
  - assert (E : ~ ends_with d (x :: s)).
    { intros (q' & K). rewrite Q in K. apply app_inj_tail in K. tauto. }
    rewrite C, C' by auto. auto.
Qed.

(** [n] is the part of [s] after its last slash. *)
Definition after_last (d : ascii) (s n : list ascii) : Prop :=
  ~ In d n /\ (s = n \/ exists q, s = q ++ d :: n).
Lemma join_last d l n : nth_error l (List.length l - 1) = Some n -> (forall p, In p l -> ~ In d p) ->
  after_last d (join d l) n.
Proof.
  induction l as [|p l IH]; intros H A; [discriminate|]. destruct l as [|q l].
  - cbn in H. injection H as <-. split; [apply A; cbn; auto|cbn; auto].
  - assert (NE : q :: l <> []) by discriminate. rewrite join_cons by auto.
    destruct IH as [I1 I2].
    + replace (List.length (p :: q :: l) - 1) with (S (List.length (q :: l) - 1)) in H by (cbn; lia). exact H.
    + intros; apply A; cbn; auto.
    + split; auto. right. destruct I2 as [->|(q' & ->)]; [eauto|].
      exists (p ++ d :: q'). rewrite <- app_assoc. reflexivity.
Qed.
(** Missing: with a trailing slash the name is that of the path without it, and the empty
    path is out of range ([C50_refuted]). *)
Theorem C50_file_name_partial s : s <> [] ->
  exists n, file_name s = Some n /\
    (~ ends_with slash s -> after_last slash s n) /\
    (forall s', s = s' ++ [slash] -> after_last slash s' n).
Proof.
  intros NE. destruct (C50_split slash s) as (A & B & C & D). unfold file_name.
  destruct (nth_error (split slash s) (List.length (split slash s) - 1)) as [n|] eqn:E.
  - exists n. split; auto. pose proof (join_last slash _ _ E A) as J. split.
    + intros H. rewrite <- C at 1 by auto. auto.
    + intros s' ->. assert (H : ends_with slash (s' ++ [slash])) by (exists s'; auto). specialize (B H).
      apply app_inj_tail in B. destruct B as [B _]. rewrite <- B at 1. auto.
  - apply nth_error_None in E. destruct (split slash s) as [|p l].
    + destruct NE. apply D. auto.
    + cbn in E. lia.
Qed.
Definition str (s : string) : list ascii := list_ascii_of_string s.
Example C50_case :
  split slash (str "/usr/lib/libstackrt.a") = [str ""; str "usr"; str "lib"; str "libstackrt.a"] /\
  file_name (str "/usr/lib/libstackrt.a") = Some (str "libstackrt.a") /\
  ~ ends_with slash (str "/usr/lib/libstackrt.a") /\ ends_with slash (str "a/") /\ split slash (str "a/") = [str "a"].
Proof.
  repeat split; try reflexivity.
  - intros (s' & E). apply (f_equal (@rev ascii)) in E. rewrite rev_app_distr in E. vm_compute in E. discriminate.
  - exists (str "a"). reflexivity.
Qed.
Theorem C50_refuted :
  (exists s n n', file_name s = Some n /\ after_last slash s n' /\ n <> n') /\ file_name [] = None.
Proof.
  split; [|reflexivity]. exists (str "a/"), (str "a"), []. split; [reflexivity|]. split; [|discriminate].
  split; [tauto|]. right. exists (str "a"). reflexivity.
Qed.
Print Assumptions C49_stats_partial.
Print Assumptions C49_refuted.
Print Assumptions C50_split.
Print Assumptions C50_split_unique.
Print Assumptions C50_file_name_partial.
Print Assumptions C50_refuted.
