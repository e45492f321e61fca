(** * SkipList: reading the list of functions to skip (/repo/src/instrument.cc:1017-1022)

    [while (infile >> std::hex >> addr) skip_addrs.insert(addr)] with [addr] an unsigned 64-bit
    integer.  The extraction is that of libstdc++ in the "C" locale (num_get, base 16).
    A file that cannot be opened reads as an empty one. *)
From Coq Require Import ZArith Bool Lia Arith String Ascii List.
Import ListNotations.
Open Scope Z_scope.

Definition is_space (c : ascii) : bool :=
  let n := nat_of_ascii c in (Nat.eqb n 32 || (Nat.leb 9 n && Nat.leb n 13))%nat.
Definition hexdig (c : ascii) : option Z :=
  let n := Z.of_nat (nat_of_ascii c) in
  if (48 <=? n) && (n <=? 57) then Some (n - 48)
  else if (97 <=? n) && (n <=? 102) then Some (n - 87)
  else if (65 <=? n) && (n <=? 70) then Some (n - 55)
  else None.
Definition is_x (c : ascii) : bool := (Ascii.eqb c "x" || Ascii.eqb c "X")%char.
Definition is_0 (c : ascii) : bool := Ascii.eqb c "0"%char.
Definition lim : Z := 18446744073709551616.

(** Leading white space (the sentry of operator>>). *)
Fixpoint skip_ws (s : list ascii) : list ascii :=
  match s with c :: r => if is_space c then skip_ws r else s | [] => [] end.
(** The digits: value, whether it has overflown, number of digits, rest. *)
Fixpoint digits (s : list ascii) (v : Z) (over : bool) (n : nat) : Z * bool * nat * list ascii :=
  match s with
  | c :: r =>
      match hexdig c with
      | Some d => if lim <=? v * 16 + d then digits r v true n
                  else digits r (v * 16 + d) over (S n)
      | None => (v, over, n, s)
      end
  | [] => (v, over, n, s)
  end.
(** A leading 0 and, after it, x: (a zero has been read, rest). *)
Definition prefix (s : list ascii) : bool * list ascii :=
  match s with
  | c :: r =>
      if is_0 c then
        match r with
        | x :: r' => if is_x x then (false, r') else (true, r)
        | [] => (true, r)
        end
      else (false, s)
  | [] => (false, s)
  end.
(** One number: None if the extraction fails. *)
Definition number (s : list ascii) : option (Z * list ascii) :=
  let '(neg, s1) := match s with
    | c :: r => if Ascii.eqb c "-" then (true, r) else if Ascii.eqb c "+" then (false, r) else (false, s)
    | [] => (false, s)
    end%char in
  let '(zero, s2) := prefix s1 in
  let '(v, over, n, s3) := digits s2 0 false 0 in
  if over then None
  else if Nat.eqb n 0 && negb zero then None
  else Some ((if neg then (- v) mod lim else v), s3).
(** The loop; [fuel] is the length of the file. *)
Fixpoint read_all (fuel : nat) (s : list ascii) : list Z :=
  match fuel with
  | O => []
  | S k => match number (skip_ws s) with
           | Some (v, r) => v :: read_all k r
           | None => []
           end
  end.
Definition skip_list (file : list ascii) : list Z := read_all (List.length file) file.

(** ** What a file is supposed to contain *)
(** Space, tab, line feed, vertical tab, form feed, carriage return. *)
Definition white : list ascii := [" "; "009"; "010"; "011"; "012"; "013"]%char.
Definition digit_values : list (ascii * Z) :=
  [("0", 0); ("1", 1); ("2", 2); ("3", 3); ("4", 4); ("5", 5); ("6", 6); ("7", 7); ("8", 8); ("9", 9);
   ("a", 10); ("b", 11); ("c", 12); ("d", 13); ("e", 14); ("f", 15);
   ("A", 10); ("B", 11); ("C", 12); ("D", 13); ("E", 14); ("F", 15)]%char.
(** The number written in hexadecimal digits. *)
Inductive hexnum : list ascii -> Z -> Prop :=
| hn_one c d : In (c, d) digit_values -> hexnum [c] d
| hn_more l v c d : hexnum l v -> In (c, d) digit_values -> hexnum (l ++ [c]) (16 * v + d).
Inductive token : list ascii -> Z -> Prop :=
| tk_plain l v : hexnum l v -> v < 2 ^ 64 -> token l v
| tk_prefix x l v : x = "x"%char \/ x = "X"%char -> hexnum l v -> v < 2 ^ 64 -> token ("0"%char :: x :: l) v.
Definition blank (l : list ascii) : Prop := Forall (fun c => In c white) l.
(** Numbers separated by white space. *)
Inductive numbers : list ascii -> list Z -> Prop :=
| nm_none w : blank w -> numbers w []
| nm_one w t v w' : blank w -> token t v -> blank w' -> numbers (w ++ t ++ w') [v]
| nm_more w t v c r vs : blank w -> token t v -> In c white -> numbers r vs ->
    numbers (w ++ t ++ c :: r) (v :: vs).

(** ** Facts *)
Lemma white_space c : In c white <-> is_space c = true.
Proof.
  destruct c as [[] [] [] [] [] [] [] []]; vm_compute; split; intros H; try discriminate; try reflexivity;
    repeat (first [left; reflexivity|right]); repeat (destruct H as [H|H]; [discriminate H|]); destruct H.
Qed.
Lemma not_white c : ~ In c white <-> is_space c = false.
Proof. rewrite white_space. destruct (is_space c); split; congruence. Qed.
Lemma digit_hexdig c d : In (c, d) digit_values <-> hexdig c = Some d.
Proof.
  split.
  - cbn [digit_values In]. intros H. repeat (destruct H as [H|H]; [injection H as <- <-; reflexivity|]). destruct H.
  - destruct c as [[] [] [] [] [] [] [] []]; intros H; try discriminate H;
      vm_compute in H; injection H as <-; cbn [digit_values In]; repeat (first [left; reflexivity|right]).
Qed.
Lemma no_digit c : (forall d, ~ In (c, d) digit_values) <-> hexdig c = None.
Proof.
  split.
  - intros H. destruct (hexdig c) as [d|] eqn:E; auto. apply digit_hexdig in E. destruct (H d E).
  - intros E d K. apply digit_hexdig in K. congruence.
Qed.
Lemma x_is_x x : x = "x"%char \/ x = "X"%char <-> is_x x = true.
Proof. unfold is_x. rewrite orb_true_iff, !Ascii.eqb_eq. tauto. Qed.
Lemma hexdig_range c d : hexdig c = Some d -> 0 <= d < 16.
Proof.
  unfold hexdig. repeat match goal with |- context [if ?b then _ else _] => destruct b eqn:? end;
    intros H; inversion H; subst; clear H; lia.
Qed.
Lemma hexdig_space c d : hexdig c = Some d -> is_space c = false.
Proof.
  intros H. destruct (is_space c) eqn:E; auto. exfalso. unfold is_space in E. unfold hexdig in H.
  apply orb_true_iff in E. rewrite andb_true_iff, Nat.eqb_eq, !Nat.leb_le in E.
  repeat match goal with H : context [if ?b then _ else _] |- _ => destruct b eqn:? end; try discriminate; lia.
Qed.
Lemma hexdig_x c d : hexdig c = Some d -> is_x c = false.
Proof.
  intros H. destruct (is_x c) eqn:E; auto. unfold is_x in E. apply orb_true_iff in E.
  destruct E as [E|E]; apply Ascii.eqb_eq in E; subst; discriminate.
Qed.
Lemma space_x c : is_x c = true -> is_space c = false.
Proof.
  unfold is_x. intros E. apply orb_true_iff in E. destruct E as [E|E]; apply Ascii.eqb_eq in E; subst; reflexivity.
Qed.
Lemma space_hex c : is_space c = true -> hexdig c = None.
Proof. intros H. destruct (hexdig c) eqn:E; auto. apply hexdig_space in E. congruence. Qed.

(** Horner evaluation from the left. *)
Fixpoint hv (l : list ascii) (v : Z) : option Z :=
  match l with
  | [] => Some v
  | c :: r => match hexdig c with Some d => hv r (v * 16 + d) | None => None end
  end.
Lemma hv_app a : forall b v, hv (a ++ b) v = match hv a v with Some w => hv b w | None => None end.
Proof. induction a as [|c a IH]; intros b v; cbn [hv app]; auto. destruct (hexdig c); auto. Qed.
Lemma hv_ge l : forall v w, 0 <= v -> hv l v = Some w -> v <= w.
Proof.
  induction l as [|c l IH]; intros v w H K; cbn [hv] in K; [injection K as <-; lia|].
  destruct (hexdig c) as [d|] eqn:E; [|discriminate]. apply hexdig_range in E. apply IH in K; lia.
Qed.
Lemma hexnum_hv l v : hexnum l v -> hv l 0 = Some v /\ 0 <= v /\ l <> [].
Proof.
  induction 1 as [c d E|l v c d H (IH1 & IH2 & IH3) E]; apply digit_hexdig in E.
  - cbn [hv]. rewrite E. pose proof (hexdig_range _ _ E). split; [f_equal; lia|split; [lia|discriminate]].
  - rewrite hv_app, IH1. cbn [hv]. rewrite E. pose proof (hexdig_range _ _ E).
    split; [f_equal; lia|split; [lia|]]. intros K. apply app_eq_nil in K. destruct K; discriminate.
Qed.
Lemma digits_hv l : forall v w n r, 0 <= v -> hv l v = Some w -> w < lim ->
  match r with c :: _ => hexdig c = None | [] => True end ->
  digits (l ++ r) v false n = (w, false, (n + List.length l)%nat, r).
Proof.
  induction l as [|c l IH]; intros v w n r H K L R; cbn [hv] in K.
  - injection K as <-. rewrite Nat.add_0_r. destruct r as [|c r]; [reflexivity|]. cbn [app digits]. rewrite R. reflexivity.
  - cbn [app digits]. destruct (hexdig c) as [d|] eqn:E; [|discriminate]. pose proof (hexdig_range _ _ E).
    pose proof (hv_ge l (v * 16 + d) w ltac:(lia) K). replace (lim <=? v * 16 + d) with false by lia.
    rewrite (IH _ w (S n) r); auto; [|lia]. cbn [List.length]. f_equal. f_equal. lia.
Qed.
Lemma skip_ws_blank w r : blank w -> match r with c :: _ => is_space c = false | [] => True end ->
  skip_ws (w ++ r) = r.
Proof.
  intros B R. induction B as [|c w H B IH]; cbn [app skip_ws].
  - destruct r as [|c r]; [reflexivity|]. cbn [skip_ws]. rewrite R. reflexivity.
  - apply white_space in H. rewrite H. exact IH.
Qed.
(** What follows a token. *)
Definition after (r : list ascii) : Prop :=
  match r with c :: _ => hexdig c = None /\ is_x c = false | [] => True end.
Lemma number_token t v r : token t v -> after r -> number (t ++ r) = Some (v, r).
Proof.
  intros T R.
  assert (R' : match r with c :: _ => hexdig c = None | [] => True end) by (destruct r; [auto|apply R]).
  unfold number. destruct T as [l v H L|x l v X H L]; change (2 ^ 64) with lim in L; [|apply x_is_x in X].
  - destruct (hexnum_hv _ _ H) as (E & P & N). destruct l as [|c l]; [congruence|]. cbn [app].
    pose proof E as E'. cbn [hv] in E. destruct (hexdig c) as [d|] eqn:EC; [|discriminate].
    assert (S1 : Ascii.eqb c "-" = false) by (destruct (Ascii.eqb_spec c "-"); [subst; discriminate|auto]).
    assert (S2 : Ascii.eqb c "+" = false) by (destruct (Ascii.eqb_spec c "+"); [subst; discriminate|auto]).
    rewrite S1, S2. cbn [prefix]. destruct (is_0 c) eqn:Z0.
    + assert (d = 0) by (unfold is_0 in Z0; apply Ascii.eqb_eq in Z0; subst; injection EC as <-; reflexivity). subst d.
      assert (NX : prefix (c :: l ++ r) = (true, l ++ r)).
      { cbn [prefix]. rewrite Z0. destruct l as [|y l]; cbn [app].
        - destruct r as [|y r]; [reflexivity|]. destruct R as [_ ->]. reflexivity.
        - cbn [hv] in E. destruct (hexdig y) eqn:EY; [|discriminate]. rewrite (hexdig_x _ _ EY). reflexivity. }
      cbn [prefix] in NX. rewrite Z0 in NX. rewrite NX.
      rewrite (digits_hv l 0 v 0 r); auto; try lia. cbn [negb]. rewrite andb_false_r. reflexivity.
    + change (c :: l ++ r) with ((c :: l) ++ r). rewrite (digits_hv (c :: l) 0 v 0 r); auto; try lia.
  - destruct (hexnum_hv _ _ H) as (E & P & N). cbn [app]. change (is_0 "0") with true. cbv beta iota.
    change (Ascii.eqb "0" "-") with false. change (Ascii.eqb "0" "+") with false. cbv beta iota.
    cbn [prefix]. change (is_0 "0") with true. cbv beta iota. rewrite X.
    rewrite (digits_hv l 0 v 0 r); auto; try lia. cbn [negb]. rewrite andb_true_r.
    destruct l; [congruence|]. reflexivity.
Qed.
Lemma token_head t v : token t v -> exists c r, t = c :: r /\ is_space c = false.
Proof.
  intros [l w H L|x l w X H L]; [|exists "0"%char, (x :: l); split; reflexivity].
  destruct (hexnum_hv _ _ H) as (E & _ & N). destruct l as [|c l]; [congruence|]. exists c, l. split; auto.
  cbn [hv] in E. destruct (hexdig c) eqn:EC; [|discriminate]. eapply hexdig_space; eauto.
Qed.
Lemma number_nil : number [] = None. Proof. reflexivity. Qed.
Lemma read_nil k : read_all k [] = []. Proof. destruct k; reflexivity. Qed.
Lemma read_blank k w : blank w -> read_all k w = [].
Proof.
  intros B. destruct k; [reflexivity|]. cbn [read_all]. rewrite <- (app_nil_r w), skip_ws_blank; auto.
Qed.
Lemma blank_after c r : In c white -> after (c :: r).
Proof.
  intros H. apply white_space in H. split; [apply space_hex; auto|]. destruct (is_x c) eqn:E; auto. apply space_x in E. congruence.
Qed.
Lemma read_numbers s vs : numbers s vs -> forall k, (List.length s <= k)%nat -> read_all k s = vs.
Proof.
  induction 1 as [w B|w t v w' B T B'|w t v c r vs B T C N IH]; intros k L.
  - apply read_blank. exact B.
  - destruct (token_head _ _ T) as (c & l & -> & HS). destruct k as [|k].
    { rewrite app_length in L. cbn in L. lia. }
    cbn [read_all]. rewrite skip_ws_blank by (auto; exact HS). rewrite (number_token _ v w' T).
    + rewrite read_blank; auto.
    + destruct w' as [|c' w']; [exact I|]. inversion B'; subst. apply blank_after. auto.
  - destruct (token_head _ _ T) as (c' & l & -> & HS). destruct k as [|k].
    { rewrite app_length in L. cbn in L. lia. }
    cbn [read_all]. rewrite skip_ws_blank by (auto; exact HS).
    rewrite (number_token _ v (c :: r) T (blank_after c r C)). f_equal.
    destruct k as [|k]; [rewrite !app_length in L; cbn [List.length] in L; lia|].
    assert (K : read_all (S k) (c :: r) = read_all (S k) r) by (apply white_space in C; cbn [read_all skip_ws]; rewrite C; reflexivity).
    rewrite K. apply IH. rewrite !app_length in L. cbn [List.length] in L. lia.
Qed.
(** A character that no number starts with. *)
Definition junk (c : ascii) : Prop :=
  ~ In c white /\ (forall d, ~ In (c, d) digit_values) /\ c <> "-"%char /\ c <> "+"%char.
Lemma number_junk c r : junk c -> number (c :: r) = None.
Proof.
  intros (_ & H & N1 & N2). apply no_digit in H. unfold number. apply Ascii.eqb_neq in N1, N2. rewrite N1, N2.
  assert (Z0 : is_0 c = false) by (destruct (is_0 c) eqn:E; auto; unfold is_0 in E; apply Ascii.eqb_eq in E; subst; discriminate).
  cbn [prefix]. rewrite Z0. cbn [digits]. rewrite H. reflexivity.
Qed.
Lemma read_junk w c r k : blank w -> junk c -> read_all k (w ++ c :: r) = [].
Proof.
  intros B J. destruct k; [reflexivity|]. cbn [read_all]. rewrite skip_ws_blank by (auto; apply not_white, J).
  rewrite number_junk; auto.
Qed.
Lemma read_cut s vs c c' r : numbers s vs -> In c' white -> junk c ->
  forall k, (List.length s < k)%nat -> read_all k (s ++ c' :: c :: r) = vs.
Proof.
  intros N C J. induction N as [w B|w t v w' B T B'|w t v d q vs B T D N IH]; intros k L.
  - change (c' :: c :: r) with ([c'] ++ c :: r). rewrite app_assoc. apply read_junk; [|auto].
    apply Forall_app. split; [auto|]. constructor; [exact C|constructor].
  - destruct (token_head _ _ T) as (x & l & -> & HS). destruct k as [|k]; [lia|].
    cbn [read_all]. rewrite <- !app_assoc. rewrite skip_ws_blank by (auto; exact HS).
    assert (AF : after (w' ++ c' :: c :: r)).
    { destruct w' as [|y w']; [apply blank_after; auto|]. inversion B'; subst. apply blank_after; auto. }
    rewrite (number_token _ v _ T AF). f_equal. change (c' :: c :: r) with ([c'] ++ c :: r). rewrite app_assoc.
    apply read_junk; auto. apply Forall_app. split; [auto|]. constructor; [exact C|constructor].
  - destruct (token_head _ _ T) as (x & l & -> & HS). destruct k as [|k]; [lia|].
    cbn [read_all]. rewrite <- !app_assoc. rewrite skip_ws_blank by (auto; exact HS). cbn [app].
    change (x :: l ++ d :: q ++ c' :: c :: r) with ((x :: l) ++ d :: q ++ c' :: c :: r).
    rewrite (number_token _ v _ T (blank_after d _ D)). f_equal.
    rewrite !app_length in L. cbn [List.length] in L.
    destruct k as [|k]; [lia|].
    assert (K : forall z, read_all (S k) (d :: z) = read_all (S k) z) by (intros z; apply white_space in D; cbn [read_all skip_ws]; rewrite D; reflexivity).
    rewrite K. apply IH. lia.
Qed.
