(** * P_CfTool: what the output of cf.cc says about a function (property C87) *)
From Coq Require Import ZArith Bool Lia Arith String List.
From Verif Require Import Binary CfTool ExCode.
Import ListNotations.
Open Scope string_scope.

Section SPEC.
Variable co : code.
(** The target of the edge is a stub of the procedure linkage table. *)
Definition to_plt (e : edge) : Prop := exists n, co_link co (b_start (co_block co (e_trg e))) = Some n.
(** Function [f] starts at the target of the edge and no earlier function of that block does. *)
Definition calls (e : edge) (f : nat) : Prop :=
  exists a b, co_owners co (e_trg e) = (a ++ f :: b)%list /\ f_entry (co_fun co f) = e_trg e /\
    forall g, In g a -> f_entry (co_fun co g) <> e_trg e.
Definition lost (e : edge) : Prop := e_sink e = true /\ e_ty e <> RET.
(** What an edge is reported as *)
Inductive told (e : edge) : string -> Prop :=
| to_lost : lost e -> told e "Unknown control flow found."
| to_stub : ~ lost e -> to_plt e -> told e "PLT calls found."
| to_ind : ~ lost e -> ~ to_plt e -> e_ty e = INDIRECT -> told e "Indirect control flow found."
| to_ft : ~ lost e -> ~ to_plt e -> e_ty e = CALL_FT -> told e "Call fall through found."
| to_ct : ~ lost e -> ~ to_plt e -> e_ty e = COND_TAKEN -> told e "Conditional taken found."
| to_cn : ~ lost e -> ~ to_plt e -> e_ty e = COND_NOT_TAKEN -> told e "Conditional not taken found."
| to_call f : ~ lost e -> ~ to_plt e -> e_ty e = CALL -> calls e f ->
    told e ("Call too function " ++ f_name (co_fun co f) ++ " found.")
| to_ret : ~ to_plt e -> e_ty e = RET -> told e "Return found.".
(** The lines for a list of edges, in order; an edge without a report adds none. *)
Inductive lists : list edge -> list string -> Prop :=
| li_nil : lists [] []
| li_told e es s ss : told e s -> lists es ss -> lists (e :: es) (s :: ss)
| li_none e es ss : (forall s, ~ told e s) -> lists es ss -> lists (e :: es) ss.
(** The first function called foo *)
Definition first_foo (f : nat) : Prop :=
  exists a b, co_funcs co = (a ++ f :: b)%list /\ f_name (co_fun co f) = "foo" /\
    forall g, In g a -> f_name (co_fun co g) <> "foo".

Lemma lost_dec e : (e_sink e && negb (is (e_ty e) RET))%bool = true <-> lost e.
Proof.
  unfold lost. rewrite andb_true_iff, negb_true_iff. split; intros [H K]; (split; [exact H|]); apply is_false; exact K.
Qed.
Lemma callee_spec e fs :
  (exists a f b, fs = (a ++ f :: b)%list /\ f_entry (co_fun co f) = e_trg e /\
     (forall g, In g a -> f_entry (co_fun co g) <> e_trg e) /\
     callee_line co fs (e_trg e) = [Text ("Call too function " ++ f_name (co_fun co f) ++ " found.")]) \/
  ((forall g, In g fs -> f_entry (co_fun co g) <> e_trg e) /\ callee_line co fs (e_trg e) = []).
Proof.
  induction fs as [|f r IH]; [right; split; [intros g []|reflexivity]|]. cbn [callee_line].
  destruct (Nat.eqb (f_entry (co_fun co f)) (e_trg e)) eqn:E.
  - apply Nat.eqb_eq in E. left. exists [], f, r. repeat split; auto.
  - apply Nat.eqb_neq in E. destruct IH as [(a & f' & b & -> & H1 & H2 & H3)|[H1 H2]].
    + left. exists (f :: a), f', b. repeat split; auto. intros g [<-|Hg]; auto.
    + right. split; [|exact H2]. intros g [<-|Hg]; auto.
Qed.
(** Each edge gets the line of the specification or none. *)
Lemma edge_spec e : (exists s, told e s /\ edge_lines co e = [Text s]) \/ ((forall s, ~ told e s) /\ edge_lines co e = []).
Proof.
  unfold edge_lines. pose proof (lost_dec e) as L. destruct (e_sink e && negb (is (e_ty e) RET))%bool.
  { left. eexists. split; [apply to_lost; apply L; reflexivity|reflexivity]. }
  assert (NL : ~ lost e) by (intros K; apply L in K; discriminate). clear L.
  destruct (co_link co (b_start (co_block co (e_trg e)))) as [n|] eqn:K.
  { left. eexists. split; [apply to_stub; [exact NL|exists n; exact K]|reflexivity]. }
  assert (NP : ~ to_plt e) by (intros (n & Q); congruence).
  destruct (e_ty e) eqn:T; cbn;
    try (left; eexists; split; [|reflexivity]; constructor; assumption);
    try (right; split; [|reflexivity]; intros s H; inversion H; congruence).
  destruct (callee_spec e (co_owners co (e_trg e))) as [(a & f & b & H1 & H2 & H3 & H4)|[H1 H2]].
  - left. eexists. split; [|exact H4]. apply to_call; auto. exists a, b. auto.
  - right. split; [|exact H2]. intros s H. inversion H as [| | | | | |f _ _ _ (a & b & E1 & E2 & _)|]; try congruence.
    apply (H1 f); [rewrite E1; apply in_or_app; right; left; reflexivity|exact E2].
Qed.
Lemma edges_spec es : exists ss, lists es ss /\ flat_map (edge_lines co) es = map Text ss.
Proof.
  induction es as [|e es (ss & H & E)]; [exists []; split; [constructor|reflexivity]|]. cbn [flat_map]. rewrite E.
  destruct (edge_spec e) as [(s & T & ->)|[N ->]]; [exists (s :: ss)|exists ss]; (split; [constructor; assumption|reflexivity]).
Qed.
Lemma lists_app a b x y : lists a x -> lists b y -> lists (a ++ b)%list (x ++ y)%list.
Proof. intros H K. induction H; cbn; [exact K|apply li_told; assumption|apply li_none; assumption]. Qed.
Lemma blocks_spec bs : forall n, exists ss, lists (flat_map (fun b => b_targets (co_block co b)) bs) ss /\
  block_lines co bs n = (map Text ss, (n + List.length bs)%nat).
Proof.
  induction bs as [|b r IH]; intros n; cbn [block_lines flat_map].
  - exists []. split; [constructor|]. cbn. rewrite Nat.add_0_r. reflexivity.
  - destruct (IH (S n)) as (ss & H & ->). destruct (edges_spec (b_targets (co_block co b))) as (s1 & H1 & ->).
    exists (s1 ++ ss)%list. split; [apply lists_app; assumption|]. rewrite map_app. cbn [List.length]. f_equal. lia.
Qed.
Lemma foo_spec fs :
  (exists a f b, fs = (a ++ f :: b)%list /\ f_name (co_fun co f) = "foo" /\ (forall g, In g a -> f_name (co_fun co g) <> "foo") /\
     find_foo co fs = Some f) \/
  ((forall g, In g fs -> f_name (co_fun co g) <> "foo") /\ find_foo co fs = None).
Proof.
  induction fs as [|f r IH]; [right; split; [intros g []|reflexivity]|]. cbn [find_foo].
  destruct (String.eqb_spec (f_name (co_fun co f)) "foo") as [E|E].
  - left. exists [], f, r. repeat split; auto.
  - destruct IH as [(a & f' & b & -> & H1 & H2 & H3)|[H1 H2]].
    + left. exists (f :: a), f', b. repeat split; auto. intros g [<-|Hg]; auto.
    + right. split; [|exact H2]. intros g [<-|Hg]; auto.
Qed.

(** Reports are unambiguous. *)
Lemma told_one e s s' : told e s -> told e s' -> s = s'.
Proof.
  intros H K. destruct H, K; try reflexivity; try contradiction; try congruence;
    try (match goal with L : lost e |- _ => destruct L; congruence end).
  (* two functions that start at the target *)
  match goal with A : calls e f, B : calls e f0 |- _ => destruct A as (a & b & E1 & E2 & E3), B as (a' & b' & E1' & E2' & E3') end.
  rewrite E1 in E1'. assert (Q : f = f0); [|subst; reflexivity].
  clear E1. revert a' E1' E3'. induction a as [|x a IH]; intros a' E1' E3'; destruct a' as [|x' a']; cbn in E1'; injection E1'.
  - auto.
  - intros _ <-. exfalso. apply (E3' f); [left; reflexivity|exact E2].
  - intros _ ->. exfalso. apply (E3 f0); [left; reflexivity|exact E2'].
  - intros E _. apply (IH (fun g Hg => E3 g (or_intror Hg)) a' E (fun g Hg => E3' g (or_intror Hg))).
Qed.
End SPEC.

(** Missing: that every call is reported ([C87_refuted]). *)
Theorem C87_lines_partial co :
  (* without a function foo the program stops *)
  ((forall f, In f (co_funcs co) -> f_name (co_fun co f) <> "foo") -> cf_main co = None) /\
  (* otherwise it describes the edges of the first one, one line each at most, and counts its blocks *)
  (forall f, first_foo co f -> exists ss,
     lists co (flat_map (fun b => b_targets (co_block co b)) (f_blocks (co_fun co f))) ss /\
     cf_main co = Some (map Text ss ++ [Count (List.length (f_blocks (co_fun co f)))])%list) /\
  (* no edge has two descriptions *)
  (forall e s s', told co e s -> told co e s' -> s = s').
Proof.
  unfold cf_main. split; [|split; [|apply told_one]].
  - intros N. destruct (foo_spec co (co_funcs co)) as [(a & f & b & E & F & _)|[_ ->]]; [|reflexivity].
    exfalso. apply (N f); [rewrite E; apply in_or_app; right; left; reflexivity|exact F].
  - intros f (a & b & E & F & N). destruct (foo_spec co (co_funcs co)) as [(a' & f' & b' & E' & F' & N' & ->)|[K _]].
    2:{ exfalso. apply (K f); [rewrite E; apply in_or_app; right; left; reflexivity|exact F]. }
    assert (Q : f' = f).
    { rewrite E in E'. clear E. revert a' E' N'. induction a as [|x a IH]; intros a' E' N'; destruct a' as [|x' a']; cbn in E'; injection E'.
      - auto.
      - intros _ <-. exfalso. apply (N' f); [left; reflexivity|exact F].
      - intros _ ->. exfalso. apply (N f'); [left; reflexivity|exact F'].
      - intros E'' _. apply (IH (fun g Hg => N g (or_intror Hg)) a' E'' (fun g Hg => N' g (or_intror Hg))). }
    subst f'. destruct (blocks_spec co (f_blocks (co_fun co f)) 0) as (ss & H & ->). exists ss. split; [exact H|reflexivity].
Qed.

(** Counting lines counts edges: whoever looks for unresolved transfers finds all of them, and
    a text that is absent rules the edges out. *)
Lemma lists_count co s es ss : lists co es ss -> forall (P : edge -> bool), (forall e, P e = true <-> told co e s) ->
  count_occ string_dec ss s = List.length (filter P es).
Proof.
  intros H P D. induction H as [|e es t ss T H IH|e es ss N H IH]; [reflexivity| |]; cbn [count_occ filter].
  - destruct (string_dec t s) as [->|X].
    + rewrite (proj2 (D e) T). cbn. rewrite IH. reflexivity.
    + destruct (P e) eqn:E; [|exact IH]. apply D in E. exfalso. apply X. eapply told_one; eauto.
  - destruct (P e) eqn:E; [|exact IH]. apply D in E. exfalso. eapply N; eauto.
Qed.
Theorem C87_counts co f : first_foo co f ->
  let es := flat_map (fun b => b_targets (co_block co b)) (f_blocks (co_fun co f)) in
  exists ss, cf_main co = Some (map Text ss ++ [Count (List.length (f_blocks (co_fun co f)))])%list /\
  let plt e := if co_link co (b_start (co_block co (e_trg e))) then true else false in
  let sink e := (e_sink e && negb (is (e_ty e) RET))%bool in
  let kind t e := (negb (sink e) && negb (plt e) && is (e_ty e) t)%bool in
  let n p := List.length (filter p es) in
  count_occ string_dec ss "Unknown control flow found." = n sink /\
  count_occ string_dec ss "PLT calls found." = n (fun e => negb (sink e) && plt e)%bool /\
  count_occ string_dec ss "Indirect control flow found." = n (kind INDIRECT) /\
  count_occ string_dec ss "Call fall through found." = n (kind CALL_FT) /\
  count_occ string_dec ss "Conditional taken found." = n (kind COND_TAKEN) /\
  count_occ string_dec ss "Conditional not taken found." = n (kind COND_NOT_TAKEN) /\
  count_occ string_dec ss "Return found." = n (kind RET).
Proof.
  intros F es. destruct (proj1 (proj2 (C87_lines_partial co)) f F) as (ss & H & E). exists ss. split; [exact E|]. fold es in H.
  intros plt sink kind n.
  assert (PL : forall e, plt e = true <-> to_plt co e).
  { intros e. unfold plt, to_plt. destruct (co_link co _) as [m|]; split; intros K; eauto; try discriminate. destruct K; discriminate. }
  assert (SI : forall e, sink e = true <-> lost e) by (intros e; apply lost_dec).
  assert (NP : forall e, plt e = false <-> ~ to_plt co e).
  { intros e. rewrite <- PL. destruct (plt e); split; intros K; congruence || (exfalso; apply K; reflexivity). }
  assert (NS : forall e, sink e = false <-> ~ lost e).
  { intros e. rewrite <- SI. destruct (sink e); split; intros K; congruence || (exfalso; apply K; reflexivity). }
  assert (KI : forall t e, kind t e = true <-> ~ lost e /\ ~ to_plt co e /\ e_ty e = t).
  { intros t e. unfold kind. rewrite !andb_true_iff, !negb_true_iff, NP, NS, is_true. tauto. }
  repeat match goal with |- _ /\ _ => split end; apply (lists_count co _ es ss H); intros e;
    rewrite ?KI, ?SI, ?andb_true_iff, ?negb_true_iff, ?NS, ?PL.
  - split; [apply to_lost|]. intros K. inversion K; auto.
  - split; [intros [A B]; apply to_stub; auto|]. intros K. inversion K; auto.
  - split; [intros (A & B & C); apply to_ind; auto|]. intros K. inversion K; auto.
  - split; [intros (A & B & C); apply to_ft; auto|]. intros K. inversion K; auto.
  - split; [intros (A & B & C); apply to_ct; auto|]. intros K. inversion K; auto.
  - split; [intros (A & B & C); apply to_cn; auto|]. intros K. inversion K; auto.
  - split; [intros (A & B & C); apply to_ret; auto|]. intros K. inversion K as [| | | | | | |A B]; subst; auto.
    split; [intros [_ L]; congruence|]. auto.
Qed.

(** foo: a conditional jump, a call to bar, a call to a stub, a call to an address inside bar, a
    jump to a stub, a jump, an indirect jump whose targets are not known, and a return; main
    comes first. *)
Definition cf_e (t : etype) (b : nat) : edge := mkEdge t false false b.
Definition cf_out (t : etype) (b : nat) : edge := mkEdge t false true b.
Definition cf_ts (b : nat) : list edge :=
  match b with
  | 1 => [cf_e COND_TAKEN 2; cf_e COND_NOT_TAKEN 3]
  | 2 => [cf_out CALL 7; cf_e CALL_FT 3]
  | 3 => [cf_out CALL 9; cf_e CALL_FT 4]
  | 4 => [cf_out CALL 8; cf_e CALL_FT 5]
  | 5 => [cf_out DIRECT 9; cf_e DIRECT 6; indtail_e]
  | 6 => [ret_e]
  | _ => []
  end%nat.
Definition co_cf : code :=
  mkCode [0; 1; 2]%nat
    (fun f => match f with
     | 0 => mkFunc "main" 100 0 [0] [] [] [] | 1 => mkFunc "foo" 200 1 [1; 2; 3; 4; 5; 6] [6] [6] []
     | _ => mkFunc "bar" 800 7 [7; 8] [] [] [] end%nat)
    (fun b => xblock b (cf_ts b) [])
    (fun b => if Nat.ltb b 1 then [0%nat] else if Nat.ltb b 7 then [1%nat] else [2%nat])
    (fun a => if Z.eqb a (ex_start 9) then Some "puts" else None).
Example C87_case : first_foo co_cf 1 /\ cf_main co_cf = Some
  [Text "Conditional taken found."; Text "Conditional not taken found."; Text "Call too function bar found.";
   Text "Call fall through found."; Text "PLT calls found."; Text "Call fall through found.";
   Text "Call fall through found."; Text "PLT calls found."; Text "Unknown control flow found."; Text "Return found."; Count 6].
Proof.
  split; [|vm_compute; reflexivity]. exists [0%nat], [2%nat]. split; [reflexivity|]. split; [reflexivity|].
  intros g [<-|[]]. discriminate.
Qed.
(** Every call has a line, and lines that say call are calls: neither holds.  A call to an address
    where no function of the block starts is left out, and a jump to a stub is reported as a call. *)
Theorem C87_refuted :
  (exists co f b e, first_foo co f /\ In b (f_blocks (co_fun co f)) /\ In e (b_targets (co_block co b)) /\
     e_ty e = CALL /\ e_sink e = false /\ forall s, ~ told co e s) /\
  (exists co f b e, first_foo co f /\ In b (f_blocks (co_fun co f)) /\ In e (b_targets (co_block co b)) /\
     e_ty e = DIRECT /\ told co e "PLT calls found.").
Proof.
  pose proof (proj1 C87_case) as F. split.
  - exists co_cf, 1%nat, 4%nat, (cf_out CALL 8). split; [exact F|]. split; [cbn; auto 10|]. split; [cbn; auto|].
    split; [reflexivity|]. split; [reflexivity|]. intros s H.
    inversion H as [[L _]|_ (n & P)| | | | |f _ _ _ (a & b & E1 & E2 & _)|]; try discriminate.
    cbn in E1. destruct a as [|x a]; [injection E1 as <- <-; discriminate|]. destruct a; discriminate.
  - exists co_cf, 1%nat, 5%nat, (cf_out DIRECT 9). split; [exact F|]. split; [cbn; auto 10|]. split; [cbn; auto|].
    split; [reflexivity|]. apply to_stub; [intros [L _]; discriminate|]. exists "puts". reflexivity.
Qed.
Print Assumptions C87_lines_partial.
Print Assumptions C87_counts.
Print Assumptions C87_refuted.
