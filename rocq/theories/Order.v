(** * Order: the entry and exit points that BlockDeadRegisterAnalysis (/repo/src/passes.h:650-769)
      chooses in one block *)
From Coq Require Import ZArith Bool Lia ZifyBool ZifyNat Arith String List.
From Verif Require Import Machine Jit Dfs Binary ShadowSpec RegNames BlockLive SafePaths.
Import ListNotations.
Open Scope Z_scope.

Definition ndead (d : list (Z * list string)) (i : insn) : Z :=
  Z.of_nat (List.length (dead_at d (i_addr i))).

Lemma choose_cases d i q :
  (q_save q < ndead d i /\ choose d i q = mkIpt (i_addr i) (Z.min (ndead d i) 2) (q_h q) (q_h q)) \/
  (ndead d i <= q_save q /\ choose d i q = q).
Proof.
  unfold choose, ndead. destruct (Z.ltb_spec (q_save q) (Z.of_nat (List.length (dead_at d (i_addr i))))); auto.
Qed.

(** The entry loop ends at an instruction with more dead registers than any before it. *)
Lemma entry_first d rest : forall q, 0 <= q_save q <= 1 ->
  (q_addr (entry_loop d rest q) = q_addr q /\ q_save (entry_loop d rest q) = q_save q) \/
  exists pre i post, rest = pre ++ i :: post /\ q_addr (entry_loop d rest q) = i_addr i /\
    q_save q < ndead d i /\ forall k, In k pre -> ndead d k <= 1 /\ ndead d k < ndead d i.
Proof.
  induction rest as [|i rest IH]; intros q HQ; [left; auto|]. cbn [entry_loop].
  destruct (choose_cases d i q) as [(L & ->)|(L & ->)].
  - right. set (q1 := mkIpt (i_addr i) (Z.min (ndead d i) 2) (q_h q) (q_h q)).
    assert (HERE : exists pre i' post, i :: rest = pre ++ i' :: post /\ q_addr q1 = i_addr i' /\
              q_save q < ndead d i' /\ forall k, In k pre -> ndead d k <= 1 /\ ndead d k < ndead d i').
    { exists [], i, rest. split; [auto|]. split; [auto|]. split; [auto|]. intros k []. }
    destruct (Z.eqb_spec (q_save q1) 2) as [E|E]; [exact HERE|].
    assert (S1 : q_save q1 = ndead d i /\ ndead d i = 1) by (unfold q1 in *; cbn [q_save] in *; lia).
    assert (NEXT : forall q2, q_addr q2 = q_addr q1 -> q_save q2 = q_save q1 ->
              exists pre i' post, i :: rest = pre ++ i' :: post /\ q_addr (entry_loop d rest q2) = i_addr i' /\
              q_save q < ndead d i' /\ forall k, In k pre -> ndead d k <= 1 /\ ndead d k < ndead d i').
    { intros q2 A B. destruct (IH q2) as [(X & _)|(pre & i' & post & X1 & X2 & X3 & X4)]; [lia| |].
      - rewrite X, A. exact HERE.
      - exists (i :: pre), i', post. split; [rewrite X1; auto|]. split; [auto|]. split; [lia|].
        intros k [<-|K]; [lia|auto]. }
    destruct (isop (i_op i) OPush); [apply NEXT; auto|].
    destruct (i_wmem i); [exact HERE|]. destruct (moves_sp i); [exact HERE|]. apply NEXT; auto.
  - destruct (Z.eqb_spec (q_save q) 2) as [E|E]; [left; auto|].
    assert (NEXT : forall q2, q_addr q2 = q_addr q -> q_save q2 = q_save q ->
              (q_addr (entry_loop d rest q2) = q_addr q /\ q_save (entry_loop d rest q2) = q_save q) \/
              exists pre i' post, i :: rest = pre ++ i' :: post /\ q_addr (entry_loop d rest q2) = i_addr i' /\
              q_save q < ndead d i' /\ forall k, In k pre -> ndead d k <= 1 /\ ndead d k < ndead d i').
    { intros q2 A B. destruct (IH q2) as [(X & Y)|(pre & i' & post & X1 & X2 & X3 & X4)]; [lia| |].
      - left. split; congruence.
      - right. exists (i :: pre), i', post. split; [rewrite X1; auto|]. split; [auto|]. split; [lia|].
        intros k [<-|K]; [lia|auto]. }
    destruct (isop (i_op i) OPush); [apply NEXT; auto|].
    destruct (i_wmem i); [left; auto|]. destruct (moves_sp i); [left; auto|]. apply NEXT; auto.
Qed.

(** The exit loop, which goes backwards, likewise; it passes over returns. *)
Lemma exit_last d ris : forall q, 0 <= q_save q <= 1 ->
  (q_addr (exit_loop d ris q) = q_addr q /\ q_save (exit_loop d ris q) = q_save q) \/
  exists later i earlier, ris = later ++ i :: earlier /\ q_addr (exit_loop d ris q) = i_addr i /\
    q_save q < ndead d i /\
    forall k, In k later -> i_op k = ORet \/ (ndead d k <= 1 /\ ndead d k < ndead d i).
Proof.
  induction ris as [|i rest IH]; intros q HQ; [left; auto|]. cbn [exit_loop].
  assert (PASS : forall q2, q_addr q2 = q_addr q -> q_save q2 = q_save q ->
      i_op i = ORet \/ ndead d i <= q_save q ->
      (q_addr (exit_loop d rest q2) = q_addr q /\ q_save (exit_loop d rest q2) = q_save q) \/
      exists later i' earlier, i :: rest = later ++ i' :: earlier /\ q_addr (exit_loop d rest q2) = i_addr i' /\
        q_save q < ndead d i' /\
        forall k, In k later -> i_op k = ORet \/ (ndead d k <= 1 /\ ndead d k < ndead d i')).
  { intros q2 A B D. destruct (IH q2) as [(X & Y)|(later & i' & earlier & X1 & X2 & X3 & X4)]; [lia| |].
    - left. split; congruence.
    - right. exists (i :: later), i', earlier. split; [rewrite X1; auto|]. split; [auto|]. split; [lia|].
      intros k [<-|K]; [|auto]. destruct D as [D|D]; [auto|right; lia]. }
  assert (TRY : forall q0, q_addr q0 = q_addr q -> q_save q0 = q_save q ->
      let q1 := choose d i q0 in
      let r := if q_save q1 =? 2 then q1 else exit_loop d rest q1 in
      (q_addr r = q_addr q /\ q_save r = q_save q) \/
      exists later i' earlier, i :: rest = later ++ i' :: earlier /\ q_addr r = i_addr i' /\
        q_save q < ndead d i' /\
        forall k, In k later -> i_op k = ORet \/ (ndead d k <= 1 /\ ndead d k < ndead d i')).
  { intros q0 A B. cbv zeta. destruct (choose_cases d i q0) as [(L & ->)|(L & ->)].
    - right. set (q1 := mkIpt (i_addr i) (Z.min (ndead d i) 2) (q_h q0) (q_h q0)).
      destruct (Z.eqb_spec (q_save q1) 2) as [E|E].
      + exists [], i, rest. split; [auto|]. split; [auto|]. split; [lia|]. intros k [].
      + assert (S1 : q_save q1 = ndead d i /\ ndead d i = 1) by (unfold q1 in *; cbn [q_save] in *; lia).
        destruct (IH q1) as [(X & Y)|(later & i' & earlier & X1 & X2 & X3 & X4)]; [lia| |].
        * exists [], i, rest. split; [auto|]. split; [rewrite X; auto|]. split; [lia|]. intros k [].
        * exists (i :: later), i', earlier. split; [rewrite X1; auto|]. split; [auto|]. split; [lia|].
          intros k [<-|K]; [right; lia|auto].
    - destruct (Z.eqb_spec (q_save q0) 2) as [E|E]; [lia|]. apply PASS; auto. right. lia. }
  destruct (isop (i_op i) ORet) eqn:ER; [apply PASS; auto; left; apply isop_true; auto|].
  destruct (i_wmem i); [left; auto|].
  destruct (isop (i_op i) OPop); [apply TRY; auto|].
  destruct (moves_sp i); [left; auto|]. destruct (reads_flags i); [left; auto|]. apply TRY; auto.
Qed.

Lemma two_splits {A} (a c : list A) j b i e : a ++ j :: b = c ++ i :: e ->
  (exists x, c = a ++ x /\ j :: b = x ++ i :: e) \/ (exists y, a = c ++ i :: y /\ e = y ++ j :: b).
Proof.
  revert c. induction a as [|x a IH]; intros c H.
  - left. exists c. auto.
  - destruct c as [|z c]; cbn [app] in H; injection H as -> H.
    + right. exists a. auto.
    + destruct (IH c H) as [(w & -> & K)|(w & -> & K)]; [left; exists w; auto|right; exists w; auto].
Qed.

(** Returns write no register but rsp. *)
Definition ret_plain (i : insn) : Prop :=
  i_op i = ORet -> forall r p, In (MG r p) (i_written i) -> r = RSP.

Lemma ret_dead i : i_op i = ORet -> ret_plain i -> dead_before [i] = [].
Proof.
  intros O R. specialize (R O). cbn [dead_before]. unfold live_step.
  assert (W : forall l, (forall r p, In (MG r p) l -> r = RSP) -> fold_left ins_written l [] = []).
  { induction l as [|w l IH]; intros H; [auto|]. cbn [fold_left].
    replace (ins_written [] w) with (@nil string); [apply IH; intros r p K; apply (H r p); right; auto|].
    destruct w as [r p| |]; auto. rewrite (H r p (or_introl eq_refl)). reflexivity. }
  rewrite (W (i_written i) R). generalize (i_read i). intros l. induction l as [|w l IH]; auto.
  cbn [fold_left]. replace (del_read [] w) with (@nil string); auto.
  unfold del_read. destruct (normalize (base_name w)); reflexivity.
Qed.

Theorem entry_before_exit is body tail m1 m2 :
  NoDup (map i_addr is) -> block_shape is body tail -> Forall ret_plain is ->
  entry_point is = Some m1 -> exit_point is = Some m2 ->
  exists a b c i j, is = a ++ b ++ c /\ hd_error (b ++ c) = Some i /\ i_addr i = m_addr m1 /\
    hd_error c = Some j /\ i_addr j = m_addr m2.
Proof.
  intros ND (SH & NR & TL) RP E1 E2. unfold entry_point in E1. unfold exit_point in E2.
  set (d := live_map is) in *.
  destruct (_ && _)%bool eqn:C1 in E1; [|discriminate]. injection E1 as <-.
  destruct (_ && _)%bool eqn:C2 in E2; [|discriminate]. injection E2 as <-.
  cbn [make_mid m_addr].
  destruct (entry_first d is ipt0) as [(_ & X)|(a & j & b & X1 & X2 & X3 & X4)];
    [cbn; lia|rewrite X in C1; discriminate|].
  destruct (exit_last d (rev is) ipt0) as [(_ & Y)|(la & i & ea & Y1 & Y2 & Y3 & Y4)];
    [cbn; lia|rewrite Y in C2; discriminate|].
  assert (Y1' : is = rev ea ++ i :: rev la).
  { rewrite <- (rev_involutive is), Y1, rev_app_distr. cbn [rev]. rewrite <- app_assoc. reflexivity. }
  pose proof (eq_trans (eq_sym X1) Y1') as SP. apply two_splits in SP.
  destruct SP as [(x & S1 & S2)|(y & S1 & S2)].
  - exists a, x, (i :: rev la), j, i. split; [rewrite X1, S2; auto|].
    split; [rewrite <- S2; auto|]. auto.
  - exfalso. assert (KI : In i a) by (rewrite S1; apply in_or_app; right; left; auto).
    apply X4 in KI. cbn [ipt0 q_save] in X3, Y3.
    assert (KJ : In j la) by (apply in_rev; rewrite S2; apply in_or_app; right; left; auto).
    apply Y4 in KJ. destruct KJ as [KJ|KJ]; [|lia].
    assert (B : b = []).
    { destruct TL as [->|(r & -> & OR)].
      - rewrite app_nil_r in SH. rewrite Forall_forall in NR. exfalso. apply (NR j); auto.
        rewrite <- SH, X1. apply in_or_app; right; left; auto.
      - destruct (destruct_list_rev b) as [->|(b' & z & ->)]; auto. exfalso.
        rewrite X1 in SH. change (a ++ j :: b' ++ [z]) with (a ++ (j :: b') ++ [z]) in SH.
        rewrite app_assoc in SH. apply app_inj_tail in SH. destruct SH as [SH _].
        rewrite Forall_forall in NR. apply (NR j); auto. rewrite <- SH. apply in_or_app; right; left; auto. }
    subst b.
    assert (D0 : ndead d j = 0).
    { unfold ndead, d. pose proof (live_map_at is ND a j [] X1) as LM. rewrite LM.
      rewrite ret_dead; auto. rewrite Forall_forall in RP. apply RP. rewrite X1. apply in_or_app; right; left; auto. }
    lia.
Qed.
