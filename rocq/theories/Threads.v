(** * Threads: interleaved execution of emitted code.

    Any number of threads run on one memory; each scheduling step executes one
    instruction of one thread.  Every thread has its own registers, flags and
    gs base (the gs base is per thread, runtime.c:38-40). *)
From Coq Require Import ZArith List Bool Lia ZifyBool ZifyNat.
From Verif Require Import Machine MachineFacts ShadowSpec.
Import ListNotations.
Open Scope Z_scope.

Definition with_mem (s : state) (m : memory) : state :=
  mkState (rg s) m (gs s) (fl s) (pc s).

(** Status of a thread. *)
Inductive tstat :=
| TRun (s : state)
| TDone (s : state)
| TTrap
| TFault.

(** One instruction of a thread that runs alone. *)
Definition tstep (c : list instr) (mp : perm) (t : tstat) : tstat :=
  match t with
  | TRun s => match step c mp s with
              | SNext s' => TRun s'
              | SEnd => TDone s
              | STrap => TTrap
              | SFault => TFault
              end
  | _ => t
  end.
Fixpoint solo (c : list instr) (mp : perm) (n : nat) (t : tstat) : tstat :=
  match n with O => t | S k => solo c mp k (tstep c mp t) end.

(** All threads together: statuses and the one memory. *)
Record config := mkConfig { stat : nat -> tstat; shared : memory }.

Definition updt (f : nat -> tstat) (i : nat) (t : tstat) : nat -> tstat :=
  fun j => if Nat.eqb j i then t else f j.

(** Thread [i] executes one instruction on the shared memory. *)
Definition istep (cs : nat -> list instr) (mp : perm) (i : nat) (g : config) : config :=
  match stat g i with
  | TRun s =>
      match step (cs i) mp (with_mem s (shared g)) with
      | SNext s' => mkConfig (updt (stat g) i (TRun s')) (mem s')
      | SEnd => mkConfig (updt (stat g) i (TDone (with_mem s (shared g)))) (shared g)
      | STrap => mkConfig (updt (stat g) i TTrap) (shared g)
      | SFault => mkConfig (updt (stat g) i TFault) (shared g)
      end
  | _ => g
  end.
Fixpoint irun (cs : nat -> list instr) (mp : perm) (sch : list nat) (g : config) : config :=
  match sch with [] => g | i :: r => irun cs mp r (istep cs mp i g) end.

(** Agreement on a footprint. *)
Definition agree (F : perm) (m1 m2 : memory) : Prop :=
  forall x, F x = true -> m1 x = m2 x.

Lemma store_in n : forall m1 m2 a v x,
  a <= x < a + Z.of_nat n -> store m1 a n v x = store m2 a n v x.
Proof.
  induction n as [|n IH]; intros m1 m2 a v x Hx; [lia|]. cbn [store].
  destruct (Z.eq_dec x a) as [->|Hne].
  - rewrite !store_out by lia. unfold updm. destruct (Z.eq_dec a a); congruence.
  - apply IH. lia.
Qed.

Lemma agree_store F m1 m2 a n v :
  agree F m1 m2 -> agree F (store m1 a n v) (store m2 a n v).
Proof.
  intros H x Hx. destruct (Z_lt_dec x a); [rewrite !store_out by lia; auto|].
  destruct (Z_lt_dec x (a + Z.of_nat n)); [apply store_in; lia|].
  rewrite !store_out by lia. auto.
Qed.

Lemma acc_load F m1 m2 a n :
  acc F a n = true -> agree F m1 m2 -> load m1 a n = load m2 a n.
Proof.
  intros H HA. apply acc_spec in H. destruct H as (_ & _ & H).
  apply load_ext. intros x Hx. apply HA. auto.
Qed.
Lemma acc_store_out F m a n v x :
  acc F a n = true -> F x = false -> store m a n v x = m x.
Proof.
  intros H HF. apply acc_spec in H. destruct H as (_ & _ & H).
  apply store_out. destruct (Z_lt_dec x a); auto.
  destruct (Z_lt_dec x (a + Z.of_nat n)); [|lia].
  rewrite H in HF by lia. discriminate.
Qed.
Lemma acc_mono F mp a n :
  (forall x, F x = true -> mp x = true) -> acc F a n = true -> acc mp a n = true.
Proof.
  intros HM H. apply acc_spec in H. apply acc_spec. destruct H as (? & ? & H).
  repeat split; auto.
Qed.

(** An instruction that stays inside footprint [F] behaves the same on any
    memory that agrees on [F], and changes nothing outside [F]. *)
Lemma step_frame c F mp s m2 :
  (forall x, F x = true -> mp x = true) -> agree F (mem s) m2 ->
  match step c F s with
  | SNext s' => exists m2', step c mp (with_mem s m2) = SNext (with_mem s' m2') /\
                  agree F (mem s') m2' /\ (forall x, F x = false -> m2' x = m2 x)
  | SEnd => step c mp (with_mem s m2) = SEnd
  | STrap => step c mp (with_mem s m2) = STrap
  | SFault => True
  end.
Proof.
  intros HM HA. destruct s as [g m b f n]. unfold with_mem. cbn [rg mem gs fl pc] in *.
  unfold step. cbn [rg mem gs fl pc].
  destruct (nth_error c n) as [i|]; [|reflexivity].
  assert (EA : forall o, ea (mkState g m2 b f n) o = ea (mkState g m b f n) o)
    by (intros []; reflexivity).
  destruct i; cbv beta zeta iota; rewrite ?EA;
    repeat match goal with
    | |- context [if acc F ?a ?k then _ else _] =>
        destruct (acc F a k) eqn:?; [|exact I]
    end;
    repeat match goal with
    | H : acc F ?a ?k = true |- context [acc mp ?a ?k] =>
        rewrite (acc_mono F mp a k HM H)
    end;
    unfold goto, upd_state; cbn [rg mem gs fl pc];
    try (destruct (ZF f)); try (match goal with |- context [find_label c ?z] => destruct (find_label c z) end); try exact I;
    try (match goal with |- context [?z =? 98] => destruct (z =? 98) end; auto);
    unfold load64, load32, store64 in *;
    repeat match goal with
    | H : acc F ?a ?k = true |- context [load m ?a ?k] =>
        rewrite (acc_load F m m2 a k H HA)
    end;
    try (eexists; split; [reflexivity|]; cbn [mem]; split;
         [ first [ apply agree_store; exact HA | exact HA ]
         | intros x Hx; first [ eapply acc_store_out; eassumption | reflexivity ] ]).
Qed.

(** ** Interleaving theorem *)
Section Inter.
  Context (cs : nat -> list instr) (mp : perm) (F : nat -> perm).
  Context (s0 : nat -> state) (m0 : memory).
  (** Footprints are pairwise disjoint parts of accessible memory. *)
  Hypothesis Fsub : forall i x, F i x = true -> mp x = true.
  Hypothesis Fdisj : forall i j x, i <> j -> F i x = true -> F j x = false.
  (** Run alone, every thread stays inside its footprint. *)
  Hypothesis Fsafe : forall i n, solo (cs i) (F i) n (TRun (with_mem (s0 i) m0)) <> TFault.

  Definition count (i : nat) (sch : list nat) : nat := count_occ Nat.eq_dec sch i.

  (** Thread status in the interleaving vs. alone. *)
  Definition same (i : nat) (t : tstat) (m : memory) (u : tstat) : Prop :=
    match t, u with
    | TRun s, TRun s' => rg s = rg s' /\ gs s = gs s' /\ fl s = fl s' /\ pc s = pc s' /\
                         agree (F i) (mem s') m
    | TDone s, TDone s' => rg s = rg s' /\ gs s = gs s' /\ fl s = fl s' /\ pc s = pc s' /\
                         agree (F i) (mem s') m /\ agree (F i) (mem s') (mem s)
    | TTrap, TTrap => True
    | _, _ => False
    end.

  Definition solo_at i n := solo (cs i) (F i) n (TRun (with_mem (s0 i) m0)).

  Lemma solo_S c p n : forall t, solo c p (S n) t = tstep c p (solo c p n t).
  Proof. induction n as [|n IH]; intros t; [reflexivity|]. cbn [solo] in *. apply IH. Qed.

  Definition inv (ns : nat -> nat) (g : config) : Prop :=
    (forall i, same i (stat g i) (shared g) (solo_at i (ns i))) /\
    (forall x, (forall i, F i x = false) -> shared g x = m0 x).

  Lemma same_other i j t m m' u :
    i <> j -> (forall x, F j x = false -> m' x = m x) ->
    same i t m u -> same i t m' u.
  Proof.
    intros Hij HM. unfold same.
    assert (HX : forall s', agree (F i) (mem s') m -> agree (F i) (mem s') m').
    { intros s' HA x Hx. rewrite HM; [apply HA; auto|]. eapply Fdisj; eauto. }
    destruct t, u; auto; intuition.
  Qed.

  Lemma istep_inv ns g i :
    inv ns g -> inv (fun j => if Nat.eqb j i then S (ns j) else ns j) (istep cs mp i g).
  Proof.
    intros [HI HM]. pose proof (HI i) as Hi.
    pose proof (Fsafe i (S (ns i))) as HS. fold (solo_at i (S (ns i))) in HS.
    assert (ES : solo_at i (S (ns i)) = tstep (cs i) (F i) (solo_at i (ns i))) by apply solo_S.
    unfold istep. destruct (stat g i) as [s|s| |] eqn:EG.
    - destruct (solo_at i (ns i)) as [u|u| |] eqn:EU; cbn [same] in Hi; try contradiction.
      destruct Hi as (E1 & E2 & E3 & E4 & HA).
      assert (EW : with_mem s (shared g) = with_mem u (shared g)).
      { unfold with_mem. rewrite E1, E2, E3, E4. reflexivity. }
      rewrite EW.
      pose proof (step_frame (cs i) (F i) mp u (shared g) (Fsub i) HA) as K.
      cbn [tstep] in ES. rewrite ES in HS.
      destruct (step (cs i) (F i) u) as [u'| | |] eqn:ESt.
      + destruct K as (m2' & K1 & K2 & K3). rewrite K1.
        split.
        * intros j. cbn [stat shared mem with_mem]. unfold updt.
          destruct (Nat.eqb_spec j i) as [->|Hj].
          -- rewrite ES. cbn. repeat split; auto.
          -- eapply same_other; eauto.
        * intros x Hx. cbn [shared mem with_mem]. rewrite K3; auto.
      + rewrite K. split.
        * intros j. cbn [stat shared]. unfold updt.
          destruct (Nat.eqb_spec j i) as [->|Hj]; [|apply HI].
          rewrite ES. cbn. repeat split; auto.
        * cbn [shared]. auto.
      + rewrite K. split.
        * intros j. cbn [stat shared]. unfold updt.
          destruct (Nat.eqb_spec j i) as [->|Hj]; [|apply HI].
          rewrite ES. cbn. auto.
        * cbn [shared]. auto.
      + congruence.
    - split; auto. intros j. destruct (Nat.eqb_spec j i) as [->|Hj]; auto.
      rewrite EG. destruct (solo_at i (ns i)) eqn:EU; try contradiction.
      rewrite ES. cbn [tstep]. exact Hi.
    - split; auto. intros j. destruct (Nat.eqb_spec j i) as [->|Hj]; auto.
      rewrite EG. destruct (solo_at i (ns i)) eqn:EU; try contradiction.
      rewrite ES. cbn [tstep]. exact Hi.
    - exfalso. destruct (solo_at i (ns i)); contradiction.
  Qed.

  Lemma inv_ext ns ns' g : (forall i, ns i = ns' i) -> inv ns g -> inv ns' g.
  Proof. intros H [H1 H2]. split; auto. intros i. rewrite <- H. auto. Qed.

  Lemma irun_inv sch : forall ns g,
    inv ns g -> inv (fun i => ns i + count i sch)%nat (irun cs mp sch g).
  Proof.
    induction sch as [|i sch IH]; intros ns g H; cbn [irun].
    - eapply inv_ext; [|exact H]. intros. cbn. lia.
    - eapply inv_ext; [|apply IH; apply istep_inv; exact H].
      intros j. cbn. unfold count. cbn [count_occ].
      destruct (Nat.eqb_spec j i) as [->|Hj].
      + destruct (Nat.eq_dec i i); [lia|congruence].
      + destruct (Nat.eq_dec i j); [congruence|lia].
  Qed.

  Definition start : config := mkConfig (fun i => TRun (s0 i)) m0.

  (** Every schedule gives every thread what it computes alone. *)
  Lemma interleave sch :
    (forall i, same i (stat (irun cs mp sch start) i) (shared (irun cs mp sch start))
                    (solo_at i (count i sch))) /\
    (forall x, (forall i, F i x = false) -> shared (irun cs mp sch start) x = m0 x).
  Proof.
    apply (irun_inv sch (fun _ => 0%nat) start). split.
    - intros i. cbn. repeat split; auto; intros x Hx; reflexivity.
    - auto.
  Qed.
End Inter.

(** Relation between [exec] and [solo]. *)
Lemma solo_stop c p n t : tstep c p t = t -> solo c p n t = t.
Proof. intros H. induction n as [|n IH]; cbn; auto. rewrite H. exact IH. Qed.

Lemma run_solo c p n : forall s r,
  run n c p s = r ->
  match r with
  | Done s' => solo c p n (TRun s) = TDone s'
  | Trap => solo c p n (TRun s) = TTrap
  | Fault => True
  | OutOfFuel => True
  end.
Proof.
  induction n as [|n IH]; intros s r H; cbn in H; subst; auto.
  cbn [solo tstep run]. destruct (step c p s) as [s'| | |] eqn:E.
  - specialize (IH s' _ eq_refl). destruct (run n c p s'); auto.
  - apply solo_stop. reflexivity.
  - apply solo_stop. reflexivity.
  - auto.
Qed.

Lemma solo_add c p n m t : solo c p (n + m) t = solo c p m (solo c p n t).
Proof. revert t. induction n as [|n IH]; intros t; cbn; auto. Qed.

(** A thread whose solo run ends normally or in a trap never faults. *)
Lemma exec_solo c p s r :
  exec c p s r -> r <> Fault ->
  (forall n, solo c p n (TRun (enter s)) <> TFault) /\
  exists N, forall n, (N <= n)%nat ->
    solo c p n (TRun (enter s)) = match r with Done s' => TDone s' | _ => TTrap end.
Proof.
  intros [HR [N HN]] HF. pose proof (run_solo c p N (enter s) r HN) as K.
  assert (T : exists t, solo c p N (TRun (enter s)) = t /\ tstep c p t = t /\ t <> TFault /\
               t = match r with Done s' => TDone s' | _ => TTrap end).
  { destruct r as [s'| | |]; try congruence; [exists (TDone s')|exists TTrap];
      repeat split; auto; discriminate. }
  destruct T as (t & T1 & T2 & T3 & T4).
  assert (A : forall n, (N <= n)%nat -> solo c p n (TRun (enter s)) = t).
  { intros n Hn. replace n with (N + (n - N))%nat by lia. rewrite solo_add, T1.
    apply solo_stop. auto. }
  split.
  - intros n Hn. destruct (le_lt_dec N n) as [L|L].
    + rewrite A in Hn by auto. congruence.
    + assert (B : solo c p N (TRun (enter s)) = TFault).
      { replace N with (n + (N - n))%nat by lia. rewrite solo_add, Hn.
        apply solo_stop. reflexivity. }
      congruence.
  - exists N. intros n Hn. rewrite A; auto.
Qed.
