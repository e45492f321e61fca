(** * Runtime: model of /repo/src/runtime.c and of the layout in codegen.cc. *)
From Coq Require Import ZArith List Bool Lia ZifyBool ZifyNat.
From Verif Require Import Machine MachineFacts ShadowSpec JitPushPop.
Import ListNotations.
Open Scope Z_scope.
Ltac Zify.zify_post_hook ::= Z.div_mod_to_equations.

(** runtime.c:21 [__stack_sz]. *)
Definition stack_sz : Z := 8 * 1024 * 1024.
(** Number of entries that fit above the 32-byte header. *)
Definition capacity : nat := Z.to_nat ((stack_sz - 32) / 8).

Inductive rres :=
| RAbort                            (* abort() *)
| RFault                            (* memory fault *)
| ROk (m : memory) (gsbase : Z).

(** One 8-byte store of C code. *)
Definition cstore (mp : perm) (m : memory) (a v : Z) : option memory :=
  if acc mp a 8 then Some (store64 m a v) else None.

(** runtime.c:38-51 [__shadow_guard_init_stack].  [addr] is what malloc
    returned (0 when it failed: the result is not checked), [prctl_ok] whether
    arch_prctl succeeded. *)
Definition init_stack (mp : perm) (m : memory) (addr : Z) (prctl_ok : bool) : rres :=
  if negb prctl_ok then RAbort
  else
    let a1 := (addr + 8) mod W in
    match cstore mp m a1 0 with None => RFault | Some m1 =>
    let a2 := (a1 + 8) mod W in
    match cstore mp m1 a2 0 with None => RFault | Some m2 =>
    let a3 := (a2 + 8) mod W in
    match cstore mp m2 a3 0 with None => RFault | Some m3 =>
    let a4 := (a3 + 8) mod W in
    match cstore mp m3 (addr mod W) a4 with None => RFault | Some m4 =>
    ROk m4 addr
    end end end end.

Lemma cstore_ok mp m a v : mapped mp a 8 -> cstore mp m a v = Some (store64 m a v).
Proof. intros (H1 & H2 & H3). unfold cstore. rewrite acc8; auto. Qed.

Lemma init_ok mp m addr :
  mapped mp addr 32 -> addr + 32 < W ->
  exists m', init_stack mp m addr true = ROk m' addr /\
    shadow_rep m' addr [] /\
    load64 m' (addr + 8) = 0 /\ load64 m' (addr + 16) = 0 /\
    (forall x, ~ inside addr 32 x -> m' x = m x).
Proof.
  intros HM HW. pose proof HM as (M1 & M2 & M3).
  assert (MS : forall d, 0 <= d <= 24 -> mapped mp (addr + d) 8).
  { intros d Hd. eapply mapped_sub; [exact HM| |]; lia. }
  unfold init_stack. cbn [negb].
  rewrite (Z.mod_small (addr + 8)) by lia.
  rewrite (cstore_ok mp m (addr + 8)) by (apply MS; lia).
  replace (addr + 8 + 8) with (addr + 16) by lia. rewrite (Z.mod_small (addr + 16)) by lia.
  rewrite cstore_ok by (apply MS; lia).
  replace (addr + 16 + 8) with (addr + 24) by lia. rewrite (Z.mod_small (addr + 24)) by lia.
  rewrite cstore_ok by (apply MS; lia).
  replace (addr + 24 + 8) with (addr + 32) by lia. rewrite (Z.mod_small (addr + 32)) by lia.
  rewrite (Z.mod_small addr) by lia.
  rewrite cstore_ok by (specialize (MS 0); rewrite Z.add_0_r in MS; apply MS; lia).
  eexists. split; [reflexivity|].
  split; [split; [|split]|split; [|split]].
  - rewrite load64_store64_same by lia. unfold slot. cbn. lia.
  - rewrite load64_store64_disj by lia. apply load64_store64_same. lia.
  - intros i v Hi. destruct i; discriminate.
  - rewrite !load64_store64_disj by lia. apply load64_store64_same. lia.
  - rewrite !load64_store64_disj by lia. rewrite load64_store64_same; lia.
  - intros x Hx. unfold inside in Hx. rewrite !store64_out by lia. reflexivity.
Qed.

(** malloc failure: the null page is not accessible. *)
Lemma init_null mp m : mp 8 = false -> init_stack mp m 0 true = RFault.
Proof.
  intros H. unfold init_stack, cstore. cbn [negb].
  change ((0 + 8) mod W) with 8.
  destruct (acc mp 8 8) eqn:E; auto. apply acc_spec in E. destruct E as (_ & _ & E).
  rewrite E in H; [discriminate|lia].
Qed.

(** ** Thread creation (runtime.c:53-81)

    A process: its memory, the blocks the runtime obtained from malloc, and
    its threads.  [t_fn]/[t_arg] are ghost: what the caller of pthread_create
    asked for. *)
Inductive tstate :=
| Created                                    (* start routine not yet run *)
| Running (gsb : Z) (fn arg : Z).            (* called [fn arg] *)
Record thread := mkThread { t_info : Z; t_fn : Z; t_arg : Z; t_st : tstate }.
Record proc := mkProc { pm : memory; blocks : list (Z * Z); threads : list thread }.

Inductive pev :=
| PCreate (fn arg info : Z)    (* pthread_create succeeded; malloc returned [info] *)
| PCreateFail (fn arg info : Z)(* the real pthread_create reported an error *)
| PStart (i : nat) (addr : Z)  (* thread [i] starts; malloc returned [addr] *)
| PWorld (m : memory)          (* program code ran, leaving the runtime's blocks alone *)
| PShadow (i : nat) (m : memory). (* thread [i]'s snippets ran: its shadow block may change *)

(** malloc: the new block is accessible and apart from all earlier ones. *)
Definition fresh (mp : perm) (bs : list (Z * Z)) (a n : Z) : Prop :=
  mapped mp a n /\ a + n < W /\ forall b k, In (b, k) bs -> apart a n b k.

Fixpoint set_nth {A} (i : nat) (x : A) (l : list A) : list A :=
  match l, i with
  | [], _ => []
  | _ :: r, O => x :: r
  | y :: r, S j => y :: set_nth j x r
  end.

(** runtime.c:76-78: allocate and fill the info block
    (original_arg at +0, original_fn at +8). *)
Definition fill_info (m : memory) (info fn arg : Z) : memory :=
  store64 (store64 m info arg) (info + 8) fn.

Inductive pstep (mp : perm) : proc -> pev -> proc -> Prop :=
| ps_create p fn arg info :
    fresh mp (blocks p) info 16 -> 0 <= fn < W -> 0 <= arg < W ->
    pstep mp p (PCreate fn arg info)
      (mkProc (fill_info (pm p) info fn arg) ((info, 16) :: blocks p)
              (threads p ++ [mkThread info fn arg Created]))
| ps_create_fail p fn arg info :
    fresh mp (blocks p) info 16 ->
    pstep mp p (PCreateFail fn arg info)
      (mkProc (fill_info (pm p) info fn arg) ((info, 16) :: blocks p) (threads p))
| ps_start p i addr t m :
    (* runtime.c:60-66 [__pthread_fn_wrapper] *)
    nth_error (threads p) i = Some t -> t_st t = Created ->
    fresh mp (blocks p) addr stack_sz ->
    init_stack mp (pm p) addr true = ROk m addr ->
    pstep mp p (PStart i addr)
      (mkProc m ((addr, stack_sz) :: blocks p)
         (set_nth i (mkThread (t_info t) (t_fn t) (t_arg t)
            (Running addr (load64 m (t_info t + 8)) (load64 m (t_info t)))) (threads p)))
| ps_world p m :
    (forall b k x, In (b, k) (blocks p) -> inside b k x -> m x = pm p x) ->
    pstep mp p (PWorld m) (mkProc m (blocks p) (threads p))
| ps_shadow p i m t g fn arg :
    nth_error (threads p) i = Some t -> t_st t = Running g fn arg ->
    (forall b k x, In (b, k) (blocks p) -> b <> g -> inside b k x -> m x = pm p x) ->
    pstep mp p (PShadow i m) (mkProc m (blocks p) (threads p)).

Inductive psteps (mp : perm) : proc -> list pev -> proc -> Prop :=
| pss_nil p : psteps mp p [] p
| pss_cons p e p1 es p2 : pstep mp p e p1 -> psteps mp p1 es p2 -> psteps mp p (e :: es) p2.

(** The process before any thread is created; its own shadow block exists. *)
Definition proc0 (m : memory) (base : Z) : proc := mkProc m [(base, stack_sz)] [].

(** Two runtime blocks are the same block or apart. *)
Definition blocks_apart (bs : list (Z * Z)) : Prop :=
  forall i j a n b k, nth_error bs i = Some (a, n) -> nth_error bs j = Some (b, k) ->
    i <> j -> apart a n b k.

Record proc_ok (p : proc) : Prop := {
  pk_apart : blocks_apart (blocks p);
  pk_pos : forall a n, In (a, n) (blocks p) -> 0 < n;
  pk_info : forall i t, nth_error (threads p) i = Some t ->
     In (t_info t, 16) (blocks p) /\
     load64 (pm p) (t_info t) = t_arg t /\ load64 (pm p) (t_info t + 8) = t_fn t;
  pk_run : forall i t g fn arg, nth_error (threads p) i = Some t ->
     t_st t = Running g fn arg ->
     fn = t_fn t /\ arg = t_arg t /\ In (g, stack_sz) (blocks p);
  pk_gs : forall i j ti tj g fn arg g' fn' arg', i <> j ->
     nth_error (threads p) i = Some ti -> nth_error (threads p) j = Some tj ->
     t_st ti = Running g fn arg -> t_st tj = Running g' fn' arg' ->
     apart g stack_sz g' stack_sz }.

Lemma blocks_apart_cons bs a n :
  blocks_apart bs -> (forall b k, In (b, k) bs -> apart a n b k) ->
  blocks_apart ((a, n) :: bs).
Proof.
  intros H HF i j a1 n1 b1 k1 Hi Hj Hij.
  destruct i, j; cbn in Hi, Hj; try congruence.
  - inversion Hi; subst. apply HF. eapply nth_error_In; eauto.
  - inversion Hj; subst. specialize (HF a1 n1 (nth_error_In _ _ Hi)).
    unfold apart in *. lia.
  - eapply H; eauto.
Qed.

Lemma blocks_same bs a n b k :
  blocks_apart bs -> (forall x y, In (x, y) bs -> 0 < y) ->
  In (a, n) bs -> In (b, k) bs -> (exists x, inside a n x /\ inside b k x) -> a = b /\ n = k.
Proof.
  intros HA HP H1 H2 (x & X1 & X2).
  destruct (In_nth_error _ _ H1) as [i Hi]. destruct (In_nth_error _ _ H2) as [j Hj].
  destruct (Nat.eq_dec i j) as [->|Hne].
  - rewrite Hi in Hj. inversion Hj; auto.
  - pose proof (HA _ _ _ _ _ _ Hi Hj Hne). unfold apart, inside in *. lia.
Qed.

Lemma nth_set_nth {A} i (x : A) l j :
  nth_error (set_nth i x l) j =
  if Nat.eqb i j then (match nth_error l i with Some _ => Some x | None => None end)
  else nth_error l j.
Proof.
  revert i j. induction l as [|y l IH]; intros i j; destruct i, j; cbn; auto;
    destruct (Nat.eqb i j); auto.
Qed.

Lemma fill_out m info fn arg x : ~ inside info 16 x -> fill_info m info fn arg x = m x.
Proof. intros H. unfold fill_info, inside in *. rewrite !store64_out by lia. auto. Qed.
Lemma fill_arg m info fn arg : 0 <= arg < W -> load64 (fill_info m info fn arg) info = arg.
Proof.
  intros H. unfold fill_info. rewrite load64_store64_disj by lia.
  apply load64_store64_same; auto.
Qed.
Lemma fill_fn m info fn arg :
  0 <= fn < W -> load64 (fill_info m info fn arg) (info + 8) = fn.
Proof. intros H. apply load64_store64_same; auto. Qed.

(** Keeping the info blocks keeps their contents. *)
Lemma info_kept p m t :
  (forall x, inside (t_info t) 16 x -> m x = pm p x) ->
  load64 (pm p) (t_info t) = t_arg t -> load64 (pm p) (t_info t + 8) = t_fn t ->
  load64 m (t_info t) = t_arg t /\ load64 m (t_info t + 8) = t_fn t.
Proof.
  intros H <- <-. unfold inside in H. split; apply load64_ext; intros x Hx; apply H; lia.
Qed.

Lemma apart_inside a n b k x : apart a n b k -> inside a n x -> ~ inside b k x.
Proof. unfold apart, inside. lia. Qed.

Lemma pstep_ok mp p e p' : pstep mp p e p' -> proc_ok p -> proc_ok p'.
Proof.
  intros H [PA PP PI PR PG]. destruct H as
    [p fn arg info (FM & FW & FA) Hfn Harg | p fn arg info (FM & FW & FA)
    | p i addr t m Ht Hst (FM & FW & FA) HI | p m HK | p i m t g fn arg Ht Hst HK].
  - (* create *)
    assert (KX : forall t x, In (t_info t, 16) (blocks p) -> inside (t_info t) 16 x ->
                 fill_info (pm p) info fn arg x = pm p x).
    { intros t x Hin Hx. apply fill_out. specialize (FA _ _ Hin).
      unfold apart, inside in *. lia. }
    constructor; cbn [blocks threads pm].
    + apply blocks_apart_cons; auto.
    + intros a n [E|Hin]; [inversion E; lia|eauto].
    + intros j t Hj. destruct (Nat.lt_ge_cases j (length (threads p))) as [L|L].
      * rewrite nth_error_app1 in Hj by auto. destruct (PI _ _ Hj) as (I1 & I2 & I3).
        split; [right; auto|]. apply (info_kept p); auto. intros x Hx. eapply KX; eauto.
      * rewrite nth_error_app2 in Hj by auto.
        destruct (j - length (threads p))%nat as [|z]; [|destruct z; discriminate].
        cbn in Hj. inversion Hj; subst. cbn [t_info t_arg t_fn].
        split; [left; auto|]. split; [apply fill_arg|apply fill_fn]; auto.
    + intros j t g f a Hj Hst. destruct (Nat.lt_ge_cases j (length (threads p))) as [L|L].
      * rewrite nth_error_app1 in Hj by auto. destruct (PR _ _ _ _ _ Hj Hst) as (? & ? & ?).
        repeat split; auto. right; auto.
      * rewrite nth_error_app2 in Hj by auto.
        destruct (j - length (threads p))%nat as [|z]; [|destruct z; discriminate].
        cbn in Hj. inversion Hj; subst. discriminate.
    + intros i j ti tj g f a g' f' a' Hij Hi Hj Si Sj.
      assert (L : forall j t g f a, nth_error (threads p ++ [mkThread info fn arg Created]) j = Some t ->
                  t_st t = Running g f a -> nth_error (threads p) j = Some t).
      { clear. intros j t g f a Hj Hst.
        destruct (Nat.lt_ge_cases j (length (threads p))) as [L|L].
        - rewrite nth_error_app1 in Hj by auto. auto.
        - rewrite nth_error_app2 in Hj by auto.
          destruct (j - length (threads p))%nat as [|z]; [|destruct z; discriminate].
          cbn in Hj. inversion Hj; subst. discriminate. }
      eapply PG with (i := i) (j := j); eauto.
  - (* create failed *)
    constructor; cbn [blocks threads pm]; auto.
    + apply blocks_apart_cons; auto.
    + intros a n [E|Hin]; [inversion E; lia|eauto].
    + intros j t Hj. destruct (PI _ _ Hj) as (I1 & I2 & I3).
      split; [right; auto|]. apply (info_kept p); auto.
      intros x Hx. apply fill_out. specialize (FA _ _ I1). unfold apart, inside in *. lia.
    + intros j t g f a Hj Hst. destruct (PR _ _ _ _ _ Hj Hst) as (? & ? & ?).
      repeat split; auto. right; auto.
  - (* start *)
    destruct (init_ok mp (pm p) addr) as (m' & E1 & E2 & E3 & E4 & E5).
    { eapply mapped_sub; [exact FM| |]; unfold stack_sz; lia. }
    { unfold stack_sz in FW. lia. }
    rewrite HI in E1. inversion E1; subst m'. clear E1.
    assert (KI : forall j tj, nth_error (threads p) j = Some tj ->
                 load64 m (t_info tj) = t_arg tj /\ load64 m (t_info tj + 8) = t_fn tj).
    { intros j tj Hj. destruct (PI _ _ Hj) as (I1 & I2 & I3). apply (info_kept p); auto.
      intros x Hx. apply E5. specialize (FA _ _ I1).
      unfold apart, inside, stack_sz in *. lia. }
    constructor; cbn [blocks threads pm].
    + apply blocks_apart_cons; auto.
    + intros a n [E|Hin]; [inversion E; unfold stack_sz; lia|eauto].
    + intros j tj Hj. rewrite nth_set_nth in Hj. destruct (Nat.eqb_spec i j) as [<-|Hij].
      * rewrite Ht in Hj. inversion Hj; subst. cbn [t_info t_arg t_fn].
        destruct (PI _ _ Ht) as (I1 & _). split; [right; auto|]. eapply KI; eauto.
      * destruct (PI _ _ Hj) as (I1 & _). split; [right; auto|]. eapply KI; eauto.
    + intros j tj g f a Hj Hs. rewrite nth_set_nth in Hj.
      destruct (Nat.eqb_spec i j) as [<-|Hij].
      * rewrite Ht in Hj. inversion Hj; subst. cbn in Hs. inversion Hs; subst.
        destruct (KI _ _ Ht) as [K1 K2]. cbn [t_fn t_arg]. repeat split; auto. left; auto.
      * destruct (PR _ _ _ _ _ Hj Hs) as (? & ? & ?). repeat split; auto. right; auto.
    + intros j1 j2 t1 t2 g f a g' f' a' Hij H1 H2 S1 S2.
      rewrite nth_set_nth in H1, H2.
      destruct (Nat.eqb_spec i j1) as [<-|N1]; destruct (Nat.eqb_spec i j2) as [<-|N2].
      * congruence.
      * rewrite Ht in H1. inversion H1; subst. cbn in S1. inversion S1; subst.
        destruct (PR _ _ _ _ _ H2 S2) as (_ & _ & I). apply FA. auto.
      * rewrite Ht in H2. inversion H2; subst. cbn in S2. inversion S2; subst.
        destruct (PR _ _ _ _ _ H1 S1) as (_ & _ & I). specialize (FA _ _ I).
        unfold apart in *. lia.
      * eapply PG with (i := j1) (j := j2); eauto.
  - (* world *)
    constructor; cbn [blocks threads pm]; auto.
    intros j t Hj. destruct (PI _ _ Hj) as (I1 & I2 & I3). split; auto.
    apply (info_kept p); auto. intros x Hx. eapply HK; eauto.
  - (* shadow *)
    destruct (PR _ _ _ _ _ Ht Hst) as (_ & _ & IG).
    constructor; cbn [blocks threads pm]; auto.
    intros j tj Hj. destruct (PI _ _ Hj) as (I1 & I2 & I3). split; auto.
    apply (info_kept p); auto. intros x Hx. eapply HK; eauto.
    intros E. subst g.
    assert (A : t_info tj = t_info tj /\ 16 = stack_sz).
    { eapply (blocks_same (blocks p)); eauto. exists x. split; auto.
      unfold inside, stack_sz in *. lia. }
    destruct A as [_ A]. discriminate.
Qed.

Lemma psteps_ok mp p es p' : psteps mp p es p' -> proc_ok p -> proc_ok p'.
Proof. induction 1; auto. intros. apply IHpsteps. eapply pstep_ok; eauto. Qed.

Lemma proc0_ok m base : proc_ok (proc0 m base).
Proof.
  constructor; cbn.
  - intros i j a n b k Hi Hj Hij. destruct i as [|[|]], j as [|[|]]; cbn in *; try congruence;
      discriminate.
  - intros a n [E|[]]. inversion E; unfold stack_sz; lia.
  - intros i t Hi. destruct i; discriminate.
  - intros i t g f a Hi. destruct i; discriminate.
  - intros i j ti tj g f a g' f' a' _ Hi. destruct i; discriminate.
Qed.

(** Starting a thread gives it an empty shadow stack and leaves every other
    runtime block as it was. *)
Lemma start_effect mp p i addr p' :
  pstep mp p (PStart i addr) p' ->
  shadow_rep (pm p') addr [] /\
  (forall b k x, In (b, k) (blocks p) -> inside b k x -> pm p' x = pm p x) /\
  mapped mp addr stack_sz.
Proof.
  intros H. inversion H as [| |q j a t m Ht Hst (FM & FW & FA) HI| |]; subst. cbn [pm].
  destruct (init_ok mp (pm p) addr) as (m' & E1 & E2 & E3 & E4 & E5).
  { eapply mapped_sub; [exact FM| |]; unfold stack_sz; lia. }
  { unfold stack_sz in FW. lia. }
  rewrite HI in E1. inversion E1; subst m'.
  split; auto. split; auto.
  intros b k x Hin Hx. apply E5. specialize (FA _ _ Hin).
  unfold apart, inside, stack_sz in *. lia.
Qed.

(** pthread_create itself leaves every existing runtime block as it was. *)
Lemma create_effect mp p fn arg info p' :
  pstep mp p (PCreate fn arg info) p' ->
  forall b k x, In (b, k) (blocks p) -> inside b k x -> pm p' x = pm p x.
Proof.
  intros H. inversion H as [q f a i (FM & FW & FA) ? ?| | | |]; subst. cbn [pm].
  intros b k x Hin Hx. apply fill_out. specialize (FA _ _ Hin).
  unfold apart, inside in *. lia.
Qed.

(** What the callers asked for, and how often thread [i] was started. *)
Fixpoint creates (es : list pev) : list (Z * Z) :=
  match es with
  | [] => []
  | PCreate fn arg _ :: r => (fn, arg) :: creates r
  | _ :: r => creates r
  end.
Fixpoint starts (i : nat) (es : list pev) : nat :=
  match es with
  | [] => O
  | PStart j _ :: r => if Nat.eqb i j then S (starts i r) else starts i r
  | _ :: r => starts i r
  end.
Definition asked (t : thread) : Z * Z := (t_fn t, t_arg t).
Definition running (p : proc) (i : nat) : nat :=
  match nth_error (threads p) i with
  | Some t => match t_st t with Running _ _ _ => 1 | Created => 0 end
  | None => 0
  end%nat.

Lemma map_set_nth_same {A B} (f : A -> B) i x y l :
  nth_error l i = Some y -> f x = f y -> map f (set_nth i x l) = map f l.
Proof.
  revert i. induction l as [|z l IH]; intros [|i] H E; cbn in *; try discriminate; auto.
  - inversion H; subst. rewrite E. auto.
  - f_equal. eauto.
Qed.

Lemma psteps_asked mp p es p' :
  psteps mp p es p' -> map asked (threads p') = map asked (threads p) ++ creates es.
Proof.
  induction 1 as [p|p e p1 es p2 HS HR IH]; [rewrite app_nil_r; auto|].
  rewrite IH. destruct HS; cbn [threads creates]; auto.
  - rewrite map_app, <- app_assoc. reflexivity.
  - f_equal. eapply map_set_nth_same; eauto.
Qed.

Lemma psteps_starts mp p es p' i :
  psteps mp p es p' -> running p' i = (running p i + starts i es)%nat /\
    (starts i es <= 1)%nat.
Proof.
  intros H. assert (B : forall q, (running q i <= 1)%nat).
  { intros q. unfold running. destruct (nth_error _ _) as [t|]; auto. destruct (t_st t); auto. }
  assert (E : running p' i = (running p i + starts i es)%nat).
  { induction H as [p|p e p1 es p2 HS HR IH]; [cbn; lia|].
    rewrite IH. destruct HS as
      [p fn arg info F Hfn Harg | p fn arg info F | p j addr t m Ht Hst F HI | p m HK
      | p j m t g fn arg Ht Hst HK]; cbn [starts]; auto.
    - unfold running. cbn [threads]. destruct (Nat.lt_ge_cases i (length (threads p))) as [L|L].
      + rewrite nth_error_app1 by auto. reflexivity.
      + rewrite nth_error_app2 by auto.
        replace (nth_error (threads p) i) with (@None thread)
          by (symmetry; apply nth_error_None; auto).
        destruct (i - length (threads p))%nat as [|[|z]]; reflexivity.
    - unfold running. cbn [threads]. rewrite nth_set_nth. rewrite (Nat.eqb_sym i j).
      destruct (Nat.eqb_spec j i) as [->|N].
      + rewrite Ht, Hst. cbn. lia.
      + reflexivity. }
  split; auto. specialize (B p'). lia.
Qed.

(** The i-th created thread, once running, runs what the i-th successful
    pthread_create asked for, started exactly once, on its own shadow block. *)
Lemma thread_runs mp m base es p i t g fn arg :
  psteps mp (proc0 m base) es p ->
  nth_error (threads p) i = Some t -> t_st t = Running g fn arg ->
  nth_error (creates es) i = Some (fn, arg) /\ starts i es = 1%nat /\
  (forall j u g' fn' arg', i <> j -> nth_error (threads p) j = Some u ->
     t_st u = Running g' fn' arg' -> apart g stack_sz g' stack_sz) /\
  In (g, stack_sz) (blocks p).
Proof.
  intros HS Hi Hst. pose proof (psteps_ok _ _ _ _ HS (proc0_ok m base)) as [PA PP PI PR PG].
  destruct (PR _ _ _ _ _ Hi Hst) as (-> & -> & IG).
  pose proof (psteps_asked _ _ _ _ HS) as EA. cbn [threads proc0 map app] in EA.
  destruct (psteps_starts _ _ _ _ i HS) as [ES _].
  split; [|split; [|split]]; auto.
  - rewrite <- EA, nth_error_map, Hi. reflexivity.
  - unfold running in ES. rewrite Hi, Hst in ES. cbn [proc0 threads] in ES.
    destruct i; cbn in ES; lia.
  - intros. eapply PG; eauto.
Qed.

(** A created thread can always start (allocation succeeding). *)
Lemma start_possible mp p i t addr :
  nth_error (threads p) i = Some t -> t_st t = Created ->
  fresh mp (blocks p) addr stack_sz -> exists p', pstep mp p (PStart i addr) p'.
Proof.
  intros Hi Hst (FM & FW & FA).
  destruct (init_ok mp (pm p) addr) as (m' & E1 & _).
  { eapply mapped_sub; [exact FM| |]; unfold stack_sz; lia. }
  { unfold stack_sz in FW. lia. }
  eexists. eapply ps_start; eauto. split; auto.
Qed.
