(** * Writes: the records of memory writes (passes.h:240-347, heap.h:629-684) and their
      statistics (instrument.cc:674-698, 1086-1099) *)
From Coq Require Import ZArith Bool String Lia ZifyBool ZifyNat Arith List.
From Verif Require Import Machine Jit Dfs Binary CallGraph MemPasses BlockLive Heap.
Import ListNotations.
Open Scope Z_scope.

(** The type flags of a MemoryWrite, pass_manager.h:41-82 *)
Record wflags := mkW { w_stack : bool; w_global : bool; w_heap : bool; w_arg : bool; w_hoa : bool }.
Definition w0 : wflags := mkW false false false false false.
(** passes.h:287-319, as far as the record is concerned *)
Definition w_out (w : wflags) (l : absloc) : wflags :=
  match l with
  | AStack _ => mkW true (w_global w) (w_heap w) (w_arg w) (w_hoa w)
  | AHeap => mkW (w_stack w) true (w_heap w) (w_arg w) (w_hoa w)
  | AUnknown | ARegister => w
  end.
(** all_writes, passes.h:274-323 *)
Definition wmap := list (Z * wflags).
Definition aw_insn (m : wmap) (i : insn) : wmap :=
  if i_frame i then m
  else if i_wmem i then zset (i_addr i) (fold_left w_out (i_outs i) w0) m else m.
Definition aw_block (co : code) (m : wmap) (b : nat) : wmap := fold_left aw_insn (b_insns (co_block co b)) m.
Definition all_writes (co : code) (fn : nat) (s : summary) : wmap :=
  if s_assume_unsafe s then [] else fold_left (aw_block co) (f_blocks (co_fun co fn)) [].

(** The heap pass sets further flags, heap.h:661-677; [None]: the assertion that the write is
    recorded fails.  The classes are those of UpdateFunctionSummary; with the pass switched off
    (instrument.cc:973) there are none. *)
Definition no_classes : classes := mkCl [] [] [].
Definition mark (f : wflags -> wflags) (o : option wmap) (w : nat * Z) : option wmap :=
  match o with
  | None => None
  | Some m => match zfind m (snd w) with Some x => Some (zset (snd w) (f x) m) | None => None end
  end.
Definition set_heap (w : wflags) := mkW (w_stack w) (w_global w) true (w_arg w) (w_hoa w).
Definition set_warg (w : wflags) := mkW (w_stack w) (w_global w) (w_heap w) true (w_hoa w).
Definition set_hoa (w : wflags) := mkW (w_stack w) (w_global w) (w_heap w) (w_arg w) true.
Definition mark_all (cl : classes) (m : wmap) : option wmap :=
  fold_left (mark set_hoa) (k_hoa cl) (fold_left (mark set_warg) (k_arg cl) (fold_left (mark set_heap) (k_heap cl) (Some m))).

(** ** CountMemoryWrites, instrument.cc:674-698.  The counters are ints in the code. *)
Record totals := mkT { t_all : Z; t_stack : Z; t_global : Z; t_heap : Z; t_arg : Z; t_hoa : Z }.
Definition t0 : totals := mkT 0 0 0 0 0 0.
Definition b2z (b : bool) : Z := if b then 1 else 0.
(** [None]: assert(0), line 688 *)
Definition count_one (o : option totals) (e : Z * wflags) : option totals :=
  match o with
  | None => None
  | Some t =>
      let w := snd e in
      if 2 <=? b2z (w_stack w) + b2z (w_global w) + b2z (w_heap w) + b2z (w_arg w) + b2z (w_hoa w) then None
      else Some (mkT (t_all t + 1)
                     (if w_stack w then t_stack t + 1 else t_stack t)
                     (if w_global w then t_global t + 1 else t_global t)
                     (if w_heap w then t_heap t + 1 else t_heap t)
                     (if w_arg w then t_arg t + 1 else t_arg t)
                     (if w_hoa w then t_hoa t + 1 else t_hoa t))
  end.
Definition count_writes (o : option totals) (m : wmap) : option totals := fold_left count_one m o.
(** All functions handed to InstrumentFunction, in order *)
Definition count_all (ms : list wmap) : option totals := fold_left count_writes ms (Some t0).
(** Lines 1093-1099 *)
Definition t_unknown_writes (t : totals) : Z :=
  t_all t - t_stack t - t_global t - t_heap t - t_arg t - t_hoa t.

(** ** Facts about maps *)
Fixpoint ksorted {A} (l : list (Z * A)) : Prop :=
  match l with
  | [] => True
  | (k, _) :: t => (forall k' v, In (k', v) t -> k < k') /\ ksorted t
  end.
Lemma zset_sorted {A} k (v : A) l : ksorted l -> ksorted (zset k v l).
Proof.
  induction l as [|[a w] l IH]; cbn [zset ksorted].
  - intros _. split; [intros ? ? []|auto].
  - intros [H1 H2]. destruct (k <? a) eqn:E1; [|destruct (k =? a) eqn:E2]; cbn [ksorted].
    + split; [|split; auto]. intros k' v' [E|H]; [injection E as <- _; lia|]. specialize (H1 _ _ H). lia.
    + split; [|auto]. intros k' v' H. specialize (H1 _ _ H). lia.
    + split; [|auto]. intros k' v' H. apply zset_in in H. destruct H as [[-> _]|H]; [lia|eauto].
Qed.
Lemma zfind_in {A} (l : list (Z * A)) k v : ksorted l -> (zfind l k = Some v <-> In (k, v) l).
Proof.
  induction l as [|[a w] l IH]; cbn [zfind ksorted]; [split; [discriminate|intros []]|].
  intros [H1 H2]. destruct (a =? k) eqn:E.
  - split; [intros [= <-]; left; f_equal; lia|]. intros [H|H]; [injection H as _ <-; auto|].
    specialize (H1 _ _ H). lia.
  - rewrite (IH H2). split; [right; auto|]. intros [H|H]; [injection H as -> _; lia|auto].
Qed.
Lemma ksorted_nodup {A} (l : list (Z * A)) : ksorted l -> NoDup (map fst l).
Proof.
  induction l as [|[a w] l IH]; cbn [ksorted map fst]; [constructor|]. intros [H1 H2]. constructor; [|auto].
  intros H. apply in_map_iff in H. destruct H as ([k v] & E & H). cbn in E. subst k. specialize (H1 _ _ H). lia.
Qed.
(** ** Contents of all_writes *)
(** Instruction [i] of function [fn], at address [a], writes memory. *)
Definition writes_at (co : code) (fn : nat) (a : Z) (i : insn) : Prop :=
  exists b, In b (f_blocks (co_fun co fn)) /\ In i (b_insns (co_block co b)) /\
    i_frame i = false /\ i_wmem i = true /\ i_addr i = a.
Definition is_stack (l : absloc) : bool := match l with AStack _ => true | _ => false end.
Definition is_global (l : absloc) : bool := match l with AHeap => true | _ => false end.
Lemma w_outs l : forall w, fold_left w_out l w =
  mkW (w_stack w || existsb is_stack l) (w_global w || existsb is_global l) (w_heap w) (w_arg w) (w_hoa w).
Proof.
  induction l as [|x l IH]; intros [a b c d e]; cbn [fold_left existsb].
  - rewrite !orb_false_r. reflexivity.
  - rewrite IH. destruct x; cbn [w_out w_stack w_global w_heap w_arg w_hoa is_stack is_global]; f_equal; rewrite ?orb_true_r; auto.
Qed.
Definition flags_of (i : insn) : wflags := mkW (existsb is_stack (i_outs i)) (existsb is_global (i_outs i)) false false false.
Lemma flags_ok i : fold_left w_out (i_outs i) w0 = flags_of i.
Proof. rewrite w_outs. reflexivity. Qed.

Lemma aw_insns_ok l : forall m, ksorted m -> ksorted (fold_left aw_insn l m) /\
  forall a, (forall w, zfind (fold_left aw_insn l m) a = Some w ->
               zfind m a = Some w \/ exists i, In i l /\ i_frame i = false /\ i_wmem i = true /\ i_addr i = a /\ w = flags_of i) /\
            (zfind m a <> None \/ (exists i, In i l /\ i_frame i = false /\ i_wmem i = true /\ i_addr i = a) ->
             zfind (fold_left aw_insn l m) a <> None).
Proof.
  induction l as [|x l IH]; intros m S; cbn [fold_left].
  - split; [auto|]. intros a. split; [auto|]. intros [H|(i & [] & _)]; auto.
  - assert (S' : ksorted (aw_insn m x)).
    { unfold aw_insn. destruct (i_frame x); [auto|]. destruct (i_wmem x); [apply zset_sorted|]; auto. }
    destruct (IH _ S') as [K1 K2]. split; [auto|]. intros a. destruct (K2 a) as [L1 L2].
    assert (Z : forall w, zfind (aw_insn m x) a = Some w -> zfind m a = Some w \/
              i_frame x = false /\ i_wmem x = true /\ i_addr x = a /\ w = flags_of x).
    { intros w. unfold aw_insn. destruct (i_frame x) eqn:F; [auto|]. destruct (i_wmem x) eqn:W; [|auto].
      rewrite zfind_zset, flags_ok. destruct (a =? i_addr x) eqn:E; [|auto]. intros [= <-]. right. repeat split; auto. lia. }
    split.
    + intros w H. destruct (L1 w H) as [H1|(i & I1 & I2)].
      * destruct (Z w H1) as [Q|Q]; [auto|]. right. exists x. split; [left; auto|auto].
      * right. exists i. split; [right; auto|auto].
    + intros H. apply L2. unfold aw_insn.
      destruct H as [H|(i & [->|I1] & I2 & I3 & I4)].
      * left. destruct (i_frame x); [auto|]. destruct (i_wmem x); [|auto]. rewrite zfind_zset.
        destruct (a =? i_addr x); [discriminate|auto].
      * left. rewrite I2, I3, zfind_zset. replace (a =? i_addr i) with true by lia. discriminate.
      * right. eauto.
Qed.
Lemma all_writes_flat co fn s : s_assume_unsafe s = false ->
  all_writes co fn s = fold_left aw_insn (flat_map (fun b => b_insns (co_block co b)) (f_blocks (co_fun co fn))) [].
Proof.
  intros H. unfold all_writes. rewrite H. generalize (@nil (Z * wflags)) as m.
  induction (f_blocks (co_fun co fn)) as [|b l IH]; intros m; cbn [fold_left flat_map]; [auto|].
  rewrite fold_left_app. apply IH.
Qed.
Lemma all_writes_ok co fn s : s_assume_unsafe s = false ->
  ksorted (all_writes co fn s) /\
  (forall a w, zfind (all_writes co fn s) a = Some w -> exists i, writes_at co fn a i /\ w = flags_of i) /\
  (forall a i, writes_at co fn a i -> zfind (all_writes co fn s) a <> None).
Proof.
  intros H. rewrite (all_writes_flat co fn s H).
  destruct (aw_insns_ok (flat_map (fun b => b_insns (co_block co b)) (f_blocks (co_fun co fn))) [] I) as [K1 K2].
  split; [auto|]. split.
  - intros a w W. destruct (proj1 (K2 a) w W) as [Q|(i & I1 & I2 & I3 & I4 & I5)]; [discriminate|].
    apply in_flat_map in I1. destruct I1 as (b & B1 & B2). exists i. split; [|auto]. exists b. auto.
  - intros a i (b & B1 & B2 & B3 & B4 & B5). apply K2. right. exists i. split; [|auto]. apply in_flat_map. eauto.
Qed.

(** ** Contents of unknown_writes and stack_writes *)
Notation finsns co fn := (flat_map (fun b => map (fun i => (b, i)) (b_insns (co_block co b))) (f_blocks (co_fun co fn))).
Definition uw_out (b : nat) (a : Z) (u : list (nat * list Z)) (l : absloc) :=
  match l with AUnknown => uw_insert b a u | _ => u end.
Definition uw_insn (u : list (nat * list Z)) (p : nat * insn) : list (nat * list Z) :=
  if i_frame (snd p) then u else if i_wmem (snd p) then fold_left (uw_out (fst p) (i_addr (snd p))) (i_outs (snd p)) u else u.
Definition sw_out (a : Z) (u : list (Z * Z)) (l : absloc) := match l with AStack off => zset off a u | _ => u end.
Definition sw_insn (u : list (Z * Z)) (p : nat * insn) : list (Z * Z) :=
  if i_frame (snd p) then u else if i_wmem (snd p) then fold_left (sw_out (i_addr (snd p))) (i_outs (snd p)) u else u.
Lemma sh_outs_proj b a l : forall s,
  s_unknown_writes (fold_left (sh_out b a) l s) = fold_left (uw_out b a) l (s_unknown_writes s) /\
  s_stack_writes (fold_left (sh_out b a) l s) = fold_left (sw_out a) l (s_stack_writes s).
Proof.
  induction l as [|x l IH]; intros s; cbn [fold_left]; [auto|]. destruct (IH (sh_out b a s x)) as [-> ->].
  destruct x as [off| | |]; cbn [sh_out uw_out sw_out]; try (split; reflexivity). destruct (-8 <=? off); split; reflexivity.
Qed.
Lemma sh_insn_proj b s i :
  s_unknown_writes (sh_insn b s i) = uw_insn (s_unknown_writes s) (b, i) /\
  s_stack_writes (sh_insn b s i) = sw_insn (s_stack_writes s) (b, i).
Proof.
  unfold sh_insn, uw_insn, sw_insn. cbn [fst snd]. destruct (i_frame i); [auto|]. destruct (i_wmem i); [apply sh_outs_proj|].
  destruct (i_rmem i); [|auto]. destruct (first_stack _); split; reflexivity.
Qed.
Lemma sh_insns_proj b l : forall s,
  s_unknown_writes (fold_left (sh_insn b) l s) = fold_left uw_insn (map (fun i => (b, i)) l) (s_unknown_writes s) /\
  s_stack_writes (fold_left (sh_insn b) l s) = fold_left sw_insn (map (fun i => (b, i)) l) (s_stack_writes s).
Proof.
  induction l as [|x l IH]; intros s; cbn [fold_left map]; [auto|]. destruct (IH (sh_insn b s x)) as [-> ->].
  destruct (sh_insn_proj b s x) as [-> ->]. auto.
Qed.
Lemma stack_height_proj co fn s : s_assume_unsafe s = false ->
  s_unknown_writes (stack_height co fn s) = fold_left uw_insn (finsns co fn) (s_unknown_writes s) /\
  s_stack_writes (stack_height co fn s) = fold_left sw_insn (finsns co fn) (s_stack_writes s).
Proof.
  intros H. unfold stack_height. rewrite H. clear H. revert s.
  induction (f_blocks (co_fun co fn)) as [|b l IH]; intros s; cbn [fold_left flat_map]; [auto|].
  rewrite !fold_left_app. destruct (IH (sh_block co s b)) as [-> ->]. unfold sh_block.
  match goal with |- context [fold_left (sh_insn b) _ ?s2] => set (t := s2) end.
  assert (T : s_unknown_writes t = s_unknown_writes s /\ s_stack_writes t = s_stack_writes s).
  { unfold t. destruct (b_sp_end _), (b_sp_entry _); split; reflexivity. }
  destruct (sh_insns_proj b (b_insns (co_block co b)) t) as [-> ->]. destruct T as [-> ->]. auto.
Qed.

Definition lists_at (u : list (nat * list Z)) (b : nat) (a : Z) : Prop := exists l, In (b, l) u /\ In a l.
Fixpoint nsorted {A} (l : list (nat * A)) : Prop :=
  match l with
  | [] => True
  | (k, _) :: t => (forall k' v, In (k', v) t -> (k < k')%nat) /\ nsorted t
  end.
Lemma uw_insert_in b a u b' a' : lists_at (uw_insert b a u) b' a' <-> (b' = b /\ a' = a) \/ lists_at u b' a'.
Proof.
  unfold lists_at. induction u as [|[c l] u IH]; cbn [uw_insert].
  - split.
    + intros (l & [E|[]] & H). injection E as <- <-. destruct H as [->|[]]. auto.
    + intros [[-> ->]|(l & [] & _)]. exists [a]. cbn. auto.
  - destruct (Nat.ltb b c); [|destruct (Nat.eqb b c) eqn:E2].
    + split.
      * intros (l' & [E|H] & K); [injection E as <- <-; destruct K as [->|[]]; auto|]. right. eauto.
      * intros [[-> ->]|(l' & H & K)]; [exists [a]; cbn; auto|]. exists l'. split; [right; auto|auto].
    + apply Nat.eqb_eq in E2. subst c. split.
      * intros (l' & [E|H] & K); [injection E as <- <-; destruct K as [->|K]; [auto|]; right; exists l; cbn; auto|].
        right. exists l'. cbn. auto.
      * intros [[-> ->]|(l' & [E|H] & K)]; [exists (a :: l); cbn; auto|injection E as <- <-; exists (a :: l); cbn; auto|].
        exists l'. cbn. auto.
    + split.
      * intros (l' & [E|H] & K); [injection E as <- <-; right; exists l; cbn; auto|].
        destruct (proj1 IH (ex_intro _ l' (conj H K))) as [Q|(l2 & Q1 & Q2)]; [auto|]. right. exists l2. cbn. auto.
      * intros [Q|(l' & [E|H] & K)].
        -- destruct (proj2 IH (or_introl Q)) as (l2 & Q1 & Q2). exists l2. cbn. auto.
        -- injection E as <- <-. exists l. cbn. auto.
        -- destruct (proj2 IH (or_intror (ex_intro _ l' (conj H K)))) as (l2 & Q1 & Q2). exists l2. cbn. auto.
Qed.
Lemma uw_insert_key b a u k v : In (k, v) (uw_insert b a u) -> k = b \/ exists v', In (k, v') u.
Proof.
  induction u as [|[c l] u IH]; cbn [uw_insert].
  - intros [H|[]]. injection H as -> _. auto.
  - destruct (Nat.ltb b c); [|destruct (Nat.eqb b c)]; intros [H|H].
    + injection H as -> _. auto.
    + right. eauto.
    + injection H as -> _. right. exists l. left. auto.
    + right. exists v. right. auto.
    + injection H as -> _. right. exists l. left. auto.
    + destruct (IH H) as [Q|(v' & Q)]; [auto|]. right. exists v'. right. auto.
Qed.
Lemma uw_insert_sorted b a u : nsorted u -> nsorted (uw_insert b a u).
Proof.
  induction u as [|[c l] u IH]; cbn [uw_insert nsorted].
  - intros _. split; [intros ? ? []|auto].
  - intros [H1 H2]. destruct (Nat.ltb b c) eqn:E1; [|destruct (Nat.eqb b c) eqn:E2]; cbn [nsorted].
    + split; [|split; auto]. apply Nat.ltb_lt in E1. intros k' v' [E|H]; [injection E as <- _; auto|]. specialize (H1 _ _ H). lia.
    + split; auto.
    + split; [|auto]. intros k' v' H. apply uw_insert_key in H. apply Nat.ltb_ge in E1. apply Nat.eqb_neq in E2.
      destruct H as [->|(v2 & H)]; [lia|eauto].
Qed.
Lemma uw_outs b a l : forall u,
  (nsorted u -> nsorted (fold_left (uw_out b a) l u)) /\
  forall b' a', lists_at (fold_left (uw_out b a) l u) b' a' <-> (b' = b /\ a' = a /\ In AUnknown l) \/ lists_at u b' a'.
Proof.
  induction l as [|x l IH]; intros u; cbn [fold_left].
  - split; [auto|]. intros. split; [auto|]. intros [(_ & _ & [])|H]; auto.
  - destruct (IH (uw_out b a u x)) as [K1 K2]. split.
    + intros S. apply K1. destruct x; cbn [uw_out]; auto. apply uw_insert_sorted; auto.
    + intros b' a'. rewrite K2. destruct x; cbn [uw_out In]; try rewrite uw_insert_in; intuition congruence.
Qed.
Lemma uw_insns l : forall u,
  (nsorted u -> nsorted (fold_left uw_insn l u)) /\
  forall b a, lists_at (fold_left uw_insn l u) b a <->
    (exists i, In (b, i) l /\ insn_unknown_write i /\ i_addr i = a) \/ lists_at u b a.
Proof.
  induction l as [|[c i] l IH]; intros u; cbn [fold_left].
  - split; [auto|]. intros. split; [auto|]. intros [(i & [] & _)|H]; auto.
  - destruct (IH (uw_insn u (c, i))) as [K1 K2].
    destruct (uw_outs c (i_addr i) (i_outs i) u) as [O1 O2]. split.
    + intros S. apply K1. unfold uw_insn. cbn [fst snd]. destruct (i_frame i), (i_wmem i); auto.
    + intros b a. rewrite K2. unfold uw_insn, insn_unknown_write. cbn [fst snd In].
      destruct (i_frame i) eqn:F; [|destruct (i_wmem i) eqn:W; [rewrite O2|]]; split.
      * intros [(j & H1 & H2)|H]; [left; exists j; auto|auto].
      * intros [(j & [E|H1] & (H2 & H3 & H4) & H5)|H]; [injection E as <- <-; congruence|left; exists j; auto|auto].
      * intros [(j & H1 & H2)|[(-> & -> & H)|H]]; [left; exists j; auto|left; exists i; auto|auto].
      * intros [(j & [E|H1] & (H2 & H3 & H4) & H5)|H]; [injection E as <- <-; auto|left; exists j; auto|auto].
      * intros [(j & H1 & H2)|H]; [left; exists j; auto|auto].
      * intros [(j & [E|H1] & (H2 & H3 & H4) & H5)|H]; [injection E as <- <-; congruence|left; exists j; auto|auto].
Qed.
Lemma sw_outs a l : forall u off, zfind (fold_left (sw_out a) l u) off =
  if existsb (fun x => match x with AStack o => o =? off | _ => false end) l then Some a else zfind u off.
Proof.
  induction l as [|x l IH]; intros u off; cbn [fold_left existsb]; [auto|]. rewrite IH.
  destruct (existsb _ l); [rewrite orb_true_r; auto|]. rewrite orb_false_r.
  destruct x as [o| | |]; cbn [sw_out]; auto. rewrite zfind_zset, (Z.eqb_sym off o). auto.
Qed.
Lemma sw_insns l : forall u off,
  (forall a, zfind (fold_left sw_insn l u) off = Some a <->
    (exists pre b i post, l = pre ++ (b, i) :: post /\ insn_stack_write i off /\ i_addr i = a /\
       forall b' i', In (b', i') post -> ~ insn_stack_write i' off) \/
    (zfind u off = Some a /\ forall b' i', In (b', i') l -> ~ insn_stack_write i' off)).
Proof.
  induction l as [|[c j] l IH]; intros u off a; cbn [fold_left].
  - split.
    + intros H. right. split; [auto|]. intros ? ? [].
    + intros [(pre & b & i & post & E & _)|[H _]]; [destruct pre; discriminate|auto].
  - rewrite (IH (sw_insn u (c, j)) off a).
    assert (SW : (insn_stack_write j off /\ zfind (sw_insn u (c, j)) off = Some (i_addr j)) \/
                 (~ insn_stack_write j off /\ zfind (sw_insn u (c, j)) off = zfind u off)).
    { unfold sw_insn, insn_stack_write. cbn [fst snd]. destruct (i_frame j) eqn:F; [right; split; [intros (? & _); discriminate|auto]|].
      destruct (i_wmem j) eqn:W; [|right; split; [intros (_ & ? & _); discriminate|auto]].
      rewrite sw_outs. destruct (existsb _ (i_outs j)) eqn:E.
      - left. apply existsb_exists in E. destruct E as ([o| | |] & E1 & E2); try discriminate.
        apply Z.eqb_eq in E2. subst o. auto.
      - right. split; [|auto]. intros (_ & _ & H). assert (E' : existsb (fun x => match x with AStack o => o =? off | _ => false end) (i_outs j) = true).
        { apply existsb_exists. exists (AStack off). split; [auto|apply Z.eqb_refl]. } congruence. }
    split.
    + intros [(pre & b & i & post & -> & H)|[H1 H2]].
      * left. exists ((c, j) :: pre), b, i, post. auto.
      * destruct SW as [[S1 S2]|[S1 S2]].
        -- left. exists [], c, j, l. split; [auto|]. split; [auto|]. split; [congruence|auto].
        -- right. split; [congruence|]. intros b' i' [E|H]; [injection E as <- <-; auto|eauto].
    + intros [([|[d k] pre] & b & i & post & E & H1 & H2 & H3)|[H1 H2]].
      * cbn in E. injection E as -> -> ->. right. destruct SW as [[S1 S2]|[S1 S2]]; [|contradiction].
        split; [congruence|auto].
      * cbn in E. injection E as _ _ ->. left. exists pre, b, i, post. auto.
      * right. destruct SW as [[S1 S2]|[S1 S2]]; [exfalso; eapply (H2 c j); [left; auto|auto]|].
        split; [congruence|]. intros b' i' H. apply (H2 b' i'). right; auto.
Qed.

(** ** Marking *)
Definition hit (l : list (nat * Z)) (a : Z) : bool := existsb (fun w => snd w =? a) l.
Definition w_or (f : wflags -> wflags) (b : bool) (w : wflags) : wflags := if b then f w else w.
Lemma mark_ok f l : (forall w, f (f w) = f w) -> forall m : wmap,
  ksorted m -> (forall w, In w l -> zfind m (snd w) <> None) ->
  exists m' : wmap, fold_left (mark f) l (Some m) = Some m' /\ ksorted m' /\
    forall a, zfind m' a = option_map (w_or f (hit l a)) (zfind m a).
Proof.
  intros FF. induction l as [|[b x] l IH]; intros m S H; cbn [fold_left].
  - exists m. split; [auto|]. split; [auto|]. intros a. cbn. destruct (zfind m a); auto.
  - cbn [mark snd]. destruct (zfind m x) as [w|] eqn:E; [|exfalso; apply (H (b, x)); [left; auto|auto]].
    destruct (IH (zset x (f w) m)) as (m' & M1 & M2 & M3).
    + apply zset_sorted; auto.
    + intros y Hy. rewrite zfind_zset. destruct (snd y =? x); [discriminate|]. apply H. right; auto.
    + exists m'. split; [auto|]. split; [auto|]. intros a. rewrite M3, zfind_zset. cbn [hit existsb snd].
      fold (hit l a). rewrite (Z.eqb_sym x a). destruct (a =? x) eqn:Ea; cbn [orb]; [|auto].
      assert (a = x) by lia. subst a. rewrite E. cbn [option_map w_or]. destruct (hit l x); cbn [w_or]; rewrite ?FF; auto.
Qed.
Definition marked (cl : classes) (a : Z) (w : wflags) : wflags :=
  mkW (w_stack w) (w_global w) (w_heap w || hit (k_heap cl) a) (w_arg w || hit (k_arg cl) a) (w_hoa w || hit (k_hoa cl) a).
Lemma mark_all_ok cl (m : wmap) : ksorted m ->
  (forall w, In w (k_heap cl) \/ In w (k_arg cl) \/ In w (k_hoa cl) -> zfind m (snd w) <> None) ->
  exists m' : wmap, mark_all cl m = Some m' /\ ksorted m' /\
    forall a, zfind m' a = option_map (marked cl a) (zfind m a).
Proof.
  intros S H. unfold mark_all.
  destruct (mark_ok set_heap (k_heap cl) (fun _ => eq_refl) m S) as (m1 & -> & S1 & F1); [auto|].
  destruct (mark_ok set_warg (k_arg cl) (fun _ => eq_refl) m1 S1) as (m2 & -> & S2 & F2).
  { intros w Hw. rewrite F1. pose proof (H w (or_intror (or_introl Hw))). destruct (zfind m (snd w)); [discriminate|congruence]. }
  destruct (mark_ok set_hoa (k_hoa cl) (fun _ => eq_refl) m2 S2) as (m3 & -> & S3 & F3).
  { intros w Hw. rewrite F2, F1. pose proof (H w (or_intror (or_intror Hw))). destruct (zfind m (snd w)); [discriminate|congruence]. }
  exists m3. split; [auto|]. split; [auto|]. intros a. rewrite F3, F2, F1. destruct (zfind m a) as [[s g h ar ho]|]; [|auto].
  cbn [option_map]. f_equal. unfold marked, w_or, set_heap, set_warg, set_hoa. cbn [w_stack w_global w_heap w_arg w_hoa].
  destruct (hit (k_heap cl) a), (hit (k_arg cl) a), (hit (k_hoa cl) a); cbn [w_stack w_global w_heap w_arg w_hoa];
    rewrite ?orb_true_r, ?orb_false_r; reflexivity.
Qed.

(** ** Counting *)
Definition nflags (w : wflags) : Z :=
  b2z (w_stack w) + b2z (w_global w) + b2z (w_heap w) + b2z (w_arg w) + b2z (w_hoa w).
Definition number (p : wflags -> bool) (m : wmap) : Z := Z.of_nat (List.length (filter (fun e => p (snd e)) m)).
Lemma count_none m : count_writes None m = None.
Proof. unfold count_writes. induction m; cbn [fold_left count_one]; auto. Qed.
Lemma number_cons p e m : number p (e :: m) = (if p (snd e) then 1 else 0) + number p m.
Proof. unfold number. cbn [filter]. destruct (p (snd e)); cbn [List.length]; lia. Qed.
Lemma count_ok m : forall t, count_writes (Some t) m =
  if existsb (fun e => 2 <=? nflags (snd e)) m then None
  else Some (mkT (t_all t + Z.of_nat (List.length m)) (t_stack t + number w_stack m) (t_global t + number w_global m)
                 (t_heap t + number w_heap m) (t_arg t + number w_arg m) (t_hoa t + number w_hoa m)).
Proof.
  induction m as [|e m IH]; intros t.
  - destruct t. unfold number. cbn. f_equal. f_equal; lia.
  - unfold count_writes in *. cbn [fold_left existsb count_one]. unfold nflags at 1.
    destruct (2 <=? _); cbn [orb]; [apply count_none|]. rewrite IH. destruct (existsb _ m); [auto|].
    rewrite !number_cons. cbn [t_all t_stack t_global t_heap t_arg t_hoa List.length]. f_equal.
    destruct (w_stack (snd e)), (w_global (snd e)), (w_heap (snd e)), (w_arg (snd e)), (w_hoa (snd e)); f_equal; lia.
Qed.
