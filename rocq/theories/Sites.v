(** * Sites: where the snippets of a plan go and with which arguments they are
      generated (/repo/src/instrument.cc:429-565, 287-317, 595-651, 740-873)

    A clone has the start address of the block it was made from, so the JIT finds the
    data of the original block (jit.cc:201, 346).  The point of an edge has no block,
    and the JIT does not ask for one. *)
From Coq Require Import ZArith Bool Lia ZifyBool ZifyNat Arith String List.
From Verif Require Import Machine Jit ShadowSpec History Dfs Binary CallGraph InterProc MemPasses Pipeline
  RegNames BlockLive Reach SafePaths Lowering FastPath Decision FullRun.
Import ListNotations.
Open Scope Z_scope.

(** FuncSummary::dead_at_entry and dead_at_exit, the results of DeadRegisterAnalysis
    (passes.h:531-586), which [summary] does not contain. *)
Record dead_info := mkDead { di_entry : list string; di_exit : list (Z * list string) }.
Definition jsum_of (d : dead_info) (s : summary) : jsum :=
  mkJsum (di_entry d) (di_exit d) (s_unused s) (s_entryData s) (s_exitData s) (s_entryFixed s).

Inductive place :=
| OnEdge (x : eid)                     (* Point::EdgeDuring *)
| AtStart (n : node)                   (* Point::BlockEntry *)
| BeforeInsn (n : node) (a : Z)        (* Point::PreInsn *)
| AtEnd (n : node)                     (* Point::BlockExit, FuncExit *)
| AtEntry.                             (* Point::FuncEntry *)
(** The snippet classes of instrument.cc:185-285. *)
Inductive snip :=
| StackPush (q : ereq)
| StackPop (q : xreq)
| RegPush (js : jsum) (height : Z)
| RegPop (js : jsum).

Section SITES.
Variable co : code.
Variable fl : flags.
Variable o : opts.
Variable d : dead_info.
Variable s : summary.
Notation js := (jsum_of d s).
Definition startof (b : nat) : Z := b_start (co_block co b).
(** std::map::operator[] *)
Definition zget (l : list (Z * Z)) (k : Z) : Z := match zfind l k with Some v => v | None => 0 end.
(** FLAGS_disable_reg_save_opt sets the pointer to null (476, 509, 537). *)
Definition opt_mid (l : list (Z * mid)) (k : Z) : option mid :=
  if fl_no_reg_save fl then None else zfind l k.
Definition bpoint (b : nat) : point := mkPoint (startof b) 0 (b_last (co_block co b)).

(** 470-498 *)
Definition edge_site (reg : bool) (x : eid) : place * snip :=
  let h := zget (s_endHeight s) (startof (fst x)) in
  (OnEdge x,
   if reg then RegPush js h
   else StackPush (mkEreq o (mkPoint 0 (startof (trg co x)) 0) js false h
          (match opt_mid (s_entryFixed s) (startof (trg co x)) with Some _ => true | None => false end))).
(** 502-531 *)
Definition block_site (reg : bool) (b : nat) : place * snip :=
  let h := zget (s_entryHeight s) (startof b) in
  if reg then (AtStart (true, b), RegPush js h)
  else match opt_mid (s_entryData s) (startof b) with
       | None => (AtStart (true, b), StackPush (mkEreq o (bpoint b) js false h false))
       | Some m => (BeforeInsn (true, b) (m_addr m), StackPush (mkEreq o (bpoint b) js true h false))
       end.
(** 534-560 for clones; 769-779 and 836-847 for original blocks *)
Definition pop_site (clone reg : bool) (b : nat) : place * snip :=
  if reg then (AtEnd (clone, b), RegPop js)
  else match opt_mid (s_exitData s) (startof b) with
       | None => (AtEnd (clone, b), StackPop (mkXreq o (bpoint b) js false))
       | Some m => (BeforeInsn (clone, b) (m_addr m), StackPop (mkXreq o (bpoint b) js true))
       end.
Definition lowered_sites (l : lowered) : list (place * snip) :=
  map (edge_site (l_reg l)) (l_push_edges l) ++ map (block_site (l_reg l)) (l_push_blocks l) ++
  map (pop_site true (l_reg l)) (l_pops l).
(** 756-765: the push of the slow path *)
Definition slow_site (b : nat) : place * snip :=
  match opt_mid (s_entryData s) (startof b) with
  | None => (AtStart (false, b), StackPush (mkEreq o (bpoint b) js false 0 false))
  | Some m => (BeforeInsn (false, b) (m_addr m), StackPush (mkEreq o (bpoint b) js true 0 false))
  end.
(** 819-828, and 302-303 for register frames *)
Definition entry_site (moved reg : bool) (b : nat) : place * snip :=
  if reg then (AtEntry, RegPush js 0)
  else match moved, zfind (s_entryData s) (startof b) with
       | true, Some m => (BeforeInsn (false, b) (m_addr m), StackPush (mkEreq o (bpoint b) js true 0 false))
       | _, _ => (AtEntry, StackPush (mkEreq o (bpoint b) js false 0 false))
       end.
Definition plan_sites (fn : nat) (p : plan) : list (place * snip) :=
  match p with
  | Untouched | PAbort | PNoFuel => []
  | ByLowering l => lowered_sites l
  | ByEntry moved pops reg =>
      entry_site moved reg (f_entry (co_fun co fn)) :: map (pop_site false reg) pops
  | ByFastPath slow pops _ => slow_site slow :: map (pop_site false false) pops
  end.
End SITES.

(** ** What the passes leave in the summary *)
Definition data_fields (s : summary) :=
  (s_entryData s, s_exitData s, s_entryFixed s, s_redZone s, s_unused s).
Definition height_fields (s : summary) := (s_endHeight s, s_entryHeight s).
Definition both (s : summary) := (data_fields s, height_fields s).
Definition calls_of (s : summary) := (s_callees s, s_unknown_cf s, s_plt_calls s).
Definition kept (s : summary) := (both s, s_assume_unsafe s, calls_of s).

Lemma cg_keep_both co m vis m' : cg_run co m = Ok (vis, m') -> same_field both m m'.
Proof.
  apply (visit_all_keep sums unit (co_funcs co) (cg_pre co) cg_before cg_after cg_post (same_field both)).
  - intros s f; auto.
  - apply same_trans.
  - intros f s. apply same_upd. unfold update_callees. apply fold_keep. intros s0 b. unfold cg_block.
    apply fold_keep. intros s1 e. unfold cg_edge.
    repeat match goal with |- context [if ?c then _ else _] => destruct c; [reflexivity|] end.
    destruct (co_link _ _); [reflexivity|]. destruct (callee_of _ _); reflexivity.
  - intros p c s. apply same_upd. reflexivity.
  - intros p c b l s0 s _ _ f. reflexivity.
  - intros f l s g. reflexivity.
Qed.
(** InterProceduralMemoryAnalysis copies [assume_unsafe] from callees to callers. *)
Definition leaf_kept (m m' : sums) : Prop := forall f,
  both (m' f) = both (m f) /\ calls_of (m' f) = calls_of (m f) /\
  (s_callees (m f) = [] -> s_assume_unsafe (m' f) = s_assume_unsafe (m f)).
Lemma ip_keep_leaf co m vis m' : ip_run co m = Ok (vis, m') -> leaf_kept m m'.
Proof.
  apply (visit_all_keep sums unit (co_funcs co) ip_pre ip_before ip_after ip_post leaf_kept).
  - intros s f; auto.
  - intros x y z H K f. destruct (H f) as (H1 & H2 & H3), (K f) as (K1 & K2 & K3).
    unfold calls_of in *.
    split; [congruence|]. split; [congruence|]. intros E. rewrite K3, H3; congruence.
  - intros f s g. auto.
  - intros p c s g. auto.
  - intros p c b l s0 s HC PS g. cbn [ip_pre snd] in HC. destruct (PS p) as (_ & E & _).
    unfold calls_of in E. injection E as E _ _. rewrite <- E in HC.
    cbn [ip_after snd]. unfold upd. destruct (Nat.eqb_spec g p) as [->|]; [|auto].
    rewrite ?Nat.eqb_refl. split; [reflexivity|]. split; [reflexivity|]. intros K. rewrite K in HC. destruct HC.
  - intros f l s g. unfold ip_post, upd. destruct (Nat.eqb_spec g f) as [->|]; auto.
Qed.
Lemma ex_keep_kept co m vis m' : ex_run co m = Ok (vis, m') -> same_field kept m m'.
Proof.
  apply (visit_all_keep sums (option bool) (co_funcs co) ex_pre ex_before ex_after ex_post (same_field kept)).
  - intros s f; auto.
  - apply same_trans.
  - intros f s. unfold ex_pre. destruct (s_plt_calls (s f)); [destruct (s_unknown_cf (s f))|];
      cbn [fst]; try (apply same_upd; reflexivity). intros g; auto.
  - intros p c s g. reflexivity.
  - intros p c b l s0 s _ _ g. destruct l; reflexivity.
  - intros f l s. unfold ex_post. destruct l; [apply same_upd; reflexivity|intros g; auto].
Qed.
Lemma ucb_keep_kept co m : same_field kept m (ucb_run co m).
Proof.
  apply local_same. intros f s. unfold ucb_func. apply fold_keep. intros s0 b.
  destruct (unsafe_call _ _ _); reflexivity.
Qed.
Lemma large_keep_both co m : same_field both m (local_pass co (large_filter co) m).
Proof.
  apply local_same. intros f s. unfold large_filter.
  destruct (s_assume_unsafe s); auto. destruct (_ <? _); auto. destruct (_ <? _); reflexivity.
Qed.
Lemma sh_keep_data co f s : data_fields (stack_height co f s) = data_fields s.
Proof.
  unfold stack_height. destruct (s_assume_unsafe s); auto. apply fold_keep. intros s0 b. unfold sh_block.
  rewrite (fold_keep data_fields).
  - destruct (b_sp_entry _), (b_sp_end _); reflexivity.
  - intros s1 i. unfold sh_insn. destruct (i_frame i); auto. destruct (i_wmem i).
    + apply fold_keep. intros s2 x. unfold sh_out. destruct x; auto. destruct (-8 <=? off); reflexivity.
    + destruct (i_rmem i); auto. destruct (first_stack _); reflexivity.
Qed.
Lemma sh_insn_height bn s i : height_fields (sh_insn bn s i) = height_fields s.
Proof.
  unfold sh_insn. destruct (i_frame i); auto. destruct (i_wmem i).
  - apply fold_keep. intros s2 x. unfold sh_out. destruct x; auto. destruct (-8 <=? off); reflexivity.
  - destruct (i_rmem i); auto. destruct (first_stack _); reflexivity.
Qed.

(** A map keyed by block starts and filled block by block. *)
Section FILL.
Context {A : Type}.
Variables (key : nat -> Z) (val : nat -> option A).
Variable get : summary -> list (Z * A).
Variable step : summary -> nat -> summary.
Hypothesis ST : forall s b,
  get (step s b) = match val b with Some v => zset (key b) v (get s) | None => get s end.
Lemma fill_other l : forall s k, ~ In k (map key l) -> zfind (get (fold_left step l s)) k = zfind (get s) k.
Proof.
  induction l as [|b l IH]; intros s k H; cbn [fold_left map] in *; auto.
  rewrite IH by (intros K; apply H; right; auto). rewrite ST. destruct (val b); auto.
  rewrite zfind_zset. destruct (Z.eqb_spec k (key b)) as [E|E]; auto. exfalso. apply H. left; auto.
Qed.
Lemma fill_at l : NoDup (map key l) -> forall s b,
  In b l -> zfind (get s) (key b) = None -> zfind (get (fold_left step l s)) (key b) = val b.
Proof.
  induction l as [|a l IH]; intros N s b H Z; [destruct H|]. cbn [fold_left map] in *.
  inversion N as [|? ? N1 N2]; subst. destruct H as [->|H].
  - rewrite fill_other by auto. rewrite ST. destruct (val b); auto.
    rewrite zfind_zset, Z.eqb_refl. auto.
  - apply IH; auto. rewrite ST. destruct (val a); auto. rewrite zfind_zset.
    destruct (Z.eqb_spec (key b) (key a)) as [E|E]; auto.
    exfalso. apply N1. rewrite <- E. apply in_map. auto.
Qed.
End FILL.

Definition distinct_starts (co : code) (fn : nat) : Prop :=
  NoDup (map (fun b => b_start (co_block co b)) (f_blocks (co_fun co fn))).

Lemma local_opt_at co run m m' f :
  NoDup (co_funcs co) -> In f (co_funcs co) -> local_opt co run m = Some m' -> run f (m f) = Some (m' f).
Proof.
  unfold local_opt. generalize (co_funcs co). intros l. revert m.
  assert (N : forall l, fold_left (fun om f => match om with
                         | Some m => match run f (m f) with Some s => Some (upd m f s) | None => None end
                         | None => None end) l (@None sums) = None) by (induction l0; auto).
  assert (OTH : forall l m m', ~ In f l -> fold_left (fun om f => match om with
                         | Some m => match run f (m f) with Some s => Some (upd m f s) | None => None end
                         | None => None end) l (Some m) = Some m' -> m' f = m f).
  { induction l0 as [|a l0 IH]; intros m0 m1 H E; cbn [fold_left] in E.
    - injection E as <-. auto.
    - destruct (run a (m0 a)) as [s|]; [|rewrite N in E; discriminate].
      rewrite (IH _ _ (fun K => H (or_intror K)) E). unfold upd.
      destruct (Nat.eqb_spec f a) as [->|]; auto. exfalso. apply H. left; auto. }
  induction l as [|a l IH]; intros m D H E; [destruct H|]. cbn [fold_left] in E.
  inversion D as [|? ? D1 D2]; subst.
  destruct (run a (m a)) as [s|] eqn:R; [|rewrite N in E; discriminate].
  destruct H as [->|H].
  - rewrite (OTH _ _ _ D1 E). unfold upd. rewrite Nat.eqb_refl. auto.
  - pose proof (IH _ D2 H E) as K. unfold upd in K at 1.
    destruct (Nat.eqb_spec f a) as [->|]; [contradiction|]. auto.
Qed.

Lemma kept_both a b : kept a = kept b -> both a = both b.
Proof. unfold kept, calls_of, both, data_fields, height_fields. intros H. injection H as. congruence. Qed.
Lemma both_data a b : both a = both b -> data_fields a = data_fields b.
Proof. unfold both, data_fields, height_fields. intros H. injection H as. congruence. Qed.
Lemma both_height a b : both a = both b -> height_fields a = height_fields b.
Proof. unfold both, data_fields, height_fields. intros H. injection H as. congruence. Qed.
Lemma safe_paths_keep co f s s' : safe_paths co f s = Some s' -> kept s' = kept s.
Proof.
  unfold safe_paths. destruct (count_paths _ _ _ _ _ _) as [[c v]|]; [|discriminate].
  intros H; injection H as <-. reflexivity.
Qed.
Definition late_fields (s : summary) := (s_entryData s, s_exitData s, s_entryFixed s, height_fields s).
Lemma ur_insn_late l : forall st s' u', fold_left ur_insn l st = Some (s', u') ->
  exists s u, st = Some (s, u) /\ late_fields s' = late_fields s.
Proof.
  induction l as [|i l IH]; intros st s' u' H; cbn [fold_left] in H.
  - subst st. exists s', u'. auto.
  - apply IH in H. destruct H as (s1 & u1 & E & K). destruct st as [[s u]|]; [|discriminate].
    exists s, u. split; auto. rewrite K. clear K IH. cbn [ur_insn] in E.
    assert (SP : forall o : option Z, late_fields (match o with
                    | Some h => if 128 <=? -8 - h then set_moveDownSP s true else s
                    | None => s end) = late_fields s).
    { intros [h|]; [destruct (128 <=? -8 - h)|]; reflexivity. }
    destruct (use_regs _ _) as [used'|]; [|discriminate]. injection E as <- _.
    destruct (negb (i_wmem i) && negb (i_rmem i))%bool; [apply SP|].
    rewrite (fold_keep late_fields); [apply SP|]. intros s0 e. destruct (rz_access e); reflexivity.
Qed.
Lemma unused_late co f s s' : unused_regs co f s = Some s' -> late_fields s' = late_fields s.
Proof.
  unfold unused_regs. destruct (s_assume_unsafe s); [intros E; injection E as <-; auto|].
  destruct (s_callees s) eqn:C; [|intros E; injection E as <-; auto].
  destruct (fold_left ur_insn _ _) as [[s1 u]|] eqn:E; [|discriminate].
  match goal with |- Some (set_unused _ ?v) = _ -> _ => generalize v end. intros v H; injection H as <-.
  apply ur_insn_late in E. destruct E as (s2 & u2 & E & K). injection E as <- _.
  etransitivity; [|exact K]. reflexivity.
Qed.
Lemma block_dead_late co f s :
  (height_fields (block_dead co f s), s_redZone (block_dead co f s), s_unused (block_dead co f s)) =
  (height_fields s, s_redZone s, s_unused s).
Proof.
  unfold block_dead.
  apply (fold_keep (fun s => (height_fields s, s_redZone s, s_unused s))). intros s0 b. reflexivity.
Qed.

(** The block heights and block data that end up in the summary. *)
Section DATA.
Variables (co : code) (m : sums) (fn : nat).
Hypothesis ND : NoDup (co_funcs co).
Hypothesis RUN : run_light co = Ok m.
Hypothesis IN : In fn (co_funcs co).
Hypothesis DS : distinct_starts co fn.
Notation blk b := (co_block co b).

(** What the register passes start from, and the heights. *)
Lemma run_light_parts :
  exists s3 s5 s6,
    height_fields s3 = ([], []) /\
    height_fields s5 = height_fields (stack_height co fn s3) /\
    data_fields s5 = ([], [], [], [], []) /\
    (s_callees s5 = [] -> s_assume_unsafe s5 = s_assume_unsafe s3) /\
    (well_formed co -> (forall g, In g (s_callees s5) <-> calls co fn g) /\
       (s_unknown_cf s5 = true <-> unresolved co fn) /\
       (forall k v, In (k, v) (s_plt_calls s5) -> plt_call co fn k v) /\
       (forall k v, plt_call co fn k v -> exists w, In (k, w) (s_plt_calls s5))) /\
    (s_unknown_cf (m fn) = s_unknown_cf s5 /\ s_plt_calls (m fn) = s_plt_calls s5 /\ s_callees (m fn) = s_callees s5) /\
    unused_regs co fn s5 = Some s6 /\ m fn = block_dead co fn s6.
Proof.
  unfold run_light, bind in RUN. destruct (run_memory co) as [m5| |] eqn:RM; try discriminate.
  destruct (local_opt co (safe_paths co) m5) as [m6|] eqn:E1; [|discriminate].
  destruct (local_opt co (unused_regs co) m6) as [m7|] eqn:E2; [|discriminate].
  injection RUN as EM.
  unfold run_memory, bind in RM.
  destruct (cg_run co (fun _ => summary0)) as [[v1 m1]| |] eqn:R1; try discriminate.
  set (m2 := local_pass co (large_filter co) m1) in *.
  set (m3 := local_pass co (stack_height co) m2) in *.
  destruct (ip_run co m3) as [[v4 m4]| |] eqn:R4; try discriminate.
  destruct (ex_run co m4) as [[v5 m4']| |] eqn:R5; try discriminate.
  injection RM as RM.
  assert (K1 : both (m2 fn) = both summary0).
  { unfold m2. rewrite (large_keep_both co m1 fn). apply (cg_keep_both _ _ _ _ R1). }
  assert (K2 : kept (m6 fn) = kept (m4 fn)).
  { assert (S : safe_paths co fn (m5 fn) = Some (m6 fn)) by (eapply local_opt_at; eauto).
    rewrite (safe_paths_keep _ _ _ _ S). rewrite <- RM, (ucb_keep_kept co m4' fn).
    apply (ex_keep_kept _ _ _ _ R5 fn). }
  assert (K3 : m3 fn = stack_height co fn (m2 fn)) by (apply local_at; auto).
  destruct (ip_keep_leaf _ _ _ _ R4 fn) as (I1 & I2 & I3).
  pose proof (kept_both _ _ K2) as KB. rewrite I1 in KB.
  assert (KC : calls_of (m6 fn) = calls_of (m3 fn)).
  { rewrite <- I2. exact (f_equal snd K2). }
  assert (U7 : unused_regs co fn (m6 fn) = Some (m7 fn)) by (eapply local_opt_at; eauto).
  assert (KM : m fn = block_dead co fn (m7 fn)) by (rewrite <- EM; apply local_at; auto).
  pose proof (unused_keep _ _ _ _ U7) as MK. pose proof (block_dead_keep co fn (m7 fn)) as MB.
  rewrite <- KM in MB. rewrite MK in MB. clear MK.
  assert (KA : s_callees (m6 fn) = [] -> s_assume_unsafe (m6 fn) = s_assume_unsafe (m3 fn)).
  { intros E. rewrite <- I3 by (unfold calls_of in KC; congruence). exact (f_equal (fun x => snd (fst x)) K2). }
  exists (m2 fn), (m6 fn), (m7 fn). split; [|split; [|split; [|split; [|split; [|split; [|split]]]]]].
  - rewrite (both_height _ _ K1). reflexivity.
  - rewrite (both_height _ _ KB), K3. reflexivity.
  - rewrite (both_data _ _ KB), K3, sh_keep_data, (both_data _ _ K1). reflexivity.
  - intros E. rewrite (KA E), K3. apply stack_height_frame.
  - intros (HN & [HO HE] & _).
    assert (K : calls_of (m6 fn) = calls_of (m1 fn)).
    { rewrite KC, K3. unfold calls_of.
      destruct (stack_height_frame co fn (m2 fn)) as (_ & _ & -> & _ & -> & -> & _).
      unfold m2. rewrite local_at by auto.
      destruct (large_frame co fn (m1 fn)) as (_ & _ & _ & -> & _ & -> & -> & _). reflexivity. }
    unfold calls_of in K. injection K as -> -> ->.
    destruct (cg_run_ok co HE (fun _ => summary0) HO HN) as (vis & m1' & R & _ & V & D & _).
    { intros f. repeat split. } { intros f. auto. }
    rewrite R1 in R. injection R as _ <-. destruct (D fn IN) as (D1 & D2 & D3 & D4 & _). auto.
  - unfold mem_fields in MB. injection MB as _ _ _ _ B1 B2 B3. auto.
  - exact U7.
  - exact KM.
Qed.

Lemma run_light_data b : In b (f_blocks (co_fun co fn)) ->
  zfind (s_entryData (m fn)) (b_start (blk b)) = entry_point (b_insns (blk b)) /\
  zfind (s_exitData (m fn)) (b_start (blk b)) = exit_point (b_insns (blk b)) /\
  zfind (s_entryFixed (m fn)) (b_start (blk b)) = entry_fixed (b_insns (blk b)).
Proof.
  intros HB. destruct run_light_parts as (s3 & s5 & s6 & _ & _ & D5 & _ & _ & _ & U & ->).
  pose proof (unused_late _ _ _ _ U) as L. unfold late_fields in L. injection L as L1 L2 L3 _ _.
  unfold data_fields in D5. injection D5 as D1 D2 D3 _ _.
  unfold block_dead. split; [|split].
  - apply (fill_at (fun b => b_start (blk b)) (fun b => entry_point (b_insns (blk b))) s_entryData (bd_block co)
             (fun s b' => eq_refl) _ DS _ b HB). rewrite L1, D1. reflexivity.
  - apply (fill_at (fun b => b_start (blk b)) (fun b => exit_point (b_insns (blk b))) s_exitData (bd_block co)
             (fun s b' => eq_refl) _ DS _ b HB). rewrite L2, D2. reflexivity.
  - apply (fill_at (fun b => b_start (blk b)) (fun b => entry_fixed (b_insns (blk b))) s_entryFixed (bd_block co)
             (fun s b' => eq_refl) _ DS _ b HB). rewrite L3, D3. reflexivity.
Qed.

Lemma sh_block_end s b : s_endHeight (sh_block co s b) =
  match option_map (fun h => -8 - h) (b_sp_end (blk b)) with
  | Some v => zset (b_start (blk b)) v (s_endHeight s) | None => s_endHeight s end.
Proof.
  unfold sh_block. rewrite (fold_keep s_endHeight)
    by (intros s1 i; exact (f_equal fst (sh_insn_height b s1 i))).
  destruct (b_sp_entry _), (b_sp_end _); reflexivity.
Qed.
Lemma sh_block_entry s b : s_entryHeight (sh_block co s b) =
  match option_map (fun h => -8 - h) (b_sp_entry (blk b)) with
  | Some v => zset (b_start (blk b)) v (s_entryHeight s) | None => s_entryHeight s end.
Proof.
  unfold sh_block. rewrite (fold_keep s_entryHeight)
    by (intros s1 i; exact (f_equal snd (sh_insn_height b s1 i))).
  destruct (b_sp_entry _), (b_sp_end _); reflexivity.
Qed.

Lemma run_light_heights b v : In b (f_blocks (co_fun co fn)) ->
  (zfind (s_endHeight (m fn)) (b_start (blk b)) = Some v -> exists h, b_sp_end (blk b) = Some h /\ v = -8 - h) /\
  (zfind (s_entryHeight (m fn)) (b_start (blk b)) = Some v -> exists h, b_sp_entry (blk b) = Some h /\ v = -8 - h).
Proof.
  intros HB. destruct run_light_parts as (s3 & s5 & s6 & H3 & H5 & _ & _ & _ & _ & U & E).
  pose proof (unused_late _ _ _ _ U) as L. unfold late_fields in L. injection L as _ _ _ L1 L2.
  pose proof (block_dead_late co fn s6) as B. injection B as B1 B2 _ _. rewrite <- E in *.
  unfold height_fields in *. injection H5 as H5 H6. injection H3 as H3 H4.
  rewrite B1, B2, L1, L2, H5, H6. unfold stack_height.
  destruct (s_assume_unsafe s3).
  { rewrite H3, H4. cbn [zfind]. split; discriminate. }
  rewrite (fill_at (fun b => b_start (blk b)) (fun b => option_map (fun h => -8 - h) (b_sp_end (blk b)))
             s_endHeight (sh_block co) sh_block_end _ DS _ b HB) by (rewrite H3; reflexivity).
  rewrite (fill_at (fun b => b_start (blk b)) (fun b => option_map (fun h => -8 - h) (b_sp_entry (blk b)))
             s_entryHeight (sh_block co) sh_block_entry _ DS _ b HB) by (rewrite H4; reflexivity).
  split.
  - destruct (b_sp_end (blk b)) as [h|]; cbn [option_map]; intros K; [|discriminate].
    injection K as <-. eauto.
  - destruct (b_sp_entry (blk b)) as [h|]; cbn [option_map]; intros K; [|discriminate].
    injection K as <-. eauto.
Qed.

(** Red-zone operands that the analysis sees. *)
Definition seen_below (i : insn) : Prop :=
  (i_wmem i = true \/ i_rmem i = true) /\ exists e, In e (i_memops i) /\ rz_access e <> None.
Lemma rz_fold_red l : forall s,
  s_redZone (fold_left (fun s e => match rz_access e with
                                   | Some d => set_redZone s (d :: s_redZone s)
                                   | None => s end) l s) <> [] <->
  s_redZone s <> [] \/ exists e, In e l /\ rz_access e <> None.
Proof.
  induction l as [|e l IH]; intros s; cbn [fold_left].
  - split; [auto|]. intros [H|(e & [] & _)]; auto.
  - rewrite IH. destruct (rz_access e) as [d|] eqn:E.
    + change (s_redZone (set_redZone s (d :: s_redZone s))) with (d :: s_redZone s). split.
      * intros _. right. exists e. split; [left; auto|congruence].
      * intros _. left. discriminate.
    + split; intros [H|(x & H & K)]; auto.
      * right. exists x. split; [right; auto|auto].
      * destruct H as [->|H]; [congruence|]. right. eauto.
Qed.
Lemma ur_red l : forall s used s' u,
  fold_left ur_insn l (Some (s, used)) = Some (s', u) ->
  (s_redZone s' <> [] <-> s_redZone s <> [] \/ exists i, In i l /\ seen_below i).
Proof.
  induction l as [|i l IH]; intros s used s' u H.
  - cbn in H. injection H as <- <-. split; [auto|]. intros [H|(i & [] & _)]; auto.
  - cbn [fold_left] in H. unfold ur_insn at 2 in H.
    destruct (use_regs (i_read i ++ i_written i) used) as [u1|] eqn:E;
      [|rewrite ur_none in H; discriminate].
    rewrite (IH _ _ _ _ H). clear H IH.
    set (q := match i_sp i with Some h => _ | None => s end).
    assert (Q : s_redZone q = s_redZone s).
    { subst q. destruct (i_sp i); auto. destruct (_ <=? _); reflexivity. }
    assert (R : s_redZone (if (negb (i_wmem i) && negb (i_rmem i))%bool then q
                else fold_left (fun s e => match rz_access e with
                                           | Some d => set_redZone s (d :: s_redZone s)
                                           | None => s end) (i_memops i) q) <> [] <->
                s_redZone s <> [] \/ seen_below i).
    { unfold seen_below. destruct (negb (i_wmem i) && negb (i_rmem i))%bool eqn:B.
      - rewrite Q. apply andb_true_iff in B. destruct B as [B1 B2].
        apply negb_true_iff in B1. apply negb_true_iff in B2. rewrite B1, B2.
        split; [auto|]. intros [H|[[H|H] _]]; auto; discriminate.
      - rewrite rz_fold_red, Q. split; intros [H|H]; auto.
        + right. split; auto. destruct (i_wmem i), (i_rmem i); auto; discriminate.
        + right. apply H. }
    rewrite R. split.
    + intros [[H|H]|(j & H & K)]; auto; right.
      * exists i. split; [left; auto|auto].
      * exists j. split; [right; auto|auto].
    + intros [H|(j & [<-|H] & K)]; auto. right. exists j. auto.
Qed.

(** In a function that lowering accepts, the list of red-zone accesses is not empty
    exactly if the function calls no known function and has such an operand. *)
Lemma run_light_red : well_formed co -> s_endHeight (m fn) <> [] ->
  (s_redZone (m fn) <> [] <->
   (forall g, ~ calls co fn g) /\
   exists b i, In b (f_blocks (co_fun co fn)) /\ In i (b_insns (blk b)) /\ seen_below i).
Proof.
  intros WF HH. destruct run_light_parts as (s3 & s5 & s6 & H3 & H5 & D5 & AS & CC & _ & U & E).
  pose proof (block_dead_late co fn s6) as B. injection B as B1 _ B2 _. rewrite <- E in *.
  pose proof (unused_late _ _ _ _ U) as L. unfold late_fields, height_fields in L. injection L as _ _ _ L _.
  assert (AU : s_callees s5 = [] -> s_assume_unsafe s5 = false).
  { intros C0. rewrite (AS C0). destruct (s_assume_unsafe s3) eqn:A; auto. exfalso. apply HH.
    rewrite B1, L. unfold height_fields in H5. injection H5 as H5 _. rewrite H5.
    unfold stack_height. rewrite A. unfold height_fields in H3. injection H3 as H3 _. auto. }
  assert (RZ : s_redZone s5 = []) by (unfold data_fields in D5; injection D5 as _ _ _ D5 _; auto).
  rewrite B2. unfold unused_regs in U. destruct (CC WF) as [CC' _]. clear CC. rename CC' into CC.
  destruct (s_callees s5) as [|g gs].
  - rewrite AU in U by auto. destruct (fold_left ur_insn _ _) as [[s7 u]|] eqn:F; [|discriminate].
    revert U. match goal with |- Some (set_unused _ ?v) = _ -> _ => generalize v end. intros v U; injection U as <-.
    change (s_redZone (set_unused s7 ?v)) with (s_redZone s7).
    rewrite (ur_red _ _ _ _ _ F), RZ. split.
    + intros [K|(i & Hi & K)]; [congruence|]. split.
      * intros g Hg. apply CC in Hg. destruct Hg.
      * unfold func_insns in Hi. apply in_concat in Hi. destruct Hi as (x & Hx & Hi).
        apply in_map_iff in Hx. destruct Hx as (b & <- & Hb). eauto.
    + intros [_ (b & i & Hb & Hi & K)]. right. exists i. split; auto.
      unfold func_insns. apply in_concat. exists (b_insns (blk b)). split; auto. apply in_map_iff; eauto.
  - assert (E6 : s6 = s5) by (destruct (s_assume_unsafe s5); injection U as <-; auto).
    subst s6. rewrite RZ. split; [congruence|]. intros [K _]. exfalso.
    apply (K g). apply CC. left; auto.
Qed.
End DATA.

(** ** What lowering makes sure of *)
Section LOWER.
Variables (co : code) (fl : flags) (fn : nat) (s : summary) (l : lowered).
Hypothesis CFG : cfg_ok co fn.
Hypothesis LOW : lower co fl fn s = Lowered l.
Notation bs := (f_blocks (co_fun co fn)).

Lemma lower_checks :
  s_endHeight s <> [] /\ l_reg l = use_reg fl s /\
  (forall x, In x (l_red l) -> In (fst x) bs /\ In (trg co x) bs /\
     (exists v, zfind (s_endHeight s) (startof co (fst x)) = Some v) /\
     (l_reg l = false -> s_redZone s <> [] ->
      exists m, zfind (s_entryFixed s) (startof co (trg co x)) = Some m /\ 2 <= m_saveCount m)) /\
  (forall x, In x (l_push_edges l) -> In x (l_red l)) /\
  (forall b, In b (l_push_blocks l) -> In b bs /\ (exists x, In x (l_red l) /\ trg co x = b) /\
     exists v, zfind (s_entryHeight s) (startof co b) = Some v) /\
  (forall b, In b (l_pops l) -> In b (f_exits (co_fun co fn))).
Proof.
  revert LOW. unfold lower.
  destruct (fl_no_lowering fl || negb (lower_ok (co_fun co fn) s) || s_indirect_cf s)%bool eqn:G; [discriminate|].
  apply orb_false_iff in G. destruct G as [G GI]. apply orb_false_iff in G. destruct G as [_ G].
  apply negb_false_iff in G. unfold lower_ok in G. rewrite !andb_true_iff in G. destruct G as [[_ G] _].
  destruct (redir_exact co (s_unsafe_blocks s) bs (proj2 CFG) _ (proj1 CFG)) as (red & vis & R & RX).
  unfold fuel_of in R. rewrite R.
  destruct (negb (forallb (edge_ok co fl s) red)) eqn:EO; [discriminate|]. apply negb_false_iff in EO.
  rewrite forallb_forall in EO.
  match goal with |- context [if ?c then NotLowered else _] => destruct c eqn:DO; [discriminate|] end.
  cbv zeta. destruct (mark _ _ _ _ _) as [v|]; [|discriminate].
  match goal with |- context [if ?c then LAbort else _] => destruct c eqn:AB; [discriminate|] end.
  intros K. injection K as <-. cbn [l_red l_ndebug l_push_blocks l_push_edges l_pops l_reg].
  assert (CB : forall b, calm co (s_unsafe_blocks s) (f_entry (co_fun co fn)) b -> In b bs).
  { induction 1 as [|n x t H IH F IE D]; [apply (proj1 CFG)|].
    destruct IE as (e & N & Fe & <-). subst n. apply (proj2 CFG (fst x)); auto.
    exists e. split; [eapply nth_error_In; eauto|auto]. }
  split; [destruct (s_endHeight s); [discriminate|congruence]|]. split; [auto|]. split.
  { intros x Hx. pose proof (proj1 (RX x) Hx) as (t & C & IE & _).
    split; [auto|]. pose proof (is_edge_trg _ _ _ IE) as ET. split.
    - rewrite ET. destruct IE as (e & N & Fe & <-). apply (proj2 CFG (fst x)); auto.
      exists e. split; [eapply nth_error_In; eauto|auto].
    - split.
      + specialize (EO x Hx). unfold edge_ok, startof in *.
        destruct (zfind _ _); [eauto|discriminate].
      + intros UR RZ. rewrite UR in DO. cbn [negb andb] in DO.
        destruct (s_redZone s) as [|z zs]; [congruence|]. cbn [negb andb] in DO.
        apply negb_false_iff in DO. rewrite forallb_forall in DO. specialize (DO x Hx).
        unfold edge_dead_ok, startof in *. destruct (zfind _ _) as [md|]; [|discriminate].
        exists md. split; auto. apply negb_true_iff in DO. lia. }
  split; [intros x Hx; apply filter_In in Hx; tauto|]. split.
  - intros b Hb. unfold coalesce in Hb. destruct (fl_ndebug fl) eqn:ND; [destruct Hb|].
    pose proof Hb as Hb'. apply filter_In in Hb. destruct Hb as [Hb K].
    rewrite !andb_true_iff in K. destruct K as [[_ K] _]. split; auto. split.
    + unfold inst_edges in K. apply existsb_exists in K. destruct K as (x & Hx & E).
      apply Nat.eqb_eq in E. eauto.
    + cbn [negb andb] in AB. apply negb_false_iff in AB. rewrite forallb_forall in AB.
      unfold coalesce in AB. specialize (AB b Hb'). unfold startof. destruct (zfind _ _); [eauto|discriminate].
  - intros b Hb. apply filter_In in Hb. tauto.
Qed.
End LOWER.
