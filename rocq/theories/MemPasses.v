(** * MemPasses: LargeFunctionFilter, StackHeightAnalysis, FunctionExceptionAnalysis
      and UnsafeCallBlockAnalysis (passes.h:109-145, 233-363, 828-914) *)
From Coq Require Import ZArith Bool String Lia Arith List.
From Verif Require Import Machine Jit Dfs Binary.
Import ListNotations.
Open Scope Z_scope.

(** Pass::RunPass, first loop (pass_manager.h:354-356): the local analysis is
    run on every function in the order of co->funcs(). *)
Definition local_pass (co : code) (run : nat -> summary -> summary) (m : sums) : sums :=
  fold_left (fun m f => upd m f (run f (m f))) (co_funcs co) m.

Section MP.
Variable co : code.

(** ** LargeFunctionFilter, passes.h:115-142 *)
Definition kCutoffSize : Z := 20000.
Definition func_end (f : func) : Z :=
  fold_left (fun e b => Z.max e (b_end (co_block co b))) (f_rets f)
    (fold_left (fun e b => Z.max e (b_end (co_block co b))) (f_exits f) 0).
Definition large_filter (fn : nat) (s : summary) : summary :=
  let f := co_fun co fn in
  if s_assume_unsafe s then s
  else if func_end f <? f_addr f then s
  else if kCutoffSize <? func_end f - f_addr f then set_assume_unsafe s true
  else s.

(** ** StackHeightAnalysis, passes.h:240-347 *)
(** [unknown_writes[b].insert(addr)] *)
Fixpoint uw_insert (b : nat) (a : Z) (l : list (nat * list Z)) : list (nat * list Z) :=
  match l with
  | [] => [(b, [a])]
  | (b', s) :: t =>
      if Nat.ltb b b' then (b, [a]) :: l
      else if Nat.eqb b b' then (b', a :: s) :: t
      else (b', s) :: uw_insert b a t
  end.
(** One assignment of a memory-writing instruction, passes.h:287-319. *)
Definition sh_out (b : nat) (a : Z) (s : summary) (l : absloc) : summary :=
  match l with
  | AStack off =>
      let s1 := set_stack_writes s (zset off a (s_stack_writes s)) in
      let old := match zfind (s_stack_heights s1) a with Some p => fst p | None => 0 end in
      let s2 := set_stack_heights s1 (zset a (old, off) (s_stack_heights s1)) in
      if -8 <=? off
      then set_unsafe_blocks (set_self_unsafe s2 true) (sins b (s_unsafe_blocks s2))
      else s2
  | AUnknown =>
      set_unsafe_blocks (set_unknown_writes s (uw_insert b a (s_unknown_writes s)))
        (sins b (s_unsafe_blocks s))
  | AHeap | ARegister => s
  end.
(** First stack location among the inputs, passes.h:328-341. *)
Definition first_stack (ls : list absloc) : option Z :=
  match find (fun l => match l with AStack _ => true | _ => false end) ls with
  | Some (AStack o) => Some o
  | _ => None
  end.
Definition sh_insn (b : nat) (s : summary) (i : insn) : summary :=
  if i_frame i then s
  else if i_wmem i then fold_left (sh_out b (i_addr i)) (i_outs i) s
  else if i_rmem i then
    match first_stack (List.concat (i_ins i)) with
    | Some o =>
        let old := match zfind (s_stack_heights s) (i_addr i) with Some p => snd p | None => 0 end in
        set_stack_heights s (zset (i_addr i) (o, old) (s_stack_heights s))
    | None => s
    end
  else s.
Definition sh_block (s : summary) (bn : nat) : summary :=
  let b := co_block co bn in
  let s1 := match b_sp_end b with
            | Some h => set_endHeight s (zset (b_start b) (-8 - h) (s_endHeight s))
            | None => s end in
  let s2 := match b_sp_entry b with
            | Some h => set_entryHeight s1 (zset (b_start b) (-8 - h) (s_entryHeight s1))
            | None => s1 end in
  fold_left (sh_insn bn) (b_insns b) s2.
Definition stack_height (fn : nat) (s : summary) : summary :=
  if s_assume_unsafe s then s else fold_left sh_block (f_blocks (co_fun co fn)) s.

(** ** FunctionExceptionAnalysis, passes.h:872-913.  The local variable is
    [None] when the function returned early. *)
Definition ex_pre (f : nat) (m : sums) : sums * option bool * list nat :=
  match s_plt_calls (m f) with
  | _ :: _ => (upd m f (set_exc_safe (m f) false), None, [])
  | [] => if s_unknown_cf (m f)
          then (upd m f (set_exc_safe (m f) false), None, [])
          else (m, Some true, s_callees (m f))
  end.
Definition ex_before (p c : nat) (m : sums) : sums := m.
Definition ex_after (p c : nat) (fresh : bool) (l : option bool) (m : sums) : option bool * sums :=
  (match l with
   | Some r => Some (r && (if fresh then s_exc_safe (m c) else s_writes (m c)))
   | None => None
   end, m).
Definition ex_post (f : nat) (l : option bool) (m : sums) : sums :=
  match l with
  | Some r => upd m f (set_exc_safe (m f) r)
  | None => m
  end.
Definition ex_run (m : sums) : res (list nat * sums) :=
  visit_all sums (option bool) (co_funcs co) ex_pre ex_before ex_after ex_post
    (S (List.length (co_funcs co))) (co_funcs co) ([], m).
(** ** UnsafeCallBlockAnalysis, passes.h:833-863 *)
Definition safe_func (m : sums) : list Z :=
  fold_left (fun l f =>
    let a := f_addr (co_fun co f) in
    let skip := match co_link co a with
                | Some name => negb (is_safe_plt name)
                | None => false end in
    if skip then l else if negb (s_writes (m f)) then a :: l else l) (co_funcs co) [].
(** The loop over the targets stops at the first CALL edge. *)
Fixpoint unsafe_call (safe : list Z) (es : list edge) : bool :=
  match es with
  | [] => false
  | e :: t =>
      if e_sink e && is (e_ty e) CALL then true
      else if is (e_ty e) CALL
           then negb (existsb (Z.eqb (b_start (co_block co (e_trg e)))) safe)
           else unsafe_call safe t
  end.
Definition ucb_func (safe : list Z) (fn : nat) (s : summary) : summary :=
  fold_left (fun s b =>
    if unsafe_call safe (b_targets (co_block co b))
    then set_unsafe_blocks s (sins b (s_unsafe_blocks s)) else s)
    (f_blocks (co_fun co fn)) s.
Definition ucb_run (m : sums) : sums :=
  let safe := safe_func m in local_pass co (ucb_func safe) m.

End MP.

(** ** Facts about [local_pass] *)
Lemma local_other co run m f : ~ In f (co_funcs co) -> local_pass co run m f = m f.
Proof.
  unfold local_pass. generalize (co_funcs co). intros l. revert m.
  induction l as [|a l IH]; intros m H; cbn [fold_left]; auto.
  rewrite IH by (intros K; apply H; right; auto). unfold upd.
  destruct (Nat.eqb_spec f a) as [->|]; auto. exfalso. apply H. left; auto.
Qed.
Lemma local_at co run m f :
  NoDup (co_funcs co) -> In f (co_funcs co) -> local_pass co run m f = run f (m f).
Proof.
  unfold local_pass. generalize (co_funcs co). intros l. revert m.
  induction l as [|a l IH]; intros m HN H; [destruct H|]. cbn [fold_left].
  inversion HN as [|x y H1 H2]; subst. destruct H as [->|H].
  - clear IH. assert (E : forall l m, ~ In f l ->
      fold_left (fun m f => upd m f (run f (m f))) l m f = m f).
    { clear. induction l as [|b l IH]; intros m H; cbn [fold_left]; auto.
      rewrite IH by (intros K; apply H; right; auto). unfold upd.
      destruct (Nat.eqb_spec f b) as [->|]; auto. exfalso. apply H. left; auto. }
    rewrite E by auto. unfold upd. rewrite Nat.eqb_refl. auto.
  - rewrite IH by auto. unfold upd. destruct (Nat.eqb_spec f a) as [->|]; [contradiction|auto].
Qed.

Section FACTS.
Variable co : code.

(** ** LargeFunctionFilter *)
(** Specification: the distance from the entry to the last byte of an exit or
    return block exceeds 20000. *)
Definition oversized (f : func) : Prop :=
  exists b, (In b (f_exits f) \/ In b (f_rets f)) /\ b_end (co_block co b) - f_addr f > 20000.

Lemma fold_max l : forall e0,
  e0 <= fold_left (fun e b => Z.max e (b_end (co_block co b))) l e0 /\
  (forall b, In b l -> b_end (co_block co b) <=
     fold_left (fun e b => Z.max e (b_end (co_block co b))) l e0) /\
  (fold_left (fun e b => Z.max e (b_end (co_block co b))) l e0 = e0 \/
   exists b, In b l /\
     fold_left (fun e b => Z.max e (b_end (co_block co b))) l e0 = b_end (co_block co b)).
Proof.
  induction l as [|a l IH]; intros e0; cbn [fold_left].
  - split; [lia|]. split; [intros b []|auto].
  - destruct (IH (Z.max e0 (b_end (co_block co a)))) as (A & B & C). split; [lia|]. split.
    + intros b [<-|Hb]; [lia|auto].
    + destruct C as [C|(b & H & C)].
      * rewrite C. destruct (Z.max_dec e0 (b_end (co_block co a))) as [E|E]; [left; auto|].
        right. exists a. split; [left; auto|auto].
      * right. exists b. split; [right; auto|auto].
Qed.

Lemma large_exact fn s :
  0 <= f_addr (co_fun co fn) ->
  s_assume_unsafe (large_filter co fn s) = true <->
  s_assume_unsafe s = true \/ oversized (co_fun co fn).
Proof.
  intros HA. unfold large_filter, oversized, func_end. set (f := co_fun co fn) in *.
  destruct (fold_max (f_exits f) 0) as (A1 & A2 & A3).
  set (e1 := fold_left _ (f_exits f) 0) in *.
  destruct (fold_max (f_rets f) e1) as (B1 & B2 & B3).
  set (e2 := fold_left _ (f_rets f) e1) in *. unfold kCutoffSize.
  destruct (s_assume_unsafe s) eqn:ES; [intuition|].
  assert (K : e2 - f_addr f > 20000 <-> exists b, (In b (f_exits f) \/ In b (f_rets f)) /\
                b_end (co_block co b) - f_addr f > 20000).
  { split.
    - intros H. destruct B3 as [B3|(b & Hb & B3)].
      + destruct A3 as [A3|(b & Hb & A3)]; [lia|]. exists b. split; auto. lia.
      + exists b. split; auto. lia.
    - intros (b & [Hb|Hb] & H); [specialize (A2 b Hb)|specialize (B2 b Hb)]; lia. }
  destruct (Z.ltb_spec e2 (f_addr f)).
  - rewrite ES. split; [discriminate|]. intros [E|E]; [discriminate|]. apply K in E. lia.
  - destruct (Z.ltb_spec 20000 (e2 - f_addr f)).
    + cbn. split; auto. intros _. right. apply K. lia.
    + rewrite ES. split; [discriminate|]. intros [E|E]; [discriminate|]. apply K in E. lia.
Qed.

Lemma oversized_dec f : {oversized f} + {~ oversized f}.
Proof.
  destruct (existsb (fun b => b_end (co_block co b) - f_addr f >? 20000) (f_exits f ++ f_rets f)) eqn:E.
  - left. apply existsb_exists in E. destruct E as (b & H & K). exists b.
    apply in_app_or in H. split; auto. lia.
  - right. intros (b & H & K).
    assert (T : existsb (fun b => b_end (co_block co b) - f_addr f >? 20000) (f_exits f ++ f_rets f) = true).
    { apply existsb_exists. exists b. split; [apply in_or_app; auto|lia]. }
    congruence.
Qed.

Lemma large_frame fn s :
  s_self_unsafe (large_filter co fn s) = s_self_unsafe s /\
  s_child_writes (large_filter co fn s) = s_child_writes s /\
  s_writes (large_filter co fn s) = s_writes s /\
  s_unknown_cf (large_filter co fn s) = s_unknown_cf s /\
  s_unknown_writes (large_filter co fn s) = s_unknown_writes s /\
  s_plt_calls (large_filter co fn s) = s_plt_calls s /\
  s_callees (large_filter co fn s) = s_callees s /\
  s_unsafe_blocks (large_filter co fn s) = s_unsafe_blocks s /\
  s_exc_safe (large_filter co fn s) = s_exc_safe s.
Proof.
  unfold large_filter. destruct (s_assume_unsafe s); [repeat split|].
  destruct (_ <? _); [repeat split|]. destruct (_ <? _); repeat split.
Qed.

(** ** StackHeightAnalysis *)
(** Specification: block [b] contains a memory-writing instruction, not a call
    or return, for which the converter reports a stack location at or above
    the return address slot, or an unknown location. *)
Definition insn_stack_write (i : insn) (off : Z) : Prop :=
  i_frame i = false /\ i_wmem i = true /\ In (AStack off) (i_outs i).
Definition insn_unknown_write (i : insn) : Prop :=
  i_frame i = false /\ i_wmem i = true /\ In AUnknown (i_outs i).
Definition insn_bad_stack (i : insn) : Prop := exists off, insn_stack_write i off /\ -8 <= off.

Definition sh_frame (s s' : summary) : Prop :=
  s_assume_unsafe s' = s_assume_unsafe s /\ s_child_writes s' = s_child_writes s /\
  s_writes s' = s_writes s /\ s_unknown_cf s' = s_unknown_cf s /\
  s_plt_calls s' = s_plt_calls s /\ s_callees s' = s_callees s /\ s_exc_safe s' = s_exc_safe s.
Lemma sh_frame_refl s : sh_frame s s.
Proof. repeat split. Qed.
Lemma sh_frame_trans a b c : sh_frame a b -> sh_frame b c -> sh_frame a c.
Proof. unfold sh_frame. intuition congruence. Qed.

Lemma uw_nonempty b a l : uw_insert b a l <> [].
Proof.
  destruct l as [|[b' s] t]; cbn [uw_insert]; [discriminate|].
  destruct (Nat.ltb b b'); [discriminate|]. destruct (Nat.eqb b b'); discriminate.
Qed.

(** [sh_spec P Q s s']: from s to s', an unsafe stack write happened iff [P] and
    an unknown write iff [Q]; the block set grew by the blocks in [B]. *)
Definition sh_spec (P Q : Prop) (B : nat -> Prop) (s s' : summary) : Prop :=
  sh_frame s s' /\
  (s_self_unsafe s' = true <-> s_self_unsafe s = true \/ P) /\
  (s_unknown_writes s' <> [] <-> s_unknown_writes s <> [] \/ Q) /\
  (forall x, In x (s_unsafe_blocks s') <-> In x (s_unsafe_blocks s) \/ B x).

Lemma sh_spec_id s : sh_spec False False (fun _ => False) s s.
Proof. split; [apply sh_frame_refl|]. intuition. Qed.
Lemma sh_spec_seq P Q B P' Q' B' a b c :
  sh_spec P Q B a b -> sh_spec P' Q' B' b c ->
  sh_spec (P \/ P') (Q \/ Q') (fun x => B x \/ B' x) a c.
Proof.
  intros (A1 & A2 & A3 & A4) (B1 & B2 & B3 & B4). split; [eapply sh_frame_trans; eauto|].
  split; [rewrite B2, A2; clear; tauto|]. split; [rewrite B3, A3; clear; tauto|].
  intros x. rewrite B4, A4. clear; tauto.
Qed.
Lemma sh_spec_iff P Q B P' Q' B' a b :
  (P <-> P') -> (Q <-> Q') -> (forall x, B x <-> B' x) ->
  sh_spec P Q B a b -> sh_spec P' Q' B' a b.
Proof.
  intros H1 H2 H3 (A1 & A2 & A3 & A4). split; auto. split; [rewrite A2; tauto|].
  split; [rewrite A3; tauto|]. intros x. rewrite A4, H3. tauto.
Qed.

Lemma sh_out_spec b a s l :
  sh_spec (exists off, l = AStack off /\ -8 <= off) (l = AUnknown)
    (fun x => x = b /\ ((exists off, l = AStack off /\ -8 <= off) \/ l = AUnknown))
    s (sh_out b a s l).
Proof.
  destruct l as [off| | |]; cbn [sh_out].
  - destruct (Z.leb_spec (-8) off).
    + split; [repeat split|]. cbn. split; [|split].
      * split; auto. intros _. right. exists off. auto.
      * split; [auto|intros [K|K]; [auto|discriminate]].
      * intros x. rewrite sins_in. split; [|intuition].
        intros [->|K]; auto. right. split; auto. left. exists off. auto.
    + split; [repeat split|]. cbn. split; [|split].
      * split; auto. intros [K|(o & E & K)]; auto. inversion E; subst. lia.
      * split; [auto|intros [K|K]; [auto|discriminate]].
      * intros x. split; auto. intros [K|(E & [(o & E' & K)|K])]; auto; [|discriminate].
        inversion E'; subst. lia.
  - split; [repeat split|]. cbn. split; [|split].
    + split; auto. intros [K|(o & E & K)]; auto. discriminate.
    + split; auto. intros _. apply uw_nonempty.
    + intros x. rewrite sins_in. intuition.
  - eapply sh_spec_iff; [| | |apply sh_spec_id].
    + split; [tauto|]. intros (o & E & _); discriminate.
    + split; [tauto|discriminate].
    + intros x. split; [tauto|]. intros (_ & [(o & E & _)|E]); discriminate.
  - eapply sh_spec_iff; [| | |apply sh_spec_id].
    + split; [tauto|]. intros (o & E & _); discriminate.
    + split; [tauto|discriminate].
    + intros x. split; [tauto|]. intros (_ & [(o & E & _)|E]); discriminate.
Qed.

Lemma sh_fold {A} (run : summary -> A -> summary) (P Q : A -> Prop) (B : A -> nat -> Prop) :
  (forall s x, sh_spec (P x) (Q x) (B x) s (run s x)) ->
  forall l s, sh_spec (exists x, In x l /\ P x) (exists x, In x l /\ Q x)
                (fun y => exists x, In x l /\ B x y) s (fold_left run l s).
Proof.
  intros H. induction l as [|a l IH]; intros s; cbn [fold_left].
  - eapply sh_spec_iff; [| | |apply sh_spec_id].
    + split; [tauto|]. intros (z & [] & _).
    + split; [tauto|]. intros (z & [] & _).
    + intros y. split; [tauto|]. intros (z & [] & _).
  - eapply sh_spec_iff; [| | |eapply sh_spec_seq; [apply (H s a)|apply IH]].
    + cbn. split; [intros [K|(x & K & K')]; eauto|]. intros (x & [->|K] & K'); eauto.
    + cbn. split; [intros [K|(x & K & K')]; eauto|]. intros (x & [->|K] & K'); eauto.
    + intros y. cbn. split; [intros [K|(x & K & K')]; eauto|]. intros (x & [->|K] & K'); eauto.
Qed.

Lemma sh_insn_spec b s i :
  sh_spec (insn_bad_stack i) (insn_unknown_write i)
    (fun x => x = b /\ (insn_bad_stack i \/ insn_unknown_write i)) s (sh_insn b s i).
Proof.
  unfold sh_insn, insn_bad_stack, insn_unknown_write, insn_stack_write.
  destruct (i_frame i).
  { eapply sh_spec_iff; [| | |apply sh_spec_id].
    - split; [tauto|]. intros (o & (E & _) & _). discriminate.
    - split; [tauto|]. intros (E & _). discriminate.
    - intros x. split; [tauto|]. intros (_ & [(o & (E & _) & _)|(E & _)]); discriminate. }
  destruct (i_wmem i).
  - eapply sh_spec_iff; [| | |apply (sh_fold (sh_out b (i_addr i)) _ _ _ (sh_out_spec b (i_addr i)))].
    + split.
      * intros (l & H & o & -> & K). exists o. auto.
      * intros (o & (_ & _ & H) & K). exists (AStack o). split; auto. exists o. auto.
    + split.
      * intros (l & H & ->). auto.
      * intros (_ & _ & H). exists AUnknown. auto.
    + intros x. split.
      * intros (l & H & -> & K). split; auto. destruct K as [(o & E & K)|E]; subst l; [left|right; auto].
        exists o. auto.
      * intros (-> & [(o & (_ & _ & H) & K)|(_ & _ & H)]).
        -- exists (AStack o). split; auto. split; auto. left. exists o. auto.
        -- exists AUnknown. auto.
  - assert (E : sh_spec False False (fun _ => False) s
      (if i_rmem i then match first_stack (List.concat (i_ins i)) with
         | Some o => set_stack_heights s (zset (i_addr i)
             (o, match zfind (s_stack_heights s) (i_addr i) with Some p => snd p | None => 0 end)
             (s_stack_heights s))
         | None => s end else s)).
    { destruct (i_rmem i); [|apply sh_spec_id]. destruct (first_stack _); [|apply sh_spec_id].
      split; [repeat split|]. cbn. intuition. }
    eapply sh_spec_iff; [| | |exact E].
    + split; [tauto|]. intros (o & (_ & E' & _) & _). discriminate.
    + split; [tauto|]. intros (_ & E' & _). discriminate.
    + intros x. split; [tauto|]. intros (_ & [(o & (_ & E' & _) & _)|(_ & E' & _)]); discriminate.
Qed.

Definition block_has (p : insn -> Prop) (b : nat) : Prop :=
  exists i, In i (b_insns (co_block co b)) /\ p i.

Lemma sh_block_spec s b :
  sh_spec (block_has insn_bad_stack b) (block_has insn_unknown_write b)
    (fun x => x = b /\ (block_has insn_bad_stack b \/ block_has insn_unknown_write b))
    s (sh_block co s b).
Proof.
  unfold sh_block, block_has. set (bl := co_block co b).
  match goal with |- sh_spec _ _ _ _ (fold_left _ _ ?x) => set (s2 := x) end.
  assert (E : sh_spec False False (fun _ => False) s s2).
  { unfold s2. destruct (b_sp_end bl), (b_sp_entry bl);
    (split; [repeat split|]; cbn; intuition). }
  eapply sh_spec_iff; [| | |eapply sh_spec_seq; [exact E|
     apply (sh_fold (sh_insn b) _ _ _ (fun s i => sh_insn_spec b s i))]].
  - tauto.
  - tauto.
  - intros x. split.
    + intros [[]|(i & H & -> & K)]. split; auto. destruct K; [left|right]; eauto.
    + intros (-> & [(i & H & K)|(i & H & K)]); right; exists i; auto.
Qed.

Definition func_has (p : insn -> Prop) (fn : nat) : Prop :=
  exists b, In b (f_blocks (co_fun co fn)) /\ block_has p b.

Lemma stack_height_spec fn s :
  s_assume_unsafe s = false ->
  sh_spec (func_has insn_bad_stack fn) (func_has insn_unknown_write fn)
    (fun x => In x (f_blocks (co_fun co fn)) /\
              (block_has insn_bad_stack x \/ block_has insn_unknown_write x))
    s (stack_height co fn s).
Proof.
  intros HA. unfold stack_height. rewrite HA.
  eapply sh_spec_iff; [| | |apply (sh_fold (sh_block co) _ _ _ sh_block_spec)].
  - unfold func_has. tauto.
  - unfold func_has. tauto.
  - intros x. split.
    + intros (b & H & -> & K). auto.
    + intros (H & K). exists x. auto.
Qed.

(** ** UnsafeCallBlockAnalysis *)
(** Specification: a function at address [a] whose call is harmless. *)
Definition trusted_target (m : sums) (a : Z) : Prop :=
  exists g, In g (co_funcs co) /\ f_addr (co_fun co g) = a /\
    (forall name, co_link co a = Some name -> trusted_lib name) /\
    s_writes (m g) = false.
(** The first call edge of a block. *)
Definition first_call (b : block) (e : edge) : Prop :=
  exists pre post, b_targets b = pre ++ e :: post /\ e_ty e = CALL /\
    forall x, In x pre -> e_ty x <> CALL.

Lemma safe_func_in m a : In a (safe_func co m) <-> trusted_target m a.
Proof.
  unfold safe_func, trusted_target. generalize (co_funcs co). intros l.
  assert (K : forall l acc, In a (fold_left (fun l f =>
      let a := f_addr (co_fun co f) in
      let skip := match co_link co a with
                  | Some name => negb (is_safe_plt name) | None => false end in
      if skip then l else if negb (s_writes (m f)) then a :: l else l) l acc) <->
    In a acc \/ exists g, In g l /\ f_addr (co_fun co g) = a /\
      (forall name, co_link co a = Some name -> trusted_lib name) /\
      s_writes (m g) = false).
  { clear l. induction l as [|f l IH]; intros acc; cbn [fold_left].
    - split; auto. intros [H|(g & [] & _)]; auto.
    - rewrite IH. clear IH. cbv zeta.
      set (af := f_addr (co_fun co f)) in *.
      destruct (match co_link co af with Some name => negb (is_safe_plt name) | None => false end) eqn:EK.
      + split.
        * intros [H|(g & H & K)]; auto. right. exists g. split; [right|]; auto.
        * intros [H|(g & [->|H] & K)]; auto; [|right; exists g; auto].
          exfalso. destruct K as (K1 & K2 & _). fold af in K1. subst a.
          destruct (co_link co af) eqn:EL; [|discriminate].
          rewrite (proj2 (is_safe_plt_iff s) (K2 s eq_refl)) in EK. discriminate.
      + destruct (s_writes (m f)) eqn:EW; cbn [negb].
        * split.
          -- intros [H|(g & H & K)]; auto. right. exists g. split; [right|]; auto.
          -- intros [H|(g & [->|H] & K)]; auto; [|right; exists g; auto].
             destruct K as (_ & _ & K). congruence.
        * split.
          -- intros [[H|H]|(g & H & K)]; auto.
             ++ right. exists f. split; [left; auto|]. split; [auto|]. split; [|auto].
                intros n En. subst a. rewrite En in EK. apply negb_false_iff in EK. apply is_safe_plt_iff. auto.
             ++ right. exists g. split; [right|]; auto.
          -- intros [H|(g & [->|H] & K)]; [left; right; auto| |right; exists g; auto].
             left. left. apply K. }
  rewrite K. cbn. tauto.
Qed.

Lemma unsafe_call_spec safe es :
  unsafe_call co safe es = true <->
  exists e pre post, es = pre ++ e :: post /\ e_ty e = CALL /\
    (forall x, In x pre -> e_ty x <> CALL) /\
    (e_sink e = true \/ ~ In (b_start (co_block co (e_trg e))) safe).
Proof.
  induction es as [|e es IH]; cbn [unsafe_call].
  - split; [discriminate|]. intros (e & pre & post & E & _). destruct pre; discriminate.
  - destruct (is (e_ty e) CALL) eqn:EC.
    + apply is_true in EC. rewrite andb_true_r. split.
      * intros H. exists e, [], es. split; auto. split; auto. split; [intros x []|].
        destruct (e_sink e); auto. right. apply negb_true_iff in H. intros I.
        assert (T : existsb (Z.eqb (b_start (co_block co (e_trg e)))) safe = true).
        { apply existsb_exists. eexists. split; [exact I|]. apply Z.eqb_refl. }
        congruence.
      * intros (e' & pre & post & E & H1 & H2 & H3). destruct pre as [|x pre].
        -- inversion E; subst. destruct (e_sink e'); auto. apply negb_true_iff.
           destruct H3 as [H3|H3]; [discriminate|].
           destruct (existsb _ safe) eqn:X; auto. apply existsb_exists in X.
           destruct X as (z & Z1 & Z2). apply Z.eqb_eq in Z2. subst. contradiction.
        -- inversion E; subst. exfalso. apply (H2 x); auto. left; auto.
    + rewrite andb_false_r, IH. apply is_false in EC. split.
      * intros (e' & pre & post & -> & H1 & H2 & H3). exists e', (e :: pre), post.
        split; auto. split; auto. split; auto. intros x [<-|Hx]; auto.
      * intros (e' & pre & post & E & H1 & H2 & H3). destruct pre as [|x pre].
        -- inversion E; subst. contradiction.
        -- inversion E; subst. exists e', pre, post. split; auto. split; auto. split; auto.
           intros y Hy. apply H2. right; auto.
Qed.

Lemma ucb_exact m f b :
  NoDup (co_funcs co) -> In f (co_funcs co) ->
  In b (s_unsafe_blocks (ucb_run co m f)) <->
  In b (s_unsafe_blocks (m f)) \/
  (In b (f_blocks (co_fun co f)) /\ exists e, first_call (co_block co b) e /\
     (e_sink e = true \/ ~ trusted_target m (b_start (co_block co (e_trg e))))).
Proof.
  intros HN Hf. unfold ucb_run. cbv zeta. rewrite local_at by auto. unfold ucb_func.
  generalize (f_blocks (co_fun co f)). intros l. generalize (m f). intros s. revert s.
  induction l as [|x l IH]; intros s; cbn [fold_left].
  - split; auto. intros [H|([] & _)]; auto.
  - rewrite IH. clear IH.
    assert (U : unsafe_call co (safe_func co m) (b_targets (co_block co x)) = true <->
       exists e, first_call (co_block co x) e /\
         (e_sink e = true \/ ~ trusted_target m (b_start (co_block co (e_trg e))))).
    { rewrite unsafe_call_spec. unfold first_call. split.
      - intros (e & pre & post & A & B & C & D). exists e. split; [exists pre, post; auto|].
        destruct D as [D|D]; auto. right. rewrite safe_func_in in D. auto.
      - intros (e & (pre & post & A & B & C) & D). exists e, pre, post. split; auto. split; auto.
        split; auto. destruct D as [D|D]; auto. right. rewrite safe_func_in. auto. }
    destruct (unsafe_call co _ _) eqn:E.
    + cbn. rewrite sins_in. split.
      * intros [[->|H]|(H & K)]; [|auto|].
        -- right. split; [left; auto|apply U; auto].
        -- right. split; [right; auto|auto].
      * intros [H|([<-|H] & K)]; auto.
    + split.
      * intros [H|(H & K)]; [auto|]. right. split; [right; auto|auto].
      * intros [H|([<-|H] & K)]; auto. exfalso. apply U in K. discriminate.
Qed.

Lemma ucb_frame m f :
  s_writes (ucb_run co m f) = s_writes (m f) /\ s_exc_safe (ucb_run co m f) = s_exc_safe (m f).
Proof.
  unfold ucb_run. cbv zeta. unfold local_pass. generalize (safe_func co m). intros safe.
  generalize (co_funcs co). intros l. revert m.
  assert (K : forall fn s, s_writes (ucb_func co safe fn s) = s_writes s /\
                           s_exc_safe (ucb_func co safe fn s) = s_exc_safe s).
  { intros fn. unfold ucb_func. generalize (f_blocks (co_fun co fn)). intros bs.
    induction bs as [|b bs IH]; intros s; cbn [fold_left]; auto.
    rewrite (proj1 (IH _)), (proj2 (IH _)). destruct (unsafe_call _ _ _); auto. }
  induction l as [|a l IH]; intros m; cbn [fold_left]; auto.
  rewrite (proj1 (IH _)), (proj2 (IH _)). unfold upd. destruct (Nat.eqb_spec f a) as [->|]; auto.
Qed.

(** ** FunctionExceptionAnalysis *)
Definition clean_body (s : summary) : Prop := s_plt_calls s = [] /\ s_unknown_cf s = false.

Notation xdfs := (dfs sums (option bool) (co_funcs co) ex_pre ex_before ex_after ex_post).
Notation xloop := (dfs_loop sums (option bool) (co_funcs co) ex_pre ex_before ex_after ex_post).
Notation xall := (dfs_all sums (option bool) (co_funcs co) ex_pre ex_before ex_after ex_post).

Definition ex_frame (s s' : summary) : Prop :=
  s_plt_calls s' = s_plt_calls s /\ s_unknown_cf s' = s_unknown_cf s /\
  s_callees s' = s_callees s /\ s_writes s' = s_writes s /\
  s_unsafe_blocks s' = s_unsafe_blocks s.
Definition ex_inv (m0 m : sums) : Prop :=
  (forall f, ex_frame (m0 f) (m f)) /\
  (forall f, s_exc_safe (m f) = true -> clean_body (m0 f)).

Lemma ex_frame_trans a b c : ex_frame a b -> ex_frame b c -> ex_frame a c.
Proof. unfold ex_frame. intuition congruence. Qed.

Lemma ex_keep m0 :
  (forall f w w', xdfs f w w' -> ex_inv m0 (snd w) -> ex_inv m0 (snd w')) /\
  (forall f ch vis m l vis' m' l', xloop f ch vis m l vis' m' l' ->
     ex_inv m0 m -> ex_inv m0 m' /\ (l = None <-> l' = None)).
Proof.
  apply dfs_mutind; cbn [fst snd].
  - intros f vis st st1 l ch vis2 st2 l2 EP HL IH [F H].
    unfold ex_pre in EP.
    assert (C : ex_inv m0 st1 /\ (l <> None -> clean_body (m0 f))).
    { assert (I0 : ex_inv m0 (upd st f (set_exc_safe (st f) false))).
      { split.
        - intros g. unfold upd. destruct (Nat.eqb_spec g f) as [->|]; auto.
          eapply ex_frame_trans; [apply F|]. repeat split.
        - intros g. unfold upd. destruct (Nat.eqb_spec g f) as [->|]; cbn; [discriminate|auto]. }
      destruct (F f) as (F1 & F2 & _).
      destruct (s_plt_calls (st f)) eqn:E1; [destruct (s_unknown_cf (st f)) eqn:E2|];
        inversion EP; subst.
      - split; [auto|]. intros K. exfalso. apply K. auto.
      - split; [split; auto|]. intros _. split; congruence.
      - split; [auto|]. intros K. exfalso. apply K. auto. }
    destruct C as [C1 C2]. destruct (IH C1) as [[I1 I2] I3]. unfold ex_post.
    destruct l2 as [r|]; [|split; auto]. split.
    + intros g. unfold upd. destruct (Nat.eqb_spec g f) as [->|]; auto.
      eapply ex_frame_trans; [apply I1|]. repeat split.
    + intros g. unfold upd. destruct (Nat.eqb_spec g f) as [->|]; auto. intros _.
      apply C2. intros E. apply I3 in E. discriminate.
  - intros. split; [auto|tauto].
  - intros f c t vis st l l' st' vis2 st2 l2 HK HV EA HL IH HI.
    unfold ex_after, ex_before in EA. inversion EA; subst. destruct (IH HI) as [I1 I2].
    split; auto. rewrite <- I2. destruct l; split; auto; discriminate.
  - intros f c t vis st l vis1 st1 l' st' vis2 st2 l2 HK HV HD IH1 EA HL IH2 HI.
    unfold ex_after in EA. unfold ex_before in IH1. inversion EA; subst.
    destruct (IH2 (IH1 HI)) as [I1 I2]. split; auto. rewrite <- I2.
    destruct l; split; auto; discriminate.
Qed.

(** Visited functions are not modified again. *)
Lemma ex_untouched :
  (forall f w w', xdfs f w w' -> ~ In f (fst w) -> forall g, In g (fst w) -> snd w' g = snd w g) /\
  (forall f ch vis m l vis' m' l', xloop f ch vis m l vis' m' l' -> In f vis ->
     forall g, In g vis -> m' g = m g).
Proof.
  apply dfs_mutind; cbn [fst snd].
  - intros f vis st st1 l ch vis2 st2 l2 EP HL IH HN g Hg.
    assert (NE : g <> f) by (intros ->; contradiction).
    assert (E1 : st1 g = st g).
    { unfold ex_pre in EP. destruct (s_plt_calls (st f)); [destruct (s_unknown_cf (st f))|];
        inversion EP; subst; unfold upd; destruct (Nat.eqb_spec g f); congruence. }
    rewrite <- E1, <- (IH (or_introl eq_refl) g) by (right; auto).
    unfold ex_post. destruct l2; auto. unfold upd. destruct (Nat.eqb_spec g f); congruence.
  - auto.
  - intros f c t vis st l l' st' vis2 st2 l2 HK HV EA HL IH Hf g Hg.
    unfold ex_after, ex_before in EA. inversion EA; subst. auto.
  - intros f c t vis st l vis1 st1 l' st' vis2 st2 l2 HK HV HD IH1 EA HL IH2 Hf g Hg.
    unfold ex_after in EA. unfold ex_before in IH1. inversion EA; subst.
    pose proof (proj1 (dfs_grow _ _ _ _ _ _ _) _ _ _ HD) as G. cbn [fst] in G.
    rewrite IH2; auto; apply G; right; auto.
Qed.

(** A marked function's callees are marked, or classified as writing. *)
Definition ex_callees_ok (m0 m : sums) (new : nat -> Prop) (g : nat) : Prop :=
  s_exc_safe (m g) = true -> forall c, In c (s_callees (m0 g)) ->
    (new c /\ s_exc_safe (m c) = true) \/ s_writes (m0 c) = true.

Lemma ex_framed m0 :
  (forall f w w', xdfs f w w' -> (forall g, ex_frame (m0 g) (snd w g)) ->
                 forall g, ex_frame (m0 g) (snd w' g)) /\
     (forall f ch vis m l vis' m' l', xloop f ch vis m l vis' m' l' ->
        (forall g, ex_frame (m0 g) (m g)) -> forall g, ex_frame (m0 g) (m' g)).
Proof.
  apply dfs_mutind; cbn [fst snd].
  - intros f vis st st1 l ch vis2 st2 l2 EP HL IH F g.
    assert (F1 : forall g, ex_frame (m0 g) (st1 g)).
    { intros x. unfold ex_pre in EP. destruct (s_plt_calls (st f)); [destruct (s_unknown_cf (st f))|];
        inversion EP; subst; auto; unfold upd; destruct (Nat.eqb_spec x f) as [->|]; auto;
        (eapply ex_frame_trans; [apply F|]; repeat split). }
    unfold ex_post. destruct l2; auto. unfold upd. destruct (Nat.eqb_spec g f) as [->|]; auto.
    eapply ex_frame_trans; [apply IH; auto|]. repeat split.
  - auto.
  - intros f c t vis st l l' st' vis2 st2 l2 HK HV EA HL IH F.
    unfold ex_after, ex_before in EA. inversion EA; subst. auto.
  - intros f c t vis st l vis1 st1 l' st' vis2 st2 l2 HK HV HD IH1 EA HL IH2 F.
    unfold ex_after in EA. unfold ex_before in IH1. inversion EA; subst. auto.
Qed.

Lemma ex_callees m0 :
  (forall f w w', xdfs f w w' -> ~ In f (fst w) -> (forall g, ex_frame (m0 g) (snd w g)) ->
     forall g, In g (fst w') -> ~ In g (fst w) ->
       ex_callees_ok m0 (snd w') (fun c => In c (fst w') /\ ~ In c (f :: fst w)) g) /\
  (forall f ch vis m l vis' m' l', xloop f ch vis m l vis' m' l' -> In f vis ->
     (forall g, ex_frame (m0 g) (m g)) ->
     (forall g, In g vis' -> ~ In g vis ->
       ex_callees_ok m0 m' (fun c => In c vis' /\ ~ In c vis) g) /\
     (l = None <-> l' = None) /\
     (l' = Some true -> l = Some true /\ forall c, In c ch ->
        ((In c vis' /\ ~ In c vis) /\ s_exc_safe (m' c) = true) \/ s_writes (m0 c) = true)).
Proof.
  apply dfs_mutind; cbn [fst snd].
  - intros f vis st st1 l ch vis2 st2 l2 EP HL IH HN HF.
    assert (C : (forall g, ex_frame (m0 g) (st1 g)) /\
                ((l = None /\ s_exc_safe (st1 f) = false) \/
                 (l = Some true /\ ch = s_callees (m0 f)))).
    { destruct (HF f) as (_ & _ & E & _). unfold ex_pre in EP.
      destruct (s_plt_calls (st f)); [destruct (s_unknown_cf (st f))|]; inversion EP; subst.
      - split; [|left; split; auto; unfold upd; rewrite Nat.eqb_refl; auto].
        intros x. unfold upd. destruct (Nat.eqb_spec x f) as [->|]; auto.
        eapply ex_frame_trans; [apply HF|]. repeat split.
      - split; auto.
      - split; [|left; split; auto; unfold upd; rewrite Nat.eqb_refl; auto].
        intros x. unfold upd. destruct (Nat.eqb_spec x f) as [->|]; auto.
        eapply ex_frame_trans; [apply HF|]. repeat split. }
    destruct C as [F1 C]. destruct (IH (or_introl eq_refl) F1) as (I1 & IN & I2).
    pose proof (proj2 ex_untouched _ _ _ _ _ _ _ _ HL (or_introl eq_refl)) as U.
    assert (P : forall g, g <> f -> ex_post f l2 st2 g = st2 g).
    { intros g NE. unfold ex_post. destruct l2; auto. unfold upd.
      destruct (Nat.eqb_spec g f); congruence. }
    intros g Hg HNg Hx c Hc. destruct (Nat.eq_dec g f) as [->|NE].
    + unfold ex_post in Hx at 1. destruct l2 as [r|].
      * unfold upd in Hx. rewrite Nat.eqb_refl in Hx. cbn in Hx. subst r.
        destruct (I2 eq_refl) as [L I3]. destruct C as [[C _]|[_ C]]; [congruence|]. subst ch.
        destruct (I3 c Hc) as [[[K1 K2] K3]|K]; auto. left. split; auto.
        rewrite P; auto. intros ->. apply K2. left; auto.
      * destruct C as [[_ C]|[C _]].
        -- rewrite U in Hx by (left; auto). congruence.
        -- pose proof (proj2 IN eq_refl). congruence.
    + rewrite P in Hx by auto. destruct (I1 g Hg) with (c := c) as [[[K1 K2] K3]|K]; auto.
      * intros [K|K]; congruence.
      * left. split; auto. rewrite P; auto. intros ->. apply K2. left; auto.
  - intros f vis st l Hf HF. split; [intros; contradiction|]. split; [tauto|].
    intros ->. split; [reflexivity|]. intros c [].
  - intros f c t vis st l l' st' vis2 st2 l2 HK HV EA HL IH Hf HF.
    unfold ex_after, ex_before in EA. inversion EA; subst. clear EA.
    destruct (IH Hf HF) as (I1 & IN & I2). split; auto. split.
    { rewrite <- IN. destruct l; split; auto; discriminate. }
    intros E. destruct (I2 E) as [L I3]. destruct l as [r|]; [|discriminate].
    inversion L as [L']. apply andb_true_iff in L'. destruct L' as [-> L']. rewrite L'. split; auto.
    intros x [<-|Hx]; auto. right. destruct (HF c) as (_ & _ & _ & E4 & _). congruence.
  - intros f c t vis st l vis1 st1 l' st' vis2 st2 l2 HK HV HD IH1 EA HL IH2 Hf HF.
    unfold ex_after in EA. unfold ex_before in *. inversion EA; subst. clear EA.
    pose proof (proj1 (dfs_grow _ _ _ _ _ _ _) _ _ _ HD) as G. cbn [fst] in G.
    pose proof (proj2 (dfs_grow _ _ _ _ _ _ _) _ _ _ _ _ _ _ _ HL) as G2.
    assert (Hf1 : In f vis1) by (apply G; right; auto).
    pose proof (proj1 (ex_framed m0) _ _ _ HD HF) as F1. cbn [snd] in F1.
    pose proof (proj2 ex_untouched _ _ _ _ _ _ _ _ HL Hf1) as U.
    specialize (IH1 HV HF). destruct (IH2 Hf1 F1) as (I1 & IN & I2). split; [|split].
    + intros g Hg HNg. destruct (in_dec Nat.eq_dec g vis1) as [I|I].
      * intros Hx x Hxc. rewrite U in Hx by auto.
        destruct (IH1 g I HNg Hx x Hxc) as [[[K1 K2] K3]|K]; auto. left.
        rewrite U by auto. split; auto. split; auto. intros K. apply K2. right; auto.
      * intros Hx x Hxc. destruct (I1 g Hg I Hx x Hxc) as [[[K1 K2] K3]|K]; auto. left. split; auto.
        split; auto. intros K. apply K2. apply G. right; auto.
    + rewrite <- IN. destruct l; split; auto; discriminate.
    + intros E. destruct (I2 E) as [L I3]. destruct l as [r|]; [|discriminate].
      inversion L as [L']. apply andb_true_iff in L'. destruct L' as [-> L']. rewrite L'. split; auto.
      intros x [<-|Hx].
      * left. assert (Ic : In c vis1) by (apply G; left; auto). rewrite U by auto. auto.
      * destruct (I3 x Hx) as [[[K1 K2] K3]|K]; auto. left. split; auto. split; auto.
        intros K. apply K2. apply G. right; auto.
Qed.

Lemma ex_run_ok m0 :
  NoDup (co_funcs co) ->
  (forall f g, In f (co_funcs co) -> In g (s_callees (m0 f)) -> In g (co_funcs co)) ->
  (forall f, s_exc_safe (m0 f) = false) ->
  exists vis m, ex_run co m0 = Ok (vis, m) /\ ex_inv m0 m /\
    forall f, In f (co_funcs co) -> s_exc_safe (m f) = true ->
      forall c, In c (s_callees (m0 f)) -> s_exc_safe (m c) = true \/ s_writes (m0 c) = true.
Proof.
  intros HN HC HS.
  pose (good := ex_inv m0).
  destruct (visit_all_dfs sums (option bool) (co_funcs co) ex_pre ex_before ex_after ex_post
     (fun m => forall f, s_callees (m f) = s_callees (m0 f)))
    with (fuel := S (List.length (co_funcs co))) (fs := co_funcs co) (vis := @nil nat) (st := m0)
    as (vis & m & A & B & C & D & E & F); auto.
  - intros f st G Hf x Hx. unfold ex_pre in Hx.
    destruct (s_plt_calls (st f)); [destruct (s_unknown_cf (st f))|]; cbn in Hx; try contradiction.
    rewrite G in Hx. eapply HC; eauto.
  - intros f st G Hf g. unfold ex_pre.
    destruct (s_plt_calls (st f)); [destruct (s_unknown_cf (st f))|]; cbn [fst]; auto;
    unfold upd; destruct (Nat.eqb_spec g f) as [->|]; auto; cbn; auto.
  - intros f l st G g. unfold ex_post. destruct l; auto. unfold upd.
    destruct (Nat.eqb_spec g f) as [->|]; cbn; auto.
  - apply incl_refl.
  - constructor.
  - intros x [].
  - exists vis, m. split; [exact A|].
    assert (KA : forall fs w w', xall fs w w' -> ex_inv m0 (snd w) -> ex_inv m0 (snd w')).
    { induction 1; auto. intros. apply IHdfs_all. eapply (proj1 (ex_keep m0)); eauto. }
    split.
    { apply (KA _ _ _ C). split.
      + intros f. repeat split.
      + intros f. cbn. rewrite HS. discriminate. }
    assert (UA : forall fs w w', xall fs w w' -> forall g, In g (fst w) -> snd w' g = snd w g).
    { induction 1 as [w|f t w w' Hs HD IH|f t w w1 w' Hs HD1 HD IH]; auto.
      intros g Hg. rewrite IH; [eapply (proj1 ex_untouched); eauto|].
      apply (proj1 (dfs_grow _ _ _ _ _ _ _) _ _ _ HD1). right; auto. }
    assert (KB : forall fs w w', xall fs w w' -> (forall g, ex_frame (m0 g) (snd w g)) ->
        forall g, In g (fst w') -> ~ In g (fst w) ->
        ex_callees_ok m0 (snd w') (fun c => In c (fst w')) g).
    { induction 1 as [w|f t w w' Hs HD IH|f t w w1 w' Hs HD1 HD IH]; intros HF g Hg HNg.
      - contradiction.
      - apply IH; auto.
      - assert (GA : forall fs w w', xall fs w w' -> incl (fst w) (fst w')).
        { clear. induction 1 as [w|f t w w' Hs HD IH|f t w w1 w' Hs HD1 HD IH].
          - apply incl_refl.
          - auto.
          - intros x Hx. apply IH. apply (proj1 (dfs_grow _ _ _ _ _ _ _) _ _ _ HD1). right; auto. }
        destruct (in_dec Nat.eq_dec g (fst w1)) as [I|I].
        + intros Hx c Hc. rewrite (UA _ _ _ HD) in Hx by auto.
          destruct (proj1 (ex_callees m0) _ _ _ HD1 Hs HF g I HNg Hx c Hc) as [[[K1 K2] K3]|K]; auto.
          left. split; [apply (GA _ _ _ HD); auto|]. rewrite (UA _ _ _ HD); auto.
        + apply IH; auto. eapply (proj1 (ex_framed m0)); eauto. }
    intros f Hf Hx c Hc. rewrite app_nil_r in F.
    destruct (KB _ _ _ C (fun g => conj eq_refl (conj eq_refl (conj eq_refl (conj eq_refl eq_refl))))
      f (F f Hf) (fun H => H) Hx c Hc) as [[_ K]|K]; auto.
Qed.
End FACTS.
