(** * FullRun: all passes of light mode in the order of instrument.cc:968-981

    CFGAnalysis and DeadRegisterAnalysis write fields outside [summary]; nothing below
    reads them. *)
From Coq Require Import ZArith Bool Lia Arith String List.
From Verif Require Import Machine Jit Dfs Binary CallGraph InterProc MemPasses Pipeline
  RegNames BlockLive SafePaths.
Import ListNotations.
Open Scope Z_scope.

(** Pass::RunPass (pass_manager.h:354-356) for a local analysis that may throw. *)
Definition local_opt (co : code) (run : nat -> summary -> option summary) (m : sums) : option sums :=
  fold_left (fun om f => match om with
                         | Some m => match run f (m f) with Some s => Some (upd m f s) | None => None end
                         | None => None end) (co_funcs co) (Some m).

Definition run_light (co : code) : res sums :=
  bind (run_memory co) (fun m =>
  match local_opt co (safe_paths co) m with
  | None => NoFuel
  | Some m1 =>
      match local_opt co (unused_regs co) m1 with
      | None => UB
      | Some m2 => Ok (local_pass co (block_dead co) m2)
      end
  end).

(** ** A traversal preserves what its parts preserve *)
Section KEEP.
Variables (St L : Type) (known : list nat).
Variable pre : nat -> St -> St * L * list nat.
Variable before : nat -> nat -> St -> St.
Variable after : nat -> nat -> bool -> L -> St -> L * St.
Variable post : nat -> L -> St -> St.
Variable P : St -> St -> Prop.
Hypothesis Prefl : forall s, P s s.
Hypothesis Ptrans : forall a b c, P a b -> P b c -> P a c.
Hypothesis Ppre : forall f s, P s (fst (fst (pre f s))).
Hypothesis Pbefore : forall p c s, P s (before p c s).
Hypothesis Pafter : forall p c b l s0 s, In c (snd (pre p s0)) -> P s0 s -> P s (snd (after p c b l s)).
Hypothesis Ppost : forall f l s, P s (post f l s).

Lemma visit_keep n : forall f vis s vis' s',
  visit St L known pre before after post n f (vis, s) = Ok (vis', s') -> P s s'.
Proof.
  induction n as [|n IH]; intros f vis s vis' s' H; [discriminate|].
  cbn [visit] in H. pose proof (Ppre f s) as H0. pose proof (fun c b l s1 => Pafter f c b l s s1) as PA.
  destruct (pre f s) as [[s1 l] ch]. cbn [fst snd] in H0, PA.
  set (loop := fix loop (ch vis : list nat) (st : St) (l : L) {struct ch} : res (vst St * L) :=
        match ch with
        | [] => Ok ((vis, st), l)
        | c :: t =>
            if mem c known then
              let st0 := before f c st in
              if mem c vis then
                let (l', st') := after f c false l st0 in loop t vis st' l'
              else
                match visit St L known pre before after post n c (vis, st0) with
                | Ok (vis1, st1) => let (l', st') := after f c true l st1 in loop t vis1 st' l'
                | UB => UB
                | NoFuel => NoFuel
                end
            else UB
        end) in *.
  assert (LP : forall ch', incl ch' ch -> forall vis st l vis2 st2 l2, P s st ->
                 loop ch' vis st l = Ok ((vis2, st2), l2) -> P st st2).
  { clear - Prefl Ptrans Pbefore PA IH. induction ch' as [|c t IHc]; intros CH vis st l vis2 st2 l2 PS H.
    - cbn in H. injection H as _ <- _. apply Prefl.
    - cbn [loop] in H. destruct (mem c known); [|discriminate]. cbv zeta in H.
      assert (CC : In c ch) by (apply CH; left; auto).
      assert (CT : incl t ch) by (intros y Hy; apply CH; right; auto).
      pose proof (Pbefore f c st) as HB.
      destruct (mem c vis).
      + pose proof (PA c false l (before f c st) CC ltac:(eauto)) as HA.
        destruct (after f c false l (before f c st)) as [l' st']. cbn [snd] in HA.
        apply (IHc CT) in H; eauto.
      + destruct (visit St L known pre before after post n c (vis, before f c st)) as [[vis1 st1]| |] eqn:V; try discriminate.
        apply IH in V. pose proof (PA c true l st1 CC ltac:(eauto)) as HA.
        destruct (after f c true l st1) as [l' st']. cbn [snd] in HA. apply (IHc CT) in H; eauto. }
  destruct (loop ch (f :: vis) s1 l) as [[[vis2 st2] l2]| |] eqn:E; try discriminate.
  injection H as _ <-. apply LP in E; [eauto|apply incl_refl|auto].
Qed.
Lemma visit_all_keep n : forall fs vis s vis' s',
  visit_all St L known pre before after post n fs (vis, s) = Ok (vis', s') -> P s s'.
Proof.
  induction fs as [|f t IH]; intros vis s vis' s' H; cbn [visit_all] in H.
  - injection H as _ <-. apply Prefl.
  - destruct (mem f (fst (vis, s))); [eauto|].
    destruct (visit St L known pre before after post n f (vis, s)) as [[v1 s1]| |] eqn:V; try discriminate.
    apply visit_keep in V. apply IH in H. eauto.
Qed.
End KEEP.

Definition same_field {A} (p : summary -> A) (m m' : sums) : Prop := forall f, p (m' f) = p (m f).
Lemma same_upd {A} (p : summary -> A) m f s : p s = p (m f) -> same_field p m (upd m f s).
Proof. intros H g. unfold upd. destruct (Nat.eqb_spec g f) as [->|]; auto. Qed.
Lemma same_trans {A} (p : summary -> A) a b c : same_field p a b -> same_field p b c -> same_field p a c.
Proof. intros H K f. rewrite K. apply H. Qed.
Lemma local_same {A} (p : summary -> A) co run m :
  (forall f s, p (run f s) = p s) -> same_field p m (local_pass co run m).
Proof.
  intros H. unfold local_pass. generalize (co_funcs co). intros l. revert m.
  induction l as [|f l IH]; intros m; cbn [fold_left]; [intros g; auto|].
  eapply same_trans; [|apply IH]. apply same_upd. apply H.
Qed.
Lemma local_opt_same {A} (p : summary -> A) co run m m' :
  (forall f s s', run f s = Some s' -> p s' = p s) -> local_opt co run m = Some m' -> same_field p m m'.
Proof.
  intros H. unfold local_opt. generalize (co_funcs co). intros l. revert m.
  assert (N : forall l, fold_left (fun om f => match om with
                         | Some m => match run f (m f) with Some s => Some (upd m f s) | None => None end
                         | None => None end) l (@None sums) = None) by (induction l0; auto).
  induction l as [|f l IH]; intros m E; cbn [fold_left] in E.
  - injection E as <-. intros g; auto.
  - destruct (run f (m f)) as [s|] eqn:R; [|rewrite N in E; discriminate].
    eapply same_trans; [|apply IH; exact E]. apply same_upd. eauto.
Qed.
Lemma fold_keep {A B} (p : summary -> A) (g : summary -> B -> summary) l :
  (forall s x, p (g s x) = p s) -> forall s, p (fold_left g l s) = p s.
Proof. intros H. induction l as [|x l IH]; intros s; cbn [fold_left]; [auto|]. rewrite IH. apply H. Qed.

(** The fields that the instrumentation reads and the later passes leave alone. *)
Definition mem_fields (s : summary) :=
  (s_writes s, s_unsafe_blocks s, s_indirect_cf s, s_endHeight s, s_callees s, s_plt_calls s, s_unknown_cf s).
Lemma ur_insn_keep l : forall st s' u', fold_left ur_insn l st = Some (s', u') ->
  exists s u, st = Some (s, u) /\ mem_fields s' = mem_fields s.
Proof.
  induction l as [|i l IH]; intros st s' u' H; cbn [fold_left] in H.
  - subst st. exists s', u'. auto.
  - apply IH in H. destruct H as (s1 & u1 & E & K). destruct st as [[s u]|]; [|discriminate].
    exists s, u. split; auto. rewrite K. clear K IH. cbn [ur_insn] in E.
    assert (SP : forall o : option Z, mem_fields (match o with
                    | Some h => if 128 <=? -8 - h then set_moveDownSP s true else s
                    | None => s end) = mem_fields s).
    { intros [h|]; [destruct (128 <=? -8 - h)|]; reflexivity. }
    destruct (use_regs _ _) as [used'|]; [|discriminate]. injection E as <- _.
    destruct (negb (i_wmem i) && negb (i_rmem i))%bool; [apply SP|].
    rewrite (fold_keep mem_fields); [apply SP|]. intros s0 e. destruct (rz_access e); reflexivity.
Qed.
Lemma unused_keep co f s s' : unused_regs co f s = Some s' -> mem_fields s' = mem_fields s.
Proof.
  unfold unused_regs. destruct (s_assume_unsafe s); [intros E; injection E as <-; auto|].
  destruct (s_callees s) eqn:C; [|intros E; injection E as <-; auto].
  destruct (fold_left ur_insn _ _) as [[s1 u]|] eqn:E; [|discriminate].
  match goal with |- Some (set_unused _ ?v) = _ -> _ => generalize v end. intros v H; injection H as <-.
  apply ur_insn_keep in E. destruct E as (s2 & u2 & E & K). injection E as <- _.
  etransitivity; [|exact K]. reflexivity.
Qed.
Lemma block_dead_keep co f s : mem_fields (block_dead co f s) = mem_fields s.
Proof. unfold block_dead. apply fold_keep. intros s0 b. reflexivity. Qed.

(** The later passes keep the results of the memory passes. *)
Lemma run_light_fields co m' : run_light co = Ok m' ->
  exists m, run_memory co = Ok m /\ same_field mem_fields m m'.
Proof.
  unfold run_light, bind. destruct (run_memory co) as [m| |]; try discriminate. intros H. exists m. split; auto.
  destruct (local_opt co (safe_paths co) m) as [m1|] eqn:E1; [|discriminate].
  destruct (local_opt co (unused_regs co) m1) as [m2|] eqn:E2; [|discriminate]. injection H as <-.
  eapply same_trans; [|apply local_same; apply block_dead_keep].
  eapply same_trans; [eapply local_opt_same; [|exact E1]|eapply local_opt_same; [|exact E2]].
  - intros f s s' H. unfold safe_paths in H. destruct (count_paths _ _ _ _ _ _) as [[c v]|]; [|discriminate].
    injection H as <-. reflexivity.
  - intros f s s'. apply unused_keep.
Qed.

(** ** Two more facts about the memory passes *)
Lemma cg_keep_height co m vis m' : cg_run co m = Ok (vis, m') -> same_field s_endHeight m m'.
Proof.
  apply (visit_all_keep sums unit (co_funcs co) (cg_pre co) cg_before cg_after cg_post
           (same_field s_endHeight)).
  - intros s f; auto.
  - apply same_trans.
  - intros f s. apply same_upd. unfold update_callees. apply fold_keep. intros s0 b. unfold cg_block.
    apply fold_keep. intros s1 e. unfold cg_edge.
    repeat match goal with |- context [if ?c then _ else _] => destruct c; [reflexivity|] end.
    destruct (co_link _ _); [reflexivity|]. destruct (callee_of _ _); reflexivity.
  - intros p c s. apply same_upd. reflexivity.
  - intros p c b l s0 s _ _ f. reflexivity.
  - intros f l s g. reflexivity.
Qed.
Definition hi_fields (s : summary) := (s_endHeight s, s_indirect_cf s).
Lemma ip_keep co m vis m' : ip_run co m = Ok (vis, m') -> same_field hi_fields m m'.
Proof.
  apply (visit_all_keep sums unit (co_funcs co) ip_pre ip_before ip_after ip_post (same_field hi_fields)).
  - intros s f; auto.
  - apply same_trans.
  - intros f s g. reflexivity.
  - intros p c s g. reflexivity.
  - intros p c b l s0 s _ _. cbn [ip_after snd]. eapply same_trans; apply same_upd; [reflexivity|].
    unfold upd. rewrite Nat.eqb_refl. reflexivity.
  - intros f l s. apply same_upd. reflexivity.
Qed.
Lemma ex_keep co m vis m' : ex_run co m = Ok (vis, m') -> same_field hi_fields m m'.
Proof.
  apply (visit_all_keep sums (option bool) (co_funcs co) ex_pre ex_before ex_after ex_post (same_field hi_fields)).
  - intros s f; auto.
  - apply same_trans.
  - intros f s. unfold ex_pre. destruct (s_plt_calls (s f)); [destruct (s_unknown_cf (s f))|];
      cbn [fst]; try (apply same_upd; reflexivity). intros g; auto.
  - intros p c s g. reflexivity.
  - intros p c b l s0 s _ _ g. destruct l; reflexivity.
  - intros f l s. unfold ex_post. destruct l; [apply same_upd; reflexivity|intros g; auto].
Qed.

(** Lowering knows whether a function has indirect jumps, and refuses oversized functions. *)
Lemma run_memory_more co m : well_formed co -> run_memory co = Ok m ->
  (forall f, In f (co_funcs co) -> (s_indirect_cf (m f) = true <-> jumps_indirectly co f)) /\
  (forall f, In f (co_funcs co) -> oversized co (co_fun co f) -> s_endHeight (m f) = []).
Proof.
  intros (HN & [HO HE] & HP & HA) R. unfold run_memory, bind in R.
  destruct (cg_run_ok co HE (fun _ => summary0) HO HN) as (vis & m1 & R1 & _ & V & D & S & _).
  { intros f. repeat split. } { intros f. auto. }
  rewrite R1 in R. pose proof (cg_keep_height co _ _ _ R1) as H1.
  set (m2 := local_pass co (large_filter co) m1) in *.
  set (m3 := local_pass co (stack_height co) m2) in *.
  destruct (ip_run co m3) as [[v4 m4]| |] eqn:R4; try discriminate.
  destruct (ex_run co m4) as [[v5 m5]| |] eqn:R5; try discriminate.
  injection R as <-.
  assert (K : same_field hi_fields m3 (ucb_run co m5)).
  { eapply same_trans; [apply (ip_keep _ _ _ _ R4)|]. eapply same_trans; [apply (ex_keep _ _ _ _ R5)|].
    apply local_same. intros f s. unfold ucb_func. apply fold_keep. intros s0 b.
    destruct (unsafe_call _ _ _); reflexivity. }
  split; intros f Hf.
  - specialize (K f). unfold hi_fields in K. injection K as _ K. rewrite K.
    assert (K2 : s_indirect_cf (m3 f) = s_indirect_cf (m1 f)).
    { transitivity (s_indirect_cf (m2 f)).
      - apply (local_same s_indirect_cf co (stack_height co) m2). intros g s. unfold stack_height.
        destruct (s_assume_unsafe s); auto. apply fold_keep. intros s0 b. unfold sh_block.
        rewrite (fold_keep s_indirect_cf).
        + destruct (b_sp_entry _), (b_sp_end _); reflexivity.
        + intros s1 i. unfold sh_insn. destruct (i_frame i); auto. destruct (i_wmem i).
          * apply fold_keep. intros s2 o. unfold sh_out. destruct o; auto. destruct (-8 <=? off); reflexivity.
          * destruct (i_rmem i); auto. destruct (first_stack _); reflexivity.
      - apply (local_same s_indirect_cf co (large_filter co) m1). intros g s. unfold large_filter.
        destruct (s_assume_unsafe s); auto. destruct (_ <? _); auto. destruct (_ <? _); reflexivity. }
    rewrite K2. apply (D f Hf).
  - intros OV. specialize (K f). unfold hi_fields in K. injection K as K _. rewrite K.
    assert (AU : s_assume_unsafe (m2 f) = true).
    { unfold m2. rewrite local_at by auto. apply large_exact; [auto|right; exact OV]. }
    unfold m3. rewrite local_at by auto. unfold stack_height. rewrite AU.
    unfold m2. rewrite local_at by auto. unfold large_filter.
    assert (Z1 : s_endHeight (m1 f) = []) by (rewrite H1; reflexivity).
    destruct (s_assume_unsafe (m1 f)); auto. destruct (_ <? _); auto. destruct (_ <? _); auto.
Qed.
