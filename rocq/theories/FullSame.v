(** * FullSame: a program and its full-mode instrumentation side by side
    The first half is specification: what a program may rely on so that inserted code cannot be
    noticed.  The second half relates executions of FullExec.v without and with inserted code. *)
From Coq Require Import ZArith Bool Lia ZifyBool ZifyNat Arith String List.
From Verif Require Import Machine MachineFacts Jit ShadowSpec JitFacts JitPushPop History.
From Verif Require Import Dfs Binary CallGraph InterProc MemPasses Pipeline RegNames BlockLive
  Reach SafePaths Lowering P_Lower FastPath Decision P_Instr FullRun Whole P_Whole Sites P_Sites Order Activation PlanCode ActRun FullMode
  Tree TreeFacts FullExec FullExecFacts.
Import ListNotations.
Open Scope Z_scope.
Local Notation mem := Machine.mem.

(** ** What instructions and library code access *)
Section SPEC.
Variables (co : code) (fl : Lowering.flags) (fs : list finfo) (m : sums).
Variables (o : opts) (mp : perm) (base : Z) (k : nat) (usable : Z -> Prop) (X : Type).
Variable sem : insn -> pst Machine.flags X -> option (pst Machine.flags X).
Variable L : Type.
Variable lib : L -> pst Machine.flags X -> option (pst Machine.flags X).
Variable throws : bool.
Notation pstate := (pst Machine.flags X).
Definition action : Type := insn + L.
Definition act_on (x : action) (p : pstate) : option pstate := match x with inl i => sem i p | inr y => lib y p end.
(** The bytes that an action reads and writes, whether it reads flags, and whether it sets all. *)
Record access := mkAccess {
  reads : action -> pstate -> Z -> bool;
  writes : action -> pstate -> Z -> bool;
  tests : action -> pstate -> bool;
  sets : action -> pstate -> bool }.
Variable ac : access.
(** The description is right: other bytes stay, and nothing else has influence. *)
Record described : Prop := {
  d_frame : forall x p p' a, act_on x p = Some p' -> writes ac x p a = false -> p_mem p' a = p_mem p a;
  d_same : forall x p q p', act_on x p = Some p' ->
    (forall r, p_rg q r = p_rg p r) -> p_rest q = p_rest p ->
    (forall a, reads ac x p a = true -> p_mem q a = p_mem p a) -> (tests ac x p = true -> p_fl q = p_fl p) ->
    (forall a, writes ac x q a = writes ac x p a) /\
    exists q', act_on x q = Some q' /\ (forall r, p_rg q' r = p_rg p' r) /\ p_rest q' = p_rest p' /\
      (forall a, writes ac x p a = true -> p_mem q' a = p_mem p' a) /\
      (sets ac x p = true \/ p_fl q = p_fl p -> p_fl q' = p_fl p') }.

(** ** Programs that cannot notice inserted code
    [g_ok]: bytes that inserted code has not touched since the program wrote them.  [g_fl]: the
    same for the flags. *)
Record ghost := mkGhost { g_ok : Z -> bool; g_fl : bool }.
Definition within (a n x : Z) : bool := (a <=? x) && (x <? a + n).
Definition reserved : Z -> bool := within base (32 + 8 * Z.of_nat k).
Definition untouched : ghost := mkGhost (fun a => negb (reserved a)) true.
(** An action reads what has not been touched, and stays away from the shadow stack. *)
Definition does (g : ghost) (x : action) (p : pstate) (g' : ghost) : Prop :=
  (forall a, reads ac x p a = true -> g_ok g a = true) /\ (tests ac x p = true -> g_fl g = true) /\
  (forall a, writes ac x p a = true -> reserved a = false) /\
  g' = mkGhost (fun a => g_ok g a || writes ac x p a) (g_fl g || sets ac x p).
(** A function is left with its return address in place; flags and the two words below are lost. *)
Definition leaves (g : ghost) (p : pstate) (g' : ghost) : Prop :=
  (forall a, within (p_rg p RSP) 8 a = true -> g_ok g a = true) /\
  g' = mkGhost (fun a => g_ok g a && negb (within (p_rg p RSP - 16) 16 a)) false.
(** A call stores its return address, which must not have a low half of zero (C62); if the function
    called can return, the two words below are lost. *)
Definition calls (g : ghost) (p : pstate) (f : nat) (ra : Z) (g' : ghost) : Prop :=
  ra mod 2 ^ 32 <> 0 /\
  g' = mkGhost (fun a => (g_ok g a || within (p_rg p RSP - 8) 8 a) && negb (can_return fs f && within (p_rg p RSP - 24) 16 a)) (g_fl g).
Definition tidy_step (g : ghost) (p : pstate) (e : list (event L)) (g' : ghost) : Prop :=
  match e with
  | [Do i] => does g (inl i) p g'
  | [Lib x] => does g (inr x) p g'
  | [CallTo f ra] => calls g p f ra g'
  | [Return _] | [JumpTo _] | [JumpOut _] => leaves g p g'
  | _ => g' = g
  end.
(** An execution of the program as it is. *)
Notation plain_run := (step co fl fs m false o mp base k usable X sem L lib throws).
Inductive oblivious (c0 : conf X) : ghost -> list (event L) -> conf X -> Prop :=
| ob_start : oblivious c0 untouched [] c0
| ob_step g g' tr e p fr c : oblivious c0 g tr (Run p fr) -> plain_run e (Run p fr) c -> tidy_step g p e g' ->
    oblivious c0 g' (tr ++ e) c.
(** States and calls that the program cannot tell apart. *)
Definition alike_to (g : ghost) (p q : pstate) : Prop :=
  (forall r, p_rg q r = p_rg p r) /\ p_rest q = p_rest p /\
  (forall a, g_ok g a = true -> p_mem q a = p_mem p a) /\ (g_fl g = true -> p_fl q = p_fl p).
Definition same_call (f f' : frame) : Prop :=
  match fr_act f, fr_act f' with
  | Some a, Some a' => a_fn a' = a_fn a /\ a_ra a' = a_ra a /\ program_of (a_its a') = a_its a
  | None, None => True
  | _, _ => False
  end.
End SPEC.
Arguments reads {X L}. Arguments writes {X L}. Arguments tests {X L}. Arguments sets {X L}.

Lemma within_inside a n x : within a n x = true <-> inside a n x.
Proof. unfold within, inside. rewrite andb_true_iff, Z.leb_le, Z.ltb_lt. tauto. Qed.
Lemma store_in_ext n : forall mm mm' a v x, a <= x < a + Z.of_nat n -> store mm a n v x = store mm' a n v x.
Proof.
  induction n as [|n IH]; intros mm mm' a v x H; [lia|]. cbn [store]. destruct (Z.eq_dec x a) as [->|N].
  - rewrite !store_out by lia. unfold updm. destruct (Z.eq_dec a a); congruence.
  - apply IH. lia.
Qed.

Section SAME.
Variables (co : code) (fl : Lowering.flags) (fs : list finfo) (m : sums).
Variables (o : opts) (mp : perm) (base : Z) (k : nat) (usable : Z -> Prop) (X : Type).
Variable sem : insn -> pst Machine.flags X -> option (pst Machine.flags X).
Variable L : Type.
Variable lib : L -> pst Machine.flags X -> option (pst Machine.flags X).
Variable throws : bool.
Variable ac : access X L.
Notation pstate := (pst Machine.flags X).
Notation rep p l := (shadow_rep (p_mem p) base l).
Hypothesis PA : parsed co fs.
Hypothesis NL : fl_light fl = false.
Hypothesis TE : forall g, own co g -> terminal_exits co g.
Hypothesis RL : forall g, own co g -> ret_last co g.
Hypothesis PL : plain o.
Hypothesis SP : spaces mp base k usable.
Hypothesis DS : described X sem L lib ac.
Notation stepo := (step co fl fs m false o mp base k usable X sem L lib throws).
Notation stepi := (step co fl fs m true o mp base k usable X sem L lib throws).
Notation reachi := (reach co fl fs m true o mp base k usable X sem L lib throws).
Notation beginso := (begins co fl fs m false o).
Notation beginsi := (begins co fl fs m true o).
Notation check_at := (check_at co o).
Notation reserved := (reserved base k).

Lemma reach_one c e c' : stepi e c c' -> reachi c e c'.
Proof. intros S. change e with ([] ++ e). eapply r_step; [apply r_start|exact S]. Qed.
Lemma reach_app c0 tr c tr' c' : reachi c0 tr c -> reachi c tr' c' -> reachi c0 (tr ++ tr') c'.
Proof.
  intros R R'. induction R' as [|tr' e c1 c2 R' IH S]; [rewrite app_nil_r; auto|]. rewrite app_assoc. eapply r_step; eauto.
Qed.
Lemma reserved_inside x : reserved x = false <-> ~ inside base (32 + 8 * Z.of_nat k) x.
Proof. rewrite <- within_inside. unfold FullSame.reserved. destruct (within _ _ x); intuition discriminate. Qed.

(** ** The inserted code, once more *)
Lemma push_same p g l : wfp X p -> usable (p_rg p RSP) -> rep p l -> (List.length l < k)%nat ->
  exists c st, snip_code o (StackPush (full_entry o co g)) = Some c /\ exec c mp (as_state X base p) (Done st) /\
    rep (of_state X st p) (word_at X p :: l) /\ wfp X (of_state X st p) /\
    (forall r, p_rg (of_state X st p) r = p_rg p r) /\ p_fl (of_state X st p) = p_fl p /\
    (forall x, ~ inside (p_rg p RSP - 16) 16 x -> reserved x = false -> p_mem (of_state X st p) x = p_mem p x).
Proof.
  intros WF US RP LN. destruct (full_e_ok co g o PL) as [OK EO].
  pose proof (env_of co fl mp base k usable X sem L lib TE RL SP p l WF US RP ltac:(lia)) as EV.
  destruct (pushes_off (full_entry o co g) mp (as_state X base p) l k (p_rg p RSP) OK) as (c & st1 & C1 & C2 & C3 & C4 & C5 & C6 & C7 & C8); auto.
  { rewrite EO. unfold as_state; cbn [rg]. lia. }
  exists c, st1. split; [cbn [snip_code]; rewrite C1; reflexivity|]. split; [exact C2|]. split; [exact C3|].
  pose proof (exec_wf _ _ _ _ (env_wf _ _ _ _ _ EV) C2) as WF1. split; [exact (proj1 WF1)|].
  split. { intros r. apply C7. unfold e_dead. change (e_mid (full_entry o co g)) with (@None mid). cbn [request_dead]. destruct (o_optimize_regs _); intros []. }
  split; [exact C5|]. intros x N1 N2. apply C8.
  - pose proof (request_scratch_range (e_o (full_entry o co g)) (e_mid (full_entry o co g)) (j_dead_entry (e_js (full_entry o co g))) (proj2 OK)) as Q.
    fold (e_scratch (full_entry o co g)) in Q. unfold inside in *. cbn [as_state rg]. lia.
  - apply reserved_inside in N2. unfold inside in *. cbn [as_state gs]. lia.
  - apply reserved_inside in N2. unfold inside, ShadowSpec.slot in *. cbn [as_state gs]. lia.
Qed.
Lemma check_same p g l l' : wfp X p -> usable (p_rg p RSP) -> rep p l -> (List.length l <= k)%nat ->
  unwind (word_at X p) l = Some l' -> clean_above (word_at X p) l ->
  exists c st, snip_code o (StackPop (full_exit o co g)) = Some c /\ exec c mp (as_state X base p) (Done st) /\
    rep (of_state X st p) l' /\ wfp X (of_state X st p) /\ (forall r, p_rg (of_state X st p) r = p_rg p r) /\
    (forall x, ~ inside (p_rg p RSP - 16) 16 x -> reserved x = false -> p_mem (of_state X st p) x = p_mem p x).
Proof.
  intros WF US RP LN U CA. destruct (full_x_ok co o PL g) as (_ & OK & XO & _).
  pose proof (env_of co fl mp base k usable X sem L lib TE RL SP p l WF US RP LN) as EV. destruct (sp_stack _ _ _ _ SP _ US) as (_ & AP).
  destruct (checks_off (full_exit o co g) mp (as_state X base p) l k (p_rg p RSP) OK) as (c & C1 & C2); auto.
  { unfold as_state; cbn [rg]. change (x_off (full_exit o co g)) with 0. lia. }
  { unfold as_state; cbn [gs]. unfold apart in *. lia. }
  change (load64 (mem (as_state X base p)) (p_rg p RSP)) with (word_at X p) in C2. rewrite U in C2. destruct C2 as [D _].
  destruct (D CA) as (st1 & E1 & E2 & E3 & _ & E5 & E6).
  exists c, st1. split; [cbn [snip_code]; rewrite C1; reflexivity|]. split; [exact E1|]. split; [exact E2|].
  pose proof (exec_wf _ _ _ _ (env_wf _ _ _ _ _ EV) E1) as WF1. split; [exact (proj1 WF1)|].
  split. { intros r. apply E5. unfold x_dead. change (x_mid (full_exit o co g)) with (@None mid). cbn [request_dead].
           change (exit_dead_set (x_pt (full_exit o co g)) (x_js (full_exit o co g))) with (@nil string). destruct (o_optimize_regs _); intros []. }
  intros x N1 N2. apply E6.
  - pose proof (request_scratch_range (x_o (full_exit o co g)) (x_mid (full_exit o co g))
             (exit_dead_set (x_pt (full_exit o co g)) (x_js (full_exit o co g))) (proj2 OK)) as Q.
    fold (x_scratch (full_exit o co g)) in Q. unfold inside in *. cbn [as_state rg]. lia.
  - apply reserved_inside in N2. unfold inside in *. cbn [as_state gs]. lia.
Qed.

(** ** The code of a function, without and with insertions *)
Lemma segs_full g : forall ks b, segs co (full_plan co g) (false, b) ks = segs co Untouched (false, b) ks.
Proof.
  induction ks as [|kk ks IH]; intros b; cbn [segs]; auto. destruct (nth_error _ kk) as [e|]; auto.
  destruct (_ || _)%bool; auto. cbn [next full_plan]. fold (full_plan co g). rewrite IH. reflexivity.
Qed.
Lemma items_bare : forall ks b sl, segs co Untouched (false, b) ks = Some sl -> Forall bare (flat_map (seg_items co []) sl).
Proof.
  intros ks b sl _. apply bare_of. intros sn K. apply in_flat_map in K. destruct K as (sg & _ & K).
  assert (WV : forall n is, ~ In (Snip sn) (weave [] n is)).
  { intros n is Q. apply in_flat_map in Q. destruct Q as (j & _ & Q). cbn in Q. destruct Q as [Q|[]]. discriminate. }
  assert (NI : forall n la, ~ In (Snip sn) (node_items co [] n la)).
  { intros n la Q. unfold node_items in Q. destruct (cut _) as [bd tl]. destruct Q as [Q|Q]; [discriminate|].
    cbn [snips map filter app] in Q. apply in_app_or in Q. destruct Q as [Q|Q]; [apply (WV _ _ Q)|].
    destruct la.
    - apply in_flat_map in Q. destruct Q as (? & _ & []).
    - apply in_app_or in Q. destruct Q as [Q|[Q|[]]]; [apply (WV _ _ Q)|discriminate]. }
  destruct sg as [n [kk|]]; cbn [seg_items] in K; [|apply (NI _ _ K)].
  apply in_app_or in K. destruct K as [K|K]; [apply (NI _ _ K)|]. destruct (fst n); [|cbn in K]; contradiction.
Qed.
(** The rest of a path in both versions. *)
Definition same_items (g last : nat) (its its' : list item) : Prop :=
  its' = its ++ (if can_return fs g then check_at g last else []).
Lemma goes_on_same g last its : own co g -> goes_on co fl fs m false o g last its ->
  exists its', goes_on co fl fs m true o g last its' /\ same_items g last its its' /\ Forall bare its /\ In last (f_blocks (co_fun co g)).
Proof.
  intros HG (b & ks & path & sl & HB & OB & SG & ->). cbn [plan_of sites_of] in SG. unfold sites_of, plan_of. cbn [plan_of].
  assert (HL : In last (f_blocks (co_fun co g))).
  { destruct (p_fn _ _ PA _ HG) as ((_ & CL & _) & _). destruct (orig_bp co ks _ _ OB) as (r & E & P).
    assert (K : In last (b :: r)) by (rewrite <- E; apply in_or_app; right; left; auto). destruct K as [<-|K]; auto. eapply bp_in; eauto. }
  change (segs co Untouched (false, b) ks = Some sl) in SG.
  exists (flat_map (seg_items co (sites_of co fl fs m true o g)) sl). split; [|split; [|split; [eapply items_bare; eauto|exact HL]]].
  - exists b, ks, path, sl. split; [auto|]. split; [auto|]. split; [|reflexivity].
    rewrite (plan_is co fl fs m PA NL g HG). destruct (can_return fs g); auto. rewrite segs_full. exact SG.
  - unfold same_items, sites_of. rewrite (plan_is co fl fs m PA NL g HG). destruct (can_return fs g); [|rewrite app_nil_r; reflexivity].
    destruct (full_body co fs o PA TE RL g HG ks b sl last path ltac:(rewrite segs_full; exact SG) HB OB) as (mid & M1 & M2 & _ & sl0 & M3 & M4).
    cbn [full_plan]. rewrite M1. assert (E : sl0 = sl) by congruence. subst sl0. rewrite <- M4. reflexivity.
Qed.
Lemma begins_same g ra a : beginso g ra a ->
  exists its', beginsi g ra (mkAct g (a_last a) ra false its') /\
    (exists its0, same_items g (a_last a) (a_its a) its0 /\
       its' = if can_return fs g then Snip (StackPush (full_entry o co g)) :: its0 else its0) /\
    a = mkAct g (a_last a) ra false (a_its a) /\ Forall bare (a_its a) /\ own co g /\ In (a_last a) (f_blocks (co_fun co g)).
Proof.
  intros (HG & ks & path & last & its & OB & IT & ->). cbn [a_last a_its].
  unfold plan_items, sites_of, plan_of in IT. cbn [snips filter map app] in IT.
  destruct (segs co Untouched _ ks) as [sl|] eqn:SG; [|discriminate]. cbn [option_map] in IT.
  assert (EI : its = flat_map (seg_items co []) sl) by congruence. clear IT. subst its.
  destruct (p_fn _ _ PA g HG) as (FO & _).
  destruct (goes_on_same g last (flat_map (seg_items co []) sl) HG) as (its0 & (b1 & ks1 & path1 & sl1 & _) & _ & G3 & G4).
  { exists (f_entry (co_fun co g)), ks, path, sl. split; [apply FO|]. split; [auto|]. split; [exact SG|reflexivity]. }
  destruct (plan_items co (sites_of co fl fs m true o g) g (plan_of co fl fs m true g) ks) as [its'|] eqn:PI.
  2:{ exfalso. unfold plan_items in PI. rewrite (plan_is co fl fs m PA NL g HG) in PI. destruct (can_return fs g).
      - cbn [full_plan] in PI. fold (full_plan co g) in PI. rewrite segs_full, SG in PI. discriminate.
      - rewrite SG in PI. discriminate. }
  exists its'. split; [split; [auto|]; exists ks, path, last, its'; auto|]. split; [|auto].
  unfold plan_items, sites_of in PI. rewrite (plan_is co fl fs m PA NL g HG) in PI.
  unfold same_items. destruct (can_return fs g) eqn:CR.
  - cbn [full_plan] in PI. fold (full_plan co g) in PI. rewrite segs_full, SG in PI. cbn [option_map] in PI.
    assert (EI : its' = map Snip (snips (full_sites o co g) AtEntry) ++ flat_map (seg_items co (full_sites o co g)) sl) by congruence. clear PI.
    assert (ES : snips (full_sites o co g) AtEntry = [StackPush (full_entry o co g)]).
    { unfold full_sites. set (l := map _ _). change (_ :: l) with ([(AtEntry, StackPush (full_entry o co g))] ++ l).
      rewrite snips_app, (snips_none l). { reflexivity. }
      intros q Hq. apply in_map_iff in Hq. destruct Hq as (z & <- & _). discriminate. }
    rewrite ES in EI. cbn [map app] in EI.
    destruct (full_body co fs o PA TE RL g HG ks _ sl last path ltac:(rewrite segs_full; exact SG) (proj1 FO) OB) as (mid & M1 & M2 & _ & sl0 & M3 & M4).
    assert (E : sl0 = sl) by congruence. subst sl0. eexists. split; [reflexivity|]. rewrite EI, M1, <- M4. reflexivity.
  - rewrite SG in PI. cbn [option_map] in PI. eexists. split; [reflexivity|]. rewrite app_nil_r.
    assert (EI : its' = map Snip (snips [] AtEntry) ++ flat_map (seg_items co []) sl) by congruence. exact EI.
Qed.

(** ** The two executions side by side *)
Definition low (v : Z) : Prop := v mod 2 ^ 32 <> 0.
Definition fr_sim (f f' : frame) : Prop :=
  fr_old f = [] /\ Forall low (fr_old f') /\
  match fr_act f, fr_act f' with
  | Some a, Some a' => own co (a_fn a) /\ In (a_last a) (f_blocks (co_fun co (a_fn a))) /\
      a_fn a' = a_fn a /\ a_last a' = a_last a /\ a_ra a' = a_ra a /\ low (a_ra a) /\
      a_rec a = false /\ a_rec a' = can_return fs (a_fn a) /\ Forall bare (a_its a) /\
      same_items (a_fn a) (a_last a) (a_its a) (a_its a')
  | None, None => True
  | _, _ => False
  end.
Notation alike_to := (alike_to X).
Definition related (g : ghost) (p : pstate) (fr : list frame) (q : pstate) (fr' : list frame) : Prop :=
  alike_to g p q /\ (forall a, g_ok g a = true -> reserved a = false) /\ Forall2 fr_sim fr fr' /\ bottomed fr' /\
  wfp X q /\ usable (p_rg q RSP) /\ rep q (addresses fr') /\ (List.length (addresses fr') <= k)%nat.
Lemma sim_addresses fr fr' : Forall2 fr_sim fr fr' -> addresses fr = [] /\ Forall low (addresses fr').
Proof.
  intros F. induction F as [|f f' fr fr' (S1 & S2 & S3) F (IH1 & IH2)]; [split; [reflexivity|constructor]|].
  cbn [addresses flat_map]. unfold recorded, own_address. rewrite S1. fold (addresses fr) (addresses fr').
  destruct (fr_act f) as [a|], (fr_act f') as [a'|]; try contradiction.
  - destruct S3 as (_ & _ & _ & _ & RA & LO & E1 & _). rewrite E1. split; [exact IH1|].
    apply Forall_app. split; [|auto]. apply Forall_app. split; [auto|]. destruct (a_rec a'); auto. constructor; [congruence|constructor].
  - split; [exact IH1|]. rewrite app_nil_r. apply Forall_app. auto.
Qed.
Lemma low_clean w l : Forall low l -> clean_above w l.
Proof. induction l as [|v l IH]; intros F; cbn [clean_above]; auto. inversion F; subst. right. split; auto. Qed.
Lemma low_nz v : low v -> v <> 0.
Proof. intros H ->. apply H. reflexivity. Qed.
Lemma sim_give j r r' : Forall low j -> Forall2 fr_sim r r' -> Forall2 fr_sim (give [] r) (give j r').
Proof.
  intros J F. destruct F as [|f f' r r' (S1 & S2 & S3) F]; cbn [give]; [constructor|]. constructor; auto.
  unfold fr_sim. cbn [fr_old fr_act app]. split; [auto|]. split; [apply Forall_app; auto|auto].
Qed.
Lemma rep_len mm l l' : shadow_rep mm base l -> shadow_rep mm base l' -> List.length l = List.length l'.
Proof. intros (A & _) (B & _). rewrite A in B. unfold ShadowSpec.slot in B. lia. Qed.

(** An action. *)
Lemma does_same g g' x p p' q fr' : alike_to g p q -> (forall a, g_ok g a = true -> reserved a = false) ->
  rep q (addresses fr') -> (List.length (addresses fr') <= k)%nat ->
  does base k X L ac g x p g' -> act_on X sem L lib x p = Some p' -> wfp X p' -> usable (p_rg p' RSP) ->
  exists q', act_on X sem L lib x q = Some q' /\ good base usable X q q' /\ alike_to g' p' q' /\
    (forall a, g_ok g' a = true -> reserved a = false) /\ rep q' (addresses fr').
Proof.
  intros (A1 & A2 & A3 & A4) OK RP LN (D1 & D2 & D3 & ->) AO WF US.
  destruct (d_same _ _ _ _ _ DS x p q p' AO A1 A2) as (WE & q' & Q1 & Q2 & Q3 & Q4 & Q5); auto.
  assert (KS : forall l, rep q l -> rep q' l).
  { intros l R. pose proof (rep_len _ _ _ RP R) as EL. apply shadow_rep_ext with (m := p_mem q); [exact R|]. intros y Hy.
    apply (d_frame _ _ _ _ _ DS x q q' y Q1). rewrite WE. destruct (writes ac x p y) eqn:WR; auto. exfalso.
    apply D3, reserved_inside in WR. apply WR. unfold inside in *. lia. }
  exists q'. split; [auto|]. split; [|split; [|split]].
  - split; [intros r; rewrite Q2; apply WF|]. split; [rewrite Q2; auto|exact KS].
  - split; [auto|]. split; [auto|]. cbn [g_ok g_fl]. split.
    + intros a Ha. destruct (writes ac x p a) eqn:WR; [apply Q4; auto|]. rewrite orb_false_r in Ha.
      rewrite (d_frame _ _ _ _ _ DS x p p' a AO WR), (d_frame _ _ _ _ _ DS x q q' a Q1 (eq_trans (WE a) WR)). auto.
    + intros F. apply Q5. apply orb_true_iff in F. destruct F; auto.
  - cbn [g_ok]. intros a Ha. apply orb_true_iff in Ha. destruct Ha; auto.
  - apply KS. exact RP.
Qed.
Lemma related_less g g' p fr q fr' : (forall a, g_ok g' a = true -> g_ok g a = true) -> (g_fl g' = true -> g_fl g = true) ->
  related g p fr q fr' -> related g' p fr q fr'.
Proof.
  intros A B ((R1 & R2 & R3 & R4) & R5 & R6). split; [|split; [|exact R6]].
  - split; [auto|]. split; [auto|]. split; auto.
  - intros a Ha. apply R5. auto.
Qed.

(** A function begins: the address is recorded. *)
Definition scratched (b : bool) (p : pstate) (g : ghost) : ghost :=
  mkGhost (fun a => g_ok g a && negb (b && within (p_rg p RSP - 16) 16 a)) (g_fl g).
Lemma begin_same g p fr q fr' f ra a : related g p fr q fr' -> beginso f ra a -> word_at X q = ra -> low ra ->
  (List.length (addresses fr') < k)%nat ->
  exists a', beginsi f ra a' /\ exists q2 f2', reachi (Run q (mkFrame (Some a') [] :: fr')) [] (Run q2 (f2' :: fr')) /\
    related (scratched (can_return fs f) p g) p (mkFrame (Some a) [] :: fr) q2 (f2' :: fr').
Proof.
  intros ((A1 & A2 & A3 & A4) & OK & FS & BO & WF & US & RP & LN) BG WA LO LT.
  destruct (begins_same f ra a BG) as (its' & B1 & (its0 & B2 & B3) & B4 & B5 & B6 & B7).
  destruct a as [f0 la ra0 rc0 it0]; cbn [a_last a_its] in *. injection B4 as -> -> ->.
  exists (mkAct f la ra false its'). split; [exact B1|].
  assert (SIM : forall r', r' = can_return fs f ->
    fr_sim (mkFrame (Some (mkAct f la ra false it0)) []) (mkFrame (Some (mkAct f la ra r' its0)) [])).
  { intros r' ->. unfold fr_sim. cbn [fr_old fr_act a_fn a_last a_ra a_rec a_its]. repeat (split; [auto|]). exact B2. }
  destruct (can_return fs f) eqn:CR.
  - destruct (push_same q f (addresses fr') WF US RP LT) as (c & st & C1 & C2 & C3 & C4 & C5 & C6 & C7).
    exists (of_state X st q), (mkFrame (Some (mkAct f la ra true its0)) []).
    split.
    { apply reach_one. rewrite B3. apply (s_snip co fl fs m true o mp base k usable X sem L lib throws q (mkAct f la ra false (Snip (StackPush (full_entry o co f)) :: its0)) [] fr' (StackPush (full_entry o co f)) c st its0); [reflexivity|exact C1|exact C2]. }
    rewrite WA in C3. split; [|split; [|split; [|split; [|split; [|split; [|split]]]]]].
    + split; [intros r; rewrite C5; auto|]. split; [exact A2|]. cbn [g_ok g_fl scratched]. split.
      * intros y Hy. apply andb_true_iff in Hy. destruct Hy as [H1 H2]. rewrite C7; [auto| |auto].
        rewrite A1. rewrite <- within_inside. cbn [andb] in H2. destruct (within _ _ y); [discriminate|congruence].
      * intros F. rewrite C6. auto.
    + cbn [g_ok scratched]. intros y Hy. apply andb_true_iff in Hy. apply OK. tauto.
    + constructor; [apply SIM; auto|exact FS].
    + apply bottom_up; auto.
    + exact C4.
    + rewrite C5. exact US.
    + exact C3.
    + cbn [addresses flat_map]. fold (addresses fr'). cbn. lia.
  - exists q, (mkFrame (Some (mkAct f la ra false its0)) []). rewrite B3. split; [apply r_start|].
    split; [|split; [|split; [|split; [|split; [|split; [|split]]]]]]; auto.
    + split; [auto|]. split; [auto|]. cbn [g_ok g_fl scratched andb negb]. split; [|auto]. intros y Hy. rewrite andb_true_r in Hy. auto.
    + cbn [g_ok scratched andb negb]. intros y Hy. rewrite andb_true_r in Hy. auto.
    + apply bottom_up; auto.
Qed.

(** The next item is one of the program. *)
Lemma top_item a old' r' a' x its : fr_sim (mkFrame (Some a) []) (mkFrame (Some a') old') -> a_its a = x :: its ->
  exists its', a_its a' = x :: its' /\ bare x /\
    fr_sim (mkFrame (Some (with_items a its)) []) (mkFrame (Some (with_items a' its')) old') /\
    addresses (mkFrame (Some (with_items a' its')) old' :: r') = addresses (mkFrame (Some a') old' :: r').
Proof.
  intros (S1 & S2 & S3 & S4 & S5 & S6 & S7 & S8 & S9 & S10 & S11 & S12) E. cbn [fr_old fr_act] in *.
  unfold same_items in S12. rewrite E in S12, S11. inversion S11 as [|? ? HB HR]; subst.
  cbn [app] in S12. eexists. split; [exact S12|]. split; [exact HB|]. split; [|reflexivity].
  unfold fr_sim, with_items. cbn [fr_old fr_act a_fn a_last a_ra a_rec a_its].
  do 10 (split; [assumption || reflexivity|]). split; [exact HR|reflexivity].
Qed.
Lemma sim_top a old fr0' r : Forall2 fr_sim (mkFrame (Some a) old :: r) fr0' ->
  exists a' old' r', fr0' = mkFrame (Some a') old' :: r' /\ old = [] /\ fr_sim (mkFrame (Some a) []) (mkFrame (Some a') old') /\ Forall2 fr_sim r r'.
Proof.
  intros F. inversion F as [|? f' ? r' S FR]; subst. destruct f' as [[a'|] old']; [|destruct S as (_ & _ & []) ].
  pose proof (proj1 S) as O. cbn in O. subst old. exists a', old', r'. auto.
Qed.
Lemma sim_lib old fr0' r : Forall2 fr_sim (mkFrame None old :: r) fr0' ->
  exists old' r', fr0' = mkFrame None old' :: r' /\ old = [] /\ Forall low old' /\ Forall2 fr_sim r r'.
Proof.
  intros F. inversion F as [|? f' ? r' S FR]; subst. destruct f' as [[a'|] old']; [destruct S as (_ & _ & [])|].
  pose proof (proj1 S) as O. cbn in O. subst old. exists old', r'. destruct S as (_ & S & _). auto.
Qed.

(** A call, from a function or from library code. *)
Lemma call_same g g' p fr q fr' f ra a : related g p fr q fr' -> beginso f ra a -> 0 <= ra < W -> usable (p_rg p RSP - 8) ->
  calls fs X g p f ra g' -> (List.length (addresses fr') < k)%nat ->
  exists a', beginsi f ra a' /\ exists q2 f2', reachi (Run (pushed X q ra) (mkFrame (Some a') [] :: fr')) [] (Run q2 (f2' :: fr')) /\
    related g' (pushed X p ra) (mkFrame (Some a) [] :: fr) q2 (f2' :: fr').
Proof.
  intros ((A1 & A2 & A3 & A4) & OK & FS & BO & WF & US & RP & LN) BG RA US' (LO & ->) LT.
  assert (UQ : usable (p_rg q RSP - 8)) by (rewrite A1; auto).
  destruct (pushed_ok co fl mp base k usable X sem L lib TE RL SP q ra (addresses fr') WF RA UQ LN RP) as (P1 & P2 & P3 & P4).
  destruct (begin_same (mkGhost (fun a => g_ok g a || within (p_rg p RSP - 8) 8 a) (g_fl g)) (pushed X p ra) fr (pushed X q ra) fr' f ra a)
    as (a' & B1 & q2 & f2' & B2 & B3); auto.
  - split; [|split; [|split; [auto|split; [auto|split; [auto|split; [rewrite P2; auto|auto]]]]]].
    + split; [|split; [exact A2|split]]; cbn [g_ok g_fl pushed p_rg p_mem p_fl].
      * intros r. destruct (reg_eq_dec r RSP) as [->|N]; [rewrite !updr_same, A1; reflexivity|rewrite !updr_other by auto; auto].
      * intros y Hy. rewrite A1. unfold store64. destruct (within (p_rg p RSP - 8) 8 y) eqn:WI.
        -- apply within_inside in WI. apply store_in_ext. unfold inside in WI. change (Z.of_nat 8) with 8. lia.
        -- rewrite orb_false_r in Hy.
           assert (NI : ~ inside (p_rg p RSP - 8) 8 y) by (rewrite <- within_inside; congruence). unfold inside in NI.
           rewrite !store_out by (change (Z.of_nat 8) with 8; lia). auto.
      * exact A4.
    + cbn [g_ok]. intros y Hy. apply orb_true_iff in Hy. destruct Hy as [Hy|Hy]; [auto|]. apply within_inside in Hy.
      apply reserved_inside. destruct (sp_stack _ _ _ _ SP _ US') as (_ & AP). unfold apart, inside in *. lia.
  - exists a'. split; [auto|]. exists q2, f2'. split; [auto|]. eapply related_less; [| |exact B3]; cbn [g_ok g_fl scratched pushed p_rg]; [|auto].
    intros y. rewrite updr_same. replace (p_rg p RSP - 8 - 16) with (p_rg p RSP - 24) by lia. auto.
Qed.
(** A function is left: the check is passed. *)
Lemma leave_same g g' p a r q fr0' fr2 : related g p (mkFrame (Some a) [] :: r) q fr0' -> a_its a = [] ->
  (is_ret co (a_last a) \/ exists e, is_tail co (a_last a) e) -> can_return fs (a_fn a) = true ->
  leaves X g p g' -> leave (word_at X p) (a_ra a) [] r = At fr2 ->
  exists a' old' r' q2, word_at X q2 = word_at X p /\ a_its a' = [] /\ a_last a' = a_last a /\ a_fn a' = a_fn a /\
    reachi (Run q fr0') [] (Run q2 (mkFrame (Some a') old' :: r')) /\
    exists fr2', leave (word_at X p) (a_ra a') old' r' = At fr2' /\ low (word_at X p) /\ (List.length (addresses fr2') < k)%nat /\ related g' p fr2 q2 fr2'.
Proof.
  intros ((A1 & A2 & A3 & A4) & OK & FS & BO & WF & US & RP & LN) EI LB CR (LV1 & ->) LE.
  destruct (sim_top _ _ _ _ FS) as (a' & old' & r' & -> & _ & SM & FR).
  pose proof SM as (_ & S2 & S3 & S4 & S5 & S6 & S7 & S8 & S9 & S10 & S11 & S12). cbn [fr_old fr_act] in *.
  unfold same_items in S12. rewrite EI, CR in S12. cbn [app] in S12. unfold FullExecFacts.check_at in S12.
  assert (IX : Dfs.mem (a_last a) (returning_pops co (a_fn a)) = true).
  { pose proof (p_exits _ _ PA _ _ S3 S4 LB) as RE. apply nonret_prop in RE. apply andb_true_iff in RE. destruct RE as [R1 R2].
    apply mem_in. apply filter_In. split; [apply mem_in; auto|auto]. }
  rewrite IX in S12. cbn [opt map] in S12. rewrite CR in S10.
  assert (EW : word_at X q = word_at X p).
  { unfold word_at. rewrite A1. apply load64_ext. intros y Hy. apply A3, LV1, within_inside. exact Hy. }
  assert (EA : word_at X p = a_ra a).
  { unfold leave in LE. destruct (Z.eqb_spec (word_at X p) (a_ra a)) as [E|N]; auto. exfalso. cbn [among existsb] in LE.
    assert (K : search (word_at X p) r = Nowhere).
    { clear - FR. induction FR as [|f f' r r' (F1 & _ & F3) FR IH]; [reflexivity|]. cbn [search]. rewrite F1. cbn [among existsb].
      unfold own_address. destruct (fr_act f) as [b|], (fr_act f'); try contradiction; [|exact IH].
      destruct F3 as (_ & _ & _ & _ & _ & _ & E & _). rewrite E. exact IH. }
    rewrite K in LE. discriminate. }
  pose proof (bottom_act _ _ _ BO) as BR.
  destruct (sim_addresses _ _ FS) as (_ & LA).
  destruct (unwind (word_at X q) (addresses (mkFrame (Some a') old' :: r'))) as [l'|] eqn:U.
  2:{ exfalso. apply unwind_none in U. apply U. rewrite EW, EA. cbn [addresses flat_map]. unfold recorded, own_address. cbn [fr_act fr_old].
      rewrite S10. apply in_or_app. left. apply in_or_app. right. left. exact S7. }
  destruct (check_same q (a_last a) _ l' WF US RP LN U (low_clean _ _ LA)) as (c & st & C1 & C2 & C3 & C4 & C5 & C6).
  assert (LW : low (word_at X p)) by (rewrite EA; auto).
  exists (mkAct (a_fn a') (a_last a') (a_ra a') (a_rec a') []), old', r', (of_state X st q).
  split.
  { unfold word_at. rewrite C5, A1. apply load64_ext. intros y Hy. rewrite C6; [apply A3, LV1, within_inside; exact Hy| |].
    - rewrite A1. unfold inside in *. lia.
    - apply OK, LV1, within_inside. exact Hy. }
  split; [reflexivity|]. split; [exact S6|]. split; [exact S5|]. split.
  { apply reach_one. pose proof (s_snip co fl fs m true o mp base k usable X sem L lib throws q a' old' r' _ c st [] S12 C1) as ST.
    cbn [is_push] in ST. rewrite orb_false_r in ST. exact (ST C2). }
  rewrite EW in U. pose proof (leave_ok (word_at X p) a' old' r' l' S10 BR U) as LK. cbn [a_ra].
  assert (EL : leave (word_at X p) (a_ra a') old' r' = At (give (behind (word_at X p) old') r')).
  { unfold leave. rewrite S7, EA, Z.eqb_refl. reflexivity. }
  rewrite EL in LK |- *. destruct LK as (L1 & L2 & L3 & L4). eexists. split; [reflexivity|]. split; [exact LW|].
  assert (UL : (List.length l' < k)%nat) by (pose proof (unwind_len _ _ _ U); lia).
  split; [rewrite L1; exact UL|].
  unfold leave in LE. rewrite EA, Z.eqb_refl in LE. injection LE as <-.
  split; [|split; [|split; [|split; [|split; [|split; [|split]]]]]].
  - split; [intros z; rewrite C5; auto|]. split; [exact A2|]. cbn [g_ok g_fl]. split; [|discriminate].
    intros y Hy. apply andb_true_iff in Hy. destruct Hy as [H1 H2]. rewrite C6; [auto| |auto].
    rewrite A1, <- within_inside. destruct (within _ _ y); [discriminate|congruence].
  - cbn [g_ok]. intros y Hy. apply andb_true_iff in Hy. apply OK. tauto.
  - apply sim_give; [|exact FR]. unfold behind. destruct (unwind _ old') as [j|] eqn:UJ; [|constructor].
    apply Forall_app. split; [|constructor; [exact LW|constructor]].
    clear - UJ S2. revert j UJ. induction old' as [|v l IH]; intros j UJ; [discriminate|]. inversion S2; subst. cbn [unwind] in UJ.
    destruct (v =? _); [injection UJ as <-; auto|auto].
  - exact L2.
  - exact C4.
  - rewrite C5. exact US.
  - rewrite L1. exact C3.
  - rewrite L1. lia.
Qed.

Lemma step_same g g' e p fr q fr' p2 fr2 : related g p fr q fr' -> stepo e (Run p fr) (Run p2 fr2) ->
  tidy_step fs base k X L ac g p e g' ->
  List.length (addresses fr') = k \/
  exists q2 fr2', reachi (Run q fr') e (Run q2 fr2') /\ related g' p2 fr2 q2 fr2'.
Proof.
  intros REL S TD. pose proof REL as ((A1 & A2 & A3 & A4) & OK & FS & BO & WF & US & RP & LN).
  remember (Run p fr) as c0 eqn:E0. remember (Run p2 fr2) as c2 eqn:E2.
  destruct S as [p1 a old r n its E|p1 a old r n its E|p1 p' a old r n i its E OC SE (Q1 & Q2 & Q3)
    |p1 a old r n i its e g1 ra a1 E OC IC GT RA BG US1 LN1|p1 a old r n i its e name E OC IC GO|p1 a old r n i its E
    |p1 p' x old r LX (Q1 & Q2 & Q3)|p1 old r g1 ra a1 RA BG US1 LN1|p1 old f r
    |p1 old u a old1 r last its TH GO
    |p1 a old r sn c u its E SC EX|p1 a old r sn c its E SC EX|p1 a old r sn c its E SC EX|p1 a old r sn its E SC
    |p1 a old r E IR CR WP US1|p1 a old r e g1 a1 E IT CR GT BG|p1 a old r e name E IT CR GO];
    injection E0 as -> <-; try discriminate.
  - (* Here *) injection E2 as <- <-. cbn [tidy_step] in TD. subst g'. destruct (sim_top _ _ _ _ FS) as (a' & old' & r' & -> & -> & SM & FR).
    destruct (top_item a old' r' a' _ its SM E) as (its' & I1 & _ & I2 & I3). right. eexists _, _. split; [apply reach_one; eapply s_here; exact I1|].
    split; [split; auto|]. split; [auto|]. split; [constructor; auto|]. split; [eapply bottom_same; eauto|]. rewrite I3. auto.
  - (* Out *) injection E2 as <- <-. cbn [tidy_step] in TD. subst g'. destruct (sim_top _ _ _ _ FS) as (a' & old' & r' & -> & -> & SM & FR).
    destruct (top_item a old' r' a' _ its SM E) as (its' & I1 & _ & I2 & I3). right. eexists _, _. split; [apply reach_one; eapply s_out; exact I1|].
    split; [split; auto|]. split; [auto|]. split; [constructor; auto|]. split; [eapply bottom_same; eauto|]. rewrite I3. auto.
  - (* instruction *) injection E2 as <- <-. cbn [tidy_step] in TD. destruct (sim_top _ _ _ _ FS) as (a' & old' & r' & -> & -> & SM & FR).
    destruct (top_item a old' r' a' _ its SM E) as (its' & I1 & _ & I2 & I3).
    destruct (does_same g g' (inl i) p p' q _ (conj A1 (conj A2 (conj A3 A4))) OK RP LN TD SE Q1 Q2) as (q' & D1 & D2 & D3 & D4 & D5).
    right. eexists _, _. split; [apply reach_one; eapply s_ins; [exact I1|exact OC|exact D1|exact D2]|].
    split; [exact D3|]. split; [auto|]. split; [constructor; auto|]. split; [eapply bottom_same; eauto|]. rewrite I3.
    split; [apply D2|]. split; [apply D2|auto].
  - (* call *) injection E2 as <- <-. cbn [tidy_step] in TD. destruct (sim_top _ _ _ _ FS) as (a' & old' & r' & -> & -> & SM & FR).
    destruct (top_item a old' r' a' _ its SM E) as (its' & I1 & _ & I2 & I3).
    destruct (Nat.eq_dec (List.length (addresses (mkFrame (Some a') old' :: r'))) k) as [FU|NF]; [left; exact FU|right].
    destruct (call_same g g' p (mkFrame (Some (with_items a its)) [] :: r) q (mkFrame (Some (with_items a' its')) old' :: r') g1 ra a1)
      as (a2 & B1 & q2 & f2' & B2 & B3); auto.
    + split; [split; auto|]. split; [auto|]. split; [constructor; auto|]. split; [eapply bottom_same; eauto|]. rewrite I3. auto.
    + rewrite I3. lia.
    + eexists _, _. split; [|exact B3]. change [CallTo g1 ra] with ([CallTo g1 ra] ++ @nil (event L)). eapply reach_app; [apply reach_one|exact B2].
      eapply s_call; eauto; [rewrite A1; auto|lia].
  - (* call of library code *) injection E2 as <- <-. cbn [tidy_step] in TD. subst g'. destruct (sim_top _ _ _ _ FS) as (a' & old' & r' & -> & -> & SM & FR).
    destruct (top_item a old' r' a' _ its SM E) as (its' & I1 & _ & I2 & I3). right. eexists _, _. split; [apply reach_one; eapply s_call_out; eauto|].
    split; [split; auto|]. split; [auto|]. split; [constructor; [split; [auto|split; [constructor|exact I]]|constructor; auto]|].
    split; [apply bottom_up; eapply bottom_same; eauto|]. change (addresses (library :: ?x)) with (addresses x). rewrite I3. auto.
  - (* signal *) injection E2 as <- <-. cbn [tidy_step] in TD. subst g'. destruct (sim_top _ _ _ _ FS) as (a' & old' & r' & -> & -> & SM & FR).
    destruct (top_item a old' r' a' _ its SM E) as (its' & I1 & _ & I2 & I3). right. eexists _, _. split; [apply reach_one; eapply s_signal; eauto|].
    split; [split; auto|]. split; [auto|]. split; [constructor; [split; [auto|split; [constructor|exact I]]|constructor; auto]|].
    split; [apply bottom_up; auto|]. change (addresses (library :: ?x)) with (addresses x). auto.
  - (* library code *) injection E2 as <- <-. cbn [tidy_step] in TD. destruct (sim_lib _ _ _ FS) as (old' & r' & -> & -> & LO & FR).
    destruct (does_same g g' (inr x) p p' q _ (conj A1 (conj A2 (conj A3 A4))) OK RP LN TD LX Q1 Q2) as (q' & D1 & D2 & D3 & D4 & D5).
    right. eexists _, _. split; [apply reach_one; eapply s_lib; [exact D1|exact D2]|].
    split; [exact D3|]. split; [auto|]. split; [auto|]. split; [auto|]. split; [apply D2|]. split; [apply D2|auto].
  - (* call from library code *) injection E2 as <- <-. cbn [tidy_step] in TD. destruct (sim_lib _ _ _ FS) as (old' & r' & -> & -> & LO & FR).
    destruct (Nat.eq_dec (List.length (addresses (mkFrame None old' :: r'))) k) as [FU|NF]; [left; exact FU|right].
    destruct (call_same g g' p (mkFrame None [] :: r) q (mkFrame None old' :: r') g1 ra a1)
      as (a2 & B1 & q2 & f2' & B2 & B3); auto; [lia|].
    eexists _, _. split; [|exact B3]. change [CallTo g1 ra] with ([CallTo g1 ra] ++ @nil (event L)). eapply reach_app; [apply reach_one|exact B2].
    eapply s_lib_call; eauto; [rewrite A1; auto|lia].
  - (* library code returns *) injection E2 as <- <-. cbn [tidy_step] in TD. subst g'. destruct (sim_lib _ _ _ FS) as (old' & r' & -> & -> & LO & FR).
    destruct r' as [|f' r']; [inversion FR|]. right. eexists _, _. split; [apply reach_one; apply s_lib_back|].
    split; [split; auto|]. split; [auto|]. split; [apply (sim_give old' (f :: r) (f' :: r')); auto|].
    assert (BR : bottomed (f' :: r')) by (eapply bottom_cons; [discriminate|exact BO]).
    split; [apply bottom_give; exact BR|]. rewrite addresses_give by discriminate.
    replace (old' ++ addresses (f' :: r')) with (addresses (mkFrame None old' :: f' :: r'))
      by (cbn [addresses flat_map]; unfold recorded, own_address; cbn [fr_old fr_act]; rewrite app_nil_r; reflexivity). auto.
  - (* exception, longjmp *) injection E2 as <- <-. cbn [tidy_step] in TD. subst g'. destruct (sim_lib _ _ _ FS) as (old' & r0' & -> & -> & LO & FR).
    apply Forall2_app_inv_l in FR. destruct FR as (u' & w' & FU & FW & ->). destruct (sim_top _ _ _ _ FW) as (a' & o2 & r' & -> & -> & SM & FR).
    pose proof SM as (_ & S2 & S3 & S4 & S5 & S6 & S7 & S8 & S9 & S10 & S11 & S12). cbn [fr_old fr_act] in *.
    destruct (goes_on_same (a_fn a) last its S3 GO) as (its' & G1 & G2 & G3 & G4).
    destruct (sim_addresses _ _ FU) as (U1 & U2).
    right. eexists _, _. split; [apply reach_one; rewrite <- S5 in G1 |- *; eapply s_throw; [exact TH|exact G1]|].
    split; [split; auto|]. split; [auto|].
    assert (EA : forall its, addresses (mkFrame (Some (mkAct (a_fn a') last (a_ra a') (a_rec a') its)) (addresses (mkFrame None old' :: u') ++ o2) :: r') =
                 addresses (mkFrame None old' :: u' ++ mkFrame (Some a') o2 :: r')).
    { intros z. cbn [addresses flat_map]. fold (addresses u') (addresses r'). change (flat_map recorded) with addresses.
      rewrite addresses_app. cbn [addresses flat_map]. unfold recorded, own_address. cbn [fr_old fr_act a_rec a_ra]. rewrite <- !app_assoc. reflexivity. }
    split.
    { constructor; [|exact FR]. unfold fr_sim. cbn [fr_old fr_act a_fn a_last a_ra a_rec a_its].
      split; [cbn [addresses flat_map recorded own_address fr_old fr_act app]; change (flat_map recorded u) with (addresses u); rewrite U1; reflexivity|].
      split; [apply Forall_app; split; [|exact S2]; cbn [addresses flat_map]; unfold recorded, own_address; cbn [fr_old fr_act]; rewrite app_nil_r;
              apply Forall_app; split; [exact LO|exact U2]|].
      repeat (split; [auto|]). exact G2. }
    split.
    { apply bottom_up. apply (bottom_act a' o2). eapply (bottom_drop (mkFrame None old' :: u')); [discriminate|exact BO]. }
    rewrite EA. auto.
  - (* no inserted code *) exfalso. destruct (sim_top _ _ _ _ FS) as (a' & old' & r' & -> & -> & SM & FR).
    destruct (top_item a old' r' a' _ its SM E) as (_ & _ & [] & _).
  - (* return *) cbn [tidy_step] in TD. destruct (sim_top _ _ _ _ FS) as (_ & _ & _ & _ & -> & _ & _).
    destruct (leave _ _ _ _) as [fr3| |] eqn:LE; cbn [resume] in E2; try discriminate. injection E2 as <- <-.
    destruct (leave_same g g' p a r q fr' fr3 REL E (or_introl IR) CR TD LE) as (a' & old' & r' & q2 & W1 & W2 & W3 & W3' & W4 & fr2' & W5 & _ & _ & W6).
    right. exists (popped X q2), fr2'. change [Return (word_at X p)] with ([] ++ [Return (L := L) (word_at X p)]). split.
    + eapply reach_app; [exact W4|]. apply reach_one. rewrite <- W1.
      replace (Run (popped X q2) fr2') with (resume X (popped X q2) (fun fr => fr) (word_at X q2) (leave (word_at X q2) (a_ra a') old' r'))
        by (rewrite W1, W5; reflexivity).
      destruct W6 as ((B1 & _) & _). apply s_ret; auto; [rewrite W3; auto|rewrite W3'; auto| |rewrite B1; auto].
      intros z. specialize (WP z). unfold popped in WP |- *. cbn [p_rg] in WP |- *. destruct (reg_eq_dec z RSP) as [->|N].
      * rewrite updr_same in WP |- *. rewrite B1. exact WP.
      * rewrite updr_other in WP |- * by auto. rewrite B1. exact WP.
    + destruct W6 as ((B1 & B2 & B3 & B4) & B5 & B6 & B7 & B8 & B9 & B10 & B11).
      split; [|split; [auto|split; [auto|split; [auto|split; [|split; [|split; auto]]]]]].
      * split; [|split; [exact B2|split; [exact B3|exact B4]]]. intros z. unfold popped. cbn [p_rg].
        destruct (reg_eq_dec z RSP) as [->|N]; [rewrite !updr_same, B1; reflexivity|rewrite !updr_other by auto; auto].
      * intros z. specialize (WP z). unfold popped in WP |- *. cbn [p_rg] in WP |- *. destruct (reg_eq_dec z RSP) as [->|N].
        -- rewrite updr_same in WP |- *. rewrite B1. exact WP.
        -- rewrite updr_other in WP |- * by auto. rewrite B1. exact WP.
      * unfold popped. cbn [p_rg]. rewrite updr_same, B1. exact US1.
  - (* jump to a function *) cbn [tidy_step] in TD. destruct (sim_top _ _ _ _ FS) as (_ & _ & _ & _ & -> & _ & _).
    destruct (leave _ _ _ _) as [fr3| |] eqn:LE; cbn [resume] in E2; try discriminate. injection E2 as <- <-.
    destruct (leave_same g g' p a r q fr' fr3 REL E (or_intror (ex_intro _ e IT)) CR TD LE) as (a' & old' & r' & q2 & W1 & W2 & W3 & W3' & W4 & fr2' & W5 & LW & LT & W6).
    destruct (begin_same g' p fr3 q2 fr2' g1 (word_at X p) a1 W6 BG W1 LW LT) as (a2 & B1 & q3 & f3 & B2 & B3).
    right. exists q3, (f3 :: fr2'). split.
    + change [JumpTo g1] with ([] ++ [JumpTo (L := L) g1] ++ []). eapply reach_app; [exact W4|]. eapply reach_app; [apply reach_one|exact B2].
      replace (Run q2 (mkFrame (Some a2) [] :: fr2')) with (resume X q2 (cons (mkFrame (Some a2) [])) (word_at X q2) (leave (word_at X q2) (a_ra a') old' r'))
        by (rewrite W1, W5; reflexivity).
      eapply s_tail; [exact W2|rewrite W3; exact IT|rewrite W3'; auto|exact GT|rewrite W1; exact B1].
    + destruct TD as (_ & ->). eapply related_less; [| |exact B3]; cbn [g_ok g_fl scratched]; [|auto].
      intros y Hy. apply andb_true_iff in Hy. destruct Hy as [H1 H2]. rewrite H1, H2. cbn. destruct (within _ _ y); [discriminate|]. rewrite andb_false_r. reflexivity.
  - (* jump to library code *) cbn [tidy_step] in TD. destruct (sim_top _ _ _ _ FS) as (_ & _ & _ & _ & -> & _ & _).
    destruct (leave _ _ _ _) as [fr3| |] eqn:LE; cbn [resume] in E2; try discriminate. injection E2 as <- <-.
    destruct (leave_same g g' p a r q fr' fr3 REL E (or_intror (ex_intro _ e IT)) CR TD LE) as (a' & old' & r' & q2 & W1 & W2 & W3 & W3' & W4 & fr2' & W5 & LW & LT & W6).
    right. exists q2, (library :: fr2'). split.
    + change [JumpOut name] with ([] ++ [JumpOut (L := L) name]). eapply reach_app; [exact W4|]. apply reach_one.
      replace (Run q2 (library :: fr2')) with (resume X q2 (cons library) (word_at X q2) (leave (word_at X q2) (a_ra a') old' r'))
        by (rewrite W1, W5; reflexivity).
      eapply s_tail_out; [exact W2|rewrite W3; exact IT|rewrite W3'; auto|exact GO].
    + destruct W6 as (B1 & B5 & B6 & B7 & B8). split; [auto|]. split; [auto|].
      split; [constructor; [split; [auto|split; [constructor|exact I]]|auto]|]. split; [apply bottom_up; auto|exact B8].
Qed.
End SAME.
