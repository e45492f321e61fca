(** * Property C71: full mode *)
From Coq Require Import ZArith Bool Lia ZifyBool ZifyNat Arith String List.
From Verif Require Import Machine MachineFacts Jit ShadowSpec JitFacts JitPushPop History Witness.
From Verif Require Import Dfs Binary CallGraph InterProc MemPasses Pipeline RegNames BlockLive ExSem
  Reach SafePaths Lowering P_Lower FastPath Decision P_Instr FullRun Whole P_Whole Sites SiteEx P_Sites
  Order Activation PlanCode ActRun P_Activation FullMode.
Import ListNotations.
Open Scope Z_scope.
Local Notation mem := Machine.mem.

Definition fl_full : Lowering.flags := Lowering.mkFlags false false false false false false [] false.

(** The snippets of full mode are those that JitStackPush and JitStackPop emit without a summary. *)
Theorem C71_snippets : forall o co fn pl sn, In (pl, sn) (full_sites o co fn) ->
  (pl = AtEntry /\ exists q, sn = StackPush q /\
     e_code q = jit_stack_push o kRegisterMap (bpoint co (f_entry (co_fun co fn))) None false 0 false) \/
  (exists b q, pl = AtEnd (false, b) /\ sn = StackPop q /\ In b (returning_pops co fn) /\
     x_code q = jit_stack_pop o kRegisterMap (bpoint co b) None false).
Proof.
  intros o co fn pl sn [E|H].
  - injection E as <- <-. left. split; [reflexivity|]. exists (full_entry o co fn). split; [reflexivity|]. symmetry. apply push_none.
  - apply in_map_iff in H. destruct H as (b & E & Hb). injection E as <- <-. right. exists b, (full_exit o co b).
    split; [reflexivity|]. split; [reflexivity|]. split; [exact Hb|]. symmetry. apply pop_none.
Qed.

(** The function has no conditional jumps out of it (C37). *)
Theorem C71_full_mode : forall co fl fs m,
  parsed co fs -> fl_light fl = false ->
  forall fn, own co fn -> can_return fs fn = true -> terminal_exits co fn -> ret_last co fn ->
  planned co fl m fs fn = full_plan co fn /\
  forall o ks l b, plain o -> orig_blocks co (f_entry (co_fun co fn)) ks = Some (l ++ [b]) ->
  (is_ret co b \/ exists e, is_tail co b e) ->
  forall items, plan_items co (full_sites o co fn) fn (full_plan co fn) ks = Some items ->
  forall X sem mp base lo cfa hi width stk gentle sc k, room co fn X mp base lo cfa hi stk sc k ->
  forall ra l0 (p0 : pst Machine.flags X), (List.length l0 < k)%nat ->
  ground X base lo cfa sc l0 p0 -> wild sc (p_rest p0) = false -> p_rg p0 RSP = cfa - 8 -> load64 (p_mem p0) (cfa - 8) = ra ->
  forall out, irun X co sem mp o base lo cfa width stk gentle sc items p0 out ->
  match out with
  | Fin _ p1 => (exists l', unwind (load64 (p_mem p1) (p_rg p1 RSP)) (ra :: l0) = Some l' /\ shadow_rep (p_mem p1) base l') \/
      (load64 (p_mem p1) (p_rg p1 RSP) = 0 /\ ~ In 0 (ra :: l0))
  | Stopped _ st r => left_of r = [] /\ load64 (p_mem st) (p_rg st RSP) <> ra
  | Crashed _ _ _ => False
  end.
Proof.
  intros co fl fs m PA NL fn HF CR TE RL. split.
  { rewrite (planned_at co fl fs m PA fn HF), CR. unfold analyses, Decision.instr. rewrite NL. reflexivity. }
  intros o ks l b PL OB LB items IT X sem mp base lo cfa hi width stk gentle sc k RM ra l0 p0 DEP G TM RS RA out IR.
  destruct (p_fn _ _ PA fn HF) as (FO & CO & RW).
  assert (HB : In b (f_blocks (co_fun co fn))).
  { apply (path_blocks co fs PA fn ks _ HF OB). apply in_or_app. right; left; auto. }
  assert (IX : In b (returning_pops co fn)).
  { pose proof (p_exits _ _ PA fn b HF HB LB) as RE. apply nonret_prop in RE. apply andb_true_iff in RE.
    destruct RE as [R1 R2]. apply mem_in in R1. apply filter_In. auto. }
  eapply (full_run co fn o FO TE PL RL X sem mp base lo cfa hi width stk gentle sc k RM ra l0 DEP items p0); eauto.
Qed.
Print Assumptions C71_snippets.
Print Assumptions C71_full_mode.

(** *** A call that meets the hypotheses, on the path that writes through a pointer *)
Definition f_items (ks : list nat) : option (list item) :=
  plan_items (c_frame false) (full_sites wopts (c_frame false) 0) 0 (full_plan (c_frame false) 0) ks.
Definition f_run (ks : list nat) (target : Z) : option (outcome unit) :=
  match f_items ks with
  | Some its => irunb asem (c_frame false) (fun _ => true) wopts 1048576 60000 65536 its (a_start target)
  | None => None
  end.
Notation f_irun := (irun unit (c_frame false) asem (fun _ => true) wopts 1048576 60000 65536 eight all (harmless (c_frame false)) steady).
Lemma f_run_ends ks t1 t2 : ended (f_run ks t1) = 0%nat -> ended (f_run ks t2) = 1%nat ->
  exists items, f_items ks = Some items /\
    (exists p1, f_irun items (a_start t1) (Fin unit p1)) /\
    (exists p1 r, f_irun items (a_start t2) (Stopped unit p1 r)).
Proof.
  intros E1 E2. unfold f_run in E1, E2. destruct (f_items ks) as [its|]; [|discriminate].
  exists its. split; [reflexivity|]. split.
  - destruct (irunb _ _ _ _ _ _ _ its (a_start t1)) as [[p1|p1 r|p1 r]|] eqn:R; try discriminate.
    exists p1. apply irunb_ok. exact R.
  - destruct (irunb _ _ _ _ _ _ _ its (a_start t2)) as [[p1|p1 r|p1 r]|] eqn:R; try discriminate.
    exists p1, r. apply irunb_ok. exact R.
Qed.
Lemma frame_room lp : room (c_frame lp) 0 unit (fun _ => true) 1048576 60000 65536 65600 all steady 10.
Proof.
  constructor.
  - split; [lia|split; [vm_compute; discriminate|reflexivity]].
  - split; [lia|split; [vm_compute; discriminate|reflexivity]].
  - vm_compute; reflexivity.
  - left. vm_compute. discriminate.
  - intros b Hb. apply frame_blocks in Hb. destruct Hb as [->|[->|[->| ->]]]; destruct lp; vm_compute; discriminate.
  - intros x _. exact I.
  - intros a b [].
Qed.
Lemma start_ground target : 3 <= target < W -> ground unit 1048576 60000 65536 steady [7777] (a_start target).
Proof.
  intros T. split; [intros r; assert (1000000 < W) by (vm_compute; reflexivity); destruct r; cbn; lia|].
  split; [unfold in_frame, gone; cbn; lia|]. split; [vm_compute; reflexivity|]. split; [vm_compute; reflexivity|].
  intros [|[|i]] v K; cbn in K; try discriminate. injection K as <-. vm_compute; reflexivity.
Qed.
Example C71_case :
  parsed (c_frame false) [mkFinfo 0 false ".text"] /\ fl_light fl_full = false /\
  own (c_frame false) 0 /\ can_return [mkFinfo 0 false ".text"] 0 = true /\
  terminal_exits (c_frame false) 0 /\ ret_last (c_frame false) 0 /\
  plain wopts /\ orig_blocks (c_frame false) 0 [0; 0]%nat = Some ([0; 2] ++ [3])%nat /\ is_ret (c_frame false) 3 /\
  room (c_frame false) 0 unit (fun _ => true) 1048576 60000 65536 65600 all steady 10 /\
  (forall target, 3 <= target < W -> ground unit 1048576 60000 65536 steady [7777] (a_start target)) /\
  load64 a_mem 65528 = 5555 /\
  exists items, f_items [0; 0]%nat = Some items /\
    (exists p1, f_irun items (a_start 70000) (Fin unit p1)) /\
    (exists p1 r, f_irun items (a_start 65528) (Stopped unit p1 r)).
Proof.
  assert (OW : own (c_frame false) 0) by (split; [left; reflexivity|reflexivity]).
  split; [apply frame_parsed|]. split; [reflexivity|]. split; [exact OW|]. split; [reflexivity|].
  split; [exact (frame_within false fl_full Exits eq_refl eq_refl 0%nat OW)|]. split; [apply tidy_last, frame_tidy|].
  split; [vm_compute; repeat split; discriminate|]. split; [reflexivity|]. split; [exists s_ret; split; [left; reflexivity|reflexivity]|].
  split; [apply frame_room|]. split; [apply start_ground|]. split; [vm_compute; reflexivity|].
  apply f_run_ends; vm_compute; reflexivity.
Qed.

(** ** C72: what a call leaves as it was *)
Lemma program_bare mid : Forall bare mid -> program_of mid = mid.
Proof.
  induction mid as [|x mid IH]; intros H; [reflexivity|]. inversion H; subst. cbn [program_of filter].
  destruct x; cbn [bare] in *; try contradiction; f_equal; apply IH; auto.
Qed.

(** As C71; registers and memory, not the flags after the check. *)
Theorem C72_full_transparent : forall co fs,
  parsed co fs -> forall fn, own co fn -> terminal_exits co fn -> ret_last co fn ->
  forall o ks l b, plain o -> orig_blocks co (f_entry (co_fun co fn)) ks = Some (l ++ [b]) ->
  (is_ret co b \/ exists e, is_tail co b e) ->
  forall items, plan_items co (full_sites o co fn) fn (full_plan co fn) ks = Some items ->
  left_of items = path_insns co (l ++ [b]) /\
  forall X sem mp base lo cfa hi width stk gentle sc k, room co fn X mp base lo cfa hi stk sc k ->
  forall ra l0 (p0 : pst Machine.flags X), (List.length l0 < k)%nat ->
  ground X base lo cfa sc l0 p0 -> wild sc (p_rest p0) = false -> p_rg p0 RSP = cfa - 8 -> load64 (p_mem p0) (cfa - 8) = ra ->
  exists st, alike X (scratch X base l0 p0) p0 st /\ p_fl st = p_fl p0 /\
    (* a call that comes to its end *)
    (forall p1, irun X co sem mp o base lo cfa width stk gentle sc items p0 (Fin X p1) ->
       exists r, prun sem (path_insns co (l ++ [b])) st = Some r /\
         alike X (scratch X base l0 r) r p1) /\
    (* a call that keeps its return address *)
    (forall r, irun X co sem mp o base lo cfa width stk gentle sc (program_of items) st (Fin X r) ->
       load64 (p_mem r) (p_rg r RSP) = ra ->
       exists p1, irun X co sem mp o base lo cfa width stk gentle sc items p0 (Fin X p1) /\
         alike X (scratch X base l0 r) r p1).
Proof.
  intros co fs PA fn HF TE RL o ks l b PL OB LB items IT.
  destruct (p_fn _ _ PA fn HF) as (FO & CO & RW).
  assert (HB : In b (f_blocks (co_fun co fn))).
  { apply (path_blocks co fs PA fn ks _ HF OB). apply in_or_app. right; left; auto. }
  assert (IX : In b (returning_pops co fn)).
  { pose proof (p_exits _ _ PA fn b HF HB LB) as RE. apply nonret_prop in RE. apply andb_true_iff in RE.
    destruct RE as [R1 R2]. apply mem_in in R1. apply filter_In. auto. }
  destruct (full_items co fn o FO TE RL items ks b l OB IX IT) as (mid & EI & BM & LM). subst items.
  change (left_of mid = path_insns co (l ++ [b])) in LM.
  split.
  { change (left_of (Snip (StackPush (full_entry o co fn)) :: mid ++ [Snip (StackPop (full_exit o co b))]))
      with (left_of (mid ++ [Snip (StackPop (full_exit o co b))])).
    rewrite left_of_app, LM. cbn [left_of flat_map]. apply app_nil_r. }
  intros X sem mp base lo cfa hi width stk gentle sc k RM ra l0 p0 DEP G TM RS RA.
  destruct (full_push co fn o FO PL X sem mp base lo cfa hi width stk gentle sc k RM ra l0 DEP p0 G TM RS RA)
    as (st & PU & GS & AL & FL).
  exists st. split; [exact AL|]. split; [exact FL|].
  assert (PUSH : forall out, irun X co sem mp o base lo cfa width stk gentle sc
      (Snip (StackPush (full_entry o co fn)) :: mid ++ [Snip (StackPop (full_exit o co b))]) p0 out ->
      irun X co sem mp o base lo cfa width stk gentle sc (mid ++ [Snip (StackPop (full_exit o co b))]) st out).
  { intros out R. inversion PU as [| | | | ? ? ? ? ? ? S1 E1 K1| | |]; subst.
    apply irun_nil in K1. injection K1 as K1. 
    inversion R as [| | | | ? ? ? ? ? ? S2 E2 K2|? ? ? ? S2 E2|? ? ? ? S2 E2|? ? ? S2]; subst; rewrite S1 in S2; try discriminate;
      injection S2 as <-; pose proof (exec_det _ _ _ _ _ E1 E2) as EE; try discriminate.
    injection EE as <-. exact K2. }
  split.
  - intros p1 R. apply PUSH in R. apply bare_run in R; [|exact BM]. destruct R as (r & R1 & R2).
    exists r. split; [rewrite <- LM; eapply bare_prun; eauto|].
    pose proof (bare_ground _ _ _ _ _ _ _ _ _ _ _ _ mid (ra :: l0) st r BM R1 GS) as GR.
    destruct (full_check co fn o PL X sem mp base lo cfa hi width stk gentle sc k RM ra l0 DEP b r HB GR) as [K _].
    exact (K _ R2).
  - intros r R W.
    replace (program_of _) with mid in R.
    2:{ unfold program_of. cbn [filter]. rewrite filter_app. cbn [filter]. rewrite app_nil_r. symmetry. apply (program_bare mid BM). }
    pose proof (bare_ground _ _ _ _ _ _ _ _ _ _ _ _ mid (ra :: l0) st r BM R GS) as GR.
    destruct (full_check co fn o PL X sem mp base lo cfa hi width stk gentle sc k RM ra l0 DEP b r HB GR) as [K1 K2].
    destruct (K2 W) as (p1 & K3). exists p1. split.
    + change (_ :: mid ++ ?z) with ([Snip (StackPush (full_entry o co fn))] ++ mid ++ z).
      eapply irun_app; [exact PU|]. eapply irun_app; [exact R|exact K3].
    + exact (K1 _ K3).
Qed.
Print Assumptions C72_full_transparent.

(** A path that neither looks at what lies below rsp when the function starts nor at the shadow
    stack, and keeps its return address: the call ends as it would have ended
    without the inserted code. *)
Definition blind {X} co sem mp o base lo cfa width stk gentle sc (D : Z -> Prop) (its : list item) (p0 r0 : pst Machine.flags X) : Prop :=
  forall st, alike X D p0 st -> p_fl st = p_fl p0 ->
  exists r, irun X co sem mp o base lo cfa width stk gentle sc its st (Fin X r) /\ alike X D r0 r.
Theorem C72_same_result : forall co fs,
  parsed co fs -> forall fn, own co fn -> terminal_exits co fn -> ret_last co fn ->
  forall o ks l b, plain o -> orig_blocks co (f_entry (co_fun co fn)) ks = Some (l ++ [b]) ->
  (is_ret co b \/ exists e, is_tail co b e) ->
  forall items, plan_items co (full_sites o co fn) fn (full_plan co fn) ks = Some items ->
  forall X sem mp base lo cfa hi width stk gentle sc k, room co fn X mp base lo cfa hi stk sc k ->
  forall l0 (p0 r0 : pst Machine.flags X), (List.length l0 < k)%nat ->
  ground X base lo cfa sc l0 p0 -> wild sc (p_rest p0) = false -> p_rg p0 RSP = cfa - 8 ->
  blind co sem mp o base lo cfa width stk gentle sc (scratch X base l0 p0) (program_of items) p0 r0 ->
  p_rg r0 RSP = p_rg p0 RSP -> load64 (p_mem r0) (cfa - 8) = load64 (p_mem p0) (cfa - 8) ->
  exists p1, irun X co sem mp o base lo cfa width stk gentle sc items p0 (Fin X p1) /\
    alike X (scratch X base l0 p0) r0 p1.
Proof.
  intros co fs PA fn HF TE RL o ks l b PL OB LB items IT X sem mp base lo cfa hi width stk gentle sc k RM l0 p0 r0 DEP G TM RS BL RE KW.
  destruct (C72_full_transparent co fs PA fn HF TE RL o ks l b PL OB LB items IT) as [_ T].
  destruct (T X sem mp base lo cfa hi width stk gentle sc k RM _ l0 p0 DEP G TM RS eq_refl) as (st & A1 & A2 & _ & A4).
  destruct (BL st A1 A2) as (r & B1 & B2). pose proof B2 as (B3 & B4 & B5).
  assert (RR : p_rg r RSP = cfa - 8) by (rewrite <- (B3 RSP); lia).
  pose proof (proj1 (p_fn _ _ PA fn HF)) as FO.
  pose proof (rm_frame _ _ _ _ _ _ _ _ _ _ _ RM _ (proj1 FO)) as CH.
  destruct G as (G1 & G2 & G3). unfold in_frame, gone in G2. rewrite TM in G2.
  assert (WR : load64 (p_mem r) (p_rg r RSP) = load64 (p_mem p0) (cfa - 8)).
  { rewrite RR, <- KW. apply load64_ext. intros x Hx. symmetry. apply B5. unfold scratch. rewrite RS.
    pose proof (rm_apart _ _ _ _ _ _ _ _ _ _ _ RM) as AP. unfold apart, inside, ShadowSpec.slot in *. lia. }
  destruct (A4 r B1 WR) as (p1 & C1 & C2 & C3 & C4). exists p1. split; [exact C1|].
  split; [intros q; rewrite B3; apply C2|]. split; [congruence|].
  intros x N. rewrite (B5 x N). apply C4. unfold scratch in *. rewrite RR. rewrite RS in N. exact N.
Qed.
Print Assumptions C72_same_result.

(** *** A path that is blind *)
Section BLIND.
Variables (co : code) (mp : perm) (o : opts) (base lo cfa : Z).
Definition xs (p : ast) : pst Z unit := mkPst (p_rg p) (p_mem p) 0 tt.
Definition unread (D : Z -> bool) (i : insn) (p : ast) (x : Z) : bool :=
  D x && negb (isop (i_op i) OPush && (p_rg p RSP - word i <=? x) && (x <? p_rg p RSP)).
(** The instruction neither reads in [D] nor writes to the return address or the shadow stack. *)
Definition calm_step (D : Z -> bool) (i : insn) (p p' : ast) : bool :=
  forallb (fun r => (0 <=? p_rg p' r) && (p_rg p' r <? W)) allregs &&
  (lo + 16 <=? p_rg p' RSP) && (p_rg p' RSP <=? cfa - 8) &&
  (negb (isop (i_op i) OPop) || negb (D (p_rg p RSP))) &&
  (if isop (i_op i) OPush then (p_rg p RSP <=? base) && (p_rg p RSP <=? cfa - 8)
   else negb (i_wmem i) || ((xval (xs p) i <? base) && ((xval (xs p) i <? cfa - 8) || (cfa <=? xval (xs p) i)))).
Fixpoint blindb (D : Z -> bool) (items : list item) (p : ast) : option ast :=
  match items with
  | [] => Some p
  | Here n :: r => if heightb unit steady cfa (b_sp_entry (co_block co (snd n))) p then blindb D r p else None
  | Out n :: r =>
      if heightb unit steady cfa (b_sp_end (co_block co (snd n))) p &&
         forallb (fun e => match b_insns (co_block co (e_trg e)) with
                           | [i] => negb (isop (i_op i) ORet) || (p_rg p RSP =? cfa - 8)
                           | _ => true end) (out_edges co (snd n))
      then blindb D r p else None
  | Ins n i :: r =>
      match asem i p with
      | Some p' => if calm_step D i p p' then blindb (unread D i p) r p' else None
      | None => None
      end
  | Snip _ :: _ => None
  end.
Definition in_set (D : Z -> bool) (x : Z) : Prop := D x = true.
Lemma xval_alike a b i : (forall r, p_rg a r = p_rg b r) -> xval (xs a) i = xval (xs b) i.
Proof. intros H. apply (xval_eq _ _ _ false); [discriminate|intros r _; apply H|reflexivity]. Qed.
Lemma blind_step D i a b a' width stk gentle n : alike unit (in_set D) a b -> asem i a = Some a' -> calm_step D i a a' = true ->
  exists b', asem i b = Some b' /\ step_ok unit co base lo cfa width stk gentle steady n i b b' /\
    alike unit (in_set (unread D i a)) a' b'.
Proof.
  intros (A1 & A2 & A3) SA CS. pose proof (xval_alike a b i A1) as XV.
  unfold asem in SA |- *. fold (xs a) in SA. fold (xs b). unfold xsem in SA |- *.
  destruct (stack_op i && _)%bool; [discriminate|]. injection SA as <-.
  unfold calm_step in CS. rewrite !andb_true_iff, forallb_forall in CS. destruct CS as ((((C1 & C2) & C3) & C4) & C5).
  cbn [p_rg p_mem p_fl p_rest] in *.
  assert (RS : xrsp (xs a) i = xrsp (xs b) i).
  { unfold xrsp. rewrite XV. cbn [xs p_rg]. rewrite (A1 RSP). reflexivity. }
  assert (RG : forall r, (if reg_eq_dec r RSP then xrsp (xs a) i
             else if killsb r (i_written i) then xval (xs a) i + (if isop (i_op i) OPop then p_mem (xs a) (p_rg (xs a) RSP) else 0)
             else p_rg (xs a) r) =
            (if reg_eq_dec r RSP then xrsp (xs b) i
             else if killsb r (i_written i) then xval (xs b) i + (if isop (i_op i) OPop then p_mem (xs b) (p_rg (xs b) RSP) else 0)
             else p_rg (xs b) r)).
  { intros r. rewrite RS, XV. cbn [xs p_rg p_mem]. rewrite (A1 r). destruct (isop (i_op i) OPop); [|reflexivity].
    cbn [negb orb] in C4. rewrite (A1 RSP) in *. rewrite A3; [reflexivity|]. unfold in_set. apply negb_true_iff in C4. congruence. }
  (* what the instruction writes *)
  assert (SAME : forall x, base <= x \/ Whole.slot cfa x -> xmem (xs b) i x = p_mem b x).
  { intros x Hx. unfold xmem. cbn [xs p_rg p_mem]. revert C5. destruct (isop (i_op i) OPush); intros C5.
    - rewrite (A1 RSP) in C5. replace (_ && _)%bool with false; [reflexivity|]. unfold Whole.slot in Hx. lia.
    - destruct (i_wmem i); [|reflexivity]. cbn [negb orb] in C5. rewrite XV in C5. fold (xs b).
      replace (_ =? _) with false; [reflexivity|]. unfold Whole.slot in Hx. lia. }
  eexists. split; [reflexivity|]. split.
  - split; [intros r; cbn [p_rg]; rewrite <- RG; specialize (C1 r (allregs_in r)); apply andb_true_iff in C1; destruct C1 as [Q1 Q2];
      apply Z.leb_le in Q1; apply Z.ltb_lt in Q2; exact (conj Q1 Q2)|].
    split; [unfold in_frame, gone; cbn [p_rg wild steady]; rewrite <- (RG RSP); apply Z.leb_le in C2; apply Z.leb_le in C3; exact (conj C2 C3)|]. split.
    + intros lst (S1 & S2 & S3). cbn [p_mem].
      assert (LS : forall z, base <= z -> load64 (xmem (xs b) i) z = load64 (p_mem b) z).
      { intros z Hz. apply load64_ext. intros y Hy. apply SAME. lia. }
      split; [rewrite LS by lia; exact S1|]. split; [rewrite LS by lia; exact S2|].
      intros j v K. rewrite LS by (unfold ShadowSpec.slot; lia). apply (S3 j v K).
    + intros _. split; [|discriminate]. intros x HX NE. exfalso. apply NE. cbn [p_mem]. apply SAME. auto.
  - split; [exact RG|]. split; [reflexivity|]. cbn [p_mem]. intros x NX. unfold in_set, unread in NX.
    unfold xmem. rewrite XV. cbn [xs p_rg p_mem]. rewrite (A1 RSP) in *. fold (xs b).
    revert NX. destruct (isop (i_op i) OPush); cbn [andb]; intros NX.
    + destruct ((p_rg b RSP - word i <=? x) && (x <? p_rg b RSP))%bool; [reflexivity|]. apply A3. unfold in_set.
      intros K. apply NX. rewrite K. reflexivity.
    + assert (NX' : ~ in_set D x) by (unfold in_set; intros K; apply NX; rewrite K; reflexivity).
      destruct (i_wmem i); [|apply A3; exact NX']. destruct (_ =? _); [reflexivity|apply A3; exact NX'].
Qed.
Lemma blindb_ok width stk gentle items : forall D a b r, blindb D items a = Some r -> alike unit (in_set D) a b ->
  exists r', irun unit co asem mp o base lo cfa width stk gentle steady items b (Fin unit r') /\ alike unit (in_set D) r r'.
Proof.
  induction items as [|x t IH]; intros D a b r H A; cbn [blindb] in H.
  - injection H as <-. exists b. split; [constructor|exact A].
  - pose proof A as (A1 & _). destruct x as [n|n i|sn|n]; [| |discriminate|].
    + destruct (heightb unit steady cfa _ a) eqn:E; [|discriminate]. destruct (IH D a b r H A) as (r' & R1 & R2).
      exists r'. split; [|exact R2]. constructor; [|exact R1]. intros _ z K. rewrite <- (A1 RSP). unfold heightb in E; rewrite K in E; cbn in E; lia.
    + destruct (asem i a) as [a'|] eqn:E; [|discriminate]. destruct (calm_step D i a a') eqn:S; [|discriminate].
      destruct (blind_step D i a b a' width stk gentle n A E S) as (b' & B1 & B2 & B3).
      destruct (IH _ a' b' r H B3) as (r' & R1 & R2 & R3 & R4). exists r'. split; [econstructor; eauto|].
      split; [exact R2|]. split; [exact R3|]. intros y NY. apply R4. unfold in_set, unread in *. destruct (D y); [congruence|discriminate].
    + destruct (_ && _)%bool eqn:E; [|discriminate]. apply andb_true_iff in E. destruct E as [E1 E2].
      destruct (IH D a b r H A) as (r' & R1 & R2). exists r'. split; [|exact R2]. constructor; [|exact R1]. split.
      * intros _ z K. rewrite <- (A1 RSP). unfold heightb in E1; rewrite K in E1; cbn in E1; lia.
      * intros _ c (e & He & <-) (i & Hi & O). rewrite forallb_forall in E2. specialize (E2 e He). rewrite Hi in E2.
        apply isop_true in O. rewrite O in E2. cbn in E2. rewrite <- (A1 RSP). lia.
Qed.
End BLIND.
(** [scratch] at the start of the call. *)
Definition a_scratch (x : Z) : bool :=
  ((65512 <=? x) && (x <? 65528)) || ((1048576 <=? x) && (x <? 1048584)) || ((1048616 <=? x) && (x <? 1048624)).
Lemma a_scratch_eq target x : scratch unit 1048576 [7777] (a_start target) x <-> in_set a_scratch x.
Proof. unfold scratch, in_set, a_scratch, inside, ShadowSpec.slot. cbn. lia. Qed.
Definition f_orig (ks : list nat) (target : Z) : option ast :=
  match f_items ks with
  | Some its => blindb (c_frame false) 1048576 60000 65536 a_scratch (program_of its) (a_start target)
  | None => None
  end.
Lemma f_orig_ok ks target (P : ast -> Prop) : match f_orig ks target with Some r => P r | None => False end ->
  exists items r0, f_items ks = Some items /\
  blind (c_frame false) asem (fun _ => true) wopts 1048576 60000 65536 eight all (harmless (c_frame false)) steady
    (scratch unit 1048576 [7777] (a_start target)) (program_of items) (a_start target) r0 /\ P r0.
Proof.
  unfold f_orig. destruct (f_items ks) as [items|]; [|contradiction].
  destruct (blindb _ _ _ _ _ _ _) as [r0|] eqn:ER; [|contradiction]. intros H.
  exists items, r0. split; [reflexivity|]. split; [|exact H].
  intros st (A1 & A2 & A3) _.
  destruct (blindb_ok (c_frame false) (fun _ => true) wopts 1048576 60000 65536 eight all (harmless (c_frame false)) _ _ _ st _ ER)
    as (r & R1 & R2 & R3 & R4).
  { split; [exact A1|]. split; [exact A2|]. intros x N. apply A3. intros K. apply N. apply a_scratch_eq in K. exact K. }
  exists r. split; [exact R1|]. split; [exact R2|]. split; [exact R3|]. intros x N. apply R4. intros K. apply N. apply a_scratch_eq. exact K.
Qed.
(** The remaining hypotheses are those of [C71_case]. *)
Example C72_case : exists items r0, f_items [0; 0]%nat = Some items /\
  blind (c_frame false) asem (fun _ => true) wopts 1048576 60000 65536 eight all (harmless (c_frame false)) steady
    (scratch unit 1048576 [7777] (a_start 70000)) (program_of items) (a_start 70000) r0 /\
  p_rg r0 RSP = 65528 /\ load64 (p_mem r0) 65528 = 5555 /\ p_mem r0 70000 <> a_mem 70000 /\ p_rg r0 RBP <> 9.
Proof. apply f_orig_ok. vm_compute. repeat split; discriminate. Qed.
