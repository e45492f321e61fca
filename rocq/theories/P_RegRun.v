(** * Property C70: one call of a function that keeps its return address in a register *)
From Coq Require Import ZArith Bool Lia ZifyBool ZifyNat Arith String List.
From Verif Require Import Machine MachineFacts Jit ShadowSpec JitFacts JitPushPop History RegFrame Witness.
From Verif Require Import Dfs Binary CallGraph InterProc MemPasses Pipeline RegNames BlockLive ExSem
  Reach SafePaths Lowering P_Lower FastPath Decision P_Instr FullRun Whole P_Whole Sites SiteEx P_Regs P_Sites P_SiteUse
  Order Activation PlanCode ActRun P_Activation RegRun.
Import ListNotations.
Open Scope Z_scope.
Local Notation mem := Machine.mem.

(** The borrowed register, as in C60. *)
Definition names_ok (co : code) (fn : nat) : Prop :=
  forall b i, In b (f_blocks (co_fun co fn)) -> In i (b_insns (co_block co b)) ->
    (forall r p, In (MG r p) (i_read i) \/ In (MG r p) (i_written i) -> has_part r p = true) /\
    (forall r, r = RSI \/ r = RDI -> ~ In (MG r P8l) (i_read i) /\ ~ In (MG r P8l) (i_written i)).
Lemma borrowed co m fn fl d : analysed co m fn -> use_reg fl (m fn) = true -> names_ok co fn ->
  exists r, borrows (jsum_of d (m fn)) r /\
    forall b i, In b (f_blocks (co_fun co fn)) -> In i (b_insns (co_block co b)) -> untouched r i.
Proof.
  intros AN UR LOW. destruct (reg_frame_inv co m fn fl d AN UR) as (_ & _ & _ & r & NB & BR & TT).
  exists r. split; [auto|]. intros b i HB HI. destruct (LOW b i HB HI) as [L1 L2].
  assert (A : forall q, In (MG r q) (i_read i) \/ In (MG r q) (i_written i) -> False).
  { intros q Hq. apply (TT b i (MG r q) HB HI Hq). cbn [mreg_name]. apply normalize_alias; [apply L1; auto|].
    destruct BR as [NS _]. destruct (rex_low r q) eqn:R; [|auto]. exfalso.
    destruct r, q; try discriminate; try congruence; [destruct (L2 RSI); auto|destruct (L2 RDI); auto]; tauto. }
  intros q. split; intros K; apply (A q); auto.
Qed.
(** The word in the shadow stack where the borrowed register is kept is out of the program's reach. *)
Definition keeps_word {X} (base : Z) (sem : insn -> pst Machine.flags X -> option (pst Machine.flags X)) : Prop :=
  forall i s s', sem i s = Some s' -> load64 (p_mem s') (base + 8) = load64 (p_mem s) (base + 8).

Lemma register_fine : forall co fl fs m width,
  parsed co fs -> (forall k, within co fl width k) -> fl_light fl = true -> run_light co = Ok m ->
  forall fn, own co fn -> can_return fs fn = true -> analysed co m fn -> tidy co fn -> names_ok co fn ->
  let p := planned co fl m fs fn in on_reg p = true ->
  forall o d, plain o ->
  exists r, r <> RSP /\
  forall ks l b, orig_blocks co (f_entry (co_fun co fn)) ks = Some (l ++ [b]) ->
  forall L : Prop, (is_ret co b \/ exists e, is_tail co b e) \/ L -> no_catch co (f_entry (co_fun co fn)) ks ->
  forall items, plan_items co (plan_sites co fl o d (m fn) fn p) fn p ks = Some items ->
  forall X sem mp base lo cfa hi stk sc k, keeps_unwritten sem -> keeps_word base sem -> room co fn X mp base lo cfa hi stk sc k ->
  forall ra l0 (p0 : pst Machine.flags X), (List.length l0 <= k)%nat ->
  ground X base lo cfa sc l0 p0 -> wild sc (p_rest p0) = false -> p_rg p0 RSP = cfa - 8 -> load64 (p_mem p0) (cfa - 8) = ra ->
  forall out, irun X co sem mp o base lo cfa width stk (harmless co) sc items p0 out ->
  reg_nulled co o X sem mp base lo cfa width stk (harmless co) sc r ra l0 (p_rg p0 r) items p0 out \/
  reg_fine X sem base cfa sc r ra l0 (p_rg p0 r) L out.
Proof.
  intros co fl fs m width PA SU LI RL fn HF CR AN TIDY NO p REG o d PL.
  assert (RL' : fl_light fl = true -> run_light co = Ok m) by auto.
  assert (PLAN : Decision.instr fl co fn (Some (m fn)) = p).
  { unfold p. rewrite (planned_at co fl fs m PA fn HF), CR, (analyses_at co fl fs m PA fn (proj1 HF) LI). reflexivity. }
  destruct (p_fn _ _ PA fn HF) as (FO & CO & RW).
  assert (TE : terminal_exits co fn) by (apply (SU Exits); auto).
  destruct (borrowed co m fn fl d AN (reg_use co m fn fl p AN PLAN REG) NO) as (r & BR & UT).
  exists r. split; [apply BR|].
  intros ks l b OB L LASTB NC items IT X sem mp base lo cfa hi stk sc k KU KW RM ra l0 p0 DEP G TM RS RA out IR.
  assert (NA : p <> PAbort) by (intros K; rewrite K in IT; discriminate).
  assert (NF : p <> PNoFuel) by (intros K; rewrite K in IT; discriminate).
  assert (SG : exists sl, segs co p (false, f_entry (co_fun co fn)) ks = Some sl).
  { unfold plan_items in IT. destruct p; try discriminate;
      (destruct (segs co _ (false, f_entry (co_fun co fn)) ks); [eauto|discriminate]). }
  destruct SG as (sl & SG).
  pose proof (run_segs co m fn fl p AN FO TE PLAN ks sl NA NF SG) as RP.
  set (evs := evs0 _ ++ _) in RP.
  assert (RO : runs_of co (planned co fl m fs) fn evs) by (exists ks; auto).
  destruct (disc_all co fl fs m width stk PA SU RL' fn evs HF RO) as ((D1 & D2 & _ & D4 & _ & D6 & _) & _ & D5).
  pose proof (run_plan_executed _ _ _ _ _ RP) as EX. rewrite OB in EX. injection EX as EX.
  eapply (r_run_all co m fn fl o d p AN FO TE PLAN REG PL X sem mp base lo cfa hi width stk (harmless co) sc k r BR UT KU KW TIDY
    RM ra l0 (p_rg p0 r) DEP evs D1); eauto.
  2:{ destruct LASTB as [LASTB|LASTB]; [left; eauto|right; exact LASTB]. }
  intros pre c post E. destruct (D6 CR pre c post E) as [(C1 & C2 & C3)|K]; [left|right; exact K].
    split; [exact C1|]. split; [exact C2|]. intros e HC R. apply R. destruct (C3 e HC) as (C4 & C5).
    split; [|exact C5]. intros g HG. eapply (sf_harmless co fl fs m width PA SU RL'); auto. apply HG.
Qed.
(** Partial: as C65, and no use of sil or dil (C60). *)
Theorem C70_register_activation_partial : forall co fl fs m width,
  parsed co fs -> (forall k, within co fl width k) -> fl_light fl = true -> run_light co = Ok m ->
  forall fn, own co fn -> can_return fs fn = true -> analysed co m fn -> tidy co fn -> names_ok co fn ->
  let p := planned co fl m fs fn in on_reg p = true ->
  forall o d, plain o ->
  exists r, r <> RSP /\
  forall ks l b, orig_blocks co (f_entry (co_fun co fn)) ks = Some (l ++ [b]) ->
  (is_ret co b \/ exists e, is_tail co b e) -> no_catch co (f_entry (co_fun co fn)) ks ->
  forall items, plan_items co (plan_sites co fl o d (m fn) fn p) fn p ks = Some items ->
  forall X sem mp base lo cfa hi stk sc k, keeps_unwritten sem -> keeps_word base sem -> room co fn X mp base lo cfa hi stk sc k ->
  forall ra l0 (p0 : pst Machine.flags X), (List.length l0 <= k)%nat ->
  ground X base lo cfa sc l0 p0 -> wild sc (p_rest p0) = false -> p_rg p0 RSP = cfa - 8 -> load64 (p_mem p0) (cfa - 8) = ra ->
  forall out, irun X co sem mp o base lo cfa width stk (harmless co) sc items p0 out ->
  (result X sem base cfa ra l0 out \/ (exists p1, out = Fin X p1 /\ load64 (p_mem p1) (p_rg p1 RSP) = 0 /\ unwind 0 (ra :: l0) = None)) /\
  match out with Fin _ p1 => p_rg p1 r = p_rg p0 r | _ => True end.
Proof.
  intros co fl fs m width PA SU LI RL fn HF CR AN TIDY NO p REG o d PL.
  destruct (register_fine co fl fs m width PA SU LI RL fn HF CR AN TIDY NO REG o d PL) as (r & NR & H).
  exists r. split; [exact NR|]. intros ks l b OB LASTB NC items IT X sem mp base lo cfa hi stk sc k KU KW RM ra l0 p0 DEP G TM RS RA out IR.
  destruct (H ks l b OB False (or_introl LASTB) NC items IT X sem mp base lo cfa hi stk sc k KU KW RM ra l0 p0 DEP G TM RS RA out IR)
    as [(_ & p1 & -> & K1 & K2 & K3)|[((K & K') & _)|([] & _)]]; [split; [right; eauto|exact K3]|auto].
Qed.
Print Assumptions C70_register_activation_partial.

(** *** A call that meets the hypotheses *)
(** Steps that would change the word are none of the program's. *)
Definition rsem (base : Z) (i : insn) (s : ast) : option ast :=
  match asem i s with
  | Some t => if load64 (p_mem t) (base + 8) =? load64 (p_mem s) (base + 8) then Some t else None
  | None => None
  end.
Lemma rsem_word base : keeps_word base (rsem base).
Proof.
  intros i s s'. unfold rsem. destruct (asem i s) as [t|]; [|discriminate].
  destruct (_ =? _) eqn:E; [|discriminate]. intros K. injection K as <-. lia.
Qed.
Lemma rsem_unwritten base : keeps_unwritten (rsem base).
Proof.
  intros i s s' r E NW. unfold rsem in E. destruct (asem i s) as [t|] eqn:A; [|discriminate].
  destruct (_ =? _); [|discriminate]. injection E as <-. apply asem_inv in A. destruct A as (u & A & -> & _).
  destruct C60_case as (_ & _ & _ & _ & _ & _ & _ & KU). exact (KU i _ u r A NW).
Qed.
Definition r_plan : plan := planned (c_frame true) fl_plain (ssum (c_frame true)) [mkFinfo 0 false ".text"] 0.
Definition r_items (ks : list nat) : option (list item) :=
  plan_items (c_frame true)
    (plan_sites (c_frame true) fl_plain wopts no_dead (ssum (c_frame true) 0%nat) 0 r_plan) 0 r_plan ks.
Definition r_runs (ks : list nat) (target : Z) : option (outcome unit) :=
  match r_items ks with
  | Some its => irunb (rsem 1048576) (c_frame true) (fun _ => true) wopts 1048576 60000 65536 its (a_start target)
  | None => None
  end.
Lemma r_runs_end ks t1 t2 : ended (r_runs ks t1) = 0%nat -> ended (r_runs ks t2) = 1%nat ->
  exists items, r_items ks = Some items /\
    (exists p1, irun unit (c_frame true) (rsem 1048576) (fun _ => true) wopts 1048576 60000 65536 eight all (harmless (c_frame true)) steady
       items (a_start t1) (Fin unit p1)) /\
    (exists p1 r, irun unit (c_frame true) (rsem 1048576) (fun _ => true) wopts 1048576 60000 65536 eight all (harmless (c_frame true)) steady
       items (a_start t2) (Stopped unit p1 r)).
Proof.
  intros E1 E2. unfold r_runs in E1, E2. destruct (r_items ks) as [its|]; [|discriminate].
  exists its. split; [reflexivity|]. split.
  - destruct (irunb _ _ _ _ _ _ _ its (a_start t1)) as [[p1|p1 r|p1 r]|] eqn:R; try discriminate.
    exists p1. apply irunb_ok. exact R.
  - destruct (irunb _ _ _ _ _ _ _ its (a_start t2)) as [[p1|p1 r|p1 r]|] eqn:R; try discriminate.
    exists p1, r. apply irunb_ok. exact R.
Qed.
Lemma low_free_ok co fn :
  forallb (fun b => forallb (fun i => forallb low_freeb (i_read i ++ i_written i)) (b_insns (co_block co b)))
    (f_blocks (co_fun co fn)) = true -> names_ok co fn.
Proof.
  intros H b i HB HI. rewrite forallb_forall in H. specialize (H b HB). rewrite forallb_forall in H.
  specialize (H i HI). rewrite forallb_forall in H.
  assert (A : forall x, In x (i_read i) \/ In x (i_written i) -> low_freeb x = true) by (intros x K; apply H, in_or_app; exact K).
  split.
  - intros r q K. apply A in K. unfold low_freeb in K. apply andb_true_iff in K. apply K.
  - intros r K. split; intros Q; assert (L : low_freeb (MG r P8l) = true) by (apply A; auto);
      destruct K as [-> | ->]; discriminate.
Qed.
(** The loop of [c_frame] with a register frame, put on the edge that enters it: a write through
    the pointer to elsewhere does no harm, a write to the return address is noticed. *)
Example C70_case :
  parsed (c_frame true) [mkFinfo 0 false ".text"] /\ (forall k, within (c_frame true) fl_plain eight k) /\
  run_light (c_frame true) = Ok (ssum (c_frame true)) /\
  own (c_frame true) 0 /\ can_return [mkFinfo 0 false ".text"] 0 = true /\
  analysed (c_frame true) (ssum (c_frame true)) 0 /\ tidy (c_frame true) 0 /\ names_ok (c_frame true) 0 /\
  on_reg r_plan = true /\ plain wopts /\
  orig_blocks (c_frame true) 0 [0; 1]%nat = Some ([0; 2] ++ [3])%nat /\ is_ret (c_frame true) 3 /\
  no_catch (c_frame true) 0 [0; 1]%nat /\
  keeps_unwritten (rsem 1048576) /\ keeps_word 1048576 (rsem 1048576) /\
  room (c_frame true) 0 unit (fun _ => true) 1048576 60000 65536 65600 all steady 10 /\
  (forall target, 3 <= target < W -> ground unit 1048576 60000 65536 steady [7777] (a_start target)) /\
  load64 a_mem 65528 = 5555 /\
  exists items, r_items [0; 1]%nat = Some items /\
    (exists p1, irun unit (c_frame true) (rsem 1048576) (fun _ => true) wopts 1048576 60000 65536 eight all (harmless (c_frame true)) steady
       items (a_start 70000) (Fin unit p1)) /\
    (exists p1 r, irun unit (c_frame true) (rsem 1048576) (fun _ => true) wopts 1048576 60000 65536 eight all (harmless (c_frame true)) steady
       items (a_start 65528) (Stopped unit p1 r)).
Proof.
  split; [apply frame_parsed|]. split; [intros k; apply frame_within; reflexivity|].
  split; [apply an_run with (fn := 0%nat); apply scode_analysed; vm_compute; reflexivity|].
  split; [split; [left; reflexivity|reflexivity]|]. split; [reflexivity|].
  split; [apply scode_analysed; vm_compute; reflexivity|]. split; [apply frame_tidy|].
  split; [apply low_free_ok; reflexivity|]. split; [vm_compute; reflexivity|].
  split; [vm_compute; repeat split; discriminate|]. split; [reflexivity|]. split; [exists s_ret; split; [left; reflexivity|reflexivity]|].
  split; [cbn; repeat split; discriminate|].
  split; [apply rsem_unwritten|]. split; [apply rsem_word|].
  split.
  { constructor.
    - split; [lia|split; [vm_compute; discriminate|reflexivity]].
    - split; [lia|split; [vm_compute; discriminate|reflexivity]].
    - vm_compute; reflexivity.
    - left. vm_compute. discriminate.
    - intros b Hb. apply frame_blocks in Hb. destruct Hb as [->|[->|[->| ->]]]; vm_compute; discriminate.
    - intros x _. exact I.
    - intros a b []. }
  split.
  { intros target T. split; [intros r; assert (1000000 < W) by (vm_compute; reflexivity); destruct r; cbn; lia|].
    split; [unfold in_frame, gone; cbn; lia|]. split; [vm_compute; reflexivity|]. split; [vm_compute; reflexivity|].
    intros [|[|i]] v K; cbn in K; try discriminate. injection K as <-. vm_compute; reflexivity. }
  split; [vm_compute; reflexivity|].
  apply r_runs_end; vm_compute; reflexivity.
Qed.
