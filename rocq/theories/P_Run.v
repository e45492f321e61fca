(** * P_Run: property C63 (the tool gets through every binary) *)
From Coq Require Import ZArith Bool Lia ZifyBool ZifyNat Arith String List.
From Verif Require Import Machine Jit ShadowSpec Dfs Binary CallGraph InterProc MemPasses Pipeline
  RegNames BlockLive ExSem Reach SafePaths P_Paths Lowering FastPath Decision Components P_Cfg FullRun
  Sites SiteEx.
Import ListNotations.
Open Scope Z_scope.

(** ** Specification *)
(** A register name as Dyninst writes it; there is no register called "r". *)
Definition proper_name (n : string) : Prop := exists r, n = ("x86_64::" ++ r)%string /\ r <> "r"%string.
(** The disassembly of a function: blocks and outer loops as in C31 and C47, proper names, and
    return edges that leave the function. *)
Record fn_input (co : code) (fn : nat) : Prop := {
  fi_cfg : cfg_ok co fn;
  fi_loops : cfg_input co fn;
  fi_names : forall b i x, In b (f_blocks (co_fun co fn)) -> In i (b_insns (co_block co b)) ->
    In x (i_read i) \/ In x (i_written i) -> proper_name (mreg_name x);
  fi_rets : forall b e, In b (f_blocks (co_fun co fn)) -> In e (b_targets (co_block co b)) ->
    followable e -> e_ty e <> RET;
  fi_starts : distinct_starts co fn }.
(** Blocks reached from the entry without exceptions. *)
Inductive reached (co : code) (fn : nat) : nat -> Prop :=
| re_entry : reached co fn (f_entry (co_fun co fn))
| re_step b c : reached co fn b -> linked co b c -> reached co fn c.
(** The stack height is known at the start of a block if it is known at the end of all blocks
    before it.  Not so where paths with different heights meet. *)
Definition heights_meet (co : code) (fn : nat) : Prop :=
  forall b, reached co fn b -> (exists a, reached co fn a /\ linked co a b) ->
    (forall a, reached co fn a -> linked co a b -> b_sp_end (co_block co a) <> None) ->
    b_sp_entry (co_block co b) <> None.
(** The tool has decided what to do with a function, rather than stopped. *)
Definition decided (p : plan) : Prop := p <> PAbort /\ p <> PNoFuel.

(** ** The register pass does not throw *)
Lemma proper_normalizes n : proper_name n -> normalize n <> None.
Proof.
  intros (r & -> & NR). change ("x86_64::" ++ r)%string with (pfx r). rewrite normalize_pfx.
  unfold norm_reg. destruct r as [|c rest]; [cbn; discriminate|].
  repeat match goal with
  | |- (match ?c with Ascii.Ascii _ _ _ _ _ _ _ _ => _ end) <> None => destruct c as [[] [] [] [] [] [] [] []]
  end; try discriminate;
  repeat match goal with |- (if ?c then _ else _) <> None => destruct c; [discriminate|] end;
  try discriminate.
  destruct rest as [|c2 rest]; [congruence|].
  destruct (is_digit c2 && is_alpha (last_char c2 rest))%bool eqn:E; [|discriminate].
  destruct rest as [|c3 rest]; [|destruct (is_digit c3); discriminate].
  cbn [last_char] in E. apply andb_true_iff in E. destruct E as [E1 E2].
  rewrite (digit_not_alpha _ E1) in E2. discriminate.
Qed.
Lemma use_regs_total l : (forall x, In x l -> proper_name (mreg_name x)) ->
  forall used, exists u, use_regs l used = Some u.
Proof.
  induction l as [|a l IH]; intros H used; cbn [use_regs]; [eauto|].
  pose proof (proper_normalizes _ (H a (or_introl eq_refl))) as N.
  destruct (normalize (mreg_name a)) as [n|]; [|contradiction].
  apply IH. intros x Hx. apply H. right; auto.
Qed.
Lemma ur_total l : (forall i x, In i l -> In x (i_read i) \/ In x (i_written i) -> proper_name (mreg_name x)) ->
  forall s used, exists s' u, fold_left ur_insn l (Some (s, used)) = Some (s', u).
Proof.
  induction l as [|i l IH]; intros H s used; cbn [fold_left]; [eauto|].
  destruct (use_regs_total (i_read i ++ i_written i)) with (used := used) as (u & E).
  { intros x Hx. apply (H i); [left; auto|]. apply in_app_or in Hx. tauto. }
  cbn [ur_insn]. rewrite E. apply IH. intros j x Hj. apply H. right; auto.
Qed.
Lemma unused_total co fn s : fn_input co fn -> exists s', unused_regs co fn s = Some s'.
Proof.
  intros I. unfold unused_regs. destruct (s_assume_unsafe s); [eauto|].
  destruct (s_callees s); [|eauto].
  destruct (ur_total (func_insns co (co_fun co fn))) with (s := s) (used := @nil string) as (s' & u & E).
  { intros i x Hi Hx. unfold func_insns in Hi. apply in_concat in Hi. destruct Hi as (l & Hl & Hi).
    apply in_map_iff in Hl. destruct Hl as (b & <- & Hb). eapply (fi_names _ _ I); eauto. }
  rewrite E. eauto.
Qed.
Lemma local_opt_total co run m : (forall f s, In f (co_funcs co) -> exists s', run f s = Some s') ->
  exists m', local_opt co run m = Some m'.
Proof.
  unfold local_opt. generalize (co_funcs co). intros l H. revert m.
  induction l as [|f l IH]; intros m; cbn [fold_left]; [eauto|].
  destruct (H f (m f) (or_introl eq_refl)) as (s' & E). rewrite E.
  apply IH. intros g s Hg. apply H. right; auto.
Qed.

(** ** C63: the analyses *)
(** On every binary that is disassembled as described, every analysis of light mode comes to an
    end without an exception or a lookup that fails: the whole sequence yields a result, and so
    does CFGAnalysis, whose result the others do not use. *)
Theorem C63_analysis co :
  well_formed co -> (forall f, In f (co_funcs co) -> fn_input co f) ->
  exists m, run_light co = Ok m /\
    forall f s, In f (co_funcs co) -> cfg_analysis co f s <> CNoFuel.
Proof.
  intros WF FI. destruct (run_memory_ok co WF) as (m & R & _).
  destruct (local_opt_total co (safe_paths co) m) as (m1 & E1).
  { intros f s Hf. destruct (C31_terminates co f s (fi_cfg _ _ (FI f Hf))) as (c & E & _). eauto. }
  destruct (local_opt_total co (unused_regs co) m1) as (m2 & E2).
  { intros f s Hf. apply unused_total. auto. }
  exists (local_pass co (block_dead co) m2). split.
  - unfold run_light. rewrite R. cbn [bind]. rewrite E1, E2. reflexivity.
  - intros f s Hf K. pose proof (fi_loops _ _ (FI f Hf)) as I.
    destruct (s_assume_unsafe s) eqn:A1.
    { rewrite (proj2 (C47_null co f s I) (or_introl A1)) in K. discriminate. }
    destruct (s_unknown_cf s) eqn:A2.
    { rewrite (proj2 (C47_null co f s I) (or_intror A2)) in K. discriminate. }
    destruct (C47_components co f s I A1 A2) as (root & st & E & _). rewrite E in K. discriminate.
Qed.
Print Assumptions C63_analysis.

(** ** The decisions *)
(** After the passes: if the height is recorded at the end of one block, then entry heights are
    recorded wherever they are known. *)
Lemma entry_height_known co m fn a b :
  NoDup (co_funcs co) -> run_light co = Ok m -> In fn (co_funcs co) -> distinct_starts co fn ->
  In a (f_blocks (co_fun co fn)) -> In b (f_blocks (co_fun co fn)) ->
  zfind (s_endHeight (m fn)) (b_start (co_block co a)) <> None ->
  zfind (s_entryHeight (m fn)) (b_start (co_block co b)) = None -> b_sp_entry (co_block co b) = None.
Proof.
  intros ND RUN IN DS HA HB KA KB.
  destruct (run_light_parts co m fn ND RUN IN) as (s3 & s5 & s6 & H3 & H5 & _ & _ & _ & _ & U & E).
  pose proof (unused_late _ _ _ _ U) as L. unfold late_fields in L. injection L as _ _ _ L1 L2.
  pose proof (block_dead_late co fn s6) as B. injection B as B1 B2 _ _. rewrite <- E in *.
  unfold height_fields in *. injection H5 as H5 H6. injection H3 as H3 H4.
  rewrite B1, L1, H5 in KA. rewrite B2, L2, H6 in KB. revert KA KB. unfold stack_height.
  destruct (s_assume_unsafe s3).
  { rewrite H3. cbn [zfind]. congruence. }
  rewrite (fill_at (fun b => b_start (co_block co b)) (fun b => option_map (fun h => -8 - h) (b_sp_entry (co_block co b)))
             s_entryHeight (sh_block co) (sh_block_entry co) _ DS _ b HB) by (rewrite H4; reflexivity).
  intros _. destruct (b_sp_entry (co_block co b)); [discriminate|auto].
Qed.

Section ABORT.
Variables (co : code) (fl : flags) (fn : nat) (s : summary).
Notation bs := (f_blocks (co_fun co fn)).
Notation entry := (f_entry (co_fun co fn)).
Notation unsafe := (s_unsafe_blocks s).
Hypothesis FI : fn_input co fn.

Lemma reached_in b : reached co fn b -> In b bs.
Proof.
  induction 1 as [|b c H IH L]; [apply (proj1 (fi_cfg _ _ FI))|]. eapply (proj2 (fi_cfg _ _ FI)); eauto.
Qed.
Lemma calm_reached b : calm co unsafe entry b -> reached co fn b.
Proof.
  induction 1 as [|m x t H IH F (e & N & Fe & <-) D]; [constructor|]. subst m.
  eapply re_step; [exact IH|]. exists e. split; [eapply nth_error_In; eauto|auto].
Qed.
(** The lowering gives up only at a block whose entry height is missing although all blocks
    before it have their end heights. *)
Lemma lower_abort : lower co fl fn s = LAbort ->
  exists b, reached co fn b /\ (exists a, reached co fn a /\ linked co a b) /\
    (forall a, reached co fn a -> linked co a b -> zfind (s_endHeight s) (b_start (co_block co a)) <> None) /\
    zfind (s_entryHeight s) (b_start (co_block co b)) = None.
Proof.
  unfold lower.
  match goal with |- context [if ?c then NotLowered else _] => destruct c; [discriminate|] end.
  pose proof (fi_cfg _ _ FI) as CFG.
  destruct (redir_exact co unsafe bs (proj2 CFG) entry (proj1 CFG)) as (red & vis & R & RX).
  unfold fuel_of in R. rewrite R.
  destruct (negb (forallb (edge_ok co fl s) red)) eqn:EO; [discriminate|].
  apply negb_false_iff in EO. rewrite forallb_forall in EO.
  match goal with |- context [if ?c then NotLowered else _] => destruct c; [discriminate|] end.
  cbv zeta. destruct (mark _ _ _ _ _) as [v|] eqn:E; [|discriminate].
  destruct (fl_ndebug fl) eqn:ND; [discriminate|]. cbn [negb andb].
  assert (L : List.length (U2 co fn) = (2 * List.length bs)%nat).
  { unfold U2. rewrite app_length, !map_length. lia. }
  destruct (mark_reaches node_dec (gr_succ co false red) (U2 co fn)
     (fun x y => gr_closed co fn CFG false red x y) (false, entry)) as (v' & E' & EX).
  { apply U2_in. apply (proj1 CFG). }
  rewrite L in E'. rewrite E' in E. injection E as ->.
  match goal with |- context [if negb ?c then LAbort else _] => destruct c eqn:ALL; [discriminate|] end.
  intros _.
  assert (X : exists b, In b (coalesce co false red v bs) /\
             zfind (s_entryHeight s) (b_start (co_block co b)) = None).
  { clear - ALL. induction (coalesce co false red v bs) as [|b l IH]; [discriminate|].
    cbn [forallb] in ALL. destruct (zfind (s_entryHeight s) (b_start (co_block co b))) eqn:Z.
    - destruct (IH ALL) as (c & H & K). exists c. split; [right; auto|auto].
    - exists b. split; [left; auto|auto]. }
  destruct X as (b & HB & Z). unfold coalesce in HB. apply filter_In in HB. destruct HB as [HB K].
  rewrite !andb_true_iff in K. destruct K as [[K1 K2] K3].
  unfold inst_edges in K2. apply existsb_exists in K2. destruct K2 as (x & Hx & TX).
  apply Nat.eqb_eq in TX. pose proof (proj1 (RX x) Hx) as (t & CX & IX & DX).
  assert (ET : t = b).
  { rewrite <- TX. symmetry. destruct IX as (e & N & _ & <-). unfold trg. rewrite N. reflexivity. }
  subst t. clear TX.
  assert (LX : linked co (fst x) b).
  { destruct IX as (e & N & Fe & <-). exists e. split; [eapply nth_error_In; eauto|auto]. }
  apply negb_true_iff in K3.
  assert (NC : forall a, In a bs -> In (true, a) v -> ~ linked co a b).
  { intros a Ha Va (e & He & Fe & TE).
    assert (Y : not_inst_edges co v bs b = true); [|congruence].
    unfold not_inst_edges. apply existsb_exists. exists a. split; auto.
    apply andb_true_iff. split; [apply amem_in; auto|]. apply existsb_exists. exists e. split; auto.
    apply andb_true_iff. split; [apply negb_true_iff, skipped_false; auto|apply Nat.eqb_eq; auto]. }
  assert (STEP : forall c a e k, In a bs -> nth_error (b_targets (co_block co a)) k = Some e -> followable e ->
      In (c, a) v -> In (patched_trg false red (c, a) k e) v).
  { intros c a e k Ha N Fe Hv. apply EX in Hv. apply EX. eapply reaches_snoc; [exact Hv|].
    unfold gr_succ. apply in_map_iff. exists (k, e). split; [reflexivity|]. apply filter_In.
    split; [apply itargets_in; exact N|]. eapply gr_edge_ok; eauto using nth_error_In.
    exact (fi_rets _ _ FI). }
  assert (CASES : forall a, reached co fn a -> (calm co unsafe entry a /\ In (false, a) v) \/ In (true, a) v).
  { induction 1 as [|a c Ha IH (e & He & Fe & TE)].
    - left. split; [constructor|]. apply EX. constructor.
    - apply In_nth_error in He. destruct He as (k & N). pose proof (reached_in a Ha) as Ia.
      destruct IH as [[C V]|V].
      + pose proof (STEP false a e k Ia N Fe V) as P. unfold patched_trg in P. rewrite TE in P.
        destruct (emem (a, k) red) eqn:M; [right; exact P|].
        left. split; auto. apply (calm_step co unsafe entry a (a, k) c); auto.
        * exists e. auto.
        * destruct (danger co unsafe c) eqn:D; auto. exfalso. apply emem_nin in M. apply M, RX.
          exists c. split; auto. split; auto. exists e. auto.
      + right. pose proof (STEP true a e k Ia N Fe V) as P. unfold patched_trg in P. rewrite TE in P.
        apply skipped_false in Fe. rewrite Fe in P. exact P. }
  exists b. split; [|split; [|split; [|exact Z]]].
  - eapply re_step; [apply calm_reached; exact CX|exact LX].
  - exists (fst x). split; [apply calm_reached; exact CX|exact LX].
  - intros a Ha LA. destruct (CASES a Ha) as [[C V]|V].
    2: { exfalso. exact (NC a (reached_in a Ha) V LA). }
    destruct LA as (e & He & Fe & TE). apply In_nth_error in He. destruct He as (k & N).
    assert (HR : In (a, k) red). { apply RX. exists b. split; auto. split; auto. exists e. auto. }
    specialize (EO _ HR). unfold edge_ok in EO. cbn [fst] in EO.
    destruct (zfind (s_endHeight s) (b_start (co_block co a))); [discriminate|discriminate].
Qed.
End ABORT.

(** With the results of the analyses, the tool decides on every function under every combination
    of options, provided heights are known where they meet. *)
Theorem C63_decides_partial co m fl fn :
  well_formed co -> run_light co = Ok m -> In fn (co_funcs co) -> fn_input co fn ->
  heights_meet co fn -> decided (Decision.instr fl co fn (Some (m fn))).
Proof.
  intros WF RUN IN FI HM. unfold Decision.instr.
  destruct (fl_light fl); [|split; discriminate]. destruct (skippable _ _ _); [split; discriminate|].
  destruct (lower co fl fn (m fn)) as [|l| |] eqn:E.
  - destruct (use_reg fl (m fn)); [split; discriminate|].
    destruct (fast_path co fl fn) as [[[slow pops] fast]|]; split; discriminate.
  - split; discriminate.
  - exfalso. destruct (lower_abort co fl fn (m fn) FI E) as (b & RB & (a & RA & LA) & AE & NB).
    assert (ND : NoDup (co_funcs co)) by apply WF.
    apply (HM b RB); [eauto| |].
    + intros c RC LC K. specialize (AE c RC LC).
      destruct (zfind (s_endHeight (m fn)) (b_start (co_block co c))) as [v|] eqn:Z; [|contradiction].
      destruct (proj1 (run_light_heights co m fn ND RUN IN (fi_starts _ _ FI) c v (reached_in co fn FI c RC)) Z)
        as (h & H & _). congruence.
    + apply (entry_height_known co m fn a b ND RUN IN (fi_starts _ _ FI)); auto.
      * apply (reached_in co fn FI); auto.
      * apply (reached_in co fn FI); auto.
  - exfalso. eapply lower_total; eauto. apply (fi_cfg _ _ FI).
Qed.
Print Assumptions C63_decides_partial.

(** *** Examples *)
Definition named (n : string) : bool :=
  String.prefix "x86_64::" n && negb (String.eqb n "x86_64::r").
Lemma named_ok n : named n = true -> proper_name n.
Proof.
  unfold named. rewrite andb_true_iff. intros [H K]. apply negb_true_iff in K.
  do 8 (destruct n as [|[[] [] [] [] [] [] [] []] n]; try discriminate).
  exists n. split; [reflexivity|]. intros ->. discriminate.
Qed.
Definition input_ok (nb : nat) (bl : nat -> block) : bool :=
  (0 <? nb)%nat && zdistinct (map (fun b => b_start (bl b)) (seq 0 nb)) &&
  forallb (fun b => forallb (fun e => e_sink e || e_inter e || is (e_ty e) CALL ||
                                      ((e_trg e <? nb)%nat && negb (is (e_ty e) RET))) (b_targets (bl b)) &&
                    forallb (fun e => negb (is (e_ty e) CALL) || e_sink e || e_inter e) (b_targets (bl b)) &&
                    forallb (fun e => negb (e_sink e) || is (e_ty e) RET) (b_targets (bl b)) &&
                    forallb (fun i => forallb (fun x => named (mreg_name x)) (i_read i ++ i_written i))
                      (b_insns (bl b))) (seq 0 nb).
Lemma scode_input nb ex bl : input_ok nb bl = true -> fn_input (scode nb ex bl) 0.
Proof.
  unfold input_ok. rewrite !andb_true_iff. intros [[H1 H2] H3]. apply Nat.ltb_lt in H1.
  rewrite forallb_forall in H3.
  assert (P : forall b, In b (seq 0 nb) ->
    (forall e, In e (b_targets (bl b)) -> e_sink e = false -> e_inter e = false ->
       In (e_trg e) (seq 0 nb) /\ e_ty e <> RET) /\
    (forall e, In e (b_targets (bl b)) -> e_sink e = true -> e_ty e = RET) /\
    (forall i x, In i (b_insns (bl b)) -> In x (i_read i) \/ In x (i_written i) -> proper_name (mreg_name x))).
  { intros b Hb. specialize (H3 b Hb). rewrite !andb_true_iff, !forallb_forall in H3.
    destruct H3 as [[[A B] D] C]. split; [|split].
    - intros e He S I. specialize (A e He). specialize (B e He). rewrite S, I in A, B.
      rewrite !orb_false_r in B. apply negb_true_iff in B. rewrite B in A. cbn [orb] in A.
      apply andb_true_iff in A. destruct A as [A1 A2]. apply Nat.ltb_lt in A1. apply negb_true_iff, is_false in A2.
      split; auto. apply in_seq. lia.
    - intros e He S. specialize (D e He). rewrite S in D. apply is_true. exact D.
    - intros i x Hi Hx. specialize (C i Hi). rewrite forallb_forall in C. apply named_ok, C, in_or_app. exact Hx. }
  assert (E : In 0%nat (seq 0 nb)) by (apply in_seq; lia).
  constructor; cbn [co_fun scode f_blocks f_entry co_block].
  - split; [exact E|]. intros b c Hb (e & He & (F1 & F2 & _) & <-). apply (proj1 (P b Hb) e He F1 F2).
  - split; [exact E|]. split.
    + intros a t Ha (e & He & <- & I & _ & _ & NR). destruct (e_sink e) eqn:S.
      * exfalso. apply NR. apply (proj1 (proj2 (P a Ha)) e He S).
      * apply (proj1 (P a Ha) e He S I).
    + intros i j l l' b Hi. cbn in Hi. destruct i; discriminate.
  - intros b i x Hb Hi. apply (proj2 (proj2 (P b Hb)) i x Hi).
  - intros b e Hb He (F1 & F2 & _). apply (proj1 (P b Hb) e He F1 F2).
  - apply zdistinct_ok. exact H2.
Qed.
Lemma scode_wf nb ex bl : well_formed (scode nb ex bl).
Proof.
  split; [repeat constructor; cbn; auto|]. split; [split|split].
  - intros b g. cbn [co_owners scode co_funcs]. destruct (Nat.ltb b nb); [auto|intros []].
  - intros t g g' [E1 _] [E2 _]. cbn [co_owners scode] in E1, E2.
    destruct (Nat.ltb t nb); [|contradiction]. destruct E1 as [<-|[]]. destruct E2 as [<-|[]]. auto.
  - intros f a n n' (b & e & _ & _ & _ & _ & K). discriminate.
  - intros f _. cbn. lia.
Qed.
(** A loop with a store through a pointer on one of two paths; it is lowered. *)
Example C63_case :
  well_formed (c_frame true) /\ fn_input (c_frame true) 0 /\ heights_meet (c_frame true) 0 /\
  (exists m l, run_light (c_frame true) = Ok m /\
     Decision.instr fl_stack (c_frame true) 0 (Some (m 0%nat)) = ByLowering l).
Proof.
  split; [apply scode_wf|]. split; [apply scode_input; vm_compute; reflexivity|]. split.
  - intros b _ _ _. cbn [co_block c_frame scode s_frame].
    destruct b as [|[|[|b]]]; cbn [b_sp_entry]; discriminate.
  - exists (ssum (c_frame true)). unfold ssum.
    destruct (run_light (c_frame true)) as [m| |] eqn:E; [|vm_compute in E; discriminate|vm_compute in E; discriminate].
    assert (EM : m = ssum (c_frame true)) by (unfold ssum; rewrite E; reflexivity).
    rewrite EM. eexists. split; [reflexivity|]. vm_compute. reflexivity.
Qed.
(** *** Where paths with different stack heights meet at the first unsafe block, the assertion of
    line 507 fails and the tool stops. *)
Definition s_meet : nat -> block := fun b =>
  match b with
  | 0%nat => mkBlock 4096 4104 4106 [s_edge COND_TAKEN 1; s_edge COND_NOT_TAKEN 2]
      [x_op 4100 [sp64] [MG RBP P64]; x_op 4104 [MFlag "x86_64::zf"] []] (Some (-8)) (Some (-8))
  | 1%nat => mkBlock 4200 4202 4204 [s_edge COND_TAKEN 3; s_edge COND_NOT_TAKEN 4]
      [x_push 4200 RDI P64; x_op 4202 [MFlag "x86_64::zf"] []] (Some (-8)) (Some (-16))
  | 2%nat => mkBlock 4300 4302 4304 [s_edge COND_TAKEN 3; s_edge COND_NOT_TAKEN 5]
      [x_op 4302 [MFlag "x86_64::zf"] []] (Some (-8)) (Some (-8))
  | 3%nat => mkBlock 4400 4406 4407 [s_ret]
      [x_wild 4400 RSI RCX; x_op 4403 [MG RBP P64] [sp64]; x_ret 4406] None (Some (-8))
  | 4%nat => mkBlock 4500 4501 4502 [s_ret] [x_pop 4500 RDI P64; x_ret 4501] (Some (-16)) (Some (-8))
  | _ => mkBlock 4600 4600 4601 [s_ret] [x_ret 4600] (Some (-8)) (Some (-8))
  end.
Definition c_meet : code := scode 6 [3; 4; 5]%nat s_meet.
Theorem C63_refuted :
  exists co fn fl m, well_formed co /\ In fn (co_funcs co) /\ fn_input co fn /\ run_light co = Ok m /\
    Decision.instr fl co fn (Some (m fn)) = PAbort.
Proof.
  exists c_meet, 0%nat, fl_stack, (ssum c_meet).
  split; [apply scode_wf|]. split; [left; auto|]. split; [apply scode_input; vm_compute; reflexivity|].
  split; [|vm_compute; reflexivity].
  unfold ssum. destruct (run_light c_meet) eqn:E; auto; vm_compute in E; discriminate.
Qed.
Print Assumptions C63_refuted.
