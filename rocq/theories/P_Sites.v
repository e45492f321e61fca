(** * Properties C57-C60: the snippets at the places where the tool puts them *)
From Coq Require Import ZArith Bool Lia ZifyBool ZifyNat Arith String List.
From Verif Require Import Machine MachineFacts Jit ShadowSpec JitFacts JitPushPop History RegFrame Witness.
From Verif Require Import Dfs Binary CallGraph InterProc MemPasses Pipeline RegNames BlockLive ExSem
  Reach SafePaths Lowering FastPath Decision FullRun Sites SiteEx.
Import ListNotations.
Open Scope Z_scope.
Local Notation mem := Machine.mem.

(** ** The setting: a function that the analyses have gone through *)
Record analysed (co : code) (m : sums) (fn : nat) : Prop := {
  an_wf : well_formed co;
  an_run : run_light co = Ok m;
  an_in : In fn (co_funcs co);
  an_cfg : cfg_ok co fn;
  an_starts : distinct_starts co fn;
  an_insns : forall b, In b (f_blocks (co_fun co fn)) -> NoDup (map i_addr (b_insns (co_block co b)));
  an_step : forall b c, In b (f_blocks (co_fun co fn)) -> FastPath.step co b c -> In c (f_blocks (co_fun co fn));
  an_exits : incl (f_exits (co_fun co fn)) (f_blocks (co_fun co fn)) }.

(** The examples of SiteEx.v are such functions. *)
Lemma scode_analysed nb ex bl : scode_ok nb ex bl = true ->
  analysed (scode nb ex bl) (ssum (scode nb ex bl)) 0.
Proof.
  unfold scode_ok. rewrite !andb_true_iff. intros [[[[H1 H2] H3] H4] H5].
  apply Nat.ltb_lt in H1. rewrite forallb_forall in H4, H5.
  assert (TR : forall b e, In b (seq 0 nb) -> In e (b_targets (bl b)) -> e_sink e = false -> e_inter e = false ->
             In (e_trg e) (seq 0 nb)).
  { intros b e Hb He E1 E2. specialize (H4 b Hb). apply andb_true_iff in H4. destruct H4 as [_ H4].
    rewrite forallb_forall in H4. specialize (H4 e He). rewrite E1, E2 in H4. cbn [orb] in H4.
    apply Nat.ltb_lt in H4. apply in_seq. lia. }
  constructor.
  - split; [repeat constructor; cbn; auto|]. split; [split|split].
    + intros b g. cbn [co_owners scode co_funcs]. destruct (Nat.ltb b nb); [auto|intros []].
    + intros t g g' [E1 _] [E2 _]. cbn [co_owners scode] in E1, E2.
      destruct (Nat.ltb t nb); [|contradiction]. destruct E1 as [<-|[]]. destruct E2 as [<-|[]]. auto.
    + intros f a n n' (b & e & _ & _ & _ & _ & K). discriminate.
    + intros f _. cbn. lia.
  - unfold ssum, ready in *. destruct (run_light (scode nb ex bl)); congruence.
  - left; auto.
  - split; [cbn [co_fun scode f_entry f_blocks]; apply in_seq; lia|].
    intros b c Hb (e & He & F & <-). destruct F as (F1 & F2 & _). eapply TR; eauto.
  - apply zdistinct_ok in H3. exact H3.
  - intros b Hb. specialize (H4 b Hb). apply andb_true_iff in H4. apply zdistinct_ok. tauto.
  - intros b c Hb (e & He & <-). unfold out_edges in He. apply filter_In in He. destruct He as [He BP].
    unfold bp_edge in BP. apply andb_true_iff in BP. destruct BP as [B1 B2].
    apply negb_true_iff in B1, B2. eapply TR; eauto.
  - intros b Hb. specialize (H5 b Hb). apply Nat.ltb_lt in H5. cbn. apply in_seq. lia.
Qed.

(** The slot of the return address is [cfa - 8]; a stack height [h] of the stack analysis
    is right in a state if rsp is [cfa + h]. *)
Definition height_right (cfa h rsp : Z) : Prop := rsp = cfa + h.

(** [q] pushes the word at [ra] as seen in [m0], keeps rsp and flags, and writes nothing
    but 16 bytes below rsp and the shadow stack. *)
Definition pushes_word (q : ereq) (mp : perm) (st : state) (l : list Z) (word : Z) : Prop :=
  exists c st', e_code q = EOk (c, kRegisterMap) /\ exec c mp st (Done st') /\
    shadow_rep (mem st') (gs st) (word :: l) /\
    rg st' RSP = rg st RSP /\ Machine.fl st' = Machine.fl st /\ gs st' = gs st /\
    (forall r, ~ In (reg_name r) (e_dead q) -> rg st' r = rg st r) /\
    (forall x, ~ inside (rg st RSP - e_scratch q) (e_scratch q) x -> ~ inside (gs st) 8 x ->
               ~ inside (slot (gs st) (List.length l)) 8 x -> mem st' x = mem st x).

Lemma pushes_off q mp st l k a :
  e_ok q -> e_off q = a - rg st RSP -> env mp st l (a - rg st RSP) k -> (List.length l < k)%nat ->
  pushes_word q mp st l (load64 (mem st) a).
Proof.
  intros OK EO HE HK. rewrite <- EO in HE.
  destruct (entry_run_tight q mp st l k OK HE HK) as (c & s' & X1 & X2 & X3 & X4 & X5 & X6 & X7 & X8).
  exists c, s'. rewrite EO in X3. replace (rg st RSP + (a - rg st RSP)) with a in X3 by lia.
  repeat match goal with |- _ /\ _ => split end; auto.
Qed.

Lemma in_sites co fl o d s l pl sn : In (pl, sn) (lowered_sites co fl o d s l) ->
  (exists x, In x (l_push_edges l) /\ edge_site co fl o d s (l_reg l) x = (pl, sn)) \/
  (exists b, In b (l_push_blocks l) /\ block_site co fl o d s (l_reg l) b = (pl, sn)) \/
  (exists b, In b (l_pops l) /\ pop_site co fl o d s true (l_reg l) b = (pl, sn)).
Proof.
  unfold lowered_sites. rewrite !in_app_iff, !in_map_iff.
  intros [(x & H & K)|[(x & H & K)|(x & H & K)]]; eauto.
Qed.

Section SETTING.
Variables (co : code) (m : sums) (fn : nat) (fl : Lowering.flags) (o : opts) (d : dead_info) (l : lowered).
Hypothesis AN : analysed co m fn.
Hypothesis LOW : lower co fl fn (m fn) = Lowered l.
Notation blk b := (co_block co b).
Notation s := (m fn).
Notation bs := (f_blocks (co_fun co fn)).
Notation sites := (lowered_sites co fl o d s l).

Lemma nd : NoDup (co_funcs co).
Proof. apply (an_wf _ _ _ AN). Qed.
Lemma data b : In b bs ->
  zfind (s_entryData s) (startof co b) = entry_point (b_insns (blk b)) /\
  zfind (s_exitData s) (startof co b) = exit_point (b_insns (blk b)) /\
  zfind (s_entryFixed s) (startof co b) = entry_fixed (b_insns (blk b)).
Proof. apply (run_light_data co m fn nd (an_run _ _ _ AN) (an_in _ _ _ AN) (an_starts _ _ _ AN)). Qed.
Lemma heights b v : In b bs ->
  (zfind (s_endHeight s) (startof co b) = Some v -> exists h, b_sp_end (blk b) = Some h /\ v = -8 - h) /\
  (zfind (s_entryHeight s) (startof co b) = Some v -> exists h, b_sp_entry (blk b) = Some h /\ v = -8 - h).
Proof. apply (run_light_heights co m fn nd (an_run _ _ _ AN) (an_in _ _ _ AN) (an_starts _ _ _ AN)). Qed.

(** *** Edges *)
Lemma edge_request x q : In (OnEdge x, StackPush q) sites ->
  In x (l_push_edges l) /\ In (fst x) bs /\ In (trg co x) bs /\ l_reg l = false /\
  (exists h, b_sp_end (blk (fst x)) = Some h /\ e_height q = -8 - h /\ e_off q = -8 - h) /\
  e_o q = o /\ e_js q = jsum_of d s /\
  e_mid q = (if fl_no_reg_save fl then None else entry_fixed (b_insns (blk (trg co x)))).
Proof.
  intros H. apply in_sites in H. destruct H as [(y & Hy & E)|[(b & _ & E)|(b & _ & E)]].
  - pose proof (lower_checks co fl fn s l (an_cfg _ _ _ AN) LOW) as (_ & _ & RE & PE & _ & _).
    unfold edge_site in E. injection E as E1 E2. subst y.
    destruct (l_reg l) eqn:RG; [discriminate|]. injection E2 as <-.
    destruct (RE x (PE x Hy)) as (B1 & B2 & (v & ZV) & _).
    destruct (heights (fst x) v B1) as [HH _]. destruct (HH ZV) as (h & SH & EV).
    destruct (data (trg co x) B2) as (_ & _ & DF).
    assert (EM : e_mid (mkEreq o (mkPoint 0 (startof co (trg co x)) 0) (jsum_of d s) false
                   (zget (s_endHeight s) (startof co (fst x)))
                   match opt_mid fl (s_entryFixed s) (startof co (trg co x)) with Some _ => true | None => false end)
                 = (if fl_no_reg_save fl then None else entry_fixed (b_insns (blk (trg co x))))).
    { unfold e_mid, entry_mid, opt_mid. cbn [e_orig e_fixed e_js e_pt jsum_of j_entryFixed p_edge_trg].
      destruct (fl_no_reg_save fl); auto. rewrite DF. destruct (entry_fixed _); auto. }
    split; [auto|]. split; [auto|]. split; [auto|]. split; [auto|]. split.
    + exists h. split; [auto|]. unfold e_off. rewrite EM. cbn [e_height]. unfold zget. rewrite ZV, EV.
      split; [auto|]. destruct (fl_no_reg_save fl); [reflexivity|].
      destruct (entry_fixed (b_insns (blk (trg co x)))) as [md|] eqn:F; [|reflexivity].
      destruct (entry_fixed_ok _ _ (an_insns _ _ _ AN _ B2) F) as (i & post & _ & _ & R0 & _).
      cbn [request_off]. lia.
    + split; [reflexivity|]. split; [reflexivity|]. exact EM.
  - unfold block_site in E. destruct (l_reg l); [discriminate|]. destruct (opt_mid _ _ _); discriminate.
  - unfold pop_site in E. destruct (l_reg l); [discriminate|]. destruct (opt_mid _ _ _); discriminate.
Qed.

Lemma edge_ok_request x q : plain o -> good_dead o (di_entry d) ->
  In (OnEdge x, StackPush q) sites -> e_ok q.
Proof.
  intros HP HD H. destruct (edge_request x q H) as (_ & _ & B2 & _ & _ & EO & EJ & EM).
  split; [rewrite EO; auto|]. rewrite EM, EJ, EO. cbn [jsum_of j_dead_entry].
  destruct (fl_no_reg_save fl); [exact HD|].
  destruct (entry_fixed (b_insns (blk (trg co x)))) as [md|] eqn:F; [|exact HD].
  destruct (entry_fixed_ok _ _ (an_insns _ _ _ AN _ B2) F) as (i & post & _ & _ & _ & GM & _). exact GM.
Qed.

(** *** Blocks *)
Definition where_at (pl : place) (c : bool) (b : nat) (pre post : list insn) : Prop :=
  ((pl = AtStart (c, b) \/ (pl = AtEntry /\ c = false)) /\ pre = []) \/
  (exists i post', post = i :: post' /\ pl = BeforeInsn (c, b) (i_addr i)).
Lemma block_request pl q b : pl = AtStart (true, b) \/ (exists a, pl = BeforeInsn (true, b) a) ->
  In (pl, StackPush q) sites ->
  In b (l_push_blocks l) /\ In b bs /\ l_reg l = false /\
  (exists h, b_sp_entry (blk b) = Some h /\ e_height q = -8 - h) /\
  e_o q = o /\ e_js q = jsum_of d s /\
  e_mid q = (if fl_no_reg_save fl then None else entry_point (b_insns (blk b))) /\
  match e_mid q with
  | None => pl = AtStart (true, b)
  | Some md => pl = BeforeInsn (true, b) (m_addr md)
  end.
Proof.
  intros HP H. apply in_sites in H. destruct H as [(y & Hy & E)|[(b' & Hb & E)|(b' & _ & E)]].
  - unfold edge_site in E. injection E as <- _. exfalso. destruct HP as [HP|(a & HP)]; discriminate.
  - pose proof (lower_checks co fl fn s l (an_cfg _ _ _ AN) LOW) as (_ & _ & _ & _ & PB & _).
    destruct (PB b' Hb) as (B1 & _ & (v & ZV)).
    destruct (heights b' v B1) as [_ HH]. destruct (HH ZV) as (h & SH & EV).
    destruct (data b' B1) as (DE & _ & _).
    unfold block_site in E. destruct (l_reg l) eqn:RG; [discriminate|].
    unfold opt_mid in E. rewrite DE in E.
    destruct (fl_no_reg_save fl) eqn:NR; [|destruct (entry_point (b_insns (blk b'))) as [md|] eqn:EP].
    + injection E as <- <-. assert (b' = b) by (destruct HP as [HP|(a & HP)]; congruence). subst b'.
      split; [auto|]. split; [auto|]. split; [auto|]. split.
      { exists h. split; auto. cbn [e_height]. unfold zget. rewrite ZV. auto. }
      repeat split; reflexivity.
    + injection E as <- <-. assert (b' = b) by (destruct HP as [HP|(a & HP)]; congruence). subst b'.
      split; [auto|]. split; [auto|]. split; [auto|]. split.
      { exists h. split; auto. cbn [e_height]. unfold zget. rewrite ZV. auto. }
      assert (EM : e_mid (mkEreq o (bpoint co b) (jsum_of d s) true
                            (zget (s_entryHeight s) (startof co b)) false) = Some md) by exact DE.
      rewrite EM, EP. repeat split; reflexivity.
    + injection E as <- <-. assert (b' = b) by (destruct HP as [HP|(a & HP)]; congruence). subst b'.
      split; [auto|]. split; [auto|]. split; [auto|]. split.
      { exists h. split; auto. cbn [e_height]. unfold zget. rewrite ZV. auto. }
      rewrite EP. repeat split; reflexivity.
  - unfold pop_site in E. destruct (l_reg l); [discriminate|]. destruct (opt_mid _ _ _); discriminate.
Qed.
Lemma block_ok_request pl q b : pl = AtStart (true, b) \/ (exists a, pl = BeforeInsn (true, b) a) ->
  plain o -> good_dead o (di_entry d) -> In (pl, StackPush q) sites -> e_ok q.
Proof.
  intros HL HP HD H. destruct (block_request pl q b HL H) as (_ & B1 & _ & _ & EO & EJ & EM & _).
  split; [rewrite EO; auto|]. rewrite EM, EJ, EO. cbn [jsum_of j_dead_entry].
  destruct (fl_no_reg_save fl); [exact HD|].
  destruct (entry_point (b_insns (blk b))) as [md|] eqn:F; [|exact HD].
  destruct (entry_point_ok _ _ (an_insns _ _ _ AN _ B1) F) as (pre & i & post & _ & _ & _ & _ & GM & _).
  exact GM.
Qed.
End SETTING.

(** ** C57: lowered pushes record the return address of the function *)
Theorem C57_edge_push :
  forall co m fn fl o d l x q,
    analysed co m fn -> lower co fl fn (m fn) = Lowered l ->
    plain o -> good_dead o (di_entry d) ->
    In (OnEdge x, StackPush q) (lowered_sites co fl o d (m fn) l) ->
    exists h, b_sp_end (co_block co (fst x)) = Some h /\
      forall mp st lst k cfa,
        height_right cfa h (rg st RSP) ->
        env mp st lst (cfa - 8 - rg st RSP) k -> (List.length lst < k)%nat ->
        pushes_word q mp st lst (load64 (mem st) (cfa - 8)).
Proof.
  intros co m fn fl o d l x q AN LOW HP HD H.
  destruct (edge_request co m fn fl o d l AN LOW x q H) as (_ & _ & _ & _ & (h & SH & _ & EO) & _).
  exists h. split; [auto|]. intros mp st lst k cfa HR HE HK. unfold height_right in HR.
  eapply pushes_off; eauto; [eapply edge_ok_request; eauto|]. lia.
Qed.
Print Assumptions C57_edge_push.
(** A loop after the branch: the push is on the edge from block 0, where rsp is 8 below the
    return address. *)
Example C57_edge_case :
  exists l q, analysed (c_frame true) (ssum (c_frame true)) 0 /\
    lower (c_frame true) fl_stack 0 (ssum (c_frame true) 0%nat) = Lowered l /\
    In (OnEdge (0, 0)%nat, StackPush q) (lowered_sites (c_frame true) fl_stack wopts no_dead (ssum (c_frame true) 0%nat) l) /\
    b_sp_end (co_block (c_frame true) 0) = Some (-16) /\ e_off q = 8.
Proof.
  eexists. eexists. split; [apply scode_analysed; vm_compute; reflexivity|].
  split; [vm_compute; reflexivity|]. split; [left; vm_compute; reflexivity|]. split; vm_compute; reflexivity.
Qed.


Theorem C57_block_push_partial :
  forall co m fn fl o d l b pl q,
    analysed co m fn -> lower co fl fn (m fn) = Lowered l ->
    plain o -> good_dead o (di_entry d) ->
    pl = AtStart (true, b) \/ (exists a, pl = BeforeInsn (true, b) a) ->
    In (pl, StackPush q) (lowered_sites co fl o d (m fn) l) ->
    exists h pre post, b_sp_entry (co_block co b) = Some h /\
      b_insns (co_block co b) = pre ++ post /\ where_at pl true b pre post /\
      forall (F X : Type) (sem : insn -> pst F X -> option (pst F X)) p0 p1 mp st lst k cfa,
        stack_facts sem -> Forall plain_stack (b_insns (co_block co b)) -> h <= -8 ->
        height_right cfa h (p_rg p0 RSP) -> prun sem pre p0 = Some p1 ->
        rg st RSP = p_rg p1 RSP -> (forall a, mem st a = p_mem p1 a) ->
        env mp st lst (cfa - 8 - rg st RSP) k -> (List.length lst < k)%nat ->
        pushes_word q mp st lst (load64 (p_mem p0) (cfa - 8)).
Proof.
  intros co m fn fl o d l b pl q AN LOW HP HD HL H.
  destruct (block_request co m fn fl o d l AN LOW pl q b HL H)
    as (_ & B1 & _ & (h & SH & EH) & _ & _ & EM & EP).
  assert (OK : e_ok q) by (eapply block_ok_request; eauto).
  destruct (e_mid q) as [md|] eqn:ED.
  - destruct (fl_no_reg_save fl); [discriminate|]. symmetry in EM.
    destruct (entry_point_ok _ _ (an_insns _ _ _ AN _ B1) EM) as (pre & i & post & A & B & C & D & _).
    exists h, pre, (i :: post). split; [auto|]. split; [auto|]. split.
    { right. exists i, post. rewrite EP, B. auto. }
    intros F X sem p0 p1 mp st lst k cfa SF PL HH HR RUN RS ME HE HK. unfold height_right in HR.
    assert (PP : Forall plain_stack pre) by (rewrite A in PL; apply Forall_app in PL; tauto).
    destruct (entry_walk F X sem SF pre C PP p0 p1 RUN) as [W1 W2].
    replace (load64 (p_mem p0) (cfa - 8)) with (load64 (mem st) (cfa - 8)).
    2:{ apply load64_ext. intros y Hy. rewrite ME. apply W2. lia. }
    eapply pushes_off; eauto. unfold e_off. rewrite ED. cbn [request_off]. lia.
  - exists h, [], (b_insns (co_block co b)). split; [auto|]. split; [auto|]. split; [left; split; auto|].
    intros F X sem p0 p1 mp st lst k cfa SF PL HH HR RUN RS ME HE HK. unfold height_right in HR.
    cbn [prun] in RUN. injection RUN as <-.
    replace (load64 (p_mem p0) (cfa - 8)) with (load64 (mem st) (cfa - 8)).
    2:{ apply load64_ext. intros y Hy. apply ME. }
    eapply pushes_off; eauto. unfold e_off. rewrite ED. cbn [request_off]. lia.
Qed.
Print Assumptions C57_block_push_partial.
Example C57_block_case :
  exists l q, analysed (c_frame false) (ssum (c_frame false)) 0 /\
    lower (c_frame false) fl_stack 0 (ssum (c_frame false) 0%nat) = Lowered l /\
    In (BeforeInsn (true, 2%nat) 4300, StackPush q)
      (lowered_sites (c_frame false) fl_stack wopts no_dead (ssum (c_frame false) 0%nat) l) /\
    b_sp_entry (co_block (c_frame false) 2) = Some (-16) /\ e_off q = 8 /\
    Forall plain_stack (b_insns (co_block (c_frame false) 2)).
Proof.
  eexists. eexists. split; [apply scode_analysed; vm_compute; reflexivity|].
  split; [vm_compute; reflexivity|]. split; [left; vm_compute; reflexivity|].
  split; [reflexivity|]. split; [vm_compute; reflexivity|]. apply plainb_ok. reflexivity.
Qed.


(** ** Entry pushes and the push of the fast path scheme *)
Section PLAN.
Variables (co : code) (m : sums) (fn : nat) (fl : Lowering.flags) (o : opts) (d : dead_info) (p : plan).
Hypothesis AN : analysed co m fn.
Hypothesis PLAN : Decision.instr fl co fn (Some (m fn)) = p.
Notation blk b := (co_block co b).
Notation s := (m fn).
Notation bs := (f_blocks (co_fun co fn)).

Lemma plan_lowered l : p = ByLowering l -> lower co fl fn s = Lowered l.
Proof.
  intros ->. revert PLAN. unfold Decision.instr.
  destruct (fl_light fl); [|discriminate]. destruct (skippable _ _ _); [discriminate|].
  destruct (lower co fl fn s) as [|l'| |] eqn:L; try discriminate.
  - destruct (use_reg fl s); [discriminate|]. destruct (fast_path co fl fn) as [[[? ?] ?]|]; discriminate.
  - intros E. injection E as ->. auto.
Qed.
Lemma plan_fast slow ps fast : p = ByFastPath slow ps fast -> fast_path co fl fn = Some (slow, ps, fast).
Proof.
  intros ->. revert PLAN. unfold Decision.instr.
  destruct (fl_light fl); [|discriminate]. destruct (skippable _ _ _); [discriminate|].
  destruct (lower co fl fn s) as [|l'| |] eqn:L; try discriminate.
  destruct (use_reg fl s); [discriminate|]. destruct (fast_path co fl fn) as [[[? ?] ?]|]; [|discriminate].
  intros E. injection E as -> -> ->. auto.
Qed.
Lemma plan_entry mv ps rg : p = ByEntry mv ps rg ->
  incl ps (f_exits (co_fun co fn)) /\ (rg = true -> use_reg fl s = true).
Proof.
  intros ->. assert (RP : incl (returning_pops co fn) (f_exits (co_fun co fn))).
  { intros b Hb. apply filter_In in Hb. tauto. }
  revert PLAN. unfold Decision.instr.
  destruct (fl_light fl).
  2:{ intros E. injection E as _ <- <-. split; [auto|discriminate]. }
  destruct (skippable _ _ _); [discriminate|].
  destruct (lower co fl fn s) as [|l'| |] eqn:L; try discriminate.
  destruct (use_reg fl s) eqn:UR.
  - intros E. injection E as _ <- <-. auto.
  - destruct (fast_path co fl fn) as [[[? ?] ?]|]; [discriminate|].
    intros E. injection E as _ <- <-. split; [auto|discriminate].
Qed.
Lemma slow_in slow ps fast : p = ByFastPath slow ps fast -> In slow bs /\ incl ps bs.
Proof.
  intros E. pose proof (plan_fast _ _ _ E) as FP.
  destruct (fast_path_inv co fl fn (proj1 (an_cfg _ _ _ AN)) slow fast ps FP)
    as (_ & _ & _ & SS & _ & _ & _ & _ & _ & EP & _).
  split; [apply (an_step _ _ _ AN _ _ (proj1 (an_cfg _ _ _ AN)) SS)|].
  intros b Hb. rewrite EP in Hb. apply in_app_or in Hb. destruct Hb as [Hb|Hb]; apply filter_In in Hb; destruct Hb as [Hb _].
  - apply in_sources_step in Hb. tauto.
  - apply (an_exits _ _ _ AN). auto.
Qed.

Lemma at_block pl b q mid : In b bs -> plain o -> good_dead o (di_entry d) ->
  mid = zfind (s_entryData s) (startof co b) \/ mid = None ->
  q = mkEreq o (bpoint co b) (jsum_of d s) (match mid with Some _ => true | None => false end) 0 false ->
  pl = match mid with Some m => BeforeInsn (false, b) (m_addr m)
                    | None => pl end -> (mid = None -> pl = AtStart (false, b) \/ pl = AtEntry) ->
  exists pre post, b_insns (blk b) = pre ++ post /\ where_at pl false b pre post /\
    forall (F X : Type) (sem : insn -> pst F X -> option (pst F X)) p0 p1 mp st lst k,
      stack_facts sem -> Forall plain_stack (b_insns (blk b)) ->
      prun sem pre p0 = Some p1 ->
      rg st RSP = p_rg p1 RSP -> (forall a, mem st a = p_mem p1 a) ->
      env mp st lst (p_rg p0 RSP - rg st RSP) k -> (List.length lst < k)%nat ->
      pushes_word q mp st lst (load64 (p_mem p0) (p_rg p0 RSP)).
Proof.
  intros HB HP HD HM EQ EP EN.
  destruct (data co m fn AN b HB) as (DE & _).
  assert (EM : e_mid q = mid).
  { subst q. unfold e_mid, entry_mid. cbn [e_pt e_js e_orig e_fixed jsum_of j_entryData bpoint p_block].
    destruct mid as [md|]; [|reflexivity]. destruct HM as [HM|HM]; [auto|discriminate]. }
  assert (EH : e_height q = 0) by (subst q; reflexivity).
  assert (EQO : e_o q = o /\ e_js q = jsum_of d s) by (subst q; split; reflexivity).
  destruct mid as [md|].
  - destruct HM as [HM|]; [|discriminate]. rewrite DE in HM. symmetry in HM.
    destruct (entry_point_ok _ _ (an_insns _ _ _ AN _ HB) HM) as (pre & i & post & A & B & C & D & GM & _).
    exists pre, (i :: post). split; [auto|]. split.
    { right. exists i, post. rewrite EP, B. auto. }
    intros F X sem p0 p1 mp st lst k SF PL RUN RS ME HE HK.
    assert (PP : Forall plain_stack pre) by (rewrite A in PL; apply Forall_app in PL; tauto).
    destruct (entry_walk F X sem SF pre C PP p0 p1 RUN) as [W1 W2].
    replace (load64 (p_mem p0) (p_rg p0 RSP)) with (load64 (mem st) (p_rg p0 RSP)).
    2:{ apply load64_ext. intros y Hy. rewrite ME. apply W2. lia. }
    eapply pushes_off; eauto.
    + split; [rewrite (proj1 EQO); auto|]. rewrite EM. exact GM.
    + unfold e_off. rewrite EM, EH. cbn [request_off]. lia.
  - exists [], (b_insns (blk b)). split; [auto|]. split.
    { left. split; [|auto]. destruct (EN eq_refl); auto. }
    intros F X sem p0 p1 mp st lst k SF PL RUN RS ME HE HK.
    cbn [prun] in RUN. injection RUN as <-.
    replace (load64 (p_mem p0) (p_rg p0 RSP)) with (load64 (mem st) (p_rg p0 RSP)).
    2:{ apply load64_ext. intros y Hy. apply ME. }
    eapply pushes_off; eauto.
    + split; [rewrite (proj1 EQO); auto|]. rewrite EM, (proj1 EQO), (proj2 EQO). exact HD.
    + unfold e_off. rewrite EM, EH. cbn [request_off]. lia.
Qed.
End PLAN.

Lemma pop_no_push co fl o d s cl r l pl q : ~ In (pl, StackPush q) (map (pop_site co fl o d s cl r) l).
Proof.
  intros H. apply in_map_iff in H. destruct H as (b & E & _). unfold pop_site in E.
  destruct r; [discriminate|]. destruct (opt_mid _ _ _); discriminate.
Qed.

Theorem C57_entry_push_partial :
  forall co m fn fl o d p pl q,
    analysed co m fn -> Decision.instr fl co fn (Some (m fn)) = p ->
    plain o -> good_dead o (di_entry d) ->
    (forall l, p <> ByLowering l) -> In (pl, StackPush q) (plan_sites co fl o d (m fn) fn p) ->
    exists b pre post,
      match p with ByEntry _ _ _ => b = f_entry (co_fun co fn) | ByFastPath slow _ _ => b = slow | _ => False end /\
      b_insns (co_block co b) = pre ++ post /\ where_at pl false b pre post /\
      forall (F X : Type) (sem : insn -> pst F X -> option (pst F X)) p0 p1 mp st lst k,
        stack_facts sem -> Forall plain_stack (b_insns (co_block co b)) ->
        prun sem pre p0 = Some p1 ->
        rg st RSP = p_rg p1 RSP -> (forall a, mem st a = p_mem p1 a) ->
        env mp st lst (p_rg p0 RSP - rg st RSP) k -> (List.length lst < k)%nat ->
        pushes_word q mp st lst (load64 (p_mem p0) (p_rg p0 RSP)).
Proof.
  intros co m fn fl o d p pl q AN PLAN HP HD NL H.
  destruct p as [|l|mv ps rg|slow ps fast| |]; try contradiction.
  - exfalso. apply (NL l). auto.
  - cbn [plan_sites] in H. destruct H as [H|H]; [|exfalso; eapply pop_no_push; eauto].
    assert (B : In (f_entry (co_fun co fn)) (f_blocks (co_fun co fn))) by apply (an_cfg _ _ _ AN).
    unfold entry_site in H. destruct rg; [discriminate|].
    assert (X : exists mid, (mid = zfind (s_entryData (m fn)) (startof co (f_entry (co_fun co fn))) \/ mid = None) /\
      q = mkEreq o (bpoint co (f_entry (co_fun co fn))) (jsum_of d (m fn))
            (match mid with Some _ => true | None => false end) 0 false /\
      pl = match mid with Some m => BeforeInsn (false, f_entry (co_fun co fn)) (m_addr m) | None => AtEntry end).
    { destruct mv; [destruct (zfind _ _) as [md|] eqn:Z|]; injection H as <- <-.
      - exists (Some md). auto. - exists None. auto. - exists None. auto. }
    destruct X as (mid & HM & EQ & EP).
    destruct (at_block co m fn o d AN pl _ q mid B HP HD HM EQ) as (pre & post & K).
    { destruct mid; auto. } { intros ->. auto. }
    exists (f_entry (co_fun co fn)), pre, post. split; auto.
  - cbn [plan_sites] in H. destruct H as [H|H]; [|exfalso; eapply pop_no_push; eauto].
    destruct (slow_in co m fn fl _ AN PLAN slow ps fast eq_refl) as [B _].
    unfold slow_site in H.
    assert (X : exists mid, (mid = zfind (s_entryData (m fn)) (startof co slow) \/ mid = None) /\
      q = mkEreq o (bpoint co slow) (jsum_of d (m fn))
            (match mid with Some _ => true | None => false end) 0 false /\
      pl = match mid with Some m => BeforeInsn (false, slow) (m_addr m) | None => AtStart (false, slow) end).
    { exists (opt_mid fl (s_entryData (m fn)) (startof co slow)). unfold opt_mid in *.
      destruct (fl_no_reg_save fl); [injection H as <- <-; auto|].
      destruct (zfind _ _) as [md|]; injection H as <- <-; auto. }
    destruct X as (mid & HM & EQ & EP).
    destruct (at_block co m fn o d AN pl _ q mid B HP HD HM EQ) as (pre & post & K).
    { destruct mid; auto. } { intros ->. auto. }
    exists slow, pre, post. split; auto.
Qed.
Print Assumptions C57_entry_push_partial.
(** The push is after push rcx, and takes the word 8 above rsp. *)
Example C57_entry_case :
  exists p q, analysed c_line (ssum c_line) 0 /\ Decision.instr fl_stack c_line 0 (Some (ssum c_line 0%nat)) = p /\
    p = ByEntry true [0%nat] false /\
    In (BeforeInsn (false, 0%nat) 4097, StackPush q) (plan_sites c_line fl_stack wopts no_dead (ssum c_line 0%nat) 0 p) /\
    e_off q = 8 /\ Forall plain_stack (b_insns (co_block c_line 0)).
Proof.
  eexists. eexists. split; [apply scode_analysed; vm_compute; reflexivity|].
  split; [vm_compute; reflexivity|]. split; [reflexivity|]. split; [left; vm_compute; reflexivity|].
  split; [vm_compute; reflexivity|]. apply plainb_ok. reflexivity.
Qed.
Example C57_slow_case :
  exists p q ps, analysed c_fast (ssum c_fast) 0 /\ Decision.instr fl_stack c_fast 0 (Some (ssum c_fast 0%nat)) = p /\
    p = ByFastPath 1 ps 2 /\
    In (BeforeInsn (false, 1%nat) 4303, StackPush q) (plan_sites c_fast fl_stack wopts no_dead (ssum c_fast 0%nat) 0 p) /\
    e_off q = 8.
Proof.
  eexists. eexists. eexists. split; [apply scode_analysed; vm_compute; reflexivity|].
  split; [vm_compute; reflexivity|]. split; [reflexivity|]. split; [left; vm_compute; reflexivity|].
  vm_compute; reflexivity.
Qed.


(** ** Register frames *)
Lemma all14_reg x : In x all14 -> exists r, r <> RSP /\ r <> RBP /\ x = reg_name r.
Proof.
  cbn [all14 In]. intros H.
  repeat destruct H as [<-|H];
    [exists R10|exists R11|exists R12|exists R13|exists R14|exists R15|exists R8|exists R9
    |exists RAX|exists RBX|exists RCX|exists RDI|exists RDX|exists RSI|contradiction];
    split; try discriminate; split; try discriminate; reflexivity.
Qed.
Lemma reg_frame_inv co m fn fl d : analysed co m fn -> use_reg fl (m fn) = true ->
  (forall g, ~ calls co fn g) /\ (forall a n, ~ plt_call co fn a n) /\ ~ unresolved co fn /\
  exists r, r <> RBP /\ borrows (jsum_of d (m fn)) r /\
    forall b i x, In b (f_blocks (co_fun co fn)) -> In i (b_insns (co_block co b)) ->
      In x (i_read i) \/ In x (i_written i) -> normalize (mreg_name x) <> Some (reg_name r).
Proof.
  intros AN UR. unfold use_reg in UR. apply andb_true_iff in UR. destruct UR as [UR _].
  unfold use_reg_frame in UR. rewrite !andb_true_iff in UR. destruct UR as [[U1 U2] U3].
  apply negb_true_iff in U3. apply orb_false_iff in U3. destruct U3 as [U3 U4].
  destruct (run_light_parts co m fn (nd co m fn AN) (an_run _ _ _ AN) (an_in _ _ _ AN))
    as (s3 & s5 & s6 & _ & _ & D5 & _ & CC & (E1 & E2 & E3) & UU & EM).
  destruct (CC (an_wf _ _ _ AN)) as (C1 & C2 & C3 & C4).
  rewrite E1 in U3. rewrite E2 in U4. rewrite E3 in U1.
  split. { intros g K. apply C1 in K. destruct (s_callees s5); [contradiction|discriminate]. }
  split. { intros a n K. apply C4 in K. destruct K as (w & K). destruct (s_plt_calls s5); [contradiction|discriminate]. }
  split. { intros K. apply C2 in K. congruence. }
  assert (S6 : s_unused (m fn) = s_unused s6).
  { rewrite EM. pose proof (block_dead_late co fn s6) as B. injection B as _ _ _ B. exact B. }
  unfold data_fields in D5. injection D5 as _ _ _ _ D5.
  destruct (s_unused (m fn)) as [|x rest] eqn:SU; [discriminate|].
  destruct (unused_regs_spec co fn s5 s6 UU D5 x) as [A B]; [rewrite <- S6; left; auto|].
  destruct (all14_reg x A) as (r & R1 & R2 & ->).
  exists r. split; [auto|]. split.
  { split; [auto|]. exists rest. cbn [jsum_of j_unused]. auto. }
  intros b i y Hb Hi Hy. apply (B i y); auto. unfold func_insns. apply in_concat.
  exists (b_insns (co_block co b)). split; auto. apply in_map_iff. eauto.
Qed.

(** The frame height that the stack analysis gives for a place. *)
Inductive place_height (co : code) : place -> Z -> Prop :=
| ph_edge x h : b_sp_end (co_block co (fst x)) = Some h -> place_height co (OnEdge x) h
| ph_start n h : b_sp_entry (co_block co (snd n)) = Some h -> place_height co (AtStart n) h
| ph_entry : place_height co AtEntry (-8).

Lemma reg_sites co m fn fl o d p pl js h :
  analysed co m fn -> Decision.instr fl co fn (Some (m fn)) = p ->
  In (pl, RegPush js h) (plan_sites co fl o d (m fn) fn p) ->
  js = jsum_of d (m fn) /\ use_reg fl (m fn) = true /\ exists v, place_height co pl v /\ h = -8 - v.
Proof.
  intros AN PLAN H.
  destruct p as [|l|mv ps rg|slow ps fast| |]; try contradiction; cbn [plan_sites] in H.
  - pose proof (plan_lowered co m fn fl _ PLAN l eq_refl) as LOW.
    pose proof (lower_checks co fl fn (m fn) l (an_cfg _ _ _ AN) LOW) as (_ & LR & RE & PE & PB & _).
    apply in_sites in H. destruct H as [(x & Hx & E)|[(b & Hb & E)|(b & Hb & E)]].
    + unfold edge_site in E. destruct (l_reg l); [|discriminate]. injection E as <- <- <-.
      split; [auto|]. split; [auto|]. destruct (RE x (PE x Hx)) as (B1 & _ & (v & ZV) & _).
      destruct (heights co m fn AN (fst x) v B1) as [HH _]. destruct (HH ZV) as (w & SH & EV).
      exists w. split; [constructor; auto|]. unfold zget. rewrite ZV. exact EV.
    + unfold block_site in E. destruct (l_reg l); [|destruct (opt_mid _ _ _); discriminate].
      injection E as <- <- <-. split; [auto|]. split; [auto|].
      destruct (PB b Hb) as (B1 & _ & (v & ZV)).
      destruct (heights co m fn AN b v B1) as [_ HH]. destruct (HH ZV) as (w & SH & EV).
      exists w. split; [constructor; auto|]. unfold zget. rewrite ZV. exact EV.
    + unfold pop_site in E. destruct (l_reg l); [discriminate|]. destruct (opt_mid _ _ _); discriminate.
  - destruct (plan_entry co m fn fl _ PLAN mv ps rg eq_refl) as [_ UR].
    destruct H as [H|H].
    + unfold entry_site in H. destruct rg; [|destruct mv; [destruct (zfind _ _)|]; discriminate].
      injection H as <- <- <-. split; [auto|]. split; [auto|]. exists (-8). split; [constructor|lia].
    + apply in_map_iff in H. destruct H as (b & E & _). unfold pop_site in E.
      destruct rg; [discriminate|]. destruct (opt_mid _ _ _); discriminate.
  - destruct H as [H|H].
    + unfold slow_site in H. destruct (opt_mid _ _ _); discriminate.
    + apply in_map_iff in H. destruct H as (b & E & _). unfold pop_site in E.
      destruct (opt_mid _ _ _); discriminate.
Qed.

(** Every register push, wherever the plan puts it, moves the return address into the
    borrowed register and saves that register's value in the scratch word. *)
Theorem C57_reg_push :
  forall co m fn fl o d p pl js h,
    analysed co m fn -> Decision.instr fl co fn (Some (m fn)) = p -> plain o ->
    In (pl, RegPush js h) (plan_sites co fl o d (m fn) fn p) ->
    exists r c v, borrows js r /\ jit_register_push o kRegisterMap js h = EOk c /\ place_height co pl v /\
      forall mp st cfa,
        height_right cfa v (rg st RSP) -> wf st ->
        mapped mp (gs st) 16 -> mapped mp (cfa - 8) 8 -> apart (cfa - 8) 8 (gs st) 16 ->
        exists st', exec c mp st (Done st') /\
          rg st' r = load64 (mem st) (cfa - 8) /\ load64 (mem st') (gs st + 8) = rg st r /\
          (forall r', r' <> r -> rg st' r' = rg st r') /\
          Machine.fl st' = Machine.fl st /\ gs st' = gs st /\
          (forall x, ~ inside (gs st + 8) 8 x -> mem st' x = mem st x).
Proof.
  intros co m fn fl o d p pl js h AN PLAN HP H.
  destruct (reg_sites co m fn fl o d p pl js h AN PLAN H) as (-> & UR & v & PH & EH).
  destruct (reg_frame_inv co m fn fl d AN UR) as (_ & _ & _ & r & _ & BR & _).
  exists r, (reg_push_code r h), v. split; [auto|]. split.
  { apply reg_push_shape; auto. apply is_empty_plain; auto. apply is_only_plain; auto. }
  split; [auto|]. intros mp st cfa HR WF M1 M2 AP. unfold height_right in HR.
  assert (EA : rg st RSP + h = cfa - 8) by lia.
  rewrite <- EA in *. exact (reg_push_run mp st r h WF (proj1 BR) M1 M2 AP).
Qed.
Print Assumptions C57_reg_push.
Example C57_reg_case :
  exists p js, analysed (c_frame true) (ssum (c_frame true)) 0 /\
    Decision.instr fl_plain (c_frame true) 0 (Some (ssum (c_frame true) 0%nat)) = p /\
    In (OnEdge (0, 0)%nat, RegPush js 8) (plan_sites (c_frame true) fl_plain wopts no_dead (ssum (c_frame true) 0%nat) 0 p) /\
    borrows js R10.
Proof.
  eexists. eexists. split; [apply scode_analysed; vm_compute; reflexivity|].
  split; [vm_compute; reflexivity|]. split; [left; vm_compute; reflexivity|].
  split; [discriminate|]. eexists. vm_compute; reflexivity.
Qed.


Lemma reg_pops_in co m fn fl o d p pl js :
  analysed co m fn -> Decision.instr fl co fn (Some (m fn)) = p ->
  In (pl, RegPop js) (plan_sites co fl o d (m fn) fn p) ->
  js = jsum_of d (m fn) /\ use_reg fl (m fn) = true /\
  exists cl b, In b (f_exits (co_fun co fn)) /\ pl = AtEnd (cl, b).
Proof.
  intros AN PLAN H.
  assert (PS : forall cl rg b, pop_site co fl o d (m fn) cl rg b = (pl, RegPop js) -> rg = true /\ js = jsum_of d (m fn) /\ pl = AtEnd (cl, b)).
  { intros cl rg b E. unfold pop_site in E. destruct rg; [injection E as <- <-; auto|]. destruct (opt_mid _ _ _); discriminate. }
  destruct p as [|l|mv ps rg|slow ps fast| |]; try contradiction; cbn [plan_sites] in H.
  - pose proof (plan_lowered co m fn fl _ PLAN l eq_refl) as LOW.
    pose proof (lower_checks co fl fn (m fn) l (an_cfg _ _ _ AN) LOW) as (_ & LR & _ & _ & _ & PO).
    apply in_sites in H. destruct H as [(x & Hx & E)|[(b & Hb & E)|(b & Hb & E)]].
    + unfold edge_site in E. destruct (l_reg l); discriminate.
    + unfold block_site in E. destruct (l_reg l); [discriminate|]. destruct (opt_mid _ _ _); discriminate.
    + apply PS in E. destruct E as (E & -> & ->). split; [auto|]. split; [congruence|]. exists true, b. auto.
  - destruct (plan_entry co m fn fl _ PLAN mv ps rg eq_refl) as [IP UR].
    destruct H as [H|H].
    + unfold entry_site in H. destruct rg; [discriminate|]. destruct mv; [destruct (zfind _ _)|]; discriminate.
    + apply in_map_iff in H. destruct H as (b & E & Hb). apply PS in E. destruct E as (E & -> & ->).
      split; [auto|]. split; [auto|]. exists false, b. auto.
  - destruct H as [H|H].
    + unfold slow_site in H. destruct (opt_mid _ _ _); discriminate.
    + apply in_map_iff in H. destruct H as (b & E & _). apply PS in E. destruct E; discriminate.
Qed.
(** Every register check is placed in front of the instruction that ends an exit block, in the block
    or its copy.  It compares the word rsp points to with the register that the pushes have filled.
    If they agree it gives the register its old value; if not, it looks for the word on the shadow
    stack [l] and traps if it is not there. *)
Theorem C57_reg_pop :
  forall co m fn fl o d p pl js,
    analysed co m fn -> Decision.instr fl co fn (Some (m fn)) = p -> plain o ->
    In (pl, RegPop js) (plan_sites co fl o d (m fn) fn p) ->
    exists r c cl b, borrows js r /\ jit_register_pop o kRegisterMap js = EOk c /\
      In b (f_exits (co_fun co fn)) /\ pl = AtEnd (cl, b) /\
      (forall pl' js' h, In (pl', RegPush js' h) (plan_sites co fl o d (m fn) fn p) -> js' = js) /\
      forall mp st l k, env mp st l 0 k -> apart (rg st RSP) 8 (gs st) 8 ->
        let w := load64 (mem st) (rg st RSP) in
        let old s' := rg s' r = load64 (mem st) (gs st + 8) /\ gs s' = gs st /\ (forall r', r' <> r -> rg s' r' = rg st r') in
        (w = rg st r -> exists s', exec c mp st (Done s') /\ old s' /\ (forall x, mem s' x = mem st x)) /\
        (w <> rg st r ->
           match unwind w l with
           | Some l' => clean_above w l -> exists s', exec c mp st (Done s') /\ old s' /\ shadow_rep (mem s') (gs st) l'
           | None => w <> 0 -> exec c mp st Trap
           end).
Proof.
  intros co m fn fl o d p pl js AN PLAN HP H.
  destruct (reg_pops_in co m fn fl o d p pl js AN PLAN H) as (-> & UR & cl & b & HB & EP).
  destruct (reg_frame_inv co m fn fl d AN UR) as (_ & _ & _ & r & _ & BR & _).
  exists r, (reg_pop_code r), cl, b. split; [auto|]. split.
  { apply reg_pop_shape; auto. apply is_empty_plain; auto. apply is_only_plain; auto. }
  split; [auto|]. split; [auto|]. split.
  { intros pl' js' h K. destruct (reg_sites co m fn fl o d p pl' js' h AN PLAN K) as (-> & _). reflexivity. }
  intros mp st l k EV AP w old. destruct (reg_pop_run mp st l k r EV AP (proj1 BR)) as [GOOD BAD]. fold w in GOOD, BAD. split.
  - intros E. destruct (GOOD E) as (s' & X1 & X2 & X3 & X4 & X5). exists s'. split; [auto|]. split; [split; auto|auto].
  - intros NE. specialize (BAD NE). destruct (unwind w l) as [l'|]; [|auto].
    destruct BAD as [BAD _]. intros CA. destruct (BAD CA) as (s' & X1 & X2 & X3 & X4 & X5 & _). exists s'.
    split; [auto|]. split; [split; auto|auto].
Qed.
Print Assumptions C57_reg_pop.
Example C57_reg_pop_case :
  exists p js, analysed (c_frame true) (ssum (c_frame true)) 0 /\
    Decision.instr fl_plain (c_frame true) 0 (Some (ssum (c_frame true) 0%nat)) = p /\
    In (AtEnd (true, 3%nat), RegPop js) (plan_sites (c_frame true) fl_plain wopts no_dead (ssum (c_frame true) 0%nat) 0 p) /\
    borrows js R10.
Proof.
  eexists. eexists. split; [apply scode_analysed; vm_compute; reflexivity|].
  split; [vm_compute; reflexivity|]. split; [vm_compute; auto 8|].
  split; [discriminate|]. eexists. vm_compute; reflexivity.
Qed.

(** ** Pops *)
(** The snippet accepts [word] if it is on the shadow stack [l], and traps otherwise. *)
Definition checks_word (q : xreq) (mp : perm) (st : state) (l : list Z) (word : Z) : Prop :=
  exists c, x_code q = EOk (c, kRegisterMap) /\
    match unwind word l with
    | Some l' =>
        (clean_above word l -> exists st', exec c mp st (Done st') /\
           shadow_rep (mem st') (gs st) l' /\ rg st' RSP = rg st RSP /\ gs st' = gs st /\
           (forall r, ~ In (reg_name r) (x_dead q) -> rg st' r = rg st r) /\
           (forall x, ~ inside (rg st RSP - x_scratch q) (x_scratch q) x -> ~ inside (gs st) 8 x ->
              mem st' x = mem st x)) /\
        (~ clean_above word l -> exec c mp st Trap)
    | None => word <> 0 -> exec c mp st Trap
    end.
Lemma checks_off q mp st l k a :
  x_ok q -> x_off q = a - rg st RSP -> env mp st l (a - rg st RSP) k -> apart a 8 (gs st) 8 ->
  checks_word q mp st l (load64 (mem st) a).
Proof.
  intros OK EO HE HA. rewrite <- EO in HE.
  assert (EA : rg st RSP + x_off q = a) by lia.
  destruct (exit_run_tight q mp st l k OK HE) as (c & X1 & X2); [rewrite EA; auto|].
  rewrite EA in X2. exists c. split; [auto|].
  destruct (unwind (load64 (mem st) a) l) as [l'|]; [|auto]. destruct X2 as [X2 X3]. split; [|auto].
  intros CA. destruct (X2 CA) as (s' & Y1 & Y2 & Y3 & Y4 & Y5 & Y6). exists s'. auto 10.
Qed.

Lemma pop_sites_in co m fn fl o d p pl q :
  analysed co m fn -> Decision.instr fl co fn (Some (m fn)) = p ->
  In (pl, StackPop q) (plan_sites co fl o d (m fn) fn p) ->
  exists cl b, In b (f_blocks (co_fun co fn)) /\ pop_site co fl o d (m fn) cl false b = (pl, StackPop q).
Proof.
  intros AN PLAN H.
  destruct p as [|l|mv ps rg|slow ps fast| |]; try contradiction; cbn [plan_sites] in H.
  - pose proof (plan_lowered co m fn fl _ PLAN l eq_refl) as LOW.
    pose proof (lower_checks co fl fn (m fn) l (an_cfg _ _ _ AN) LOW) as (_ & _ & _ & _ & _ & PO).
    apply in_sites in H. destruct H as [(x & Hx & E)|[(b & Hb & E)|(b & Hb & E)]].
    + unfold edge_site in E. destruct (l_reg l); discriminate.
    + unfold block_site in E. destruct (l_reg l); [discriminate|]. destruct (opt_mid _ _ _); discriminate.
    + exists true, b. split; [apply (an_exits _ _ _ AN); auto|].
      destruct (l_reg l); [discriminate|auto].
  - destruct (plan_entry co m fn fl _ PLAN mv ps rg eq_refl) as [IP _].
    destruct H as [H|H].
    + unfold entry_site in H. destruct rg; [discriminate|]. destruct mv; [destruct (zfind _ _)|]; discriminate.
    + apply in_map_iff in H. destruct H as (b & E & Hb). exists false, b.
      split; [apply (an_exits _ _ _ AN); auto|]. destruct rg; [discriminate|auto].
  - destruct (slow_in co m fn fl _ AN PLAN slow ps fast eq_refl) as [_ IP].
    destruct H as [H|H].
    + unfold slow_site in H. destruct (opt_mid _ _ _); discriminate.
    + apply in_map_iff in H. destruct H as (b & E & Hb). exists false, b. auto.
Qed.

(** Every exit check, wherever the plan puts it, looks at the word the function is about
    to return to: the word rsp points to once the rest [post] of the block before its
    return instruction [tail] has run. *)
Theorem C57_pop_partial :
  forall co m fn fl o d p pl q,
    analysed co m fn -> Decision.instr fl co fn (Some (m fn)) = p ->
    plain o -> (forall a l, zfind (di_exit d) a = Some l -> good_dead o l) ->
    In (pl, StackPop q) (plan_sites co fl o d (m fn) fn p) ->
    exists cl b, In b (f_blocks (co_fun co fn)) /\
      forall body tail, block_shape (b_insns (co_block co b)) body tail ->
      exists pre post, body = pre ++ post /\
        (pl = AtEnd (cl, b) /\ post = [] \/
         exists i post', post = i :: post' /\ pl = BeforeInsn (cl, b) (i_addr i)) /\
        forall (F X : Type) (sem : insn -> pst F X -> option (pst F X)) p0 p1 mp st lst k,
          stack_facts sem -> Forall plain_stack (b_insns (co_block co b)) ->
          rg st RSP = p_rg p0 RSP -> (forall a, mem st a = p_mem p0 a) ->
          prun sem post p0 = Some p1 ->
          env mp st lst (p_rg p1 RSP - rg st RSP) k -> apart (p_rg p1 RSP) 8 (gs st) 8 ->
          checks_word q mp st lst (load64 (p_mem p1) (p_rg p1 RSP)).
Proof.
  intros co m fn fl o d p pl q AN PLAN HP HD H.
  destruct (pop_sites_in co m fn fl o d p pl q AN PLAN H) as (cl & b & HB & E).
  exists cl, b. split; [auto|]. intros body tail SH.
  destruct (data co m fn AN b HB) as (_ & DX & _).
  unfold pop_site in E.
  destruct (opt_mid fl (s_exitData (m fn)) (startof co b)) as [md|] eqn:OM; injection E as <- <-.
  - assert (EP : exit_point (b_insns (co_block co b)) = Some md).
    { unfold opt_mid in OM. destruct (fl_no_reg_save fl); [discriminate|]. rewrite DX in OM. auto. }
    assert (EM : x_mid (mkXreq o (bpoint co b) (jsum_of d (m fn)) true) = Some md).
    { unfold x_mid, exit_mid. cbn [x_pt x_js x_orig bpoint p_block jsum_of j_exitData].
      unfold startof in *. rewrite DX. exact EP. }
    destruct (exit_point_ok _ body tail md (an_insns _ _ _ AN _ HB) SH EP) as (pre & i & post & A & B & C & D & GM & _).
    exists pre, (i :: post). split; [auto|]. split.
    { right. exists i, post. rewrite B. auto. }
    intros F X sem p0 p1 mp st lst k SF PL RS ME RUN HE HA.
    assert (PP : Forall plain_stack (i :: post)).
    { destruct SH as (S1 & _). rewrite S1, A, <- app_assoc in PL. apply Forall_app in PL.
      destruct PL as [_ PL]. apply Forall_app in PL. tauto. }
    destruct (exit_walk F X sem SF (i :: post) C PP p0 p1 RUN) as [W1 W2].
    replace (load64 (p_mem p1) (p_rg p1 RSP)) with (load64 (mem st) (p_rg p1 RSP)).
    2:{ apply load64_ext. intros y Hy. rewrite ME, W2. reflexivity. }
    eapply checks_off; eauto.
    + split; [exact HP|]. rewrite EM. exact GM.
    + unfold x_off. rewrite EM. cbn [request_off]. lia.
  - exists body, []. rewrite app_nil_r. split; [auto|]. split; [auto|].
    intros F X sem p0 p1 mp st lst k SF PL RS ME RUN HE HA.
    cbn [prun] in RUN. injection RUN as <-.
    replace (load64 (p_mem p0) (p_rg p0 RSP)) with (load64 (mem st) (p_rg p0 RSP)).
    2:{ apply load64_ext. intros y Hy. apply ME. }
    eapply checks_off; eauto.
    + split; [exact HP|].
      change (x_mid (mkXreq o (bpoint co b) (jsum_of d (m fn)) false)) with (@None mid).
      cbn [request_ok x_pt x_js x_o]. unfold exit_dead_set, bpoint. cbn [jsum_of j_dead_exit p_addr].
      destruct (zfind (di_exit d) (b_last (co_block co b))) eqn:Z;
        [eapply HD; eauto|right; left; auto].
    + unfold x_off. change (x_mid (mkXreq o (bpoint co b) (jsum_of d (m fn)) false)) with (@None mid).
      cbn [request_off]. lia.
Qed.
Print Assumptions C57_pop_partial.
(** Refuted for a pop of two bytes: the return address is 2 above rsp, the check before the pop takes the word
    8 above rsp and stops the program although nothing is wrong. *)
Definition w_state : state := mkState wregs (build wgs [72340172838076673] (store64 (fun _ => 0) (wsp + 2) 72340172838076673)) wgs wfl 0.
Theorem C57_pop_refuted :
  exists co m fn fl o d pl q b body tail pre post (p0 p1 : xst) mp st lst k c,
    analysed co m fn /\ plain o /\ (forall a l, zfind (di_exit d) a = Some l -> good_dead o l) /\
    In (pl, StackPop q) (plan_sites co fl o d (m fn) fn (Decision.instr fl co fn (Some (m fn)))) /\
    block_shape (b_insns (co_block co b)) body tail /\ body = pre ++ post /\
    (exists i post', post = i :: post' /\ pl = BeforeInsn (false, b) (i_addr i)) /\
    stack_facts xsem /\ rg st RSP = p_rg p0 RSP /\ (forall a, mem st a = p_mem p0 a) /\ prun xsem post p0 = Some p1 /\
    env mp st lst (p_rg p1 RSP - rg st RSP) k /\ apart (p_rg p1 RSP) 8 (gs st) 8 /\
    lst = [load64 (p_mem p1) (p_rg p1 RSP)] /\ clean_above (load64 (p_mem p1) (p_rg p1 RSP)) lst /\
    x_code q = EOk (c, kRegisterMap) /\ exec c mp st Trap /\ ~ checks_word q mp st lst (load64 (p_mem p1) (p_rg p1 RSP)).
Proof.
  eexists c_word, (ssum c_word), 0%nat, fl_stack, wopts, no_dead, (BeforeInsn (false, 0%nat) 4106), _, 0%nat,
    (firstn 6 (b_insns (co_block c_word 0))), [x_ret 4110], (firstn 4 (b_insns (co_block c_word 0))), [x_op 4106 [MG RDI P64] [MG RDX P64]; x_pop 4109 RCX P16],
    (mkPst (rg w_state) (mem w_state) 0 tt), _, mp_all, w_state, [72340172838076673], 8%nat, _.
  split; [apply scode_analysed; vm_compute; reflexivity|]. split; [split; [discriminate|split; [discriminate|reflexivity]]|]. split; [intros a l K; discriminate K|].
  match goal with |- In _ ?l /\ _ => let v := eval vm_compute in l in assert (L : l = v) by (vm_compute; reflexivity); rewrite L; clear L end.
  split; [right; left; reflexivity|].
  split; [split; [reflexivity|]; split; [repeat constructor; discriminate|]; right; eexists; split; reflexivity|].
  split; [reflexivity|]. split; [eexists _, _; split; reflexivity|]. split; [exact xsem_facts|].
  split; [reflexivity|]. split; [reflexivity|]. split; [reflexivity|].
  match goal with |- env _ _ _ ?o _ /\ _ => replace o with 2 by (vm_compute; reflexivity) end.
  split.
  { constructor.
    - split; [|cbn; unfold wgs, W; lia]. intros r. cbn. unfold wregs, wsp, W. destruct r; lia.
    - apply mapped_all; cbn; unfold wsp, W; lia.
    - lia.
    - apply mapped_all; cbn; unfold wsp, W; lia.
    - cbn; lia.
    - apply mapped_all; cbn [gs w_state]; unfold wgs, W; lia.
    - cbn [gs w_state]. unfold slot, wgs, W; lia.
    - cbn [gs rg w_state]. unfold apart, wregs, wsp, wgs. lia.
    - cbn [mem gs w_state]. apply build_rep; [intros v [<-|[]]; unfold W; lia|unfold wgs; lia|unfold slot, wgs, W; cbn; lia]. }
  split; [vm_compute; left; discriminate|]. split; [vm_compute; reflexivity|]. split; [vm_compute; auto|].
  split; [vm_compute; reflexivity|].
  match goal with |- exec ?c ?m ?s _ /\ _ => assert (T : exec c m s Trap) by (apply (exec_trap 200); vm_compute; reflexivity) end.
  split; [exact T|]. intros (c' & E & K).
  match type of E with ?x = _ => let v := eval vm_compute in x in assert (E2 : x = v) by (vm_compute; reflexivity) end.
  rewrite E2 in E. injection E as <-.
  match type of K with match unwind ?w ?l with _ => _ end => assert (U : unwind w l = Some []) by (vm_compute; reflexivity) end.
  rewrite U in K. destruct K as (K & _). destruct K as (st' & D & _); [vm_compute; auto|]. pose proof (exec_det _ _ _ _ _ D T). discriminate.
Qed.
Print Assumptions C57_pop_refuted.
(** The check runs before pop rcx and takes the word 8 above rsp. *)
Example C57_pop_case :
  exists p q body, analysed c_line (ssum c_line) 0 /\ Decision.instr fl_stack c_line 0 (Some (ssum c_line 0%nat)) = p /\
    In (BeforeInsn (false, 0%nat) 4109, StackPop q) (plan_sites c_line fl_stack wopts no_dead (ssum c_line 0%nat) 0 p) /\
    x_off q = 8 /\ block_shape (b_insns (co_block c_line 0)) body [x_ret 4110].
Proof.
  eexists. eexists. eexists (firstn 6 (b_insns (co_block c_line 0))). split; [apply scode_analysed; vm_compute; reflexivity|].
  split; [vm_compute; reflexivity|]. split; [right; left; vm_compute; reflexivity|].
  split; [vm_compute; reflexivity|]. split; [reflexivity|]. split; [repeat constructor; discriminate|].
  right. eexists; split; reflexivity.
Qed.

