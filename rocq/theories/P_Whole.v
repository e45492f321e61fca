(** * P_Whole: properties C55, C56 (whole programs) *)
From Coq Require Import ZArith Bool Lia Arith String List.
From Verif Require Import Machine Jit ShadowSpec Dfs Binary CallGraph InterProc MemPasses Pipeline
  ExCode SafePaths P_Paths Lowering P_Lower FastPath Decision P_Instr FullRun Whole.
Import ListNotations.
Open Scope Z_scope.

(** ** The instrumented program
    The results of the passes are looked up by address (instrument.cc:983-985, 714-717). *)
Definition analyses (co : code) (fl : flags) (m : sums) (a : Z) : option summary :=
  if fl_light fl then option_map m (find (fun f => f_addr (co_fun co f) =? a) (co_funcs co)) else None.
Definition planned (co : code) (fl : flags) (m : sums) (fs : list finfo) (f : nat) : plan :=
  match find (fun q => Nat.eqb (fst q) f) (instr_module fl co (analyses co fl m) fs) with
  | Some q => snd q
  | None => Untouched
  end.
Definition can_return (fs : list finfo) (f : nat) : bool :=
  existsb (fun i => Nat.eqb (fi_fn i) f && negb (fi_noreturn i)) fs.

(** ** Assumptions about the binary and its disassembly *)
Record parsed (co : code) (fs : list finfo) : Prop := {
  p_wf : well_formed co;
  p_fn : forall f, own co f -> fn_ok co f /\ cfg_ok co f /\ rets_ok co f;
  (* a return edge does not lead to another block of the function *)
  p_noret : forall f b e, own co f -> In b (f_blocks (co_fun co f)) -> edge_in co b e ->
    followable e -> e_ty e <> RET;
  (* control leaves the function only at its exit blocks *)
  p_exits : forall f b, own co f -> In b (f_blocks (co_fun co f)) ->
    (is_ret co b \/ exists e, is_tail co b e) -> returning_exit co f b;
  (* a block has at most one call, and a call writes memory *)
  p_calls : forall f b e, own co f -> In b (f_blocks (co_fun co f)) -> is_call co b e ->
    (exists i, In i (b_insns (co_block co b)) /\ i_wmem i = true) /\
    (forall e', is_call co b e' -> e' = e);
  p_addr : forall f, In f (co_funcs co) ->
    f_addr (co_fun co f) = b_start (co_block co (f_entry (co_fun co f)));
  p_one : forall f g, In f (co_funcs co) -> In g (co_funcs co) ->
    f_addr (co_fun co f) = f_addr (co_fun co g) -> f = g;
  (* the module lists every function once; those that return are in .text *)
  p_list : NoDup (map fi_fn fs);
  p_text : forall i, In i fs -> own co (fi_fn i) -> fi_noreturn i = false -> fi_region i = ".text"%string }.

(** No function that [f] can get to by calls is unsafe. *)
Definition harmless (co : code) (f : nat) : Prop :=
  forall g, call_reach co f g -> ~ unsafe_itself co g.
(** ** What the tool does not cope with: mutual recursion (C25), jumps from a harmless function
    into another one (C26), conditional jumps to other functions (C37), stores that straddle the
    return address (C28), a build without assertions (C36), a wrong skip list (C40). *)
Inductive limit := Mutual | Tail | Exits | Width | Asserts | Skips.
Definition within (co : code) (fl : flags) (width : insn -> Z) (k : limit) : Prop :=
  match k with
  | Mutual => forall f, In f (co_funcs co) -> no_mutual co f
  | Tail => forall f b e, own co f -> harmless co f -> In b (f_blocks (co_fun co f)) -> is_tail co b e ->
      (forall g, goes_to co e g -> harmless co g) /\
      (forall name, goes_out co e name -> exists s, name = Some s /\ trusted_lib s)
  | Exits => forall f, own co f -> terminal_exits co f
  | Width => forall f b i off, own co f -> In b (f_blocks (co_fun co f)) -> In i (b_insns (co_block co b)) ->
      insn_stack_write i off -> off < -8 -> off + width i <= -8
  | Asserts => fl_ndebug fl = false
  | Skips => forall f, own co f -> In (f_addr (co_fun co f)) (fl_skip fl) -> harmless co f
  end.

Lemma run_lowered_orig co l : forall ks n evs, run_lowered co l n ks = Some evs ->
  exists path, orig_blocks co (snd n) ks = Some path.
Proof.
  induction ks as [|k r IH]; intros n evs H; cbn [run_lowered orig_blocks] in *; [eauto|].
  destruct (nth_error _ _) as [e|]; [|discriminate]. destruct (e_sink e || e_inter e)%bool; [discriminate|].
  destruct (run_lowered co l (patched_trg _ _ n k e) r) as [ev'|] eqn:E; [|discriminate].
  apply IH in E. destruct E as (p & E). destruct n as [c b].
  assert (Q : snd (patched_trg (l_ndebug l) (l_red l) (c, b) k e) = e_trg e).
  { unfold patched_trg. destruct (l_ndebug l); [reflexivity|]. destruct c; reflexivity. }
  rewrite Q in E. cbn [snd]. rewrite E. cbn. eauto.
Qed.
Lemma run_plan_orig co fn p ks evs : run_plan co fn p ks = Some evs ->
  exists path, orig_blocks co (f_entry (co_fun co fn)) ks = Some path.
Proof.
  destruct p; cbn [run_plan]; intros H; try discriminate;
    try (destruct (orig_blocks _ _ _); [eauto|discriminate]).
  apply run_lowered_orig in H. exact H.
Qed.

Section INST.
Variables (co : code) (fl : flags) (fs : list finfo) (m : sums) (width : insn -> Z) (stk : Z -> Prop).
Hypothesis PA : parsed co fs.
Hypothesis SU : forall k, within co fl width k.
Hypothesis RL : fl_light fl = true -> run_light co = Ok m.

Definition sf (f : nat) : bool :=
  fl_light fl && Dfs.mem f (co_funcs co) && negb (s_writes (m f)).

Lemma sf_iff f : sf f = true <-> fl_light fl = true /\ In f (co_funcs co) /\ s_writes (m f) = false.
Proof. unfold sf. rewrite !andb_true_iff, negb_true_iff, mem_in. tauto. Qed.
Lemma sf_harmless f : In f (co_funcs co) -> fl_light fl = true -> (sf f = true <-> harmless co f).
Proof.
  intros HF L. destruct (run_light_fields co m (RL L)) as (m0 & R & SAME).
  destruct (run_memory_ok co (p_wf _ _ PA)) as (m1 & R1 & A & B & _). rewrite R in R1. injection R1 as <-.
  assert (E : s_writes (m f) = s_writes (m0 f)) by (specialize (SAME f); unfold mem_fields in SAME; congruence).
  rewrite sf_iff, E. unfold harmless, classified_safe in *. split.
  - intros (_ & _ & S) g G U. apply (B f HF); eauto. apply (SU Mutual). auto.
  - intros H. split; auto. split; auto. destruct (s_writes (m0 f)) eqn:W; auto.
    destruct (A f HF) as (g & G1 & G2); [congruence|]. destruct (H g G1 G2).
Qed.
Lemma goes_enters e g : e_sink e = false -> goes_to co e g ->
  co_link co (b_start (co_block co (e_trg e))) = None /\ enters co (e_trg e) g /\
  f_addr (co_fun co g) = b_start (co_block co (e_trg e)).
Proof.
  intros S ((HG & _) & [K|(L & E)]); [congruence|]. split; auto. split; auto.
  rewrite (p_addr _ _ PA g HG). destruct E as [_ E]. rewrite E. reflexivity.
Qed.
Lemma trusted_dec s : trusted_lib s \/ ~ trusted_lib s.
Proof. destruct (is_safe_plt s) eqn:E; [left; apply is_safe_plt_iff; auto|right; apply is_safe_plt_false; auto]. Qed.

(** Blocks of harmless functions. *)
Lemma harmless_calm f b : own co f -> harmless co f -> fl_light fl = true -> In b (f_blocks (co_fun co f)) ->
  calm co width sf b.
Proof.
  intros HF H L HB. pose proof (H f (cr_refl co f)) as NU. unfold unsafe_itself in NU.
  split; [|split].
  - intros i off x I1 I2 I3 I4 X.
    assert (off < -8).
    { destruct (Z_lt_ge_dec off (-8)); auto. exfalso. apply NU. right. left. exists b. split; auto.
      exists i. split; auto. exists off. split; [repeat split; auto|lia]. }
    assert (off + width i <= -8); [|lia]. apply (SU Width f b i off); auto. repeat split; auto.
  - intros K. apply NU. right. right. left. exists b. auto.
  - intros e (IE & T).
    assert (NS : e_sink e = false).
    { destruct (e_sink e) eqn:S; auto. exfalso. apply NU. right. right. right. left.
      exists b, e. split; [split; auto|]. split; auto. rewrite T. split; [discriminate|]. intros (K & _). discriminate. }
    split.
    + intros g HG. pose proof (goes_enters e g NS HG) as (LK & EN & _). destruct HG as ((HG & _) & _).
      apply sf_harmless; auto. intros h R U. apply (H h); auto. econstructor; [|exact R].
      exists b, e. split; [split; auto|]. auto.
    + intros [s|] GO.
      * exists s. split; auto. destruct GO as [_ LK]. destruct (trusted_dec s) as [K|K]; auto. exfalso.
        apply NU. right. right. right. right. exists (b_last (co_block co b)), s. split; auto.
        exists b, e. split; [split; auto|]. auto.
      * cbn in GO. congruence.
Qed.

Lemma first_is_only f b e : own co f -> In b (f_blocks (co_fun co f)) -> is_call co b e ->
  first_call (co_block co b) e.
Proof.
  intros HF HB HC. destruct (p_calls _ _ PA f b e HF HB HC) as (_ & U).
  assert (G : forall l, (forall e', In e' l -> In e' (b_targets (co_block co b))) -> In e l ->
            exists pre post, l = pre ++ e :: post /\ forall x, In x pre -> e_ty x <> CALL).
  { induction l as [|x l IH]; intros SUB HI; [contradiction|].
    assert (D : e_ty x = CALL \/ e_ty x <> CALL) by (destruct (e_ty x); auto; right; discriminate).
    destruct D as [D|D].
    - exists [], l. assert (x = e) by (apply U; split; auto; apply SUB; left; auto). subst x.
      split; [reflexivity|intros y []].
    - destruct HI as [->|HI]; [destruct D; apply HC|].
      destruct (IH (fun e' K => SUB e' (or_intror K)) HI) as (pre & post & -> & N).
      exists (x :: pre), post. split; auto. intros y [<-|K]; auto. }
  destruct (G (b_targets (co_block co b)) (fun e' K => K) (proj1 HC)) as (pre & post & E & N).
  exists pre, post. split; auto. split; auto. apply HC.
Qed.
(** Blocks not marked unsafe, in functions that are not oversized. *)
Lemma unmarked_calm f b : own co f -> fl_light fl = true -> s_endHeight (m f) <> [] ->
  In b (f_blocks (co_fun co f)) -> ~ In b (s_unsafe_blocks (m f)) -> calm co width sf b.
Proof.
  intros HF L EH HB NB. destruct (run_light_fields co m (RL L)) as (m0 & R & SAME).
  destruct (run_memory_ok co (p_wf _ _ PA)) as (m1 & R1 & _ & _ & _ & _ & UB' & _). rewrite R in R1. injection R1 as <-.
  destruct (run_memory_more co m0 (p_wf _ _ PA) R) as (_ & OV).
  assert (E : s_unsafe_blocks (m f) = s_unsafe_blocks (m0 f) /\ s_endHeight (m f) = s_endHeight (m0 f)).
  { specialize (SAME f). unfold mem_fields in SAME. split; congruence. }
  destruct E as [E1 E2]. rewrite E1, (UB' f b (proj1 HF)) in NB. rewrite E2 in EH.
  assert (NO : ~ oversized co (co_fun co f)) by (intros K; apply EH; apply OV; auto; apply HF).
  split; [|split].
  - intros i off x I1 I2 I3 I4 X.
    assert (off < -8).
    { destruct (Z_lt_ge_dec off (-8)); auto. exfalso. apply NB. split; auto. left. split; auto. left.
      exists i. split; auto. exists off. split; [repeat split; auto|lia]. }
    assert (off + width i <= -8); [|lia]. apply (SU Width f b i off); auto. repeat split; auto.
  - intros K. apply NB. split; auto.
  - intros e HC. pose proof (first_is_only f b e HF HB HC) as FC.
    assert (TG : e_sink e = false /\ exists g, In g (co_funcs co) /\
        f_addr (co_fun co g) = b_start (co_block co (e_trg e)) /\
        (forall name, co_link co (b_start (co_block co (e_trg e))) = Some name -> trusted_lib name) /\
        classified_safe m0 g).
    { destruct (e_sink e) eqn:S.
      - exfalso. apply NB. split; auto. right. exists e. auto.
      - split; auto. 
        destruct (in_dec Z.eq_dec (b_start (co_block co (e_trg e))) (safe_func co m0)) as [K|K].
        + apply safe_func_in in K. exact K.
        + exfalso. apply NB. split; auto. right. exists e. split; auto. right. intros Q. apply K.
          apply safe_func_in. exact Q. }
    destruct TG as (NS & g' & HG' & AD & LK & CS). split.
    + intros g HG. pose proof (goes_enters e g NS HG) as (_ & _ & EA). destruct HG as ((HG & _) & _).
      assert (g = g') by (apply (p_one _ _ PA); auto; congruence). subst g'. apply sf_iff. split; auto. split; auto.
      assert (Q : s_writes (m g) = s_writes (m0 g)) by (specialize (SAME g); unfold mem_fields in SAME; congruence).
      rewrite Q. exact CS.
    + intros [s|] GO; [|cbn in GO; congruence]. exists s. split; auto. apply LK. apply GO.
Qed.

Lemma analyses_at f : In f (co_funcs co) -> fl_light fl = true ->
  analyses co fl m (f_addr (co_fun co f)) = Some (m f).
Proof.
  intros HF L. unfold analyses. rewrite L.
  destruct (find _ (co_funcs co)) as [g|] eqn:E.
  - apply find_some in E. destruct E as [HG E]. apply Z.eqb_eq in E.
    assert (g = f) by (apply (p_one _ _ PA); auto). subst. reflexivity.
  - exfalso. apply (find_none _ _ E f) in HF. rewrite Z.eqb_refl in HF. discriminate.
Qed.
Lemma planned_at f : own co f ->
  planned co fl m fs f = if can_return fs f then instr fl co f (analyses co fl m (f_addr (co_fun co f))) else Untouched.
Proof.
  intros HF. unfold planned, instr_module, can_return.
  pose proof (p_list _ _ PA) as ND. pose proof (p_text _ _ PA) as TX. clear PA.
  induction fs as [|i l IH]; [reflexivity|]. cbn [map] in ND. inversion ND as [|x y N1 N2]; subst.
  assert (IH' := IH N2 (fun j H => TX j (or_intror H))). clear IH. cbn [filter existsb].
  assert (NX : fi_fn i = f -> existsb (fun j => Nat.eqb (fi_fn j) f && negb (fi_noreturn j)) l = false).
  { intros E. destruct (existsb _ l) eqn:X; auto. apply existsb_exists in X. destruct X as (j & HJ & K).
    apply andb_true_iff in K. destruct K as [K _]. apply Nat.eqb_eq in K. exfalso. apply N1. rewrite E, <- K.
    apply in_map. exact HJ. }
  destruct (Nat.eqb_spec (fi_fn i) f) as [E|E].
  - cbn [andb]. specialize (NX E). rewrite NX in IH'. rewrite NX, orb_false_r. unfold eligible.
    destruct (fi_noreturn i) eqn:NR; cbn [negb andb]; [exact IH'|].
    assert (RG : fi_region i = ".text"%string) by (apply TX; auto; [left; auto|rewrite E; auto]). rewrite RG.
    change (String.eqb ".text" ".text") with true. cbn [map find fst]. rewrite E, Nat.eqb_refl. reflexivity.
  - cbn [andb orb]. destruct (eligible i); [|exact IH']. cbn [map find fst].
    destruct (Nat.eqb_spec (fi_fn i) f); [contradiction|]. exact IH'.
Qed.

Lemma path_blocks f ks path : own co f -> orig_blocks co (f_entry (co_fun co f)) ks = Some path ->
  forall b, In b path -> In b (f_blocks (co_fun co f)).
Proof.
  intros HF H b Hb. destruct (orig_bp co ks _ _ H) as (r & -> & P).
  destruct (p_fn _ _ PA f HF) as ((HE & CL & _) & _). destruct Hb as [<-|Hb]; auto.
  eapply bp_in; eauto.
Qed.
Lemma ev_in_executed (evs : list ev) b : In (Blk b) evs <-> In b (executed evs).
Proof.
  unfold executed. rewrite in_flat_map. split.
  - intros H. exists (Blk b). split; auto. left; auto.
  - intros (x & H & K). destruct x; cbn in K; try contradiction. destruct K as [->|[]]. auto.
Qed.
Lemma quiet_ret f b i : own co f -> In b (f_blocks (co_fun co f)) -> b_insns (co_block co b) = [i] ->
  i_op i = ORet -> quiet co b.
Proof.
  intros HF HB E O. destruct (p_fn _ _ PA f HF) as (_ & _ & RW).
  assert (W : i_wmem i = false) by (apply (RW b); auto; rewrite E; left; auto).
  split.
  - intros j HJ. rewrite E in HJ. destruct HJ as [<-|[]]. exact W.
  - intros e HC. destruct (p_calls _ _ PA f b e HF HB HC) as ((j & HJ & K) & _).
    rewrite E in HJ. destruct HJ as [<-|[]]. congruence.
Qed.
Lemma nowrite_calm f b : own co f -> In b (f_blocks (co_fun co f)) ->
  ~ (exists i, In i (b_insns (co_block co b)) /\ i_wmem i = true) -> calm co width sf b.
Proof.
  intros HF HB N. split; [|split].
  - intros i off x I1 _ I3. exfalso. eauto.
  - intros (i & I1 & _ & I3 & _). eauto.
  - intros e HC. destruct (p_calls _ _ PA f b e HF HB HC) as (K & _). contradiction.
Qed.

Lemma disc_all f evs : own co f -> runs_of co (planned co fl m fs) f evs ->
  disciplined co (can_return fs) width sf f evs /\
  (forall b, In b (executed evs) -> In b (f_blocks (co_fun co f))) /\
  (forall pre post, evs = pre ++ Pop :: post ->
     post = [] \/ exists b i, post = [Blk b] /\ b_insns (co_block co b) = [i] /\ i_op i = ORet).
Proof.
  intros HF (ks & RP & NC). destruct (run_plan_orig _ _ _ _ _ RP) as (path & HP).
  pose proof (path_blocks f ks path HF HP) as PB. rewrite (planned_at f HF) in RP.
  assert (SFC : executed evs = path -> sf f = true -> forall b, In (Blk b) evs -> calm co width sf b).
  { intros EX S b Hb. apply sf_iff in S. destruct S as (L & HI & W).
    apply (harmless_calm f); auto; [|apply PB; rewrite <- EX; apply ev_in_executed; auto].
    apply sf_harmless; auto. apply sf_iff. auto. }
  assert (UT : evs = map Blk path -> (can_return fs f = true -> sf f = true) ->
            disciplined co (can_return fs) width sf f evs /\
            (forall b, In b (executed evs) -> In b (f_blocks (co_fun co f))) /\
            (forall pre post, evs = pre ++ Pop :: post ->
               post = [] \/ exists b i, post = [Blk b] /\ b_insns (co_block co b) = [i] /\ i_op i = ORet)).
  { intros E SC. assert (NP : ~ In Push evs) by (rewrite E; intros K; apply in_map_iff in K; destruct K as (b & K & _); discriminate).
    assert (NQ : ~ In Pop evs) by (rewrite E; intros K; apply in_map_iff in K; destruct K as (b & K & _); discriminate).
    assert (EX : executed evs = path) by (rewrite E; apply executed_map).
    split; [|split; [rewrite EX; exact PB|intros pre post K; destruct NQ; rewrite K; apply in_or_app; right; left; auto]].
    split; [apply (count_occ_not_In ev_eq_dec) in NP; lia|].
    split; [intros pre post K; destruct NQ; rewrite K; apply in_or_app; right; left; auto|].
    split; [intros pre post K; destruct NQ; rewrite K; apply in_or_app; right; left; auto|].
    split; [intros _ _ _ _; apply (count_occ_not_In ev_eq_dec) in NP, NQ; lia|].
    split; [auto|]. split; [|auto].
    intros RT pre b post K. left. apply (SFC EX (SC RT)). rewrite K. apply in_or_app. right; left; auto. }
  destruct (can_return fs f) eqn:RT.
  2:{ apply UT; [|discriminate]. cbn [run_plan] in RP. rewrite HP in RP. cbn in RP. congruence. }
  set (os := analyses co fl m (f_addr (co_fun co f))) in *.
  set (p := instr fl co f os) in *.
  assert (OS : os = if fl_light fl then Some (m f) else None).
  { unfold os. destruct (fl_light fl) eqn:L; [apply analyses_at; auto; apply HF|]. unfold analyses. rewrite L. auto. }
  assert (PD : p = Untouched \/ p <> Untouched) by (destruct p; auto; right; discriminate).
  destruct PD as [PU|PU].
  - (* left alone *)
    apply UT.
    + rewrite PU in RP. cbn [run_plan] in RP. rewrite HP in RP. cbn in RP. congruence.
    + intros _. apply C38_untouched in PU. destruct PU as (L & _ & [(s & E & W)|K]).
      * rewrite OS, L in E. injection E as <-. apply sf_iff. split; auto. split; auto. apply HF.
      * apply sf_harmless; auto; [apply HF|]. apply (SU Skips); auto.
  - destruct (p_fn _ _ PA f HF) as (FO & CO & RW).
    assert (LI : lowering_ok co fl f os).
    { intros s E. rewrite OS in E. destruct (fl_light fl) eqn:L; [|discriminate]. injection E as <-.
      split; auto. split.
      - intros b e Hb He. apply (p_noret _ _ PA f b e); auto.
      - intros IC b e Hb He (S & I & _) T.
        destruct (run_light_fields co m (RL eq_refl)) as (m0 & R & SAME).
        destruct (run_memory_more co m0 (p_wf _ _ PA) R) as (IJ & _).
        assert (Q : s_indirect_cf (m0 f) = true) by (apply IJ; [apply HF|exists b, e; split; [split; auto|auto]]).
        specialize (SAME f). unfold mem_fields in SAME. congruence. }
    assert (NA : p <> PAbort) by (intros K; rewrite K in RP; discriminate).
    destruct (C38_protected co fl f os p ks path FO (SU Exits f HF) RW LI eq_refl PU NA HP) as (evs' & R' & PR).
    { intros l _. split; [apply (SU Asserts)|exact NC]. }
    rewrite R' in RP. injection RP as ->. destruct PR as (P1 & P2 & P3 & P4 & P5 & P6).
    split; [|split; [rewrite P1; exact PB|exact P5]].
    split; [exact P2|]. split; [exact P4|]. split; [|split; [|split; [congruence|split; [|auto]]]].
    + intros pre post E. destruct (P5 pre post E) as [K|(b & i & K1 & K2 & K3)]; auto. right. exists b. split; auto.
      apply (quiet_ret f b i); auto. apply PB. rewrite <- P1. apply ev_in_executed. rewrite E, K1.
      apply in_or_app. right. right. left. auto.
    + intros l b E X. apply (P6 b); [exists l; congruence|]. apply (p_exits _ _ PA); auto. apply PB.
      rewrite <- P1, E. apply in_or_app. right; left; auto.
    + intros _ pre b post E.
      assert (HB : In b (f_blocks (co_fun co f))).
      { apply PB. rewrite <- P1. apply ev_in_executed. rewrite E. apply in_or_app. right; left; auto. }
      assert (DW : (exists i, In i (b_insns (co_block co b)) /\ i_wmem i = true) \/
                   ~ (exists i, In i (b_insns (co_block co b)) /\ i_wmem i = true)).
      { destruct (existsb i_wmem (b_insns (co_block co b))) eqn:X; [left; apply existsb_exists; auto|].
        right. intros K. apply existsb_exists in K. congruence. }
      rewrite OS in P3. destruct (bool_dec (fl_light fl) true) as [L|L];
        [|apply not_true_is_false in L; rewrite L in P3; right; apply (P3 pre b post E); exact I].
      rewrite L in P3, OS.
      cbn [risky] in P3.
      destruct p as [|l| | | |] eqn:EP; try congruence;
        try (destruct DW as [DW|DW]; [right; apply (P3 pre b post E DW)|left; apply (nowrite_calm f); auto]).
      destruct (in_dec Nat.eq_dec b (s_unsafe_blocks (m f))) as [K|K]; [right; apply (P3 pre b post E K)|left].
      apply (unmarked_calm f); auto. intros EH.
      unfold p, instr in EP. rewrite L, OS in EP. destruct (skippable _ _ _); [discriminate|].
      unfold lower, lower_ok in EP. rewrite EH in EP. rewrite andb_false_r in EP. cbn [andb negb] in EP.
      rewrite orb_true_r in EP. cbn [orb] in EP. destruct (use_reg fl (m f)); [discriminate|].
      destruct (fast_path co fl f) as [[[? ?] ?]|]; discriminate.
Qed.
Lemma disc f evs : own co f -> runs_of co (planned co fl m fs) f evs ->
  disciplined co (can_return fs) width sf f evs.
Proof. intros HF RN. apply disc_all; auto. Qed.
Lemma tails f evs l b e : own co f -> sf f = true -> runs_of co (planned co fl m fs) f evs ->
  executed evs = l ++ [b] -> is_tail co b e ->
  (forall g, goes_to co e g -> sf g = true) /\
  (forall name, goes_out co e name -> exists s, name = Some s /\ trusted_lib s).
Proof.
  intros HF S RN E HT. apply sf_iff in S. destruct S as (L & HI & W).
  assert (HH : harmless co f) by (apply sf_harmless; auto; apply sf_iff; auto).
  assert (HB : In b (f_blocks (co_fun co f))).
  { apply (proj1 (proj2 (disc_all f evs HF RN))). rewrite E. apply in_or_app. right; left; auto. }
  destruct (SU Tail f b e HF HH HB HT) as (A & B). split; auto.
  intros g HG. apply sf_harmless; auto. apply HG.
Qed.
End INST.

(** ** The theorems *)
Section THEOREMS.
Variables (co : code) (fl : flags) (fs : list finfo) (m : sums) (width : insn -> Z) (stk : Z -> Prop).
(** C55: no function of the instrumented program returns to an address that no active call has
    stored, whatever the program writes to memory. *)
Theorem C55_returns_partial x y :
  parsed co fs -> (forall k, within co fl width k) -> (fl_light fl = true -> run_light co = Ok m) ->
  starts co (planned co fl m fs) stk x ->
  msteps co (planned co fl m fs) (can_return fs) width stk x y -> y <> Broken.
Proof.
  intros PA SU RL S R E. subst y.
  eapply (never_broken co (planned co fl m fs) (can_return fs) width stk (sf co fl m)); [| |exact S|exact R].
  - intros f evs HF RN. apply disc; auto.
  - intros f evs l b e HF SF RN EX HT. eapply tails; eauto.
Qed.
(** C56: a check passes, without disturbing the addresses recorded by the callers, unless the
    program has written where it should not. *)
Theorem C56_no_false_alarm x F r mem sh es :
  parsed co fs -> (forall k, within co fl width k) -> (fl_light fl = true -> run_light co = Ok m) ->
  starts co (planned co fl m fs) stk x ->
  msteps co (planned co fl m fs) (can_return fs) width stk x (Run (F :: r) mem sh) ->
  fr_evs F = Pop :: es -> fr_wild F = false ->
  exists sh', mstep co (planned co fl m fs) (can_return fs) width stk (Run (F :: r) mem sh)
      (Run (adv F es (fr_last F) Checked :: r) mem sh') /\
    unwind (fr_ra F) (match fr_st F with OnShadow => sh | _ => fr_ra F :: sh end) = Some sh'.
Proof.
  intros PA SU RL S R E W.
  eapply (check_passes co (planned co fl m fs) (can_return fs) width stk (sf co fl m)); eauto.
  - intros f evs HF RN. apply disc; auto.
  - intros f evs l b e HF SF RN EX HT. eapply tails; eauto.
Qed.
End THEOREMS.
Print Assumptions C55_returns_partial.
Print Assumptions C56_no_false_alarm.
(** ** Examples *)
Definition wcode (fs : list nat) (nb : nat -> nat) (ex : nat -> list nat) (bl : nat -> list edge * list insn) : code :=
  mkCode fs (fun n => xfunc n (nb n) (ex n)) (fun b => xblock b (fst (bl b)) (snd (bl b)))
    (fun b => if mem (Nat.div b 10) fs then [Nat.div b 10] else []) (fun _ => None).
Definition winfos (fs : list nat) : list finfo := map (fun f => mkFinfo f false ".text") fs.
Definition call_insn (a : Z) : insn := mkInsn a OCall true true false [] [] [AStack (-16)] [] [] [] (Some (-8)).
Definition eight (_ : insn) : Z := 8.

(* mutual recursion: 0 calls 1 or 2, 1 calls 0, 2 writes through a pointer *)
Definition w_mutual : code := wcode [0;1;2]%nat
  (fun f => match f with 0%nat => 4 | 1%nat => 2 | _ => 1 end)%nat
  (fun f => match f with 0%nat => [3] | 1%nat => [11] | _ => [20] end)%nat
  (fun b => match b with
   | 0%nat => ([ct_e 1; cn_e 2], [nop_insn 100])
   | 1%nat => ([call_e 1; ft_e 3], [call_insn 200])
   | 2%nat => ([call_e 2; ft_e 3], [call_insn 300])
   | 10%nat => ([call_e 0; ft_e 11], [call_insn 1100])
   | 20%nat => ([ret_e], [unk_insn 2100; ret_insn 2104])
   | _ => ([ret_e], [ret_insn 0])
   end).
(* 0 calls 1, 1 jumps to 2, 2 writes through a pointer *)
Definition w_tail : code := wcode [0;1;2]%nat
  (fun f => match f with 0%nat => 2 | _ => 1 end)%nat
  (fun f => match f with 0%nat => [1] | 1%nat => [10] | _ => [20] end)%nat
  (fun b => match b with
   | 0%nat => ([call_e 1; ft_e 1], [call_insn 100])
   | 10%nat => ([tail_e 2], [nop_insn 1100])
   | 20%nat => ([ret_e], [unk_insn 2100; ret_insn 2104])
   | _ => ([ret_e], [ret_insn 0])
   end).
(* 0 jumps to 1 on a condition and else goes on *)
Definition w_exits : code := wcode [0;1]%nat
  (fun f => match f with 0%nat => 2 | _ => 1 end)%nat
  (fun f => match f with 0%nat => [0;1] | _ => [10] end)%nat
  (fun b => match b with
   | 0%nat => ([mkEdge COND_TAKEN false true 10; cn_e 1], [unk_insn 100])
   | _ => ([ret_e], [ret_insn 0])
   end).
(* 0 stores over a part of its return address from below *)
Definition w_width : code := wcode [0]%nat (fun _ => 1%nat) (fun _ => [0%nat])
  (fun b => ([ret_e], [st_insn 100 (-9); ret_insn 104])).
(* 0 writes through a pointer on one of two paths *)
Definition w_asserts : code := wcode [0]%nat (fun _ => 4%nat) (fun _ => [3%nat])
  (fun b => match b with
   | 0%nat => ([ct_e 1; cn_e 2], [nop_insn 100])
   | 1%nat => ([jmp_e 3], [unk_insn 200])
   | 2%nat => ([jmp_e 3], [nop_insn 300])
   | _ => ([ret_e], [ret_insn 400])
   end).
(* 0 writes through a pointer *)
Definition w_skips : code := wcode [0]%nat (fun _ => 1%nat) (fun _ => [0%nat])
  (fun b => ([ret_e], [unk_insn 100; ret_insn 104])).
Definition wsums (co : code) : sums := match run_light co with Ok m => m | _ => fun _ => summary0 end.
Definition wplan co fl := map (planned co fl (wsums co) (winfos (co_funcs co))) (co_funcs co).

(** Decision procedures for these. *)
Definition has_call (b : block) : bool := existsb (fun e => is (e_ty e) CALL) (b_targets b).
Definition leaves (e : edge) : bool :=
  is (e_ty e) RET || (e_inter e && negb (is (e_ty e) CALL) && negb (is (e_ty e) CATCH)).
Fixpoint nodupb (l : list nat) : bool :=
  match l with [] => true | x :: t => negb (mem x t) && nodupb t end.
Definition block_okb (f : func) (b : block) (n : nat) : bool :=
  forallb (fun e => (e_sink e || e_inter e || (mem (e_trg e) (f_blocks f) && negb (is (e_ty e) RET))) &&
                    (negb (leaves e) || (mem n (f_exits f) && negb (has_call b))))
          (b_targets b) &&
  (List.length (filter (fun e => is (e_ty e) CALL) (b_targets b)) <=? 1)%nat &&
  (negb (has_call b) || existsb i_wmem (b_insns b)) &&
  forallb (fun i => negb (match i_op i with ORet => true | _ => false end) || negb (i_wmem i)) (b_insns b).
Definition func_okb (co : code) (f : func) : bool :=
  mem (f_entry f) (f_blocks f) && nodupb (f_blocks f) && nodupb (f_exits f) &&
  forallb (fun b => block_okb f (co_block co b) b) (f_blocks f).
Definition code_okb (co : code) : bool :=
  nodupb (co_funcs co) && forallb (fun f => func_okb co (co_fun co f)) (co_funcs co).

Lemma is_iff a b : is a b = true <-> a = b.
Proof. destruct a, b; cbn; split; congruence. Qed.
Lemma func_okb_ok co f : func_okb co (co_fun co f) = true ->
  fn_ok co f /\ cfg_ok co f /\ rets_ok co f /\
  (forall b e, In b (f_blocks (co_fun co f)) -> edge_in co b e -> followable e -> e_ty e <> RET) /\
  (forall b, In b (f_blocks (co_fun co f)) -> (is_ret co b \/ exists e, is_tail co b e) -> returning_exit co f b) /\
  (forall b e, In b (f_blocks (co_fun co f)) -> is_call co b e ->
    (exists i, In i (b_insns (co_block co b)) /\ i_wmem i = true) /\ (forall e', is_call co b e' -> e' = e)).
Proof.
  unfold func_okb. rewrite !andb_true_iff. intros (((H1 & H2) & H3) & H4). apply mem_in in H1.
  rewrite forallb_forall in H4.
  assert (ED : forall b e, In b (f_blocks (co_fun co f)) -> edge_in co b e ->
      (e_sink e = true \/ e_inter e = true \/ In (e_trg e) (f_blocks (co_fun co f)) /\ e_ty e <> RET) /\
      (leaves e = true -> In b (f_exits (co_fun co f)) /\ has_call (co_block co b) = false)).
  { intros b e Hb He. specialize (H4 b Hb). unfold block_okb in H4. rewrite !andb_true_iff in H4.
    destruct H4 as (((H4 & _) & _) & _). rewrite forallb_forall in H4. specialize (H4 e He).
    rewrite andb_true_iff, !orb_true_iff, !andb_true_iff, !negb_true_iff, !mem_in in H4.
    assert (NR : is (e_ty e) RET = false -> e_ty e <> RET) by (intros K E; apply is_iff in E; congruence).
    split; [destruct H4 as [[[K|K]|[K1 K2]] _]; auto|]. intros L. destruct H4 as [_ [K|K]]; [congruence|auto]. }
  assert (ST : forall b c, In b (f_blocks (co_fun co f)) -> FastPath.step co b c -> In c (f_blocks (co_fun co f))).
  { intros b c Hb (e & He & <-). apply filter_In in He. destruct He as [He K].
    unfold bp_edge in K. rewrite andb_true_iff, !negb_true_iff in K.
    destruct (ED b e Hb He) as [[?|[?|[? _]]] _]; destruct K; congruence || auto. }
  split; [split; [exact H1|split; [exact ST|split; apply nodup_dec; auto]]|].
  split; [split; [exact H1|]|].
  { intros b c Hb (e & He & (S & I & _) & <-). apply (ST b); auto. exists e. split; auto.
    apply filter_In. split; auto. unfold bp_edge. rewrite S, I. reflexivity. }
  split; [|split; [|split]].
  - intros b i Hb Hi Op. specialize (H4 b Hb). unfold block_okb in H4. rewrite !andb_true_iff in H4.
    destruct H4 as (_ & H4). rewrite forallb_forall in H4. specialize (H4 i Hi). rewrite Op in H4. cbn in H4.
    destruct (i_wmem i); auto.
  - intros b e Hb He (S & I & _). destruct (ED b e Hb He) as [[?|[?|[_ ?]]] _]; congruence.
  - intros b Hb K.
    assert (E : exists e, edge_in co b e /\ leaves e = true).
    { destruct K as [(e & K1 & K2)|(e & K1 & K2 & K3 & K4 & K5)]; exists e; split; auto; unfold leaves.
      - rewrite K2. reflexivity.
      - rewrite K2. destruct (e_ty e); cbn; congruence. }
    destruct E as (e & He & L). destruct (ED b e Hb He) as [_ Q]. destruct (Q L) as (X & HC). split; auto.
    intros ((e' & He' & T) & _). unfold has_call in HC.
    assert (existsb (fun x => is (e_ty x) CALL) (b_targets (co_block co b)) = true); [|congruence].
    apply existsb_exists. exists e'. split; auto. apply is_iff. auto.
  - intros b e Hb (He & T). specialize (H4 b Hb). unfold block_okb in H4. rewrite !andb_true_iff in H4.
    destruct H4 as (((_ & H5) & H6) & _).
    assert (HC : has_call (co_block co b) = true).
    { apply existsb_exists. exists e. split; auto. apply is_iff. auto. }
    rewrite HC in H6. cbn in H6. split; [apply existsb_exists; auto|].
    intros e' (He' & T'). apply Nat.leb_le in H5.
    assert (I1 : In e (filter (fun x => is (e_ty x) CALL) (b_targets (co_block co b)))) by (apply filter_In; split; auto; apply is_iff; auto).
    assert (I2 : In e' (filter (fun x => is (e_ty x) CALL) (b_targets (co_block co b)))) by (apply filter_In; split; auto; apply is_iff; auto).
    destruct (filter _ _) as [|x [|y l]]; cbn in *; try lia. destruct I1 as [<-|[]], I2 as [<-|[]]. auto.
Qed.
Lemma wparsed fs nb ex bl : code_okb (wcode fs nb ex bl) = true -> parsed (wcode fs nb ex bl) (winfos fs).
Proof.
  unfold code_okb. rewrite andb_true_iff. intros [N H]. apply nodup_dec in N. cbn [co_funcs wcode] in N.
  rewrite forallb_forall in H. cbn [co_funcs wcode] in H.
  assert (G : forall f, own (wcode fs nb ex bl) f -> In f fs) by (intros f (K & _); exact K).
  assert (IM : map fi_fn (winfos fs) = fs).
  { unfold winfos. rewrite map_map. cbn. apply map_id. }
  constructor.
  - split; [exact N|]. split; [split|split].
    + intros b g. cbn [co_owners wcode co_funcs]. destruct (mem (Nat.div b 10) fs) eqn:E; [|intros []].
      intros [<-|[]]. apply mem_in. exact E.
    + intros t g g' [_ E] [_ E']. cbn [co_fun wcode xfunc f_entry] in E, E'. lia.
    + intros f a n n' (b & e & _ & _ & _ & _ & K). discriminate.
    + intros f Hf. cbn [f_addr xfunc co_fun wcode]. unfold ex_start. lia.
  - intros f HF. destruct (func_okb_ok _ f (H f (G f HF))) as (A & B & C & _). auto.
  - intros f b e HF. apply (func_okb_ok _ f (H f (G f HF))).
  - intros f b HF. apply (func_okb_ok _ f (H f (G f HF))).
  - intros f b e HF. apply (func_okb_ok _ f (H f (G f HF))).
  - intros f _. reflexivity.
  - intros f g _ _ E. cbn [f_addr xfunc co_fun wcode] in E. unfold ex_start in E. lia.
  - rewrite IM. exact N.
  - intros i Hi _ _. unfold winfos in Hi. apply in_map_iff in Hi. destruct Hi as (f & <- & _). reflexivity.
Qed.

(** Calls only go to functions with a higher number: no mutual recursion. *)
Definition upwards (co : code) : bool :=
  forallb (fun f => forallb (fun b => forallb (fun e => negb (is (e_ty e) CALL) || (10 * f <=? e_trg e)%nat)
    (b_targets (co_block co b))) (f_blocks (co_fun co f))) (co_funcs co).
Definition tail_edge (e : edge) : bool :=
  e_inter e && negb (is (e_ty e) CALL) && negb (is (e_ty e) RET) && negb (is (e_ty e) CATCH).
Definition unk_of (i : insn) : bool :=
  negb (i_frame i) && i_wmem i && existsb (fun l => match l with AUnknown => true | _ => false end) (i_outs i).
(** Only unsafe functions jump to other functions. *)
Definition tails_okb (co : code) : bool :=
  forallb (fun f => existsb (fun b => existsb unk_of (b_insns (co_block co b))) (f_blocks (co_fun co f)) ||
    forallb (fun b => forallb (fun e => negb (tail_edge e)) (b_targets (co_block co b))) (f_blocks (co_fun co f)))
    (co_funcs co).
Definition exits_okb (co : code) : bool :=
  forallb (fun f => forallb (fun b => forallb (fun e => e_sink e || e_inter e) (b_targets (co_block co b)))
    (f_exits (co_fun co f))) (co_funcs co).
Definition width_okb (co : code) : bool :=
  forallb (fun f => forallb (fun b => forallb (fun i => forallb (fun l => match l with
      AStack o => (-8 <=? o) || (o + 8 <=? -8) | _ => true end) (i_outs i)) (b_insns (co_block co b)))
    (f_blocks (co_fun co f))) (co_funcs co).
Definition withinb (co : code) (fl : flags) (k : limit) : bool :=
  match k with
  | Mutual => upwards co | Tail => tails_okb co | Exits => exits_okb co | Width => width_okb co
  | Asserts => negb (fl_ndebug fl) | Skips => match fl_skip fl with [] => true | _ => false end
  end.
Lemma wreach fs nb ex bl f g : upwards (wcode fs nb ex bl) = true ->
  In f fs -> call_reach (wcode fs nb ex bl) f g -> In g fs /\ (f <= g)%nat.
Proof.
  intros U HF R. induction R as [f|f c g C R IH]; [auto|].
  destruct C as (b & e & (Hb & He) & T & _ & _ & (HO & HE)). cbn [co_fun wcode xfunc f_entry] in HE.
  cbn [co_owners wcode] in HO. destruct (mem (Nat.div (e_trg e) 10) fs) eqn:M; [|contradiction].
  destruct HO as [HO|[]]. apply mem_in in M. rewrite HO in M. destruct (IH M) as (A & B). split; auto.
  unfold upwards in U. rewrite forallb_forall in U. specialize (U f HF). rewrite forallb_forall in U.
  specialize (U b Hb). rewrite forallb_forall in U. specialize (U e He). rewrite T in U. cbn [is negb orb] in U.
  apply Nat.leb_le in U. lia.
Qed.
Lemma wwithin fs nb ex bl fl k : withinb (wcode fs nb ex bl) fl k = true -> within (wcode fs nb ex bl) fl eight k.
Proof.
  set (co := wcode fs nb ex bl). destruct k; cbn [withinb within].
  - intros U f HF g c R C NE R'. destruct (wreach _ _ _ _ f g U HF R) as (G & _).
    assert (C' : call_reach co g c) by (econstructor; [exact C|constructor]).
    destruct (wreach _ _ _ _ g c U G C') as (HC & L1). destruct (wreach _ _ _ _ c g U HC R') as (_ & L2). lia.
  - intros H f b e (HF & _) HH Hb (He & I & T1 & T2 & T3). exfalso. unfold tails_okb in H. rewrite forallb_forall in H.
    specialize (H f HF). apply orb_true_iff in H. destruct H as [H|H].
    + apply existsb_exists in H. destruct H as (b' & Hb' & H). apply existsb_exists in H. destruct H as (i & Hi & H).
      unfold unk_of in H. rewrite !andb_true_iff, negb_true_iff in H. destruct H as ((A & B) & C).
      apply existsb_exists in C. destruct C as (l & C1 & C2). destruct l; try discriminate.
      apply (HH f (cr_refl co f)). right. right. left. exists b'. split; auto. exists i. split; auto. repeat split; auto.
    + rewrite forallb_forall in H. specialize (H b Hb). rewrite forallb_forall in H. specialize (H e He).
      unfold tail_edge in H. rewrite I in H. destruct (e_ty e); cbn in H; congruence.
  - intros H f (HF & _) b e Hb He. unfold exits_okb in H. rewrite forallb_forall in H.
    specialize (H f HF). rewrite forallb_forall in H. specialize (H b Hb). rewrite forallb_forall in H.
    specialize (H e He). apply orb_true_iff in H. exact H.
  - intros H f b i off (HF & _) Hb Hi (_ & _ & HO) L. unfold width_okb in H. rewrite forallb_forall in H.
    specialize (H f HF). rewrite forallb_forall in H. specialize (H b Hb). rewrite forallb_forall in H.
    specialize (H i Hi). rewrite forallb_forall in H. specialize (H _ HO). cbn in H. unfold eight.
    apply orb_true_iff in H. destruct H as [H|H]; apply Z.leb_le in H; lia.
  - apply negb_true_iff.
  - destruct (fl_skip fl); [|discriminate]. intros _ f _ [].
Qed.

(** *** Executions *)
Definition zm : memory := fun _ => 0.
Definition all (_ : Z) : Prop := True.
Lemma msteps_front co p r w s x y z : mstep co p r w s x y -> msteps co p r w s y z -> msteps co p r w s x z.
Proof. intros S R. induction R as [y|y a b R IH S1]; [eapply st_step; [apply st_refl|exact S]|eapply st_step; eauto]. Qed.
Definition breaks (co : code) (fl : flags) : Prop :=
  exists m x, run_light co = Ok m /\
    starts co (planned co fl m (winfos (co_funcs co))) all x /\
    msteps co (planned co fl m (winfos (co_funcs co))) (can_return (winfos (co_funcs co))) eight all x Broken.
Lemma breaks_intro co fl x : (match run_light co with Ok _ => true | _ => false end = true) ->
  starts co (planned co fl (wsums co) (winfos (co_funcs co))) all x ->
  msteps co (planned co fl (wsums co) (winfos (co_funcs co))) (can_return (winfos (co_funcs co))) eight all x Broken ->
  breaks co fl.
Proof.
  unfold wsums. destruct (run_light co) as [m| |] eqn:E; try discriminate. intros _ S R. exists m, x. auto.
Qed.
Ltac own_ := split; [cbn; tauto|reflexivity].
Ltac enter_ ks := exists ks; eexists; split; [vm_compute; reflexivity|split; [cbn; repeat split; discriminate|reflexivity]].
Ltac nowrite := intros (?i & ?K1 & ?K2 & ?K3 & ?K4); cbn in K1;
  repeat (destruct K1 as [<-|K1]; [cbn in *; solve [discriminate|intuition discriminate]|]); contradiction.
Ltac tame := apply body_tame with (m' := zm); [reflexivity|intros ?x ?K; congruence|intros ?x ?K; reflexivity|nowrite].

Ltac nocall := intros ?e (?K & ?T); cbn in K; intuition (subst; discriminate).
Ltac unk a := eapply body_wild with (m' := zm); right; split; [intros ?x ?K; congruence|]; left;
  exists (unk_insn a); split; [left; reflexivity|split; [reflexivity|split; [reflexivity|left; reflexivity]]].
Ltac wild := eapply body_wild with (m' := zm); left; reflexivity.
Ltac plain := eapply s_block; [reflexivity|discriminate|nocall|].
Ltac ret_bad := eapply s_ret_bad with (v := 1);
  [reflexivity|reflexivity|exists ret_e; split; [left; reflexivity|reflexivity]|reflexivity|].
Ltac push := eapply s_push with (w := 0); [reflexivity|reflexivity|intros _; reflexivity|reflexivity].
Ltac push_reg := eapply s_push_reg with (w := 0); [reflexivity|reflexivity|intros _; reflexivity|reflexivity].
Ltac pop := eapply s_pop with (v := 0); [reflexivity|reflexivity|discriminate|reflexivity|reflexivity].
Ltac pop_reg := eapply s_pop_reg with (w := 0); [reflexivity|reflexivity|discriminate|reflexivity].
Ltac ret_ok := eapply s_ret_checked; [reflexivity|reflexivity|exists ret_e; split; [left; reflexivity|reflexivity]|reflexivity|reflexivity].
Ltac call b e g c ks := eapply (s_call _ _ _ _ _ _ _ _ _ b _ _ _ zm e g c 0 zm);
  [reflexivity|discriminate|split; [left; reflexivity|reflexivity]|tame
  |split; [own_|right; split; [reflexivity|split; [left; reflexivity|reflexivity]]]
  |intros _; cbn; lia|unfold all; auto|reflexivity|intros ?x ?K; reflexivity|enter_ ks].
Ltac begin g ks := eapply breaks_intro; [vm_compute; reflexivity
  |apply (starts_intro _ _ _ g 1000 0 zm); [own_|enter_ ks|unfold all; auto|reflexivity]|].
Ltac next := eapply msteps_front.
Ltac last := eapply st_step; [apply st_refl|].
Definition fl_skip0 : flags := mkFlags false false false false false true [100] false.

Example w_skips_breaks : breaks w_skips fl_skip0.
Proof.
  begin 0%nat (@nil nat). next; [plain; unk 100|]. last. ret_bad.
  left. split; [reflexivity|]. split; [discriminate|discriminate].
Qed.
Example w_mutual_breaks : breaks w_mutual fl0.
Proof.
  begin 1%nat [1%nat].
  next; [call 10%nat (call_e 0) 0%nat 900 [1;1]%nat|].
  next; [plain; tame|]. next; [push|].
  next; [call 2%nat (call_e 2) 2%nat 800 (@nil nat)|].
  next; [push_reg|]. next; [plain; unk 2100|]. next; [pop_reg|]. next; [ret_ok|].
  next; [plain; wild|]. next; [pop|]. next; [ret_ok|].
  next; [plain; wild|]. last. ret_bad. left. split; [reflexivity|]. split; [discriminate|discriminate].
Qed.
Example w_tail_breaks : breaks w_tail fl0.
Proof.
  begin 0%nat [1%nat].
  next; [call 0%nat (call_e 1) 1%nat 900 (@nil nat)|].
  next; [plain; tame|].
  next.
  { eapply (s_tail _ _ _ _ _ _ _ _ _ 10%nat (tail_e 2) 2%nat 900);
      [reflexivity|reflexivity|split; [left; reflexivity|repeat split; discriminate]|reflexivity
      |right; split; reflexivity
      |split; [own_|right; split; [reflexivity|split; [left; reflexivity|reflexivity]]]
      |reflexivity|discriminate|enter_ (@nil nat)]. }
  next; [push_reg|]. next; [plain; unk 2100|]. next; [pop_reg|]. next; [ret_ok|].
  next; [plain; wild|]. last. ret_bad. left. split; [reflexivity|]. split; [discriminate|discriminate].
Qed.
Example w_exits_breaks : breaks w_exits fl0.
Proof.
  begin 0%nat [1%nat].
  next; [push_reg|]. next; [plain; unk 100|]. next; [pop_reg|].
  next.
  { eapply s_block; [reflexivity| |nocall|wild].
    intros _. split; [intros i [<-|[]]; reflexivity|nocall]. }
  last. eapply s_pop_none; [reflexivity|right; reflexivity].
Qed.
Example w_width_breaks : breaks w_width fl0.
Proof.
  begin 0%nat (@nil nat).
  next.
  { plain. eapply body_wild with (m' := fun x => if x =? 992 then 1 else 0). right. split.
    - intros x K. cbn beta in K. destruct (Z.eqb_spec x 992) as [Q|Q]; [subst x|exfalso; apply K; reflexivity].
      exists (st_insn 100 (-9)), (AStack (-9)). split; [left; reflexivity|].
      split; [reflexivity|split; [reflexivity|split; [left; reflexivity|cbn; unfold eight; lia]]].
    - right. intros K. specialize (K 992). cbn in K. unfold zm in K. assert (1 = 0); [|discriminate].
      apply K. split; [exact I|cbn; lia]. }
  last. ret_bad. left. split; [reflexivity|]. split; [discriminate|discriminate].
Qed.
Example w_asserts_breaks : breaks w_asserts fl_nd.
Proof.
  begin 0%nat [0;0]%nat.
  next; [plain; tame|]. next; [push_reg|]. next; [plain; unk 200|]. next; [plain; wild|].
  last. ret_bad. right. right. eexists. reflexivity.
Qed.
(** C55 does not hold without these conditions: each of them alone can be the cause. *)
Theorem C55_each_needed_refuted : forall k : limit, exists co fl fs,
  parsed co fs /\ (forall k', k' <> k -> within co fl eight k') /\
  exists m x, run_light co = Ok m /\ starts co (planned co fl m fs) all x /\
    msteps co (planned co fl m fs) (can_return fs) eight all x Broken.
Proof.
  intros k.
  assert (G : forall fs nb ex bl fl, code_okb (wcode fs nb ex bl) = true ->
     (forall k', k' <> k -> withinb (wcode fs nb ex bl) fl k' = true) -> breaks (wcode fs nb ex bl) fl ->
     exists co fl fs, parsed co fs /\ (forall k', k' <> k -> within co fl eight k') /\
     exists m x, run_light co = Ok m /\ starts co (planned co fl m fs) all x /\
     msteps co (planned co fl m fs) (can_return fs) eight all x Broken).
  { intros fs nb ex bl fl A B C. exists (wcode fs nb ex bl), fl, (winfos fs).
    split; [apply wparsed; auto|]. split; [intros k' K; apply wwithin; auto|]. exact C. }
  destruct k.
  - eapply G; [| |exact w_mutual_breaks]; [reflexivity|intros [] K; reflexivity || congruence].
  - eapply G; [| |exact w_tail_breaks]; [reflexivity|intros [] K; reflexivity || congruence].
  - eapply G; [| |exact w_exits_breaks]; [reflexivity|intros [] K; reflexivity || congruence].
  - eapply G; [| |exact w_width_breaks]; [reflexivity|intros [] K; reflexivity || congruence].
  - eapply G; [| |exact w_asserts_breaks]; [reflexivity|intros [] K; reflexivity || congruence].
  - eapply G; [| |exact w_skips_breaks]; [reflexivity|intros [] K; reflexivity || congruence].
Qed.
Print Assumptions C55_each_needed_refuted.

(** *** A program that meets all conditions: 0 calls 1, which is harmless, or 2, which writes
    through a pointer on one of its paths. *)
Definition w_good : code := wcode [0;1;2]%nat
  (fun f => match f with 1%nat => 1 | _ => 4 end)%nat
  (fun f => match f with 0%nat => [3] | 1%nat => [10] | _ => [23] end)%nat
  (fun b => match b with
   | 0%nat => ([ct_e 1; cn_e 2], [nop_insn 100])
   | 1%nat => ([call_e 1; ft_e 3], [call_insn 200])
   | 2%nat => ([call_e 2; ft_e 3], [call_insn 300])
   | 10%nat => ([ret_e], [st_insn 1100 (-24); ret_insn 1104])
   | 20%nat => ([ct_e 21; cn_e 22], [nop_insn 2100])
   | 21%nat => ([jmp_e 23], [unk_insn 2200])
   | 22%nat => ([jmp_e 23], [nop_insn 2300])
   | _ => ([ret_e], [ret_insn 0])
   end).
Definition good_steps (x y : conf) : Prop :=
  msteps w_good (planned w_good fl0 (wsums w_good) (winfos [0;1;2]%nat)) (can_return (winfos [0;1;2]%nat)) eight all x y.
Definition good_starts (x : conf) : Prop :=
  starts w_good (planned w_good fl0 (wsums w_good) (winfos [0;1;2]%nat)) all x.
Example C55_case :
  parsed w_good (winfos [0;1;2]%nat) /\ (forall k, within w_good fl0 eight k) /\
  run_light w_good = Ok (wsums w_good) /\
  (* only the harmless function is left alone *)
  map (fun f => match planned w_good fl0 (wsums w_good) (winfos [0;1;2]%nat) f with Untouched => true | _ => false end)
      [0;1;2]%nat = [false; true; false] /\
  (* a run in which 2 writes over the whole stack and gets to its check *)
  exists x F r m sh, good_starts x /\ good_steps x (Run (F :: r) m sh) /\
    fr_fn F = 2%nat /\ fr_evs F = [Pop] /\ fr_wild F = true.
Proof.
  split; [apply wparsed; reflexivity|]. split; [intros k; apply wwithin; destruct k; reflexivity|].
  split.
  { unfold wsums. assert (K : match run_light w_good with Ok _ => true | _ => false end = true) by (vm_compute; reflexivity).
    destruct (run_light w_good); try discriminate. reflexivity. }
  split; [vm_compute; reflexivity|].
  do 5 eexists. split.
  { apply (starts_intro _ _ _ 0%nat 1000 0 zm); [own_|enter_ [1;1]%nat|unfold all; auto|reflexivity]. }
  split.
  { next; [plain; tame|]. next; [push|]. next; [call 2%nat (call_e 2) 2%nat 900 [0;0]%nat|].
    next; [plain; tame|]. next; [push_reg|]. next; [plain; unk 2200|]. next; [plain; wild|]. apply st_refl. }
  repeat split; reflexivity.
Qed.
(** A check without interference: 0 calls 2, which takes its harmless path. *)
Example C56_case : exists x F r m sh, good_starts x /\ good_steps x (Run (F :: r) m sh) /\
  fr_fn F = 0%nat /\ fr_evs F = [Pop] /\ fr_wild F = false.
Proof.
  do 5 eexists. split.
  { apply (starts_intro _ _ _ 0%nat 1000 0 zm); [own_|enter_ [1;1]%nat|unfold all; auto|reflexivity]. }
  split.
  { next; [plain; tame|]. next; [push|]. next; [call 2%nat (call_e 2) 2%nat 900 [1;0]%nat|].
    next; [plain; tame|]. next; [plain; tame|]. next; [plain; tame|].
    next; [eapply s_ret with (v := 0);
      [reflexivity|reflexivity|exists ret_e; split; [left; reflexivity|reflexivity]|reflexivity|reflexivity|intros _; reflexivity|reflexivity]|].
    next; [plain; tame|]. apply st_refl. }
  repeat split; reflexivity.
Qed.
