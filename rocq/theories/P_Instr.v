(** * P_Instr: properties C37-C40, C52 (choice of instrumentation) *)
From Coq Require Import ZArith Bool Lia ZifyBool ZifyNat Arith String List.
From Verif Require Import Machine Jit Dfs Binary Reach SafePaths ExCode P_Paths Lowering P_Lower FastPath Decision.
Import ListNotations.
Open Scope Z_scope.

(** What Dyninst guarantees about a function: the entry is one of its blocks, they are
    closed under the edges inside the function, and nothing is listed twice. *)
Definition fn_ok (co : code) (fn : nat) : Prop :=
  let f := co_fun co fn in
  In (f_entry f) (f_blocks f) /\
  (forall b c, In b (f_blocks f) -> step co b c -> In c (f_blocks f)) /\
  NoDup (f_blocks f) /\ NoDup (f_exits f).
(** Control never continues inside the function after an exit block. False for a block
    that ends in a conditional tail call. *)
Definition terminal_exits (co : code) (fn : nat) : Prop :=
  forall b e, In b (f_exits (co_fun co fn)) -> In e (b_targets (co_block co b)) ->
    e_sink e = true \/ e_inter e = true.
(** A path of the function, exception edges included. *)
Definition fn_path (co : code) (fn : nat) (ks : list nat) (path : list nat) : Prop :=
  orig_blocks co (f_entry (co_fun co fn)) ks = Some path.
Definition ends_at (path : list nat) (b : nat) : Prop := exists p, path = p ++ [b].

Lemma terminal_out co fn : terminal_exits co fn ->
  forall b, In b (f_exits (co_fun co fn)) -> out_edges co b = [].
Proof.
  intros T b Hb. unfold out_edges. destruct (filter bp_edge _) as [|e r] eqn:E; auto.
  assert (H : In e (filter bp_edge (b_targets (co_block co b)))) by (rewrite E; left; auto).
  apply filter_In in H. destruct H as [H1 H2]. unfold bp_edge in H2.
  destruct (T b e Hb H1) as [K|K]; rewrite K in H2; cbn in H2; try rewrite andb_false_r in H2; discriminate.
Qed.
Lemma append_assoc' (a b c : string) : (a ++ (b ++ c) = (a ++ b) ++ c)%string.
Proof. induction a; cbn; congruence. Qed.
Lemma ends_last b r x : ends_at (b :: r) x <-> last r b = x.
Proof.
  split.
  - intros (p & E). destruct (last_snoc r b) as (l & E'). rewrite E' in E.
    apply app_inj_tail in E. apply E.
  - intros <-. destruct (last_snoc r b) as (l & E). exists l. exact E.
Qed.

(** Example builder: blocks with given edges; the blocks in [w] write memory, the others
    consist of one instruction; the blocks in [ex] are the exits. *)
Definition nop_insn (a : Z) : insn := mkInsn a OOther false false false [] [] [] [] [] [] (Some (-8)).
Definition ret_insn (a : Z) : insn := mkInsn a ORet false false true [] [] [] [] [] [] (Some (-8)).
Definition h_co (nb : nat) (ex w : list nat) (t : nat -> list edge) : code :=
  mkCode [0]%nat (fun _ => mkFunc "f" 100 0 (seq 0 nb) ex ex [])
    (fun b => xblock b (t b)
       [if mem b w then st_insn (ex_start b) (-40)
        else if existsb (fun e => is (e_ty e) RET) (t b) then ret_insn (ex_start b)
        else nop_insn (ex_start b)])
    (fun _ => [0]%nat) (fun _ => None).
Definition h_okb (nb : nat) (t : nat -> list edge) : bool :=
  forallb (fun b => forallb (fun e => e_sink e || e_inter e || (e_trg e <? nb)%nat) (t b)) (seq 0 nb).
Lemma h_fn_ok nb ex w t : (0 < nb)%nat -> h_okb nb t = true -> NoDup ex -> fn_ok (h_co nb ex w t) 0.
Proof.
  intros P H N. unfold fn_ok. cbn [co_fun h_co f_entry f_blocks f_exits].
  split; [apply in_seq; lia|]. split; [|split; [apply seq_NoDup|exact N]].
  intros b c Hb (e & He & <-). unfold out_edges in He. cbn [co_block h_co b_targets xblock] in He.
  apply filter_In in He. destruct He as [He K]. unfold h_okb in H. rewrite forallb_forall in H.
  apply H in Hb. rewrite forallb_forall in Hb. apply Hb in He. unfold bp_edge in K.
  destruct (e_sink e), (e_inter e); try discriminate. cbn [orb] in He. apply Nat.ltb_lt in He.
  apply in_seq. lia.
Qed.

(** ** C37: the fast path optimisation *)
(** Refuted. Block 2, on the slow path, ends in a conditional tail call: it is an exit
    block, and its other edge leads to the fast exit, so it gets a pop for either reason. *)
Definition ctail_e : edge := mkEdge COND_TAKEN false true 50.
Definition t_ctail (b : nat) : list edge :=
  match b with
  | 0 => [ct_e 3; cn_e 1] | 1 => [jmp_e 2] | 2 => [ctail_e; cn_e 3] | _ => [ret_e] end%nat.
Theorem C37_refuted :
  exists co fl fn slow pops fast ks path,
    fn_ok co fn /\ fast_path co fl fn = Some (slow, pops, fast) /\ fn_path co fn ks path /\
    In slow path /\ ends_at path fast /\
    count_occ ev_eq_dec (run_fast slow pops path) Push = 1%nat /\
    count_occ ev_eq_dec (run_fast slow pops path) Pop = 2%nat.
Proof.
  exists (h_co 4 [2; 3]%nat [1]%nat t_ctail), fl0, 0%nat, 1%nat, [2; 2]%nat, 3%nat, [1; 0; 1]%nat, [0; 1; 2; 3]%nat.
  split; [apply h_fn_ok; [lia|reflexivity|repeat constructor; cbn; intuition discriminate]|].
  split; [vm_compute; reflexivity|]. split; [reflexivity|]. split; [cbn; auto|].
  split; [exists [0; 1; 2]%nat; reflexivity|]. split; reflexivity.
Qed.
(** Partial: exactly the claim for functions without conditional tail calls. Missing:
    functions with one, for which it is false. *)
Theorem C37_balanced_partial co fl fn slow pops fast ks path x :
  fn_ok co fn -> terminal_exits co fn ->
  fast_path co fl fn = Some (slow, pops, fast) ->
  fn_path co fn ks path -> ends_at path x -> In x (f_exits (co_fun co fn)) ->
  let entry := f_entry (co_fun co fn) in
  (path = [entry; fast] /\ run_fast slow pops path = [Blk entry; Blk fast]) \/
  (exists mid tail, run_fast slow pops path = Blk entry :: Push :: Blk slow :: mid ++ Pop :: tail /\
     ~ In Push mid /\ ~ In Pop mid /\ (tail = [] \/ tail = [Blk fast])).
Proof.
  intros (HE & CL & NDB & NDX) T FP HP EA HX entry. pose proof (terminal_out _ _ T) as TO.
  destruct (orig_bp co ks _ _ HP) as (r & -> & P). apply ends_last in EA. rewrite <- EA in HX.
  destruct (fast_runs co fl fn HE CL TO NDX NDB slow fast pops FP r P)
    as [(-> & E)|[(-> & E)|(r' & -> & mid & tail & E & A & B & ST & NE)]].
  - exfalso. cbn [last] in HX.
    destruct (fast_path_inv co fl fn HE slow fast pops FP) as (_ & _ & (e & He & _) & _).
    rewrite (TO _ HX) in He. exact He.
  - left. auto.
  - right. specialize (NE HX). destruct ST as [->|[->| ->]]; [congruence| |].
    + exists mid, []. split; auto.
    + exists mid, [Blk fast]. split; auto.
Qed.
Definition t_fast (b : nat) : list edge :=
  match b with
  | 0 => [ct_e 4; cn_e 1] | 1 => [ct_e 2; cn_e 3] | 2 => [jmp_e 3] | 3 => [jmp_e 4] | _ => [ret_e] end%nat.
Example C37_case :
  let co := h_co 5 [4]%nat [2]%nat t_fast in
  fn_ok co 0 /\ terminal_exits co 0 /\ fast_path co fl0 0 = Some (1, [3], 4)%nat /\
  fn_path co 0 [1; 0; 0; 0]%nat [0; 1; 2; 3; 4]%nat /\
  run_fast 1 [3]%nat [0; 1; 2; 3; 4]%nat = [Blk 0; Push; Blk 1; Blk 2; Blk 3; Pop; Blk 4]%nat /\
  run_fast 1 [3]%nat [0; 4]%nat = [Blk 0; Blk 4]%nat.
Proof.
  cbv zeta. split; [apply h_fn_ok; [lia|reflexivity|repeat constructor; cbn; intuition discriminate]|].
  split; [intros b e Hb He; destruct Hb as [<-|[]]; destruct He as [<-|[]]; auto|].
  repeat split; vm_compute; reflexivity.
Qed.
Print Assumptions C37_refuted.
Print Assumptions C37_balanced_partial.

(** ** C38: every function that needs protection gets it *)
(** A block that has to run after the push. Under lowering: a block marked unsafe by the
    analysis. Under another scheme: any block that writes memory. Without an analysis:
    every block. *)
Definition risky (co : code) (p : plan) (os : option summary) (b : nat) : Prop :=
  match os, p with
  | None, _ => True
  | Some s, ByLowering _ => In b (s_unsafe_blocks s)
  | Some s, _ => exists i, In i (b_insns (co_block co b)) /\ i_wmem i = true
  end.
Definition lowering_ok (co : code) (fl : flags) (fn : nat) (os : option summary) : Prop :=
  forall s, os = Some s -> lowering_input co fn s.

(** A function is left alone only in light mode, with skipping on, because it is safe or
    on the skip list; otherwise the plan is one of the four schemes, or the assertion of
    the lowering fails. *)
Theorem C38_untouched co fl fn os :
  instr fl co fn os = Untouched <->
  fl_light fl = true /\ fl_no_sfe fl = false /\
  ((exists s, os = Some s /\ s_writes s = false) \/ In (f_addr (co_fun co fn)) (fl_skip fl)).
Proof.
  unfold instr, skippable. destruct (fl_light fl); [|split; [discriminate|intros (H & _); discriminate]].
  assert (SK : existsb (Z.eqb (f_addr (co_fun co fn))) (fl_skip fl) = true <->
               In (f_addr (co_fun co fn)) (fl_skip fl)).
  { rewrite existsb_exists. split; [intros (x & H & K); apply Z.eqb_eq in K; subst x; auto|].
    intros H. eexists. split; [exact H|apply Z.eqb_refl]. }
  assert (R : forall s, match lower co fl fn s with
             | NotLowered => if use_reg fl s then ByEntry false (returning_pops co fn) true
                 else match fast_path co fl fn with
                      | Some (slow, pops, fast) => ByFastPath slow pops fast
                      | None => ByEntry (entry_moved fl co fn s) (returning_pops co fn) false
                      end
             | Lowered l => ByLowering l | LAbort => PAbort | LNoFuel => PNoFuel end <> Untouched).
  { intros s. destruct (lower co fl fn s); try discriminate. destruct (use_reg fl s); [discriminate|].
    destruct (fast_path co fl fn) as [[[? ?] ?]|]; discriminate. }
  destruct (fl_no_sfe fl).
  { split; [|intros (_ & H & _); discriminate]. destruct os as [s|]; [|discriminate].
    intros H. destruct (R s H). }
  destruct os as [s|].
  - unfold sum_safe. destruct (s_writes s) eqn:W; cbn [negb].
    + destruct (existsb _ _).
      * split; [|reflexivity]. intros _. split; auto. split; auto. right. apply SK. reflexivity.
      * split; [intros H; destruct (R s H)|]. intros (_ & _ & [(s' & E & K)|K]).
        -- injection E as <-. congruence.
        -- apply SK in K. discriminate.
    + split; [|reflexivity]. intros _. split; auto. split; auto. left. exists s. auto.
  - destruct (existsb _ _).
    + split; [|reflexivity]. intros _. split; auto. split; auto. right. apply SK. reflexivity.
    + split; [discriminate|]. intros (_ & _ & [(s' & E & K)|K]); [discriminate|]. apply SK in K. discriminate.
Qed.
Print Assumptions C38_untouched.

(** Along every path of an instrumented function: the original blocks in order, at most
    one push, before every block with property [R]; a pop only after the push, and at the end of the
    path except for a block that just returns; and when the path reaches a returning
    exit, as many pops as pushes. *)
Definition protected_run (co : code) (fn : nat) (R : nat -> Prop) (path : list nat) (evs : list ev) : Prop :=
  executed evs = path /\
  (count_occ ev_eq_dec evs Push <= 1)%nat /\
  (forall pre b post, evs = pre ++ Blk b :: post -> R b -> In Push pre) /\
  (forall pre post, evs = pre ++ Pop :: post -> In Push pre) /\
  (forall pre post, evs = pre ++ Pop :: post ->
     post = [] \/ exists b i, post = [Blk b] /\ b_insns (co_block co b) = [i] /\ i_op i = ORet) /\
  (forall b, ends_at path b -> returning_exit co fn b ->
     count_occ ev_eq_dec evs Pop = count_occ ev_eq_dec evs Push).

Lemma protect_pop_after dang ex : forall path p pre post,
  protect dang ex p path = pre ++ Pop :: post -> p = true \/ In Push pre.
Proof.
  induction path as [|b r IH]; intros p pre post H; cbn [protect] in H.
  { destruct pre; discriminate. }
  destruct p; auto. right. cbn [negb andb orb] in H.
  destruct (dang b) eqn:D; cbn [app] in H.
  - destruct pre as [|x pre]; [discriminate|]. cbn [app] in H. injection H as <- H. left. reflexivity.
  - destruct pre as [|x pre]; [discriminate|]. cbn [andb app] in H. injection H as <- H.
    apply IH in H. destruct H as [H|H]; [discriminate|]. right. exact H.
Qed.
Lemma protect_count_pop dang ex x : forall l p, (forall b, In b l -> ex b = false) ->
  count_occ ev_eq_dec (protect dang ex p (l ++ [x])) Pop =
  if (p || existsb dang (l ++ [x])) && ex x then 1%nat else 0%nat.
Proof.
  induction l as [|b l IH]; intros p H; cbn [app protect existsb].
  - rewrite orb_false_r. destruct p, (dang x), (ex x); reflexivity.
  - rewrite (H b (or_introl eq_refl)), andb_false_r. cbn [app].
    rewrite orb_assoc. rewrite <- IH by (intros c Hc; apply H; right; auto).
    destruct p, (dang b); reflexivity.
Qed.
Lemma protect_pop_last dang ex x : forall l p, (forall b, In b l -> ex b = false) ->
  forall pre post, protect dang ex p (l ++ [x]) = pre ++ Pop :: post -> post = [].
Proof.
  assert (A : forall (a r pre post : list ev), ~ In Pop a -> a ++ r = pre ++ Pop :: post ->
            exists pre', pre = a ++ pre' /\ r = pre' ++ Pop :: post).
  { induction a as [|y a IH]; intros r pre post N E; [exists pre; auto|].
    destruct pre as [|z pre]; cbn [app] in E; injection E as -> E; [destruct N; left; auto|].
    destruct (IH r pre post) as (q & -> & Q); auto; [intros K; apply N; right; auto|]. exists q. auto. }
  induction l as [|b l IH]; intros p H pre post E.
  - change ([] ++ [x]) with [x] in E. cbn [protect] in E. rewrite app_assoc in E. apply A in E.
    2:{ destruct (negb p && dang x)%bool; cbn; intuition discriminate. }
    destruct E as (q & _ & E). destruct ((p || dang x) && ex x)%bool; cbn [app] in E.
    + destruct q as [|y q]; [injection E as <-; auto|]. destruct q; discriminate.
    + destruct q; discriminate.
  - change ((b :: l) ++ [x]) with (b :: (l ++ [x])) in E. cbn [protect] in E.
    rewrite (H b (or_introl eq_refl)), andb_false_r in E. cbn [app] in E.
    change (Blk b :: protect dang ex (p || dang b) (l ++ [x])) with ([Blk b] ++ protect dang ex (p || dang b) (l ++ [x])) in E.
    rewrite app_assoc in E. apply A in E.
    2:{ destruct (negb p && dang b)%bool; cbn; intuition discriminate. }
    destruct E as (q & _ & E). eapply IH; [|exact E]. intros c Hc. apply H. right. auto.
Qed.
Lemma pop_at_end (a : list ev) tl pre post : ~ In Pop a -> (tl = [] \/ tl = [Pop]) -> a ++ tl = pre ++ Pop :: post -> post = [].
Proof.
  intros N T. revert pre. induction a as [|y a IH]; intros pre E.
  - cbn [app] in E. destruct T as [->| ->]; destruct pre as [|z pre]; try discriminate;
      [injection E as <-; auto|destruct pre; discriminate].
  - destruct pre as [|z pre]; cbn [app] in E; injection E as -> E; [destruct N; left; auto|].
    apply (IH (fun K => N (or_intror K)) pre E).
Qed.
Lemma list_last (l : list ev) : l = [] \/ exists r z, l = r ++ [z].
Proof. destruct (destruct_list_rev l) as [H|(r & z & H)]; eauto. Qed.
Lemma bp_front co (P : nat -> Prop) : (forall b, P b -> out_edges co b = []) ->
  forall l b r x, b :: r = l ++ [x] -> bp_path co b r -> forall y, In y l -> ~ P y.
Proof.
  intros T. induction l as [|a l IH]; intros b r x E H y Hy; [contradiction|].
  cbn [app] in E. injection E as -> E. destruct r as [|c r]; [destruct l; discriminate|].
  destruct H as [(e & He & _) H]. destruct Hy as [<-|Hy].
  - intros K. rewrite (T _ K) in He. exact He.
  - eapply IH; eauto.
Qed.

Lemma entry_run_ok co fn R moved path r :
  let entry := f_entry (co_fun co fn) in
  path = entry :: r -> bp_path co entry r -> terminal_exits co fn ->
  (moved = true -> ~ In entry r) ->
  protected_run co fn R path (run_entry moved entry (returning_pops co fn) path).
Proof.
  intros entry -> P T NM. pose proof (terminal_out _ _ T) as TO.
  set (pops := returning_pops co fn).
  assert (TP : forall b, In b pops -> out_edges co b = []).
  { intros b Hb. apply TO. apply filter_In in Hb. apply Hb. }
  assert (E : run_entry moved entry pops (entry :: r) =
              Push :: map Blk (entry :: r) ++ (if mem (last r entry) pops then [Pop] else [])).
  { rewrite <- (exit_evs_path co pops TP r entry P). unfold run_entry. destruct moved; auto.
    apply (moved_path co); auto. }
  rewrite E. clear E. destruct (in_map_blk (entry :: r)) as [NP NQ].
  set (tl := if mem (last r entry) pops then [Pop] else []) in *.
  assert (NT : ~ In Push tl) by (unfold tl; destruct (mem _ _); cbn; intuition discriminate).
  split; [|split; [|split; [|split; [|split]]]].
  - change (executed (Push :: map Blk (entry :: r) ++ tl)) with (executed (map Blk (entry :: r) ++ tl)).
    rewrite executed_app, executed_map. unfold tl. destruct (mem _ _); cbn; rewrite app_nil_r; reflexivity.
  - change (count_occ ev_eq_dec (Push :: map Blk (entry :: r) ++ tl) Push) with
      (S (count_occ ev_eq_dec (map Blk (entry :: r) ++ tl) Push)).
    rewrite count_occ_app. apply (count_occ_not_In ev_eq_dec) in NP, NT. lia.
  - intros pre b post H _. destruct pre as [|x pre]; [discriminate|]. cbn [app] in H. injection H as <- _. left; auto.
  - intros pre post H. destruct pre as [|x pre]; [discriminate|]. cbn [app] in H. injection H as <- _. left; auto.
  - intros pre post H. left. eapply (pop_at_end (Push :: map Blk (entry :: r)) tl); [| |exact H].
    + intros [K|K]; [discriminate|auto].
    + unfold tl. destruct (mem _ _); auto.
  - intros b EA RX. apply ends_last in EA. apply nonret_prop in RX. apply andb_true_iff in RX.
    assert (M : mem (last r entry) pops = true).
    { rewrite EA. apply mem_in. unfold pops, returning_pops. apply filter_In. split; [apply mem_in|]; apply RX. }
    unfold tl. rewrite M.
    change (count_occ ev_eq_dec (Push :: map Blk (entry :: r) ++ [Pop]) Push) with
      (S (count_occ ev_eq_dec (map Blk (entry :: r) ++ [Pop]) Push)).
    change (count_occ ev_eq_dec (Push :: map Blk (entry :: r) ++ [Pop]) Pop) with
      (count_occ ev_eq_dec (map Blk (entry :: r) ++ [Pop]) Pop).
    rewrite !count_occ_app. apply (count_occ_not_In ev_eq_dec) in NP, NQ. rewrite NP, NQ. reflexivity.
Qed.

(** Returns are not memory writes. *)
Definition rets_ok (co : code) (fn : nat) : Prop :=
  forall b i, In b (f_blocks (co_fun co fn)) -> In i (b_insns (co_block co b)) ->
    i_op i = ORet -> i_wmem i = false.

Theorem C38_protected co fl fn os p ks path :
  fn_ok co fn -> terminal_exits co fn -> rets_ok co fn -> lowering_ok co fl fn os ->
  instr fl co fn os = p -> p <> Untouched -> p <> PAbort ->
  fn_path co fn ks path ->
  (* lowering only works with assertions and without exceptions: C35, C36 *)
  (forall l, p = ByLowering l -> fl_ndebug fl = false /\ no_catch co (f_entry (co_fun co fn)) ks) ->
  exists evs, run_plan co fn p ks = Some evs /\ protected_run co fn (risky co p os) path evs.
Proof.
  intros (HE & CL & NDB & NDX) T RW LI EP NU NA HP LOWH.
  pose proof (terminal_out _ _ T) as TO.
  destruct (orig_bp co ks _ _ HP) as (r & EPA & P).
  unfold fn_path in HP.
  assert (PLAIN : forall reg, exists evs,
     run_plan co fn (ByEntry false (returning_pops co fn) reg) ks = Some evs /\
     protected_run co fn (risky co (ByEntry false (returning_pops co fn) reg) os) path evs).
  { intros reg. cbn [run_plan]. rewrite HP. cbn [option_map]. eexists. split; [reflexivity|].
    eapply entry_run_ok; eauto. discriminate. }
  revert EP. unfold instr. destruct (fl_light fl); [|intros <-; apply PLAIN].
  destruct (skippable fl _ os); [congruence|].
  destruct os as [s|]; [|intros <-; apply PLAIN].
  destruct (lower co fl fn s) as [|l| |] eqn:LOW.
  - destruct (use_reg fl s); [intros <-; apply PLAIN|].
    destruct (fast_path co fl fn) as [[[slow pops] fast]|] eqn:FP; intros <-.
    + cbn [run_plan]. rewrite HP. cbn [option_map]. eexists. split; [reflexivity|]. rewrite EPA.
      destruct (fast_path_inv co fl fn HE slow fast pops FP) as (NW & _ & SF & _ & FX & _ & _ & _ & (i & FI & OI) & _).
      assert (HFB : In fast (f_blocks (co_fun co fn))) by (eapply CL; eauto).
      assert (RE : ~ risky co (ByFastPath slow pops fast) (Some s) (f_entry (co_fun co fn))).
      { intros (j & Hj & W). rewrite (NW j Hj) in W. discriminate. }
      assert (RF : ~ risky co (ByFastPath slow pops fast) (Some s) fast).
      { intros (j & Hj & W). assert (j = i) by (rewrite FI in Hj; destruct Hj as [->|[]]; auto). subst j.
        rewrite (RW fast i HFB Hj OI) in W. discriminate. }
      assert (NEX : ~ In (f_entry (co_fun co fn)) (f_exits (co_fun co fn))).
      { intros K. destruct SF as (e & He & _). rewrite (TO _ K) in He. exact He. }
      destruct (fast_runs co fl fn HE CL TO NDX NDB slow fast pops FP r P)
        as [(-> & E)|[(-> & E)|(r' & -> & mid & tail & E & A & B & ST & NE)]]; rewrite E.
      * split; [reflexivity|]. split; [cbn; lia|]. split; [|split; [|split]].
        -- intros pre b post H K. destruct pre as [|x [|y pre]]; cbn in H; try discriminate.
           injection H as <- H. destruct (RE K).
        -- intros pre post H. destruct pre as [|x [|y pre]]; discriminate.
        -- intros pre post H. destruct pre as [|x [|y pre]]; discriminate.
        -- intros b EA (RX & _). apply ends_last in EA. cbn in EA. subst b. contradiction.
      * split; [reflexivity|]. split; [cbn; lia|]. split; [|split; [|split]].
        -- intros pre b post H K. destruct pre as [|x [|y [|z pre]]]; cbn in H; try discriminate.
           ++ injection H as <- H. destruct (RE K).
           ++ injection H as _ <- H. destruct (RF K).
        -- intros pre post H. destruct pre as [|x [|y [|z pre]]]; discriminate.
        -- intros pre post H. destruct pre as [|x [|y [|z pre]]]; discriminate.
        -- reflexivity.
      * assert (NT : ~ In Push tail) by (destruct ST as [->|[->| ->]]; cbn; intuition discriminate).
        assert (EX : executed (run_fast slow pops (f_entry (co_fun co fn) :: slow :: r')) =
                     f_entry (co_fun co fn) :: slow :: r').
        { clear. generalize (f_entry (co_fun co fn) :: slow :: r'). intros l. unfold run_fast, executed.
          induction l as [|b l IH]; auto. cbn [flat_map]. rewrite flat_map_app, IH. unfold fp_evs.
          rewrite !flat_map_app.
          assert (Q : forall n, flat_map (fun e : ev => match e with Blk b0 => [b0] | _ => [] end) (repeat Pop n) = [])
            by (induction n; auto).
          rewrite Q. destruct (Nat.eqb b slow); reflexivity. }
        rewrite E in EX. split; [exact EX|]. 
        assert (CP : count_occ ev_eq_dec (Blk (f_entry (co_fun co fn)) :: Push :: Blk slow :: mid ++ tail) Push = 1%nat).
        { change (S (count_occ ev_eq_dec (mid ++ tail) Push) = 1%nat). rewrite count_occ_app.
          apply (count_occ_not_In ev_eq_dec) in A, NT. lia. }
        split; [lia|]. split; [|split; [|split]].
        -- intros pre b post H K. destruct pre as [|x [|y pre]]; cbn in H; try discriminate.
           ++ injection H as <- H. destruct (RE K).
           ++ injection H as <- <- _. right; left; auto.
        -- intros pre post H. destruct pre as [|x [|y pre]]; cbn in H; try discriminate.
           injection H as <- <- _. right; left; auto.
        -- intros pre post H.
           assert (NA' : ~ In Pop (Blk (f_entry (co_fun co fn)) :: Push :: Blk slow :: mid)).
           { intros [K|[K|[K|K]]]; try discriminate. exact (B K). }
           change (Blk (f_entry (co_fun co fn)) :: Push :: Blk slow :: mid ++ tail) with
             ((Blk (f_entry (co_fun co fn)) :: Push :: Blk slow :: mid) ++ tail) in H.
           destruct ST as [ST|[ST|ST]].
           ++ left. eapply pop_at_end; [exact NA'|left; exact ST|exact H].
           ++ left. eapply pop_at_end; [exact NA'|right; exact ST|exact H].
           ++ right. exists fast, i. split; auto. subst tail.
              destruct (list_last post) as [->|(post' & z & ->)].
              ** exfalso. change ([Pop; Blk fast]) with ([Pop] ++ [Blk fast]) in H. rewrite app_assoc in H.
                 apply app_inj_tail in H. destruct H as [_ H]. discriminate.
              ** change ([Pop; Blk fast]) with ([Pop] ++ [Blk fast]) in H. rewrite app_assoc in H.
                 change (pre ++ Pop :: post' ++ [z]) with (pre ++ (Pop :: post') ++ [z]) in H.
                 rewrite (app_assoc pre) in H. apply app_inj_tail in H. destruct H as [H <-].
                 apply pop_at_end in H; auto. subst post'. reflexivity.
        -- intros b EA (RX & _). apply ends_last in EA. rewrite CP.
           assert (TN : tail <> []) by (apply NE; rewrite EA; exact RX).
           change (count_occ ev_eq_dec (mid ++ tail) Pop = 1%nat). rewrite count_occ_app.
           apply (count_occ_not_In ev_eq_dec) in B. rewrite B.
           destruct ST as [->|[->| ->]]; [congruence|reflexivity|reflexivity].
    + cbn [run_plan]. rewrite HP. cbn [option_map]. eexists. split; [reflexivity|].
      eapply entry_run_ok; eauto. intros M. unfold entry_moved in M.
      apply andb_true_iff in M. destruct M as [M _]. apply andb_true_iff in M. destruct M as [_ M].
      intros K. destruct (bp_in co _ CL r _ HE P _ K) as (_ & y & Hy & S).
      apply (in_sources_in co fn y _ Hy) in S. destruct (in_sources _ _ _); [exact S|discriminate].
  - intros <-. cbn [run_plan]. destruct (LOWH l eq_refl) as [DB NC].
    destruct (LI s eq_refl) as (CFG & RETS & FLAG).
    eexists. split.
    { apply (lowered_events co fl fn s CFG RETS FLAG l LOW DB ks path HP). apply no_catch_tame. exact NC. }
    set (dang := fun b => mem b (s_unsafe_blocks s)).
    set (ex := fun b => (mem b (f_exits (co_fun co fn)) && negb (nonreturning_call (co_block co b)))%bool).
    assert (D : forall q, existsb dang q = true <-> exists b, In b q /\ In b (s_unsafe_blocks s)).
    { intros q. rewrite existsb_exists. unfold dang. split; intros (b & H & K); exists b; split; auto; apply mem_in; auto. }
    pose proof (protect_pushes dang ex path) as PC. unfold pushes in PC.
    split; [apply protect_executed|]. split; [rewrite PC; destruct (existsb dang path); lia|].
    split; [|split; [|split]].
    + intros pre b post E Hb. destruct (protect_split dang ex path _ _ _ _ E) as (bf & af & _ & A & _).
      apply (A eq_refl). apply D. exists b. split; auto. apply in_or_app. right; left; auto.
    + intros pre post E. apply protect_pop_after in E. destruct E as [E|E]; [discriminate|auto].
    + intros pre post E. left. destruct (last_snoc r (f_entry (co_fun co fn))) as (l' & EL).
      rewrite EPA, EL in E. eapply protect_pop_last; [|exact E].
      intros y Hy. unfold ex. destruct (mem y (f_exits (co_fun co fn))) eqn:M; auto. apply mem_in in M.
      exfalso. exact (bp_front co (fun b => In b (f_exits (co_fun co fn))) TO l' _ r _ EL P y Hy M).
    + intros b (l' & EA) RX. rewrite EA in PC |- *. rewrite PC.
      rewrite protect_count_pop.
      * cbn [orb]. apply nonret_prop in RX. fold (ex b) in RX. rewrite RX, andb_true_r. reflexivity.
      * intros y Hy. unfold ex. destruct (mem y (f_exits (co_fun co fn))) eqn:M; auto. apply mem_in in M.
        exfalso. rewrite EPA in EA. exact (bp_front co (fun b => In b (f_exits (co_fun co fn))) TO l' _ r b EA P y Hy M).
  - congruence.
  - intros <-. exfalso. apply (lower_total co fl fn s (proj1 (LI s eq_refl))). exact LOW.
Qed.
Print Assumptions C38_protected.

(** Examples: one per scheme. *)
Lemma h_terminal nb ex w t :
  forallb (fun b => forallb (fun e => e_sink e || e_inter e) (t b)) ex = true -> terminal_exits (h_co nb ex w t) 0.
Proof.
  intros H b e Hb He. cbn in Hb, He. rewrite forallb_forall in H. apply H in Hb.
  rewrite forallb_forall in Hb. apply Hb in He. apply orb_true_iff in He. exact He.
Qed.
Lemma h_rets nb ex w t : rets_ok (h_co nb ex w t) 0.
Proof.
  intros b i _ Hi O. cbn in Hi. destruct Hi as [<-|[]]. destruct (mem b w); [discriminate|].
  destruct (existsb _ _); reflexivity.
Qed.
Lemma h_input nb ex w t s : (0 < nb)%nat -> input_okb nb t = true -> lowering_input (h_co nb ex w t) 0 s.
Proof. intros P H. exact (input_ok nb t s P H). Qed.
Definition unsafe_sum (us : list nat) : summary := set_writes (with_unsafe us) true.
Definition fl_full : flags := mkFlags false false false false false false [] false.
Definition one_exit (nb : nat) (w : list nat) (t : nat -> list edge) (s : summary) : Prop :=
  let co := h_co nb [nb - 1]%nat w t in
  fn_ok co 0 /\ terminal_exits co 0 /\ rets_ok co 0 /\ lowering_input co 0 s.
Lemma one_exit_ok nb w t s : (0 < nb)%nat -> h_okb nb t = true -> input_okb nb t = true ->
  forallb (fun e => e_sink e || e_inter e) (t (nb - 1)%nat) = true -> one_exit nb w t s.
Proof.
  intros P H1 H2 H3. split; [apply h_fn_ok; auto; repeat constructor; cbn; auto|].
  split; [apply h_terminal; cbn; rewrite H3; reflexivity|]. split; [apply h_rets|apply h_input; auto].
Qed.
(** Lowering; the fast path; plain (a loop through the entry, so the push is not moved);
    full mode. Register stack: as plain. *)
Example C38_case :
  let s := set_writes (lsum 5 [2]%nat 1) true in
  (one_exit 5 [2]%nat t_low s /\ exists l, instr fl0 (h_co 5 [4]%nat [2]%nat t_low) 0 (Some s) = ByLowering l /\
     run_plan (h_co 5 [4]%nat [2]%nat t_low) 0 (ByLowering l) [1; 1; 1]%nat =
       Some [Blk 0; Push; Blk 2; Blk 3; Blk 4; Pop]%nat) /\
  (one_exit 5 [2]%nat t_fast (unsafe_sum [2]%nat) /\
   instr fl0 (h_co 5 [4]%nat [2]%nat t_fast) 0 (Some (unsafe_sum [2]%nat)) = ByFastPath 1 [3]%nat 4) /\
  (one_exit 5 [2]%nat t_low (unsafe_sum [2]%nat) /\
   instr fl0 (h_co 5 [4]%nat [2]%nat t_low) 0 (Some (unsafe_sum [2]%nat)) = ByEntry false [4]%nat false /\
   run_plan (h_co 5 [4]%nat [2]%nat t_low) 0 (ByEntry false [4]%nat false) [1; 1; 0; 0; 0]%nat =
     Some [Push; Blk 0; Blk 2; Blk 3; Blk 0; Blk 1; Blk 4; Pop]%nat) /\
  instr fl_full (h_co 5 [4]%nat [2]%nat t_low) 0 None = ByEntry false [4]%nat false.
Proof.
  cbv zeta. split; [split; [apply one_exit_ok; auto; lia|eexists; split; vm_compute; reflexivity]|].
  split; [split; [apply one_exit_ok; auto; lia|vm_compute; reflexivity]|].
  split; [|reflexivity]. split; [apply one_exit_ok; auto; lia|]. split; vm_compute; reflexivity.
Qed.

(** The functions of a module: each one that returns and lies in .text gets a plan, and
    in full mode, or if it is neither safe nor skipped, the plan is to instrument it. *)
Theorem C38_module fl co an fs i :
  In i fs -> fi_noreturn i = false -> fi_region i = ".text"%string ->
  let addr := f_addr (co_fun co (fi_fn i)) in
  (fl_light fl = false \/
   (~ In addr (fl_skip fl) /\ forall s, an addr = Some s -> s_writes s = true)) ->
  exists p, In (fi_fn i, p) (instr_module fl co an fs) /\ p <> Untouched.
Proof.
  intros Hi NR RG addr H. exists (instr fl co (fi_fn i) (an addr)). split.
  - apply in_map_iff. exists i. split; auto. apply filter_In. split; auto. unfold eligible. rewrite NR, RG. reflexivity.
  - intros K. apply C38_untouched in K. destruct K as (L & _ & [(s & E & W)|K]).
    + destruct H as [H|[_ H]]; [congruence|]. rewrite (H s E) in W. discriminate.
    + destruct H as [H|[H _]]; [congruence|contradiction].
Qed.
Example C38_module_case :
  let fs := [mkFinfo 0 false ".text"; mkFinfo 1 true ".text"; mkFinfo 2 false ".init"]%nat in
  map fst (instr_module fl0 (h_co 5 [4]%nat [2]%nat t_low) (fun _ => Some (unsafe_sum [2]%nat)) fs) = [0]%nat.
Proof. vm_compute. reflexivity. Qed.
Print Assumptions C38_module.

(** ** C39: the skip list *)
(** Refuted: the list is ignored with --disable_sfe, and in full mode. *)
Definition fl_skip_nosfe : flags := mkFlags false false false false true true [100] false.
Definition fl_skip_full : flags := mkFlags false false false false false false [100] false.
Theorem C39_refuted :
  exists co fn os, (forall fl, In fl [fl_skip_nosfe; fl_skip_full] ->
    In (f_addr (co_fun co fn)) (fl_skip fl) /\ exists pops, instr fl co fn os = ByEntry false pops false).
Proof.
  exists (h_co 5 [4]%nat [2]%nat t_low), 0%nat, (Some (unsafe_sum [2]%nat)).
  intros fl [<-|[<-|[]]]; (split; [cbn; auto|]); exists [4]%nat; vm_compute; reflexivity.
Qed.
(** Partial: in light mode without --disable_sfe the list is honoured, whatever the other
    options and the analysis say. Missing: the two configurations above. *)
Theorem C39_light_partial fl co fn os :
  fl_light fl = true -> fl_no_sfe fl = false -> In (f_addr (co_fun co fn)) (fl_skip fl) ->
  instr fl co fn os = Untouched.
Proof. intros A B C. apply C38_untouched. auto. Qed.
Example C39_case :
  instr (mkFlags false false false false false true [7; 100] false) (h_co 5 [4]%nat [2]%nat t_low) 0
    (Some (unsafe_sum [2]%nat)) = Untouched.
Proof. reflexivity. Qed.
Print Assumptions C39_refuted.
Print Assumptions C39_light_partial.

(** ** C40: object selection *)
Definition occurs (sub s : string) : Prop := exists p q, s = (p ++ sub ++ q)%string.
Definition system_names : list string :=
  ["libm.so.6"; "libc.so.6"; "libpthread.so.0"; "ld-linux-x86-64.so.2"]%string.
(** Refuted: a main executable in a directory whose name contains ".so" is not
    instrumented; a shared library whose path does not contain it always is. *)
Theorem C40_refuted :
  (exists dir name, ~ occurs ".so" name /\ selected false false (dir ++ "/" ++ name) = false) /\
  (exists lib, selected false false lib = true /\ lib = "/opt/app/plugins/module.dll"%string).
Proof.
  split.
  - exists "/home/user/my.software"%string, "app"%string. split; [|reflexivity].
    intros H. apply contains_iff in H. vm_compute in H. discriminate.
  - eexists. split; [|reflexivity]. reflexivity.
Qed.
(** Partial: the claim when the path contains ".so" exactly for shared libraries. *)
Theorem C40_by_name_partial libs path is_lib :
  (occurs ".so" path <-> is_lib = true) ->
  (is_lib = false -> forall trust, selected libs trust path = true) /\
  (is_lib = true -> libs = false -> forall trust, selected libs trust path = false) /\
  (is_lib = true -> libs = true -> selected libs false path = true) /\
  (is_lib = true -> libs = true -> forall trust, (forall n, In n system_names -> ~ occurs n path) ->
     selected libs trust path = true) /\
  (forall dir n, In n system_names -> path = (dir ++ n)%string -> selected libs true path = false).
Proof.
  intros H.
  assert (SO : forall n, In n system_names -> occurs n path -> occurs ".so" path).
  { intros n Hn (p & q & E). unfold occurs.
    repeat (destruct Hn as [<-|Hn];
      [match goal with E : path = (p ++ ?n ++ q)%string |- _ =>
         assert (K : contains ".so" n = true) by reflexivity; apply contains_iff in K;
         destruct K as (a & b & K); exists (p ++ a)%string, (b ++ q)%string;
         rewrite E, K; rewrite <- !append_assoc'; reflexivity end|]).
    destruct Hn. }
  assert (SYS : is_system_code path = true <-> exists n, In n system_names /\ occurs n path).
  { unfold is_system_code. rewrite !orb_true_iff, !contains_iff. fold (occurs "libm.so.6" path).
    split.
    - intros [[[K|K]|K]|K]; eexists; (split; [|exact K]); cbn; auto 6.
    - intros (n & Hn & K). cbn in Hn. repeat (destruct Hn as [<-|Hn]; [auto|]). destruct Hn. }
  unfold selected, is_shared_library.
  assert (SL : contains ".so" path = is_lib).
  { destruct (contains ".so" path) eqn:C.
    - apply contains_iff in C. symmetry. apply H. exact C.
    - destruct is_lib; auto. assert (K : occurs ".so" path) by (apply H; reflexivity).
      apply contains_iff in K. congruence. }
  rewrite SL. split; [|split; [|split; [|split]]].
  - intros ->. rewrite andb_false_r. intros trust. destruct (is_system_code path) eqn:S.
    + destruct (proj1 SYS eq_refl) as (n & Hn & K). apply (SO n Hn) in K. apply H in K. discriminate.
    + rewrite andb_false_r. reflexivity.
  - intros -> ->. reflexivity.
  - intros -> ->. reflexivity.
  - intros -> -> trust N. cbn. destruct (is_system_code path) eqn:S; [|rewrite andb_false_r; reflexivity].
    destruct (proj1 SYS eq_refl) as (n & Hn & K). destruct (N n Hn K).
  - intros dir n Hn E. destruct (negb libs && is_lib)%bool; auto.
    assert (K : is_system_code path = true).
    { apply SYS. exists n. split; auto. exists dir, EmptyString. rewrite E. f_equal.
      clear. induction n; cbn; congruence. }
    rewrite K. reflexivity.
Qed.
Example C40_case :
  selected false true "/usr/bin/app" = true /\ selected false false "/usr/lib/libfoo.so.1" = false /\
  selected true true "/usr/lib/libfoo.so.1" = true /\ selected true true "/lib/libc.so.6" = false /\
  (occurs ".so" "/usr/lib/libfoo.so.1" <-> true = true).
Proof.
  repeat match goal with |- _ /\ _ => split end; try reflexivity.
  split; auto. intros _. apply contains_iff. reflexivity.
Qed.
Print Assumptions C40_refuted.
Print Assumptions C40_by_name_partial.

(** ** C52: one pop per activation, when the function is about to leave *)
(** Refuted, even for the plain scheme: block 0 ends in a conditional tail call and is an
    exit block, so it gets a pop; when the call is not made, block 1 runs without
    protection and the function pops again when it returns. *)
Definition t_ctail2 (b : nat) : list edge := match b with 0 => [ctail_e; cn_e 1] | _ => [ret_e] end%nat.
Theorem C52_refuted :
  exists co fn ks path evs b, fn_ok co fn /\ rets_ok co fn /\ fn_path co fn ks path /\
    ends_at path b /\ returning_exit co fn b /\
    run_plan co fn (instr fl_full co fn None) ks = Some evs /\
    count_occ ev_eq_dec evs Push = 1%nat /\ count_occ ev_eq_dec evs Pop = 2%nat.
Proof.
  exists (h_co 2 [0; 1]%nat [1]%nat t_ctail2), 0%nat, [1]%nat, [0; 1]%nat, [Push; Blk 0; Pop; Blk 1; Pop]%nat, 1%nat.
  split; [apply h_fn_ok; [lia|reflexivity|repeat constructor; cbn; intuition discriminate]|].
  split; [apply h_rets|]. split; [reflexivity|]. split; [exists [0]%nat; reflexivity|].
  split; [apply nonret_prop; reflexivity|]. split; [reflexivity|]. split; reflexivity.
Qed.
(** Partial: without conditional tail calls, at most one pop per activation, after the
    push, and nothing but a lone return runs after it. Missing: conditional tail calls. *)
Theorem C52_single_pop_partial co fl fn os p ks path :
  fn_ok co fn -> terminal_exits co fn -> rets_ok co fn -> lowering_ok co fl fn os ->
  instr fl co fn os = p -> p <> Untouched -> p <> PAbort ->
  fn_path co fn ks path ->
  (forall l, p = ByLowering l -> fl_ndebug fl = false /\ no_catch co (f_entry (co_fun co fn)) ks) ->
  exists evs, run_plan co fn p ks = Some evs /\
    (count_occ ev_eq_dec evs Pop <= count_occ ev_eq_dec evs Push)%nat /\
    (count_occ ev_eq_dec evs Pop <= 1)%nat /\
    (forall pre post, evs = pre ++ Pop :: post ->
       post = [] \/ exists b i, post = [Blk b] /\ b_insns (co_block co b) = [i] /\ i_op i = ORet).
Proof.
  intros A1 A2 A3 A4 A5 A6 A7 A8 A9.
  destruct (C38_protected co fl fn os p ks path A1 A2 A3 A4 A5 A6 A7 A8 A9) as (evs & R & PR).
  destruct PR as (_ & PC & _ & AFT & LAST & _).
  assert (C1 : (count_occ ev_eq_dec evs Pop <= 1)%nat).
  { destruct (in_dec ev_eq_dec Pop evs) as [I|I].
    - assert (SP : exists pre post, evs = pre ++ Pop :: post /\ ~ In Pop pre).
      { clear -I. induction evs as [|x l IH]; [contradiction|].
        destruct (ev_eq_dec x Pop) as [->|N]; [exists [], l; auto|].
        destruct I as [I|I]; [contradiction|]. destruct (IH I) as (pre & post & -> & K).
        exists (x :: pre), post. split; auto. intros [Q|Q]; auto. }
      destruct SP as (pre & post & E & NP). pose proof (LAST pre post E) as L. rewrite E, count_occ_app.
      apply (count_occ_not_In ev_eq_dec) in NP. rewrite NP.
      destruct L as [->|(b & i & -> & _)]; cbn; lia.
    - apply (count_occ_not_In ev_eq_dec) in I. lia. }
  exists evs. split; auto. split; [|split; auto].
  destruct (in_dec ev_eq_dec Pop evs) as [I|I].
  - apply in_split in I. destruct I as (pre & post & E). pose proof (AFT pre post E) as K.
    assert (In Push evs) by (rewrite E; apply in_or_app; auto).
    apply (count_occ_In ev_eq_dec) in H. lia.
  - apply (count_occ_not_In ev_eq_dec) in I. lia.
Qed.
Example C52_case :
  one_exit 5 [2]%nat t_fast (unsafe_sum [2]%nat) /\
  run_plan (h_co 5 [4]%nat [2]%nat t_fast) 0
    (instr fl0 (h_co 5 [4]%nat [2]%nat t_fast) 0 (Some (unsafe_sum [2]%nat))) [1; 1; 0]%nat =
    Some [Blk 0; Push; Blk 1; Blk 3; Pop; Blk 4]%nat.
Proof. split; [apply one_exit_ok; auto; lia|vm_compute; reflexivity]. Qed.
Print Assumptions C52_refuted.
Print Assumptions C52_single_pop_partial.

(** ** C53: fast path instrumentation runs with the return address on top of the stack *)
(** Heights of the stack pointer above the return address slot at the start of a block
    and where code at its exit point runs: equal along every edge, and zero where the
    function returns or tail calls. *)
Definition heights_of (co : code) (fn : nat) (hin hexit : nat -> Z) : Prop :=
  (forall b c, In b (f_blocks (co_fun co fn)) -> step co b c -> hexit b = hin c) /\
  (forall b, returning_exit co fn b -> hexit b = 0) /\
  (forall b i, b_insns (co_block co b) = [i] -> i_op i = ORet -> hin b = hexit b).
(** Refuted: block 2 ends in a call that does not return. It is an exit block, and the
    fast path check, unlike the other schemes, gives it a pop. *)
Definition t_exitcall (b : nat) : list edge :=
  match b with
  | 0 => [ct_e 4; cn_e 1] | 1 => [ct_e 2; cn_e 3] | 2 => [call_e 5] | 3 => [jmp_e 4] | _ => [ret_e] end%nat.
Definition hx (b : nat) : Z := if Nat.eqb b 2 then -24 else 0.
Theorem C53_refuted :
  exists co fl fn slow pops fast hin hexit ks path b,
    fn_ok co fn /\ terminal_exits co fn /\ heights_of co fn hin hexit /\
    fast_path co fl fn = Some (slow, pops, fast) /\ fn_path co fn ks path /\ ends_at path b /\
    In b pops /\ hexit b <> 0.
Proof.
  exists (h_co 5 [2; 4]%nat [1]%nat t_exitcall), fl0, 0%nat, 1%nat, [3; 2]%nat, 4%nat, (fun _ => 0), hx, [1; 0]%nat, [0; 1; 2]%nat, 2%nat.
  split; [apply h_fn_ok; [lia|reflexivity|repeat constructor; cbn; intuition discriminate]|].
  split; [apply h_terminal; reflexivity|]. split.
  { split; [|split].
    - intros b c Hb (e & He & <-). unfold hx. destruct (Nat.eqb b 2) eqn:Q; [|reflexivity].
      apply Nat.eqb_eq in Q. subst b. cbn in He. contradiction.
    - intros b K. apply nonret_prop in K. unfold hx. destruct (Nat.eqb b 2) eqn:Q; [|reflexivity].
      apply Nat.eqb_eq in Q. subst b. discriminate.
    - intros b i H1 H2. unfold hx. destruct (Nat.eqb b 2) eqn:Q; [|reflexivity].
      apply Nat.eqb_eq in Q. subst b. cbn in H1. injection H1 as <-. discriminate. }
  split; [vm_compute; reflexivity|]. split; [reflexivity|]. split; [exists [0; 1]%nat; reflexivity|].
  split; [cbn; auto|]. discriminate.
Qed.
(** Partial: the push, and every pop except those at calls that do not return. *)
Theorem C53_heights_partial co fl fn slow pops fast hin hexit :
  fn_ok co fn -> heights_of co fn hin hexit -> returning_exit co fn fast ->
  fast_path co fl fn = Some (slow, pops, fast) ->
  hin slow = 0 /\
  (forall b, In b pops -> returning_exit co fn b \/ ~ In b (f_exits (co_fun co fn)) -> hexit b = 0).
Proof.
  intros (HE & _) (H1 & H2 & H3) RF FP.
  destruct (fast_path_inv co fl fn HE slow fast pops FP) as (_ & _ & SF & SS & FX & _ & _ & _ & (i & FI & OI) & EP & _).
  assert (F0 : hin fast = 0) by (rewrite (H3 fast i FI OI); auto).
  split; [rewrite <- (H1 _ _ HE SS), (H1 _ _ HE SF); auto|].
  intros b Hb [K|K]; [auto|]. rewrite EP in Hb. apply in_app_or in Hb.
  destruct Hb as [Hb|Hb]; apply filter_In in Hb; destruct Hb as [Hb _]; [|contradiction].
  apply in_sources_step in Hb. destruct Hb as [Hb S]. rewrite (H1 _ _ Hb S). exact F0.
Qed.
(** Block 1 sets up a frame, block 3 removes it. *)
Definition hi_ex (b : nat) : Z := if mem b [2; 3]%nat then -32 else 0.
Definition ho_ex (b : nat) : Z := if mem b [1; 2]%nat then -32 else 0.
Example C53_case :
  let co := h_co 5 [4]%nat [2]%nat t_fast in
  fn_ok co 0 /\ heights_of co 0 hi_ex ho_ex /\ returning_exit co 0 4 /\
  fast_path co fl0 0 = Some (1, [3], 4)%nat.
Proof.
  cbv zeta. split; [apply h_fn_ok; [lia|reflexivity|repeat constructor; cbn; intuition discriminate]|].
  split; [|split; [apply nonret_prop; reflexivity|vm_compute; reflexivity]].
  split; [|split].
  - intros b c Hb (e & He & <-). cbn in Hb.
    repeat (destruct Hb as [<-|Hb]; [cbn in He; repeat (destruct He as [<-|He]; [reflexivity|]); contradiction|]).
    contradiction.
  - intros b (K & _). destruct K as [<-|[]]. reflexivity.
  - intros b i H1 H2. cbn in H1. injection H1 as H1.
    destruct b as [|[|[|[|b]]]]; cbn in H1; try (subst i; discriminate). reflexivity.
Qed.
Print Assumptions C53_refuted.
Print Assumptions C53_heights_partial.

(** ** C54: exception-safe calls *)
(** The block makes a direct call or tail call to function [g]. *)
Definition calls_fn (co : code) (b g : nat) : Prop :=
  exists e, In e (b_targets (co_block co b)) /\
    (e_ty e = CALL /\ e_sink e = false \/ e_inter e = true /\ (e_ty e = DIRECT \/ e_ty e = COND_TAKEN)) /\
    b_start (co_block co (e_trg e)) = f_addr (co_fun co g).
(** Refuted with two code objects: the first one's function at address 100 cannot throw;
    the second one calls its own function at address 100, which can. *)
Definition t_xc (b : nat) : list edge := match b with 0 => [call_e 0; ft_e 1] | _ => [ret_e] end%nat.
Definition obj1 : code := h_co 1 [0]%nat [] (fun _ => [ret_e]).
Definition obj2 : code := h_co 2 [1]%nat [] t_xc.
Theorem C54_refuted :
  exists co1 m1 co2 m2 b g, In g (co_funcs co2) /\ calls_fn co2 b g /\ s_exc_safe (m2 g) = false /\
    (forall g', In g' (co_funcs co2) -> calls_fn co2 b g' -> g' = g) /\
    exc_marked co2 (exc_set [(co1, m1); (co2, m2)]) b = true.
Proof.
  exists obj1, (fun _ => set_exc_safe summary0 true), obj2, (fun _ => summary0), 0%nat, 0%nat.
  split; [cbn; auto|]. split.
  { exists (call_e 0). split; [cbn; auto|]. split; [left; auto|reflexivity]. }
  split; [reflexivity|]. split; [|reflexivity].
  intros g' [<-|[]] _. reflexivity.
Qed.
(** Partial: with a single code object whose functions start above address 0, a marked
    block calls or tail calls a function found exception free; what that means is C29.
    Missing: several objects. *)
Theorem C54_single_object_partial co m b :
  (forall f, In f (co_funcs co) -> f_addr (co_fun co f) <> 0) ->
  exc_marked co (exc_set [(co, m)]) b = true ->
  exists g, In g (co_funcs co) /\ s_exc_safe (m g) = true /\ calls_fn co b g.
Proof.
  intros NZ H. unfold exc_marked, exc_set in H. cbn [flat_map fst snd] in H. rewrite app_nil_r in H.
  apply existsb_exists in H. destruct H as (a & Ha & E). apply Z.eqb_eq in E. subst a.
  apply in_map_iff in Ha. destruct Ha as (g & Eg & Hg). apply filter_In in Hg. destruct Hg as [Hg S].
  exists g. split; auto. split; auto. unfold exc_callee in Eg.
  match type of Eg with context [find ?p ?l] => destruct (find p l) as [e|] eqn:F end.
  - apply find_some in F. destruct F as [Fi Fp]. exists e. split; auto. split; [|auto].
    apply orb_true_iff in Fp. rewrite !andb_true_iff, orb_true_iff, negb_true_iff in Fp.
    destruct Fp as [[K1 K2]|[K1 K2]]; [left|right]; split; auto.
    + apply is_true. exact K1.
    + destruct K2 as [K2|K2]; apply is_true in K2; auto.
  - destruct (NZ g Hg Eg).
Qed.
Example C54_case :
  let m := fun _ => set_exc_safe summary0 true in
  (forall f, In f (co_funcs obj2) -> f_addr (co_fun obj2 f) <> 0) /\
  exc_marked obj2 (exc_set [(obj2, m)]) 0 = true /\ exc_marked obj2 (exc_set [(obj2, m)]) 1 = false.
Proof. cbv zeta. split; [intros f _; cbn; discriminate|split; reflexivity]. Qed.
Print Assumptions C54_refuted.
Print Assumptions C54_single_object_partial.
