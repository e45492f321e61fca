(** * Decision: which functions are instrumented and how
    (/repo/src/instrument.cc:287-317, 575-651, 700-1010; /repo/src/parse.cc) *)
From Coq Require Import ZArith Bool Lia ZifyBool ZifyNat Arith String Ascii List.
From Verif Require Import Machine Jit Dfs Binary Reach SafePaths Lowering FastPath.
Import ListNotations.
Open Scope Z_scope.

(** FuncSummary::safe as set by PassManager::Run, pass_manager.h:409-416. *)
Definition sum_safe (s : summary) : bool := negb (s_writes s).

(** ** Skippable, instrument.cc:575-593 *)
Definition skippable (fl : flags) (addr : Z) (os : option summary) : bool :=
  if fl_no_sfe fl then false
  else if match os with Some s => sum_safe s | None => false end then true
  else existsb (Z.eqb addr) (fl_skip fl).

(** ** MoveInstrumentation for the function entry, instrument.cc:595-625

    Whether the push goes into the entry block instead of the function entry. *)
Definition entry_moved (fl : flags) (co : code) (fn : nat) (s : summary) : bool :=
  let f := co_fun co fn in
  negb (fl_no_reg_save fl) &&
  (match in_sources co (f_blocks f) (f_entry f) with [] => true | _ => false end) &&
  (match zfind (s_entryData s) (b_start (co_block co (f_entry f))) with Some _ => true | None => false end).

(** Exit points that get a pop: InsertSnippet (168-183) and 836-847. *)
Definition returning_pops (co : code) (fn : nat) : list nat :=
  filter (fun b => negb (nonreturning_call (co_block co b))) (f_exits (co_fun co fn)).

(** ** InstrumentFunction, instrument.cc:700-873 (the counters are left out)

    In [ByEntry moved pops reg], [reg] tells whether the register stack is used
    (DoStackOpsUsingRegisters, 287-317). *)
Inductive plan :=
| Untouched
| ByLowering (l : lowered)
| ByEntry (moved : bool) (pops : list nat) (reg : bool)
| ByFastPath (slow : nat) (pops : list nat) (fast : nat)
| PAbort
| PNoFuel.
Definition instr (fl : flags) (co : code) (fn : nat) (os : option summary) : plan :=
  if fl_light fl then
    if skippable fl (f_addr (co_fun co fn)) os then Untouched
    else match os with
         | None => ByEntry false (returning_pops co fn) false
         | Some s =>
             match lower co fl fn s with
             | Lowered l => ByLowering l
             | LAbort => PAbort
             | LNoFuel => PNoFuel
             | NotLowered =>
                 if use_reg fl s then ByEntry false (returning_pops co fn) true
                 else match fast_path co fl fn with
                      | Some (slow, pops, fast) => ByFastPath slow pops fast
                      | None => ByEntry (entry_moved fl co fn s) (returning_pops co fn) false
                      end
             end
         end
  else ByEntry false (returning_pops co fn) false.

(** ** What the instrumented function does along a path *)
Definition exit_evs (pops : list nat) (b : nat) : list ev :=
  Blk b :: (if mem b pops then [Pop] else []).
(** Code at the function entry runs once per call; code moved into the entry block runs
    whenever that block does. *)
Definition run_entry (moved : bool) (entry : nat) (pops : list nat) (path : list nat) : list ev :=
  if moved then flat_map (fun b => (if Nat.eqb b entry then [Push] else []) ++ exit_evs pops b) path
  else Push :: flat_map (exit_evs pops) path.
Definition run_plan (co : code) (fn : nat) (p : plan) (ks : list nat) : option (list ev) :=
  let entry := f_entry (co_fun co fn) in
  match p with
  | Untouched => option_map (map Blk) (orig_blocks co entry ks)
  | ByLowering l => run_lowered co l (false, entry) ks
  | ByEntry moved pops _ => option_map (run_entry moved entry pops) (orig_blocks co entry ks)
  | ByFastPath slow pops _ => option_map (run_fast slow pops) (orig_blocks co entry ks)
  | PAbort | PNoFuel => None
  end.

(** ** MarkExceptionSafeCalls, instrument.cc:653-673, and the set it reads

    exception_free_func (instrument.cc:52) is filled by FunctionExceptionAnalysis
    (passes.h:882-884) for one code object after the other and never cleared. *)
Definition exc_free (co : code) (m : sums) : list Z :=
  map (fun f => f_addr (co_fun co f)) (filter (fun f => s_exc_safe (m f)) (co_funcs co)).
Definition exc_set (done : list (code * sums)) : list Z :=
  flat_map (fun p => exc_free (fst p) (snd p)) done.
Definition exc_callee (co : code) (b : nat) : Z :=
  match find (fun e => (is (e_ty e) CALL && negb (e_sink e)) ||
                       (e_inter e && (is (e_ty e) DIRECT || is (e_ty e) COND_TAKEN)))
             (b_targets (co_block co b)) with
  | Some e => b_start (co_block co (e_trg e))
  | None => 0
  end.
Definition exc_marked (co : code) (xs : list Z) (b : nat) : bool :=
  existsb (Z.eqb (exc_callee co b)) xs.

(** ** InstrumentModule, instrument.cc:902-940: functions that return and lie in .text *)
Record finfo := mkFinfo { fi_fn : nat; fi_noreturn : bool; fi_region : string }.
Definition eligible (i : finfo) : bool := negb (fi_noreturn i) && String.eqb (fi_region i) ".text".
Definition instr_module (fl : flags) (co : code) (an : Z -> option summary) (fs : list finfo)
    : list (nat * plan) :=
  map (fun i => (fi_fn i, instr fl co (fi_fn i) (an (f_addr (co_fun co (fi_fn i))))))
    (filter eligible fs).

(** ** Object selection *)
(** std::string::find(sub) != npos *)
Fixpoint contains (sub s : string) : bool :=
  prefix sub s || match s with EmptyString => false | String _ r => contains sub r end.
(** parse.cc:26-44 and 46-58 *)
Definition is_shared_library (path : string) : bool := contains ".so" path.
Definition is_system_code (path : string) : bool :=
  contains "libm.so.6" path || contains "libc.so.6" path ||
  contains "libpthread.so.0" path || contains "ld-linux-x86-64.so.2" path.
(** Instrument, instrument.cc:1029-1041, and InstrumentCodeObject, 952-954. *)
Definition selected (libs trust : bool) (path : string) : bool :=
  if negb libs && is_shared_library path then false
  else negb (trust && is_system_code path).

(** ** Facts *)
Lemma prefix_app sub : forall s, prefix sub s = true <-> exists q, s = (sub ++ q)%string.
Proof.
  induction sub as [|a sub IH]; intros s.
  - split; [intros _; exists s; reflexivity|intros _; destruct s; reflexivity].
  - destruct s as [|b s]; [split; [discriminate|intros (q & H); discriminate]|].
    cbn [prefix]. destruct (ascii_dec a b) as [->|N].
    + rewrite IH. split; intros (q & H); exists q; cbn in *; congruence.
    + split; [discriminate|]. intros (q & H). cbn in H. congruence.
Qed.
Lemma contains_iff sub s : contains sub s = true <-> exists p q, s = (p ++ sub ++ q)%string.
Proof.
  induction s as [|a s IH].
  - cbn [contains]. rewrite orb_false_r, prefix_app. split.
    + intros (q & H). exists EmptyString, q. exact H.
    + intros (p & q & H). exists q. destruct p; [exact H|discriminate].
  - cbn [contains]. rewrite orb_true_iff, prefix_app, IH. split.
    + intros [(q & H)|(p & q & H)].
      * exists EmptyString, q. exact H.
      * exists (String a p), q. cbn. congruence.
    + intros (p & q & H). destruct p as [|b p]; [left; exists q; exact H|].
      right. exists p, q. cbn in H. congruence.
Qed.

Lemma orig_bp co ks : forall b path, orig_blocks co b ks = Some path ->
  exists r, path = b :: r /\ bp_path co b r.
Proof.
  induction ks as [|k ks IH]; intros b path H; cbn in H.
  - injection H as <-. exists []. cbn. auto.
  - destruct (nth_error _ _) as [e|] eqn:N; [|discriminate].
    destruct (e_sink e || e_inter e)%bool eqn:SI; [discriminate|].
    destruct (orig_blocks co (e_trg e) ks) as [p|] eqn:E; [|discriminate]. cbn in H. injection H as <-.
    destruct (IH _ _ E) as (r & -> & P). exists (e_trg e :: r). split; auto. cbn. split; auto.
    exists e. split; auto. apply filter_In. split; [eapply nth_error_In; eauto|].
    unfold bp_edge. apply orb_false_iff in SI. destruct SI as [-> ->]. reflexivity.
Qed.

(** Blocks that never step do so only at the end of a path. *)
Lemma bp_terminal co (P : nat -> Prop) : (forall b, P b -> out_edges co b = []) ->
  forall r b, bp_path co b r -> P b -> r = [].
Proof.
  intros T r b H Pb. destruct r as [|c r]; auto. cbn in H. destruct H as ((e & He & _) & _).
  rewrite (T b Pb) in He. contradiction.
Qed.
Lemma bp_in co bs : (forall b c, In b bs -> step co b c -> In c bs) ->
  forall r b, In b bs -> bp_path co b r -> forall x, In x r -> In x bs /\ exists y, In y bs /\ step co y x.
Proof.
  intros CL. induction r as [|c r IH]; intros b Hb H x Hx; [contradiction|].
  destruct H as [S H]. assert (Hc : In c bs) by eauto. destruct Hx as [<-|Hx]; [eauto|]. eapply IH; eauto.
Qed.
Lemma last_snoc (r : list nat) : forall b, exists l, b :: r = l ++ [last r b].
Proof.
  induction r as [|c r IH]; intros b; [exists []; reflexivity|].
  destruct (IH c) as (l & E). exists (b :: l). rewrite last_cons, E at 1. reflexivity.
Qed.

Section ENTRY.
Variables (co : code) (pops : list nat).
Hypothesis TERM : forall b, In b pops -> out_edges co b = [].
Lemma exit_evs_path r : forall b, bp_path co b r ->
  flat_map (exit_evs pops) (b :: r) = map Blk (b :: r) ++ (if mem (last r b) pops then [Pop] else []).
Proof.
  induction r as [|c r IH]; intros b H.
  - cbn. rewrite app_nil_r. reflexivity.
  - rewrite last_cons. destruct H as [S H].
    change (flat_map (exit_evs pops) (b :: c :: r)) with (exit_evs pops b ++ flat_map (exit_evs pops) (c :: r)).
    change (map Blk (b :: c :: r)) with (Blk b :: map Blk (c :: r)). cbn [app]. rewrite (IH c H).
    unfold exit_evs. destruct (mem b pops) eqn:M; [|reflexivity].
    apply mem_in in M. destruct S as (e & He & _). rewrite (TERM b M) in He. contradiction.
Qed.
Variable entry : nat.
Lemma moved_path r : ~ In entry r -> bp_path co entry r ->
  flat_map (fun b => (if Nat.eqb b entry then [Push] else []) ++ exit_evs pops b) (entry :: r) =
  Push :: flat_map (exit_evs pops) (entry :: r).
Proof.
  intros N _.
  assert (G : flat_map (fun b => (if Nat.eqb b entry then [Push] else []) ++ exit_evs pops b) r =
              flat_map (exit_evs pops) r).
  { induction r as [|c r IH]; auto. cbn [flat_map].
    rewrite (proj2 (Nat.eqb_neq c entry)) by (intros ->; apply N; left; auto).
    rewrite IH; auto. intros K. apply N. right. exact K. }
  cbn [flat_map]. rewrite G, Nat.eqb_refl. reflexivity.
Qed.
End ENTRY.

Lemma in_map_blk (l : list nat) : ~ In Push (map Blk l) /\ ~ In Pop (map Blk l).
Proof. split; intros K; apply in_map_iff in K; destruct K as (x & K & _); discriminate. Qed.
Lemma executed_map l : executed (map Blk l) = l.
Proof. unfold executed. induction l as [|a l IH]; cbn [map flat_map app]; congruence. Qed.
Lemma executed_app a b : executed (a ++ b) = executed a ++ executed b.
Proof. unfold executed. rewrite flat_map_app. reflexivity. Qed.
