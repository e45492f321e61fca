(** * Property C77: whole executions in full mode *)
From Coq Require Import ZArith Bool Lia ZifyBool ZifyNat Arith String List.
From Verif Require Import Machine MachineFacts Jit ShadowSpec JitFacts JitPushPop History Witness.
From Verif Require Import Dfs Binary CallGraph InterProc MemPasses Pipeline RegNames BlockLive ExSem
  Reach SafePaths Lowering P_Lower FastPath Decision P_Instr FullRun Whole P_Whole Sites SiteEx P_Sites
  Order Activation PlanCode ActRun P_Activation FullMode P_Full Tree TreeFacts P_Tree FullExec FullExecFacts.
Import ListNotations.
Open Scope Z_scope.
Local Notation mem := Machine.mem.

(** C77: a program instrumented in full mode, from the start, when only library code is active and
    the shadow stack is empty.  It runs through calls of any depth, jumps to other functions,
    callbacks, signal handlers, exceptions and longjmp, and its stores may overwrite any part of its
    stacks.  Every return goes to an address that an active call has stored, or that was stored by a
    call which an exception or longjmp has left, or to address zero (C07).  The inserted code does not fault.  It stops the
    program only before a return elsewhere than the call has stored, or when, after an exception or
    longjmp, it meets an address of a call that has been left whose low half is zero.  When only
    library code is active, the shadow stack holds at most addresses of calls that have been left.
    Inserted code always comes to an end.  [throws = false] is for programs without exceptions and
    longjmp: there, no call is left, so every return goes to an address of an active call or to zero. *)
Definition secure {X} (throws : bool) (base : Z) (c : conf X) : Prop :=
  match c with
  | Run p [f] => fr_act f = None -> shadow_rep (p_mem p) base (fr_old f) /\ (throws = false -> fr_old f = [])
  | Run _ _ => True
  | Fail => False
  | Stray w => w = 0
  | Stale _ => throws = true
  | Halt w ra old => (w <> ra \/ exists v, In v old /\ v mod 2 ^ 32 = 0) /\ (throws = false -> old = [])
  end.
(** Partial: no conditional jumps out of functions (C37); calls that would overflow the shadow stack are left out. *)
Theorem C77_execution_partial : forall co fl fs m,
  parsed co fs -> fl_light fl = false -> (forall g, own co g -> terminal_exits co g /\ ret_last co g) ->
  forall o mp base k usable, plain o -> spaces mp base k usable ->
  forall X sem L lib throws (p : pst Machine.flags X),
  wfp X p -> usable (p_rg p RSP) -> shadow_rep (p_mem p) base [] ->
  forall tr c, reach co fl fs m true o mp base k usable X sem L lib throws (Run p [library]) tr c ->
  secure throws base c /\
  (forall q a old r sn its, c = Run q (mkFrame (Some a) old :: r) -> a_its a = Snip sn :: its ->
     exists c', step co fl fs m true o mp base k usable X sem L lib throws [] c c').
Proof.
  intros co fl fs m PA NL FN o mp base k usable PL SP X sem L lib throws p WF US RP tr c R.
  assert (IN : inv co fs o base k usable X throws c).
  { induction R as [|tr e c c' R IH S].
    - cbn [inv]. split; [auto|]. split; [auto|]. split; [exists [], []; reflexivity|]. split; [intros _ f [<-|[]]; reflexivity|].
      split; [cbn; lia|]. split; [constructor|]. left. split; [exact I|exact RP].
    - eapply (step_inv co fl fs m o mp base k usable X sem L lib throws PA NL); eauto; try (intros g HG; apply (FN g HG)). }
  split.
  - destruct c as [q fr|w ra old| |w|w]; cbn [secure inv] in *; auto.
    destruct fr as [|f [|f' r]]; auto. intros FA. destruct IN as (_ & _ & _ & FR & _ & _ & TOP). split.
    + destruct TOP as [(_ & T)|[(a & T & _)|(a & l' & T & _)]]; try congruence.
      cbn [addresses flat_map] in T. unfold recorded, own_address in T. rewrite FA, !app_nil_r in T. exact T.
    + intros T. apply (FR T). left; auto.
  - intros q a old r sn its -> E. eapply (snip_runs co fl fs m o mp base k usable X sem L lib throws); eauto; intros g HG; apply (FN g HG).
Qed.
Print Assumptions C77_execution_partial.

(** *** The program of C75, in full mode *)
Definition u_usable (a : Z) : Prop := t_lo + 16 <= a <= 65536 - 8.
Definition u_ok (p : tst) : bool := (t_lo + 16 <=? p_rg p RSP) && (p_rg p RSP <=? 65528).
Definition u_m : sums := fun _ => summary0.
(** Library code writes to the stack, moves rsp, and reads a byte into rax. *)
Inductive libop := Write (a v : Z) | MoveSp (a : Z) | Read (a : Z).
Definition u_lib (x : libop) (p : tst) : option tst :=
  match x with
  | Write a v => Some (mkPst (p_rg p) (store64 (p_mem p) a v) (p_fl p) (p_rest p))
  | MoveSp a => Some (mkPst (updr (p_rg p) RSP a) (p_mem p) (p_fl p) (p_rest p))
  | Read a => Some (mkPst (updr (p_rg p) RAX (p_mem p a mod 256)) (p_mem p) (p_fl p) (p_rest p))
  end.
Notation u_step tc th := (step t_code fl_full t_fs u_m tc wopts t_mp t_base 10 u_usable unit asem libop u_lib th).
Notation u_reach tc th := (reach t_code fl_full t_fs u_m tc wopts t_mp t_base 10 u_usable unit asem libop u_lib th).
(** What to do next. *)
Inductive cmd :=
| Go                               (* the next item *)
| Call                             (* a call of the program *)
| LibCall | LibBack                (* library code calls function 0, or returns *)
| LibDo (x : libop)
| Signal
| Throw (n : nat) (b last : nat) (ks : list nat)   (* leaves [n] calls *)
| Ret.
Section TOUCHED.
Variable tc : bool.
Notation u_plan g := (plan_of t_code fl_full t_fs u_m tc g).
Notation u_sites g := (sites_of t_code fl_full t_fs u_m tc wopts g).
Definition u_act (g : nat) (ra : Z) : option act :=
  match plan_items t_code (u_sites g) g (u_plan g) (fst (fst (t_path g))) with
  | Some its => Some (mkAct g (snd (t_path g)) ra false its)
  | None => None
  end.
Definition with_sp (p : tst) (sp : Z) : tst := mkPst (updr (p_rg p) RSP sp) (p_mem p) (p_fl p) (p_rest p).
Definition lists (l l' : list nat) : bool := if list_eq_dec Nat.eq_dec l l' then true else false.
Definition in_stack (x : libop) : bool := match x with Write a v => (0 <=? a) && (a <=? 65528) | _ => true end.
Definition next (x : cmd) (c : conf unit) : option (list (event libop) * conf unit) :=
  match c with
  | Run p (mkFrame (Some a) old :: r) =>
      match x, a_its a with
      | Go, Here _ :: its | Go, Out _ :: its => Some ([], Run p (mkFrame (Some (with_items a its)) old :: r))
      | Go, Ins _ i :: its =>
          match asem i p with
          | Some p' => if negb (isop (i_op i) OCall) && stepb unit steady (fun _ => false) t_base t_lo 65536 i p p'
                       then Some ([Do i], Run p' (mkFrame (Some (with_items a its)) old :: r)) else None
          | None => None
          end
      | Go, Snip sn :: its =>
          match snip_code wopts sn with
          | Some c => match run 400 c t_mp (Machine.enter (as_state unit t_base p)) with
                      | Done st => Some ([], Run (of_state unit st p)
                          (mkFrame (Some (mkAct (a_fn a) (a_last a) (a_ra a) (a_rec a || is_push sn) its)) old :: r))
                      | Trap => Some ([], Halt (return_word unit p its) (a_ra a) old)
                      | _ => None
                      end
          | None => None
          end
      | Call, Ins n i :: its =>
          match t_callee (snd n) with
          | Some g => match u_act g (i_addr i + 5) with
              | Some a' => if isop (i_op i) OCall && ((0 <=? i_addr i) && (i_addr i <? 10000)) && u_ok (with_sp p (p_rg p RSP - 8)) &&
                              (List.length (addresses (mkFrame (Some a) old :: r)) <? 10)%nat
                           then Some ([CallTo g (i_addr i + 5)],
                             Run (pushed unit p (i_addr i + 5)) (mkFrame (Some a') [] :: mkFrame (Some (with_items a its)) old :: r)) else None
              | None => None
              end
          | None => None
          end
      | Signal, Ins _ _ :: _ => Some ([Interrupted], Run p (library :: mkFrame (Some a) old :: r))
      | Ret, [] => if Dfs.mem (a_last a) [2; 10; 20]%nat && Dfs.mem (a_fn a) [0;1;2]%nat && t_wf (popped unit p) && u_ok (popped unit p)
                   then Some ([Return (word_at unit p)],
                     resume unit (popped unit p) (fun fr => fr) (word_at unit p) (leave (word_at unit p) (a_ra a) old r)) else None
      | _, _ => None
      end
  | Run p (mkFrame None old :: r) =>
      match x with
      | LibCall => match u_act 0 5555 with
          | Some a' => if u_ok (with_sp p (p_rg p RSP - 8)) && (List.length (addresses (mkFrame None old :: r)) <? 10)%nat
                       then Some ([CallTo 0%nat 5555], Run (pushed unit p 5555) (mkFrame (Some a') [] :: mkFrame None old :: r)) else None
          | None => None
          end
      | LibBack => match r with
          | f :: r' => Some ([Back], Run p (give old (f :: r')))
          | [] => None
          end
      | LibDo y =>
          match u_lib y p with
          | Some p' => if t_wf p' && u_ok p' && in_stack y then Some ([Lib y], Run p' (mkFrame None old :: r)) else None
          | None => None
          end
      | Throw n b last ks =>
          match skipn n r with
          | mkFrame (Some a) old' :: r' =>
              match orig_blocks t_code b ks, segs t_code (u_plan (a_fn a)) (false, b) ks with
              | Some bl, Some sl =>
                  if Dfs.mem b (f_blocks (co_fun t_code (a_fn a))) && lists bl (removelast bl ++ [last])
                  then Some ([Caught (a_fn a) last], Run p (mkFrame (Some (mkAct (a_fn a) last (a_ra a) (a_rec a)
                         (flat_map (seg_items t_code (u_sites (a_fn a))) sl)))
                         (addresses (mkFrame None old :: firstn n r) ++ old') :: r')) else None
              | _, _ => None
              end
          | _ => None
          end
      | _ => None
      end
  | _ => None
  end.
Fixpoint runs (l : list cmd) (c : conf unit) : option (list (event libop) * conf unit) :=
  match l with
  | [] => Some ([], c)
  | x :: l => match next x c with
      | Some (e, c') => match runs l c' with Some (tr, c2) => Some (e ++ tr, c2) | None => None end
      | None => None
      end
  end.
Definition is_throw (x : cmd) : bool := match x with Throw _ _ _ _ => true | _ => false end.
Lemma u_ok_ok p : u_ok p = true -> u_usable (p_rg p RSP).
Proof. unfold u_ok, u_usable. rewrite andb_true_iff, !Z.leb_le. lia. Qed.
Lemma u_begins g ra a : In g [0;1;2]%nat -> u_act g ra = Some a -> begins t_code fl_full t_fs u_m tc wopts g ra a.
Proof.
  intros HG H. unfold u_act in H. destruct (plan_items _ _ _ _ _) as [its|] eqn:E; [|discriminate]. injection H as <-.
  split; [split; [cbn in HG |- *; tauto|reflexivity]|].
  exists (fst (fst (t_path g))), (snd (fst (t_path g))), (snd (t_path g)), its.
  split; [cbn in HG; destruct HG as [<-|[<-|[<-|[]]]]; vm_compute; reflexivity|]. split; [exact E|reflexivity].
Qed.
Lemma next_ok th x e c c' : next x c = Some (e, c') -> (is_throw x = true -> th = true) -> u_step tc th e c c'.
Proof.
  assert (BIG : 1000000 < W) by (vm_compute; reflexivity).
  intros H TH. destruct c as [p [|[[a|] old] r]| | | |]; try discriminate; cbn [next] in H.
  - destruct x as [| | | |y| |nn b last ks|], (a_its a) as [|[n|n i|sn|n] its] eqn:E; try discriminate.
    + injection H as <- <-. eapply s_here; eauto.
    + destruct (asem i p) as [p'|] eqn:SE; [|discriminate]. destruct (_ && _)%bool eqn:B; [|discriminate]. injection H as <- <-.
      apply andb_true_iff in B. destruct B as [B1 B2]. apply negb_true_iff, isop_false in B1.
      assert (SO : step_ok unit t_code t_base t_lo 65536 eight all (harmless t_code) steady (false, 0%nat) i p p').
      { apply (stepb_ok unit steady (fun _ => false)); [discriminate|exact asem|right; reflexivity|exact B2]. }
      destruct SO as (S1 & S2 & S3 & _). eapply s_ins; eauto. split; [exact S1|]. split; [exact S2|exact S3].
    + destruct (snip_code wopts sn) as [c|] eqn:SC; [|discriminate].
      destruct (run 400 c t_mp _) as [u| | |] eqn:RN; try discriminate; injection H as <- <-.
      * eapply s_snip; eauto. split; [discriminate|]. exists 400%nat; exact RN.
      * eapply s_trap; eauto. split; [discriminate|]. exists 400%nat; exact RN.
    + injection H as <- <-. eapply s_out; eauto.
    + destruct (t_callee (snd n)) as [g|] eqn:TC; [|discriminate]. destruct (u_act _ _) as [a'|] eqn:UA; [|discriminate].
      destruct (_ && _)%bool eqn:B; [|discriminate]. injection H as <- <-. rewrite !andb_true_iff in B. destruct B as (((B1 & B2 & B3) & B4) & B5).
      destruct (t_goes _ _ TC) as (d & IC & GT). assert (HG' : In g [0;1;2]%nat) by (apply GT).
      eapply (s_call t_code fl_full t_fs u_m tc wopts t_mp t_base 10 u_usable unit asem libop u_lib th p a old r n i its d g); eauto.
      * apply isop_true; auto.
      * lia.
      * apply u_begins; auto.
      * apply u_ok_ok in B4. exact B4.
      * apply Nat.ltb_lt in B5. exact B5.
    + injection H as <- <-. eapply s_signal; eauto.
    + destruct (_ && _)%bool eqn:B; [|discriminate]. injection H as <- <-. rewrite !andb_true_iff in B. destruct B as (((B1 & B2) & B3) & B4).
      apply mem_in in B1, B2. apply s_ret; auto.
      * destruct B1 as [B1|[B1|[B1|[]]]]; rewrite <- B1; eexists; (split; [left; reflexivity|reflexivity]).
      * destruct B2 as [B2|[B2|[B2|[]]]]; rewrite <- B2; reflexivity.
      * apply t_wf_ok; auto.
      * apply u_ok_ok in B4. exact B4.
  - destruct x as [| | | |y| |n b last ks|]; try discriminate.
    + destruct (u_act 0 5555) as [a'|] eqn:UA; [|discriminate]. destruct (_ && _)%bool eqn:B; [|discriminate]. injection H as <- <-.
      apply andb_true_iff in B. destruct B as [B1 B2]. apply Nat.ltb_lt in B2.
      eapply (s_lib_call t_code fl_full t_fs u_m tc wopts t_mp t_base 10 u_usable unit asem libop u_lib th p old r 0); eauto.
      * lia.
      * apply u_begins; [left; reflexivity|auto].
      * apply u_ok_ok in B1. exact B1.
    + destruct r as [|f r]; [discriminate|]. injection H as <- <-. apply s_lib_back.
    + destruct (u_lib y p) as [p'|] eqn:UL; [|discriminate]. destruct (_ && _)%bool eqn:B; [|discriminate]. injection H as <- <-.
      rewrite !andb_true_iff in B. destruct B as ((B1 & B2) & B3).
      apply s_lib; [exact UL|]. split; [apply t_wf_ok in B1; exact B1|]. split; [apply u_ok_ok in B2; exact B2|].
      intros l K. destruct y as [wa wv|sp|ra]; cbn [u_lib in_stack] in UL, B3; injection UL as <-; [|exact K|exact K].
      rewrite andb_true_iff, !Z.leb_le in B3. destruct B3 as (B3 & B4).
      apply shadow_rep_ext with (m := p_mem p); [exact K|]. unfold inside. intros y Hy. cbn [p_mem]. unfold store64. apply store_out.
      assert (TB : t_base = 1048576) by reflexivity. rewrite TB in Hy. clear - Hy B3 B4. change (Z.of_nat 8) with 8. lia.
    + destruct (skipn n r) as [|[[a|] old'] r'] eqn:SK; try discriminate.
      destruct (orig_blocks _ _ _) as [bl|] eqn:OB; [|discriminate]. destruct (segs _ _ _ _) as [sl|] eqn:SG; [|discriminate].
      destruct (_ && _)%bool eqn:B; [|discriminate]. injection H as <- <-. rewrite !andb_true_iff in B. destruct B as (B3 & B4).
      pose proof (firstn_skipn n r) as ER. rewrite SK in ER. rewrite <- ER at 1.
      apply s_throw; auto. unfold lists in B4. destruct (list_eq_dec _ _ _) as [EB|]; [|discriminate]. exists b, ks, (removelast bl), sl.
      split; [apply mem_in; auto|]. split; [congruence|]. auto.
Qed.
Lemma runs_ok th l : (existsb is_throw l = true -> th = true) ->
  forall c0 tr0 c tr c', u_reach tc th c0 tr0 c -> runs l c = Some (tr, c') -> u_reach tc th c0 (tr0 ++ tr) c'.
Proof.
  induction l as [|x l IH]; intros TH c0 tr0 c tr c' R H; cbn [runs existsb] in *; [injection H as <- <-; rewrite app_nil_r; auto|].
  destruct (next x c) as [[e c1]|] eqn:E; [|discriminate]. destruct (runs l c1) as [[tr1 c2]|] eqn:E2; [|discriminate].
  injection H as <- <-. rewrite app_assoc.
  apply (IH (fun K => TH (proj2 (orb_true_iff _ _) (or_intror K))) c0 (tr0 ++ e) c1); auto.
  eapply r_step; [exact R|]. eapply next_ok; [exact E|]. intros K. apply TH. apply orb_true_iff; auto.
Qed.
End TOUCHED.
Definition u_all : list cmd :=
  (* push; call 2: push, its instructions, check, return *)
  [LibCall; Go; Go; Call; Go; Go; Go; Go; Ret; Go; Go; Call] ++
  (* function 1 *) [Go; Go; Go; Go; Go; Go; Ret] ++ [Go; Go; Go; Ret].
(** In function 1, a signal handler jumps back into function 0. *)
Definition u_jump : list cmd :=
  [LibCall; Go; Go; Call; Go; Go; Go; Go; Ret; Go; Go; Call; Go; Go; Signal; LibDo (MoveSp 65520); Throw 1 1 2 [1]%nat;
   Go; Call; Go; Go; Go; Go; Go; Go; Ret; Go; Go; Go; Ret].
(** The handler has overwritten the word from which function 0 will return. *)
Definition u_stale : list cmd :=
  [LibCall; Go; Go; Call; Go; Go; Go; Go; Ret; Go; Go; Call; Go; Go; Signal; LibDo (Write 65520 205); LibDo (MoveSp 65520); Throw 1 2 2 []; Go; Go; Ret].
(** The handler overwrites it with zero and returns: function 0 is left to address zero. *)
Definition u_null : list cmd :=
  [LibCall; Go; Go; Call; Go; Go; Go; Go; Ret; Go; Go; Call; Go; Go; Signal; LibDo (Write 65520 0); LibBack; Go; Go; Go; Go; Ret; Go; Go; Go; Ret].
(** What is left: how many frames, and the recorded addresses. *)
Inductive left := Running (n : nat) (l : list Z) | Halted (w ra : Z) | Staled (w : Z) | Strayed (w : Z) | Other.
Definition u_end (c : option (list (event libop) * conf unit)) : left :=
  match c with
  | Some (_, Run _ fr) => Running (List.length fr) (addresses fr)
  | Some (_, Halt w ra _) => Halted w ra
  | Some (_, Stale w) => Staled w
  | Some (_, Stray w) => Strayed w
  | _ => Other
  end.
Lemma u_ends th l target : (existsb is_throw l = true -> th = true) ->
  match u_end (runs true l (Run (t_start target) [library])) with
  | Running n s => exists tr p fr, u_reach true th (Run (t_start target) [library]) tr (Run p fr) /\ List.length fr = n /\ addresses fr = s
  | Halted w ra => exists tr old, u_reach true th (Run (t_start target) [library]) tr (Halt w ra old)
  | Staled w => exists tr, u_reach true th (Run (t_start target) [library]) tr (Stale w)
  | Strayed w => exists tr, u_reach true th (Run (t_start target) [library]) tr (Stray w)
  | Other => True
  end.
Proof.
  intros TH. destruct (runs true l _) as [[tr c]|] eqn:E; [|exact I].
  assert (R : u_reach true th (Run (t_start target) [library]) tr c) by (change tr with ([] ++ tr); eapply runs_ok; [exact TH|apply r_start|exact E]). clear E.
  destruct c as [p fr|w' ra old| |w'|w']; cbn [u_end]; eauto 7.
Qed.
Lemma u_ends_as th l target z : (existsb is_throw l = true -> th = true) ->
  u_end (runs true l (Run (t_start target) [library])) = z ->
  match z with
  | Running n s => exists tr p fr, u_reach true th (Run (t_start target) [library]) tr (Run p fr) /\ List.length fr = n /\ addresses fr = s
  | Halted w ra => exists tr old, u_reach true th (Run (t_start target) [library]) tr (Halt w ra old)
  | Staled w => exists tr, u_reach true th (Run (t_start target) [library]) tr (Stale w)
  | Strayed w => exists tr, u_reach true th (Run (t_start target) [library]) tr (Stray w)
  | Other => True
  end.
Proof. intros TH <-. apply u_ends; auto. Qed.
Lemma u_terminal g : own t_code g -> terminal_exits t_code g /\ ret_last t_code g.
Proof. intros HG. split; [exact (t_within Exits g HG)|apply tidy_last, t_tidy, HG]. Qed.
Lemma u_spaces : spaces t_mp t_base 10 u_usable.
Proof.
  constructor.
  - intros a U. unfold u_usable, t_lo in U. split; [|unfold apart, t_base; lia].
    unfold mapped. split; [lia|]. split; [assert (1000000 < W) by (vm_compute; reflexivity); lia|]. intros y Hy.
    reflexivity.
  - unfold mapped, t_base. split; [lia|]. split; [vm_compute; discriminate|]. intros y Hy. reflexivity.
  - vm_compute. reflexivity.
Qed.
Lemma u_starts target : 3 <= target < W ->
  wfp unit (t_start target) /\ u_usable (p_rg (t_start target) RSP) /\ shadow_rep (p_mem (t_start target)) t_base [].
Proof.
  intros T. split; [intros r; assert (1000000 < W) by (vm_compute; reflexivity); destruct r; cbn; lia|].
  split; [unfold u_usable, t_lo; cbn; lia|]. split; [vm_compute; reflexivity|]. split; [vm_compute; reflexivity|].
  intros [|i] v K; discriminate.
Qed.
(** The program returns to the library; with the return address of function 1 overwritten, it is
    stopped; with a signal handler that jumps back into function 0, it returns.  After the jump,
    the address of the call that was left is there along with the one of the second call.  With a
    word of zero in place of its address, function 0 is left to address zero. *)
Example C77_case :
  parsed t_code t_fs /\ fl_light fl_full = false /\ (forall g, own t_code g -> terminal_exits t_code g /\ ret_last t_code g) /\
  plain wopts /\ spaces t_mp t_base 10 u_usable /\
  (forall target, 3 <= target < W ->
     wfp unit (t_start target) /\ u_usable (p_rg (t_start target) RSP) /\ shadow_rep (p_mem (t_start target)) t_base []) /\
  (exists tr p fr, u_reach true false (Run (t_start 70000) [library]) tr (Run p fr) /\ List.length fr = 1%nat /\ addresses fr = []) /\
  (exists tr old, u_reach true false (Run (t_start 65512) [library]) tr (Halt 232 205 old)) /\
  (exists tr p fr, u_reach true true (Run (t_start 70000) [library]) tr (Run p fr) /\ List.length fr = 3%nat /\ addresses fr = [205; 205; 5555]) /\
  (exists tr p fr, u_reach true true (Run (t_start 70000) [library]) tr (Run p fr) /\ List.length fr = 1%nat /\ addresses fr = []) /\
  (exists tr, u_reach true false (Run (t_start 70000) [library]) tr (Stray 0)).
Proof.
  assert (R1 : u_end (runs true u_all (Run (t_start 70000) [library])) = Running 1 []) by (vm_compute; reflexivity).
  assert (R2 : u_end (runs true (firstn 18 u_all) (Run (t_start 65512) [library])) = Halted 232 205) by (vm_compute; reflexivity).
  assert (R3 : u_end (runs true (firstn 20 u_jump) (Run (t_start 70000) [library])) = Running 3 [205; 205; 5555]) by (vm_compute; reflexivity).
  assert (R4 : u_end (runs true u_jump (Run (t_start 70000) [library])) = Running 1 []) by (vm_compute; reflexivity).
  assert (R5 : u_end (runs true u_null (Run (t_start 70000) [library])) = Strayed 0) by (vm_compute; reflexivity).
  split; [apply t_parsed|]. split; [reflexivity|]. split; [apply u_terminal|].
  split; [vm_compute; repeat split; discriminate|]. split; [apply u_spaces|]. split; [apply u_starts|].
  split; [exact (u_ends_as false u_all 70000 (Running 1 []) ltac:(discriminate) R1)|].
  split; [exact (u_ends_as false (firstn 18 u_all) 65512 (Halted 232 205) ltac:(discriminate) R2)|].
  split; [exact (u_ends_as true (firstn 20 u_jump) 70000 (Running 3 [205; 205; 5555]) (fun _ => eq_refl) R3)|].
  split; [exact (u_ends_as true u_jump 70000 (Running 1 []) (fun _ => eq_refl) R4)|].
  exact (u_ends_as false u_null 70000 (Strayed 0) ltac:(discriminate) R5).
Qed.

(** It is false that a return always goes where an active call has stored its address: an exception
    or longjmp leaves addresses on the shadow stack, and until a later return drops them a check
    accepts them.  Here function 0 returns into itself, to the address after its call of function 1,
    which a signal handler has left by longjmp. *)
Theorem C77_return_to_left_call_refuted : exists target w,
  wfp unit (t_start target) /\ u_usable (p_rg (t_start target) RSP) /\ shadow_rep (p_mem (t_start target)) t_base [] /\
  exists tr, u_reach true true (Run (t_start target) [library]) tr (Stale w).
Proof.
  exists 70000, 205. assert (R : u_end (runs true u_stale (Run (t_start 70000) [library])) = Staled 205) by (vm_compute; reflexivity).
  assert (H : 3 <= 70000 < W) by (split; [lia|vm_compute; reflexivity]).
  destruct (u_starts 70000 H) as (A & B & C). split; [exact A|]. split; [exact B|]. split; [exact C|].
  exact (u_ends_as true u_stale 70000 (Staled 205) (fun _ => eq_refl) R).
Qed.
Print Assumptions C77_return_to_left_call_refuted.
