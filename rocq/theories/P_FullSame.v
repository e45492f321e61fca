(** * Property C80: whole executions in full mode do what the program does *)
From Coq Require Import ZArith Bool Lia ZifyBool ZifyNat Arith String List.
From Verif Require Import Machine MachineFacts Jit ShadowSpec JitFacts JitPushPop History Witness.
From Verif Require Import Dfs Binary CallGraph InterProc MemPasses Pipeline RegNames BlockLive ExSem
  Reach SafePaths Lowering P_Lower FastPath Decision P_Instr FullRun Whole P_Whole Sites SiteEx P_Sites
  Order Activation PlanCode ActRun P_Activation FullMode P_Full Tree TreeFacts P_Tree FullExec FullExecFacts P_FullExec FullSame.
Import ListNotations.
Open Scope Z_scope.
Local Notation mem := Machine.mem.

(** C80: an execution of the program as it is, with calls, jumps to other functions, callbacks,
    signals, exceptions and longjmp, that keeps its return addresses, does not rely on flags across
    returns or on the two words below rsp across calls and returns, and does not touch the shadow
    stack.  The instrumented program does the same: it executes the same instructions, library
    actions, calls and returns in the same order, and ends with the same registers and the same
    memory, up to the shadow stack, those words below rsp and those flags.  Or else, on the way, it
    fills the shadow stack. *)
(** Partial: no conditional jumps out of functions (C37); return addresses with a low half of zero
    are excluded (C62). *)
Theorem C80_same_behaviour_partial : forall co fl fs m,
  parsed co fs -> fl_light fl = false -> (forall g, own co g -> terminal_exits co g /\ ret_last co g) ->
  forall o mp base k usable, plain o -> spaces mp base k usable ->
  forall X sem L lib throws ac, described X sem L lib ac ->
  forall p0 : pst Machine.flags X, wfp X p0 -> usable (p_rg p0 RSP) -> shadow_rep (p_mem p0) base [] ->
  forall g tr p fr, oblivious co fl fs m o mp base k usable X sem L lib throws ac (Run p0 [library]) g tr (Run p fr) ->
  (exists q fr', reach co fl fs m true o mp base k usable X sem L lib throws (Run p0 [library]) tr (Run q fr') /\
     alike_to X g p q /\ Forall2 same_call fr fr') \/
  (exists tr1 tr2 q fr', tr = tr1 ++ tr2 /\
     reach co fl fs m true o mp base k usable X sem L lib throws (Run p0 [library]) tr1 (Run q fr') /\
     List.length (addresses fr') = k).
Proof.
  intros co fl fs m PA NL FN o mp base k usable PL SP X sem L lib throws ac DS p0 WF US RP g tr p fr OB.
  assert (TE : forall g, own co g -> terminal_exits co g) by (intros h HG; apply (FN h HG)).
  assert (RL : forall g, own co g -> ret_last co g) by (intros h HG; apply (FN h HG)).
  assert (K : (exists q fr', reach co fl fs m true o mp base k usable X sem L lib throws (Run p0 [library]) tr (Run q fr') /\
                related co fs o base k usable X g p fr q fr') \/
              (exists tr1 tr2 q fr', tr = tr1 ++ tr2 /\
                 reach co fl fs m true o mp base k usable X sem L lib throws (Run p0 [library]) tr1 (Run q fr') /\
                 List.length (addresses fr') = k)).
  { remember (Run p fr) as c eqn:EC. revert p fr EC. induction OB as [|g g' tr e p1 fr1 c OB IH S TD]; intros p fr EC; [|subst c].
    - injection EC as <- <-. left. exists p0, [library]. split; [apply r_start|].
      split; [split; [auto|]; split; [auto|]; split; auto|]. split.
      { cbn [g_ok untouched]. intros a Ha. apply negb_true_iff in Ha. exact Ha. }
      split; [constructor; [split; [auto|split; [constructor|exact I]]|constructor]|].
      split; [exists [], []; reflexivity|]. split; [auto|]. split; [auto|]. split; [exact RP|cbn; lia].
    - destruct (IH p1 fr1 eq_refl) as [(q & fr' & R & REL)|(tr1 & tr2 & q & fr' & -> & R & FU)].
      + destruct (step_same co fl fs m o mp base k usable X sem L lib throws ac PA NL TE RL PL SP DS g g' e p1 fr1 q fr' p fr REL S TD)
          as [FU|(q2 & fr2' & R2 & REL2)].
        * right. exists tr, e, q, fr'. auto.
        * left. exists q2, fr2'. split; [eapply reach_app; eauto|exact REL2].
      + right. exists tr1, (tr2 ++ e), q, fr'. rewrite app_assoc. auto. }
  destruct K as [(q & fr' & R & REL)|K]; [left|right; exact K]. exists q, fr'. split; [exact R|].
  destruct REL as (R1 & _ & R3 & _). split; [exact R1|].
  clear - R3. induction R3 as [|f f' fr fr' (S1 & S2 & S3) F IH]; constructor; auto.
  unfold same_call. destruct (fr_act f) as [a|], (fr_act f') as [a'|]; auto.
  destruct S3 as (_ & _ & S4 & _ & S5 & _ & _ & _ & S6 & S7). split; [auto|]. split; [auto|]. unfold same_items in S7. rewrite S7.
  unfold program_of at 1. rewrite filter_app. fold (program_of (a_its a)). fold (program_of (if can_return fs (a_fn a) then check_at co o (a_fn a) (a_last a) else [])). replace (program_of (if can_return _ _ then _ else _)) with (@nil item).
  2:{ destruct (can_return _ _); [|reflexivity]. unfold check_at. destruct (Dfs.mem _ _); reflexivity. }
  rewrite app_nil_r. apply program_bare. exact S6.
Qed.
Print Assumptions C80_same_behaviour_partial.

(** *** The program of C75 again *)
Definition v_val (i : insn) (p : tst) : Z := xval (mkPst (p_rg p) (p_mem p) 0 tt) i.
Definition v_reads (x : action libop) (p : tst) (a : Z) : bool :=
  match x with
  | inl i => isop (i_op i) OPop && (a =? p_rg p RSP)
  | inr (Read b) => a =? b
  | _ => false
  end.
Definition v_writes (x : action libop) (p : tst) (a : Z) : bool :=
  match x with
  | inl i => if isop (i_op i) OPush then (p_rg p RSP - word i <=? a) && (a <? p_rg p RSP) else i_wmem i && (a =? v_val i p)
  | inr (Write b _) => FullSame.within b 8 a
  | _ => false
  end.
Definition v_access : access unit libop := mkAccess unit libop v_reads v_writes (fun _ _ => false) (fun _ _ => false).
Lemma v_val_eq i p q : (forall r, p_rg q r = p_rg p r) -> v_val i q = v_val i p.
Proof.
  intros H. unfold v_val, xval. f_equal. induction (i_read i) as [|x l IH]; cbn [fold_right]; auto.
  rewrite IH. destruct x as [r w| |]; cbn [p_rg]; auto. rewrite H. reflexivity.
Qed.
Lemma v_described : described unit asem libop u_lib v_access.
Proof.
  constructor.
  - intros [i|[b v|b|b]] p p' a H W; cbn [act_on u_lib] in H; cbn [writes v_access v_writes] in W.
    + apply asem_inv in H. destruct H as (t & T & _ & ->). unfold xsem in T. destruct (_ && _)%bool; [discriminate|]. injection T as <-. cbn [p_mem].
      unfold xmem. cbn [p_rg p_mem]. destruct (isop (i_op i) OPush); [rewrite W; reflexivity|].
      destruct (i_wmem i); [|reflexivity]. cbn [andb] in W. unfold v_val in W. rewrite W. reflexivity.
    + injection H as <-. cbn [p_mem]. unfold store64. apply store_out. change (Z.of_nat 8) with 8. unfold FullSame.within in W. lia.
    + injection H as <-. reflexivity.
    + injection H as <-. reflexivity.
  - intros x p q p' H R1 R2 R3 _. split.
    { intros a. destruct x as [i|[b v|b|b]]; cbn [writes v_access v_writes]; auto. rewrite R1, (v_val_eq i p q R1). reflexivity. }
    destruct x as [i|[b v|b|b]]; cbn [act_on u_lib] in H |- *; cbn [writes reads v_access v_writes v_reads sets tests] in R3 |- *.
    + unfold asem in H |- *. unfold xsem in H |- *. destruct (_ && _)%bool; [discriminate|]. injection H as <-. cbn [p_rg p_mem p_fl p_rest].
      eexists. split; [reflexivity|]. cbn [p_rg p_mem p_fl p_rest].
      pose proof (v_val_eq i p q R1) as V. unfold v_val in V. split; [|split; [reflexivity|split; [|intros [K|K]; [discriminate|exact K]]]].
      * intros r. destruct (reg_eq_dec r RSP) as [->|N].
        -- unfold xrsp. cbn [p_rg]. rewrite R1, V. reflexivity.
        -- destruct (killsb r _); [|apply R1]. rewrite V. f_equal. destruct (isop (i_op i) OPop); [|reflexivity].
           rewrite R1. apply R3. cbn [andb]. apply Z.eqb_refl.
      * intros a Ha. unfold xmem. cbn [p_rg p_mem]. rewrite R1, V. unfold v_val in Ha.
        destruct (isop (i_op i) OPush); [rewrite Ha; reflexivity|]. apply andb_true_iff in Ha. destruct Ha as [-> ->]. reflexivity.
    + injection H as <-. eexists. split; [reflexivity|]. cbn [p_rg p_mem p_fl p_rest]. split; [auto|]. split; [auto|]. split; [|intros [K|K]; [discriminate|exact K]].
      intros a Ha. unfold store64. apply store_in_ext. apply within_inside in Ha. unfold inside in Ha. change (Z.of_nat 8) with 8. lia.
    + injection H as <-. eexists. split; [reflexivity|]. cbn [p_rg p_mem p_fl p_rest]. split; [|split; [auto|]; split; [discriminate|intros [K|K]; [discriminate|exact K]]].
      intros r. destruct (reg_eq_dec r RSP) as [->|N]; [rewrite !updr_same; auto|rewrite !updr_other by auto; auto].
    + injection H as <-. eexists. split; [reflexivity|]. cbn [p_rg p_mem p_fl p_rest]. split; [|split; [auto|]; split; [discriminate|intros [K|K]; [discriminate|exact K]]].
      intros r. destruct (reg_eq_dec r RAX) as [->|N]; [rewrite !updr_same, R3 by apply Z.eqb_refl; auto|rewrite !updr_other by auto; auto].
Qed.
Notation v_oblivious th := (oblivious t_code fl_full t_fs u_m wopts t_mp t_base 10 u_usable unit asem libop u_lib th v_access).
(** The bytes an action accesses, as lists. *)
Definition v_rlist (x : action libop) (p : tst) : list Z :=
  match x with inl i => if isop (i_op i) OPop then [p_rg p RSP] else [] | inr (Read b) => [b] | _ => [] end.
Definition v_wlist (x : action libop) (p : tst) : option (list Z) :=
  match x with
  | inl i => if isop (i_op i) OPush then None else Some (if i_wmem i then [v_val i p] else [])
  | inr (Write b _) => Some (zseq b 8)
  | _ => Some []
  end.
Definition v_does (g : ghost) (x : action libop) (p : tst) : option ghost :=
  match v_wlist x p with
  | Some l => if forallb (g_ok g) (v_rlist x p) && forallb (fun a => negb (reserved t_base 10 a)) l
              then Some (mkGhost (fun a => g_ok g a || v_writes x p a) (g_fl g || false)) else None
  | None => None
  end.
Definition v_leaves (g : ghost) (p : tst) : option ghost :=
  if forallb (g_ok g) (zseq (p_rg p RSP) 8)
  then Some (mkGhost (fun a => g_ok g a && negb (FullSame.within (p_rg p RSP - 16) 16 a)) false) else None.
Definition v_tidy (g : ghost) (p : tst) (e : list (event libop)) : option ghost :=
  match e with
  | [Do i] => v_does g (inl i) p
  | [Lib x] => v_does g (inr x) p
  | [CallTo f ra] => if ra mod 2 ^ 32 =? 0 then None else
      Some (mkGhost (fun a => (g_ok g a || FullSame.within (p_rg p RSP - 8) 8 a) && negb (can_return t_fs f && FullSame.within (p_rg p RSP - 24) 16 a)) (g_fl g))
  | [Return _] | [JumpTo _] | [JumpOut _] => v_leaves g p
  | _ => Some g
  end.
Lemma v_does_ok g x p g' : v_does g x p = Some g' -> does t_base 10 unit libop v_access g x p g'.
Proof.
  unfold v_does. destruct (v_wlist x p) as [l|] eqn:WL; [|discriminate]. destruct (_ && _)%bool eqn:B; [|discriminate]. intros H. injection H as <-.
  apply andb_true_iff in B. destruct B as [B1 B2]. rewrite forallb_forall in B1, B2. split; [|split; [discriminate|split; [|reflexivity]]].
  - intros a Ha. apply B1. cbn [reads v_access] in Ha. destruct x as [i|[b v|b|b]]; cbn [v_reads v_rlist] in *; try discriminate.
    + apply andb_true_iff in Ha. destruct Ha as [-> Ha]. left. lia.
    + left. lia.
  - intros a Ha. cbn [writes v_access] in Ha. apply negb_true_iff, B2. destruct x as [i|[b v|b|b]]; cbn [v_writes v_wlist] in *; try discriminate.
    + destruct (isop (i_op i) OPush); [discriminate|]. injection WL as <-. apply andb_true_iff in Ha. destruct Ha as [-> Ha]. left. lia.
    + injection WL as <-. apply (zseq_in 8 b a). apply within_inside in Ha. unfold inside in Ha. change (Z.of_nat 8) with 8. lia.
Qed.
Lemma v_leaves_ok g p g' : v_leaves g p = Some g' -> leaves unit g p g'.
Proof.
  unfold v_leaves. destruct (forallb _ _) eqn:B; [|discriminate]. intros H. injection H as <-. split; [|reflexivity].
  rewrite forallb_forall in B. intros a Ha. apply B, zseq_in. apply within_inside in Ha. unfold inside in Ha. change (Z.of_nat 8) with 8. lia.
Qed.
Lemma v_tidy_ok g p e g' : v_tidy g p e = Some g' -> tidy_step t_fs t_base 10 unit libop v_access g p e g'.
Proof.
  unfold v_tidy, tidy_step. intros H. destruct e as [|x [|y e]]; try (injection H as <-; reflexivity);
    destruct x; try (injection H as <-; reflexivity); try (apply v_does_ok; exact H); try (apply v_leaves_ok; exact H).
  destruct (_ =? 0) eqn:Z0; [discriminate|]. injection H as <-. split; [lia|reflexivity].
Qed.
Fixpoint v_runs (l : list cmd) (g : ghost) (c : conf unit) : option (ghost * list (event libop) * conf unit) :=
  match l with
  | [] => Some (g, [], c)
  | x :: l =>
      match c, next false x c with
      | Run p _, Some (e, c') => match v_tidy g p e with
          | Some g' => match v_runs l g' c' with Some (g2, tr, c2) => Some (g2, e ++ tr, c2) | None => None end
          | None => None
          end
      | _, _ => None
      end
  end.
Lemma v_runs_ok th l : (existsb is_throw l = true -> th = true) -> forall c0 g0 tr0 c g tr c',
  v_oblivious th c0 g0 tr0 c -> v_runs l g0 c = Some (g, tr, c') -> v_oblivious th c0 g (tr0 ++ tr) c'.
Proof.
  induction l as [|x l IH]; intros TH c0 g0 tr0 c g tr c' R H; cbn [v_runs existsb] in *; [injection H as <- <- <-; rewrite app_nil_r; auto|].
  destruct c as [p fr| | | |]; try discriminate. destruct (next false x _) as [[e c1]|] eqn:E; [|discriminate].
  destruct (v_tidy g0 p e) as [g1|] eqn:T; [|discriminate]. destruct (v_runs l g1 c1) as [[[g2 tr1] c2]|] eqn:E2; [|discriminate].
  injection H as <- <- <-. rewrite app_assoc.
  apply (IH (fun K => TH (proj2 (orb_true_iff _ _) (or_intror K))) c0 g1 (tr0 ++ e) c1); auto.
  eapply ob_step; [exact R| |apply v_tidy_ok; exact T]. eapply next_ok; [exact E|]. intros K. apply TH. apply orb_true_iff; auto.
Qed.
(** Without inserted code: the run of C77, and the one in which a signal handler, which reads from
    the stack, jumps back into function 0. *)
Definition v_all : list cmd :=
  [LibCall; Go; Call; Go; Go; Ret; Go; Go; Call] ++ [Go; Go; Go; Go; Ret] ++ [Go; Go; Ret; LibDo (Read 65520)].
Definition v_jump : list cmd :=
  [LibCall; Go; Call; Go; Go; Ret; Go; Go; Call; Go; Go; Signal; LibDo (Read 65520); LibDo (MoveSp 65520); Throw 1 1 2 [1]%nat;
   Go; Call; Go; Go; Go; Go; Ret; Go; Go; Ret].
(** Reading what inserted code may have overwritten. *)
Definition v_peek : list cmd := v_all ++ [LibDo (Read 65512)].
Definition v_end (z : option (ghost * list (event libop) * conf unit)) : nat * nat :=
  match z with Some (_, tr, Run _ fr) => (List.length tr, List.length fr) | _ => (0, 0)%nat end.
Lemma v_ends th l target n m : (existsb is_throw l = true -> th = true) ->
  v_end (v_runs l (untouched t_base 10) (Run (t_start target) [library])) = (S n, m) ->
  exists g tr p fr, v_oblivious th (Run (t_start target) [library]) g tr (Run p fr) /\ List.length tr = S n /\ List.length fr = m.
Proof.
  intros TH. unfold v_end. destruct (v_runs _ _ _) as [[[g tr] c]|] eqn:E; [|discriminate].
  pose proof (v_runs_ok th l TH _ _ [] _ _ _ _ (ob_start _ _ _ _ _ _ _ _ _ _ _ _ _ _ _ (Run (t_start target) [library])) E) as R.
  destruct c as [p fr| | | |]; try discriminate. intros K. injection K as K1 K2. exists g, tr, p, fr. auto.
Qed.
Example C80_case :
  parsed t_code t_fs /\ fl_light fl_full = false /\ (forall g, own t_code g -> terminal_exits t_code g /\ ret_last t_code g) /\
  plain wopts /\ spaces t_mp t_base 10 u_usable /\ described unit asem libop u_lib v_access /\
  (wfp unit (t_start 70000) /\ u_usable (p_rg (t_start 70000) RSP) /\ shadow_rep (p_mem (t_start 70000)) t_base []) /\
  (exists g tr p fr, v_oblivious false (Run (t_start 70000) [library]) g tr (Run p fr) /\ List.length tr = 11%nat /\ List.length fr = 1%nat) /\
  (exists g tr p fr, v_oblivious true (Run (t_start 70000) [library]) g tr (Run p fr) /\ List.length tr = 16%nat /\ List.length fr = 1%nat) /\
  v_runs v_peek (untouched t_base 10) (Run (t_start 70000) [library]) = None.
Proof.
  split; [apply t_parsed|]. split; [reflexivity|]. split; [apply u_terminal|].
  split; [vm_compute; repeat split; discriminate|]. split; [apply u_spaces|]. split; [apply v_described|].
  split; [apply u_starts; split; [lia|vm_compute; reflexivity]|].
  split; [apply (v_ends false v_all); [discriminate|vm_compute; reflexivity]|].
  split; [apply (v_ends true v_jump); [reflexivity|vm_compute; reflexivity]|]. vm_compute. reflexivity.
Qed.
(** Without the restriction the claim does not hold: an execution of the program, and one with inserted
    code and the same events, in which a word below rsp is read at the end.  The value read is 205 in the
    first, and 1, left there by the inserted code, in the second. *)
Definition w_all : list cmd := u_all ++ [LibDo (Read 65520); LibDo (Read 65512)].
Definition w_look (z : option (list (event libop) * conf unit)) : option (list (event libop) * Z) :=
  match z with Some (tr, Run p [_]) => Some (tr, p_rg p RAX) | _ => None end.
Lemma w_looks tc l tr v : existsb is_throw l = false -> w_look (runs tc l (Run (t_start 70000) [library])) = Some (tr, v) ->
  exists p fr, u_reach tc false (Run (t_start 70000) [library]) tr (Run p fr) /\ p_rg p RAX = v.
Proof.
  intros TH E. destruct (runs tc l _) as [[tr' c]|] eqn:R; [|discriminate]. cbn [w_look] in E.
  destruct c as [p [|f [|f2 fr]]|w' ra old| |w'|w']; try discriminate. injection E as <- <-.
  exists p, [f]. split; [|reflexivity]. change tr' with ([] ++ tr').
  eapply runs_ok; [|apply r_start|exact R]. intros K. congruence.
Qed.
Theorem C80_reading_below_refuted : exists tr p fr q fr',
  u_reach false false (Run (t_start 70000) [library]) tr (Run p fr) /\
  u_reach true false (Run (t_start 70000) [library]) tr (Run q fr') /\
  p_rg p RAX = 205 /\ p_rg q RAX = 1.
Proof.
  assert (A : exists tr, w_look (runs false v_peek (Run (t_start 70000) [library])) = Some (tr, 205) /\
                         w_look (runs true w_all (Run (t_start 70000) [library])) = Some (tr, 1)).
  { eexists. split; vm_compute; reflexivity. }
  destruct A as (tr & A & B).
  destruct (w_looks false v_peek tr 205 eq_refl A) as (p & fr & P & P'). destruct (w_looks true w_all tr 1 eq_refl B) as (q & fr' & Q & Q').
  exists tr, p, fr, q, fr'. auto.
Qed.
Print Assumptions C80_reading_below_refuted.
