(** * Property C75: whole executions of the instrumented program, instruction by instruction *)
From Coq Require Import ZArith Bool Lia ZifyBool ZifyNat Arith String List.
From Verif Require Import Machine MachineFacts Jit ShadowSpec JitFacts JitPushPop History RegFrame Witness.
From Verif Require Import Dfs Binary CallGraph InterProc MemPasses Pipeline RegNames BlockLive ExSem ExCode
  Reach SafePaths Lowering P_Lower FastPath Decision P_Instr FullRun Whole P_Whole Sites SiteEx P_Regs P_Sites P_SiteUse
  Order Activation PlanCode ActRun P_Activation RegRun P_RegRun Tree TreeFacts.
Import ListNotations.
Open Scope Z_scope.
Local Notation mem := Machine.mem.


(** C75: the instrumented program, from a call of one of its functions with nothing on the shadow
    stack, run instruction by instruction through calls of any depth, with library code that calls
    back and with stores that overwrite any part of the stack.  No return goes anywhere but to an
    address that a call still active has stored.  The inserted code does not fault.  It stops the
    program only when a function is about to return elsewhere than its call has stored.  When the
    first call returns, the shadow stack is empty again. *)
Definition secure {X} (base : Z) (z : ending X) : Prop :=
  match z with
  | Back q => shadow_rep (p_mem q) base []
  | Away _ _ _ | Fail => False
  | Halt w ra => w <> ra
  | Cut | Null => True
  end.
(** Partial: see Tree.v for what is left out.  A check that meets a word of zero lets it pass (C07);
    the run then ends at the return, or at the jump to another function. *)
Theorem C75_execution_partial : forall co fl fs m width,
  parsed co fs -> (forall k, within co fl width k) -> fl_light fl = true -> fl_no_sfe fl = false -> run_light co = Ok m ->
  (forall g, own co g -> analysed co m g /\ tidy co g /\ names_ok co g) ->
  forall o d, plain o -> (forall g, good_dead o (di_entry (d g))) ->
  (forall g a l, zfind (di_exit (d g)) a = Some l -> good_dead o l) ->
  forall X (sem : insn -> pst Machine.flags X -> option (pst Machine.flags X)), stack_facts sem -> keeps_unwritten sem ->
  (forall g b i, own co g -> In b (f_blocks (co_fun co g)) -> In i (b_insns (co_block co b)) ->
     i_op i = OCall -> i_wmem i = true /\ exists pt, In (MG RSP pt) (i_written i)) ->
  forall mp base k stk usable0 h g lo cfa ra p z, own co g ->
  arun co fl fs m width stk o d mp base k usable0 X sem h 0 g lo cfa ra p z ->
  wfp X p -> p_rg p RSP = cfa - 8 -> load64 (p_mem p) (cfa - 8) = ra -> shadow_rep (p_mem p) base [] ->
  secure base z.
Proof.
  intros co fl fs m width PA SU LI SFE RL FN o d PL GE GX X sem SF KU CALLS mp base k stk usable0 h g lo cfa ra p z HG R WF RS RA RP.
  destruct (arun_ok co fl fs m width stk o d mp base k usable0 X sem PA SU LI SFE RL (fun g H => proj1 (FN g H))
    (fun g H => proj1 (proj2 (FN g H))) (fun g H => proj2 (proj2 (FN g H))) PL GE GX SF KU CALLS h 0%nat g lo cfa ra p z [] HG R) as (C & _).
  - split; [exact WF|]. split; [exact RS|]. split; [exact RA|exact RP].
  - cbn. lia.
  - destruct z as [q|q w ws|w r| | |]; cbn [claim0 secure] in *; auto; [apply C|].
    destruct C as (_ & l' & K & _). destruct ws; cbn in K; discriminate.
Qed.
Print Assumptions C75_execution_partial.

(** *** A program that meets the hypotheses *)
(** 0 calls 2, which is harmless, through a register, then 1, which writes rcx to [rsi + rcx], and returns. *)
Definition t_call (a : Z) : insn := mkInsn a OCall true true false [sp64] [sp64] [AStack (-16)] [] [] [] (Some (-8)).
Definition t_code : code := wcode [0;1;2]%nat
  (fun f => match f with 0%nat => 3 | _ => 1 end)%nat
  (fun f => match f with 0%nat => [2] | 1%nat => [10] | _ => [20] end)%nat
  (fun b => match b with
   | 0%nat => ([indcall_e; ft_e 1], [t_call 100])
   | 1%nat => ([call_e 1; ft_e 2], [t_call 200])
   | 2%nat => ([ret_e], [x_ret 300])
   | 10%nat => ([ret_e], [x_op 1100 [MG RDI P64] [MG RCX P64]; x_wild 1103 RSI RCX; x_op 1104 [MG RDI P64] [MG RDX P64]; x_ret 1107])
   | _ => ([ret_e], [x_op 2100 [MG RDI P64] [MG RCX P64]; x_ret 2104])
   end).
Definition t_fs : list finfo := winfos [0;1;2]%nat.
Definition t_blocks : list nat := [0; 1; 2; 10; 20]%nat.
Lemma t_own g : own t_code g -> g = 0%nat \/ g = 1%nat \/ g = 2%nat.
Proof. intros (H & _). cbn in H. intuition. Qed.
Lemma t_run : run_light t_code = Ok (wsums t_code).
Proof.
  unfold wsums. assert (K : match run_light t_code with Ok _ => true | _ => false end = true) by (vm_compute; reflexivity).
  destruct (run_light t_code); try discriminate. reflexivity.
Qed.
Lemma t_parsed : parsed t_code t_fs.
Proof. apply wparsed. vm_compute. reflexivity. Qed.
Lemma t_within kk : within t_code fl_plain eight kk.
Proof. apply wwithin. destruct kk; vm_compute; reflexivity. Qed.
Lemma t_block g b : own t_code g -> In b (f_blocks (co_fun t_code g)) -> In b t_blocks.
Proof. intros HG. apply t_own in HG. destruct HG as [->|[->| ->]]; cbn; intuition. Qed.
Lemma t_analysed g : own t_code g -> analysed t_code (wsums t_code) g.
Proof.
  intros HG. destruct (p_fn _ _ t_parsed g HG) as (FO & CO & _). constructor.
  - apply t_parsed.
  - apply t_run.
  - apply HG.
  - exact CO.
  - unfold distinct_starts. apply zdistinct_ok. apply t_own in HG. destruct HG as [->|[->| ->]]; vm_compute; reflexivity.
  - intros b HB. apply zdistinct_ok. apply (t_block g b HG) in HB. cbn in HB.
    destruct HB as [<-|[<-|[<-|[<-|[<-|[]]]]]]; vm_compute; reflexivity.
  - apply FO.
  - apply t_own in HG. destruct HG as [->|[->| ->]]; cbn; intros x K; cbn; intuition.
Qed.
Lemma t_tidy g : own t_code g -> tidy t_code g.
Proof.
  intros HG b HB. apply (t_block g b HG) in HB. cbn in HB.
  assert (PS : Forall plain_stack (b_insns (co_block t_code b))).
  { apply plainb_ok. destruct HB as [<-|[<-|[<-|[<-|[<-|[]]]]]]; vm_compute; reflexivity. }
  assert (RP : Forall ret_plain (b_insns (co_block t_code b))).
  { rewrite Forall_forall. intros i Hi O r q K.
    destruct HB as [<-|[<-|[<-|[<-|[<-|[]]]]]]; cbn in Hi; repeat destruct Hi as [<-|Hi]; try contradiction; try discriminate;
      cbn in K; unfold sp64 in K; intuition congruence. }
  assert (SH : exists body tail, block_shape (b_insns (co_block t_code b)) body tail /\ (tail <> [] -> out_edges t_code b = [])).
  { destruct HB as [<-|[<-|[<-|[<-|[<-|[]]]]]].
    - exists [t_call 100], []. split; [split; [reflexivity|split; [repeat constructor; discriminate|auto]]|contradiction].
    - exists [t_call 200], []. split; [split; [reflexivity|split; [repeat constructor; discriminate|auto]]|contradiction].
    - exists [], [x_ret 300]. split; [split; [reflexivity|split; [constructor|right; eexists; split; reflexivity]]|reflexivity].
    - exists (firstn 3 (b_insns (co_block t_code 10))), [x_ret 1107].
      split; [split; [reflexivity|split; [repeat constructor; discriminate|right; eexists; split; reflexivity]]|reflexivity].
    - exists (firstn 1 (b_insns (co_block t_code 20))), [x_ret 2104].
      split; [split; [reflexivity|split; [repeat constructor; discriminate|right; eexists; split; reflexivity]]|reflexivity]. }
  destruct SH as (body & tail & S1 & S2). exists body, tail. auto.
Qed.
Lemma t_names g : own t_code g -> names_ok t_code g.
Proof. intros HG. apply low_free_ok. apply t_own in HG. destruct HG as [->|[->| ->]]; vm_compute; reflexivity. Qed.
Lemma t_calls g b i : own t_code g -> In b (f_blocks (co_fun t_code g)) -> In i (b_insns (co_block t_code b)) ->
  i_op i = OCall -> i_wmem i = true /\ exists pt, In (MG RSP pt) (i_written i).
Proof.
  intros HG HB HI O. apply (t_block g b HG) in HB. cbn in HB.
  destruct HB as [<-|[<-|[<-|[<-|[<-|[]]]]]]; cbn in HI; repeat destruct HI as [<-|HI]; try contradiction; try discriminate;
    (split; [reflexivity|exists P64; left; reflexivity]).
Qed.
Lemma asem_unwritten : keeps_unwritten asem.
Proof.
  intros i s s' r A NW. apply asem_inv in A. destruct A as (u & A & -> & _).
  destruct C60_case as (_ & _ & _ & _ & _ & _ & _ & KU). exact (KU i _ u r A NW).
Qed.

(** Running it: the stack is between 60000 and 65600, the shadow stack at 1048576. *)
Definition t_base : Z := 1048576.
Definition t_lo : Z := 60000.
Definition t_mp : perm := fun _ => true.
Definition t_fits (cfa : Z) : bool := (60024 <=? cfa) && (cfa <=? 65536).
Definition tst := pst Machine.flags unit.
Definition t_wf (p : tst) : bool := forallb (fun r => (0 <=? p_rg p r) && (p_rg p r <? W)) allregs.
Definition t_plain (cfa : Z) (i : insn) (p p' : tst) : bool :=
  stepb unit steady (fun _ => false) t_base t_lo cfa i p p' && (load64 (p_mem p') (t_base + 8) =? load64 (p_mem p) (t_base + 8)) &&
  (unk_of i || negb (isop (i_op i) OPush) && negb (i_wmem i)).
(** The function called from a block. *)
Definition t_callee (b : nat) : option nat :=
  match b with 0%nat => Some 2%nat | 1%nat => Some 1%nat | _ => None end.
Section EVAL.
Variable A : nat -> Z -> Z -> tst -> option (ending unit).
Variables (cfa ra : Z) (last : nat).
Fixpoint fev (pu : bool) (its : list item) (p : tst) : option (list (tst * bool) * ending unit) :=
  match its with
  | [] => if (word_at unit p =? 0) && negb (ra =? 0) then (if Dfs.mem last [2; 10; 20]%nat then Some ([], Null) else None) else
          if Dfs.mem last [2; 10; 20]%nat && (p_rg p RSP =? cfa - 8) && t_wf (popped unit p)
          then Some ([], goes unit ra (word_at unit p) (popped unit p)) else None
  | Here n :: r => if heightb unit steady cfa (b_sp_entry (co_block t_code (snd n))) p then fev pu r p else None
  | Out n :: r => if heightb unit steady cfa (b_sp_end (co_block t_code (snd n))) p && (p_rg p RSP =? cfa - 8) then fev pu r p else None
  | Ins n i :: r =>
      if isop (i_op i) OCall then
        match t_callee (snd n) with
        | Some g =>
            match A g (p_rg p RSP) (i_addr i + 5) (pushed unit p (i_addr i + 5)) with
            | Some (Back q) => if (t_lo + 16 <=? p_rg q RSP) && (p_rg q RSP <=? cfa - 8) && ((0 <=? i_addr i) && (i_addr i <? 10000)) then
                match fev pu r q with Some (tr, z) => Some ((q, false) :: tr, z) | None => None end else None
            | Some z => if (0 <=? i_addr i) && (i_addr i <? 10000) then Some ([], outer unit pu ra z) else None
            | None => None
            end
        | None => None
        end
      else match asem i p with
           | Some p' => if t_plain cfa i p p' then
               match fev pu r p' with Some (tr, z) => Some ((p', false) :: tr, z) | None => None end else None
           | None => None
           end
  | Snip sn :: r =>
      match snip_code wopts sn with
      | Some c => match run 200 c t_mp (Machine.enter (as_state unit t_base p)) with
                  | Done st => fev (pu || is_push sn) r (of_state unit st p)
                  | Trap => Some ([], Halt (return_word unit p r) ra)
                  | Fault => Some ([], Fail)
                  | OutOfFuel => None
                  end
      | None => Some ([], Fail)
      end
  end.
End EVAL.
Notation t_frun := (frun t_code t_fs eight all wopts t_mp t_base (fun _ => False) unit asem).
Notation t_arun := (arun t_code fl_plain t_fs (wsums t_code) eight all wopts (fun _ => no_dead) t_mp t_base 10 (fun _ => False) unit asem).
Lemma t_goes b g : t_callee b = Some g -> exists e, is_call t_code b e /\ goes_to t_code e g.
Proof.
  destruct b as [|[|b]]; cbn; intros H; try discriminate; injection H as <-; eexists; (split; [split; [left; reflexivity|reflexivity]|]);
    (split; [split; [cbn; tauto|reflexivity]|]); [left; reflexivity|]; right; (split; [reflexivity|]); (split; [cbn; tauto|reflexivity]).
Qed.
Lemma t_plain_ok cfa i p p' : t_plain cfa i p p' = true -> asem i p = Some p' ->
  plain_step eight all t_base (fun _ => False) unit t_lo cfa i p false p' false.
Proof.
  unfold t_plain. rewrite !andb_true_iff. intros ((H1 & H2) & H3) SE.
  assert (SO : step_ok unit t_code t_base t_lo cfa eight all (harmless t_code) steady (false, 0%nat) i p p').
  { apply (stepb_ok unit steady (fun _ => false)); [discriminate|exact asem|right; reflexivity|exact H1]. }
  destruct SO as (S1 & S2 & S3 & _). split; [exact S1|]. split; [exact S2|]. split; [exact S3|]. split; [lia|].
  intros _. split; [|discriminate]. intros x Hx NE. destruct (unk_of i) eqn:U.
  - unfold unk_of in U. rewrite !andb_true_iff, negb_true_iff in U. destruct U as ((U1 & U2) & U3).
    apply existsb_exists in U3. destruct U3 as (ll & L1 & L2). destruct ll; try discriminate.
    split; [exact U1|]. split; [exact U2|]. exists AUnknown. split; [exact L1|exact I].
  - cbn [orb] in H3. apply andb_true_iff in H3. destruct H3 as [H3 H4]. apply negb_true_iff in H3, H4. apply isop_false in H3.
    destruct NE. apply (sf_mem _ _ _ asem_facts i p p' H3 H4 SE).
Qed.
Lemma t_height cfa h p : heightb unit steady cfa h p = true -> height unit cfa false h p.
Proof. unfold heightb. cbn [wild steady orb]. intros H _ z ->. lia. Qed.
Lemma t_wf_ok p : t_wf p = true -> wfp unit p.
Proof. unfold t_wf. rewrite forallb_forall. intros H r. specialize (H r (allregs_in r)). lia. Qed.
Lemma fev_ok A (R T : running unit) g cfa ra last : In g [0;1;2]%nat -> (forall g cfa ra p z, In g [0;1;2]%nat -> A g cfa ra p = Some z -> R g t_lo cfa ra p z) ->
  forall its pu p tr z, fev A cfa ra last pu its p = Some (tr, z) -> t_frun R T g t_lo cfa ra last pu its p false tr z.
Proof.
  intros HG AO. induction its as [|x its IH]; intros pu p tr z H; cbn [fev] in H.
  - assert (RT : Dfs.mem last [2; 10; 20]%nat = true -> is_ret t_code last).
    { intros E1. apply mem_in in E1. exists ret_e. destruct E1 as [<-|[<-|[<-|[]]]]; (split; [left; reflexivity|reflexivity]). }
    destruct ((word_at unit p =? 0) && negb (ra =? 0))%bool eqn:E0.
    { destruct (Dfs.mem last _); [|discriminate]. injection H as <- <-. apply f_null; [left; auto|lia|lia]. }
    destruct (_ && _ && _)%bool eqn:E; [|discriminate]. injection H as <- <-. rewrite !andb_true_iff in E. destruct E as ((E1 & E2) & E3).
    apply f_ret.
    + auto.
    + intros K. lia.
    + cbn in HG. destruct HG as [<-|[<-|[<-|[]]]]; reflexivity.
    + intros _. lia.
    + apply t_wf_ok. exact E3.
  - destruct x as [n|n i|sn|n].
    + destruct (heightb _ _ _ _ _) eqn:E; [|discriminate]. apply f_here; [|auto]. apply t_height. exact E.
    + destruct (isop (i_op i) OCall) eqn:OC.
      * apply isop_true in OC. destruct (t_callee (snd n)) as [g'|] eqn:TC; [|discriminate].
        destruct (t_goes _ _ TC) as (e & IC & GT).
        assert (HG' : In g' [0;1;2]%nat) by (apply GT).
        destruct (A g' _ _ _) as [z1|] eqn:EA; [|discriminate]. apply AO in EA; [|exact HG'].
        assert (STOP : (forall q, z1 <> Back q) -> (if (0 <=? i_addr i) && (i_addr i <? 10000) then Some ([], outer unit pu ra z1) else None) = Some (tr, z) ->
                   t_frun R T g t_lo cfa ra last pu (Ins n i :: its) p false tr z).
        { intros NB K. destruct (_ && _)%bool eqn:E; [|discriminate]. injection K as <- <-.
          eapply f_stop; [exact OC|exact IC| |exact NB]. eapply c_own; [exact GT| |exact EA]. assert (1000000 < W) by (vm_compute; reflexivity). lia. }
        destruct z1 as [q|q w ws|w rr| | |]; try (apply STOP; [discriminate|exact H]).
        destruct (_ && _)%bool eqn:E; [|discriminate]. rewrite !andb_true_iff, !Z.leb_le in E. destruct E as ((E1 & E2) & E3 & E4).
        destruct (fev _ _ _ _ _ its q) as [[tr1 z1]|] eqn:F; [|discriminate]. injection H as <- <-.
        eapply f_call; [exact OC|exact IC| | |apply IH; exact F].
        -- eapply c_own; [exact GT| |exact EA]. assert (1000000 < W) by (vm_compute; reflexivity). lia.
        -- split; [split; assumption|discriminate].
      * apply isop_false in OC. destruct (asem i p) as [p'|] eqn:SE; [|discriminate].
        destruct (t_plain _ _ _ _) eqn:E; [|discriminate].
        destruct (fev _ _ _ _ _ its p') as [[tr1 z1]|] eqn:F; [|discriminate]. injection H as <- <-.
        eapply f_ins; [exact OC|exact SE|apply t_plain_ok; auto|apply IH; exact F].
    + destruct (snip_code wopts sn) as [c|] eqn:SC; [|injection H as <- <-; apply f_none; auto].
      destruct (run 200 c t_mp _) as [u| | |] eqn:RN; [| | |discriminate].
      * eapply f_snip; [exact SC|split; [discriminate|exists 200%nat; exact RN]|apply IH; exact H].
      * injection H as <- <-. eapply f_trap; [exact SC|split; [discriminate|exists 200%nat; exact RN]].
      * injection H as <- <-. eapply f_fault; [exact SC|split; [discriminate|exists 200%nat; exact RN]].
    + destruct (_ && _)%bool eqn:E; [|discriminate]. apply andb_true_iff in E. destruct E as [E1 E2]. apply f_out; [|auto].
      split; [apply t_height; exact E1|]. intros _ c _ _. lia.
Qed.
(** The paths: from the entry of the function to its return. *)
Definition t_path (g : nat) : list nat * list nat * nat :=
  match g with 0%nat => ([1; 1], [0; 1], 2) | 1%nat => ([], [], 10) | _ => ([], [], 20) end%nat.
Definition t_items (g : nat) : option (list item) :=
  let p := planned t_code fl_plain (wsums t_code) t_fs g in
  plan_items t_code (plan_sites t_code fl_plain wopts no_dead (wsums t_code g) g p) g p (fst (fst (t_path g))).
Fixpoint aev (h n : nat) (g : nat) (cfa ra : Z) (p : tst) : option (ending unit) :=
  match h with
  | O => Some Cut
  | S h' => if (n <? 10)%nat && t_fits cfa then
              match t_items g with
              | Some its => match fev (aev h' (S n)) cfa ra (snd (t_path g)) false its p with Some (_, z) => Some z | None => None end
              | None => None
              end
            else None
  end.
Lemma t_fits_ok g cfa : In g [0;1;2]%nat -> t_fits cfa = true -> fits t_code all t_mp t_base 10 (fun _ => False) g t_lo cfa.
Proof.
  unfold t_fits. rewrite andb_true_iff, !Z.leb_le. intros HG (H1 & H2). unfold t_lo. split; [lia|]. exists 65600. constructor.
  - split; [lia|split; [vm_compute; discriminate|reflexivity]].
  - split; [vm_compute; discriminate|split; [vm_compute; discriminate|reflexivity]].
  - vm_compute; reflexivity.
  - left. vm_compute. discriminate.
  - intros b Hb. assert (K : (List.length (b_insns (co_block t_code b)) <= 8)%nat); [|lia].
    assert (HB : In b t_blocks) by (cbn in HG; destruct HG as [<-|[<-|[<-|[]]]]; cbn in Hb |- *; intuition).
    cbn in HB. destruct HB as [<-|[<-|[<-|[<-|[<-|[]]]]]]; cbn; lia.
  - intros x _. exact I.
  - intros a b [].
Qed.
Lemma aev_ok : forall h n g cfa ra p z, In g [0;1;2]%nat -> aev h n g cfa ra p = Some z -> t_arun h n g t_lo cfa ra p z.
Proof.
  induction h as [|h IH]; intros n g cfa ra p z HG H; cbn [aev] in H; [injection H as <-; reflexivity|].
  destruct ((n <? 10)%nat && t_fits cfa)%bool eqn:E; [|discriminate]. apply andb_true_iff in E. destruct E as [E1 E2].
  destruct (t_items g) as [its|] eqn:TI; [|discriminate].
  destruct (fev _ _ _ _ _ _ _) as [[tr z1]|] eqn:F; [|discriminate]. injection H as <-.
  cbn [arun]. split; [apply Nat.ltb_lt in E1; lia|]. split; [apply t_fits_ok; auto|].
  exists (fst (fst (t_path g))), (snd (fst (t_path g))), (snd (t_path g)), its, tr.
  split; [cbn in HG; destruct HG as [<-|[<-|[<-|[]]]]; vm_compute; reflexivity|].
  split; [cbn in HG; destruct HG as [<-|[<-|[<-|[]]]]; cbn; repeat split; discriminate|]. split; [exact TI|].
  eapply fev_ok; [exact HG| |exact F]. intros g1 c1 ra1 p1 z2 HG1 EA. apply IH; auto.
Qed.
(** rsi + rdi is where function 1 writes. *)
Definition t_mem (cfa ra : Z) : memory := store64 (store64 (store64 (fun _ => 0) t_base (t_base + 32)) (t_base + 24) 0) (cfa - 8) ra.
Definition t_with (cfa ra target : Z) : tst :=
  mkPst (fun r => match r with RSP => cfa - 8 | RDI => 3 | RSI => target - 3 | RBP => 9 | _ => 1 end) (t_mem cfa ra)
    (Machine.mkFlags false false false false false false false) tt.
Definition t_start : Z -> tst := t_with 65536 5555.
Definition t_code_of (z : option (ending unit)) : nat :=
  match z with
  | Some (Back _) => 0 | Some (Away _ _ _) => 1 | Some (Halt _ _) => 2 | Some Fail => 3 | Some Cut => 4 | Some Null => 5 | None => 6
  end.
Lemma t_is_back z : t_code_of z = 0%nat -> exists q, z = Some (Back q).
Proof. destruct z as [[q| | | | |]|]; try discriminate. eauto. Qed.
Lemma t_is_halt z : t_code_of z = 2%nat -> exists w r, z = Some (Halt w r).
Proof. destruct z as [[| |w r| | |]|]; try discriminate. eauto. Qed.
Lemma t_is_null z : t_code_of z = 5%nat -> z = Some Null.
Proof. destruct z as [[| | | | |]|]; try discriminate. reflexivity. Qed.
Lemma t_back h cfa ra p : t_code_of (aev h 0 0 cfa ra p) = 0%nat -> exists q, t_arun h 0 0 t_lo cfa ra p (Back q).
Proof. intros H. destruct (t_is_back _ H) as (q & E). exists q. apply aev_ok; [left; reflexivity|exact E]. Qed.
Lemma t_halt h cfa ra p : t_code_of (aev h 0 0 cfa ra p) = 2%nat -> exists w r, t_arun h 0 0 t_lo cfa ra p (Halt w r).
Proof. intros H. destruct (t_is_halt _ H) as (w & r & E). exists w, r. apply aev_ok; [left; reflexivity|exact E]. Qed.
Lemma t_null h cfa ra p : t_code_of (aev h 0 0 cfa ra p) = 5%nat -> t_arun h 0 0 t_lo cfa ra p Null.
Proof. intros H. apply aev_ok; [left; reflexivity|exact (t_is_null _ H)]. Qed.
(** Function 0 gets a stack frame, function 1 a register frame, function 2 is left alone.  If the
    store goes elsewhere, the program returns; if it goes to the return address of function 1 or
    to that of function 0, it is stopped.  If the address is
    zero afterwards, the run comes to the return. *)
Example C75_case :
  parsed t_code t_fs /\ (forall k, within t_code fl_plain eight k) /\ fl_light fl_plain = true /\ fl_no_sfe fl_plain = false /\
  run_light t_code = Ok (wsums t_code) /\
  (forall g, own t_code g -> analysed t_code (wsums t_code) g /\ tidy t_code g /\ names_ok t_code g) /\
  plain wopts /\ good_dead wopts (di_entry no_dead) /\ stack_facts asem /\ keeps_unwritten asem /\
  map (fun f => match planned t_code fl_plain (wsums t_code) t_fs f with Untouched => 0%nat | q => if on_reg q then 1%nat else 2%nat end)
    [0;1;2]%nat = [2; 1; 0]%nat /\
  own t_code 0 /\
  (forall target, 3 <= target < W -> wfp unit (t_start target) /\ p_rg (t_start target) RSP = 65536 - 8 /\
     load64 (p_mem (t_start target)) (65536 - 8) = 5555 /\ shadow_rep (p_mem (t_start target)) t_base []) /\
  (exists q, t_arun 3 0 0 t_lo 65536 5555 (t_start 70000) (Back q)) /\
  (exists w r, t_arun 3 0 0 t_lo 65536 5555 (t_start 65520) (Halt w r)) /\
  (exists w r, t_arun 3 0 0 t_lo 65536 5555 (t_start 65528) (Halt w r)) /\
  (forall cfa ra, cfa = 65296 /\ ra = 5555 \/ cfa = 65288 /\ ra = 55 -> let p := t_with cfa ra 65280 in
     wfp unit p /\ p_rg p RSP = cfa - 8 /\ load64 (p_mem p) (cfa - 8) = ra /\ shadow_rep (p_mem p) t_base [] /\
     t_arun 3 0 0 t_lo cfa ra p Null).
Proof.
  assert (R1 : t_code_of (aev 3 0 0 65536 5555 (t_start 70000)) = 0%nat) by (vm_compute; reflexivity).
  assert (R2 : t_code_of (aev 3 0 0 65536 5555 (t_start 65520)) = 2%nat) by (vm_compute; reflexivity).
  assert (R3 : t_code_of (aev 3 0 0 65536 5555 (t_start 65528)) = 2%nat) by (vm_compute; reflexivity).
  assert (R4 : t_code_of (aev 3 0 0 65296 5555 (t_with 65296 5555 65280)) = 5%nat) by (vm_compute; reflexivity).
  assert (R5 : t_code_of (aev 3 0 0 65288 55 (t_with 65288 55 65280)) = 5%nat) by (vm_compute; reflexivity).
  split; [apply t_parsed|]. split; [apply t_within|]. split; [reflexivity|]. split; [reflexivity|]. split; [apply t_run|].
  split; [intros g HG; split; [apply t_analysed; exact HG|split; [apply t_tidy; exact HG|apply t_names; exact HG]]|].
  split; [vm_compute; repeat split; discriminate|]. split; [left; reflexivity|]. split; [apply asem_facts|].
  split; [apply asem_unwritten|]. split; [vm_compute; reflexivity|]. split; [split; [left; reflexivity|reflexivity]|].
  split.
  { intros target T. split; [intros r; assert (1000000 < W) by (vm_compute; reflexivity); destruct r; cbn; lia|].
    split; [reflexivity|]. split; [vm_compute; reflexivity|]. split; [vm_compute; reflexivity|]. split; [vm_compute; reflexivity|].
    intros [|i] v K; discriminate. }
  split; [exact (t_back 3 65536 5555 (t_start 70000) R1)|].
  split; [exact (t_halt 3 65536 5555 (t_start 65520) R2)|]. split; [exact (t_halt 3 65536 5555 (t_start 65528) R3)|].
  intros cfa ra C. split; [intros r; assert (1000000 < W) by (vm_compute; reflexivity); destruct r; cbn; lia|]. split; [reflexivity|].
  destruct C as [[-> ->]|[-> ->]]; (split; [vm_compute; reflexivity|]);
    (split; [split; [vm_compute; reflexivity|]; split; [vm_compute; reflexivity|intros [|i] v K; discriminate]|]).
  - exact (t_null 3 65296 5555 _ R4).
  - exact (t_null 3 65288 55 _ R5).
Qed.
