(** * Properties C20-C23, C41, C42, C51: register names, block liveness and
      moved instrumentation *)
From Coq Require Import ZArith Bool Lia ZifyBool Arith String List.
From Verif Require Import Dfs Binary RegNames BlockLive ExSem.
From Verif Require Import Machine MachineFacts Jit ShadowSpec JitFacts JitPushPop History Witness.
Import ListNotations.
Open Scope Z_scope.

(** ** C20: block-level dead registers are dead

    [d] is the map computed for the block; the two states differ only in the
    registers reported dead before [i]; the rest of the block ends in the same
    state (or both runs trap). *)
Theorem C20_block_liveness :
  forall (F X : Type) (sem : insn -> pst F X -> option (pst F X)) is pre i post s t,
    respects sem (fun _ => False) ->
    NoDup (map i_addr is) -> is = pre ++ i :: post ->
    (forall r, ~ In (reg_name r) (dead_at (live_map is) (i_addr i)) -> p_rg s r = p_rg t r) ->
    (forall a, p_mem s a = p_mem t a) -> p_fl s = p_fl t -> p_rest s = p_rest t ->
    match prun sem (i :: post) s, prun sem (i :: post) t with
    | Some s', Some t' =>
        (forall r, p_rg s' r = p_rg t' r) /\ (forall a, p_mem s' a = p_mem t' a) /\
        p_fl s' = p_fl t' /\ p_rest s' = p_rest t'
    | None, None => True
    | _, _ => False
    end.
Proof.
  intros F X sem is pre i post s t RS N E H1 H2 H3 H4.
  rewrite (live_map_at is N pre i post E) in H1.
  pose proof (dead_agree F X sem (fun _ => False) RS false (i :: post)) as K.
  specialize (K ltac:(discriminate) s t).
  assert (A : agree (fun _ : Z => False) false (dead_before (i :: post)) s t).
  { split; [auto|]. split; auto. }
  specialize (K A). unfold agree_out, agree in K.
  destruct (prun sem (i :: post) s) as [s'|], (prun sem (i :: post) t) as [t'|]; auto.
  destruct K as (K1 & K2 & K3 & K4). split; [|split; [|split]]; auto.
Qed.
Print Assumptions C20_block_liveness.
(** mov rax, rcx; xor edx, edx; push rcx: before the first instruction rax and
    rdx are dead, and [xsem] is consistent with these facts. *)
Definition lblock : list insn :=
  [ x_op 16 [MG RCX P64] [MG RAX P64]; x_op 19 [] [MG RDX P32]; x_push 21 RCX P64; x_op 22 [MG RAX P32] [MG RCX P8l] ].
Example C20_case :
  respects xsem (fun _ => False) /\ NoDup (map i_addr lblock) /\
  dead_at (live_map lblock) 16 = ["x86_64::rax"; "x86_64::rdx"]%string /\
  dead_at (live_map lblock) 19 = ["x86_64::rdx"]%string /\ dead_at (live_map lblock) 22 = [].
Proof.
  split; [apply xsem_respects|]. split; [|vm_compute; auto].
  repeat constructor; cbn; intuition lia.
Qed.
(** The set is not empty by construction: a register written in full by an
    instruction that does not read it is reported before it. *)
Theorem C20_reports_overwritten :
  forall is pre i post r,
    NoDup (map i_addr is) -> is = pre ++ i :: post ->
    r <> RSP -> In (MG r P64) (i_written i) \/ In (MG r P32) (i_written i) ->
    (forall m, In m (i_read i) -> normalize (base_name m) <> Some (reg_name r)) ->
    In (reg_name r) (dead_at (live_map is) (i_addr i)).
Proof.
  intros is pre i post r N E NR W RD. rewrite (live_map_at is N pre i post E).
  cbn [dead_before]. unfold live_step. apply del_read_keep; auto.
  apply ins_written_in. right. exists r. auto.
Qed.
Print Assumptions C20_reports_overwritten.

(** ** C21: the moved entry point and the return address

    [partial]: pushes in the block are 8 bytes wide and rsp is not written
    through a sub-register; [C21_refuted] shows that the claim fails otherwise. *)
Theorem C21_entry_partial :
  forall (F X : Type) (sem : insn -> pst F X -> option (pst F X)) is m,
    stack_facts sem -> NoDup (map i_addr is) -> Forall plain_stack is ->
    entry_point is = Some m ->
    exists pre i post, is = pre ++ i :: post /\ i_addr i = m_addr m /\
      forall s s', prun sem pre s = Some s' ->
        p_rg s' RSP + m_raOffset m = p_rg s RSP /\
        load64 (p_mem s') (p_rg s' RSP + m_raOffset m) = load64 (p_mem s) (p_rg s RSP).
Proof.
  intros F X sem is m SF N PL E.
  destruct (entry_point_ok is m N E) as (pre & i & post & A & B & C & D & _).
  exists pre, i, post. split; [auto|]. split; [auto|]. intros s s' R.
  assert (PP : Forall plain_stack pre) by (rewrite A in PL; apply Forall_app in PL; tauto).
  destruct (entry_walk F X sem SF pre C PP s s' R) as [W1 W2]. rewrite D. split; auto.
  rewrite W1. apply load64_ext. intros x Hx. apply W2. lia.
Qed.
Print Assumptions C21_entry_partial.
(** push rbx; push rbp; mov rbx, rcx; ...: the point is after both pushes. *)
Definition eblock : list insn :=
  [ x_push 16 RBX P64; x_push 17 RBP P64; x_op 18 [MG RCX P64] [MG RBX P64];
    x_op 21 [MG RBX P64] [MG RBP P64]; x_store 24 RBP 0 RBX ].
Example C21_case :
  stack_facts xsem /\ NoDup (map i_addr eblock) /\ Forall plain_stack eblock /\
  entry_point eblock = Some (mkMid 18 16 2 "x86_64::rbp" "x86_64::rbx").
Proof.
  split; [apply xsem_facts|]. split; [repeat constructor; cbn; intuition lia|].
  split; [apply plainb_ok; reflexivity|vm_compute; reflexivity].
Qed.
(** push ax moves rsp by 2 while the analysis counts 8. *)
Definition eblock16 : list insn :=
  [ x_push 16 RAX P16; x_op 18 [MG RCX P64] [MG RAX P64]; x_ret 21 ].
Theorem C21_refuted :
  exists (sem : insn -> pst Z unit -> option (pst Z unit)) is m pre i post s s',
    respects sem (fun _ => False) /\ stack_facts sem /\ NoDup (map i_addr is) /\
    entry_point is = Some m /\ is = pre ++ i :: post /\ i_addr i = m_addr m /\
    prun sem pre s = Some s' /\ p_rg s' RSP + m_raOffset m <> p_rg s RSP /\
    load64 (p_mem s') (p_rg s' RSP + m_raOffset m) <> load64 (p_mem s) (p_rg s RSP).
Proof.
  exists xsem, eblock16. eexists.
  exists [x_push 16 RAX P16], (x_op 18 [MG RCX P64] [MG RAX P64]), [x_ret 21].
  exists (mkPst (fun r => match r with RSP => 1000 | _ => 3 end) (store64 (fun _ => 0) 1000 77) 0 tt).
  eexists.
  split; [apply xsem_respects|]. split; [apply xsem_facts|].
  split; [repeat constructor; cbn; intuition lia|].
  split; [vm_compute; reflexivity|]. split; [reflexivity|]. split; [reflexivity|].
  split; [cbn; reflexivity|]. split; vm_compute; discriminate.
Qed.
Print Assumptions C21_refuted.

(** ** C22: the moved exit point and the word that is returned to

    [partial]: pops are 8 bytes wide and do not load rsp, rsp is not written
    through a sub-register. *)
Theorem C22_exit_partial :
  forall (F X : Type) (sem : insn -> pst F X -> option (pst F X)) is body tail m,
    stack_facts sem -> NoDup (map i_addr is) -> Forall plain_stack is ->
    block_shape is body tail -> exit_point is = Some m ->
    exists pre i post, body = pre ++ i :: post /\ i_addr i = m_addr m /\
      (forall j, In j (i :: post) -> i_wmem j = false /\ (i_op j = OPop \/ flagless j)) /\
      forall s s', prun sem (i :: post) s = Some s' ->
        p_rg s' RSP = p_rg s RSP + m_raOffset m /\
        load64 (p_mem s') (p_rg s' RSP) = load64 (p_mem s) (p_rg s RSP + m_raOffset m).
Proof.
  intros F X sem is body tail m SF N PL SH E.
  destruct (exit_point_ok is body tail m N SH E) as (pre & i & post & A & B & C & D & _).
  exists pre, i, post. split; [auto|]. split; [auto|]. split.
  - intros j Hj. rewrite Forall_forall in C. destruct (C j Hj) as [C1 [C2|[_ C2]]]; auto.
  - intros s s' R.
    assert (PP : Forall plain_stack (i :: post)).
    { destruct SH as (S1 & _). rewrite S1, A, <- app_assoc in PL. apply Forall_app in PL.
      destruct PL as [_ PL]. cbn [app] in PL. change (i :: post ++ tail) with ((i :: post) ++ tail) in PL.
      apply Forall_app in PL. tauto. }
    destruct (exit_walk F X sem SF (i :: post) C PP s s' R) as [W1 W2]. rewrite D. split; auto.
    rewrite W1. apply load64_ext. intros x Hx. apply W2.
Qed.
Print Assumptions C22_exit_partial.
(** mov rax, rcx; pop rbx; pop rbp; ret: the point is before pop rbx. *)
Definition xbody : list insn := [ x_op 16 [MG RCX P64] [MG RAX P64]; x_pop 19 RBX P64; x_pop 20 RBP P64 ].
Example C22_case :
  block_shape (xbody ++ [x_ret 21]) xbody [x_ret 21] /\ NoDup (map i_addr (xbody ++ [x_ret 21])) /\
  Forall plain_stack (xbody ++ [x_ret 21]) /\
  exit_point (xbody ++ [x_ret 21]) = Some (mkMid 19 16 2 "x86_64::rbp" "x86_64::rbx").
Proof.
  split; [split; [reflexivity|split]|].
  - repeat constructor; discriminate.
  - right. eexists; split; reflexivity.
  - split; [repeat constructor; cbn; intuition lia|]. split; [apply plainb_ok; reflexivity|vm_compute; reflexivity].
Qed.
(** mov rbx, rcx; pop ax; ret: the pop moves rsp by 2. *)
Definition xbody16 : list insn := [ x_op 16 [MG RCX P64] [MG RBX P64]; x_pop 19 RAX P16 ].
Theorem C22_refuted :
  exists (sem : insn -> pst Z unit -> option (pst Z unit)) is body tail m pre i post s s',
    respects sem (fun _ => False) /\ stack_facts sem /\ NoDup (map i_addr is) /\
    block_shape is body tail /\ exit_point is = Some m /\ body = pre ++ i :: post /\
    i_addr i = m_addr m /\ prun sem (i :: post) s = Some s' /\
    load64 (p_mem s') (p_rg s' RSP) <> load64 (p_mem s) (p_rg s RSP + m_raOffset m).
Proof.
  exists xsem, (xbody16 ++ [x_ret 21]), xbody16, [x_ret 21]. eexists.
  exists [], (x_op 16 [MG RCX P64] [MG RBX P64]), [x_pop 19 RAX P16].
  exists (mkPst (fun r => match r with RSP => 1000 | _ => 3 end) (store64 (fun _ => 0) 1002 77) 0 tt).
  eexists.
  split; [apply xsem_respects|]. split; [apply xsem_facts|].
  split; [repeat constructor; cbn; intuition lia|].
  split.
  { split; [reflexivity|]. split; [repeat constructor; discriminate|].
    right; eexists; split; reflexivity. }
  split; [vm_compute; reflexivity|]. split; [reflexivity|]. split; [reflexivity|].
  split; [cbn; reflexivity|]. vm_compute; discriminate.
Qed.
Print Assumptions C22_refuted.

(** ** C23: red zone

    Refuted: mov [rsp-8], rdi; mov rax, [rsp-8]; ret.  The exit check is moved
    before the load with one dead register, so it pushes the other temporary
    over the red-zone word; running it changes the value that is loaded. *)
Definition rzblock : list insn := [ x_store 4096 RSP (-8) RDI; x_load 4101 RAX RSP (-8); x_ret 4106 ].
Definition rzjs (m : mid) : jsum := mkJsum [] [] [] [] [(4096, m)] [].
Definition rz_load : list instr := [IMovRM RAX (MBase RSP (-8))].
Definition rzstate : state :=
  let s := wstate [4242; 20; 10] 4242 in
  mkState (rg s) (store64 (mem s) (wsp - 8) 555) (gs s) (fl s) 0.
Theorem C23_refuted :
  exists m c s1 s2,
    exit_point rzblock = Some m /\
    x_code (mkXreq wopts (mkPoint 4096 0 4101) (rzjs m) true) = EOk (c, kRegisterMap) /\
    env mp_all rzstate [4242; 20; 10] 0 8 /\
    load64 (mem rzstate) (rg rzstate RSP) = 4242 /\
    exec rz_load mp_all rzstate (Done s1) /\ exec (c ++ rz_load) mp_all rzstate (Done s2) /\
    rg s1 RAX = 555 /\ rg s2 RAX <> 555.
Proof.
  eexists. eexists. eexists. eexists.
  split; [vm_compute; reflexivity|]. split; [vm_compute; reflexivity|].
  split.
  { assert (E : env mp_all (wstate [4242; 20; 10] 4242) [4242; 20; 10] 0 8).
    { apply wstate_env; [|cbn; lia|lia].
      intros v Hv. cbn in Hv. unfold W. lia. }
    destruct E as [E1 E2 E3 E4 E5 E6 E7 E8 E9]. constructor; auto.
    unfold rzstate. cbn [mem gs]. eapply shadow_rep_ext; [exact E9|].
    intros x Hx. apply store64_out. change (gs (wstate [4242; 20; 10] 4242)) with wgs in Hx.
    unfold inside, wsp, wgs in *. cbn [List.length] in Hx. lia. }
  split; [vm_compute; reflexivity|].
  split; [apply (exec_done 50); vm_compute; reflexivity|].
  split; [apply (exec_done 50); vm_compute; reflexivity|].
  split; [vm_compute; reflexivity|vm_compute; discriminate].
Qed.
Print Assumptions C23_refuted.

(** What holds: (a) with two dead registers the snippets write nothing but the
    shadow region; (b) up to a moved entry point the function has written no
    byte below rsp, so the words saved there replace no data of the function. *)
Theorem C23_two_dead_entry_partial :
  forall q m mp s l k,
    plain (e_o q) -> e_mid q = Some m -> good_mid m -> m_saveCount m = 2 ->
    env mp s l (e_off q) k -> (List.length l < k)%nat ->
    exists c s', e_code q = EOk (c, kRegisterMap) /\ exec c mp s (Done s') /\
      forall x, ~ inside (gs s) (32 + 8 * Z.of_nat k) x -> mem s' x = mem s x.
Proof.
  intros q m mp s l k HP EM GM SC HE HK.
  assert (OK : e_ok q). { split; auto. rewrite EM. exact GM. }
  destruct (entry_run_tight q mp s l k OK HE HK) as (c & s' & X1 & X2 & _ & _ & _ & _ & _ & X3).
  exists c, s'. split; [auto|]. split; [auto|]. intros x Hx.
  unfold e_scratch in X3. rewrite EM in X3. cbn [request_scratch] in X3. rewrite SC in X3.
  apply X3; unfold inside, slot in *; lia.
Qed.
Print Assumptions C23_two_dead_entry_partial.
Theorem C23_two_dead_exit_partial :
  forall q m mp s ra l k,
    plain (x_o q) -> x_mid q = Some m -> good_mid m -> m_saveCount m = 2 ->
    env mp s (ra :: l) (x_off q) k -> apart (rg s RSP + x_off q) 8 (gs s) 8 ->
    load64 (mem s) (rg s RSP + x_off q) = ra ->
    exists c s', x_code q = EOk (c, kRegisterMap) /\ exec c mp s (Done s') /\
      forall x, ~ inside (gs s) 8 x -> mem s' x = mem s x.
Proof.
  intros q m mp s ra l k HP EM GM SC HE HA HR.
  assert (OK : x_ok q). { split; auto. rewrite EM. exact GM. }
  destruct (exit_run_tight q mp s (ra :: l) k OK HE HA) as (c & X1 & X2).
  rewrite HR in X2. cbn [unwind clean_above] in X2. rewrite Z.eqb_refl in X2. destruct X2 as [X2 _].
  destruct X2 as (s' & Y1 & _ & _ & _ & _ & Y2); auto.
  exists c, s'. split; [auto|]. split; [auto|]. intros x Hx.
  unfold x_scratch in Y2. rewrite EM in Y2. cbn [request_scratch] in Y2. rewrite SC in Y2.
  apply Y2; unfold inside in *; lia.
Qed.
Print Assumptions C23_two_dead_exit_partial.
Theorem C23_entry_untouched_partial :
  forall (F X : Type) (sem : insn -> pst F X -> option (pst F X)) is m,
    stack_facts sem -> NoDup (map i_addr is) -> Forall plain_stack is ->
    entry_point is = Some m ->
    exists pre i post, is = pre ++ i :: post /\ i_addr i = m_addr m /\
      forall s s' a, prun sem pre s = Some s' -> a < p_rg s' RSP -> p_mem s' a = p_mem s a.
Proof.
  intros F X sem is m SF N PL E.
  destruct (entry_point_ok is m N E) as (pre & i & post & A & B & C & D & _).
  exists pre, i, post. split; [auto|]. split; [auto|]. intros s s' a R Ha.
  assert (PP : Forall plain_stack pre) by (rewrite A in PL; apply Forall_app in PL; tauto).
  destruct (entry_walk F X sem SF pre C PP s s' R) as [_ W]. auto.
Qed.
Print Assumptions C23_entry_untouched_partial.
Example C23_case :
  e_mid (mkEreq wopts wpt (mkJsum [] [] [] [(4096, mkMid 4096 0 2 "x86_64::rcx" "x86_64::rdi")] [] []) true 0 false)
    = Some (mkMid 4096 0 2 "x86_64::rcx" "x86_64::rdi") /\
  good_mid (mkMid 4096 0 2 "x86_64::rcx" "x86_64::rdi").
Proof. split; [reflexivity|]. right. split; [reflexivity|]. dec_names. Qed.

(** ** C51: moved instrumentation is invisible to the rest of the block *)
Definition to_pst {X} (x : X) (s : state) : pst flags X := mkPst (rg s) (mem s) (fl s) x.
(** Bytes that belong to the snippet: [n] bytes below rsp and the shadow region. *)
Definition snippet_bytes (s : state) (n : Z) (k : nat) (a : Z) : Prop :=
  inside (rg s RSP - n) n a \/ inside (gs s) (32 + 8 * Z.of_nat k) a.

Theorem C51_moved_entry_invisible :
  forall (X : Type) (sem : insn -> pst flags X -> option (pst flags X)) (x : X) is m q mp s l k,
    NoDup (map i_addr is) -> entry_point is = Some m ->
    plain (e_o q) -> e_mid q = Some m ->
    env mp s l (m_raOffset m + e_height q) k -> (List.length l < k)%nat ->
    respects sem (snippet_bytes s (8 * (2 - m_saveCount m)) k) ->
    exists pre i post c s',
      is = pre ++ i :: post /\ i_addr i = m_addr m /\
      e_code q = EOk (c, kRegisterMap) /\ exec c mp s (Done s') /\
      agree_out (snippet_bytes s (8 * (2 - m_saveCount m)) k) false
        (prun sem (i :: post) (to_pst x s)) (prun sem (i :: post) (to_pst x s')).
Proof.
  intros X sem x is m q mp s l k N E HP EM HE HK RS.
  destruct (entry_point_ok is m N E) as (pre & i & post & A & B & _ & _ & GM & DI).
  assert (OK : e_ok q). { split; auto. rewrite EM. exact GM. }
  assert (EO : e_off q = m_raOffset m + e_height q) by (unfold e_off; rewrite EM; reflexivity).
  rewrite <- EO in HE.
  destruct (entry_run_tight q mp s l k OK HE HK) as (c & s' & X1 & X2 & _ & X3 & X4 & X5 & X6 & X7).
  exists pre, i, post, c, s'. split; [auto|]. split; [auto|]. split; [auto|]. split; [auto|].
  apply (dead_agree flags X sem _ RS false (i :: post)); [discriminate|].
  unfold to_pst. split; [|split; [|split]]; cbn [p_rg p_mem p_fl p_rest].
  - intros r Hr. symmetry. apply X3. unfold e_dead. rewrite EM. cbn [request_dead].
    intros K. apply Hr. apply DI. exact K.
  - intros a Ha. symmetry. apply X7; unfold snippet_bytes, e_scratch in *; try rewrite EM;
      cbn [request_scratch]; unfold inside, slot in *; lia.
  - auto.
  - reflexivity.
Qed.
Print Assumptions C51_moved_entry_invisible.

Theorem C51_moved_exit_invisible :
  forall (X : Type) (sem : insn -> pst flags X -> option (pst flags X)) (x : X) is body tail m q mp s ra l k,
    NoDup (map i_addr is) -> block_shape is body tail -> exit_point is = Some m ->
    (forall j, In j is -> i_op j = OPop \/ i_op j = ORet -> flagless j) ->
    plain (x_o q) -> x_mid q = Some m ->
    env mp s (ra :: l) (m_raOffset m) k -> apart (rg s RSP + m_raOffset m) 8 (gs s) 8 ->
    load64 (mem s) (rg s RSP + m_raOffset m) = ra ->
    respects sem (snippet_bytes s (8 * (2 - m_saveCount m)) k) ->
    exists pre i post c s',
      body = pre ++ i :: post /\ i_addr i = m_addr m /\
      x_code q = EOk (c, kRegisterMap) /\ exec c mp s (Done s') /\
      agree_out (snippet_bytes s (8 * (2 - m_saveCount m)) k) true
        (prun sem (i :: post ++ tail) (to_pst x s)) (prun sem (i :: post ++ tail) (to_pst x s')).
Proof.
  intros X sem x is body tail m q mp s ra l k N SH E FL HP EM HE HA HR RS.
  destruct (exit_point_ok is body tail m N SH E) as (pre & i & post & A & B & C & _ & GM & DI).
  assert (OK : x_ok q). { split; auto. rewrite EM. exact GM. }
  assert (EO : x_off q = m_raOffset m) by (unfold x_off; rewrite EM; cbn [request_off]; lia).
  rewrite <- EO in HE, HA, HR.
  destruct (exit_run_tight q mp s (ra :: l) k OK HE HA) as (c & X1 & X2).
  rewrite HR in X2. cbn [unwind clean_above] in X2. rewrite Z.eqb_refl in X2. destruct X2 as [X2 _].
  destruct X2 as (s' & Y1 & _ & Y2 & Y3 & Y4 & Y5); auto.
  exists pre, i, post, c, s'. split; [auto|]. split; [auto|]. split; [auto|]. split; [auto|].
  destruct SH as (S1 & S2 & S3).
  apply (dead_agree flags X sem _ RS true (i :: post ++ tail)).
  - intros _ j Hj.
    assert (Hi : In j is).
    { rewrite S1, A, <- app_assoc. apply in_or_app. right. exact Hj. }
    change (i :: post ++ tail) with ((i :: post) ++ tail) in Hj. apply in_app_or in Hj.
    destruct Hj as [Hj|Hj].
    + rewrite Forall_forall in C. destruct (C j Hj) as [_ [C2|[_ C2]]]; auto.
    + destruct S3 as [->|(r & -> & S3)]; [contradiction|]. destruct Hj as [<-|[]]. auto.
  - unfold to_pst. split; [|split; [|split]]; cbn [p_rg p_mem p_fl p_rest].
    + intros r Hr. symmetry. apply Y2. unfold x_dead. rewrite EM. cbn [request_dead].
      intros K. apply Hr. apply DI. exact K.
    + intros a Ha. symmetry. apply Y5; unfold snippet_bytes, x_scratch in *; try rewrite EM;
        cbn [request_scratch]; unfold inside in *; lia.
    + discriminate.
    + reflexivity.
Qed.
Print Assumptions C51_moved_exit_invisible.

(** The prologue [eblock] with two dead registers at offset 16, and the epilogue
    of C22 at offset 16. *)
Definition ejs : jsum := mkJsum [] [] [] [(4096, mkMid 18 16 2 "x86_64::rbp" "x86_64::rbx")]
                                [(4096, mkMid 19 16 2 "x86_64::rbp" "x86_64::rbx")] [].
Example C51_case :
  e_mid (mkEreq wopts wpt ejs true 0 false) = entry_point eblock /\
  x_mid (mkXreq wopts wpt ejs true) = exit_point (xbody ++ [x_ret 21]) /\
  (forall s, respects (rsem flags unit) (snippet_bytes s (8 * (2 - 2)) 8)) /\
  env mp_all (wstate [30; 20; 10] 4242) [30; 20; 10] 16 8 /\
  apart (rg (wstate [30; 20; 10] 4242) RSP + 16) 8 wgs 8.
Proof.
  split; [vm_compute; reflexivity|]. split; [vm_compute; reflexivity|].
  split; [intros s; apply rsem_respects|]. split.
  - assert (E : env mp_all (wstate [30; 20; 10] 4242) [30; 20; 10] 0 8).
    { apply wstate_env; [|cbn; lia|lia]. intros v Hv. cbn in Hv. unfold W. lia. }
    destruct E as [E1 E2 E3 E4 E5 E6 E7 E8 E9]. constructor; auto; [lia|].
    apply mapped_all; cbn; unfold wsp, W; lia.
  - cbn. unfold apart, wsp, wgs. lia.
Qed.

(** ** C41: register names *)
Theorem C41_aliases_partial :
  forall r p, has_part r p = true ->
    (p = P8l -> r <> RSP /\ r <> RBP /\ r <> RSI /\ r <> RDI) ->
    normalize (alias r p) = Some (reg_name r).
Proof.
  intros r p H K. apply normalize_alias; auto.
  destruct p; auto. destruct r; auto; exfalso; destruct (K eq_refl) as (A & B & C & D); auto.
Qed.
Print Assumptions C41_aliases_partial.
(** A second application changes nothing, for every string that does not start
    with "e" after the prefix, and for every register alias. *)
Theorem C41_idempotent_partial :
  forall n m, normalize n = Some m -> e_name n = false -> normalize m = Some m.
Proof. exact normalize_idem. Qed.
Print Assumptions C41_idempotent_partial.
Theorem C41_alias_idempotent :
  forall r p n, has_part r p = true -> normalize (alias r p) = Some n -> normalize n = Some n.
Proof.
  intros r p n H E. destruct (rex_low r p) eqn:R.
  - rewrite (normalize_rex r p R) in E. injection E as <-. apply normalize_rex; auto.
  - rewrite (normalize_alias r p H R) in E. injection E as <-. apply normalize_base.
Qed.
Print Assumptions C41_alias_idempotent.
(** sil, dil, bpl and spl are left alone. *)
Theorem C41_refuted :
  exists r p, has_part r p = true /\ normalize (alias r p) <> Some (reg_name r).
Proof. exists RSI, P8l. split; [reflexivity|discriminate]. Qed.
Print Assumptions C41_refuted.
Theorem C41_idempotent_refuted :
  exists n m, normalize n = Some m /\ normalize m <> Some m.
Proof. exists "x86_64::e8d"%string. eexists. split; [reflexivity|discriminate]. Qed.
Print Assumptions C41_idempotent_refuted.
Example C41_case :
  normalize "x86_64::r13d" = Some "x86_64::r13"%string /\ normalize "x86_64::ch" = Some "x86_64::rcx"%string /\
  normalize "x86_64::zf" = Some "x86_64::zf"%string /\ e_name "x86_64::r9w" = false.
Proof. repeat split. Qed.

(** ** C42: unused registers *)
Theorem C42_unused_partial :
  forall co fn s s' r,
    unused_regs co fn s = Some s' -> s_unused s = [] -> In (reg_name r) (s_unused s') ->
    r <> RSP /\ r <> RBP /\
    forall i p, In i (func_insns co (co_fun co fn)) ->
      In (MG r p) (i_read i) \/ In (MG r p) (i_written i) -> has_part r p = true ->
      p = P8l /\ (r = RSI \/ r = RDI).
Proof.
  intros co fn s s' r H E K.
  destruct (unused_regs_spec co fn s s' H E _ K) as [A B].
  assert (A' : r <> RSP /\ r <> RBP).
  { split; intros ->; cbn in A; decompose [or] A; try discriminate; contradiction. }
  split; [tauto|]. split; [tauto|]. intros i p Hi Hm HP.
  destruct (rex_low r p) eqn:R.
  - destruct r, p; try discriminate; auto; destruct A'; contradiction.
  - exfalso. eapply (B i (MG r p) Hi); [auto|]. cbn [mreg_name]. apply normalize_alias; auto.
Qed.
Print Assumptions C42_unused_partial.
(** Every register of the list that no instruction mentions is reported. *)
Definition lcode (is : list insn) : Binary.code :=
  mkCode [0%nat] (fun _ => mkFunc "f" 4096 0 [0%nat] [0%nat] [0%nat] [])
    (fun _ => mkBlock 4096 4100 4104 [] is None None) (fun _ => [0%nat]) (fun _ => None).
Example C42_case :
  exists s', unused_regs (lcode eblock) 0 summary0 = Some s' /\
    s_unused s' = ["x86_64::r10"; "x86_64::r11"; "x86_64::r12"; "x86_64::r13"; "x86_64::r14"; "x86_64::r15";
                   "x86_64::r8"; "x86_64::r9"; "x86_64::rax"; "x86_64::rdi"; "x86_64::rdx"; "x86_64::rsi"]%string.
Proof. eexists. split; vm_compute; reflexivity. Qed.
(** A function that only touches sil: rsi is reported unused. *)
Theorem C42_refuted :
  exists co fn s' i,
    unused_regs co fn summary0 = Some s' /\ In (reg_name RSI) (s_unused s') /\
    In i (func_insns co (co_fun co fn)) /\ In (MG RSI P8l) (i_read i) /\ In (MG RSI P8l) (i_written i).
Proof.
  exists (lcode [x_op 4096 [MG RSI P8l] [MG RSI P8l]]), 0%nat. eexists. eexists.
  split; [vm_compute; reflexivity|]. split; [cbn; tauto|].
  split; [left; reflexivity|]. split; left; reflexivity.
Qed.
Print Assumptions C42_refuted.
