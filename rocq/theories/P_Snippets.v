(** * Properties C01-C09 and C12: emitted entry and exit code. *)
From Coq Require Import ZArith List Bool String Lia ZifyBool ZifyNat.
From Verif Require Import Machine MachineFacts Jit ShadowSpec JitPushPop History RegFrame ZeroWord Threads Witness.
Import ListNotations.
Open Scope Z_scope.

(** ** C01: the entry check records the return address *)
Theorem C01_entry_records_return_address :
  forall q mp s l k,
    e_ok q -> env mp s l (e_off q) k -> (List.length l < k)%nat ->
    exists c s',
      e_code q = EOk (c, kRegisterMap) /\ exec c mp s (Done s') /\ gs s' = gs s /\
      shadow_rep (mem s') (gs s') (load64 (mem s) (rg s RSP + e_off q) :: l) /\
      load64 (mem s') (gs s') = load64 (mem s) (gs s) + 8.
Proof.
  intros q mp s l k HQ HE HL. pose proof (env_rep _ _ _ _ _ HE) as (P & _).
  destruct (entry_run q mp s l k HQ HE HL) as (c & s' & X1 & X2 & X3 & _ & _ & _ & X4 & _).
  exists c, s'. rewrite X4. split; [auto|]. split; [auto|]. split; [auto|]. split; [auto|].
  destruct X3 as (X3 & _). rewrite X3, P. unfold slot. cbn [List.length]. lia.
Qed.
Print Assumptions C01_entry_records_return_address.

(** Non-trivial instances: default temporaries, --optimize_regs, moved
    instrumentation with one dead register; shadow stack of depth three. *)
Example C01_case :
  e_ok wenter /\ e_ok wenter_regs /\ e_ok wenter_moved /\
  e_off wenter_moved = 16 /\
  env mp_all (wstate [30; 20; 10] 4242) [30; 20; 10] (e_off wenter) 8 /\
  load64 (mem (wstate [30; 20; 10] 4242)) (rg (wstate [30; 20; 10] 4242) RSP) = 4242.
Proof.
  split; [apply wenter_ok|]. split; [apply wenter_regs_ok|]. split; [apply wenter_moved_ok|].
  split; [reflexivity|]. split.
  - apply wstate_env; [|cbn; lia|lia].
    intros v Hv. cbn in Hv. unfold W. intuition lia.
  - vm_compute. reflexivity.
Qed.
Example C01_case_runs :
  is_done (run 100 (ecode (e_code wenter_moved)) mp_all
             (enter (wstate [30; 20; 10] 4242))) = true.
Proof. vm_compute. reflexivity. Qed.

(** ** C02: the entry check is transparent *)
Theorem C02_entry_transparent :
  forall q mp s l k,
    e_ok q -> env mp s l (e_off q) k -> (List.length l < k)%nat ->
    exists c s',
      e_code q = EOk (c, kRegisterMap) /\ exec c mp s (Done s') /\
      (forall r, ~ In (reg_name r) (e_dead q) -> rg s' r = rg s r) /\
      rg s' RSP = rg s RSP /\ fl s' = fl s /\ gs s' = gs s /\
      (forall x, ~ inside (rg s RSP - 16) 16 x -> ~ inside (gs s) 8 x ->
                 ~ inside (slot (gs s) (List.length l)) 8 x -> mem s' x = mem s x).
Proof.
  intros q mp s l k HQ HE HL.
  destruct (entry_run q mp s l k HQ HE HL) as (c & s' & X1 & X2 & _ & X).
  exists c, s'. split; [auto|]. split; [auto|]. exact X.
Qed.
Print Assumptions C02_entry_transparent.
(** The registers that may change are exactly those declared dead. *)
Example C02_case :
  e_dead wenter = [] /\ e_dead wenter_moved = ["x86_64::r10"%string] /\
  e_dead wenter_regs = wdead.
Proof. repeat split. Qed.

(** ** C03: the exit check accepts the matching return address *)
Theorem C03_exit_accepts_match :
  forall q mp s ra l k,
    x_ok q -> env mp s (ra :: l) (x_off q) k ->
    apart (rg s RSP + x_off q) 8 (gs s) 8 ->
    load64 (mem s) (rg s RSP + x_off q) = ra ->
    exists c s',
      x_code q = EOk (c, kRegisterMap) /\ exec c mp s (Done s') /\
      shadow_rep (mem s') (gs s') l /\
      (forall r, ~ In (reg_name r) (x_dead q) -> rg s' r = rg s r) /\
      rg s' RSP = rg s RSP /\ gs s' = gs s /\
      (forall x, ~ inside (rg s RSP - 16) 16 x -> ~ inside (gs s) 8 x -> mem s' x = mem s x).
Proof.
  intros q mp s ra l k HQ HE HA HR.
  destruct (exit_run q mp s (ra :: l) k HQ HE HA) as (c & X1 & X2).
  rewrite HR in X2. cbn [unwind clean_above] in X2. rewrite Z.eqb_refl in X2.
  destruct X2 as [X2 _]. destruct X2 as (s' & Y1 & Y2 & Y3 & Y4 & Y5 & Y6); auto.
  exists c, s'. rewrite Y5.
  repeat match goal with |- _ /\ _ => split end; auto.
Qed.
Print Assumptions C03_exit_accepts_match.
(** Including a return address whose low half is zero. *)
Example C03_case :
  x_ok wexit /\ x_ok wexit_regs /\ x_ok wexit_moved /\
  env mp_all (wstate [4294967296; 20; 10] 4294967296) [4294967296; 20; 10] (x_off wexit) 8 /\
  apart (rg (wstate [4294967296; 20; 10] 4294967296) RSP + x_off wexit) 8 wgs 8.
Proof.
  split; [apply wexit_ok|]. split; [apply wexit_regs_ok|]. split; [apply wexit_moved_ok|].
  split.
  - apply wstate_env; [|cbn; lia|lia]. intros v Hv. cbn in Hv. unfold W. intuition lia.
  - vm_compute. left. discriminate.
Qed.
Example C03_case_runs :
  is_done (run 100 (ecode (x_code wexit)) mp_all
             (enter (wstate [4294967296; 20; 10] 4294967296))) = true.
Proof. vm_compute. reflexivity. Qed.

(** ** C04: unwinding to an older matching frame
    [above] are the skipped entries, none of them equal to [ra] (so this is
    the newest occurrence) and none with a zero low half (see C06). *)
Theorem C04_exit_unwinds_partial :
  forall q mp s above ra l k,
    x_ok q -> env mp s (above ++ ra :: l) (x_off q) k ->
    apart (rg s RSP + x_off q) 8 (gs s) 8 ->
    load64 (mem s) (rg s RSP + x_off q) = ra ->
    (forall v, In v above -> v <> ra /\ v mod 2 ^ 32 <> 0) ->
    exists c s',
      x_code q = EOk (c, kRegisterMap) /\ exec c mp s (Done s') /\
      shadow_rep (mem s') (gs s') l /\
      (forall r, ~ In (reg_name r) (x_dead q) -> rg s' r = rg s r) /\
      rg s' RSP = rg s RSP /\ gs s' = gs s /\
      (forall x, ~ inside (rg s RSP - 16) 16 x -> ~ inside (gs s) 8 x -> mem s' x = mem s x).
Proof.
  intros q mp s above ra l k HQ HE HA HR HV.
  destruct (exit_run q mp s (above ++ ra :: l) k HQ HE HA) as (c & X1 & X2).
  rewrite HR in X2.
  assert (EU : unwind ra (above ++ ra :: l) = Some l).
  { clear - HV. induction above as [|v a IH]; cbn [app unwind]; [rewrite Z.eqb_refl; auto|].
    destruct (HV v (or_introl eq_refl)) as [V1 _].
    replace (v =? ra) with false by lia. apply IH. intros w Hw. apply HV. right; auto. }
  assert (EC : clean_above ra (above ++ ra :: l)).
  { clear - HV. induction above as [|v a IH]; cbn [app clean_above]; [auto|].
    right. split; [apply HV; left; auto|]. apply IH. intros w Hw. apply HV. right; auto. }
  rewrite EU in X2. destruct X2 as [X2 _].
  destruct (X2 EC) as (s' & Y1 & Y2 & Y3 & Y4 & Y5 & Y6).
  exists c, s'. rewrite Y5.
  repeat match goal with |- _ /\ _ => split end; auto.
Qed.
Print Assumptions C04_exit_unwinds_partial.
Example C04_case :
  env mp_all (wstate ([50; 40; 30] ++ 20 :: [10; 20]) 20) ([50; 40; 30] ++ 20 :: [10; 20])
      (x_off wexit) 8 /\
  (forall v, In v [50; 40; 30] -> v <> 20 /\ v mod 2 ^ 32 <> 0).
Proof.
  split.
  - apply wstate_env; [|cbn; lia|lia]. intros v Hv. cbn in Hv. unfold W. intuition lia.
  - intros v Hv. cbn in Hv. destruct Hv as [<-|[<-|[<-|[]]]]; split; try discriminate.
Qed.

(** Refuted for skipped entries with a zero low half: the exit code stops the program. *)
Theorem C04_exit_unwinds_refuted :
  exists q mp s above ra l k c,
    x_ok q /\ env mp s (above ++ ra :: l) (x_off q) k /\ apart (rg s RSP + x_off q) 8 (gs s) 8 /\
    load64 (mem s) (rg s RSP + x_off q) = ra /\ ~ In ra above /\ (forall v, In v above -> v <> 0) /\
    x_code q = EOk (c, kRegisterMap) /\ exec c mp s Trap /\ forall s', ~ exec c mp s (Done s').
Proof.
  exists wexit, mp_all, (wstate [30; 4294967296; 20; 10] 20), [30; 4294967296], 20, [10], 8%nat, (ecode (x_code wexit)).
  split; [apply wexit_ok|]. split.
  { apply wstate_env; [|cbn; lia|lia]. intros v Hv. cbn in Hv. unfold W. intuition lia. }
  split; [vm_compute; left; discriminate|]. split; [vm_compute; reflexivity|].
  split; [cbn; intuition discriminate|]. split; [cbn; intros v [<-|[<-|[]]]; discriminate|].
  split; [vm_compute; reflexivity|].
  assert (T : exec (ecode (x_code wexit)) mp_all (wstate [30; 4294967296; 20; 10] 20) Trap) by (apply (exec_trap 100); vm_compute; reflexivity).
  split; [exact T|]. intros s' D. pose proof (exec_det _ _ _ _ _ D T). discriminate.
Qed.
Print Assumptions C04_exit_unwinds_refuted.

(** ** C05: the exit check traps on a forged return address *)
Theorem C05_exit_traps_on_forged :
  forall q mp s l k,
    x_ok q -> env mp s l (x_off q) k ->
    apart (rg s RSP + x_off q) 8 (gs s) 8 ->
    load64 (mem s) (rg s RSP + x_off q) <> 0 ->
    ~ In (load64 (mem s) (rg s RSP + x_off q)) l ->
    exists c, x_code q = EOk (c, kRegisterMap) /\ exec c mp s Trap /\
              forall r, exec c mp s r -> r = Trap.
Proof.
  intros q mp s l k HQ HE HA HZ HN.
  destruct (exit_run q mp s l k HQ HE HA) as (c & X1 & X2).
  set (ra := load64 (mem s) (rg s RSP + x_off q)) in *.
  assert (EU : unwind ra l = None).
  { clear - HN. induction l as [|v l IH]; cbn [unwind]; auto.
    destruct (v =? ra) eqn:E; [exfalso; apply HN; left; lia|].
    apply IH. intros H. apply HN. right; auto. }
  rewrite EU in X2. specialize (X2 HZ).
  exists c. split; auto. split; auto. intros r Hr. eapply exec_det; eauto.
Qed.
Print Assumptions C05_exit_traps_on_forged.
Example C05_case :
  env mp_all (wstate [30; 20; 10] 666) [30; 20; 10] (x_off wexit) 8 /\
  load64 (mem (wstate [30; 20; 10] 666)) (rg (wstate [30; 20; 10] 666) RSP + x_off wexit) = 666 /\
  ~ In 666 [30; 20; 10].
Proof.
  split; [|split].
  - apply wstate_env; [|cbn; lia|lia]. intros v Hv. cbn in Hv. unfold W. intuition lia.
  - vm_compute. reflexivity.
  - cbn. intuition discriminate.
Qed.

(** ** C06: a return address that is present is accepted -- false of the code.
    The loop stops at a 32-bit zero, so an entry whose low half is zero ends
    the search although the return address lies below it. *)
Theorem C06_present_address_refuted :
  exists q mp s l k c,
    x_ok q /\ env mp s l (x_off q) k /\ apart (rg s RSP + x_off q) 8 (gs s) 8 /\
    In (load64 (mem s) (rg s RSP + x_off q)) l /\
    x_code q = EOk (c, kRegisterMap) /\ exec c mp s Trap.
Proof.
  exists wexit, mp_all, (wstate [4294967296; 20; 10] 20), [4294967296; 20; 10], 8%nat,
    (ecode (x_code wexit)).
  split; [apply wexit_ok|]. split.
  { apply wstate_env; [|cbn; lia|lia]. intros v Hv. cbn in Hv. unfold W. intuition lia. }
  split; [vm_compute; left; discriminate|].
  split; [right; left; vm_compute; reflexivity|].
  split; [vm_compute; reflexivity|].
  apply (exec_trap 100). vm_compute. reflexivity.
Qed.
Print Assumptions C06_present_address_refuted.

(** What holds: a trap implies that the address is absent or that some entry
    above its newest occurrence has a zero low half. *)
Theorem C06_trap_only_if_absent_partial :
  forall q mp s l k c m,
    x_ok q -> env mp s l (x_off q) k ->
    apart (rg s RSP + x_off q) 8 (gs s) 8 ->
    (forall v, In v l -> v mod 2 ^ 32 <> 0) ->
    x_code q = EOk (c, m) -> exec c mp s Trap ->
    ~ In (load64 (mem s) (rg s RSP + x_off q)) l.
Proof.
  intros q mp s l k c m HQ HE HA HV HC HT.
  destruct (exit_run q mp s l k HQ HE HA) as (c' & X1 & X2).
  rewrite HC in X1. inversion X1; subst c' m.
  set (ra := load64 (mem s) (rg s RSP + x_off q)) in *. intros HI.
  assert (K : exists l', unwind ra l = Some l' /\ clean_above ra l).
  { clear - HV HI. induction l as [|v l IH]; [destruct HI|].
    cbn [unwind clean_above]. destruct (v =? ra) eqn:E.
    - exists l. split; auto. left. lia.
    - destruct HI as [HI|HI]; [lia|].
      destruct IH as (l' & A & B); auto. { intros w Hw. apply HV. right; auto. }
      exists l'. split; auto. right. split; auto. apply HV. left; auto. }
  destruct K as (l' & K1 & K2). rewrite K1 in X2. destruct X2 as [X2 _].
  destruct (X2 K2) as (s' & Y & _). pose proof (exec_det _ _ _ _ _ HT Y). discriminate.
Qed.
Print Assumptions C06_trap_only_if_absent_partial.
Example C06_case :
  env mp_all (wstate [30; 20; 10] 666) [30; 20; 10] (x_off wexit) 8 /\
  (forall v, In v [30; 20; 10] -> v mod 2 ^ 32 <> 0) /\
  exec (ecode (x_code wexit)) mp_all (wstate [30; 20; 10] 666) Trap.
Proof.
  split; [|split].
  - apply wstate_env; [|cbn; lia|lia]. intros v Hv. cbn in Hv. unfold W. intuition lia.
  - intros v Hv. cbn in Hv. destruct Hv as [<-|[<-|[<-|[]]]]; discriminate.
  - apply (exec_trap 100). vm_compute. reflexivity.
Qed.

(** ** C07: no forged return address is accepted -- false for the address 0.
    The guard word is compared like an entry, so 0 "matches" it. *)
Theorem C07_forged_zero_refuted :
  exists q mp s l k c s',
    x_ok q /\ env mp s l (x_off q) k /\ apart (rg s RSP + x_off q) 8 (gs s) 8 /\
    ~ In (load64 (mem s) (rg s RSP + x_off q)) l /\
    x_code q = EOk (c, kRegisterMap) /\ exec c mp s (Done s').
Proof.
  exists wexit, mp_all, (wstate [30; 20; 10] 0), [30; 20; 10], 8%nat,
    (ecode (x_code wexit)), (final (wstate [30; 20; 10] 0)
      (run 100 (ecode (x_code wexit)) mp_all (enter (wstate [30; 20; 10] 0)))).
  split; [apply wexit_ok|]. split.
  { apply wstate_env; [|cbn; lia|lia]. intros v Hv. cbn in Hv. unfold W. intuition lia. }
  split; [vm_compute; left; discriminate|].
  split; [vm_compute; intuition discriminate|].
  split; [vm_compute; reflexivity|].
  apply exec_done. vm_compute. reflexivity.
Qed.
Print Assumptions C07_forged_zero_refuted.

Theorem C07_accepted_was_recorded_partial :
  forall q mp s l k c m s',
    x_ok q -> env mp s l (x_off q) k ->
    apart (rg s RSP + x_off q) 8 (gs s) 8 ->
    load64 (mem s) (rg s RSP + x_off q) <> 0 ->
    x_code q = EOk (c, m) -> exec c mp s (Done s') ->
    In (load64 (mem s) (rg s RSP + x_off q)) l.
Proof.
  intros q mp s l k c m s' HQ HE HA HZ HC HX.
  destruct (In_dec Z.eq_dec (load64 (mem s) (rg s RSP + x_off q)) l) as [I|I]; auto.
  exfalso. destruct (C05_exit_traps_on_forged q mp s l k HQ HE HA HZ I) as (c' & A & B & _).
  rewrite HC in A. inversion A; subst. pose proof (exec_det _ _ _ _ _ HX B). discriminate.
Qed.
Print Assumptions C07_accepted_was_recorded_partial.
(** What the check does with the word 0, if no entry is 0: it goes down past all entries and stops
    at the guard word.  It lets the word pass, and the top pointer is left below the first entry;
    but if the low half of an entry is 0, it traps there. *)
Theorem C07_zero_word :
  forall q mp s l k,
    x_ok q -> env mp s l (x_off q) k -> apart (rg s RSP + x_off q) 8 (gs s) 8 ->
    load64 (mem s) (rg s RSP + x_off q) = 0 -> ~ In 0 l ->
    exists c, x_code q = EOk (c, kRegisterMap) /\
      ((forall v, In v l -> v mod 2 ^ 32 <> 0) ->
       exists s', exec c mp s (Done s') /\ load64 (mem s') (gs s) = gs s + 24 /\ rg s' RSP = rg s RSP /\
         (forall r, ~ In (reg_name r) (x_dead q) -> rg s' r = rg s r) /\
         (forall x, ~ inside (rg s RSP - x_scratch q) (x_scratch q) x -> ~ inside (gs s) 8 x -> mem s' x = mem s x)) /\
      ((exists v, In v l /\ v mod 2 ^ 32 = 0) -> exec c mp s Trap).
Proof.
  intros q mp s l k HQ HE HA H0 NI.
  destruct (exit_zero q mp s l k HQ HE HA H0) as (c & C & Z1 & Z2).
  { clear - NI. induction l as [|v l IH]; [reflexivity|]. cbn [unwind]. replace (v =? 0) with false.
    - apply IH. intros K. apply NI. right; auto.
    - symmetry. apply Z.eqb_neq. intros ->. apply NI. left; auto. }
  exists c. split; [exact C|]. split.
  - intros S. destruct (Z1 S) as (s' & E1 & E2 & E3 & E4 & _ & E6). exists s'. auto.
  - intros (v & V1 & V2). apply Z2. intros S. exact (S v V1 V2).
Qed.
Print Assumptions C07_zero_word.
Example C07_zero_case :
  x_ok wexit /\ env mp_all (wstate [30; 20; 10] 0) [30; 20; 10] (x_off wexit) 8 /\
  (forall v, In v [30; 20; 10] -> v mod 2 ^ 32 <> 0) /\
  env mp_all (wstate [30; 2 ^ 32; 10] 0) [30; 2 ^ 32; 10] (x_off wexit) 8 /\
  exec (ecode (x_code wexit)) mp_all (wstate [30; 2 ^ 32; 10] 0) Trap.
Proof.
  split; [apply wexit_ok|].
  split; [apply wstate_env; [|cbn; lia|lia]; intros v Hv; cbn in Hv; unfold W; intuition lia|].
  split; [intros v Hv; cbn in Hv; destruct Hv as [<-|[<-|[<-|[]]]]; discriminate|].
  split; [apply wstate_env; [|cbn; lia|lia]; intros v Hv; cbn in Hv; unfold W; intuition lia|].
  apply (exec_trap 100). vm_compute. reflexivity.
Qed.
Example C07_case :
  env mp_all (wstate [30; 20; 10] 20) [30; 20; 10] (x_off wexit) 8 /\
  exec (ecode (x_code wexit)) mp_all (wstate [30; 20; 10] 20)
    (Done (final (wstate [30; 20; 10] 20)
      (run 100 (ecode (x_code wexit)) mp_all (enter (wstate [30; 20; 10] 20))))).
Proof.
  split.
  - apply wstate_env; [|cbn; lia|lia]. intros v Hv. cbn in Hv. unfold W. intuition lia.
  - apply exec_done. vm_compute. reflexivity.
Qed.

(** ** C08: over whole executions the shadow stack is the abstract list *)
Theorem C08_history_refines_list :
  forall mp k s h t r l,
    hrun mp k s h t r -> thread_ok mp k s l -> depth_ok k l t ->
    match r with
    | HOk s' => exists l', srun l t = Some l' /\ thread_ok mp k s' l'
    | HTrap => srun l t = None
    | HFault => False
    end.
Proof. exact history_refines. Qed.
Print Assumptions C08_history_refines_list.

(** Each abstract return that succeeds goes to a recorded address. *)
Theorem C08_returns_only_to_recorded :
  forall ra l l', sret ra l = Some l' -> exists above, l = above ++ ra :: l' /\ ~ In ra above.
Proof.
  intros ra l. induction l as [|v l IH]; intros l'; cbn [sret]; [discriminate|].
  destruct (v =? ra) eqn:E.
  - intros H. inversion H; subst. exists []. assert (v = ra) by lia. subst. auto.
  - destruct (v mod 2 ^ 32 =? 0); [discriminate|]. intros H.
    destruct (IH _ H) as (a & -> & N). exists (v :: a). split; auto.
    intros [?|?]; [lia|auto].
Qed.
Print Assumptions C08_returns_only_to_recorded.

(** No operation of a history gets stuck. *)
Theorem C08_history_progress :
  forall mp k s l,
    thread_ok mp k s l ->
    (forall q, e_ok q -> stack_ok mp k s (e_off q) -> (List.length l < k)%nat ->
       exists s', hrun mp k s [OEnter q] [SCall (load64 (mem s) (rg s RSP + e_off q))] (HOk s')) /\
    (forall q, x_ok q -> stack_ok mp k s (x_off q) ->
       load64 (mem s) (rg s RSP + x_off q) <> 0 ->
       exists r, hrun mp k s [OExit q] [SRet (load64 (mem s) (rg s RSP + x_off q))] r).
Proof.
  intros mp k s l HT. split; intros.
  - eapply history_progress_enter; eauto.
  - eapply history_progress_exit; eauto.
Qed.
Print Assumptions C08_history_progress.

(** Instance: an entry, an attacker overwriting the return address, an exit;
    it traps. *)
Example C08_case :
  exists s1, let s0 := wstate [20; 10] 4242 in
  thread_ok mp_all 8 s0 [20; 10] /\
  hrun mp_all 8 s0 [OEnter wenter; OWorld s1; OExit wexit] [SCall 4242; SRet 666] HTrap /\
  depth_ok 8 [20; 10] [SCall 4242; SRet 666].
Proof.
  set (s0 := wstate [20; 10] 4242).
  assert (HT : thread_ok mp_all 8 s0 [20; 10]).
  { apply wstate_thread; [|cbn; lia|lia]. intros v Hv. cbn in Hv. unfold W. intuition lia. }
  destruct (entry_cases wenter mp_all s0 [20; 10] 8 wenter_ok HT
              (wstate_stack _ _ 8 ltac:(lia)) ltac:(cbn; lia))
    as (c & s' & X1 & X2 & X3 & X4 & X5 & X6).
  set (s1 := mkState (rg s') (store64 (mem s') wsp 666) (gs s') (fl s') 0).
  assert (R1 : load64 (mem s1) wsp = 666) by (apply load64_store64_same; unfold W; lia).
  assert (HW : world_ok 8 s' s1).
  { split; [exact (th_wf _ _ _ _ X3)|]. split; [reflexivity|].
    intros x Hx. rewrite X4 in Hx. change (gs s0) with wgs in Hx.
    cbn [s1 mem]. apply store64_out. unfold inside, wgs, wsp in *. lia. }
  assert (HT1 : thread_ok mp_all 8 s1 (load64 (mem s0) (rg s0 RSP + e_off wenter) :: [20; 10]))
    by (eapply world_thread; eauto).
  assert (ER : load64 (mem s0) (rg s0 RSP + e_off wenter) = 4242) by (vm_compute; reflexivity).
  assert (SP : rg s1 RSP + x_off wexit = wsp).
  { change (rg s1 RSP) with (rg s' RSP). rewrite X5. reflexivity. }
  assert (SO : stack_ok mp_all 8 s1 (x_off wexit)).
  { pose proof (wstate_stack [20; 10] 4242 8 ltac:(lia)) as K. unfold stack_ok in *.
    change (gs s1) with (gs s'). change (rg s1 RSP) with (rg s' RSP).
    rewrite X4, X5. exact K. }
  destruct (exit_cases wexit mp_all s1 _ 8 wexit_ok HT1 SO) as (c2 & Y1 & Y2).
  { rewrite SP, R1. discriminate. }
  rewrite SP, R1, ER in Y2. cbn in Y2.
  exists s1. cbv zeta. split; [auto|]. split.
  - rewrite <- ER. eapply hrun_enter; eauto using wenter_ok.
    + apply (wstate_stack [20; 10] 4242 8). lia.
    + eapply hrun_world; [exact HW|]. rewrite <- R1. rewrite <- SP.
      eapply hrun_exit_stop with (x := Trap); eauto using wexit_ok.
      rewrite SP, R1. discriminate.
  - cbn. split; [lia|exact I].
Qed.

(** ** C09: well-behaved programs never trap *)
Theorem C09_well_behaved_never_traps :
  forall mp k lv s h ps lv' r,
    drun mp k lv s h ps lv' r ->
    thread_ok mp k s (map snd lv) -> live_ok k lv s ->
    (forall presented recorded, In (presented, recorded) ps -> presented = recorded) /\
    exists s', r = HOk s' /\ thread_ok mp k s' (map snd lv') /\ live_ok k lv' s'.
Proof. exact well_behaved_never_traps. Qed.
Print Assumptions C09_well_behaved_never_traps.

(** Instance: a call and its return. *)
Example C09_case :
  exists s', thread_ok mp_all 8 (wstate [] 4242) [] /\
  drun mp_all 8 [] (wstate [] 4242) [OEnter wenter; OExit wexit] [(4242, 4242)] [] (HOk s').
Proof.
  set (s0 := wstate [] 4242).
  assert (HT : thread_ok mp_all 8 s0 []).
  { apply wstate_thread; [intros v []|cbn; lia|lia]. }
  destruct (entry_cases wenter mp_all s0 [] 8 wenter_ok HT
              (wstate_stack _ _ 8 ltac:(lia)) ltac:(cbn; lia))
    as (c & s1 & X1 & X2 & X3 & X4 & X5 & X6).
  assert (ER : load64 (mem s0) (rg s0 RSP + e_off wenter) = 4242) by (vm_compute; reflexivity).
  assert (SP : rg s1 RSP + x_off wexit = wsp) by (rewrite X5; reflexivity).
  assert (R1 : load64 (mem s1) wsp = 4242).
  { rewrite <- ER. change (rg s0 RSP + e_off wenter) with wsp.
    apply load64_ext. intros x Hx. apply X6.
    - change (rg s0 RSP) with wsp. unfold below, inside. lia.
    - change (gs s0) with wgs. unfold inside, wgs, wsp in *. lia. }
  assert (SO : stack_ok mp_all 8 s1 (x_off wexit)).
  { pose proof (wstate_stack [] 4242 8 ltac:(lia)) as K. unfold stack_ok in *.
    rewrite X4, X5. exact K. }
  rewrite ER in X3.
  destruct (exit_top wexit mp_all s1 4242 [] 8 wexit_ok X3 SO) as (c2 & s2 & Y1 & Y2 & Y3 & _).
  { rewrite SP. exact R1. }
  exists s2. split; [exact HT|].
  - eapply drun_enter with (s' := s1); eauto using wenter_ok.
    + apply (wstate_stack [] 4242 8). lia.
    + intros a v [].
    + cbn. lia.
    + rewrite ER. replace 4242 with (load64 (mem s1) (rg s1 RSP + x_off wexit)) at 2
        by (rewrite SP; auto).
      eapply drun_exit; eauto using wexit_ok.
      * intros a v [E|[]]. inversion E; subst. rewrite X5. vm_compute. discriminate.
      * constructor.
Qed.

(** ** C12: threads do not disturb each other
    [F i] is the memory thread [i] uses (its stack and shadow region).  Each
    thread's code, run alone inside [F i], ends with outcome [r i] (normal end
    or security trap).  Then under every schedule, once thread [i] has been
    given enough steps, it has that same outcome, with the same registers,
    flags and memory contents of [F i]. *)
Theorem C12_threads_isolated :
  forall (cs : nat -> list instr) mp (F : nat -> perm) s0 m0 r,
    (forall i x, F i x = true -> mp x = true) ->
    (forall i j x, i <> j -> F i x = true -> F j x = false) ->
    (forall i, pc (s0 i) = 0%nat) ->
    (forall i, exec (cs i) (F i) (with_mem (s0 i) m0) (r i) /\ r i <> Fault) ->
    forall i, exists N, forall sch,
      (N <= count_occ Nat.eq_dec sch i)%nat ->
      let g := irun cs mp sch (start s0 m0) in
      match r i with
      | Done s' => exists s, stat g i = TDone s /\ rg s = rg s' /\ gs s = gs s' /\ fl s = fl s' /\
                   forall x, F i x = true -> shared g x = mem s' x
      | _ => stat g i = TTrap
      end.
Proof.
  intros cs mp F s0 m0 r HS HD HP HE i.
  assert (EN : forall j, enter (with_mem (s0 j) m0) = with_mem (s0 j) m0).
  { intros j. unfold enter, with_mem. cbn. rewrite HP. reflexivity. }
  assert (SAFE : forall j n, solo (cs j) (F j) n (TRun (with_mem (s0 j) m0)) <> TFault).
  { intros j n. destruct (HE j) as [A B]. destruct (exec_solo _ _ _ _ A B) as [K _].
    rewrite EN in K. apply K. }
  destruct (HE i) as [A B]. destruct (exec_solo _ _ _ _ A B) as [_ [N K]]. rewrite EN in K.
  exists N. intros sch HN. cbv zeta.
  destruct (interleave cs mp F s0 m0 HS HD SAFE sch) as [I _]. specialize (I i).
  unfold solo_at, count in I. rewrite (K _ HN) in I. unfold same in I.
  destruct (r i) as [s'| | |].
  - destruct (stat (irun cs mp sch (start s0 m0)) i) as [u|u| |]; try contradiction.
    destruct I as (I1 & I2 & I3 & I4 & I5 & I6). exists u.
    repeat match goal with |- _ /\ _ => split end; auto.
    intros x Hx. symmetry. apply I5; auto.
  - destruct (stat (irun cs mp sch (start s0 m0)) i) as [u|u| |]; try contradiction; auto.
  - destruct (stat (irun cs mp sch (start s0 m0)) i) as [u|u| |]; try contradiction; auto.
  - destruct (stat (irun cs mp sch (start s0 m0)) i) as [u|u| |]; try contradiction; auto.
Qed.
Print Assumptions C12_threads_isolated.

(** Every thread [i] with its own megabyte-sized stack and shadow area runs the
    entry code of a protected function. *)
Definition c12_base (i : nat) : Z := 1048576 * Z.of_nat i.
Definition c12_F (i : nat) : perm := fun x => (c12_base i <=? x) && (x <? c12_base i + 1048576).
Definition c12_state (i : nat) : state :=
  if (Nat.ltb i 2) then
    mkState (fun r => match r with RSP => c12_base i + 28672 | _ => 5 end) (fun _ => 0)
            (c12_base i + 65536) wfl 0
  else mkState (fun _ => 0) (fun _ => 0) 0 wfl 0.
Definition c12_mem : memory := build (c12_base 1 + 65536) [9] (build (c12_base 0 + 65536) [7] (fun _ => 1)).
Definition c12_code (i : nat) : list instr :=
  if (Nat.ltb i 2) then ecode (e_code wenter) else [].
Example C12_case :
  (forall i j x, i <> j -> c12_F i x = true -> c12_F j x = false) /\
  (forall i, exists s', exec (c12_code i) (c12_F i) (with_mem (c12_state i) c12_mem) (Done s')).
Proof.
  split.
  - intros i j x N H. unfold c12_F, c12_base in *. lia.
  - intros [|[|i]].
    + eexists. apply (exec_done 100). vm_compute. reflexivity.
    + eexists. apply (exec_done 100). vm_compute. reflexivity.
    + eexists. apply (exec_done 1). reflexivity.
Qed.
