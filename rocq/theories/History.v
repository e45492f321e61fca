(** * History: whole executions of one thread.

    The program alternates between arbitrary code of its own (or of an
    attacker) and the snippets emitted by jit.cc.  *)
From Coq Require Import ZArith List Bool String Lia ZifyBool ZifyNat.
From Verif Require Import Machine MachineFacts Jit ShadowSpec JitFacts JitPushPop.
Import ListNotations.
Open Scope Z_scope.

(** A request for a protected entry or exit (arguments of JitStackPush,
    jit.cc:190, and JitStackPop, jit.cc:338). *)
Record ereq := mkEreq { e_o : opts; e_pt : point; e_js : jsum; e_orig : bool;
                        e_height : Z; e_fixed : bool }.
Record xreq := mkXreq { x_o : opts; x_pt : point; x_js : jsum; x_orig : bool }.

Definition e_mid q := entry_mid (e_pt q) (e_js q) (e_orig q) (e_fixed q).
Definition e_off q := request_off (e_mid q) (e_height q).
Definition e_ok q := plain (e_o q) /\ request_ok (e_o q) (e_mid q) (j_dead_entry (e_js q)).
Definition e_dead q := request_dead (e_o q) (e_mid q) (j_dead_entry (e_js q)).
Definition e_code q := jit_stack_push (e_o q) kRegisterMap (e_pt q) (Some (e_js q))
                                      (e_orig q) (e_height q) (e_fixed q).
Definition x_mid q := exit_mid (x_pt q) (x_js q) (x_orig q).
Definition x_off q := request_off (x_mid q) 0.
Definition x_ok q :=
  plain (x_o q) /\ request_ok (x_o q) (x_mid q) (exit_dead_set (x_pt q) (x_js q)).
Definition x_dead q := request_dead (x_o q) (x_mid q) (exit_dead_set (x_pt q) (x_js q)).
Definition x_code q :=
  jit_stack_pop (x_o q) kRegisterMap (x_pt q) (Some (x_js q)) (x_orig q).

(** ** The snippets, stated for requests *)
Definition e_scratch q := request_scratch (e_o q) (e_mid q) (j_dead_entry (e_js q)).
Definition x_scratch q := request_scratch (x_o q) (x_mid q) (exit_dead_set (x_pt q) (x_js q)).
Lemma request_scratch_range o omid dead :
  request_ok o omid dead -> 0 <= request_scratch o omid dead <= 16.
Proof.
  unfold request_ok, request_scratch. destruct omid as [d|].
  - intros [[-> _]|[-> _]]; lia.
  - intros _. destruct (_ && _)%bool; lia.
Qed.

Lemma entry_run_tight q mp s l k :
  e_ok q -> env mp s l (e_off q) k -> (List.length l < k)%nat ->
  exists c s',
    e_code q = EOk (c, kRegisterMap) /\
    exec c mp s (Done s') /\
    shadow_rep (mem s') (gs s) (load64 (mem s) (rg s RSP + e_off q) :: l) /\
    (forall r, ~ In (reg_name r) (e_dead q) -> rg s' r = rg s r) /\
    rg s' RSP = rg s RSP /\
    fl s' = fl s /\ gs s' = gs s /\
    (forall x, ~ inside (rg s RSP - e_scratch q) (e_scratch q) x -> ~ inside (gs s) 8 x ->
               ~ inside (slot (gs s) (List.length l)) 8 x -> mem s' x = mem s x).
Proof.
  intros [HP HR] HE HK.
  destruct (push_shape (e_o q) (e_pt q) (e_js q) (e_orig q) (e_height q) (e_fixed q)
              (is_empty_plain _ HP) HR)
    as (t1 & t2 & s1 & s2 & EC & KS & N1 & N2 & N3 & D1 & D2).
  rewrite (is_only_plain _ HP) in EC. rewrite (proj2 (proj2 HP)) in EC.
  destruct (push_run mp s l (e_off q) k s1 s2 t1 t2 HE HK N1 N2 N3)
    as (s' & X1 & X2 & X3 & X4 & X5 & X6).
  rewrite KS in X6. fold (e_scratch q) in X6.
  eexists _, s'. split; [exact EC|].
  split; [exact X1|]. split; [exact X2|]. split; [|split; [|split; [|split]]]; auto.
  - intros r Hr. apply X3; intros ->.
    + destruct s1; auto; exfalso; auto.
    + destruct s2; auto; exfalso; auto.
Qed.

Lemma exit_run_tight q mp s l k :
  x_ok q -> env mp s l (x_off q) k -> apart (rg s RSP + x_off q) 8 (gs s) 8 ->
  let ra := load64 (mem s) (rg s RSP + x_off q) in
  exists c,
    x_code q = EOk (c, kRegisterMap) /\
    match unwind ra l with
    | Some l' =>
        (clean_above ra l ->
         exists s',
           exec c mp s (Done s') /\
           shadow_rep (mem s') (gs s) l' /\
           (forall r, ~ In (reg_name r) (x_dead q) -> rg s' r = rg s r) /\
           rg s' RSP = rg s RSP /\ gs s' = gs s /\
           (forall x, ~ inside (rg s RSP - x_scratch q) (x_scratch q) x -> ~ inside (gs s) 8 x -> mem s' x = mem s x)) /\
        (~ clean_above ra l -> exec c mp s Trap)
    | None => ra <> 0 -> exec c mp s Trap
    end.
Proof.
  intros [HP HR] HE HA ra.
  destruct (pop_shape (x_o q) (x_pt q) (x_js q) (x_orig q) (is_empty_plain _ HP) HR)
    as (t1 & t2 & s1 & s2 & EC & KS & N1 & N2 & N3 & D1 & D2).
  rewrite (is_only_plain _ HP) in EC. rewrite (proj2 (proj2 HP)) in EC.
  pose proof (pop_run mp s l (x_off q) k s1 s2 t1 t2 HE HA N1 N2 N3) as K.
  eexists. split; [exact EC|].
  cbv zeta in K. fold ra in K. destruct (unwind ra l) as [l'|]; [|exact K].
  destruct K as [K1 K2]. split; [|exact K2].
  intros Hc. destruct (K1 Hc) as (s' & X1 & X2 & X3 & X4 & X5).
  rewrite KS in X5. fold (x_scratch q) in X5.
  exists s'. split; [exact X1|]. split; [exact X2|]. split; [|split; [|split]]; auto.
  - intros r Hr. apply X3; intros ->.
    + destruct s1; auto; exfalso; auto.
    + destruct s2; auto; exfalso; auto.
Qed.

Lemma entry_run q mp s l k :
  e_ok q -> env mp s l (e_off q) k -> (List.length l < k)%nat ->
  exists c s',
    e_code q = EOk (c, kRegisterMap) /\
    exec c mp s (Done s') /\
    shadow_rep (mem s') (gs s) (load64 (mem s) (rg s RSP + e_off q) :: l) /\
    (forall r, ~ In (reg_name r) (e_dead q) -> rg s' r = rg s r) /\
    rg s' RSP = rg s RSP /\
    fl s' = fl s /\ gs s' = gs s /\
    (forall x, ~ below (rg s RSP) x -> ~ inside (gs s) 8 x ->
               ~ inside (slot (gs s) (List.length l)) 8 x -> mem s' x = mem s x).
Proof.
  intros HQ HE HK. destruct (entry_run_tight q mp s l k HQ HE HK)
    as (c & s' & X1 & X2 & X3 & X4 & X5 & X6 & X7 & X8).
  exists c, s'. repeat match goal with |- _ /\ _ => split end; auto.
  intros x Y1 Y2 Y3. apply X8; auto. intros Y. apply Y1.
  pose proof (request_scratch_range _ _ _ (proj2 HQ)) as R. fold (e_scratch q) in R.
  unfold below, inside in *. lia.
Qed.

Lemma exit_run q mp s l k :
  x_ok q -> env mp s l (x_off q) k -> apart (rg s RSP + x_off q) 8 (gs s) 8 ->
  let ra := load64 (mem s) (rg s RSP + x_off q) in
  exists c,
    x_code q = EOk (c, kRegisterMap) /\
    match unwind ra l with
    | Some l' =>
        (clean_above ra l ->
         exists s',
           exec c mp s (Done s') /\
           shadow_rep (mem s') (gs s) l' /\
           (forall r, ~ In (reg_name r) (x_dead q) -> rg s' r = rg s r) /\
           rg s' RSP = rg s RSP /\ gs s' = gs s /\
           (forall x, ~ below (rg s RSP) x -> ~ inside (gs s) 8 x -> mem s' x = mem s x)) /\
        (~ clean_above ra l -> exec c mp s Trap)
    | None => ra <> 0 -> exec c mp s Trap
    end.
Proof.
  intros HQ HE HA ra. destruct (exit_run_tight q mp s l k HQ HE HA) as (c & X1 & X2).
  exists c. split; [auto|]. fold ra in X2. destruct (unwind ra l) as [l'|]; auto.
  destruct X2 as [X2 X3]. split; auto. intros Hc.
  destruct (X2 Hc) as (s' & Y1 & Y2 & Y3 & Y4 & Y5 & Y6).
  exists s'. repeat match goal with |- _ /\ _ => split end; auto.
  intros x Z1 Z2. apply Y6; auto. intros Y. apply Z1.
  pose proof (request_scratch_range _ _ _ (proj2 HQ)) as R. fold (x_scratch q) in R.
  unfold below, inside in *. lia.
Qed.

(** ** Histories *)
Inductive op :=
| OWorld (s' : state)      (* arbitrary code ran; the state is now [s'] *)
| OEnter (q : ereq)        (* a protected entry *)
| OExit (q : xreq).        (* a protected exit, up to its return instruction *)

Inductive hout :=
| HOk (s : state)
| HTrap
| HFault.

(** The stack at a snippet: scratch and return-address slot are mapped and
    apart from the thread's shadow region of [k] entries. *)
Definition stack_ok (mp : perm) (k : nat) (s : state) (off : Z) : Prop :=
  0 <= off /\ mapped mp (rg s RSP - 16) 16 /\ mapped mp (rg s RSP + off) 8 /\
  apart (rg s RSP - 16) 16 (gs s) (32 + 8 * Z.of_nat k) /\
  apart (rg s RSP + off) 8 (gs s) (32 + 8 * Z.of_nat k).

(** Any code of the program or of an attacker: it may change registers, flags
    and memory at will, except the thread's shadow region and gs base. *)
Definition world_ok (k : nat) (s s' : state) : Prop :=
  wf s' /\ gs s' = gs s /\
  forall x, inside (gs s) (32 + 8 * Z.of_nat k) x -> mem s' x = mem s x.

(** Abstract operations: return addresses recorded and presented. *)
Inductive sop := SCall (ra : Z) | SRet (ra : Z).

Definition out (r : result) : option hout :=
  match r with
  | Done s => Some (HOk s) | Trap => Some HTrap | Fault => Some HFault
  | OutOfFuel => None
  end.

(** [hrun mp k s h t r]: history [h] from state [s] may end in [r]; [t] is the
    sequence of return addresses recorded and presented. *)
Inductive hrun (mp : perm) (k : nat) : state -> list op -> list sop -> hout -> Prop :=
| hrun_nil s : hrun mp k s [] [] (HOk s)
| hrun_world s s' h t r :
    world_ok k s s' -> hrun mp k s' h t r -> hrun mp k s (OWorld s' :: h) t r
| hrun_enter s s' q c m h t r :
    e_ok q -> stack_ok mp k s (e_off q) ->
    e_code q = EOk (c, m) -> exec c mp s (Done s') ->
    hrun mp k s' h t r ->
    hrun mp k s (OEnter q :: h) (SCall (load64 (mem s) (rg s RSP + e_off q)) :: t) r
| hrun_enter_stop s q c m h x r :
    e_ok q -> stack_ok mp k s (e_off q) ->
    e_code q = EOk (c, m) -> exec c mp s x -> (x = Trap \/ x = Fault) -> out x = Some r ->
    hrun mp k s (OEnter q :: h) [SCall (load64 (mem s) (rg s RSP + e_off q))] r
| hrun_exit s s' q c m h t r :
    x_ok q -> stack_ok mp k s (x_off q) ->
    load64 (mem s) (rg s RSP + x_off q) <> 0 ->
    x_code q = EOk (c, m) -> exec c mp s (Done s') ->
    hrun mp k s' h t r ->
    hrun mp k s (OExit q :: h) (SRet (load64 (mem s) (rg s RSP + x_off q)) :: t) r
| hrun_exit_stop s q c m h x r :
    x_ok q -> stack_ok mp k s (x_off q) ->
    load64 (mem s) (rg s RSP + x_off q) <> 0 ->
    x_code q = EOk (c, m) -> exec c mp s x -> (x = Trap \/ x = Fault) -> out x = Some r ->
    hrun mp k s (OExit q :: h) [SRet (load64 (mem s) (rg s RSP + x_off q))] r.

(** The abstract shadow stack: a list with push, and pop-through-first-match;
    [None] is the security exception.  An entry whose low 32 bits are zero
    cannot be skipped (see C06). *)
Fixpoint sret (ra : Z) (l : list Z) : option (list Z) :=
  match l with
  | [] => None
  | v :: r => if v =? ra then Some r
              else if v mod 2 ^ 32 =? 0 then None else sret ra r
  end.
Fixpoint srun (l : list Z) (t : list sop) : option (list Z) :=
  match t with
  | [] => Some l
  | SCall ra :: t => srun (ra :: l) t
  | SRet ra :: t => match sret ra l with Some l' => srun l' t | None => None end
  end.
(** Largest depth reached. *)
Fixpoint depth_ok (k : nat) (l : list Z) (t : list sop) : Prop :=
  match t with
  | [] => True
  | SCall ra :: t => (List.length l < k)%nat /\ depth_ok k (ra :: l) t
  | SRet ra :: t => match sret ra l with Some l' => depth_ok k l' t | None => True end
  end.

Lemma sret_some ra l l' :
  sret ra l = Some l' -> unwind ra l = Some l' /\ clean_above ra l.
Proof.
  revert l'. induction l as [|v l IH]; intros l'; cbn [sret unwind clean_above]; [discriminate|].
  destruct (v =? ra) eqn:E1; [split; auto; left; lia|].
  destruct (v mod 2 ^ 32 =? 0) eqn:E2; [intros; discriminate|].
  intros H. destruct (IH _ H). split; auto. right. split; auto.
  apply Z.eqb_neq in E2. auto.
Qed.
Lemma sret_none ra l :
  sret ra l = None -> unwind ra l = None \/ ~ clean_above ra l.
Proof.
  induction l as [|v l IH]; cbn [sret unwind clean_above]; auto.
  destruct (v =? ra) eqn:E1; [discriminate|].
  destruct (v mod 2 ^ 32 =? 0) eqn:E2.
  - intros _. right. intros [?|[? ?]]; [lia|]. apply Z.eqb_eq in E2. contradiction.
  - intros H. destruct (IH H); auto. right. intros [?|[? ?]]; [lia|]. auto.
Qed.
Lemma unwind_length ra l l' :
  unwind ra l = Some l' -> (List.length l' < List.length l)%nat.
Proof.
  revert l'. induction l as [|v l IH]; intros l'; cbn [sret unwind clean_above]; [discriminate|].
  destruct (v =? ra).
  - intros H. inversion H; subst. cbn; lia.
  - intros H. specialize (IH _ H). cbn; lia.
Qed.

(** State invariant of a thread: its shadow region is mapped and holds [l]. *)
Record thread_ok (mp : perm) (k : nat) (s : state) (l : list Z) : Prop := {
  th_wf : wf s;
  th_room : (List.length l <= k)%nat;
  th_region : mapped mp (gs s) (32 + 8 * Z.of_nat k);
  th_top : slot (gs s) k < W;
  th_rep : shadow_rep (mem s) (gs s) l }.

Lemma thread_env mp k s l off :
  thread_ok mp k s l -> stack_ok mp k s off -> env mp s l off k.
Proof. intros [? ? ? ? ?] (? & ? & ? & ? & ?). constructor; auto. Qed.

Lemma exit_cases q mp s l k :
  x_ok q -> thread_ok mp k s l -> stack_ok mp k s (x_off q) ->
  let ra := load64 (mem s) (rg s RSP + x_off q) in
  ra <> 0 ->
  exists c, x_code q = EOk (c, kRegisterMap) /\
  match sret ra l with
  | Some l' => exists s', exec c mp s (Done s') /\ thread_ok mp k s' l' /\ gs s' = gs s /\
       rg s' RSP = rg s RSP /\
       (forall x, ~ below (rg s RSP) x -> ~ inside (gs s) 8 x -> mem s' x = mem s x)
  | None => exec c mp s Trap
  end.
Proof.
  intros HQ HT HS ra Hnz.
  pose proof (thread_env _ _ _ _ _ HT HS) as HE.
  destruct HS as (O1 & O2 & O3 & O4 & O5).
  assert (HA : apart (rg s RSP + x_off q) 8 (gs s) 8) by (unfold apart in *; lia).
  destruct (exit_run q mp s l k HQ HE HA) as (c & EC & K). fold ra in K.
  exists c. split; auto.
  destruct (sret ra l) as [l'|] eqn:ES.
  - destruct (sret_some _ _ _ ES) as [EU EV]. rewrite EU in K.
    destruct K as [K _]. destruct (K EV) as (s' & X1 & X2 & X3 & X4 & X5 & X6).
    exists s'. destruct HT as [T1 T2 T3 T4 T5].
    split; [|split; [|split; [|split]]]; auto.
    pose proof (unwind_length _ _ _ EU).
    constructor; rewrite ?X5; auto; [|lia]. eapply exec_wf; eauto.
  - destruct (sret_none _ _ ES) as [EU|EU].
    + rewrite EU in K. auto.
    + destruct (unwind ra l) as [l'|]; auto. destruct K as [_ K]. auto.
Qed.

Lemma entry_cases q mp s l k :
  e_ok q -> thread_ok mp k s l -> stack_ok mp k s (e_off q) -> (List.length l < k)%nat ->
  let ra := load64 (mem s) (rg s RSP + e_off q) in
  exists c s', e_code q = EOk (c, kRegisterMap) /\
    exec c mp s (Done s') /\ thread_ok mp k s' (ra :: l) /\ gs s' = gs s /\
    rg s' RSP = rg s RSP /\
    (forall x, ~ below (rg s RSP) x -> ~ inside (gs s) (32 + 8 * Z.of_nat k) x ->
               mem s' x = mem s x).
Proof.
  intros HQ HT HS HL ra.
  pose proof (thread_env _ _ _ _ _ HT HS) as HE.
  destruct (entry_run q mp s l k HQ HE HL) as (c & s' & EC & X1 & X2 & X3 & X4 & X5 & X6 & X7).
  exists c, s'. destruct HT as [T1 T2 T3 T4 T5].
  split; [auto|]. split; [auto|]. split; [|split; [|split]]; auto.
  - constructor; rewrite ?X6; auto. eapply exec_wf; eauto.
  - intros x H1 H2. apply X7; auto; unfold inside, slot in *; lia.
Qed.

Lemma world_thread mp k s s' l :
  thread_ok mp k s l -> world_ok k s s' -> thread_ok mp k s' l.
Proof.
  intros [T1 T2 T3 T4 T5] (W1 & W2 & W3). constructor; rewrite ?W2; auto.
  eapply shadow_rep_ext; [exact T5|]. intros x Hx. apply W3. unfold inside in *. lia.
Qed.

Definition agrees (mp : perm) (k : nat) (l : list Z) (t : list sop) (r : hout) : Prop :=
  match r with
  | HOk s => exists l', srun l t = Some l' /\ thread_ok mp k s l'
  | HTrap => srun l t = None
  | HFault => False
  end.

(** Refinement: the emitted code implements the abstract stack. *)
Lemma history_refines mp k : forall s h t r l,
  hrun mp k s h t r -> thread_ok mp k s l -> depth_ok k l t -> agrees mp k l t r.
Proof.
  intros s h t r l H. revert l.
  induction H as [s|s s' h t r HW HR IH|s s' q c m h t r HQ HS HC HX HR IH
                 |s q c m h x r HQ HS HC HX Hx Ho
                 |s s' q c m h t r HQ HS Hz HC HX HR IH
                 |s q c m h x r HQ HS Hz HC HX Hx Ho]; intros l HT HD.
  - exists l. auto.
  - apply IH; auto. eapply world_thread; eauto.
  - destruct HD as [HL HD].
    destruct (entry_cases q mp s l k HQ HT HS HL) as (c' & s2 & EC & X1 & X2 & X3 & X4 & X5).
    rewrite HC in EC. inversion EC; subst.
    pose proof (exec_det _ _ _ _ _ HX X1) as E. inversion E; subst.
    apply (IH _ X2 HD).
  - exfalso. destruct HD as [HL HD].
    destruct (entry_cases q mp s l k HQ HT HS HL) as (c' & s2 & EC & X1 & X2 & X3 & X4 & X5).
    rewrite HC in EC. inversion EC; subst.
    pose proof (exec_det _ _ _ _ _ HX X1) as E. destruct Hx; congruence.
  - destruct (exit_cases q mp s l k HQ HT HS Hz) as (c' & EC & K).
    rewrite HC in EC. inversion EC; subst. cbn [depth_ok] in HD.
    destruct (sret _ l) as [l'|] eqn:ES.
    + destruct K as (s2 & X1 & X2 & _).
      pose proof (exec_det _ _ _ _ _ HX X1) as E. inversion E; subst.
      specialize (IH _ X2 HD). unfold agrees in *. cbn [srun]. rewrite ES. exact IH.
    + pose proof (exec_det _ _ _ _ _ HX K). discriminate.
  - destruct (exit_cases q mp s l k HQ HT HS Hz) as (c' & EC & K).
    rewrite HC in EC. inversion EC; subst.
    destruct (sret _ l) as [l'|] eqn:ES.
    + destruct K as (s2 & X1 & X2 & _).
      pose proof (exec_det _ _ _ _ _ HX X1) as E. destruct Hx; congruence.
    + pose proof (exec_det _ _ _ _ _ HX K). subst x. cbn in Ho. inversion Ho; subst.
      cbn. rewrite ES. reflexivity.
Qed.

(** No history gets stuck: from every good state, the next snippet finishes. *)
Lemma history_progress_enter mp k s l q :
  e_ok q -> thread_ok mp k s l -> stack_ok mp k s (e_off q) -> (List.length l < k)%nat ->
  exists s', hrun mp k s [OEnter q] [SCall (load64 (mem s) (rg s RSP + e_off q))] (HOk s').
Proof.
  intros HQ HT HS HL.
  destruct (entry_cases q mp s l k HQ HT HS HL) as (c' & s2 & EC & X1 & X2 & _).
  exists s2. econstructor; eauto. constructor.
Qed.
Lemma history_progress_exit mp k s l q :
  x_ok q -> thread_ok mp k s l -> stack_ok mp k s (x_off q) ->
  load64 (mem s) (rg s RSP + x_off q) <> 0 ->
  exists r, hrun mp k s [OExit q] [SRet (load64 (mem s) (rg s RSP + x_off q))] r.
Proof.
  intros HQ HT HS Hz.
  destruct (exit_cases q mp s l k HQ HT HS Hz) as (c' & EC & K).
  destruct (sret _ l) as [l'|].
  - destruct K as (s2 & X1 & _). exists (HOk s2). eapply hrun_exit; eauto. constructor.
  - exists HTrap. eapply hrun_exit_stop; eauto.
Qed.

(** Every return that is not trapped goes to an address recorded by a protected
    entry that has not returned: soundness of the abstract stack. *)
Lemma sret_in ra l l' : sret ra l = Some l' -> In ra l.
Proof.
  revert l'. induction l as [|v l IH]; intros l'; cbn [sret unwind clean_above]; [discriminate|].
  destruct (v =? ra) eqn:E; [left; lia|].
  destruct (v mod 2 ^ 32 =? 0); [discriminate|]. intros H. right. eapply IH; eauto.
Qed.

(** ** Well-behaved programs *)

(** Live protected frames: address of the return-address slot and the return
    address found there at entry. *)
Definition live := list (Z * Z).
Definition slots_kept (lv : live) (s s' : state) : Prop :=
  forall a v x, In (a, v) lv -> inside a 8 x -> mem s' x = mem s x.
Definition slots_above (lv : live) (s : state) : Prop :=
  forall a v, In (a, v) lv -> rg s RSP <= a.

(** [drun mp k lv s h ps r]: like [hrun], for a program that keeps the
    return-address slots of live protected frames intact, keeps them above rsp,
    and exits frames in LIFO order.  [ps] lists, per exit, the address
    presented and the address recorded at the matching entry. *)
Inductive drun (mp : perm) (k : nat)
  : live -> state -> list op -> list (Z * Z) -> live -> hout -> Prop :=
| drun_nil lv s : drun mp k lv s [] [] lv (HOk s)
| drun_world lv s s' h ps lv' r :
    world_ok k s s' -> slots_kept lv s s' ->
    drun mp k lv s' h ps lv' r -> drun mp k lv s (OWorld s' :: h) ps lv' r
| drun_enter lv s s' q c m h ps lv' r :
    e_ok q -> stack_ok mp k s (e_off q) -> slots_above lv s ->
    (List.length lv < k)%nat ->
    e_code q = EOk (c, m) -> exec c mp s (Done s') ->
    drun mp k ((rg s RSP + e_off q, load64 (mem s) (rg s RSP + e_off q)) :: lv)
         s' h ps lv' r ->
    drun mp k lv s (OEnter q :: h) ps lv' r
| drun_enter_stop lv s q c m h x r :
    e_ok q -> stack_ok mp k s (e_off q) -> slots_above lv s ->
    (List.length lv < k)%nat ->
    e_code q = EOk (c, m) -> exec c mp s x -> x = Trap \/ x = Fault -> out x = Some r ->
    drun mp k lv s (OEnter q :: h) [] lv r
| drun_exit lv a v s s' q c m h ps lv' r :
    x_ok q -> stack_ok mp k s (x_off q) -> slots_above ((a, v) :: lv) s ->
    rg s RSP + x_off q = a ->
    x_code q = EOk (c, m) -> exec c mp s (Done s') ->
    drun mp k lv s' h ps lv' r ->
    drun mp k ((a, v) :: lv) s (OExit q :: h)
         ((load64 (mem s) (rg s RSP + x_off q), v) :: ps) lv' r
| drun_exit_stop lv a v s q c m h x r :
    x_ok q -> stack_ok mp k s (x_off q) -> slots_above ((a, v) :: lv) s ->
    rg s RSP + x_off q = a ->
    x_code q = EOk (c, m) -> exec c mp s x -> x = Trap \/ x = Fault -> out x = Some r ->
    drun mp k ((a, v) :: lv) s (OExit q :: h)
         [(load64 (mem s) (rg s RSP + x_off q), v)] lv r.

(** The slots hold the recorded addresses and lie outside the shadow region. *)
Definition live_ok (k : nat) (lv : live) (s : state) : Prop :=
  forall a v, In (a, v) lv ->
    load64 (mem s) a = v /\ apart a 8 (gs s) (32 + 8 * Z.of_nat k).

Lemma exit_top q mp s v l k :
  x_ok q -> thread_ok mp k s (v :: l) -> stack_ok mp k s (x_off q) ->
  load64 (mem s) (rg s RSP + x_off q) = v ->
  exists c s', x_code q = EOk (c, kRegisterMap) /\
    exec c mp s (Done s') /\ thread_ok mp k s' l /\ gs s' = gs s /\
    (forall x, ~ below (rg s RSP) x -> ~ inside (gs s) 8 x -> mem s' x = mem s x).
Proof.
  intros HQ HT HS HV.
  pose proof (thread_env _ _ _ _ _ HT HS) as HE.
  destruct HS as (O1 & O2 & O3 & O4 & O5).
  assert (HA : apart (rg s RSP + x_off q) 8 (gs s) 8) by (unfold apart in *; lia).
  destruct (exit_run q mp s (v :: l) k HQ HE HA) as (c & EC & K).
  rewrite HV in K. cbn [unwind clean_above] in K. rewrite Z.eqb_refl in K.
  destruct K as [K _]. destruct K as (s' & X1 & X2 & X3 & X4 & X5 & X6); auto.
  exists c, s'. destruct HT as [T1 T2 T3 T4 T5]. cbn [List.length] in T2.
  split; [|split; [|split; [|split]]]; auto.
  constructor; rewrite ?X5; auto; try lia. eapply exec_wf; eauto.
Qed.

Lemma well_behaved_never_traps mp k : forall lv s h ps lv' r,
  drun mp k lv s h ps lv' r ->
  thread_ok mp k s (map snd lv) -> live_ok k lv s ->
  (forall p v, In (p, v) ps -> p = v) /\
  exists s', r = HOk s' /\ thread_ok mp k s' (map snd lv') /\ live_ok k lv' s'.
Proof.
  intros lv s h ps lv' r H.
  induction H as [lv s|lv s s' h ps lv' r HW HK HR IH
                 |lv s s' q c m h ps lv' r HQ HS HB HL HC HX HR IH
                 |lv s q c m h x r HQ HS HB HL HC HX Hx Ho
                 |lv a v s s' q c m h ps lv' r HQ HS HB HA HC HX HR IH
                 |lv a v s q c m h x r HQ HS HB HA HC HX Hx Ho]; intros HT HV.
  - split; [intros ? ? []|]. exists s. auto.
  - apply IH.
    + eapply world_thread; eauto.
    + intros a v Hin. destruct (HV a v Hin) as [V1 V2]. destruct HW as (W1 & W2 & W3).
      rewrite W2. split; auto. rewrite <- V1. apply load64_ext.
      intros x Hx. eapply HK; eauto.
  - assert (HL' : (List.length (map snd lv) < k)%nat) by (rewrite map_length; auto).
    destruct (entry_cases q mp s _ k HQ HT HS HL') as (c' & s2 & EC & X1 & X2 & X3 & X4 & X5).
    rewrite HC in EC. inversion EC; subst.
    pose proof (exec_det _ _ _ _ _ HX X1) as E. inversion E; subst.
    destruct HS as (O1 & O2 & O3 & O4 & O5).
    apply IH; [exact X2|].
    intros a v [Hin|Hin].
    + inversion Hin; subst. rewrite X3. split; auto.
      apply load64_ext. intros x Hx. apply X5; unfold below, inside, apart in *; lia.
    + destruct (HV a v Hin) as [V1 V2]. rewrite X3. split; auto.
      rewrite <- V1. specialize (HB a v Hin). apply load64_ext. intros x Hx.
      apply X5; unfold below, inside, apart in *; lia.
  - exfalso. assert (HL' : (List.length (map snd lv) < k)%nat) by (rewrite map_length; auto).
    destruct (entry_cases q mp s _ k HQ HT HS HL') as (c' & s2 & EC & X1 & _).
    rewrite HC in EC. inversion EC; subst.
    pose proof (exec_det _ _ _ _ _ HX X1) as E. destruct Hx; congruence.
  - destruct (HV a v (or_introl eq_refl)) as [V1 V2].
    assert (EV : load64 (mem s) (rg s RSP + x_off q) = v) by (rewrite HA; auto).
    destruct (exit_top q mp s v (map snd lv) k HQ HT HS EV) as (c' & s2 & EC & X1 & X2 & X3 & X4).
    rewrite HC in EC. inversion EC; subst c'.
    pose proof (exec_det _ _ _ _ _ HX X1) as E. inversion E; subst s2.
    destruct IH as [I1 I2]; [exact X2| |].
    + intros a' v' Hin. destruct (HV a' v' (or_intror Hin)) as [U1 U2].
      rewrite X3. split; auto. rewrite <- U1. specialize (HB a' v' (or_intror Hin)).
      apply load64_ext. intros x Hx. apply X4; unfold below, inside, apart in *; lia.
    + split; auto. intros p w [Hp|Hp]; [inversion Hp; subst; auto|]. apply I1; auto.
  - exfalso. destruct (HV a v (or_introl eq_refl)) as [V1 V2].
    assert (EV : load64 (mem s) (rg s RSP + x_off q) = v) by (rewrite HA; auto).
    destruct (exit_top q mp s v (map snd lv) k HQ HT HS EV) as (c' & s2 & EC & X1 & _).
    rewrite HC in EC. inversion EC; subst c'.
    pose proof (exec_det _ _ _ _ _ HX X1) as E. destruct Hx; congruence.
Qed.
