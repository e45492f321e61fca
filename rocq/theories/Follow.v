(** * Follow: the instructions of the program next to the same instructions with the inserted code
    Not a model of tool code.  A semantics of the program's instructions as it is, one of the
    same instructions with every function called instrumented as well, and what has to hold
    between the two. *)
From Coq Require Import ZArith Bool Lia ZifyBool ZifyNat Arith String List.
From Verif Require Import Machine MachineFacts Jit ShadowSpec JitFacts JitPushPop History.
From Verif Require Import Dfs Binary CallGraph InterProc MemPasses Pipeline RegNames BlockLive
  Reach SafePaths Lowering FastPath Decision P_Instr FullRun Whole Sites P_Sites Order Activation PlanCode ActRun.
Import ListNotations.
Open Scope Z_scope.
Local Notation mem := Machine.mem.

(** ** What the program is assumed to do *)
Section SPEC.
Variable X : Type.
Notation pstate := (pst Machine.flags X).
(** An instruction, a call together with the function called: in the program as it is, and in
    the instrumented program. *)
Variables sem sem' : insn -> pstate -> option pstate.
(** Bytes whose value matters, bytes written whatever was there before, and bytes that the code
    inserted into functions called may leave behind changed. *)
Variables loads stores spoils : insn -> pstate -> Z -> Prop.
(** The instruction sets the flags whatever they were; functions called may leave them changed. *)
Variables fsets fspoils : insn -> bool.

(** The outcome depends on the registers and bytes read, the flags if a flag is read, and the
    rest. *)
Definition looks_same (i : insn) (fi : bool) (s t : pstate) : Prop :=
  (fi = true -> flagless i) /\
  (forall r, reads i r -> p_rg s r = p_rg t r) /\
  (forall a, loads i s a -> p_mem s a = p_mem t a) /\
  (fi = false -> p_fl s = p_fl t) /\ p_rest s = p_rest t.
Definition footprint : Prop :=
  forall i s t fi, looks_same i fi s t ->
    match sem i s, sem' i t with
    | None, None => True
    | Some s', Some t' =>
        (forall r, kills i r \/ p_rg s r = p_rg t r -> p_rg s' r = p_rg t' r) /\
        (forall a, stores i s a \/ p_mem s a = p_mem t a -> ~ spoils i s a -> p_mem s' a = p_mem t' a) /\
        (fi = false \/ fsets i = true -> fspoils i = false -> p_fl s' = p_fl t') /\ p_rest s' = p_rest t'
    | _, _ => False
    end.

(** The program does not look at what inserted code leaves behind: [C] are the bytes that are as
    they should be, [fi] says that the flags may not be. *)
Variables (base : Z) (l0 : list Z).
Definition touches (sn : snip) (s : pstate) (a : Z) : Prop :=
  inside (p_rg s RSP - snip_scratch sn) (snip_scratch sn) a \/ inside base 8 a \/
  inside (ShadowSpec.slot base (List.length l0)) 8 a.
Definition after_snip (C : Z -> Prop) (sn : snip) (s : pstate) (a : Z) : Prop := C a /\ ~ touches sn s a.
Definition after_insn (C : Z -> Prop) (i : insn) (s : pstate) (a : Z) : Prop :=
  (C a \/ stores i s a) /\ ~ spoils i s a.
Definition flags_after (fi : bool) (i : insn) : bool := (fspoils i || (fi && negb (fsets i)))%bool.
Definition is_pop (sn : snip) : bool := match sn with StackPop _ => true | _ => false end.
Fixpoint unseen (C : Z -> Prop) (fi : bool) (its : list item) (s : pstate) : Prop :=
  match its with
  | [] => True
  | Ins _ i :: r =>
      (fi = true -> flagless i) /\ (forall a, loads i s a -> C a) /\
      forall s', sem i s = Some s' -> unseen (after_insn C i s) (flags_after fi i) r s'
  | Snip sn :: r => unseen (after_snip C sn s) (fi || is_pop sn)%bool r s
  | _ :: r => unseen C fi r s
  end.
(** The bytes that are as they should be at the end. *)
Fixpoint settled (C : Z -> Prop) (its : list item) (s : pstate) : Z -> Prop :=
  match its with
  | [] => C
  | Ins _ i :: r => match sem i s with Some s' => settled (after_insn C i s) r s' | None => C end
  | Snip sn :: r => settled (after_snip C sn s) r s
  | _ :: r => settled C r s
  end.
(** The functions called, instrumented, leave the return address of this call alone, as well as
    the shadow stack as long as the program does. *)
Variables (cfa : Z) (k : nat).
Definition tame : Prop :=
  forall i fi s t s' t', sem i s = Some s' -> sem' i t = Some t' -> looks_same i fi s t ->
    (forall x, spoils i s x -> ~ Whole.slot cfa x) /\
    (wfp X s' -> wfp X t -> wfp X t') /\
    ((forall x, inside base (32 + 8 * Z.of_nat k) x -> ~ stores i s x) ->
     (exists l, shadow_rep (p_mem t) base l /\ (List.length l <= k)%nat) -> keeps_shadow X base t t').
(** The program does not write to the shadow stack. *)
Fixpoint clear_of (its : list item) (s : pstate) : Prop :=
  match its with
  | [] => True
  | Ins _ i :: r => (forall x, inside base (32 + 8 * Z.of_nat k) x -> ~ stores i s x) /\
      forall s', sem i s = Some s' -> clear_of r s'
  | _ :: r => clear_of r s
  end.
End SPEC.

(** ** Following a run *)
Section FOLLOW.
Variables (co : code) (o : opts) (X : Type).
Notation pstate := (pst Machine.flags X).
Variables sem sem' : insn -> pstate -> option pstate.
Variables loads stores spoils : insn -> pstate -> Z -> Prop.
Variables fsets fspoils : insn -> bool.
Hypothesis FP : footprint X sem sem' loads stores spoils fsets fspoils.
Variable mp : perm.
Variables base lo cfa : Z.
Variable width : insn -> Z.
Variable stk : Z -> Prop.
Variable gentle : nat -> Prop.
Variables (k : nat) (l0 : list Z).
Variable sc : scope X.
Notation drun := (drun co o X sem' mp base lo cfa width stk gentle sc k l0).
Notation unseen := (unseen X sem loads stores spoils fsets fspoils base l0).
Notation settled := (settled X sem stores spoils base l0).

(** Agreement on the bytes of [C], the registers not named in [D], and the flags unless [fi]. *)
Definition same (C : Z -> Prop) (fi : bool) (D : list string) (s t : pstate) : Prop :=
  (forall r, ~ In (reg_name r) D -> p_rg s r = p_rg t r) /\
  (forall a, C a -> p_mem s a = p_mem t a) /\
  (fi = false -> p_fl s = p_fl t) /\ p_rest s = p_rest t.

Lemma not_sp is : ~ In (reg_name RSP) (dead_before is).
Proof.
  intros K. destruct (dead_before_names is) as [_ N]. destruct (N _ K) as (r & A & B).
  apply reg_name_inj in B. congruence.
Qed.
(** One instruction. *)
Lemma same_insn C fi i R s t s' : same C fi (dead_before (i :: R)) s t -> (fi = true -> flagless i) ->
  (forall a, loads i s a -> C a) ->
  (sem i s = Some s' -> exists t', sem' i t = Some t' /\
     same (after_insn X stores spoils C i s) (flags_after fsets fspoils fi i) (dead_before R) s' t') /\
  (forall t', sem' i t = Some t' -> exists s', sem i s = Some s' /\
     same (after_insn X stores spoils C i s) (flags_after fsets fspoils fi i) (dead_before R) s' t').
Proof.
  intros (A1 & A2 & A3 & A4) U1 U2. cbn [dead_before] in A1.
  assert (RD : forall q, reads i q -> p_rg s q = p_rg t q).
  { intros q Hq. apply A1. intros K. apply live_step_in in K. destruct K as [_ K]. exact (K q Hq eq_refl). }
  pose proof (FP i s t fi (conj U1 (conj RD (conj (fun a L => A2 a (U2 a L)) (conj A3 A4))))) as K.
  assert (G : forall s1 t1, 
     ((forall r, kills i r \/ p_rg s r = p_rg t r -> p_rg s1 r = p_rg t1 r) /\
        (forall a, stores i s a \/ p_mem s a = p_mem t a -> ~ spoils i s a -> p_mem s1 a = p_mem t1 a) /\
        (fi = false \/ fsets i = true -> fspoils i = false -> p_fl s1 = p_fl t1) /\ p_rest s1 = p_rest t1) ->
     same (after_insn X stores spoils C i s) (flags_after fsets fspoils fi i) (dead_before R) s1 t1).
  { intros s1 t1 (K1 & K2 & K3 & K4). split; [|split; [|split; [|exact K4]]].
    - intros q Hq. apply K1.
      destruct (in_dec mreg_eq_dec (MG q P64) (i_written i)) as [W|W]; [left; left; auto|].
      destruct (in_dec mreg_eq_dec (MG q P32) (i_written i)) as [W2|W2]; [left; right; auto|].
      right. apply A1. intros KK. apply live_step_in in KK. destruct KK as [[KK|(r' & _ & E & KK)] _].
      + auto.
      + apply reg_name_inj in E. subst r'. destruct KK; contradiction.
    - intros a ([Ha|Ha] & NS); apply K2; auto.
    - unfold flags_after. intros E. apply orb_false_iff in E. destruct E as [E1 E2]. apply K3; [|exact E1].
      apply andb_false_iff in E2. rewrite negb_false_iff in E2. exact E2. }
  destruct (sem i s) as [s1|], (sem' i t) as [t1|]; try contradiction.
  - split; [intros E; injection E as <-; eauto|intros t' E; injection E as <-; eauto].
  - split; discriminate.
Qed.
(** One snippet. *)
Lemma same_snip C fi sn R s t t' : same C fi (dead_before R) s t -> incl (snip_dead sn) (dead_before R) ->
  mild X base l0 sn t t' ->
  same (after_snip X base l0 C sn s) (match sn with StackPush _ => fi | _ => true end) (dead_before R) s t'.
Proof.
  intros (A1 & A2 & A3 & A4) DI (M1 & M2 & M3 & M4 & M5).
  assert (SP : p_rg s RSP = p_rg t RSP) by (apply A1; apply not_sp).
  split; [|split; [|split]].
  - intros r Hr. rewrite M3 by (intros K; apply Hr, DI, K). apply A1. exact Hr.
  - intros a (Ca & T). rewrite (A2 a Ca). symmetry. unfold touches in T. rewrite SP in T. apply M4; tauto.
  - destruct sn; try discriminate. intros E. rewrite M5. auto.
  - congruence.
Qed.
Lemma follow : forall its t p1, drun its t p1 -> dead_fine its -> Forall stack_snip its ->
  forall C fi s, unseen C fi its s -> same C fi (dead_before (block_rest its)) s t ->
  exists r0, prun sem (left_of its) s = Some r0 /\
    (forall r, p_rg r0 r = p_rg p1 r) /\ p_rest r0 = p_rest p1 /\
    forall a, settled C its s a -> p_mem r0 a = p_mem p1 a.
Proof.
  intros its t p1 H. induction H; intros DF SN C fi s US A; inversion SN; subst; cbn [dead_fine Follow.unseen block_rest] in *.
  - exists s. split; [reflexivity|]. destruct A as (A1 & A2 & _ & A4). cbn [dead_before] in A1.
    split; [intros r; apply A1; intros []|]. split; [exact A4|]. exact A2.
  - change (left_of (Here n :: r)) with (left_of r). cbn [Follow.settled]. eapply IHdrun; eauto.
  - change (left_of (Out n :: r)) with (left_of r). cbn [Follow.settled]. eapply IHdrun; eauto.
    destruct A as (A1 & A2). split; [|exact A2]. intros q _. apply A1. intros [].
  - change (left_of (Ins n i :: r)) with (i :: left_of r). destruct US as (U1 & U2 & U3).
    destruct (same_insn C fi i (block_rest r) s st s A U1 U2) as [_ K]. destruct (K _ H) as (s' & E & B).
    cbn [prun Follow.settled]. rewrite E. eapply IHdrun; eauto.
  - change (left_of (Snip sn :: r)) with (left_of r). cbn [Follow.settled]. destruct DF as [D1 D2].
    eapply IHdrun; [exact D2|assumption|exact US|].
    pose proof (same_snip C fi sn (block_rest r) s st _ A D1 H1) as B.
    match goal with K : stack_snip _ |- _ => destruct sn; cbn [stack_snip is_pop orb] in K |- *; try contradiction end.
    + rewrite orb_false_r. exact B.
    + rewrite orb_true_r. exact B.
Qed.

(** ** The instrumented call next to the call of the program as it is *)
Variable fn : nat.
Variable hi : Z.
Hypothesis RM : room co fn X mp base lo cfa hi stk steady k.
Hypothesis ENTRY : In (f_entry (co_fun co fn)) (f_blocks (co_fun co fn)).
Hypothesis DEPTH : (List.length l0 < k)%nat.
Hypothesis TM : tame X sem sem' loads stores spoils base cfa k.
Notation clear_of := (clear_of X sem stores base k).
Notation orun its s r0 := (irun X co sem mp o base lo cfa width stk gentle steady (program_of its) s (Fin X r0)).
Definition along (r0 : pstate) (its : list item) (t : pstate) : Prop :=
  exists C fi s lst, orun its s r0 /\ unseen C fi its s /\ clear_of its s /\
    same C fi (dead_before (block_rest its)) s t /\ dead_fine its /\ Forall stack_snip its /\
    (forall x, Whole.slot cfa x -> C x) /\ ground X base lo cfa steady lst t /\ (List.length lst <= k)%nat.

Lemma along_here r0 n r st : along r0 (Here n :: r) st -> here_ok X co cfa steady n st /\ along r0 r st.
Proof.
  intros (C & fi & s & lst & O & U & CL & SM & DF & SS & SL & G & LK). inversion SS; subst.
  cbn [program_of filter] in O. apply irun_here in O. destruct O as [HO O]. split.
  - intros _ z Hz. rewrite <- (proj1 SM) by apply not_sp. apply HO; [reflexivity|exact Hz].
  - exists C, fi, s, lst. auto 10.
Qed.
Lemma along_out r0 n r st : along r0 (Out n :: r) st -> out_ok X co cfa steady n st /\ along r0 r st.
Proof.
  intros (C & fi & s & lst & O & U & CL & SM & DF & SS & SL & G & LK). inversion SS; subst.
  cbn [program_of filter] in O. apply irun_out in O. destruct O as [[O1 O2] O].
  assert (SP : p_rg s RSP = p_rg st RSP) by (apply (proj1 SM), not_sp). split.
  - split; [intros _ z Hz; rewrite <- SP; apply O1; [reflexivity|exact Hz]|]. intros _ c S1 S2. rewrite <- SP. eapply O2; eauto.
  - exists C, fi, s, lst. split; [exact O|]. split; [exact U|]. split; [exact CL|]. split; [|auto 8].
    destruct SM as (A & B). split; [|exact B]. intros q _. apply A. intros [].
Qed.
Lemma along_ins r0 n i r st : along r0 (Ins n i :: r) st ->
  exists st', sem' i st = Some st' /\ step_ok X co base lo cfa width stk gentle steady n i st st' /\ along r0 r st'.
Proof.
  intros (C & fi & s & lst & O & (U1 & U2 & U3) & (CL & CL2) & SM & DF & SS & SL & G & LK). inversion SS; subst.
  cbn [program_of filter] in O. inversion O as [| | |? ? ? ? s' ? SE (K1 & K2 & K3 & K4) O'| | | |]; subst.
  cbn [block_rest] in SM.
  destruct (same_insn C fi i (block_rest r) s st s' SM U1 U2) as [F _]. destruct (F SE) as (t' & SE' & SM').
  pose proof G as (G1 & G2 & G3).
  assert (RD : forall q, reads i q -> p_rg s q = p_rg st q).
  { intros q Hq. apply (proj1 SM). cbn [dead_before]. intros K. apply live_step_in in K. destruct K as [_ K]. exact (K q Hq eq_refl). }
  destruct (TM i fi s st s' t' SE SE' (conj U1 (conj RD (conj (fun a L => proj1 (proj2 SM) a (U2 a L)) (proj2 (proj2 SM)))))) as (T1 & T2 & T3).
  assert (SL' : forall x, Whole.slot cfa x -> after_insn X stores spoils C i s x).
  { intros x Hx. split; [left; auto|]. intros K. exact (T1 x K Hx). }
  assert (IF : in_frame X lo cfa steady t').
  { unfold in_frame, gone in *; cbn [wild steady] in *. rewrite <- (proj1 SM') by apply not_sp. exact K2. }
  assert (KS : keeps_shadow X base st t') by (apply T3; [exact CL|exists lst; auto]).
  exists t'. split; [exact SE'|]. split; [split; [apply T2; [exact K1|exact G1]|split; [exact IF|split; [exact KS|]]]|].
  - intros _. split; [|discriminate]. intros x Hx NE. apply (proj1 (K4 eq_refl)); [exact Hx|]. destruct SM as (_ & M & _), SM' as (_ & M' & _).
    rewrite (M x (SL x Hx)), (M' x (SL' x Hx)). exact NE.
  - exists (after_insn X stores spoils C i s), (flags_after fsets fspoils fi i), s', lst.
    split; [exact O'|]. split; [apply U3; exact SE|]. split; [apply CL2; exact SE|]. split; [exact SM'|]. split; [exact DF|].
    split; [assumption|]. split; [exact SL'|]. split; [|exact LK]. split; [apply T2; [exact K1|exact G1]|]. split; [exact IF|apply KS; exact G3].
Qed.
Lemma slot_untouched (C : Z -> Prop) sn (s t : pstate) : in_frame X lo cfa steady t -> p_rg s RSP = p_rg t RSP -> (forall x, Whole.slot cfa x -> C x) ->
  forall x, Whole.slot cfa x -> after_snip X base l0 C sn s x.
Proof.
  intros IF SP SL x Hx. split; [auto|]. change (lo + 16 <= p_rg t RSP <= cfa - 8) in IF. unfold touches. rewrite SP. destruct RM as [_ _ _ A FR _ _].
  specialize (FR _ ENTRY). unfold Whole.slot, inside, apart, ShadowSpec.slot in *. lia.
Qed.
Lemma along_snip r0 sn r st st' : along r0 (Snip sn :: r) st -> ActRun.drun co o X sem' mp base lo cfa width stk gentle steady k l0 [Snip sn] st st' -> along r0 r st'.
Proof.
  intros (C & fi & s & lst & O & U & CL & SM & (D1 & D2) & SS & SL & G & LK) D. inversion SS as [|? ? S1 S2]; subst.
  inversion D as [| | | |? c u ? ? ? SC EX M (l & G' & LK') D']; subst. inversion D'; subst.
  exists (after_snip X base l0 C sn s), (fi || is_pop sn)%bool, s, l. split; [exact O|]. split; [exact U|]. split; [exact CL|].
  assert (SP : p_rg s RSP = p_rg st RSP) by (apply (proj1 SM), not_sp).
  split; [|split; [exact D2|split; [exact S2|split; [|auto]]]].
  - pose proof (same_snip C fi sn (block_rest r) s st _ SM D1 M) as B.
    destruct sn; cbn [stack_snip is_pop] in *; try contradiction; [rewrite orb_false_r|rewrite orb_true_r]; exact B.
  - destruct G as (_ & G2 & _). eapply slot_untouched; eauto.
Qed.
(** Along a part of the items. *)
Lemma along_app r0 a : forall r st st', along r0 (a ++ r) st -> ActRun.drun co o X sem' mp base lo cfa width stk gentle steady k l0 a st st' -> along r0 r st'.
Proof.
  induction a as [|x a IH]; intros r st st' H D; inversion D; subst; cbn [app] in H; [exact H|..].
  - apply along_here in H. destruct H. eapply IH; eauto.
  - apply along_out in H. destruct H. eapply IH; eauto.
  - apply along_ins in H. destruct H as (t1 & A & B & H'). replace t1 with st1 in * by congruence. eapply IH; eauto.
  - eapply IH; [|eassumption]. eapply along_snip; [exact H|]. econstructor; eauto. constructor.
Qed.
(** At a check: the word that it looks at is the one that the program will return to. *)
Lemma orun_prun its : forall s r0, orun its s r0 -> prun sem (left_of its) s = Some r0.
Proof.
  induction its as [|x its IH]; intros s r0 H; [apply irun_nil in H; injection H as <-; reflexivity|].
  destruct x; cbn [program_of filter] in H.
  - apply irun_here in H. apply IH. apply H.
  - change (left_of (Ins n i :: its)) with (i :: left_of its). inversion H; subst. cbn [prun].
    match goal with K : sem i s = _ |- _ => rewrite K end. apply IH. assumption.
  - apply IH. exact H.
  - apply irun_out in H. apply IH. apply H.
Qed.
Hypothesis SF : stack_facts sem.
Lemma along_word r0 its t : along r0 its t -> Forall exit_passable (left_of its) -> Forall plain_stack (left_of its) ->
  p_rg r0 RSP = cfa - 8 -> return_word X t its = load64 (p_mem r0) (cfa - 8).
Proof.
  intros (C & fi & s & lst & O & _ & _ & SM & _ & _ & SL & _) E1 E2 RS.
  destruct (exit_walk _ _ sem SF _ E1 E2 _ _ (orun_prun _ _ _ O)) as [W1 W2].
  unfold return_word. rewrite <- (proj1 SM) by apply not_sp. rewrite <- W1, RS. apply load64_ext. intros x Hx.
  rewrite W2. symmetry. apply (proj1 (proj2 SM)). apply SL. unfold Whole.slot. lia.
Qed.
End FOLLOW.
