(** * LightFollow: the instrumented program follows the program as it is, see LightSame.v *)
From Coq Require Import ZArith Bool Lia ZifyBool ZifyNat Arith String List.
From Verif Require Import Machine MachineFacts Jit ShadowSpec JitFacts JitPushPop History.
From Verif Require Import Dfs Binary CallGraph InterProc MemPasses Pipeline RegNames BlockLive
  Reach SafePaths Lowering FastPath Decision P_Instr FullRun Whole P_Whole Sites P_Sites P_SiteUse Order Activation PlanCode ActRun P_Activation RegFrame RegRun P_RegRun
  Follow Tree TreeFacts LightReg LightSame.
Import ListNotations.
Open Scope Z_scope.
Local Notation mem := Machine.mem.
Local Notation untouched := P_SiteUse.untouched.

Lemma rep_same (mm mm' : memory) base k l : (List.length l <= k)%nat ->
  (forall a, inside base (32 + 8 * Z.of_nat k) a -> mm' a = mm a) -> shadow_rep mm base l -> shadow_rep mm' base l.
Proof.
  intros LK S (A & B & C). unfold inside in S. split; [|split].
  - rewrite <- A. apply load64_ext. intros x Hx. apply S. lia.
  - rewrite <- B. apply load64_ext. intros x Hx. apply S. lia.
  - intros i v N. rewrite <- (C i v N). apply load64_ext. intros x Hx. apply S.
    assert (i < List.length (rev l))%nat by (apply nth_error_Some; congruence). rewrite rev_length in *.
    unfold ShadowSpec.slot in Hx. lia.
Qed.
Lemma same_less X (C D : Z -> Prop) fi E (s t : pst Machine.flags X) : same X C fi E s t -> (forall a, D a -> C a) -> same X D fi E s t.
Proof. intros (A & B & R) H. split; [exact A|]. split; [|exact R]. intros a Ha. apply B, H, Ha. Qed.

Lemma segs_path co p : forall ks n sl path, segs co p n ks = Some sl -> orig_blocks co (snd n) ks = Some path ->
  forall x, In x sl -> In (snd (fst x)) path.
Proof.
  induction ks as [|k ks IH]; intros n sl path SG OB x Hx; cbn [segs orig_blocks] in *.
  - injection SG as <-. injection OB as <-. destruct Hx as [<-|[]]. left. reflexivity.
  - destruct (nth_error _ k) as [e|]; [|discriminate]. destruct (e_sink e || e_inter e)%bool; [discriminate|].
    destruct (segs co p (next p n k e) ks) as [sl'|] eqn:SG'; [|discriminate]. injection SG as <-.
    destruct (orig_blocks co (e_trg e) ks) as [path'|] eqn:OB'; [|discriminate]. injection OB as <-.
    destruct Hx as [<-|Hx]; [left; reflexivity|right]. eapply IH; eauto. rewrite next_trg. exact OB'.
Qed.

Section LF.
Variables (co : code) (fl : Lowering.flags) (fs : list finfo) (m : sums) (width : insn -> Z).
Variables (o : opts) (d : nat -> dead_info) (mp : perm) (base : Z) (k : nat).
Variable X : Type.
Notation pstate := (pst Machine.flags X).
Variable sem : insn -> pstate -> option pstate.
Variable after : insn -> Z.
Variable lib : lcode -> pstate -> option (pstate * lnext).
Variable turns : nat -> X -> turn -> Prop.
Variable dials : nat -> X -> callee -> Prop.
Variables loads stores : insn -> pstate -> Z -> Prop.
Variables lloads lstores : lcode -> pstate -> Z -> Prop.
Variable fsets : insn -> bool.
Hypothesis MO : machine_ok X sem after loads stores fsets.
Hypothesis LO : library_ok X lib lloads lstores.
Hypothesis PA : parsed co fs.
Hypothesis SU : forall k, within co fl width k.
Hypothesis LI : fl_light fl = true.
Hypothesis RL : run_light co = Ok m.
Hypothesis AN : forall g, own co g -> analysed co m g.
Hypothesis TIDY : forall g, own co g -> tidy co g.
Hypothesis PL : plain o.
Hypothesis NO : o_optimize_regs o = false.
Hypothesis NAMES : forall g, own co g -> on_reg (planned co fl m fs g) = true -> names_ok co g.
Hypothesis CALLS : forall g b, own co g -> In b (f_blocks (co_fun co g)) ->
  call_ends (b_insns (co_block co b)) /\
  forall i, In i (b_insns (co_block co b)) -> i_op i = OCall ->
    i_wmem i = true /\ (exists pt, In (MG RSP pt) (i_written i)) /\ forall r pt, In (MG r pt) (i_written i) -> r = RSP.

Notation wfp := (wfp X).
Notation rep p l := (shadow_rep (p_mem p) base l).
Notation reserved := (reserved base k).
Notation same := (same X).
Notation alike := (alike X).
Notation caller := (caller X).
Notation qcaller := (qcaller X).
Notation through := (through co X sem after lib dials).
Notation trun := (trun co o mp base X sem after lib turns dials).
Notation leaves := (leaves co X lib turns).
Notation lrun := (lrun co X lib).
Notation call := (call co fl fs m o d mp base X sem after lib turns dials).
Notation asks := (asks base k X loads stores).
Notation lib_fine := (lib_fine base k X lib lloads lstores).
Notation qlrun := (qlrun co base k X lib lloads lstores).
Notation qthrough := (qthrough co base k X sem after lib dials stores lloads lstores).
Notation qrun := (qrun co base k X sem after lib turns dials loads stores lloads lstores fsets).
Notation qleaves := (qleaves co base k X lib turns lloads lstores).
Notation has_space := (has_space co mp base k X).
Notation quiet := (quiet co fl fs m o d mp base k X sem after lib turns dials loads stores lloads lstores fsets).
Notation code_of := (code_of co fl fs m o d).

(** ** What a quiet run keeps *)
Definition entered (cfa ra : Z) (C : Z -> Prop) (p : pstate) : Prop :=
  p_rg p RSP = cfa - 8 /\ load64 (p_mem p) (cfa - 8) = ra /\ 0 < ra < W /\
  (forall a, Whole.slot cfa a -> C a) /\ (forall a, C a -> ~ reserved a).
Definition above_kept (cfa : Z) (C D : Z -> Prop) : Prop :=
  (forall a, cfa - 8 <= a -> C a -> D a) /\ ((forall a, C a -> ~ reserved a) -> forall a, D a -> ~ reserved a).
Definition keeping (A : qcaller) : Prop :=
  forall g lo cfa ra C p q D, A g lo cfa ra C p (QEnd q D) -> p_rg p RSP = cfa - 8 ->
  p_rg q RSP = cfa /\ above_kept cfa C D.
Lemma kept_refl cfa C : above_kept cfa C C.
Proof. split; auto. Qed.
Lemma kept_trans cfa C D E : above_kept cfa C D -> above_kept cfa D E -> above_kept cfa C E.
Proof. intros (A1 & A2) (B1 & B2). split; auto. Qed.
Lemma kept_plus cfa (C S : Z -> Prop) : (forall a, S a -> ~ reserved a) -> above_kept cfa C (plus C S).
Proof. intros H. split; [intros a _ Ha; left; exact Ha|]. intros K a [Ha|Ha]; auto. Qed.
Lemma qlrun_kept A sp : keeping A -> forall C c p z, qlrun A sp C c p z -> forall q D, z = QEnd q D ->
  p_rg q RSP = sp + 8 /\ above_kept (sp + 8) C D.
Proof.
  intros KA C c p z H. induction H as [C c p q (L1 & L2 & L3) RS|C c p p1 g ra lo q D z (L1 & L2 & L3) OW FR AR R IH|C c p p1 g ra lo x LF OW FR AR]; intros q' D' E; [| |discriminate].
  - injection E as <- <-. split; [exact RS|]. apply kept_plus. exact L3.
  - destruct (KA _ _ _ _ _ _ _ _ AR ltac:(lia)) as (_ & K1 & K2). destruct (IH _ _ E) as (I1 & I2). split; [exact I1|].
    eapply kept_trans; [apply kept_plus; exact L3|]. eapply kept_trans; [|exact I2]. split; [intros a Ha; apply K1; lia|exact K2].
Qed.
Lemma through_kept A C n i p q D : keeping A -> (forall a, stores i p a -> ~ reserved a) -> i_op i = OCall ->
  qthrough A C n i p (QEnd q D) -> p_rg q RSP = p_rg p RSP /\ above_kept (p_rg p RSP) C D.
Proof.
  intros KA ST OC H. remember (QEnd q D) as z eqn:E. destruct H as [e p1 g lo z IC SE GT DI AR|e p1 name z IC SE GO DI LR].
  - subst z. destruct (mo_call _ _ _ _ _ _ MO i p p1 OC SE) as (M1 & _). destruct (KA _ _ _ _ _ _ _ _ AR M1) as (K1 & K2).
    split; [exact K1|]. eapply kept_trans; [|exact K2]. apply kept_plus. exact ST.
  - destruct (mo_call _ _ _ _ _ _ MO i p p1 OC SE) as (M1 & _). destruct (qlrun_kept _ _ KA _ _ _ _ LR _ _ E) as (K1 & K2).
    replace (p_rg p1 RSP + 8) with (p_rg p RSP) in * by lia. split; [exact K1|].
    eapply kept_trans; [apply kept_plus; exact ST|exact K2].
Qed.
Lemma qrun_kept A lo cfa : keeping A -> forall C fi its p cs z, qrun A lo cfa C fi its p cs z ->
  p_rg p RSP <= cfa - 8 -> forall q D, z = QEnd q D ->
  above_kept cfa C D /\ load64 (p_mem q) (cfa - 8) = load64 (p_mem p) (cfa - 8).
Proof.
  intros KA C fi its p cs z H.
  induction H as [C fi p|C fi n i r p|C fi n r p cs z HH R IH|C fi n r p cs z HH ME R IH|C fi n i r p p' cs z OC SE AS IF KS R IH
    |C fi n i r p q C2 cs z OC AS TH KS R IH|C fi n i r p x OC AS TH|C fi sn r p cs z PO R IH]; intros RS q' D E; try discriminate.
  - injection E as <- <-. split; [apply kept_refl|reflexivity].
  - apply IH; auto.
  - apply IH; auto.
  - destruct (IH ltac:(lia) q' D E) as (I1 & I2). split.
    + eapply kept_trans; [|exact I1]. apply kept_plus. apply AS.
    + rewrite I2. apply load64_ext. intros x Hx. apply KS. unfold Whole.slot. lia.
  - destruct (through_kept A C n i p q C2 KA (proj2 (proj2 AS)) OC TH) as (T1 & T2 & T3).
    destruct (IH ltac:(lia) q' D E) as ((I1 & I1') & I2). split.
    + split; [|auto]. intros a Ha K. apply I1; [exact Ha|]. apply T2; [lia|exact K].
    + rewrite I2. apply load64_ext. intros x Hx. apply KS. unfold Whole.slot. lia.
  - destruct (IH ltac:(lia) q' D E) as ((I1 & I1') & I2). split; [|exact I2]. split.
    + intros a Ha K. apply I1; [exact Ha|]. split; [exact K|]. unfold inside. lia.
    + intros K. apply I1'. intros a (Ka & _). auto.
Qed.
Lemma quiet_keeping : forall h n, keeping (quiet h n).
Proof.
  induction h as [|h IH]; intros n g lo cfa ra C p q D H RS; [discriminate|].
  destruct H as (NK & _ & ks & path & last & items & cs & z0 & _ & _ & _ & QR & QL).
  remember (QEnd q D) as z eqn:E. destruct QL as [x|p1 C1 IR TU R1|p1 C1 e g' lo' z IT GT TU R1 TR|p1 C1 e name z IT GO TU R1 LR]; try discriminate.
  - injection E as <- <-. destruct (qrun_kept _ _ _ (IH (S n)) _ _ _ _ _ _ QR ltac:(lia) _ _ eq_refl) as (K1 & _). split; [change (p_rg p1 RSP + 8 = cfa); lia|exact K1].
  - subst z. destruct (qrun_kept _ _ _ (IH (S n)) _ _ _ _ _ _ QR ltac:(lia) _ _ eq_refl) as (K1 & _).
    destruct (IH n _ _ _ _ _ _ _ _ TR R1) as (K2 & K3). split; [exact K2|]. eapply kept_trans; eauto.
  - destruct (qrun_kept _ _ _ (IH (S n)) _ _ _ _ _ _ QR ltac:(lia) _ _ eq_refl) as (K1 & _).
    destruct (qlrun_kept _ _ (IH n) _ _ _ _ LR _ _ E) as (K2 & K3). replace (p_rg p1 RSP + 8) with cfa in * by lia.
    split; [exact K2|]. eapply kept_trans; [exact K1|exact K3].
Qed.

(** ** The program as it is *)
Definition fin_of (z : qfin X) : fin X := match z with QEnd p _ => Ended p | QPause x => Paused x end.
Definition plainly (Aq : qcaller) (A : caller) : Prop :=
  forall g lo cfa ra C p z, Aq g lo cfa ra C p z -> p_rg p RSP = cfa - 8 -> load64 (p_mem p) (cfa - 8) = ra -> A g ra p (fin_of z).
Lemma qlrun_plain Aq A sp : plainly Aq A -> forall C c p z, qlrun Aq sp C c p z -> lrun A c p (fin_of z).
Proof.
  intros PA' C c p z H. induction H as [C c p q (L1 & L2 & L3) RS|C c p p1 g ra lo q D z (L1 & L2 & L3) OW FR AR R IH|C c p p1 g ra lo x (L1 & L2 & L3) OW FR AR].
  - apply lr_back. exact L1.
  - destruct (lo_call _ _ _ _ LO _ _ _ _ _ L1) as (_ & S2 & _). eapply lr_call; [exact L1|exact OW| |exact IH].
    exact (PA' _ _ _ _ _ _ (QEnd q D) AR ltac:(lia) ltac:(replace (p_rg p1 RSP + 8 - 8) with (p_rg p1 RSP) by lia; exact S2)).
  - destruct (lo_call _ _ _ _ LO _ _ _ _ _ L1) as (_ & S2 & _). eapply lr_inner; [exact L1|exact OW|exact I|].
    exact (PA' _ _ _ _ _ _ (QPause x) AR ltac:(lia) ltac:(replace (p_rg p1 RSP + 8 - 8) with (p_rg p1 RSP) by lia; exact S2)).
Qed.
Lemma through_plain Aq A C n i p z : plainly Aq A -> i_op i = OCall -> qthrough Aq C n i p z -> through A (false, snd n) i p (fin_of z).
Proof.
  intros PA' OC H. destruct H as [e p1 g lo z IC SE GT DI AR|e p1 name z IC SE GO DI LR].
  - destruct (mo_call _ _ _ _ _ _ MO i p p1 OC SE) as (M1 & M2 & _).
    exists e, p1. split; [exact IC|]. split; [exact SE|]. left. exists g. split; [exact GT|]. split; [exact DI|]. eapply PA'; eauto.
  - exists e, p1. split; [exact IC|]. split; [exact SE|]. right. exists name. split; [exact GO|]. split; [exact DI|]. eapply qlrun_plain; eauto.
Qed.
Lemma qrun_plain Aq A lo cfa : plainly Aq A -> forall C fi its p cs z, qrun Aq lo cfa C fi its p cs z ->
  trun A (erase its) p (fin_of z).
Proof.
  intros PA' C fi its p cs z H.
  induction H as [C fi p|C fi n i r p|C fi n r p cs z HH R IH|C fi n r p cs z HH ME R IH|C fi n i r p p' cs z OC SE AS IF KS R IH
    |C fi n i r p q C2 cs z OC AS TH KS R IH|C fi n i r p x OC AS TH|C fi sn r p cs z PO R IH].
  - constructor.
  - apply t_pause.
  - apply t_here. exact IH.
  - apply t_out; [intros b; rewrite entering_erase; apply ME|exact IH].
  - eapply t_ins; eauto.
  - eapply t_call; [exact OC|exact (through_plain _ _ _ _ _ _ _ PA' OC TH)|exact IH].
  - apply t_inner; [exact OC|exact I|exact (through_plain _ _ _ _ _ _ _ PA' OC TH)].
  - exact IH.
Qed.
Lemma quiet_plain : forall h n, plainly (quiet h n) (call false h).
Proof.
  induction h as [|h IH]; intros n g lo cfa ra C p z H RS RA; [cbn in H |- *; subst z; reflexivity|].
  destruct H as (NK & _ & ks & path & last & items & cs & z0 & OB & NC & CO & QR & QL).
  exists ks, path, last, (erase items), (fin_of z0). split; [exact OB|]. split; [exact NC|]. split; [eapply erase_plan; exact CO|].
  split; [eapply qrun_plain; [apply (IH (S n))|exact QR]|].
  destruct QL as [x|p1 C1 IR TU R1|p1 C1 e g' lo' z IT GT TU R1 TR|p1 C1 e name z IT GO TU R1 LR]; cbn [fin_of].
  - apply l_pause. exact I.
  - destruct (qrun_kept _ _ _ (quiet_keeping h (S n)) _ _ _ _ _ _ QR ltac:(lia) _ _ eq_refl) as (_ & K). apply l_ret; [exact IR|exact TU|].
    unfold word_at. rewrite R1, K. exact RA.
  - destruct (qrun_kept _ _ _ (quiet_keeping h (S n)) _ _ _ _ _ _ QR ltac:(lia) _ _ eq_refl) as (_ & K).
    eapply l_tail; eauto. eapply IH; eauto. congruence.
  - eapply l_tail_lib; eauto. eapply qlrun_plain; [apply (IH n)|exact LR].
Qed.

(** ** One step of both *)
Definition ends_alike (l : list Z) (z : qfin X) (z' : fin X) : Prop :=
  match z, z' with
  | QPause x, Paused y => x = y
  | QEnd p C, Ended q => alike C p q /\ wfp q /\ rep q l
  | _, _ => False
  end.
Definition mimics (n : nat) (Aq : qcaller) (A : caller) : Prop :=
  forall g lo cfa ra C p z q l, own co g -> Aq g lo cfa ra C p z -> entered cfa ra C p ->
  alike C p q -> wfp q -> rep q l -> (List.length l <= n)%nat -> exists z', A g ra q z' /\ ends_alike l z z'.

Lemma seen_same C fi i R (s t : pstate) : asks fi C i s -> same C fi (dead_before (i :: R)) s t -> looks_same X loads i fi s t.
Proof.
  intros (A1 & A2 & A3) (B1 & B2 & B3 & B4). split; [exact A1|]. split; [|split; [|split; [exact B3|exact B4]]].
  - intros q Hq. apply B1. cbn [dead_before]. intros K. apply live_step_in in K. destruct K as [_ K]. exact (K q Hq eq_refl).
  - intros a L. apply B2, A2, L.
Qed.
Lemma ins_follows C fi i R s t s' l : sem i s = Some s' -> asks fi C i s -> same C fi (dead_before (i :: R)) s t ->
  wfp t -> rep t l -> (List.length l <= k)%nat ->
  exists t', sem i t = Some t' /\ same (plus C (stores i s)) (fi && negb (fsets i)) (dead_before R) s' t' /\ wfp t' /\ rep t' l.
Proof.
  intros SE AS SM WF RP LK. pose proof (seen_same _ _ _ _ _ _ AS SM) as LS. destruct AS as (A1 & A2 & A3).
  destruct (same_insn X sem sem loads stores (fun _ _ _ => False) fsets (fun _ => false) (mo_foot _ _ _ _ _ _ MO) C fi i R s t s' SM A1 A2) as (F & _).
  destruct (F SE) as (t' & SE' & SM'). exists t'. split; [exact SE'|]. split.
  - eapply same_less; [exact SM'|]. intros a Ha. split; [exact Ha|auto].
  - split; [eapply mo_wf; eauto|]. apply (rep_same (p_mem t) _ base k); auto.
    intros a Ha. apply (mo_frame _ _ _ _ _ _ MO i t t' a SE'). intros K.
    exact (A3 a (mo_stores _ _ _ _ _ _ MO i s t fi LS a K) Ha).
Qed.
(** At a call all registers are the same. *)
Definition call_shape (i : insn) : Prop := forall r pt, In (MG r pt) (i_written i) -> r = RSP.
Lemma call_alive i : call_shape i -> forall r, ~ In (reg_name r) (dead_before [i]).
Proof.
  intros CS r K. cbn [dead_before] in K. pose proof (not_sp [i]) as NS. cbn [dead_before] in NS.
  pose proof K as K0. apply live_step_in in K. destruct K as [[[]|(r' & _ & E & [W|W])] _];
    apply reg_name_inj in E; subst r'; apply CS in W; subst r; apply NS; exact K0.
Qed.
Lemma lib_follows n Aq A sp l : mimics n Aq A -> keeping Aq -> (List.length l <= n)%nat -> (List.length l <= k)%nat ->
  forall C c s z, qlrun Aq sp C c s z -> forall t, (forall a, C a -> ~ reserved a) -> alike C s t -> wfp t -> rep t l ->
  exists z', lrun A c t z' /\ ends_alike l z z'.
Proof.
  intros MI KA LN LK C c s z H.
  assert (ONE : forall C c s t s' x, lib_fine c C s s' x -> (forall a, C a -> ~ reserved a) -> alike C s t -> wfp t -> rep t l ->
    exists t', lib c t = Some (t', x) /\ alike (plus C (lstores c s)) s' t' /\ wfp t' /\ rep t' l /\ (forall a, plus C (lstores c s) a -> ~ reserved a)).
  { clear - LO LK. intros C c s t s' x (L1 & L2 & L3) CR (B1 & B2 & B3) WF RP.
    destruct (lo_foot _ _ _ _ LO c s t s' x) as (q & Q1 & Q2 & Q3 & Q4 & Q5); [split; [exact B1|split; [intros a Ha; apply B2, L2, Ha|exact B3]]|exact L1|].
    exists q. split; [exact Q1|]. split; [|split; [|split]].
    - split; [exact Q2|]. split; [|exact Q3]. intros a [Ha|Ha]; apply Q4; auto.
    - eapply lo_wf; [exact LO|exact WF|exact Q1].
    - apply (rep_same (p_mem t) _ base k); auto. intros a Ha. apply Q5. intros K. exact (L3 a K Ha).
    - intros a [Ha|Ha]; auto. }
  assert (CB : forall C c s t p1 g ra lo z, lib_fine c C s p1 (Callback g ra) -> own co g ->
    Aq g lo (p_rg p1 RSP + 8) ra (plus C (lstores c s)) p1 z -> (forall a, C a -> ~ reserved a) -> alike C s t -> wfp t -> rep t l ->
    exists t1 z', lib c t = Some (t1, Callback g ra) /\ A g ra t1 z' /\ ends_alike l z z' /\ (forall a, plus C (lstores c s) a -> ~ reserved a)).
  { clear - ONE MI LN LO. intros C c s t p1 g ra lo z LF OW AR CR AL WF RP. destruct (ONE _ _ _ _ _ _ LF CR AL WF RP) as (t1 & T1 & T2 & T3 & T4 & T5).
    destruct (lo_call _ _ _ _ LO _ _ _ _ _ (proj1 LF)) as (S1 & S2 & S3).
    destruct (MI g lo (p_rg p1 RSP + 8) ra _ p1 z t1 l OW AR) as (z' & K1 & K2); auto.
    - split; [lia|]. split; [replace (p_rg p1 RSP + 8 - 8) with (p_rg p1 RSP) by lia; exact S2|]. split; [exact S1|]. split; [|exact T5].
      intros a Ha. right. apply S3. unfold Whole.slot in Ha. unfold inside. lia.
    - exists t1, z'. auto. }
  induction H as [C c s q LF RS|C c s p1 g ra lo q D z LF OW FR AR R IH|C c s p1 g ra lo x LF OW FR AR]; intros t CR AL WF RP.
  - destruct (ONE _ _ _ _ _ _ LF CR AL WF RP) as (t1 & T1 & T2 & T3 & T4 & _). exists (Ended t1). split; [apply lr_back; exact T1|]. split; auto.
  - destruct (CB _ _ _ _ _ _ _ _ _ LF OW AR CR AL WF RP) as (t1 & z1 & T1 & T2 & T3 & T4).
    destruct z1 as [q1|y|y]; [|destruct T3|destruct T3]. destruct T3 as (E1 & E2 & E3).
    destruct (KA _ _ _ _ _ _ _ _ AR ltac:(lia)) as (_ & _ & K2).
    destruct (IH q1 (K2 T4) E1 E2 E3) as (z' & I1 & I2). exists z'. split; [|exact I2]. eapply lr_call; eauto.
  - destruct (CB _ _ _ _ _ _ _ _ _ LF OW AR CR AL WF RP) as (t1 & z1 & T1 & T2 & T3 & T4).
    destruct z1 as [q1|y|y]; [destruct T3| |destruct T3]. exists (Paused y). split; [|exact T3]. eapply lr_inner; eauto. exact I.
Qed.
Lemma through_follows n Aq A C fi nd i s t z l : mimics n Aq A -> keeping Aq ->
  i_op i = OCall -> call_shape i -> asks fi C i s -> (forall a, C a -> ~ reserved a) ->
  qthrough Aq C nd i s z -> same C fi (dead_before [i]) s t -> wfp t -> rep t l -> (List.length l <= n)%nat -> (List.length l <= k)%nat ->
  exists z', through A nd i t z' /\ ends_alike l z z'.
Proof.
  intros MI KA OC CS AS CR TH SM WF RP LN LK.
  assert (ALL : forall s1, sem i s = Some s1 -> exists t1, sem i t = Some t1 /\ alike (plus C (stores i s)) s1 t1 /\ wfp t1 /\ rep t1 l).
  { intros s1 SE. destruct (ins_follows C fi i [] s t s1 l SE AS SM WF RP LK) as (t1 & SE1 & SM1 & WF1 & RP1). exists t1.
    split; [exact SE1|]. split; [|auto]. destruct SM1 as (B1 & B2 & _ & B4). split; [intros r; apply B1; intros []|]. auto. }
  destruct TH as [e p1 g lo z IC SE GT DI AR|e p1 name z IC SE GO DI LR].
  - destruct (ALL p1 SE) as (t1 & SE1 & AL & WF1 & RP1).
    destruct (mo_call _ _ _ _ _ _ MO i s p1 OC SE) as (M1 & M2 & M3).
    destruct (MI g lo (p_rg s RSP) (after i) (plus C (stores i s)) p1 z t1 l (proj1 GT) AR) as (z' & K1 & K2); auto.
    + split; [exact M1|]. split; [exact M2|]. split; [apply (mo_after _ _ _ _ _ _ MO)|]. split.
      * intros a Ha. right. apply M3. unfold Whole.slot in Ha. unfold inside. lia.
      * intros a [Ha|Ha]; [auto|apply AS; exact Ha].
    + exists z'. split; [|exact K2]. exists e, t1. split; [exact IC|]. split; [exact SE1|]. left. exists g. split; [exact GT|]. split; [rewrite <- (proj2 (proj2 AL)); exact DI|exact K1].
  - destruct (ALL p1 SE) as (t1 & SE1 & AL & WF1 & RP1). 
    destruct (lib_follows n Aq A (p_rg p1 RSP) l MI KA LN LK _ _ _ _ LR t1) as (z' & K1 & K2); auto.
    { intros a [Ha|Ha]; [auto|apply AS; exact Ha]. }
    exists z'. split; [|exact K2]. exists e, t1. split; [exact IC|]. split; [exact SE1|]. right. exists name. split; [exact GO|].
    split; [rewrite <- (proj2 (proj2 AL)); exact DI|exact K1].
Qed.

(** ** Functions without inserted code *)
Lemma plain_follows n Aq A lo cfa ra l : mimics n Aq A -> keeping Aq -> (List.length l <= n)%nat -> (List.length l <= k)%nat ->
  forall C fi its s cs z, qrun Aq lo cfa C fi its s cs z -> forall t,
  (forall sn, ~ In (Snip sn) its) -> calls_last its ->
  (forall nd i, In (Ins nd i) its -> i_op i = OCall -> call_shape i) ->
  same C fi (dead_before (block_rest its)) s t -> (forall a, C a -> ~ reserved a) -> wfp t -> rep t l -> p_rg s RSP <= cfa - 8 ->
  load64 (p_mem s) (cfa - 8) = ra -> (forall a, Whole.slot cfa a -> C a) ->
  exists z', trun A its t z' /\ ends_alike l z z'.
Proof.
  intros MI KA LN LK C fi its s cs z H.
  induction H as [C fi p|C fi nd i r p|C fi nd r p cs z HH R IH|C fi nd r p cs z HH ME R IH|C fi nd i r p p' cs z OC SE AS IF KS R IH
    |C fi nd i r p q C2 cs z OC AS TH KS R IH|C fi nd i r p x OC AS TH|C fi sn r p cs z PO R IH]; intros t NS CL SH SM CR WF RP RS RA SL;
    try (assert (NS' : forall sn, ~ In (Snip sn) r) by (intros sn0 K; apply (NS sn0); right; exact K));
    try (assert (SH' : forall nd i, In (Ins nd i) r -> i_op i = OCall -> call_shape i) by (intros n0 i0 K; apply (SH n0 i0); right; exact K)).
  - exists (Ended t). split; [constructor|]. split; [|auto]. destruct SM as (B1 & B2 & _ & B4). split; [intros r; apply B1; intros []|]. auto.
  - exists (Paused (p_rest t)). split; [constructor|]. apply SM.
  - destruct (IH t) as (z' & K1 & K2); auto. exists z'. split; [apply t_here; exact K1|exact K2].
  - destruct (IH t) as (z' & K1 & K2); auto.
    { destruct SM as (B1 & B2). split; [|exact B2]. intros q _. apply B1. intros []. }
    exists z'. split; [apply t_out; [|exact K1]|exact K2]. intros b Hb. replace (p_rest t) with (p_rest p) by apply SM. exact (ME b Hb).
  - cbn [block_rest] in SM. destruct (ins_follows C fi i (block_rest r) p t p' l SE AS SM WF RP LK) as (t' & SE' & SM' & WF' & RP').
    destruct CL as (_ & CL). destruct (IH t') as (z' & K1 & K2); auto.
    + intros a [Ha|Ha]; [auto|apply AS; exact Ha].
    + lia.
    + rewrite <- RA. apply load64_ext. intros x Hx. apply KS. unfold Whole.slot. lia.
    + intros a Ha. left. auto.
    + exists z'. split; [eapply t_ins; eauto|exact K2].
  - destruct CL as (CB & CL). cbn [block_rest] in SM. rewrite (CB OC) in SM.
    destruct (through_follows n Aq A C fi nd i p t _ l MI KA OC (SH nd i (or_introl eq_refl) OC) AS CR TH SM WF RP LN LK) as ([q'|y|y] & T1 & T2); [|destruct T2|destruct T2].
    destruct T2 as (AL & WF' & RP'). destruct (through_kept Aq C nd i p q C2 KA (proj2 (proj2 AS)) OC TH) as (U1 & U2 & U3).
    destruct (IH q') as (z' & K1 & K2); auto.
    + destruct AL as (B1 & B2 & B3). split; [intros r0 _; apply B1|]. split; [exact B2|]. split; [discriminate|exact B3].
    + lia.
    + rewrite <- RA. apply load64_ext. intros x Hx. apply KS. unfold Whole.slot. lia.
    + intros a Ha. apply U2; [unfold Whole.slot in Ha; lia|auto].
    + exists z'. split; [eapply t_call; eauto|exact K2].
  - destruct CL as (CB & CL). cbn [block_rest] in SM. rewrite (CB OC) in SM.
    destruct (through_follows n Aq A C fi nd i p t _ l MI KA OC (SH nd i (or_introl eq_refl) OC) AS CR TH SM WF RP LN LK) as ([q'|y|y] & T1 & T2); [destruct T2| |destruct T2].
    cbn in T2. subst y. exists (Paused x). split; [apply t_inner; cbn; auto|reflexivity].
  - destruct (NS sn). left; reflexivity.
Qed.

(** ** One call, with the results of the calls that it makes *)
Definition XT : Type := (X * list pstate)%type.
Notation pstate' := (pst Machine.flags XT).
Definition load (p : pstate) (tr : list pstate) : pstate' := mkPst (p_rg p) (p_mem p) (p_fl p) (p_rest p, tr).
Definition bare (st : pstate') : pstate := mkPst (p_rg st) (p_mem st) (p_fl st) (fst (p_rest st)).
Lemma bare_load p tr : bare (load p tr) = p.
Proof. destruct p; reflexivity. Qed.
Definition tsem (i : insn) (st : pstate') : option pstate' :=
  if isop (i_op i) OCall then
    match snd (p_rest st) with
    | q :: tr => if i_wmem i && writes_sp i then Some (load q tr) else None
    | [] => None
    end
  else match sem i (bare st) with Some p' => Some (load p' (snd (p_rest st))) | None => None end.
Lemma tsem_inv i st st' : tsem i st = Some st' ->
  (i_op i = OCall /\ i_wmem i = true /\ writes_sp i = true) \/
  (i_op i <> OCall /\ exists p', sem i (bare st) = Some p' /\ p_rg st' = p_rg p' /\ p_mem st' = p_mem p').
Proof.
  unfold tsem. destruct (isop (i_op i) OCall) eqn:E.
  - destruct (snd (p_rest st)) as [|q tr]; [discriminate|]. destruct (_ && _)%bool eqn:E2; [|discriminate].
    apply andb_true_iff in E2. intros _. left. split; [apply isop_true; exact E|exact E2].
  - apply isop_false in E. destruct (sem i (bare st)) as [p'|]; [|discriminate]. intros K. injection K as <-. right.
    split; [exact E|]. exists p'. auto.
Qed.
Lemma tsem_facts : stack_facts tsem.
Proof.
  pose proof (mo_stack _ _ _ _ _ _ MO) as SF. constructor; intros i s s' H; intros.
  - apply tsem_inv in H0. destruct H0 as [(K & _)|(_ & p' & S & -> & ->)]; [congruence|].
    apply (sf_push _ _ _ SF i (bare s) p' H S).
  - apply tsem_inv in H1. destruct H1 as [(K & _)|(_ & p' & S & -> & _)]; [congruence|].
    apply (sf_pop _ _ _ SF i (bare s) p' H H0 S).
  - apply tsem_inv in H1. destruct H1 as [(_ & K & _)|(_ & p' & S & _ & ->)]; [congruence|].
    apply (sf_mem _ _ _ SF i (bare s) p' H H0 S).
  - apply tsem_inv in H0. destruct H0 as [(_ & _ & K)|(_ & p' & S & -> & _)].
    + apply writes_sp_iff in K. destruct K as (pt & K). destruct (H pt K).
    + apply (sf_sp _ _ _ SF i (bare s) p' H S).
Qed.
Section ONE.
Variables (n : nat) (Aq : qcaller) (A : caller).
Hypothesis MI : mimics (S n) Aq A.
Hypothesis KA : keeping Aq.
Hypothesis NK : (n < k)%nat.
Variables (lo cfa ra : Z).
Hypothesis RA0 : 0 < ra < W.
Variable l0 : list Z.
Hypothesis LL : (List.length l0 <= n)%nat.
(** The results [tr] of calls go with those of the program as it is, [cs]. *)
Fixpoint valid (its : list item) (t : pstate) (cs : list (pstate * (Z -> Prop))) (tr : list pstate) : Prop :=
  match its with
  | [] => True
  | Here _ :: r | Out _ :: r => valid r t cs tr
  | Snip sn :: r => forall c u, snip_code o sn = Some c -> exec c mp (as_state X base t) (Done u) -> valid r (of_state X u t) cs tr
  | Ins nd i :: r =>
      if isop (i_op i) OCall then
        match tr, cs with
        | [], _ => True
        | q :: tr', (s2, C2) :: cs' =>
            through A nd i t (Ended q) /\ alike C2 s2 q /\ wfp q /\
            (forall l, rep t l -> (List.length l <= S n)%nat -> rep q l) /\ valid r q cs' tr'
        | _, [] => False
        end
      else forall t', sem i t = Some t' -> valid r t' cs tr
  end.
Lemma valid_nil its : forall t cs, valid its t cs [].
Proof.
  induction its as [|x its IH]; intros t cs; cbn [valid]; [exact I|]. destruct x as [nd|nd i|sn|nd]; auto.
  destruct (isop _ _); auto.
Qed.
Variables (items : list item) (q0 : pstate) (cs : list (pstate * (Z -> Prop))) (z0 : qfin X) (tr : list pstate).
Hypothesis SHAPE : forall nd i, In (Ins nd i) items -> i_op i = OCall -> i_wmem i = true /\ writes_sp i = true /\ call_shape i.
Notation qr := (qrun Aq lo cfa).
Notation dr := (drun co o XT tsem mp base lo cfa width (fun _ => True) (harmless co) steady k l0).
Record going (its : list item) (st : pstate') : Prop := mkGoing {
  go_quiet : exists C fi s cs', qr C fi its s cs' z0 /\ same C fi (dead_before (block_rest its)) s (bare st) /\
    (forall a, Whole.slot cfa a -> C a) /\ (forall a, C a -> ~ reserved a) /\ load64 (p_mem s) (cfa - 8) = ra /\
    exists used, tr = used ++ snd (p_rest st) /\ (List.length used + List.length cs' = List.length cs)%nat /\
      valid its (bare st) cs' (snd (p_rest st)) /\
      (forall tr', valid its (bare st) cs' tr' -> valid items q0 cs (used ++ tr'));
  go_dead : dead_fine its;
  go_snips : Forall stack_snip its;
  go_calls : calls_last its;
  go_items : exists dn, items = dn ++ its;
  go_ground : exists l, ground XT base lo cfa steady l st /\ (List.length l <= k)%nat;
  go_run : forall z, trun A its (bare st) z -> trun A items q0 z }.
(** One more call is known, or the run is over. *)
Definition done_with : Prop :=
  (exists q, valid items q0 cs (tr ++ [q]) /\ (List.length tr < List.length cs)%nat) \/
  (exists x, z0 = QPause x /\ trun A items q0 (Paused x)).
Lemma going_here nd r st : going (Here nd :: r) st -> here_ok XT co cfa steady nd st /\ going r st.
Proof.
  intros [(C & fi & s & cs' & QR & SM & SL & CR & RA & used & E1 & E2 & V & V2) DF SN CL (dn & ED) GR GT].
  inversion QR as [| |? ? ? ? ? ? ? HO R1| | | | |]; subst. split.
  - intros _ z Hz. change (p_rg (bare st) RSP = cfa + z). rewrite <- (proj1 SM) by apply not_sp. apply HO; [reflexivity|exact Hz].
  - constructor; auto.
    + exists C, fi, s, cs'. do 5 (split; [assumption|]). exists used. auto.
    + inversion SN; assumption.
    + exists (dn ++ [Here nd]). rewrite <- app_assoc. exact ED.
    + intros z T. apply GT. apply t_here. exact T.
Qed.
Lemma going_out nd r st : going (Out nd :: r) st -> out_ok XT co cfa steady nd st /\ going r st.
Proof.
  intros [(C & fi & s & cs' & QR & SM & SL & CR & RA & used & E1 & E2 & V & V2) DF SN CL (dn & ED) GR GT].
  inversion QR as [| | |? ? ? ? ? ? ? HO ME R1| | | |]; subst.
  assert (SP : p_rg s RSP = p_rg (bare st) RSP) by (apply (proj1 SM), not_sp). destruct HO as (O1 & O2). split.
  - split; [intros _ z Hz; change (p_rg (bare st) RSP = cfa + z); rewrite <- SP; apply O1; [reflexivity|exact Hz]|].
    intros _ c S1 S2. change (p_rg (bare st) RSP = cfa - 8). rewrite <- SP. eapply O2; eauto.
  - constructor; auto.
    + exists C, fi, s, cs'. split; [assumption|]. split.
      { destruct SM as (B1 & B2). split; [|exact B2]. intros q _. apply B1. intros []. }
      do 3 (split; [assumption|]). exists used. auto.
    + inversion SN; assumption.
    + exists (dn ++ [Out nd]). rewrite <- app_assoc. exact ED.
    + intros z T. apply GT. apply t_out; [|exact T]. intros b Hb. replace (p_rest (bare st)) with (p_rest s) by apply SM. exact (ME b Hb).
Qed.
Notation sok := (step_ok XT co base lo cfa width (fun _ => True) (harmless co) steady).
Lemma step_fine nd i l st (st' : pstate') : ground XT base lo cfa steady l st -> wfp (bare st') -> lo + 16 <= p_rg st' RSP <= cfa - 8 ->
  rep st' l -> (forall x, Whole.slot cfa x -> p_mem st' x = p_mem st x) -> sok nd i st st'.
Proof.
  intros (G1 & G2 & G3) WF IF RP SL. split; [exact WF|]. split; [exact IF|]. split.
  - intros l1 R1. rewrite (rep_unique _ _ _ _ R1 G3). exact RP.
  - intros _. split; [|discriminate]. intros x Hx NE. destruct NE. apply SL. exact Hx.
Qed.
Lemma going_step nd i r st st' : going (Ins nd i :: r) st -> tsem i st = Some st' -> sok nd i st st' -> done_with \/ going r st'.
Proof.
  intros [(C & fi & s & cs' & QR & SM & SL & CR & RA & used & E1 & E2 & V & V2) DF SN CL (dn & ED) (lst & GR & LK) GT] TS (K1 & K2 & K3 & _).
  assert (SN' : Forall stack_snip r) by (inversion SN; assumption). destruct CL as (CB & CL).
  assert (ED' : exists dn', items = dn' ++ r) by (exists (dn ++ [Ins nd i]); rewrite <- app_assoc; exact ED).
  assert (IN : In (Ins nd i) items) by (rewrite ED; apply in_or_app; right; left; reflexivity).
  pose proof GR as (G1 & G2 & G3). cbn [block_rest] in SM. cbn [valid] in V, V2.
  assert (SP : p_rg s RSP = p_rg (bare st) RSP) by (apply (proj1 SM), not_sp).
  assert (GR' : exists l, ground XT base lo cfa steady l st' /\ (List.length l <= k)%nat).
  { exists lst. split; [|exact LK]. split; [exact K1|]. split; [exact K2|]. apply K3. exact G3. }
  inversion QR as [|? ? ? ? ? ?| | |? ? ? ? ? ? p' ? ? OC SE AS IF KS R1|? ? ? ? ? ? q C2 cs1 ? OC AS TH KS R1|? ? ? ? ? ? x OC AS TH|]; subst.
  - left. right. exists (p_rest s). split; [congruence|]. apply GT.
    replace (p_rest s) with (p_rest (bare st)) by (symmetry; apply SM). apply t_pause.
  - right. destruct (ins_follows C fi i (block_rest r) s (bare st) p' lst SE AS SM G1 G3 LK) as (t' & SE' & SM' & WF' & RP').
    assert (NC : isop (i_op i) OCall = false) by (apply isop_false; exact OC). rewrite NC in V.
    unfold tsem in TS. rewrite NC, SE' in TS. injection TS as <-.
    constructor; auto.
    + exists (plus C (stores i s)), (fi && negb (fsets i))%bool, p', cs'. rewrite bare_load. split; [exact R1|]. split; [exact SM'|].
      split; [intros a Ha; left; auto|]. split; [intros a [Ha|Ha]; [auto|apply AS; exact Ha]|].
      split; [rewrite <- RA; apply load64_ext; intros x Hx; apply KS; unfold Whole.slot; lia|].
      exists used. split; [exact E1|]. split; [exact E2|]. split; [apply V; exact SE'|]. intros tr' VT. apply V2. rewrite NC. intros t2 K.
      rewrite SE' in K. injection K as <-. exact VT.
    + intros z T. rewrite bare_load in T. apply GT. eapply t_ins; eauto.
  - right. assert (YC : isop (i_op i) OCall = true) by (apply isop_true; exact OC). rewrite YC in V.
    destruct (through_kept Aq C nd i s q C2 KA (proj2 (proj2 AS)) OC TH) as (U1 & U2 & U3).
    assert (IFS : lo + 16 <= p_rg s RSP <= cfa - 8) by (rewrite SP; exact G2).
    unfold tsem in TS. rewrite YC in TS. destruct (snd (p_rest st)) as [|q' tr1] eqn:ET; [discriminate|].
    destruct (_ && _)%bool in TS; [|discriminate]. injection TS as <-.
    destruct V as (T1 & AL & WF' & RP' & V). pose proof AL as (B1 & B2 & B3).
    constructor; auto.
    + exists C2, true, q, cs1. rewrite bare_load. split; [exact R1|]. split.
      { split; [intros r0 _; apply B1|]. split; [exact B2|]. split; [discriminate|exact B3]. }
      split; [intros a Ha; apply U2; [unfold Whole.slot in Ha; lia|auto]|]. split; [auto|].
      split; [rewrite <- RA; apply load64_ext; intros x Hx; apply KS; unfold Whole.slot; lia|].
      exists (used ++ [q']). cbn [load p_rest snd]. split; [rewrite <- app_assoc; exact E1|].
      split; [rewrite app_length; cbn [List.length] in E2 |- *; lia|]. split; [exact V|].
      intros tr' VT. rewrite <- app_assoc. apply V2. rewrite YC. cbn [app]. auto.
    + intros z T. rewrite bare_load in T. apply GT. eapply t_call; eauto.
  - exfalso. assert (YC : isop (i_op i) OCall = true) by (apply isop_true; exact OC). rewrite YC in V.
    unfold tsem in TS. rewrite YC in TS. destruct (snd (p_rest st)); [discriminate|contradiction].
Qed.
Lemma going_ins nd i r st : going (Ins nd i :: r) st ->
  exit_passable i \/ standing co o XT tsem mp base lo cfa width (fun _ => True) (harmless co) steady k ra l0 items (load q0 tr) (Ins nd i :: r) st ->
  done_with \/ exists st', tsem i st = Some st' /\ sok nd i st st' /\ going r st'.
Proof.
  intros GO ST. cut (done_with \/ exists st', tsem i st = Some st' /\ sok nd i st st').
  { intros [K|(st' & K1 & K2)]; [left; exact K|]. destruct (going_step _ _ _ _ _ GO K1 K2); [left; assumption|right; eauto]. }
  destruct GO as [(C & fi & s & cs' & QR & SM & SL & CR & RA & used & E1 & E2 & V & V2) DF SN CL (dn & ED) (lst & GR & LK) GT].
  destruct CL as (CB & CL).
  assert (IN : In (Ins nd i) items) by (rewrite ED; apply in_or_app; right; left; reflexivity).
  pose proof GR as (G1 & G2 & G3). cbn [block_rest] in SM. cbn [valid] in V, V2.
  assert (SP : p_rg s RSP = p_rg (bare st) RSP) by (apply (proj1 SM), not_sp).
  assert (STAND : i_op i = OCall -> exists l, ground XT base lo cfa steady l st /\ (List.length l <= S n)%nat).
  { intros OC. destruct (SHAPE nd i IN OC) as (WM & _). destruct ST as [(K & _)|(dn' & _ & _ & G)]; [congruence|].
    eexists. split; [exact G|]. destruct (ActRun.recorded dn'); cbn [List.length]; lia. }
  inversion QR as [|? ? ? ? ? ?| | |? ? ? ? ? ? p' ? ? OC SE AS IF KS R1|? ? ? ? ? ? q C2 cs1 ? OC AS TH KS R1|? ? ? ? ? ? x OC AS TH|]; subst.
  - left. right. exists (p_rest s). split; [congruence|]. apply GT.
    replace (p_rest s) with (p_rest (bare st)) by (symmetry; apply SM). apply t_pause.
  - right. destruct (ins_follows C fi i (block_rest r) s (bare st) p' lst SE AS SM G1 G3 LK) as (t' & SE' & SM' & WF' & RP').
    assert (NC : isop (i_op i) OCall = false) by (apply isop_false; exact OC).
    assert (SL' : forall x, Whole.slot cfa x -> p_mem t' x = p_mem st x).
    { intros x Hx. rewrite <- (proj1 (proj2 SM') x) by (left; auto). rewrite (KS x Hx). apply (proj1 (proj2 SM)). auto. }
    assert (IF' : lo + 16 <= p_rg t' RSP <= cfa - 8) by (rewrite <- (proj1 SM') by apply not_sp; exact IF).
    exists (load t' (snd (p_rest st))). split; [unfold tsem; rewrite NC, SE'; reflexivity|].
    eapply step_fine; [exact GR|rewrite bare_load; exact WF'|exact IF'|exact RP'|exact SL'].
  - destruct (SHAPE nd i IN OC) as (WM & WS & CS). destruct (STAND OC) as (l & GL & LN). pose proof GL as (_ & _ & GL3).
    assert (YC : isop (i_op i) OCall = true) by (apply isop_true; exact OC). rewrite YC in V.
    rewrite (CB OC) in SM. destruct (through_kept Aq C nd i s q C2 KA (proj2 (proj2 AS)) OC TH) as (U1 & U2 & U3).
    assert (IFS : lo + 16 <= p_rg s RSP <= cfa - 8) by (rewrite SP; exact G2).
    assert (SLC : forall a, Whole.slot cfa a -> C2 a) by (intros a Ha; apply U2; [unfold Whole.slot in Ha; lia|auto]).
    destruct (snd (p_rest st)) as [|q' tr1] eqn:ET.
    + left. left. destruct (through_follows (S n) Aq A C fi nd i s (bare st) _ l MI KA OC CS AS CR TH SM G1 GL3 LN ltac:(lia)) as ([q'|y|y] & T1 & T2); [|destruct T2|destruct T2].
      destruct T2 as (AL & WF' & RP'). exists q'. rewrite E1, app_nil_r. split.
      * apply V2. rewrite YC. split; [exact T1|]. split; [exact AL|]. split; [exact WF'|]. split; [|apply valid_nil].
        intros l1 R2 _. rewrite (rep_unique _ _ _ _ R2 GL3). exact RP'.
      * cbn [List.length] in E2. lia.
    + right. destruct V as (T1 & AL & WF' & RP' & V). pose proof AL as (B1 & B2 & B3).
      exists (load q' tr1). split; [unfold tsem; rewrite YC, ET, WM, WS; reflexivity|].
      eapply step_fine; [exact GL|rewrite bare_load; exact WF'| |apply RP'; [exact GL3|exact LN]|].
      * change (lo + 16 <= p_rg q' RSP <= cfa - 8). rewrite <- B1, U1; exact IFS.
      * intros x Hx. change (p_mem q' x = p_mem st x). rewrite <- (B2 x) by auto. rewrite (KS x Hx). apply (proj1 (proj2 SM)). auto.
  - left. right. destruct (SHAPE nd i IN OC) as (WM & WS & CS). destruct (STAND OC) as (l & GL & LN). pose proof GL as (_ & _ & GL3).
    rewrite (CB OC) in SM.
    destruct (through_follows (S n) Aq A C fi nd i s (bare st) _ l MI KA OC CS AS CR TH SM G1 GL3 LN ltac:(lia)) as ([q'|y|y] & T1 & T2); [destruct T2| |destruct T2].
    cbn in T2. subst y. exists x. split; [congruence|]. apply GT. apply t_inner; cbn; auto.
Qed.
Lemma going_snip sn r st st' : going (Snip sn :: r) st -> dr [Snip sn] st st' -> going r st'.
Proof.
  intros [(C & fi & s & cs' & QR & SM & SL & CR & RA & used & E1 & E2 & V & V2) DF SN CL (dn & ED) (lst & GR & LK) GT] D.
  inversion D as [| | | |? c u ? ? ? SC EX M (l & G' & LK') D']; subst. inversion D'; subst.
  inversion QR as [| | | | | | |? ? ? ? ? ? ? PO R1]; subst.
  assert (SP : p_rg s RSP = p_rg (bare st) RSP) by (apply (proj1 SM), not_sp).
  destruct GR as (G1 & G2 & G3). change (lo + 16 <= p_rg (bare st) RSP <= cfa - 8) in G2. rewrite <- SP in G2.
  change (as_state XT base st) with (as_state X base (bare st)) in EX. destruct DF as (D1 & D2).
  constructor; auto.
  - exists (less C (p_rg s RSP - snip_scratch sn) (snip_scratch sn)), (fi || is_check sn)%bool, s, cs'. split; [exact R1|]. split.
    + assert (M' : mild X base l0 sn (bare st) (of_state X u (bare st))).
      { destruct M as (M1 & M2 & M3 & M4 & M5). split; [reflexivity|]. split; [exact M2|]. split; [exact M3|]. split; [exact M4|exact M5]. }
      pose proof (same_snip X base (fun _ => True) (harmless co) k l0 C fi sn (block_rest r) s (bare st) _ SM D1 M') as B.
      inversion SN as [|? ? SN1 SN2]; subst. eapply same_less.
      * destruct sn; cbn [stack_snip is_pop is_check] in *; try contradiction; [rewrite orb_false_r|rewrite orb_true_r]; exact B.
      * intros a (Ca & NI). split; [exact Ca|]. intros [K|[K|K]].
        -- exact (NI K).
        -- apply (CR a Ca). unfold LightSame.reserved, inside in *. lia.
        -- apply (CR a Ca). unfold LightSame.reserved, inside, ShadowSpec.slot in *. lia.
    + split; [intros a Ha; split; [auto|unfold Whole.slot in Ha; unfold inside; lia]|].
      split; [intros a (Ca & _); auto|]. split; [exact RA|].
      exists used. split; [exact E1|]. split; [exact E2|]. split; [exact (V c u SC EX)|].
      intros tr' VT. apply V2. cbn [valid]. intros c1 u1 SC1 EX1. rewrite SC in SC1. injection SC1 as <-.
      pose proof (exec_det _ _ _ _ _ EX EX1) as E. injection E as <-. exact VT.
  - inversion SN; assumption.
  - exists (dn ++ [Snip sn]). rewrite <- app_assoc. exact ED.
  - exists l. auto.
  - intros z T. apply GT. eapply t_snip; eauto.
Qed.
(** At a check the word looked at is the return address. *)
Lemma going_word q r st : going (Snip (StackPop q) :: r) st -> return_word XT st r = ra.
Proof.
  intros [(C & fi & s & cs' & QR & SM & SL & CR & RA & used & E1 & E2 & V & V2) DF SN CL (dn & ED) (lst & GR & LK) GT].
  inversion QR as [| | | | | | |? ? ? ? ? ? ? PO R1]; subst. unfold return_word.
  change (p_rg st RSP) with (p_rg (bare st) RSP). rewrite <- (proj1 SM) by apply not_sp. rewrite (PO eq_refl).
  apply load64_ext. intros x Hx. symmetry. apply (proj1 (proj2 SM)). apply SL. unfold Whole.slot. lia.
Qed.
Lemma going_along a : forall r st st', going (a ++ r) st -> dr a st st' -> done_with \/ going r st'.
Proof.
  induction a as [|x a IH]; intros r st st' G D; inversion D as [|? ? ? ? H D1|? ? ? ? H D1|? ? ? ? st1 ? TS SO D1|? c u ? ? ? SC EX M GL D1]; subst; cbn [app] in G.
  - right. exact G.
  - eapply IH; [|exact D1]. apply (going_here _ _ _ G).
  - eapply IH; [|exact D1]. apply (going_out _ _ _ G).
  - destruct (going_step _ _ _ _ _ G TS SO) as [K|K]; [left; exact K|]. eapply IH; eauto.
  - eapply IH; [|exact D1]. eapply going_snip; [exact G|]. eapply dr_snip; eauto. apply dr_nil.
Qed.
Lemma going_end st : going [] st -> exists C s, z0 = QEnd s C /\ alike C s (bare st) /\ trun A items q0 (Ended (bare st)) /\
  (forall a, Whole.slot cfa a -> C a) /\ load64 (p_mem s) (cfa - 8) = ra /\ wfp (bare st).
Proof.
  intros [(C & fi & s & cs' & QR & SM & SL & CR & RA & used & E1 & E2 & V & V2) DF SN CL (dn & ED) (lst & GR & LK) GT].
  inversion QR; subst. exists C, s. split; [congruence|]. split.
  - destruct SM as (B1 & B2 & _ & B4). split; [intros r; apply B1; intros []|]. auto.
  - split; [apply GT; constructor|]. split; [exact SL|]. split; [reflexivity|]. apply GR.
Qed.
End ONE.
(** ** One call of a function with inserted code *)
Lemma room_t g lo cfa hi : room co g X mp base lo cfa hi (fun _ => True) steady k ->
  room co g XT mp base lo cfa hi (fun _ => True) steady k.
Proof. intros [R1 R2 R3 R4 R5 R6 R7]. constructor; auto. Qed.
Lemma plan_calls g ks path items : own co g -> orig_blocks co (f_entry (co_fun co g)) ks = Some path ->
  forall ss p, plan_items co ss g p ks = Some items ->
  calls_last items /\
  forall nd i, In (Ins nd i) items -> i_op i = OCall -> i_wmem i = true /\ writes_sp i = true /\ call_shape i.
Proof.
  intros HF OB ss p IT. pose proof (path_blocks co fs PA g ks path HF OB) as PB. split.
  - assert (PI2 : option_map (fun l => map Snip (snips ss AtEntry) ++ flat_map (seg_items co ss) l)
           (segs co p (false, f_entry (co_fun co g)) ks) = Some items).
    { rewrite <- IT. unfold plan_items. clear - IT. unfold plan_items in IT. destruct p; auto; discriminate. }
    destruct (segs co p (false, f_entry (co_fun co g)) ks) as [sl|] eqn:SG; [|discriminate]. injection PI2 as <-.
    apply calls_snips. eapply calls_segs; [exact SG|]. intros x Hx. apply (CALLS g); auto.
    apply PB. eapply segs_path; eauto.
  - intros nd i Hi OC. destruct (items_ins co ss g p ks items path nd i IT OB Hi) as (I1 & I2).
    destruct (proj2 (CALLS g (snd nd) HF (PB _ I1)) i I2 OC) as (W1 & W2 & W3). split; [exact W1|]. split; [apply writes_sp_iff; exact W2|exact W3].
Qed.
Lemma one_call n Aq A g lo cfa ra ks path last items l0 C s0 q0 cs z0 :
  mimics (S n) Aq A -> keeping Aq -> (n < k)%nat -> own co g -> can_return fs g = true -> on_reg (planned co fl m fs g) = false -> has_space g lo cfa ->
  orig_blocks co (f_entry (co_fun co g)) ks = Some (path ++ [last]) -> no_catch co (f_entry (co_fun co g)) ks ->
  code_of true g ks = Some items -> qrun Aq lo cfa C true items s0 cs z0 ->
  entered cfa ra C s0 -> alike C s0 q0 -> wfp q0 -> rep q0 l0 -> (List.length l0 <= n)%nat ->
  (forall p D, z0 = QEnd p D -> p_rg p RSP = cfa - 8 /\ (is_ret co last \/ exists e, is_tail co last e)) ->
  exists z', trun A items q0 z' /\ ends_alike l0 z0 z'.
Proof.
  intros MI KA NK HF CR NREG (SP & hi & RM) OB NC IT QR (EN1 & EN2 & RA0 & EN4 & EN5) (AL1 & AL2 & AL3) WF RP LL LV.
  unfold LightSame.code_of in IT. set (p := planned co fl m fs g) in *.
  assert (PLAN : Decision.instr fl co g (Some (m g)) = p).
  { unfold p. rewrite (planned_at co fl fs m PA g HF), CR, (analyses_at co fl fs m PA g (proj1 HF) LI). reflexivity. }
  destruct (p_fn _ _ PA g HF) as (FO & CO & RW).
  assert (TE : terminal_exits co g) by (apply (SU Exits); auto).
  assert (NA : p <> PAbort) by (intros K; rewrite K in IT; discriminate).
  assert (NF : p <> PNoFuel) by (intros K; rewrite K in IT; discriminate).
  assert (GE : good_dead o (di_entry (d g))) by (left; exact NO).
  assert (GX : forall a x, zfind (di_exit (d g)) a = Some x -> good_dead o x) by (left; exact NO).
  destruct (items_code co m g fl o (d g) p (AN g HF) FO TE PLAN NREG PL GE GX (TIDY g HF) ks items _ IT NA NF OB) as [SS _].
  pose proof (items_dead co m g fl o (d g) p (AN g HF) FO TE PLAN NREG PL GE GX (TIDY g HF) NO ks items IT NA NF) as DF.
  destruct (plan_calls g ks _ items HF OB _ _ IT) as (CL & SHAPE).
  cut (forall e tr, (List.length cs - List.length tr <= e)%nat -> valid n A items q0 cs tr ->
    exists z', trun A items q0 z' /\ ends_alike l0 z0 z').
  { intros K. apply (K (List.length cs) []); [cbn [List.length]; lia|apply valid_nil]. }
  induction e as [e IHe] using (well_founded_induction Wf_nat.lt_wf). intros tr LE VAL.
  set (gd := going n Aq A lo cfa ra items q0 cs z0 tr).
  set (Q := done_with n A items q0 cs z0 tr).
  assert (G0 : gd items (load q0 tr)).
  { constructor; auto.
    - exists C, true, s0, cs. rewrite bare_load. split; [exact QR|]. split; [split; [auto|split; [exact AL2|split; [discriminate|exact AL3]]]|].
      split; [exact EN4|]. split; [exact EN5|]. split; [exact EN2|]. exists []. cbn [load p_rest snd app List.length]. auto.
    - exists []. reflexivity.
    - exists l0. split; [|lia]. split; [exact WF|]. split; [|exact RP]. change (lo + 16 <= p_rg q0 RSP <= cfa - 8). rewrite <- AL1. lia.
    - intros z. rewrite bare_load. auto. }
  assert (GROUND : ground XT base lo cfa steady l0 (load q0 tr)).
  { split; [exact WF|]. split; [|exact RP]. change (lo + 16 <= p_rg q0 RSP <= cfa - 8). rewrite <- AL1. lia. }
  assert (DONE : Q -> exists z', trun A items q0 z' /\ ends_alike l0 z0 z').
  { intros [(q & V & L1)|(x & -> & T)].
    - apply (IHe (List.length cs - List.length (tr ++ [q]))%nat) with (tr := tr ++ [q]); auto. rewrite app_length. cbn [List.length]. lia.
    - exists (Paused x). split; [exact T|reflexivity]. }
  assert (WORD : forall st r, checked co o XT tsem mp base lo cfa width (fun _ => True) (harmless co) steady k l0 items (load q0 tr) st r ->
     Q \/ return_word XT st r = ra).
  { intros st r (a & q & EI & D & _). destruct (going_along n Aq A KA NK lo cfa ra RA0 l0 LL items q0 cs z0 tr SHAPE a (Snip (StackPop q) :: r) (load q0 tr) st) as [K|K]; auto.
    - rewrite <- EI. exact G0.
    - right. eapply going_word; eauto. }
  destruct (activation_any co fl fs m width) with (fn := g) (o := o) (d := d g) (ks := ks) (l := path) (b := last)
    (items := items) (X := XT) (sem := tsem) (mp := mp) (base := base) (lo := lo) (cfa := cfa) (hi := hi) (stk := fun _ : Z => True) (sc := @steady XT)
    (k := k) (ra := ra) (l0 := l0) (p0 := load q0 tr) (good := gd) (Q := Q) as [(st & r & CK & W & _)|[K|(out & I1 & I2 & I3)]]; auto.
  - apply tsem_facts.
  - apply room_t. exact RM.
  - lia.
  - change (p_rg q0 RSP = cfa - 8). rewrite <- AL1. exact EN1.
  - change (load64 (p_mem q0) (cfa - 8) = ra). rewrite <- EN2. apply load64_ext. intros x Hx. symmetry. apply AL2, EN4. unfold Whole.slot. lia.
  - destruct z0 as [pz D|x]; [left; apply (LV pz D eq_refl)|right]. intros st G. edestruct going_end as (C1 & s1 & K & _); [..|exact G|]; eauto. discriminate K.
  - intros nd r st. apply going_here.
  - intros nd r st. apply going_out.
  - intros nd i r st G ST. eapply going_ins; eauto.
  - intros sn r st st' G D. eapply going_snip; eauto.
  - destruct (WORD st r CK) as [K|K]; [auto|lia].
  - destruct out as [p1|st r|st r]; [| |contradiction].
    + destruct I3 as (D & FN). destruct (going_along n Aq A KA NK lo cfa ra RA0 l0 LL items q0 cs z0 tr SHAPE items [] (load q0 tr) p1) as [K|K]; auto.
      { rewrite app_nil_r. exact G0. }
      edestruct going_end as (C1 & s1 & EZ & ALE & TR & SLE & RAE & WFE); [..|exact K|]; eauto.
      destruct (LV s1 C1 EZ) as (RE & _). exists (Ended (bare p1)). split; [exact TR|]. rewrite EZ. split; [exact ALE|]. split; [exact WFE|].
      destruct FN as [(FN & _)|(l' & UW & FN)]; [exact FN|].
      assert (EW : load64 (p_mem p1) (p_rg p1 RSP) = ra).
      { change (p_rg p1 RSP) with (p_rg (bare p1) RSP). rewrite <- (proj1 ALE), RE. rewrite <- RAE. apply load64_ext.
        intros x Hx. symmetry. apply ALE. apply SLE. unfold Whole.slot. lia. }
      rewrite EW in UW. cbn [unwind] in UW. rewrite Z.eqb_refl in UW. injection UW as <-. exact FN.
    + destruct (WORD st r I3) as [K|K]; [auto|]. destruct I2 as (I2 & _). contradiction.
Qed.

(** ** Functions that keep their return address in a register *)
Section BORROW.
Variables (g : nat) (js : jsum) (r : reg) (lo cfa hi ra : Z) (l : list Z).
Hypothesis BR : borrows js r.
Hypothesis FOK : fn_ok co g.
Hypothesis UT : forall b i, In b (f_blocks (co_fun co g)) -> In i (b_insns (co_block co b)) -> untouched r i.
Hypothesis RM : room co g X mp base lo cfa hi (fun _ => True) steady k.
Hypothesis LK : (List.length l <= k)%nat.
Notation grounded := (ground X base lo cfa steady l).
Lemma reg_env (t : pstate) : grounded t -> env mp (as_state X base t) l 0 k.
Proof.
  apply (r_env co g Untouched FOK X (fun _ _ => None) mp base lo cfa hi (fun _ => True) (fun _ => True) steady k r UT); auto. discriminate.
Qed.
Lemma reg_push_done h (t : pstate) : grounded t -> p_rg t RSP + h = cfa - 8 -> load64 (p_mem t) (cfa - 8) = ra ->
  exists c u, snip_code o (RegPush js h) = Some c /\ exec c mp (as_state X base t) (Done u) /\
    rg u r = ra /\ load64 (mem u) (base + 8) = p_rg t r /\ (forall q, q <> r -> rg u q = p_rg t q) /\
    Machine.fl u = p_fl t /\ (forall x, ~ reserved x -> mem u x = p_mem t x) /\ wfp (of_state X u t) /\ rep (of_state X u t) l.
Proof.
  intros G EH RA. pose proof (reg_env t G) as EV. destruct G as (G1 & G2 & G3). change (lo + 16 <= p_rg t RSP <= cfa - 8) in G2.
  assert (CH : cfa <= hi) by (pose proof (rm_frame _ _ _ _ _ _ _ _ _ _ _ RM _ (proj1 FOK)); lia).
  pose proof (reg_push_shape o js r h (is_empty_plain _ PL) (is_only_plain _ PL) BR) as CODE.
  pose proof RM as RM'. destruct RM' as [M1 M2 T A' FR SL _].
  assert (EA : rg (as_state X base t) RSP + h = cfa - 8) by (unfold Activation.as_state; cbn [rg]; lia).
  destruct (reg_push_run mp (as_state X base t) r h) as (u & C1 & C2 & C3 & C4 & C5 & _ & C7); rewrite ?EA.
  - apply EV. - apply BR.
  - change (gs (as_state X base t)) with base. eapply mapped_sub; [exact M2| |]; lia.
  - eapply mapped_sub; [exact M1| |]; lia.
  - change (gs (as_state X base t)) with base. unfold apart in *. lia.
  - rewrite EA in C2. assert (WF1 : wf u) by (eapply exec_wf; [apply EV|exact C1]).
    unfold Activation.as_state in C2, C3, C4, C5, C7; cbn [mem gs rg Machine.fl] in C2, C3, C4, C5, C7.
    exists (reg_push_code r h), u. split; [cbn [snip_code]; rewrite CODE; reflexivity|]. split; [exact C1|]. split; [congruence|].
    split; [exact C3|]. split; [exact C4|]. split; [exact C5|].
    split; [intros x Hx; apply C7; intros K; apply Hx; unfold LightSame.reserved, inside in *; lia|]. split; [exact (proj1 WF1)|].
    change (shadow_rep (mem u) base l). destruct G3 as (Q1 & Q2 & Q3).
    assert (EL : forall a, a + 8 <= base + 8 \/ base + 16 <= a -> load64 (mem u) a = load64 (p_mem t) a).
    { intros a Ha. apply load64_ext. intros x Hx. apply C7. unfold inside. lia. }
    split; [rewrite EL by lia; auto|]. split; [rewrite EL by lia; auto|].
    intros j v Hj. rewrite EL by (unfold ShadowSpec.slot; lia). auto.
Qed.
Lemma reg_pop_done (t : pstate) : grounded t -> p_rg t r = ra -> load64 (p_mem t) (p_rg t RSP) = ra ->
  exists c u, snip_code o (RegPop js) = Some c /\ exec c mp (as_state X base t) (Done u) /\
    rg u r = load64 (p_mem t) (base + 8) /\ (forall q, q <> r -> rg u q = p_rg t q) /\ (forall x, mem u x = p_mem t x) /\
    wfp (of_state X u t) /\ rep (of_state X u t) l.
Proof.
  intros G PR RA. pose proof (reg_env t G) as EV. destruct G as (G1 & G2 & G3). change (lo + 16 <= p_rg t RSP <= cfa - 8) in G2.
  pose proof (reg_pop_shape o js r (is_empty_plain _ PL) (is_only_plain _ PL) BR) as CODE.
  pose proof RM as RM'. destruct RM' as [M1 M2 T A' FR SL _].
  assert (CH : cfa <= hi) by (pose proof (FR _ (proj1 FOK)); lia).
  assert (AP : apart (rg (as_state X base t) RSP) 8 (gs (as_state X base t)) 8).
  { unfold Activation.as_state; cbn [gs rg]. unfold apart in *. lia. }
  destruct (reg_pop_run mp (as_state X base t) l k r EV AP (proj1 BR)) as [GOOD _].
  destruct GOOD as (u & E1 & E2 & E3 & _ & E5).
  { unfold Activation.as_state; cbn [mem rg]. congruence. }
  unfold Activation.as_state in E2, E3, E5; cbn [mem gs rg] in E2, E3, E5.
  assert (WF1 : wf u) by (eapply exec_wf; [apply EV|exact E1]).
  exists (reg_pop_code r), u. split; [cbn [snip_code]; rewrite CODE; reflexivity|]. split; [exact E1|]. split; [exact E2|].
  split; [exact E3|]. split; [exact E5|]. split; [exact (proj1 WF1)|].
  change (shadow_rep (mem u) base l). eapply shadow_rep_ext; [exact G3|]. intros; apply E5.
Qed.
(** An instruction that does not name the register. *)
Lemma reg_ins C fi i (s t s' : pstate) : untouched r i -> sem i s = Some s' -> asks fi C i s -> same C fi [reg_name r] s t ->
  wfp t -> rep t l ->
  exists t', sem i t = Some t' /\ same (plus C (stores i s)) (fi && negb (fsets i)) [reg_name r] s' t' /\ wfp t' /\ rep t' l /\
    p_rg s' r = p_rg s r /\ p_rg t' r = p_rg t r /\ load64 (p_mem t') (base + 8) = load64 (p_mem t) (base + 8).
Proof.
  intros U SE (A1 & A2 & A3) (B1 & B2 & B3 & B4) WF RP.
  assert (LS : looks_same X loads i fi s t).
  { split; [exact A1|]. split; [|split; [intros a La; apply B2, A2, La|split; [exact B3|exact B4]]].
    intros q (pt & Hq). apply B1. intros [E|[]]. apply reg_name_inj in E. subst q. exact (proj1 (U pt) Hq). }
  pose proof (mo_foot _ _ _ _ _ _ MO i s t fi LS) as F. rewrite SE in F. destruct (sem i t) as [t'|] eqn:SE'; [|contradiction].
  destruct F as (F1 & F2 & F3 & F4).
  assert (MF : forall a, reserved a -> p_mem t' a = p_mem t a).
  { intros a Ha. apply (mo_frame _ _ _ _ _ _ MO i t t' a SE'). intros K. exact (A3 a (mo_stores _ _ _ _ _ _ MO i s t fi LS a K) Ha). }
  exists t'. split; [reflexivity|]. split; [|split; [|split; [|split; [|split]]]].
  - split; [|split; [|split; [|exact F4]]].
    + intros q Hq. apply F1. right. apply B1. exact Hq.
    + intros a [Ha|Ha]; (apply F2; [|intros []]); auto.
    + intros E. apply F3; [|reflexivity]. destruct fi; [right; destruct (fsets i); [reflexivity|discriminate]|left; reflexivity].
  - eapply mo_wf; eauto.
  - apply (rep_same (p_mem t) _ base k); auto.
  - apply (mo_unwritten _ _ _ _ _ _ MO i s s' r SE). intros pt. apply U.
  - apply (mo_unwritten _ _ _ _ _ _ MO i t t' r SE'). intros pt. apply U.
  - apply load64_ext. intros x Hx. apply MF. unfold LightSame.reserved, inside. lia.
Qed.
(** [L]: the path stops short of the end of the function.  The return address is in the register
    between the store and the check. *)
Variable L : Prop.
Definition in_hand (ks : list ev) (s t : pstate) : Prop :=
  (p_rg t r = p_rg s r /\ (ks = [] \/ ks = [Push; Pop] \/ (L /\ ks = [Push]))) \/
  (p_rg t r = ra /\ load64 (p_mem t) (base + 8) = p_rg s r /\ (ks = [Pop] \/ (L /\ ks = []))).
Lemma reg_follows Aq A : forall C fi its s cs z, qrun Aq lo cfa C fi its s cs z -> forall t kn,
  (forall nd i, In (Ins nd i) its -> untouched r i) ->
  (forall nd i C' p z', In (Ins nd i) its -> i_op i = OCall -> ~ qthrough Aq C' nd i p z') ->
  sited co js kn its -> (forall v, kn v -> p_rg s RSP = cfa + v) -> in_hand (kinds its) s t ->
  same C fi [reg_name r] s t -> (forall a, C a -> ~ reserved a) -> wfp t -> rep t l -> lo + 16 <= p_rg s RSP <= cfa - 8 ->
  load64 (p_mem s) (cfa - 8) = ra -> (forall a, Whole.slot cfa a -> C a) ->
  exists z', trun A its t z' /\ (ends_alike l z z' \/ (L /\ exists p D, z = QEnd p D)).
Proof.
  assert (NS : ~ In (reg_name RSP) [reg_name r]).
  { intros [E|[]]. apply reg_name_inj in E. apply (proj1 BR). congruence. }
  intros C fi its s cs z H.
  induction H as [C fi p|C fi nd i r' p|C fi nd r' p cs z HH R IH|C fi nd r' p cs z HH ME R IH|C fi nd i r' p p' cs z OC SE AS IF KS R IH
    |C fi nd i r' p q C2 cs z OC AS TH KS R IH|C fi nd i r' p x OC AS TH|C fi sn r' p cs z PO R IH];
    intros t kn UN NC SI KN HA SM CR WF RP RS RA SL;
    try (assert (UN' : forall nd i, In (Ins nd i) r' -> untouched r i) by (intros n0 i0 K; apply (UN n0 i0); right; exact K));
    try (assert (NC' : forall nd i C' p z', In (Ins nd i) r' -> i_op i = OCall -> ~ qthrough Aq C' nd i p z')
      by (intros n0 i0 C0 p0 z0 K; apply (NC n0 i0 C0 p0 z0); right; exact K)).
  - exists (Ended t). split; [constructor|]. destruct HA as [(H1 & H2)|(H1 & _ & [H2|(H2 & _)])]; [left|discriminate|right; eauto].
    destruct SM as (B1 & B2 & _ & B4). split; [|auto]. split; [|auto]. intros q. destruct (reg_eq_dec q r) as [->|N]; [auto|].
    apply B1. intros [E|[]]. apply reg_name_inj in E. congruence.
  - exists (Paused (p_rest t)). split; [constructor|]. left. apply SM.
  - cbn [sited] in SI. destruct (IH t (fun v => b_sp_entry (co_block co (snd nd)) = Some v)) as (z' & K1 & K2); auto.
    exists z'. split; [apply t_here; exact K1|exact K2].
  - cbn [sited] in SI. destruct (IH t (fun v => b_sp_end (co_block co (snd nd)) = Some v)) as (z' & K1 & K2); auto.
    { intros v Hv. apply (proj1 HH); [reflexivity|exact Hv]. }
    exists z'. split; [apply t_out; [|exact K1]|exact K2]. intros b Hb. replace (p_rest t) with (p_rest p) by apply SM. exact (ME b Hb).
  - cbn [sited] in SI.
    destruct (reg_ins C fi i p t p' (UN nd i (or_introl eq_refl)) SE AS SM WF RP) as (t' & SE' & SM' & WF' & RP' & K1 & K2 & K3).
    destruct (IH t' (fun _ => False)) as (z' & J1 & J2); auto.
    + intros v [].
    + unfold in_hand. rewrite K1, K2, K3. exact HA.
    + intros a [Ha|Ha]; [auto|apply AS; exact Ha].
    + rewrite <- RA. apply load64_ext. intros x Hx. apply KS. unfold Whole.slot. lia.
    + intros a Ha. left. auto.
    + exists z'. split; [eapply t_ins; eauto|exact J2].
  - destruct (NC nd i C p _ (or_introl eq_refl) OC TH).
  - destruct (NC nd i C p _ (or_introl eq_refl) OC TH).
  - assert (SP : p_rg p RSP = p_rg t RSP) by (apply SM; exact NS).
    assert (G : grounded t).
    { split; [exact WF|]. split; [|exact RP]. change (lo + 16 <= p_rg t RSP <= cfa - 8). rewrite <- SP. exact RS. }
    assert (RAT : load64 (p_mem t) (cfa - 8) = ra).
    { rewrite <- RA. apply load64_ext. intros x Hx. symmetry. apply SM, SL. unfold Whole.slot. lia. }
    assert (OTHER : forall u, (forall q, q <> r -> rg u q = p_rg t q) -> forall q, ~ In (reg_name q) [reg_name r] -> p_rg p q = rg u q).
    { intros u HU q Hq. rewrite HU; [apply SM; exact Hq|]. intros ->. apply Hq. left; reflexivity. }
    destruct sn as [q|q|j h|j]; cbn [sited] in SI; try contradiction.
    + destruct SI as (-> & (v & KV & EH) & SI).
      destruct (reg_push_done h t G) as (c & u & SC & EX & U1 & U2 & U3 & U4 & U5 & U6 & U7); [rewrite <- SP, (KN v KV); lia|exact RAT|].
      destruct (IH (of_state X u t) (fun _ => False)) as (z' & J1 & J2); auto.
      * intros w K; destruct K.
      * right. split; [exact U1|]. split; [change (load64 (mem u) (base + 8) = p_rg p r); rewrite U2|].
        -- destruct HA as [(H1 & _)|(_ & _ & [H2|(_ & H2)])]; [exact H1|discriminate|discriminate].
        -- destruct HA as [(_ & [H2|[H2|(LL & H2)]])|(_ & _ & [H2|(_ & H2)])]; try discriminate; cbn [kinds flat_map ev_kind app] in H2; injection H2 as H2; auto.
      * cbn [is_check]. rewrite orb_false_r. destruct SM as (B1 & B2 & B3 & B4). split; [apply OTHER; exact U3|]. split; [|split; [|exact B4]].
        -- intros a (Ca & _). change (p_mem p a = mem u a). rewrite U5 by auto. apply B2. exact Ca.
        -- intros E. change (p_fl p = Machine.fl u). rewrite U4. auto.
      * intros a (Ca & _). auto.
      * intros a Ha. split; [auto|]. cbn [snip_scratch]. unfold inside. lia.
      * exists z'. split; [|exact J2]. exact (t_snip _ _ _ _ _ _ _ _ _ _ _ _ c u _ _ _ SC EX J1).
    + destruct SI as (-> & LO' & SI). specialize (PO eq_refl). rewrite LO' in PO. unfold pops in PO. cbn in PO. rewrite Z.add_0_r in PO.
      assert (HR : p_rg t r = ra /\ load64 (p_mem t) (base + 8) = p_rg p r /\ kinds r' = []).
      { destruct HA as [(_ & [H2|[H2|(_ & H2)]])|(H1 & H3 & [H2|(_ & H2)])]; try discriminate. cbn [kinds flat_map ev_kind app] in H2. injection H2 as H2. auto. }
      destruct HR as (H1 & H3 & H2).
      destruct (reg_pop_done t G H1) as (c & u & SC & EX & U2 & U3 & U5 & U6 & U7); [rewrite <- SP, PO; exact RAT|].
      destruct (IH (of_state X u t) (fun _ => False)) as (z' & J1 & J2); auto.
      * intros w K; destruct K.
      * left. split; [change (rg u r = p_rg p r); congruence|auto].
      * cbn [is_check]. rewrite orb_true_r. destruct SM as (B1 & B2 & B3 & B4). split; [apply OTHER; exact U3|]. split; [|split; [discriminate|exact B4]].
        intros a (Ca & _). change (p_mem p a = mem u a). rewrite U5. apply B2. exact Ca.
      * intros a (Ca & _). auto.
      * intros a Ha. split; [auto|]. cbn [snip_scratch]. unfold inside. lia.
      * exists z'. split; [|exact J2]. exact (t_snip _ _ _ _ _ _ _ _ _ _ _ _ c u _ _ _ SC EX J1).
Qed.
End BORROW.
Lemma reg_call n Aq A g lo cfa ra ks path last items l0 C s0 q0 cs z0 :
  (n < k)%nat -> own co g -> can_return fs g = true -> on_reg (planned co fl m fs g) = true -> has_space g lo cfa ->
  orig_blocks co (f_entry (co_fun co g)) ks = Some (path ++ [last]) -> no_catch co (f_entry (co_fun co g)) ks ->
  code_of true g ks = Some items -> qrun Aq lo cfa C true items s0 cs z0 ->
  entered cfa ra C s0 -> alike C s0 q0 -> wfp q0 -> rep q0 l0 -> (List.length l0 <= n)%nat ->
  (forall p D, z0 = QEnd p D -> p_rg p RSP = cfa - 8 /\ (is_ret co last \/ exists e, is_tail co last e)) ->
  exists z', trun A items q0 z' /\ ends_alike l0 z0 z'.
Proof.
  intros NK HF CR REG (SP & hi & RM) OB NC IT QR (EN1 & EN2 & RA0 & EN4 & EN5) (AL1 & AL2 & AL3) WF RP LL LV.
  unfold LightSame.code_of in IT. set (p := planned co fl m fs g) in *.
  assert (PLAN : Decision.instr fl co g (Some (m g)) = p).
  { unfold p. rewrite (planned_at co fl fs m PA g HF), CR, (analyses_at co fl fs m PA g (proj1 HF) LI). reflexivity. }
  destruct (p_fn _ _ PA g HF) as (FO & CO & RW).
  assert (TE : terminal_exits co g) by (apply (SU Exits); auto).
  assert (RL' : fl_light fl = true -> run_light co = Ok m) by auto.
  assert (NA : p <> PAbort) by (intros K; rewrite K in IT; discriminate).
  assert (NF : p <> PNoFuel) by (intros K; rewrite K in IT; discriminate).
  pose proof (reg_use co m g fl p (AN g HF) PLAN REG) as UR.
  destruct (borrowed co m g fl (d g) (AN g HF) UR (NAMES g HF REG)) as (r & BR & UT).
  destruct (reg_frame_inv co m g fl (d g) (AN g HF) UR) as (C1 & C2 & C3 & _).
  pose proof (path_blocks co fs PA g ks _ HF OB) as PB.
  assert (SG : exists sl, segs co p (false, f_entry (co_fun co g)) ks = Some sl).
  { unfold plan_items in IT. destruct p; try discriminate;
      (destruct (segs co _ (false, f_entry (co_fun co g)) ks); [eauto|discriminate]). }
  destruct SG as (sl & SG).
  pose proof (run_segs co m g fl p (AN g HF) FO TE PLAN ks sl NA NF SG) as RPL. set (evs := evs0 _ ++ _) in RPL.
  assert (RO : runs_of co (planned co fl m fs) g evs) by (exists ks; auto).
  destruct (disc_all co fl fs m width (fun _ => True) PA SU RL' g evs HF RO) as ((D1 & D2 & _ & D4 & _) & _ & D5).
  pose proof (run_plan_executed _ _ _ _ _ RPL) as EX. rewrite OB in EX. injection EX as EX.
  destruct (items_order co m g fl o (d g) p (AN g HF) FO TE PLAN REG (TIDY g HF) evs D5 D1 D2 ks items RPL IT) as (SI & KI & KE).
  set (L := ~ (is_ret co last \/ exists e, is_tail co last e)).
  assert (LD : (is_ret co last \/ exists e, is_tail co last e) \/ L) by apply leaves_dec.
  destruct (reg_follows g (jsum_of (d g) (m g)) r lo cfa hi ra l0 BR FO UT RM ltac:(lia) L Aq A C true items s0 cs z0 QR q0 (fun v => v = -8))
    as (z' & T1 & T2); auto.
  - intros nd i K. destruct (items_ins co _ g _ ks items _ nd i IT OB K) as (I1 & I2). apply (UT (snd nd)); auto.
  - intros nd i C' q z' K OC TH. destruct (items_ins co _ g _ ks items _ nd i IT OB K) as (I1 & I2). specialize (PB _ I1).
    assert (SINK : forall e, is_call co (snd nd) e -> e_sink e = true -> False).
    { intros e (E1 & E2) S. apply C3. exists (snd nd), e. split; [split; auto|]. split; [auto|]. rewrite E2. split; [discriminate|]. intros (? & _). discriminate. }
    destruct TH as [e p1 g' lo' z' IC SE (_ & [GT|(GT1 & GT2)]) DI AR|e p1 [s|] q' IC SE GO DI LF].
    + exact (SINK e IC GT).
    + destruct (e_sink e) eqn:ES; [exact (SINK e IC ES)|]. apply (C1 g'). exists (snd nd), e. split; [split; [exact PB|apply IC]|]. split; [apply IC|]. auto.
    + apply (C2 (b_last (co_block co (snd nd))) s). destruct GO as (G1 & G2). exists (snd nd), e. split; [split; [exact PB|apply IC]|]. split; [apply IC|]. auto.
    + exact (SINK e IC GO).
  - intros v ->. lia.
  - left. split; [symmetry; apply AL1|]. destruct KI as [K|[K|K]]; auto. right. right. split; [|exact K].
    destruct LD as [LD|LD]; [|exact LD]. exfalso. apply KE; [|exact K]. eapply D4; eauto.
  - split; [auto|]. split; [exact AL2|]. split; [discriminate|exact AL3].
  - lia.
  - exists z'. split; [exact T1|]. destruct T2 as [T2|(NL & p1 & D & E)]; [exact T2|]. destruct NL. apply (LV p1 D E).
Qed.

(** ** All calls *)
Lemma quiet_mimics : forall h n, mimics n (quiet h n) (call true h).
Proof.
  induction h as [|h IH]; intros n g lo cfa ra C p z q l HF H EN AL WF RP LL.
  - cbn in H. subst z. exists (Paused (p_rest q)). split; [reflexivity|]. apply AL.
  - destruct H as (NK & SPC & ks & path & last & items & cs & z0 & OB & NC & CO & QR & QL).
    assert (KA : keeping (quiet h (S n))) by apply quiet_keeping.
    assert (BODY : exists z1, trun (call true h) items q z1 /\ ends_alike l z0 z1).
    { destruct (can_return fs g) eqn:CR.
      - assert (LV : forall p1 D, z0 = QEnd p1 D -> p_rg p1 RSP = cfa - 8 /\ (is_ret co last \/ exists e, is_tail co last e))
          by (intros p1 D E; subst z0; inversion QL; subst; eauto).
        destruct (on_reg (planned co fl m fs g)) eqn:REG; [eapply reg_call; eauto|eapply one_call; eauto].
      - assert (PU : planned co fl m fs g = Untouched) by (rewrite (planned_at co fl fs m PA g HF), CR; reflexivity).
        pose proof CO as CO'. unfold LightSame.code_of in CO'. rewrite PU in CO'.
        destruct (plan_calls g ks _ items HF OB _ _ CO') as (CL & SHAPE).
        destruct EN as (EN1 & EN2 & EN3 & EN4 & EN5). destruct AL as (AL1 & AL2 & AL3).
        eapply (plain_follows (S n)); [apply (IH (S n))|exact KA| | |exact QR| |exact CL| | | | | | | |]; auto; try lia.
        + eapply items_plain. exact CO'.
        + intros nd i Hi OC. apply (SHAPE nd i Hi OC).
        + split; [auto|]. split; [exact AL2|]. split; [discriminate|exact AL3]. }
    destruct BODY as (z1 & TR & EA).
    assert (FIN : forall z', leaves (call true h) last ra z1 z' -> call true (S h) g ra q z').
    { intros z' L. exists ks, path, last, items, z1. auto. }
    destruct EN as (EN1 & EN2 & EN3 & EN4 & EN5).
    assert (K : forall p1 C1, z0 = QEnd p1 C1 -> p_rg p1 RSP = cfa - 8 -> exists q1, z1 = Ended q1 /\ alike C1 p1 q1 /\ wfp q1 /\ rep q1 l /\
      load64 (p_mem q1) (cfa - 8) = ra /\ entered cfa ra C1 p1).
    { intros p1 C1 -> RS. destruct z1 as [q1| |]; [|contradiction|contradiction]. destruct EA as (A1 & A2 & A3).
      destruct (qrun_kept _ _ _ KA _ _ _ _ _ _ QR ltac:(lia) _ _ eq_refl) as ((K1 & K2) & K3). rewrite EN2 in K3.
      assert (S1 : forall a, Whole.slot cfa a -> C1 a) by (intros a Ha; apply K1; [unfold Whole.slot in Ha; lia|auto]).
      exists q1. do 4 (split; [assumption || reflexivity|]). split.
      - rewrite <- K3. apply load64_ext. intros x Hx. symmetry. apply A1, S1. unfold Whole.slot. lia.
      - split; [exact RS|]. split; [exact K3|]. auto. }
    destruct QL as [x|p1 C1 IR TU R1|p1 C1 e g' lo' z IT GT TU R1 TR'|p1 C1 e name z IT GO TU R1 LR].
    + destruct z1 as [|y|]; [contradiction| |contradiction]. cbn in EA. subst y. exists (Paused x). split; [apply FIN; apply l_pause; exact I|reflexivity].
    + destruct (K _ _ eq_refl R1) as (q1 & -> & (A1 & A2 & A3) & WF1 & RP1 & W1 & _). exists (Ended (popped X q1)). split.
      * apply FIN. apply l_ret; [exact IR|rewrite <- A3; exact TU|]. unfold word_at. rewrite <- A1, R1. exact W1.
      * split; [|split; [|exact RP1]].
        -- split; [|split; [exact A2|exact A3]]. intros r. unfold popped, updr. cbn [p_rg]. destruct (reg_eq_dec r RSP); [rewrite A1; reflexivity|apply A1].
        -- destruct SPC as (SPC & _). intros r. unfold popped, updr. cbn [p_rg]. destruct (reg_eq_dec r RSP); [pose proof (WF1 RSP) as WS; rewrite <- A1, R1 in WS |- *; lia|apply WF1].
    + destruct (K _ _ eq_refl R1) as (q1 & -> & A1 & WF1 & RP1 & W1 & E1).
      destruct (IH n g' lo' cfa ra C1 p1 z q1 l (proj1 GT) TR' E1 A1 WF1 RP1 LL) as (z' & Z1 & Z2).
      exists z'. split; [|exact Z2]. apply FIN. eapply l_tail; eauto. rewrite <- (proj2 (proj2 A1)). exact TU.
    + destruct (K _ _ eq_refl R1) as (q1 & -> & A1 & WF1 & RP1 & W1 & E1).
      destruct (lib_follows n _ _ (p_rg p1 RSP) l (IH n) (quiet_keeping h n) LL ltac:(lia) _ _ _ _ LR q1) as (z' & Z1 & Z2); auto; [apply E1|].
      exists z'. split; [|exact Z2]. apply FIN. eapply l_tail_lib; eauto. rewrite <- (proj2 (proj2 A1)). exact TU.
Qed.
End LF.
