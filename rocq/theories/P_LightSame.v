(** * Property C82: light mode leaves whole executions as they were *)
From Coq Require Import ZArith Bool Lia ZifyBool ZifyNat Arith String List.
From Verif Require Import Machine MachineFacts Jit ShadowSpec JitFacts JitPushPop History RegFrame Witness.
From Verif Require Import Dfs Binary CallGraph InterProc MemPasses Pipeline RegNames BlockLive ExSem ExCode
  Reach SafePaths Lowering P_Lower FastPath Decision P_Instr FullRun Whole P_Whole Sites SiteEx P_Regs P_Sites P_SiteUse
  Order Activation PlanCode ActRun P_Activation RegRun P_RegRun Follow P_Follow Tree TreeFacts P_Tree LightSame LightFollow.
From Verif Require FullSame.
Import ListNotations.
Open Scope Z_scope.
Local Notation mem := Machine.mem.

(** A call instruction ends its block and writes rsp and memory, but no other register. *)
Definition calls_usual (co : code) : Prop :=
  forall g b, own co g -> In b (f_blocks (co_fun co g)) ->
  call_ends (b_insns (co_block co b)) /\
  forall i, In i (b_insns (co_block co b)) -> i_op i = OCall ->
    i_wmem i = true /\ (exists pt, In (MG RSP pt) (i_written i)) /\ forall r pt, In (MG r pt) (i_written i) -> r = RSP.

(** C82: a call of a function of the program, with all that it calls in turn, that does not rely on
    what inserted code leaves behind.  Then the same run is one of the program as it is; and the
    instrumented program, with any addresses on the shadow stack and any contents of the bytes that do
    not matter, makes a run that goes the same way and is looked at no further at the same point, or returns to the same
    address, with the same registers, the same bytes of memory and the shadow stack as before.
    So no check stops it and no inserted code faults.
    Partial: without --optimize_regs (with it the claim is false, C59); a function that keeps its return
    address in a register does not use sil or dil (otherwise false, C60); no exceptions, longjmp and other threads. *)
Theorem C82_executions_partial : forall co fl fs m width,
  parsed co fs -> (forall k, within co fl width k) -> fl_light fl = true -> run_light co = Ok m ->
  (forall g, own co g -> analysed co m g /\ tidy co g /\ (on_reg (planned co fl m fs g) = true -> names_ok co g)) -> calls_usual co ->
  forall o d, plain o -> o_optimize_regs o = false ->
  forall mp base k X sem after lib turns dials loads stores lloads lstores fsets,
  machine_ok X sem after loads stores fsets -> library_ok X lib lloads lstores ->
  forall h n g lo cfa ra (C : Z -> Prop) p z, own co g ->
  p_rg p RSP = cfa - 8 -> load64 (p_mem p) (cfa - 8) = ra -> 0 < ra < W ->
  (forall a, Whole.slot cfa a -> C a) -> (forall a, C a -> ~ reserved base k a) ->
  quiet co fl fs m o d mp base k X sem after lib turns dials loads stores lloads lstores fsets h n g lo cfa ra C p z ->
  call co fl fs m o d mp base X sem after lib turns dials false h g ra p (match z with QEnd p' _ => Ended p' | QPause x => Paused x end) /\
  forall q l, alike X C p q -> wfp X q -> shadow_rep (p_mem q) base l -> (List.length l <= n)%nat ->
  exists z', call co fl fs m o d mp base X sem after lib turns dials true h g ra q z' /\
  match z, z' with
  | QPause x, Paused y => x = y
  | QEnd p' C', Ended q' =>
      p_rg p' RSP = cfa /\ alike X C' p' q' /\ shadow_rep (p_mem q') base l /\
      (* what the caller had above its return address is still the same *)
      forall a, cfa - 8 <= a -> C a -> C' a
  | _, _ => False
  end.
Proof.
  intros co fl fs m width PA SU LI RL FN CU o d PL NO mp base k X sem after lib turns dials loads stores lloads lstores fsets MO LO
    h n g lo cfa ra C p z HG RS RA R0 SL CR QT.
  pose proof (fun g H => proj1 (FN g H)) as AN. pose proof (fun g H => proj1 (proj2 (FN g H))) as TI. pose proof (fun g H => proj2 (proj2 (FN g H))) as NR.
  split; [exact (quiet_plain co fl fs m o d mp base k X sem after lib turns dials loads stores lloads lstores fsets MO LO AN TI NR CU h n g lo cfa ra C p z QT RS RA)|].
  intros q l AL WF RP LL.
  destruct (quiet_mimics co fl fs m width o d mp base k X sem after lib turns dials loads stores lloads lstores fsets MO LO PA SU LI RL
    AN TI PL NO NR CU
    h n g lo cfa ra C p z q l HG QT) as (z' & Z1 & Z2); auto.
  { split; [exact RS|]. split; [exact RA|]. auto. }
  exists z'. split; [exact Z1|]. destruct z as [p' C'|x], z' as [q'|y|y]; auto.
  destruct (quiet_keeping co fl fs m o d mp base k X sem after lib turns dials loads stores lloads lstores fsets MO AN TI NR CU h n g lo cfa ra C p p' C' QT RS) as (K1 & K2 & _).
  split; [exact K1|]. split; [apply Z2|]. split; [apply Z2|exact K2].
Qed.
Print Assumptions C82_executions_partial.

(** *** A program that meets the hypotheses: that of P_Tree.v *)
Definition c_after (i : insn) : Z := if (0 <=? i_addr i) && (i_addr i <? 10000) then i_addr i + 5 else 5.
Definition c_usual (i : insn) : bool :=
  i_wmem i && mg_in RSP (i_read i) && killsb RSP (i_written i) &&
  forallb (fun r => negb (killsb r (i_written i)) || reg_eqb r RSP) allregs.
Definition c_range (i : insn) (p : ast) : bool :=
  forallb (fun r => negb (killsb r (i_written i)) || ((0 <=? p_rg p r) && (p_rg p r <? W))) allregs.
Definition csem (i : insn) (p : ast) : option ast :=
  if isop (i_op i) OCall then
    if c_usual i && (8 <=? p_rg p RSP) && (p_rg p RSP <? W) then Some (pushed unit p (c_after i)) else None
  else match asem i p with Some p' => if c_range i p' then Some p' else None | None => None end.
Definition c_storesb (i : insn) (p : ast) (a : Z) : bool :=
  if isop (i_op i) OCall then c_usual i && (p_rg p RSP - 8 <=? a) && (a <? p_rg p RSP)
  else negb (stack_op i && negb (mg_in RSP (i_read i) && killsb RSP (i_written i))) && a_stores i p a.
Definition c_stores i p a : Prop := c_storesb i p a = true.
Lemma c_usual_in i : c_usual i = true -> i_wmem i = true /\ reads i RSP /\ killsb RSP (i_written i) = true /\
  forall r, killsb r (i_written i) = true -> r = RSP.
Proof.
  unfold c_usual. rewrite !andb_true_iff, forallb_forall. intros (((U1 & U2) & U3) & U4). split; [exact U1|]. split; [apply mg_in_reads; exact U2|].
  split; [exact U3|]. intros r K. specialize (U4 r (allregs_in r)). rewrite K in U4. destruct r; try discriminate. reflexivity.
Qed.
Lemma asem_kept i p p' r : asem i p = Some p' -> killsb r (i_written i) = false -> p_rg p' r = p_rg p r.
Proof.
  intros A KB. unfold asem, xsem in A. destruct (stack_op i && _)%bool eqn:E; [discriminate|]. injection A as <-. cbn [p_rg]. rewrite KB.
  destruct (reg_eq_dec r RSP) as [->|_]; [|reflexivity]. unfold xrsp.
  assert (SP : stack_op i = false).
  { destruct (stack_op i); [|reflexivity]. cbn [andb] in E. apply negb_false_iff, andb_true_iff in E. destruct E. congruence. }
  unfold stack_op in SP. apply orb_false_iff in SP. destruct SP as [-> ->]. cbn [andb]. rewrite KB. reflexivity.
Qed.
Lemma asem_frame i p p' a : asem i p = Some p' -> a_stores i p a = false -> p_mem p' a = p_mem p a.
Proof.
  intros A S. unfold asem, xsem in A. destruct (stack_op i && _)%bool; [discriminate|]. injection A as <-. cbn [p_mem]. unfold xmem. cbn [p_rg p_mem].
  unfold a_stores in S. destruct (isop (i_op i) OPush); [rewrite S; reflexivity|]. destruct (i_wmem i); [|reflexivity]. cbn [andb] in S. rewrite S. reflexivity.
Qed.
Lemma c_machine : machine_ok unit csem c_after b_loads c_stores no_flags.
Proof.
  constructor.
  - pose proof asem_facts as SF. constructor; intros i s s' H; intros; unfold csem in *.
    + assert (isop (i_op i) OCall = false) as E by (apply isop_false; congruence). rewrite E in *.
      destruct (asem i s) as [u|] eqn:A; [|discriminate]. destruct (c_range i u); [|discriminate].
      injection H0 as <-. apply (sf_push _ _ _ SF i s u H A).
    + assert (isop (i_op i) OCall = false) as E by (apply isop_false; congruence). rewrite E in *.
      destruct (asem i s) as [u|] eqn:A; [|discriminate]. destruct (c_range i u); [|discriminate].
      injection H1 as <-. apply (sf_pop _ _ _ SF i s u H H0 A).
    + destruct (isop (i_op i) OCall).
      * destruct (_ && _)%bool eqn:E; [|discriminate]. rewrite !andb_true_iff in E. destruct E as ((E & _) & _).
        apply c_usual_in in E. destruct E. congruence.
      * destruct (asem i s) as [u|] eqn:A; [|discriminate]. destruct (c_range i u); [|discriminate].
        injection H1 as <-. apply (sf_mem _ _ _ SF i s u H H0 A).
    + destruct (isop (i_op i) OCall).
      * destruct (_ && _)%bool eqn:E; [|discriminate]. rewrite !andb_true_iff in E. destruct E as ((E & _) & _).
        apply c_usual_in in E. destruct E as (_ & _ & E & _). apply existsb_exists in E. destruct E as (x & X1 & X2).
        destruct x as [r pt| |]; try discriminate; destruct pt; try discriminate; (destruct (reg_eq_dec RSP r) as [<-|]; [|discriminate]); destruct (H _ X1).
      * destruct (asem i s) as [u|] eqn:A; [|discriminate]. destruct (c_range i u); [|discriminate].
        injection H0 as <-. apply (sf_sp _ _ _ SF i s u H A).
  - intros i s t fi LS. unfold csem, c_stores, c_storesb. pose proof LS as (H1 & H2 & H3 & H4 & H5). destruct (isop (i_op i) OCall) eqn:EC.
    + destruct (c_usual i) eqn:EU; [|exact I]. apply c_usual_in in EU. destruct EU as (U1 & U2 & U3 & U4). cbn [andb]. rewrite <- (H2 RSP U2).
      destruct (_ && _)%bool; [|exact I]. cbn [pushed p_rg p_mem p_fl p_rest]. rewrite <- (H2 RSP U2). split; [|split; [|split; [|exact H5]]].
      * intros r K. destruct (reg_eq_dec r RSP) as [->|N]; [rewrite !updr_same; reflexivity|]. rewrite !updr_other by exact N.
        destruct K as [K|K]; [|exact K]. apply killsb_kills in K. destruct (N (U4 r K)).
      * intros a K _. destruct (Z_le_dec (p_rg s RSP - 8) a) as [Ha|Ha]; [destruct (Z_lt_dec a (p_rg s RSP)) as [Hb|Hb]|].
        -- unfold store64. apply FullSame.store_in_ext. change (Z.of_nat 8) with 8. lia.
        -- rewrite !store64_out by lia. destruct K as [K|K]; [lia|exact K].
        -- rewrite !store64_out by lia. destruct K as [K|K]; [lia|exact K].
      * intros [K|K] _; [auto|discriminate].
    + pose proof (asem_footprint i s t fi LS) as FT. destruct (asem i s) as [s'|] eqn:A1, (asem i t) as [t'|] eqn:A2; try contradiction; try exact I.
      assert (CR : c_range i s' = c_range i t').
      { destruct FT as (F1 & _). clear - F1. unfold c_range. induction allregs as [|r l IH]; [reflexivity|]. cbn [forallb]. rewrite IH. f_equal.
        destruct (killsb r (i_written i)) eqn:KB; [|reflexivity]. rewrite (F1 r); [reflexivity|]. left. apply killsb_kills. exact KB. }
      rewrite <- CR. destruct (c_range i s'); [|exact I]. destruct FT as (F1 & F2 & F3). split; [exact F1|]. split; [|exact F3].
      intros a K _. apply F2; [|intros []]. destruct K as [K|K]; [left|right; exact K]. apply andb_true_iff in K. apply K.
  - intros i s t fi (H1 & H2 & H3 & H4 & H5) a. unfold c_stores, c_storesb. destruct (isop (i_op i) OCall) eqn:EC.
    + destruct (c_usual i) eqn:EU; [|discriminate]. apply c_usual_in in EU. destruct EU as (_ & U2 & _). rewrite (H2 RSP U2). auto.
    + destruct (stack_op i && _)%bool eqn:E; [discriminate|]. cbn [negb andb]. unfold a_stores.
      assert (V : xval (mkPst (p_rg s) (p_mem s) 0 tt) i = xval (mkPst (p_rg t) (p_mem t) 0 tt) i) by (apply (xval_eq _ _ _ fi); auto).
      rewrite V. destruct (isop (i_op i) OPush) eqn:EP; [|auto]. unfold stack_op in E. rewrite EP in E. cbn [orb andb] in E.
      apply negb_false_iff, andb_true_iff in E. destruct E as [E _]. apply mg_in_reads in E. rewrite (H2 RSP E). auto.
  - intros i p p' a H N. unfold csem in H. unfold c_stores, c_storesb in N. destruct (isop (i_op i) OCall).
    + destruct (c_usual i); [|discriminate]. destruct (_ && _)%bool; [|discriminate]. injection H as <-. cbn [pushed p_mem]. apply store64_out. cbn [andb] in N. lia.
    + destruct (asem i p) as [u|] eqn:A; [|discriminate]. destruct (c_range i u); [|discriminate]. injection H as <-.
      eapply asem_frame; [exact A|]. unfold asem, xsem in A. destruct (stack_op i && _)%bool; [discriminate|].
      cbn [negb andb] in N. destruct (a_stores i p a); [destruct N; reflexivity|reflexivity].
  - intros i s s' r H N. unfold csem in H. destruct (isop (i_op i) OCall).
    + destruct (_ && _)%bool eqn:E; [|discriminate]. injection H as <-. rewrite !andb_true_iff in E. destruct E as ((E & _) & _).
      apply c_usual_in in E. destruct E as (_ & _ & E & _). cbn [pushed p_rg]. apply updr_other. intros ->.
      apply existsb_exists in E. destruct E as (x & X1 & X2).
      destruct x as [r pt| |]; try discriminate; destruct pt; try discriminate; (destruct (reg_eq_dec RSP r) as [<-|]; [|discriminate]); destruct (N _ X1).
    + destruct (asem i s) as [u|] eqn:A; [|discriminate]. destruct (c_range i u); [|discriminate]. injection H as <-.
      apply (asem_unwritten i s u r A N).
  - intros i p p' WF H. unfold csem in H. destruct (isop (i_op i) OCall).
    + destruct (_ && _)%bool eqn:E; [|discriminate]. injection H as <-. intros r. cbn [pushed p_rg].
      destruct (reg_eq_dec r RSP) as [->|N]; [rewrite updr_same; lia|rewrite updr_other by exact N; apply WF].
    + destruct (asem i p) as [u|] eqn:A; [|discriminate]. destruct (c_range i u) eqn:CR; [|discriminate]. injection H as <-. intros r.
      destruct (killsb r (i_written i)) eqn:KB.
      * unfold c_range in CR. rewrite forallb_forall in CR. specialize (CR r (allregs_in r)). rewrite KB in CR. cbn [negb orb] in CR. lia.
      * rewrite (asem_kept i p u r A KB). apply WF.
  - intros i. unfold c_after. assert (1000000 < W) by (vm_compute; reflexivity). destruct (_ && _)%bool eqn:E; lia.
  - intros i p p' OC H. unfold csem in H. assert (isop (i_op i) OCall = true) as E by (apply isop_true; exact OC). rewrite E in H.
    destruct (_ && _)%bool eqn:E2; [|discriminate]. injection H as <-. cbn [pushed p_rg p_mem]. rewrite updr_same. split; [reflexivity|]. split.
    + apply load64_store64_same. unfold c_after. assert (1000000 < W) by (vm_compute; reflexivity). destruct ((0 <=? i_addr i) && _)%bool eqn:E3; lia.
    + intros a Ha. unfold c_stores, c_storesb. rewrite E. unfold inside in Ha. destruct (c_usual i); [|discriminate]. cbn [andb]. lia.
Qed.

(** The way from block to block, and where calls go. *)
Definition c_way (b : nat) : turn := match b with 0%nat => ToBlock 1 | 1%nat => ToBlock 2 | _ => Return end.
Definition c_turns (b : nat) (_ : unit) (t : turn) : Prop := t = c_way b.
Definition c_callee (b : nat) : option callee := match b with 0%nat => Some (Foreign None) | 1%nat => Some (Own 1) | _ => None end.
Definition c_dials (b : nat) (_ : unit) (c : callee) : Prop := c_callee b = Some c.
Definition c_enters (b : nat) (r : list item) : bool :=
  match entering r, c_way b with Some b', ToBlock b2 => Nat.eqb b' b2 | None, _ => true | _, _ => false end.
Lemma c_enters_ok n r p : c_enters (snd n) r = true -> may_enter unit c_turns n r p.
Proof.
  unfold c_enters. intros H b E. rewrite E in H. unfold c_turns. destruct (c_way (snd n)); try discriminate. apply Nat.eqb_eq in H. congruence.
Qed.
(** The call of block 0 goes to a library, which calls function 2 back, then 1, and returns. *)
Definition c_pushes (c : lcode) : option (nat * Z) :=
  match c with Start None => Some (2%nat, 7777) | Start _ => None | Resume ra => if ra =? 7777 then Some (1%nat, 8888) else None end.
Definition c_lib (c : lcode) (p : ast) : option (ast * lnext) :=
  if (8 <=? p_rg p RSP) && (p_rg p RSP <? W - 8) then
    match c_pushes c with
    | Some (g, ra) => Some (pushed unit p ra, Callback g ra)
    | None => match c with Resume ra => if ra =? 8888 then Some (popped unit p, Back) else None | _ => None end
    end
  else None.
Definition c_lstoresb (c : lcode) (p : ast) (a : Z) : bool :=
  match c_pushes c with Some _ => (p_rg p RSP - 8 <=? a) && (a <? p_rg p RSP) | None => false end.
Definition c_lstores c p a : Prop := c_lstoresb c p a = true.
Definition c_none (_ : lcode) (_ : ast) (_ : Z) : Prop := False.
Lemma c_pushes_in c g ra : c_pushes c = Some (g, ra) -> In g [0;1;2]%nat /\ (ra = 7777 \/ ra = 8888).
Proof.
  destruct c as [[s|]|x]; cbn; [discriminate| |]; intros H; [injection H as <- <-; tauto|].
  destruct (x =? 7777); [injection H as <- <-; tauto|discriminate].
Qed.
Lemma c_lib_inv c p q x : c_lib c p = Some (q, x) -> 8 <= p_rg p RSP < W - 8 /\
  ((exists g ra, c_pushes c = Some (g, ra) /\ q = pushed unit p ra /\ x = Callback g ra) \/ (c_pushes c = None /\ q = popped unit p /\ x = Back)).
Proof.
  unfold c_lib. destruct (_ && _)%bool eqn:E; [|discriminate]. intros H. split; [lia|]. destruct (c_pushes c) as [[g ra]|].
  - injection H as <- <-. left. eauto.
  - right. destruct c as [|ra]; [discriminate|]. destruct (ra =? 8888); [|discriminate]. injection H as <- <-. auto.
Qed.
Lemma c_library : library_ok unit c_lib c_none c_lstores.
Proof.
  constructor.
  - intros c s t s' x (H1 & _ & H3) H. unfold c_lstores, c_lstoresb. unfold c_lib in *. rewrite <- (H1 RSP). destruct (_ && _)%bool; [|discriminate].
    destruct (c_pushes c) as [[g ra]|].
    + injection H as <- <-. exists (pushed unit t ra). split; [reflexivity|]. cbn [pushed p_rg p_mem p_rest]. rewrite <- (H1 RSP).
      split; [intros r; unfold updr; destruct (reg_eq_dec r RSP); [reflexivity|apply H1]|]. split; [exact H3|]. split.
      * intros a K. destruct (Z_le_dec (p_rg s RSP - 8) a) as [Ha|Ha]; [destruct (Z_lt_dec a (p_rg s RSP)) as [Hb|Hb]|].
        -- unfold store64. apply FullSame.store_in_ext. change (Z.of_nat 8) with 8. lia.
        -- rewrite !store64_out by lia. destruct K as [K|K]; [lia|exact K].
        -- rewrite !store64_out by lia. destruct K as [K|K]; [lia|exact K].
      * intros a K. apply store64_out. lia.
    + destruct c as [|ra]; [discriminate|]. destruct (ra =? 8888); [|discriminate]. injection H as <- <-. exists (popped unit t). split; [reflexivity|].
      cbn [popped p_rg p_mem p_rest]. rewrite <- (H1 RSP).
      split; [intros r; unfold updr; destruct (reg_eq_dec r RSP); [reflexivity|apply H1]|]. split; [exact H3|]. split; [|reflexivity].
      intros a [K|K]; [discriminate|exact K].
  - intros c p p' x WF H. apply c_lib_inv in H. destruct H as (R & [(g & ra & _ & -> & _)|(_ & -> & _)]); intros r; cbn [pushed popped p_rg]; unfold updr;
      (destruct (reg_eq_dec r RSP); [lia|apply WF]).
  - intros c p p' g ra H. apply c_lib_inv in H. destruct H as (R & [(g' & ra' & P & -> & E)|(_ & _ & E)]); [|discriminate]. injection E as <- <-.
    assert (1000000 < W) by (vm_compute; reflexivity). assert (RR : 0 < ra < W) by (apply c_pushes_in in P; lia).
    split; [exact RR|]. cbn [pushed p_rg p_mem]. rewrite updr_same. split; [apply load64_store64_same; lia|].
    intros a Ha. unfold c_lstores, c_lstoresb. rewrite P. unfold inside in Ha. lia.
Qed.
Definition slot_kept (cfa : Z) (p q : ast) : bool :=
  forallb (fun j => p_mem q (cfa - 8 + j) =? p_mem p (cfa - 8 + j)) [0;1;2;3;4;5;6;7].
Lemma slot_kept_ok cfa p q : slot_kept cfa p q = true -> keeps_slot unit cfa p q.
Proof.
  unfold slot_kept. rewrite forallb_forall. intros H x Hx. unfold Whole.slot in Hx.
  specialize (H (x - (cfa - 8))). replace (cfa - 8 + (x - (cfa - 8))) with x in H by lia. apply Z.eqb_eq. apply H. cbn. lia.
Qed.
(** Instructions do not write from the start of the shadow stack on, and pop bytes that matter. *)
Definition c_asks (fi : bool) (C : Z -> bool) (i : insn) (p : ast) : bool :=
  (negb fi || negb (uses_flags i)) && (negb (isop (i_op i) OPop) || C (p_rg p RSP)) &&
  (if isop (i_op i) OCall || isop (i_op i) OPush then p_rg p RSP <=? t_base
   else negb (i_wmem i) || (xval (mkPst (p_rg p) (p_mem p) 0 tt) i <? t_base)).
Section QEV.
Variable A : nat -> Z -> Z -> (Z -> bool) -> ast -> option (ast * (Z -> bool)).
(** Library code entered with its return address at [sp]. *)
Fixpoint lev (f : nat) (sp : Z) (C : Z -> bool) (c : lcode) (p : ast) : option (ast * (Z -> bool)) :=
  match f, c_lib c p with
  | S f', Some (p1, x) =>
      let C1 := fun a => C a || c_lstoresb c p a in
      if p_rg p RSP <=? t_base then
        match x with
        | Back => if p_rg p1 RSP =? sp + 8 then Some (p1, C1) else None
        | Callback g ra => if p_rg p1 RSP + 8 <=? sp then
            match A g (p_rg p1 RSP + 8) ra C1 p1 with Some (q, C2) => lev f' sp C2 (Resume ra) q | None => None end else None
        end
      else None
  | _, _ => None
  end.
Variable cfa : Z.
Fixpoint qev (C : Z -> bool) (fi : bool) (its : list item) (p : ast) : option (ast * (Z -> bool)) :=
  match its with
  | [] => Some (p, C)
  | Here n :: r => if heightb unit steady cfa (b_sp_entry (co_block t_code (snd n))) p then qev C fi r p else None
  | Out n :: r => if heightb unit steady cfa (b_sp_end (co_block t_code (snd n))) p && (p_rg p RSP =? cfa - 8) && c_enters (snd n) r then qev C fi r p else None
  | Ins n i :: r =>
      if c_asks fi C i p then
        match csem i p with
        | Some p1 =>
            let C1 := fun a => C a || c_storesb i p a in
            if isop (i_op i) OCall then
              match match c_callee (snd n) with
                    | Some (Own g) => A g (p_rg p RSP) (c_after i) C1 p1
                    | Some (Foreign name) => lev 5 (p_rg p1 RSP) C1 (Start name) p1
                    | None => None
                    end with
              | Some (q, C2) => if slot_kept cfa p q then qev C2 true r q else None
              | None => None
              end
            else if (t_lo + 16 <=? p_rg p1 RSP) && (p_rg p1 RSP <=? cfa - 8) && slot_kept cfa p p1 then qev C1 fi r p1 else None
        | None => None
        end
      else None
  | Snip sn :: r =>
      if negb (is_check sn) || (p_rg p RSP + pops (left_of r) =? cfa - 8) then
        qev (fun a => C a && negb ((p_rg p RSP - snip_scratch sn <=? a) && (a <? p_rg p RSP))) (fi || is_check sn) r p
      else None
  end.
End QEV.
Definition c_items (g : nat) : option (list item) :=
  let p := planned t_code fl_plain (wsums t_code) t_fs g in
  plan_items t_code (plan_sites t_code fl_plain wopts no_dead (wsums t_code g) g p) g p (fst (fst (t_path g))).
Fixpoint aevq (h n : nat) (g : nat) (cfa ra : Z) (C : Z -> bool) (p : ast) : option (ast * (Z -> bool)) :=
  match h with
  | O => None
  | S h' => if (n <? 10)%nat && t_fits cfa then
      match c_items g with
      | Some its => match qev (aevq h' (S n)) cfa C true its p with
                    | Some (q, C') => if p_rg q RSP =? cfa - 8 then Some (popped unit q, C') else None
                    | None => None
                    end
      | None => None
      end
    else None
  end.
Notation c_quiet := (quiet t_code fl_plain t_fs (wsums t_code) wopts (fun _ => no_dead) t_mp t_base 10 unit csem c_after c_lib c_turns c_dials b_loads c_stores c_none c_lstores no_flags).
Notation c_qrun := (qrun t_code t_base 10 unit csem c_after c_lib c_turns c_dials b_loads c_stores c_none c_lstores no_flags).
Notation c_call := (call t_code fl_plain t_fs (wsums t_code) wopts (fun _ => no_dead) t_mp t_base unit csem c_after c_lib c_turns c_dials).
Lemma c_asks_ok fi C (D : Z -> Prop) i p : c_asks fi C i p = true -> (forall a, C a = true -> D a) -> asks t_base 10 unit b_loads c_stores fi D i p.
Proof.
  unfold c_asks. rewrite !andb_true_iff. intros ((A1 & A2) & A3) CD. split; [|split].
  - intros ->. cbn [negb orb] in A1. intros f Hf. apply negb_true_iff in A1.
    assert (uses_flags i = true); [|congruence]. apply existsb_exists. exists (MFlag f). auto.
  - intros a L. unfold b_loads, a_loads in L. apply andb_true_iff in L. destruct L as [L1 L2]. rewrite L1 in A2.
    apply Z.eqb_eq in L2. subst a. apply CD. exact A2.
  - intros a S R. unfold LightSame.reserved, inside in R. unfold c_stores, c_storesb in S. destruct (isop (i_op i) OCall); cbn [orb] in A3.
    + rewrite !andb_true_iff in S. lia.
    + apply andb_true_iff in S. destruct S as [_ S]. unfold a_stores in S. destruct (isop (i_op i) OPush); [lia|].
      destruct (i_wmem i); [|discriminate]. cbn [negb orb andb] in A3, S. lia.
Qed.
Lemma lev_ok A (R : qcaller unit) sp :
  (forall g cfa ra C (D : Z -> Prop) p q C', In g [0;1;2]%nat -> A g cfa ra C p = Some (q, C') -> (forall a, C a = true -> D a) ->
     exists D', R g t_lo cfa ra D p (QEnd q D') /\ forall a, C' a = true -> D' a) ->
  forall f C (D : Z -> Prop) c p q C', lev A f sp C c p = Some (q, C') -> (forall a, C a = true -> D a) ->
  exists D', qlrun t_code t_base 10 unit c_lib c_none c_lstores R sp D c p (QEnd q D') /\ forall a, C' a = true -> D' a.
Proof.
  intros AO. induction f as [|f IH]; intros C D c p q C' H CD; cbn [lev] in H; [discriminate|].
  destruct (c_lib c p) as [[p1 x]|] eqn:L; [|discriminate]. cbv zeta in H. destruct (p_rg p RSP <=? t_base) eqn:TB; [|discriminate].
  assert (CD1 : forall a, (C a || c_lstoresb c p a)%bool = true -> plus D (c_lstores c p) a).
  { intros a K. apply orb_true_iff in K. destruct K as [K|K]; [left; auto|right; exact K]. }
  assert (LF : lib_fine t_base 10 unit c_lib c_none c_lstores c D p p1 x).
  { split; [exact L|]. split; [intros a []|]. intros a S K. unfold LightSame.reserved, inside in K. unfold c_lstores, c_lstoresb in S.
    destruct (c_pushes c); [lia|discriminate]. }
  destruct x as [|g ra].
  - destruct (p_rg p1 RSP =? sp + 8) eqn:E; [|discriminate]. injection H as <- <-. eexists. split; [apply qr_back; [exact LF|lia]|exact CD1].
  - destruct (p_rg p1 RSP + 8 <=? sp) eqn:E; [|discriminate]. destruct (A g _ _ _ _) as [[q1 C2]|] eqn:EA; [|discriminate].
    assert (HG : In g [0;1;2]%nat).
    { apply c_lib_inv in L. destruct L as (_ & [(g' & ra' & P & _ & E2)|(_ & _ & E2)]); [|discriminate]. injection E2 as <- <-.
      apply c_pushes_in in P. apply P. }
    destruct (AO _ _ _ _ _ _ _ _ HG EA CD1) as (D2 & R1 & CD2). destruct (IH _ _ _ _ _ _ H CD2) as (D' & K1 & K2).
    exists D'. split; [|exact K2]. eapply qr_call; [exact LF| |lia|exact R1|exact K1].
    split; [exact HG|]. cbn in HG. destruct HG as [<-|[<-|[<-|[]]]]; reflexivity.
Qed.
Lemma c_goes b g : c_callee b = Some (Own g) -> exists e, is_call t_code b e /\ goes_to t_code e g.
Proof. destruct b as [|[|b]]; cbn; intros H; try discriminate. injection H as <-. apply (t_goes 1 1). reflexivity. Qed.
Lemma c_goes_out b name : c_callee b = Some (Foreign name) -> exists e, is_call t_code b e /\ goes_out t_code e name.
Proof. destruct b as [|[|b]]; cbn; intros H; try discriminate. injection H as <-. exists indcall_e. split; [split; [left; reflexivity|reflexivity]|reflexivity]. Qed.
Lemma qev_ok A (R : qcaller unit) cfa :
  (forall g cfa ra C (D : Z -> Prop) p q C', In g [0;1;2]%nat -> A g cfa ra C p = Some (q, C') -> (forall a, C a = true -> D a) ->
     exists D', R g t_lo cfa ra D p (QEnd q D') /\ forall a, C' a = true -> D' a) ->
  forall its C (D : Z -> Prop) fi p q C', qev A cfa C fi its p = Some (q, C') -> (forall a, C a = true -> D a) ->
  exists D' cs, c_qrun R t_lo cfa D fi its p cs (QEnd q D') /\ forall a, C' a = true -> D' a.
Proof.
  intros AO. induction its as [|x its IH]; intros C D fi p q C' H CD; cbn [qev] in H.
  - injection H as <- <-. exists D, []. split; [apply q_end|exact CD].
  - destruct x as [n|n i|sn|n].
    + destruct (heightb _ _ _ _ _) eqn:E; [|discriminate]. destruct (IH _ _ _ _ _ _ H CD) as (D' & cs & K1 & K2).
      exists D', cs. split; [|exact K2]. apply q_here; [|exact K1]. intros _ z Hz. apply (t_height _ _ _ E); [reflexivity|exact Hz].
    + destruct (c_asks _ _ _ _) eqn:AS; [|discriminate]. pose proof (c_asks_ok _ _ D _ _ AS CD) as AK.
      destruct (csem i p) as [p1|] eqn:SE; [|discriminate]. cbv zeta in H.
      assert (CD1 : forall a, (C a || c_storesb i p a)%bool = true -> plus D (c_stores i p) a).
      { intros a K. apply orb_true_iff in K. destruct K as [K|K]; [left; auto|right; exact K]. }
      destruct (isop (i_op i) OCall) eqn:OC.
      * apply isop_true in OC. destruct (match c_callee (snd n) with Some _ => _ | None => _ end) as [[q1 C2]|] eqn:EA; [|discriminate].
        destruct (slot_kept cfa p q1) eqn:SK; [|discriminate].
        assert (TH : exists D2, qthrough t_code t_base 10 unit csem c_after c_lib c_dials c_stores c_none c_lstores R D n i p (QEnd q1 D2) /\ forall a, C2 a = true -> D2 a).
        { destruct (c_callee (snd n)) as [[g'|name]|] eqn:TC; [| |discriminate].
          - destruct (c_goes _ _ TC) as (e & IC & GT). destruct (AO _ _ _ _ _ _ _ _ (proj1 (proj1 GT)) EA CD1) as (D2 & R1 & CD2).
            exists D2. split; [|exact CD2]. eapply qt_own; eauto.
          - destruct (c_goes_out _ _ TC) as (e & IC & GT). destruct (lev_ok A R _ AO _ _ _ _ _ _ _ EA CD1) as (D2 & R1 & CD2).
            exists D2. split; [|exact CD2]. eapply qt_lib; eauto. }
        destruct TH as (D2 & TH & CD2). destruct (IH _ _ _ _ _ _ H CD2) as (D' & cs & K1 & K2).
        exists D', ((q1, D2) :: cs). split; [|exact K2]. apply q_call; [exact OC|exact AK|exact TH|apply slot_kept_ok; exact SK|exact K1].
      * apply isop_false in OC. destruct (_ && _)%bool eqn:E; [|discriminate]. rewrite !andb_true_iff in E. destruct E as ((E1 & E2) & E3).
        destruct (IH _ _ _ _ _ _ H CD1) as (D' & cs & K1 & K2). exists D', cs. split; [|exact K2].
        eapply q_ins; [exact OC|exact SE|exact AK|lia|apply slot_kept_ok; exact E3|]. cbn [no_flags negb]. rewrite andb_true_r. exact K1.
    + destruct (_ || _)%bool eqn:E; [|discriminate].
      destruct (IH _ (less D (p_rg p RSP - snip_scratch sn) (snip_scratch sn)) _ _ _ _ H) as (D' & cs & K1 & K2).
      { intros a K. apply andb_true_iff in K. destruct K as [K1 K2]. split; [auto|]. unfold inside. lia. }
      exists D', cs. split; [|exact K2]. apply q_snip; [|exact K1]. intros P. rewrite P in E. cbn [negb orb] in E. lia.
    + destruct (_ && _)%bool eqn:E; [|discriminate]. rewrite !andb_true_iff in E. destruct E as ((E1 & E2) & E3).
      destruct (IH _ _ _ _ _ _ H CD) as (D' & cs & K1 & K2). exists D', cs. split; [|exact K2].
      apply q_out; [|apply c_enters_ok; exact E3|exact K1]. split; [intros _ z Hz; apply (t_height _ _ _ E1); [reflexivity|exact Hz]|]. intros _ c _ _. lia.
Qed.
Lemma aevq_ok : forall h n g cfa ra C (D : Z -> Prop) p q C', In g [0;1;2]%nat -> aevq h n g cfa ra C p = Some (q, C') ->
  (forall a, C a = true -> D a) -> exists D', c_quiet h n g t_lo cfa ra D p (QEnd q D') /\ forall a, C' a = true -> D' a.
Proof.
  induction h as [|h IH]; intros n g cfa ra C D p q C' HG H CD; cbn [aevq] in H; [discriminate|].
  destruct ((n <? 10)%nat && t_fits cfa)%bool eqn:E; [|discriminate]. apply andb_true_iff in E. destruct E as [E1 E2].
  destruct (c_items g) as [its|] eqn:TI; [|discriminate].
  destruct (qev _ _ _ _ _ _) as [[q1 C1]|] eqn:F; [|discriminate]. destruct (p_rg q1 RSP =? cfa - 8) eqn:E3; [|discriminate]. injection H as <- <-.
  destruct (qev_ok (aevq h (S n)) (c_quiet h (S n)) cfa) with (2 := F) (3 := CD) as (D' & cs & K1 & K2).
  { intros. eapply IH; eauto. }
  exists D'. split; [|exact K2]. cbn [quiet]. split; [apply Nat.ltb_lt in E1; lia|]. split.
  { destruct (t_fits_ok g cfa HG E2) as (F1 & hi & F2). split; [|exists hi; exact F2].
    assert (1000000 < W) by (vm_compute; reflexivity). unfold t_fits in E2. lia. }
  exists (fst (fst (t_path g))), (snd (fst (t_path g))), (snd (t_path g)), its, cs, (QEnd q1 D').
  split; [cbn in HG; destruct HG as [<-|[<-|[<-|[]]]]; vm_compute; reflexivity|].
  split; [cbn in HG; destruct HG as [<-|[<-|[<-|[]]]]; cbn; repeat split; discriminate|]. split; [exact TI|]. split; [exact K1|].
  apply ql_ret; [| |lia]; cbn in HG; destruct HG as [<-|[<-|[<-|[]]]]; try reflexivity; exists ret_e; (split; [left; reflexivity|reflexivity]).
Qed.
Fixpoint call_endsb (is : list insn) : bool :=
  match is with
  | [] => true
  | i :: r => (negb (isop (i_op i) OCall) || match r with [] => true | _ => false end) && call_endsb r
  end.
Lemma call_endsb_ok is : call_endsb is = true -> call_ends is.
Proof.
  induction is as [|x is IH]; intros H [|a l] i b E O; try discriminate; cbn [call_endsb app] in *; injection E as -> ->; apply andb_true_iff in H; destruct H as [H1 H2].
  - apply isop_true in O. rewrite O in H1. destruct b; [reflexivity|discriminate].
  - eapply IH; eauto.
Qed.
(** All bytes but the shadow stack. *)
Definition c_all (a : Z) : bool := negb ((t_base <=? a) && (a <? t_base + 112)).
(** Function 0 gets a push and a check.  It calls a library, which calls back 2, left alone, and 1, which
    keeps its return address in a register and writes to 70000; then it calls 1 itself.  The byte is written by both programs; both return to 5555. *)
Example C82_case :
  parsed t_code t_fs /\ (forall k, within t_code fl_plain eight k) /\ fl_light fl_plain = true /\
  run_light t_code = Ok (wsums t_code) /\
  (forall g, own t_code g -> analysed t_code (wsums t_code) g /\ tidy t_code g /\ (on_reg (planned t_code fl_plain (wsums t_code) t_fs g) = true -> names_ok t_code g)) /\
  calls_usual t_code /\ plain wopts /\ o_optimize_regs wopts = false /\
  machine_ok unit csem c_after b_loads c_stores no_flags /\ library_ok unit c_lib c_none c_lstores /\
  map (fun g => match c_items g with Some its => map kind its | None => [] end) [0;1;2]%nat =
    [[2; 0; 1; 4; 0; 1; 4; 0; 3]; [4; 0; 1; 1; 1; 4]; [0; 1]]%nat /\
  map (fun g => on_reg (planned t_code fl_plain (wsums t_code) t_fs g)) [0;1;2]%nat = [false; true; false] /\
  own t_code 0 /\ p_rg (t_start 70000) RSP = 65536 - 8 /\ load64 (p_mem (t_start 70000)) (65536 - 8) = 5555 /\
  exists q D, c_quiet 3 0 0 t_lo 65536 5555 (fun a => c_all a = true) (t_start 70000) (QEnd q D) /\
    D 70000 /\ p_mem (t_start 70000) 70000 <> 70000 /\ p_mem q 70000 = 70000 /\
  exists q', c_call true 3 0 5555 (t_start 70000) (Ended q') /\ p_mem q' 70000 = 70000 /\ p_rg q' RSP = 65536.
Proof.
  assert (CU : calls_usual t_code).
  { intros g b HG HB. apply (t_block g b HG) in HB. split.
    - apply call_endsb_ok. cbn in HB. destruct HB as [<-|[<-|[<-|[<-|[<-|[]]]]]]; vm_compute; reflexivity.
    - intros i HI O. cbn in HB.
      destruct HB as [<-|[<-|[<-|[<-|[<-|[]]]]]]; cbn in HI; repeat destruct HI as [<-|HI]; try contradiction; try discriminate;
        (split; [reflexivity|split; [exists P64; left; reflexivity|]]); intros r pt [K|[]]; injection K as <- _; reflexivity. }
  assert (WI : forall k, within t_code fl_plain eight k) by apply t_within.
  assert (FN : forall g, own t_code g -> analysed t_code (wsums t_code) g /\ tidy t_code g /\ (on_reg (planned t_code fl_plain (wsums t_code) t_fs g) = true -> names_ok t_code g)).
  { intros g HG. split; [apply t_analysed; exact HG|]. split; [apply t_tidy; exact HG|]. intros _. apply t_names; exact HG. }
  assert (PL : plain wopts) by (vm_compute; repeat split; discriminate).
  assert (OW : own t_code 0) by (split; [left; reflexivity|reflexivity]).
  assert (RA : load64 (p_mem (t_start 70000)) (65536 - 8) = 5555) by (vm_compute; reflexivity).
  assert (RUN : exists q C, aevq 3 0 0 65536 5555 c_all (t_start 70000) = Some (q, C) /\ C 70000 = true /\ p_mem q 70000 = 70000 /\ p_rg q RSP = 65536).
  { assert (K : match aevq 3 0 0 65536 5555 c_all (t_start 70000) with Some (q, C) => C 70000 && (p_mem q 70000 =? 70000) && (p_rg q RSP =? 65536) | None => false end = true) by (vm_compute; reflexivity).
    destruct (aevq 3 0 0 65536 5555 c_all (t_start 70000)) as [[q C]|]; [|discriminate]. exists q, C. rewrite !andb_true_iff, !Z.eqb_eq in K. tauto. }
  destruct RUN as (q & C & RUN & C1 & C2 & C3).
  pose proof (fun h n g cfa ra C p q C' HG H => aevq_ok h n g cfa ra C (fun a => C a = true) p q C' HG H (fun a K => K)) as OK.
  apply OK in RUN; [|left; reflexivity]. destruct RUN as (D & QT & CD).
  split; [apply t_parsed|]. split; [exact WI|]. split; [reflexivity|]. split; [apply t_run|]. split; [exact FN|]. split; [exact CU|].
  split; [exact PL|]. split; [reflexivity|]. split; [apply c_machine|]. split; [apply c_library|]. split; [vm_compute; reflexivity|]. split; [vm_compute; reflexivity|].
  split; [exact OW|]. split; [reflexivity|]. split; [exact RA|]. exists q, D. split; [exact QT|]. split; [auto|].
  split; [vm_compute; discriminate|]. split; [exact C2|].
  destruct (C82_executions_partial t_code fl_plain t_fs (wsums t_code) eight t_parsed WI eq_refl t_run FN CU wopts (fun _ => no_dead) PL eq_refl
    t_mp t_base 10 unit csem c_after c_lib c_turns c_dials b_loads c_stores c_none c_lstores no_flags c_machine c_library
    3 0 0%nat t_lo 65536 5555 (fun a => c_all a = true) (t_start 70000) (QEnd q D) OW eq_refl RA) with (4 := QT) as (_ & K).
  - assert (1000000 < W) by (vm_compute; reflexivity). lia.
  - intros a Ha. unfold Whole.slot in Ha. unfold c_all, t_base. lia.
  - intros a Ha R. unfold LightSame.reserved, inside in R. unfold c_all in Ha. lia.
  - destruct (K (t_start 70000) []) as ([q'|y|y] & K1 & K2); [split; auto| | |cbn; lia| |contradiction|contradiction].
    + intros r. assert (1000000 < W) by (vm_compute; reflexivity). destruct r; cbn; lia.
    + split; [vm_compute; reflexivity|]. split; [vm_compute; reflexivity|]. intros [|i] v E; discriminate.
    + exists q'. split; [exact K1|]. destruct K2 as (_ & (A1 & A2 & _) & _). split; [rewrite <- A2; auto|rewrite <- A1; exact C3].
Qed.
