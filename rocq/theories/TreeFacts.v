(** * TreeFacts: what holds of the calls of Tree.v *)
From Coq Require Import ZArith Bool Lia ZifyBool ZifyNat Arith String List.
From Verif Require Import Machine MachineFacts Jit ShadowSpec JitFacts JitPushPop History RegFrame Witness.
From Verif Require Import Dfs Binary CallGraph InterProc MemPasses Pipeline RegNames BlockLive ExSem ExCode
  Reach SafePaths Lowering P_Lower FastPath Decision P_Instr FullRun Whole P_Whole Sites SiteEx P_Regs P_Sites P_SiteUse
  Order Activation PlanCode ActRun P_Activation RegRun P_RegRun Tree.
Import ListNotations.
Open Scope Z_scope.
Local Notation mem := Machine.mem.

(** Leaving calls: down to [w], and then on to each of [ws]. *)
Fixpoint chain (w : Z) (ws : list Z) (l : list Z) : option (list Z) :=
  match unwind w l with
  | None => None
  | Some l' => match ws with [] => Some l' | w' :: r => chain w' r l' end
  end.
Lemma unwind_len w : forall l l', unwind w l = Some l' -> (List.length l' < List.length l)%nat.
Proof.
  induction l as [|v l IH]; cbn [unwind]; intros l' H; [discriminate|]. destruct (v =? w).
  - injection H as <-. cbn [List.length]. lia.
  - apply IH in H. cbn [List.length]. lia.
Qed.
Lemma rep_unique mm b l l' : shadow_rep mm b l -> shadow_rep mm b l' -> l = l'.
Proof.
  intros (A1 & _ & A3) (B1 & _ & B3).
  assert (LE : List.length l = List.length l') by (rewrite A1 in B1; unfold ShadowSpec.slot in B1; lia).
  rewrite <- (rev_involutive l), <- (rev_involutive l'). f_equal.
  assert (LR : List.length (rev l) = List.length (rev l')) by (rewrite !rev_length; exact LE).
  revert A3 B3 LR. generalize (rev l) (rev l'). intros u v A3 B3 LR.
  assert (N : forall i, nth_error u i = nth_error v i).
  { intros i. destruct (nth_error u i) as [x|] eqn:E.
    - destruct (nth_error v i) as [y|] eqn:E'.
      + rewrite <- (A3 i x E), <- (B3 i y E'). reflexivity.
      + apply nth_error_None in E'. assert (i < List.length u)%nat by (apply nth_error_Some; congruence). lia.
    - symmetry. apply nth_error_None. apply nth_error_None in E. lia. }
  clear - N. revert v N. induction u as [|x u IH]; intros [|y v] N; auto.
  - specialize (N 0%nat). discriminate.
  - specialize (N 0%nat). discriminate.
  - pose proof (N 0%nat) as N0. injection N0 as ->. f_equal. apply IH. intros i. apply (N (S i)).
Qed.

(** Items of a path. *)
Lemma node_items_in co ss n last n' i : In (Ins n' i) (node_items co ss n last) ->
  n' = n /\ In i (b_insns (co_block co (snd n))).
Proof.
  assert (CUT : forall is, is = fst (cut is) ++ snd (cut is)).
  { induction is as [|x t IH]; cbn [cut]; auto. destruct (isop (i_op x) ORet); cbn [fst snd app]; congruence. }
  assert (SN : forall l, ~ In (Ins n' i) (map Snip l)).
  { intros l K. apply in_map_iff in K. destruct K as (? & K & _). discriminate. }
  assert (WV : forall is, In (Ins n' i) (weave ss n is) -> n' = n /\ In i is).
  { intros is K. apply in_flat_map in K. destruct K as (j & J1 & J2). apply in_app_or in J2.
    destruct J2 as [J2|[J2|[]]]; [destruct (SN _ J2)|]. injection J2 as <- <-. auto. }
  unfold node_items. pose proof (CUT (b_insns (co_block co (snd n)))) as E. destruct (cut _) as [bd tl]. cbn [fst snd] in E.
  rewrite E. intros [K|K]; [discriminate|]. apply in_app_or in K. destruct K as [K|K]; [destruct (SN _ K)|].
  apply in_app_or in K. destruct K as [K|K].
  { apply WV in K. destruct K. split; auto. apply in_or_app; auto. }
  apply in_app_or in K. destruct K as [K|K]; [destruct (SN _ K)|]. destruct last.
  - apply in_flat_map in K. destruct K as (j & _ & J). destruct (SN _ J).
  - apply in_app_or in K. destruct K as [K|[K|[]]]; [|discriminate]. apply WV in K. destruct K. split; auto. apply in_or_app; auto.
Qed.
Lemma next_trg p n k e : snd (next p n k e) = e_trg e.
Proof.
  unfold next. destruct p; try reflexivity. unfold patched_trg. destruct n as [[] b], (l_ndebug l); reflexivity.
Qed.
Lemma segs_ins co ss p n' i : forall ks n sl, segs co p n ks = Some sl ->
  In (Ins n' i) (flat_map (seg_items co ss) sl) ->
  exists path, orig_blocks co (snd n) ks = Some path /\ In (snd n') path /\ In i (b_insns (co_block co (snd n'))).
Proof.
  induction ks as [|k ks IH]; intros n sl SG K; cbn [segs orig_blocks] in *.
  - injection SG as <-. cbn [flat_map seg_items] in K. rewrite app_nil_r in K. apply node_items_in in K. destruct K as [-> K].
    exists [snd n]. split; [reflexivity|]. split; [left; auto|exact K].
  - destruct (nth_error _ k) as [e|]; [|discriminate]. destruct (e_sink e || e_inter e)%bool; [discriminate|].
    destruct (segs co p (next p n k e) ks) as [sl'|] eqn:SG'; [|discriminate]. injection SG as <-.
    assert (OB : exists path, orig_blocks co (e_trg e) ks = Some path).
    { clear - SG'. rewrite <- (next_trg p n k e). generalize dependent (next p n k e). clear. revert sl'.
      induction ks as [|k ks IH]; intros sl n SG; cbn [segs orig_blocks] in *; [eauto|].
      destruct (nth_error _ k) as [e|]; [|discriminate]. destruct (e_sink e || e_inter e)%bool; [discriminate|].
      destruct (segs co p (next p n k e) ks) as [sl'|] eqn:SG'; [|discriminate]. apply IH in SG'. rewrite next_trg in SG'.
      destruct SG' as (path & ->). cbn. eauto. }
    destruct OB as (path & OB). rewrite OB. cbn [option_map]. exists (snd n :: path). split; [reflexivity|].
    cbn [flat_map] in K. apply in_app_or in K. destruct K as [K|K].
    + cbn [seg_items] in K. apply in_app_or in K. destruct K as [K|K].
      * apply node_items_in in K. destruct K as [-> K]. split; [left; auto|exact K].
      * destruct (fst n); [contradiction|]. apply in_map_iff in K. destruct K as (? & K & _). discriminate.
    + destruct (IH _ _ SG' K) as (path' & P1 & P2 & P3). rewrite next_trg, OB in P1. injection P1 as <-. split; [right; auto|exact P3].
Qed.
Lemma items_ins co ss fn p ks items path n i : plan_items co ss fn p ks = Some items ->
  orig_blocks co (f_entry (co_fun co fn)) ks = Some path -> In (Ins n i) items ->
  In (snd n) path /\ In i (b_insns (co_block co (snd n))).
Proof.
  intros PI OB K.
  assert (PI2 : option_map (fun l => map Snip (snips ss AtEntry) ++ flat_map (seg_items co ss) l)
           (segs co p (false, f_entry (co_fun co fn)) ks) = Some items).
  { rewrite <- PI. unfold plan_items. clear - PI. unfold plan_items in PI. destruct p; auto; discriminate. }
  destruct (segs co p _ ks) as [sl|] eqn:SG; [|discriminate]. injection PI2 as <-. apply in_app_or in K. destruct K as [K|K].
  - apply in_map_iff in K. destruct K as (? & K & _). discriminate.
  - destruct (segs_ins co ss p n i ks _ _ SG K) as (path' & P1 & P2 & P3). cbn [snd] in P1. rewrite OB in P1. injection P1 as <-. auto.
Qed.
Lemma items_plain co fn p ks items : plan_items co [] fn p ks = Some items -> forall sn, ~ In (Snip sn) items.
Proof.
  intros PI sn K.
  assert (PI2 : option_map (fun l => map Snip (snips [] AtEntry) ++ flat_map (seg_items co []) l)
           (segs co p (false, f_entry (co_fun co fn)) ks) = Some items).
  { rewrite <- PI. unfold plan_items. clear - PI. unfold plan_items in PI. destruct p; auto; discriminate. }
  destruct (segs co p _ ks) as [sl|]; [|discriminate]. injection PI2 as <-. cbn [snips map filter app] in K.
  apply in_flat_map in K. destruct K as (sg & _ & K).
  assert (WV : forall n is, ~ In (Snip sn) (weave [] n is)).
  { intros n is Q. apply in_flat_map in Q. destruct Q as (j & _ & Q). cbn in Q. destruct Q as [Q|[]]. discriminate. }
  assert (NI : forall n last, ~ In (Snip sn) (node_items co [] n last)).
  { intros n last Q. unfold node_items in Q. destruct (cut _) as [bd tl]. destruct Q as [Q|Q]; [discriminate|].
    cbn [snips map filter app] in Q. apply in_app_or in Q. destruct Q as [Q|Q]; [apply (WV _ _ Q)|].
    destruct last.
    - apply in_flat_map in Q. destruct Q as (? & _ & []).
    - apply in_app_or in Q. destruct Q as [Q|[Q|[]]]; [apply (WV _ _ Q)|discriminate]. }
  destruct sg as [n [kk|]]; cbn [seg_items] in K; [|apply (NI _ _ K)].
  apply in_app_or in K. destruct K as [K|K]; [apply (NI _ _ K)|]. destruct (fst n); [|cbn in K]; contradiction.
Qed.

Section PT.
Variables (co : code) (fl : Lowering.flags) (fs : list finfo) (m : sums) (width : insn -> Z) (stk : Z -> Prop).
Variables (o : opts) (d : nat -> dead_info) (mp : perm) (base : Z) (k : nat) (usable0 : Z -> Prop).
Variable X : Type.
Variable sem : insn -> pst Machine.flags X -> option (pst Machine.flags X).
Notation pstate := (pst Machine.flags X).
Hypothesis PA : parsed co fs.
Hypothesis SU : forall k, within co fl width k.
Hypothesis LI : fl_light fl = true.
Hypothesis SFE : fl_no_sfe fl = false.
Hypothesis RL : run_light co = Ok m.
Hypothesis AN : forall g, own co g -> analysed co m g.
Hypothesis TIDY : forall g, own co g -> tidy co g.
Hypothesis NAMES : forall g, own co g -> names_ok co g.
Hypothesis PL : plain o.
Hypothesis GE : forall g, good_dead o (di_entry (d g)).
Hypothesis GX : forall g a l, zfind (di_exit (d g)) a = Some l -> good_dead o l.
Hypothesis SF : stack_facts sem.
Hypothesis KU : keeps_unwritten sem.
Hypothesis CALLS : forall g b i, own co g -> In b (f_blocks (co_fun co g)) -> In i (b_insns (co_block co b)) ->
  i_op i = OCall -> i_wmem i = true /\ exists pt, In (MG RSP pt) (i_written i).

Notation running := (running X).
Notation frun := (frun co fs width stk o mp base usable0 X sem).
Notation called := (called co stk base X).
Notation fits := (fits co stk mp base k usable0).
Notation arun := (arun co fl fs m width stk o d mp base k usable0 X sem).
Notation wfp := (wfp X).
Notation rep p l := (shadow_rep (p_mem p) base l).
Notation plan_of := (planned co fl m fs).

(** ** What is shown of a call made with the addresses [l] on the shadow stack *)
Definition claim0 (l : list Z) (z : ending X) : Prop :=
  match z with
  | Back q => wfp q /\ rep q l
  | Away q w ws => wfp q /\ exists l', chain w ws l = Some l' /\ rep q l'
  | Halt w r => w <> r
  | Fail => False
  | Cut | Null => True
  end.
Definition kept (cfa : Z) (p q : pstate) : Prop := same_on (above stk cfa) (p_mem p) (p_mem q).
Definition claim (g : nat) (cfa : Z) (p : pstate) (l : list Z) (z : ending X) : Prop :=
  claim0 l z /\ match z with Back q => harmless co g -> p_rg q RSP = cfa /\ kept cfa p q | _ => True end.
Definition enters_ok (cfa ra : Z) (p : pstate) (l : list Z) : Prop :=
  wfp p /\ p_rg p RSP = cfa - 8 /\ load64 (p_mem p) (cfa - 8) = ra /\ rep p l.
Definition runs_ok (A : running) (n : nat) : Prop :=
  forall g lo cfa ra p z l, own co g -> A g lo cfa ra p z -> enters_ok cfa ra p l -> (List.length l <= n)%nat ->
  claim g cfa p l z.
Definition has_room (A : running) : Prop :=
  forall g lo cfa ra p z, A g lo cfa ra p z -> z = Cut \/ fits g lo cfa.

Lemma block_in g : own co g -> In (f_entry (co_fun co g)) (f_blocks (co_fun co g)).
Proof. intros H. destruct (p_fn _ _ PA g H) as ((HE & _) & _). exact HE. Qed.
Lemma fits_cfa g lo cfa : own co g -> fits g lo cfa -> exists hi, mapped mp lo (hi - lo) /\ cfa <= hi /\
  apart lo (hi - lo) base (32 + 8 * Z.of_nat k) /\ lo + 24 <= cfa /\ (forall x, Whole.slot cfa x -> stk x).
Proof.
  intros HG (L & hi & R). exists hi. destruct R as [R1 R2 R3 R4 R5 R6 R7].
  pose proof (R5 _ (block_in g HG)). split; auto. split; [lia|]. auto.
Qed.
Lemma chain_le w : forall ws l l', chain w ws l = Some l' -> (List.length l' <= List.length l)%nat.
Proof.
  intros ws; revert w. induction ws as [|w' ws IH]; intros w l l' H; cbn [chain] in H;
    destruct (unwind w l) as [l1|] eqn:U; try discriminate; apply unwind_len in U.
  - injection H as <-. lia.
  - apply IH in H. lia.
Qed.

(** Entering a function by a call. *)
Lemma enter_ok A n g lo ra p z l : runs_ok A n -> has_room A -> own co g -> 0 <= ra < W ->
  A g lo (p_rg p RSP) ra (pushed X p ra) z -> wfp p -> rep p l -> (List.length l <= n)%nat -> (n <= k)%nat ->
  claim g (p_rg p RSP) (pushed X p ra) l z.
Proof.
  intros AO AF HG RA AR WF RP LN NK. destruct (AF _ _ _ _ _ _ AR) as [->|FT]; [split; exact I|].
  destruct (fits_cfa _ _ _ HG FT) as (hi & (M1 & M2 & M3) & CH & AP & LC & _).
  apply (AO g lo (p_rg p RSP) ra (pushed X p ra) z l HG AR); auto. unfold enters_ok, pushed. cbn [p_rg p_mem].
  split; [|split; [apply updr_same|split; [apply load64_store64_same; exact RA|]]].
  - intros r. cbn [p_rg]. destruct (reg_eq_dec r RSP) as [->|N].
    + rewrite updr_same. pose proof (WF RSP). lia.
    + rewrite updr_other by auto. apply WF.
  - apply shadow_rep_ext with (m := p_mem p); [exact RP|]. unfold inside. intros x Hx. unfold store64. apply store_out.
    unfold apart in AP. cbn. lia.
Qed.
(** Library code. *)
Lemma libs_ok A n : runs_ok A n -> has_room A -> (n <= k)%nat ->
  forall p z, libs co base X A p z -> forall l, wfp p -> rep p l -> (List.length l <= n)%nat -> claim0 l z.
Proof.
  intros AO AF NK p z H. induction H as [p p' (L1 & L2)|p p1 g lo ra p2 z (L1 & L2) HG RA AR H IH|p p1 g lo ra z (L1 & L2) HG RA AR NB];
    intros l WF RP LN.
  - split; auto.
  - destruct (enter_ok A n g lo ra p1 (Back p2) l AO AF HG RA AR L1 (L2 l RP) LN NK) as ((B1 & B2) & _). apply IH; auto.
  - apply (enter_ok A n g lo ra p1 z l AO AF HG RA AR L1 (L2 l RP) LN NK).
Qed.
(** Calls. *)
Definition tame_edge (e : edge) : Prop :=
  (forall g, goes_to co e g -> harmless co g) /\
  (forall name, goes_out co e name -> exists s, name = Some s /\ trusted_lib s).
Lemma called_ok A n cfa wd e p z l : runs_ok A n -> has_room A -> (n <= k)%nat -> called A cfa wd e p z ->
  wfp p -> rep p l -> (List.length l <= n)%nat ->
  claim0 l z /\
  match z with
  | Back q => wd = false -> tame_edge e -> p_rg p RSP <= cfa - 8 -> p_rg q RSP = p_rg p RSP /\ kept cfa p q
  | _ => True
  end.
Proof.
  intros AO AF NK C WF RP LN. destruct C as [g lo ra z GT RA AR|s q GO TR TM (L1 & L2) RS|name z GO WT LB].
  - destruct (enter_ok A n g lo ra p z l AO AF (proj1 GT) RA AR WF RP LN NK) as (C0 & C1). split; [exact C0|].
    destruct z; auto. intros TM (TE & _) RS. destruct (C1 (TE g GT)) as (B1 & B2). split; [exact B1|].
    intros x (H1 & H2). rewrite (B2 x) by (split; [exact H1|lia]). cbn [pushed p_mem]. unfold store64. apply store_out. cbn. lia.
  - destruct L1 as (L1 & L3). split; [split; auto|]. intros _ _ _. split; auto.
  - split; [apply (libs_ok A n AO AF NK p z LB l WF RP LN)|]. destruct z; auto. intros TM (_ & TE) _. exfalso.
    destruct (TE name GO) as (s & -> & TR). destruct WT as [WT|WT]; [congruence|]. apply (WT s eq_refl TR).
Qed.
Lemma outer_ok (pu : bool) ra l z : claim0 (if pu then ra :: l else l) z -> (forall q, z <> Back q) -> claim0 l (outer X pu ra z).
Proof.
  destruct z as [q|q w ws|w r| | |]; cbn [outer claim0]; auto; [intros _ NB; destruct (NB q eq_refl)|]. intros (W & l' & C & R) _.
  destruct pu; cbn [andb]; [|split; eauto]. cbn [chain unwind] in C. destruct ws as [|w' ws].
  - cbn [chain unwind] in C. rewrite Z.eqb_sym in C. destruct (w =? ra).
    + injection C as <-. split; auto.
    + cbn [claim0 chain]. split; eauto.
  - cbn [chain unwind] in C. rewrite Z.eqb_sym in C. destruct (w =? ra).
    + cbn [claim0]. split; eauto.
    + cbn [claim0 chain]. split; eauto.
Qed.
Lemma outer_back pu ra z q : (forall q, z <> Back q) -> outer X pu ra z = Back q -> pu = true.
Proof. intros NB. destruct z; cbn [outer]; intros H; try discriminate; [destruct (NB _ H)|]. destruct pu; auto. discriminate. Qed.

(** ** The end of a path *)
(** What is returned to, and what is on the shadow stack then. *)
Definition landing (ra w : Z) (l l1 : list Z) : Prop := (w = ra /\ l1 = l) \/ (w <> ra /\ unwind w l = Some l1).
Lemma landing_len ra w l l1 : landing ra w l l1 -> (List.length l1 <= List.length l)%nat.
Proof. intros [(_ & ->)|(_ & U)]; [lia|apply unwind_len in U; lia]. Qed.
Lemma goes_ok ra w l l1 q : landing ra w l l1 -> wfp q -> rep q l1 -> claim0 l (goes X ra w q).
Proof.
  unfold goes. intros [(-> & ->)|(N & U)] H1 H2.
  - rewrite Z.eqb_refl. split; auto.
  - replace (w =? ra) with false by lia. split; auto. cbn [chain]. rewrite U. eauto.
Qed.
Lemma via_ok ra w l l1 z : landing ra w l l1 -> claim0 l1 z -> claim0 l (via X ra w z).
Proof.
  intros L. destruct z as [q|q w' ws|w' r| | |]; cbn [via]; auto.
  - intros (H1 & H2). eapply goes_ok; eauto.
  - intros (H1 & l' & C & R). destruct L as [(-> & ->)|(N & U)].
    + rewrite Z.eqb_refl. split; eauto.
    + replace (w =? ra) with false by lia. split; auto. cbn [chain]. rewrite U. eauto.
Qed.
Lemma finish A T n g lo cfa ra last pu p0 p wd tr z l :
  runs_ok A (S n) -> has_room A -> runs_ok T n -> (S n <= k)%nat -> own co g -> In last (f_blocks (co_fun co g)) ->
  frun A T g lo cfa ra last pu [] p wd tr z -> (List.length l <= n)%nat ->
  (at_slot X cfa p wd -> exists l1, landing ra (word_at X p) l l1 /\ rep p l1) ->
  (harmless co g -> wd = false /\ load64 (p_mem p) (cfa - 8) = ra /\ kept cfa p0 p) ->
  claim g cfa p0 l z.
Proof.
  intros AO AF TO NK HG HL R LN LAND HARM.
  assert (WRA : harmless co g -> at_slot X cfa p wd -> word_at X p = ra).
  { intros H S. destruct (HARM H) as (T1 & T2 & _). unfold word_at. rewrite (S T1). exact T2. }
  inversion R as [| | | | | | | | | | |? ? ? IR RG CR AS WP|? ? ? e g' lo' z' IT RG CR AS WP GT TR
    |? ? ? e s q IT RG CR AS GO TL TM TS RS|? ? ? e name z' IT RG CR AS WP GO WT LB]; subst.
  - split; exact I.
  - split; exact I.
  - destruct (LAND AS) as (l1 & L1 & L2). split; [eapply goes_ok; eauto|].
    unfold goes. destruct (word_at X p =? ra); [|exact I]. intros H. destruct (HARM H) as (T1 & T2 & T3).
    cbn [popped p_rg p_mem]. rewrite updr_same, (AS T1). split; [lia|exact T3].
  - destruct (LAND AS) as (l1 & L1 & L2). pose proof (landing_len _ _ _ _ L1) as LL.
    assert (EN : enters_ok (p_rg p RSP + 8) (word_at X p) p l1).
    { split; [exact WP|]. split; [lia|]. split; [unfold word_at; f_equal; lia|exact L2]. }
    destruct (TO g' lo' (p_rg p RSP + 8) (word_at X p) p z' l1 (proj1 GT) TR EN) as (C0 & C1); [lia|].
    split; [eapply via_ok; eauto|]. destruct (via X ra (word_at X p) z') as [q| | | | |] eqn:V; auto. intros H.
    destruct (HARM H) as (T1 & T2 & T3). pose proof (WRA H AS) as WR.
    destruct z' as [q'| | | | |]; cbn [via] in V; try discriminate.
    + unfold goes in V. rewrite WR, Z.eqb_refl in V. injection V as ->.
      destruct C1 as (B1 & B2). { apply (SU Tail g last e); auto. }
      rewrite (AS T1) in B1, B2. split; [lia|]. intros x Hx. rewrite (B2 x); [apply T3; exact Hx|].
      replace (cfa - 8 + 8) with cfa by lia. exact Hx.
    + rewrite WR, Z.eqb_refl in V. discriminate.
  - destruct (LAND AS) as (l1 & L1 & L2). destruct TS as ((S1 & S2) & S3).
    split; [eapply goes_ok; eauto|]. unfold goes. destruct (word_at X p =? ra); [|exact I]. intros H.
    destruct (HARM H) as (T1 & T2 & T3). rewrite RS, (AS T1). split; [lia|]. intros x Hx. rewrite (S3 x Hx). apply T3. exact Hx.
  - destruct (LAND AS) as (l1 & L1 & L2). pose proof (landing_len _ _ _ _ L1) as LL.
    split; [eapply via_ok; [eauto|]; apply (libs_ok A (S n) AO AF NK p z' LB l1 WP L2); lia|].
    destruct (via X ra (word_at X p) z') as [q| | | | |] eqn:V; auto. intros H. exfalso.
    destruct (HARM H) as (T1 & _). destruct (SU Tail g last e HG H HL IT) as (_ & TL). destruct (TL name GO) as (s & -> & TR).
    destruct WT as [WT|WT]; [congruence|]. apply (WT s eq_refl TR).
Qed.

(** ** Functions without inserted code *)
Lemma RL' : fl_light fl = true -> run_light co = Ok m.
Proof. auto. Qed.
Lemma harmless_block g b : own co g -> harmless co g -> In b (f_blocks (co_fun co g)) ->
  (forall i cfa x, In i (b_insns (co_block co b)) -> above stk cfa x -> ~ decoded width stk cfa i x) /\
  (forall e, is_call co b e -> tame_edge e).
Proof.
  intros HG H HB. destruct (harmless_calm co fl fs m width stk PA SU RL' g b HG H LI HB) as (C1 & C2 & C3). split.
  - intros i cfa x HI (A1 & A2) (F1 & F2 & l & L1 & L2). destruct l as [off| | |]; cbn [covers] in L2; try contradiction.
    + assert (x - cfa < -8); [|lia]. apply (C1 i off (x - cfa)); auto. lia.
    + apply C2. exists i. split; auto. split; auto.
  - intros e HC. destruct (C3 e HC) as (C4 & C5). split; [|exact C5]. intros g' GT.
    apply (sf_harmless co fl fs m width PA SU RL'); auto. apply GT.
Qed.
Lemma direct A T n g lo cfa ra last p0 l :
  runs_ok A (S n) -> has_room A -> runs_ok T n -> (S n <= k)%nat -> own co g -> In last (f_blocks (co_fun co g)) ->
  (can_return fs g = true -> harmless co g) -> load64 (p_mem p0) (cfa - 8) = ra ->
  (forall x, Whole.slot cfa x -> stk x) -> (List.length l <= n)%nat ->
  forall pu its p wd tr z, frun A T g lo cfa ra last pu its p wd tr z ->
  pu = false -> (forall sn, ~ In (Snip sn) its) ->
  (forall nd i, In (Ins nd i) its -> In (snd nd) (f_blocks (co_fun co g)) /\ In i (b_insns (co_block co (snd nd)))) ->
  wfp p -> in_fr usable0 X lo cfa p wd -> rep p l -> (harmless co g -> wd = false /\ kept cfa p0 p) ->
  claim g cfa p0 l z.
Proof.
  intros AO AF TO NK HG HL CRH P0 SLOT LN.
  assert (FINI : forall pu p wd tr z, frun A T g lo cfa ra last pu [] p wd tr z -> wfp p -> rep p l ->
            (harmless co g -> wd = false /\ kept cfa p0 p) -> claim g cfa p0 l z).
  { intros pu p wd tr z R WF RP HARM. destruct (can_return fs g) eqn:CR.
    - pose proof (CRH eq_refl) as H. destruct (HARM H) as (T1 & T2).
      assert (SW : load64 (p_mem p) (cfa - 8) = ra).
      { rewrite <- P0. apply load64_ext. intros x Hx. apply T2. split; [apply SLOT; unfold Whole.slot; lia|lia]. }
      apply (finish A T n g lo cfa ra last pu p0 p wd tr z l); auto.
      intros AS. exists l. split; [left; split; [unfold word_at; rewrite (AS T1); exact SW|auto]|exact RP].
    - inversion R; subst; try congruence; split; exact I. }
  intros pu its p wd tr z R. induction R as [pu its p wd|pu nd r p wd tr z HH R IH|pu nd r p wd tr z HH R IH
    |pu nd i r p wd p' wd' tr z OC SE PS R IH|pu nd i r p wd e q wd' tr z OC IC CA BS R IH
    |pu nd i r p wd e z OC IC CA NB|pu sn c u r p wd tr z SC EX R IH|pu sn c r p wd SC EX
    |pu sn c r p wd SC EX|pu sn r p wd SC|pu p wd LV W0 R0|pu p wd IR RG CR AS WP|pu p wd e g' lo' z IT RG CR AS WP GT TR
    |pu p wd e s q IT RG CR AS GO TL TM TS RS|pu p wd e name z IT RG CR AS WP GO WT LB]; intros PU NS INS WF INF RP HARM;
    try (destruct (NS sn); left; reflexivity).
  - split; exact I.
  - apply IH; auto. intros sn K. apply (NS sn). right; auto. intros a b K. apply INS. right; auto.
  - apply IH; auto. intros sn K. apply (NS sn). right; auto. intros a b K. apply INS. right; auto.
  - destruct PS as (P1 & P2 & P3 & _ & P5). destruct (INS nd i (or_introl eq_refl)) as [I1 I2].
    apply IH; auto. { intros sn K. apply (NS sn). right; auto. } { intros a b K. apply INS. right; auto. }
    intros H. destruct (HARM H) as (T1 & T2). destruct (harmless_block g (snd nd) HG H I1) as (B1 & _).
    destruct (P5 T1) as (Q1 & Q2). split.
    + destruct wd'; auto. destruct (Q2 eq_refl) as (_ & x & X1 & X2). destruct (B1 i cfa x I2 X1 X2).
    + intros x Hx. rewrite <- (T2 x Hx). destruct (Z.eq_dec (p_mem p' x) (p_mem p x)) as [E|E]; auto.
      destruct (B1 i cfa x I2 Hx (Q1 x Hx E)).
  - destruct (INS nd i (or_introl eq_refl)) as [I1 I2].
    destruct (called_ok A (S n) cfa wd e p (Back q) l AO AF NK CA WF RP) as ((C1 & C2) & C3); [lia|].
    destruct BS as (B1 & B2).
    apply IH; auto. { intros sn K. apply (NS sn). right; auto. } { intros a b K. apply INS. right; auto. }
    intros H. destruct (HARM H) as (T1 & T2). destruct (harmless_block g (snd nd) HG H I1) as (_ & B3).
    pose proof (B3 e IC) as TE. assert (RS : p_rg p RSP <= cfa - 8) by (rewrite T1 in INF; cbn in INF; lia).
    destruct (C3 T1 TE RS) as (D1 & D2). split.
    + destruct wd'; auto. destruct (B2 T1 eq_refl) as [K|K]; [destruct (K TE)|congruence].
    + intros x Hx. rewrite (D2 x Hx). apply T2; exact Hx.
  - destruct (called_ok A (S n) cfa wd e p z l AO AF NK CA WF RP) as (C1 & _); [lia|]. subst pu.
    split; [apply outer_ok; auto|]. destruct (outer X false ra z) eqn:E; auto. apply outer_back in E; [discriminate|exact NB].
  - split; exact I.
  - apply (FINI pu p wd [] _); auto. apply f_ret; auto.
  - apply (FINI pu p wd [] _); auto. eapply f_tail; eauto.
  - apply (FINI pu p wd [] _); auto. eapply f_tail_trusted; eauto.
  - apply (FINI pu p wd [] _); auto. eapply f_tail_other; eauto.
Qed.

(** ** The states of a function as those of Activation.v, with the states to come *)
Definition X' : Type := (X * (bool * list (pstate * bool)))%type.
Definition sc' : scope X' := mkScope (fun x => fst (snd x)) usable0.
Notation pstate' := (pst Machine.flags X').
Definition pack (p : pstate) (wd : bool) (tr : list (pstate * bool)) : pstate' :=
  mkPst (p_rg p) (p_mem p) (p_fl p) (p_rest p, (wd, tr)).
Definition strip (st : pstate') : pstate := mkPst (p_rg st) (p_mem st) (p_fl st) (fst (p_rest st)).
Lemma strip_pack p wd tr : strip (pack p wd tr) = p.
Proof. destruct p; reflexivity. Qed.
Definition writes_sp (i : insn) : bool :=
  existsb (fun x => match x with MG RSP _ => true | _ => false end) (i_written i).
Lemma writes_sp_iff i : writes_sp i = true <-> exists pt, In (MG RSP pt) (i_written i).
Proof.
  unfold writes_sp. rewrite existsb_exists. split.
  - intros (x & H1 & H2). destruct x as [[] pt| |]; try discriminate; eauto.
  - intros (pt & H). exists (MG RSP pt). auto.
Qed.
(** Calls are looked up, if [c]. *)
Definition osem (c : bool) (i : insn) (st : pstate') : option pstate' :=
  match snd (snd (p_rest st)) with
  | [] => None
  | (q, w) :: tr =>
      if isop (i_op i) OCall then if c && i_wmem i && writes_sp i then Some (pack q w tr) else None
      else match sem i (strip st) with
           | Some p' => if load64 (p_mem p') (base + 8) =? load64 (p_mem st) (base + 8) then Some (pack p' w tr) else None
           | None => None
           end
  end.
Lemma osem_inv c i st st' : osem c i st = Some st' ->
  (i_op i = OCall /\ c = true /\ i_wmem i = true /\ writes_sp i = true) \/
  (i_op i <> OCall /\ exists p', sem i (strip st) = Some p' /\ p_rg st' = p_rg p' /\ p_mem st' = p_mem p' /\
     load64 (p_mem p') (base + 8) = load64 (p_mem st) (base + 8)).
Proof.
  unfold osem. destruct (snd (snd (p_rest st))) as [|[q w] tr]; [discriminate|].
  destruct (isop (i_op i) OCall) eqn:E.
  - destruct (c && i_wmem i && writes_sp i)%bool eqn:E2; [|discriminate]. rewrite !andb_true_iff in E2. intros _. left.
    split; [apply isop_true; auto|tauto].
  - apply isop_false in E. destruct (sem i (strip st)) as [p'|]; [|discriminate].
    destruct (_ =? _) eqn:E3; [|discriminate]. intros K. injection K as <-. right. split; auto. exists p'.
    repeat split; auto. lia.
Qed.
Lemma osem_facts : stack_facts (osem true).
Proof.
  constructor; intros i s s' H; intros.
  - apply osem_inv in H0. destruct H0 as [(K & _)|(_ & p' & S & -> & -> & _)]; [congruence|].
    apply (sf_push _ _ _ SF i (strip s) p' H S).
  - apply osem_inv in H1. destruct H1 as [(K & _)|(_ & p' & S & -> & _ & _)]; [congruence|].
    apply (sf_pop _ _ _ SF i (strip s) p' H H0 S).
  - apply osem_inv in H1. destruct H1 as [(_ & _ & K & _)|(_ & p' & S & _ & -> & _)]; [congruence|].
    apply (sf_mem _ _ _ SF i (strip s) p' H H0 S).
  - apply osem_inv in H0. destruct H0 as [(_ & _ & _ & K)|(_ & p' & S & -> & _ & _)].
    + apply writes_sp_iff in K. destruct K as (pt & K). destruct (H pt K).
    + apply (sf_sp _ _ _ SF i (strip s) p' H S).
Qed.
Lemma osem_unwritten : keeps_unwritten (osem false).
Proof.
  intros i s s' r H NW. apply osem_inv in H. destruct H as [(_ & K & _)|(_ & p' & S & -> & _ & _)]; [discriminate|].
  apply (KU i (strip s) p' r S NW).
Qed.
Lemma osem_word : keeps_word base (osem false).
Proof.
  intros i s s' H. apply osem_inv in H. destruct H as [(_ & K & _)|(_ & p' & S & _ & -> & E)]; [discriminate|]. exact E.
Qed.
Lemma room_up g lo cfa hi : room co g unit mp base lo cfa hi stk (mkScope (fun _ => false) usable0) k ->
  room co g X' mp base lo cfa hi stk sc' k.
Proof. intros [R1 R2 R3 R4 R5 R6 R7]. constructor; auto. Qed.
Lemma plain_up lo cfa nd i p wd p' wd' tr1 tr : (forall x, Whole.slot cfa x -> stk x) ->
  plain_step width stk base usable0 X lo cfa i p wd p' wd' ->
  step_ok X' co base lo cfa width stk (harmless co) sc' nd i (pack p wd tr1) (pack p' wd' tr).
Proof.
  intros SLOT (P1 & P2 & P3 & _ & P5). split; [exact P1|]. split; [exact P2|]. split; [exact P3|].
  intros G. destruct (P5 G) as (Q1 & Q2). split.
  - intros x Hx NE. left. apply (Q1 x); [|exact NE]. split; [apply SLOT; exact Hx|unfold Whole.slot in Hx; lia].
  - intros G'. destruct (Q2 G') as (O1 & x & X1 & F1 & F2 & l & L1 & L2). split; [exact F2|]. split; [exact O1|]. left.
    split; [exact F1|]. exists l, x. auto.
Qed.
Lemma osem_ins c i p wd p' wd' tr : i_op i <> OCall -> sem i p = Some p' ->
  load64 (p_mem p') (base + 8) = load64 (p_mem p) (base + 8) ->
  osem c i (pack p wd ((p', wd') :: tr)) = Some (pack p' wd' tr).
Proof.
  intros OC SE LW. unfold osem. cbn [p_rest pack snd]. replace (isop (i_op i) OCall) with false by (symmetry; apply isop_false; auto).
  rewrite strip_pack, SE. cbn [p_mem]. rewrite LW, Z.eqb_refl. reflexivity.
Qed.
Lemma osem_call i p wd q wd' tr : i_op i = OCall -> i_wmem i = true -> (exists pt, In (MG RSP pt) (i_written i)) ->
  osem true i (pack p wd ((q, wd') :: tr)) = Some (pack q wd' tr).
Proof.
  intros OC WM WS. unfold osem. cbn [p_rest pack snd]. replace (isop (i_op i) OCall) with true by (symmetry; apply isop_true; auto).
  apply writes_sp_iff in WS. rewrite WM, WS. reflexivity.
Qed.

(** ** Following a run of Activation.v *)
Notation irun' c lo cfa := (irun X' co (osem c) mp o base lo cfa width stk (harmless co) sc').
Lemma follow_fin c A T g lo cfa ra last : forall a r pu p wd tr z st',
  z <> Cut -> z <> Null ->
  irun' c lo cfa a (pack p wd tr) (Fin X' st') ->
  frun A T g lo cfa ra last pu (a ++ r) p wd tr z ->
  exists p' wd' tr', st' = pack p' wd' tr' /\ frun A T g lo cfa ra last (pu || recorded a) r p' wd' tr' z.
Proof.
  induction a as [|x a IH]; intros r pu p wd tr z st' NC NN I R.
  - inversion I; subst. cbn [app recorded existsb] in *. rewrite orb_false_r. eauto.
  - cbn [app] in R. inversion R as [|? n ? ? ? ? ? HH R1|? n ? ? ? ? ? HH R1
    |? n i ? ? ? p1 w1 tr1 ? OC SE PS R1|? n i ? ? ? e q w1 tr1 ? OC IC CA BS R1
    |? n i ? ? ? e z1 OC IC CA NB|? sn cc u ? ? ? ? ? SC EX R1|? sn cc ? ? ? SC EX
    |? sn cc ? ? ? SC EX|? sn ? ? ? SC|? ? ? LV W0 R0|? ? ? IR RG CR AS WP|? ? ? e g' lo' z' IT RG CR AS WP GT TR
    |? ? ? e s q IT RG CR AS GO TL TM TS RS|? ? ? e name z' IT RG CR AS WP GO WT LB]; subst; try congruence; cbn [recorded existsb];
      fold (recorded a).
    + inversion I; subst. cbn [orb]. eapply IH; eauto.
    + inversion I; subst. cbn [orb]. eapply IH; eauto.
    + inversion I as [| | |? ? ? ? pp ? OS ST I1| | | |]; subst. cbn [orb].
      assert (E : osem c i (pack p wd ((p1, w1) :: tr1)) = Some (pack p1 w1 tr1)) by (apply osem_ins; auto; apply PS).
      rewrite E in OS. injection OS as <-. eapply IH; eauto.
    + inversion I as [| | |? ? ? ? pp ? OS ST I1| | | |]; subst. cbn [orb].
      assert (E : pp = pack q w1 tr1).
      { unfold osem in OS. cbn [p_rest pack snd] in OS.
        replace (isop (i_op i) OCall) with true in OS by (symmetry; apply isop_true; auto).
        destruct (_ && _)%bool in OS; [|discriminate]. congruence. }
      subst pp. eapply IH; eauto.
    + inversion I as [| | |? ? ? ? pp ? OS ST I1| | | |]; subst. discriminate.
    + inversion I as [| | | |? c1 u1 ? ? ? SC1 EX1 I1| | |]; subst. rewrite SC in SC1. injection SC1 as <-.
      change (as_state X' base (pack p wd tr)) with (as_state X base p) in EX1.
      pose proof (exec_det _ _ _ _ _ EX EX1) as E. injection E as <-.
      change (of_state X' u (pack p wd tr)) with (pack (of_state X u p) wd tr) in I1.
      destruct (IH _ _ _ _ _ _ _ NC NN I1 R1) as (p2 & wd2 & tr2 & E1 & E2). exists p2, wd2, tr2. split; [exact E1|].
      replace (pu || _)%bool with ((pu || is_push sn) || recorded a)%bool; [exact E2|].
      rewrite <- orb_assoc. f_equal.
    + inversion I as [| | | |? c1 u1 ? ? ? SC1 EX1 I1| | |]; subst. rewrite SC in SC1. injection SC1 as <-.
      change (as_state X' base (pack p wd [])) with (as_state X base p) in EX1.
      pose proof (exec_det _ _ _ _ _ EX EX1). discriminate.
    + inversion I as [| | | |? c1 u1 ? ? ? SC1 EX1 I1| | |]; subst. rewrite SC in SC1. injection SC1 as <-.
      change (as_state X' base (pack p wd [])) with (as_state X base p) in EX1.
      pose proof (exec_det _ _ _ _ _ EX EX1). discriminate.
    + inversion I; subst. congruence.
Qed.
Lemma stopped_at c lo cfa : forall its st st' r, irun' c lo cfa its st (Stopped X' st' r) ->
  exists a sn cc, its = a ++ Snip sn :: r /\ irun' c lo cfa a st (Fin X' st') /\ snip_code o sn = Some cc /\
    exec cc mp (as_state X' base st') Trap.
Proof.
  intros its st st' r H. remember (Stopped X' st' r) as out eqn:E. revert E.
  induction H as [st|n r1 p0 out HH H IH|n r1 p0 out HH H IH|n i r1 p0 p' out OS ST H IH|sn cc u r1 p0 out SC EX H IH
    |sn cc r1 p0 SC EX|sn cc r1 p0 SC EX|sn r1 p0 SC]; intros E; try discriminate.
  - destruct (IH E) as (a & sn & cc & -> & I & SC & EX). exists (Here n :: a), sn, cc. split; [reflexivity|]. split; [constructor; auto|auto].
  - destruct (IH E) as (a & sn & cc & -> & I & SC & EX). exists (Out n :: a), sn, cc. split; [reflexivity|]. split; [constructor; auto|auto].
  - destruct (IH E) as (a & sn & cc & -> & I & SC & EX). exists (Ins n i :: a), sn, cc. split; [reflexivity|]. split; [econstructor; eauto|auto].
  - destruct (IH E) as (a & sn2 & cc2 & -> & I & SC2 & EX2). exists (Snip sn :: a), sn2, cc2. split; [reflexivity|].
    split; [econstructor; eauto|auto].
  - injection E as <- <-. exists [], sn, cc. split; [reflexivity|]. split; [constructor|auto].
Qed.
Lemma follow_stop c A T g lo cfa ra last its p wd tr z st' r :
  z <> Cut -> z <> Null -> irun' c lo cfa its (pack p wd tr) (Stopped X' st' r) ->
  frun A T g lo cfa ra last false its p wd tr z -> z = Halt (return_word X' st' r) ra.
Proof.
  intros NC NN I R. destruct (stopped_at _ _ _ _ _ _ _ I) as (a & sn & cc & -> & I1 & SC & EX).
  destruct (follow_fin c A T g lo cfa ra last a (Snip sn :: r) false p wd tr z st' NC NN I1 R) as (p2 & wd2 & tr2 & -> & R2).
  change (as_state X' base (pack p2 wd2 tr2)) with (as_state X base p2) in EX.
  inversion R2 as [| | | | | |? ? c1 u ? ? ? ? ? SC1 EX1 R1|? ? c1 ? ? ? SC1 EX1|? ? c1 ? ? ? SC1 EX1|? ? ? ? ? SC1| | | | |];
    subst; try congruence; rewrite SC in SC1; try discriminate; injection SC1 as <-; pose proof (exec_det _ _ _ _ _ EX EX1) as E; try discriminate.
  reflexivity.
Qed.

(** ** Functions with the return address on the shadow stack *)
Lemma leaves_dec b : (is_ret co b \/ exists e, is_tail co b e) \/ ~ (is_ret co b \/ exists e, is_tail co b e).
Proof.
  set (f := fun e => is (e_ty e) RET || (e_inter e && negb (is (e_ty e) CALL) && negb (is (e_ty e) CATCH))).
  assert (E : forall e, f e = true <-> e_ty e = RET \/ (e_inter e = true /\ e_ty e <> CALL /\ e_ty e <> CATCH)).
  { intros e. unfold f. destruct (e_ty e), (e_inter e); cbn; split; intros K; auto; try discriminate; try (right; repeat split; congruence);
      destruct K as [K|(K1 & K2 & K3)]; congruence. }
  assert (EX : existsb f (b_targets (co_block co b)) = true <-> is_ret co b \/ exists e, is_tail co b e).
  { rewrite existsb_exists. split.
    - intros (e & H1 & H2). apply E in H2. destruct H2 as [H2|(H2 & H3 & H4)]; [left; exists e; split; auto|].
      destruct (is (e_ty e) RET) eqn:R.
      + left. exists e. split; auto. destruct (e_ty e); try discriminate; auto.
      + right. exists e. split; [exact H1|]. repeat split; auto. intros K. rewrite K in R. discriminate.
    - intros [(e & H1 & H2)|(e & H1 & H2 & H3 & H4 & H5)]; exists e; split; auto; apply E; auto. }
  destruct (existsb f _); [left; apply EX; auto|right; intros K; apply EX in K; discriminate].
Qed.
Lemma leaves A T g lo cfa ra last pu p wd tr z : frun A T g lo cfa ra last pu [] p wd tr z -> z <> Cut ->
  is_ret co last \/ exists e, is_tail co last e.
Proof. intros R NC. inversion R; subst; eauto. congruence. Qed.
Lemma land ra w l l' : unwind w (ra :: l) = Some l' -> landing ra w l l'.
Proof.
  cbn [unwind]. destruct (ra =? w) eqn:E; intros H.
  - injection H as <-. left. split; [lia|reflexivity].
  - right. split; [lia|exact H].
Qed.

(** Without inserted code, a run goes through the instructions that are left. *)
Lemma bare_end A T g lo cfa ra last : forall r pu p wd tr z, no_more r -> Forall exit_passable (left_of r) -> z <> Cut -> z <> Null ->
  (forall nd i, In (Ins nd i) r -> i_op i = OCall -> i_wmem i = true) ->
  frun A T g lo cfa ra last pu r p wd tr z -> exists p1 wd1 tr1,
  prun (osem true) (left_of r) (pack p wd tr) = Some (pack p1 wd1 tr1) /\ frun A T g lo cfa ra last pu [] p1 wd1 tr1 z.
Proof.
  induction r as [|x r IH]; intros pu p wd tr z NM FP ZC ZN WM R; [exists p, wd, tr; auto|].
  assert (NM' : no_more r) by (intros sn K; apply (NM sn); right; exact K).
  assert (WM' : forall nd i, In (Ins nd i) r -> i_op i = OCall -> i_wmem i = true) by (intros nd i K; apply (WM nd i); right; exact K).
  destruct x as [n|n i|sn|n]; [| |destruct (NM sn); left; reflexivity|].
  - inversion R; subst; [congruence|]. eapply IH; eauto.
  - inversion FP as [|? ? F1 F2]; subst.
    assert (NC : i_op i <> OCall). { intros K. pose proof (WM n i (or_introl eq_refl) K) as E. destruct F1 as [F1 F1']. congruence. }
    inversion R as [| | |? ? ? ? ? ? p1 w1 tr1 ? OC SE PS R1| | | | | | | | | | |]; subst; try congruence.
    change (left_of (Ins n i :: r)) with (i :: left_of r). cbn [prun].
    assert (E : osem true i (pack p wd ((p1, w1) :: tr1)) = Some (pack p1 w1 tr1)) by (apply osem_ins; auto; apply PS).
    rewrite E. eapply IH; eauto.
  - inversion R; subst; [congruence|]. eapply IH; eauto.
Qed.
Lemma not_zero A T g lo cfa ra last pu p wd tr z l : frun A T g lo cfa ra last pu [] p wd tr z -> z <> Cut -> z <> Null ->
  word_at X p = 0 -> unwind 0 (ra :: l) = None -> False.
Proof.
  intros R ZC ZN W0 UN. cbn [unwind] in UN. destruct (ra =? 0) eqn:E; [discriminate|].
  inversion R; subst; try congruence; match goal with K : regular _ _ _ |- _ => specialize (K W0); lia end.
Qed.
Lemma on_stack A T n g lo cfa ra p0 z l ks path last items tr :
  runs_ok A (S n) -> has_room A -> runs_ok T n -> (S n <= k)%nat -> own co g -> can_return fs g = true ->
  ~ harmless co g -> on_reg (plan_of g) = false -> fits g lo cfa -> enters_ok cfa ra p0 l -> (List.length l <= n)%nat ->
  orig_blocks co (f_entry (co_fun co g)) ks = Some (path ++ [last]) -> no_catch co (f_entry (co_fun co g)) ks ->
  plan_items co (plan_sites co fl o (d g) (m g) g (plan_of g)) g (plan_of g) ks = Some items ->
  (forall b, In b (path ++ [last]) -> In b (f_blocks (co_fun co g))) ->
  frun A T g lo cfa ra last false items p0 false tr z -> claim g cfa p0 l z.
Proof.
  intros AO AF TO NK HG CR NH NR FT (WF & RS & RA & RP) LN OB NC IT HB R.
  assert (ZC : (z = Cut \/ z = Null) \/ (z <> Cut /\ z <> Null))
    by (destruct z; auto; right; split; discriminate).
  destruct ZC as [[-> | ->]|(ZC & ZN)]; [split; exact I|split; exact I|].
  assert (CL : claim0 l z -> claim g cfa p0 l z).
  { intros K. split; [exact K|]. destruct z; auto. intros H. destruct (NH H). }
  destruct FT as (FL & hi & RM). pose proof (room_up _ _ _ _ RM) as RM'.
  assert (SLOT : forall x, Whole.slot cfa x -> stk x) by apply RM.
  assert (HL : In last (f_blocks (co_fun co g))) by (apply HB, in_or_app; right; left; auto).
  set (Q := claim g cfa p0 l z).
  set (good := fun (its : list item) (st : pstate') => exists p wd tr dn, st = pack p wd tr /\ items = dn ++ its /\
    frun A T g lo cfa ra last (recorded dn) its p wd tr z).
  destruct (activation_any co fl fs m width PA SU LI RL g HG CR (AN g HG) (TIDY g HG) NR o (d g) PL (GE g) (GX g) ks path last OB NC
    items IT X' (osem true) mp base lo cfa hi stk sc' k osem_facts RM' ra l (pack p0 false tr)) with (good := good) (Q := Q) as [K|[K|K]].
  - lia.
  - split; [exact WF|]. split; [|exact RP]. cbn. rewrite RS. lia.
  - reflexivity.
  - exact RS.
  - exact RA.
  - destruct (leaves_dec last) as [K|K]; [left; exact K|right]. intros st (p & wd & tr1 & dn & _ & _ & R1). destruct K.
    apply (leaves _ _ _ _ _ _ _ _ _ _ _ _ R1 ZC).
  - intros nd r st (p & wd & tr1 & dn & -> & E & R1). inversion R1; subst; try congruence. split; [assumption|].
    exists p, wd, tr1, (dn ++ [Here nd]). rewrite <- app_assoc. split; [reflexivity|]. split; [reflexivity|].
    rewrite recorded_app. cbn [recorded existsb]. rewrite orb_false_r. assumption.
  - intros nd r st (p & wd & tr1 & dn & -> & E & R1). inversion R1; subst; try congruence. split; [assumption|].
    exists p, wd, tr1, (dn ++ [Out nd]). rewrite <- app_assoc. split; [reflexivity|]. split; [reflexivity|].
    rewrite recorded_app. cbn [recorded existsb]. rewrite orb_false_r. assumption.
  - intros nd i r st (p & wd & tr1 & dn & -> & E & R1) ST.
    assert (II : In (snd nd) (f_blocks (co_fun co g)) /\ In i (b_insns (co_block co (snd nd)))).
    { destruct (items_ins co _ g _ ks items (path ++ [last]) nd i IT OB) as (I1 & I2); [rewrite E; apply in_or_app; right; left; auto|].
      split; auto. }
    destruct II as (I1 & I2).
    assert (SG : i_op i = OCall -> wfp p /\ in_fr usable0 X lo cfa p wd /\ rep p (if recorded dn then ra :: l else l)).
    { intros OC. destruct (CALLS g _ i HG I1 I2 OC) as (WM & _). destruct ST as [(K & _)|(dn' & E' & _ & G)]; [congruence|].
      rewrite E in E'. apply app_inv_tail in E'. subst dn'. exact G. }
    assert (LL : (List.length (if recorded dn then ra :: l else l) <= S n)%nat) by (destruct (recorded dn); cbn [List.length]; lia).
    assert (GN : forall p' wd' tr', frun A T g lo cfa ra last (recorded dn) r p' wd' tr' z -> good r (pack p' wd' tr')).
    { intros p' wd' tr' R2. exists p', wd', tr', (dn ++ [Ins nd i]). rewrite <- app_assoc. split; [reflexivity|]. split; [exact E|].
      rewrite recorded_app. cbn [recorded existsb]. rewrite orb_false_r. exact R2. }
    inversion R1 as [| | |? ? ? ? ? ? p1 w1 tr2 ? OC SE PS R2|? ? ? ? ? ? e q w1 tr2 ? OC IC CA BS R2
      |? ? ? ? ? ? e z1 OC IC CA NB| | | | | | | | |]; subst; try congruence.
    + right. exists (pack p1 w1 tr2). split; [apply osem_ins; auto; apply PS|]. split; [apply plain_up; auto|apply GN; auto].
    + right. destruct (SG OC) as (G1 & G2 & G3). destruct (CALLS g _ i HG I1 I2 OC) as (WM & WS).
      destruct (called_ok A (S n) cfa wd e p (Back q) _ AO AF NK CA G1 G3 LL) as ((C1 & C2) & C3). destruct BS as (B1 & B2).
      exists (pack q w1 tr2). split; [apply osem_call; auto|]. split; [|apply GN; auto].
      split; [exact C1|]. split; [exact B1|]. split.
      { intros l1 RP1. change (rep p l1) in RP1. rewrite (rep_unique _ _ _ _ RP1 G3). exact C2. }
      cbn. intros GW. assert (RSL : p_rg p RSP <= cfa - 8) by (rewrite GW in G2; cbn in G2; lia). split.
      * intros x Hx NE. right. exists e. split; [exact IC|]. intros TE. destruct (C3 GW TE RSL) as (_ & D2).
        apply NE. apply D2. split; [apply SLOT; exact Hx|unfold Whole.slot in Hx; lia].
      * intros GW'. split; [exact WM|]. split; [congruence|]. right. exists e. split; [exact IC|]. intros TE.
        destruct (C3 GW TE RSL) as (D1 & _). destruct (B2 GW GW') as [K|K]; [exact (K TE)|congruence].
    + left. destruct (SG OC) as (G1 & G2 & G3). apply CL. apply outer_ok; [|exact NB].
      apply (called_ok A (S n) cfa wd e p z1 _ AO AF NK CA G1 G3 LL).
  - intros sn r st st' (p & wd & tr1 & dn & -> & E & R1) D.
    inversion D as [| | | |? c u ? ? ? SC EX _ _ D1]; subst. inversion D1; subst. clear D D1.
    change (as_state X' base (pack p wd tr1)) with (as_state X base p) in EX.
    inversion R1 as [| | | | | |? ? c1 u1 ? ? ? ? ? SC1 EX1 R2|? ? c1 ? ? ? SC1 EX1|? ? c1 ? ? ? SC1 EX1|? ? ? ? ? SC1| | | | |];
      subst; try congruence; rewrite SC in SC1; try discriminate; injection SC1 as <-; pose proof (exec_det _ _ _ _ _ EX EX1) as EE; try discriminate.
    injection EE as <-. exists (of_state X u p), wd, tr1, (dn ++ [Snip sn]). split; [reflexivity|]. split; [rewrite <- app_assoc; reflexivity|].
    rewrite recorded_app. cbn [recorded existsb]. rewrite orb_false_r. exact R2.
  - exists p0, false, tr, []. auto.
  - exfalso. destruct K as (st & r & (a0 & q0 & E0 & _ & F1 & F2) & _ & (a & q & st1 & E & I1 & I2 & UN & RW & NM)). rewrite E in R.
    destruct (follow_fin true A T g lo cfa ra last a _ false p0 false tr z st ZC ZN I1 R) as (p2 & wd2 & tr2 & -> & R2).
    destruct (follow_fin true A T g lo cfa ra last [Snip (StackPop q)] r _ p2 wd2 tr2 z st1 ZC ZN I2 R2) as (p3 & wd3 & tr3 & -> & R3).
    edestruct bare_end with (6 := R3) as (p4 & wd4 & tr4 & PR & R4); eauto.
    { intros nd i Hi OC. destruct (items_ins co _ g _ ks items (path ++ [last]) nd i IT OB) as (J1 & J2); [rewrite E; apply in_or_app; right; right; exact Hi|].
      apply (CALLS g (snd nd) i HG (HB _ J1) J2 OC). }
    destruct (exit_walk _ _ (osem true) osem_facts _ F1 F2 _ _ PR) as [K1 K2]. cbn [pack p_rg p_mem] in K1, K2.
    eapply (not_zero _ _ _ _ _ _ _ _ _ _ _ _ _ R4 ZC ZN); [|exact UN].
    unfold word_at. rewrite K1. unfold return_word in RW. cbn [pack p_rg p_mem] in RW. rewrite <- RW. apply load64_ext. intros; apply K2.
  - exact K.
  - destruct K as (out & IR & (RES & FI)). destruct out as [st|st r|st r].
    + destruct FI as (_ & FI). pose proof R as R0. rewrite <- (app_nil_r items) in R0.
      destruct (follow_fin true A T g lo cfa ra last items [] false p0 false tr z st ZC ZN IR R0) as (p2 & wd2 & tr2 & -> & R2).
      apply (finish A T n g lo cfa ra last _ p0 p2 wd2 tr2 z l AO AF TO NK HG HL R2 LN); [|intros H; destruct (NH H)].
      intros AS. destruct FI as [(F1 & F2 & F3)|(l' & F1 & F2)].
      * exists l. split; [left; split; [|reflexivity]|exact F1]. unfold word_at. rewrite (AS F3). exact F2.
      * exists l'. split; [apply land; exact F1|exact F2].
    + apply CL. rewrite (follow_stop true A T g lo cfa ra last items p0 false tr z st r ZC ZN IR R). apply RES.
    + destruct RES.
Qed.

(** ** Functions with the return address in a register *)
Lemma reg_irun A T g lo cfa ra last : (forall x, Whole.slot cfa x -> stk x) -> forall its pu p wd tr z, z <> Cut -> z <> Null ->
  frun A T g lo cfa ra last pu its p wd tr z ->
  (forall nd i, In (Ins nd i) its -> i_op i = OCall -> forall e cfa wd p z, is_call co (snd nd) e -> ~ called A cfa wd e p z) ->
  exists out, irun' false lo cfa its (pack p wd tr) out /\
    match out with
    | Fin _ st => exists pu' p' wd' tr', st = pack p' wd' tr' /\ frun A T g lo cfa ra last pu' [] p' wd' tr' z
    | Stopped _ st r => z = Halt (return_word X' st r) ra
    | Crashed _ _ _ => True
    end.
Proof.
  intros SLOT. induction its as [|x its IH]; intros pu p wd tr z ZC ZN R NCALL.
  - exists (Fin X' (pack p wd tr)). split; [constructor|]. exists pu, p, wd, tr. auto.
  - assert (NCALL' : forall nd i, In (Ins nd i) its -> i_op i = OCall -> forall e cfa wd p z, is_call co (snd nd) e -> ~ called A cfa wd e p z).
    { intros nd i K. apply NCALL. right; exact K. }
    inversion R as [|? n ? ? ? ? ? HH R1|? n ? ? ? ? ? HH R1
    |? n i ? ? ? p1 w1 tr1 ? OC SE PS R1|? n i ? ? ? e q w1 tr1 ? OC IC CA BS R1
    |? n i ? ? ? e z1 OC IC CA NB|? sn cc u ? ? ? ? ? SC EX R1|? sn cc ? ? ? SC EX
    |? sn cc ? ? ? SC EX|? sn ? ? ? SC| | | | |]; subst; try congruence.
    + destruct (IH _ _ _ _ _ ZC ZN R1 NCALL') as (out & I1 & I2). exists out. split; [constructor; auto|exact I2].
    + destruct (IH _ _ _ _ _ ZC ZN R1 NCALL') as (out & I1 & I2). exists out. split; [constructor; auto|exact I2].
    + destruct (IH _ _ _ _ _ ZC ZN R1 NCALL') as (out & I1 & I2). exists out. split; [|exact I2].
      apply ir_ins with (p' := pack p1 w1 tr1); [apply osem_ins; auto; apply PS|apply plain_up; auto|exact I1].
    + destruct (NCALL n i (or_introl eq_refl) OC e cfa wd p _ IC CA).
    + destruct (NCALL n i (or_introl eq_refl) OC e cfa wd p _ IC CA).
    + destruct (IH _ _ _ _ _ ZC ZN R1 NCALL') as (out & I1 & I2). exists out. split; [|exact I2].
      eapply ir_snip; [exact SC|exact EX|exact I1].
    + exists (Stopped X' (pack p wd []) its). split; [eapply ir_trap; eauto|reflexivity].
    + eexists. split; [eapply ir_fault; eauto|exact I].
    + eexists. split; [eapply ir_none; eauto|exact I].
Qed.
Lemma no_calls g : own co g -> can_return fs g = true -> on_reg (plan_of g) = true -> forall A b e cfa wd p z,
  In b (f_blocks (co_fun co g)) -> is_call co b e -> ~ called A cfa wd e p z.
Proof.
  intros HG CR REG A b e cfa wd p z HB (I1 & I2) CA.
  assert (PLAN : Decision.instr fl co g (Some (m g)) = plan_of g).
  { rewrite (planned_at co fl fs m PA g HG), CR, (analyses_at co fl fs m PA g (proj1 HG) LI). reflexivity. }
  destruct (reg_frame_inv co m g fl (d g) (AN g HG) (reg_use co m g fl (plan_of g) (AN g HG) PLAN REG)) as (C1 & C2 & C3 & _).
  assert (SINK : e_sink e = true -> False).
  { intros K. apply C3. exists b, e. split; [split; auto|]. split; [auto|]. rewrite I2. split; [discriminate|]. intros (? & _). discriminate. }
  destruct CA as [g' lo' ra' z (_ & [K|(K1 & K2)]) _ _|s q (K1 & K2) _ _ _ _|[s|] z K _ _].
  - auto.
  - destruct (e_sink e) eqn:ES; [auto|]. apply (C1 g'). exists b, e. split; [split; auto|]. auto.
  - apply (C2 (b_last (co_block co b)) s). exists b, e. split; [split; auto|]. auto.
  - destruct K as (K1 & K2). apply (C2 (b_last (co_block co b)) s). exists b, e. split; [split; auto|]. auto.
  - auto.
Qed.
Lemma in_reg A T n g lo cfa ra p0 z l ks path last items tr :
  runs_ok A (S n) -> has_room A -> runs_ok T n -> (S n <= k)%nat -> own co g -> can_return fs g = true ->
  ~ harmless co g -> on_reg (plan_of g) = true -> fits g lo cfa -> enters_ok cfa ra p0 l -> (List.length l <= n)%nat ->
  orig_blocks co (f_entry (co_fun co g)) ks = Some (path ++ [last]) -> no_catch co (f_entry (co_fun co g)) ks ->
  plan_items co (plan_sites co fl o (d g) (m g) g (plan_of g)) g (plan_of g) ks = Some items ->
  (forall b, In b (path ++ [last]) -> In b (f_blocks (co_fun co g))) ->
  frun A T g lo cfa ra last false items p0 false tr z -> claim g cfa p0 l z.
Proof.
  intros AO AF TO NK HG CR NH REG FT (WF & RS & RA & RP) LN OB NC IT HB R.
  assert (ZC : (z = Cut \/ z = Null) \/ (z <> Cut /\ z <> Null))
    by (destruct z; auto; right; split; discriminate).
  destruct ZC as [[-> | ->]|(ZC & ZN)]; [split; exact I|split; exact I|].
  assert (CL : claim0 l z -> claim g cfa p0 l z).
  { intros K. split; [exact K|]. destruct z; auto. intros H. destruct (NH H). }
  destruct FT as (FL & hi & RM). pose proof (room_up _ _ _ _ RM) as RM'.
  assert (SLOT : forall x, Whole.slot cfa x -> stk x) by apply RM.
  assert (HL : In last (f_blocks (co_fun co g))) by (apply HB, in_or_app; right; left; auto).
  destruct (register_fine co fl fs m width PA SU LI RL g HG CR (AN g HG) (TIDY g HG) (NAMES g HG) REG o (d g) PL) as (r & _ & H).
  destruct (reg_irun A T g lo cfa ra last SLOT items false p0 false tr z ZC ZN R) as (out & IR & ZO).
  { intros nd i K OC e c w p z' IC. destruct (items_ins co _ g _ ks items (path ++ [last]) nd i IT OB K) as (I1 & _).
    apply (no_calls g HG CR REG A (snd nd) e c w p z' (HB _ I1) IC). }
  assert (G : ground X' base lo cfa sc' l (pack p0 false tr)).
  { split; [exact WF|]. split; [|exact RP]. cbn. rewrite RS. lia. }
  destruct (H ks path last OB (~ (is_ret co last \/ exists e, is_tail co last e)) (leaves_dec last) NC items IT X' (osem false) mp base lo cfa hi
    stk sc' k osem_unwritten osem_word RM' ra l (pack p0 false tr)) with (out := out) as [K|[((K1 & _) & K2)|(K & st & ->)]]; auto.
  - lia.
  - exfalso. destruct K as (_ & st & -> & W0 & UN & _). destruct ZO as (pu & p2 & wd2 & tr2 & -> & R2).
    exact (not_zero _ _ _ _ _ _ _ _ _ _ _ _ _ R2 ZC ZN W0 UN).
  - destruct out as [st|st r'|st r'].
    + destruct ZO as (pu & p2 & wd2 & tr2 & -> & R2). 
      apply (finish A T n g lo cfa ra last pu p0 p2 wd2 tr2 z l AO AF TO NK HG HL R2 LN); [|intros K; destruct (NH K)].
      intros AS. destruct K2 as [K2|(l' & F1 & F2)]; [|exists l'; split; [apply land; exact F1|exact F2]].
      destruct K1 as [(F1 & F2)|(l' & F1 & F2)]; [|exists l'; split; [apply land; exact F1|exact F2]].
      exists l. split; [left; split; [|reflexivity]|exact F1]. unfold word_at. rewrite (AS K2). exact F2.
    + apply CL. rewrite ZO. apply K1.
    + destruct K1.
  - destruct ZO as (pu & p2 & wd2 & tr2 & _ & R2). destruct K. apply (leaves _ _ _ _ _ _ _ _ _ _ _ _ R2 ZC).
Qed.

(** ** All calls *)
Lemma untouched g : own co g -> can_return fs g = true -> (plan_of g = Untouched <-> harmless co g).
Proof.
  intros HG CR. rewrite (planned_at co fl fs m PA g HG), CR, (analyses_at co fl fs m PA g (proj1 HG) LI), C38_untouched.
  rewrite <- (sf_harmless co fl fs m width PA SU RL' g (proj1 HG) LI), (sf_iff co fl m RL'). split.
  - intros (_ & _ & [(s & E & W)|K]).
    + injection E as <-. split; [exact LI|]. split; [apply HG|exact W].
    + assert (HA : harmless co g) by (apply (SU Skips); auto).
      apply (sf_harmless co fl fs m width PA SU RL' g (proj1 HG) LI) in HA. apply (sf_iff co fl m RL') in HA; auto.
  - intros (_ & _ & W). split; [exact LI|]. split; [exact SFE|]. left. eauto.
Qed.
Lemma arun_room h n : has_room (arun h n).
Proof. intros g lo cfa ra p z H. destruct h; [left; exact H|right; apply H]. Qed.
Lemma arun_ok : forall h n, runs_ok (arun h n) n.
Proof.
  induction h as [|h IH]; intros n g lo cfa ra p z l HG H EN LN; [cbn in H; subst z; split; exact I|].
  destruct H as (NK & FT & ks & path & last & items & tr & OB & NC & IT & R).
  pose proof (IH (S n)) as AO. pose proof (IH n) as TO. pose proof (arun_room h (S n)) as AF.
  pose proof (path_blocks co fs PA g ks _ HG OB) as HB.
  assert (HL : In last (f_blocks (co_fun co g))) by (apply HB, in_or_app; right; left; auto).
  assert (PD : plan_of g = Untouched \/ plan_of g <> Untouched) by (destruct (plan_of g); auto; right; discriminate).
  destruct PD as [PU|PU].
  - destruct EN as (WF & RS & RA & RP). destruct (fits_cfa _ _ _ HG FT) as (hi & _ & _ & _ & LC & SLOT).
    apply (direct (arun h (S n)) (arun h n) n g lo cfa ra last p l) with (pu := false) (its := items) (p := p) (wd := false) (tr := tr);
      auto; try lia.
    + intros CR. apply untouched; auto.
    + apply (items_plain co g (plan_of g) ks items). rewrite PU in IT |- *. exact IT.
    + intros nd i K. destruct (items_ins co _ g _ ks items _ nd i IT OB K) as (I1 & I2). auto.
    + cbn. rewrite RS. lia.
    + intros _. split; [reflexivity|]. intros x _. reflexivity.
  - destruct (can_return fs g) eqn:CR.
    2:{ destruct PU. rewrite (planned_at co fl fs m PA g HG), CR. reflexivity. }
    assert (NH : ~ harmless co g) by (intros K; apply PU, untouched; auto).
    destruct (on_reg (plan_of g)) eqn:REG.
    + eapply (in_reg (arun h (S n)) (arun h n) n); eauto.
    + eapply (on_stack (arun h (S n)) (arun h n) n); eauto.
Qed.
End PT.

