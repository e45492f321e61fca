(** * Property C81: in full mode, nothing that the program does not do *)
From Coq Require Import ZArith Bool Lia ZifyBool ZifyNat Arith String List.
From Verif Require Import Machine MachineFacts Jit ShadowSpec JitFacts JitPushPop History Witness.
From Verif Require Import Dfs Binary CallGraph InterProc MemPasses Pipeline RegNames BlockLive ExCode ExSem
  Reach SafePaths Lowering P_Lower FastPath Decision P_Instr FullRun Whole P_Whole Sites SiteEx P_Sites
  Order Activation PlanCode ActRun P_Activation FullMode P_Full Tree TreeFacts P_Tree FullExec FullExecFacts P_FullExec FullSame FullBack.
Import ListNotations.
Open Scope Z_scope.
Local Notation mem := Machine.mem.

(** C81: a program that keeps its return addresses and does not rely on what inserted code touches.
    Every execution of the instrumented program, stopped at any point, is an execution of the program
    as it is: the same instructions, library actions, calls and returns in the same order, with the
    same registers, calls and memory, up to the shadow stack and what inserted code has touched.  So
    it is never stopped by a check, does not fault, and returns only to where the program returns. *)
(** Partial: no conditional jumps out of functions (C37); return addresses with a low half of zero
    are excluded (C62); calls that would overflow the shadow stack are left out. *)
Theorem C81_nothing_new_partial : forall co fl fs m,
  parsed co fs -> fl_light fl = false -> (forall g, own co g -> terminal_exits co g /\ ret_last co g) ->
  forall o mp base k usable, plain o -> spaces mp base k usable ->
  forall X sem L lib throws ac, described X sem L lib ac ->
  forall p0 : pst Machine.flags X, wfp X p0 -> usable (p_rg p0 RSP) -> shadow_rep (p_mem p0) base [] ->
  (forall g tr p fr, oblivious co fl fs m o mp base k usable X sem L lib throws ac (Run p0 [library]) g tr (Run p fr) ->
     careful co fs base k X sem L lib ac g p fr) ->
  forall tr c, reach co fl fs m true o mp base k usable X sem L lib throws (Run p0 [library]) tr c -> low_calls L tr ->
  exists q fr', c = Run q fr' /\
  exists g p fr, oblivious co fl fs m o mp base k usable X sem L lib throws ac (Run p0 [library]) g tr (Run p fr) /\
    alike_to X (dimmed X p g) p q /\ Forall2 same_call fr fr'.
Proof.
  intros co fl fs m PA NL FN o mp base k usable PL SP X sem L lib throws ac DS p0 WF US RP CA tr c R LC.
  assert (TE : forall g, own co g -> terminal_exits co g) by (intros h HG; apply (FN h HG)).
  assert (RL : forall g, own co g -> ret_last co g) by (intros h HG; apply (FN h HG)).
  assert (K : exists q fr', c = Run q fr' /\
    exists g p fr, oblivious co fl fs m o mp base k usable X sem L lib throws ac (Run p0 [library]) g tr (Run p fr) /\
      phase co fs o base k usable X g p fr q fr').
  { induction R as [|tr e c c' R IH S].
    - exists p0, [library]. split; [reflexivity|]. exists (untouched base k), p0, [library]. split; [apply ob_start|]. split; [exact RP|]. left.
      split; [split; [auto|]; split; [auto|]; split; auto|]. split.
      { cbn [g_ok untouched]. intros a Ha. apply negb_true_iff in Ha. exact Ha. }
      split; [constructor; [split; [auto|split; [constructor|exact I]]|constructor]|].
      split; [exists [], []; reflexivity|]. split; [auto|]. split; [auto|]. split; [exact RP|cbn; lia].
    - destruct IH as (q & fr' & -> & g & p & fr & OB & PH); [intros f ra K; apply (LC f ra), in_or_app; auto|].
      destruct (step_back co fl fs m o mp base k usable X sem L lib throws ac PA NL TE RL PL SP DS g p fr q fr' e c' PH (CA g tr p fr OB) S)
        as (q2 & fr2' & -> & [(-> & PH2)|(g' & p2 & fr2 & S2 & TD & PH2)]); [intros f ra K; apply (LC f ra), in_or_app; auto| |].
      + exists q2, fr2'. split; [reflexivity|]. exists g, p, fr. rewrite app_nil_r. auto.
      + exists q2, fr2'. split; [reflexivity|]. exists g', p2, fr2. split; [eapply ob_step; eauto|exact PH2]. }
  destruct K as (q & fr' & -> & g & p & fr & OB & _ & PH). exists q, fr'. split; [reflexivity|]. exists g, p, fr. split; [exact OB|].
  assert (SC : forall fr fr', Forall2 (fr_sim co fs o) fr fr' -> Forall2 same_call fr fr').
  { clear. intros fr fr' F. induction F as [|f f' fr fr' (S1 & S2 & S3) F IH]; constructor; auto.
    unfold same_call. destruct (fr_act f) as [a|], (fr_act f') as [a'|]; auto.
    destruct S3 as (_ & _ & S4 & _ & S5 & _ & _ & _ & S6 & S7). split; [auto|]. split; [auto|]. unfold same_items in S7. rewrite S7.
    unfold program_of at 1. rewrite filter_app. fold (program_of (a_its a)). fold (program_of (if can_return fs (a_fn a) then check_at co o (a_fn a) (a_last a) else [])).
    replace (program_of (if can_return _ _ then _ else _)) with (@nil item).
    2:{ destruct (can_return _ _); [|reflexivity]. unfold check_at. destruct (Dfs.mem _ _); reflexivity. }
    rewrite app_nil_r. apply program_bare. exact S6. }
  assert (AD : alike_to X g p q -> alike_to X (dimmed X p g) p q).
  { intros (A1 & A2 & A3 & A4). split; [auto|]. split; [auto|]. cbn [g_ok g_fl dimmed]. split; [|discriminate]. intros a Ha. apply andb_true_iff in Ha. apply A3. tauto. }
  destruct PH as [(A & _ & F & _)|[EN|CH]].
  - split; [apply AD; exact A|apply SC; exact F].
  - destruct EN as (a & r & r' & its0 & -> & -> & (A & _ & F & _) & _ & HG & HL & RC & BA & CR & LO & WA & SI & GS).
    split; [apply AD; exact A|]. constructor; [|apply SC; exact F]. unfold same_call. cbn [fr_act a_fn a_ra a_its].
    split; [reflexivity|]. split; [reflexivity|]. unfold same_items in SI. rewrite SI, CR. cbn [program_of filter].
    rewrite filter_app. fold (program_of (a_its a)). replace (filter _ (check_at co o (a_fn a) (a_last a))) with (@nil item).
    2:{ unfold check_at. destruct (Dfs.mem _ _); reflexivity. }
    rewrite app_nil_r. apply program_bare. exact BA.
  - destruct CH as (a & r & old' & r' & l' & -> & -> & EI & A & OK & CL & WP & WQ & CR & LO & LOL & FR & _).
    split; [exact A|]. constructor; [|apply SC; exact FR]. unfold same_call. cbn [fr_act a_fn a_ra a_its]. rewrite EI. auto.
Qed.
Print Assumptions C81_nothing_new_partial.

(** *** A program that meets the hypotheses *)
(** 0 calls 1; both compute in registers and return.  Library code calls either of them and reads a
    byte at 70000 into rax; signals arrive between instructions, and their handlers may call the
    functions again. *)
Definition b_ins : insn := x_op 104 [MG RDI P64] [MG RCX P64].
Definition b_code : code := wcode [0;1]%nat
  (fun f => match f with 0%nat => 2 | _ => 1 end)%nat
  (fun f => match f with 0%nat => [1] | _ => [10] end)%nat
  (fun b => match b with
   | 0%nat => ([call_e 1; ft_e 1], [t_call 100])
   | _ => ([ret_e], [b_ins; x_ret 108])
   end).
Definition b_fs : list finfo := winfos [0;1]%nat.
Lemma b_parsed : parsed b_code b_fs.
Proof. apply wparsed. vm_compute. reflexivity. Qed.
Lemma b_own g : own b_code g -> g = 0%nat \/ g = 1%nat.
Proof. intros (H & _). cbn in H. intuition. Qed.
Lemma b_terminal g : own b_code g -> terminal_exits b_code g /\ ret_last b_code g.
Proof.
  intros HG. apply b_own in HG. split.
  - intros b e HB HE. destruct HG as [->| ->]; cbn in HB; destruct HB as [<-|[]]; cbn in HE; destruct HE as [<-|[]]; left; reflexivity.
  - assert (SB : forall b, ret_e :: [] = b_targets (co_block b_code (S b)) -> exists body tail,
      block_shape (b_insns (co_block b_code (S b))) body tail /\ (tail <> [] -> out_edges b_code (S b) = [])).
    { intros b _. exists [b_ins], [x_ret 108]. split; [|reflexivity].
      split; [reflexivity|split; [repeat constructor; discriminate|right; eexists; split; reflexivity]]. }
    intros [|b] HB; [|apply SB; reflexivity].
    exists [t_call 100], []. split; [split; [reflexivity|split; [repeat constructor; discriminate|auto]]|contradiction].
Qed.

Definition b_sem (i : insn) (p : tst) : option tst :=
  if (isop (i_op i) OOther && negb (i_wmem i))%bool
  then Some (mkPst (updr (p_rg p) RCX (p_rg p RDI)) (p_mem p) (p_fl p) (p_rest p)) else None.
Definition b_lib (_ : unit) (p : tst) : option tst := Some (mkPst (updr (p_rg p) RAX (p_mem p 70000 mod 256)) (p_mem p) (p_fl p) (p_rest p)).
Definition b_access : access unit unit := mkAccess unit unit
  (fun x _ a => match x with inl _ => false | inr _ => a =? 70000 end) (fun _ _ _ => false) (fun _ _ => false) (fun _ _ => false).
Lemma b_described : described unit b_sem unit b_lib b_access.
Proof.
  constructor.
  - intros [i|u] p p' a H _; cbn [act_on] in H; unfold b_sem, b_lib in H; [destruct (_ && _)%bool; [|discriminate]|]; injection H as <-; reflexivity.
  - intros x p q p' H R1 R2 R3 _. split; [reflexivity|]. destruct x as [i|u]; cbn [act_on] in *; unfold b_sem, b_lib in *; [destruct (_ && _)%bool; [|discriminate]|];
      injection H as <-; eexists; (split; [reflexivity|]); cbn [p_rg p_mem p_fl p_rest]; (split; [|split; [exact R2|split; [discriminate|intros [K|K]; [discriminate|exact K]]]]).
    + intros r. destruct (reg_eq_dec r RCX) as [->|N]; [rewrite !updr_same; auto|rewrite !updr_other by auto; auto].
    + intros r. destruct (reg_eq_dec r RAX) as [->|N]; [rewrite !updr_same|rewrite !updr_other by auto; auto].
      rewrite R3; [reflexivity|]. cbn. reflexivity.
Qed.
Notation b_oblivious := (oblivious b_code fl_full b_fs u_m wopts t_mp t_base 10 u_usable unit b_sem unit b_lib false b_access).
(** The return addresses of the active calls lie one above the other, from rsp on. *)
Definition b_item (x : item) : Prop := match x with Snip _ => False | Ins _ i => i = b_ins \/ i_op i = OCall | _ => True end.
Fixpoint chained (g : ghost) (p : tst) (s : Z) (fr : list frame) : Prop :=
  match fr with
  | [] => True
  | f :: r => fr_old f = [] /\
      match fr_act f with
      | None => chained g p s r
      | Some a => load64 (p_mem p) s = a_ra a /\ (forall b, FullSame.within s 8 b = true -> g_ok g b = true) /\
          Forall b_item (a_its a) /\ a_rec a = false /\ chained g p (s + 8) r
      end
  end.
Lemma chained_ext g g' p p' : forall fr s, (forall b, s <= b -> p_mem p' b = p_mem p b) -> (forall b, s <= b -> g_ok g b = true -> g_ok g' b = true) ->
  chained g p s fr -> chained g' p' s fr.
Proof.
  induction fr as [|f r IH]; intros s MS GS H; cbn [chained] in *; auto. destruct H as [O H]. split; [exact O|]. destruct (fr_act f) as [a|].
  - destruct H as (H1 & H2 & H3 & H4 & H5). split; [rewrite <- H1; apply load64_ext; intros; apply MS; lia|].
    split; [|split; [exact H3|split; [exact H4|apply IH; auto; intros; [apply MS|apply GS]; auto; lia]]].
    intros b Hb. apply GS; [apply within_inside in Hb; unfold inside in Hb; lia|apply H2; exact Hb].
  - apply IH; auto.
Qed.
Lemma b_segs : forall ks b sl, segs b_code Untouched (false, b) ks = Some sl -> Forall b_item (flat_map (seg_items b_code []) sl).
Proof.
  assert (NI : forall b, Forall b_item (node_items b_code [] (false, b) true)).
  { intros [|b]; cbn; repeat (apply Forall_cons || apply Forall_nil); cbn; auto. }
  induction ks as [|kk ks IH]; intros b sl H.
  - cbn [segs] in H. injection H as <-. cbn [flat_map seg_items]. rewrite app_nil_r. apply NI.
  - destruct b as [|b].
    + destruct kk as [|[|kk]]; cbn in H; [discriminate| |destruct kk; discriminate].
      destruct (segs b_code Untouched (false, 1%nat) ks) as [sl1|] eqn:E; [|discriminate]. injection H as <-.
      cbn [flat_map]. apply Forall_app. split; [cbn; repeat (apply Forall_cons || apply Forall_nil); cbn; auto|apply (IH _ _ E)].
    + destruct kk as [|kk]; cbn in H; [discriminate|destruct kk; discriminate].
Qed.
Lemma b_begins g ra a : begins b_code fl_full b_fs u_m false wopts g ra a -> Forall b_item (a_its a) /\ a_ra a = ra /\ a_rec a = false.
Proof.
  intros (HG & ks & path & last & its & OB & IT & ->). cbn [a_its a_ra a_rec]. split; [|auto].
  unfold plan_items, sites_of, plan_of in IT. destruct (segs b_code Untouched _ ks) as [sl|] eqn:E; [|discriminate].
  cbn [option_map snips filter map app] in IT. injection IT as <-. apply (b_segs _ _ _ E).
Qed.
Lemma b_tail b e : ~ is_tail b_code b e.
Proof.
  intros (H1 & H2 & H3 & H4 & H5). unfold edge_in in H1. destruct b as [|b]; cbn in H1; intuition subst; try discriminate; try (apply H3; reflexivity); apply H4; reflexivity.
Qed.
Lemma b_top g p s a its r : chained g p s (mkFrame (Some a) [] :: r) -> Forall b_item its ->
  chained g p s (mkFrame (Some (with_items a its)) [] :: r).
Proof. cbn [chained fr_old fr_act]. intros (_ & H1 & H2 & _ & H4 & H5) F. unfold with_items. cbn [a_ra a_its a_rec]. auto 6. Qed.
Lemma b_call g p f fr ra a g' : chained g p (p_rg p RSP) fr -> g_ok g 70000 = true -> u_usable (p_rg p RSP) -> u_usable (p_rg p RSP - 8) -> 0 <= ra < W ->
  begins b_code fl_full b_fs u_m false wopts f ra a -> calls b_fs unit g p f ra g' ->
  g_ok g' 70000 = true /\ u_usable (p_rg (pushed unit p ra) RSP) /\ chained g' (pushed unit p ra) (p_rg (pushed unit p ra) RSP) (mkFrame (Some a) [] :: fr).
Proof.
  intros CH G0 US US' RA BG (_ & ->). destruct (b_begins _ _ _ BG) as (B1 & B2 & B3). unfold pushed. cbn [p_rg p_mem g_ok]. rewrite updr_same.
  unfold u_usable, t_lo in US. cbn [g_ok].
  split; [rewrite G0; cbn [orb andb]; replace (FullSame.within (p_rg p RSP - 24) 16 70000) with false; [rewrite andb_false_r; reflexivity|unfold FullSame.within; lia]|].
  split; [exact US'|]. cbn [chained fr_old fr_act p_mem]. split; [reflexivity|]. split; [rewrite B2; apply load64_store64_same; exact RA|]. split.
  { intros b Hb. cbn [g_ok]. rewrite Hb, orb_true_r. cbn [andb]. replace (FullSame.within (p_rg p RSP - 24) 16 b) with false; [rewrite andb_false_r; reflexivity|].
    unfold FullSame.within in *. lia. }
  split; [exact B1|]. split; [exact B3|]. replace (p_rg p RSP - 8 + 8) with (p_rg p RSP) by lia.
  eapply chained_ext; [| |exact CH]; cbn [p_mem g_ok].
  - intros b Hb. unfold store64. apply store_out. change (Z.of_nat 8) with 8. lia.
  - intros b Hb Gb. rewrite Gb. cbn [orb andb]. replace (FullSame.within (p_rg p RSP - 24) 16 b) with false; [rewrite andb_false_r; reflexivity|].
    unfold FullSame.within. lia.
Qed.
Lemma b_holds c0 g tr c : c0 = Run (t_start 70000) [library] -> b_oblivious c0 g tr c ->
  exists p fr, c = Run p fr /\ g_ok g 70000 = true /\ u_usable (p_rg p RSP) /\ chained g p (p_rg p RSP) fr.
Proof.
  intros E0 R. induction R as [|g g' tr e p1 fr1 c R IH S TD].
  - subst c0. exists (t_start 70000), [library]. split; [reflexivity|]. split; [reflexivity|]. split; [unfold u_usable, t_lo; cbn; lia|]. cbn. auto.
  - destruct IH as (p & fr & EC & G0 & US & CH). injection EC as -> ->. clear R.
    remember (Run p fr) as c1 eqn:E1.
    destruct S as [p2 a old r n its E|p2 a old r n its E|p2 p' a old r n i its E OC SE (Q1 & Q2 & Q3)
    |p2 a old r n i its e g1 ra a1 E OC IC GT RA BG US1 LN1|p2 a old r n i its e name E OC IC GO|p2 a old r n i its E
    |p2 p' x old r LX (Q1 & Q2 & Q3)|p2 old r g1 ra a1 RA BG US1 LN1|p2 old f r
    |p2 old u a old1 r last its TH GO
    |p2 a old r sn cc u its E SC EX|p2 a old r sn cc its E SC EX|p2 a old r sn cc its E SC EX|p2 a old r sn its E SC
    |p2 a old r E IR CR WP US1|p2 a old r e g1 a1 E IT CR GT BG|p2 a old r e name E IT CR GO];
    injection E1 as -> <-; try discriminate TH;
    try (exfalso; eapply b_tail; eassumption);
    pose proof CH as (O & CH'); cbn [fr_old fr_act] in O, CH'; subst old;
    try (pose proof CH' as (C1 & C2 & C3 & C4 & C5); rewrite E in C3;
         try (inversion C3 as [|? ? HB HR]; subst; try destruct HB)); cbn [tidy_step] in TD.
    + subst g'. eexists _, _. split; [reflexivity|]. split; [auto|]. split; [auto|]. apply b_top; auto.
    + subst g'. eexists _, _. split; [reflexivity|]. split; [auto|]. split; [auto|]. apply b_top; auto.
    + (* b_ins *) subst i. vm_compute in OC.
      assert (EP : p' = mkPst (updr (p_rg p) RCX (p_rg p RDI)) (p_mem p) (p_fl p) (p_rest p)) by (cbn in SE; congruence). subst p'.
      destruct TD as (_ & _ & _ & ->). eexists _, _. split; [reflexivity|]. cbn [g_ok p_rg writes b_access]. rewrite orb_false_r. split; [auto|].
      rewrite updr_other by discriminate. split; [auto|]. eapply chained_ext; [| |apply b_top; [exact CH|exact HR]]; cbn [p_mem g_ok]; [reflexivity|].
      intros b _ ->. reflexivity.
    + contradiction.
    + (* call *) subst i. discriminate OC.
    + eexists _, _. split; [reflexivity|]. eapply b_call; eauto. apply b_top; auto.
    + subst i. discriminate OC.
    + subst g'. eexists _, _. split; [reflexivity|]. split; [auto|]. split; [auto|]. split; [reflexivity|]. cbn [fr_act library]. apply b_top; auto.
    + subst g'. eexists _, _. split; [reflexivity|]. split; [auto|]. split; [auto|]. split; [reflexivity|]. exact CH.
    + subst g'. eexists _, _. split; [reflexivity|]. split; [auto|]. split; [auto|]. split; [reflexivity|]. exact CH.
    + (* library *) cbn [b_lib] in LX. injection LX as <-. destruct TD as (_ & _ & _ & ->). eexists _, _. split; [reflexivity|].
      cbn [g_ok p_rg writes b_access]. rewrite orb_false_r. split; [auto|].
      rewrite updr_other by discriminate. split; [auto|]. eapply chained_ext; [| |exact CH]; cbn [p_mem g_ok]; [reflexivity|].
      intros b _ ->. reflexivity.
    + eexists _, _. split; [reflexivity|]. eapply b_call; eauto.
    + subst g'. eexists _, _. split; [reflexivity|]. split; [auto|]. split; [auto|]. cbn [give app]. destruct f. exact CH'.
    + (* return *) unfold leave. rewrite <- C1. fold (word_at unit p). rewrite Z.eqb_refl. cbn [resume behind unwind].
      destruct TD as (_ & ->). eexists _, _. split; [reflexivity|]. unfold popped. cbn [g_ok p_rg]. rewrite updr_same.
      unfold u_usable, t_lo in US. split; [rewrite G0; unfold FullSame.within; lia|]. split; [exact US1|].
      eapply chained_ext; [| |destruct r as [|[? ?] r]; exact C5]; cbn [p_mem g_ok]; [reflexivity|].
      intros b Hb ->. unfold FullSame.within. lia.
Qed.
Lemma b_careful g tr p fr : b_oblivious (Run (t_start 70000) [library]) g tr (Run p fr) ->
  careful b_code b_fs t_base 10 unit b_sem unit b_lib b_access g p fr.
Proof.
  intros R. destruct (b_holds _ g tr _ eq_refl R) as (p1 & fr1 & E & G0 & US & CH). injection E as <- <-.
  destruct fr as [|[[a|] old] r]; cbn [careful]; auto.
  - destruct CH as (_ & C1 & C2 & C3 & _). destruct (a_its a) as [|[n|n i|sn|n] its]; auto.
    intros OC. inversion C3 as [|? ? HB HR]; subst. destruct HB as [->|HB]; [|contradiction].
    intros q _ _. cbn [act_on reads writes tests b_access]. split; [discriminate|]. split; [discriminate|]. split; discriminate.
  - intros x q _ _. cbn [act_on reads writes tests b_access]. split; [discriminate|]. split; [|split; discriminate]. intros a Ha. replace a with 70000 by lia. exact G0.
Qed.
Notation b_reach tc := (reach b_code fl_full b_fs u_m tc wopts t_mp t_base 10 u_usable unit b_sem unit b_lib false).
(** Running it with inserted code. *)
Definition b_act (g : nat) (ra : Z) : option act :=
  match plan_items b_code (sites_of b_code fl_full b_fs u_m true wopts g) g (plan_of b_code fl_full b_fs u_m true g) (match g with 0%nat => [1]%nat | _ => [] end) with
  | Some its => Some (mkAct g (match g with 0%nat => 1 | _ => 10 end)%nat ra false its)
  | None => None
  end.
Definition b_next (x : cmd) (c : conf unit) : option (list (event unit) * conf unit) :=
  match c with
  | Run p (mkFrame (Some a) old :: r) =>
      match x, a_its a with
      | Go, Here _ :: its | Go, Out _ :: its => Some ([], Run p (mkFrame (Some (with_items a its)) old :: r))
      | Go, Ins _ i :: its =>
          match b_sem i p with
          | Some p' => if t_wf p' && u_ok p' then Some ([Do i], Run p' (mkFrame (Some (with_items a its)) old :: r)) else None
          | None => None
          end
      | Go, Snip sn :: its =>
          match snip_code wopts sn with
          | Some c => match run 400 c t_mp (Machine.enter (as_state unit t_base p)) with
                      | Done st => Some ([], Run (of_state unit st p)
                          (mkFrame (Some (mkAct (a_fn a) (a_last a) (a_ra a) (a_rec a || is_push sn) its)) old :: r))
                      | _ => None
                      end
          | None => None
          end
      | Call, Ins n i :: its =>
          match b_act 1 105 with
          | Some a' => if isop (i_op i) OCall && Nat.eqb (snd n) 0 && u_ok (with_sp p (p_rg p RSP - 8)) && (List.length (addresses (mkFrame (Some a) old :: r)) <? 10)%nat
                       then Some ([CallTo 1%nat 105],
                             Run (pushed unit p 105) (mkFrame (Some a') [] :: mkFrame (Some (with_items a its)) old :: r)) else None
          | None => None
          end
      | Signal, Ins _ _ :: _ => Some ([Interrupted], Run p (library :: mkFrame (Some a) old :: r))
      | Ret, [] => if Dfs.mem (a_last a) [1; 10]%nat && Dfs.mem (a_fn a) [0;1]%nat && t_wf (popped unit p) && u_ok (popped unit p)
                   then Some ([Return (word_at unit p)],
                     resume unit (popped unit p) (fun fr => fr) (word_at unit p) (leave (word_at unit p) (a_ra a) old r)) else None
      | _, _ => None
      end
  | Run p (mkFrame None old :: r) =>
      match x with
      | LibCall => match b_act 0 5555 with
          | Some a' => if u_ok (with_sp p (p_rg p RSP - 8)) && (List.length (addresses (mkFrame None old :: r)) <? 10)%nat
                       then Some ([CallTo 0%nat 5555], Run (pushed unit p 5555) (mkFrame (Some a') [] :: mkFrame None old :: r)) else None
          | None => None
          end
      | LibBack => match r with f :: r' => Some ([Back], Run p (give old (f :: r'))) | [] => None end
      | LibDo _ => match b_lib tt p with
          | Some p' => if t_wf p' && u_ok p' then Some ([Lib tt], Run p' (mkFrame None old :: r)) else None
          | None => None
          end
      | _ => None
      end
  | _ => None
  end.
Fixpoint b_runs (l : list cmd) (c : conf unit) : option (list (event unit) * conf unit) :=
  match l with
  | [] => Some ([], c)
  | x :: l => match b_next x c with
      | Some (e, c') => match b_runs l c' with Some (tr, c2) => Some (e ++ tr, c2) | None => None end
      | None => None
      end
  end.
Lemma b_acts g ra a : In g [0;1]%nat -> b_act g ra = Some a -> begins b_code fl_full b_fs u_m true wopts g ra a.
Proof.
  intros HG H. unfold b_act in H. destruct (plan_items _ _ _ _ _) as [its|] eqn:E; [|discriminate]. injection H as <-.
  split; [split; [cbn in HG |- *; tauto|reflexivity]|].
  destruct HG as [<-|[<-|[]]]; eexists _, _, _, its; (split; [|split; [exact E|reflexivity]]).
  - instantiate (1 := [0]%nat). reflexivity.
  - instantiate (1 := []). reflexivity.
Qed.
Lemma b_next_ok x e c c' : b_next x c = Some (e, c') ->
  step b_code fl_full b_fs u_m true wopts t_mp t_base 10 u_usable unit b_sem unit b_lib false e c c'.
Proof.
  assert (BIG : 1000000 < W) by (vm_compute; reflexivity).
  intros H. destruct c as [p [|[[a|] old] r]| | | |]; try discriminate; cbn [b_next] in H.
  - destruct x as [| | | |y| |nn b last ks|], (a_its a) as [|[n|n i|sn|n] its] eqn:E; try discriminate.
    + injection H as <- <-. eapply s_here; eauto.
    + destruct (b_sem i p) as [p'|] eqn:SE; [|discriminate]. destruct (_ && _)%bool eqn:B; [|discriminate]. injection H as <- <-.
      apply andb_true_iff in B. destruct B as [B1 B2]. pose proof SE as SE0. unfold b_sem in SE. destruct (_ && _)%bool eqn:B; [|discriminate].
      apply andb_true_iff in B. destruct B as [B3 B4]. apply isop_true in B3.
      eapply s_ins; eauto; [rewrite B3; discriminate|]. split; [apply t_wf_ok; auto|]. split; [apply u_ok_ok; auto|]. injection SE as <-. intros l K. exact K.
    + destruct (snip_code wopts sn) as [c|] eqn:SC; [|discriminate].
      destruct (run 400 c t_mp _) as [u| | |] eqn:RN; try discriminate; injection H as <- <-.
      eapply s_snip; eauto. split; [discriminate|]. exists 400%nat; exact RN.
    + injection H as <- <-. eapply s_out; eauto.
    + destruct (b_act 1 105) as [a'|] eqn:UA; [|discriminate].
      destruct (_ && _)%bool eqn:B; [|discriminate]. injection H as <- <-. rewrite !andb_true_iff in B. destruct B as (((B1 & B2) & B4) & B5).
      apply Nat.eqb_eq in B2.
      eapply (s_call b_code fl_full b_fs u_m true wopts t_mp t_base 10 u_usable unit b_sem unit b_lib false p a old r n i its (call_e 1) 1%nat); eauto.
      * apply isop_true; auto.
      * rewrite B2. split; [left; reflexivity|reflexivity].
      * split; [split; [cbn; tauto|reflexivity]|]. right. split; [reflexivity|]. vm_compute. auto.
      * lia.
      * apply b_acts; [cbn; auto|exact UA].
      * apply u_ok_ok in B4. exact B4.
      * apply Nat.ltb_lt in B5. exact B5.
    + injection H as <- <-. eapply s_signal; eauto.
    + destruct (_ && _)%bool eqn:B; [|discriminate]. injection H as <- <-. rewrite !andb_true_iff in B. destruct B as (((B1 & B2) & B3) & B4).
      apply mem_in in B1, B2. apply s_ret; auto.
      * destruct B1 as [B1|[B1|[]]]; rewrite <- B1; eexists; (split; [left; reflexivity|reflexivity]).
      * destruct B2 as [B2|[B2|[]]]; rewrite <- B2; reflexivity.
      * apply t_wf_ok; auto.
      * apply u_ok_ok in B4. exact B4.
  - destruct x as [| | | |y| |n b last ks|]; try discriminate.
    + destruct (b_act 0 5555) as [a'|] eqn:UA; [|discriminate]. destruct (_ && _)%bool eqn:B; [|discriminate]. injection H as <- <-.
      apply andb_true_iff in B. destruct B as [B1 B2]. apply Nat.ltb_lt in B2.
      eapply (s_lib_call b_code fl_full b_fs u_m true wopts t_mp t_base 10 u_usable unit b_sem unit b_lib false p old r 0); eauto.
      * lia.
      * apply b_acts; [left; reflexivity|auto].
      * apply u_ok_ok in B1. exact B1.
    + destruct r as [|f r]; [discriminate|]. injection H as <- <-. apply s_lib_back.
    + destruct (b_lib tt p) as [p'|] eqn:UL; [|discriminate]. destruct (_ && _)%bool eqn:B; [|discriminate]. injection H as <- <-.
      rewrite !andb_true_iff in B. destruct B as (B1 & B2).
      apply s_lib; [exact UL|]. split; [apply t_wf_ok in B1; exact B1|]. split; [apply u_ok_ok in B2; exact B2|].
      unfold b_lib in UL. injection UL as <-. intros l K. exact K.
Qed.
Lemma b_runs_ok l : forall c0 tr0 c tr c', b_reach true c0 tr0 c -> b_runs l c = Some (tr, c') -> b_reach true c0 (tr0 ++ tr) c'.
Proof.
  induction l as [|x l IH]; intros c0 tr0 c tr c' R H; cbn [b_runs] in *; [injection H as <- <-; rewrite app_nil_r; auto|].
  destruct (b_next x c) as [[e c1]|] eqn:E; [|discriminate]. destruct (b_runs l c1) as [[tr1 c2]|] eqn:E2; [|discriminate].
  injection H as <- <-. rewrite app_assoc. apply (IH c0 (tr0 ++ e) c1); auto. eapply r_step; [exact R|]. eapply b_next_ok; exact E.
Qed.
(** 0 calls 1; a signal arrives in 1, and its handler calls 0 again; all return. *)
Definition b_cmds : list cmd :=
  [LibDo (Read 0); LibCall; Go; Go; Call; Go; Go; Signal; LibDo (Read 0); LibCall; Go; Go; Call; Go; Go; Go; Go; Ret; Go; Go; Go; Go; Ret; LibBack; Go; Go; Ret; Go; Go; Go; Go; Ret].
Example C81_case :
  parsed b_code b_fs /\ fl_light fl_full = false /\ (forall g, own b_code g -> terminal_exits b_code g /\ ret_last b_code g) /\
  plain wopts /\ spaces t_mp t_base 10 u_usable /\ described unit b_sem unit b_lib b_access /\
  (wfp unit (t_start 70000) /\ u_usable (p_rg (t_start 70000) RSP) /\ shadow_rep (p_mem (t_start 70000)) t_base []) /\
  (forall g tr p fr, b_oblivious (Run (t_start 70000) [library]) g tr (Run p fr) ->
     careful b_code b_fs t_base 10 unit b_sem unit b_lib b_access g p fr) /\
  exists tr p, b_reach true (Run (t_start 70000) [library]) tr (Run p [library]) /\ low_calls unit tr /\ List.length tr = 16%nat.
Proof.
  split; [apply b_parsed|]. split; [reflexivity|]. split; [apply b_terminal|].
  split; [vm_compute; repeat split; discriminate|]. split; [apply u_spaces|]. split; [apply b_described|].
  split; [apply u_starts; split; [lia|vm_compute; reflexivity]|]. split; [apply b_careful|].
  assert (K : match b_runs b_cmds (Run (t_start 70000) [library]) with
              | Some (tr, Run p [mkFrame None []]) => Nat.eqb (List.length tr) 16 && forallb (fun e => match e with CallTo _ ra => negb (ra mod 2 ^ 32 =? 0) | _ => true end) tr
              | _ => false end = true) by (vm_compute; reflexivity).
  destruct (b_runs b_cmds _) as [[tr c]|] eqn:E; [|discriminate].
  assert (R : b_reach true (Run (t_start 70000) [library]) ([] ++ tr) c) by (eapply b_runs_ok; [apply r_start|exact E]). clear E.
  destruct c as [p [|[[a|] [|v old]] [|f2 fr]]| | | |]; try discriminate. apply andb_true_iff in K. destruct K as [K1 K2].
  exists tr, p. split; [exact R|]. split; [|apply Nat.eqb_eq; exact K1].
  intros f ra HI. rewrite forallb_forall in K2. specialize (K2 _ HI). cbn in K2. lia.
Qed.
