(** * LightDet: with the way of a program given by its state, it has one run, see LightSame.v *)
From Coq Require Import ZArith Bool Lia Arith String List.
From Verif Require Import Machine MachineFacts Jit ShadowSpec.
From Verif Require Import Dfs Binary CallGraph InterProc MemPasses Pipeline RegNames BlockLive
  Reach SafePaths Lowering FastPath Decision P_Instr FullRun Whole P_Whole Sites P_Sites P_SiteUse Order Activation PlanCode ActRun P_Activation
  Follow Tree TreeFacts LightSame LightFollow.
Import ListNotations.
Open Scope Z_scope.
Local Notation mem := Machine.mem.

(** Two edges from a block to the same block get the same code, and lead to the same copy of it. *)
Definition twins_alike (co : code) (ss : list (place * snip)) (pl : plan) (g : nat) : Prop :=
  forall n k1 k2 e1 e2, In (snd n) (f_blocks (co_fun co g)) ->
  nth_error (b_targets (co_block co (snd n))) k1 = Some e1 -> nth_error (b_targets (co_block co (snd n))) k2 = Some e2 ->
  followable e1 -> followable e2 -> e_trg e1 = e_trg e2 ->
  next pl n k1 e1 = next pl n k2 e2 /\ snips ss (OnEdge (snd n, k1)) = snips ss (OnEdge (snd n, k2)).
Lemma twins_untouched co pl g : (forall l, pl <> ByLowering l) -> twins_alike co [] pl g.
Proof.
  intros NL n k1 k2 e1 e2 _ _ _ _ _ ET. split; [|reflexivity].
  unfold next. destruct pl; try (rewrite ET; reflexivity). destruct (NL l). reflexivity.
Qed.
Lemma edge_snips co fl o d s l x : NoDup (l_push_edges l) ->
  snips (lowered_sites co fl o d s l) (OnEdge x) = opt (emem x (l_push_edges l)) (snd (edge_site co fl o d s (l_reg l) x)).
Proof.
  intros N1. unfold lowered_sites. rewrite !snips_app.
  rewrite (snips_none (map (block_site co fl o d s _) (l_push_blocks l))).
  2:{ intros q Hq. apply in_map_iff in Hq. destruct Hq as (b & <- & _). unfold block_site. destruct (l_reg l); [discriminate|destruct (opt_mid _ _ _); discriminate]. }
  rewrite (snips_none (map (pop_site co fl o d s true _) (l_pops l))).
  2:{ intros q Hq. apply in_map_iff in Hq. destruct Hq as (b & <- & _). unfold pop_site. destruct (l_reg l); [discriminate|destruct (opt_mid _ _ _); discriminate]. }
  rewrite !app_nil_r. set (dec := fun x y : eid => ltac:(decide equality; apply Nat.eq_dec) : {x = y} + {x <> y}).
  rewrite (snips_map dec _ _ _ x).
  2:{ intros c _ E. cbn [edge_site fst] in E. congruence. }
  replace (placeb _ _) with true by (symmetry; apply placeb_iff; reflexivity).
  destruct (emem x (l_push_edges l)) eqn:EM.
  - apply emem_in in EM. pose proof (once dec _ x N1). apply (count_occ_In dec) in EM.
    replace (count_occ dec (l_push_edges l) x) with 1%nat by lia. reflexivity.
  - apply emem_nin in EM. apply (count_occ_not_In dec) in EM. rewrite EM. reflexivity.
Qed.
Lemma lower_red co fl g s l : cfg_ok co g -> lower co fl g s = Lowered l ->
  (forall x, In x (l_red l) <-> exists t, Lowering.calm co (s_unsafe_blocks s) (f_entry (co_fun co g)) (fst x) /\ is_edge co x t /\ danger co (s_unsafe_blocks s) t = true) /\
  exists ib, l_push_edges l = filter (fun x => negb (Dfs.mem (trg co x) ib)) (l_red l).
Proof.
  intros CFG. unfold lower.
  destruct (_ || _)%bool; [discriminate|].
  destruct (redir_exact co (s_unsafe_blocks s) (f_blocks (co_fun co g)) (proj2 CFG) (f_entry (co_fun co g)) (proj1 CFG)) as (red & vis & R & RX).
  unfold fuel_of in R. rewrite R.
  destruct (negb (forallb _ red)); [discriminate|].
  match goal with |- context [if ?c then NotLowered else _] => destruct c; [discriminate|] end. cbv zeta.
  destruct (mark _ _ _ _ _) as [v|]; [|discriminate].
  match goal with |- context [if ?c then LAbort else _] => destruct c; [discriminate|] end.
  intros K. injection K as <-. cbn [l_red l_push_edges]. split; [exact RX|eauto].
Qed.
Lemma twins_lowered co fl o d s g l : cfg_ok co g -> fn_ok co g -> lower co fl g s = Lowered l ->
  twins_alike co (lowered_sites co fl o d s l) (ByLowering l) g.
Proof.
  intros CFG FO LOW n k1 k2 e1 e2 HB E1 E2 F1 F2 ET.
  destruct (lower_red co fl g s l CFG LOW) as (RX & ib & PE).
  destruct FO as (_ & _ & NDB & NDX). destruct (lower_nodup co fl g s l NDB NDX LOW) as (N1 & _ & _).
  assert (T1 : is_edge co (snd n, k1) (e_trg e1)) by (exists e1; auto).
  assert (T2 : is_edge co (snd n, k2) (e_trg e1)) by (exists e2; auto).
  pose proof (is_edge_trg _ _ _ T1) as G1. pose proof (is_edge_trg _ _ _ T2) as G2.
  assert (RI : In (snd n, k1) (l_red l) <-> In (snd n, k2) (l_red l)).
  { rewrite !RX. cbn [fst]. split; intros (t & C & T & D); exists (e_trg e1); (split; [exact C|]); (split; [assumption|]);
      apply is_edge_trg in T; congruence. }
  assert (RE : emem (snd n, k1) (l_red l) = emem (snd n, k2) (l_red l)).
  { destruct (emem (snd n, k2) (l_red l)) eqn:M; [apply emem_in, RI, emem_in, M|apply emem_nin; rewrite RI; apply emem_nin, M]. }
  assert (PI : In (snd n, k1) (l_push_edges l) <-> In (snd n, k2) (l_push_edges l)).
  { rewrite PE, !filter_In, G1, G2. tauto. }
  assert (PM : emem (snd n, k1) (l_push_edges l) = emem (snd n, k2) (l_push_edges l)).
  { destruct (emem (snd n, k2) (l_push_edges l)) eqn:M; [apply emem_in, PI, emem_in, M|apply emem_nin; rewrite PI; apply emem_nin, M]. }
  split.
  - unfold next, patched_trg. destruct n as [c b]. cbn [snd] in *. rewrite RE, ET. destruct (l_ndebug l); [reflexivity|]. destruct c; [|reflexivity].
    rewrite (proj2 (skipped_false e1) F1), (proj2 (skipped_false e2) F2). reflexivity.
  - rewrite !edge_snips by exact N1. rewrite PM. unfold edge_site. cbn [fst snd]. rewrite G1, G2. reflexivity.
Qed.
Lemma twins_planned co fl fs m o d g : parsed co fs -> fl_light fl = true ->
  own co g -> twins_alike co (plan_sites co fl o d (m g) g (planned co fl m fs g)) (planned co fl m fs g) g.
Proof.
  intros PA LI HG. destruct (p_fn _ _ PA g HG) as (FO & CO & RW).
  destruct (planned co fl m fs g) as [|l|mv ps rg|slow ps fast| |] eqn:EP; cbn [plan_sites];
    try (apply twins_untouched; discriminate).
  - assert (LOW : lower co fl g (m g) = Lowered l).
    { rewrite (planned_at co fl fs m PA g HG) in EP. destruct (can_return fs g); [|discriminate].
      rewrite (analyses_at co fl fs m PA g (proj1 HG) LI) in EP. apply (plan_lowered co m g fl _ EP l eq_refl). }
    apply twins_lowered; auto.
  - intros n k1 k2 e1 e2 _ _ _ _ _ ET. split; [cbn [next]; rewrite ET; reflexivity|].
    rewrite !snips_none; [reflexivity|intros q [<-|K]|intros q [<-|K]];
      try (unfold entry_site; destruct rg; [discriminate|destruct mv; [destruct (zfind _ _)|]; discriminate]);
      apply in_map_iff in K; destruct K as (b & <- & _); unfold pop_site; (destruct rg; [discriminate|destruct (opt_mid _ _ _); discriminate]).
  - intros n k1 k2 e1 e2 _ _ _ _ _ ET. split; [cbn [next]; rewrite ET; reflexivity|].
    rewrite !snips_none; [reflexivity|intros q [<-|K]|intros q [<-|K]];
      try (unfold slow_site; destruct (opt_mid _ _ _); discriminate);
      apply in_map_iff in K; destruct K as (b & <- & _); unfold pop_site; (destruct (opt_mid _ _ _); discriminate).
Qed.

Section DET.
Variables (co : code) (fl : Lowering.flags) (fs : list finfo) (m : sums).
Variables (o : opts) (d : nat -> dead_info) (mp : perm) (base : Z).
Variable X : Type.
Notation pstate := (pst Machine.flags X).
Variable sem : insn -> pstate -> option pstate.
Variable after : insn -> Z.
Variable lib : lcode -> pstate -> option (pstate * lnext).
Variable turns : nat -> X -> turn -> Prop.
Variable dials : nat -> X -> callee -> Prop.
Notation caller := (caller X).
Notation fin := (fin X).
Notation through := (through co X sem after lib dials).
Notation trun := (trun co o mp base X sem after lib turns dials).
Notation leaves := (leaves co X lib turns).
Notation lrun := (lrun co X lib).
Notation call := (call co fl fs m o d mp base X sem after lib turns dials).

(** The way is given by the state. *)
Definition one_way : Prop :=
  (forall b x t1 t2, turns b x t1 -> turns b x t2 -> t1 = t2) /\ (forall b x c1 c2, dials b x c1 -> dials b x c2 -> c1 = c2).
(** [le] orders what can be seen: instructions and library code go up. *)
Variable le : X -> X -> Prop.
Definition upwards : Prop :=
  (forall x, le x x) /\ (forall x y z, le x y -> le y z -> le x z) /\
  (forall i p p', sem i p = Some p' -> le (p_rest p) (p_rest p')) /\
  (forall c p p' x, lib c p = Some (p', x) -> le (p_rest p) (p_rest p')).
(** The run [z2] does not differ from [z1] as far as both have come. *)
Definition agree (z1 z2 : fin) : Prop :=
  match z1, z2 with
  | Tripped _, _ => True
  | Ended a, Ended b => a = b
  | Ended a, Paused y => le y (p_rest a)
  | Ended _, Tripped _ => False
  | Paused x, Paused y => le x y \/ le y x
  | Paused x, Ended b => le x (p_rest b)
  | Paused x, Tripped y => le x y
  end.

Hypothesis OW : one_way.
Hypothesis UP : upwards.
Hypothesis PA : parsed co fs.
Hypothesis TIDY : forall g, own co g -> tidy co g.
Hypothesis LIGHT : fl_light fl = true.

Definition top (z : fin) : X := match z with Ended p => p_rest p | Paused x | Tripped x => x end.
Definition climbing (A : caller) : Prop := forall g ra p z, A g ra p z -> le (p_rest p) (top z).
Lemma le_refl x : le x x. Proof. apply UP. Qed.
Lemma le_trans x y z : le x y -> le y z -> le x z. Proof. destruct UP as (_ & H & _). apply H. Qed.
Lemma up_sem i p p' : sem i p = Some p' -> le (p_rest p) (p_rest p'). Proof. apply UP. Qed.
Lemma up_lib c p p' x : lib c p = Some (p', x) -> le (p_rest p) (p_rest p'). Proof. apply UP. Qed.
Lemma lrun_climbs A c p z : climbing A -> lrun A c p z -> le (p_rest p) (top z).
Proof.
  intros CA H. induction H as [c p q L|c p p1 g ra q z L OW' AR R IH|c p p1 g ra z L OW' U AR].
  - exact (up_lib _ _ _ _ L).
  - eapply le_trans; [exact (up_lib _ _ _ _ L)|]. eapply le_trans; [exact (CA _ _ _ _ AR)|exact IH].
  - eapply le_trans; [exact (up_lib _ _ _ _ L)|]. exact (CA _ _ _ _ AR).
Qed.
Lemma through_climbs A n i p z : climbing A -> through A n i p z -> le (p_rest p) (top z).
Proof.
  intros CA (e & p1 & _ & SE & [(g & _ & _ & AR)|(name & _ & _ & LI)]).
  - eapply le_trans; [exact (up_sem _ _ _ SE)|]. eapply CA; exact AR.
  - eapply le_trans; [exact (up_sem _ _ _ SE)|]. exact (lrun_climbs _ _ _ _ CA LI).
Qed.
Lemma trun_climbs A : climbing A -> forall its p z, trun A its p z -> le (p_rest p) (top z).
Proof.
  intros CA its p z H.
  induction H as [p|n i r p|n r p z R IH|n r p z ME R IH|n i r p p' z OC SE R IH|n i r p q z OC TH R IH|n i r p z OC U TH|sn c u r p z SC EX R IH|sn r p F]; auto using le_refl.
  - eapply le_trans; [exact (up_sem _ _ _ SE)|exact IH].
  - eapply le_trans; [exact (through_climbs _ _ _ _ _ CA TH)|exact IH].
  - exact (through_climbs _ _ _ _ _ CA TH).
Qed.
Lemma leaves_climbs T last ra z z' : climbing T -> leaves T last ra z z' -> le (top z) (top z').
Proof.
  intros CT H. destruct H as [z U|p IR TU W|p e g z IT GT TU TR|p e name z IT GO TU L]; cbn [top]; auto using le_refl.
  - eapply CT; exact TR.
  - exact (lrun_climbs _ _ _ _ CT L).
Qed.
Lemma call_climbs t : forall h, climbing (call t h).
Proof.
  induction h as [|h IH]; intros g ra p z H; [cbn in H; subst z; apply le_refl|].
  destruct H as (ks & path & last & items & z0 & _ & _ & _ & TR & LV).
  eapply le_trans; [eapply trun_climbs; [exact IH|exact TR]|]. eapply leaves_climbs; [exact IH|exact LV].
Qed.

Lemma agree_paused z1 y : le y (top z1) -> agree z1 (Paused y).
Proof. destruct z1; cbn; auto. Qed.
Lemma agree_later x z2 : le x (top z2) -> agree (Paused x) z2.
Proof. destruct z2; cbn; auto. Qed.
(** One of the runs is not finished. *)
Definition short (z1 z2 : fin) : Prop := agree z1 z2 /\ (unfinished z1 \/ unfinished z2).
Definition same_calls (A1 A2 : caller) : Prop := forall g ra p z1 z2, own co g -> A1 g ra p z1 -> A2 g ra p z2 -> agree z1 z2.
Section TWO.
Variables A1 A2 : caller.
Hypothesis C1 : climbing A1.
Hypothesis C2 : climbing A2.
Hypothesis SC : same_calls A1 A2.
Lemma det_lrun c p z1 : lrun A1 c p z1 -> forall z2, lrun A2 c p z2 -> agree z1 z2.
Proof.
  intros H. induction H as [c p q L|c p p1 g ra q z L OW' AR R IH|c p p1 g ra z L OW' U AR]; intros z2 H2;
    inversion H2 as [? ? q' L'|? ? p1' g' ra' q' ? L' OW2 AR' R'|? ? p1' g' ra' ? L' OW2 U' AR']; subst; rewrite L in L'; try discriminate.
  - injection L' as <-. reflexivity.
  - injection L' as <- <- <-. pose proof (SC _ _ _ _ _ OW' AR AR') as E. cbn in E. subst q'. apply IH. exact R'.
  - injection L' as <- <- <-. pose proof (SC _ _ _ _ _ OW' AR AR') as E. destruct z2 as [q2|y|y]; cbn in E; [destruct U'| |contradiction].
    apply agree_paused. eapply le_trans; [exact E|]. exact (lrun_climbs _ _ _ _ C1 R).
  - injection L' as <- <- <-. pose proof (SC _ _ _ _ _ OW' AR AR') as E. destruct z as [q1|x|x]; [destruct U| |exact I].
    apply agree_later. eapply le_trans; [exact E|]. exact (lrun_climbs _ _ _ _ C2 R').
  - injection L' as <- <- <-. exact (SC _ _ _ _ _ OW' AR AR').
Qed.
Lemma det_through n i p z1 z2 : through A1 n i p z1 -> through A2 n i p z2 -> agree z1 z2.
Proof.
  intros (e & p1 & _ & SE & K1) (e' & p1' & _ & SE' & K2). rewrite SE in SE'. injection SE' as <-.
  destruct K1 as [(g & GT & D1 & R1)|(name & _ & D1 & L1)], K2 as [(g' & GT' & D2 & R2)|(name' & _ & D2 & L2)];
    pose proof (proj2 OW _ _ _ _ D1 D2) as E; try discriminate; injection E as <-.
  - eapply SC; eauto. apply GT.
  - eapply det_lrun; eauto.
Qed.
Definition no_out (a : list item) : Prop := forall n, ~ In (Out n) a.
Lemma det_prefix : forall a r1 r2 p z1 z2, no_out a -> trun A1 (a ++ r1) p z1 -> trun A2 (a ++ r2) p z2 ->
  short z1 z2 \/ exists q, trun A1 r1 q z1 /\ trun A2 r2 q z2.
Proof.
  induction a as [|x a IH]; intros r1 r2 p z1 z2 NO T1 T2; [right; exists p; auto|].
  assert (NO' : no_out a) by (intros n K; apply (NO n); right; exact K). cbn [app] in T1, T2.
  destruct x as [n|n i|sn|n].
  - inversion T1; subst. inversion T2; subst. eapply IH; eauto.
  - pose proof (trun_climbs _ C1 _ _ _ T1) as U1. pose proof (trun_climbs _ C2 _ _ _ T2) as U2.
    inversion T1 as [|? ? ? ?| | |? ? ? ? p1 ? O1 S1 R1|? ? ? ? q1 ? O1 H1 R1|? ? ? ? ? O1 N1 H1| |]; subst.
    + left. split; [apply agree_later; exact U2|left; exact I].
    + inversion T2 as [|? ? ? ?| | |? ? ? ? p2 ? O2 S2 R2|? ? ? ? q2 ? O2 H2 R2|? ? ? ? ? O2 N2 H2| |]; subst; try contradiction.
      * left. split; [apply agree_paused; exact U1|right; exact I].
      * rewrite S1 in S2. injection S2 as <-. eapply IH; eauto.
    + inversion T2 as [|? ? ? ?| | |? ? ? ? p2 ? O2 S2 R2|? ? ? ? q2 ? O2 H2 R2|? ? ? ? ? O2 N2 H2| |]; subst; try contradiction.
      * left. split; [apply agree_paused; exact U1|right; exact I].
      * pose proof (det_through _ _ _ _ _ H1 H2) as E. cbn in E. subst q2. eapply IH; eauto.
      * pose proof (det_through _ _ _ _ _ H1 H2) as E. destruct z2 as [q2|y|y]; cbn in E; [destruct N2| |contradiction].
        left. split; [|right; exact I]. apply agree_paused. eapply le_trans; [exact E|]. exact (trun_climbs _ C1 _ _ _ R1).
    + inversion T2 as [|? ? ? ?| | |? ? ? ? p2 ? O2 S2 R2|? ? ? ? q2 ? O2 H2 R2|? ? ? ? ? O2 N2 H2| |]; subst; try contradiction.
      * left. split; [apply agree_paused; exact U1|right; exact I].
      * pose proof (det_through _ _ _ _ _ H1 H2) as E. left. split; [|left; exact N1]. destruct z1 as [q1|x|x]; [destruct N1| |exact I].
        apply agree_later. eapply le_trans; [exact E|]. exact (trun_climbs _ C2 _ _ _ R2).
      * left. split; [exact (det_through _ _ _ _ _ H1 H2)|left; exact N1].
  - inversion T1 as [| | | | | | |? c1 u1 ? ? ? K1 X1 R1|? ? ? F1]; inversion T2 as [| | | | | | |? c2 u2 ? ? ? K2 X2 R2|? ? ? F2]; subst.
    + rewrite K1 in K2. injection K2 as <-. pose proof (exec_det _ _ _ _ _ X1 X2) as E. injection E as <-. eapply IH; eauto.
    + exfalso. destruct F2 as [F|(c & F & G)]; [congruence|]. rewrite K1 in F. injection F as <-.
      destruct G as [G|G]; pose proof (exec_det _ _ _ _ _ X1 G); discriminate.
    + left. split; [exact I|left; exact I].
    + left. split; [exact I|left; exact I].
  - destruct (NO n). left; reflexivity.
Qed.
Lemma no_out_snips l : no_out (map Snip l).
Proof. intros n K. apply in_map_iff in K. destruct K as (? & ? & _). discriminate. Qed.
Lemma no_out_app a b : no_out a -> no_out b -> no_out (a ++ b).
Proof. intros H1 H2 n K. apply in_app_iff in K. destruct K as [K|K]; [exact (H1 n K)|exact (H2 n K)]. Qed.
Lemma no_out_weave ss n is : no_out (weave ss n is).
Proof.
  unfold weave, weaveg. induction is as [|i t IH]; [intros x []|]. cbn [flat_map]. apply no_out_app; [|exact IH].
  apply no_out_app; [apply no_out_snips|]. intros x [K|[]]. discriminate.
Qed.
Lemma entering_snips l r : entering (map Snip l ++ r) = entering r.
Proof. induction l; auto. Qed.
Lemma entering_segs ss p n ks sl : segs co p n ks = Some sl -> entering (flat_map (seg_items co ss) sl) = Some (snd n).
Proof.
  destruct ks as [|k ks]; cbn [segs]; intros H.
  - injection H as <-. cbn [flat_map seg_items]. unfold node_items. destruct (cut _). reflexivity.
  - destruct (nth_error _ _) as [e|]; [|discriminate]. destruct (_ || _)%bool; [discriminate|]. destruct (segs _ _ _ ks); [|discriminate].
    injection H as <-. cbn [flat_map seg_items]. unfold node_items. destruct (cut _). reflexivity.
Qed.
Lemma trun_end A p z : trun A [] p z -> z = Ended p.
Proof. intros H. inversion H. reflexivity. Qed.
Lemma orig_tail b ks pp x path last : orig_blocks co b ks = Some pp -> x :: pp = path ++ [last] ->
  exists r, pp = r ++ [last] /\ path = x :: r.
Proof.
  intros OB E. destruct path as [|y r]; cbn [app] in E; injection E as -> ->; [|eauto]. exfalso.
  destruct ks as [|k ks]; cbn [orig_blocks] in OB; [discriminate|].
  destruct (nth_error _ _) as [e|]; [|discriminate]. destruct (e_sink e || e_inter e)%bool; [discriminate|]. destruct (orig_blocks co _ ks); discriminate.
Qed.
(** Where one run has left the function and the other goes on to another block. *)
Definition forks (last1 last2 : nat) (z1 z2 : fin) : Prop :=
  exists q b, (z1 = Ended q /\ turns last1 (p_rest q) (ToBlock b)) \/ (z2 = Ended q /\ turns last2 (p_rest q) (ToBlock b)).
Lemma det_path ss p g : own co g -> twins_alike co ss p g -> forall ks1 n ks2 sl1 sl2 path1 path2 last1 last2 q z1 z2,
  segs co p n ks1 = Some sl1 -> segs co p n ks2 = Some sl2 ->
  orig_blocks co (snd n) ks1 = Some (path1 ++ [last1]) -> orig_blocks co (snd n) ks2 = Some (path2 ++ [last2]) ->
  no_catch co (snd n) ks1 -> no_catch co (snd n) ks2 -> (forall b, In b (path1 ++ [last1]) -> In b (f_blocks (co_fun co g))) ->
  trun A1 (flat_map (seg_items co ss) sl1) q z1 -> trun A2 (flat_map (seg_items co ss) sl2) q z2 ->
  short z1 z2 \/ forks last1 last2 z1 z2 \/ (last1 = last2 /\ exists q', z1 = Ended q' /\ z2 = Ended q').
Proof.
  intros HG TW.
  assert (NOTL : forall b k e, In b (f_blocks (co_fun co g)) -> nth_error (b_targets (co_block co b)) k = Some e ->
     (e_sink e || e_inter e)%bool = false -> e_ty e <> CATCH -> snd (cut (b_insns (co_block co b))) = []).
  { intros b k e HB NE SI CA. destruct (TIDY g HG b HB) as (body & tail & SH & _ & _ & OE). rewrite (cut_shape _ _ _ SH). cbn [snd].
    destruct tail as [|i tl]; [reflexivity|]. exfalso. specialize (OE ltac:(discriminate)).
    assert (K : In e (out_edges co b)); [|rewrite OE in K; exact K]. apply filter_In. split; [eapply nth_error_In; exact NE|].
    unfold bp_edge. apply orb_false_iff in SI. destruct SI as [-> ->]. reflexivity. }
  induction ks1 as [|k1 ks1 IH]; intros n ks2 sl1 sl2 path1 path2 last1 last2 q z1 z2 G1 G2 B1 B2 N1 N2 IB T1 T2.
  - cbn [segs orig_blocks] in G1, B1. injection G1 as <-. injection B1 as B1.
    assert (L1 : last1 = snd n) by (destruct path1 as [|x [|y l]]; cbn in B1; congruence).
    assert (HB : In (snd n) (f_blocks (co_fun co g))) by (apply IB; rewrite <- B1; left; reflexivity).
    destruct ks2 as [|k2 ks2]; cbn [segs orig_blocks no_catch] in G2, B2, N2.
    + injection G2 as <-. injection B2 as B2. assert (L2 : last2 = snd n) by (destruct path2 as [|x [|y l]]; cbn in B2; congruence).
      cbn [flat_map seg_items] in T1, T2.
      destruct (det_prefix (node_items co ss n true) [] [] q z1 z2) as [K|(q' & K1 & K2)]; auto.
      * unfold node_items. destruct (cut _) as [bd tl].
        intros x [K|K]; [discriminate|]. revert K. apply no_out_app; [apply no_out_snips|]. apply no_out_app; [apply no_out_weave|].
        apply no_out_app; [apply no_out_snips|]. induction tl as [|i tl IHt]; [intros y []|]. cbn [flat_map].
        apply no_out_app; [apply no_out_snips|exact IHt].
      * apply trun_end in K1, K2. right. right. split; [congruence|]. exists q'. auto.
    + destruct (nth_error _ k2) as [e2|] eqn:E2; [|discriminate]. destruct (e_sink e2 || e_inter e2)%bool eqn:S2; [discriminate|].
      destruct (segs co p (next p n k2 e2) ks2) as [sl'|] eqn:G2'; [|discriminate]. injection G2 as <-.
      pose proof (NOTL _ _ _ HB E2 S2 (proj1 N2)) as TL.
      cbn [flat_map seg_items] in T1, T2. unfold node_items in T1, T2. destruct (cut (b_insns (co_block co (snd n)))) as [bd tl]. cbn [snd] in TL. subst tl.
      cbn [flat_map] in T1. cbn [weave weaveg flat_map app] in T2. rewrite !app_nil_r in T1.
      set (P := Here n :: map Snip (snips ss (AtStart n)) ++ weave ss n bd ++ map Snip (snips ss (AtEnd n))) in *.
      rewrite <- (app_nil_r P) in T1.
      assert (T2' : trun A2 (P ++ Out n :: (if fst n then [] else map Snip (snips ss (OnEdge (snd n, k2)))) ++ flat_map (seg_items co ss) sl') q z2).
      { unfold P. cbn [app]. rewrite <- !app_assoc. rewrite <- !app_assoc in T2. exact T2. }
      edestruct (det_prefix P) with (2 := T1) (3 := T2') as [K|(q' & K1 & K2)]; auto.
      * intros x [K|K]; [discriminate|]. revert K. apply no_out_app; [apply no_out_snips|]. apply no_out_app; [apply no_out_weave|apply no_out_snips].
      * right. left. exists q', (e_trg e2). left. split; [apply trun_end in K1; exact K1|]. inversion K2 as [| | |? ? ? ? ME R| | | | |]; subst. apply ME.
        rewrite <- (next_trg p n k2 e2). destruct (fst n); [apply (entering_segs _ _ _ _ _ G2')|]. rewrite entering_snips. apply (entering_segs _ _ _ _ _ G2').
  - cbn [segs orig_blocks no_catch] in G1, B1, N1.
    destruct (nth_error _ k1) as [e1|] eqn:E1; [|discriminate]. destruct (e_sink e1 || e_inter e1)%bool eqn:S1; [discriminate|].
    destruct (segs co p (next p n k1 e1) ks1) as [sl1'|] eqn:G1'; [|discriminate]. injection G1 as <-.
    destruct (orig_blocks co (e_trg e1) ks1) as [pp1|] eqn:B1'; [|discriminate]. injection B1 as B1.
    assert (HB : In (snd n) (f_blocks (co_fun co g))) by (apply IB; rewrite <- B1; left; reflexivity).
    pose proof (NOTL _ _ _ HB E1 S1 (proj1 N1)) as TL.
    cbn [flat_map seg_items] in T1. unfold node_items in T1.
    destruct ks2 as [|k2 ks2]; cbn [segs orig_blocks no_catch] in G2, B2, N2.
    + injection G2 as <-. injection B2 as B2. assert (L2 : last2 = snd n) by (destruct path2 as [|x [|y l]]; cbn in B2; congruence).
      cbn [flat_map seg_items] in T2. unfold node_items in T2. destruct (cut (b_insns (co_block co (snd n)))) as [bd tl]. cbn [snd] in TL. subst tl.
      cbn [flat_map] in T2. cbn [weave weaveg flat_map app] in T1. rewrite !app_nil_r in T2.
      set (P := Here n :: map Snip (snips ss (AtStart n)) ++ weave ss n bd ++ map Snip (snips ss (AtEnd n))) in *.
      rewrite <- (app_nil_r P) in T2.
      assert (T1' : trun A1 (P ++ Out n :: (if fst n then [] else map Snip (snips ss (OnEdge (snd n, k1)))) ++ flat_map (seg_items co ss) sl1') q z1).
      { unfold P. cbn [app]. rewrite <- !app_assoc. rewrite <- !app_assoc in T1. exact T1. }
      edestruct (det_prefix P) with (2 := T1') (3 := T2) as [K|(q' & K1 & K2)]; auto.
      * intros x [K|K]; [discriminate|]. revert K. apply no_out_app; [apply no_out_snips|]. apply no_out_app; [apply no_out_weave|apply no_out_snips].
      * right. left. exists q', (e_trg e1). right. split; [apply trun_end in K2; exact K2|]. subst last2. inversion K1 as [| | |? ? ? ? ME R| | | | |]; subst. apply ME.
        rewrite <- (next_trg p n k1 e1). destruct (fst n); [apply (entering_segs _ _ _ _ _ G1')|]. rewrite entering_snips. apply (entering_segs _ _ _ _ _ G1').
    + destruct (nth_error _ k2) as [e2|] eqn:E2; [|discriminate]. destruct (e_sink e2 || e_inter e2)%bool eqn:S2; [discriminate|].
      destruct (segs co p (next p n k2 e2) ks2) as [sl2'|] eqn:G2'; [|discriminate]. injection G2 as <-.
      destruct (orig_blocks co (e_trg e2) ks2) as [pp2|] eqn:B2'; [|discriminate]. injection B2 as B2.
      cbn [flat_map seg_items] in T2. unfold node_items in T2. destruct (cut (b_insns (co_block co (snd n)))) as [bd tl]. cbn [snd] in TL. subst tl.
      cbn [weave weaveg flat_map app] in T1, T2.
      set (P := Here n :: map Snip (snips ss (AtStart n)) ++ weave ss n bd ++ map Snip (snips ss (AtEnd n))) in *.
      assert (T1' : trun A1 (P ++ Out n :: (if fst n then [] else map Snip (snips ss (OnEdge (snd n, k1)))) ++ flat_map (seg_items co ss) sl1') q z1).
      { unfold P. cbn [app]. rewrite <- !app_assoc. rewrite <- !app_assoc in T1. exact T1. }
      assert (T2' : trun A2 (P ++ Out n :: (if fst n then [] else map Snip (snips ss (OnEdge (snd n, k2)))) ++ flat_map (seg_items co ss) sl2') q z2).
      { unfold P. cbn [app]. rewrite <- !app_assoc. rewrite <- !app_assoc in T2. exact T2. }
      edestruct (det_prefix P) with (2 := T1') (3 := T2') as [K|(q' & K1 & K2)]; auto.
      * intros x [K|K]; [discriminate|]. revert K. apply no_out_app; [apply no_out_snips|]. apply no_out_app; [apply no_out_weave|apply no_out_snips].
      * inversion K1 as [| | |? ? ? ? ME1 R1| | | | |]; subst. inversion K2 as [| | |? ? ? ? ME2 R2| | | | |]; subst.
        assert (EN1 : entering ((if fst n then [] else map Snip (snips ss (OnEdge (snd n, k1)))) ++ flat_map (seg_items co ss) sl1') = Some (e_trg e1)).
        { rewrite <- (next_trg p n k1 e1). destruct (fst n); [apply (entering_segs _ _ _ _ _ G1')|]. rewrite entering_snips. apply (entering_segs _ _ _ _ _ G1'). }
        assert (EN2 : entering ((if fst n then [] else map Snip (snips ss (OnEdge (snd n, k2)))) ++ flat_map (seg_items co ss) sl2') = Some (e_trg e2)).
        { rewrite <- (next_trg p n k2 e2). destruct (fst n); [apply (entering_segs _ _ _ _ _ G2')|]. rewrite entering_snips. apply (entering_segs _ _ _ _ _ G2'). }
        pose proof (proj1 OW _ _ _ _ (ME1 _ EN1) (ME2 _ EN2)) as ET. injection ET as ET.
        apply orb_false_iff in S1, S2. destruct S1 as [S1 S1'], S2 as [S2 S2']. destruct N1 as [N1 N1'], N2 as [N2 N2'].
        assert (NX : next p n k1 e1 = next p n k2 e2 /\ snips ss (OnEdge (snd n, k1)) = snips ss (OnEdge (snd n, k2))).
        { apply TW; auto; repeat split; auto. }
        destruct NX as (NX & SX). rewrite <- SX in R2. rewrite <- NX in G2'. rewrite <- ET in B2', N2'. clear EN1 EN2.
        edestruct (det_prefix (if fst n then [] else map Snip (snips ss (OnEdge (snd n, k1))))) with (2 := R1) (3 := R2) as [K|(q2 & J1 & J2)]; auto.
        { destruct (fst n); [intros x []|apply no_out_snips]. }
        assert (PP1 : exists r1, pp1 = r1 ++ [last1] /\ path1 = snd n :: r1).
        { eapply orig_tail; eauto. }
        assert (PP2 : exists r2, pp2 = r2 ++ [last2] /\ path2 = snd n :: r2).
        { eapply orig_tail; eauto. }
        destruct PP1 as (r1 & -> & ->), PP2 as (r2 & -> & ->).
        eapply (IH (next p n k1 e1) ks2 sl1' sl2' r1 r2 last1 last2 q2 z1 z2); rewrite ?next_trg; auto.
        intros b Hb. apply IB. right. exact Hb.
Qed.
End TWO.

Lemma short_leaves A1 A2 l1 l2 ra z1 z2 y1 y2 : climbing A1 -> climbing A2 -> short z1 z2 ->
  leaves A1 l1 ra z1 y1 -> leaves A2 l2 ra z2 y2 -> agree y1 y2.
Proof.
  intros C1 C2 (AG & UN) L1 L2. pose proof (leaves_climbs _ _ _ _ _ C1 L1) as U1. pose proof (leaves_climbs _ _ _ _ _ C2 L2) as U2.
  assert (E1 : unfinished z1 -> y1 = z1) by (intros U; destruct L1; [reflexivity|destruct U..]).
  assert (E2 : unfinished z2 -> y2 = z2) by (intros U; destruct L2; [reflexivity|destruct U..]).
  destruct z1 as [a|x|x].
  - destruct UN as [[]|UN]. rewrite (E2 UN). destruct z2 as [b|y|y]; [destruct UN| |contradiction].
    apply agree_paused. eapply le_trans; [exact AG|exact U1].
  - rewrite (E1 I). destruct z2 as [b|y|y]; [| rewrite (E2 I); exact AG|rewrite (E2 I); exact AG].
    apply agree_later. eapply le_trans; [exact AG|exact U2].
  - rewrite (E1 I). exact I.
Qed.
Lemma det_leaves A1 A2 last ra q y1 y2 : climbing A1 -> climbing A2 -> same_calls A1 A2 -> leaves A1 last ra (Ended q) y1 -> leaves A2 last ra (Ended q) y2 -> agree y1 y2.
Proof.
  intros C1 C2 SC L1 L2.
  inversion L1 as [? U|? IR TU W|? e g ? IT GT TU TR|? e name q1 IT GO TU L]; subst; [destruct U| | |];
  inversion L2 as [? U|? IR' TU' W'|? e' g' ? IT' GT' TU' TR'|? e' name' q1' IT' GO' TU' L']; subst; try (destruct U);
    pose proof (proj1 OW _ _ _ _ TU TU') as E; try discriminate.
  - reflexivity.
  - injection E as <-. eapply SC; eauto. apply GT.
  - injection E as <-. exact (det_lrun _ _ C1 C2 SC _ _ _ L _ L').
Qed.
Lemma no_fork A1 A2 l1 l2 ra z1 z2 y1 y2 : forks l1 l2 z1 z2 -> leaves A1 l1 ra z1 y1 -> leaves A2 l2 ra z2 y2 -> False.
Proof.
  intros (q & b & [(-> & TU)|(-> & TU)]) L1 L2.
  - inversion L1 as [? U|? IR TU' W|? e g ? IT GT TU' TR|? e name q1 IT GO TU' L]; subst; [destruct U| | |];
      pose proof (proj1 OW _ _ _ _ TU TU') as E; discriminate.
  - inversion L2 as [? U|? IR TU' W|? e g ? IT GT TU' TR|? e name q1 IT GO TU' L]; subst; [destruct U| | |];
      pose proof (proj1 OW _ _ _ _ TU TU') as E; discriminate.
Qed.
Lemma det_call t : forall h1 h2, same_calls (call t h1) (call t h2).
Proof.
  induction h1 as [|h1 IH]; intros h2 g ra p z1 z2 HG K1 K2.
  - cbn in K1. subst z1. apply agree_later. exact (call_climbs t h2 g ra p z2 K2).
  - destruct h2 as [|h2]; [cbn in K2; subst z2; apply agree_paused; exact (call_climbs t (S h1) g ra p z1 K1)|].
    destruct K1 as (ks1 & path1 & last1 & its1 & y1 & B1 & N1 & I1 & T1 & L1), K2 as (ks2 & path2 & last2 & its2 & y2 & B2 & N2 & I2 & T2 & L2).
    pose proof (path_blocks co fs PA g ks1 _ HG B1) as PB.
    assert (SG : exists ss pl sl1 sl2, twins_alike co ss pl g /\ segs co pl (false, f_entry (co_fun co g)) ks1 = Some sl1 /\ segs co pl (false, f_entry (co_fun co g)) ks2 = Some sl2 /\
      its1 = map Snip (snips ss AtEntry) ++ flat_map (seg_items co ss) sl1 /\ its2 = map Snip (snips ss AtEntry) ++ flat_map (seg_items co ss) sl2).
    { assert (PI : exists ss pl, twins_alike co ss pl g /\ plan_items co ss g pl ks1 = Some its1 /\ plan_items co ss g pl ks2 = Some its2).
      { unfold code_of in I1, I2. destruct t; eexists; eexists; (split; [|split; [exact I1|exact I2]]); [apply twins_planned; auto|apply twins_untouched; discriminate]. }
      destruct PI as (ss & pl & TW & P1 & P2). exists ss, pl. unfold plan_items in P1, P2.
      destruct pl; try discriminate; (destruct (segs co _ _ ks1) as [sl1|]; [|discriminate]; destruct (segs co _ _ ks2) as [sl2|]; [|discriminate];
        injection P1 as <-; injection P2 as <-; exists sl1, sl2; auto). }
    destruct SG as (ss & pl & sl1 & sl2 & TW & G1 & G2 & -> & ->).
    destruct (det_prefix _ _ (call_climbs t h1) (call_climbs t h2) (IH h2) _ _ _ _ _ _ (no_out_snips _) T1 T2) as [K|(q & J1 & J2)].
    + eapply short_leaves; eauto using call_climbs.
    + destruct (det_path _ _ (call_climbs t h1) (call_climbs t h2) (IH h2) ss pl g HG TW ks1 _ ks2 _ _ path1 path2 last1 last2 q y1 y2 G1 G2 B1 B2 N1 N2 PB J1 J2)
        as [K|[K|(<- & q' & -> & ->)]].
      * eapply short_leaves; eauto using call_climbs.
      * destruct (no_fork _ _ _ _ _ _ _ _ _ K L1 L2).
      * eapply det_leaves; eauto using call_climbs.
Qed.
End DET.
