(** * P_HeapLoop: functions with loops in the heap write analysis (property C45) *)
From Coq Require Import ZArith Bool Lia ZifyBool ZifyNat Arith String List.
From Verif Require Import Machine Jit Dfs Binary MemPasses Reach Components P_Cfg Heap HeapFacts HeapRun ExCode P_Paths P_Heap P_HeapFlow.
Import ListNotations.
Open Scope Z_scope.

Section LOOP.
Variable co : code.
Variable fn : nat.
Variable s : summary.
Variables hdst hsrc : insn -> hreg.
Notation blocks := (f_blocks (co_fun co fn)).
Notation entry := (f_entry (co_fun co fn)).
Notation insns b := (b_insns (co_block co b)).
Notation keys := (hkeys co fn s hdst hsrc).
Notation trans := (transfer co s hdst hsrc).
Notation work := (h_work co fn s hdst hsrc).
Notation follows := (P_HeapFlow.follows co s hdst hsrc).
Notation args := (fold_left set_arg arg_regs hctx0).
Notation sget st q := (st (fst q) (snd q)).

(** ** Nothing is stored for registers and slots that do not occur *)
Definition supp (c : hctx) : Prop := forall k, ~ In k keys -> c k = None.
Lemma reg_key r : In (HG r) keys.
Proof. apply keys_named. left. eauto. Qed.
Lemma supp0 : supp hctx0.
Proof. intros [[r|n|]|h] K; try reflexivity. exfalso. apply K. apply reg_key. Qed.
Lemma set_supp c k v : supp c -> In k keys -> supp (hset c k v).
Proof. intros S K k' N. unfold hset. destruct (hloc_eq_dec k' k) as [->|]; [contradiction|auto]. Qed.
Lemma tops_supp rs c : supp c -> supp (fold_left (fun c r => hset c (HG r) a_top) rs c).
Proof. revert c. induction rs as [|r rs IH]; cbn; intros c S; [exact S|]. apply IH, set_supp; [exact S|apply reg_key]. Qed.
Lemma args_supp : supp args.
Proof. unfold arg_regs, set_arg. cbn [fold_left]. repeat (apply set_supp; [|apply reg_key]). apply supp0. Qed.
Lemma ensure_supp c h : supp c -> In (HS h) keys -> supp (ensure c h).
Proof. intros S K. unfold ensure. destruct (c (HS h)); [exact S|apply set_supp; auto]. Qed.
Lemma trans_supp b x c c' : In b blocks -> In x (insns b) -> supp c -> trans b x c = Some c' -> supp c'.
Proof.
  intros B X S T.
  assert (KD : In (HR (hdst x)) keys) by (apply keys_named; right; right; exists b, x; auto).
  assert (KS : In (HR (hsrc x)) keys) by (apply keys_named; right; right; exists b, x; auto).
  assert (KH : forall h h', heights s x = Some (h, h') -> In (HS h) keys /\ In (HS h') keys).
  { intros h h' E. split; apply keys_named; right; right; exists b, x; (split; [exact B|]); (split; [exact X|]); right; right; exists h, h'; auto. }
  assert (UNK : supp (t_unknown x c)) by (apply tops_supp; exact S).
  unfold transfer in T. destruct (i_op x); try (injection T as <-; exact UNK).
  - unfold t_mov in T. destruct (hreg_eq_dec (hdst x) RNone); [injection T as <-; exact S|].
    destruct (i_rmem x).
    { destruct (heights s x) as [[h h']|] eqn:EH.
      - destruct (KH _ _ eq_refl). destruct (assign _) as [v|]; [|discriminate]. injection T as <-. auto using set_supp, ensure_supp.
      - injection T as <-. auto using set_supp. }
    destruct (i_wmem x).
    { destruct (heights s x) as [[h h']|] eqn:EH; [|injection T as <-; exact S]. destruct (KH _ _ eq_refl).
      destruct (set_point _ _) as [v|]; [|discriminate]. injection T as <-. auto using set_supp, ensure_supp. }
    destruct (hreg_eq_dec (hsrc x) RNone); [injection T as <-; auto using set_supp|].
    destruct (assign _) as [v|]; [|discriminate]. injection T as <-. auto using set_supp.
  - unfold t_lea in T. destruct (_ && _)%bool; [|injection T as <-; exact UNK].
    destruct (assign _) as [v|]; [|discriminate]. injection T as <-. auto using set_supp.
  - injection T as <-. unfold t_call. apply set_supp; [|apply reg_key]. apply tops_supp. exact S.
Qed.
Lemma meets_supp me st ps : (forall b i, supp (st b i)) -> forall c c', supp c ->
  meets co fn s hdst hsrc me st ps c = Some c' -> supp c'.
Proof.
  intros SU. induction ps as [|[b i] r IH]; intros c c' S E; cbn [meets] in E; [injection E as <-; exact S|].
  destruct (_ && _)%bool; [eapply IH; eauto|]. destruct (meet_ctx keys c (st b i)) as [m|] eqn:M; [|discriminate].
  eapply IH; [|exact E]. unfold meet_ctx in M. destruct (meet_ok _ _ _); [|discriminate]. injection M as <-.
  intros k K. unfold meet_val. rewrite (S k K), (SU b i k K). reflexivity.
Qed.
Lemma put_supp st b i c : (forall b i, supp (st b i)) -> supp c -> forall b' i', supp (hput st b i c b' i').
Proof. intros SU S b' i'. unfold hput. destruct (_ && _)%bool; auto. Qed.
Lemma fold_args_supp c : supp c -> supp (fold_left set_arg arg_regs c).
Proof. intros S. unfold arg_regs, set_arg. cbn [fold_left]. repeat (apply set_supp; [|apply reg_key]). exact S. Qed.
Lemma update_supp b st : (forall b i, supp (st b i)) -> forall b' i', supp (fst (update co fn b st) b' i').
Proof. intros SU b' i'. unfold update. destruct (Nat.eqb b entry); cbn [fst]; [|apply SU]. apply put_supp; [exact SU|apply fold_args_supp, SU]. Qed.
Lemma updates_supp C ts : incl C blocks -> forall st, (forall b i, supp (st b i)) ->
  (forall b i, supp (fst (updates co fn C ts st) b i)) /\ (forall w, In w (snd (updates co fn C ts st)) -> In (fst (fst w)) blocks).
Proof.
  intros IC. induction ts as [|e r IH]; intros st SU; cbn [updates]; [split; [exact SU|intros w []]|].
  destruct (Dfs.mem (e_trg e) C) eqn:M; [|apply IH; exact SU].
  pose proof (update_supp (e_trg e) st SU) as U1.
  assert (U2 : fst (fst (snd (update co fn (e_trg e) st))) = e_trg e) by (unfold update; destruct (Nat.eqb _ _); reflexivity).
  destruct (update co fn (e_trg e) st) as [st1 w1]. cbn [fst snd] in *.
  destruct (IH st1 U1) as [A B]. destruct (updates co fn C r st1) as [st2 ws]. cbn [fst snd] in *. split; [exact A|].
  intros w [<-|Hw]; [|auto]. rewrite U2. apply IC. apply mem_in. exact M.
Qed.
Lemma work_supp C : incl C blocks -> forall fuel st wl st', (forall b i, supp (st b i)) ->
  (forall w, In w wl -> In (fst (fst w)) blocks) -> work fuel C st wl = HDone st' -> forall b i, supp (st' b i).
Proof.
  intros IC. induction fuel as [|n IH]; intros st wl st' SU WB W; (destruct wl as [|[me ps] r]; cbn [h_work] in W; [injection W as <-; exact SU|]); [discriminate|].
  destruct (process co fn s hdst hsrc st me ps) as [c|] eqn:P; [|discriminate].
  assert (SC : supp c).
  { unfold process in P. destruct (nth_error _ _) as [x|] eqn:N; [|discriminate]. destruct (meets _ _ _ _ _ _ _ _ _) as [c0|] eqn:M; [|discriminate].
    eapply trans_supp; [apply (WB _ (or_introl eq_refl))|eapply nth_error_In; exact N| |exact P]. eapply meets_supp; [exact SU|apply SU|exact M]. }
  pose proof (put_supp st (fst me) (snd me) c SU SC) as S1.
  destruct (ctx_eqb _ _ _); [eapply IH; [exact S1| |exact W]; intros w Hw; apply WB; right; exact Hw|].
  unfold follow in W. destruct (Nat.ltb _ _).
  - eapply IH; [exact S1| |exact W]. intros w Hw. apply in_app_or in Hw. destruct Hw as [Hw|[<-|[]]]; [apply WB; right; exact Hw|].
    apply (WB _ (or_introl eq_refl)).
  - pose proof (updates_supp C (b_targets (co_block co (fst me))) IC _ S1) as [A B]. destruct (updates _ _ _ _ _) as [st2 ws]. cbn [fst snd] in *.
    eapply IH; [exact A| |exact W]. intros w Hw. apply in_app_or in Hw. destruct Hw as [Hw|Hw]; [apply WB; right; exact Hw|auto].
Qed.

(** ** The work list of one component *)
Definition preds_of (n : cid) : list cid := match snd n with O => h_preds co fn (fst n) | S j => [(fst n, j)] end.
Definition node (C : list nat) (n : cid) : Prop := In (fst n) C /\ (snd n < List.length (insns (fst n)))%nat.
Definition at_node (st : hstate) (c0 : hctx) (n : cid) : Prop := follows st c0 (fst n) (snd n).
Section COMP.
Variables C dn : list nat.
Hypothesis CB : incl C blocks.
Hypothesis NE : ~ In entry C.
Hypothesis INS : forall b e, In b C -> In e (b_targets (co_block co b)) -> In (e_trg e) C -> e_inter e = false /\ e_ty e <> CATCH.
Hypothesis FULL : forall b, In b blocks -> insns b <> [].
Hypothesis NSP : forall b x, In b blocks -> In x (insns b) -> ~ sets_sp hdst x.

Record linv (st : hstate) (wl : list (cid * list cid)) : Prop := {
  wi_v : forall b i, vctx (st b i);
  wi_s : forall b i, supp (st b i);
  wi_b : forall n, node C n -> sget st n (HG RSP) = Some a_bot \/ sp_top (sget st n);
  wi_w : forall me ps, In (me, ps) wl -> node C me /\ ps = preds_of me /\ exists q, In q ps /\ sp_top (sget st q);
  wi_e : forall n q, node C n -> In q (preds_of n) -> In (fst q) (dn ++ C) -> sp_top (sget st q) ->
    In n (map fst wl) \/ at_node st (sget st q) n \/ (~ In (fst q) C /\ ~ sp_top (sget st n)) }.

Lemma updates_items st : forall ts, updates co fn C ts st =
  (st, map (fun e => ((e_trg e, 0%nat), h_preds co fn (e_trg e))) (filter (fun e => Dfs.mem (e_trg e) C) ts)).
Proof.
  induction ts as [|e r IH]; cbn [updates filter map]; [reflexivity|]. destruct (Dfs.mem (e_trg e) C) eqn:M; [|exact IH].
  unfold update. replace (Nat.eqb (e_trg e) entry) with false; [rewrite IH; reflexivity|].
  symmetry. apply Nat.eqb_neq. intros K. apply NE. rewrite <- K. apply mem_in. exact M.
Qed.
Lemma edge_pred a b : In a blocks -> hflow co a b -> In (a, last_ix co a) (h_preds co fn b).
Proof.
  intros Ha (e & He & TE & IE & CE). unfold h_preds. apply in_map_iff. exists a. split; [reflexivity|]. apply filter_In. split; [exact Ha|].
  unfold h_edge. apply existsb_exists. exists e. split; [exact He|]. rewrite TE, Nat.eqb_refl, IE. cbn. destruct (e_ty e); auto; congruence.
Qed.
Lemma last_len a : In a blocks -> S (last_ix co a) = List.length (insns a).
Proof. intros Ha. pose proof (FULL a Ha) as N. unfold last_ix, h_insns. destruct (insns a); [congruence|cbn; lia]. Qed.
Lemma cid_dec (a b : cid) : {a = b} + {a <> b}.
Proof. decide equality; apply Nat.eq_dec. Qed.
Lemma put_at st me c n : n <> me -> sget (hput st (fst me) (snd me) c) n = sget st n.
Proof. intros N. apply hput_other. intros K. apply N. destruct n, me. cbn in K. congruence. Qed.

Lemma work_step st me ps r c : linv st ((me, ps) :: r) -> process co fn s hdst hsrc st me ps = Some c ->
  let st1 := hput st (fst me) (snd me) c in
  let wl := if ctx_eqb keys (sget st me) c then r else (r ++ snd (follow co fn C me st1))%list in
  linv st1 wl /\ fst (follow co fn C me st1) = st1 /\ sp_top c.
Proof.
  intros [V SU BT WL ED] P st1 wl. destruct (WL me ps (or_introl eq_refl)) as ([MC ML] & EPS & (q0 & Hq0 & TQ0)).
  unfold process in P. unfold h_insns in P. destruct (nth_error (insns (fst me)) (snd me)) as [x|] eqn:NX; [|discriminate].
  destruct (meets_cov co fn s hdst hsrc me st ps V (sget st me) (V _ _)) as (c0 & M & VC & L0 & LC). rewrite M in P.
  assert (LA : forall q, In q ps -> cle (sget st q) c0) by (intros q Hq; destruct (cid_dec q me) as [->|N]; auto).
  assert (XI : In x (insns (fst me))) by (eapply nth_error_In; eauto).
  assert (TC : sp_top c) by (eapply trans_sp; [exact P|apply (NSP (fst me)); auto|apply (LA q0 Hq0); exact TQ0]).
  assert (SC : supp c) by (eapply trans_supp; [apply CB, MC|exact XI| |exact P]; eapply meets_supp; [exact SU|apply SU|exact M]).
  assert (VC2 : vctx c).
  { destruct (transfer_v co s hdst hsrc (fst me) x c0 VC) as (c' & T & V' & _). rewrite P in T. injection T as <-. exact V'. }
  assert (S1 : sget st1 me = c) by apply hput_same.
  assert (OT : forall n, n <> me -> sget st1 n = sget st n) by (intros n N; apply put_at; exact N).
  assert (GROW : forall q, sp_top (sget st q) -> sp_top (sget st1 q)).
  { intros q H. destruct (cid_dec q me) as [->|N]; [rewrite S1; exact TC|rewrite OT; auto]. }
  assert (V1 : forall b i, vctx (st1 b i)) by (intros b i; unfold st1, hput; destruct (_ && _)%bool; auto).
  assert (SU1 : forall b i, supp (st1 b i)) by (apply put_supp; auto).
  assert (BT1 : forall n, node C n -> sget st1 n (HG RSP) = Some a_bot \/ sp_top (sget st1 n)).
  { intros n Hn. destruct (cid_dec n me) as [->|N]; [right; rewrite S1; exact TC|rewrite OT by auto; apply BT; exact Hn]. }
  assert (ME : forall q, In q ps -> q <> me -> at_node st1 (sget st1 q) me).
  { intros q Hq N y NY. rewrite NX in NY. injection NY as <-. exists c0. split; [exact VC|]. split; [rewrite OT by auto; apply LA; exact Hq|].
    change (st1 (fst me) (snd me)) with (sget st1 me). rewrite S1. exact P. }
  assert (KEEP : forall q n, n <> me -> q <> me -> at_node st (sget st q) n -> at_node st1 (sget st1 q) n).
  { intros q n N1 N2 H. rewrite OT by auto. eapply follows_same; [apply OT; exact N1|exact H]. }
  (* the successors in the component *)
  assert (FOL : fst (follow co fn C me st1) = st1 /\
    (forall n, node C n -> In me (preds_of n) -> In n (map fst (snd (follow co fn C me st1)))) /\
    (forall n ps', In (n, ps') (snd (follow co fn C me st1)) -> node C n /\ ps' = preds_of n /\ In me ps')).
  { unfold follow, h_insns. destruct (Nat.ltb (S (snd me)) (List.length (insns (fst me)))) eqn:LT.
    - apply Nat.ltb_lt in LT. split; [reflexivity|]. split.
      + intros [nb ni] [Nc Nl] H. unfold preds_of in H. cbn [fst snd] in *. destruct ni as [|j].
        * unfold h_preds in H. apply in_map_iff in H. destruct H as (a & E & _). subst me. cbn [fst snd] in *.
          pose proof (last_len a (CB _ MC)). lia.
        * destruct H as [E|[]]. subst me. left. reflexivity.
      + intros n ps' [E|[]]. injection E as <- <-. split; [split; [exact MC|exact LT]|]. split; [unfold preds_of; cbn; destruct me; reflexivity|left; reflexivity].
    - apply Nat.ltb_ge in LT. rewrite updates_items. cbn [fst snd]. split; [reflexivity|].
      assert (LI : snd me = last_ix co (fst me)) by (unfold last_ix, h_insns; lia). split.
      + intros [nb ni] [Nc Nl] H. unfold preds_of in H. cbn [fst snd] in *. destruct ni as [|j].
        * unfold h_preds in H. apply in_map_iff in H. destruct H as (a & E & H). subst me. cbn [fst snd] in *. apply filter_In in H.
          destruct H as [_ H]. unfold h_edge in H. apply existsb_exists in H. destruct H as (e & He & Q).
          apply andb_true_iff in Q. destruct Q as [Q _]. apply andb_true_iff in Q. destruct Q as [Q _]. apply Nat.eqb_eq in Q.
          rewrite map_map. apply in_map_iff. exists e. cbn. split; [rewrite Q; reflexivity|]. apply filter_In. split; [exact He|].
          apply mem_in. rewrite Q. exact Nc.
        * destruct H as [E|[]]. subst me. cbn [fst snd] in *. lia.
      + intros n ps' H. apply in_map_iff in H. destruct H as (e & E & H). injection E as <- <-. apply filter_In in H. destruct H as [He MT].
        apply mem_in in MT. split; [split; [exact MT|]|split; [reflexivity|]].
        * cbn. pose proof (FULL (e_trg e) (CB _ MT)). destruct (insns (e_trg e)); [congruence|cbn; lia].
        * destruct me as [mb mi]. cbn [fst snd] in *. subst mi. apply edge_pred; [apply CB; exact MC|].
          exists e. destruct (INS mb e MC He MT). auto. }
  destruct FOL as (F1 & F2 & F3). split; [|split; [exact F1|exact TC]].
  unfold wl. destruct (ctx_eqb keys (sget st me) c) eqn:EQ.
  - assert (TM : sp_top (sget st me)).
    { destruct (BT me (conj MC ML)) as [K|K]; [|exact K]. rewrite (sp_differs co fn s hdst hsrc _ _ K TC) in EQ. discriminate. }
    assert (SAME : forall k, c k = sget st me k).
    { intros k. destruct (in_dec hloc_eq_dec k keys) as [K|K]; [|rewrite (SC k K), (SU _ _ k K); reflexivity].
      symmetry. apply (proj1 (proj2 C43_equal co fn s hdst hsrc (sget st me) c (V _ _) VC2) EQ). apply keys_named. exact K. }
    assert (LE : forall q d, cle (sget st q) d -> cle (sget st1 q) d).
    { intros q d H. destruct (cid_dec q me) as [->|N]; [|rewrite OT by auto; exact H]. rewrite S1. intros k p Hp. apply H. rewrite <- SAME. exact Hp. }
    split; auto.
    + intros me' ps' H. destruct (WL me' ps' (or_intror H)) as (W1 & W2 & q & W3 & W4). split; [exact W1|]. split; [exact W2|]. exists q. auto.
    + intros n q Hn Hq HD TQ. assert (TQ' : sp_top (sget st q)) by (destruct (cid_dec q me) as [->|N]; [exact TM|rewrite <- OT by auto; exact TQ]).
      destruct (cid_dec n me) as [->|N].
      * right. left. destruct (cid_dec q me) as [->|Nq]; [|apply ME; [rewrite EPS; exact Hq|exact Nq]].
        intros y NY. rewrite NX in NY. injection NY as <-. exists c0. split; [exact VC|]. split; [apply LE; exact L0|].
        change (st1 (fst me) (snd me)) with (sget st1 me). rewrite S1. exact P.
      * destruct (ED n q Hn Hq HD TQ') as [K|[K|[K1 K2]]].
        -- cbn [map In fst] in K. destruct K as [K|K]; [congruence|left; exact K].
        -- right. left. intros y NY. destruct (K y NY) as (d & D1 & D2 & D3). exists d. split; [exact D1|]. split; [apply LE; exact D2|].
           change (st1 (fst n) (snd n)) with (sget st1 n). rewrite OT by auto. exact D3.
        -- right. right. split; [exact K1|]. rewrite OT by auto. exact K2.
  - split; auto.
    + intros me' ps' H. apply in_app_or in H. destruct H as [H|H].
      * destruct (WL me' ps' (or_intror H)) as (W1 & W2 & q & W3 & W4). split; [exact W1|]. split; [exact W2|]. exists q. auto.
      * destruct (F3 me' ps' H) as (W1 & W2 & W3). split; [exact W1|]. split; [exact W2|]. exists me. split; [exact W3|]. rewrite S1. exact TC.
    + intros n q Hn Hq HD TQ. rewrite map_app, in_app_iff. destruct (cid_dec q me) as [->|Nq]; [left; right; apply F2; auto|].
      destruct (cid_dec n me) as [->|N]; [right; left; apply ME; [rewrite EPS; exact Hq|exact Nq]|].
      rewrite OT in TQ by auto. destruct (ED n q Hn Hq HD TQ) as [K|[K|[K1 K2]]].
      * cbn [map In fst] in K. destruct K as [K|K]; [congruence|left; left; exact K].
      * right. left. apply KEEP; auto.
      * right. right. split; [exact K1|]. rewrite OT by auto. exact K2.
Qed.
Lemma work_comp : forall fuel st wl st', linv st wl -> work fuel C st wl = HDone st' ->
  linv st' [] /\ (forall b i, ~ In b C -> st' b i = st b i) /\ (forall q, sp_top (sget st q) -> sp_top (sget st' q)) /\
  (forall me, In me (map fst wl) -> sp_top (sget st' me)).
Proof.
  induction fuel as [|f IH]; intros st wl st' W R; (destruct wl as [|[me ps] r]; cbn [h_work] in R;
    [injection R as <-; split; [exact W|]; split; [auto|]; split; [auto|]; intros me []|]); [discriminate|].
  destruct (process co fn s hdst hsrc st me ps) as [c|] eqn:P; [|discriminate].
  destruct (work_step st me ps r c W P) as (W1 & F & TC). set (st1 := hput st (fst me) (snd me) c) in *.
  destruct (wi_w _ _ W me ps (or_introl eq_refl)) as ([MC ML] & _).
  assert (R' : work f C st1 (if ctx_eqb keys (sget st me) c then r else (r ++ snd (follow co fn C me st1))%list) = HDone st').
  { destruct (ctx_eqb keys (sget st me) c); [exact R|]. destruct (follow co fn C me st1) as [st2 ws]. cbn [fst snd] in *. subst st2. exact R. }
  destruct (IH st1 _ st' W1 R') as (A1 & A2 & A3 & A4). split; [exact A1|]. split.
  { intros b i N. rewrite A2 by exact N. apply hput_other. intros K. injection K as -> ->. contradiction. }
  assert (G : forall q, sp_top (sget st q) -> sp_top (sget st1 q)).
  { intros q H. destruct (cid_dec q me) as [->|N]; [unfold st1; rewrite hput_same; exact TC|unfold st1; rewrite put_at; auto]. }
  split; [intros q H; apply A3, G, H|]. intros m [<-|Hm]; [apply A3; cbn [fst]; unfold st1; rewrite hput_same; exact TC|].
  apply A4. destruct (ctx_eqb keys (sget st me) c); [exact Hm|]. rewrite map_app. apply in_or_app. left. exact Hm.
Qed.

(** ** When the work list is empty *)
Inductive within (m : nat) : nat -> Prop :=
| wn_self : within m m
| wn_step a b : within m a -> In a C -> hflow co a b -> In b C -> within m b.
Lemma reach_top st m : linv st [] -> In m C -> sp_top (st m 0%nat) -> forall b, In b C -> within m b ->
  forall i, (i < List.length (insns b))%nat -> sp_top (st b i).
Proof.
  intros [V SU BT WL ED] MC T0.
  assert (GO : forall n q, node C n -> In q (preds_of n) -> In (fst q) C -> sp_top (sget st q) -> sp_top (sget st n)).
  { intros n q Hn Hq HC TQ. destruct (ED n q Hn Hq (in_or_app _ _ _ (or_intror HC)) TQ) as [[]|[K|[K _]]]; [|contradiction].
    destruct Hn as [N1 N2]. destruct (nth_error (insns (fst n)) (snd n)) as [x|] eqn:NX; [|apply nth_error_None in NX; lia].
    destruct (K x NX) as (c & VC & LC & T). eapply trans_sp; [exact T|apply (NSP (fst n)); [apply CB; exact N1|eapply nth_error_In; eauto]|].
    apply LC. exact TQ. }
  assert (BLK : forall b, In b C -> sp_top (st b 0%nat) -> forall i, (i < List.length (insns b))%nat -> sp_top (st b i)).
  { intros b HB H0. induction i as [|i IH]; intros L; [exact H0|].
    apply (GO (b, S i) (b, i)); [split; [exact HB|exact L]|left; reflexivity|exact HB|apply IH; lia]. }
  intros b HB W. revert HB. induction W as [|a b W IH HA F HB]; intros HB'; [apply BLK; auto|].
  apply BLK; [exact HB|]. apply (GO (b, 0%nat) (a, last_ix co a)).
  - split; [exact HB|]. cbn. pose proof (FULL b (CB _ HB)). destruct (insns b); [congruence|cbn; lia].
  - apply edge_pred; [apply CB; exact HA|exact F].
  - exact HA.
  - apply IH; [exact HA|]. pose proof (last_len a (CB _ HA)). cbn [fst snd]. lia.
Qed.
Lemma comp_solved st st' m fuel : In m C -> (forall b, In b C -> within m b) -> incl dn blocks ->
  (forall b, In b dn -> ~ In b C) -> (forall a b, In a C -> In b dn -> ~ hflow co a b) ->
  (forall x j, vctx (st x j)) -> (forall x j, supp (st x j)) -> (forall x, ~ In x dn -> forall j, st x j = hctx0) ->
  solved co fn s hdst hsrc st dn -> (exists a, In a dn /\ hflow co a m) ->
  work fuel C st [((m, 0%nat), h_preds co fn m)] = HDone st' ->
  (forall x j, vctx (st' x j)) /\ (forall x j, supp (st' x j)) /\ (forall x, ~ In x (dn ++ C) -> forall j, st' x j = hctx0) /\
  solved co fn s hdst hsrc st' (dn ++ C).
Proof.
  intros MC CONN DB DC NB V SU FRESH SOL (a & AD & AF) R.
  assert (LT : forall b, In b dn -> sp_top (st b (last_ix co b))).
  { intros b Hb. apply (SOL b Hb). pose proof (last_len b (DB _ Hb)). lia. }
  assert (BOT : forall b j, In b C -> st b j (HG RSP) = Some a_bot).
  { intros b j Hb. rewrite FRESH by (intros K; apply (DC b K Hb)). reflexivity. }
  assert (NT : forall c, c (HG RSP) = Some a_bot -> ~ sp_top c).
  { intros c E T. apply sp_top_iff in T. destruct T as (z & E' & T). rewrite E in E'. injection E' as <-. discriminate. }
  assert (W0 : linv st [((m, 0%nat), h_preds co fn m)]).
  { split; auto.
    - intros n [Hn _]. left. apply BOT. exact Hn.
    - intros me ps [E|[]]. injection E as <- <-. split; [split; [exact MC|]|].
      + cbn. pose proof (FULL m (CB _ MC)). destruct (insns m); [congruence|cbn; lia].
      + split; [reflexivity|]. exists (a, last_ix co a). split; [apply edge_pred; auto|]. apply LT. exact AD.
    - intros n q [Hn _] Hq HD TQ. right. right. split; [|apply NT, BOT; exact Hn].
      intros K. apply (NT _ (BOT (fst q) (snd q) K)). exact TQ. }
  destruct (work_comp fuel st _ st' W0 R) as (W1 & KEEP & _ & FIRST).
  pose proof W1 as [V1 SU1 BT1 _ ED].
  split; [exact V1|]. split; [exact SU1|]. split.
  { intros x N j. rewrite KEEP by (intros K; apply N, in_or_app; auto). apply FRESH. intros K. apply N, in_or_app. auto. }
  assert (TOP : forall b, In b C -> forall i, (i < List.length (insns b))%nat -> sp_top (st' b i)).
  { intros b Hb. apply (reach_top st' m W1 MC); auto. apply (FIRST (m, 0%nat)). left. reflexivity. }
  intros b Hb. apply in_app_or in Hb. destruct Hb as [Hb|Hb].
  - assert (KB : forall j, st' b j = st b j) by (intros j; apply KEEP, DC, Hb).
    destruct (SOL b Hb) as (S1 & S2 & S3 & S4). split; [intros j Hj; rewrite KB; auto|].
    split; [intros j; rewrite KB; eapply follows_same; [apply KB|apply S2]|].
    split; [intros E; eapply follows_same; [apply KB|apply S3; exact E]|].
    intros x Hx F. apply in_app_or in Hx. destruct Hx as [Hx|Hx]; [|exfalso; apply (NB x b Hx Hb F)].
    rewrite KEEP by (apply DC, Hx). eapply follows_same; [apply KB|apply S4; auto].
  - assert (EDGE : forall n q, node C n -> In q (preds_of n) -> In (fst q) (dn ++ C) -> sp_top (sget st' q) -> at_node st' (sget st' q) n).
    { intros n q Hn Hq HD TQ. destruct (ED n q Hn Hq HD TQ) as [[]|[K|[_ K]]]; [exact K|]. exfalso. apply K. destruct Hn. apply TOP; auto. }
    split; [apply TOP; exact Hb|]. split; [|split].
    + intros j x NX. assert (L : (S j < List.length (insns b))%nat) by (apply nth_error_Some; congruence).
      apply (EDGE (b, S j) (b, j)); auto; [split; [exact Hb|exact L]|left; reflexivity|apply in_or_app; auto|apply TOP; [exact Hb|cbn; lia]].
    + intros ->. contradiction.
    + intros x Hx F y NY. assert (XB : In x blocks) by (apply in_app_or in Hx; destruct Hx; auto).
      apply (EDGE (b, 0%nat) (x, last_ix co x)); auto.
      * split; [exact Hb|]. apply nth_error_Some. cbn [fst snd]. congruence.
      * apply edge_pred; auto.
      * cbn [fst snd]. apply in_app_or in Hx. destruct Hx as [Hx|Hx]; [rewrite KEEP by (apply DC, Hx); apply LT; exact Hx|].
        apply TOP; [exact Hx|]. pose proof (last_len x XB). lia.
Qed.
End COMP.

(** ** Functions whose loops are entered at their first block in memory *)
Definition looped : Prop :=
  (* the loops are the sets of blocks that reach each other, and are reachable *)
  (forall a b, a <> b -> (same_loop co fn a b <-> flows co a b /\ flows co b a)) /\
  (forall a, same_loop co fn a a -> flows co entry a) /\
  (* no edge leads back to the entry; calls and returns leave the function *)
  (forall a, flows co entry a -> ~ flow co a entry) /\
  (forall b e, In b blocks -> In e (b_targets (co_block co b)) -> e_ty e = CALL \/ e_ty e = RET -> e_inter e = true) /\
  (* an edge within a loop is an edge of the flow graph *)
  (forall b e, In b blocks -> In e (b_targets (co_block co b)) -> e_trg e = b \/ same_loop co fn b (e_trg e) ->
     e_inter e = false /\ e_ty e <> CATCH) /\
  (* the first block of each loop has a predecessor outside the loop *)
  (forall m, same_loop co fn m m -> (forall x, same_loop co fn m x -> (m <= x)%nat) ->
     exists a, flows co entry a /\ flow co a m /\ a <> m /\ ~ same_loop co fn m a) /\
  (* the first instruction writes the stack pointer and is not a move, call or lea; the analysis
     never assigns to the stack pointer *)
  (exists x pt, nth_error (insns entry) 0 = Some x /\ In (MG RSP pt) (i_written x) /\
     i_op x <> OMov /\ i_op x <> OCall /\ i_op x <> OLea) /\
  (forall b x, In b blocks -> In x (insns b) -> ~ sets_sp hdst x).
Hypothesis INP : heap_input co fn.
Hypothesis LPD : looped.

Lemma hflow_edge a b : In a blocks -> hflow co a b -> flow co a b.
Proof.
  intros B (e & He & T & I & C). destruct LPD as (_ & _ & _ & K & _).
  exists e. split; [auto|]. split; [auto|]. split; [auto|]. split; [auto|].
  split; intros Q; rewrite (K a e B He) in I by auto; discriminate.
Qed.
Lemma flow_hflow a b : flow co a b -> hflow co a b.
Proof. intros (e & K1 & K2 & K3 & K4 & _). exists e. auto. Qed.
Lemma in_blocks b : flows co entry b -> In b blocks.
Proof. intros F. pose proof INP as ((HE & CL & _) & _). induction F as [|x y F IH E]; auto. eapply CL; eauto. Qed.

Lemma entry_step fuel dn st st' : (forall b, In b dn -> flows co entry b) -> ~ In entry dn -> (forall b, In b dn -> ~ hflow co entry b) ->
  (forall x j, vctx (st x j)) -> (forall x j, supp (st x j)) -> (forall x, ~ In x dn -> forall j, st x j = hctx0) ->
  solved co fn s hdst hsrc st dn -> analyse_blocks co fn s hdst hsrc fuel [entry] st = HDone st' ->
  (forall x j, vctx (st' x j)) /\ (forall x j, supp (st' x j)) /\ (forall x, ~ In x (dn ++ [entry]) -> forall j, st' x j = hctx0) /\
  solved co fn s hdst hsrc st' (dn ++ [entry]).
Proof.
  intros DB ED NB V SU FRESH SOL W. destruct LPD as (_ & _ & NOE & CR & INS & _ & (x & pt & NX & WX & N1 & N2 & N3) & NSP).
  pose proof INP as ((HE & CL & _) & _ & FULL).
  assert (SELF : forall e, In e (b_targets (co_block co entry)) -> e_trg e <> entry).
  { intros e He K. destruct (INS entry e HE He (or_introl K)) as [I1 I2]. apply (NOE entry); [constructor|]. apply hflow_edge; [exact HE|]. exists e. auto. }
  unfold analyse_blocks, update in W. rewrite Nat.eqb_refl in W. rewrite (FRESH entry ED 0%nat) in W.
  set (st1 := hput st entry 0 args) in W.
  assert (VA : vctx args) by (apply args_v, vctx0).
  destruct (transfer_v co s hdst hsrc entry x args VA) as (c2 & T & V2 & _).
  assert (V1 : forall y j, vctx (st1 y j)) by (intros y j; unfold st1, hput; destruct (_ && _)%bool; auto).
  assert (BOT : forall j, st1 entry j (HG RSP) = Some a_bot).
  { intros j. unfold st1. destruct j as [|j]; [rewrite hput_same; apply args_sp|]. rewrite hput_other by congruence. rewrite (FRESH entry ED). reflexivity. }
  assert (SU1 : forall y j, supp (st1 y j)) by (apply put_supp; [exact SU|apply args_supp]).
  assert (TOP : sp_top c2).
  { unfold transfer in T.
    assert (KT : sp_top (t_unknown x args)).
    { unfold sp_top, t_unknown. rewrite tops_at. replace (existsb _ _) with true; [apply cov_top|]. symmetry.
      apply existsb_exists. exists RSP. split; [|destruct (hloc_eq_dec (HG RSP) (HG RSP)); congruence].
      unfold wregs. apply in_flat_map. exists (MG RSP pt). split; [exact WX|left; auto]. }
    destruct (i_op x); try contradiction; injection T as <-; exact KT. }
  assert (M : meets co fn s hdst hsrc (entry, 0%nat) st1 [] (st1 entry 0%nat) = Some args) by (cbn [meets]; unfold st1; rewrite hput_same; reflexivity).
  destruct (work_block co fn s hdst hsrc entry SELF (fun y => NSP entry y HE) fuel 0 [] st1 st' x args c2 V1 (fun j _ => BOT j) NX M VA T V2 TOP W)
    as (A1 & A2 & A3 & A4 & A5).
  assert (KEEP : forall y j, y <> entry -> st' y j = st y j).
  { intros y j Hy. rewrite A2 by auto. unfold st1. apply hput_other. congruence. }
  split; [exact A1|]. split.
  { eapply work_supp; [|exact SU1| |exact W]; [intros y [<-|[]]; exact HE|intros w [<-|[]]; exact HE]. }
  split.
  { intros y Hy j. rewrite KEEP; [apply FRESH; intros K; apply Hy, in_or_app; auto|]. intros ->. apply Hy, in_or_app. right. left. auto. }
  intros y Hy. apply in_app_or in Hy. destruct Hy as [Hy|[<-|[]]].
  - assert (YB : y <> entry) by (intros ->; contradiction).
    destruct (SOL y Hy) as (S1 & S2 & S3 & S4). split; [intros j Hj; rewrite KEEP; auto|].
    split; [intros j; rewrite KEEP by auto; eapply follows_same; [apply KEEP; auto|apply S2]|].
    split; [intros E; contradiction|].
    intros a Ha F. apply in_app_or in Ha. destruct Ha as [Ha|[<-|[]]].
    + rewrite KEEP by (intros ->; contradiction). eapply follows_same; [apply KEEP; auto|apply S4; auto].
    + exfalso. apply (NB y Hy F).
  - split; [intros j Hj; apply A4; lia|]. split; [intros j; apply A5; lia|]. split.
    + intros _ z NZ. rewrite NX in NZ. injection NZ as <-. exists args. rewrite A3. split; [exact VA|]. split; [apply cle_refl|exact T].
    + intros a Ha F. exfalso. assert (RA : flows co entry a) by (apply in_app_or in Ha; destruct Ha as [Ha|[<-|[]]]; [auto|constructor]).
      apply (NOE a RA). apply hflow_edge; [apply in_blocks; exact RA|exact F].
Qed.

Lemma sins_first l : match fold_right sins [] l with [] => True | h :: t => forall x, In x t -> (h <= x)%nat end.
Proof.
  induction l as [|a l IH]; cbn [fold_right]; [exact I|]. destruct (fold_right sins [] l) as [|h t]; cbn [sins]; [intros x []|].
  destruct (Nat.ltb a h) eqn:L; [apply Nat.ltb_lt in L; intros x [<-|Hx]; [lia|specialize (IH x Hx); lia]|].
  destruct (Nat.eqb a h); [exact IH|]. apply Nat.ltb_ge in L. intros x Hx. apply sins_in in Hx. destruct Hx as [->|Hx]; auto.
Qed.
Lemma only_one (l : list nat) b : NoDup l -> (forall x, In x l <-> x = b) -> l = [b].
Proof.
  intros ND H. destruct l as [|x l]; [destruct (proj2 (H b) eq_refl)|]. assert (x = b) by (apply H; left; auto). subst x.
  destruct l as [|y l]; [reflexivity|]. assert (y = b) by (apply H; right; left; auto). subst y. inversion ND as [|? ? K _]. destruct K. left. auto.
Qed.

Lemma loops_solved : s_assume_unsafe s = false -> s_unknown_cf s = false -> forall fuel st',
  heap_analysis co fn s hdst hsrc fuel = Some (HDone st') ->
  exists bl, In entry bl /\ incl bl blocks /\ (forall a b, In a bl -> flow co a b -> In b bl) /\
    (forall x j, vctx (st' x j)) /\ solved co fn s hdst hsrc st' bl.
Proof.
  intros A1 A2 fuel st' RUN. pose proof LPD as (SL & RL & NOE & CR & INS & HEAD & _ & NSP). pose proof INP as (CI & LP & FULL). pose proof CI as (HE & CL & D).
  destruct (cfg_ok_thm co fn CL s D HE A1 A2) as (root & st & E & W & ER & V & DONE).
  assert (AK : forall c, ~ kid_path st c c).
  { destruct (C47_acyclic co fn s CI A1 A2 SL) as (root' & st0 & E' & K). rewrite E in E'. injection E' as <- <-. exact K. }
  destruct (rpo_ok co fn root st W (ex_intro _ _ ER)) as (vis & order & R & O).
  assert (SO : sorted (fun c k => In k (comp_kids st c)) order /\ In root order).
  { destruct (visit_dfs (list nat) unit (seq 0 (c_next st)) (fun (c : nat) (l : list nat) => (l, tt, comp_kids st c)) (fun (_ _ : nat) (l : list nat) => l)
      (fun (_ _ : nat) (_ : bool) (u : unit) (l : list nat) => (u, l)) (fun (c : nat) (_ : unit) (l : list nat) => c :: l) (fun _ => True)) with
      (fuel := S (c_next st)) (f := root) (vis := @nil nat) (st := @nil nat) as (vis' & order' & E' & _ & DF & _); auto.
    - intros f l _ _ x Hx. cbn in Hx. unfold comp_kids in Hx. rewrite (comp_in c_kids st f x) in Hx.
      destruct (w_kids _ _ _ W _ _ Hx) as (_ & a & t & _ & _ & M). apply in_seq. apply (w_next _ _ _ W) in M. lia.
    - constructor.
    - intros x [].
    - apply in_seq. apply (w_next _ _ _ W) in ER. lia.
    - rewrite seq_length. cbn. lia.
    - unfold rpo in R. rewrite E' in R. injection R as -> ->.
      destruct (proj1 (walk_sorted st AK) _ _ _ DF []) as (S1 & _ & _ & S2 & _); auto.
      + intros g [].
      + apply incl_refl.
      + exact I. }
  destruct SO as [SO RO]. unfold heap_analysis in RUN. rewrite E, R in RUN. injection RUN as RUN.
  assert (CBK : forall x k, In x (comp_blocks st k) <-> c_map st x = Some k).
  { intros x k. unfold comp_blocks. rewrite (comp_in c_blks st k x). symmetry. apply (w_blks _ _ _ W). }
  assert (REA : forall x k, c_map st x = Some k -> flows co entry x).
  { intros x k M. destruct (w_in _ _ _ W _ _ M) as [K|K]; [apply V; exact K|apply RL; exact K]. }
  assert (KID : forall a b k, c_map st a = Some k -> flow co a b -> exists k', c_map st b = Some k' /\ (k' = k \/ In k' (comp_kids st k))).
  { intros a b k M (e & He & TE & IE & C1 & C2 & C3).
    destruct (DONE a (proj2 (V a) (REA a k M)) e He) as (c1 & M1 & _ & H3). rewrite M in M1. injection M1 as <-.
    destruct (H3 C1 C2 C3 IE) as [VT K]. rewrite TE in *. pose proof (w_vis _ _ _ W _ VT) as MT. destruct (c_map st b) as [k'|] eqn:ET; [|congruence].
    exists k'. split; [reflexivity|]. destruct (Nat.eq_dec k' k) as [->|N]; [left; reflexivity|right].
    unfold comp_kids. rewrite (comp_in c_kids st k k'). apply K; [reflexivity|congruence]. }
  assert (LC : forall a b k, c_map st a = Some k -> (a = b \/ same_loop co fn a b) -> c_map st b = Some k).
  { intros a b k M [<-|K]; [exact M|]. destruct (w_loop _ _ _ W a b K) as (c & K1 & K2). congruence. }
  assert (MAPPED : forall a, flows co entry a -> exists k, c_map st a = Some k /\ In k order).
  { induction 1 as [|a b F IH G]; [exists root; auto|]. destruct IH as (k & M & Hk). destruct (KID a b k M G) as (k' & M' & [->|K]); [eauto|].
    exists k'. split; [exact M'|]. eapply sorted_closed; [exact SO|exact Hk|exact K]. }
  assert (HFL : forall a b k, c_map st a = Some k -> hflow co a b -> flow co a b).
  { intros a b k M. apply hflow_edge. apply in_blocks. eapply REA; eauto. }
  (* the components one after the other *)
  assert (GO : forall rest don st0, order = (don ++ rest)%list ->
    (forall x j, vctx (st0 x j)) -> (forall x j, supp (st0 x j)) -> (forall x, ~ In x (flat_map (comp_blocks st) don) -> forall j, st0 x j = hctx0) ->
    solved co fn s hdst hsrc st0 (flat_map (comp_blocks st) don) ->
    analyse_all co fn s hdst hsrc fuel (map (comp_blocks st) rest) st0 = HDone st' ->
    (forall x j, vctx (st' x j)) /\ solved co fn s hdst hsrc st' (flat_map (comp_blocks st) order)).
  { induction rest as [|k rest IH]; intros don st0 EO V0 S0 F0 SOL R0; cbn [map analyse_all] in R0.
    - injection R0 as <-. rewrite app_nil_r in EO. subst don. auto.
    - destruct (analyse_blocks co fn s hdst hsrc fuel (comp_blocks st k) st0) as [st1| |] eqn:R1; try discriminate.
      assert (AP : order = ((don ++ [k]) ++ rest)%list) by (rewrite <- app_assoc; exact EO).
      set (dn := flat_map (comp_blocks st) don) in *.
      assert (ADN : flat_map (comp_blocks st) (don ++ [k]) = (dn ++ comp_blocks st k)%list).
      { rewrite flat_map_app. cbn [flat_map]. rewrite app_nil_r. reflexivity. }
      assert (DNI : forall x, In x dn <-> exists k', In k' don /\ c_map st x = Some k').
      { intros x. unfold dn. rewrite in_flat_map. split; intros (k' & K1 & K2); exists k'; (split; [exact K1|]); apply CBK; exact K2. }
      pose proof (sorted_nodup _ _ SO) as ND. rewrite EO in ND. apply NoDup_remove_2 in ND.
      assert (DB : incl dn blocks) by (intros x Hx; apply DNI in Hx; destruct Hx as (k' & _ & M); apply in_blocks; eapply REA; eauto).
      assert (KB : incl (comp_blocks st k) blocks) by (intros x Hx; apply CBK in Hx; apply in_blocks; eapply REA; eauto).
      assert (DC : forall b, In b dn -> ~ In b (comp_blocks st k)).
      { intros b Hb K. apply DNI in Hb. destruct Hb as (k' & Hk' & M). apply CBK in K. rewrite K in M. injection M as <-. apply ND, in_or_app. auto. }
      assert (NB : forall a b, In a (comp_blocks st k) -> In b dn -> ~ hflow co a b).
      { intros a b Ha Hb F. apply CBK in Ha. apply HFL with (k := k) in F; [|exact Ha]. apply DNI in Hb. destruct Hb as (k' & Hk' & M).
        destruct (KID a b k Ha F) as (k2 & M2 & K). rewrite M in M2. injection M2 as <-. destruct K as [->|K]; [apply ND, in_or_app; auto|].
        pose proof (sorted_at _ _ SO don k rest EO k' K) as Hr. apply in_split in Hk'. destruct Hk' as (d1 & d2 & ->).
        pose proof (sorted_nodup _ _ SO) as ND2. rewrite EO, <- app_assoc in ND2. cbn in ND2. apply NoDup_remove_2 in ND2. apply ND2.
        apply in_or_app. right. apply in_or_app. right. right. exact Hr. }
      assert (STEP : (forall x j, vctx (st1 x j)) /\ (forall x j, supp (st1 x j)) /\ (forall x, ~ In x (dn ++ comp_blocks st k) -> forall j, st1 x j = hctx0) /\
        solved co fn s hdst hsrc st1 (dn ++ comp_blocks st k)).
      { destruct (O k) as (b0 & Hb0); [rewrite EO; apply in_or_app; right; left; reflexivity|]. apply (w_blks _ _ _ W) in Hb0.
        destruct (in_dec Nat.eq_dec entry (comp_blocks st k)) as [EK|EK].
        - assert (ONE : comp_blocks st k = [entry]).
          { apply CBK in EK. unfold comp_blocks. apply sins_same.
            - intros x Hx. assert (Mx : c_map st x = Some k).
              { apply (w_blks _ _ _ W). apply in_map_iff in Hx. destruct Hx as ([c' x'] & EX & Hx). cbn in EX. subst x'. apply filter_In in Hx.
                destruct Hx as [Hx Q]. cbn in Q. apply Nat.eqb_eq in Q. subst c'. exact Hx. }
              destruct (w_one _ _ _ W x entry k Mx EK) as [K|K]; [exact K|]. destruct (Nat.eq_dec x entry) as [->|N]; [reflexivity|].
              apply SL in K; [|exact N]. destruct K as [K _]. inversion K as [|y z F1 F2]; subst; [congruence|]. exfalso. apply (NOE y); [|exact F2]. eapply P_HeapFlow.flows_trans; [exact (REA x k Mx)|exact F1].
            - intros K. apply CBK in EK. unfold comp_blocks in EK. rewrite K in EK. destruct EK. }
          rewrite ONE in *. apply (entry_step fuel dn st0 st1); auto.
          + intros x Hx. apply DNI in Hx. destruct Hx as (k' & _ & M). eapply REA; eauto.
          + intros K. apply (DC entry K). left. reflexivity.
        - pose proof (sins_first (map snd (filter (fun p => Nat.eqb (fst p) k) (c_blks st)))) as MIN. fold (comp_blocks st k) in MIN.
          apply CBK in Hb0. destruct (comp_blocks st k) as [|m t] eqn:CK; [destruct Hb0|]. rewrite <- CK in *.
          assert (MC : In m (comp_blocks st k)) by (rewrite CK; left; reflexivity). pose proof MC as MM. apply CBK in MM.
          assert (MIN' : forall x, same_loop co fn m x -> (m <= x)%nat).
          { intros x Hx. assert (Hk : In x (comp_blocks st k)) by (apply CBK; eapply LC; [exact MM|right; exact Hx]).
            rewrite CK in Hk. destruct Hk as [<-|Hk]; [lia|auto]. }
          assert (ME : m <> entry) by (intros ->; contradiction).
          assert (PR : exists a, flows co entry a /\ flow co a m /\ a <> m /\ ~ same_loop co fn m a).
          { destruct (existsb (Dfs.mem m) (f_loops (co_fun co fn))) eqn:EX.
            - apply existsb_exists in EX. destruct EX as (l & Hl & HM). apply mem_in in HM. apply HEAD; [exists l; auto|exact MIN'].
            - assert (NL : forall x, ~ same_loop co fn m x).
              { intros x (l & Hl & HM & _). assert (existsb (Dfs.mem m) (f_loops (co_fun co fn)) = true); [|congruence].
                apply existsb_exists. exists l. split; [exact Hl|apply mem_in; exact HM]. }
              assert (P2 : forall y, flows co entry y -> y = m -> exists a, flows co entry a /\ flow co a m /\ a <> m).
              { induction 1 as [|a b F IHF G]; intros Eb; [exfalso; apply ME; symmetry; exact Eb|]. subst b. destruct (Nat.eq_dec a m) as [Ea|N]; [apply IHF; exact Ea|eauto]. }
              destruct (P2 m (REA m k MM) eq_refl) as (a & Q1 & Q2 & Q3). exists a. auto. }
          destruct PR as (a & Q1 & Q2 & Q3 & Q4). destruct (MAPPED a Q1) as (ka & Ma & Hka).
          assert (KN : ka <> k).
          { intros ->. destruct (w_one _ _ _ W m a k MM Ma) as [K|K]; [congruence|contradiction]. }
          assert (AD : In a dn).
          { apply DNI. exists ka. split; [|exact Ma]. rewrite EO in Hka. apply in_app_or in Hka. destruct Hka as [K|[K|K]]; [exact K|congruence|].
            exfalso. destruct (KID a m ka Ma Q2) as (k2 & M2 & KK). rewrite MM in M2. injection M2 as <-. destruct KK as [KK|KK]; [congruence|].
            apply in_split in K. destruct K as (r1 & r2 & ->). apply ND. apply in_or_app. right. apply in_or_app. right. right.
            eapply (sorted_at _ _ SO (don ++ k :: r1) ka r2); [|exact KK]. rewrite EO, <- app_assoc. reflexivity. }
          assert (CONN : forall b, flows co m b -> flows co b m -> within (comp_blocks st k) m b).
          { induction 1 as [|x y F IHF G]; intros BK; [constructor|].
            assert (XM : flows co x m) by (eapply P_HeapFlow.flows_trans; [eapply fl_step; [constructor|exact G]|exact BK]).
            assert (INK : forall z, flows co m z -> flows co z m -> In z (comp_blocks st k)).
            { intros z Z1 Z2. apply CBK. eapply LC; [exact MM|]. destruct (Nat.eq_dec m z) as [<-|N]; [left; reflexivity|right; apply SL; auto]. }
            eapply wn_step; [apply IHF; exact XM|apply INK; auto|apply flow_hflow; exact G|apply INK; [eapply fl_step; eauto|exact BK]]. }
          eapply (comp_solved (comp_blocks st k) dn) with (m := m) (fuel := fuel); eauto.
          + intros b e Hb He Ht. apply INS with (b := b); auto. apply CBK in Hb, Ht. destruct (w_one _ _ _ W b (e_trg e) k Hb Ht); auto.
          + intros b Hb. apply CBK in Hb. destruct (Nat.eq_dec m b) as [<-|N]; [constructor|].
            destruct (w_one _ _ _ W m b k MM Hb) as [K|K]; [contradiction|]. apply SL in K; [|exact N]. apply CONN; apply K.
          + exists a. split; [exact AD|apply flow_hflow; exact Q2].
          + rewrite CK in R1. unfold analyse_blocks, update in R1. rewrite <- CK in R1. apply Nat.eqb_neq in ME. rewrite ME in R1. exact R1. }
      destruct STEP as (T1 & T2 & T3 & T4). apply (IH (don ++ [k])%list st1); auto; rewrite ADN; auto. }
  destruct (GO order [] hst0 eq_refl) as (G1 & G2); auto.
  { intros x j. apply vctx0. }
  { intros x j. apply supp0. }
  { intros b []. }
  exists (flat_map (comp_blocks st) order).
  assert (IN : forall x, In x (flat_map (comp_blocks st) order) <-> exists k, In k order /\ c_map st x = Some k).
  { intros x. rewrite in_flat_map. split; intros (k' & K1 & K2); exists k'; (split; [exact K1|]); apply CBK; exact K2. }
  split; [apply IN; eauto|]. split.
  { intros x Hx. apply IN in Hx. destruct Hx as (k & _ & M). apply in_blocks. eapply REA; eauto. }
  split; [|auto]. intros a b Ha F. apply IN in Ha. destruct Ha as (k & _ & M). apply IN.
  destruct (MAPPED b) as (k' & K1 & K2); [eapply fl_step; [eapply REA; eauto|exact F]|]. eauto.
Qed.

Lemma loop_sound fuel st : s_assume_unsafe s = false -> s_unknown_cf s = false -> one_call co fn ->
  heap_analysis co fn s hdst hsrc fuel = Some (HDone st) ->
  forall b i p, before co fn s hdst hsrc b i p -> In b blocks /\ forall x, nth_error (insns b) i = Some x ->
    exists c, vctx c /\ sound c p /\ trans b x c = Some (st b i).
Proof.
  intros A1 A2 O R. destruct (loops_solved A1 A2 fuel st R) as (bl & EN & INB & CLO & V & SOL).
  assert (POST : forall b i x p p', In b bl -> nth_error (insns b) i = Some x -> pstep co s hdst hsrc b x p p' ->
    (exists c, vctx c /\ sound c p /\ trans b x c = Some (st b i)) -> sound (st b i) p').
  { intros b i x p p' B N P (c & VC & S & T). eapply transfer_sound; eauto. }
  assert (K : forall b i p, before co fn s hdst hsrc b i p -> In b bl /\ forall x, nth_error (insns b) i = Some x ->
    exists c, vctx c /\ sound c p /\ trans b x c = Some (st b i)).
  { induction 1 as [p EP|b i x p p' H IH N P L|a b i x p p' H IH N L P F B].
    - split; [exact EN|]. intros x N. destruct (SOL _ EN) as (_ & _ & S3 & _). destruct (S3 eq_refl x N) as (c & VC & LC & T).
      exists c. split; [exact VC|]. split; [|exact T]. intros k. apply LC. apply entry_sound. exact EP.
    - destruct IH as [HB IH]. split; [exact HB|]. intros y Ny. destruct (SOL _ HB) as (_ & S2 & _). destruct (S2 i y Ny) as (c & VC & LC & T).
      exists c. split; [exact VC|]. split; [|exact T]. intros k. apply LC. eapply POST; eauto.
    - destruct IH as [HA IH]. assert (HB : In b bl) by (eapply CLO; [exact HA|apply hflow_edge; auto]).
      split; [exact HB|]. intros y Ny. assert (i = last_ix co a) by (unfold last_ix, h_insns; lia). subst i.
      destruct (SOL _ HB) as (_ & _ & _ & S4). destruct (S4 a HA F y Ny) as (c & VC & LC & T).
      exists c. split; [exact VC|]. split; [|exact T]. intros k. apply LC. eapply POST; eauto. }
  intros b i p H. destruct (K b i p H) as [HB Q]. auto.
Qed.
End LOOP.

(** Functions without loops are a special case. *)
Lemma straight_looped co fn hdst : heap_input co fn -> straight co fn hdst -> looped co fn hdst.
Proof.
  intros I (NL & ACYC & ED & FIRST & NSP).
  assert (NSL : forall a b, ~ same_loop co fn a b) by (intros a b (l & Hl & _); rewrite NL in Hl; destruct Hl).
  assert (CYC : forall a b, a <> b -> flows co a b -> flows co b a -> False).
  { intros a b AB F G. inversion F as [|y z F1 F2]; subst; [congruence|]. apply (ACYC _ _ F2). eapply P_HeapFlow.flows_trans; eauto. }
  split; [intros a b AB; split; [intros H; destruct (NSL _ _ H)|intros [F G]; destruct (CYC a b AB F G)]|].
  split; [intros a H; destruct (NSL _ _ H)|]. split; [intros a F G; apply (ACYC _ _ G F)|].
  split; [intros b e Hb He; apply (ED b e Hb He)|].
  split; [intros b e Hb He [K|K]; [destruct (ED b e Hb He); contradiction|destruct (NSL _ _ K)]|].
  split; [intros m H; destruct (NSL _ _ H)|]. auto.
Qed.
(** [C45_loop_free_partial] for functions with loops, as long as the block of a loop that comes
    first in memory is one at which the loop is entered: whatever way the loops are run through,
    and however often, a store classified as a heap write goes to the heap.
    Missing: loops entered elsewhere ([C45_loop_refuted]), functions that start otherwise
    ([C45_refuted]), and the values [C45_sound_partial] does not follow. *)
Theorem C45_loops_partial co fn s hdst hsrc fuel st : heap_input co fn ->
  s_assume_unsafe s = false -> s_unknown_cf s = false -> one_call co fn -> looped co fn hdst ->
  heap_analysis co fn s hdst hsrc fuel = Some (HDone st) ->
  forall b n i p, before co fn s hdst hsrc b n p -> nth_error (b_insns (co_block co b)) n = Some i ->
    (forall m j, nth_error (b_insns (co_block co b)) m = Some j -> i_addr j = i_addr i -> m = n) ->
    plain_write i -> classify co hdst st b (i_addr i) = Some HEAP ->
    p (HR (hdst i)) = PHeap \/ untracked (p (HR (hdst i))).
Proof.
  intros I A1 A2 O SR R b n i p H N U PW CL.
  destruct (loop_sound co fn s hdst hsrc I SR fuel st A1 A2 O R b n p H) as [B K]. destruct (K i N) as (c & VC & S & T).
  pose proof (plain_dst co s hdst hsrc b i c _ _ PW VC T (S _)) as Q.
  unfold classify in CL. rewrite (find_ctx_at co st b n i N U) in CL. destruct (hreg_eq_dec (hdst i) RNone); [discriminate|].
  injection CL as CL. apply cov_get in Q. rewrite CL in Q. destruct Q as [Q|Q]; auto.
Qed.
(** Such functions are also among those the analysis terminates on. *)
Theorem C45_total_partial co fn s hdst hsrc : heap_input co fn ->
  s_assume_unsafe s = false -> s_unknown_cf s = false -> one_call co fn -> looped co fn hdst ->
  exists fuel st, (forall k, heap_analysis co fn s hdst hsrc (fuel + k) = Some (HDone st)) /\
  forall b n i p, before co fn s hdst hsrc b n p -> nth_error (b_insns (co_block co b)) n = Some i ->
    (forall m j, nth_error (b_insns (co_block co b)) m = Some j -> i_addr j = i_addr i -> m = n) ->
    plain_write i -> classify co hdst st b (i_addr i) = Some HEAP ->
    p (HR (hdst i)) = PHeap \/ untracked (p (HR (hdst i))).
Proof.
  intros I A1 A2 O L. destruct (C44_terminates_partial co fn s hdst hsrc I) as (fuel & st & R); auto.
  { intros (_ & e & He & T). pose proof I as ((HE & _) & _). pose proof L as (_ & _ & NOE & _ & INS & _).
    destruct (INS _ e HE He (or_introl T)) as [K1 K2]. apply (NOE (f_entry (co_fun co fn))); [constructor|].
    eapply hflow_edge; [exact L|exact HE|]. exists e. auto. }
  exists fuel, st. split; [exact R|]. intros b n i p. apply (C45_loops_partial co fn s hdst hsrc (fuel + 0) st I A1 A2 O L (R 0%nat)).
Qed.
(** push; allocate; a loop that allocates again or takes the address of a local; then a store to
    the result.  The store is a heap write only if the loop allocates. *)
Definition t_again (al : bool) (b : nat) : list edge :=
  match b with
  | 0 => [alloc_e; ft_e 1] | 1 => [ct_e 2; cn_e 3] | 2 => if al then [alloc_e; ft_e 1] else [jmp_e 1] | _ => [ret_e]
  end%nat.
Definition i_again (al : bool) (b : nat) : list insn :=
  match b with
  | 0 => [w_insn 100 OPush [RSP]; call_insn 104]
  | 1 => [w_insn 200 OOther []]
  | 2 => [if al then call_insn 300 else lea_insn 300 RAX RSP]
  | _ => [sto_insn 500 RAX RCX; w_insn 504 ORet [RSP]]
  end%nat.
Definition co_again (al : bool) : code :=
  mkCode [0]%nat (fun _ => mkFunc "f" 100 0 [0; 1; 2; 3]%nat [3]%nat [3]%nat [[1; 2]%nat])
    (fun b => xblock b (t_again al b) (i_again al b)) (fun _ => [0]%nat) plt_link.
Lemma again_flow al a b : flow (co_again al) a b <-> (a, b) = (0, 1)%nat \/ (a, b) = (1, 2)%nat \/ (a, b) = (1, 3)%nat \/ (a, b) = (2, 1)%nat.
Proof.
  split.
  - intros (e & He & <- & F1 & F2 & F3 & F4). cbn [co_again co_block xblock b_targets] in He.
    destruct al, a as [|[|[|a]]]; cbn in He; repeat (destruct He as [<-|He]; [cbn in *; auto; congruence|]); contradiction.
  - intros [E|[E|[E|E]]]; injection E as -> ->; [exists (ft_e 1)|exists (ct_e 2)|exists (cn_e 3)|exists (if al then ft_e 1 else jmp_e 1)];
      destruct al; cbn; repeat split; auto; discriminate.
Qed.
Lemma again_flows al a b : flows (co_again al) a b -> a = b \/ (b = 3%nat /\ a = 0%nat) \/ ((a = 0 \/ a = 1 \/ a = 2) /\ (b = 1 \/ b = 2 \/ b = 3))%nat.
Proof.
  induction 1 as [|x y _ IH F]; [auto|]. apply again_flow in F.
  destruct F as [E|[E|[E|E]]]; injection E as -> ->; lia.
Qed.
Lemma again_input al : heap_input (co_again al) 0 /\ one_call (co_again al) 0 /\ looped (co_again al) 0 ex_dst.
Proof.
  assert (BL : forall b, In b (f_blocks (co_fun (co_again al) 0)) -> b = 0%nat \/ b = 1%nat \/ b = 2%nat \/ b = 3%nat) by (cbn; intros b H; intuition).
  assert (SLP : forall a b, same_loop (co_again al) 0 a b <-> ((a = 1 \/ a = 2) /\ (b = 1 \/ b = 2))%nat).
  { intros a b. unfold same_loop. cbn. split.
    - intros (l & [<-|[]] & H1 & H2). cbn in *. intuition lia.
    - intros [H1 H2]. exists [1; 2]%nat. cbn. intuition lia. }
  assert (S1 : forall a b c, flows (co_again al) a b -> flow (co_again al) b c -> flows (co_again al) a c) by (intros; eapply fl_step; eauto).
  assert (F01 : flow (co_again al) 0 1) by (apply again_flow; auto).
  assert (F12 : flow (co_again al) 1 2) by (apply again_flow; auto).
  assert (F21 : flow (co_again al) 2 1) by (apply again_flow; auto).
  split; [|split].
  - split; [|split].
    + split; [cbn; auto|]. split.
      * intros a t _ F. apply again_flow in F. destruct F as [E|[E|[E|E]]]; injection E as -> ->; cbn; auto.
      * intros i j l l' b Hi Hj _ _. cbn in Hi, Hj. destruct i as [|[|i]], j as [|[|j]]; auto; discriminate.
    + intros l b [<-|[]] Hb. cbn in *. intuition.
    + intros b _. cbn. destruct b as [|[|[|b]]]; discriminate.
  - intros b e e' Hb H1 H2 T1 Q1 T2 Q2. cbn [co_again co_block xblock b_targets] in H1, H2.
    destruct al, (BL b Hb) as [->|[->|[->| ->]]]; cbn in H1, H2;
      repeat (destruct H1 as [<-|H1]; [repeat (destruct H2 as [<-|H2]; [discriminate || reflexivity|]); contradiction|]); contradiction.
  - split; [|split; [|split; [|split; [|split; [|split; [|split]]]]]].
    + intros a b AB. rewrite SLP. split.
      * intros [H1 H2]. destruct H1 as [->| ->], H2 as [->| ->]; try congruence; (split; eapply S1; [constructor|assumption|constructor|assumption]).
      * intros [F G]. apply again_flows in F, G. lia.
    + intros a H. apply SLP in H. destruct H as [[->| ->] _]; eauto using fl_refl.
    + intros a _ F. apply again_flow in F. destruct F as [E|[E|[E|E]]]; discriminate.
    + intros b e Hb He. cbn [co_again co_block xblock b_targets] in He.
      destruct al, (BL b Hb) as [->|[->|[->| ->]]]; cbn in He;
        repeat (destruct He as [<-|He]; [cbn; intros [K|K]; reflexivity || discriminate|]); contradiction.
    + intros b e Hb He K. rewrite SLP in K. cbn [co_again co_block xblock b_targets] in He.
      destruct al, (BL b Hb) as [->|[->|[->| ->]]]; cbn in He;
        repeat (destruct He as [<-|He]; [cbn in *; first [split; [reflexivity|discriminate]|lia]|]); contradiction.
    + intros m H MIN. exists 0%nat. apply SLP in H. assert (m = 1)%nat as ->.
      { assert (m <= 1)%nat; [|lia]. apply MIN, SLP. lia. }
      split; [constructor|]. split; [exact F01|]. split; [discriminate|]. rewrite SLP. lia.
    + exists (w_insn 100 OPush [RSP]), P64. repeat split; discriminate || (cbn; auto).
    + intros b x Hb Hx (D & K). cbn [co_again co_block xblock b_insns] in Hx.
      destruct al, (BL b Hb) as [->|[->|[->| ->]]]; cbn in Hx; repeat (destruct Hx as [<-|Hx]; [cbn in D; discriminate|]); contradiction.
Qed.
Example C45_loops_case :
  heap_input (co_again true) 0 /\ one_call (co_again true) 0 /\ looped (co_again true) 0 ex_dst /\
  heap_analysis (co_again true) 0 summary0 ex_dst ex_src 100 = Some (HDone (run_heap (co_again true) summary0)) /\
  plain_write (sto_insn 500 RAX RCX) /\ classify (co_again true) ex_dst (run_heap (co_again true) summary0) 3 500 = Some HEAP /\
  looped (co_again false) 0 ex_dst /\ classify (co_again false) ex_dst (run_heap (co_again false) summary0) 3 500 = Some TOP.
Proof.
  split; [apply again_input|]. split; [apply again_input|]. split; [apply again_input|]. split; [reflexivity|].
  split; [repeat split; discriminate|]. split; [vm_compute; reflexivity|]. split; [apply again_input|vm_compute; reflexivity].
Qed.
Print Assumptions C45_loops_partial.
Print Assumptions C45_total_partial.
