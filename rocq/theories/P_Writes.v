(** * P_Writes: properties C61 and C62 (records of memory writes and their statistics) *)
From Coq Require Import ZArith Bool String Lia ZifyBool ZifyNat Arith List.
From Verif Require Import Machine Jit Dfs Binary CallGraph MemPasses BlockLive Heap Writes ExCode.
Import ListNotations.
Open Scope Z_scope.

(** ** C61: what StackHeightAnalysis records *)
(** Instruction [i] of block [b] writes memory (calls and returns aside). *)
Definition writes_in (co : code) (fn b : nat) (i : insn) : Prop :=
  In b (f_blocks (co_fun co fn)) /\ In i (b_insns (co_block co b)) /\ i_frame i = false /\ i_wmem i = true.
(** The function, instruction by instruction, in the order in which the pass visits it. *)
Definition visited_insns (co : code) (fn : nat) : list (nat * insn) :=
  flat_map (fun b => map (fun i => (b, i)) (b_insns (co_block co b))) (f_blocks (co_fun co fn)).
Lemma visited_in co fn b i : In (b, i) (visited_insns co fn) <-> In b (f_blocks (co_fun co fn)) /\ In i (b_insns (co_block co b)).
Proof.
  unfold visited_insns. rewrite in_flat_map. split.
  - intros (b' & B & H). apply in_map_iff in H. destruct H as (i' & E & H). injection E as -> ->. auto.
  - intros [B H]. exists b. split; [auto|]. apply in_map_iff. eauto.
Qed.
Theorem C61_unknown :
  forall co fn s, s_assume_unsafe s = false -> s_unknown_writes s = [] ->
    let s' := stack_height co fn s in
    (* the addresses listed for a block are those of its writes to unknown locations *)
    (forall b a, (exists l, In (b, l) (s_unknown_writes s') /\ In a l) <->
       exists i, writes_in co fn b i /\ In AUnknown (i_outs i) /\ i_addr i = a) /\
    (* every block has one list *)
    (forall b l l', In (b, l) (s_unknown_writes s') -> In (b, l') (s_unknown_writes s') -> l = l').
Proof.
  intros co fn s A U s'. destruct (stack_height_proj co fn s A) as [E _]. fold s' in E.
  fold (visited_insns co fn) in E. rewrite U in E. destruct (uw_insns (visited_insns co fn) []) as [S K].
  rewrite <- E in S, K. split.
  - intros b a. fold (lists_at (s_unknown_writes s') b a). rewrite K. unfold writes_in, insn_unknown_write. split.
    + intros [(i & H & (I1 & I2 & I3) & I4)|(l & [] & _)]. apply visited_in in H. exists i. tauto.
    + intros (i & (H1 & H2 & H3 & H4) & H5 & H6). left. exists i. rewrite visited_in. auto.
  - specialize (S I). clear - S. induction (s_unknown_writes s') as [|[k v] u IH]; [intros ? ? ? []|].
    destruct S as [S1 S2]. intros b l l' [E|H] [E'|H'].
    + congruence.
    + injection E as <- <-. specialize (S1 _ _ H'). lia.
    + injection E' as <- <-. specialize (S1 _ _ H). lia.
    + eauto.
Qed.
(** The record for a stack offset is the last write to it, in the order of the pass. *)
Theorem C61_stack :
  forall co fn s, s_assume_unsafe s = false -> s_stack_writes s = [] ->
    forall off a, zfind (s_stack_writes (stack_height co fn s)) off = Some a <->
      exists pre b i post, visited_insns co fn = pre ++ (b, i) :: post /\
        writes_in co fn b i /\ In (AStack off) (i_outs i) /\ i_addr i = a /\
        forall b' i', In (b', i') post -> writes_in co fn b' i' -> ~ In (AStack off) (i_outs i').
Proof.
  intros co fn s A U off a. destruct (stack_height_proj co fn s A) as [_ ->]. rewrite U.
  fold (visited_insns co fn). rewrite (sw_insns (visited_insns co fn) [] off a). unfold insn_stack_write, writes_in. split.
  - intros [(pre & b & i & post & E & (H1 & H2 & H3) & H4 & H5)|[H _]]; [|discriminate].
    exists pre, b, i, post. split; [auto|].
    assert (V : In (b, i) (visited_insns co fn)) by (rewrite E; apply in_or_app; right; left; auto).
    apply visited_in in V. split; [tauto|]. split; [auto|]. split; [auto|].
    intros b' i' Hp (_ & _ & Q1 & Q2) Q3. apply (H5 b' i' Hp). auto.
  - intros (pre & b & i & post & E & (_ & _ & H1 & H2) & H3 & H4 & H5). left. exists pre, b, i, post. split; [auto|].
    split; [auto|]. split; [auto|]. intros b' i' Hp (Q1 & Q2 & Q3).
    assert (V : In (b', i') (visited_insns co fn)) by (rewrite E; apply in_or_app; right; right; auto).
    apply visited_in in V. apply (H5 b' i' Hp); tauto.
Qed.
(** Function 0: two unknown writes in one block, one in another, and two writes to -24. *)
Definition wr_insns (b : nat) : list edge * list insn :=
  match b with
  | 0%nat => ([call_e 1; ft_e 1], [st_insn 100 (-24); unk_insn 102; unk_insn 104])
  | 1%nat => ([ret_e], [unk_insn 200; st_insn 204 (-24); mkInsn 206 OMov false true false [] [] [AHeap] [] [] [] None])
  | 10%nat => ([ret_e], [st_insn 1100 (-16)])
  | _ => ([ret_e], [])
  end.
Definition co_wr : code := xcode [0; 1]%nat (fun f => match f with 0%nat => 2%nat | _ => 1%nat end) wr_insns (fun _ => None).
Example C61_case :
  let s' := stack_height co_wr 0 summary0 in
  s_assume_unsafe summary0 = false /\
  s_unknown_writes s' = [(0%nat, [104; 102]); (1%nat, [200])] /\ s_stack_writes s' = [(-24, 204)].
Proof. vm_compute. auto. Qed.

(** ** C62: the statistics *)
Inductive kind := KStack | KGlobal | KHeap | KArg | KHoa.
Section STATS.
Variable co : code.
(** The summaries before StackHeightAnalysis, and the classes of the heap pass *)
Variable s : nat -> summary.
Variable cl : nat -> classes.
(** A counted write: a memory write of a function that is analysed *)
Definition counted (f : nat) (a : Z) : Prop :=
  s_assume_unsafe (s f) = false /\ exists b i, writes_in co f b i /\ i_addr i = a.
Definition has_loc (f : nat) (a : Z) (p : absloc -> Prop) : Prop :=
  exists b i l, writes_in co f b i /\ i_addr i = a /\ In l (i_outs i) /\ p l.
Definition has_kind (f : nat) (a : Z) (k : kind) : Prop :=
  counted f a /\
  match k with
  | KStack => has_loc f a (fun l => exists off, l = AStack off)
  | KGlobal => has_loc f a (fun l => l = AHeap)
  | KHeap => exists b, In (b, a) (k_heap (cl f))
  | KArg => exists b, In (b, a) (k_arg (cl f))
  | KHoa => exists b, In (b, a) (k_hoa (cl f))
  end.
Definition two_kinds (f : nat) (a : Z) : Prop := exists k k', k <> k' /\ has_kind f a k /\ has_kind f a k'.
(** [L f] lists the addresses of [f] with property [P], each once. *)
Definition lists (P : nat -> Z -> Prop) (fs : list nat) (L : nat -> list Z) : Prop :=
  forall f, In f fs -> NoDup (L f) /\ forall a, In a (L f) <-> P f a.
Definition total (L : nat -> list Z) (fs : list nat) : Z :=
  fold_right Z.add 0 (map (fun f => Z.of_nat (List.length (L f))) fs).
Definition of_kind (t : totals) (k : kind) : Z :=
  match k with KStack => t_stack t | KGlobal => t_global t | KHeap => t_heap t | KArg => t_arg t | KHoa => t_hoa t end.
(** An address is decoded in one way only. *)
Definition one_decoding (f : nat) : Prop :=
  forall b i b' i', writes_in co f b i -> writes_in co f b' i' -> i_addr i = i_addr i' -> i_outs i = i_outs i'.
(** The classes concern recorded writes; see [C62_classes]. *)
Definition classes_of (f : nat) : Prop :=
  forall w, In w (k_heap (cl f)) \/ In w (k_arg (cl f)) \/ In w (k_hoa (cl f)) -> counted f (snd w).

Definition flag (k : kind) (w : wflags) : bool :=
  match k with KStack => w_stack w | KGlobal => w_global w | KHeap => w_heap w | KArg => w_arg w | KHoa => w_hoa w end.
Lemma nflags_two w : (2 <=? nflags w) = true <-> exists k k', k <> k' /\ flag k w = true /\ flag k' w = true.
Proof.
  destruct w as [a b c d e]. unfold nflags. cbn [w_stack w_global w_heap w_arg w_hoa]. split.
  - intros H. destruct a; [|destruct b; [|destruct c; [|destruct d; [|destruct e; cbn in H; lia]]]].
    + exists KStack. destruct b; [exists KGlobal; cbn; intuition discriminate|]. destruct c; [exists KHeap; cbn; intuition discriminate|].
      destruct d; [exists KArg; cbn; intuition discriminate|]. destruct e; [exists KHoa; cbn; intuition discriminate|cbn in H; lia].
    + exists KGlobal. destruct c; [exists KHeap; cbn; intuition discriminate|].
      destruct d; [exists KArg; cbn; intuition discriminate|]. destruct e; [exists KHoa; cbn; intuition discriminate|cbn in H; lia].
    + exists KHeap. destruct d; [exists KArg; cbn; intuition discriminate|]. destruct e; [exists KHoa; cbn; intuition discriminate|cbn in H; lia].
    + exists KArg. destruct e; [exists KHoa; cbn; intuition discriminate|cbn in H; lia].
  - intros (k & k' & N & H1 & H2). destruct a, b, c, d, e, k, k'; cbn in H1, H2; try discriminate; try congruence; reflexivity.
Qed.
Lemma one_function f : one_decoding f -> classes_of f ->
  exists m, mark_all (cl f) (all_writes co f (s f)) = Some m /\ ksorted m /\
    (forall a, counted f a <-> exists w, In (a, w) m) /\
    forall a w, In (a, w) m -> forall k, flag k w = true <-> has_kind f a k.
Proof.
  intros OD CL. destruct (s_assume_unsafe (s f)) eqn:AU.
  - assert (NC : forall a, ~ counted f a) by (intros a [H _]; congruence).
    exists []. unfold all_writes. rewrite AU. split; [|split; [exact I|split; [|intros ? ? []]]].
    + assert (E : forall w, ~ (In w (k_heap (cl f)) \/ In w (k_arg (cl f)) \/ In w (k_hoa (cl f)))).
      { intros w H. apply (NC (snd w)). auto. }
      unfold mark_all. destruct (k_heap (cl f)) as [|x h]; [|exfalso; apply (E x); cbn; auto].
      destruct (k_arg (cl f)) as [|x h]; [|exfalso; apply (E x); cbn; auto].
      destruct (k_hoa (cl f)) as [|x h]; [|exfalso; apply (E x); cbn; auto]. reflexivity.
    + intros a. split; [intros H; exfalso; eapply NC; eauto|intros (w & [])].
  - destruct (all_writes_ok co f (s f) AU) as (S & A1 & A2).
    assert (WA : forall a i, writes_at co f a i <-> exists b, writes_in co f b i /\ i_addr i = a).
    { intros a i. unfold writes_at, writes_in. split; intros (b & H); exists b; tauto. }
    assert (CNT : forall a, counted f a <-> zfind (all_writes co f (s f)) a <> None).
    { intros a. split.
      - intros [_ (b & i & W & E)]. apply (A2 a i). apply WA. eauto.
      - intros H. destruct (zfind _ a) as [w|] eqn:E; [|congruence]. destruct (A1 a w E) as (i & H1 & _).
        apply WA in H1. destruct H1 as (b & H1 & H2). split; [auto|]. eauto. }
    destruct (mark_all_ok (cl f) (all_writes co f (s f)) S) as (m & M1 & M2 & M3).
    { intros w H. apply CNT. auto. }
    exists m. split; [auto|]. split; [auto|]. split.
    + intros a. rewrite CNT. split.
      * intros H. destruct (zfind (all_writes co f (s f)) a) as [w|] eqn:E; [|congruence].
        exists (marked (cl f) a w). apply zfind_in; [auto|]. rewrite M3, E. reflexivity.
      * intros (w & H). apply zfind_in in H; [|auto]. rewrite M3 in H. destruct (zfind _ a); discriminate.
    + intros a w H k. apply zfind_in in H; [|auto]. rewrite M3 in H.
      destruct (zfind (all_writes co f (s f)) a) as [w1|] eqn:E; [|discriminate]. injection H as <-.
      destruct (A1 a w1 E) as (i & H1 & ->). apply WA in H1. destruct H1 as (b & H1 & H2).
      assert (CN : counted f a) by (split; eauto).
      assert (HL : forall (q : absloc -> bool) (p : absloc -> Prop), (forall l, q l = true <-> p l) ->
        (existsb q (i_outs i) = true <-> has_loc f a p)).
      { intros q p QP. rewrite existsb_exists. unfold has_loc. split.
        - intros (l & L1 & L2). exists b, i, l. split; [auto|]. split; [auto|]. split; [auto|apply QP; auto].
        - intros (b' & i' & l & W & EA & L1 & L2). exists l. split; [|apply QP; auto].
          rewrite (OD b i b' i' H1 W) by congruence. auto. }
      assert (HH : forall l, hit l a = true <-> exists b0, In (b0, a) l).
      { intros l. unfold hit. rewrite existsb_exists. split.
        - intros ([b0 x] & L1 & L2). cbn in L2. exists b0. replace a with x by lia. auto.
        - intros (b0 & L). exists (b0, a). split; [auto|]. cbn. lia. }
      destruct k; cbn [flag marked flags_of w_stack w_global w_heap w_arg w_hoa has_kind orb]; rewrite ?HH; unfold has_kind.
      * rewrite (HL is_stack (fun l => exists off, l = AStack off)); [tauto|].
        intros [off| | |]; cbn; split; try discriminate; eauto; intros (? & ?); discriminate.
      * rewrite (HL is_global (fun l => l = AHeap)); [tauto|]. intros [off| | |]; cbn; split; congruence.
      * tauto.
      * tauto.
      * tauto.
Qed.
Lemma same_length {A} (l l' : list A) : NoDup l -> NoDup l' -> (forall x, In x l <-> In x l') -> List.length l = List.length l'.
Proof.
  intros N N' H. apply Nat.le_antisymm; apply NoDup_incl_length; auto; intros x; apply H.
Qed.
Lemma nodup_filter_map (p : wflags -> bool) m : NoDup (map fst m) -> NoDup (map fst (filter (fun e : Z * wflags => p (snd e)) m)).
Proof.
  induction m as [|[a w] m IH]; cbn [map filter fst]; [auto|]. intros N. inversion N as [|? ? N1 N2]; subst.
  destruct (p (snd (a, w))); cbn [map fst]; [constructor|]; auto.
  intros H. apply N1. apply in_map_iff in H. destruct H as (e & E & H). apply filter_In in H. apply in_map_iff. exists e. tauto.
Qed.
Lemma number_lists p m l : ksorted m -> NoDup l -> (forall a, In a l <-> exists w, In (a, w) m /\ p w = true) ->
  number p m = Z.of_nat (List.length l).
Proof.
  intros S N H. unfold number. f_equal. rewrite <- (map_length fst).
  apply same_length; [apply nodup_filter_map, ksorted_nodup; auto|auto|].
  intros a. rewrite H, in_map_iff. split.
  - intros ([a' w] & E & K). apply filter_In in K. cbn in E. subst a'. exists w. auto.
  - intros (w & K1 & K2). exists (a, w). split; [auto|]. apply filter_In. auto.
Qed.

Theorem C62_statistics :
  forall fs, (forall f, In f fs -> one_decoding f /\ classes_of f) ->
    exists ms, Forall2 (fun f m => mark_all (cl f) (all_writes co f (s f)) = Some m) fs ms /\
      match count_all ms with
      | None => (* the assertion: some write is of two kinds *)
          exists f a, In f fs /\ two_kinds f a
      | Some t =>
          (forall f a, In f fs -> ~ two_kinds f a) /\
          (forall L, lists counted fs L -> t_all t = total L fs) /\
          (forall k L, lists (fun f a => has_kind f a k) fs L -> of_kind t k = total L fs) /\
          (forall L, lists (fun f a => counted f a /\ forall k, ~ has_kind f a k) fs L -> t_unknown_writes t = total L fs)
      end.
Proof.
  intros fs H. unfold count_all.
  assert (G : forall fs t0, (forall f, In f fs -> one_decoding f /\ classes_of f) ->
    exists ms, Forall2 (fun f m => mark_all (cl f) (all_writes co f (s f)) = Some m) fs ms /\
      match fold_left count_writes ms (Some t0) with
      | None => exists f a, In f fs /\ two_kinds f a
      | Some t =>
          (forall f a, In f fs -> ~ two_kinds f a) /\
          (forall L, lists counted fs L -> t_all t = t_all t0 + total L fs) /\
          (forall k L, lists (fun f a => has_kind f a k) fs L -> of_kind t k = of_kind t0 k + total L fs) /\
          (forall L, lists (fun f a => counted f a /\ forall k, ~ has_kind f a k) fs L ->
             t_unknown_writes t = t_unknown_writes t0 + total L fs)
      end).
  { clear fs H. induction fs as [|f fs IH]; intros t0 H.
    - exists []. split; [constructor|]. cbn [fold_left]. unfold total. cbn [map fold_right].
      split; [intros f a []|]. split; [intros; lia|]. split; intros; lia.
    - destruct (H f (or_introl eq_refl)) as [OD CL].
      destruct (one_function f OD CL) as (m & M1 & S & M2 & M3).
      assert (TK : forall a w, In (a, w) m -> ((2 <=? nflags w) = true <-> two_kinds f a)).
      { intros a w Hw. rewrite nflags_two. unfold two_kinds. split; intros (k & k' & N & A & B); exists k, k';
          rewrite !(M3 a w Hw) in *; auto. }
      set (t1 := mkT (t_all t0 + Z.of_nat (List.length m)) (t_stack t0 + number w_stack m) (t_global t0 + number w_global m)
                 (t_heap t0 + number w_heap m) (t_arg t0 + number w_arg m) (t_hoa t0 + number w_hoa m)).
      destruct (IH t1) as (ms & F & K); [intros g Hg; apply H; right; auto|].
      exists (m :: ms). split; [constructor; auto|]. cbn [fold_left]. rewrite count_ok. fold t1.
      destruct (existsb (fun e => 2 <=? nflags (snd e)) m) eqn:EX.
      + apply existsb_exists in EX. destruct EX as ([a w] & E1 & E2). cbn [snd] in E2.
        assert (NN : forall l, fold_left count_writes l None = None).
        { induction l as [|x l IHl]; cbn [fold_left]; [auto|]. rewrite count_none. auto. }
        rewrite NN. exists f, a. split; [left; auto|]. apply (TK a w E1). auto.
      + destruct (fold_left count_writes ms (Some t1)) as [t|].
        2:{ destruct K as (g & a & G1 & G2). exists g, a. split; [right; auto|auto]. }
        destruct K as (K0 & K1 & K2 & K3).
        assert (NT : forall a w, In (a, w) m -> ~ two_kinds f a).
        { intros a w Hw T. apply (TK a w Hw) in T.
          assert (X : existsb (fun e => 2 <=? nflags (snd e)) m = true) by (apply existsb_exists; exists (a, w); auto). congruence. }
        assert (TL : forall P L, lists P (f :: fs) L -> lists P fs L).
        { intros P L HL g Hg. apply HL. right; auto. }
        assert (TOT : forall L, total L (f :: fs) = Z.of_nat (List.length (L f)) + total L fs) by reflexivity.
        assert (NK : forall k, of_kind t1 k = of_kind t0 k + number (flag k) m) by (intros []; reflexivity).
        split; [|split; [|split]].
        * intros g a [<-|Hg]; [|auto]. intros T.
          assert (CN : counted f a) by (destruct T as (k & _ & _ & (T & _) & _); auto).
          apply M2 in CN. destruct CN as (w & Hw). exact (NT a w Hw T).
        * intros L HL. rewrite (K1 L (TL _ _ HL)), TOT. unfold t1. cbn [t_all].
          destruct (HL f (or_introl eq_refl)) as [N1 N2].
          replace (List.length m) with (List.length (L f)); [lia|].
          rewrite <- (map_length fst m). apply same_length; [auto|apply ksorted_nodup; auto|].
          intros a. rewrite N2, M2, in_map_iff. split; [intros (w & Hw); exists (a, w); auto|].
          intros ([a' w] & E & Hw). cbn in E. subst a'. eauto.
        * intros k L HL. rewrite (K2 k L (TL _ _ HL)), TOT, NK.
          destruct (HL f (or_introl eq_refl)) as [N1 N2].
          rewrite (number_lists (flag k) m (L f) S N1); [lia|]. intros a. rewrite N2. split.
          -- intros Hk. assert (CN : counted f a) by apply Hk. apply M2 in CN. destruct CN as (w & Hw).
             exists w. split; [auto|]. apply (M3 a w Hw). auto.
          -- intros (w & Hw & Fw). apply (M3 a w Hw). auto.
        * intros L HL. rewrite (K3 L (TL _ _ HL)), TOT.
          destruct (HL f (or_introl eq_refl)) as [N1 N2].
          assert (E0 : number (fun w => nflags w =? 0) m = Z.of_nat (List.length (L f))).
          { apply number_lists; auto. intros a. rewrite N2. split.
            - intros [CN NO]. apply M2 in CN. destruct CN as (w & Hw). exists w. split; [auto|].
              assert (Z0 : forall k, flag k w = false).
              { intros k. destruct (flag k w) eqn:FK; [|auto]. exfalso. apply (NO k). apply (M3 a w Hw). auto. }
              unfold nflags. pose proof (Z0 KStack); pose proof (Z0 KGlobal); pose proof (Z0 KHeap); pose proof (Z0 KArg); pose proof (Z0 KHoa).
              cbn [flag] in *. unfold b2z. lia.
            - intros (w & Hw & Fw). split; [apply M2; eauto|]. intros k HK. apply (M3 a w Hw) in HK.
              unfold nflags, b2z in Fw. destruct w as [w1 w2 w3 w4 w5]. cbn [w_stack w_global w_heap w_arg w_hoa] in Fw.
              destruct k; cbn [flag w_stack w_global w_heap w_arg w_hoa] in HK; subst;
                repeat match goal with b : bool |- _ => destruct b end; discriminate. }
          rewrite <- E0.
          assert (SUM : forall m0, (forall a w, In (a, w) m0 -> (2 <=? nflags w) = false) ->
            Z.of_nat (List.length m0) - number w_stack m0 - number w_global m0 - number w_heap m0 - number w_arg m0 - number w_hoa m0
            = number (fun w => nflags w =? 0) m0).
          { induction m0 as [|[a w] m0 IHm]; intros HT; [reflexivity|].
            specialize (IHm (fun a w Hw => HT a w (or_intror Hw))). specialize (HT a w (or_introl eq_refl)).
            rewrite !number_cons. cbn [snd List.length]. unfold nflags, b2z in *.
            destruct (w_stack w), (w_global w), (w_heap w), (w_arg w), (w_hoa w); try discriminate;
              repeat match goal with |- context [if ?c then 1 else 0] => let v := eval vm_compute in c in change c with v; cbv iota end; lia. }
          specialize (SUM m). unfold t_unknown_writes, t1. cbn [t_all t_stack t_global t_heap t_arg t_hoa].
          rewrite <- SUM; [lia|]. intros a w Hw. destruct (2 <=? nflags w) eqn:E; [|auto]. exfalso.
          apply (NT a w Hw). apply (TK a w Hw). auto. }
  destruct (G fs Writes.t0 H) as (ms & F & K). exists ms. split; [auto|].
  destruct (fold_left count_writes ms (Some Writes.t0)) as [t|]; [|auto]. destruct K as (K0 & K1 & K2 & K3).
  split; [auto|]. split; [|split].
  - intros L HL. rewrite (K1 L HL). reflexivity.
  - intros k L HL. rewrite (K2 k L HL). destruct k; reflexivity.
  - intros L HL. rewrite (K3 L HL). reflexivity.
Qed.
End STATS.
(** The heap pass classifies recorded writes only. *)
Theorem C62_classes :
  forall co (s : nat -> summary) f hdst st,
    s_assume_unsafe (s f) = false -> s_unknown_writes (s f) = [] ->
    classes_of co s (fun f => snd (update_summary co (stack_height co f (s f)) hdst st)) f.
Proof.
  intros co s f hdst st A U w H. split; [auto|].
  assert (P : forall t, In w (pick co (stack_height co f (s f)) hdst t st) ->
            exists l, In (fst w, l) (s_unknown_writes (stack_height co f (s f))) /\ In (snd w) l).
  { intros t K. unfold pick in K. apply in_flat_map in K. destruct K as ([b l] & K1 & K2). cbn [fst snd] in K2.
    apply in_map_iff in K2. destruct K2 as (a & <- & K2). apply filter_In in K2. exists l. cbn. tauto. }
  cbn [update_summary snd k_heap k_arg k_hoa] in H.
  destruct (C61_unknown co f (s f) A U) as [K _].
  assert (Q : exists l, In (fst w, l) (s_unknown_writes (stack_height co f (s f))) /\ In (snd w) l)
    by (destruct H as [H|[H|H]]; eauto).
  apply K in Q. destruct Q as (i & Q1 & _ & Q2). eauto.
Qed.
(** With the heap pass off: seven writes, three to the stack, one to a global, three unknown. *)
Example C62_case :
  (forall f, In f [0; 1]%nat -> one_decoding co_wr f /\ classes_of co_wr (fun _ => summary0) (fun _ => no_classes) f) /\
  option_map (fun t => (t_all t, t_stack t, t_global t, t_unknown_writes t))
    (count_all [all_writes co_wr 0 summary0; all_writes co_wr 1 summary0]) = Some (7, 3, 1, 3).
Proof.
  split; [|vm_compute; reflexivity]. intros f Hf. split; [|intros w [[]|[[]|[]]]].
  intros b i b' i' (B & I & _) (B' & I' & _) E.
  destruct Hf as [<-|[<-|[]]]; cbn in B, B'; intuition subst; cbn in I, I'; intuition subst; try discriminate E; reflexivity.
Qed.
(** A write that is reported both on the stack and in a global stops the tool. *)
Example C62_abort :
  let i := mkInsn 100 OMov false true false [] [] [AStack (-24); AHeap] [] [] [] None in
  let co := xcode [0]%nat (fun _ => 1%nat) (fun _ => ([ret_e], [i])) (fun _ => None) in
  count_all [all_writes co 0 summary0] = None /\ two_kinds co (fun _ => summary0) (fun _ => no_classes) 0 100.
Proof.
  intros i co. split; [vm_compute; reflexivity|]. exists KStack, KGlobal. split; [discriminate|].
  assert (W : writes_in co 0 0 i) by (repeat split; cbn; auto).
  split; (split; [split; [reflexivity|exists 0%nat, i; auto]|]).
  - exists 0%nat, i, (AStack (-24)). repeat split; cbn; eauto.
  - exists 0%nat, i, AHeap. repeat split; cbn; auto.
Qed.
Print Assumptions C61_unknown.
Print Assumptions C61_stack.
Print Assumptions C62_statistics.
Print Assumptions C62_classes.
