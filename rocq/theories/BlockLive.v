(** * BlockLive: BlockDeadRegisterAnalysis (/repo/src/passes.h:588-784) *)
From Coq Require Import ZArith Bool Lia Arith String List.
From Verif Require Import Machine Jit Dfs Binary ShadowSpec RegNames.
Import ListNotations.
Open Scope Z_scope.

(** ** CalculateBlockLevelLiveness, passes.h:594-627

    [getBaseRegister] of a general register is its 64-bit register. The register
    class test of line 617 lets only general registers through. A name on which
    the normaliser throws erases nothing here; Dyninst has no such name. *)
Definition ins_written (cur : list string) (w : mreg) : list string :=
  match w with
  | MG RSP _ => cur
  | MG r P64 | MG r P32 =>
      match normalize (reg_name r) with Some n => ssins n cur | None => cur end
  | _ => cur
  end.
Definition base_name (m : mreg) : string :=
  match m with MG r _ => reg_name r | MFlag n => n | MOther n => n end.
Definition del_read (cur : list string) (m : mreg) : list string :=
  match normalize (base_name m) with Some n => sdel n cur | None => cur end.
Definition live_step (i : insn) (cur : list string) : list string :=
  fold_left del_read (i_read i) (fold_left ins_written (i_written i) cur).
(** The loop runs from the last instruction to the first. *)
Fixpoint dead_before (is : list insn) : list string :=
  match is with [] => [] | i :: t => live_step i (dead_before t) end.
Fixpoint live_map (is : list insn) : list (Z * list string) :=
  match is with
  | [] => []
  | i :: t => zset (i_addr i) (dead_before (i :: t)) (live_map t)
  end.
(** [d[addr]] *)
Definition dead_at (d : list (Z * list string)) (a : Z) : list string :=
  match zfind d a with Some l => l | None => [] end.

(** MoveSP and ReadFlags, passes.h:629-648. *)
Definition moves_sp (i : insn) : bool :=
  existsb (fun m => match m with MG RSP P64 => true | _ => false end) (i_written i).
Definition reads_flags (i : insn) : bool :=
  existsb (fun m => match m with MFlag _ => true | _ => false end) (i_read i).

(** Local variables newAddr, saveCount, raOffset, curHeight. *)
Record ipt := mkIpt { q_addr : Z; q_save : Z; q_off : Z; q_h : Z }.
Definition ipt0 := mkIpt 0 0 0 0.
(** passes.h:658-665 and 740-747 *)
Definition choose (d : list (Z * list string)) (i : insn) (q : ipt) : ipt :=
  let n := Z.of_nat (List.length (dead_at d (i_addr i))) in
  if q_save q <? n then mkIpt (i_addr i) (Z.min n 2) (q_h q) (q_h q) else q.
Definition bump (q : ipt) : ipt := mkIpt (q_addr q) (q_save q) (q_off q) (q_h q + 8).
(** passes.h:668-681, 698-711, 753-766; reg2 stays empty for a single register. *)
Definition make_mid (d : list (Z * list string)) (q : ipt) : mid :=
  let dead := dead_at d (q_addr q) in
  mkMid (q_addr q) (q_off q) (q_save q) (nth 0 dead ""%string) (nth 1 dead ""%string).

(** ** CalculateEntryInstPoint, passes.h:650-714 *)
Fixpoint entry_loop (d : list (Z * list string)) (is : list insn) (q : ipt) : ipt :=
  match is with
  | [] => q
  | i :: t =>
      let q1 := choose d i q in
      if q_save q1 =? 2 then q1
      else if isop (i_op i) OPush then entry_loop d t (bump q1)
      else if i_wmem i then q1
      else if moves_sp i then q1
      else entry_loop d t q1
  end.
Definition entry_fixed (is : list insn) : option mid :=
  match is with
  | [] => None
  | i :: _ => let q := choose (live_map is) i ipt0 in
              if 0 <? q_save q then Some (make_mid (live_map is) q) else None
  end.
Definition entry_point (is : list insn) : option mid :=
  let q := entry_loop (live_map is) is ipt0 in
  if ((0 <? q_save q) && (0 <? q_addr q))%bool then Some (make_mid (live_map is) q) else None.

(** ** CalculateExitInstPoint, passes.h:716-769 *)
Fixpoint exit_loop (d : list (Z * list string)) (ris : list insn) (q : ipt) : ipt :=
  match ris with
  | [] => q
  | i :: t =>
      if isop (i_op i) ORet then exit_loop d t q
      else if i_wmem i then q
      else if isop (i_op i) OPop then
        let q1 := choose d i (bump q) in
        if q_save q1 =? 2 then q1 else exit_loop d t q1
      else if moves_sp i then q
      else if reads_flags i then q
      else let q1 := choose d i q in
           if q_save q1 =? 2 then q1 else exit_loop d t q1
  end.
Definition exit_point (is : list insn) : option mid :=
  let q := exit_loop (live_map is) (rev is) ipt0 in
  if ((0 <? q_save q) && (0 <? q_addr q))%bool then Some (make_mid (live_map is) q) else None.

(** RunLocalAnalysis, passes.h:771-783. *)
Section BL.
Variable co : code.
Definition put (a : Z) (o : option mid) (l : list (Z * mid)) : list (Z * mid) :=
  match o with Some m => zset a m l | None => l end.
Definition bd_block (s : summary) (bn : nat) : summary :=
  let b := co_block co bn in
  let s1 := set_entryFixed s (put (b_start b) (entry_fixed (b_insns b)) (s_entryFixed s)) in
  let s2 := set_entryData s1 (put (b_start b) (entry_point (b_insns b)) (s_entryData s1)) in
  set_exitData s2 (put (b_start b) (exit_point (b_insns b)) (s_exitData s2)).
Definition block_dead (fn : nat) (s : summary) : summary :=
  fold_left bd_block (f_blocks (co_fun co fn)) s.
End BL.

(** ** Specification: instruction semantics consistent with the decoder *)
Section SEM.
Variables F X : Type.
(** A program state: registers, memory, flags, and everything else. *)
Record pst := mkPst { p_rg : reg -> Z; p_mem : memory; p_fl : F; p_rest : X }.
Variable sem : insn -> pst -> option pst.

Fixpoint prun (is : list insn) (s : pst) : option pst :=
  match is with
  | [] => Some s
  | i :: t => match sem i s with Some s' => prun t s' | None => None end
  end.

Definition reads (i : insn) (r : reg) : Prop := exists p, In (MG r p) (i_read i).
(** No flag is read. *)
Definition flagless (i : insn) : Prop := forall n, ~ In (MFlag n) (i_read i).
(** A write to the 64 or 32-bit register replaces the whole register. *)
Definition kills (i : insn) (r : reg) : Prop := In (MG r P64) (i_written i) \/ In (MG r P32) (i_written i).

(** Agreement of two states except for the registers named in [D], the bytes
    in [Q], and the flags if [fi]. *)
Definition agree (Q : Z -> Prop) (fi : bool) (D : list string) (s t : pst) : Prop :=
  (forall r, ~ In (reg_name r) D -> p_rg s r = p_rg t r) /\
  (forall a, ~ Q a -> p_mem s a = p_mem t a) /\
  (fi = false -> p_fl s = p_fl t) /\ p_rest s = p_rest t.
Definition agree_out (Q : Z -> Prop) (fi : bool) (a b : option pst) : Prop :=
  match a, b with
  | None, None => True
  | Some s, Some t => agree Q fi [] s t
  | _, _ => False
  end.

(** The outcome depends only on the registers read, the bytes outside [Q], the
    flags if a flag is read, and the rest; a register not fully written keeps
    what it had or part of it. *)
Definition respects (Q : Z -> Prop) : Prop :=
  forall i s t fi,
    (fi = true -> flagless i) ->
    (forall r, reads i r -> p_rg s r = p_rg t r) ->
    (forall a, ~ Q a -> p_mem s a = p_mem t a) ->
    (fi = false -> p_fl s = p_fl t) -> p_rest s = p_rest t ->
    match sem i s, sem i t with
    | None, None => True
    | Some s', Some t' =>
        (forall r, kills i r \/ p_rg s r = p_rg t r -> p_rg s' r = p_rg t' r) /\
        (forall a, ~ Q a -> p_mem s' a = p_mem t' a) /\
        (fi = false -> p_fl s' = p_fl t') /\ p_rest s' = p_rest t'
    | _, _ => False
    end.

(** Size of the word a push or pop moves: its operand may be a 16-bit register. *)
Definition word (i : insn) : Z :=
  match i_opnds i with EReg (MG _ P16) :: _ => 2 | _ => 8 end.
Definition pop_to_sp (i : insn) : bool :=
  match i_opnds i with EReg (MG RSP _) :: _ => true | _ => false end.
Record stack_facts : Prop := {
  sf_push : forall i s s', i_op i = OPush -> sem i s = Some s' ->
    p_rg s' RSP = p_rg s RSP - word i /\
    forall a, ~ (p_rg s RSP - word i <= a < p_rg s RSP) -> p_mem s' a = p_mem s a;
  sf_pop : forall i s s', i_op i = OPop -> pop_to_sp i = false -> sem i s = Some s' ->
    p_rg s' RSP = p_rg s RSP + word i;
  sf_mem : forall i s s', i_op i <> OPush -> i_wmem i = false -> sem i s = Some s' ->
    forall a, p_mem s' a = p_mem s a;
  sf_sp : forall i s s', (forall p, ~ In (MG RSP p) (i_written i)) ->
    sem i s = Some s' -> p_rg s' RSP = p_rg s RSP }.
End SEM.
Arguments p_rg {F X}. Arguments p_mem {F X}. Arguments p_fl {F X}. Arguments p_rest {F X}.
Arguments mkPst {F X}. Arguments prun {F X}. Arguments agree {F X}. Arguments agree_out {F X}.
Arguments respects {F X}. Arguments stack_facts {F X}.

(** Pushes and pops move 8 bytes, pop does not go to rsp, and rsp is not
    written through esp, sp or spl. *)
Definition plain_stack (i : insn) : Prop :=
  ((i_op i = OPush \/ i_op i = OPop) -> word i = 8) /\
  (i_op i = OPop -> pop_to_sp i = false) /\
  (forall p, In (MG RSP p) (i_written i) -> p = P64).

(** ** Liveness *)
Definition mreg_eq_dec (a b : mreg) : {a = b} + {a <> b}.
Proof. decide equality; try apply string_dec; decide equality. Defined.
Lemma normalize_base r : normalize (reg_name r) = Some (reg_name r).
Proof. destruct r; reflexivity. Qed.
Lemma reg_name_inj r r' : reg_name r = reg_name r' -> r = r'.
Proof. destruct r, r'; intros H; try reflexivity; discriminate H. Qed.

Lemma ins_written_in l : forall cur x,
  In x (fold_left ins_written l cur) <->
  In x cur \/ exists r, r <> RSP /\ x = reg_name r /\ (In (MG r P64) l \/ In (MG r P32) l).
Proof.
  induction l as [|w l IH]; cbn [fold_left]; intros cur x.
  - split; [auto|]. intros [K|(r & _ & _ & [[]|[]])]; auto.
  - rewrite IH. clear IH.
    assert (W : In x (ins_written cur w) <->
                In x cur \/ exists r, r <> RSP /\ x = reg_name r /\ (w = MG r P64 \/ w = MG r P32)).
    { destruct w as [r p| |]; cbn [ins_written].
      - destruct p; [destruct r|destruct r| | | ];
          try (rewrite normalize_base, ssins_in; split;
            [intros [->|K]; [right; eexists; repeat split; [|eauto]; discriminate|auto]
            |intros [K|(r' & A & B & [C|C])]; [auto| |]; try discriminate; injection C as <-; auto]);
          try (split; [auto|]; intros [K|(r' & A & B & [C|C])]; auto; try discriminate;
               injection C as <-; contradiction);
          try (replace (match r with RSP => cur | _ => cur end) with cur by (destruct r; auto);
            split; [auto|]; intros [K|(r' & A & B & [C|C])]; auto; discriminate).
      - split; [auto|]; intros [K|(r' & A & B & [C|C])]; auto; discriminate.
      - split; [auto|]; intros [K|(r' & A & B & [C|C])]; auto; discriminate. }
    rewrite W. split.
    + intros [[K|(r & A & B & C)]|(r & A & B & C)]; auto; right; exists r; repeat split; auto;
        cbn; destruct C as [C|C]; auto.
    + intros [K|(r & A & B & C)]; auto. cbn in C.
      destruct C as [[C|C]|[C|C]].
      * left. right. exists r. repeat split; auto.
      * right. exists r. repeat split; auto.
      * left. right. exists r. repeat split; auto.
      * right. exists r. repeat split; auto.
Qed.

Lemma del_read_in l : forall cur x,
  In x (fold_left del_read l cur) ->
  In x cur /\ forall r p, In (MG r p) l -> x <> reg_name r.
Proof.
  induction l as [|m l IH]; cbn [fold_left]; intros cur x H.
  - split; auto. 
  - apply IH in H. destruct H as [A B].
    unfold del_read in A. destruct (normalize (base_name m)) as [n|] eqn:E.
    + apply sdel_in in A. destruct A as [A A2]. split; auto.
      intros r p [->|K]; [|eauto]. cbn in E. rewrite normalize_base in E. injection E as <-. auto.
    + split; auto. intros r p [->|K]; [|eauto]. cbn in E. rewrite normalize_base in E. discriminate.
Qed.
Lemma del_read_keep l : forall cur x,
  In x cur -> (forall m, In m l -> normalize (base_name m) <> Some x) -> In x (fold_left del_read l cur).
Proof.
  induction l as [|m l IH]; cbn [fold_left]; intros cur x H K; auto.
  apply IH; [|intros m' Hm; apply K; right; auto].
  unfold del_read. destruct (normalize (base_name m)) as [n|] eqn:E; auto.
  apply sdel_in. split; auto. intros ->. eapply K; [left; reflexivity|auto].
Qed.

(** Where a name in the set of an instruction comes from. *)
Lemma live_step_in i cur x :
  In x (live_step i cur) ->
  (In x cur \/ exists r, r <> RSP /\ x = reg_name r /\ kills i r) /\
  (forall r, reads i r -> x <> reg_name r).
Proof.
  unfold live_step. intros H. apply del_read_in in H. destruct H as [A B]. split.
  - apply ins_written_in in A. exact A.
  - intros r (p & K). eauto.
Qed.

Lemma ins_written_nodup l : forall cur, NoDup cur -> NoDup (fold_left ins_written l cur).
Proof.
  induction l as [|w l IH]; cbn [fold_left]; intros cur N; auto. apply IH.
  destruct w as [r p| |]; cbn [ins_written]; auto.
  destruct r; auto; destruct p; auto; rewrite normalize_base; apply ssins_nodup; auto.
Qed.
Lemma del_read_nodup l : forall cur, NoDup cur -> NoDup (fold_left del_read l cur).
Proof.
  induction l as [|m l IH]; cbn [fold_left]; intros cur N; auto. apply IH.
  unfold del_read. destruct (normalize _); auto. apply sdel_nodup; auto.
Qed.
Lemma dead_before_names is : names (dead_before is).
Proof.
  induction is as [|i is [IH1 IH2]]; cbn [dead_before].
  - split; [constructor|intros n []].
  - split.
    + unfold live_step. apply del_read_nodup, ins_written_nodup; auto.
    + intros n H. apply live_step_in in H. destruct H as [[H|(r & A & B & _)] _]; eauto.
Qed.

Lemma zfind_zset {A} (l : list (Z * A)) k v k' :
  zfind (zset k v l) k' = if k' =? k then Some v else zfind l k'.
Proof.
  induction l as [|[a b] l IH]; cbn [zset].
  - cbn [zfind]. rewrite Z.eqb_sym. reflexivity.
  - destruct (k <? a) eqn:E1; [|destruct (k =? a) eqn:E2]; cbn [zfind].
    + rewrite (Z.eqb_sym k' k). reflexivity.
    + apply Z.eqb_eq in E2. subst a. rewrite (Z.eqb_sym k' k).
      destruct (k =? k') eqn:E3; auto.
    + destruct (a =? k') eqn:E3.
      * apply Z.eqb_eq in E3. subst a. apply Z.eqb_neq in E2.
        destruct (k' =? k) eqn:E4; auto. apply Z.eqb_eq in E4. congruence.
      * apply IH.
Qed.

Lemma live_map_at is : NoDup (map i_addr is) ->
  forall pre i post, is = pre ++ i :: post ->
  dead_at (live_map is) (i_addr i) = dead_before (i :: post).
Proof.
  induction is as [|j is IH]; intros N pre i post E.
  - destruct pre; discriminate.
  - cbn [map] in N. inversion N as [|? ? N1 N2]; subst.
    unfold dead_at. cbn [live_map]. rewrite zfind_zset.
    destruct pre as [|k pre]; cbn [app] in E; injection E as <- ->.
    + rewrite Z.eqb_refl. reflexivity.
    + destruct (i_addr i =? i_addr j) eqn:E2.
      * exfalso. apply N1. apply Z.eqb_eq in E2. rewrite <- E2. apply in_map. apply in_or_app.
        right; left; auto.
      * fold (dead_at (live_map (pre ++ i :: post)) (i_addr i)).
        eapply IH; eauto.
Qed.

(** Non-interference along a block. *)
Section NI.
Variables F X : Type.
Variable sem : insn -> pst F X -> option (pst F X).
Variable Q : Z -> Prop.
Hypothesis RS : respects sem Q.

Lemma dead_agree fi is : (fi = true -> forall i, In i is -> flagless i) ->
  forall s t, agree Q fi (dead_before is) s t -> agree_out Q fi (prun sem is s) (prun sem is t).
Proof.
  induction is as [|i is IH]; intros HF s t A; cbn [prun].
  - exact A.
  - destruct A as (A1 & A2 & A3 & A4). cbn [dead_before] in A1.
    assert (RD : forall r, reads i r -> p_rg s r = p_rg t r).
    { intros r Hr. apply A1. intros K. apply live_step_in in K. destruct K as [_ K].
      exact (K r Hr eq_refl). }
    pose proof (RS i s t fi (fun E => HF E i (or_introl eq_refl)) RD A2 A3 A4) as K.
    destruct (sem i s) as [s'|], (sem i t) as [t'|]; try contradiction; auto.
    destruct K as (K1 & K2 & K3 & K4). apply IH.
    { intros E j Hj. apply HF; auto. right; auto. }
    split; [|split; [|split]]; auto.
    intros r Hr. apply K1.
    destruct (in_dec mreg_eq_dec (MG r P64) (i_written i)) as [W|W]; [left; left; auto|].
    destruct (in_dec mreg_eq_dec (MG r P32) (i_written i)) as [W2|W2]; [left; right; auto|].
    right. apply A1. intros H. apply live_step_in in H. destruct H as [[H|(r' & _ & E & H)] _].
    + auto.
    + apply reg_name_inj in E. subst r'. destruct H; contradiction.
Qed.
End NI.

(** ** Entry points *)
Lemma reads_flags_false i : reads_flags i = false <-> flagless i.
Proof.
  unfold reads_flags, flagless. rewrite <- not_true_iff_false, existsb_exists. split; intros H.
  - intros n K. apply H. exists (MFlag n). auto.
  - intros (m & A & B). destruct m; try discriminate. exact (H _ A).
Qed.
Lemma moves_sp_false i : moves_sp i = false <-> ~ In (MG RSP P64) (i_written i).
Proof.
  unfold moves_sp. rewrite <- not_true_iff_false, existsb_exists. split; intros H K; apply H.
  - exists (MG RSP P64). auto.
  - destruct K as (m & A & B). destruct m as [[] []| |]; try discriminate. auto.
Qed.
Lemma isop_true a b : isop a b = true <-> a = b.
Proof. unfold isop. destruct (opid_eq_dec a b); split; intros H; auto; discriminate. Qed.
Lemma isop_false a b : isop a b = false <-> a <> b.
Proof.
  unfold isop. destruct (opid_eq_dec a b); split; intros H; auto; try discriminate. contradiction.
Qed.

(** An instruction the entry loop steps over. *)
Definition entry_passable (i : insn) : Prop :=
  i_op i = OPush \/ (i_op i <> OPush /\ i_wmem i = false /\ moves_sp i = false).
Definition pushes (is : list insn) : Z :=
  8 * Z.of_nat (List.length (filter (fun i => isop (i_op i) OPush) is)).

(** The chosen point: [q_addr] is an instruction of the block with the recorded
    number of dead registers, and the recorded offset counts the pushes before. *)
Definition chosen (d : list (Z * list string)) (count : list insn -> Z) (seen : list insn) (q : ipt) : Prop :=
  q_save q = 0 \/
  exists pre i post, seen = pre ++ i :: post /\ i_addr i = q_addr q /\ q_off q = count pre /\
    0 < q_save q /\
    q_save q = Z.min (Z.of_nat (List.length (dead_at d (i_addr i)))) 2.

Lemma choose_chosen d count seen i q :
  q_h q = count seen -> chosen d count seen q ->
  0 <= q_save q -> chosen d count (seen ++ [i]) (choose d i q) /\ q_h (choose d i q) = q_h q /\
  0 <= q_save (choose d i q).
Proof.
  intros H C P. unfold choose. set (n := Z.of_nat _). destruct (q_save q <? n) eqn:E.
  - cbn [q_h q_save]. assert (0 < n) by lia. split; [|split; [auto|lia]]. right.
    exists seen, i, []. cbn [q_addr q_off q_save]. repeat split; auto. lia.
  - split; [|split; auto]. destruct C as [C|(pre & j & post & A & B & C & D & G)]; [left; auto|].
    right. exists pre, j, (post ++ [i]). rewrite A, <- app_assoc. repeat split; auto.
Qed.

Lemma entry_loop_ok d rest : forall seen q,
  q_h q = pushes seen -> 0 <= q_save q -> chosen d pushes seen q -> Forall entry_passable seen ->
  exists pre i post, seen ++ rest = pre ++ i :: post /\ Forall entry_passable pre /\
     (q_save (entry_loop d rest q) = 0 \/
      (i_addr i = q_addr (entry_loop d rest q) /\ q_off (entry_loop d rest q) = pushes pre /\
       q_save (entry_loop d rest q) = Z.min (Z.of_nat (List.length (dead_at d (i_addr i)))) 2 /\
       0 < q_save (entry_loop d rest q)))
  \/ q_save (entry_loop d rest q) = 0.
Proof.
  assert (FIN : forall seen rest q, chosen d pushes seen q ->
     (forall pre j post, seen = pre ++ j :: post -> Forall entry_passable pre) ->
     exists pre i post, seen ++ rest = pre ++ i :: post /\ Forall entry_passable pre /\
     (q_save q = 0 \/
      (i_addr i = q_addr q /\ q_off q = pushes pre /\
       q_save q = Z.min (Z.of_nat (List.length (dead_at d (i_addr i)))) 2 /\
       0 < q_save q))
     \/ q_save q = 0).
  { intros seen rest' q [C|(pre & j & post & A & B & C & D & G)] FP.
    - exists [], (mkInsn 0 OOther false false false [] [] [] [] [] [] None), []. right. exact C.
    - exists pre, j, (post ++ rest'). left. split; [rewrite A, <- app_assoc; auto|].
      split; [eauto|]. right. repeat split; auto. }
  induction rest as [|i rest IH]; intros seen q H P C FP; cbn [entry_loop].
  - apply FIN; auto. intros pre j post E. rewrite E in FP. apply Forall_app in FP. tauto.
  - destruct (choose_chosen d pushes seen i q H C P) as (C1 & H1 & P1).
    set (q1 := choose d i q) in *.
    assert (STOP : exists pre i0 post, seen ++ i :: rest = pre ++ i0 :: post /\ Forall entry_passable pre /\
     (q_save q1 = 0 \/
      (i_addr i0 = q_addr q1 /\ q_off q1 = pushes pre /\
       q_save q1 = Z.min (Z.of_nat (List.length (dead_at d (i_addr i0)))) 2 /\ 0 < q_save q1))
     \/ q_save q1 = 0).
    { replace (seen ++ i :: rest) with ((seen ++ [i]) ++ rest) by (rewrite <- app_assoc; auto).
      apply FIN; auto. intros pre j post E.
      destruct (exists_last (l := j :: post)) as (l & x & El); [discriminate|].
      rewrite El in E. rewrite app_assoc in E. apply app_inj_tail in E. destruct E as [E _].
      rewrite E in FP. apply Forall_app in FP. tauto. }
    destruct (q_save q1 =? 2); [exact STOP|].
    assert (NEXT : forall q2, entry_passable i -> q_addr q2 = q_addr q1 -> q_save q2 = q_save q1 ->
       q_off q2 = q_off q1 -> q_h q2 = pushes (seen ++ [i]) ->
       exists pre i0 post, seen ++ i :: rest = pre ++ i0 :: post /\ Forall entry_passable pre /\
     (q_save (entry_loop d rest q2) = 0 \/
      (i_addr i0 = q_addr (entry_loop d rest q2) /\ q_off (entry_loop d rest q2) = pushes pre /\
       q_save (entry_loop d rest q2) = Z.min (Z.of_nat (List.length (dead_at d (i_addr i0)))) 2 /\
       0 < q_save (entry_loop d rest q2)))
      \/ q_save (entry_loop d rest q2) = 0).
    { intros q2 EP E1 E2 E3 E4.
      replace (seen ++ i :: rest) with ((seen ++ [i]) ++ rest) by (rewrite <- app_assoc; auto).
      apply IH; auto.
      - lia.
      - unfold chosen in C1 |- *. rewrite E1, E2, E3. exact C1.
      - apply Forall_app. split; auto. }
    destruct (isop (i_op i) OPush) eqn:EP.
    + apply NEXT; auto.
      * left. apply isop_true; auto.
      * cbn [bump q_h]. rewrite H1, H. unfold pushes. rewrite filter_app, app_length. cbn [filter].
        rewrite EP. cbn [List.length]. lia.
    + destruct (i_wmem i) eqn:EW; [exact STOP|]. destruct (moves_sp i) eqn:EM; [exact STOP|].
      apply NEXT; auto.
      * right. apply isop_false in EP. auto.
      * rewrite H1, H. unfold pushes. rewrite filter_app, app_length. cbn [filter].
        rewrite EP. cbn [List.length]. lia.
Qed.

(** The data of a moved point names an instruction of the block, whose dead set
    it quotes. *)
Lemma make_mid_good d q dead :
  names dead -> dead_at d (q_addr q) = dead ->
  q_save q = Z.min (Z.of_nat (List.length dead)) 2 -> 0 < q_save q ->
  good_mid (make_mid d q) /\ incl (mid_dead (make_mid d q)) dead.
Proof.
  intros [N1 N2] E S P. unfold make_mid. rewrite E. unfold good_mid, mid_dead.
  cbn [m_saveCount m_reg1 m_reg2].
  destruct dead as [|a [|b dead]]; cbn [List.length nth] in *.
  - lia.
  - rewrite S. cbn [Z.of_nat Pos.of_succ_nat Z.min Z.compare Pos.compare Pos.compare_cont].
    split.
    + left. split; [reflexivity|]. split; auto.
    + cbn [Z.eqb Pos.eqb]. intros x H; auto.
  - assert (q_save q = 2) by lia. rewrite H.
    split.
    + right. split; auto. split.
      * inversion N1 as [|? ? A B]; subst. constructor; [|repeat constructor; auto].
        intros [->|[]]. apply A. left; auto.
      * intros n [->|[->|[]]]; apply N2; cbn; auto.
    + cbn [Z.eqb Pos.eqb]. intros x [<-|[<-|[]]]; cbn; auto.
Qed.

Lemma entry_point_ok is m :
  NoDup (map i_addr is) -> entry_point is = Some m ->
  exists pre i post, is = pre ++ i :: post /\ i_addr i = m_addr m /\ Forall entry_passable pre /\
    m_raOffset m = pushes pre /\ good_mid m /\ incl (mid_dead m) (dead_before (i :: post)).
Proof.
  intros N E. unfold entry_point in E.
  set (q := entry_loop (live_map is) is ipt0) in *.
  destruct (0 <? q_save q) eqn:E1; [|discriminate]. cbn [andb] in E.
  destruct (0 <? q_addr q); [|discriminate]. injection E as <-.
  destruct (entry_loop_ok (live_map is) is [] ipt0) as (pre & i & post & [(A & B & C)|C]).
  - reflexivity.
  - cbn; lia.
  - left. reflexivity.
  - constructor.
  - fold q in C. destruct C as [C|(C & D & G & H)]; [lia|]. cbn [app] in A.
    rewrite (live_map_at is N pre i post A) in G.
    destruct (make_mid_good (live_map is) q (dead_before (i :: post))) as [K1 K2]; auto.
    { apply dead_before_names. }
    { rewrite <- C. apply (live_map_at is N pre i post A). }
    exists pre, i, post. repeat split; auto.
  - fold q in C. lia.
Qed.

Lemma entry_fixed_ok is m :
  NoDup (map i_addr is) -> entry_fixed is = Some m ->
  exists i post, is = i :: post /\ i_addr i = m_addr m /\ m_raOffset m = 0 /\
    good_mid m /\ incl (mid_dead m) (dead_before is).
Proof.
  intros N E. unfold entry_fixed in E. destruct is as [|i post]; [discriminate|].
  set (d := live_map (i :: post)) in *.
  pose proof (live_map_at _ N [] i post eq_refl) as L. fold d in L.
  unfold choose in E. cbn [ipt0 q_save q_h] in E.
  set (n := Z.of_nat (List.length (dead_at d (i_addr i)))) in *.
  destruct (0 <? n) eqn:E1; [|discriminate]. cbn [q_save] in E.
  destruct (0 <? Z.min n 2) eqn:E2; [|discriminate]. injection E as <-.
  destruct (make_mid_good d (mkIpt (i_addr i) (Z.min n 2) 0 0) (dead_before (i :: post))) as [K1 K2].
  - apply dead_before_names.
  - exact L.
  - cbn [q_save]. unfold n. rewrite L. reflexivity.
  - cbn [q_save]. lia.
  - exists i, post. repeat split; auto.
Qed.

(** ** Exit points *)
Definition exit_passable (i : insn) : Prop :=
  i_wmem i = false /\ (i_op i = OPop \/ (moves_sp i = false /\ flagless i)).
Definition pops (is : list insn) : Z :=
  8 * Z.of_nat (List.length (filter (fun i => isop (i_op i) OPop) is)).

Definition exit_chosen (d : list (Z * list string)) (seen : list insn) (q : ipt) : Prop :=
  q_save q = 0 \/
  exists pre i post, seen = pre ++ i :: post /\ i_addr i = q_addr q /\ q_off q = pops (i :: post) /\
    0 < q_save q /\
    q_save q = Z.min (Z.of_nat (List.length (dead_at d (i_addr i)))) 2.

Lemma exit_loop_ok d ris : forall seen q,
  Forall (fun i => i_op i <> ORet) ris ->
  q_h q = pops seen -> 0 <= q_save q -> exit_chosen d seen q -> Forall exit_passable seen ->
  exists more rest, rev ris = rest ++ more /\ Forall exit_passable (more ++ seen) /\
    exit_chosen d (more ++ seen) (exit_loop d ris q).
Proof.
  induction ris as [|i ris IH]; intros seen q NR H P C FP; cbn [exit_loop rev].
  - exists [], []. auto.
  - inversion NR as [|? ? NR1 NR2]; subst.
    replace (isop (i_op i) ORet) with false by (symmetry; apply isop_false; auto).
    assert (STOP : exists more rest, rev ris ++ [i] = rest ++ more /\ Forall exit_passable (more ++ seen) /\
                     exit_chosen d (more ++ seen) q).
    { exists [], (rev ris ++ [i]). rewrite app_nil_r. auto. }
    assert (NEXT : forall q0, exit_passable i -> q_addr q0 = q_addr q -> q_save q0 = q_save q ->
        q_off q0 = q_off q -> q_h q0 = pops (i :: seen) ->
        let q1 := choose d i q0 in
        exists more rest, rev ris ++ [i] = rest ++ more /\ Forall exit_passable (more ++ seen) /\
          exit_chosen d (more ++ seen) (if q_save q1 =? 2 then q1 else exit_loop d ris q1)).
    { intros q0 EP E1 E2 E3 E4 q1.
      assert (C1 : exit_chosen d (i :: seen) q1 /\ q_h q1 = pops (i :: seen) /\ 0 <= q_save q1).
      { unfold q1, choose. set (n := Z.of_nat _). destruct (q_save q0 <? n) eqn:E.
        - cbn [q_h q_save]. split; [|split; [auto|lia]]. right. exists [], i, seen.
          cbn [q_addr q_off q_save]. repeat split; auto. lia.
        - split; [|split; [auto|lia]]. destruct C as [C|(pre & j & post & A & B & D & G & K)].
          + left. lia.
          + right. exists (i :: pre), j, post. rewrite A, E1, E2, E3. repeat split; auto. }
      destruct C1 as (C1 & H1 & P1).
      destruct (q_save q1 =? 2).
      - exists [i], (rev ris). split; auto. split; [constructor; auto|]. exact C1.
      - destruct (IH (i :: seen) q1 NR2 H1 P1 C1) as (more & rest & A & B & D).
        { constructor; auto. }
        exists (more ++ [i]), rest. rewrite A, <- !app_assoc. auto. }
    destruct (i_wmem i) eqn:EW; [exact STOP|].
    destruct (isop (i_op i) OPop) eqn:EP.
    + apply NEXT; auto.
      * split; auto. left. apply isop_true; auto.
      * cbn [bump q_h]. rewrite H. unfold pops. cbn [filter]. rewrite EP. cbn [List.length]. lia.
    + destruct (moves_sp i) eqn:EM; [exact STOP|]. destruct (reads_flags i) eqn:ER; [exact STOP|].
      apply reads_flags_false in ER. apply NEXT; auto.
      * split; auto.
      * rewrite H. unfold pops. cbn [filter]. rewrite EP. reflexivity.
Qed.

(** Blocks: a body without return, then possibly one return. *)
Definition block_shape (is body tail : list insn) : Prop :=
  is = body ++ tail /\ Forall (fun i => i_op i <> ORet) body /\
  (tail = [] \/ exists r, tail = [r] /\ i_op r = ORet).

Lemma exit_point_ok is body tail m :
  NoDup (map i_addr is) -> block_shape is body tail -> exit_point is = Some m ->
  exists pre i post, body = pre ++ i :: post /\ i_addr i = m_addr m /\
    Forall exit_passable (i :: post) /\ m_raOffset m = pops (i :: post) /\
    good_mid m /\ incl (mid_dead m) (dead_before (i :: post ++ tail)).
Proof.
  intros N (EB & NR & ET) E. unfold exit_point in E.
  set (q := exit_loop (live_map is) (rev is) ipt0) in *.
  destruct (0 <? q_save q) eqn:E1; [|discriminate]. cbn [andb] in E.
  destruct (0 <? q_addr q); [|discriminate]. injection E as <-.
  assert (EQ : q = exit_loop (live_map is) (rev body) ipt0).
  { unfold q. destruct ET as [->|(r & -> & R)].
    - rewrite app_nil_r in EB. subst is. reflexivity.
    - rewrite EB at 2. rewrite rev_app_distr. cbn [rev app exit_loop].
      replace (isop (i_op r) ORet) with true by (symmetry; apply isop_true; auto). reflexivity. }
  destruct (exit_loop_ok (live_map is) (rev body) [] ipt0) as (more & rest & A & B & C).
  - apply Forall_rev; auto.
  - reflexivity.
  - cbn; lia.
  - left; reflexivity.
  - constructor.
  - rewrite app_nil_r in *. rewrite rev_involutive in A. rewrite <- EQ in C.
    destruct C as [C|(pre & i & post & C1 & C2 & C3 & C4 & C5)]; [lia|].
    subst more. apply Forall_app in B. destruct B as [_ B].
    assert (AI : is = (rest ++ pre) ++ i :: post ++ tail).
    { rewrite EB, A, <- !app_assoc. cbn [app]. reflexivity. }
    pose proof (live_map_at is N _ _ _ AI) as L.
    destruct (make_mid_good (live_map is) q (dead_before (i :: post ++ tail))) as [K1 K2]; auto.
    { apply dead_before_names. }
    { rewrite <- C2. exact L. }
    { rewrite C5, L. reflexivity. }
    exists (rest ++ pre), i, post. rewrite A, <- app_assoc. repeat split; auto.
Qed.

(** ** What the semantics does on the instructions stepped over *)
Section WALK.
Variables F X : Type.
Variable sem : insn -> pst F X -> option (pst F X).
Hypothesis SF : stack_facts sem.

Lemma entry_walk pre : Forall entry_passable pre -> Forall plain_stack pre ->
  forall s s', prun sem pre s = Some s' ->
    p_rg s' RSP + pushes pre = p_rg s RSP /\
    (forall a, a < p_rg s' RSP \/ p_rg s RSP <= a -> p_mem s' a = p_mem s a).
Proof.
  induction pre as [|i pre IH]; intros FP PL s s' R; cbn [prun] in R.
  - injection R as <-. unfold pushes. cbn. split; [lia|auto].
  - inversion FP as [|? ? F1 F2]; subst. inversion PL as [|? ? L1 L2]; subst.
    destruct (sem i s) as [s1|] eqn:E; [|discriminate].
    destruct (IH F2 L2 _ _ R) as [A B].
    assert (NN : 0 <= pushes pre) by (unfold pushes; lia).
    destruct F1 as [OP|(NP & WM & MS)].
    + destruct (sf_push _ _ _ SF _ _ _ OP E) as [C D].
      destruct L1 as (L1 & _). rewrite (L1 (or_introl OP)) in C, D.
      unfold pushes in *. cbn [filter]. replace (isop (i_op i) OPush) with true by (symmetry; apply isop_true; auto).
      cbn [List.length]. split; [lia|]. intros a Ha. rewrite B by lia. apply D. lia.
    + unfold pushes in *. cbn [filter]. replace (isop (i_op i) OPush) with false by (symmetry; apply isop_false; auto).
      assert (MM : forall a, p_mem s1 a = p_mem s a) by (eapply (sf_mem _ _ _ SF); eauto).
      assert (NS : forall p, ~ In (MG RSP p) (i_written i)).
      { intros p K. apply moves_sp_false in MS. apply MS. destruct L1 as (_ & _ & L1).
        rewrite <- (L1 p K). exact K. }
      pose proof (sf_sp _ _ _ SF _ _ _ NS E) as SS.
      split; [lia|]. intros a Ha. rewrite B by lia. apply MM.
Qed.

Lemma exit_walk l : Forall exit_passable l -> Forall plain_stack l ->
  forall s s', prun sem l s = Some s' ->
    p_rg s' RSP = p_rg s RSP + pops l /\ (forall a, p_mem s' a = p_mem s a).
Proof.
  induction l as [|i l IH]; intros FP PL s s' R; cbn [prun] in R.
  - injection R as <-. unfold pops. cbn. split; [lia|auto].
  - inversion FP as [|? ? F1 F2]; subst. inversion PL as [|? ? L1 L2]; subst.
    destruct (sem i s) as [s1|] eqn:E; [|discriminate].
    destruct (IH F2 L2 _ _ R) as [A B].
    destruct F1 as [WM F1].
    assert (N1 : i_op i <> OPush).
    { intros OP. destruct F1 as [K|[MS _]]; [congruence|].
      assert (NS : forall p, ~ In (MG RSP p) (i_written i)).
      { intros p K. apply moves_sp_false in MS. apply MS. destruct L1 as (_ & _ & L1).
        rewrite <- (L1 p K). exact K. }
      pose proof (sf_sp _ _ _ SF _ _ _ NS E) as SS.
      destruct (sf_push _ _ _ SF _ _ _ OP E) as [C _]. destruct L1 as (L1 & _).
      rewrite (L1 (or_introl OP)) in C. lia. }
    assert (MM : forall a, p_mem s1 a = p_mem s a) by (eapply (sf_mem _ _ _ SF); eauto).
    split; [|intros a; rewrite B; apply MM].
    destruct L1 as (L1 & LP & L3). unfold pops in *. cbn [filter].
    destruct F1 as [OP|[MS _]].
    + replace (isop (i_op i) OPop) with true by (symmetry; apply isop_true; auto).
      pose proof (sf_pop _ _ _ SF _ _ _ OP (LP OP) E) as C. rewrite (L1 (or_intror OP)) in C.
      cbn [List.length]. lia.
    + assert (NS : forall p, ~ In (MG RSP p) (i_written i)).
      { intros p K. apply moves_sp_false in MS. apply MS. rewrite <- (L3 p K). exact K. }
      pose proof (sf_sp _ _ _ SF _ _ _ NS E) as SS.
      destruct (isop (i_op i) OPop) eqn:OP; [|lia].
      apply isop_true in OP. pose proof (sf_pop _ _ _ SF _ _ _ OP (LP OP) E) as C.
      rewrite (L1 (or_intror OP)) in C. lia.
Qed.
End WALK.
