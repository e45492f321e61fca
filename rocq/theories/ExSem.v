(** * ExSem: a concrete instruction semantics consistent with decoder facts,
      used to show that the hypotheses of the block theorems can be met, and
      for the refutations. *)
From Coq Require Import ZArith Bool Lia ZifyBool Arith String List.
From Verif Require Import Machine Jit Dfs Binary ShadowSpec RegNames BlockLive.
Import ListNotations.
Open Scope Z_scope.

Notation xst := (pst Z unit).

(** Every written register receives the sum of the registers (and flags) read,
    pushes and pops move rsp by the size of their operand. *)
Definition mg_in (r : reg) (l : list mreg) : bool :=
  existsb (fun m => match m with MG r' _ => if reg_eq_dec r r' then true else false | _ => false end) l.
Definition killsb (r : reg) (l : list mreg) : bool :=
  existsb (fun m => match m with MG r' P64 | MG r' P32 => if reg_eq_dec r r' then true else false
                               | _ => false end) l.
Definition uses_flags (i : insn) : bool :=
  existsb (fun m => match m with MFlag _ => true | _ => false end) (i_read i).
Definition xval (s : xst) (i : insn) : Z :=
  fold_right (fun m a => match m with MG r _ => p_rg s r + a | _ => a end) 0 (i_read i) +
  (if uses_flags i then p_fl s else 0).
Definition stack_op (i : insn) : bool := (isop (i_op i) OPush || isop (i_op i) OPop)%bool.
Definition xrsp (s : xst) (i : insn) : Z :=
  if isop (i_op i) OPush then p_rg s RSP - word i
  else if (isop (i_op i) OPop && negb (pop_to_sp i))%bool then p_rg s RSP + word i
  else if killsb RSP (i_written i) then xval s i else p_rg s RSP.
Definition xmem (s : xst) (i : insn) : memory :=
  if isop (i_op i) OPush then
    fun a => if ((p_rg s RSP - word i <=? a) && (a <? p_rg s RSP))%bool then xval s i else p_mem s a
  else if i_wmem i then fun a => if a =? xval s i then xval s i else p_mem s a
  else p_mem s.
Definition xsem (i : insn) (s : xst) : option xst :=
  if (stack_op i && negb (mg_in RSP (i_read i) && killsb RSP (i_written i)))%bool then None
  else Some (mkPst (fun r => if reg_eq_dec r RSP then xrsp s i
                             else if killsb r (i_written i) then
                                    xval s i + (if isop (i_op i) OPop then p_mem s (p_rg s RSP) else 0)
                                  else p_rg s r)
                   (xmem s i) (p_fl s) tt).

Lemma mg_in_reads r i : mg_in r (i_read i) = true <-> reads i r.
Proof.
  unfold mg_in, reads. rewrite existsb_exists. split.
  - intros (m & A & B). destruct m as [r' p| |]; try discriminate.
    destruct (reg_eq_dec r r'); [subst; eauto|discriminate].
  - intros (p & A). exists (MG r p). split; auto. destruct (reg_eq_dec r r); congruence.
Qed.
Lemma killsb_kills r i : killsb r (i_written i) = true <-> kills i r.
Proof.
  unfold killsb, kills. rewrite existsb_exists. split.
  - intros (m & A & B). destruct m as [r' p| |]; try discriminate.
    destruct p; try discriminate; destruct (reg_eq_dec r r'); try discriminate; subst; auto.
  - intros [A|A]; [exists (MG r P64)|exists (MG r P32)]; split; auto; destruct (reg_eq_dec r r); congruence.
Qed.

Lemma xval_eq (s t : xst) i fi :
  (fi = true -> flagless i) -> (forall r, reads i r -> p_rg s r = p_rg t r) ->
  (fi = false -> p_fl s = p_fl t) -> xval s i = xval t i.
Proof.
  intros H1 H2 H3. unfold xval. f_equal.
  - assert (K : forall r p, In (MG r p) (i_read i) -> p_rg s r = p_rg t r).
    { intros r p Hr. apply H2. exists p. auto. }
    clear - K. induction (i_read i) as [|m l IH]; cbn [fold_right]; auto.
    rewrite IH by (intros; eapply K; right; eauto).
    destruct m as [r p| |]; auto. rewrite (K r p); auto. left; auto.
  - destruct (uses_flags i) eqn:E; auto. apply H3. destruct fi; auto.
    exfalso. apply existsb_exists in E. destruct E as (m & M1 & M2). destruct m; try discriminate. exact (H1 eq_refl _ M1).
Qed.

Lemma xsem_respects : respects xsem (fun _ => False).
Proof.
  intros i s t fi H1 H2 H3 H4 H5. unfold xsem.
  destruct (stack_op i && _)%bool eqn:E; auto.
  pose proof (xval_eq s t i fi H1 H2 H4) as V.
  assert (SP : stack_op i = true -> p_rg s RSP = p_rg t RSP /\ killsb RSP (i_written i) = true).
  { intros K. rewrite K in E. cbn [andb] in E. apply negb_false_iff, andb_true_iff in E.
    destruct E as [E1 E2]. split; auto. apply H2. apply mg_in_reads; auto. }
  cbn [p_rg p_mem p_fl p_rest]. split; [|split; [|split]].
  - intros r K. destruct (reg_eq_dec r RSP) as [->|NR].
    + unfold xrsp. unfold stack_op in SP.
      destruct (isop (i_op i) OPush); [destruct SP as [-> _]; auto|].
      destruct (isop (i_op i) OPop) eqn:EP; cbn [andb orb] in *.
      * destruct SP as [-> KS]; auto. rewrite KS, V. destruct (pop_to_sp i); reflexivity.
      * destruct (killsb RSP (i_written i)) eqn:KB; auto.
        destruct K as [K|K]; auto. apply killsb_kills in K. congruence.
    + destruct (killsb r (i_written i)) eqn:KB.
      * rewrite V. f_equal. destruct (isop (i_op i) OPop) eqn:EP; auto.
        unfold stack_op in SP. rewrite EP, orb_true_r in SP. destruct SP as [-> _]; auto.
      * destruct K as [K|K]; auto. apply killsb_kills in K. congruence.
  - intros a _. unfold xmem. unfold stack_op in SP.
    destruct (isop (i_op i) OPush).
    + destruct SP as [-> _]; auto. rewrite V, H3; auto.
    + destruct (i_wmem i); auto. rewrite V, H3; auto.
  - auto.
  - reflexivity.
Qed.

Lemma xsem_facts : stack_facts xsem.
Proof.
  constructor.
  - intros i s s' OP H. unfold xsem in H. destruct (_ && _)%bool; [discriminate|]. injection H as <-.
    cbn [p_rg p_mem]. destruct (reg_eq_dec RSP RSP); [|congruence]. unfold xrsp, xmem.
    apply isop_true in OP. rewrite OP. split; auto. intros a Ha.
    replace (_ && _)%bool with false by lia. reflexivity.
  - intros i s s' OP NP H. unfold xsem in H. destruct (_ && _)%bool; [discriminate|]. injection H as <-.
    cbn [p_rg]. destruct (reg_eq_dec RSP RSP); [|congruence]. unfold xrsp.
    replace (isop (i_op i) OPush) with false by (symmetry; apply isop_false; congruence).
    apply isop_true in OP. rewrite OP, NP. reflexivity.
  - intros i s s' OP WM H. unfold xsem in H. destruct (_ && _)%bool; [discriminate|]. injection H as <-.
    cbn [p_mem]. unfold xmem. apply isop_false in OP. rewrite OP, WM. auto.
  - intros i s s' NS H. unfold xsem in H.
    assert (KB : killsb RSP (i_written i) = false).
    { destruct (killsb RSP (i_written i)) eqn:E; auto. apply killsb_kills in E.
      destruct E as [E|E]; exfalso; eapply NS; eauto. }
    rewrite KB, andb_false_r in H. cbn [negb] in H. rewrite andb_true_r in H.
    destruct (stack_op i) eqn:E; [discriminate|]. injection H as <-.
    cbn [p_rg]. destruct (reg_eq_dec RSP RSP); [|congruence]. unfold xrsp.
    apply orb_false_iff in E. destruct E as [E1 E2]. rewrite E1, E2, KB. reflexivity.
Qed.

(** ** Concrete instructions *)
Definition sp64 := MG RSP P64.
Definition x_push (a : Z) (r : reg) (p : part) : insn :=
  mkInsn a OPush false true false [MG r p; sp64] [sp64] [] [] [] [EReg (MG r p)] None.
Definition x_pop (a : Z) (r : reg) (p : part) : insn :=
  mkInsn a OPop false false true [sp64] [MG r p; sp64] [] [] [] [EReg (MG r p)] None.
Definition x_op (a : Z) (rd wr : list mreg) : insn :=
  mkInsn a OOther false false false rd wr [] [] [] [] None.
(** mov dst, [base+disp] and mov [base+disp], src *)
Definition x_load (a : Z) (dst base : reg) (disp : Z) : insn :=
  mkInsn a OMov false false true [MG base P64] [MG dst P64] [] []
    [EAdd (EReg (MG base P64)) (EImm disp)] [EReg (MG dst P64)] None.
Definition x_store (a : Z) (base : reg) (disp : Z) (src : reg) : insn :=
  mkInsn a OMov false true false [MG base P64; MG src P64] [] [] []
    [EAdd (EReg (MG base P64)) (EImm disp)] [] None.
Definition x_ret (a : Z) : insn :=
  mkInsn a ORet true false true [sp64] [sp64] [] [] [] [] None.

(** Deciding [plain_stack] on concrete code. *)
Definition plainb (i : insn) : bool :=
  (negb (stack_op i) || (word i =? 8))%bool && (negb (isop (i_op i) OPop) || negb (pop_to_sp i))%bool &&
  forallb (fun m => match m with MG RSP P64 => true | MG RSP _ => false | _ => true end) (i_written i).
Lemma plainb_ok is : forallb plainb is = true -> Forall plain_stack is.
Proof.
  intros H. apply Forall_forall. intros i Hi. rewrite forallb_forall in H. specialize (H i Hi).
  unfold plainb in H. apply andb_true_iff in H. destruct H as [H H3].
  apply andb_true_iff in H. destruct H as [H1 H2]. split; [|split].
  - intros K. assert (S : stack_op i = true).
    { unfold stack_op. destruct K as [K|K]; apply isop_true in K; rewrite K; auto using orb_true_r. }
    rewrite S in H1. cbn in H1. apply Z.eqb_eq; auto.
  - intros K. apply isop_true in K. rewrite K in H2. cbn in H2. destruct (pop_to_sp i); auto.
  - intros p Hp. rewrite forallb_forall in H3. specialize (H3 _ Hp). destruct p; auto; discriminate.
Qed.

(** A semantics that never looks at memory: consistent whatever the bytes
    set aside. *)
Section RSEM.
Variables F X : Type.
Definition rval (s : pst F X) (i : insn) : Z :=
  fold_right (fun m a => match m with MG r _ => p_rg s r + a | _ => a end) 1 (i_read i).
Definition rsem (i : insn) (s : pst F X) : option (pst F X) :=
  Some (mkPst (fun r => if killsb r (i_written i) then rval s i else p_rg s r)
              (p_mem s) (p_fl s) (p_rest s)).
Lemma rsem_respects Q : respects rsem Q.
Proof.
  intros i s t fi H1 H2 H3 H4 H5. unfold rsem. cbn [p_rg p_mem p_fl p_rest].
  split; [|split; [|split]]; auto. intros r K.
  destruct (killsb r (i_written i)) eqn:E.
  - unfold rval. assert (L : forall r p, In (MG r p) (i_read i) -> p_rg s r = p_rg t r).
    { intros r' p Hr. apply H2. exists p. auto. }
    clear - L. induction (i_read i) as [|m l IH]; cbn [fold_right]; auto.
    rewrite IH by (intros; eapply L; right; eauto).
    destruct m as [r' p| |]; auto. rewrite (L r' p); auto. left; auto.
  - destruct K as [K|K]; auto. apply killsb_kills in K. congruence.
Qed.
End RSEM.
