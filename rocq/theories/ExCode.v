(** * ExCode: small concrete binaries used by examples and refutations *)
From Coq Require Import ZArith Bool String Lia Arith List.
From Verif Require Import Machine Jit Dfs Binary CallGraph InterProc MemPasses Pipeline.
Import ListNotations.
Open Scope Z_scope.

(** Function [n] owns the blocks 10n .. 10n+9; its entry is block 10n; block [b]
    starts at address 100 (b+1). *)
Definition ex_start (b : nat) : Z := 100 * (Z.of_nat b + 1).
Definition xblock (b : nat) (es : list edge) (is : list insn) : block :=
  mkBlock (ex_start b) (ex_start b + 4) (ex_start b + 8) es is (Some (-8)) (Some (-8)).
Definition xfunc (n : nat) (nb : nat) (ex : list nat) : func :=
  mkFunc "f" (ex_start (10 * n)) (10 * n) (seq (10 * n) nb) ex ex [].
Definition xcode (fs : list nat) (nb : nat -> nat) (bl : nat -> list edge * list insn)
    (link : Z -> option string) : code :=
  mkCode fs (fun n => xfunc n (nb n) [(10 * n + nb n - 1)%nat])
    (fun b => xblock b (fst (bl b)) (snd (bl b)))
    (fun b => if mem (Nat.div b 10) fs then [Nat.div b 10] else [])
    link.

Definition call_e (g : nat) : edge := mkEdge CALL false true (10 * g).
Definition ft_e (b : nat) : edge := mkEdge CALL_FT false false b.
Definition ret_e : edge := mkEdge RET true true 0.
Definition tail_e (g : nat) : edge := mkEdge DIRECT false true (10 * g).
Definition indtail_e : edge := mkEdge INDIRECT true true 0.
Definition indcall_e : edge := mkEdge CALL true true 0.

(** A store reported at stack offset [o]. *)
Definition st_insn (a o : Z) : insn :=
  mkInsn a OMov false true false [] [] [AStack o] [] [] [] (Some (-8)).
Definition unk_insn (a : Z) : insn :=
  mkInsn a OMov false true false [] [] [AUnknown] [] [] [] (Some (-8)).

(** *** Well-formedness of the examples *)
Lemma xcode_wf fs nb bl link :
  NoDup fs ->
  (forall f a n n', plt_call (xcode fs nb bl link) f a n ->
     plt_call (xcode fs nb bl link) f a n' -> n = n') ->
  well_formed (xcode fs nb bl link).
Proof.
  intros HN HP. split; [exact HN|]. split; [split|split; [exact HP|]].
  - intros b g. cbn [co_owners xcode co_funcs]. destruct (mem (Nat.div b 10) fs) eqn:E.
    + intros [<-|[]]. apply mem_in. exact E.
    + intros [].
  - intros t g g' [_ E] [_ E']. cbn [co_fun xcode xfunc f_entry] in E, E'. lia.
  - intros f Hf. cbn [f_addr xfunc co_fun xcode]. unfold ex_start. lia.
Qed.

(** No PLT at all. *)
Lemma xcode_noplt fs nb bl :
  NoDup fs -> well_formed (xcode fs nb bl (fun _ => None)).
Proof.
  intros HN. apply xcode_wf; auto. intros f a n n' (b & e & _ & _ & _ & _ & H). discriminate.
Qed.

(** Each block has at most one call. *)
Lemma xcode_one fs nb bl link :
  NoDup fs ->
  (forall b e e', In e (fst (bl b)) -> In e' (fst (bl b)) -> e_ty e = CALL -> e_ty e' = CALL -> e = e') ->
  well_formed (xcode fs nb bl link).
Proof.
  intros HN H1. apply xcode_wf; auto.
  intros f a n n' (b & e & [_ He] & T & _ & La & Ln) (b' & e' & [_ He'] & T' & _ & La' & Ln').
  cbn [b_last co_block xcode xblock b_targets] in La, La', He, He'.
  assert (b = b') by (unfold ex_start in *; lia). subst b'.
  assert (e = e') by eauto. subst. congruence.
Qed.

(** *** Example 1: 0 calls 1 (and malloc), 1 calls 2, 2 is harmless; 3 calls 4, 4 has an
    unsafe write. Functions 5 = malloc stub. *)
Definition link1 (a : Z) : option string :=
  if a =? ex_start 50 then Some "malloc"%string
  else if a =? ex_start 60 then Some "system"%string else None.
Definition bl1 (b : nat) : list edge * list insn :=
  match b with
  | 0%nat => ([call_e 1; ft_e 1], [st_insn 100 (-24)])
  | 1%nat => ([call_e 5; ft_e 2], [])
  | 2%nat => ([ret_e], [])
  | 10%nat => ([call_e 2; ft_e 11], [])
  | 11%nat => ([ret_e], [])
  | 20%nat => ([ret_e], [st_insn 2100 (-16)])
  | 30%nat => ([call_e 4; ft_e 31], [])
  | 31%nat => ([ret_e], [])
  | 40%nat => ([ret_e], [st_insn 4100 16])
  | 50%nat | 60%nat => ([indtail_e], [])
  | 70%nat => ([call_e 6; ft_e 71], [])
  | _ => ([ret_e], [])
  end.
Definition nb1 (f : nat) : nat :=
  match f with 0%nat => 3%nat | 1%nat => 2%nat | 3%nat => 2%nat | 7%nat => 2%nat | _ => 1%nat end.
Definition co1 : code := xcode [0;1;2;3;4;5;6;7]%nat nb1 bl1 link1.

Lemma bl1_one b e e' : In e (fst (bl1 b)) -> In e' (fst (bl1 b)) ->
  e_ty e = CALL -> e_ty e' = CALL -> e = e'.
Proof.
  intros H H' T T'. unfold bl1 in *.
  repeat match goal with
  | H : context [match b with _ => _ end] |- _ =>
      do 72 (destruct b as [|b]; cbn in *; [intuition (subst; auto; try discriminate)|])
  end; intuition (subst; auto; try discriminate).
Qed.
Lemma nodup_dec (l : list nat) :
  (fix nd l := match l with [] => true | x :: t => negb (mem x t) && nd t end) l = true -> NoDup l.
Proof.
  induction l as [|a l IH]; [constructor|]. intros H. apply andb_true_iff in H. destruct H as [A B].
  constructor; auto. apply negb_true_iff in A. apply mem_nin. auto.
Qed.
Lemma co1_wf : well_formed co1.
Proof. apply xcode_one; [apply nodup_dec; reflexivity|exact bl1_one]. Qed.

(** *** Example 2: mutual recursion. 0 -> 1, 1 -> 0, 0 -> 2, 2 writes its caller's frame. *)
Definition bl2 (b : nat) : list edge * list insn :=
  match b with
  | 0%nat => ([call_e 1; ft_e 1], [])
  | 1%nat => ([call_e 2; ft_e 2], [])
  | 10%nat => ([call_e 0; ft_e 11], [])
  | 20%nat => ([ret_e], [st_insn 2100 0])
  | _ => ([ret_e], [])
  end.
Definition nb2 (f : nat) : nat :=
  match f with 0%nat => 3%nat | 1%nat => 2%nat | _ => 1%nat end.
Definition co2 : code := xcode [0;1;2]%nat nb2 bl2 (fun _ => None).

(** *** Example 3: 0 ends in a jump to 1, which writes its caller's frame; 2 ends in an
    indirect jump out of the function. *)
Definition bl3 (b : nat) : list edge * list insn :=
  match b with
  | 0%nat => ([tail_e 1], [])
  | 10%nat => ([ret_e], [st_insn 1100 8])
  | 20%nat => ([indtail_e], [])
  | _ => ([ret_e], [])
  end.
Definition co3 : code := xcode [0;1;2]%nat (fun _ => 1%nat) bl3 (fun _ => None).

(** *** Example 4: 0 calls 1, 2 calls 1, 1 calls a library function (stub 3). *)
Definition link4 (a : Z) : option string := if a =? ex_start 30 then Some "throw"%string else None.
Definition bl4 (b : nat) : list edge * list insn :=
  match b with
  | 0%nat => ([call_e 1; ft_e 1], [])
  | 10%nat => ([call_e 3; ft_e 11], [])
  | 20%nat => ([call_e 1; ft_e 21], [])
  | 30%nat => ([indtail_e], [])
  | _ => ([ret_e], [])
  end.
Definition co4 : code := xcode [0;1;2;3]%nat (fun f => match f with 3%nat => 1%nat | _ => 2%nat end) bl4 link4.
Lemma bl4_one b e e' : In e (fst (bl4 b)) -> In e' (fst (bl4 b)) ->
  e_ty e = CALL -> e_ty e' = CALL -> e = e'.
Proof.
  intros H H' T T'. unfold bl4 in *.
  do 32 (destruct b as [|b]; cbn in *; [intuition (subst; auto; try discriminate)|]);
  intuition (subst; auto; try discriminate).
Qed.
Lemma co4_wf : well_formed co4.
Proof. apply xcode_one; [apply nodup_dec; reflexivity|exact bl4_one]. Qed.

(** *** Example 5: a 16-byte store at offset -16: its bytes are [-16,0), so it covers the
    return address slot [-8,0); the converter reports the offset -16. *)
Definition bl5 (b : nat) : list edge * list insn :=
  match b with 0%nat => ([ret_e], [st_insn 104 (-16)]) | _ => ([], []) end.
Definition co5 : code := xcode [0]%nat (fun _ => 1%nat) bl5 (fun _ => None).
