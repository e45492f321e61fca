(** * DeadRegs: which registers the snippets may overwrite under --optimize_regs
      (DeadRegisterAnalysis, /repo/src/passes.h:531-586)

    Dyninst's LivenessAnalyzer is an input: [live b after] is its answer for block [b]
    (LivenessAnalyzer::Before or After), [None] when the query fails. *)
From Coq Require Import ZArith Bool Lia ZifyBool ZifyNat Arith String List.
From Verif Require Import Machine Jit ShadowSpec Dfs Binary CallGraph Pipeline RegNames BlockLive Sites.
Import ListNotations.
Open Scope Z_scope.

Definition liveness := nat -> bool -> option (reg -> bool).
(** passes.h:555-563 *)
Definition kCaller : list reg := [RSI; RDI; RDX; RCX; R8; R9; R10; R11].

Section DEAD.
Variable live : liveness.
(** passes.h:538-570; std::set<std::string> is kept sorted. *)
Definition dead_regs (b : nat) (after : bool) : list string :=
  match live b after with
  | None => []
  | Some l => fold_left (fun d r => if l r then d else ssins (reg_name r) d) kCaller []
  end.
(** passes.h:572-585.  [assume_unsafe] does not change after this pass. *)
Definition dead_pass (co : code) (fn : nat) (s : summary) : dead_info :=
  if s_assume_unsafe s then mkDead [] []
  else mkDead (dead_regs (f_entry (co_fun co fn)) false)
         (fold_left (fun m b => zset (b_end (co_block co b)) (dead_regs b true) m) (f_exits (co_fun co fn)) []).

Lemma ssins_set x y l : In x (ssins y l) <-> x = y \/ In x l.
Proof.
  unfold ssins. destruct (smem y l) eqn:E.
  - apply smem_in in E. split; [auto|]. intros [->|H]; auto.
  - clear E. induction l as [|z l IH]; cbn; [intuition|].
    destruct (String.ltb y z); cbn; [intuition|]. rewrite IH. intuition.
Qed.
Lemma dead_fold (l : reg -> bool) (rs : list reg) (d : list string) x :
  In x (fold_left (fun d r => if l r then d else ssins (reg_name r) d) rs d) <->
  In x d \/ exists r, In r rs /\ l r = false /\ x = reg_name r.
Proof.
  revert d. induction rs as [|r rs IH]; intros d; cbn [fold_left].
  - split; [auto|]. intros [H|(r & [] & _)]; auto.
  - rewrite IH. destruct (l r) eqn:E.
    + split; (intros [H|(r' & A & B & C)]; [left; auto|right; exists r'; cbn; intuition]).
      destruct A; [congruence|auto].
    + rewrite ssins_set. split.
      * intros [[->|H]|(r' & A & B & C)]; [right; exists r; cbn; auto|auto|right; exists r'; cbn; auto].
      * intros [H|(r' & [<-|A] & B & C)]; [auto|auto|]. right; exists r'; auto.
Qed.
(** The names of the registers the analyzer calls dead. *)
Lemma dead_regs_in b af r : In (reg_name r) (dead_regs b af) <->
  In r kCaller /\ exists l, live b af = Some l /\ l r = false.
Proof.
  unfold dead_regs. destruct (live b af) as [l|].
  - rewrite dead_fold. split.
    + intros [[]|(r' & A & B & C)].
      assert (r = r') by (destruct r, r'; try reflexivity; cbn in C; discriminate). subst. eauto.
    + intros [A (l' & E & B)]. injection E as <-. right. eauto.
  - split; [intros []|intros [_ (l & E & _)]; discriminate].
Qed.
Lemma fold_zset {A} (key : nat -> Z) (val : nat -> A) bs m k v :
  zfind (fold_left (fun m b => zset (key b) (val b) m) bs m) k = Some v ->
  zfind m k = Some v \/ exists b, In b bs /\ key b = k /\ val b = v.
Proof.
  revert m. induction bs as [|b bs IH]; intros m H; cbn [fold_left] in H; [auto|].
  apply IH in H. destruct H as [H|(b' & H1 & H2)]; [|right; exists b'; cbn; auto].
  rewrite zfind_zset in H. destruct (k =? key b) eqn:E.
  - injection H as <-. right. exists b. cbn. repeat split; auto. lia.
  - auto.
Qed.
End DEAD.
