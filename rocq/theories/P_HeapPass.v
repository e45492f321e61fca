(** * P_HeapPass: the stack height pass followed by the heap pass (property C46) *)
From Coq Require Import ZArith Bool Lia Arith String List.
From Verif Require Import Machine Jit Dfs Binary MemPasses Reach Components Pipeline P_Cfg Heap HeapFacts HeapRun ExCode P_Paths P_Heap P_HeapFlow P_HeapLoop Writes P_Writes.
Import ListNotations.
Open Scope Z_scope.

(** What a store writes to, by where the value of its base register comes from *)
Definition hits_heap (p : prov) : Prop := p = PHeap \/ untracked p.
(** An instruction whose address is not the address of another instruction of its block *)
Definition own_addr (co : code) (b n : nat) (i : insn) : Prop :=
  nth_error (b_insns (co_block co b)) n = Some i /\
  forall m j, nth_error (b_insns (co_block co b)) m = Some j -> i_addr j = i_addr i -> m = n.

(** If the heap pass takes a block off the list of unsafe blocks that the stack height pass has
    made, then each store of the block to an unknown location goes to the heap, on every path.
    Missing: stores of the block at known heights on the stack, which the heap pass does not
    look at ([C46_refuted]); the functions [C45_total_partial] leaves out. *)
Theorem C46_passes_partial co fn s0 hdst hsrc : heap_input co fn -> one_call co fn -> looped co fn hdst ->
  s_assume_unsafe s0 = false -> s_unknown_cf s0 = false -> s_unknown_writes s0 = [] ->
  let s := stack_height co fn s0 in
  exists fuel st, (forall k, heap_analysis co fn s hdst hsrc (fuel + k) = Some (HDone st)) /\
    forall b, In b (s_unsafe_blocks s) -> ~ In b (s_unsafe_blocks (fst (update_summary co s hdst st))) ->
      forall n i p, writes_in co fn b i -> In AUnknown (i_outs i) -> own_addr co b n i -> plain_write i ->
        before co fn s hdst hsrc b n p -> hits_heap (p (HR (hdst i))).
Proof.
  intros I O L A1 A2 U s. destruct (stack_height_frame co fn s0) as (_ & _ & _ & _ & _ & F1 & F2). fold s in F1, F2.
  destruct (C45_total_partial co fn s hdst hsrc I) as (fuel & st & R & K); [congruence|congruence|exact O|exact L|].
  exists fuel, st. split; [exact R|]. intros b H1 H2 n i p W AU [N UQ] PW B.
  apply (K b n i p B N UQ PW).
  pose proof (C46_removed_partial co s hdst st) as C. destruct (update_summary co s hdst st) as [s' cl]. cbn [fst] in H2.
  destruct C as (C & _). destruct (C b H1 H2) as (l & Hl & ALL).
  destruct (C61_unknown co fn s0 A1 U) as [K1 K2]. fold s in K1, K2.
  destruct (proj2 (K1 b (i_addr i))) as (l' & Hl' & Ha); [exists i; auto|].
  rewrite (K2 b l' l Hl' Hl) in Ha. auto.
Qed.
(** The store of [C45_loops_case] is on the list after the stack height pass; the heap pass takes
    it off if the loop allocates, and leaves it if the loop takes the address of a local. *)
Example C46_passes_case : forall al, heap_input (co_again al) 0 /\ one_call (co_again al) 0 /\ looped (co_again al) 0 ex_dst /\
  let s := stack_height (co_again al) 0 summary0 in
  s_unsafe_blocks s = [3]%nat /\
  s_unsafe_blocks (fst (update_summary (co_again al) s ex_dst (run_heap (co_again al) s))) = (if al then [] else [3]%nat) /\
  heap_analysis (co_again al) 0 s ex_dst ex_src 100 = Some (HDone (run_heap (co_again al) s)) /\
  writes_in (co_again al) 0 3 (sto_insn 500 RAX RCX) /\ In AUnknown (i_outs (sto_insn 500 RAX RCX)) /\
  own_addr (co_again al) 3 0 (sto_insn 500 RAX RCX) /\ plain_write (sto_insn 500 RAX RCX).
Proof.
  intros al. destruct (again_input al) as (I1 & I2 & I3). split; [exact I1|]. split; [exact I2|]. split; [exact I3|]. intros s.
  split; [destruct al; vm_compute; reflexivity|]. split; [destruct al; vm_compute; reflexivity|]. split; [destruct al; reflexivity|].
  split; [repeat split; cbn; auto|]. split; [cbn; auto|]. split; [|repeat split; discriminate].
  split; [reflexivity|]. intros [|[|m]] j H; [auto|cbn in H; injection H as <-; discriminate|destruct m; discriminate].
Qed.
Print Assumptions C46_passes_partial.
