(** * Property theorems C24-C30, C48: call graph and memory passes *)
From Coq Require Import ZArith Bool String Lia Arith List.
From Verif Require Import Machine Jit Dfs Binary CallGraph InterProc MemPasses Pipeline ExCode.
Import ListNotations.
Open Scope Z_scope.


(** ** C24: unsafe behaviour propagates to all callers.  No false alarms: every
    call graph.  Soundness: every function below which there is no mutual recursion
    (see C25), and the first function of the binary on every graph. *)
Theorem C24_no_false_alarm co :
  well_formed co ->
  exists m, run_memory co = Ok m /\
    forall f, In f (co_funcs co) ->
      (forall g, call_reach co f g -> ~ unsafe_itself co g) -> classified_safe m f.
Proof.
  intros WF. destruct (run_memory_ok co WF) as (m & R & A & _). exists m. split; [exact R|].
  intros f Hf H. unfold classified_safe in *. destruct (s_writes (m f)) eqn:E; auto.
  destruct (A f Hf) as (g & G1 & G2); [congruence|]. destruct (H g G1 G2).
Qed.

Theorem C24_sound co :
  well_formed co ->
  exists m, run_memory co = Ok m /\
    forall f, In f (co_funcs co) -> no_mutual co f -> classified_safe m f ->
      forall g, call_reach co f g -> ~ unsafe_itself co g.
Proof.
  intros WF. destruct (run_memory_ok co WF) as (m & R & _ & A & _). exists m. split; [exact R|].
  intros f Hf NM S g G U. apply (A f Hf NM); eauto.
Qed.

(** Both directions together, for graphs whose only cycles are self calls. *)
Theorem C24_exact co :
  well_formed co -> (forall f, In f (co_funcs co) -> no_mutual co f) ->
  exists m, run_memory co = Ok m /\
    forall f, In f (co_funcs co) ->
      (classified_safe m f <-> forall g, call_reach co f g -> ~ unsafe_itself co g).
Proof.
  intros WF NM. destruct (run_memory_ok co WF) as (m & R & A & B & _). exists m. split; [exact R|].
  intros f Hf. split.
  - intros S g G U. apply (B f Hf (NM f Hf)); eauto.
  - intros H. unfold classified_safe in *. destruct (s_writes (m f)) eqn:E; auto.
    destruct (A f Hf) as (g & G1 & G2); [congruence|]. destruct (H g G1 G2).
Qed.

(** Example: in [co1] functions 0, 1, 2 are safe, 3 (calls 4) and 4 (writes its caller's
    frame) are not, and neither is 7 (calls an untrusted library function). *)
Example C24_example :
  well_formed co1 /\
  exists m, run_memory co1 = Ok m /\
    map (fun f => s_writes (m f)) [0;1;2;3;4;7]%nat = [false; false; false; true; true; true].
Proof.
  split; [exact co1_wf|]. destruct (run_memory_ok co1 co1_wf) as (m & R & _). exists m. split; auto.
  cut (match run_memory co1 with
       | Ok m => map (fun f => s_writes (m f)) [0;1;2;3;4;7]%nat
       | _ => [] end = [false; false; false; true; true; true]).
  { rewrite R. auto. } vm_compute. reflexivity.
Qed.
(** ... and the soundness hypothesis holds of function 3, which reaches the unsafe 4. *)
Example C24_example_hyp :
  In 3%nat (co_funcs co1) /\ call_reach co1 3 4 /\ unsafe_itself co1 4.
Proof.
  split; [cbn; tauto|]. split.
  - econstructor; [|constructor]. exists 30%nat, (call_e 4).
    repeat match goal with |- _ /\ _ => split end; cbn; auto.
    all: split; cbn; auto.
  - right. left. exists 40%nat. split; [cbn; auto|]. exists (st_insn 4100 16). split; [cbn; auto|].
    exists 16. split; [|lia]. repeat split. cbn. auto.
Qed.
Print Assumptions C24_no_false_alarm.
Print Assumptions C24_sound.
Print Assumptions C24_exact.

(** ** C25 (false of the code): soundness with mutual recursion.  In [co2], 0 and 1 call each
    other and 0 also calls 2, which writes its caller's frame.  1 is classified safe. *)
Theorem C25_mutual_recursion_refuted :
  exists co f g, well_formed co /\ In f (co_funcs co) /\ call_reach co f g /\ unsafe_itself co g /\
    exists m, run_memory co = Ok m /\ classified_safe m f.
Proof.
  exists co2, 1%nat, 2%nat.
  assert (WF : well_formed co2) by (apply xcode_noplt; apply nodup_dec; reflexivity).
  split; [exact WF|]. split; [cbn; tauto|]. split; [|split].
  - apply cr_step with 0%nat; [|apply cr_step with 2%nat; [|constructor]].
    + exists 10%nat, (call_e 0). repeat match goal with |- _ /\ _ => split end; cbn; auto.
      all: split; cbn; auto.
    + exists 1%nat, (call_e 2). repeat match goal with |- _ /\ _ => split end; cbn; auto.
      all: split; cbn; auto.
  - right. left. exists 20%nat. split; [cbn; auto|]. exists (st_insn 2100 0). split; [cbn; auto|].
    exists 0. split; [|lia]. repeat split. cbn. auto.
  - destruct (run_memory_ok co2 WF) as (m & R & _). exists m. split; auto. unfold classified_safe.
    cut (match run_memory co2 with Ok m => s_writes (m 1%nat) = false | _ => False end).
    { rewrite R. auto. } vm_compute. reflexivity.
Qed.
(** What does hold on cyclic graphs: a function's own faults are always seen, and the function
    visited first is classified right.  Missing: the other members of a cycle. *)
Theorem C25_cyclic_partial co :
  well_formed co ->
  exists m, run_memory co = Ok m /\
    (forall f, In f (co_funcs co) -> classified_safe m f -> ~ unsafe_itself co f) /\
    (forall f rest, co_funcs co = f :: rest -> classified_safe m f ->
       forall g, call_reach co f g -> ~ unsafe_itself co g).
Proof.
  intros WF. destruct (run_memory_ok co WF) as (m & R & _ & _ & A & B & _).
  exists m. split; [exact R|]. split.
  - intros f Hf S U. apply (B f Hf U S).
  - intros f rest E S g G U. apply (A f rest E); eauto.
Qed.
(** Example: 0 is on a cycle of [co2] and is the first function. *)
Example C25_example : call_reach co2 0 1 /\ call_reach co2 1 0 /\ co_funcs co2 = [0; 1; 2]%nat.
Proof.
  split; [|split; [|reflexivity]].
  - apply cr_step with 1%nat; [|constructor]. exists 0%nat, (call_e 1).
    repeat match goal with |- _ /\ _ => split end; cbn; auto. all: split; cbn; auto.
  - apply cr_step with 0%nat; [|constructor]. exists 10%nat, (call_e 0).
    repeat match goal with |- _ /\ _ => split end; cbn; auto. all: split; cbn; auto.
Qed.
Print Assumptions C25_mutual_recursion_refuted.
Print Assumptions C25_cyclic_partial.

(** ** C26 (false of the code): tail calls.
    [tail_to f g]: a jump out of f to the entry of g. *)
Definition tail_to (co : code) (f g : nat) : Prop :=
  exists b e, edge_of co f b e /\ e_inter e = true /\ e_sink e = false /\
    In (e_ty e) [DIRECT; COND_TAKEN; COND_NOT_TAKEN; INDIRECT] /\ enters co (e_trg e) g.
(** A jump out of [f] whose target is not known. *)
Definition tail_unknown (co : code) (f : nat) : Prop :=
  exists b e, edge_of co f b e /\ e_inter e = true /\ e_sink e = true /\ e_ty e = INDIRECT.
Inductive transfer_reach (co : code) : nat -> nat -> Prop :=
| tr_refl f : transfer_reach co f f
| tr_step f c g : calls co f c \/ tail_to co f c -> transfer_reach co c g -> transfer_reach co f g.

Theorem C26_tail_call_refuted :
  exists co f g, well_formed co /\ In f (co_funcs co) /\ tail_to co f g /\ unsafe_itself co g /\
    exists m, run_memory co = Ok m /\ classified_safe m f.
Proof.
  exists co3, 0%nat, 1%nat.
  assert (WF : well_formed co3) by (apply xcode_noplt; apply nodup_dec; reflexivity).
  split; [exact WF|]. split; [cbn; tauto|]. split; [|split].
  - exists 0%nat, (tail_e 1). repeat match goal with |- _ /\ _ => split end; cbn; auto.
    all: split; cbn; auto.
  - right. left. exists 10%nat. split; [cbn; auto|]. exists (st_insn 1100 8). split; [cbn; auto|].
    exists 8. split; [|lia]. repeat split. cbn. auto.
  - destruct (run_memory_ok co3 WF) as (m & R & _). exists m. split; auto. unfold classified_safe.
    cut (match run_memory co3 with Ok m => s_writes (m 0%nat) = false | _ => False end).
    { rewrite R. auto. } vm_compute. reflexivity.
Qed.
(** A function that jumps to an address unknown to the analysis is classified safe too. *)
Theorem C26_indirect_tail_refuted :
  exists co f, well_formed co /\ In f (co_funcs co) /\ tail_unknown co f /\
    exists m, run_memory co = Ok m /\ classified_safe m f.
Proof.
  exists co3, 2%nat.
  assert (WF : well_formed co3) by (apply xcode_noplt; apply nodup_dec; reflexivity).
  split; [exact WF|]. split; [cbn; tauto|]. split.
  - exists 20%nat, indtail_e. repeat match goal with |- _ /\ _ => split end; cbn; auto.
    all: split; cbn; auto.
  - destruct (run_memory_ok co3 WF) as (m & R & _). exists m. split; auto. unfold classified_safe.
    cut (match run_memory co3 with Ok m => s_writes (m 2%nat) = false | _ => False end).
    { rewrite R. auto. } vm_compute. reflexivity.
Qed.
(** Without tail calls below [f] (and without mutual recursion) the claim holds.  Missing:
    functions that end in a jump to another function. *)
Theorem C26_no_tail_calls_partial co :
  well_formed co ->
  exists m, run_memory co = Ok m /\
    forall f, In f (co_funcs co) -> no_mutual co f -> classified_safe m f ->
      (forall h k, call_reach co f h -> ~ tail_to co h k) ->
      forall g, transfer_reach co f g -> ~ unsafe_itself co g.
Proof.
  intros WF. destruct (run_memory_ok co WF) as (m & R & _ & A & _). exists m. split; [exact R|].
  intros f Hf NM S NT g G U. apply (A f Hf NM); auto. exists g. split; auto.
  clear - G NT. revert NT. induction G as [f|f c g [C|T] G IH]; intros NT.
  - constructor.
  - econstructor; eauto. apply IH. intros h k H. apply NT. econstructor; eauto.
  - exfalso. apply (NT f c); auto. constructor.
Qed.
Example C26_example : call_reach co1 0 2 /\ forall h k, ~ tail_to co1 h k.
Proof.
  split.
  - apply cr_step with 1%nat; [|apply cr_step with 2%nat; [|constructor]].
    + exists 0%nat, (call_e 1). repeat match goal with |- _ /\ _ => split end; cbn; auto.
      all: split; cbn; auto.
    + exists 10%nat, (call_e 2). repeat match goal with |- _ /\ _ => split end; cbn; auto.
      all: split; cbn; auto.
  - intros h k (b & e & [_ He] & _ & S & T & _).
    cbn [co1 xcode co_block xblock b_targets] in He. revert He T S. unfold bl1. clear.
    do 72 (destruct b as [|b]; [cbn; intuition (subst; try discriminate; cbn in *; intuition discriminate)|]).
    cbn; intuition (subst; try discriminate; cbn in *; intuition discriminate).
Qed.
Print Assumptions C26_tail_call_refuted.
Print Assumptions C26_indirect_tail_refuted.
Print Assumptions C26_no_tail_calls_partial.

(** ** C27: the call graph is complete, symmetric, and every function is processed once
    ([vis] is the list of functions in the order in which VisitFunction is entered). *)
Theorem C27_call_graph co :
  owners_known co -> one_entry co -> NoDup (co_funcs co) ->
  exists vis m, cg_run co (fun _ => summary0) = Ok (vis, m) /\
    NoDup vis /\ (forall f, In f vis <-> In f (co_funcs co)) /\
    (forall f g, In f (co_funcs co) -> (In g (s_callees (m f)) <-> calls co f g)) /\
    (forall f, In f (co_funcs co) -> (s_unknown_cf (m f) = true <-> unresolved co f)) /\
    (forall f, In f (co_funcs co) -> (s_indirect_cf (m f) = true <-> jumps_indirectly co f)) /\
    (forall f a, In f (co_funcs co) ->
       ((exists n, In (a, n) (s_plt_calls (m f))) <-> exists n, plt_call co f a n)) /\
    (forall f a n, In f (co_funcs co) -> In (a, n) (s_plt_calls (m f)) -> plt_call co f a n) /\
    (forall f g, In f (s_callers (m g)) <-> In f (co_funcs co) /\ In g (s_callees (m f))).
Proof.
  intros HO HE HN. destruct (cg_run_ok co HE (fun _ => summary0) HO HN) as
    (vis & m & R & ND & V & D & S & C1 & C2 & C3).
  { intros f. repeat split. } { auto. }
  exists vis, m. split; [exact R|]. split; [exact ND|]. split; [exact V|].
  split; [intros f g Hf; apply (D f Hf)|]. split; [intros f Hf; apply (D f Hf)|].
  split; [intros f Hf; apply (D f Hf)|]. split; [|split].
  - intros f a Hf. destruct (D f Hf) as (_ & _ & D3 & D4 & _). split; intros [n Hn]; eauto.
  - intros f a n Hf. apply (D f Hf).
  - intros f g. split.
    + intros H. pose proof (C2 _ _ H) as Hf. split; auto. apply C1; auto.
    + intros [Hf H]. apply C1; auto.
Qed.
Example C27_example :
  owners_known co1 /\ one_entry co1 /\ NoDup (co_funcs co1) /\
  exists vis m, cg_run co1 (fun _ => summary0) = Ok (vis, m) /\
    s_callees (m 0%nat) = [1]%nat /\ s_callers (m 1%nat) = [0]%nat /\
    s_plt_calls (m 0%nat) = [(204, "malloc"%string)].
Proof.
  destruct co1_wf as (A & [B B'] & _). split; [exact B|]. split; [exact B'|]. split; [exact A|].
  destruct (C27_call_graph co1 B B' A) as (vis & m & R & _). exists vis, m. split; auto.
  cut (match cg_run co1 (fun _ => summary0) with
       | Ok (_, m) => s_callees (m 0%nat) = [1]%nat /\ s_callers (m 1%nat) = [0]%nat /\
           s_plt_calls (m 0%nat) = [(204, "malloc"%string)]
       | _ => False end).
  { rewrite R. auto. } vm_compute. repeat split.
Qed.
Print Assumptions C27_call_graph.

(** ** C28: dangerous stack writes.  Offsets are relative to the value of rsp before the call
    instruction pushed the return address: the return address occupies [-8,0) and the caller's
    frame starts at 0.  A store of [w] bytes at [off] touches them iff off + w > -8. *)
Definition stores (co : code) (f : nat) (off : Z) : Prop :=
  func_has co (fun i => insn_stack_write i off) f.
Theorem C28_slot_or_above_partial co :
  well_formed co ->
  exists m, run_memory co = Ok m /\
    forall f off w, In f (co_funcs co) -> stores co f off ->
      0 < w -> off + w > -8 -> (off + 8) mod w = 0 -> ~ classified_safe m f.
Proof.
  intros WF. destruct (run_memory_ok co WF) as (m & R & _ & _ & _ & B & _). exists m.
  split; [exact R|]. intros f off w Hf (b & Hb & i & Hi & K) Hw HT HA. apply (B f Hf).
  right. left. exists b. split; auto. exists i. split; auto. exists off. split; auto.
  destruct (Z_lt_ge_dec off (-8)) as [L|L]; [|lia]. exfalso.
  apply Z.mod_divide in HA; [|lia]. destruct HA as [q HA].
  assert (q * w <= -1 * w) by (apply Z.mul_le_mono_nonneg_r; nia). lia.
Qed.
(** The full claim is false: a 16-byte store at -16 covers the return address, the function is
    classified safe. *)
Theorem C28_wide_write_refuted :
  exists co f off w, well_formed co /\ In f (co_funcs co) /\ stores co f off /\
    0 < w /\ off + w > -8 /\ exists m, run_memory co = Ok m /\ classified_safe m f.
Proof.
  exists co5, 0%nat, (-16), 16.
  assert (WF : well_formed co5) by (apply xcode_noplt; apply nodup_dec; reflexivity).
  split; [exact WF|]. split; [cbn; tauto|]. split; [|split; [lia|split; [lia|]]].
  - exists 0%nat. split; [cbn; auto|]. exists (st_insn 104 (-16)). split; [cbn; auto|].
    repeat split. cbn. auto.
  - destruct (run_memory_ok co5 WF) as (m & R & _). exists m. split; auto. unfold classified_safe.
    cut (match run_memory co5 with Ok m => s_writes (m 0%nat) = false | _ => False end).
    { rewrite R. auto. } vm_compute. reflexivity.
Qed.
Example C28_example : stores co1 4 16 /\ 16 + 8 > -8 /\ (16 + 8) mod 8 = 0.
Proof.
  split; [|split; [lia|reflexivity]]. exists 40%nat. split; [cbn; auto|].
  exists (st_insn 4100 16). split; [cbn; auto|]. repeat split. cbn. auto.
Qed.
Print Assumptions C28_slot_or_above_partial.
Print Assumptions C28_wide_write_refuted.

(** ** C29 (false of the code): exception-free marking.  In [co4], 0 and 2 call 1, which calls
    a library function.  2 is marked exception-free. *)
Definition may_throw (co : code) (f : nat) : Prop :=
  unresolved co f \/ exists a n, plt_call co f a n.
Theorem C29_exception_free_refuted :
  exists co f g, well_formed co /\ In f (co_funcs co) /\ calls co f g /\ may_throw co g /\
    exists m, run_memory co = Ok m /\ s_exc_safe (m f) = true.
Proof.
  exists co4, 2%nat, 1%nat. split; [exact co4_wf|]. split; [cbn; tauto|]. split; [|split].
  - exists 20%nat, (call_e 1). repeat match goal with |- _ /\ _ => split end; cbn; auto.
    all: split; cbn; auto.
  - right. exists 1104, "throw"%string. exists 10%nat, (call_e 3).
    repeat match goal with |- _ /\ _ => split end; cbn; auto. all: split; cbn; auto.
  - destruct (run_memory_ok co4 co4_wf) as (m & R & _). exists m. split; auto.
    cut (match run_memory co4 with Ok m => s_exc_safe (m 2%nat) = true | _ => False end).
    { rewrite R. auto. } vm_compute. reflexivity.
Qed.
(** What holds: a marked function itself makes no library call and has no unknown control
    flow, and the whole claim holds for a marked function from which only functions
    classified safe are reachable.  Missing: marked functions that reach a function classified
    unsafe. *)
Theorem C29_safe_callees_partial co :
  well_formed co ->
  exists m, run_memory co = Ok m /\
    (forall f, In f (co_funcs co) -> s_exc_safe (m f) = true -> ~ may_throw co f) /\
    (forall f, In f (co_funcs co) -> s_exc_safe (m f) = true ->
       (forall g, call_reach co f g -> classified_safe m g) ->
       forall g, call_reach co f g -> ~ may_throw co g).
Proof.
  intros WF. destruct (run_memory_ok co WF) as (m & R & _ & _ & _ & _ & _ & B). exists m.
  split; [exact R|].
  assert (O : forall f, In f (co_funcs co) -> s_exc_safe (m f) = true -> ~ may_throw co f).
  { intros f Hf E. destruct (B f Hf E) as [[B1 B2] _].
    intros [U|(a & n & P)]; [auto|apply (B2 a n P)]. }
  split; [exact O|]. intros f Hf E HS g G.
  induction G as [f|f c g C G IH]; [auto|].
  destruct (B f Hf E) as [_ B3]. apply IH.
  - eapply calls_known; eauto.
  - destruct (B3 c C) as [K|K]; auto. exfalso. apply K. apply HS. econstructor; eauto. constructor.
  - intros h H. apply HS. econstructor; eauto.
Qed.
Example C29_example : exists m, run_memory co1 = Ok m /\ s_exc_safe (m 1%nat) = true /\
  s_exc_safe (m 0%nat) = false /\ s_writes (m 1%nat) = false /\ s_writes (m 2%nat) = false.
Proof.
  destruct (run_memory_ok co1 co1_wf) as (m & R & _). exists m. split; auto.
  cut (match run_memory co1 with
       | Ok m => s_exc_safe (m 1%nat) = true /\ s_exc_safe (m 0%nat) = false /\
                 s_writes (m 1%nat) = false /\ s_writes (m 2%nat) = false
       | _ => False end).
  { rewrite R. auto. } vm_compute. auto.
Qed.
Print Assumptions C29_exception_free_refuted.
Print Assumptions C29_safe_callees_partial.

(** ** C30: unsafe call blocks.  [bad_call]: the block's call has no known target, or the target
    is not the address of a function, or is an untrusted stub, or is classified unsafe. *)
Definition bad_call (co : code) (m : sums) (b : nat) : Prop :=
  exists e, first_call (co_block co b) e /\
    (e_sink e = true \/
     ~ exists g, In g (co_funcs co) /\
         f_addr (co_fun co g) = b_start (co_block co (e_trg e)) /\
         (forall name, co_link co (b_start (co_block co (e_trg e))) = Some name ->
            trusted_lib name) /\
         classified_safe m g).
Definition own_bad_write (co : code) (f b : nat) : Prop :=
  ~ oversized co (co_fun co f) /\
  block_has co (fun i => insn_bad_stack i \/ insn_unknown_write i) b.
Theorem C30_unsafe_blocks co :
  well_formed co ->
  exists m, run_memory co = Ok m /\
    forall f b, In f (co_funcs co) ->
      (In b (s_unsafe_blocks (m f)) <->
       In b (f_blocks (co_fun co f)) /\ (own_bad_write co f b \/ bad_call co m b)).
Proof.
  intros WF. destruct (run_memory_ok co WF) as (m & R & _ & _ & _ & _ & B & _). exists m.
  split; [exact R|]. intros f b Hf. rewrite (B f b Hf). unfold own_bad_write, bad_call, block_has.
  split.
  - intros [H [[H1 [(i & I1 & I2)|(i & I1 & I2)]]|H2]]; split; auto; left; split; auto; exists i; auto.
  - intros [H [[H1 (i & I1 & [I2|I2])]|H2]]; split; auto; left; split; auto; [left|right]; exists i; auto.
Qed.
(** Example: block 30 of function 3 calls the unsafe function 4; block 0 calls the safe 1. *)
Example C30_example : exists m, run_memory co1 = Ok m /\
  s_unsafe_blocks (m 3%nat) = [30]%nat /\ s_unsafe_blocks (m 0%nat) = [] /\
  s_unsafe_blocks (m 7%nat) = [70]%nat.
Proof.
  destruct (run_memory_ok co1 co1_wf) as (m & R & _). exists m. split; auto.
  cut (match run_memory co1 with
       | Ok m => s_unsafe_blocks (m 3%nat) = [30]%nat /\ s_unsafe_blocks (m 0%nat) = [] /\
                 s_unsafe_blocks (m 7%nat) = [70]%nat
       | _ => False end).
  { rewrite R. auto. } vm_compute. auto.
Qed.
Print Assumptions C30_unsafe_blocks.

(** ** C48: a function whose last exit or return block ends more than 20000 bytes after its
    entry is never classified safe, and neither is a function that reaches it through calls
    (without mutual recursion). *)
Theorem C48_large_functions co :
  well_formed co ->
  exists m, run_memory co = Ok m /\
    (forall f, In f (co_funcs co) -> oversized co (co_fun co f) -> ~ classified_safe m f) /\
    (forall f g, In f (co_funcs co) -> no_mutual co f -> call_reach co f g ->
       oversized co (co_fun co g) -> ~ classified_safe m f).
Proof.
  intros WF. destruct (run_memory_ok co WF) as (m & R & _ & A & _ & B & _). exists m.
  split; [exact R|]. split.
  - intros f Hf O. apply (B f Hf). left. exact O.
  - intros f g Hf NM G O. apply (A f Hf NM). exists g. split; auto. left. exact O.
Qed.
Definition co_large : code :=
  mkCode [0]%nat (fun _ => mkFunc "big" 1000 0 [0; 1]%nat [1]%nat [1]%nat [])
    (fun b => match b with
              | O => mkBlock 1000 1004 1008 [mkEdge DIRECT false false 1] [] (Some (-8)) (Some (-8))
              | _ => mkBlock 21000 21004 21008 [ret_e] [] (Some (-8)) (Some (-8)) end)
    (fun _ => [0]%nat) (fun _ => None).
Example C48_example : well_formed co_large /\ oversized co_large (co_fun co_large 0).
Proof.
  split; [split; [apply nodup_dec; reflexivity|split; [split|split]]|].
  - intros b g H. exact H.
  - intros t g g' [[<-|[]] _] [[<-|[]] _]. reflexivity.
  - intros f a n n' (b & e & _ & _ & _ & _ & H). discriminate.
  - intros f _. cbn. lia.
  - exists 1%nat. cbn. split; [auto|lia].
Qed.
Print Assumptions C48_large_functions.
