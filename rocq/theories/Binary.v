(** * Binary: what the analyses read from Dyninst, and the function summary

    Dyninst's ParseAPI objects are inputs of the model.  Blocks, functions and
    edges are identified by numbers, which stand for the pointers the code uses
    as set and map keys; a [std::set<T*>] is iterated in increasing order of
    these numbers, so a theorem for all numberings holds for all orders. *)
From Coq Require Import ZArith List Bool String.
From Verif Require Import Machine Jit Dfs.
Import ListNotations.
Open Scope Z_scope.

(** ParseAPI::EdgeTypeEnum (the values the code mentions or can meet). *)
Inductive etype :=
| CALL | COND_TAKEN | COND_NOT_TAKEN | INDIRECT | DIRECT | FALLTHROUGH
| CATCH | CALL_FT | RET.

Definition etype_eq_dec (a b : etype) : {a = b} + {a <> b}.
Proof. decide equality. Defined.
Definition is (a b : etype) : bool := if etype_eq_dec a b then true else false.

Lemma is_true a b : is a b = true <-> a = b.
Proof. unfold is. destruct (etype_eq_dec a b); split; intros H; auto; discriminate. Qed.
Lemma is_false a b : is a b = false <-> a <> b.
Proof. unfold is. destruct (etype_eq_dec a b); split; intros H; auto; try discriminate. contradiction. Qed.

(** ParseAPI::Edge: type, sinkEdge(), interproc(), trg(). *)
Record edge := mkEdge { e_ty : etype; e_sink : bool; e_inter : bool; e_trg : nat }.

(** Registers as the decoder reports them: a general register with the part of
    it that is accessed, a flag, or anything else (with its name and size). *)
Inductive part := P64 | P32 | P16 | P8l | P8h.
Inductive mreg :=
| MG (r : reg) (p : part)
| MFlag (name : string)
| MOther (name : string).

(** Results of AssignmentConverter: the kind of an abstract location. *)
Inductive absloc := AStack (off : Z) | AUnknown | AHeap | ARegister.

(** entryID, as far as the code distinguishes operations. *)
Inductive opid := OPush | OPop | ORet | OMov | OLea | OCall | OOther.
Definition opid_eq_dec (a b : opid) : {a = b} + {a <> b}.
Proof. decide equality. Defined.
Definition isop (a b : opid) : bool := if opid_eq_dec a b then true else false.

(** Operand expressions (InstructionAPI::Expression). *)
Inductive expr :=
| EReg (r : mreg)
| EImm (z : Z)
| EAdd (a b : expr)
| EMul (a b : expr)
| EDeref (a : expr).

(** InstructionAPI::Instruction with the results of the Dyninst queries that
    the passes make about it. *)
Record insn := mkInsn {
  i_addr : Z;
  i_op : opid;
  i_frame : bool;              (* category is c_CallInsn or c_ReturnInsn *)
  i_wmem : bool;               (* writesMemory() *)
  i_rmem : bool;               (* readsMemory() *)
  i_read : list mreg;          (* getReadSet *)
  i_written : list mreg;       (* getWriteSet *)
  i_outs : list absloc;        (* AssignmentConverter: out() of each assignment *)
  i_ins : list (list absloc);  (* AssignmentConverter: inputs() of each assignment *)
  i_memops : list expr;        (* memory read and write operands *)
  i_opnds : list expr;         (* getOperand(i).getValue() *)
  i_sp : option Z }.           (* StackAnalysis::findSP(b, addr), None = top/bottom *)

Record block := mkBlock {
  b_start : Z; b_last : Z; b_end : Z;
  b_targets : list edge;
  b_insns : list insn;
  b_sp_entry : option Z;       (* findSP(b, b->start()) *)
  b_sp_end : option Z }.       (* findSP(b, b->end()) *)

Record func := mkFunc {
  f_name : string; f_addr : Z; f_entry : nat;
  f_blocks : list nat; f_exits : list nat; f_rets : list nat;
  f_loops : list (list nat) }. (* blocks of the outer loops *)

(** ParseAPI::CodeObject. [co_owners b]: Block::getFuncs.  [co_link]: the
    linkage map from PLT stub addresses to symbol names. *)
Record code := mkCode {
  co_funcs : list nat;
  co_fun : nat -> func;
  co_block : nat -> block;
  co_owners : nat -> list nat;
  co_link : Z -> option string }.

(** ** Function summaries (pass_manager.h:146-250) *)
Record summary := mkSummary {
  s_assume_unsafe : bool;
  s_self_unsafe : bool;
  s_child_writes : bool;
  s_writes : bool;
  s_unsafe_blocks : list nat;
  s_plt_calls : list (Z * string);
  s_unknown_cf : bool;
  s_indirect_cf : bool;
  s_moveDownSP : bool;
  s_redZone : list Z;
  s_callees : list nat;
  s_callers : list nat;
  s_dead_entry : list string;
  s_dead_exit : list (Z * list string);
  s_unused : list string;
  s_entryData : list (Z * mid);
  s_exitData : list (Z * mid);
  s_entryFixed : list (Z * mid);
  s_endHeight : list (Z * Z);
  s_entryHeight : list (Z * Z);
  s_unknown_writes : list (nat * list Z);
  s_stack_writes : list (Z * Z);
  s_stack_heights : list (Z * (Z * Z));
  s_safe_paths : Z;
  s_exc_safe : bool }.

(** [new FuncSummary()] value-initialises all members (pass_manager.h:387-394). *)
Definition summary0 : summary := {|
  s_assume_unsafe := false;
  s_self_unsafe := false;
  s_child_writes := false;
  s_writes := false;
  s_unsafe_blocks := [];
  s_plt_calls := [];
  s_unknown_cf := false;
  s_indirect_cf := false;
  s_moveDownSP := false;
  s_redZone := [];
  s_callees := [];
  s_callers := [];
  s_dead_entry := [];
  s_dead_exit := [];
  s_unused := [];
  s_entryData := [];
  s_exitData := [];
  s_entryFixed := [];
  s_endHeight := [];
  s_entryHeight := [];
  s_unknown_writes := [];
  s_stack_writes := [];
  s_stack_heights := [];
  s_safe_paths := 0;
  s_exc_safe := false |}.

Definition set_assume_unsafe (s : summary) (v : bool) : summary := {|
s_assume_unsafe := v; s_self_unsafe := s_self_unsafe s; s_child_writes := s_child_writes s; s_writes := s_writes s; s_unsafe_blocks := s_unsafe_blocks s; s_plt_calls := s_plt_calls s; s_unknown_cf := s_unknown_cf s; s_indirect_cf := s_indirect_cf s; s_moveDownSP := s_moveDownSP s; s_redZone := s_redZone s; s_callees := s_callees s; s_callers := s_callers s; s_dead_entry := s_dead_entry s; s_dead_exit := s_dead_exit s; s_unused := s_unused s; s_entryData := s_entryData s; s_exitData := s_exitData s; s_entryFixed := s_entryFixed s; s_endHeight := s_endHeight s; s_entryHeight := s_entryHeight s; s_unknown_writes := s_unknown_writes s; s_stack_writes := s_stack_writes s; s_stack_heights := s_stack_heights s; s_safe_paths := s_safe_paths s; s_exc_safe := s_exc_safe s |}.
Definition set_self_unsafe (s : summary) (v : bool) : summary := {|
s_assume_unsafe := s_assume_unsafe s; s_self_unsafe := v; s_child_writes := s_child_writes s; s_writes := s_writes s; s_unsafe_blocks := s_unsafe_blocks s; s_plt_calls := s_plt_calls s; s_unknown_cf := s_unknown_cf s; s_indirect_cf := s_indirect_cf s; s_moveDownSP := s_moveDownSP s; s_redZone := s_redZone s; s_callees := s_callees s; s_callers := s_callers s; s_dead_entry := s_dead_entry s; s_dead_exit := s_dead_exit s; s_unused := s_unused s; s_entryData := s_entryData s; s_exitData := s_exitData s; s_entryFixed := s_entryFixed s; s_endHeight := s_endHeight s; s_entryHeight := s_entryHeight s; s_unknown_writes := s_unknown_writes s; s_stack_writes := s_stack_writes s; s_stack_heights := s_stack_heights s; s_safe_paths := s_safe_paths s; s_exc_safe := s_exc_safe s |}.
Definition set_child_writes (s : summary) (v : bool) : summary := {|
s_assume_unsafe := s_assume_unsafe s; s_self_unsafe := s_self_unsafe s; s_child_writes := v; s_writes := s_writes s; s_unsafe_blocks := s_unsafe_blocks s; s_plt_calls := s_plt_calls s; s_unknown_cf := s_unknown_cf s; s_indirect_cf := s_indirect_cf s; s_moveDownSP := s_moveDownSP s; s_redZone := s_redZone s; s_callees := s_callees s; s_callers := s_callers s; s_dead_entry := s_dead_entry s; s_dead_exit := s_dead_exit s; s_unused := s_unused s; s_entryData := s_entryData s; s_exitData := s_exitData s; s_entryFixed := s_entryFixed s; s_endHeight := s_endHeight s; s_entryHeight := s_entryHeight s; s_unknown_writes := s_unknown_writes s; s_stack_writes := s_stack_writes s; s_stack_heights := s_stack_heights s; s_safe_paths := s_safe_paths s; s_exc_safe := s_exc_safe s |}.
Definition set_writes (s : summary) (v : bool) : summary := {|
s_assume_unsafe := s_assume_unsafe s; s_self_unsafe := s_self_unsafe s; s_child_writes := s_child_writes s; s_writes := v; s_unsafe_blocks := s_unsafe_blocks s; s_plt_calls := s_plt_calls s; s_unknown_cf := s_unknown_cf s; s_indirect_cf := s_indirect_cf s; s_moveDownSP := s_moveDownSP s; s_redZone := s_redZone s; s_callees := s_callees s; s_callers := s_callers s; s_dead_entry := s_dead_entry s; s_dead_exit := s_dead_exit s; s_unused := s_unused s; s_entryData := s_entryData s; s_exitData := s_exitData s; s_entryFixed := s_entryFixed s; s_endHeight := s_endHeight s; s_entryHeight := s_entryHeight s; s_unknown_writes := s_unknown_writes s; s_stack_writes := s_stack_writes s; s_stack_heights := s_stack_heights s; s_safe_paths := s_safe_paths s; s_exc_safe := s_exc_safe s |}.
Definition set_unsafe_blocks (s : summary) (v : list nat) : summary := {|
s_assume_unsafe := s_assume_unsafe s; s_self_unsafe := s_self_unsafe s; s_child_writes := s_child_writes s; s_writes := s_writes s; s_unsafe_blocks := v; s_plt_calls := s_plt_calls s; s_unknown_cf := s_unknown_cf s; s_indirect_cf := s_indirect_cf s; s_moveDownSP := s_moveDownSP s; s_redZone := s_redZone s; s_callees := s_callees s; s_callers := s_callers s; s_dead_entry := s_dead_entry s; s_dead_exit := s_dead_exit s; s_unused := s_unused s; s_entryData := s_entryData s; s_exitData := s_exitData s; s_entryFixed := s_entryFixed s; s_endHeight := s_endHeight s; s_entryHeight := s_entryHeight s; s_unknown_writes := s_unknown_writes s; s_stack_writes := s_stack_writes s; s_stack_heights := s_stack_heights s; s_safe_paths := s_safe_paths s; s_exc_safe := s_exc_safe s |}.
Definition set_plt_calls (s : summary) (v : list (Z * string)) : summary := {|
s_assume_unsafe := s_assume_unsafe s; s_self_unsafe := s_self_unsafe s; s_child_writes := s_child_writes s; s_writes := s_writes s; s_unsafe_blocks := s_unsafe_blocks s; s_plt_calls := v; s_unknown_cf := s_unknown_cf s; s_indirect_cf := s_indirect_cf s; s_moveDownSP := s_moveDownSP s; s_redZone := s_redZone s; s_callees := s_callees s; s_callers := s_callers s; s_dead_entry := s_dead_entry s; s_dead_exit := s_dead_exit s; s_unused := s_unused s; s_entryData := s_entryData s; s_exitData := s_exitData s; s_entryFixed := s_entryFixed s; s_endHeight := s_endHeight s; s_entryHeight := s_entryHeight s; s_unknown_writes := s_unknown_writes s; s_stack_writes := s_stack_writes s; s_stack_heights := s_stack_heights s; s_safe_paths := s_safe_paths s; s_exc_safe := s_exc_safe s |}.
Definition set_unknown_cf (s : summary) (v : bool) : summary := {|
s_assume_unsafe := s_assume_unsafe s; s_self_unsafe := s_self_unsafe s; s_child_writes := s_child_writes s; s_writes := s_writes s; s_unsafe_blocks := s_unsafe_blocks s; s_plt_calls := s_plt_calls s; s_unknown_cf := v; s_indirect_cf := s_indirect_cf s; s_moveDownSP := s_moveDownSP s; s_redZone := s_redZone s; s_callees := s_callees s; s_callers := s_callers s; s_dead_entry := s_dead_entry s; s_dead_exit := s_dead_exit s; s_unused := s_unused s; s_entryData := s_entryData s; s_exitData := s_exitData s; s_entryFixed := s_entryFixed s; s_endHeight := s_endHeight s; s_entryHeight := s_entryHeight s; s_unknown_writes := s_unknown_writes s; s_stack_writes := s_stack_writes s; s_stack_heights := s_stack_heights s; s_safe_paths := s_safe_paths s; s_exc_safe := s_exc_safe s |}.
Definition set_indirect_cf (s : summary) (v : bool) : summary := {|
s_assume_unsafe := s_assume_unsafe s; s_self_unsafe := s_self_unsafe s; s_child_writes := s_child_writes s; s_writes := s_writes s; s_unsafe_blocks := s_unsafe_blocks s; s_plt_calls := s_plt_calls s; s_unknown_cf := s_unknown_cf s; s_indirect_cf := v; s_moveDownSP := s_moveDownSP s; s_redZone := s_redZone s; s_callees := s_callees s; s_callers := s_callers s; s_dead_entry := s_dead_entry s; s_dead_exit := s_dead_exit s; s_unused := s_unused s; s_entryData := s_entryData s; s_exitData := s_exitData s; s_entryFixed := s_entryFixed s; s_endHeight := s_endHeight s; s_entryHeight := s_entryHeight s; s_unknown_writes := s_unknown_writes s; s_stack_writes := s_stack_writes s; s_stack_heights := s_stack_heights s; s_safe_paths := s_safe_paths s; s_exc_safe := s_exc_safe s |}.
Definition set_moveDownSP (s : summary) (v : bool) : summary := {|
s_assume_unsafe := s_assume_unsafe s; s_self_unsafe := s_self_unsafe s; s_child_writes := s_child_writes s; s_writes := s_writes s; s_unsafe_blocks := s_unsafe_blocks s; s_plt_calls := s_plt_calls s; s_unknown_cf := s_unknown_cf s; s_indirect_cf := s_indirect_cf s; s_moveDownSP := v; s_redZone := s_redZone s; s_callees := s_callees s; s_callers := s_callers s; s_dead_entry := s_dead_entry s; s_dead_exit := s_dead_exit s; s_unused := s_unused s; s_entryData := s_entryData s; s_exitData := s_exitData s; s_entryFixed := s_entryFixed s; s_endHeight := s_endHeight s; s_entryHeight := s_entryHeight s; s_unknown_writes := s_unknown_writes s; s_stack_writes := s_stack_writes s; s_stack_heights := s_stack_heights s; s_safe_paths := s_safe_paths s; s_exc_safe := s_exc_safe s |}.
Definition set_redZone (s : summary) (v : list Z) : summary := {|
s_assume_unsafe := s_assume_unsafe s; s_self_unsafe := s_self_unsafe s; s_child_writes := s_child_writes s; s_writes := s_writes s; s_unsafe_blocks := s_unsafe_blocks s; s_plt_calls := s_plt_calls s; s_unknown_cf := s_unknown_cf s; s_indirect_cf := s_indirect_cf s; s_moveDownSP := s_moveDownSP s; s_redZone := v; s_callees := s_callees s; s_callers := s_callers s; s_dead_entry := s_dead_entry s; s_dead_exit := s_dead_exit s; s_unused := s_unused s; s_entryData := s_entryData s; s_exitData := s_exitData s; s_entryFixed := s_entryFixed s; s_endHeight := s_endHeight s; s_entryHeight := s_entryHeight s; s_unknown_writes := s_unknown_writes s; s_stack_writes := s_stack_writes s; s_stack_heights := s_stack_heights s; s_safe_paths := s_safe_paths s; s_exc_safe := s_exc_safe s |}.
Definition set_callees (s : summary) (v : list nat) : summary := {|
s_assume_unsafe := s_assume_unsafe s; s_self_unsafe := s_self_unsafe s; s_child_writes := s_child_writes s; s_writes := s_writes s; s_unsafe_blocks := s_unsafe_blocks s; s_plt_calls := s_plt_calls s; s_unknown_cf := s_unknown_cf s; s_indirect_cf := s_indirect_cf s; s_moveDownSP := s_moveDownSP s; s_redZone := s_redZone s; s_callees := v; s_callers := s_callers s; s_dead_entry := s_dead_entry s; s_dead_exit := s_dead_exit s; s_unused := s_unused s; s_entryData := s_entryData s; s_exitData := s_exitData s; s_entryFixed := s_entryFixed s; s_endHeight := s_endHeight s; s_entryHeight := s_entryHeight s; s_unknown_writes := s_unknown_writes s; s_stack_writes := s_stack_writes s; s_stack_heights := s_stack_heights s; s_safe_paths := s_safe_paths s; s_exc_safe := s_exc_safe s |}.
Definition set_callers (s : summary) (v : list nat) : summary := {|
s_assume_unsafe := s_assume_unsafe s; s_self_unsafe := s_self_unsafe s; s_child_writes := s_child_writes s; s_writes := s_writes s; s_unsafe_blocks := s_unsafe_blocks s; s_plt_calls := s_plt_calls s; s_unknown_cf := s_unknown_cf s; s_indirect_cf := s_indirect_cf s; s_moveDownSP := s_moveDownSP s; s_redZone := s_redZone s; s_callees := s_callees s; s_callers := v; s_dead_entry := s_dead_entry s; s_dead_exit := s_dead_exit s; s_unused := s_unused s; s_entryData := s_entryData s; s_exitData := s_exitData s; s_entryFixed := s_entryFixed s; s_endHeight := s_endHeight s; s_entryHeight := s_entryHeight s; s_unknown_writes := s_unknown_writes s; s_stack_writes := s_stack_writes s; s_stack_heights := s_stack_heights s; s_safe_paths := s_safe_paths s; s_exc_safe := s_exc_safe s |}.
Definition set_dead_entry (s : summary) (v : list string) : summary := {|
s_assume_unsafe := s_assume_unsafe s; s_self_unsafe := s_self_unsafe s; s_child_writes := s_child_writes s; s_writes := s_writes s; s_unsafe_blocks := s_unsafe_blocks s; s_plt_calls := s_plt_calls s; s_unknown_cf := s_unknown_cf s; s_indirect_cf := s_indirect_cf s; s_moveDownSP := s_moveDownSP s; s_redZone := s_redZone s; s_callees := s_callees s; s_callers := s_callers s; s_dead_entry := v; s_dead_exit := s_dead_exit s; s_unused := s_unused s; s_entryData := s_entryData s; s_exitData := s_exitData s; s_entryFixed := s_entryFixed s; s_endHeight := s_endHeight s; s_entryHeight := s_entryHeight s; s_unknown_writes := s_unknown_writes s; s_stack_writes := s_stack_writes s; s_stack_heights := s_stack_heights s; s_safe_paths := s_safe_paths s; s_exc_safe := s_exc_safe s |}.
Definition set_dead_exit (s : summary) (v : list (Z * list string)) : summary := {|
s_assume_unsafe := s_assume_unsafe s; s_self_unsafe := s_self_unsafe s; s_child_writes := s_child_writes s; s_writes := s_writes s; s_unsafe_blocks := s_unsafe_blocks s; s_plt_calls := s_plt_calls s; s_unknown_cf := s_unknown_cf s; s_indirect_cf := s_indirect_cf s; s_moveDownSP := s_moveDownSP s; s_redZone := s_redZone s; s_callees := s_callees s; s_callers := s_callers s; s_dead_entry := s_dead_entry s; s_dead_exit := v; s_unused := s_unused s; s_entryData := s_entryData s; s_exitData := s_exitData s; s_entryFixed := s_entryFixed s; s_endHeight := s_endHeight s; s_entryHeight := s_entryHeight s; s_unknown_writes := s_unknown_writes s; s_stack_writes := s_stack_writes s; s_stack_heights := s_stack_heights s; s_safe_paths := s_safe_paths s; s_exc_safe := s_exc_safe s |}.
Definition set_unused (s : summary) (v : list string) : summary := {|
s_assume_unsafe := s_assume_unsafe s; s_self_unsafe := s_self_unsafe s; s_child_writes := s_child_writes s; s_writes := s_writes s; s_unsafe_blocks := s_unsafe_blocks s; s_plt_calls := s_plt_calls s; s_unknown_cf := s_unknown_cf s; s_indirect_cf := s_indirect_cf s; s_moveDownSP := s_moveDownSP s; s_redZone := s_redZone s; s_callees := s_callees s; s_callers := s_callers s; s_dead_entry := s_dead_entry s; s_dead_exit := s_dead_exit s; s_unused := v; s_entryData := s_entryData s; s_exitData := s_exitData s; s_entryFixed := s_entryFixed s; s_endHeight := s_endHeight s; s_entryHeight := s_entryHeight s; s_unknown_writes := s_unknown_writes s; s_stack_writes := s_stack_writes s; s_stack_heights := s_stack_heights s; s_safe_paths := s_safe_paths s; s_exc_safe := s_exc_safe s |}.
Definition set_entryData (s : summary) (v : list (Z * mid)) : summary := {|
s_assume_unsafe := s_assume_unsafe s; s_self_unsafe := s_self_unsafe s; s_child_writes := s_child_writes s; s_writes := s_writes s; s_unsafe_blocks := s_unsafe_blocks s; s_plt_calls := s_plt_calls s; s_unknown_cf := s_unknown_cf s; s_indirect_cf := s_indirect_cf s; s_moveDownSP := s_moveDownSP s; s_redZone := s_redZone s; s_callees := s_callees s; s_callers := s_callers s; s_dead_entry := s_dead_entry s; s_dead_exit := s_dead_exit s; s_unused := s_unused s; s_entryData := v; s_exitData := s_exitData s; s_entryFixed := s_entryFixed s; s_endHeight := s_endHeight s; s_entryHeight := s_entryHeight s; s_unknown_writes := s_unknown_writes s; s_stack_writes := s_stack_writes s; s_stack_heights := s_stack_heights s; s_safe_paths := s_safe_paths s; s_exc_safe := s_exc_safe s |}.
Definition set_exitData (s : summary) (v : list (Z * mid)) : summary := {|
s_assume_unsafe := s_assume_unsafe s; s_self_unsafe := s_self_unsafe s; s_child_writes := s_child_writes s; s_writes := s_writes s; s_unsafe_blocks := s_unsafe_blocks s; s_plt_calls := s_plt_calls s; s_unknown_cf := s_unknown_cf s; s_indirect_cf := s_indirect_cf s; s_moveDownSP := s_moveDownSP s; s_redZone := s_redZone s; s_callees := s_callees s; s_callers := s_callers s; s_dead_entry := s_dead_entry s; s_dead_exit := s_dead_exit s; s_unused := s_unused s; s_entryData := s_entryData s; s_exitData := v; s_entryFixed := s_entryFixed s; s_endHeight := s_endHeight s; s_entryHeight := s_entryHeight s; s_unknown_writes := s_unknown_writes s; s_stack_writes := s_stack_writes s; s_stack_heights := s_stack_heights s; s_safe_paths := s_safe_paths s; s_exc_safe := s_exc_safe s |}.
Definition set_entryFixed (s : summary) (v : list (Z * mid)) : summary := {|
s_assume_unsafe := s_assume_unsafe s; s_self_unsafe := s_self_unsafe s; s_child_writes := s_child_writes s; s_writes := s_writes s; s_unsafe_blocks := s_unsafe_blocks s; s_plt_calls := s_plt_calls s; s_unknown_cf := s_unknown_cf s; s_indirect_cf := s_indirect_cf s; s_moveDownSP := s_moveDownSP s; s_redZone := s_redZone s; s_callees := s_callees s; s_callers := s_callers s; s_dead_entry := s_dead_entry s; s_dead_exit := s_dead_exit s; s_unused := s_unused s; s_entryData := s_entryData s; s_exitData := s_exitData s; s_entryFixed := v; s_endHeight := s_endHeight s; s_entryHeight := s_entryHeight s; s_unknown_writes := s_unknown_writes s; s_stack_writes := s_stack_writes s; s_stack_heights := s_stack_heights s; s_safe_paths := s_safe_paths s; s_exc_safe := s_exc_safe s |}.
Definition set_endHeight (s : summary) (v : list (Z * Z)) : summary := {|
s_assume_unsafe := s_assume_unsafe s; s_self_unsafe := s_self_unsafe s; s_child_writes := s_child_writes s; s_writes := s_writes s; s_unsafe_blocks := s_unsafe_blocks s; s_plt_calls := s_plt_calls s; s_unknown_cf := s_unknown_cf s; s_indirect_cf := s_indirect_cf s; s_moveDownSP := s_moveDownSP s; s_redZone := s_redZone s; s_callees := s_callees s; s_callers := s_callers s; s_dead_entry := s_dead_entry s; s_dead_exit := s_dead_exit s; s_unused := s_unused s; s_entryData := s_entryData s; s_exitData := s_exitData s; s_entryFixed := s_entryFixed s; s_endHeight := v; s_entryHeight := s_entryHeight s; s_unknown_writes := s_unknown_writes s; s_stack_writes := s_stack_writes s; s_stack_heights := s_stack_heights s; s_safe_paths := s_safe_paths s; s_exc_safe := s_exc_safe s |}.
Definition set_entryHeight (s : summary) (v : list (Z * Z)) : summary := {|
s_assume_unsafe := s_assume_unsafe s; s_self_unsafe := s_self_unsafe s; s_child_writes := s_child_writes s; s_writes := s_writes s; s_unsafe_blocks := s_unsafe_blocks s; s_plt_calls := s_plt_calls s; s_unknown_cf := s_unknown_cf s; s_indirect_cf := s_indirect_cf s; s_moveDownSP := s_moveDownSP s; s_redZone := s_redZone s; s_callees := s_callees s; s_callers := s_callers s; s_dead_entry := s_dead_entry s; s_dead_exit := s_dead_exit s; s_unused := s_unused s; s_entryData := s_entryData s; s_exitData := s_exitData s; s_entryFixed := s_entryFixed s; s_endHeight := s_endHeight s; s_entryHeight := v; s_unknown_writes := s_unknown_writes s; s_stack_writes := s_stack_writes s; s_stack_heights := s_stack_heights s; s_safe_paths := s_safe_paths s; s_exc_safe := s_exc_safe s |}.
Definition set_unknown_writes (s : summary) (v : list (nat * list Z)) : summary := {|
s_assume_unsafe := s_assume_unsafe s; s_self_unsafe := s_self_unsafe s; s_child_writes := s_child_writes s; s_writes := s_writes s; s_unsafe_blocks := s_unsafe_blocks s; s_plt_calls := s_plt_calls s; s_unknown_cf := s_unknown_cf s; s_indirect_cf := s_indirect_cf s; s_moveDownSP := s_moveDownSP s; s_redZone := s_redZone s; s_callees := s_callees s; s_callers := s_callers s; s_dead_entry := s_dead_entry s; s_dead_exit := s_dead_exit s; s_unused := s_unused s; s_entryData := s_entryData s; s_exitData := s_exitData s; s_entryFixed := s_entryFixed s; s_endHeight := s_endHeight s; s_entryHeight := s_entryHeight s; s_unknown_writes := v; s_stack_writes := s_stack_writes s; s_stack_heights := s_stack_heights s; s_safe_paths := s_safe_paths s; s_exc_safe := s_exc_safe s |}.
Definition set_stack_writes (s : summary) (v : list (Z * Z)) : summary := {|
s_assume_unsafe := s_assume_unsafe s; s_self_unsafe := s_self_unsafe s; s_child_writes := s_child_writes s; s_writes := s_writes s; s_unsafe_blocks := s_unsafe_blocks s; s_plt_calls := s_plt_calls s; s_unknown_cf := s_unknown_cf s; s_indirect_cf := s_indirect_cf s; s_moveDownSP := s_moveDownSP s; s_redZone := s_redZone s; s_callees := s_callees s; s_callers := s_callers s; s_dead_entry := s_dead_entry s; s_dead_exit := s_dead_exit s; s_unused := s_unused s; s_entryData := s_entryData s; s_exitData := s_exitData s; s_entryFixed := s_entryFixed s; s_endHeight := s_endHeight s; s_entryHeight := s_entryHeight s; s_unknown_writes := s_unknown_writes s; s_stack_writes := v; s_stack_heights := s_stack_heights s; s_safe_paths := s_safe_paths s; s_exc_safe := s_exc_safe s |}.
Definition set_stack_heights (s : summary) (v : list (Z * (Z * Z))) : summary := {|
s_assume_unsafe := s_assume_unsafe s; s_self_unsafe := s_self_unsafe s; s_child_writes := s_child_writes s; s_writes := s_writes s; s_unsafe_blocks := s_unsafe_blocks s; s_plt_calls := s_plt_calls s; s_unknown_cf := s_unknown_cf s; s_indirect_cf := s_indirect_cf s; s_moveDownSP := s_moveDownSP s; s_redZone := s_redZone s; s_callees := s_callees s; s_callers := s_callers s; s_dead_entry := s_dead_entry s; s_dead_exit := s_dead_exit s; s_unused := s_unused s; s_entryData := s_entryData s; s_exitData := s_exitData s; s_entryFixed := s_entryFixed s; s_endHeight := s_endHeight s; s_entryHeight := s_entryHeight s; s_unknown_writes := s_unknown_writes s; s_stack_writes := s_stack_writes s; s_stack_heights := v; s_safe_paths := s_safe_paths s; s_exc_safe := s_exc_safe s |}.
Definition set_safe_paths (s : summary) (v : Z) : summary := {|
s_assume_unsafe := s_assume_unsafe s; s_self_unsafe := s_self_unsafe s; s_child_writes := s_child_writes s; s_writes := s_writes s; s_unsafe_blocks := s_unsafe_blocks s; s_plt_calls := s_plt_calls s; s_unknown_cf := s_unknown_cf s; s_indirect_cf := s_indirect_cf s; s_moveDownSP := s_moveDownSP s; s_redZone := s_redZone s; s_callees := s_callees s; s_callers := s_callers s; s_dead_entry := s_dead_entry s; s_dead_exit := s_dead_exit s; s_unused := s_unused s; s_entryData := s_entryData s; s_exitData := s_exitData s; s_entryFixed := s_entryFixed s; s_endHeight := s_endHeight s; s_entryHeight := s_entryHeight s; s_unknown_writes := s_unknown_writes s; s_stack_writes := s_stack_writes s; s_stack_heights := s_stack_heights s; s_safe_paths := v; s_exc_safe := s_exc_safe s |}.
Definition set_exc_safe (s : summary) (v : bool) : summary := {|
s_assume_unsafe := s_assume_unsafe s; s_self_unsafe := s_self_unsafe s; s_child_writes := s_child_writes s; s_writes := s_writes s; s_unsafe_blocks := s_unsafe_blocks s; s_plt_calls := s_plt_calls s; s_unknown_cf := s_unknown_cf s; s_indirect_cf := s_indirect_cf s; s_moveDownSP := s_moveDownSP s; s_redZone := s_redZone s; s_callees := s_callees s; s_callers := s_callers s; s_dead_entry := s_dead_entry s; s_dead_exit := s_dead_exit s; s_unused := s_unused s; s_entryData := s_entryData s; s_exitData := s_exitData s; s_entryFixed := s_entryFixed s; s_endHeight := s_endHeight s; s_entryHeight := s_entryHeight s; s_unknown_writes := s_unknown_writes s; s_stack_writes := s_stack_writes s; s_stack_heights := s_stack_heights s; s_safe_paths := s_safe_paths s; s_exc_safe := v |}.

(** std::map as association list: [zset] is [m[k] = v]. *)
Fixpoint zset {A} (k : Z) (v : A) (l : list (Z * A)) : list (Z * A) :=
  match l with
  | [] => [(k, v)]
  | (k', v') :: t =>
      if k <? k' then (k, v) :: l else if k =? k' then (k, v) :: t else (k', v') :: zset k v t
  end.

(** The map from functions to summaries; [upd] replaces one summary. *)
Definition sums := nat -> summary.
Definition upd (m : sums) (f : nat) (s : summary) : sums :=
  fun g => if Nat.eqb g f then s else m g.

(** FuncSummary::IsSafePLTCall, pass_manager.h:300-309. *)
Definition is_safe_plt (name : string) : bool :=
  (name =? "malloc")%string || String.prefix "_Zna" name ||
  (name =? "strlen")%string || (name =? "strcmp")%string.
(** Specification: the library functions whose calls count as harmless. *)
Definition trusted_lib (name : string) : Prop :=
  In name ["malloc"; "strlen"; "strcmp"]%string \/ exists rest, name = ("_Zna" ++ rest)%string.
Lemma is_safe_plt_iff name : is_safe_plt name = true <-> trusted_lib name.
Proof.
  unfold is_safe_plt, trusted_lib. rewrite !orb_true_iff, !String.eqb_eq.
  assert (P : String.prefix "_Zna" name = true <-> exists rest, name = ("_Zna" ++ rest)%string).
  { split.
    - intros H. destruct name as [|a [|b [|c [|d r]]]]; try (cbn in H; discriminate);
        cbn [String.prefix] in H;
        repeat match type of H with
               | (if Ascii.ascii_dec ?x ?y then _ else _) = true =>
                   destruct (Ascii.ascii_dec x y); [subst|discriminate] end;
        try discriminate.
      exists r. reflexivity.
    - intros [[|] ->]; reflexivity. }
  rewrite P. cbn [In]. split; intros H; intuition auto.
Qed.
Lemma is_safe_plt_false name : is_safe_plt name = false <-> ~ trusted_lib name.
Proof. rewrite <- is_safe_plt_iff. destruct (is_safe_plt name); split; congruence. Qed.

(** FuncSummary::unsafePLTCalls, pass_manager.h:292-298. *)
Definition unsafe_plt (s : summary) : bool :=
  existsb (fun kv => negb (is_safe_plt (snd kv))) (s_plt_calls s).
