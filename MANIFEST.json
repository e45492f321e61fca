{
 "claims": [
  {
   "property": "C01",
   "status": "proved",
   "theorems": [
    "C01_entry_records_return_address"
   ],
   "note": "For every emission request the pass can make, shadow depth and machine state: exact recorded word, pointer move and untouched entries."
  },
  {
   "property": "C02",
   "status": "proved",
   "theorems": [
    "C02_entry_transparent"
   ],
   "note": "All registers outside the declared dead set, flags, gs base, rsp and memory outside the region and the two words below rsp."
  },
  {
   "property": "C03",
   "status": "proved",
   "theorems": [
    "C03_exit_accepts_match"
   ],
   "note": "Exit code accepts the matching address and pops exactly one entry, leaving registers and memory as stated; the flags are not kept (C68)."
  },
  {
   "property": "C04",
   "status": "partial",
   "theorems": [
    "C04_exit_unwinds_partial",
    "C04_exit_unwinds_refuted"
   ],
   "note": "Proved for every recorded address such that no skipped entry has a zero low half; includes longjmp-style unwinding over any number of frames. C04_exit_unwinds_refuted: with such an entry among the skipped ones the program is stopped."
  },
  {
   "property": "C05",
   "status": "proved",
   "theorems": [
    "C05_exit_traps_on_forged"
   ],
   "note": "Every non-zero address that is not recorded traps, at any depth."
  },
  {
   "property": "C06",
   "status": "partial",
   "theorems": [
    "C06_present_address_refuted",
    "C06_trap_only_if_absent_partial"
   ],
   "note": "Full claim is false: C06_present_address_refuted gives a recorded address that traps. The partial theorem gives the range where the claim holds."
  },
  {
   "property": "C07",
   "status": "partial",
   "theorems": [
    "C07_forged_zero_refuted",
    "C07_accepted_was_recorded_partial",
    "C07_zero_word"
   ],
   "note": "Full claim is false: return address 0 is accepted (guard word matches). Partial theorem: every accepted non-zero address was recorded. C07_zero_word says what the check does with the word 0 when no entry is 0: it passes, with the top pointer left at the guard word, unless the low half of an entry is zero, when it traps."
  },
  {
   "property": "C08",
   "status": "proved",
   "theorems": [
    "C08_history_refines_list",
    "C08_returns_only_to_recorded",
    "C08_history_progress"
   ],
   "note": "Arbitrary call/return/longjmp histories refine a list machine; progress included."
  },
  {
   "property": "C09",
   "status": "proved",
   "theorems": [
    "C09_well_behaved_never_traps"
   ],
   "note": "Well-bracketed histories never trap."
  },
  {
   "property": "C10",
   "status": "partial",
   "theorems": [
    "C10_validate_frame_refuted",
    "C10_entry"
   ],
   "note": "Refuted for every legitimate return: with --validate_frame the default snippets always trap. C10_entry, for height 0 and without --optimize_regs: the entry code alone preserves registers, flags and memory outside its own words, and records r10 instead of the return address."
  },
  {
   "property": "C11",
   "status": "partial",
   "theorems": [
    "C11_inside_region_partial",
    "C11_deep_recursion_refuted"
   ],
   "note": "Proved for depth below capacity 1048572; refuted at capacity, where the next protected call writes past the region."
  },
  {
   "property": "C12",
   "status": "proved",
   "theorems": [
    "C12_threads_isolated"
   ],
   "note": "Any interleaving of snippets by threads with disjoint regions acts per thread as if alone."
  },
  {
   "property": "C13",
   "status": "proved",
   "theorems": [
    "C13_thread_runs_requested_function",
    "C13_fresh_shadow_stack",
    "C13_start_possible"
   ],
   "note": "Any event order of creations, failures, starts, world and shadow steps. Statement covers function, argument, single start, disjoint fresh empty stack."
  },
  {
   "property": "C14",
   "status": "proved",
   "theorems": [
    "C14_init_empty_and_guarded",
    "C14_scratch_is_separate",
    "C14_exit_at_depth_zero_traps",
    "C14_failures_stop_the_thread"
   ],
   "note": "runtime.c initialisation; includes failing arch_prctl and failing malloc."
  },
  {
   "property": "C15",
   "status": "proved",
   "theorems": [
    "C15_register_frame"
   ],
   "note": "Register-frame entry/exit around any body that preserves the borrowed register and scratch word."
  },
  {
   "property": "C16",
   "status": "partial",
   "theorems": [
    "C16_nested_stack_snippets_partial",
    "C16_nested_register_frames_refuted"
   ],
   "note": "Full claim false: nested register frames clobber the scratch word (C16_nested_register_frames_refuted). Proved for nested stack snippets."
  },
  {
   "property": "C17",
   "status": "proved",
   "theorems": [
    "C17_empty_emits_nothing",
    "C17_only_save_entry",
    "C17_only_save_exit",
    "C17_only_save_register_frame"
   ],
   "note": "empty and only-save modes, stack and register frames."
  },
  {
   "property": "C18",
   "status": "partial",
   "theorems": [
    "C18_optimize_regs_partial",
    "C18_few_dead_registers_refuted"
   ],
   "note": "Proved for 0 or at least 4 dead registers; refuted for 1 to 3 (emitter reads past the end of the set)."
  },
  {
   "property": "C19",
   "status": "proved",
   "theorems": [
    "C19_entry_temporaries",
    "C19_exit_temporaries",
    "C19_dest_complete"
   ],
   "note": "Every request: two distinct temporaries, no rsp, destinations only among temporaries; dest proved complete against the machine."
  },
  {
   "property": "C20",
   "status": "proved",
   "theorems": [
    "C20_block_liveness",
    "C20_reports_overwritten"
   ],
   "note": "Non-interference from any instruction to the end of its block, for every semantics consistent with the read/write sets; also: overwritten registers are reported."
  },
  {
   "property": "C21",
   "status": "partial",
   "theorems": [
    "C21_entry_partial",
    "C21_refuted"
   ],
   "note": "False of the code for 16-bit pushes (push ax moves rsp by 2, the analysis counts 8). Proved for blocks whose pushes are 8 bytes wide and that write rsp only as a whole."
  },
  {
   "property": "C22",
   "status": "partial",
   "theorems": [
    "C22_exit_partial",
    "C22_refuted"
   ],
   "note": "False of the code for 16-bit pops. Proved for blocks whose pops are 8 bytes wide and not to rsp, and that write rsp only as a whole."
  },
  {
   "property": "C23",
   "status": "partial",
   "theorems": [
    "C23_refuted",
    "C23_two_dead_entry_partial",
    "C23_two_dead_exit_partial",
    "C23_entry_untouched_partial"
   ],
   "note": "False of the code: a moved exit check with one dead register overwrites a red-zone word that is loaded after it. Proved: with two dead registers nothing outside the shadow region is written; up to a moved entry point no byte below rsp has been written by the block."
  },
  {
   "property": "C24",
   "status": "proved",
   "theorems": [
    "C24_no_false_alarm",
    "C24_sound",
    "C24_exact"
   ],
   "note": "Proved over the whole memory-pass pipeline (call graph, large-function filter, stack heights, inter-procedural pass), against a specification stated on the binary. Soundness hypothesis: no cycle of two or more functions below f; self calls are allowed."
  },
  {
   "property": "C25",
   "status": "partial",
   "theorems": [
    "C25_mutual_recursion_refuted",
    "C25_cyclic_partial"
   ],
   "note": "False of the code: refuted by two mutually recursive functions. Proved on every graph: a function's own faults are seen, and the first visited function is classified right."
  },
  {
   "property": "C26",
   "status": "partial",
   "theorems": [
    "C26_tail_call_refuted",
    "C26_indirect_tail_refuted",
    "C26_no_tail_calls_partial"
   ],
   "note": "False of the code: a tail call to an unsafe function, and an indirect tail call, leave the caller classified safe. Proved without tail calls below f."
  },
  {
   "property": "C27",
   "status": "proved",
   "theorems": [
    "C27_call_graph"
   ],
   "note": "Proved. vis is the order in which VisitFunction is entered; NoDup vis means each function is processed once."
  },
  {
   "property": "C28",
   "status": "partial",
   "theorems": [
    "C28_slot_or_above_partial",
    "C28_wide_write_refuted"
   ],
   "note": "False of the code for wide stores below the slot (16 bytes at -16). Proved when the store is aligned relative to the slot, in particular for every store at or above it."
  },
  {
   "property": "C29",
   "status": "partial",
   "theorems": [
    "C29_exception_free_refuted",
    "C29_safe_callees_partial"
   ],
   "note": "False of the code (line 907 reads writes instead of the exception mark). Proved: the marked function's own body is clean, and the full claim when only functions classified safe are reachable."
  },
  {
   "property": "C30",
   "status": "proved",
   "theorems": [
    "C30_unsafe_blocks"
   ],
   "note": "Proved, over the whole pipeline; also gives the blocks marked by the stack-height pass."
  },
  {
   "property": "C31",
   "status": "proved",
   "theorems": [
    "C31_terminates",
    "C31_positive_iff",
    "C31_sound"
   ],
   "note": "Termination on every graph whose blocks are closed under intra-procedural edges; positive count iff a safe path exists without indirect jumps; positive implies a safe path with them."
  },
  {
   "property": "C32",
   "status": "partial",
   "theorems": [
    "C32_refuted",
    "C32_final_edges_partial",
    "C32_branching_partial"
   ],
   "note": "False of the code: two diamonds in sequence have four safe paths but are counted as two, since visited edges are never unmarked. Proved instead: the count is the number of distinct last edges of safe paths on every graph without indirect jumps, hence the number of safe paths when paths join only at exits. Missing: equality on acyclic graphs with inner joins, which is false."
  },
  {
   "property": "C33",
   "status": "proved",
   "theorems": [
    "C33_lowering",
    "C33_terminates"
   ],
   "note": "Along every path without exception edges, in builds with assertions: blocks in order, one push before the first unsafe block and none on safe paths, a pop exactly at returning exits after a push. Dyninst's cloneBlock and redirect are assumed to work (DESIGN.md)."
  },
  {
   "property": "C34",
   "status": "proved",
   "theorems": [
    "C34_control_flow",
    "C34_blocks_exist"
   ],
   "note": "Paths of the patched function, clones mapped back, are exactly the original paths; every block reached is a block of the function or its clone."
  },
  {
   "property": "C35",
   "status": "partial",
   "theorems": [
    "C35_refuted",
    "C35_early_catch_partial"
   ],
   "note": "False of the code: a handler reached only by exception edges runs unprotected, and an exception after the push leaves the cloned code so the pop is missed. Proved: exceptions before the first unsafe block into handlers that ordinary edges reach too."
  },
  {
   "property": "C36",
   "status": "partial",
   "theorems": [
    "C36_refuted",
    "C36_decision_partial"
   ],
   "note": "False of the code: the redirections are arguments of assert, so a build with NDEBUG pushes twice and never pops. Proved: the decision to lower and the transition edges are the same in both builds."
  },
  {
   "property": "C37",
   "status": "partial",
   "theorems": [
    "C37_refuted",
    "C37_balanced_partial"
   ],
   "note": "False of the code: a slow-path block ending in a conditional tail call that falls through to the fast exit gets two pops. Proved: the full claim for functions whose exit blocks do not continue inside the function."
  },
  {
   "property": "C38",
   "status": "proved",
   "theorems": [
    "C38_untouched",
    "C38_protected",
    "C38_module"
   ],
   "note": "Exact condition for leaving a function alone, for every option combination; every other eligible function gets a scheme. Also proved: along every path of an instrumented function whose exit blocks are final, one push before every risky block and matching pops; for lowering without exceptions and with assertions (C35, C36)."
  },
  {
   "property": "C39",
   "status": "partial",
   "theorems": [
    "C39_refuted",
    "C39_light_partial"
   ],
   "note": "False of the code: the list is ignored with --disable_sfe and in full mode. Proved: honoured in light mode without --disable_sfe."
  },
  {
   "property": "C40",
   "status": "partial",
   "theorems": [
    "C40_refuted",
    "C40_by_name_partial"
   ],
   "note": "False of the code: a main executable in a directory whose name contains .so is skipped, and a library without .so in its path is always instrumented. Proved: the claim when the path contains .so exactly for libraries."
  },
  {
   "property": "C41",
   "status": "partial",
   "theorems": [
    "C41_aliases_partial",
    "C41_idempotent_partial",
    "C41_alias_idempotent",
    "C41_refuted",
    "C41_idempotent_refuted"
   ],
   "note": "False of the code for sil, dil, bpl, spl (left unchanged) and, for idempotence on arbitrary strings, for names such as e8d. Proved for all other aliases, and idempotence for all aliases and all strings not starting with e."
  },
  {
   "property": "C42",
   "status": "partial",
   "theorems": [
    "C42_unused_partial",
    "C42_refuted"
   ],
   "note": "False of the code: sil and dil are not recognised as rsi and rdi. Proved for every other register and alias."
  },
  {
   "property": "C43",
   "status": "partial",
   "theorems": [
    "C43_laws_partial",
    "C43_refuted",
    "C43_upper",
    "C43_stored",
    "C43_equal"
   ],
   "note": "On the values the analysis can store, merge is total (never aborts), idempotent, associative and commutative up to the meaning of a value, and gives an upper bound for value provenance. Under the code's own operator== commutativity fails, because an absent pointer and an explicit TOP pointer are different (C43_refuted). C43_stored shows that every value reachable during a run is one of these values. C43_upper: for arbitrary abstract locations, also those never stored, a defined merge covers both arguments. C43_equal: operator== on locations is a separately stated relation, and on stored contexts it is equality on all registers and all slots accessed, so that the analysis does not miss a change."
  },
  {
   "property": "C44",
   "status": "partial",
   "theorems": [
    "C44_terminates_partial",
    "C44_refuted"
   ],
   "note": "Proved for every function whose entry block has no edge to itself, or has at least two instructions. A one-instruction entry block that jumps to itself makes the work list spin forever (C44_refuted)."
  },
  {
   "property": "C45",
   "status": "partial",
   "theorems": [
    "C45_sound_partial",
    "C45_refuted",
    "C45_loop_free_partial",
    "C45_loop_refuted",
    "C45_loops_partial",
    "C45_total_partial"
   ],
   "note": "C45_sound_partial: proved when the stored facts solve the flow equations (consistent). C45_loop_free_partial, C45_loops_partial: with no assumption on the result, the analysis is proved to compute such facts for functions whose first instruction moves the stack pointer (push, sub), that do not set it by mov or lea, and each loop of which is entered from outside at the block of it that comes first in memory (no condition without loops). C45_total_partial adds that the analysis terminates on these. Otherwise the work list does not guarantee that: an instruction that leaves the facts unchanged stops propagation, and a stack store is then classified as a heap store (C45_refuted, function starting with ENDBR64). A loop whose first block in memory is not where it is entered loses the facts from before the loop (C45_loop_refuted). Missing: such loops, other first instructions, untracked values. Operand registers of instructions are inputs; stack slots are assumed not to overlap. The pass is not in the default pipeline."
  },
  {
   "property": "C46",
   "status": "partial",
   "theorems": [
    "C46_removed_partial",
    "C46_refuted",
    "C46_passes_partial"
   ],
   "note": "First half proved: blocks and unknown writes are removed only when all unknown writes of the block are classified heap (C46_removed_partial). C46_passes_partial composes the stack height pass and the heap pass: in the functions of C45_total_partial the heap pass terminates, and each store to an unknown location in a block that it takes off the unsafe list goes to the heap on every path. Second half is false of the code: a block that also writes the return address is dropped from the unsafe set (C46_refuted)."
  },
  {
   "property": "C47",
   "status": "proved",
   "theorems": [
    "C47_components",
    "C47_null",
    "C47_acyclic"
   ],
   "note": "Proved for every function whose blocks are closed under the followed edges and whose outer loops are disjoint (what the disassembler provides). C47_null: the graph is absent exactly for assumed-unsafe or unknown-control-flow functions. C47_acyclic: the component graph has no cycle when the outer loops are the mutually reachable blocks."
  },
  {
   "property": "C48",
   "status": "proved",
   "theorems": [
    "C48_large_functions"
   ],
   "note": "Proved. Size as the code computes it: distance from the entry to the end of the last exit or return block."
  },
  {
   "property": "C49",
   "status": "partial",
   "theorems": [
    "C49_stats_partial",
    "C49_refuted"
   ],
   "note": "The counts always add up, and the safe count is the number of distinct names of safe functions; it is the number of safe functions when their names differ. Two safe functions of the same name (static functions of different files) are counted once, so one of them is reported unsafe (C49_refuted)."
  },
  {
   "property": "C50",
   "status": "partial",
   "theorems": [
    "C50_split",
    "C50_split_unique",
    "C50_file_name_partial",
    "C50_refuted"
   ],
   "note": "Splitting is fully characterised (C50_split, C50_split_unique). The file name is the part after the last slash for non-empty paths not ending in a slash; with a trailing slash it is the name before it, and for the empty path the code indexes an empty vector (C50_refuted)."
  },
  {
   "property": "C51",
   "status": "proved",
   "theorems": [
    "C51_moved_entry_invisible",
    "C51_moved_exit_invisible"
   ],
   "note": "Composition of the block analysis with the emitted code: entry and exit."
  },
  {
   "property": "C52",
   "status": "partial",
   "theorems": [
    "C52_refuted",
    "C52_single_pop_partial"
   ],
   "note": "False of the code: a block ending in a conditional tail call pops and then continues. Proved: the claim for functions without conditional tail calls, all schemes."
  },
  {
   "property": "C53",
   "status": "partial",
   "theorems": [
    "C53_refuted",
    "C53_heights_partial"
   ],
   "note": "False of the code: the fast path inserts a pop at calls that do not return. Proved: height zero for the push and all other pops."
  },
  {
   "property": "C54",
   "status": "partial",
   "theorems": [
    "C54_refuted",
    "C54_single_object_partial"
   ],
   "note": "False of the code: the set of exception-free addresses is shared by all code objects, whose addresses may collide. Proved: the claim for one object; what exception free means is C29."
  },
  {
   "property": "C55",
   "status": "partial",
   "theorems": [
    "C55_returns_partial",
    "C55_each_needed_refuted"
   ],
   "note": "Machine of Whole.v runs all functions under the plans computed by the modelled passes. Proved under the disassembly assumptions 'parsed' and six limits of the tool (no mutual recursion, harmless functions jump only to harmless ones, no conditional tail jumps, no store straddling the return address from below, assertions enabled, correct skip list). C55_each_needed_refuted shows for each limit a binary that meets the other five and breaks. Not covered: exceptions, threads, jumps into the middle of functions. That run_light returns a result is C63_analysis."
  },
  {
   "property": "C56",
   "status": "proved",
   "theorems": [
    "C56_no_false_alarm"
   ],
   "note": "Same conditions as C55. A frame counts as interfered with once code has written through an unknown pointer, over a caller's stack, or called untrusted library code."
  },
  {
   "property": "C57",
   "status": "partial",
   "theorems": [
    "C57_edge_push",
    "C57_block_push_partial",
    "C57_entry_push_partial",
    "C57_reg_push",
    "C57_reg_pop",
    "C57_pop_partial",
    "C57_pop_refuted"
   ],
   "note": "Sites.v models every snippet request of InstrumentFunction and DoInstrumentationLowering; the heights come from the executed passes. Proved for edges and register frames without further conditions beyond a right height from Dyninst; block and entry pushes and exit checks carry the condition that the block's pushes and pops are plain 8-byte ones (plain_stack), which the code assumes too; for functions whose passes run to completion (run_light). C57_pop_refuted: with a pop of two bytes the moved check looks at the wrong word and stops a correct program. Missing: deriving the Dyninst heights themselves."
  },
  {
   "property": "C58",
   "status": "partial",
   "theorems": [
    "C58_lowered_partial",
    "C58_refuted",
    "C58_option_refuted",
    "C58_entry_partial"
   ],
   "note": "Proved for lowered pushes when a red-zone access goes through rsp (uses_red_zone), and for entry pushes (nothing below rsp is written before the push, under plain_stack). Refuted in general: RedZoneAccessVisitor sees no accesses through rbp or through rsp plus another register (C58_refuted), and with --disable_reg_save_opt the check passes on the strength of two dead registers that the generator then does not use (C58_option_refuted)."
  },
  {
   "property": "C59",
   "status": "partial",
   "theorems": [
    "C59_push_partial",
    "C59_refuted",
    "C59_pop_partial"
   ],
   "note": "Proved without --optimize_regs for all pushes to the end of the block (and hence for all code behind, since the states then agree outside the snippet's own bytes and dead registers) and for checks in blocks that end in a return. Refuted with --optimize_regs: pushes in the middle of a function use registers that are dead at the function entry (C59_refuted). The semantics must not depend on the bytes the snippet uses. Checks before tail calls: C68, C69."
  },
  {
   "property": "C60",
   "status": "partial",
   "theorems": [
    "C60_frames_partial",
    "C60_refuted"
   ],
   "note": "Proved when no instruction mentions sil or dil; refuted otherwise: NormalizeRegisterName leaves those two names alone, so rsi or rdi may be borrowed by a function that uses its low byte (C60_refuted)."
  },
  {
   "property": "C61",
   "status": "proved",
   "theorems": [
    "C61_unknown",
    "C61_stack"
   ],
   "note": "Writes.v; for functions that are not assumed unsafe before the pass (others are not analysed at all)."
  },
  {
   "property": "C62",
   "status": "proved",
   "theorems": [
    "C62_statistics",
    "C62_classes"
   ],
   "note": "For functions whose addresses are decoded in one way only (blocks of a function do not overlap differently). The counters are ints in the code and integers in the model. Functions assumed unsafe before the stack height pass have no records and are not counted. C62_classes: the assertions of UpdateFunctionSummary that a classified write is recorded hold."
  },
  {
   "property": "C63",
   "status": "partial",
   "theorems": [
    "C63_analysis",
    "C63_decides_partial",
    "C63_refuted"
   ],
   "note": "C63_analysis: all passes of light mode complete. C63_decides_partial: the tool decides on every function, provided the stack height is known where paths meet whenever it is known at the ends of all blocks before. False of the code without that condition: where paths with different heights meet at the first unsafe block, the assertion at instrument.cc:507 fails and the whole run stops (C63_refuted). Not covered: code generation (C18) and Dyninst's own failures."
  },
  {
   "property": "C64",
   "status": "proved",
   "theorems": [
    "C64_block_code"
   ],
   "note": "Whole-block shape of the code at the insertion points, from the sites of Sites.v. Register frames are not covered (see C57, C59)."
  },
  {
   "property": "C65",
   "status": "partial",
   "theorems": [
    "C65_activation_partial"
   ],
   "note": "Joins the analyses (FullRun.v), decision, sites and the emitted code at instruction level. Hypotheses: parsed and the six limits of C55; functions laid out as 'tidy' says (return last, 8-byte pushes and pops); instructions behave as the decoder reports (stack_facts, as_decoded), called functions leave the shadow stack as it was, room on both stacks. Once code may have written over saved registers (a 'wild' frame) rsp may be anywhere with accessible memory around it, and stack heights are no longer relied on (C65_case_wild). Register frames are in C70. Missing: paths through exception handlers."
  },
  {
   "property": "C66",
   "status": "partial",
   "theorems": [
    "C66_listed_partial",
    "C66_rest_refuted",
    "C66_refuted"
   ],
   "note": "The extraction operator is modelled after libstdc++'s num_get in the C locale. C66_listed_partial: files of white-space separated hexadecimal numbers below 2^64 are read exactly. Missing, because false of the code: files with comments or names, after which the rest is ignored without a message (C66_rest_refuted, C66_refuted), or where a name such as 'face' is taken for an address. --disable_sfe and full mode ignore the list altogether (C39)."
  },
  {
   "property": "C67",
   "status": "partial",
   "theorems": [
    "C67_report",
    "C67_safe_refuted"
   ],
   "note": "C67_report: all printed counts (memory writes: C62) against the decisions (Decision.v) and the placed snippets (Sites.v). With --disable_reg_save_opt the first dead-register line is 0/0 while the second still counts. False as printed: 'Safe functions' includes the user's skip list (C67_safe_refuted). Counters are unbounded integers; percentages are not modelled."
  },
  {
   "property": "C68",
   "status": "partial",
   "theorems": [
    "C68_partial",
    "C68_refuted"
   ],
   "note": "C68_partial: all jumps that do not read flags (direct, indirect and unconditional tail calls). Refuted for conditional tail calls (C68_refuted): the default check does not save the flags and ends with ZF set, so a jne to another function is never taken after it. Which blocks are exits is an input from Dyninst; the semantics of the jump must not depend on the bytes the snippet uses. Register-frame checks are not covered."
  },
  {
   "property": "C69",
   "status": "partial",
   "theorems": [
    "C69_entry",
    "C69_exit_partial",
    "C69_refuted"
   ],
   "note": "The liveness answers are an input. C69_entry: all pushes at the function entry, for dead sets the JIT can handle (none, or at least four registers). C69_exit_partial: checks at block ends, unless some exit block ends exactly where the last instruction of this one starts; then no set is found, so the option has no effect there. Refuted in the excluded case (C69_refuted): a return followed by a one-instruction tail-call block, where the check overwrites r8, the fifth argument."
  },
  {
   "property": "C70",
   "status": "partial",
   "theorems": [
    "C70_register_activation_partial"
   ],
   "note": "Joins analyses, decision, sites and emitted code for register frames, as C65 does for the other snippets. Hypotheses: those of C65 without the dead-register sets; instructions leave registers alone that they do not write, and cannot reach the word next to the shadow stack pointer. The frame may turn wild as in C65. Missing: instructions that use sil or dil (C60_refuted), and paths through exception handlers."
  },
  {
   "property": "C71",
   "status": "proved",
   "theorems": [
    "C71_snippets",
    "C71_full_mode"
   ],
   "note": "The function's exits are taken to leave it (C37) and a return to end its block. The state of the program and the effect of its instructions are arbitrary, within what is assumed of every run in Activation.v; the frame may turn wild as in C65."
  },
  {
   "property": "C72",
   "status": "proved",
   "theorems": [
    "C72_full_transparent",
    "C72_same_result"
   ],
   "note": "Limits as in C71. The check changes the flags (as compilers expect of a call's end); nothing is said about them after it. C72_same_result has the condition that the path does not depend on the scratch bytes as a hypothesis on runs."
  },
  {
   "property": "C73",
   "status": "partial",
   "theorems": [
    "C73_same_program_partial"
   ],
   "note": "Frames on the shadow stack only; with --optimize_regs the claim is false (C59). A call that returns to address zero is left out. The two instruction semantics (original, and with instrumented callees) are arbitrary up to footprint, which ties results to the registers and flags the decoder lists and to the bytes loaded; that the path does not look at bytes or flags left by inserted code is a hypothesis (unseen). Flags at the end are not covered."
  },
  {
   "property": "C74",
   "status": "partial",
   "theorems": [
    "C74_same_result_partial"
   ],
   "note": "Limits as in C73. That functions called leave the slot of the return address and the shadow stack alone is a hypothesis (tame), as is that the program itself does not write to the shadow stack (clear_of)."
  },
  {
   "property": "C75",
   "status": "partial",
   "theorems": [
    "C75_execution_partial"
   ],
   "note": "Light mode with safe function elision on. Executions without exceptions, longjmp, signal handlers and other threads. A word of zero passes a check (C07); the run ends, with nothing said, when a function is about to return, or to jump to another function, with the address zero. Assumes what C65 and C70 assume of the instructions, the disassembly and the binary, and room for the nested calls on the stack and the shadow stack."
  },
  {
   "property": "C76",
   "status": "proved",
   "theorems": [
    "C76_options",
    "C76_used"
   ],
   "note": "For any analysis results (summary) of the function. Follows Decision.v and Sites.v; the inline hint itself (an entry in Dyninst's hint set) is only modelled as given or not."
  },
  {
   "property": "C77",
   "status": "partial",
   "theorems": [
    "C77_execution_partial",
    "C77_return_to_left_call_refuted"
   ],
   "note": "Single thread; signals arrive between instructions of the program, not inside inserted code; functions have no conditional jumps out; an overflowing shadow stack is left out. C77_return_to_left_call_refuted: after longjmp, a return to an address of a call that was left is accepted, because the address stays on the shadow stack until a later return drops it."
  },
  {
   "property": "C78",
   "status": "partial",
   "theorems": [
    "C78_listed",
    "C78_protected_partial",
    "C78_refuted"
   ],
   "note": "The list is not that of the protected functions: a cookie loaded in a later block is missed, a thread-local variable read in the first block counts (C78_refuted)."
  },
  {
   "property": "C79",
   "status": "partial",
   "theorems": [
    "C79_compress",
    "C79_refuted"
   ],
   "note": "An empty trace raises ZeroDivisionError, and CR2 can leave two equal lines in a row (C79_refuted)."
  },
  {
   "property": "C80",
   "status": "partial",
   "theorems": [
    "C80_same_behaviour_partial",
    "C80_reading_below_refuted"
   ],
   "note": "Forward simulation: every execution of the program as it is, of any length, that keeps its return addresses, does not read the two words below rsp after calls and returns before writing them, nor the flags after returns, and leaves the shadow stack alone, is matched by an execution of the instrumented program with the same events, the same registers and memory, or the shadow stack fills on the way. Instructions and library actions are arbitrary, given what they read and write. Refuted without these restrictions: reading below rsp after a call shows what inserted code left. Partial: no conditional jumps out of functions (C37), no return addresses with a low half of zero (C62)."
  },
  {
   "property": "C81",
   "status": "partial",
   "theorems": [
    "C81_nothing_new_partial"
   ],
   "note": "Backward simulation for programs that are careful in every state they can reach: every instrumented execution, also one stopped within inserted code, is an execution of the program as it is. Partial: no conditional jumps out of functions (C37), no return addresses with a low half of zero (C62), calls that would overflow the shadow stack are left out, single thread."
  },
  {
   "property": "C82",
   "status": "partial",
   "theorems": [
    "C82_executions_partial"
   ],
   "note": "The program as it is and the instrumented program are run in the same way, through calls and jumps to other functions of any depth and through library code that calls back, with frames on the shadow stack and frames in registers; from a run that does not rely on what inserted code leaves behind follows the same run of the program as it is and one of the instrumented program that goes the same way and has the same result. Partial: no --optimize_regs (C59), no use of sil or dil in functions with a register frame (C60), no exceptions, longjmp and other threads."
  },
  {
   "property": "C83",
   "status": "partial",
   "theorems": [
    "C83_all_executions_partial"
   ],
   "note": "Where the state says which way a program goes, all executions of the instrumented program agree with the one of C82 as far as both have come: no trap, no fault, the same result. Two edges from a block to the same block are covered: it is proved that they get the same code and lead to the same copy. Partial: the limits of C82."
  },
  {
   "property": "C84",
   "status": "partial",
   "theorems": [
    "C84_runs_partial",
    "C84_refuted"
   ],
   "note": "Partial: outputs fit into the pipe, PARALLEL is not 0, \"full\" is among the modes. C84_refuted: a run that writes more is waited for forever, because pipes are read only after the process has ended; without \"full\" the table raises KeyError; with 0 the number of runs is not limited."
  },
  {
   "property": "C85",
   "status": "partial",
   "theorems": [
    "C85_stack_partial",
    "C85_stack_refuted"
   ],
   "note": "Partial: every instruction takes one line and the trace ends with a newline. C85_stack_refuted: objdump continues instructions longer than seven bytes on a second line, and then nothing is printed for the address after it; without the newline the last address loses its last character."
  },
  {
   "property": "C86",
   "status": "partial",
   "theorems": [
    "C86_boards_partial",
    "C86_boards_refuted"
   ],
   "note": "Partial: a push is an instruction whose text contains \"push\". C86_boards_refuted: a function that jumps to callq <push_back> is not reported. The output of objdump is written down from its lines (fn_ok, line_ok say which lines)."
  },
  {
   "property": "C87",
   "status": "partial",
   "theorems": [
    "C87_lines_partial",
    "C87_counts",
    "C87_refuted"
   ],
   "note": "C87_lines_partial: output described edge by edge by a separate relation; C87_counts: the number of lines of each kind is the number of such edges. False: every call is reported (a call to an address where no function of the block starts prints nothing) and PLT calls are calls (a jump to a stub is reported as one), C87_refuted. Without a function foo the program stops at the DCHECK or dereferences a null pointer."
  }
 ]
}