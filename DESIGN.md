# Formal model of ShadowGuard — design

Prover: Rocq/Coq 8.16.1, standard library only (no other library is imported).
Sources: `rocq/theories/*.v`.  The property theorems have names that start with
the property id (`C01_…`) and live in the `P_*.v` files, next to the
specification they use, a concrete case that meets their hypotheses, and
`Print Assumptions`.  The other files hold the model and lemmas.

## Trusted base

* The Coq kernel, including its virtual machine (`vm_compute` evaluates the
  concrete witnesses).
* Axioms: none.  `Print Assumptions` answers "Closed under the global context"
  for every theorem listed in `MANIFEST.json`.
* The reading of the C++/C code: each model definition cites the file and lines
  it models and says where it simplifies.  The correspondence is by inspection.
* asmjit encodes the instruction that its method is named after; byte 0x62
  in 64-bit mode followed by the function's continuation raises SIGILL
  (the intent stated by the comment in jit.cc).
* x86-64 semantics: the subset in `Machine.v`.  Little-endian byte memory,
  64-bit wrap-around, access permission per byte, exact CF/PF/AF/ZF/SF/OF for
  cmp/add/sub, pushfq/popfq restricted to these flags plus DF.
* Dyninst: CFG, edges, loop tree, stack heights, operands (read and write sets)
  and names are inputs of the model (`Binary.v`).  Where a theorem needs them to
  be right, this is a hypothesis of the theorem and an example meets it.
* Dyninst's patching: `cloneBlock`, `redirect` and `insertSnippet` do what their
  names say.  A snippet at an exit point runs right before the final control
  transfer of the block; a snippet at the entry of a block runs right before its
  first instruction; clones keep the start address of their block.
* Standard containers: `std::set`/`std::map` are lists, sorted where the order of
  iteration matters.  Integers of the statistics are unbounded.

Assumptions that appear as hypotheses, and what they mean:

* `closed_blocks` and the like: edges of a function lead to blocks of the function.
* `one_entry`: the entry block is the block at the function's address.
* `plain_stack`: pushes and pops of a block are 8 bytes wide and rsp is written
  as a whole.  The code assumes it too; C21 and C22 refute the claims without it.
* `respects`, `stack_facts`: the (arbitrary) instruction semantics depends only on
  what the decoder reports as read and changes only what it reports as written.
  An instruction that writes conditionally (cmov) must report its destination as
  read as well.
* `height_right`: Dyninst's stack heights are right where it gives one (C57).
* C45: operand registers are inputs, stack slots do not overlap; the heap pass is
  commented out in the default pipeline (instrument.cc:973).

## Modelled

| part | code | model files |
|---|---|---|
| machine for emitted code | – | Machine.v, MachineFacts.v |
| emitted entry/exit code | src/jit.cc | Jit.v; JitFacts.v, JitPushPop.v, RegFrame.v, ZeroWord.v, FrameVal.v, Capacity.v, Opts.v |
| shadow stack specification, histories, threads | – | ShadowSpec.v, History.v, Threads.v |
| runtime (init, pthread wrapper) | src/runtime.c | Runtime.v |
| disassembler interface, function summary | src/passes.h, analysis.h | Binary.v, Dfs.v, Reach.v |
| call graph, inter-procedural pass | passes.h 39-107, 379-420 | CallGraph.v, InterProc.v |
| large functions, stack heights, exceptions, unsafe call blocks | passes.h 109-145, 233-363, 828-914 | MemPasses.v, Pipeline.v |
| records of writes and their statistics | passes.h 240-347, heap.h 629-684, instrument.cc 674-698, 1086-1099 | Writes.v |
| components | passes.h 147-231 | Components.v |
| register analyses | passes.h 422-529, 588-784, register_utils.h | RegNames.v, BlockLive.v |
| safe paths | passes.h 786-826 | SafePaths.v |
| all passes of light mode in order | instrument.cc 968-981 | FullRun.v |
| lowering, fast path | instrument.cc 185-565 | Lowering.v, FastPath.v |
| decisions | instrument.cc 287-317, 575-651, 700-1010, parse.cc | Decision.v |
| inline hints | instrument.cc 567-573 | P_Options.v |
| places and arguments of the snippets | instrument.cc 287-317, 429-565, 595-651, 740-873 | Sites.v |
| heap analysis | src/heap.h | Heap.v, HeapFacts.v, HeapRun.v |
| statistics, strings | src/pass_manager.h, src/utils.cc | Util.v |
| program executions (specification) | – | Whole.v |
| one call, instruction by instruction (specification) | – | Activation.v; Order.v, PlanCode.v, ActRun.v, RegRun.v |
| whole executions, instruction by instruction (specification) | – | Tree.v; TreeFacts.v |
| executions in full mode and of the program as it is, with exceptions and signals (specification) | – | FullExec.v; FullExecFacts.v |
| what of the machine an execution relies on; the same execution with inserted code (specification) | – | FullSame.v; FullBack.v |
| the same for light mode, calls of any depth (specification) | – | LightSame.v; LightReg.v; LightFollow.v; LightDet.v |
| full mode: no analysis results | instrument.cc:168-183, 700-720, 849-873 | FullMode.v |
| reading the skip list (`>> std::hex`) | instrument.cc:1017-1022 | SkipList.v |
| counters and the final report (writes: Writes.v) | instrument.cc:64-79, 484-560, 595-651, 700-787, 1050-1110 | Report.v |
| registers dead at entry and exits (liveness answers are an input) | passes.h:531-586 | DeadRegs.v |
| the separate tools that list and count | src/stack_protector.cc, script/compress.py | Tools.v |
| listing the control flow of a function | src/cf.cc | CfTool.v |
| running benchmarks, checking the output of objdump | script/run_spec.py, script/check_inst.py | Scripts.v |
| examples | – | Witness.v, ExSem.v, ExCode.v, SiteEx.v |

`Whole.v` contains a machine that is a specification: what a program made of
functions does, under the plan the modelled passes compute for each function.

Not modelled: Dyninst itself (parsing, relocation, patching), asmjit encoding,
`archived/`, build scripts, logging, exceptions thrown by Dyninst,
codegen.cc (its only entry point `Codegen()` is never called), the separate tools `symbolic.cc` and `test.cc`,
and the scripts other than `compress.py`, `run_spec.py` and `check_inst.py`.

## Properties

How each property of `properties.jsonl` is expressed and proved.  "R" marks a
property the code violates: the violated statement is refuted with a concrete
witness and the strongest version that does hold is proved as `_partial`.
The notes in `MANIFEST.json` say what is missing in each partial result.

* C01, C02 – run of the emitted instruction list from an arbitrary state; result
  state is described by a separate spec (registers, flags, every byte).
* C03, C04, C05 – same for the exit code; the loop by induction on the list of
  entries.  Shadow stack representation predicate `shadow_rep`.
* C06 R – witness: entry above the match whose low 32 bits are zero.  Partial:
  no entry above the match has a zero low half.
* C07 R – witness: return address 0 matches the guard word.  Partial: non-zero;
  what the check does with the word 0 (`ZeroWord.v`).
* C08, C09 – refinement of an operation history against a list specification,
  induction over histories.
* C10 R – the check always traps: pushfq is not accounted for in the offset. The entry code alone keeps registers and flags, but records r10 instead of the return address (C10_entry).
* C11 R – no bounds check.  Partial: up to (8 MiB-32)/8 entries.
* C12 – per-thread footprints; induction on schedules.
* C13, C14 – state machine of malloc/arch_prctl/pthread_create events.
* C15 – entry code, arbitrary body relation, exit code.
* C16 R – nested register frame overwrites the single scratch word.
* C17 – all emitters with the dry-run flag.
* C18 R – iterator is incremented past end for 1..3 dead registers.  Partial:
  0 or >= 4 dead registers.
* C19 – over all outputs of the block analysis.
* C20 – non-interference for every instruction semantics respecting read/write sets.
* C21 R, C22 R – offsets against an abstract stack machine with arbitrary other
  instructions; refuted for 16-bit pushes and pops.
* C23 R – exit code with one dead register pushes over the red zone.
* C24, C25 R – depth-first marking; exact on acyclic graphs (self loops allowed),
  refuted for mutual recursion; never a false alarm in general.
* C26 R – tail-call edges are not callee edges.
* C27 – DFS over functions; sets and maps as lists.
* C28 R for wide writes below the slot; partial for writes within 8 bytes aligned.
* C29 R – `writes` of the callee is consulted instead of its exception mark.
* C30 – exact characterisation.
* C31; C32 R – (two diamonds in sequence).
* C33, C34 – lowered CFG as a graph on original/cloned blocks; all paths.
* C35 R – catch edges leave the protected copy.
* C36 R – redirects inside `assert`.
* C37 R – all paths of graphs that pass the check; refuted for conditional tail
  calls that fall through.
* C38 – decision function over all options; C39 R (skip list is bypassed).
* C40 R – a main binary whose path contains ".so".
* C41 R – spl, bpl, sil, dil.  C42 – given names that normalise correctly.
* C43 – lattice laws; C44 – termination measure; C45 R twice (no-op first; loop whose first block in memory
  order is not its header), and `P_HeapFlow.v`: in functions without
  loops the work list reaches a solution (post order is topological, each block is passed through
  once because the fact of the stack pointer changes); `P_HeapLoop.v`: with loops too, when the block
  of a loop that is first in memory has a predecessor outside (invariant of the work list: an edge
  out of a block reached is either solved, or its target is queued); C46 R, and `P_HeapPass.v`
  for the two passes together.
* C47 – DFS invariant.
* C48; C49 R (duplicate names); C50 R (empty path).
* C51 – composition of the block analysis with the emitted code.
* C52 R – pops happen only when the function is left; refuted for conditional
  tail calls.  C53 R – height of the stack at the check; refuted for calls that
  do not return.  C54 R – addresses of different objects collide.
* C55, C56 – executions of a whole program by the machine of `Whole.v`; an
  invariant ties the frames of the running program to the shadow stack.  Each
  condition of C55 is shown to be needed by a binary that meets the others.
* C57 – for every site that the tool instruments: the word the snippet reads is
  the return address.  Heights come from the executed passes.
* C58 R – red zone at the sites.  C59 R – live registers at the sites: the run of
  the block with the snippet and the run without agree.  C60 R – a register frame
  keeps its register because the function does not touch it.
* C61 – records of the stack height pass against the decoder's facts.
* C63 R – totality of all passes from the fuel lemmas; the decision aborts exactly
  where a height is missing at a join.
* C62 – statistics printed at the end are the numbers of such writes.
* C64 – the code of a block: instructions with the snippets between them.
* C65 – a run of such code along a path.  `Activation.v` interleaves the program's
  instructions (arbitrary semantics consistent with the decoder) with the emitted
  instruction lists run by `Machine.v`.  Induction over the path with the phases
  before the push, between push and check, after the check; the events of the path
  come from C38.  A store that may reach the stack from the return address upwards, or a
  call of a function that may do so, can make the frame wild: saved registers may have
  been overwritten.  From then on nothing is assumed of the stack heights, and of rsp only
  that the memory around it is accessible and apart from the shadow stack.
* C66 – well-formed files are read exactly; R (anything after a foreign word is lost).
* C67 – counting over all calls of InstrumentFunction, against the decisions and the
  sites of Sites.v; R (the skip list is counted as safe).
* C68 – the exit check against the state before it, and the jump behind it under any
  semantics that depends only on what the instruction reads; R (conditional jumps).
* C69 – the snippets with the sets of DeadRegisterAnalysis, against the liveness answers; R
  (a one-instruction exit block right behind a return).
* C70 – a run as in C65 of functions with a register frame (`RegRun.v`); the frame's
  spare word in the shadow stack is out of the program's reach.
* C71 – a run as in C65 of any function in full mode (`FullMode.v`); the snippets are those that
  JitStackPush and JitStackPop emit without a summary.
* C72 – the items of a run with and without the inserted code; registers and memory compared
  outside the bytes named in the statement.
* C73, C74 – a run as in C65 next to a run of the original instructions (`Follow.v`).  The
  program enters by what its instructions read, load, store and may leave behind; the claim is
  stated with the bytes that inserted code was last to write (`settled`).
* C75 – executions made of the calls of C65 and C70 and of calls of functions left alone
  (`Tree.v`), nested to any depth.  A call is run by the function it goes to; a call to a library
  runs code that leaves the shadow stack alone and may call back.  Left out are exceptions,
  longjmp, signal handlers, other threads, jumps into the middle of functions and `--disable_sfe`.
  A word of zero passes the check; the run ends where the function returns, or jumps to another
  function, with that word.
* C76 – what each option turns off, over the plans of Decision.v and the sites of Sites.v.
* C77 – executions in full mode as a machine with explicit frames (`FullExec.v`): calls, jumps to
  other functions, library code that calls back, signal handlers that run between two
  instructions of the program, exceptions and longjmp.  The shadow stack must hold what the
  frames have recorded, along with what calls that were left have recorded; R (a return to an
  address of a call that was left).  Left out are other threads, signals inside inserted code,
  conditional jumps out of functions and an overflowing shadow stack.  A word of zero passes the
  check, and the execution ends with the return to address zero.
* C78 – the list and the counts of the stack-protector tool, against the functions whose first
  block uses fs; R (a cookie loaded in a later block; a thread-local variable).
* C79 – the two compressed traces of `compress.py`, against the positions they keep; R (empty
  trace; CR2 leaves equal lines in a row).
* C80 – the same machine with `touched = false` is the program as it is; its executions, when they do
  not rely on what inserted code touches (`oblivious`, `FullSame.v`: a record of which bytes and flags
  are still the program's own), are executions of the instrumented program with the same events,
  by simulation.  R: a program that reads a word below rsp after a call sees what inserted code left
  there.
* C81 – the other direction (`FullBack.v`): for a program all of whose executions are of that kind
  (`careful`, stated on the states it can be in), every execution of the instrumented program,
  stopped anywhere, also within inserted code, is an execution of the program.
* C82 – light mode, through calls of any depth.  `LightSame.v` runs a function along a path, with or
  without the inserted code, and describes runs that do not notice inserted code (`quiet`).  By induction on
  the depth, and for each function by following it one call further at a time, with the results of
  its calls so far kept in the state, so that the run of C65 applies.  Functions that keep their return
  address in a register make no calls; there the run is followed with that register left out, and
  `LightReg.v` gives the order of store and check.  Library code runs in parts, from its entry or from where a
  function that it has called returns to, up to its return or its next such call.
* C83 – all runs of the instrumented program.  `LightDet.v`: where the state says which way a program
  goes, two runs agree as far as both have come, by induction on depth and path; with C82 this
  gives that inserted code never traps or faults in a program that does not notice it.

* C87 R – the lines of `cf.cc` against a relation between edges and texts; R (a call into the middle of a
  function has no line, a jump to a stub counts as a call).
* C84 – the benchmark runs of `run_spec.py`, with times and outputs of the processes as inputs; R (a run
  that writes more than a pipe holds is waited for forever; the table is for mode "full").
* C85 – the stack trace of `check_inst.py`, against listings of objdump written down from their
  instructions; R (instructions of two lines; no newline at the end of the trace).
* C86 – the spring boards `check_inst.py` reports, against the functions of such a listing; R (the letters
  "push" anywhere count as a push).

## Tests against wrong programs

`seeded/LOG.jsonl` has one line per edit of the model that was tried in a scratch
copy: the definition, the edit, the claim it breaks, the theorems that stopped
proving and, where a wrong program went unnoticed, the theorems that were
tightened or added.  Lines whose id starts with `auto:` are from a sweep of small
edits over the definitions of the model.
