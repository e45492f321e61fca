{"id": "C01", "title": "Entry check records the return address", "statement": "Running the code emitted for a protected function's entry leaves the function's return address (the word at rsp+height) as the newest entry of the running thread's shadow stack, above exactly the entries that were there before, and advances the shadow stack pointer by one word.", "quantifier": "every machine state with a mapped shadow stack of any depth and any contents, every temporary-register choice (spilled, one dead, two dead), every stack height offset", "why_tests_cant": "unbounded number of machine states, stack depths and register assignments; tests run the few binaries at hand", "anchors": ["src/jit.cc:JitStackPush", "src/jit.cc:SaveRa", "src/jit.cc:SaveTempRegisters", "src/jit.cc:UseSpecifiedRegisters"]}
{"id": "C02", "title": "Entry check is transparent", "statement": "The entry code changes nothing the program can observe: every general register that was not declared dead, rsp, every status flag, the gs base and every memory byte other than the shadow-stack pointer word, the newly used shadow slot and the scratch bytes immediately below rsp are the same afterwards as before.", "quantifier": "every machine state and register choice as in C01", "why_tests_cant": "a frame property over all registers, flags and addresses", "anchors": ["src/jit.cc:JitStackPush", "src/jit.cc:RestoreTempRegisters"]}
{"id": "C03", "title": "Exit check accepts the matching return address", "statement": "If the word about to be returned to equals the newest shadow-stack entry, the exit code completes without trapping, removes exactly that entry, and leaves rsp, every register not declared dead, and all memory except the shadow-stack pointer word and the scratch bytes below rsp unchanged.", "quantifier": "every machine state, shadow depth, entry contents (including values whose low half is zero) and register choice", "why_tests_cant": "unbounded states and depths", "anchors": ["src/jit.cc:JitStackPop", "src/jit.cc:ValidateRa"]}
{"id": "C04", "title": "Exit check unwinds to an older matching frame", "statement": "If the return address is not the newest entry but occurs deeper (longjmp, exceptions, skipped frames), the exit code completes and drops exactly the entries above and including its newest occurrence.", "quantifier": "every shadow stack contents and every depth of the occurrence, every machine state", "why_tests_cant": "the loop runs an unbounded number of times; tests try a few depths", "anchors": ["src/jit.cc:ValidateRa"]}
{"id": "C05", "title": "Exit check traps on a forged return address", "statement": "If the (non-zero) return address is not among the shadow-stack entries, the exit code raises SIGILL and never falls through to the return instruction.", "quantifier": "every forged address, every shadow stack contents and depth, every machine state", "why_tests_cant": "an attacker chooses the value; all 2^64 values and all depths must be covered", "anchors": ["src/jit.cc:ValidateRa"]}
{"id": "C06", "title": "Unwinding never traps on a return address that is present", "statement": "The exit check raises SIGILL only if the return address is not on the shadow stack.", "quantifier": "every shadow stack contents", "why_tests_cant": "the guard test reads only 32 bits of an entry, so it misfires on entries aligned to 4 GiB; no test places code there", "anchors": ["src/jit.cc:ValidateRa"]}
{"id": "C07", "title": "No forged return address is accepted", "statement": "Whenever the exit code falls through, the word about to be returned to was an entry of the shadow stack.", "quantifier": "every attacker-chosen return address including 0", "why_tests_cant": "one value out of 2^64 slips through", "anchors": ["src/jit.cc:ValidateRa", "src/runtime.c:__shadow_guard_init_stack"]}
{"id": "C08", "title": "Shadow stack behaves as a list over whole executions", "statement": "Over any sequence of protected calls, arbitrary program or attacker memory writes outside the shadow region, stack-pointer moves (longjmp) and protected returns, the thread's shadow stack is exactly the list kept by an abstract specification (push on call, drop through the first match on return), and each return that is not trapped goes to an address recorded by a not yet returned protected call (return addresses are non-zero; see C07).", "quantifier": "every finite history of operations by one thread, every attacker write", "why_tests_cant": "histories are unbounded and the attacker is adversarial", "anchors": ["src/jit.cc:JitStackPush", "src/jit.cc:JitStackPop"]}
{"id": "C09", "title": "Well-behaved programs never trap", "statement": "In any properly nested history of protected calls and returns in which the program never overwrites a live return-address slot, no return traps and every return goes to its own call's return address, at any nesting depth.", "quantifier": "all properly nested call trees of any depth and width, with arbitrary other memory writes", "why_tests_cant": "unbounded call trees", "anchors": ["src/jit.cc:JitStackPush", "src/jit.cc:JitStackPop"]}
{"id": "C10", "title": "--validate_frame accepts legitimate returns", "statement": "With --validate_frame, a function that returns normally (same rsp, unmodified return address) passes the exit check.", "quantifier": "every machine state with --validate_frame", "why_tests_cant": "the repository has no test for this mode", "anchors": ["src/jit.cc:SaveRaAndFrame", "src/jit.cc:ValidateRaAndFrame"]}
{"id": "C11", "title": "Shadow stack stays inside its allocation", "statement": "The entry code never writes outside the thread's allocated shadow region.", "quantifier": "every call depth", "why_tests_cant": "needs a call depth above one million to exhibit", "anchors": ["src/runtime.c:__shadow_guard_init_stack", "src/jit.cc:SaveRa"]}
{"id": "C12", "title": "Threads do not disturb each other's shadow stacks", "statement": "Under any interleaving, instruction by instruction, of any number of threads each executing emitted entry/exit code on its own stack and its own shadow region, each thread's registers, stack and shadow stack evolve exactly as if it ran alone.", "quantifier": "every schedule, every number of threads, every program of snippets", "why_tests_cant": "schedules are unbounded and races are timing dependent", "anchors": ["src/jit.cc:JitStackPush", "src/jit.cc:JitStackPop", "src/runtime.c:__pthread_fn_wrapper"]}
{"id": "C13", "title": "A created thread runs the caller's function on a fresh shadow stack", "statement": "pthread_create makes the new thread call the given function with the given argument exactly once, after giving that thread an empty shadow stack of its own; the shadow stacks of all other threads are unchanged.", "quantifier": "every start routine, argument, allocator behaviour and interleaving of creations", "why_tests_cant": "depends on allocator placement and thread timing", "anchors": ["src/runtime.c:pthread_create", "src/runtime.c:__pthread_fn_wrapper", "src/runtime.c:__shadow_guard_init_stack"]}
{"id": "C14", "title": "Initialisation yields an empty, guarded shadow stack", "statement": "After initialisation with a successful allocation the shadow stack is empty, the guard words are zero, the scratch word used by register frames is not part of the guard or the entries, and an exit check at depth zero traps for every non-zero return address.", "quantifier": "every allocation address and prior memory contents", "why_tests_cant": "prior heap contents and addresses are arbitrary", "anchors": ["src/runtime.c:__shadow_guard_init_stack"]}
{"id": "C15", "title": "Register frames preserve the borrowed register and the verdict", "statement": "For a function protected through an unused register: if the return address is intact at exit, the exit code does not trap, leaves the shadow stack unchanged and the borrowed register has its original value again; if the return address was changed to a non-zero word that is not on the shadow stack the exit code traps.", "quantifier": "every machine state, every body that leaves the borrowed register and the scratch word alone, every unused register", "why_tests_cant": "all states and all bodies", "anchors": ["src/jit.cc:JitRegisterPush", "src/jit.cc:JitRegisterPop", "src/jit.cc:GetUnusedRegister"]}
{"id": "C16", "title": "Register frames survive nested protected code", "statement": "The borrowed register is restored even when another register-frame function of the same thread (for example in a signal handler) runs between entry and exit.", "quantifier": "every interruption point and handler", "why_tests_cant": "signals arrive at arbitrary points", "anchors": ["src/jit.cc:JitRegisterPush", "src/jit.cc:JitRegisterPop"]}
{"id": "C17", "title": "Dry-run modes do not protect and do not disturb", "statement": "--dry_run=empty emits no code at all; --dry_run=only-save emits code that changes no register, flag or memory outside the scratch bytes below rsp (stack snippets), never traps and never changes the shadow stack.", "quantifier": "every machine state and register choice", "why_tests_cant": "all machine states", "anchors": ["src/jit.cc:JitStackPush", "src/jit.cc:JitStackPop", "src/jit.cc:JitRegisterPush", "src/jit.cc:JitRegisterPop"]}
{"id": "C18", "title": "--optimize_regs only uses registers reported dead", "statement": "With --optimize_regs the emitted code uses only registers from the reported dead set without saving them, for any dead set.", "quantifier": "every set of dead registers", "why_tests_cant": "all 2^8 dead sets; the iterator is advanced before it is read", "anchors": ["src/jit.cc:SaveTempRegisters", "src/jit.cc:SaveOrSkip"]}
{"id": "C19", "title": "Emitted temporaries are well formed", "statement": "Whatever register data the analyses supply, the two temporaries of a snippet are distinct general registers other than rsp, and every register that is overwritten without being saved was reported dead at the insertion point.", "quantifier": "every MoveInstData the block analysis can produce and every flag setting", "why_tests_cant": "all instruction blocks", "anchors": ["src/jit.cc:TempRegisters", "src/passes.h:BlockDeadRegisterAnalysis"]}
{"id": "C20", "title": "Block-level dead registers are really dead", "statement": "If a register is reported dead before an instruction of a block, then replacing its value at that point cannot change any register, flag or memory byte at the end of the block.", "quantifier": "every basic block, every instruction semantics consistent with the reported read/write sets, every pair of values", "why_tests_cant": "non-interference over all executions", "anchors": ["src/passes.h:BlockDeadRegisterAnalysis::CalculateBlockLevelLiveness"]}
{"id": "C21", "title": "Moved entry instrumentation finds the return address", "statement": "At the instruction chosen for moved entry instrumentation, the return address is unchanged and lies exactly at rsp plus the recorded offset, however many pushes precede it.", "quantifier": "every block, every instruction semantics consistent with the decoder's facts", "why_tests_cant": "all blocks and states", "anchors": ["src/passes.h:BlockDeadRegisterAnalysis::CalculateEntryInstPoint", "src/jit.cc:TempRegisters"]}
{"id": "C22", "title": "Moved exit instrumentation checks the word that is returned to", "statement": "At the instruction chosen for moved exit instrumentation, the word at rsp plus the recorded offset is the word the block's final return will use, no later instruction of the block writes memory or reads flags.", "quantifier": "every block ending in a return, every consistent instruction semantics", "why_tests_cant": "all blocks and states", "anchors": ["src/passes.h:BlockDeadRegisterAnalysis::CalculateExitInstPoint"]}
{"id": "C23", "title": "Instrumentation never clobbers live red-zone data", "statement": "The bytes below rsp that the emitted code overwrites are never read later by the instrumented function.", "quantifier": "every function using the red zone", "why_tests_cant": "depends on code shape; silent data corruption", "anchors": ["src/passes.h:CalculateExitInstPoint", "src/passes.h:RedZoneAccessVisitor", "src/instrument.cc:DoInstrumentationLowering"]}
{"id": "C24", "title": "Unsafe memory behaviour propagates to all callers", "statement": "A function below which there is no mutual recursion (see C25) is classified safe exactly when neither it nor any function reachable from it through calls has a stack write at or above its return-address slot, a write to an unknown location, unresolved control flow, an untrusted library call or an oversized body; on every call graph a function from which no such function is reachable is classified safe.", "quantifier": "every call graph of any size and shape, every order of functions", "why_tests_cant": "all call graphs; the analysis is a single depth-first pass", "anchors": ["src/passes.h:InterProceduralMemoryAnalysis", "src/pass_manager.h:PassManager::Run"]}
{"id": "C25", "title": "Recursive call graphs are classified soundly", "statement": "On call graphs with mutual recursion a function is classified safe only if no function reachable from it through calls is unsafe in the sense of C24.", "quantifier": "every cyclic call graph", "why_tests_cant": "depends on visiting order", "anchors": ["src/passes.h:InterProceduralMemoryAnalysis::VisitFunction"]}
{"id": "C26", "title": "Tail calls are accounted for", "statement": "A function is classified safe only if no function it can transfer control to, by call or by tail call, directly or transitively, has unsafe memory behaviour.", "quantifier": "every binary with tail calls", "why_tests_cant": "depends on compiler output", "anchors": ["src/passes.h:CallGraphAnalysis::UpdateCallees"]}
{"id": "C27", "title": "Call graph construction is complete and symmetric", "statement": "After call graph construction every direct call edge to a known function entry appears in the caller's callee set, every PLT call in its PLT map, every unresolved call sets the unknown-control-flow mark; f is among g's callers exactly when g is among f's callees; each function is processed exactly once.", "quantifier": "every binary", "why_tests_cant": "all control-flow graphs including cyclic call graphs", "anchors": ["src/passes.h:CallGraphAnalysis"]}
{"id": "C28", "title": "Dangerous stack writes are flagged", "statement": "A function whose stack writes touch its return-address slot or its caller's frame is never classified as free of unsafe writes.", "quantifier": "every write offset and width", "why_tests_cant": "all offset/width pairs", "anchors": ["src/passes.h:StackHeightAnalysis"]}
{"id": "C29", "title": "Exception-free marking is sound", "statement": "A function is marked exception-free only if no function reachable from it through calls makes a library call or has unknown control flow.", "quantifier": "every call graph and visiting order", "why_tests_cant": "depends on visiting order", "anchors": ["src/passes.h:FunctionExceptionAnalysis"]}
{"id": "C30", "title": "Unsafe call blocks are exactly those that call something unsafe", "statement": "After the call-block pass, a block containing a call is marked unsafe exactly when its callee is unresolved, not a known function, an untrusted library stub or a function classified unsafe (or it was already marked).", "quantifier": "every binary", "why_tests_cant": "all control-flow graphs", "anchors": ["src/passes.h:UnsafeCallBlockAnalysis", "src/pass_manager.h:IsSafePLTCall"]}
{"id": "C31", "title": "Safe path count is zero exactly when no safe path exists", "statement": "For functions without indirect jumps, the safe-path count is positive exactly when some path from entry to an exit block avoids all unsafe blocks; with indirect jumps a positive count still implies such a path; the count terminates on every graph.", "quantifier": "every control-flow graph including cyclic ones", "why_tests_cant": "all graphs", "anchors": ["src/passes.h:SafePathsCounting"]}
{"id": "C32", "title": "Safe path count is the number of safe paths", "statement": "On an acyclic function the reported number equals the number of safe control-flow paths from entry to an exit.", "quantifier": "every acyclic control-flow graph", "why_tests_cant": "all graphs", "anchors": ["src/passes.h:SafePathsCounting::countPaths"]}
{"id": "C33", "title": "Lowering protects every unsafe block exactly once", "statement": "After instrumentation lowering, on every control-flow path from the function entry (no exception edges) the shadow push is executed exactly once before the first unsafe block, never a second time, and not at all on paths that stay in safe blocks; a pop is executed at an exit exactly when a push was.", "quantifier": "every control-flow graph, every set of unsafe blocks, every path of any length", "why_tests_cant": "paths are unbounded, graphs arbitrary", "anchors": ["src/instrument.cc:DoInstrumentationLowering", "src/instrument.cc:RedirectTransitionEdges", "src/instrument.cc:CloneFunctionCFG", "src/instrument.cc:CoalesceEdgeInstrumentation"]}
{"id": "C34", "title": "Lowering preserves control flow", "statement": "Mapping cloned blocks back to their originals, the lowered function has exactly the original function's control-flow paths: every original path is possible after lowering and no new path appears.", "quantifier": "every control-flow graph and path", "why_tests_cant": "bisimulation over unbounded paths", "anchors": ["src/instrument.cc:CloneFunctionCFG", "src/instrument.cc:DoInstrumentationLowering"]}
{"id": "C35", "title": "Lowering also covers exception edges", "statement": "C33 for paths that traverse exception (catch) edges.", "quantifier": "every function with catch blocks", "why_tests_cant": "exceptions are rare events", "anchors": ["src/instrument.cc:skipPatchEdges", "src/instrument.cc:RedirectTransitionEdges"]}
{"id": "C36", "title": "Lowering works in builds without assertions", "statement": "The protection given by lowering does not depend on whether assertions are compiled in.", "quantifier": "every build configuration", "why_tests_cant": "tests are built in debug mode only", "anchors": ["src/instrument.cc:DoInstrumentationLowering", "src/instrument.cc:CloneFunctionCFG"]}
{"id": "C37", "title": "Fast-path instrumentation is balanced", "statement": "When the fast-path optimisation applies, on every path through the function the push is executed at most once, exactly when the slow path is taken, and is followed by exactly one pop before the function exits; the fast path executes neither.", "quantifier": "every control-flow graph accepted by the check, every path", "why_tests_cant": "all graphs and paths", "anchors": ["src/instrument.cc:CheckFastPathFunction", "src/instrument.cc:InstrumentFunction"]}
{"id": "C38", "title": "Every function that needs protection gets it", "statement": "For every eligible function (returns, in .text, in a selected object) that is neither classified safe nor on the skip list, instrumentation inserts a shadow push and pops by one of the four schemes, for every combination of options; in full mode every eligible function is instrumented.", "quantifier": "all option combinations, summaries and functions", "why_tests_cant": "2^8 option combinations times all functions", "anchors": ["src/instrument.cc:InstrumentFunction", "src/instrument.cc:InstrumentModule", "src/instrument.cc:Skippable"]}
{"id": "C39", "title": "The skip list is honoured", "statement": "A function whose entry address is on the user's skip list is never instrumented.", "quantifier": "all option combinations", "why_tests_cant": "interaction of options", "anchors": ["src/instrument.cc:Skippable", "src/instrument.cc:InstrumentFunction"]}
{"id": "C40", "title": "Object selection", "statement": "The main executable is always instrumented, shared libraries only with --libs, and under trust_system the four system libraries never.", "quantifier": "every object path", "why_tests_cant": "all path strings", "anchors": ["src/parse.cc:IsSharedLibrary", "src/parse.cc:IsSystemCode", "src/instrument.cc:Instrument"]}
{"id": "C41", "title": "Register names normalise to the containing 64-bit register", "statement": "Every x86-64 general register alias is normalised to its 64-bit register, and normalising twice changes nothing.", "quantifier": "every register alias / every string", "why_tests_cant": "string case analysis with fall-through", "anchors": ["src/register_utils.h:NormalizeRegisterName"]}
{"id": "C42", "title": "Unused registers are really unused", "statement": "A register reported unused by a leaf function is not read or written by any instruction of it, under any alias.", "quantifier": "every function body", "why_tests_cant": "all instruction sequences", "anchors": ["src/passes.h:UnusedRegisterAnalysis"]}
{"id": "C43", "title": "Abstract locations form a join semilattice on the values the analysis uses", "statement": "On the values the heap analysis can store, the merge operation is idempotent, commutative and associative up to equality, never reaches its failing branch, and gives an upper bound of both arguments.", "quantifier": "all pairs and triples of reachable abstract values", "why_tests_cant": "algebraic laws over an infinite domain (stack heights)", "anchors": ["src/heap.h:AbstractLocation::Meet", "src/heap.h:AbstractLocation::operator=="]}
{"id": "C44", "title": "The heap analysis terminates", "statement": "The work-list of the heap analysis becomes empty after finitely many steps on every control-flow graph, loops included.", "quantifier": "every function", "why_tests_cant": "termination on all graphs", "anchors": ["src/heap.h:HeapAnalysis::AnalyseBlocks"]}
{"id": "C45", "title": "Writes classified as heap writes do not hit the stack", "statement": "If a write is classified as a heap write then on every execution its base register holds a pointer derived from a heap allocation.", "quantifier": "every function and execution", "why_tests_cant": "all executions", "anchors": ["src/heap.h:HeapAnalysis::TransferFunction", "src/heap.h:UpdateFunctionSummary"]}
{"id": "C46", "title": "Heap classification only removes proven writes", "statement": "Updating the summary after heap analysis removes a block from the unknown-write map and from the unsafe set only if all its unknown writes were classified heap, and a block with another reason to be unsafe stays unsafe.", "quantifier": "every summary", "why_tests_cant": "all summaries", "anchors": ["src/heap.h:HeapAnalysis::UpdateFunctionSummary"]}
{"id": "C47", "title": "Control-flow components partition the reachable blocks", "statement": "The component graph assigns each block reachable from the entry by intra-procedural non-exception edges to exactly one component, keeps the blocks of one outermost loop together, records every inter-component edge as a child link and every returning block in its component.", "quantifier": "every control-flow graph", "why_tests_cant": "all graphs", "anchors": ["src/passes.h:CFGAnalysis"]}
{"id": "C48", "title": "Oversized functions are assumed unsafe", "statement": "A function whose last exit or return block ends more than 20000 bytes after its entry is never classified safe, and neither is a function that calls it directly or transitively (without mutual recursion).", "quantifier": "every function layout", "why_tests_cant": "all layouts", "anchors": ["src/passes.h:LargeFunctionFilter"]}
{"id": "C49", "title": "Statistics are consistent", "statement": "Safe plus unsafe counts equal the number of functions and the safe count is the number of functions classified safe.", "quantifier": "every set of summaries", "why_tests_cant": "all summaries (duplicate names)", "anchors": ["src/pass_manager.h:PassManager::Run"]}
{"id": "C50", "title": "Path and string utilities", "statement": "Splitting on a delimiter and joining again gives back the string up to one trailing delimiter, no piece contains the delimiter, and the file name of a path is its part after the last slash.", "quantifier": "every string", "why_tests_cant": "all strings including empty and trailing-delimiter ones", "anchors": ["src/utils.cc:Split", "src/utils.cc:GetFileNameFromPath"]}
{"id": "C51", "title": "Moved instrumentation is invisible to the block", "statement": "Running the entry (exit) check at the instruction the block analysis chose, and then the rest of the block, ends in the same registers, the same flags (entry), and the same memory outside the snippet's own bytes as running the rest of the block alone.", "quantifier": "every block, every chosen point, every instruction semantics consistent with the decoder that does not look at the snippet's bytes, every state", "why_tests_cant": "non-interference of emitted code with all surrounding code", "anchors": ["src/passes.h:BlockDeadRegisterAnalysis", "src/jit.cc:JitStackPush", "src/jit.cc:JitStackPop"]}
{"id": "C52", "title": "One pop per activation", "statement": "On every path through an instrumented function the shadow pop is executed at most once, only after the push, and after it nothing of the function runs except a return.", "quantifier": "every function, every path, every option combination", "why_tests_cant": "all control-flow graphs; conditional tail calls are rare in test programs", "anchors": ["src/instrument.cc:InstrumentFunction", "src/instrument.cc:InsertSnippet"]}
{"id": "C53", "title": "Fast-path checks run with the return address on top of the stack", "statement": "When the fast-path optimisation applies, the push and every pop it inserts run at stack height zero, so that they read the function's own return address.", "quantifier": "every control-flow graph accepted by the check and every assignment of stack heights", "why_tests_cant": "all graphs; the stack layout at the slow path entry is not looked at by the code", "anchors": ["src/instrument.cc:CheckFastPathFunction", "src/instrument.cc:InstrumentFunction"]}
{"id": "C54", "title": "Only calls that cannot throw are marked exception safe", "statement": "A block is marked exception safe only if the function it calls or tail calls was found exception free in its own code object.", "quantifier": "every sequence of code objects, every block", "why_tests_cant": "needs several objects with colliding addresses", "anchors": ["src/instrument.cc:MarkExceptionSafeCalls", "src/passes.h:FunctionExceptionAnalysis"]}
{"id": "C55", "title": "An instrumented program never returns to an address that no active call stored", "statement": "In a program instrumented as a whole, with the decisions taken by the passes (functions left alone, lowered instrumentation, fast path, register frames), no function of the binary ever returns or tail-jumps with a return address that was not stored by an active call, and no check runs out of step with its push, whatever memory the program overwrites.", "quantifier": "every binary, every option set, every interleaving of calls, writes, tail jumps and library calls, at any depth", "why_tests_cant": "unbounded executions of arbitrary programs under arbitrary memory corruption; needs the inter-procedural classification and the instrumentation decisions to fit together", "anchors": ["src/instrument.cc:InstrumentModule", "src/instrument.cc:InstrumentFunction", "src/passes.h:InterProceduralMemoryAnalysis", "src/passes.h:UnsafeCallBlockAnalysis"]}
{"id": "C56", "title": "Checks of an instrumented program pass when nothing was overwritten", "statement": "In a program instrumented as a whole, every check of a function whose stack has not been interfered with succeeds and removes exactly its own entry from the shadow stack.", "quantifier": "every binary, every option set, every execution", "why_tests_cant": "unbounded call depth and all combinations of instrumented and uninstrumented functions", "anchors": ["src/instrument.cc:InstrumentModule", "src/instrument.cc:InstrumentFunction"]}
{"id": "C57", "title": "Every push stores the return address, and every check reads it, wherever the snippet is placed", "statement": "Given the stack heights and register data the passes computed, every snippet the instrumentation requests (on a lowered edge, at a block start, moved inside a block, at the function entry, on the slow path of the fast path, or as a register frame) addresses exactly the word that holds the return address of the current activation, although the stack pointer differs from site to site, and the exit check examines the word the return instruction will use.", "quantifier": "every function, every option set, every requested site, every machine state whose stack pointer has the computed height", "why_tests_cant": "the displacement is assembled from a pass result, a moved instruction address and the number of saved registers; a wrong combination shows only for particular prologues and placements", "anchors": ["src/instrument.cc:DoInstrumentationLowering", "src/instrument.cc:MoveInstrumentation", "src/instrument.cc:InstrumentFunction", "src/jit.cc:JitStackPush", "src/jit.cc:JitStackPop", "src/jit.cc:JitRegisterPush", "src/passes.h:CFGAnalysis", "src/passes.h:BlockDeadRegisterAnalysis"]}
{"id": "C58", "title": "Lowered pushes do not overwrite the red zone", "statement": "In a leaf function that keeps data below the stack pointer, a push placed in the middle of the function writes no memory except the shadow stack; pushes at the function entry come before anything is kept there.", "quantifier": "every function, every option set, every machine state", "why_tests_cant": "depends on which operands count as red-zone accesses, on the number of dead registers in every target block and on the saves the generator chooses", "anchors": ["src/passes.h:RedZoneAccessVisitor", "src/passes.h:UnusedRegisterAnalysis", "src/instrument.cc:DoInstrumentationLowering", "src/jit.cc:SaveTempRegisters"]}
{"id": "C59", "title": "Snippets are invisible to the surrounding code", "statement": "The instructions that run after a push (up to the end of the block) and after a check (up to and including the return) behave exactly as they would without the snippet: same values, memory, flags and outcome, except for registers that are overwritten before they are read and the memory reserved for the shadow stack and the saved registers.", "quantifier": "every function, every option set, every site, every instruction semantics consistent with the declared reads and writes", "why_tests_cant": "a live register that is clobbered only matters on paths that read it, and the choice of temporaries differs for every block", "anchors": ["src/instrument.cc:DoInstrumentationLowering", "src/instrument.cc:MoveInstrumentation", "src/jit.cc:TempRegisters", "src/passes.h:BlockDeadRegisterAnalysis"]}
{"id": "C60", "title": "A register frame borrows a register the function never touches", "statement": "A register frame is used only in functions that call nothing and have no unresolved control flow; the borrowed register is neither read nor written by any instruction of the function, so the return address kept in it survives and the function computes the same result.", "quantifier": "every function, every option set, every sequence of instructions of the function", "why_tests_cant": "register aliases (partial registers) must be recognised for every instruction of every function", "anchors": ["src/passes.h:UnusedRegisterAnalysis", "src/jit.cc:JitRegisterPush", "src/jit.cc:GetUnusedRegister", "src/instrument.cc:DoStackOpsUsingRegisters", "src/register_utils.h:NormalizeRegisterName"]}
{"id": "C61", "title": "The stack height pass records exactly the memory writes of a function", "statement": "After the stack height pass, the unknown writes listed for a block are exactly the addresses of its memory-writing instructions (calls and returns aside) with an unknown destination, one list per block, and the record kept for a stack offset is the last instruction that writes to it.", "quantifier": "every function, any number of blocks, instructions and destinations per instruction", "why_tests_cant": "the maps are filled incrementally in block order; losing or overwriting an entry depends on the combination of blocks and offsets", "anchors": ["src/passes.h:StackHeightAnalysis", "src/pass_manager.h:FuncSummary"]}
{"id": "C62", "title": "Memory write statistics count every write once, by kind", "statement": "The totals printed at the end equal the number of memory-writing instructions of the analysed functions, in all and for each kind (stack, global, heap, argument, heap or argument); the number printed as unknown is that of the writes of no kind; the tool stops with an assertion exactly if some write is of two kinds.", "quantifier": "every binary, every set of functions, with and without the heap pass", "why_tests_cant": "sums over arbitrary programs, and an assertion that depends on combinations of analysis results", "anchors": ["src/instrument.cc:CountMemoryWrites", "src/instrument.cc:Instrument", "src/heap.h:HeapAnalysis::UpdateFunctionSummary", "src/passes.h:StackHeightAnalysis"]}
{"id": "C63", "title": "Instrumentation always gets to a decision for every function", "statement": "On every binary that the disassembler describes consistently, the light-mode analyses come to an end without exceptions or failed lookups, and for every function and every combination of options the tool then decides how to instrument the function (possibly not at all) instead of stopping with a failed assertion or running forever.", "quantifier": "all binaries whose blocks, edges, loops and register names are consistent; all functions; all option combinations", "why_tests_cant": "The traversals are recursive over arbitrary graphs with shared visited sets, and the assertions depend on stack heights of arbitrary joins; a test suite runs on a handful of binaries.", "anchors": ["src/instrument.cc: InstrumentCodeObject, InstrumentFunction, DoInstrumentationLowering", "src/pass_manager.h: PassManager::Run", "src/passes.h: all passes of light mode", "src/register_utils.h: NormalizeRegisterName"]}
{"id": "C64", "title": "Inserted code leaves a block's instructions in place and in order", "statement": "In every block (original or clone) of a function protected through the shadow stack, the patched code consists of the block's own instructions, all of them and in their order, with at most one push of the return address and at most one check; the push comes before the check, and after the check there is no instruction that writes memory, or writes rsp other than by a pop, up to the return.", "quantifier": "every analysed function, every decision of the tool without a register frame, every block, every option combination that generates code", "why_tests_cant": "the place of both snippets depends on liveness and on the sequence of the block's instructions; all sequences are covered", "anchors": ["src/instrument.cc:InstrumentFunction", "src/instrument.cc:DoStackOpsUsingRegisters", "src/instrument.cc:DoInstrumentationLowering", "src/passes.h:BlockDeadRegisterAnalysis"]}
{"id": "C65", "title": "Every call of a patched function keeps the return address or is stopped", "statement": "Take any call of a function of the binary, run along any path to a return or a jump to another function, instruction by instruction with the inserted machine code in its place. The inserted code does not fault. It stops the program only if the word about to be returned to is not the address stored by the call. If the path ends, then either return address and shadow stack are unchanged since the call, or the word returned to is this call's address or one recorded by an active call, and the shadow stack has been unwound to just below it; or it is zero, which no call stored (C07).", "quantifier": "all binaries within the tool's limits, all functions, all paths, all instruction semantics consistent with the decoder, all memory contents, all values of rsp at the check once saved registers may have been overwritten, all shadow stack depths within its capacity", "why_tests_cant": "combines the analyses, the choice and place of the snippets and the emitted code over unboundedly many programs, paths and memory states", "anchors": ["src/instrument.cc:InstrumentCodeObject", "src/instrument.cc:InstrumentFunction", "src/jit.cc:JitStackPush", "src/jit.cc:JitStackPop", "src/passes.h"]}
{"id": "C66", "title": "Every function on the skip list is skipped", "statement": "The file given with --skip_list is read completely: every address written in it in hexadecimal, with or without 0x, is taken as written, nothing else is, and in light mode a function is left alone exactly if it was found safe or its address is in the file.", "quantifier": "all file contents, all functions, all option combinations in light mode without --disable_sfe", "why_tests_cant": "the set of file contents is infinite, and reading ends silently at the first word that is not a number", "anchors": ["src/instrument.cc:Instrument (1017-1022)", "src/instrument.cc:Skippable"]}
{"id": "C67", "title": "The numbers printed at the end describe what was done", "statement": "The totals printed after instrumentation are right: every function that was looked at is counted once, as left alone, lowered (including the fast path), register stack, or none of these; 'safe functions' are those found safe; the counts of functions with indirect or PLT calls are exact; and the two lines on dead registers give the numbers of pushes and checks placed, and of those among them that found no dead registers to use.", "quantifier": "all lists of functions, all summaries, all option combinations in light mode", "why_tests_cant": "the counters are updated on early-return paths of a function with five exits; a test sees the sums of a few binaries only", "anchors": ["src/instrument.cc:InstrumentFunction", "src/instrument.cc:MoveInstrumentation", "src/instrument.cc:DoInstrumentationLowering", "src/instrument.cc:Instrument (1050-1110)"]}
{"id": "C68", "title": "A check in front of a jump to another function goes unnoticed", "statement": "Where a function leaves by jumping to another function, the check placed in front of the jump, when it succeeds, leaves every register, the gs base and every byte outside the tool's own as they were, and the jump does what it did before: it is taken under the same condition to the same place.", "quantifier": "all analysed functions, all option combinations without --optimize_regs, all machine states in which the recorded and the stored return address agree", "why_tests_cant": "the check changes the flags, which almost no jump out of a function reads; a test needs a compiler-made conditional tail call in an unsafe function", "anchors": ["src/jit.cc:ValidateRa", "src/jit.cc:JitStackPop", "src/instrument.cc:InstrumentFunction"]}
{"id": "C69", "title": "Only dead registers are used without being saved", "statement": "With --optimize_regs, a push at the function entry changes no register that the liveness analysis calls live before the entry block, no callee-saved register and not rax; a check at the end of an exit block changes no register that is live in front of or behind that block's last instruction.", "quantifier": "all analysed functions, all answers of the liveness analyzer, all machine states", "why_tests_cant": "which set is used depends on addresses: the sets are stored under the end of a block and looked up with the address of an instruction, so a wrong one is found only for a certain layout", "anchors": ["src/passes.h:DeadRegisterAnalysis", "src/jit.cc:SaveTempRegisters", "src/jit.cc:JitStackPop"]}
{"id": "C70", "title": "A call that keeps its return address in a register is protected and gives the register back", "statement": "Take any call of a function that the tool gives a register frame, run along any path to a return or a jump to another function with the inserted machine code in its place. The inserted code does not fault. It stops the program only if the word about to be returned to is not the address stored by the call. If the path ends, then the return address and the shadow stack are unchanged since the call, or the word returned to is this call's address or one recorded by an active call with the shadow stack unwound to just below it, or zero (C07); and the borrowed register holds the value it had when the function was called, on paths with the check and on paths around it.", "quantifier": "all binaries within the tool's limits, all functions given a register frame, all paths, all instruction semantics consistent with the decoder, all memory contents, all values of rsp at the check once saved registers may have been overwritten, all shadow stack depths within its capacity", "why_tests_cant": "the register is borrowed and given back at different places that the analysis picks per path; a test sees a lost register only if the caller depends on it after that very path", "anchors": ["src/instrument.cc:DoStackOpsUsingRegisters", "src/instrument.cc:DoInstrumentationLowering", "src/jit.cc:JitRegisterPush", "src/jit.cc:JitRegisterPop", "src/pass_manager.h:shouldUseRegisterFrame"]}
{"id": "C71", "title": "In full mode every call of a function is pushed at its entry and checked at its end", "statement": "With --shadow_stack=full every function that can return gets a push at its entry and a check at the end of each exit block, made without any analysis result. Take a call of such a function along any path, exception edges included, to a return or a jump to another function, with the inserted machine code in its place. The inserted code does not fault. It stops the program only if the word at the top of the stack is not the address that the call stored. If the path ends, the word returned to is this call's address or one recorded by an active call, and the shadow stack is unwound to just below it; or the word is zero, which no call stored (C07).", "quantifier": "all parsed binaries whose exits leave the function, all functions, all paths, all instruction semantics, all memory contents, all values of rsp at the check once saved registers may have been overwritten, all shadow stack depths within its capacity", "why_tests_cant": "tests run a few paths of a few programs; the property is about every path, also those taken only by exceptions, and any overwrite of the stack", "anchors": ["src/instrument.cc:InstrumentFunction", "src/instrument.cc:InsertSnippet", "src/jit.cc:JitStackPush", "src/jit.cc:JitStackPop"]}
{"id": "C72", "title": "In full mode the inserted code does not change what a function does", "statement": "With --shadow_stack=full the code of an instrumented path is the push, the instructions of the path as they were, and the check. A call that comes to its end has run the original instructions from a state that equals the state at the call in all registers, flags and memory, except the sixteen bytes below rsp, the top pointer of the shadow stack and its next free word; and what it leaves behind equals the result of these instructions with the same exceptions at the end (flags aside). A call that keeps its return address is not stopped. If the path looks neither at the sixteen bytes below rsp nor at the shadow stack, the call ends with the registers and memory that it would have had without the inserted code.", "quantifier": "all parsed binaries whose exits leave the function, all functions, all paths, all instruction semantics, all memory contents, all shadow stack depths within its capacity", "why_tests_cant": "a test compares outputs of a few runs; a register or a word of memory spoilt by inserted code may only matter on other runs", "anchors": ["src/instrument.cc:InstrumentFunction", "src/jit.cc:JitStackPush", "src/jit.cc:JitStackPop"]}
{"id": "C73", "title": "In light mode a call that ends has done what the program would have done", "statement": "Take a call of a function instrumented with push and check code for the shadow stack in light mode, without --optimize_regs, along a path that ends at a return or a jump to another function. The instructions executed are those of the path. If the instrumented call comes to its end, the original instructions, run from the same state, come to their end too, with the same registers and the same memory outside the bytes that inserted code was last to write. This holds if the call does not return to address zero, if the program does not look at such bytes below its stack pointer or in the shadow stack, nor at flags set by a check, and if the decoder's lists of registers read and written are right.", "quantifier": "all parsed binaries that meet the assumptions of the analysis, all functions, all paths, all instruction semantics, all memory contents, all shadow stack depths within its capacity", "why_tests_cant": "the inserted code sits in the middle of the function and borrows registers that an analysis says are dead; a test sees a wrong register only if the one path and value are exercised", "anchors": ["src/instrument.cc:InstrumentFunction", "src/instrument.cc:DoInstrumentationLowering", "src/jit.cc:JitStackPush", "src/jit.cc:JitStackPop", "src/passes.h:BlockDeadRegisterAnalysis"]}
{"id": "C74", "title": "In light mode a call that keeps its return address ends as it would have ended without the inserted code", "statement": "Take a call as in C73, and suppose that the original program runs along the path and ends with rsp at the return address. Then the instrumented call runs too. Either it comes to its end with the same registers and the same memory outside the bytes that inserted code was last to write, or it is stopped and the return address has been changed since the call. The inserted code does not fault. So a call that keeps its (non-zero) return address behaves as before.", "quantifier": "all parsed binaries that meet the assumptions of the analysis, all functions, all paths, all instruction semantics, all memory contents, all shadow stack depths within its capacity", "why_tests_cant": "a false alarm or a changed result needs a certain path, stack layout and register content; no finite number of runs covers them", "anchors": ["src/instrument.cc:InstrumentFunction", "src/instrument.cc:DoInstrumentationLowering", "src/jit.cc:JitStackPush", "src/jit.cc:JitStackPop", "src/passes.h:BlockDeadRegisterAnalysis"]}
{"id": "C75", "title": "No return of an instrumented program leaves the set of addresses that its active calls have stored", "statement": "Run a program that has been instrumented in light mode, instruction by instruction and with the inserted code, from a call of one of its functions with nothing on the shadow stack. Calls go to any depth, library code may call back into the program, functions jump to other functions, and stores through pointers may overwrite any part of the stack. Then every return goes to an address that a call still active has stored, or to address zero. Inserted code never faults. It stops the program only in a function that is about to return elsewhere than its own call has stored. When the first call returns, the shadow stack is empty again.", "quantifier": "all parsed binaries that meet the assumptions of the analysis, all functions, all paths through them, all nestings of calls within the capacity of the shadow stack, all instruction semantics, all memory contents", "why_tests_cant": "the property is about every execution of every program; it combines functions left alone, functions with the address in a register, and functions with the address on the shadow stack, in any nesting", "anchors": ["src/instrument.cc:InstrumentFunction", "src/instrument.cc:DoInstrumentationLowering", "src/jit.cc:JitStackPush", "src/jit.cc:JitStackPop", "src/jit.cc:JitRegisterPush", "src/jit.cc:JitRegisterPop", "src/passes.h"]}
{"id": "C76", "title": "Each option turns off its optimisation and nothing else stays of it", "statement": "Take an analysed function in light mode. With --disable_lowering, code is inserted only in the original blocks, and the address is recorded at exactly one place: the entry or the entry block. With --disable_reg_frame no address is kept in a register. With --disable_reg_save_opt no code is moved into a block and all code saves the registers it uses. With --disable_sfe no function is left alone. With --disable_inline no inline hint is given. With all but the last, the function is treated as in full mode. Without the option the optimisation is used: safe and skip-listed functions get no code, a leaf function with an unused register keeps the address in a register, and the push of a function that no edge leads back to the entry of is moved into the entry block.", "quantifier": "all parsed functions, all analysis results, all combinations of the options", "why_tests_cant": "the optimisations interact; a test sees a few functions under a few of the option combinations", "anchors": ["src/cfi.cc", "src/instrument.cc:Skippable", "src/instrument.cc:DoInstrumentationLowering", "src/instrument.cc:DoStackOpsUsingRegisters", "src/instrument.cc:MoveInstrumentation", "src/instrument.cc:AddInlineHint", "src/instrument.cc:CheckFastPathFunction"]}
{"id": "C77", "title": "Executions in full mode are secure, through exceptions, longjmp and signal handlers", "statement": "Run a program instrumented in full mode from its first call, with an empty shadow stack. It makes calls of any depth, jumps to other functions, is called back from libraries, takes signals between its instructions, throws exceptions and calls longjmp, and its stores may overwrite any part of its stacks. Every return goes to an address stored by an active call, or by a call that an exception or longjmp has left, or to address zero (C07). Inserted code does not fault and always ends. It stops the program only before a return that goes elsewhere than its call stored, or when it meets an address of a call that has been left whose low half is zero. When only library code is active, the shadow stack holds at most addresses of calls that have been left. Without exceptions and longjmp no address of a left call is accepted, the program is stopped only when a return address was overwritten, and the shadow stack ends empty.", "quantifier": "all parsed programs whose jumps out of functions end their blocks, all executions of any length, all stores that leave the shadow stack alone, all points at which signals, exceptions and longjmp happen", "why_tests_cant": "executions, call depths and the points of interruption are unbounded; a test exercises a few", "anchors": ["src/instrument.cc:InstrumentFunction", "src/instrument.cc:InsertSnippet", "src/jit.cc:JitStackPush", "src/jit.cc:JitStackPop"]}
{"id": "C78", "title": "The stack-protector tool lists the functions whose first block uses fs", "statement": "The tool counts the functions of all objects that are not shared libraries. The output file lists, in the order of the functions, the names of exactly those whose first block has an instruction that reads or writes the fs register; the second count is the number of these. The ratio is their quotient, lies between 0 and 1, and is a number whenever a function was counted. The list is the list of functions that load the stack cookie.", "quantifier": "all sets of objects, functions and instructions", "why_tests_cant": "binaries are unbounded; a test looks at a few, where the cookie is loaded in the first block", "anchors": ["src/stack_protector.cc:IsStackCookieAccessed", "src/stack_protector.cc:DiscoverStackProtectedFunctions", "src/parse.cc:IsSharedLibrary"]}
{"id": "C79", "title": "compress.py keeps the lines that differ from the one or two lines before", "statement": "CR1 keeps exactly the lines of the trace that differ from the line before, CR2 exactly those that differ from both of the two lines before, in order. The printed depths are the lengths of the trace and of the two results. CR2 keeps at most as many lines as CR1, at least one, and both ratios are the dropped share in percent, from 0 to below 100. The script works for every trace, and the results cannot be compressed further in the same way.", "quantifier": "all traces", "why_tests_cant": "traces are of unbounded length and content", "anchors": ["script/compress.py"]}
{"id": "C80", "title": "In full mode an instrumented program does what the program does", "statement": "Take any execution of a program as it is, with calls, jumps to other functions, callbacks, signals, exceptions and longjmp. The instrumented program has an execution with the same instructions, library actions, calls and returns in the same order, that ends with the same registers and the same memory outside the shadow stack, or that fills the shadow stack on the way. The flags after returns and the two words below rsp after calls and returns may differ.", "quantifier": "all parsed programs whose jumps out of functions end their blocks, all executions of any length, all instruction and library behaviours", "why_tests_cant": "executions are unbounded in length and number, and any one instruction could rely on something inserted code changes", "anchors": ["src/instrument.cc:InstrumentFunction", "src/instrument.cc:InsertSnippet", "src/jit.cc:JitStackPush", "src/jit.cc:JitStackPop"]}
{"id": "C81", "title": "In full mode an instrumented program does nothing that the program does not do", "statement": "Take a program that keeps its return addresses and does not rely on what inserted code touches: the flags after returns, the two words below rsp after calls and returns, and the shadow stack. Every execution of the instrumented program, stopped at any point, has the same instructions, library actions, calls and returns in the same order as an execution of the program as it is, with the same registers, active calls and memory outside what inserted code has touched. In particular no check stops it, inserted code does not fault, and no return goes anywhere that the program does not return to.", "quantifier": "all parsed programs whose jumps out of functions end their blocks, all executions of any length, all instruction and library behaviours, all points at which signals, exceptions and longjmp happen", "why_tests_cant": "a false alarm in one rare execution is enough to break a correct program; tests run a few executions", "anchors": ["src/instrument.cc:InstrumentFunction", "src/instrument.cc:InsertSnippet", "src/jit.cc:JitStackPush", "src/jit.cc:JitStackPop"]}
{"id": "C82", "title": "In light mode whole executions of an instrumented program are those of the program", "statement": "Take a call of any function of the program, with all calls and jumps to other functions that it makes, to any depth, and the functions that libraries call back, stopped anywhere or run to its return. Suppose it keeps its return addresses and does not rely on what inserted code leaves behind: bytes below rsp where inserted code has run, flags at entry, after calls and after a check, and the shadow stack. Then the instrumented program, started with the same registers and bytes and any addresses on the shadow stack, makes the same run: it gets to the same point, or returns to the same address with the same registers, the same bytes of memory and the shadow stack as it was. No check stops it and no inserted code faults.", "quantifier": "all parsed programs within the limits of the analyses, all executions of any depth and length, all instruction and library behaviours, all contents of the shadow stack and of the bytes that do not matter", "why_tests_cant": "executions are unbounded in depth and number; a register or byte disturbed in one of them is enough to break the program", "anchors": ["src/instrument.cc:InstrumentFunction", "src/instrument.cc:InsertSnippet", "src/jit.cc:JitStackPush", "src/jit.cc:JitStackPop", "src/jit.cc:JitRegisterPush", "src/jit.cc:JitRegisterPop", "src/instrument.cc:DoStackOpsUsingRegisters", "src/instrument.cc:DoInstrumentationLowering"]}
{"id": "C83", "title": "In light mode no execution of an instrumented program differs from that of the program", "statement": "Take a call as in C82 and let the state say which way the program goes: the next block at the end of a block and the function called. Then every execution of the instrumented program from that call, stopped anywhere, is like that of the program. If the program returns, no check stops the instrumented program, no inserted code faults, and whenever it returns, it does so with the same registers, bytes and shadow stack; what it has done up to any point is an initial part of what the program does. If the program is followed up to some point only, no check stops the instrumented program and no inserted code faults before that point.", "quantifier": "all parsed programs within the limits of the analyses, all executions of the instrumented program of any depth and length, all instruction and library behaviours, all orders on what can be seen that the program only goes up in", "why_tests_cant": "a test follows one execution; here all executions of the instrumented program from the same start are compared with that of the program", "anchors": ["src/instrument.cc:InstrumentFunction", "src/instrument.cc:InsertSnippet", "src/jit.cc:JitStackPush", "src/jit.cc:JitStackPop", "src/jit.cc:JitRegisterPush", "src/jit.cc:JitRegisterPop", "src/instrument.cc:DoStackOpsUsingRegisters", "src/instrument.cc:DoInstrumentationLowering"]}
{"id": "C84", "title": "The benchmark script runs every configuration once and tabulates its verdict", "statement": "Whatever order the processes end in, run_spec.py ends. It starts every combination of mode, column and benchmark exactly once, in order; each finishes after it was started; never are more than PARALLEL running; the verdict of each is the one on its own output. The table printed has for every benchmark and column the verdict on a run of that benchmark with that configuration in mode \"full\".", "quantifier": "all settings, all running times and outputs of the processes", "why_tests_cant": "the order in which processes end is a matter of timing and the settings are edited by hand; a test sees one of them", "anchors": ["script/run_spec.py:GenerateTestConfigurations", "script/run_spec.py:WaitForFinish", "script/run_spec.py:PrintResultsTable"]}
{"id": "C85", "title": "The stack trace shows the instruction before each return address", "statement": "Given the disassembly of a rewritten binary and a file of return addresses, check_inst.py prints for every address of the file, in order, the instruction directly before it in relocated code, or that the address cannot be found if it is not there.", "quantifier": "all listings, all trace files", "why_tests_cant": "listings and traces are unbounded; that each address is paired with the right line is a relation between two of them", "anchors": ["script/check_inst.py:ParseObjdumpOutput", "script/check_inst.py:GetReturnAddresses", "script/check_inst.py:PrintCallStack"]}
{"id": "C86", "title": "The spring board check reports exactly the functions that are not redirected", "statement": "Given the disassembly of a rewritten binary, check_inst.py reports, in order, exactly those functions of section .text that do not start with a jmpq to an address of relocated code at which there is a push instruction.", "quantifier": "all listings", "why_tests_cant": "every function of every binary counts; a missed function is silent", "anchors": ["script/check_inst.py:CheckSpringBoard", "script/check_inst.py:ParseObjdumpOutput"]}
{"id": "C87", "title": "The control flow lister describes every edge of the function", "statement": "For the first function called foo, cf prints for each edge of each of its blocks, in order, at most one line, which is determined by the edge: unresolved, into the procedure linkage table, indirect, fall through after a call, conditional, call with the name of the function that starts at the target, or return; so the number of lines of each kind is the number of edges of that kind, every call has a line, lines about calls are about calls, and the last line is the number of blocks.", "quantifier": "every parsed program", "why_tests_cant": "all control flow graphs, edge types and overlapping functions", "anchors": ["src/cf.cc:main"]}
