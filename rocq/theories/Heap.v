(** * Heap: the heap write analysis (/repo/src/heap.h)

    The pass that runs it is commented out of the default pipeline.  Operands are
    inputs: [hdst i] and [hsrc i] are the registers ParseOperand finds in operands
    0 and 1 of an instruction ([RNone] when it finds none).  A context is a map
    from registers and stack heights to abstract locations; contexts are
    identified by block and position in the block. *)
From Coq Require Import ZArith Bool Lia ZifyBool ZifyNat Arith String List.
From Verif Require Import Machine Jit Dfs Binary Reach Components.
Import ListNotations.
Open Scope Z_scope.

(** ** AbstractLocation, heap.h:28-233 *)
Inductive lty := HEAP | STACK | ARG | HEAP_OR_ARG | TOP | BOTTOM.
Definition lty_eq_dec (a b : lty) : {a = b} + {a <> b}.
Proof. decide equality. Defined.
Definition lty_eqb (a b : lty) : bool := if lty_eq_dec a b then true else false.
Inductive aloc := AL (t : lty) (h : Z) (p : option aloc).
Definition a_ty (a : aloc) : lty := let '(AL t _ _) := a in t.
Definition a_ht (a : aloc) : Z := let '(AL _ h _) := a in h.
Definition a_pt (a : aloc) : option aloc := let '(AL _ _ p) := a in p.
Definition int_max : Z := 2147483647.
Definition flat (t : lty) : aloc := AL t int_max None.
Definition a_top : aloc := flat TOP.
Definition a_bot : aloc := flat BOTTOM.
(** GetStackLocation, 196-201 *)
Definition stack_loc (h : Z) : aloc := AL STACK h None.
(** pointToLocation, 86-91 *)
Definition point_to (a : aloc) : aloc := match a_pt a with None => a_top | Some q => q end.
(** operator==, 103-121 *)
Fixpoint aeqb (a b : aloc) {struct a} : bool :=
  let '(AL t h p) := a in
  let '(AL t' h' p') := b in
  lty_eqb t t' &&
  (if lty_eqb t STACK then
     (h =? h') && match p, p' with
                  | None, None => true
                  | Some q, Some q' => aeqb q q'
                  | _, _ => false
                  end
   else true).
(** operator=, 125-138: the assertion fails on deeper chains ([None]) *)
Definition assign (l : aloc) : option aloc :=
  match a_pt l with
  | None => Some l
  | Some q => match a_pt q with None => Some l | Some _ => None end
  end.
(** setPointToLocation, 93-101 *)
Definition set_point (a l : aloc) : option aloc :=
  if aeqb l a_top then Some (AL (a_ty a) (a_ht a) None)
  else match assign l with Some l' => Some (AL (a_ty a) (a_ht a) (Some l')) | None => None end.
(** Meet, 140-181; [None] is a failed DCHECK or assertion *)
Fixpoint meet (a b : aloc) {struct a} : option aloc :=
  let '(AL t h p) := a in
  if lty_eqb t TOP || lty_eqb (a_ty b) TOP then Some a_top
  else if lty_eqb t BOTTOM then assign b
  else if lty_eqb (a_ty b) BOTTOM then Some a
  else if lty_eqb (a_ty b) t then
    if lty_eqb t STACK then
      if negb (h =? a_ht b) then Some a_top
      else match p with
           | None => Some a
           | Some q => match meet q (point_to b) with
                       | Some q' => Some (AL t h (Some q'))
                       | None => None
                       end
           end
    else Some a
  else match t, a_ty b with
       | ARG, HEAP | HEAP, ARG | HEAP_OR_ARG, HEAP | HEAP_OR_ARG, ARG
       | HEAP, HEAP_OR_ARG | ARG, HEAP_OR_ARG => Some (flat HEAP_OR_ARG)
       | _, _ => None
       end.

(** ** HeapContext, heap.h:235-309 *)
Inductive hreg := RG (r : reg) | RX (n : nat) | RNone.
Definition hreg_eq_dec (a b : hreg) : {a = b} + {a <> b}.
Proof. decide equality; [apply reg_eq_dec|apply Nat.eq_dec]. Defined.
Inductive hloc := HR (r : hreg) | HS (h : Z).
Definition hloc_eq_dec (a b : hloc) : {a = b} + {a <> b}.
Proof. decide equality; [apply hreg_eq_dec|apply Z.eq_dec]. Defined.
Notation HG r := (HR (RG r)).
(** Block and position of an instruction *)
Notation cid := (nat * nat)%type.
Definition hctx := hloc -> option aloc.
(** 246-263 *)
Definition hctx0 : hctx := fun k => match k with HR (RG _) => Some a_bot | _ => None end.
Definition hset (c : hctx) (k : hloc) (v : aloc) : hctx :=
  fun k' => if hloc_eq_dec k' k then Some v else c k'.
(** operator[] of the map: a missing entry is created *)
Definition hget (c : hctx) (k : hloc) : aloc := match c k with Some v => v | None => a_bot end.
(** PointWiseMeet at one key, 285-300 *)
Definition meet_opt (a b : option aloc) : option (option aloc) :=
  match a, b with
  | Some x, Some y => match meet x y with Some z => Some (Some z) | None => None end
  | None, y => Some y
  | x, None => Some x
  end.
Definition meet_val (a b : option aloc) : option aloc :=
  match meet_opt a b with Some v => v | None => None end.
Definition meet_ok (U : list hloc) (c d : hctx) : bool :=
  forallb (fun k => match meet_opt (c k) (d k) with Some _ => true | None => false end) U.
(** Meet, 278-282 *)
Definition meet_ctx (U : list hloc) (c d : hctx) : option hctx :=
  if meet_ok U c d then Some (fun k => meet_val (c k) (d k)) else None.
(** operator==, 302-304 *)
Definition opt_eqb (a b : option aloc) : bool :=
  match a, b with Some x, Some y => aeqb x y | None, None => true | _, _ => false end.
Definition ctx_eqb (U : list hloc) (c d : hctx) : bool := forallb (fun k => opt_eqb (c k) (d k)) U.

(** ** HeapAnalysis, heap.h:311-693 *)
Section HEAP.
Variable co : code.
Variable fn : nat.
Variable s : summary.
Variables hdst hsrc : insn -> hreg.
Notation f := (co_fun co fn).
Notation entry := (f_entry (co_fun co fn)).
Definition h_insns (b : nat) : list insn := b_insns (co_block co b).

Definition heights (i : insn) : option (Z * Z) := zfind (s_stack_heights s) (i_addr i).
(** All keys that can occur: the sixteen registers, the registers of the
    operands and the stack heights. *)
Definition gprs : list reg :=
  [RAX; RBX; RCX; RDX; RSP; RBP; RSI; RDI; R8; R9; R10; R11; R12; R13; R14; R15].
Definition insn_keys (i : insn) : list hloc :=
  [HR (hdst i); HR (hsrc i)] ++ match heights i with Some (src, dst) => [HS src; HS dst] | None => [] end.
Definition hkeys : list hloc :=
  map (fun r => HG r) gprs ++ HR RNone :: flat_map (fun b => flat_map insn_keys (h_insns b)) (f_blocks f).

(** HandleUnknown, 501-510 *)
Definition wregs (i : insn) : list reg :=
  flat_map (fun m => match m with MG r _ => [r] | _ => [] end) (i_written i).
Definition t_unknown (i : insn) (c : hctx) : hctx :=
  fold_left (fun c r => hset c (HG r) a_top) (wregs i) c.
(** HandleLea, 512-530 *)
Definition is_gpr (k : hreg) : bool := match k with RG _ => true | _ => false end.
Definition t_lea (i : insn) (c : hctx) : option hctx :=
  if is_gpr (hsrc i) && is_gpr (hdst i) then
    match assign (hget c (HR (hsrc i))) with Some v => Some (hset c (HR (hdst i)) v) | None => None end
  else Some (t_unknown i c).
(** HandleCall, 532-568 *)
Definition call_target (b : nat) : option nat :=
  fold_left (fun acc e => if is (e_ty e) CALL && negb (e_sink e) then Some (e_trg e) else acc)
    (b_targets (co_block co b)) None.
Definition allocates (b : nat) : bool :=
  match call_target b with
  | None => false
  | Some t => match co_link co (b_start (co_block co t)) with
              | Some name => (name =? "malloc")%string || String.prefix "_Zna" name
              | None => false
              end
  end.
Definition clobbered : list reg := [RCX; RDX; RSI; RDI; R8; R9; R10; R11].
Definition t_call (b : nat) (c : hctx) : hctx :=
  hset (fold_left (fun c r => hset c (HG r) a_top) clobbered c) (HG RAX)
    (if allocates b then flat HEAP else a_top).
(** HandleMov, 570-627 *)
Definition ensure (c : hctx) (h : Z) : hctx :=
  match c (HS h) with Some _ => c | None => hset c (HS h) (stack_loc h) end.
Definition t_mov (i : insn) (c : hctx) : option hctx :=
  if hreg_eq_dec (hdst i) RNone then Some c
  else if i_rmem i then
    match heights i with
    | Some (h, _) =>
        let c1 := ensure c h in
        match assign (point_to (hget c1 (HS h))) with
        | Some v => Some (hset c1 (HR (hdst i)) v)
        | None => None
        end
    | None => Some (hset c (HR (hdst i)) a_top)
    end
  else if i_wmem i then
    match heights i with
    | Some (_, h) =>
        let c1 := ensure c h in
        let v := hget c1 (HR (hsrc i)) in
        let c2 := hset c1 (HR (hsrc i)) v in
        match set_point (hget c2 (HS h)) v with
        | Some x => Some (hset c2 (HS h) x)
        | None => None
        end
    | None => Some c
    end
  else if hreg_eq_dec (hsrc i) RNone then Some (hset c (HR (hdst i)) a_top)
  else
    let v := hget c (HR (hsrc i)) in
    match assign v with
    | Some v' => Some (hset (hset c (HR (hsrc i)) v) (HR (hdst i)) v')
    | None => None
    end.
(** TransferFunction, 481-499 *)
Definition transfer (b : nat) (i : insn) (c : hctx) : option hctx :=
  match i_op i with
  | OMov => t_mov i c
  | OCall => Some (t_call b c)
  | OLea => t_lea i c
  | _ => Some (t_unknown i c)
  end.

(** info_: the context of each instruction *)
Definition hstate := nat -> nat -> hctx.
Definition hst0 : hstate := fun _ _ => hctx0.
Definition hput (st : hstate) (b i : nat) (c : hctx) : hstate :=
  fun b' i' => if Nat.eqb b' b && Nat.eqb i' i then c else st b' i'.
Definition last_ix (b : nat) : nat := (List.length (h_insns b) - 1)%nat.
(** Predecessors in UpdateWorkList, 428-439 *)
Definition h_edge (a b : nat) : bool :=
  existsb (fun e => Nat.eqb (e_trg e) b && negb (e_inter e) && negb (is (e_ty e) CATCH))
    (b_targets (co_block co a)).
Definition h_preds (b : nat) : list cid :=
  map (fun a => (a, last_ix a)) (filter (fun a => h_edge a b) (f_blocks f)).
Definition arg_regs : list reg := [RDI; RSI; RDX; RCX; R8; R9].
(** regs[r].type = ARG *)
Definition set_arg (c : hctx) (r : reg) : hctx :=
  let v := hget c (HG r) in hset c (HG r) (AL ARG (a_ht v) (a_pt v)).
(** UpdateWorkList, 412-441 *)
Definition update (b : nat) (st : hstate) : hstate * (cid * list cid) :=
  if Nat.eqb b entry then (hput st b 0 (fold_left set_arg arg_regs (st b 0%nat)), ((b, 0%nat), []))
  else (st, ((b, 0%nat), h_preds b)).
Fixpoint updates (blocks : list nat) (ts : list edge) (st : hstate) : hstate * list (cid * list cid) :=
  match ts with
  | [] => (st, [])
  | e :: r =>
      if mem (e_trg e) blocks then
        let (st1, w) := update (e_trg e) st in
        let (st2, ws) := updates blocks r st1 in (st2, w :: ws)
      else updates blocks r st
  end.
(** The facts of the predecessors and the transfer function, 385-393 *)
Fixpoint meets (me : cid) (st : hstate) (ps : list cid) (c : hctx) : option hctx :=
  match ps with
  | [] => Some c
  | (b, i) :: r =>
      if Nat.eqb b (fst me) && Nat.eqb i (snd me) then meets me st r c
      else match meet_ctx hkeys c (st b i) with
           | Some c' => meets me st r c'
           | None => None
           end
  end.
Definition process (st : hstate) (me : cid) (ps : list cid) : option hctx :=
  match nth_error (h_insns (fst me)) (snd me) with
  | None => None
  | Some i => match meets me st ps (st (fst me) (snd me)) with
              | Some c => transfer (fst me) i c
              | None => None
              end
  end.
Definition follow (blocks : list nat) (me : cid) (st : hstate) : hstate * list (cid * list cid) :=
  if Nat.ltb (S (snd me)) (List.length (h_insns (fst me))) then
    (st, [((fst me, S (snd me)), [me])])
  else updates blocks (b_targets (co_block co (fst me))) st.

Inductive hres := HDone (st : hstate) | HAbort | HNoFuel.
(** AnalyseBlocks, 372-410 *)
Fixpoint h_work (fuel : nat) (blocks : list nat) (st : hstate) (wl : list (cid * list cid)) {struct fuel} : hres :=
  match wl with
  | [] => HDone st
  | (me, ps) :: r =>
      match fuel with
      | O => HNoFuel
      | S n =>
          match process st me ps with
          | None => HAbort
          | Some c =>
              let st1 := hput st (fst me) (snd me) c in
              if ctx_eqb hkeys (st (fst me) (snd me)) c then h_work n blocks st1 r
              else let (st2, ws) := follow blocks me st1 in h_work n blocks st2 (r ++ ws)
          end
      end
  end.
Definition analyse_blocks (fuel : nat) (blocks : list nat) (st : hstate) : hres :=
  match blocks with
  | [] => HAbort
  | b :: _ => let (st1, w) := update b st in h_work fuel blocks st1 [w]
  end.
(** Analyse, 350-370 *)
Fixpoint analyse_all (fuel : nat) (comps : list (list nat)) (st : hstate) : hres :=
  match comps with
  | [] => HDone st
  | c :: r => match analyse_blocks fuel c st with
              | HDone st1 => analyse_all fuel r st1
              | e => e
              end
  end.
Definition comp_blocks (st : cst) (c : nat) : list nat :=
  fold_right sins [] (map snd (filter (fun p => Nat.eqb (fst p) c) (c_blks st))).
Definition comp_kids (st : cst) (c : nat) : list nat :=
  fold_right sins [] (map snd (filter (fun p => Nat.eqb (fst p) c) (c_kids st))).
Definition rpo (st : cst) (root : nat) : res (vst (list nat)) :=
  visit (list nat) unit (seq 0 (c_next st)) (fun c l => (l, tt, comp_kids st c))
    (fun _ _ l => l) (fun _ _ _ u l => (u, l)) (fun c _ l => c :: l)
    (S (c_next st)) root ([], []).
(** HeapAnalysis on the component graph of the function; [None]: no graph, passes.h:372-375 *)
Definition heap_analysis (fuel : nat) : option hres :=
  match cfg_analysis co fn s with
  | CCfg root st =>
      match rpo st root with
      | Ok (_, order) => Some (analyse_all fuel (map (comp_blocks st) order) hst0)
      | _ => Some HNoFuel
      end
  | CNull => None
  | CNoFuel => Some HNoFuel
  end.

(** ** UpdateFunctionSummary, heap.h:629-684 *)
Record classes := mkCl { k_heap : list (nat * Z); k_arg : list (nat * Z); k_hoa : list (nat * Z) }.
Definition find_ctx (st : hstate) (b : nat) (a : Z) : option (insn * hctx) :=
  (fix go (n : nat) (l : list insn) : option (insn * hctx) :=
     match l with
     | [] => None
     | i :: r => if i_addr i =? a then Some (i, st b n) else go (S n) r
     end) 0%nat (h_insns b).
(** The type of the destination of the write at [a] in block [b], if it has one *)
Definition classify (st : hstate) (b : nat) (a : Z) : option lty :=
  match find_ctx st b a with
  | None => None
  | Some (i, c) => if hreg_eq_dec (hdst i) RNone then None else Some (a_ty (hget c (HR (hdst i))))
  end.
Definition cls_is (t : lty) (o : option lty) : bool :=
  match o with Some t' => lty_eqb t' t | None => false end.
Definition pick (t : lty) (st : hstate) : list (nat * Z) :=
  flat_map (fun w => map (fun a => (fst w, a))
    (filter (fun a => cls_is t (classify st (fst w) a)) (snd w))) (s_unknown_writes s).
Definition cleared (st : hstate) : list nat :=
  map fst (filter (fun w => forallb (fun a => cls_is HEAP (classify st (fst w) a)) (snd w))
    (s_unknown_writes s)).
Definition update_summary (st : hstate) : summary * classes :=
  let gone := cleared st in
  (set_unsafe_blocks (set_unknown_writes s (filter (fun w => negb (mem (fst w) gone)) (s_unknown_writes s)))
     (filter (fun b => negb (mem b gone)) (s_unsafe_blocks s)),
   mkCl (pick HEAP st) (pick ARG st) (pick HEAP_OR_ARG st)).
End HEAP.
