(** * Jit: model of /repo/src/jit.cc (code emission).

    The emitter is a function from flags, register map, analysis results and
    insertion point to the list of emitted instructions.  Simplifications:
    - std::set<std::string> / std::map are lists in iteration order;
    - an asmjit call with an invalid register operand emits nothing (asmjit
      returns an error code that jit.cc ignores);
    - the unused tmp3 is modelled because SaveTempRegisters may push it. *)
From Coq Require Import ZArith List Bool String Ascii.
From Verif Require Import Machine.
Import ListNotations.
Open Scope Z_scope.

(** asmjit::x86::Gp; a default constructed one is invalid. *)
Definition gp := option reg.

(** std::map<std::string, Gp> in iteration (lexicographic) order. *)
Definition rmap := list (string * gp).

(** jit.cc:18-24 [kRegisterMap] (rsp is commented out there). *)
Definition kRegisterMap : rmap :=
  [ ("x86_64::r10", Some R10); ("x86_64::r11", Some R11);
    ("x86_64::r12", Some R12); ("x86_64::r13", Some R13);
    ("x86_64::r14", Some R14); ("x86_64::r15", Some R15);
    ("x86_64::r8", Some R8);   ("x86_64::r9", Some R9);
    ("x86_64::rax", Some RAX); ("x86_64::rbp", Some RBP);
    ("x86_64::rbx", Some RBX); ("x86_64::rcx", Some RCX);
    ("x86_64::rdi", Some RDI); ("x86_64::rdx", Some RDX);
    ("x86_64::rsi", Some RSI) ]%string.

(** std::map::find. *)
Fixpoint map_find (m : rmap) (k : string) : option gp :=
  match m with
  | [] => None
  | (k', v) :: r => if String.eqb k' k then Some v else map_find r k
  end.

Fixpoint map_insert (m : rmap) (k : string) (v : gp) : rmap :=
  match m with
  | [] => [(k, v)]
  | (k', v') :: r =>
      if String.ltb k k' then (k, v) :: m else (k', v') :: map_insert r k v
  end.

(** std::map::operator[]: inserts a default (invalid) Gp when absent. *)
Definition map_index (m : rmap) (k : string) : gp * rmap :=
  match map_find m k with
  | Some v => (v, m)
  | None => (None, map_insert m k None)
  end.

(** Emission outcome: [EUB] is undefined behaviour (dereference or increment
    of end(), null dereference), [EAbort] a failed DCHECK. *)
Inductive eres (A : Type) :=
| EOk (a : A)
| EUB
| EAbort.
Arguments EOk {A} _.
Arguments EUB {A}.
Arguments EAbort {A}.

Definition ebind {A B} (x : eres A) (f : A -> eres B) : eres B :=
  match x with EOk a => f a | EUB => EUB | EAbort => EAbort end.

(** Command-line flags used by jit.cc:13-16. *)
Record opts := mkOpts { o_dry_run : string; o_validate_frame : bool;
                        o_optimize_regs : bool }.

(** pass_manager.h:31-39 [MoveInstData]. *)
Record mid := mkMid { m_addr : Z; m_raOffset : Z; m_saveCount : Z;
                      m_reg1 : string; m_reg2 : string }.

(** The FuncSummary fields that jit.cc reads (pass_manager.h:213-221). *)
Record jsum := mkJsum {
  j_dead_entry : list string;
  j_dead_exit : list (Z * list string);
  j_unused : list string;
  j_entryData : list (Z * mid);
  j_exitData : list (Z * mid);
  j_entryFixed : list (Z * mid) }.

(** The parts of PatchAPI::Point that jit.cc reads. *)
Record point := mkPoint { p_block : Z; p_edge_trg : Z; p_addr : Z }.

Fixpoint zfind {A} (l : list (Z * A)) (k : Z) : option A :=
  match l with
  | [] => None
  | (k', v) :: r => if k' =? k then Some v else zfind r k
  end.

(** asmjit Assembler: emitted code and label counter. *)
Record asm := mkAsm { code : list instr; nlabel : nat }.
Definition asm0 : asm := mkAsm [] 0.
Definition emit (i : instr) (a : asm) : asm := mkAsm (code a ++ [i]) (nlabel a).
Definition new_label (a : asm) : nat * asm :=
  (nlabel a, mkAsm (code a) (S (nlabel a))).

Definition with_reg (g : gp) (f : reg -> asm -> asm) (a : asm) : asm :=
  match g with Some r => f r a | None => a end.
Definition a_push (g : gp) := with_reg g (fun r => emit (IPush r)).
Definition a_pop (g : gp) := with_reg g (fun r => emit (IPop r)).
Definition a_load (g : gp) (m : mem_op) := with_reg g (fun r => emit (IMovRM r m)).
Definition a_store (m : mem_op) (g : gp) := with_reg g (fun r => emit (IMovMR m r)).
(** Operand whose base is itself a Gp. *)
Definition a_load_b (g b : gp) (d : Z) :=
  with_reg b (fun rb => a_load g (MBase rb d)).
Definition a_store_b (b : gp) (d : Z) (g : gp) :=
  with_reg b (fun rb => a_store (MBase rb d) g).
Definition a_lea (g b : gp) (d : Z) :=
  with_reg g (fun r => with_reg b (fun rb => emit (ILea r rb d))).
Definition a_cmp (g : gp) (m : mem_op) := with_reg g (fun r => emit (ICmpRM r m)).
Definition a_cmp_b (g b : gp) (d : Z) :=
  with_reg b (fun rb => a_cmp g (MBase rb d)).
Definition a_cmp32_b (b : gp) (d i : Z) :=
  with_reg b (fun rb => emit (ICmpM32I (MBase rb d) i)).
Definition a_subri (g : gp) (i : Z) := with_reg g (fun r => emit (ISubRI r i)).

(** [%gs:0] and [%gs:8] operands (jit.cc:216-219, 410-413). *)
Definition shadow_ptr : mem_op := MGs 0.
Definition scratch : mem_op := MGs 8.

(** jit.cc:26-33 [TempRegisters]. *)
Record temps := mkTemps {
  tmp1 : gp; tmp2 : gp; tmp3 : gp;
  sv1 : bool; sv2 : bool; sv3 : bool; spo : Z }.

(** jit.cc:39-58: the selection loop; returns (tmp1, tmp2, tmp3, count). *)
Fixpoint pick (m : rmap) (exclude : list string) (t1 t2 t3 : gp) (count : nat)
  : gp * gp * gp * nat :=
  match m with
  | [] => (t1, t2, t3, count)
  | (k, v) :: r =>
      let '(t1', t2', t3', count') :=
        if existsb (String.eqb k) exclude then (t1, t2, t3, count)
        else match count with
             | O => (v, t2, t3, S count)
             | S O => (t1, v, t3, S count)
             | S (S O) => (t1, t2, v, S count)
             | _ => (t1, t2, t3, S count)
             end in
      if Nat.eqb count' 2 then (t1', t2', t3', count')
      else pick r exclude t1' t2' t3' count'
  end.

(** jit.cc:35-61 default constructor. *)
Definition temps_default (m : rmap) (exclude : list string) (height : Z)
  : eres temps :=
  let '(t1, t2, t3, count) := pick m exclude None None None 0 in
  if Nat.eqb count 2
  then EOk (mkTemps t1 t2 t3 true true true height)
  else EAbort.

(** jit.cc:63-77 constructor from MoveInstData. *)
Definition temps_mid (m : rmap) (d : mid) (height : Z) : eres (temps * rmap) :=
  let off := m_raOffset d + height in
  let '(t1, m1) := map_index m (m_reg1 d) in
  if m_saveCount d =? 2 then
    let '(t2, m2) := map_index m1 (m_reg2 d) in
    EOk (mkTemps t1 t2 None false false true off, m2)
  else
    match m1 with
    | [] => EUB
    | (k, v) :: r =>
        if String.eqb k (m_reg1 d) then
          match r with
          | [] => EUB
          | (_, v') :: _ => EOk (mkTemps t1 v' None false true true off, m1)
          end
        else EOk (mkTemps t1 v None false true true off, m1)
    end.

Definition set_t1 (t : temps) g s := mkTemps g (tmp2 t) (tmp3 t) s (sv2 t) (sv3 t) (spo t).
Definition set_t2 (t : temps) g s := mkTemps (tmp1 t) g (tmp3 t) (sv1 t) s (sv3 t) (spo t).
Definition set_t3 (t : temps) g s := mkTemps (tmp1 t) (tmp2 t) g (sv1 t) (sv2 t) s (spo t).
Definition add_off (t : temps) (d : Z) :=
  mkTemps (tmp1 t) (tmp2 t) (tmp3 t) (sv1 t) (sv2 t) (sv3 t) (spo t + d).

(** jit.cc:92-95 [Save]. *)
Definition save (g : gp) (at_ : asm * temps) : asm * temps :=
  let '(a, t) := at_ in (a_push g a, add_off t 8).

(** jit.cc:80-90 [SaveOrSkip]; [get]/[set] select tmp1, tmp2 or tmp3. *)
Definition save_or_skip (m : rmap) (name : string) (get : temps -> gp)
    (set : temps -> gp -> bool -> temps) (at_ : asm * temps) : asm * temps :=
  let '(a, t) := at_ in
  match map_find m name with
  | Some g => (a, set t g false)
  | None => save (get t) (a, t)
  end.

(** jit.cc:97-102 [UseSpecifiedRegisters]. *)
Definition use_specified (m : rmap) (d : mid) (height : Z) (a : asm)
  : eres (asm * temps * rmap) :=
  ebind (temps_mid m d height) (fun '(t, m') =>
  let at1 := if sv1 t then save (tmp1 t) (a, t) else (a, t) in
  let at2 := if sv2 (snd at1) then save (tmp2 (snd at1)) at1 else at1 in
  EOk (at2, m')).

(** One of the three iterator steps of jit.cc:115-131: [reg++ != end()] at
    position [i] and then the dereference at position [i+1]. *)
Definition dead_step (m : rmap) (dead : list string) (i : nat)
    (get : temps -> gp) (set : temps -> gp -> bool -> temps)
    (at_ : asm * temps) : eres (asm * temps) :=
  if Nat.eqb i (List.length dead) then EUB     (* increments end() *)
  else match nth_error dead (S i) with
       | None => EUB                      (* dereferences end() *)
       | Some name => EOk (save_or_skip m name get set at_)
       end.

(** jit.cc:104-135 [SaveTempRegisters]. *)
Definition save_temps (o : opts) (m : rmap) (dead exclude : list string)
    (height : Z) (a : asm) : eres (asm * temps) :=
  ebind (temps_default m exclude height) (fun t =>
  let none_dead := match dead with [] => true | _ => false end in
  if (o_optimize_regs o && none_dead) || negb (o_optimize_regs o) then
    let at1 := save (tmp1 t) (a, t) in
    EOk (save (tmp2 (snd at1)) at1)
  else
    ebind (dead_step m dead 0 tmp1 set_t1 (a, t)) (fun at1 =>
    ebind (dead_step m dead 1 tmp2 set_t2 at1) (fun at2 =>
    dead_step m dead 2 tmp3 set_t3 at2))).

(** jit.cc:137-149 [RestoreTempRegisters] (the tmp3 pop is commented out). *)
Definition restore_temps (t : temps) (a : asm) : asm :=
  let a := if sv2 t then a_pop (tmp2 t) a else a in
  if sv1 t then a_pop (tmp1 t) a else a.

(** jit.cc:151-166 [SaveRa]. *)
Definition save_ra (sp ra : gp) (t : temps) (a : asm) : asm :=
  let a := a_load ra (MBase RSP (spo t)) a in
  let a := a_load sp shadow_ptr a in
  let a := a_store_b sp 0 ra a in
  let a := a_lea sp sp 8 a in
  a_store shadow_ptr sp a.

(** jit.cc:168-188 [SaveRaAndFrame]. *)
Definition save_ra_frame (sp ra : gp) (t : temps) (a : asm) : asm :=
  let a := emit IPushfq a in
  let a := a_load ra (MBase RSP (spo t)) a in
  let a := a_load sp shadow_ptr a in
  let a := emit (IAddMI shadow_ptr 16) a in
  let a := a_store_b sp 0 ra a in
  let a := a_lea ra (Some RSP) 24 a in
  let a := a_store_b sp 8 ra a in
  emit IPopfq a.

(** jit.cc:233-278 [ValidateRa]. *)
Definition validate_ra (sp ra : gp) (t : temps) (a : asm) : asm :=
  let '(error, a) := new_label a in
  let '(done, a) := new_label a in
  let '(loop, a) := new_label a in
  let a := a_load sp shadow_ptr a in
  let a := emit (IBind loop) a in
  let a := a_lea sp sp (-8) a in
  let a := a_load_b ra sp 0 a in
  let a := a_store shadow_ptr sp a in
  let a := a_cmp ra (MBase RSP (spo t)) a in
  let a := emit (IJe done) a in
  let a := a_cmp32_b sp 0 0 a in
  let a := emit (IJe error) a in
  let a := emit (IJmp loop) a in
  let a := emit (IBind error) a in
  let a := emit (IByte 98) a in
  emit (IBind done) a.

(** jit.cc:280-336 [ValidateRaAndFrame]. *)
Definition validate_ra_frame (sp ra : gp) (t : temps) (a : asm) : asm :=
  let '(error, a) := new_label a in
  let '(done, a) := new_label a in
  let '(loop, a) := new_label a in
  let '(unwind, a) := new_label a in
  let a := emit IPushfq a in
  let a := a_load sp shadow_ptr a in
  let a := emit (IBind loop) a in
  let a := a_load_b ra sp (-16) a in
  let a := emit (ISubMI shadow_ptr 16) a in
  let a := a_cmp ra (MBase RSP (spo t)) a in
  let a := emit (IJne unwind) a in
  let a := a_lea ra (Some RSP) (spo t) a in
  let a := a_cmp_b ra sp (-8) a in
  let a := emit (IJe done) a in
  let a := emit (IBind unwind) a in
  let a := a_subri sp 16 a in
  let a := a_cmp32_b sp 0 0 a in
  let a := emit (IJe error) a in
  let a := emit (IJmp loop) a in
  let a := emit (IBind error) a in
  let a := emit (IByte 98) a in
  let a := emit (IBind done) a in
  emit IPopfq a.

Definition is_empty_run (o : opts) : bool := String.eqb (o_dry_run o) "empty".
Definition is_only_save (o : opts) : bool := String.eqb (o_dry_run o) "only-save".

(** jit.cc:190-231 [JitStackPush].  [s = None] models the null summary. *)
Definition jit_stack_push (o : opts) (m : rmap) (pt : point) (s : option jsum)
    (use_orig : bool) (height : Z) (use_fixed : bool)
  : eres (list instr * rmap) :=
  if is_empty_run o then EOk ([], m)
  else
    let omid : eres (option mid) :=
      if use_orig then
        match s with
        | None => EUB
        | Some js => EOk (zfind (j_entryData js) (p_block pt))
        end
      else if use_fixed then
        match s with
        | None => EUB
        | Some js => EOk (zfind (j_entryFixed js) (p_edge_trg pt))
        end
      else EOk None in
    ebind omid (fun omid =>
    ebind (match omid, s with
           | Some d, _ => use_specified m d height asm0
           | None, Some js =>
               ebind (save_temps o m (j_dead_entry js) [] height asm0)
                     (fun at_ => EOk (at_, m))
           | None, None =>
               ebind (save_temps o m [] [] 0 asm0) (fun at_ => EOk (at_, m))
           end) (fun '(a, t, m') =>
    let a :=
      if is_only_save o then a
      else if o_validate_frame o then save_ra_frame (tmp1 t) (tmp2 t) t a
      else save_ra (tmp1 t) (tmp2 t) t a in
    EOk (code (restore_temps t a), m'))).

(** jit.cc:338-383 [JitStackPop]. *)
Definition jit_stack_pop (o : opts) (m : rmap) (pt : point) (s : option jsum)
    (use_orig : bool) : eres (list instr * rmap) :=
  if is_empty_run o then EOk ([], m)
  else
    let omid : eres (option mid) :=
      if use_orig then
        match s with
        | None => EUB
        | Some js => EOk (zfind (j_exitData js) (p_block pt))
        end
      else EOk None in
    ebind omid (fun omid =>
    ebind (match omid, s with
           | Some d, _ => use_specified m d 0 asm0
           | None, Some js =>
               let dead := match zfind (j_dead_exit js) (p_addr pt) with
                           | Some d => d | None => [] end in
               ebind (save_temps o m dead [] 0 asm0) (fun at_ => EOk (at_, m))
           | None, None =>
               ebind (save_temps o m [] [] 0 asm0) (fun at_ => EOk (at_, m))
           end) (fun '(a, t, m') =>
    let a :=
      if is_only_save o then a
      else if o_validate_frame o then validate_ra_frame (tmp1 t) (tmp2 t) t a
      else validate_ra (tmp1 t) (tmp2 t) t a in
    EOk (code (restore_temps t a), m'))).

(** jit.cc:385-393 [GetUnusedRegister]. *)
Definition get_unused (m : rmap) (s : jsum) : eres (string * gp) :=
  match j_unused s with
  | [] => EAbort
  | n :: _ => match map_find m n with
              | None => EAbort
              | Some g => EOk (n, g)
              end
  end.

(** jit.cc:395-421 [JitRegisterPush]. *)
Definition jit_register_push (o : opts) (m : rmap) (s : jsum) (height : Z)
  : eres (list instr) :=
  if is_empty_run o then EOk []
  else ebind (get_unused m s) (fun '(_, g) =>
    let a := a_store scratch g asm0 in
    let a := if is_only_save o then a else a_load g (MBase RSP height) a in
    EOk (code a)).

(** jit.cc:423-487 [JitRegisterPop]. *)
Definition jit_register_pop (o : opts) (m : rmap) (s : jsum)
  : eres (list instr) :=
  if is_empty_run o then EOk []
  else ebind (get_unused m s) (fun '(n, g) =>
    ebind
      (if is_only_save o then EOk asm0
       else
         let '(success, a) := new_label asm0 in
         let a := a_cmp g (MBase RSP 0) a in
         let a := emit (IJe success) a in
         ebind (save_temps o m [] [n] 0 a) (fun '(a, t) =>
         let a := validate_ra (tmp1 t) (tmp2 t) t a in
         let a := restore_temps t a in
         EOk (emit (IBind success) a)))
      (fun a => EOk (code (a_load g scratch a)))).
