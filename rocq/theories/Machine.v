(** * Machine: the x86-64 subset that the emitted snippets use.

    Models the processor on which the code emitted by /repo/src/jit.cc runs.
    It is not a model of any repository code itself; it is the semantics of
    exactly those instructions that jit.cc:80-487 asks asmjit to emit.

    Simplifications: code lives apart from data; an access that wraps around
    2^64 or touches a byte without permission is a fault; the flags register
    consists of CF PF AF ZF SF OF DF (the rest of RFLAGS is constant). *)
From Coq Require Import ZArith List Bool Lia.
Import ListNotations.
Open Scope Z_scope.

Definition W : Z := 18446744073709551616.  (* 2^64 *)

Inductive reg :=
| RAX | RBX | RCX | RDX | RSP | RBP | RSI | RDI
| R8 | R9 | R10 | R11 | R12 | R13 | R14 | R15.

Definition reg_eq_dec (a b : reg) : {a = b} + {a <> b}.
Proof. decide equality. Defined.

Definition reg_eqb (a b : reg) : bool := if reg_eq_dec a b then true else false.

Definition regs := reg -> Z.
Definition memory := Z -> Z.          (* byte memory *)

Definition updr (f : regs) (r : reg) (v : Z) : regs :=
  fun x => if reg_eq_dec x r then v else f x.
Definition updm (f : memory) (a : Z) (v : Z) : memory :=
  fun x => if Z.eq_dec x a then v else f x.

(** Little-endian loads and stores of [n] bytes. *)
Fixpoint load (m : memory) (a : Z) (n : nat) : Z :=
  match n with
  | O => 0
  | S k => (m a) mod 256 + 256 * load m (a + 1) k
  end.
Fixpoint store (m : memory) (a : Z) (n : nat) (v : Z) : memory :=
  match n with
  | O => m
  | S k => store (updm m a (v mod 256)) (a + 1) k (v / 256)
  end.

Definition load64 m a := load m a 8.
Definition load32 m a := load m a 4.
Definition store64 m a v := store m a 8 v.

Record flags := mkFlags { CF : bool; PF : bool; AF : bool; ZF : bool;
                          SF : bool; OF : bool; DF : bool }.

Definition b2z (b : bool) : Z := if b then 1 else 0.

(** RFLAGS image pushed by pushfq: bit 1 and IF are always set. *)
Definition encode_flags (f : flags) : Z :=
  b2z (CF f) + 2 + 4 * b2z (PF f) + 16 * b2z (AF f) + 64 * b2z (ZF f)
  + 128 * b2z (SF f) + 512 + 1024 * b2z (DF f) + 2048 * b2z (OF f).
Definition decode_flags (z : Z) : flags :=
  {| CF := Z.testbit z 0; PF := Z.testbit z 2; AF := Z.testbit z 4;
     ZF := Z.testbit z 6; SF := Z.testbit z 7; OF := Z.testbit z 11;
     DF := Z.testbit z 10 |}.

Definition parity8 (v : Z) : bool :=
  negb (fold_right xorb false
          (map (fun i => Z.testbit v i) [0;1;2;3;4;5;6;7])).

(** Flags after [a - b] on operands of [bits] bits (cmp, sub). *)
Definition sub_flags (bits : Z) (f : flags) (a b : Z) : flags :=
  let r := (a - b) mod 2 ^ bits in
  {| CF := a <? b;
     PF := parity8 r;
     AF := (a mod 16) <? (b mod 16);
     ZF := r =? 0;
     SF := Z.testbit r (bits - 1);
     OF := let sa := Z.testbit a (bits - 1) in
           let sb := Z.testbit b (bits - 1) in
           let sr := Z.testbit r (bits - 1) in
           xorb sa sb && xorb sa sr;
     DF := DF f |}.

(** Flags after [a + b] on 64-bit operands. *)
Definition add_flags (f : flags) (a b : Z) : flags :=
  let r := (a + b) mod W in
  {| CF := W <=? a + b;
     PF := parity8 r;
     AF := 16 <=? (a mod 16) + (b mod 16);
     ZF := r =? 0;
     SF := Z.testbit r 63;
     OF := let sa := Z.testbit a 63 in
           let sb := Z.testbit b 63 in
           let sr := Z.testbit r 63 in
           negb (xorb sa sb) && xorb sa sr;
     DF := DF f |}.

Inductive mem_op :=
| MBase (r : reg) (disp : Z)     (* disp(%r) *)
| MGs (disp : Z).                (* %gs:disp *)

Inductive instr :=
| IPush (r : reg)
| IPop (r : reg)
| IPushfq
| IPopfq
| IMovRM (r : reg) (m : mem_op)     (* mov r, m64 *)
| IMovMR (m : mem_op) (r : reg)     (* mov m64, r *)
| ILea (r : reg) (b : reg) (disp : Z)
| ICmpRM (r : reg) (m : mem_op)     (* cmp r, m64 *)
| ICmpM32I (m : mem_op) (i : Z)     (* cmp dword m, imm *)
| IAddMI (m : mem_op) (i : Z)       (* add m64, imm *)
| ISubMI (m : mem_op) (i : Z)       (* sub m64, imm *)
| ISubRI (r : reg) (i : Z)          (* sub r, imm *)
| IJe (l : nat)
| IJne (l : nat)
| IJmp (l : nat)
| IBind (l : nat)                   (* label, no code *)
| IByte (b : Z).                    (* raw byte *)

Record state := mkState {
  rg : regs;
  mem : memory;
  gs : Z;          (* gs base, set by arch_prctl(ARCH_SET_GS) *)
  fl : flags;
  pc : nat         (* index into the snippet *)
}.

Definition perm := Z -> bool.

Fixpoint all_perm (mp : perm) (a : Z) (n : nat) : bool :=
  match n with
  | O => true
  | S k => mp a && all_perm mp (a + 1) k
  end.
Definition acc (mp : perm) (a : Z) (n : nat) : bool :=
  (0 <=? a) && (a + Z.of_nat n <=? W) && all_perm mp a n.

Definition ea (s : state) (m : mem_op) : Z :=
  match m with
  | MBase r d => (rg s r + d) mod W
  | MGs d => (gs s + d) mod W
  end.

Inductive stepres :=
| SNext (s : state)
| SEnd              (* ran off the end: control reaches the original code *)
| STrap             (* SIGILL *)
| SFault.           (* memory fault or unknown label *)

Fixpoint find_label_from (c : list instr) (l : nat) (i : nat) : option nat :=
  match c with
  | [] => None
  | IBind k :: r => if Nat.eqb k l then Some i else find_label_from r l (S i)
  | _ :: r => find_label_from r l (S i)
  end.
Definition find_label (c : list instr) (l : nat) : option nat :=
  find_label_from c l 0.

Definition goto (c : list instr) (s : state) (l : nat) : stepres :=
  match find_label c l with
  | Some i => SNext (mkState (rg s) (mem s) (gs s) (fl s) i)
  | None => SFault
  end.

Definition upd_state (s : state) (g : regs) (m : memory) (f : flags) : stepres :=
  SNext (mkState g m (gs s) f (S (pc s))).

Definition step (c : list instr) (mp : perm) (s : state) : stepres :=
  match nth_error c (pc s) with
  | None => SEnd
  | Some i =>
    match i with
    | IPush r =>
        let a := (rg s RSP - 8) mod W in
        if acc mp a 8 then
          upd_state s (updr (rg s) RSP a) (store64 (mem s) a (rg s r)) (fl s)
        else SFault
    | IPop r =>
        let a := rg s RSP in
        if acc mp a 8 then
          upd_state s (updr (updr (rg s) RSP ((a + 8) mod W)) r (load64 (mem s) a))
                    (mem s) (fl s)
        else SFault
    | IPushfq =>
        let a := (rg s RSP - 8) mod W in
        if acc mp a 8 then
          upd_state s (updr (rg s) RSP a)
                    (store64 (mem s) a (encode_flags (fl s))) (fl s)
        else SFault
    | IPopfq =>
        let a := rg s RSP in
        if acc mp a 8 then
          upd_state s (updr (rg s) RSP ((a + 8) mod W)) (mem s)
                    (decode_flags (load64 (mem s) a))
        else SFault
    | IMovRM r o =>
        let a := ea s o in
        if acc mp a 8 then
          upd_state s (updr (rg s) r (load64 (mem s) a)) (mem s) (fl s)
        else SFault
    | IMovMR o r =>
        let a := ea s o in
        if acc mp a 8 then
          upd_state s (rg s) (store64 (mem s) a (rg s r)) (fl s)
        else SFault
    | ILea r b d =>
        upd_state s (updr (rg s) r ((rg s b + d) mod W)) (mem s) (fl s)
    | ICmpRM r o =>
        let a := ea s o in
        if acc mp a 8 then
          upd_state s (rg s) (mem s) (sub_flags 64 (fl s) (rg s r) (load64 (mem s) a))
        else SFault
    | ICmpM32I o i =>
        let a := ea s o in
        if acc mp a 4 then
          upd_state s (rg s) (mem s)
                    (sub_flags 32 (fl s) (load32 (mem s) a) (i mod 2 ^ 32))
        else SFault
    | IAddMI o i =>
        let a := ea s o in
        if acc mp a 8 then
          let v := load64 (mem s) a in
          upd_state s (rg s) (store64 (mem s) a ((v + i mod W) mod W))
                    (add_flags (fl s) v (i mod W))
        else SFault
    | ISubMI o i =>
        let a := ea s o in
        if acc mp a 8 then
          let v := load64 (mem s) a in
          upd_state s (rg s) (store64 (mem s) a ((v - i mod W) mod W))
                    (sub_flags 64 (fl s) v (i mod W))
        else SFault
    | ISubRI r i =>
        let v := rg s r in
        upd_state s (updr (rg s) r ((v - i mod W) mod W)) (mem s)
                  (sub_flags 64 (fl s) v (i mod W))
    | IJe l => if ZF (fl s) then goto c s l else upd_state s (rg s) (mem s) (fl s)
    | IJne l => if ZF (fl s) then upd_state s (rg s) (mem s) (fl s) else goto c s l
    | IJmp l => goto c s l
    | IBind _ => upd_state s (rg s) (mem s) (fl s)
    | IByte b => if b =? 98 then STrap else SFault
    end
  end.

Inductive result :=
| Done (s : state)
| Trap
| Fault
| OutOfFuel.

Fixpoint run (fuel : nat) (c : list instr) (mp : perm) (s : state) : result :=
  match fuel with
  | O => OutOfFuel
  | S k =>
    match step c mp s with
    | SNext s' => run k c mp s'
    | SEnd => Done s
    | STrap => Trap
    | SFault => Fault
    end
  end.

(** A snippet is entered at its first instruction. *)
Definition enter (s : state) : state := mkState (rg s) (mem s) (gs s) (fl s) 0.

(** [exec c mp s r]: running snippet [c] from [s] ends with result [r]. *)
Definition exec (c : list instr) (mp : perm) (s : state) (r : result) : Prop :=
  r <> OutOfFuel /\ exists n, run n c mp (enter s) = r.

(** A 64-bit machine state: all registers hold 64-bit values. *)
Definition wf (s : state) : Prop :=
  (forall r, 0 <= rg s r < W) /\ 0 <= gs s < W.
