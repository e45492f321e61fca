(** * ShadowSpec: what the shadow stack is, independently of the emitter.

    The layout is the one set up by /repo/src/runtime.c:38-51: the gs base [b]
    holds the pointer to the next free slot, [b+8] is the scratch word of
    register frames, [b+16] and [b+24] are zero guards, entries start at
    [b+32], oldest first, 8 bytes each. *)
From Coq Require Import ZArith List Bool.
From Verif Require Import Machine.
Import ListNotations.
Open Scope Z_scope.

(** Address of the slot of the [i]-th oldest entry. *)
Definition slot (b : Z) (i : nat) : Z := b + 32 + 8 * Z.of_nat i.

(** [shadow_rep m b l]: memory [m] holds the shadow stack [l], newest entry
    first, of the thread whose gs base is [b]. *)
Definition shadow_rep (m : memory) (b : Z) (l : list Z) : Prop :=
  load64 m b = slot b (length l) /\
  load64 m (b + 24) = 0 /\
  forall i v, nth_error (rev l) i = Some v -> load64 m (slot b i) = v.

(** Byte range predicates. *)
Definition inside (a n x : Z) : Prop := a <= x < a + n.
Definition apart (a n b k : Z) : Prop := a + n <= b \/ b + k <= a.
Definition mapped (mp : perm) (a n : Z) : Prop :=
  0 <= a /\ a + n <= W /\ forall x, inside a n x -> mp x = true.

(** Abstract stack: what remains after returning to [ra]; [None] when [ra] was
    never recorded. *)
Fixpoint unwind (ra : Z) (l : list Z) : option (list Z) :=
  match l with
  | [] => None
  | v :: r => if v =? ra then Some r else unwind ra r
  end.

(** Every entry skipped on the way to [ra] has a non-zero low half. *)
Fixpoint clean_above (ra : Z) (l : list Z) : Prop :=
  match l with
  | [] => True
  | v :: r => v = ra \/ (v mod 2 ^ 32 <> 0 /\ clean_above ra r)
  end.

(** ** Requests to the emitter, in terms a user would use *)
From Coq Require Import String.
From Verif Require Import Jit.

(** Dyninst's names of the general registers. *)
Definition reg_name (r : reg) : string :=
  match r with
  | RAX => "x86_64::rax" | RBX => "x86_64::rbx" | RCX => "x86_64::rcx"
  | RDX => "x86_64::rdx" | RSP => "x86_64::rsp" | RBP => "x86_64::rbp"
  | RSI => "x86_64::rsi" | RDI => "x86_64::rdi" | R8 => "x86_64::r8"
  | R9 => "x86_64::r9" | R10 => "x86_64::r10" | R11 => "x86_64::r11"
  | R12 => "x86_64::r12" | R13 => "x86_64::r13" | R14 => "x86_64::r14"
  | R15 => "x86_64::r15"
  end.

(** Neither dry-run mode, no frame validation. *)
Definition plain (o : opts) : Prop :=
  o_dry_run o <> "empty"%string /\ o_dry_run o <> "only-save"%string /\
  o_validate_frame o = false.

(** A set of names of usable registers. *)
Definition names (ns : list string) : Prop :=
  NoDup ns /\ forall n, In n ns -> exists r, r <> RSP /\ n = reg_name r.

(** Register data as the block analysis hands it over. *)
Definition good_mid (d : mid) : Prop :=
  (m_saveCount d = 1 /\ names [m_reg1 d]) \/
  (m_saveCount d = 2 /\ names [m_reg1 d; m_reg2 d]).
Definition mid_dead (d : mid) : list string :=
  if m_saveCount d =? 2 then [m_reg1 d; m_reg2 d] else [m_reg1 d].

(** Dead sets with which --optimize_regs is well defined. *)
Definition good_dead (o : opts) (dead : list string) : Prop :=
  o_optimize_regs o = false \/ dead = [] \/
  (names dead /\ (4 <= List.length dead)%nat).

(** What the request for an entry (exit) check amounts to: the set of
    registers declared dead and the distance from rsp to the return address. *)
Definition entry_mid (pt : point) (js : jsum) (use_orig use_fixed : bool) : option mid :=
  if use_orig then zfind (j_entryData js) (p_block pt)
  else if use_fixed then zfind (j_entryFixed js) (p_edge_trg pt) else None.
Definition exit_mid (pt : point) (js : jsum) (use_orig : bool) : option mid :=
  if use_orig then zfind (j_exitData js) (p_block pt) else None.
Definition exit_dead_set (pt : point) (js : jsum) : list string :=
  match zfind (j_dead_exit js) (p_addr pt) with Some d => d | None => [] end.

Definition request_ok (o : opts) (omid : option mid) (dead : list string) : Prop :=
  match omid with Some d => good_mid d | None => good_dead o dead end.
Definition request_dead (o : opts) (omid : option mid) (dead : list string) : list string :=
  match omid with
  | Some d => mid_dead d
  | None => if o_optimize_regs o then dead else []
  end.
(** Bytes below rsp that the request lets the snippet use. *)
Definition request_scratch (o : opts) (omid : option mid) (dead : list string) : Z :=
  match omid with
  | Some d => 8 * (2 - m_saveCount d)
  | None => if (o_optimize_regs o && negb (Nat.eqb (List.length dead) 0))%bool then 0 else 16
  end.
Definition request_off (omid : option mid) (height : Z) : Z :=
  match omid with Some d => m_raOffset d + height | None => height end.

(** The environment in which a snippet runs: [l] is on the shadow stack, the
    return address lies [off] bytes above rsp, the shadow region has room for
    [k] entries, and it is apart from the 16 scratch bytes below rsp. *)
Record env (mp : perm) (s : state) (l : list Z) (off : Z) (k : nat) : Prop := {
  env_wf : wf s;
  env_scratch : mapped mp (rg s RSP - 16) 16;
  env_off : 0 <= off;
  env_ra : mapped mp (rg s RSP + off) 8;
  env_room : (List.length l <= k)%nat;
  env_region : mapped mp (gs s) (32 + 8 * Z.of_nat k);
  env_top : slot (gs s) k < W;
  env_apart : apart (rg s RSP - 16) 16 (gs s) (32 + 8 * Z.of_nat k);
  env_rep : shadow_rep (mem s) (gs s) l }.
