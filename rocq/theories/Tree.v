(** * Tree: executions of the instrumented program, instruction by instruction
    This is not a model of tool code.  It puts the calls of Activation.v together: a call is run
    by running the instructions of the function along a path, with the inserted code between
    them; a call instruction runs the function that is called, down to any depth.

    What is left out: exceptions (see C35), longjmp, signal handlers, other threads (see C17), jumps
    and calls into the middle of functions. *)
From Coq Require Import ZArith Bool Lia ZifyBool ZifyNat Arith String List.
From Verif Require Import Machine MachineFacts Jit ShadowSpec.
From Verif Require Import Dfs Binary CallGraph InterProc MemPasses Pipeline RegNames BlockLive
  Reach SafePaths Lowering FastPath Decision FullRun Whole P_Whole Sites Order Activation ActRun.
Import ListNotations.
Open Scope Z_scope.
Local Notation mem := Machine.mem.

Section TREE.
Variables (co : code) (fl : Lowering.flags) (fs : list finfo) (m : sums).
Variable width : insn -> Z.
Variable stk : Z -> Prop.
Variables (o : opts) (d : nat -> dead_info).
Variable mp : perm.
Variable base : Z.               (* the shadow stack, with room for [k] addresses *)
Variable k : nat.
Variable usable0 : Z -> Prop.    (* values of rsp in wild frames, see Activation.v *)
Variable X : Type.
Variable sem : insn -> pst Machine.flags X -> option (pst Machine.flags X).
Notation pstate := (pst Machine.flags X).

(** How a call ends: it returns to the address that the call stored; it returns to some other
    address [w]; it is stopped by a check while about to return to [w] though the call stored
    [ra]; inserted code faults; it is looked at no further; the word at the return, or at a jump to
    another function, is zero though the call stored [ra].
    [ws]: after jumps to other functions, the calls out of [w] are left as well, see [via]. *)
Inductive ending :=
| Back (q : pstate) | Away (q : pstate) (w : Z) (ws : list Z)
| Halt (w ra : Z) | Fail | Cut | Null.

(** ** Single steps *)
Definition in_fr (lo cfa : Z) (p : pstate) (wd : bool) : Prop :=
  if wd then usable0 (p_rg p RSP) else lo + 16 <= p_rg p RSP <= cfa - 8.
Definition height (cfa : Z) (wd : bool) (h : option Z) (p : pstate) : Prop :=
  wd = false -> forall z, h = Some z -> p_rg p RSP = cfa + z.
Definition here (cfa : Z) (n : node) (p : pstate) (wd : bool) : Prop :=
  height cfa wd (b_sp_entry (co_block co (snd n))) p.
Definition out (cfa : Z) (n : node) (p : pstate) (wd : bool) : Prop :=
  height cfa wd (b_sp_end (co_block co (snd n))) p /\
  (wd = false -> forall c, FastPath.step co (snd n) c -> only_ret co c -> p_rg p RSP = cfa - 8).
(** A store to the stack from the return address upwards is one that the decoder has told of.
    Only such a store makes a frame wild. *)
Definition decoded (cfa : Z) (i : insn) (x : Z) : Prop :=
  i_frame i = false /\ i_wmem i = true /\ exists l, In l (i_outs i) /\ covers width stk cfa i l x.
Definition plain_step (lo cfa : Z) (i : insn) (p : pstate) (wd : bool) (p' : pstate) (wd' : bool) : Prop :=
  wfp X p' /\ in_fr lo cfa p' wd' /\ keeps_shadow X base p p' /\
  load64 (p_mem p') (base + 8) = load64 (p_mem p) (base + 8) /\
  (wd = false ->
     (forall x, above stk cfa x -> p_mem p' x <> p_mem p x -> decoded cfa i x) /\
     (wd' = true -> i_op i <> OPush /\ exists x, above stk cfa x /\ decoded cfa i x)).

(** ** Calls *)
(** Room on the stack for a call of [g]. *)
Definition fits (g : nat) (lo cfa : Z) : Prop :=
  lo + 24 <= cfa /\ exists hi,
    room co g unit mp base lo cfa hi stk (mkScope (fun _ => false) usable0) k.
Definition pushed (p : pstate) (ra : Z) : pstate :=
  mkPst (updr (p_rg p) RSP (p_rg p RSP - 8)) (store64 (p_mem p) (p_rg p RSP - 8) ra) (p_fl p) (p_rest p).
Definition popped (p : pstate) : pstate :=
  mkPst (updr (p_rg p) RSP (p_rg p RSP + 8)) (p_mem p) (p_fl p) (p_rest p).

(** Running a function: [runs g lo cfa ra p z] for function, frame, stored return address, state
    at its entry and how it ends. *)
Definition running : Type := nat -> Z -> Z -> Z -> pstate -> ending -> Prop.
(** Library code leaves the shadow stack alone.  It can call functions of the program. *)
Definition lib_step (p p' : pstate) : Prop := wfp X p' /\ keeps_shadow X base p p'.
Inductive libs (A : running) : pstate -> ending -> Prop :=
| lb_done p p' : lib_step p p' -> libs A p (Back p')
| lb_call p p1 g lo ra p2 z : lib_step p p1 -> own co g -> 0 <= ra < W ->
    A g lo (p_rg p1 RSP) ra (pushed p1 ra) (Back p2) -> libs A p2 z -> libs A p z
| lb_stop p p1 g lo ra z : lib_step p p1 -> own co g -> 0 <= ra < W ->
    A g lo (p_rg p1 RSP) ra (pushed p1 ra) z -> (forall q, z <> Back q) -> libs A p z.
(** Trusted library functions leave the caller's stack and stack pointer alone. *)
Definition trusted_step (cfa : Z) (p p' : pstate) : Prop :=
  lib_step p p' /\ same_on (above stk cfa) (p_mem p) (p_mem p').
(** A call along [e] out of a frame, wild or not. *)
Inductive called (A : running) (cfa : Z) (wd : bool) (e : edge) (p : pstate) : ending -> Prop :=
| c_own g lo ra z : goes_to co e g -> 0 <= ra < W ->
    A g lo (p_rg p RSP) ra (pushed p ra) z -> called A cfa wd e p z
| c_trusted s q : goes_out co e (Some s) -> trusted_lib s -> wd = false ->
    trusted_step cfa p q -> p_rg q RSP = p_rg p RSP -> called A cfa wd e p (Back q)
| c_other name z : goes_out co e name -> wd = true \/ (forall s, name = Some s -> ~ trusted_lib s) ->
    libs A p z -> called A cfa wd e p z.
(** The frame of the caller afterwards. *)
Definition back_step (lo cfa : Z) (e : edge) (p : pstate) (wd : bool) (q : pstate) (wd' : bool) : Prop :=
  in_fr lo cfa q wd' /\
  (wd = false -> wd' = true -> rough_call co (harmless co) e \/ p_rg q RSP <> p_rg p RSP).
(** A return to [w] ends calls down to the first one that has stored [w] and whose return address
    has been recorded on the shadow stack: [pu].  The execution resumes in its caller. *)
Definition outer (pu : bool) (ra : Z) (z : ending) : ending :=
  match z with
  | Away q w ws => if pu && (w =? ra) then match ws with [] => Back q | w' :: r => Away q w' r end else z
  | _ => z
  end.

(** ** One call *)
Definition is_push (sn : snip) : bool := match sn with StackPush _ => true | _ => false end.
Definition is_check (sn : snip) : bool := match sn with StackPop _ | RegPop _ => true | _ => false end.
Definition goes (ra w : Z) (q : pstate) : ending := if w =? ra then Back q else Away q w [].
(** A function jumped to returns to the word [w] on the stack. *)
Definition via (ra w : Z) (z : ending) : ending :=
  match z with
  | Back q => goes ra w q
  | Away q w' ws => if w =? ra then z else Away q w (w' :: ws)
  | _ => z
  end.
Definition word_at (p : pstate) : Z := load64 (p_mem p) (p_rg p RSP).
Definition regular (ra : Z) (p : pstate) : Prop := word_at p = 0 -> ra = 0.
Definition at_slot (cfa : Z) (p : pstate) (wd : bool) : Prop := wd = false -> p_rg p RSP = cfa - 8.

Section FRAME.
Variables A T : running.         (* functions called, functions jumped to *)
Variables (g : nat) (lo cfa ra : Z) (last : nat).
(** [frun pu its p wd tr z]: from state [p], with the items [its] left, the call ends with [z].
    [tr]: the states after the instructions of the function itself. *)
Inductive frun : bool -> list item -> pstate -> bool -> list (pstate * bool) -> ending -> Prop :=
| f_cut pu its p wd : frun pu its p wd [] Cut
| f_here pu n r p wd tr z : here cfa n p wd -> frun pu r p wd tr z -> frun pu (Here n :: r) p wd tr z
| f_out pu n r p wd tr z : out cfa n p wd -> frun pu r p wd tr z -> frun pu (Out n :: r) p wd tr z
| f_ins pu n i r p wd p' wd' tr z : i_op i <> OCall -> sem i p = Some p' ->
    plain_step lo cfa i p wd p' wd' -> frun pu r p' wd' tr z ->
    frun pu (Ins n i :: r) p wd ((p', wd') :: tr) z
| f_call pu n i r p wd e q wd' tr z : i_op i = OCall -> is_call co (snd n) e ->
    called A cfa wd e p (Back q) -> back_step lo cfa e p wd q wd' -> frun pu r q wd' tr z ->
    frun pu (Ins n i :: r) p wd ((q, wd') :: tr) z
| f_stop pu n i r p wd e z : i_op i = OCall -> is_call co (snd n) e ->
    called A cfa wd e p z -> (forall q, z <> Back q) ->
    frun pu (Ins n i :: r) p wd [] (outer pu ra z)
| f_snip pu sn c u r p wd tr z : snip_code o sn = Some c ->
    exec c mp (as_state X base p) (Done u) -> frun (pu || is_push sn) r (of_state X u p) wd tr z ->
    frun pu (Snip sn :: r) p wd tr z
| f_trap pu sn c r p wd : snip_code o sn = Some c ->
    exec c mp (as_state X base p) Trap -> frun pu (Snip sn :: r) p wd [] (Halt (return_word X p r) ra)
| f_fault pu sn c r p wd : snip_code o sn = Some c ->
    exec c mp (as_state X base p) Fault -> frun pu (Snip sn :: r) p wd [] Fail
| f_none pu sn r p wd : snip_code o sn = None -> frun pu (Snip sn :: r) p wd [] Fail
| f_null pu p wd : is_ret co last \/ (exists e, is_tail co last e) -> word_at p = 0 -> ra <> 0 -> frun pu [] p wd [] Null
| f_ret pu p wd : is_ret co last -> regular ra p -> can_return fs g = true -> at_slot cfa p wd -> wfp X (popped p) ->
    frun pu [] p wd [] (goes ra (word_at p) (popped p))
| f_tail pu p wd e g' lo' z : is_tail co last e -> regular ra p -> can_return fs g = true -> at_slot cfa p wd -> wfp X p ->
    goes_to co e g' -> T g' lo' (p_rg p RSP + 8) (word_at p) p z ->
    frun pu [] p wd [] (via ra (word_at p) z)
| f_tail_trusted pu p wd e s q : is_tail co last e -> regular ra p -> can_return fs g = true -> at_slot cfa p wd ->
    goes_out co e (Some s) -> trusted_lib s -> wd = false -> trusted_step cfa p q ->
    p_rg q RSP = p_rg p RSP + 8 -> frun pu [] p wd [] (goes ra (word_at p) q)
| f_tail_other pu p wd e name z : is_tail co last e -> regular ra p -> can_return fs g = true -> at_slot cfa p wd -> wfp X p ->
    goes_out co e name -> wd = true \/ (forall s, name = Some s -> ~ trusted_lib s) ->
    libs A p z -> frun pu [] p wd [] (via ra (word_at p) z).
End FRAME.

(** ** Calls of calls
    [h] bounds the nesting of calls and jumps; [n] counts the calls that are active. *)
Fixpoint arun (h n : nat) (g : nat) (lo cfa ra : Z) (p : pstate) (z : ending) : Prop :=
  match h with
  | O => z = Cut
  | S h' =>
      (n < k)%nat /\ fits g lo cfa /\
      exists ks path last items tr,
        orig_blocks co (f_entry (co_fun co g)) ks = Some (path ++ [last]) /\
        no_catch co (f_entry (co_fun co g)) ks /\
        plan_items co (plan_sites co fl o (d g) (m g) g (planned co fl m fs g)) g (planned co fl m fs g) ks = Some items /\
        frun (arun h' (S n)) (arun h' n) g lo cfa ra last false items p false tr z
  end.
End TREE.
Arguments Back {X}. Arguments Away {X}. Arguments Halt {X}. Arguments Fail {X}. Arguments Cut {X}. Arguments Null {X}.
