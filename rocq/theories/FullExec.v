(** * FullExec: executions of a program instrumented in full mode
    This is not a model of tool code.  It runs the functions of the program, with the inserted code
    of FullMode.v between their instructions, on one thread: calls and jumps to other functions,
    library code that calls back, signal handlers, exceptions and longjmp. *)
From Coq Require Import ZArith Bool Lia ZifyBool ZifyNat Arith String List.
From Verif Require Import Machine MachineFacts Jit ShadowSpec JitFacts JitPushPop History.
From Verif Require Import Dfs Binary CallGraph InterProc MemPasses Pipeline RegNames BlockLive
  Reach SafePaths Lowering FastPath Decision FullRun Whole P_Whole Sites Order Activation ActRun FullMode Tree.
Import ListNotations.
Open Scope Z_scope.
Local Notation mem := Machine.mem.

(** ** Active calls *)
(** A call of function [a_fn] that stored [a_ra] and is to leave the function at block [a_last];
    [a_rec]: inserted code has recorded the address; [a_its]: what is left to run. *)
Record act := mkAct { a_fn : nat; a_last : nat; a_ra : Z; a_rec : bool; a_its : list item }.
(** Library code, the kernel included, is a frame without [act].  [fr_old]: addresses recorded by
    calls that have been left by exceptions or longjmp, above the address of the frame. *)
Record frame := mkFrame { fr_act : option act; fr_old : list Z }.
Definition library : frame := mkFrame None [].
Definition own_address (f : frame) : list Z :=
  match fr_act f with Some a => if a_rec a then [a_ra a] else [] | None => [] end.
Definition recorded (f : frame) : list Z := fr_old f ++ own_address f.
Definition addresses (fr : list frame) : list Z := flat_map recorded fr.
Definition give (j : list Z) (fr : list frame) : list frame :=
  match fr with [] => [] | f :: r => mkFrame (fr_act f) (j ++ fr_old f) :: r end.
Definition with_items (a : act) (its : list item) : act := mkAct (a_fn a) (a_last a) (a_ra a) (a_rec a) its.

(** ** Where a return to [w] leads *)
Inductive target := At (fr : list frame) | Gone | Nowhere.
Definition among (w : Z) (l : list Z) : bool := existsb (Z.eqb w) l.
(** The caller of an active call that has stored [w]; a call that has been left; nothing. *)
Fixpoint search (w : Z) (fr : list frame) : target :=
  match fr with
  | [] => Nowhere
  | f :: r => if among w (fr_old f) then Gone else if among w (own_address f) then At r else search w r
  end.
(** A call that returns where it should resumes its caller.  Addresses of calls that have been left
    can stay behind, if one of them is the same. *)
Definition behind (w : Z) (old : list Z) : list Z := match unwind w old with Some j => j ++ [w] | None => [] end.
Definition leave (w ra : Z) (old : list Z) (r : list frame) : target :=
  if w =? ra then At (give (behind w old) r) else if among w old then Gone else search w r.

(** ** What can be seen of a step: instructions and actions of library code, calls, returns *)
Inductive event (L : Type) :=
| Do (i : insn) | Lib (x : L)
| CallTo (g : nat) (ra : Z) | CallOut (name : option string)
| Interrupted | Back | Caught (g : nat) (last : nat)
| Return (w : Z) | JumpTo (g : nat) | JumpOut (name : option string).
Arguments Do {L}. Arguments Lib {L}. Arguments CallTo {L}. Arguments CallOut {L}. Arguments Interrupted {L}. Arguments Back {L}.
Arguments Caught {L}. Arguments Return {L}. Arguments JumpTo {L}. Arguments JumpOut {L}.

Section EXEC.
Variables (co : code) (fl : Lowering.flags) (fs : list finfo) (m : sums).
Variable touched : bool.         (* with the inserted code, or the program as it is *)
Variables (o : opts) (mp : perm).
Variable base : Z.               (* the shadow stack, with room for [k] addresses *)
Variable k : nat.
Variable usable : Z -> Prop.     (* values of rsp: the stacks of the program *)
Variable X : Type.
Variable sem : insn -> pst Machine.flags X -> option (pst Machine.flags X).
Variable L : Type.               (* actions of library code and the kernel *)
Variable lib : L -> pst Machine.flags X -> option (pst Machine.flags X).
Variable throws : bool.          (* with exceptions and longjmp *)
Notation pstate := (pst Machine.flags X).
Definition plan_of (g : nat) : plan := if touched then planned co fl m fs g else Untouched.

(** ** Configurations
    [Halt]: stopped by a check before a return to [w], though the call stored [ra].  [Fail]: inserted
    code has faulted.  [Stale], [Stray]: the program returns
    to an address recorded by a call that has been left; to one that no call has recorded. *)
Inductive conf :=
| Run (p : pstate) (fr : list frame)
| Halt (w ra : Z) (old : list Z) | Fail | Stale (w : Z) | Stray (w : Z).
Definition resume (p : pstate) (f : list frame -> list frame) (w : Z) (t : target) : conf :=
  match t with At fr => Run p (f fr) | Gone => Stale w | Nowhere => Stray w end.

(** The code of a function. *)
Definition sites_of (g : nat) : list (place * snip) :=
  match plan_of g with Untouched => [] | _ => full_sites o co g end.
Definition begins (g : nat) (ra : Z) (a : act) : Prop :=
  own co g /\ exists ks path last its,
    orig_blocks co (f_entry (co_fun co g)) ks = Some (path ++ [last]) /\
    plan_items co (sites_of g) g (plan_of g) ks = Some its /\ a = mkAct g last ra false its.
(** Going on at the start of a block: a handler, or the code after a call of setjmp. *)
Definition goes_on (g : nat) (last : nat) (its : list item) : Prop :=
  exists b ks path sl, In b (f_blocks (co_fun co g)) /\
    orig_blocks co b ks = Some (path ++ [last]) /\ segs co (plan_of g) (false, b) ks = Some sl /\
    its = flat_map (seg_items co (sites_of g)) sl.
(** What program and library code may do: anything but write to the shadow stack or move rsp to
    where there is no stack. *)
Definition good (p p' : pstate) : Prop := wfp X p' /\ usable (p_rg p' RSP) /\ keeps_shadow X base p p'.

Inductive step : list (event L) -> conf -> conf -> Prop :=
| s_here p a old r n its : a_its a = Here n :: its -> step [] (Run p (mkFrame (Some a) old :: r)) (Run p (mkFrame (Some (with_items a its)) old :: r))
| s_out p a old r n its : a_its a = Out n :: its -> step [] (Run p (mkFrame (Some a) old :: r)) (Run p (mkFrame (Some (with_items a its)) old :: r))
| s_ins p p' a old r n i its : a_its a = Ins n i :: its -> i_op i <> OCall -> sem i p = Some p' -> good p p' ->
    step [Do i] (Run p (mkFrame (Some a) old :: r)) (Run p' (mkFrame (Some (with_items a its)) old :: r))
(* calls *)
| s_call p a old r n i its e g ra a' : a_its a = Ins n i :: its -> i_op i = OCall -> is_call co (snd n) e -> goes_to co e g ->
    0 <= ra < W -> begins g ra a' -> usable (p_rg p RSP - 8) -> (List.length (addresses (mkFrame (Some a) old :: r)) < k)%nat ->
    step [CallTo g ra] (Run p (mkFrame (Some a) old :: r))
      (Run (pushed X p ra) (mkFrame (Some a') [] :: mkFrame (Some (with_items a its)) old :: r))
| s_call_out p a old r n i its e name : a_its a = Ins n i :: its -> i_op i = OCall -> is_call co (snd n) e -> goes_out co e name ->
    step [CallOut name] (Run p (mkFrame (Some a) old :: r)) (Run p (library :: mkFrame (Some (with_items a its)) old :: r))
(* a signal, between two instructions of the program *)
| s_signal p a old r n i its : a_its a = Ins n i :: its ->
    step [Interrupted] (Run p (mkFrame (Some a) old :: r)) (Run p (library :: mkFrame (Some a) old :: r))
(* library code *)
| s_lib p p' x old r : lib x p = Some p' -> good p p' -> step [Lib x] (Run p (mkFrame None old :: r)) (Run p' (mkFrame None old :: r))
| s_lib_call p old r g ra a' : 0 <= ra < W -> begins g ra a' -> usable (p_rg p RSP - 8) ->
    (List.length (addresses (mkFrame None old :: r)) < k)%nat ->
    step [CallTo g ra] (Run p (mkFrame None old :: r)) (Run (pushed X p ra) (mkFrame (Some a') [] :: mkFrame None old :: r))
| s_lib_back p old f r : step [Back] (Run p (mkFrame None old :: f :: r)) (Run p (give old (f :: r)))
| s_throw p old u a old' r last its : throws = true -> goes_on (a_fn a) last its ->
    step [Caught (a_fn a) last] (Run p (mkFrame None old :: u ++ mkFrame (Some a) old' :: r))
      (Run p (mkFrame (Some (mkAct (a_fn a) last (a_ra a) (a_rec a) its)) (addresses (mkFrame None old :: u) ++ old') :: r))
(* inserted code *)
| s_snip p a old r sn c u its : a_its a = Snip sn :: its -> snip_code o sn = Some c ->
    exec c mp (as_state X base p) (Done u) ->
    step [] (Run p (mkFrame (Some a) old :: r))
      (Run (of_state X u p) (mkFrame (Some (mkAct (a_fn a) (a_last a) (a_ra a) (a_rec a || is_push sn) its)) old :: r))
| s_trap p a old r sn c its : a_its a = Snip sn :: its -> snip_code o sn = Some c ->
    exec c mp (as_state X base p) Trap -> step [] (Run p (mkFrame (Some a) old :: r)) (Halt (return_word X p its) (a_ra a) old)
| s_fault p a old r sn c its : a_its a = Snip sn :: its -> snip_code o sn = Some c ->
    exec c mp (as_state X base p) Fault -> step [] (Run p (mkFrame (Some a) old :: r)) Fail
| s_none p a old r sn its : a_its a = Snip sn :: its -> snip_code o sn = None -> step [] (Run p (mkFrame (Some a) old :: r)) Fail
(* leaving a function *)
| s_ret p a old r : a_its a = [] -> is_ret co (a_last a) -> can_return fs (a_fn a) = true ->
    wfp X (popped X p) -> usable (p_rg p RSP + 8) ->
    step [Return (word_at X p)] (Run p (mkFrame (Some a) old :: r))
      (resume (popped X p) (fun fr => fr) (word_at X p) (leave (word_at X p) (a_ra a) old r))
| s_tail p a old r e g a' : a_its a = [] -> is_tail co (a_last a) e -> can_return fs (a_fn a) = true ->
    goes_to co e g -> begins g (word_at X p) a' ->
    step [JumpTo g] (Run p (mkFrame (Some a) old :: r))
      (resume p (cons (mkFrame (Some a') [])) (word_at X p) (leave (word_at X p) (a_ra a) old r))
| s_tail_out p a old r e name : a_its a = [] -> is_tail co (a_last a) e -> can_return fs (a_fn a) = true ->
    goes_out co e name ->
    step [JumpOut name] (Run p (mkFrame (Some a) old :: r))
      (resume p (cons library) (word_at X p) (leave (word_at X p) (a_ra a) old r)).

Inductive reach (c0 : conf) : list (event L) -> conf -> Prop :=
| r_start : reach c0 [] c0
| r_step tr e c c' : reach c0 tr c -> step e c c' -> reach c0 (tr ++ e) c'.

(** Room for the inserted code: below rsp and the word at rsp; and for the shadow stack. *)
Record spaces : Prop := {
  sp_stack : forall a, usable a -> mapped mp (a - 16) 24 /\ apart (a - 16) 24 base (32 + 8 * Z.of_nat k);
  sp_shadow : mapped mp base (32 + 8 * Z.of_nat k);
  sp_top : ShadowSpec.slot base k < W }.
End EXEC.
Arguments Run {X}. Arguments Halt {X}. Arguments Fail {X}. Arguments Stale {X}. Arguments Stray {X}.
