(** * Tools: the separate programs of the repository that list and count *)
From Coq Require Import ZArith QArith Bool String List.
From Verif Require Import Decision.
Import ListNotations.
Open Scope nat_scope.

(** ** stack_protector.cc *)
(** An instruction: what RegisterAST::format() gives for the registers it reads and writes
    (getReadSet, getWriteSet), and whether it loads the stack cookie, which the tool does not see.
    A block: its instructions by address (getInsns).  Not modelled: the parser. *)
Record pinsn := mkPinsn { pi_read : list string; pi_written : list string; pi_cookie : bool }.
Record pfun := mkPfun { pf_name : string; pf_entry : list pinsn; pf_others : list (list pinsn) }.
Record pobject := mkPobject { po_path : string; po_funs : list pfun }.

(** stack_protector.cc:24-49, IsStackCookieAccessed. *)
Fixpoint any_fs (l : list string) : bool :=
  match l with [] => false | r :: l => if String.eqb r "FS" then true else any_fs l end.
Fixpoint cookie_accessed (b : list pinsn) : bool :=
  match b with
  | [] => false
  | i :: b => if any_fs (pi_read i) then true else if any_fs (pi_written i) then true else cookie_accessed b
  end.
(** stack_protector.cc:51-73, the loops of DiscoverStackProtectedFunctions. *)
Definition per_function (acc : nat * list string) (f : pfun) : nat * list string :=
  let (total, names) := acc in
  (S total, if cookie_accessed (pf_entry f) then names ++ [pf_name f] else names).
Definition per_object (acc : nat * list string) (ob : pobject) : nat * list string :=
  if is_shared_library (po_path ob) then acc else fold_left per_function (po_funs ob) acc.
(** stack_protector.cc:75-84: the lines of the output file and the result.  The ratio is a division
    of doubles: [None] is 0/0, which is not a number.  Not modelled: rounding. *)
Record presult := mkPresult { pr_lines : list string; pr_total : nat; pr_protected : nat; pr_ratio : option Q }.
Definition discover (obs : list pobject) : presult :=
  let (total, names) := fold_left per_object obs (0, []) in
  mkPresult names total (List.length names)
    (match total with 0 => None | S n => Some (Z.of_nat (List.length names) # Pos.of_succ_nat n)%Q end).

(** ** script/compress.py *)
(** compress.py:22-30. *)
Definition cr1_line (st : list string * option string) (line : string) : list string * option string :=
  let (cr1, prev) := st in
  (match prev with Some p => if String.eqb line p then cr1 else cr1 ++ [line] | None => cr1 ++ [line] end, Some line).
Definition cr1 (lines : list string) : list string := fst (fold_left cr1_line lines ([], None)).
(** compress.py:32-41. *)
Definition cr2_line (st : list string * list string) (line : string) : list string * list string :=
  let (cr2, aset) := st in
  let cr2 := if existsb (String.eqb line) aset then cr2 else cr2 ++ [line] in
  let aset := aset ++ [line] in
  (cr2, if 2 <? List.length aset then tl aset else aset).
Definition cr2 (lines : list string) : list string := fst (fold_left cr2_line lines ([], [])).
(** compress.py:43-48, the five numbers.  [None]: the division by the depth raises an exception.
    Not modelled: rounding to two digits. *)
Definition report (lines : list string) : option (nat * nat * nat * Q * Q) :=
  let percent n d := (100 - (Z.of_nat n # d) * 100)%Q in
  match List.length lines with
  | 0 => None
  | S n => let d := Pos.of_succ_nat n in
      Some (S n, List.length (cr1 lines), List.length (cr2 lines), percent (List.length (cr1 lines)) d, percent (List.length (cr2 lines)) d)
  end.
