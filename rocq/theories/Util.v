(** * Util: statistics of PassManager::Run and the string helpers of utils.cc *)
From Coq Require Import ZArith Bool Ascii String Lia Arith List.
From Verif Require Import Machine Jit Dfs Binary.
Import ListNotations.
Open Scope nat_scope.

(** ** Statistics (pass_manager.h:407-424) *)
(** std::set<std::string>::insert; the order of the elements is not modelled. *)
Definition sset_insert (x : string) (l : list string) : list string :=
  if in_dec string_dec x l then l else x :: l.
(** pass_manager.h:410-417: the loop over summaries_, which has one entry per function of the
    code object (lines 387-394); [m f] is the summary of [f] after the last pass, and
    IsSafeFunction of the last pass is [!s->writes] (pass_manager.h:339). *)
Definition safe_fns (co : code) (m : sums) : list string :=
  fold_left (fun acc f => if s_writes (m f) then acc else sset_insert (f_name (co_fun co f)) acc)
    (co_funcs co) [].
(** pass_manager.h:419-420: both counts are C++ longs. *)
Definition stats (co : code) (m : sums) : Z * Z :=
  let n := Z.of_nat (List.length (safe_fns co m)) in
  (n, (Z.of_nat (List.length (co_funcs co)) - n)%Z).

(** ** Strings (utils.cc:115-134) *)
(** std::getline(ss, item, d): stops after the delimiter, which is dropped, or at the end of
    the stream.  [None]: nothing was extracted, the stream fails and the loop ends. *)
Fixpoint getline_go (d : ascii) (s : list ascii) : list ascii * list ascii :=
  match s with
  | [] => ([], [])
  | c :: t => if Ascii.eqb c d then ([], t) else let '(i, r) := getline_go d t in (c :: i, r)
  end.
Definition getline (d : ascii) (s : list ascii) : option (list ascii * list ascii) :=
  match s with [] => None | _ => Some (getline_go d s) end.
(** utils.cc:115-122: the while loop; every round takes at least one character. *)
Fixpoint split_go (fuel : nat) (d : ascii) (s : list ascii) : list (list ascii) :=
  match fuel with
  | O => []
  | S n => match getline d s with None => [] | Some (i, r) => i :: split_go n d r end
  end.
Definition split (d : ascii) (s : list ascii) : list (list ascii) := split_go (S (List.length s)) d s.
Definition slash : ascii := "/"%char.
(** utils.cc:130-134: elements[elements.size() - 1]; on an empty vector the index is out of
    range (undefined): [None]. *)
Definition file_name (s : list ascii) : option (list ascii) :=
  nth_error (split slash s) (List.length (split slash s) - 1).
