(** * CfTool: the tool cf.cc, which lists the control transfers of one function *)
From Coq Require Import ZArith Bool String List.
From Verif Require Import Binary.
Import ListNotations.
Open Scope string_scope.

(** A line of output: a text, or the count at the end. *)
Inductive line := Text (s : string) | Count (n : nat).

Section CF.
Variable co : code.

(** cf.cc:82-91: the first function of the target block that starts there.  A call for which there
    is none prints nothing. *)
Fixpoint callee_line (fs : list nat) (t : nat) : list line :=
  match fs with
  | [] => []
  | f :: r => if Nat.eqb (f_entry (co_fun co f)) t
              then [Text ("Call too function " ++ f_name (co_fun co f) ++ " found.")] else callee_line r t
  end.
(** cf.cc:51-97, one edge.  The target of a sink edge is a block of the parser like any other;
    only sink edges that are returns get as far as reading it (line 57). *)
Definition edge_lines (e : edge) : list line :=
  if e_sink e && negb (is (e_ty e) RET) then [Text "Unknown control flow found."]
  else match co_link co (b_start (co_block co (e_trg e))) with
  | Some _ => [Text "PLT calls found."]
  | None =>
      if is (e_ty e) INDIRECT then [Text "Indirect control flow found."]
      else if is (e_ty e) CALL_FT then [Text "Call fall through found."]
      else if is (e_ty e) COND_TAKEN then [Text "Conditional taken found."]
      else if is (e_ty e) COND_NOT_TAKEN then [Text "Conditional not taken found."]
      else if is (e_ty e) CALL then callee_line (co_owners co (e_trg e)) (e_trg e)
      else if is (e_ty e) RET then [Text "Return found."]
      else []
  end.
(** cf.cc:47-100, the blocks of the function *)
Fixpoint block_lines (bs : list nat) (n : nat) : list line * nat :=
  match bs with
  | [] => ([], n)
  | b :: r => let (ls, n') := block_lines r (S n) in (flat_map edge_lines (b_targets (co_block co b)) ++ ls, n')%list
  end.
(** cf.cc:37-43, the first function with the name *)
Fixpoint find_foo (fs : list nat) : option nat :=
  match fs with
  | [] => None
  | f :: r => if String.eqb (f_name (co_fun co f)) "foo" then Some f else find_foo r
  end.
(** cf.cc:29-103.  [None]: the DCHECK of line 45 fails, or in a build without it the null pointer
    is dereferenced at line 48.  Not modelled: the parser and the command line. *)
Definition cf_main : option (list line) :=
  match find_foo (co_funcs co) with
  | None => None
  | Some f => let (ls, n) := block_lines (f_blocks (co_fun co f)) 0 in Some (ls ++ [Count n])%list
  end.
End CF.
