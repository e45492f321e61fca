(** * Scripts: script/run_spec.py and script/check_inst.py *)
From Coq Require Import ZArith Bool Arith Ascii String List.
From Verif Require Import Decision.
Import ListNotations.
Open Scope nat_scope.

(** ** run_spec.py *)
(** run_spec.py:5-40, the part that users edit: columns with their configuration and module, benchmarks,
    modes, and how many runs at a time. *)
Record settings := mkSettings {
  st_columns : list (string * string * string); st_tests : list string; st_modes : list string; st_parallel : nat }.
Record config := mkConfig { cf_mode : string; cf_column : string; cf_prefix : string; cf_bench : string; cf_module : string }.
(** run_spec.py:69-75, GenerateTestConfigurations. *)
Definition configurations (s : settings) : list config :=
  flat_map (fun mode => flat_map (fun '(column, cfg, module) =>
    map (fun bench => mkConfig mode column cfg bench module) (st_tests s)) (st_columns s)) (st_modes s).

(** The processes that are started, by number: how long each takes, what it writes to its output and
    its error output.  Both are pipes of [w_pipe] bytes, which are read after the process has ended
    (run_spec.py:57, 83): a process that writes more than a pipe holds waits forever. *)
Record world := mkWorld { w_life : nat -> nat; w_out : nat -> string; w_err : nat -> string; w_pipe : nat }.
Record proc := mkProc { pr_no : nat; pr_start : nat; pr_conf : config }.
Definition ended (w : world) (t : nat) (p : proc) : bool :=
  (pr_start p + w_life w (pr_no p) <=? t) &&
  (String.length (w_out w (pr_no p)) <=? w_pipe w) && (String.length (w_err w (pr_no p)) <=? w_pipe w).
(** run_spec.py:42-50, 84-89.  The text is the output followed by the error output. *)
Inductive verdict := Fail | Pass | Unknown.
Definition judge (text : string) : verdict :=
  if contains "Error" text then Fail else if contains "Success:" text then Pass else Unknown.
Inductive event := Started (n : nat) (c : config) | Finished (n : nat) (c : config) (v : verdict).
(** run_spec.py:77-99, WaitForFinish: one round of polls, each taking some time; and rounds with
    sleeps in between.  [None]: not finished after [fuel] rounds. *)
Fixpoint poll (w : world) (t : nat) (runs : list proc) : nat * option (proc * list proc) :=
  match runs with
  | [] => (t, None)
  | p :: r => if ended w t p then (S t, Some (p, r))
              else match poll w (S t) r with
                   | (t', Some (q, r')) => (t', Some (q, p :: r'))
                   | (t', None) => (t', None)
                   end
  end.
Fixpoint wait (fuel : nat) (w : world) (t : nat) (runs : list proc) : option (nat * proc * list proc) :=
  match fuel with
  | O => None
  | S f => match poll w t runs with
           | (t', Some (p, r)) => Some (t', p, r)
           | (t', None) => wait f w (t' + 30) runs
           end
  end.
(** The dictionary [results], last write first. *)
Definition key : Type := string * string * string.
Definition key_of (c : config) : key := (cf_mode c, cf_column c, cf_bench c).
Definition key_eqb (a b : key) : bool :=
  let '(a1, a2, a3) := a in let '(b1, b2, b3) := b in String.eqb a1 b1 && String.eqb a2 b2 && String.eqb a3 b3.
Definition table := list (key * verdict).
Fixpoint get (d : table) (x : key) : option verdict :=
  match d with [] => None | (y, v) :: d => if key_eqb x y then Some v else get d x end.
(** run_spec.py:126-132.  [n]: processes started so far. *)
Definition finish (fuel : nat) (w : world) (t : nat) (runs : list proc) (d : table) : option (nat * list proc * table * event) :=
  match wait fuel w t runs with
  | None => None
  | Some (t', p, r) => let v := judge (w_out w (pr_no p) ++ w_err w (pr_no p)) in
      Some (t', r, (key_of (pr_conf p), v) :: d, Finished (pr_no p) (pr_conf p) v)
  end.
Fixpoint drain (k fuel : nat) (w : world) (t : nat) (runs : list proc) (d : table) : option (list event * table) :=
  match runs, k with
  | [], _ => Some ([], d)
  | _, O => None
  | _, S k' => match finish fuel w t runs d with
               | None => None
               | Some (t', r, d', e) => match drain k' fuel w t' r d' with Some (es, d'') => Some (e :: es, d'') | None => None end
               end
  end.
Fixpoint launch (fuel par : nat) (w : world) (t n : nat) (cs : list config) (runs : list proc) (d : table)
  : option (list event * table) :=
  match cs with
  | [] => drain (List.length runs) fuel w t runs d
  | c :: cs' =>
      let runs := runs ++ [mkProc n t c] in
      if List.length runs =? par then
        match finish fuel w t runs d with
        | None => None
        | Some (t', r, d', e) => match launch fuel par w t' (S n) cs' r d' with
                                 | Some (es, d'') => Some (Started n c :: e :: es, d'')
                                 | None => None
                                 end
        end
      else match launch fuel par w t (S n) cs' runs d with Some (es, d'') => Some (Started n c :: es, d'') | None => None end
  end.
(** run_spec.py:101-118, PrintResultsTable: the rows.  [None]: KeyError. *)
Fixpoint all_some {A} (l : list (option A)) : option (list A) :=
  match l with
  | [] => Some []
  | Some x :: l => match all_some l with Some r => Some (x :: r) | None => None end
  | None :: _ => None
  end.
Definition row (s : settings) (mode : string) (d : table) (test : string) : option (string * list verdict) :=
  match all_some (map (fun '(column, _, _) => get d (mode, column, test)) (st_columns s)) with
  | Some vs => Some (test, vs) | None => None
  end.
Definition rows (s : settings) (mode : string) (d : table) : option (list (string * list verdict)) :=
  all_some (map (row s mode d) (st_tests s)).
(** run_spec.py:121-135: what happens, and the table, which is for mode "full".  Not modelled: removing
    old directories. *)
Definition run_spec (fuel : nat) (s : settings) (w : world) : option (list event * option (list (string * list verdict))) :=
  match launch fuel (st_parallel s) w 0 0 (configurations s) [] [] with
  | None => None
  | Some (es, d) => Some (es, rows s "full" d)
  end.

(** ** check_inst.py *)
(** Strings of Python: split at a character, split at white space, join, find, slices. *)
Definition tab : ascii := "009"%char.
Definition nl : ascii := "010"%char.
Fixpoint has (c : ascii) (s : string) : bool :=
  match s with EmptyString => false | String x r => Ascii.eqb x c || has c r end.
Fixpoint psplit (c : ascii) (s : string) : list string :=
  match s with
  | EmptyString => [EmptyString]
  | String x r => if Ascii.eqb x c then EmptyString :: psplit c r
                  else match psplit c r with p :: l => String x p :: l | [] => [String x EmptyString] end
  end.
Definition blank (c : ascii) : bool :=
  existsb (Ascii.eqb c) [" "; "009"; "010"; "011"; "012"; "013"]%char.
(** [cur]: the word being read. *)
Fixpoint words_go (cur : string) (s : string) : list string :=
  let out := match cur with EmptyString => [] | _ => [cur] end in
  match s with
  | EmptyString => out
  | String x r => if blank x then out ++ words_go EmptyString r else words_go (cur ++ String x EmptyString) r
  end.
Definition words (s : string) : list string := words_go EmptyString s.
Fixpoint lstrip (s : string) : string :=
  match s with String x r => if blank x then lstrip r else s | EmptyString => EmptyString end.
Fixpoint srev (s : string) : string := match s with EmptyString => EmptyString | String x r => srev r ++ String x EmptyString end.
Definition strip (s : string) : string := srev (lstrip (srev (lstrip s))).
Fixpoint find (sub s : string) : option nat :=
  if prefix sub s then Some 0
  else match s with EmptyString => None | String _ r => match find sub r with Some n => Some (S n) | None => None end end.
(** s[a:b] with the result of find: -1 is the last position. *)
Definition at_index (x : option nat) (s : string) : nat := match x with Some n => n | None => String.length s - 1 end.
Definition slice (a b : nat) (s : string) : string := substring a (b - a) s.
Fixpoint last_of (s : string) : option ascii :=
  match s with EmptyString => None | String x EmptyString => Some x | String _ r => last_of r end.
Fixpoint but_last (s : string) : string :=
  match s with EmptyString => EmptyString | String _ EmptyString => EmptyString | String x r => String x (but_last r) end.

Definition dict := list (string * string).
Fixpoint lookup (d : dict) (x : string) : option string :=
  match d with [] => None | (y, v) :: d => if String.eqb x y then Some v else lookup d x end.
(** check_inst.py:24-42, ParseObjdumpOutput.  [None]: IndexError. *)
Record parse := mkParse { ps_reloc : dict; ps_prev : dict; ps_last : string }.
Definition parse_line (st : option parse) (line : string) : option parse :=
  match st with
  | None => None
  | Some st =>
      if negb (has ":" line) then Some st
      else match psplit ":" line with
           | String x _ as first :: _ =>
               if negb (Ascii.eqb x " ") then Some st
               else match words first with
                    | [addr] => let insn := String.concat (String tab EmptyString) (skipn 2 (psplit tab line)) in
                        Some (mkParse ((addr, insn) :: ps_reloc st) ((addr, ps_last st) :: ps_prev st) insn)
                    | _ => Some st
                    end
           | _ => None
           end
  end.
Definition parse_objdump (o : string) : option parse :=
  let start := at_index (find ".dyninstInst" o) o in
  fold_left parse_line (psplit nl (slice start (String.length o) o)) (Some (mkParse [] [] EmptyString)).
(** check_inst.py:44-76, CheckSpringBoard: what is reported, with the line of the function.
    [None]: IndexError. *)
Inductive complaint := NotJmpq | NoTarget | NotPush.
Fixpoint boards (reloc : dict) (lines : list string) : option (list (complaint * string)) :=
  match lines with
  | [] => Some []
  | line :: r =>
      match last_of line with
      | Some c => if Ascii.eqb c ":" then
          match r with
          | [] => None
          | first :: _ =>
              let parts := psplit tab first in
              let say k := match boards reloc r with Some l => Some ((k, line) :: l) | None => None end in
              match nth_error parts 2 with
              | None => boards reloc r
              | Some body => match words body with
                  | [] => None
                  | op :: args => if negb (String.eqb op "jmpq") then say NotJmpq
                      else match args with
                           | [] => None
                           | target :: _ => match lookup reloc target with
                               | None => say NoTarget
                               | Some insn => if contains "push" insn then boards reloc r else say NotPush
                               end
                           end
                  end
              end
          end
          else boards reloc r
      | None => boards reloc r
      end
  end.
Definition check_boards (reloc : dict) (o : string) : option (list (complaint * string)) :=
  boards reloc (psplit nl (slice (at_index (find ".text" o) o) (at_index (find ".fini" o) o) o)).
(** check_inst.py:78-86, GetReturnAddresses: lines end with a newline, the last one perhaps not. *)
Definition address (line : string) : string :=
  let ra := strip line in
  match ra with String "0" (String "x" r) => r | _ => ra end.
Fixpoint file_lines (pieces : list string) : list string :=
  match pieces with
  | [] => []
  | [p] => match p with EmptyString => [] | _ => [but_last p] end
  | p :: r => p :: file_lines r
  end.
Definition return_addresses (file : string) : list string := map address (file_lines (psplit nl file)).
(** check_inst.py:88-95, PrintCallStack. *)
Definition call_stack (ras : list string) (prev : dict) : list (string * option string) :=
  map (fun ra => (ra, lookup prev ra)) ras.
(** check_inst.py:97-105. *)
Definition check_inst (o : string) (trace : option string)
  : option (list (complaint * string) * option (list (string * option string))) :=
  match parse_objdump o with
  | None => None
  | Some st => match check_boards (ps_reloc st) o with
      | None => None
      | Some l => Some (l, match trace with Some f => Some (call_stack (return_addresses f) (ps_prev st)) | None => None end)
      end
  end.
