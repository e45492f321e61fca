(** * Report: the numbers the tool prints (/repo/src/instrument.cc:64-79, 484-560, 595-651, 700-787,
      1050-1110)

    The int counters are unbounded here.  The counts of memory writes are in Writes.v.  Not
    modelled: the percentages (a division by a zero total prints "nan"). *)
From Coq Require Import ZArith Bool Lia Arith List.
From Verif Require Import Machine Jit Dfs Binary BlockLive Reach SafePaths Lowering FastPath Decision.
Import ListNotations.
Open Scope Z_scope.

(** ** The counters *)
Record stats := mkStats {
  n_total : Z; n_safe : Z; n_lowered : Z; n_reg : Z;          (* total_func, sizes of the three lists *)
  n_ind_plt : Z; n_ind : Z; n_plt : Z;                        (* func_with_... *)
  n_sites : Z; n_plain : Z;                                   (* total_dead_reg_site, no_dead_reg_site *)
  n_lsites : Z; n_lentry : Z; n_lexit : Z }.                  (* lowering_..._site *)
Definition stats0 : stats := mkStats 0 0 0 0 0 0 0 0 0 0 0 0.
Definition one (b : bool) : Z := if b then 1 else 0.
Definition add (n k : stats) : stats :=
  mkStats (n_total n + n_total k) (n_safe n + n_safe k) (n_lowered n + n_lowered k) (n_reg n + n_reg k)
    (n_ind_plt n + n_ind_plt k) (n_ind n + n_ind k) (n_plt n + n_plt k)
    (n_sites n + n_sites k) (n_plain n + n_plain k)
    (n_lsites n + n_lsites k) (n_lentry n + n_lentry k) (n_lexit n + n_lexit k).
Definition has_plt (s : summary) : bool := match s_plt_calls s with [] => false | _ => true end.
(** 705: total_func; 720-727: calls *)
Definition k_total : stats := mkStats 1 0 0 0 0 0 0 0 0 0 0 0.
Definition k_calls (s : summary) : stats :=
  mkStats 0 0 0 0 (one (s_unknown_cf s || has_plt s)) (one (s_unknown_cf s)) (one (has_plt s)) 0 0 0 0 0.
(** The results of 730-765. *)
Definition k_safe : stats := mkStats 0 1 0 0 0 0 0 0 0 0 0 0.
Definition k_lowered : stats := mkStats 0 0 1 0 0 0 0 0 0 0 0 0.
Definition k_reg : stats := mkStats 0 0 0 1 0 0 0 0 0 0 0 0.

Section SITES.
Variables (co : code) (fl : flags) (s : summary).
Notation start b := (b_start (co_block co b)).
Definition found (l : list (Z * mid)) (a : Z) : bool := match zfind l a with Some _ => true | None => false end.
(** MoveInstrumentation, 595-651: one call, which moves the code or not. *)
Definition k_move (moved : bool) : stats :=
  if fl_no_reg_save fl then stats0 else mkStats 0 0 0 0 0 0 0 1 (one (negb moved)) 0 0 0.
Definition k_moves (n : stats) (bs : list nat) : stats :=
  fold_left (fun n b => add n (k_move (found (s_exitData s) (start b)))) bs n.
(** 470-560: the three loops over edges, blocks and exits; [reg]: useRegisterFrame. *)
Definition k_lower (entry exit mid : bool) : stats :=
  let plain := fl_no_reg_save fl || negb mid in
  mkStats 0 0 0 0 0 0 0 0 0 1 (one (entry && plain)) (one (exit && plain)).
Definition k_lowering (n : stats) (l : lowered) : stats :=
  if l_reg l then n
  else
    let n1 := fold_left (fun n x => add n (k_lower true false (found (s_entryFixed s) (start (trg co x)))))
                (l_push_edges l) n in
    let n2 := fold_left (fun n b => add n (k_lower true false (found (s_entryData s) (start b))))
                (l_push_blocks l) n1 in
    fold_left (fun n b => add n (k_lower false true (found (s_exitData s) (start b)))) (l_pops l) n2.
End SITES.
(** 728-848, by the decision; without a summary MoveInstrumentation returns at once (597). *)
Definition k_plan (fl : flags) (co : code) (os : option summary) (n : stats) (p : plan) : option stats :=
  match p with
  | Untouched => Some (add n k_safe)
  | ByLowering l => match os with
                    | Some s => Some (add (k_lowering co fl s n l) k_lowered)
                    | None => Some (add n k_lowered)
                    end
  | ByFastPath slow pops _ =>
      match os with
      | Some s => Some (k_moves co fl s (add (add n k_lowered)
                          (k_move fl (found (s_entryData s) (b_start (co_block co slow))))) pops)
      | None => Some (add n k_lowered)
      end
  | ByEntry _ _ true => Some (add n k_reg)
  | ByEntry moved pops false =>
      match os with
      | Some s => Some (k_moves co fl s (add n (k_move fl moved)) pops)
      | None => Some n
      end
  | PAbort | PNoFuel => None
  end.
(** A call of InstrumentFunction: the function and its summary.  In full mode there are no
    summaries, and nothing but the total is counted. *)
Record job := mkJob { j_co : code; j_fn : nat; j_sum : option summary }.
Definition j_plan (fl : flags) (j : job) : plan := instr fl (j_co j) (j_fn j) (j_sum j).
Definition count_job (fl : flags) (o : option stats) (j : job) : option stats :=
  match o with
  | None => None
  | Some n =>
      if fl_light fl then
        let n1 := add n k_total in
        let n2 := match j_sum j with Some s => add n1 (k_calls s) | None => n1 end in
        k_plan fl (j_co j) (j_sum j) n2 (j_plan fl j)
      else Some (add n k_total)
  end.
Definition report (fl : flags) (js : list job) : option stats := fold_left (count_job fl) js (Some stats0).

(** ** Facts *)
Definition nof {A} (p : A -> bool) (l : list A) : Z := Z.of_nat (List.length (filter p l)).
Lemma nof_nil {A} (p : A -> bool) : nof p [] = 0. Proof. reflexivity. Qed.
Lemma nof_cons {A} (p : A -> bool) a l : nof p (a :: l) = one (p a) + nof p l.
Proof. unfold nof, one. cbn [filter]. destruct (p a); cbn [List.length]; lia. Qed.
Lemma nof_app {A} (p : A -> bool) a b : nof p (a ++ b) = nof p a + nof p b.
Proof. induction a as [|x a IH]; cbn [app]; rewrite ?nof_nil, ?nof_cons; lia. Qed.
Lemma nof_map {A B} (f : A -> B) (p : B -> bool) l : nof p (map f l) = nof (fun a => p (f a)) l.
Proof. induction l as [|a l IH]; cbn [map]; rewrite ?nof_cons; [reflexivity|lia]. Qed.
Lemma nof_pos {A} (p : A -> bool) l : 0 <= nof p l. Proof. unfold nof. lia. Qed.
Lemma nof_ext {A} (p q : A -> bool) l : (forall a, In a l -> p a = q a) -> nof p l = nof q l.
Proof.
  induction l as [|a l IH]; intros H; [reflexivity|]. rewrite !nof_cons, IH by (intros; apply H; right; auto).
  rewrite (H a) by (left; auto). reflexivity.
Qed.
Lemma nof_split {A} (p q : A -> bool) l : nof p l = nof (fun a => p a && q a) l + nof (fun a => p a && negb (q a)) l.
Proof. induction l as [|a l IH]; [reflexivity|]. rewrite !nof_cons. unfold one. destruct (p a), (q a); cbn [andb negb]; lia. Qed.

