(** * P_Config: properties C66 (the skip list) and C67 (the numbers printed) *)
From Coq Require Import ZArith Bool Lia ZifyBool ZifyNat Arith String Ascii List.
From Verif Require Import Machine Jit ShadowSpec Dfs Binary BlockLive Reach SafePaths P_Paths P_Lower Lowering FastPath Decision P_Instr
  History SkipList FullRun Sites Report.
Import ListNotations.
Open Scope Z_scope.

(** ** C66: the file of functions to skip *)
Definition chars (s : string) : list ascii := list_ascii_of_string s.

(** Partial: a file of hexadecimal numbers below 2^64, with or without 0x, separated by white
    space, is read exactly: the addresses are those written, in that order, and a function is left
    alone in light mode (without --disable_sfe) exactly if it is one of them or was found safe.
    Missing: files with anything else in them, see below. *)
Theorem C66_listed_partial file vs : numbers file vs ->
  skip_list file = vs /\
  forall fl co fn os, fl_light fl = true -> fl_no_sfe fl = false -> fl_skip fl = skip_list file ->
    (instr fl co fn os = Untouched <->
     (exists s, os = Some s /\ s_writes s = false) \/ In (f_addr (co_fun co fn)) vs).
Proof.
  intros N. assert (E : skip_list file = vs) by (apply read_numbers; auto).
  split; [exact E|]. intros fl co fn os L S K. rewrite C38_untouched, K, E. tauto.
Qed.

Definition tok (s : string) (v : Z) : Prop := token (chars s) v.
Definition file1 : list ascii := chars "401000
0x4010F0	0XABC0
".
Lemma hexnum_snoc l c v d : hexnum l v -> In (c, d) digit_values -> forall w l', w = 16 * v + d -> l' = l ++ [c] -> hexnum l' w.
Proof. intros H E w l' -> ->. apply hn_more; auto. Qed.
Ltac hexnum_tac :=
  match goal with
  | |- hexnum [?c] _ => apply hn_one; apply digit_hexdig; reflexivity
  | |- hexnum ?l ?w =>
      let c := eval vm_compute in (last l "0"%char) in
      let l0 := eval vm_compute in (removelast l) in
      let d := eval vm_compute in (match hexdig c with Some d => d | None => 0 end) in
      let v := eval vm_compute in ((w - d) / 16) in
      apply (hexnum_snoc l0 c v d); [hexnum_tac|apply digit_hexdig; reflexivity|reflexivity|reflexivity]
  end.
Example C66_case : numbers file1 [4198400; 4198640; 43968] /\ skip_list file1 = [4198400; 4198640; 43968].
Proof.
  split; [|reflexivity].
  apply (nm_more [] (chars "401000") 4198400 "010"%char (chars "0x4010F0	0XABC0
")).
  - constructor.
  - apply tk_plain; [hexnum_tac|reflexivity].
  - apply white_space; reflexivity.
  - apply (nm_more [] (chars "0x4010F0") 4198640 "009"%char (chars "0XABC0
")).
    + constructor.
    + apply (tk_prefix "x" (chars "4010F0")); [auto|hexnum_tac|reflexivity].
    + apply white_space; reflexivity.
    + apply (nm_one [] (chars "0XABC0") 43968 ["010"%char]); [constructor| |constructor; [apply white_space; reflexivity|constructor]].
      apply (tk_prefix "X" (chars "ABC0")); [auto|hexnum_tac|reflexivity].
Qed.

(** Refuted in general.  Everything after a character that does not belong to a number is lost
    without a message, whatever follows ... *)
Theorem C66_rest_refuted s vs c c' : numbers s vs -> In c' white -> junk c ->
  forall rest, skip_list (s ++ c' :: c :: rest) = vs.
Proof.
  intros N C J rest. unfold skip_list. apply read_cut; auto. rewrite app_length. cbn [List.length]. lia.
Qed.
(** ... so that a function listed after a comment is instrumented; and a name that starts with
    letters from a to f is taken for an address. *)
Definition file2 : list ascii := chars "401000 # main
64
".
Definition file3 : list ascii := chars "face
".
Theorem C66_refuted :
  (exists pre, file2 = pre ++ chars "64
" /\ numbers (chars "64
") [100]) /\
  (forall co fn, f_addr (co_fun co fn) = 100 ->
     instr (mkFlags false false false false false true (skip_list file2) false) co fn None <> Untouched) /\
  In 64206 (skip_list file3).
Proof.
  split; [|split].
  - exists (chars "401000 # main
"). split; [reflexivity|].
    apply (nm_one [] (chars "64") 100 ["010"%char]); [constructor| |constructor; [apply white_space; reflexivity|constructor]].
    apply tk_plain; [hexnum_tac|reflexivity].
  - intros co fn A K. rewrite C38_untouched in K. destruct K as (_ & _ & [(s & K & _)|K]); [discriminate|].
    rewrite A in K. vm_compute in K. destruct K as [K|[]]; discriminate.
  - vm_compute. auto.
Qed.
Example C66_rest_case : skip_list file2 = [4198400] /\ numbers (chars "401000") [4198400] /\ junk "#".
Proof.
  split; [reflexivity|]. split.
  - apply (nm_one [] (chars "401000") 4198400 []); [constructor| |constructor]. apply tk_plain; [hexnum_tac|reflexivity].
  - split; [apply not_white; reflexivity|]. split; [apply no_digit; reflexivity|]. split; discriminate.
Qed.
(** A number of 2^64 or more, too, ends the reading. *)
Example C66_large_case : skip_list (chars "10 10000000000000000 20") = [16] /\
  skip_list (chars "-1") = [18446744073709551615].
Proof. split; reflexivity. Qed.
Print Assumptions C66_listed_partial.
Print Assumptions C66_rest_refuted.
Print Assumptions C66_refuted.

(** ** C67: the numbers printed at the end *)
(** What InstrumentFunction is called with. *)
Definition call : Type := code * nat * option summary.
Definition to_job (c : call) : job := let '(co, fn, os) := c in mkJob co fn os.
Definition plan_of (fl : flags) (c : call) : plan := let '(co, fn, os) := c in instr fl co fn os.
Definition left_alone (p : plan) : bool := match p with Untouched => true | _ => false end.
Definition lowers (p : plan) : bool := match p with ByLowering _ | ByFastPath _ _ _ => true | _ => false end.
Definition in_regs (p : plan) : bool := match p with ByEntry _ _ b => b | _ => false end.
Definition ordinary (p : plan) : bool := match p with ByEntry _ _ b => negb b | _ => false end.
Definition calls_unknown (c : call) : bool := match snd c with Some s => s_unknown_cf s | None => false end.
Definition calls_plt (c : call) : bool :=
  match snd c with Some s => match s_plt_calls s with [] => false | _ => true end | None => false end.
(** The snippets placed in functions that have been analysed (Sites.v): [inside] in lowered
    functions, [outside] in the others; and those that found no dead registers to use. *)
Section PLACED.
Variables (fl : flags) (o : opts) (d : dead_info).
Definition placed (low : bool) (c : call) : list snip :=
  let '(co, fn, os) := c in
  match os with
  | Some s => if Bool.eqb low (match plan_of fl c with ByLowering _ => true | _ => false end)
              then map snd (plan_sites co fl o d s fn (plan_of fl c)) else []
  | None => []
  end.
Definition on_stack (x : snip) : bool := match x with StackPush _ | StackPop _ => true | _ => false end.
Definition plain_push (x : snip) : bool := match x with StackPush q => negb (e_orig q) && negb (e_fixed q) | _ => false end.
Definition plain_pop (x : snip) : bool := match x with StackPop q => negb (x_orig q) | _ => false end.
Definition inside (cs : list call) : list snip := flat_map (placed true) cs.
Definition outside (cs : list call) : list snip := flat_map (placed false) cs.

(** With a summary the code is moved only where data for it has been found. *)
Lemma entry_found co fn s pops : instr fl co fn (Some s) = ByEntry true pops false -> fl_light fl = true ->
  fl_no_reg_save fl = false /\ exists m, zfind (s_entryData s) (b_start (co_block co (f_entry (co_fun co fn)))) = Some m.
Proof.
  intros E L. unfold instr in E. rewrite L in E. destruct (skippable _ _ _); [discriminate|].
  destruct (lower co fl fn s); try discriminate. destruct (use_reg fl s); [discriminate|].
  destruct (fast_path co fl fn) as [[[a b] c]|]; [discriminate|]. injection E as E _. unfold entry_moved in E.
  rewrite !andb_true_iff in E. destruct E as ((E1 & _) & E3). split; [destruct (fl_no_reg_save fl); [discriminate|reflexivity]|].
  match goal with K : match ?z with _ => _ end = true |- _ => destruct z as [m|]; [eauto|discriminate] end.
Qed.

Lemma add_assoc a b c : add (add a b) c = add a (add b c).
Proof. destruct a, b, c. unfold add. cbn. f_equal; lia. Qed.
Lemma add_0_r a : add a stats0 = a.
Proof. destruct a. unfold add, stats0. cbn. f_equal; lia. Qed.
Lemma fold_add {A} (g : A -> stats) l : forall n,
  fold_left (fun n a => add n (g a)) l n = add n (fold_left (fun n a => add n (g a)) l stats0).
Proof.
  induction l as [|a l IH]; intros n; cbn [fold_left]; [rewrite add_0_r; reflexivity|].
  rewrite IH, (IH (add stats0 (g a))), add_assoc. f_equal.
Qed.
Lemma fold_field {A} (f : stats -> Z) (g : A -> stats) (p : A -> bool) l :
  f stats0 = 0 -> (forall a b, f (add a b) = f a + f b) -> (forall a, In a l -> f (g a) = one (p a)) ->
  f (fold_left (fun n a => add n (g a)) l stats0) = nof p l.
Proof.
  intros F0 FA. induction l as [|a l IH]; intros H; cbn [fold_left]; [rewrite F0; reflexivity|].
  rewrite fold_add, FA, IH by (intros; apply H; right; auto). rewrite FA, F0, nof_cons, H by (left; auto). lia.
Qed.
Lemma nof_none {A} (l : list A) : nof (fun _ => false) l = 0.
Proof. induction l; rewrite ?nof_cons; auto. Qed.
(** One call, as an amount that is added. *)
Definition counts (c : call) (k : stats) : Prop :=
  n_total k = 1 /\
  n_safe k = one (left_alone (plan_of fl c)) /\ n_lowered k = one (lowers (plan_of fl c)) /\
  n_reg k = one (in_regs (plan_of fl c)) /\
  n_ind k = one (calls_unknown c) /\ n_plt k = one (calls_plt c) /\
  n_ind_plt k = one (calls_unknown c || calls_plt c) /\
  n_sites k = (if fl_no_reg_save fl then 0 else nof on_stack (placed false c)) /\
  n_plain k = (if fl_no_reg_save fl then 0 else nof (fun x => plain_push x || plain_pop x) (placed false c)) /\
  n_lsites k = nof on_stack (placed true c) /\
  n_lentry k = nof plain_push (placed true c) /\ n_lexit k = nof plain_pop (placed true c).
Lemma moves_add co s n bs : k_moves co fl s n bs = add n (k_moves co fl s stats0 bs).
Proof. apply fold_add. Qed.
Lemma pops_nof (q : snip -> bool) co s cl bs :
  nof q (map snd (map (pop_site co fl o d s cl false) bs)) = nof (fun b => q (snd (pop_site co fl o d s cl false b))) bs.
Proof. rewrite map_map, nof_map. reflexivity. Qed.
Lemma pop_on_stack co s cl b : on_stack (snd (pop_site co fl o d s cl false b)) = true.
Proof. unfold pop_site. destruct (opt_mid _ _ _); reflexivity. Qed.
Lemma pop_push co s cl b : plain_push (snd (pop_site co fl o d s cl false b)) = false.
Proof. unfold pop_site. destruct (opt_mid _ _ _); reflexivity. Qed.
Lemma pop_plain co s cl b : plain_pop (snd (pop_site co fl o d s cl false b)) =
  fl_no_reg_save fl || negb (found (s_exitData s) (b_start (co_block co b))).
Proof.
  unfold pop_site, opt_mid, found, startof. destruct (fl_no_reg_save fl); [reflexivity|].
  destruct (zfind _ _); reflexivity.
Qed.
Lemma moves_counts co s bs :
  n_total (k_moves co fl s stats0 bs) = 0 /\ n_safe (k_moves co fl s stats0 bs) = 0 /\
  n_lowered (k_moves co fl s stats0 bs) = 0 /\ n_reg (k_moves co fl s stats0 bs) = 0 /\
  n_ind (k_moves co fl s stats0 bs) = 0 /\ n_plt (k_moves co fl s stats0 bs) = 0 /\
  n_ind_plt (k_moves co fl s stats0 bs) = 0 /\
  n_lsites (k_moves co fl s stats0 bs) = 0 /\ n_lentry (k_moves co fl s stats0 bs) = 0 /\
  n_lexit (k_moves co fl s stats0 bs) = 0 /\
  n_sites (k_moves co fl s stats0 bs) =
    (if fl_no_reg_save fl then 0 else nof on_stack (map snd (map (pop_site co fl o d s false false) bs))) /\
  n_plain (k_moves co fl s stats0 bs) =
    (if fl_no_reg_save fl then 0
     else nof (fun x => plain_push x || plain_pop x) (map snd (map (pop_site co fl o d s false false) bs))).
Proof.
  unfold k_moves. rewrite !pops_nof.
  assert (Z0 : forall f, f stats0 = 0 -> (forall a b, f (add a b) = f a + f b) ->
            (forall b, f (k_move fl b) = 0) ->
            f (fold_left (fun n b => add n (k_move fl (found (s_exitData s) (b_start (co_block co b))))) bs stats0) = 0).
  { intros f F0 FA FK. rewrite (fold_field f _ (fun _ => false)); auto using nof_none. }
  repeat (split; [apply Z0; [reflexivity|reflexivity|intros b; unfold k_move; destruct (fl_no_reg_save fl); reflexivity]|]).
  destruct (fl_no_reg_save fl) eqn:NR.
  - split; apply Z0; auto; intros b; unfold k_move; rewrite NR; reflexivity.
  - split.
    + rewrite (fold_field n_sites _ (fun _ => true)); [|reflexivity|reflexivity|intros; unfold k_move; rewrite NR; reflexivity].
      apply nof_ext. intros b _. rewrite pop_on_stack. reflexivity.
    + rewrite (fold_field n_plain _ (fun b => negb (found (s_exitData s) (b_start (co_block co b)))));
        [|reflexivity|reflexivity|intros; unfold k_move; rewrite NR; reflexivity].
      apply nof_ext. intros b _. rewrite pop_push, pop_plain, NR. reflexivity.
Qed.
Lemma lowering_add co s n l : k_lowering co fl s n l = add n (k_lowering co fl s stats0 l).
Proof.
  unfold k_lowering. destruct (l_reg l); [rewrite add_0_r; reflexivity|].
  rewrite fold_add, (fold_add _ (l_push_blocks l)), (fold_add _ (l_push_edges l)).
  symmetry. rewrite fold_add, (fold_add _ (l_push_blocks l)). rewrite !add_assoc. reflexivity.
Qed.
Lemma lowering_counts co s l :
  n_total (k_lowering co fl s stats0 l) = 0 /\ n_safe (k_lowering co fl s stats0 l) = 0 /\
  n_lowered (k_lowering co fl s stats0 l) = 0 /\ n_reg (k_lowering co fl s stats0 l) = 0 /\
  n_ind (k_lowering co fl s stats0 l) = 0 /\ n_plt (k_lowering co fl s stats0 l) = 0 /\
  n_ind_plt (k_lowering co fl s stats0 l) = 0 /\
  n_sites (k_lowering co fl s stats0 l) = 0 /\ n_plain (k_lowering co fl s stats0 l) = 0 /\
  n_lsites (k_lowering co fl s stats0 l) = nof on_stack (map snd (lowered_sites co fl o d s l)) /\
  n_lentry (k_lowering co fl s stats0 l) = nof plain_push (map snd (lowered_sites co fl o d s l)) /\
  n_lexit (k_lowering co fl s stats0 l) = nof plain_pop (map snd (lowered_sites co fl o d s l)).
Proof.
  unfold k_lowering, lowered_sites. destruct (l_reg l).
  - repeat (split; [reflexivity|]). rewrite !map_app, !map_map, !nof_app, !nof_map. cbn [snd edge_site block_site pop_site on_stack plain_push plain_pop].
    rewrite !nof_none. repeat split; reflexivity.
  - assert (Z0 : forall f, f stats0 = 0 -> (forall a b, f (add a b) = f a + f b) ->
            (forall x y z, f (k_lower fl x y z) = 0) ->
            f (fold_left (fun n b => add n (k_lower fl false true (found (s_exitData s) (b_start (co_block co b))))) (l_pops l)
                (fold_left (fun n b => add n (k_lower fl true false (found (s_entryData s) (b_start (co_block co b))))) (l_push_blocks l)
                  (fold_left (fun n x => add n (k_lower fl true false (found (s_entryFixed s) (b_start (co_block co (trg co x)))))) (l_push_edges l) stats0))) = 0).
    { intros f F0 FA FK. rewrite fold_add, (fold_add _ (l_push_blocks l)), !FA.
      rewrite !(fold_field f _ (fun _ => false)); auto. rewrite !nof_none. reflexivity. }
    repeat (split; [apply Z0; reflexivity|]). clear Z0.
    rewrite fold_add, (fold_add _ (l_push_blocks l)). rewrite !map_app, !map_map, !nof_app, !nof_map.
    cbn [n_lsites n_lentry n_lexit add].
    assert (ES : forall b, on_stack (snd (edge_site co fl o d s false b)) = true /\ plain_pop (snd (edge_site co fl o d s false b)) = false /\
              plain_push (snd (edge_site co fl o d s false b)) = fl_no_reg_save fl || negb (found (s_entryFixed s) (b_start (co_block co (trg co b))))).
    { intros b. unfold edge_site, opt_mid, found, startof. cbn [snd on_stack plain_push plain_pop e_orig e_fixed]. split; [reflexivity|]. split; [reflexivity|].
      destruct (fl_no_reg_save fl); [reflexivity|]. destruct (zfind _ _); reflexivity. }
    assert (BS : forall b, on_stack (snd (block_site co fl o d s false b)) = true /\ plain_pop (snd (block_site co fl o d s false b)) = false /\
              plain_push (snd (block_site co fl o d s false b)) = fl_no_reg_save fl || negb (found (s_entryData s) (b_start (co_block co b)))).
    { intros b. unfold block_site, opt_mid, found, startof. destruct (fl_no_reg_save fl); [repeat split; reflexivity|].
      destruct (zfind _ _); repeat split; reflexivity. }
    rewrite !(fold_field n_lsites _ (fun _ => true)) by (try reflexivity; intros; reflexivity).
    rewrite !(fold_field n_lentry (fun x => k_lower fl true false (found (s_entryFixed s) (b_start (co_block co (trg co x)))))
               (fun x => fl_no_reg_save fl || negb (found (s_entryFixed s) (b_start (co_block co (trg co x))))))
      by (try reflexivity; intros; reflexivity).
    rewrite !(fold_field n_lentry (fun b => k_lower fl true false (found (s_entryData s) (b_start (co_block co b))))
               (fun b => fl_no_reg_save fl || negb (found (s_entryData s) (b_start (co_block co b)))))
      by (try reflexivity; intros; reflexivity).
    rewrite !(fold_field n_lentry (fun b => k_lower fl false true _) (fun b => false)) by (try reflexivity; intros; reflexivity).
    rewrite !(fold_field n_lexit (fun b => k_lower fl true false _) (fun b => false)) by (try reflexivity; intros; reflexivity).
    rewrite !(fold_field n_lexit (fun b => k_lower fl false true (found (s_exitData s) (b_start (co_block co b))))
               (fun b => fl_no_reg_save fl || negb (found (s_exitData s) (b_start (co_block co b)))))
      by (try reflexivity; intros; reflexivity).
    rewrite !nof_none.
    assert (X1 : nof (fun a => on_stack (snd (edge_site co fl o d s false a))) (l_push_edges l) = nof (fun _ => true) (l_push_edges l)) by (apply nof_ext; intros; apply ES).
    assert (X2 : nof (fun a => on_stack (snd (block_site co fl o d s false a))) (l_push_blocks l) = nof (fun _ => true) (l_push_blocks l)) by (apply nof_ext; intros; apply BS).
    assert (X3 : nof (fun a => on_stack (snd (pop_site co fl o d s true false a))) (l_pops l) = nof (fun _ => true) (l_pops l)) by (apply nof_ext; intros; apply pop_on_stack).
    assert (X4 : nof (fun a => plain_pop (snd (edge_site co fl o d s false a))) (l_push_edges l) = nof (fun _ => false) (l_push_edges l)) by (apply nof_ext; intros; apply ES).
    assert (X5 : nof (fun a => plain_pop (snd (block_site co fl o d s false a))) (l_push_blocks l) = nof (fun _ => false) (l_push_blocks l)) by (apply nof_ext; intros; apply BS).
    assert (X6 : nof (fun a => plain_push (snd (pop_site co fl o d s true false a))) (l_pops l) = nof (fun _ => false) (l_pops l)) by (apply nof_ext; intros; apply pop_push).
    assert (X7 : nof (fun a => plain_push (snd (edge_site co fl o d s false a))) (l_push_edges l) = nof (fun b => fl_no_reg_save fl || negb (found (s_entryFixed s) (b_start (co_block co (trg co b))))) (l_push_edges l)) by (apply nof_ext; intros b _; exact (proj2 (proj2 (ES b)))).
    assert (X8 : nof (fun a => plain_push (snd (block_site co fl o d s false a))) (l_push_blocks l) = nof (fun b => fl_no_reg_save fl || negb (found (s_entryData s) (b_start (co_block co b)))) (l_push_blocks l)) by (apply nof_ext; intros b _; exact (proj2 (proj2 (BS b)))).
    assert (X9 : nof (fun a => plain_pop (snd (pop_site co fl o d s true false a))) (l_pops l) = nof (fun b => fl_no_reg_save fl || negb (found (s_exitData s) (b_start (co_block co b)))) (l_pops l)) by (apply nof_ext; intros b _; exact (pop_plain co s true b)).
    rewrite !nof_none in *. repeat split; lia.
Qed.
Lemma placed_nil c low : snd c = None -> placed low c = [].
Proof. destruct c as [[co fn] [s|]]; [discriminate|reflexivity]. Qed.
Lemma one_call c n : fl_light fl = true -> plan_of fl c <> PAbort -> plan_of fl c <> PNoFuel ->
  exists k, count_job fl (Some n) (to_job c) = Some (add n k) /\ counts c k.
Proof.
  intros L D1 D2. destruct c as [[co fn] os]. unfold count_job. rewrite L. cbn [to_job j_sum j_co j_fn].
  unfold j_plan. cbn [to_job j_sum j_co j_fn]. change (instr fl co fn os) with (plan_of fl (co, fn, os)).
  unfold counts, calls_unknown, calls_plt. cbn [snd].
  destruct os as [s|].
  - pose proof (entry_found co fn s) as EF. change (instr fl co fn (Some s)) with (plan_of fl (co, fn, Some s)) in EF.
    unfold placed. destruct (plan_of fl (co, fn, Some s)) as [|l|mv ps rg|sl ps fs| |] eqn:EP; try congruence;
      cbn [Bool.eqb k_plan left_alone lowers in_regs plan_sites map].
    + eexists. split; [rewrite !add_assoc; reflexivity|]. rewrite !nof_nil.
      cbn. unfold has_plt. destruct (fl_no_reg_save fl); repeat split; lia.
    + destruct (lowering_counts co s l) as (Q1 & Q2 & Q3 & Q4 & Q5 & Q6 & Q7 & Q8 & Q9 & Q10 & Q11 & Q12).
      eexists. split; [rewrite lowering_add, !add_assoc; reflexivity|]. rewrite !nof_nil.
      cbn [add n_total n_safe n_lowered n_reg n_ind_plt n_ind n_plt n_sites n_plain n_lsites n_lentry n_lexit k_total k_calls k_lowered].
      unfold has_plt in *. destruct (fl_no_reg_save fl); repeat split; rewrite ?Q1, ?Q2, ?Q3, ?Q4, ?Q5, ?Q6, ?Q7, ?Q8, ?Q9, ?Q10, ?Q11, ?Q12; cbn [one]; lia.
    + destruct rg; cbn [Bool.eqb k_plan].
      * eexists. split; [rewrite !add_assoc; reflexivity|]. rewrite !nof_nil.
        assert (P0 : forall q : snip -> bool, (forall j, q (RegPop j) = false) -> (forall j h, q (RegPush j h) = false) ->
                  nof q (snd (entry_site co o d s mv true (f_entry (co_fun co fn))) :: map snd (map (pop_site co fl o d s false true) ps)) = 0).
        { intros q H1 H2. rewrite nof_cons, map_map, nof_map. cbn [entry_site snd pop_site]. rewrite H2. cbn [one].
          rewrite (nof_ext _ (fun _ => false)), nof_none by (intros; apply H1). reflexivity. }
        rewrite !P0 by reflexivity. cbn. unfold has_plt. destruct (fl_no_reg_save fl); repeat split; lia.
      * destruct (moves_counts co s ps) as (Q1 & Q2 & Q3 & Q4 & Q5 & Q6 & Q7 & Q8 & Q9 & Q10 & Q11 & Q12).
        eexists. split; [rewrite moves_add, !add_assoc; reflexivity|]. rewrite !nof_nil, !nof_cons.
        assert (EN : on_stack (snd (entry_site co o d s mv false (f_entry (co_fun co fn)))) = true /\
                     plain_pop (snd (entry_site co o d s mv false (f_entry (co_fun co fn)))) = false /\
                     plain_push (snd (entry_site co o d s mv false (f_entry (co_fun co fn)))) = negb mv).
        { unfold entry_site, startof. destruct mv; [|repeat split; reflexivity].
          destruct (EF ps eq_refl L) as (_ & m & ->). repeat split; reflexivity. }
        destruct EN as (-> & -> & ->).
        unfold k_move. cbn [add n_total n_safe n_lowered n_reg n_ind_plt n_ind n_plt n_sites n_plain n_lsites n_lentry n_lexit k_total k_calls k_lowered].
        rewrite Q1, Q2, Q3, Q4, Q5, Q6, Q7, Q8, Q9, Q10, Q11, Q12.
        unfold has_plt. destruct (fl_no_reg_save fl); cbn; rewrite ?orb_false_r; repeat split; lia.
    + destruct (moves_counts co s ps) as (Q1 & Q2 & Q3 & Q4 & Q5 & Q6 & Q7 & Q8 & Q9 & Q10 & Q11 & Q12).
      eexists. split; [rewrite moves_add, !add_assoc; reflexivity|]. rewrite !nof_nil, !nof_cons.
      assert (EN : on_stack (snd (slow_site co fl o d s sl)) = true /\
                   plain_pop (snd (slow_site co fl o d s sl)) = false /\
                   plain_push (snd (slow_site co fl o d s sl)) =
                     fl_no_reg_save fl || negb (found (s_entryData s) (b_start (co_block co sl)))).
      { clear. unfold slow_site, opt_mid, found, startof. destruct (fl_no_reg_save fl); [repeat split; reflexivity|].
        destruct (zfind (s_entryData s) (b_start (co_block co sl))); repeat split; reflexivity. }
      destruct EN as (-> & -> & ->).
      unfold k_move. cbn [add n_total n_safe n_lowered n_reg n_ind_plt n_ind n_plt n_sites n_plain n_lsites n_lentry n_lexit k_total k_calls k_lowered].
      rewrite Q1, Q2, Q3, Q4, Q5, Q6, Q7, Q8, Q9, Q10, Q11, Q12.
      unfold has_plt. destruct (fl_no_reg_save fl); cbn; rewrite ?orb_false_r; repeat split; lia.
  - cbn [placed]. rewrite !nof_nil.
    destruct (plan_of fl (co, fn, None)) as [|l|mv ps rg|sl ps fs| |] eqn:EP; try congruence; cbn [k_plan]; [| |destruct rg|];
      (eexists; split; [rewrite ?add_assoc; reflexivity|]);
      cbn; destruct (fl_no_reg_save fl); repeat split; lia.
Qed.

(** The report adds up: the total is the number of functions, each of which is counted in
    exactly one of safe, lowered, register stack, and (unprinted) ordinary entry and exit; the
    counts of calls are exact; "dead register optimization" has the number of pushes and pops
    placed in functions that are not lowered, and how many of them found no dead registers
    (nothing with --disable_reg_save_opt); "lowering dead register optimization" the same for
    lowered functions, pushes and pops apart. *)
Theorem C67_report cs :
  fl_light fl = true -> (forall c, In c cs -> plan_of fl c <> PAbort /\ plan_of fl c <> PNoFuel) ->
  exists n, report fl (map to_job cs) = Some n /\
    n_total n = Z.of_nat (List.length cs) /\
    n_safe n = nof (fun c => left_alone (plan_of fl c)) cs /\
    n_lowered n = nof (fun c => lowers (plan_of fl c)) cs /\
    n_reg n = nof (fun c => in_regs (plan_of fl c)) cs /\
    n_total n = n_safe n + n_lowered n + n_reg n + nof (fun c => ordinary (plan_of fl c)) cs /\
    n_ind n = nof calls_unknown cs /\ n_plt n = nof calls_plt cs /\
    n_ind_plt n = nof (fun c => calls_unknown c || calls_plt c) cs /\
    n_sites n = (if fl_no_reg_save fl then 0 else nof on_stack (outside cs)) /\
    n_plain n = (if fl_no_reg_save fl then 0 else nof (fun x => plain_push x || plain_pop x) (outside cs)) /\
    n_lsites n = nof on_stack (inside cs) /\
    n_lentry n = nof plain_push (inside cs) /\ n_lexit n = nof plain_pop (inside cs).
Proof.
  intros L. unfold report.
  assert (G : forall cs n0, (forall c, In c cs -> plan_of fl c <> PAbort /\ plan_of fl c <> PNoFuel) ->
    exists k, fold_left (count_job fl) (map to_job cs) (Some n0) = Some (add n0 k) /\
    n_total k = Z.of_nat (List.length cs) /\
    n_safe k = nof (fun c => left_alone (plan_of fl c)) cs /\
    n_lowered k = nof (fun c => lowers (plan_of fl c)) cs /\
    n_reg k = nof (fun c => in_regs (plan_of fl c)) cs /\
    n_total k = n_safe k + n_lowered k + n_reg k + nof (fun c => ordinary (plan_of fl c)) cs /\
    n_ind k = nof calls_unknown cs /\ n_plt k = nof calls_plt cs /\
    n_ind_plt k = nof (fun c => calls_unknown c || calls_plt c) cs /\
    n_sites k = (if fl_no_reg_save fl then 0 else nof on_stack (outside cs)) /\
    n_plain k = (if fl_no_reg_save fl then 0 else nof (fun x => plain_push x || plain_pop x) (outside cs)) /\
    n_lsites k = nof on_stack (inside cs) /\
    n_lentry k = nof plain_push (inside cs) /\ n_lexit k = nof plain_pop (inside cs)).
  { clear cs. induction cs as [|c cs IH]; intros n0 D.
    - exists stats0. cbn [map fold_left]. rewrite add_0_r. split; [reflexivity|].
      cbn. destruct (fl_no_reg_save fl); repeat split; reflexivity.
    - destruct (D c (or_introl eq_refl)) as [D1 D2]. destruct (one_call c n0 L D1 D2) as (k1 & E1 & C1).
      cbn [map fold_left]. rewrite E1. destruct (IH (add n0 k1) (fun c' H => D c' (or_intror H))) as (k2 & E2 & C2).
      exists (add k1 k2). rewrite E2, add_assoc. split; [reflexivity|].
      unfold counts in C1. unfold inside, outside in *. cbn [flat_map List.length]. rewrite !nof_app, !nof_cons.
      cbn [add n_total n_safe n_lowered n_reg n_ind_plt n_ind n_plt n_sites n_plain n_lsites n_lentry n_lexit].
      assert (P : one (left_alone (plan_of fl c)) + one (lowers (plan_of fl c)) + one (in_regs (plan_of fl c)) +
                  one (ordinary (plan_of fl c)) = 1)
        by (destruct (plan_of fl c) as [|l|mv ps rg|sl ps fs| |]; try congruence; [| |destruct rg|]; reflexivity).
      destruct (fl_no_reg_save fl); repeat split; lia. }
  intros D. destruct (G cs stats0 D) as (k & E & K). exists k.
  assert (A0 : add stats0 k = k) by (destruct k; reflexivity). rewrite A0 in E. split; [exact E|exact K].
Qed.
End PLACED.

(** *** Example: a function left alone, one that is lowered, one with neither, and one without a
    summary. *)
Definition c_low : code := h_co 5 [4]%nat [2]%nat t_low.
Definition cs_ex : list call :=
  [(c_low, 0%nat, Some summary0); (c_low, 0%nat, Some (set_writes (lsum 5 [2]%nat 1) true));
   (c_low, 0%nat, Some (unsafe_sum [2]%nat)); (c_low, 0%nat, None)].
Example C67_case :
  (forall c, In c cs_ex -> plan_of fl0 c <> PAbort /\ plan_of fl0 c <> PNoFuel) /\
  report fl0 (map to_job cs_ex) = Some (mkStats 4 1 1 0 0 0 0 2 2 2 1 1).
Proof.
  split; [|vm_compute; reflexivity].
  intros c H. cbn in H. destruct H as [<-|[<-|[<-|[<-|[]]]]]; split; vm_compute; discriminate.
Qed.

(** Refuted: "Safe functions" are not those found safe, as a function on the skip list is one of
    them. *)
Theorem C67_safe_refuted :
  exists fl cs n, report fl (map to_job cs) = Some n /\ n_safe n = 1 /\
    (forall c s, In c cs -> snd c = Some s -> s_writes s = true).
Proof.
  exists (mkFlags false false false false false true [100] false), [(c_low, 0%nat, Some (unsafe_sum [2]%nat))].
  eexists. split; [vm_compute; reflexivity|]. split; [reflexivity|].
  intros c s [<-|[]] E. injection E as <-. reflexivity.
Qed.
Print Assumptions C67_report.
Print Assumptions C67_safe_refuted.
