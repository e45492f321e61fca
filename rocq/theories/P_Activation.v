(** * Properties C64, C65: one call of an instrumented function, instruction by instruction *)
From Coq Require Import ZArith Bool Lia ZifyBool ZifyNat Arith String List.
From Verif Require Import Machine MachineFacts Jit ShadowSpec JitFacts JitPushPop History Witness.
From Verif Require Import Dfs Binary CallGraph InterProc MemPasses Pipeline RegNames BlockLive ExSem
  Reach SafePaths Lowering P_Lower FastPath Decision P_Instr FullRun Whole P_Whole Sites SiteEx P_Sites
  Order Activation PlanCode ActRun.
Import ListNotations.
Open Scope Z_scope.
Local Notation mem := Machine.mem.

(** ** C64: the code of a block *)
Definition pushes_in (its : list item) : nat :=
  List.length (filter (fun x => match x with Snip (StackPush _) => true | _ => false end) its).
Definition checks_in (its : list item) : nat :=
  List.length (filter (fun x => match x with Snip (StackPop _) => true | _ => false end) its).

Lemma left_app a b : left_of (a ++ b) = left_of a ++ left_of b.
Proof. unfold left_of. apply flat_map_app. Qed.
Lemma left_ins n is : left_of (map (Ins n) is) = is.
Proof. unfold left_of. induction is as [|i t IH]; cbn [map flat_map]; [reflexivity|]. cbn. f_equal. exact IH. Qed.
Lemma left_snip l : left_of (map Snip l) = [].
Proof. unfold left_of. induction l as [|i t IH]; cbn [map flat_map]; auto. Qed.
Lemma pushes_app a b : pushes_in (a ++ b) = (pushes_in a + pushes_in b)%nat.
Proof. unfold pushes_in. rewrite filter_app, app_length. reflexivity. Qed.
Lemma checks_app a b : checks_in (a ++ b) = (checks_in a + checks_in b)%nat.
Proof. unfold checks_in. rewrite filter_app, app_length. reflexivity. Qed.
Lemma pushes_ins n is : pushes_in (map (Ins n) is) = 0%nat.
Proof. unfold pushes_in. induction is as [|i t IH]; cbn [map filter]; auto. Qed.
Lemma checks_ins n is : checks_in (map (Ins n) is) = 0%nat.
Proof. unfold checks_in. induction is as [|i t IH]; cbn [map filter]; auto. Qed.

(** C64: in every block of a function with a shadow-stack frame there is at most one push and at
    most one check, the push comes first, and the instructions of the program are all there, in
    their order.  After the check comes nothing that writes memory or, other than a pop, rsp,
    except the return. *)
Theorem C64_block_code : forall co m fn fl o d p,
  analysed co m fn -> fn_ok co fn -> terminal_exits co fn ->
  Decision.instr fl co fn (Some (m fn)) = p -> on_reg p = false ->
  plain o -> good_dead o (di_entry d) -> (forall a l, zfind (di_exit d) a = Some l -> good_dead o l) ->
  forall n body tail, In (snd n) (f_blocks (co_fun co fn)) ->
  block_shape (b_insns (co_block co (snd n))) body tail -> Forall ret_plain (b_insns (co_block co (snd n))) ->
  forall last, let its := node_items co (plan_sites co fl o d (m fn) fn p) n last in
  left_of its = (if last then body else body ++ tail) /\
  (pushes_in its <= 1)%nat /\ (checks_in its <= 1)%nat /\
  forall x q y, its = x ++ Snip (StackPop q) :: y ->
    pushes_in y = 0%nat /\
    forall i, In i (left_of y) -> i_op i <> ORet ->
      i_wmem i = false /\ (i_op i = OPop \/ ~ In (MG RSP P64) (i_written i)).
Proof.
  intros co m fn fl o d p AN FO TE PLAN NREG PL GE GX n body tail HB SH RP last its.
  destruct (node_shape co m fn fl o d p AN FO TE PLAN NREG PL GE GX n body tail HB SH RP last)
    as (A & B & C & qp & qc & EB & _ & HQ & _ & E). fold its in E.
  set (R := if last then @nil item else map (Ins n) tail ++ [Out n]) in E.
  assert (LR : left_of R = if last then [] else tail).
  { unfold R. destruct last; [reflexivity|]. rewrite left_of_app, left_of_ins. cbn. apply app_nil_r. }
  assert (CR : checks_in R = 0%nat).
  { unfold R. destruct last; [reflexivity|]. rewrite checks_app, checks_ins. reflexivity. }
  assert (PR : pushes_in R = 0%nat).
  { unfold R. destruct last; [reflexivity|]. rewrite pushes_app, pushes_ins. reflexivity. }
  assert (SN : forall b sn, left_of (map Snip (opt b sn)) = []) by (intros [] sn; reflexivity).
  assert (EL : left_of its = body ++ (if last then [] else tail)).
  { rewrite E. change (Here n :: ?l) with ([Here n] ++ l).
    rewrite !left_of_app, !left_of_ins, !SN, LR, EB. cbn. rewrite <- !app_assoc. reflexivity. }
  assert (DQ : forall q b, checks_in (map Snip (opt b (StackPop q))) = (if b then 1 else 0)%nat) by (intros q []; reflexivity).
  assert (DP : forall q b, pushes_in (map Snip (opt b (StackPush q))) = (if b then 1 else 0)%nat) by (intros q []; reflexivity).
  assert (DQ0 : forall q b, pushes_in (map Snip (opt b (StackPop q))) = 0%nat) by (intros q []; reflexivity).
  assert (DP0 : forall q b, checks_in (map Snip (opt b (StackPush q))) = 0%nat) by (intros q []; reflexivity).
  assert (EP : pushes_in its = (if push_in co fn p n then 1 else 0)%nat).
  { rewrite E. change (Here n :: ?l) with ([Here n] ++ l).
    rewrite !pushes_app, !pushes_ins, DP, DQ0, PR. cbn. lia. }
  assert (EC : checks_in its = (if pop_in p n then 1 else 0)%nat).
  { rewrite E. change (Here n :: ?l) with ([Here n] ++ l).
    rewrite !checks_app, !checks_ins, DP0, DQ, CR. cbn. lia. }
  split; [rewrite EL; destruct last; [apply app_nil_r|reflexivity]|].
  split; [rewrite EP; destruct (push_in co fn p n); lia|].
  split; [rewrite EC; destruct (pop_in p n); lia|].
  intros x q y EX. rewrite EX, checks_app in EC. change (Snip (StackPop q) :: y) with ([Snip (StackPop q)] ++ y) in EC.
  rewrite checks_app in EC. change (checks_in [Snip (StackPop q)]) with 1%nat in EC.
  destruct (pop_in p n) eqn:EPI; [|lia].
  assert (Ex : checks_in x = 0%nat) by lia. assert (Ey : checks_in y = 0%nat) by lia.
  set (L := Here n :: map (Ins n) A ++ map Snip (opt (push_in co fn p n) (StackPush qp)) ++ map (Ins n) B).
  assert (E2 : its = L ++ Snip (StackPop qc) :: map (Ins n) C ++ R).
  { rewrite E. unfold L. cbn [opt map]. repeat (progress (cbn [app]; rewrite <- ?app_assoc)). reflexivity. }
  assert (CL : checks_in L = 0%nat).
  { unfold L. change (Here n :: ?l) with ([Here n] ++ l). rewrite !checks_app, !checks_ins, DP0. reflexivity. }
  assert (UNI : forall a a' b b' u v, a ++ Snip (StackPop u) :: b = a' ++ Snip (StackPop v) :: b' ->
             checks_in a = 0%nat -> checks_in a' = 0%nat -> b = b').
  { clear. induction a as [|s a IH]; intros [|s' a'] b b' u v K H H'; cbn [app] in K.
    - injection K as _ K. exact K.
    - injection K as K _. subst s'. discriminate.
    - injection K as K _. subst s. discriminate.
    - injection K as <- K. apply (IH a' b b' u v K).
      + unfold checks_in in *. cbn [filter] in H. destruct (match s with Snip (StackPop _) => true | _ => false end); [discriminate|exact H].
      + unfold checks_in in *. cbn [filter] in H'. destruct (match s with Snip (StackPop _) => true | _ => false end); [discriminate|exact H']. }
  assert (y = map (Ins n) C ++ R) as -> by (apply (UNI x L _ _ q qc); congruence).
  split; [rewrite pushes_app, pushes_ins, PR; reflexivity|].
  intros i Hi NR. rewrite left_of_app, left_of_ins, LR in Hi. apply in_app_or in Hi. destruct Hi as [Hi|Hi].
  - destruct (HQ eq_refl) as (FC & _). rewrite Forall_forall in FC. destruct (FC i Hi) as (W & K). split; auto.
    destruct K as [K|(K & _)]; auto. right. apply moves_sp_false. exact K.
  - destruct last; [contradiction|]. destruct SH as (_ & _ & [->|(r & -> & O)]); [contradiction|].
    destruct Hi as [<-|[]]. contradiction.
Qed.
Print Assumptions C64_block_code.
Definition line_items : list item :=
  node_items c_line (plan_sites c_line fl_stack wopts no_dead (ssum c_line 0%nat) 0
    (Decision.instr fl_stack c_line 0 (Some (ssum c_line 0%nat)))) (false, 0%nat) true.
Definition kind (x : item) : nat :=
  match x with Here _ => 0 | Ins _ _ => 1 | Snip (StackPush _) => 2 | Snip (StackPop _) => 3 | _ => 4 end%nat.
Example C64_case :
  analysed c_line (ssum c_line) 0 /\ fn_ok c_line 0 /\ terminal_exits c_line 0 /\
  on_reg (Decision.instr fl_stack c_line 0 (Some (ssum c_line 0%nat))) = false /\ plain wopts /\
  good_dead wopts (di_entry no_dead) /\
  block_shape (b_insns (co_block c_line 0)) (firstn 6 (b_insns (co_block c_line 0))) [x_ret 4110] /\
  (* push rcx, push of the return address, four instructions, check, pop rcx *)
  map kind line_items = [0; 1; 2; 1; 1; 1; 1; 3; 1]%nat.
Proof.
  split; [apply scode_analysed; vm_compute; reflexivity|].
  assert (FB : func_okb c_line (co_fun c_line 0) = true) by (vm_compute; reflexivity).
  split; [apply (func_okb_ok _ _ FB)|].
  split; [intros b e [<-|[]] [<-|[]]; left; reflexivity|].
  split; [vm_compute; reflexivity|]. split; [vm_compute; repeat split; discriminate|].
  split; [left; reflexivity|].
  split; [split; [reflexivity|split; [repeat constructor; discriminate|right; eexists; split; reflexivity]]|].
  vm_compute; reflexivity.
Qed.

(** ** C65 *)
Lemma executed_repeat_pop k : executed (repeat Pop k) = [].
Proof. induction k; auto. Qed.
Lemma run_lowered_executed co l : forall ks n evs, run_lowered co l n ks = Some evs ->
  orig_blocks co (snd n) ks = Some (executed evs).
Proof.
  assert (N : forall n, executed (node_evs l n) = [snd n]).
  { intros n. unfold node_evs. rewrite ?executed_app.
    repeat match goal with |- context [if ?c then _ else _] => destruct c end; cbn; rewrite ?executed_repeat_pop; reflexivity. }
  assert (G : forall n k, executed (edge_evs l n k) = []).
  { intros n k. unfold edge_evs. repeat match goal with |- context [if ?c then _ else _] => destruct c end; reflexivity. }
  induction ks as [|k r IH]; intros n evs H; cbn [run_lowered orig_blocks] in *.
  - injection H as <-. rewrite N. reflexivity.
  - destruct (nth_error _ _) as [e|]; [|discriminate]. destruct (e_sink e || e_inter e)%bool; [discriminate|].
    destruct (run_lowered co l (patched_trg _ _ n k e) r) as [ev'|] eqn:E; [|discriminate].
    apply IH in E. destruct n as [c b].
    assert (Q : snd (patched_trg (l_ndebug l) (l_red l) (c, b) k e) = e_trg e).
    { unfold patched_trg. destruct (l_ndebug l); [reflexivity|]. destruct c; reflexivity. }
    rewrite Q in E. cbn [snd]. rewrite E. injection H as <-. rewrite !executed_app, N, G. reflexivity.
Qed.

Lemma run_plan_executed co fn p ks evs : run_plan co fn p ks = Some evs ->
  orig_blocks co (f_entry (co_fun co fn)) ks = Some (executed evs).
Proof.
  assert (FM : forall (h : nat -> list ev), (forall b, executed (h b) = [b]) -> forall l, executed (flat_map h l) = l).
  { intros h H. induction l as [|b l IH]; [reflexivity|]. cbn [flat_map]. rewrite executed_app, H, IH. reflexivity. }
  assert (EX : forall pops b, executed (exit_evs pops b) = [b]).
  { intros pops b. unfold exit_evs. destruct (Dfs.mem b pops); reflexivity. }
  destruct p as [|l|mv pops rg|slow pops ex| |]; cbn [run_plan]; intros H; try discriminate.
  - destruct (orig_blocks _ _ _) as [path|]; [|discriminate]. injection H as <-. rewrite executed_map. reflexivity.
  - apply run_lowered_executed in H. exact H.
  - destruct (orig_blocks _ _ _) as [path|]; [|discriminate]. injection H as <-. f_equal. unfold run_entry.
    destruct mv.
    + symmetry. apply FM. intros b. rewrite executed_app, EX. destruct (Nat.eqb b _); reflexivity.
    + change (path = executed (flat_map (exit_evs pops) path)). symmetry. apply FM. apply EX.
  - destruct (orig_blocks _ _ _) as [path|]; [|discriminate]. injection H as <-. f_equal. unfold run_fast.
    symmetry. apply FM. intros b. unfold fp_evs. rewrite !executed_app, executed_repeat_pop.
    destruct (Nat.eqb b slow); reflexivity.
Qed.

(** A call in which the instructions of the program can be executed; [good] says so for what is
    left of the path.  [Q] is for calls that do not come back, and for paths that stop short of the
    end of the function. *)
Lemma activation_any : forall co fl fs m width,
  parsed co fs -> (forall k, within co fl width k) -> fl_light fl = true -> run_light co = Ok m ->
  forall fn, own co fn -> can_return fs fn = true -> analysed co m fn -> tidy co fn ->
  let p := planned co fl m fs fn in on_reg p = false ->
  forall o d, plain o -> good_dead o (di_entry d) -> (forall a l, zfind (di_exit d) a = Some l -> good_dead o l) ->
  forall ks l b, orig_blocks co (f_entry (co_fun co fn)) ks = Some (l ++ [b]) ->
  no_catch co (f_entry (co_fun co fn)) ks ->
  forall items, plan_items co (plan_sites co fl o d (m fn) fn p) fn p ks = Some items ->
  forall X sem mp base lo cfa hi stk sc k, stack_facts sem -> room co fn X mp base lo cfa hi stk sc k ->
  forall ra l0 (p0 : pst Machine.flags X), (List.length l0 < k)%nat ->
  ground X base lo cfa sc l0 p0 -> wild sc (p_rest p0) = false -> p_rg p0 RSP = cfa - 8 -> load64 (p_mem p0) (cfa - 8) = ra ->
  forall (good : list item -> pst Machine.flags X -> Prop) (Q : Prop),
  (is_ret co b \/ exists e, is_tail co b e) \/ (forall st, good [] st -> Q) ->
  (forall n r st, good (Here n :: r) st -> here_ok X co cfa sc n st /\ good r st) ->
  (forall n r st, good (Out n :: r) st -> out_ok X co cfa sc n st /\ good r st) ->
  (forall n i r st, good (Ins n i :: r) st ->
     exit_passable i \/ standing co o X sem mp base lo cfa width stk (harmless co) sc k ra l0 items p0 (Ins n i :: r) st ->
     Q \/ exists st', sem i st = Some st' /\ step_ok X co base lo cfa width stk (harmless co) sc n i st st' /\ good r st') ->
  (forall sn r st st', good (Snip sn :: r) st ->
     drun co o X sem mp base lo cfa width stk (harmless co) sc k l0 [Snip sn] st st' -> good r st') ->
  good items p0 ->
  nulled_at co o X sem mp base lo cfa width stk (harmless co) sc k ra l0 items p0 \/
  Q \/ ended co o X sem mp base lo cfa width stk (harmless co) sc k ra l0 items p0.
Proof.
  intros co fl fs m width PA SU LI RL fn HF CR AN TIDY p NREG o d PL GE GX ks l b OB NC items IT
    X sem mp base lo cfa hi stk sc k SF RM ra l0 p0 DEP G TM RS RA good Q LASTB GD1 GD2 GD3 GD4 GD.
  assert (RL' : fl_light fl = true -> run_light co = Ok m) by auto.
  assert (PLAN : Decision.instr fl co fn (Some (m fn)) = p).
  { unfold p. rewrite (planned_at co fl fs m PA fn HF), CR, (analyses_at co fl fs m PA fn (proj1 HF) LI). reflexivity. }
  destruct (p_fn _ _ PA fn HF) as (FO & CO & RW).
  assert (TE : terminal_exits co fn) by (apply (SU Exits); auto).
  assert (NA : p <> PAbort) by (intros K; rewrite K in IT; discriminate).
  assert (NF : p <> PNoFuel) by (intros K; rewrite K in IT; discriminate).
  assert (SG : exists sl, segs co p (false, f_entry (co_fun co fn)) ks = Some sl).
  { unfold plan_items in IT. destruct p; try discriminate;
      (destruct (segs co _ (false, f_entry (co_fun co fn)) ks); [eauto|discriminate]). }
  destruct SG as (sl & SG).
  pose proof (run_segs co m fn fl p AN FO TE PLAN ks sl NA NF SG) as RP.
  set (evs := evs0 _ ++ _) in RP.
  assert (RO : runs_of co (planned co fl m fs) fn evs) by (exists ks; auto).
  destruct (disc_all co fl fs m width stk PA SU RL' fn evs HF RO) as ((D1 & D2 & _ & D4 & _ & D6 & _) & _ & D5).
  pose proof (run_plan_executed _ _ _ _ _ RP) as EX. rewrite OB in EX. injection EX as EX.
  eapply (run_all co m fn fl o d p AN FO TE PLAN NREG PL GE GX TIDY X sem mp base lo cfa hi width stk (harmless co) sc k
    SF RM ra l0 DEP evs D1); eauto.
  2:{ destruct LASTB as [LASTB|LASTB]; [left; eauto|right; exact LASTB]. }
  intros pre c post E. destruct (D6 CR pre c post E) as [(C1 & C2 & C3)|K]; [left|right; exact K].
    split; [exact C1|]. split; [exact C2|]. intros e HC R. apply R. destruct (C3 e HC) as (C4 & C5).
    split; [|exact C5]. intros g HG. eapply (sf_harmless co fl fs m width PA SU RL'); auto. apply HG.
Qed.
Lemma activation_goes : forall co fl fs m width,
  parsed co fs -> (forall k, within co fl width k) -> fl_light fl = true -> run_light co = Ok m ->
  forall fn, own co fn -> can_return fs fn = true -> analysed co m fn -> tidy co fn ->
  let p := planned co fl m fs fn in on_reg p = false ->
  forall o d, plain o -> good_dead o (di_entry d) -> (forall a l, zfind (di_exit d) a = Some l -> good_dead o l) ->
  forall ks l b, orig_blocks co (f_entry (co_fun co fn)) ks = Some (l ++ [b]) ->
  (is_ret co b \/ exists e, is_tail co b e) -> no_catch co (f_entry (co_fun co fn)) ks ->
  forall items, plan_items co (plan_sites co fl o d (m fn) fn p) fn p ks = Some items ->
  forall X sem mp base lo cfa hi stk sc k, stack_facts sem -> room co fn X mp base lo cfa hi stk sc k ->
  forall ra l0 (p0 : pst Machine.flags X), (List.length l0 < k)%nat ->
  ground X base lo cfa sc l0 p0 -> wild sc (p_rest p0) = false -> p_rg p0 RSP = cfa - 8 -> load64 (p_mem p0) (cfa - 8) = ra ->
  forall good : list item -> pst Machine.flags X -> Prop,
  (forall n r st, good (Here n :: r) st -> here_ok X co cfa sc n st /\ good r st) ->
  (forall n r st, good (Out n :: r) st -> out_ok X co cfa sc n st /\ good r st) ->
  (forall n i r st, good (Ins n i :: r) st ->
     exists st', sem i st = Some st' /\ step_ok X co base lo cfa width stk (harmless co) sc n i st st' /\ good r st') ->
  (forall sn r st st', good (Snip sn :: r) st ->
     drun co o X sem mp base lo cfa width stk (harmless co) sc k l0 [Snip sn] st st' -> good r st') ->
  good items p0 ->
  nulled_at co o X sem mp base lo cfa width stk (harmless co) sc k ra l0 items p0 \/
  ended co o X sem mp base lo cfa width stk (harmless co) sc k ra l0 items p0.
Proof.
  intros. destruct (activation_any co fl fs m width) with (fn := fn) (o := o) (d := d) (ks := ks) (l := l) (b := b)
    (items := items) (X := X) (sem := sem) (mp := mp) (base := base) (lo := lo) (cfa := cfa) (hi := hi) (stk := stk) (sc := sc)
    (k := k) (ra := ra) (l0 := l0) (p0 := p0) (good := good) (Q := False) as [K|[[]|K]]; auto.
Qed.
Lemma activation_at : forall co fl fs m width,
  parsed co fs -> (forall k, within co fl width k) -> fl_light fl = true -> run_light co = Ok m ->
  forall fn, own co fn -> can_return fs fn = true -> analysed co m fn -> tidy co fn ->
  let p := planned co fl m fs fn in on_reg p = false ->
  forall o d, plain o -> good_dead o (di_entry d) -> (forall a l, zfind (di_exit d) a = Some l -> good_dead o l) ->
  forall ks l b, orig_blocks co (f_entry (co_fun co fn)) ks = Some (l ++ [b]) ->
  (is_ret co b \/ exists e, is_tail co b e) -> no_catch co (f_entry (co_fun co fn)) ks ->
  forall items, plan_items co (plan_sites co fl o d (m fn) fn p) fn p ks = Some items ->
  forall X sem mp base lo cfa hi stk sc k, stack_facts sem -> room co fn X mp base lo cfa hi stk sc k ->
  forall ra l0 (p0 : pst Machine.flags X), (List.length l0 < k)%nat ->
  ground X base lo cfa sc l0 p0 -> wild sc (p_rest p0) = false -> p_rg p0 RSP = cfa - 8 -> load64 (p_mem p0) (cfa - 8) = ra ->
  forall out, irun X co sem mp o base lo cfa width stk (harmless co) sc items p0 out ->
  nulled_at co o X sem mp base lo cfa width stk (harmless co) sc k ra l0 items p0 \/ fine co o X sem mp base lo cfa width stk (harmless co) sc k ra l0 items p0 out.
Proof.
  intros. destruct (activation_goes co fl fs m width) with (fn := fn) (o := o) (d := d) (ks := ks) (l := l) (b := b)
    (items := items) (X := X) (sem := sem) (mp := mp) (base := base) (lo := lo) (cfa := cfa) (hi := hi) (stk := stk) (sc := sc)
    (k := k) (ra := ra) (l0 := l0) (p0 := p0)
    (good := fun its st => exists z, irun X co sem mp o base lo cfa width stk (harmless co) sc its st z) as [K|(z & K1 & K2)]; eauto.
  - intros n r st (z & K). apply irun_here in K. destruct K. eauto.
  - intros n r st (z & K). apply irun_out in K. destruct K. eauto.
  - intros n i r st (z & K). inversion K; subst. eauto 6.
  - intros sn r st st' (z & K) D. exists z. eapply drun_next; eauto.
  - right. replace out with z; [exact K2|]. eapply irun_det; eauto.
Qed.
(** C65: a call of any function of the binary, executed along any path that ends where the
    function returns or jumps to another one.  The inserted code never faults.  It stops the
    program only if the word that the function would return to is not the address that the call
    stored.  At the return, either the slot of the return address and the shadow stack are as
    they were at the call, or the word about to be returned to is the address stored by this
    call, or one recorded for a call still active, and the shadow stack has been unwound
    to just below it; or the function is about to return to address zero, which no call stored. *)
Theorem C65_activation_partial : forall co fl fs m width,
  parsed co fs -> (forall k, within co fl width k) -> fl_light fl = true -> run_light co = Ok m ->
  forall fn, own co fn -> can_return fs fn = true -> analysed co m fn -> tidy co fn ->
  let p := planned co fl m fs fn in on_reg p = false ->
  forall o d, plain o -> good_dead o (di_entry d) -> (forall a l, zfind (di_exit d) a = Some l -> good_dead o l) ->
  forall ks l b, orig_blocks co (f_entry (co_fun co fn)) ks = Some (l ++ [b]) ->
  (is_ret co b \/ exists e, is_tail co b e) -> no_catch co (f_entry (co_fun co fn)) ks ->
  forall items, plan_items co (plan_sites co fl o d (m fn) fn p) fn p ks = Some items ->
  forall X sem mp base lo cfa hi stk sc k, stack_facts sem -> room co fn X mp base lo cfa hi stk sc k ->
  forall ra l0 (p0 : pst Machine.flags X), (List.length l0 < k)%nat ->
  ground X base lo cfa sc l0 p0 -> wild sc (p_rest p0) = false -> p_rg p0 RSP = cfa - 8 -> load64 (p_mem p0) (cfa - 8) = ra ->
  forall out, irun X co sem mp o base lo cfa width stk (harmless co) sc items p0 out ->
  result X sem base cfa ra l0 out \/
  (exists p1, out = Fin X p1 /\ load64 (p_mem p1) (p_rg p1 RSP) = 0 /\ unwind 0 (ra :: l0) = None).
Proof.
  intros. destruct (activation_at co fl fs m width) with (fn := fn) (o := o) (d := d) (ks := ks) (l := l) (b := b)
    (items := items) (X := X) (sem := sem) (mp := mp) (base := base) (lo := lo) (cfa := cfa) (hi := hi) (stk := stk) (sc := sc)
    (k := k) (ra := ra) (l0 := l0) (p0 := p0) (out := out) as [K|(K & _)]; auto.
  right. eapply nulled_end; eauto.
Qed.
Print Assumptions C65_activation_partial.

(** *** A call that meets the hypotheses *)
(** [xsem] of ExSem.v on states with the flags of the machine. *)
Definition ast := pst Machine.flags unit.
Definition asem (i : insn) (s : ast) : option ast :=
  match xsem i (mkPst (p_rg s) (p_mem s) 0 tt) with
  | Some t => Some (mkPst (p_rg t) (p_mem t) (p_fl s) tt)
  | None => None
  end.
Lemma asem_inv i s s' : asem i s = Some s' -> exists t, xsem i (mkPst (p_rg s) (p_mem s) 0 tt) = Some t /\
  p_rg s' = p_rg t /\ p_mem s' = p_mem t.
Proof. unfold asem. destruct (xsem i _) as [t|]; [|discriminate]. intros H. injection H as <-. eauto. Qed.
Lemma asem_facts : stack_facts asem.
Proof.
  constructor; intros i s s' H; intros;
    match goal with K : asem _ _ = Some _ |- _ => apply asem_inv in K; destruct K as (t & T & E1 & E2); rewrite ?E1, ?E2 end.
  - destruct (sf_push _ _ _ xsem_facts i _ t H T) as (A & B). auto.
  - apply (sf_pop _ _ _ xsem_facts i _ t ltac:(assumption) ltac:(assumption) T).
  - apply (sf_mem _ _ _ xsem_facts i _ t ltac:(assumption) ltac:(assumption) T).
  - apply (sf_sp _ _ _ xsem_facts i _ t ltac:(assumption) T).
Qed.

(** A checker for [irun]: the depth of the shadow stack is read from memory. *)
Definition allregs : list reg :=
  [RAX; RBX; RCX; RDX; RSI; RDI; RBP; RSP; R8; R9; R10; R11; R12; R13; R14; R15].
Lemma allregs_in r : In r allregs. Proof. destruct r; cbn; tauto. Qed.
Fixpoint zseq (a : Z) (n : nat) : list Z := match n with O => [] | S k => a :: zseq (a + 1) k end.
Lemma zseq_in n : forall a x, a <= x < a + Z.of_nat n -> In x (zseq a n).
Proof.
  induction n as [|n IH]; intros a x H; [lia|]. cbn [zseq]. destruct (Z.eq_dec a x); [left; auto|right].
  apply IH. lia.
Qed.
Section CHECK.
Variable X : Type.
Variables (sc : scope X) (ub : Z -> bool).
Hypothesis UB : forall a, ub a = true -> usable sc a.
Notation st := (pst Machine.flags X).
Variables (sem : insn -> st -> option st) (co : code) (mp : perm) (o : opts) (base lo cfa : Z).
Definition depth (p : st) : nat := Z.to_nat ((load64 (p_mem p) base - base - 32) / 8).
Definition frameb (p : st) : bool :=
  if wild sc (p_rest p) then ub (p_rg p RSP) else (lo + 16 <=? p_rg p RSP) && (p_rg p RSP <=? cfa - 8).
Definition stepb (i : insn) (p p' : st) : bool :=
  forallb (fun r => (0 <=? p_rg p' r) && (p_rg p' r <? W)) allregs && frameb p' &&
  forallb (fun x => p_mem p' x =? p_mem p x) (zseq base (32 + 8 * depth p)) &&
  (wild sc (p_rest p) ||
   forallb (fun x => (p_mem p' x =? p_mem p x) || unk_of i) (zseq (cfa - 8) 8) &&
   (negb (wild sc (p_rest p')) || unk_of i && negb (isop (i_op i) OPush))).
Definition heightb (h : option Z) (p : st) : bool :=
  wild sc (p_rest p) || match h with Some z => p_rg p RSP =? cfa + z | None => true end.
Fixpoint irung (items : list item) (p : st) : option (outcome X) :=
  match items with
  | [] => Some (Fin X p)
  | Here n :: r => if heightb (b_sp_entry (co_block co (snd n))) p then irung r p else None
  | Out n :: r =>
      if heightb (b_sp_end (co_block co (snd n))) p &&
         (wild sc (p_rest p) ||
          forallb (fun e => match b_insns (co_block co (e_trg e)) with
                            | [i] => negb (isop (i_op i) ORet) || (p_rg p RSP =? cfa - 8)
                            | _ => true end) (out_edges co (snd n)))
      then irung r p else None
  | Ins n i :: r =>
      match sem i p with
      | Some p' => if stepb i p p' then irung r p' else None
      | None => None
      end
  | Snip sn :: r =>
      match snip_code o sn with
      | Some c => match run 200 c mp (Machine.enter (as_state X base p)) with
                  | Done st => irung r (of_state X st p)
                  | Trap => Some (Stopped X p r)
                  | Fault => Some (Crashed X p r)
                  | OutOfFuel => None
                  end
      | None => Some (Crashed X p r)
      end
  end.
Variables (width : insn -> Z) (stk : Z -> Prop) (gentle : nat -> Prop).
Hypothesis HS : above stk cfa (cfa - 8) \/ forall x, wild sc x = false.
Lemma stepb_ok n i p p' : stepb i p p' = true ->
  step_ok X co base lo cfa width stk gentle sc n i p p'.
Proof.
  unfold stepb. rewrite !andb_true_iff, !forallb_forall. intros (((H1 & H2) & H4) & H5).
  split; [intros r; specialize (H1 r (allregs_in r)); lia|].
  split.
  { unfold in_frame, gone, frameb in *. destruct (wild sc (p_rest p')); [auto|]. apply andb_true_iff in H2.
    rewrite !Z.leb_le in H2. exact H2. }
  assert (SAME : forall a, base <= a -> a + 8 <= base + 32 + 8 * Z.of_nat (depth p) ->
            load64 (p_mem p') a = load64 (p_mem p) a).
  { intros a A1 A2. apply load64_ext. intros x Hx. apply Z.eqb_eq, H4, zseq_in. lia. }
  split.
  - intros lst (S1 & S2 & S3).
    assert (D : depth p = List.length lst).
    { unfold depth. rewrite S1. unfold ShadowSpec.slot.
      replace (base + 32 + 8 * Z.of_nat (Datatypes.length lst) - base - 32) with (Z.of_nat (Datatypes.length lst) * 8) by lia.
      rewrite Z.div_mul by lia. lia. }
    split; [rewrite SAME by lia; exact S1|]. split; [rewrite SAME by lia; exact S2|].
    intros j v K. rewrite SAME; [apply (S3 j v K)| |];
      (assert (j < List.length (rev lst))%nat by (apply nth_error_Some; congruence); rewrite rev_length in *;
       unfold ShadowSpec.slot; lia).
  - unfold gone. intros GO. rewrite GO in H5. cbn [orb] in H5. apply andb_true_iff in H5. destruct H5 as [H5 H6].
    rewrite forallb_forall in H5.
    assert (UK : unk_of i = true -> i_wmem i = true /\ i_frame i = false /\ In AUnknown (i_outs i)).
    { unfold unk_of. rewrite !andb_true_iff, negb_true_iff. intros ((Q1 & Q2) & Q3).
      apply existsb_exists in Q3. destruct Q3 as (l & L1 & L2). destruct l; try discriminate. auto. }
    split.
    + intros x HX NE. left. unfold Whole.slot in HX. assert (Q := H5 x (zseq_in 8 (cfa - 8) x ltac:(lia))).
      apply orb_true_iff in Q. destruct Q as [Q|Q]; [apply Z.eqb_eq in Q; contradiction|].
      destruct (UK Q) as (Q1 & Q2 & Q3). split; [exact Q2|]. split; [exact Q1|]. exists AUnknown. split; [exact Q3|exact I].
    + intros GO'. rewrite GO' in H6. cbn [negb orb] in H6. apply andb_true_iff in H6. destruct H6 as [H6 NP]. destruct (UK H6) as (Q1 & Q3 & Q4).
      split; [exact Q1|]. split; [intros E; rewrite E in NP; discriminate|]. left. split; [exact Q3|]. destruct HS as [K|K]; [|congruence].
      exists AUnknown, (cfa - 8). split; [exact Q4|]. split; [exact K|exact I].
Qed.
Lemma heightb_ok h p : heightb h p = true -> height_at X cfa sc h p.
Proof. unfold heightb. intros H G z ->. unfold gone in G. rewrite G in H. cbn in H. lia. Qed.
Lemma irung_ok items : forall p out, irung items p = Some out ->
  irun X co sem mp o base lo cfa width stk gentle sc items p out.
Proof.
  induction items as [|x r IH]; intros p out H; cbn [irung] in H; [injection H as <-; constructor|].
  destruct x as [n|n i|sn|n].
  - destruct (heightb _ p) eqn:E; [|discriminate]. constructor; [apply heightb_ok; exact E|auto].
  - destruct (sem i p) as [p'|] eqn:E; [|discriminate]. destruct (stepb i p p') eqn:S; [|discriminate].
    econstructor; [exact E|apply stepb_ok; exact S|auto].
  - destruct (snip_code o sn) as [c|] eqn:E; [|injection H as <-; apply ir_none; exact E].
    destruct (run 200 c mp _) as [st1| | |] eqn:R; [| | |discriminate].
    + eapply ir_snip; [exact E|split; [discriminate|exists 200%nat; exact R]|auto].
    + injection H as <-. eapply ir_trap; [exact E|split; [discriminate|exists 200%nat; exact R]].
    + injection H as <-. eapply ir_fault; [exact E|split; [discriminate|exists 200%nat; exact R]].
  - destruct (_ && _)%bool eqn:E; [|discriminate]. apply andb_true_iff in E. destruct E as [E1 E2].
    constructor; [|auto]. split; [apply heightb_ok; exact E1|].
    unfold gone. intros G c (e & He & <-) (i & Hi & O). rewrite G in E2. cbn [orb] in E2.
    rewrite forallb_forall in E2. specialize (E2 e He). rewrite Hi in E2.
    apply isop_true in O. rewrite O in E2. cbn in E2. lia.
Qed.
End CHECK.
(** No frame turns wild. *)
Definition irunb (sem : insn -> ast -> option ast) := irung unit steady (fun _ => false) sem.
Lemma irunb_ok sem co mp o base lo cfa width stk gentle items p out :
  irunb sem co mp o base lo cfa items p = Some out -> irun unit co sem mp o base lo cfa width stk gentle steady items p out.
Proof. apply irung_ok; [discriminate|right; reflexivity]. Qed.

(** The function of [c_frame]: it writes through a pointer on one of two paths. *)
Lemma frame_parsed lp : parsed (c_frame lp) [mkFinfo 0 false ".text"].
Proof.
  assert (FB : func_okb (c_frame lp) (co_fun (c_frame lp) 0) = true) by (destruct lp; vm_compute; reflexivity).
  assert (O0 : forall f, own (c_frame lp) f -> f = 0%nat) by (intros f ([<-|[]] & _); reflexivity).
  destruct (func_okb_ok _ _ FB) as (F1 & F2 & F3 & F4 & F5 & F6).
  constructor.
  - apply (an_wf (c_frame lp) (ssum (c_frame lp)) 0). apply scode_analysed. destruct lp; vm_compute; reflexivity.
  - intros f HF. apply O0 in HF. subst f. auto.
  - intros f b e HF. apply O0 in HF. subst f. apply F4.
  - intros f b HF. apply O0 in HF. subst f. apply F5.
  - intros f b e HF. apply O0 in HF. subst f. apply F6.
  - intros f [<-|[]]. reflexivity.
  - intros f g [<-|[]] [<-|[]] _. reflexivity.
  - repeat constructor. intros [].
  - intros i [<-|[]] _ _. reflexivity.
Qed.
Lemma frame_blocks lp b : In b (f_blocks (co_fun (c_frame lp) 0)) -> b = 0%nat \/ b = 1%nat \/ b = 2%nat \/ b = 3%nat.
Proof. cbn. intuition. Qed.
Lemma frame_edge lp b e : edge_in (c_frame lp) b e -> e_ty e <> CALL /\ e_inter e = false.
Proof.
  unfold edge_in. destruct lp; destruct b as [|[|[|b]]]; cbn; intros H;
    repeat destruct H as [<-|H]; try contradiction; split; discriminate || reflexivity.
Qed.
Lemma frame_within lp fl k : fl_ndebug fl = false -> fl_skip fl = [] -> within (c_frame lp) fl eight k.
Proof.
  intros ND SK. destruct k; cbn [within].
  - intros f _ g c _ (b & e & (_ & He) & T & _). destruct (frame_edge _ _ _ He). contradiction.
  - intros f b e _ _ _ (He & I & _). destruct (frame_edge _ _ _ He). congruence.
  - intros f ([<-|[]] & _) b e Hb He. cbn in Hb. destruct Hb as [<-|[<-|[]]]; destruct He as [<-|[]]; left; reflexivity.
  - intros f b i off ([<-|[]] & _) Hb Hi (_ & _ & HO) _. exfalso.
    apply frame_blocks in Hb. destruct Hb as [->|[->|[->| ->]]]; cbn in Hi;
      repeat destruct Hi as [<-|Hi]; try contradiction; cbn in HO; intuition discriminate.
  - exact ND.
  - rewrite SK. intros f _ [].
Qed.
Lemma frame_tidy lp : tidy (c_frame lp) 0.
Proof.
  intros b Hb.
  assert (PS : Forall plain_stack (b_insns (co_block (c_frame lp) b))).
  { apply plainb_ok. apply frame_blocks in Hb. destruct Hb as [->|[->|[->| ->]]]; reflexivity. }
  assert (RP : Forall ret_plain (b_insns (co_block (c_frame lp) b))).
  { apply frame_blocks in Hb. rewrite Forall_forall. intros i Hi O r q K.
    destruct Hb as [->|[->|[->| ->]]]; cbn in Hi; repeat destruct Hi as [<-|Hi]; try contradiction; try discriminate;
      cbn in K; unfold sp64 in K; intuition congruence. }
  apply frame_blocks in Hb. destruct Hb as [->|[->|[->| ->]]].
  - exists (b_insns (co_block (c_frame lp) 0)), []. split; [split; [symmetry; apply app_nil_r|split; [repeat constructor; discriminate|auto]]|].
    repeat split; auto. contradiction.
  - exists (firstn 1 (b_insns (co_block (c_frame lp) 1))), [x_ret 4201].
    split; [split; [reflexivity|split; [repeat constructor; discriminate|right; eexists; split; reflexivity]]|].
    repeat split; auto.
  - exists (b_insns (co_block (c_frame lp) 2)), []. split; [split; [symmetry; apply app_nil_r|split; [repeat constructor; discriminate|auto]]|].
    repeat split; auto. contradiction.
  - exists (firstn 1 (b_insns (co_block (c_frame lp) 3))), [x_ret 4401].
    split; [split; [reflexivity|split; [repeat constructor; discriminate|right; eexists; split; reflexivity]]|].
    repeat split; auto.
Qed.

(** A thread with the shadow stack at 1048576, holding one address, and the stack around 65536.
    rsi points to [target - 3]. *)
Definition a_mem : memory :=
  store64 (store64 (store64 (store64 (fun _ => 0) 1048576 (1048576 + 40)) (1048576 + 24) 0) (1048576 + 32) 7777) 65528 5555.
Definition a_start (target : Z) : ast :=
  mkPst (fun r => match r with RSP => 65528 | RDI => 3 | RSI => target - 3 | RBP => 9 | _ => 1 end) a_mem
    (Machine.mkFlags false false false false false false false) tt.
Definition a_plan : plan := planned (c_frame false) fl_stack (ssum (c_frame false)) [mkFinfo 0 false ".text"] 0.
Definition a_items (ks : list nat) : option (list item) :=
  plan_items (c_frame false)
    (plan_sites (c_frame false) fl_stack wopts no_dead (ssum (c_frame false) 0%nat) 0 a_plan) 0 a_plan ks.
Definition a_run (ks : list nat) (target : Z) : option (outcome unit) :=
  match a_items ks with
  | Some its => irunb asem (c_frame false) (fun _ => true) wopts 1048576 60000 65536 its (a_start target)
  | None => None
  end.
Definition ended (out : option (outcome unit)) : nat :=
  match out with Some (Fin _ _) => 0 | Some (Stopped _ _ _) => 1 | Some (Crashed _ _ _) => 2 | None => 3 end.
Lemma a_run_ends ks t1 t2 : ended (a_run ks t1) = 0%nat -> ended (a_run ks t2) = 1%nat ->
  exists items, a_items ks = Some items /\
    (exists p1, irun unit (c_frame false) asem (fun _ => true) wopts 1048576 60000 65536 eight all (harmless (c_frame false)) steady
       items (a_start t1) (Fin unit p1)) /\
    (exists p1 r, irun unit (c_frame false) asem (fun _ => true) wopts 1048576 60000 65536 eight all (harmless (c_frame false)) steady
       items (a_start t2) (Stopped unit p1 r)).
Proof.
  intros E1 E2. unfold a_run in E1, E2. destruct (a_items ks) as [its|]; [|discriminate].
  exists its. split; [reflexivity|]. split.
  - destruct (irunb _ _ _ _ _ _ _ its (a_start t1)) as [[p1|p1 r|p1 r]|] eqn:R; try discriminate.
    exists p1. apply irunb_ok. exact R.
  - destruct (irunb _ _ _ _ _ _ _ its (a_start t2)) as [[p1|p1 r|p1 r]|] eqn:R; try discriminate.
    exists p1, r. apply irunb_ok. exact R.
Qed.
(** The call is checked on the path that writes through the pointer.  A write elsewhere does no
    harm; a write to the return address is noticed. *)
Example C65_case :
  parsed (c_frame false) [mkFinfo 0 false ".text"] /\ (forall k, within (c_frame false) fl_stack eight k) /\
  run_light (c_frame false) = Ok (ssum (c_frame false)) /\
  own (c_frame false) 0 /\ can_return [mkFinfo 0 false ".text"] 0 = true /\
  analysed (c_frame false) (ssum (c_frame false)) 0 /\ tidy (c_frame false) 0 /\ on_reg a_plan = false /\
  plain wopts /\ orig_blocks (c_frame false) 0 [0; 0]%nat = Some ([0; 2] ++ [3])%nat /\ is_ret (c_frame false) 3 /\
  no_catch (c_frame false) 0 [0; 0]%nat /\
  room (c_frame false) 0 unit (fun _ => true) 1048576 60000 65536 65600 all steady 10 /\
  (forall target, 3 <= target < W -> ground unit 1048576 60000 65536 steady [7777] (a_start target)) /\
  load64 a_mem 65528 = 5555 /\
  exists items, a_items [0; 0]%nat = Some items /\
    (exists p1, irun unit (c_frame false) asem (fun _ => true) wopts 1048576 60000 65536 eight all (harmless (c_frame false)) steady
       items (a_start 70000) (Fin unit p1)) /\
    (exists p1 r, irun unit (c_frame false) asem (fun _ => true) wopts 1048576 60000 65536 eight all (harmless (c_frame false)) steady
       items (a_start 65528) (Stopped unit p1 r)).
Proof.
  split; [apply frame_parsed|]. split; [intros k; apply frame_within; reflexivity|]. split; [apply an_run with (fn := 0%nat); apply scode_analysed; vm_compute; reflexivity|].
  split; [split; [left; reflexivity|reflexivity]|]. split; [reflexivity|].
  split; [apply scode_analysed; vm_compute; reflexivity|]. split; [apply frame_tidy|]. split; [vm_compute; reflexivity|].
  split; [vm_compute; repeat split; discriminate|]. split; [reflexivity|]. split; [exists s_ret; split; [left; reflexivity|reflexivity]|].
  split; [cbn; repeat split; discriminate|].
  split.
  { constructor.
    - split; [lia|split; [vm_compute; discriminate|reflexivity]].
    - split; [lia|split; [vm_compute; discriminate|reflexivity]].
    - vm_compute; reflexivity.
    - left. vm_compute. discriminate.
    - intros b Hb. apply frame_blocks in Hb. destruct Hb as [->|[->|[->| ->]]]; vm_compute; discriminate.
    - intros x _. exact I.
    - intros a b []. }
  split.
  { intros target T. split; [intros r; assert (1000000 < W) by (vm_compute; reflexivity); destruct r; cbn; lia|].
    split; [unfold in_frame, gone; cbn; lia|]. split; [vm_compute; reflexivity|]. split; [vm_compute; reflexivity|].
    intros [|[|i]] v K; cbn in K; try discriminate. injection K as <-. vm_compute; reflexivity. }
  split; [vm_compute; reflexivity|].
  apply a_run_ends; vm_compute; reflexivity.
Qed.

(** *** A call that loses its frame *)
(** The function saves a value on the stack and takes its stack pointer from it later:
    push rcx; mov rcx, rdi; mov rdx, rdi; mov [rsi+rcx], ...; pop rcx; mov rsp, rcx; ret. *)
Definition s_pivot : nat -> block := fun _ =>
  mkBlock 4096 4112 4113 [s_ret]
    [x_push 4096 RCX P64; x_op 4097 [MG RDI P64] [MG RCX P64]; x_op 4100 [MG RDI P64] [MG RDX P64];
     x_wild 4103 RSI RCX; x_pop 4106 RCX P64; x_op 4109 [MG RCX P64] [sp64]; x_ret 4112] (Some (-8)) (Some (-8)).
Definition c_pivot : code := scode 1 [0]%nat s_pivot.
Lemma pivot_blocks b : In b (f_blocks (co_fun c_pivot 0)) -> b = 0%nat.
Proof. cbn. intuition. Qed.
Lemma pivot_parsed : parsed c_pivot [mkFinfo 0 false ".text"].
Proof.
  assert (FB : func_okb c_pivot (co_fun c_pivot 0) = true) by (vm_compute; reflexivity).
  assert (O0 : forall f, own c_pivot f -> f = 0%nat) by (intros f ([<-|[]] & _); reflexivity).
  destruct (func_okb_ok _ _ FB) as (F1 & F2 & F3 & F4 & F5 & F6).
  constructor.
  - apply (an_wf c_pivot (ssum c_pivot) 0). apply scode_analysed. vm_compute; reflexivity.
  - intros f HF. apply O0 in HF. subst f. auto.
  - intros f b e HF. apply O0 in HF. subst f. apply F4.
  - intros f b HF. apply O0 in HF. subst f. apply F5.
  - intros f b e HF. apply O0 in HF. subst f. apply F6.
  - intros f [<-|[]]. reflexivity.
  - intros f g [<-|[]] [<-|[]] _. reflexivity.
  - repeat constructor. intros [].
  - intros i [<-|[]] _ _. reflexivity.
Qed.
Lemma pivot_edge b e : edge_in c_pivot b e -> e = s_ret.
Proof. unfold edge_in. cbn. intros [<-|[]]. reflexivity. Qed.
Lemma pivot_within fl k : fl_ndebug fl = false -> fl_skip fl = [] -> within c_pivot fl eight k.
Proof.
  intros ND SK. destruct k; cbn [within].
  - intros f _ g c _ (b & e & (_ & He) & T & _). apply pivot_edge in He. subst e. discriminate.
  - intros f b e _ _ _ (He & I & _). apply pivot_edge in He. subst e. discriminate.
  - intros f ([<-|[]] & _) b e Hb He. cbn in Hb. destruct Hb as [<-|[]]; destruct He as [<-|[]]; left; reflexivity.
  - intros f b i off ([<-|[]] & _) Hb Hi (_ & _ & HO) _. exfalso.
    apply pivot_blocks in Hb. subst b. cbn in Hi. repeat destruct Hi as [<-|Hi]; try contradiction; cbn in HO; intuition discriminate.
  - exact ND.
  - rewrite SK. intros f _ [].
Qed.
Lemma pivot_tidy : tidy c_pivot 0.
Proof.
  intros b Hb. apply pivot_blocks in Hb. subst b.
  exists (firstn 6 (b_insns (co_block c_pivot 0))), [x_ret 4112].
  split; [split; [reflexivity|split; [repeat constructor; discriminate|right; eexists; split; reflexivity]]|].
  split; [|split; [apply plainb_ok; reflexivity|reflexivity]].
  rewrite Forall_forall. intros i Hi O r q K. cbn in Hi.
  repeat destruct Hi as [<-|Hi]; try contradiction; try discriminate; cbn in K; unfold sp64 in K; intuition congruence.
Qed.
(** The flag says whether a write through a pointer has been executed; from then on the frame is wild. *)
Definition wst := pst Machine.flags bool.
Definition wsem (i : insn) (s : wst) : option wst :=
  match xsem i (mkPst (p_rg s) (p_mem s) 0 tt) with
  | Some t => Some (mkPst (p_rg t) (p_mem t) (p_fl s) (p_rest s || unk_of i && negb (isop (i_op i) OPush)))
  | None => None
  end.
Lemma wsem_facts : stack_facts wsem.
Proof.
  assert (INV : forall i s s', wsem i s = Some s' -> exists t, xsem i (mkPst (p_rg s) (p_mem s) 0 tt) = Some t /\
    p_rg s' = p_rg t /\ p_mem s' = p_mem t).
  { unfold wsem. intros i s s'. destruct (xsem i _) as [t|]; [|discriminate]. intros H. injection H as <-. eauto. }
  constructor; intros i s s' H; intros;
    match goal with K : wsem _ _ = Some _ |- _ => apply INV in K; destruct K as (t & T & E1 & E2); rewrite ?E1, ?E2 end.
  - destruct (sf_push _ _ _ xsem_facts i _ t H T) as (A & B). auto.
  - apply (sf_pop _ _ _ xsem_facts i _ t ltac:(assumption) ltac:(assumption) T).
  - apply (sf_mem _ _ _ xsem_facts i _ t ltac:(assumption) ltac:(assumption) T).
  - apply (sf_sp _ _ _ xsem_facts i _ t ltac:(assumption) T).
Qed.
Definition w_scope : scope bool := mkScope (fun b => b) (fun a => 60000 <= a <= 200000).
Definition w_usable (a : Z) : bool := (60000 <=? a) && (a <=? 200000).
(** As [a_start]; the attacker has prepared the word at 131040. *)
Definition w_start (w : Z) : wst :=
  mkPst (p_rg (a_start 65520)) (store64 a_mem 131040 w) (p_fl (a_start 65520)) false.
Definition w_plan : plan := planned c_pivot fl_stack (ssum c_pivot) [mkFinfo 0 false ".text"] 0.
Definition w_items : option (list item) :=
  plan_items c_pivot (plan_sites c_pivot fl_stack wopts no_dead (ssum c_pivot 0%nat) 0 w_plan) 0 w_plan [].
Definition w_run (x : option (list item)) (w : Z) : option (outcome bool) :=
  match x with
  | Some its => irung bool w_scope w_usable wsem c_pivot (fun _ => true) wopts 1048576 60000 65536 its (w_start w)
  | None => None
  end.
Definition w_end (out : option (outcome bool)) : nat * Z :=
  match out with
  | Some (Fin _ s) => (0%nat, p_rg s RSP) | Some (Stopped _ s _) => (1%nat, p_rg s RSP)
  | Some (Crashed _ _ _) => (2%nat, 0) | None => (3%nat, 0)
  end.
Lemma w_run_ends x w1 w2 a : w_end (w_run x w1) = (0%nat, a) -> w_end (w_run x w2) = (1%nat, a) ->
  exists items, x = Some items /\
    (exists p1, irun bool c_pivot wsem (fun _ => true) wopts 1048576 60000 65536 eight all (harmless c_pivot) w_scope
       items (w_start w1) (Fin bool p1) /\ p_rg p1 RSP = a) /\
    (exists p1 r, irun bool c_pivot wsem (fun _ => true) wopts 1048576 60000 65536 eight all (harmless c_pivot) w_scope
       items (w_start w2) (Stopped bool p1 r) /\ p_rg p1 RSP = a).
Proof.
  assert (UB : forall a, w_usable a = true -> usable w_scope a).
  { intros a0 H. apply andb_true_iff in H. rewrite !Z.leb_le in H. exact H. }
  assert (AB : above all 65536 (65536 - 8) \/ forall x, wild w_scope x = false).
  { left. split; [exact I|lia]. }
  intros E1 E2. unfold w_run in E1, E2. destruct x as [its|]; [|discriminate].
  exists its. split; [reflexivity|]. split.
  - destruct (irung _ _ _ _ _ _ _ _ _ _ its (w_start w1)) as [[p1|p1 r|p1 r]|] eqn:R; try discriminate.
    exists p1. split; [eapply irung_ok; [exact UB|exact AB|exact R]|]. injection E1 as E1. exact E1.
  - destruct (irung _ _ _ _ _ _ _ _ _ _ its (w_start w2)) as [[p1|p1 r|p1 r]|] eqn:R; try discriminate.
    exists p1, r. split; [eapply irung_ok; [exact UB|exact AB|exact R]|]. injection E2 as E2. exact E2.
Qed.
(** The write through the pointer hits the saved value, and the function is about to return from
    another place.  An address recorded by an active call is found on the shadow stack; any other
    is noticed. *)
Example C65_case_wild :
  parsed c_pivot [mkFinfo 0 false ".text"] /\ (forall k, within c_pivot fl_stack eight k) /\
  run_light c_pivot = Ok (ssum c_pivot) /\
  own c_pivot 0 /\ can_return [mkFinfo 0 false ".text"] 0 = true /\
  analysed c_pivot (ssum c_pivot) 0 /\ tidy c_pivot 0 /\ on_reg w_plan = false /\
  plain wopts /\ orig_blocks c_pivot 0 [] = Some ([] ++ [0])%nat /\ is_ret c_pivot 0 /\ no_catch c_pivot 0 [] /\
  stack_facts wsem /\ room c_pivot 0 bool (fun _ => true) 1048576 60000 65536 65600 all w_scope 10 /\
  (forall w, ground bool 1048576 60000 65536 w_scope [7777] (w_start w)) /\
  (forall w, wild w_scope (p_rest (w_start w)) = false /\ load64 (p_mem (w_start w)) 65528 = 5555) /\
  exists items, w_items = Some items /\
    (exists p1, irun bool c_pivot wsem (fun _ => true) wopts 1048576 60000 65536 eight all (harmless c_pivot) w_scope
       items (w_start 7777) (Fin bool p1) /\ p_rg p1 RSP = 131040) /\
    (exists p1 r, irun bool c_pivot wsem (fun _ => true) wopts 1048576 60000 65536 eight all (harmless c_pivot) w_scope
       items (w_start 4242) (Stopped bool p1 r) /\ p_rg p1 RSP = 131040).
Proof.
  split; [apply pivot_parsed|]. split; [intros k; apply pivot_within; reflexivity|]. split; [apply an_run with (fn := 0%nat); apply scode_analysed; vm_compute; reflexivity|].
  split; [split; [left; reflexivity|reflexivity]|]. split; [reflexivity|].
  split; [apply scode_analysed; vm_compute; reflexivity|]. split; [apply pivot_tidy|]. split; [vm_compute; reflexivity|].
  split; [vm_compute; repeat split; discriminate|]. split; [reflexivity|]. split; [exists s_ret; split; [left; reflexivity|reflexivity]|].
  split; [exact I|]. split; [apply wsem_facts|].
  assert (FAR : forall w a, a + 8 <= 131040 \/ 131048 <= a -> load64 (p_mem (w_start w)) a = load64 a_mem a).
  { intros w a Ha. apply load64_store64_disj. lia. }
  split.
  { constructor.
    - split; [lia|split; [vm_compute; discriminate|reflexivity]].
    - split; [lia|split; [vm_compute; discriminate|reflexivity]].
    - vm_compute; reflexivity.
    - left. vm_compute. discriminate.
    - intros b Hb. apply pivot_blocks in Hb. subst b. vm_compute; discriminate.
    - intros x _. exact I.
    - intros a b Ha Hb. apply pivot_blocks in Hb. subst b. cbn in Ha. split; [|left; cbn; lia].
      split; [lia|split; [cbn; assert (1000000 < W) by (vm_compute; reflexivity); lia|reflexivity]]. }
  split.
  { intros w. split; [intros r; assert (1000000 < W) by (vm_compute; reflexivity); destruct r; cbn; lia|].
    split; [unfold in_frame, gone; cbn; lia|]. split; [rewrite FAR by lia; vm_compute; reflexivity|].
    split; [rewrite FAR by lia; vm_compute; reflexivity|].
    intros [|[|i]] v K; cbn in K; try discriminate. injection K as <-.
    rewrite FAR by (unfold ShadowSpec.slot; cbn; lia). vm_compute; reflexivity. }
  split; [intros w; split; [reflexivity|]; rewrite FAR by lia; vm_compute; reflexivity|].
  apply w_run_ends; vm_compute; reflexivity.
Qed.
