(** * Lowering: instrumentation lowering (/repo/src/instrument.cc:319-565)

    Dyninst's patching interface is assumed to do what its callers rely on:
    [cloneBlock] gives a copy with its own outgoing edges (same types, same
    targets) and no incoming edge; [PatchModifier::redirect] changes the target
    of one edge and reports success.  The blocks of the function belong to it
    alone. *)
From Coq Require Import ZArith Bool Lia ZifyBool ZifyNat Arith String List.
From Verif Require Import Machine Jit Dfs Binary Reach SafePaths.
Import ListNotations.
Open Scope Z_scope.

(** ** Command line flags (src/cfi.cc) read by the instrumentation *)
Record flags := mkFlags {
  fl_no_lowering : bool; fl_no_reg_frame : bool; fl_no_reg_save : bool;
  fl_no_inline : bool; fl_no_sfe : bool;
  fl_light : bool;               (* shadow_stack == "light" *)
  fl_skip : list Z;              (* addresses of the skip list *)
  fl_ndebug : bool }.            (* built with NDEBUG: assert(e) does not evaluate e *)

(** FuncSummary::shouldUseRegisterFrame, pass_manager.h:252-260. *)
Definition use_reg_frame (s : summary) : bool :=
  (match s_callees s with [] => true | _ => false end) &&
  (match s_unused s with [] => false | _ => true end) &&
  negb (s_unknown_cf s || match s_plt_calls s with [] => false | _ => true end).
(** FuncSummary::lowerInstrumentation, pass_manager.h:282-290. *)
Definition lower_ok (f : func) (s : summary) : bool :=
  negb (mem (f_entry f) (s_unsafe_blocks s)) &&
  (match s_endHeight s with [] => false | _ => true end) &&
  negb (s_safe_paths s =? 0).

(** IsNonreturningCall, instrument.cc:153-165. *)
Definition nonreturning_call (b : block) : bool :=
  existsb (fun e => is (e_ty e) CALL) (b_targets b) &&
  negb (existsb (fun e => is (e_ty e) CALL_FT) (b_targets b)).

Section LOW.
Variable co : code.

(** [skipped] of SafePaths.v is skipPatchEdges (319-325). *)
(** targetHasIndJump, instrument.cc:363-371 *)
Definition has_ind (b : nat) : bool :=
  existsb (fun e => negb (skipped e) && is (e_ty e) INDIRECT) (b_targets (co_block co b)).

(** ** RedirectTransitionEdges, instrument.cc:352-379; state (redirect, visited) *)
Section RT.
Variable unsafe : list nat.
Definition danger (b : nat) : bool := mem b unsafe || has_ind b.
Fixpoint redir (fuel : nat) (cur : nat) (st : list eid * list eid) {struct fuel}
    : option (list eid * list eid) :=
  match fuel with
  | O => None
  | S n =>
      (fix loop (ts : list edge) (k : nat) (st : list eid * list eid) {struct ts} :=
         match ts with
         | [] => Some st
         | e :: r =>
             if skipped e then loop r (S k) st
             else if emem (cur, k) (snd st) then loop r (S k) st
             else let vis := (cur, k) :: snd st in
                  if danger (e_trg e) then loop r (S k) ((cur, k) :: fst st, vis)
                  else match redir n (e_trg e) (fst st, vis) with
                       | Some st' => loop r (S k) st'
                       | None => None
                       end
         end) (b_targets (co_block co cur)) O st
  end.
End RT.

(** ** The patched function *)
(** A node is an original block [(false, b)] or the clone of a block [(true, b)]. *)
Definition node : Type := bool * nat.
Definition node_dec (a b : node) : {a = b} + {a <> b}.
Proof. decide equality; [apply Nat.eq_dec|apply bool_dec]. Defined.

(** CloneFunctionCFG (327-350) redirects the edges of the clones to clones;
    instrument.cc:464-466 redirects the transition edges. With NDEBUG neither
    redirection is executed, because both are arguments of [assert]. *)
Definition patched_trg (nd : bool) (red : list eid) (n : node) (k : nat) (e : edge) : node :=
  let '(c, b) := n in
  if nd then (false, e_trg e)
  else if c then (negb (skipped e), e_trg e)
  else (emem (b, k) red, e_trg e).

Definition itargets (b : nat) : list (nat * edge) :=
  combine (seq 0 (List.length (b_targets (co_block co b)))) (b_targets (co_block co b)).

(** ** GetReachableBlocks, instrument.cc:381-394 *)
Definition gr_edge (e : edge) : bool :=
  negb (e_inter e) && negb (e_sink e) && negb (is (e_ty e) RET || is (e_ty e) CATCH).
Definition gr_succ (nd : bool) (red : list eid) (n : node) : list node :=
  map (fun ke => patched_trg nd red n (fst ke) (snd ke))
    (filter (fun ke => gr_edge (snd ke)) (itargets (snd n))).

(** ** CoalesceEdgeInstrumentation, instrument.cc:396-427

    Sources of the clone of [b]: the transition edges redirected to it and the
    edges of clones. None of them is a catch edge, since catch edges are never
    redirected. *)
Definition inst_edges (red : list eid) (b : nat) : bool :=
  existsb (fun x => Nat.eqb (trg co x) b) red.
Definition not_inst_edges (reachable : list node) (bs : list nat) (b : nat) : bool :=
  existsb (fun a => amem node_dec (true, a) reachable &&
     existsb (fun e => negb (skipped e) && Nat.eqb (e_trg e) b) (b_targets (co_block co a))) bs.
Definition coalesce (nd : bool) (red : list eid) (reachable : list node) (bs : list nat) : list nat :=
  if nd then []
  else filter (fun b => amem node_dec (true, b) reachable && inst_edges red b &&
                        negb (not_inst_edges reachable bs b)) bs.

(** ** DoInstrumentationLowering, instrument.cc:429-565 *)
Record lowered := mkLowered {
  l_ndebug : bool;
  l_red : list eid;            (* transition edges *)
  l_push_edges : list eid;     (* edges with a push *)
  l_push_blocks : list nat;    (* blocks whose clone has a push *)
  l_pops : list nat;           (* blocks whose clone has a pop *)
  l_reg : bool }.              (* register frame instead of the shadow stack *)
Inductive lres := NotLowered | Lowered (l : lowered) | LAbort | LNoFuel.

(** The heights and saved registers the transition edges need, 442-459. *)
Definition edge_ok (fl : flags) (s : summary) (x : eid) : bool :=
  match zfind (s_endHeight s) (b_start (co_block co (fst x))) with Some _ => true | None => false end.
Definition edge_dead_ok (s : summary) (x : eid) : bool :=
  match zfind (s_entryFixed s) (b_start (co_block co (trg co x))) with
  | Some m => negb (m_saveCount m <? 2) | None => false end.
Definition use_reg (fl : flags) (s : summary) : bool := use_reg_frame s && negb (fl_no_reg_frame fl).

Definition lower (fl : flags) (fn : nat) (s : summary) : lres :=
  let f := co_fun co fn in
  let bs := f_blocks f in
  if fl_no_lowering fl || negb (lower_ok f s) || s_indirect_cf s then NotLowered
  else match redir (s_unsafe_blocks s) (S (List.length (edges_of co bs))) (f_entry f) ([], []) with
  | None => LNoFuel
  | Some (red, _) =>
      if negb (forallb (edge_ok fl s) red) then NotLowered
      else if negb (use_reg fl s) && negb (match s_redZone s with [] => true | _ => false end)
              && negb (forallb (edge_dead_ok s) red) then NotLowered
      else
        let nd := fl_ndebug fl in
        match mark node_dec (gr_succ nd red) (2 * List.length bs) (false, f_entry f) [] with
        | None => LNoFuel
        | Some reachable =>
            let ib := coalesce nd red reachable bs in
            (* assert of line 507 *)
            if negb nd && negb (forallb (fun b => match zfind (s_entryHeight s) (b_start (co_block co b)) with
                                                  | Some _ => true | None => false end) ib)
            then LAbort
            else Lowered (mkLowered nd red
                   (filter (fun x => negb (mem (trg co x) ib)) red) ib
                   (filter (fun b => negb (nonreturning_call (co_block co b))) (f_exits f))
                   (use_reg fl s))
        end
  end.

(** ** What executing the patched function does *)
Inductive ev := Push | Blk (b : nat) | Pop.
Definition ev_eq_dec (a b : ev) : {a = b} + {a <> b}.
Proof. decide equality. apply Nat.eq_dec. Defined.

Definition node_evs (l : lowered) (n : node) : list ev :=
  (if fst n && mem (snd n) (l_push_blocks l) then [Push] else []) ++ [Blk (snd n)] ++
  (if fst n && mem (snd n) (l_pops l) then [Pop] else []).
(** A redirected edge carries its push where it starts, in the original block. *)
Definition edge_evs (l : lowered) (n : node) (k : nat) : list ev :=
  if negb (fst n) && emem (snd n, k) (l_push_edges l) then [Push] else [].

(** Execution along a sequence of edge numbers; None if an edge does not exist or
    leaves the function. *)
Fixpoint run_lowered (l : lowered) (n : node) (ks : list nat) : option (list ev) :=
  match ks with
  | [] => Some (node_evs l n)
  | k :: r =>
      match nth_error (b_targets (co_block co (snd n))) k with
      | Some e =>
          if e_sink e || e_inter e then None
          else match run_lowered l (patched_trg (l_ndebug l) (l_red l) n k e) r with
               | Some evs => Some (node_evs l n ++ edge_evs l n k ++ evs)
               | None => None
               end
      | None => None
      end
  end.
Fixpoint lowered_blocks (l : lowered) (n : node) (ks : list nat) : option (list node) :=
  match ks with
  | [] => Some [n]
  | k :: r =>
      match nth_error (b_targets (co_block co (snd n))) k with
      | Some e =>
          if e_sink e || e_inter e then None
          else option_map (cons n) (lowered_blocks l (patched_trg (l_ndebug l) (l_red l) n k e) r)
      | None => None
      end
  end.

(** ** Specification *)
(** The blocks of the original function along the edge numbers [ks]. *)
Fixpoint orig_blocks (b : nat) (ks : list nat) : option (list nat) :=
  match ks with
  | [] => Some [b]
  | k :: r =>
      match nth_error (b_targets (co_block co b)) k with
      | Some e => if e_sink e || e_inter e then None
                  else option_map (cons b) (orig_blocks (e_trg e) r)
      | None => None
      end
  end.
(** No exception edge is taken. *)
Fixpoint no_catch (b : nat) (ks : list nat) : Prop :=
  match ks with
  | [] => True
  | k :: r =>
      match nth_error (b_targets (co_block co b)) k with
      | Some e => e_ty e <> CATCH /\ no_catch (e_trg e) r
      | None => True
      end
  end.
End LOW.

(** What instrumented code should do along a path of blocks: one push right
    before the first dangerous block, and from then on a pop at every returning
    exit. *)
Fixpoint protect (dang ex : nat -> bool) (pushed : bool) (path : list nat) : list ev :=
  match path with
  | [] => []
  | b :: r =>
      let pushed' := (pushed || dang b)%bool in
      (if negb pushed && dang b then [Push] else []) ++ [Blk b] ++
      (if pushed' && ex b then [Pop] else []) ++ protect dang ex pushed' r
  end.

(** ** Proofs *)
Lemma itargets_in co b k e :
  In (k, e) (itargets co b) <-> nth_error (b_targets (co_block co b)) k = Some e.
Proof.
  unfold itargets. generalize (b_targets (co_block co b)) as ts. intros ts.
  assert (G : forall ts o, In (k, e) (combine (seq o (List.length ts)) ts) <->
                      (o <= k)%nat /\ nth_error ts (k - o) = Some e).
  { clear. induction ts as [|a ts IH]; intros o; cbn [List.length seq combine].
    - split; [intros []|]. intros [_ H]. destruct (k - o)%nat; discriminate.
    - cbn [In]. rewrite IH. split.
      + intros [H|[H1 H2]].
        * injection H as -> ->. split; [lia|]. rewrite Nat.sub_diag. reflexivity.
        * split; [lia|]. replace (k - o)%nat with (S (k - S o)) by lia. exact H2.
      + intros [H1 H2]. destruct (Nat.eq_dec o k) as [->|N].
        * left. rewrite Nat.sub_diag in H2. cbn in H2. injection H2 as ->. reflexivity.
        * right. split; [lia|]. replace (k - o)%nat with (S (k - S o)) in H2 by lia. exact H2. }
  rewrite G, Nat.sub_0_r. split; [intros [_ H]; auto|split; [lia|auto]].
Qed.

Section RP.
Variable co : code.
Variable unsafe bs : list nat.
Hypothesis CB : closed_blocks co bs.
Notation dgr := (danger co unsafe).

Definition redir_loop (n : nat) (cur : nat) :=
  fix loop (ts : list edge) (k : nat) (st : list eid * list eid) {struct ts} : option (list eid * list eid) :=
    match ts with
    | [] => Some st
    | e :: r =>
        if skipped e then loop r (S k) st
        else if emem (cur, k) (snd st) then loop r (S k) st
        else let vis := (cur, k) :: snd st in
             if dgr (e_trg e) then loop r (S k) ((cur, k) :: fst st, vis)
             else match redir co unsafe n (e_trg e) (fst st, vis) with
                  | Some st' => loop r (S k) st'
                  | None => None
                  end
    end.
Lemma redir_S n cur st :
  redir co unsafe (S n) cur st = redir_loop n cur (b_targets (co_block co cur)) O st.
Proof. reflexivity. Qed.

(** Blocks reached from [b] through edges into harmless blocks only. *)
Inductive calm (b : nat) : nat -> Prop :=
| calm_refl : calm b b
| calm_step m x t : calm b m -> fst x = m -> is_edge co x t -> dgr t = false -> calm b t.
Lemma calm_trans a b c : calm a b -> calm b c -> calm a c.
Proof. intros H. induction 1; auto. econstructor; eauto. Qed.

(** All followable edges of [b] are in [vis]. *)
Definition done (b : nat) (vis : list eid) : Prop :=
  forall k e, nth_error (b_targets (co_block co b)) k = Some e -> followable e -> In (b, k) vis.

Lemma redir_ok n : forall cur red vis, In cur bs -> (unvisited co bs vis < n)%nat ->
  exists rnew new, redir co unsafe n cur (red, vis) = Some (rnew ++ red, new ++ vis) /\
    done cur (new ++ vis) /\
    (forall x, In x new -> exists t, is_edge co x t /\ calm cur (fst x) /\
       (dgr t = true -> In x rnew) /\ (dgr t = false -> done t (new ++ vis))) /\
    (forall x, In x rnew -> In x new /\ exists t, is_edge co x t /\ dgr t = true).
Proof.
  induction n as [|n IH]; intros cur red vis Hc Hn; [lia|]. rewrite redir_S.
  assert (L : forall ts dn red1 vis1, b_targets (co_block co cur) = dn ++ ts ->
     incl vis vis1 ->
     exists rnew new, redir_loop n cur ts (List.length dn) (red1, vis1) = Some (rnew ++ red1, new ++ vis1) /\
       (forall j e, nth_error ts j = Some e -> followable e -> In (cur, (List.length dn + j)%nat) (new ++ vis1)) /\
       (forall x, In x new -> exists t, is_edge co x t /\ calm cur (fst x) /\
          (dgr t = true -> In x rnew) /\ (dgr t = false -> done t (new ++ vis1))) /\
       (forall x, In x rnew -> In x new /\ exists t, is_edge co x t /\ dgr t = true)).
  { induction ts as [|e r IHr]; intros dn red1 vis1 HT HV; cbn [redir_loop].
    - exists [], []. split; [reflexivity|]. split; [intros j e Hj; destruct j; discriminate|].
      split; intros x Hx; exact (False_ind _ Hx).
    - assert (HT' : b_targets (co_block co cur) = (dn ++ [e]) ++ r) by (rewrite <- app_assoc; auto).
      assert (HL : List.length (dn ++ [e]) = S (List.length dn)) by (rewrite app_length; cbn; lia).
      assert (HN : nth_error (b_targets (co_block co cur)) (List.length dn) = Some e).
      { rewrite HT, nth_error_app2, Nat.sub_diag; auto. }
      rewrite <- HL.
      set (x0 := (cur, List.length dn) : eid).
      (* continue with the rest after [new0] has been visited *)
      assert (GO : forall rnew0 new0, 
         (followable e -> In x0 (new0 ++ vis1)) ->
         (forall x, In x new0 -> exists t, is_edge co x t /\ calm cur (fst x) /\
            (dgr t = true -> In x rnew0) /\ (dgr t = false -> done t (new0 ++ vis1))) ->
         (forall x, In x rnew0 -> In x new0 /\ exists t, is_edge co x t /\ dgr t = true) ->
         exists rnew new, redir_loop n cur r (List.length (dn ++ [e])) (rnew0 ++ red1, new0 ++ vis1) =
             Some (rnew ++ red1, new ++ vis1) /\
           (forall j e', nth_error (e :: r) j = Some e' -> followable e' ->
              In (cur, (List.length dn + j)%nat) (new ++ vis1)) /\
           (forall x, In x new -> exists t, is_edge co x t /\ calm cur (fst x) /\
              (dgr t = true -> In x rnew) /\ (dgr t = false -> done t (new ++ vis1))) /\
           (forall x, In x rnew -> In x new /\ exists t, is_edge co x t /\ dgr t = true)).
      { intros rnew0 new0 H0 H1 H2.
        destruct (IHr (dn ++ [e]) (rnew0 ++ red1) (new0 ++ vis1) HT') as (rn & nw & E & D & A & B).
        { intros y Hy. apply in_or_app. right. auto. }
        exists (rn ++ rnew0), (nw ++ new0). rewrite <- !app_assoc. split; [exact E|].
        split.
        { intros [|j] e' Hj Fe.
          - cbn in Hj. injection Hj as <-. rewrite Nat.add_0_r. apply in_or_app. right. auto.
          - cbn in Hj. replace (List.length dn + S j)%nat with (List.length (dn ++ [e]) + j)%nat by lia.
            eapply D; eauto. }
        split.
        - intros x Hx. apply in_app_or in Hx. destruct Hx as [Hx|Hx].
          + destruct (A x Hx) as (t & T1 & T2 & T3 & T4). exists t. split; auto. split; auto. split.
            * intros K. apply in_or_app. left. auto.
            * auto.
          + destruct (H1 x Hx) as (t & T1 & T2 & T3 & T4). exists t. split; auto. split; auto. split.
            * intros K. apply in_or_app. right. auto.
            * intros K k e' K1 K2. apply in_or_app. right. eapply T4; eauto.
        - intros x Hx. apply in_app_or in Hx. destruct Hx as [Hx|Hx].
          + destruct (B x Hx) as (B1 & B2). split; auto. apply in_or_app; auto.
          + destruct (H2 x Hx) as (B1 & B2). split; auto. apply in_or_app; auto. }
      destruct (skipped e) eqn:ES.
      { apply (GO [] []).
        - intros F. apply skipped_false in F. congruence.
        - intros x Hx; exact (False_ind _ Hx).
        - intros x Hx; exact (False_ind _ Hx). }
      apply skipped_false in ES. fold x0. cbn [fst snd]. cbv zeta.
      destruct (emem x0 vis1) eqn:EV.
      { apply (GO [] []).
        - intros _. apply emem_in; auto.
        - intros x Hx; exact (False_ind _ Hx).
        - intros x Hx; exact (False_ind _ Hx). }
      apply emem_nin in EV.
      assert (IE : is_edge co x0 (e_trg e)) by (exists e; auto).
      destruct (dgr (e_trg e)) eqn:ED.
      { apply (GO [x0] [x0]).
        - intros _. left; auto.
        - intros x [<-|[]]. exists (e_trg e). split; auto. split; [constructor|].
          split; [intros _; left; auto|congruence].
        - intros x [<-|[]]. split; [left; auto|]. exists (e_trg e). auto. }
      destruct (IH (e_trg e) red1 (x0 :: vis1)) as (rn & nw & E & D & A & B).
      + apply (CB cur); auto. exists e. split; [eapply nth_error_In; eauto|auto].
      + pose proof (unvisited_cons co bs x0 vis1 (edges_of_in co bs cur _ e Hc HN) EV).
        pose proof (unvisited_mono co bs vis vis1 HV).
        eapply Nat.lt_le_trans; [eassumption|]. lia.
      + rewrite E.
        assert (EQ : nw ++ x0 :: vis1 = (nw ++ [x0]) ++ vis1) by (rewrite <- app_assoc; reflexivity).
        rewrite EQ in *. apply GO.
        * intros _. apply in_or_app. left. apply in_or_app. right. left; auto.
        * intros x Hx. apply in_app_or in Hx. destruct Hx as [Hx|[<-|[]]].
          -- destruct (A x Hx) as (t & T1 & T2 & T3 & T4). exists t. split; auto. split.
             ++ eapply calm_trans; [|exact T2]. econstructor; [constructor| |exact IE|auto]. reflexivity.
             ++ split; auto.
          -- exists (e_trg e). split; auto. split; [constructor|]. split; [congruence|auto].
        * intros x Hx. destruct (B x Hx) as (B1 & B2). split; auto. apply in_or_app; auto. }
  destruct (L (b_targets (co_block co cur)) [] red vis eq_refl (incl_refl _)) as (rn & nw & E & D & A & B).
  exists rn, nw. split; [exact E|]. split; [|auto]. intros k e Hk Fe. apply (D k e Hk Fe).
Qed.

(** The transition edges are the edges from calm blocks into dangerous ones. *)
Lemma redir_exact entry : In entry bs ->
  exists red vis, redir co unsafe (fuel_of co bs) entry ([], []) = Some (red, vis) /\
    forall x, In x red <-> exists t, calm entry (fst x) /\ is_edge co x t /\ dgr t = true.
Proof.
  intros HE. destruct (redir_ok (fuel_of co bs) entry [] [] HE) as (rn & nw & E & D & A & B).
  { unfold unvisited, fuel_of.
    assert (G : forall l : list eid, (List.length (filter (fun e => negb (emem e [])) l) <= List.length l)%nat).
    { induction l as [|a l IH]; cbn [filter List.length]; [lia|].
      destruct (negb (emem a [])); cbn [List.length]; lia. }
    specialize (G (edges_of co bs)). lia. }
  rewrite !app_nil_r in *. exists rn, nw. split; auto.
  assert (C : forall b, calm entry b -> done b nw).
  { induction 1 as [|m x t H IH F IE DG]; auto.
    destruct IE as (e & N & Fe & <-).
    assert (Hx : In x nw). { destruct x as [a k]. cbn in F. subst a. eapply IH; eauto. }
    destruct (A x Hx) as (t' & (e' & N' & _ & <-) & _ & _ & T). rewrite N in N'. injection N' as <-. auto. }
  intros x. split.
  - intros Hx. destruct (B x Hx) as (Hn & t & IE & Dt). exists t. split; auto.
    destruct (A x Hn) as (t' & _ & K & _). auto.
  - intros (t & K & IE & Dt). destruct IE as (e & N & Fe & <-).
    assert (Hx : In x nw). { destruct x as [a k]. eapply C; eauto. }
    destruct (A x Hx) as (t' & (e' & N' & _ & <-) & _ & T & _). rewrite N in N'. injection N' as <-. auto.
Qed.
End RP.

(** ** The patched function along a path *)
Section LP.
Variable co : code.
Variable fl : flags.
Variable fn : nat.
Variable s : summary.
Notation f := (co_fun co fn).
Notation bs := (f_blocks (co_fun co fn)).
Notation entry := (f_entry (co_fun co fn)).
Hypothesis CFG : cfg_ok co fn.
(** Return edges leave the function. *)
Hypothesis RETS : forall b e, In b bs -> In e (b_targets (co_block co b)) -> followable e -> e_ty e <> RET.
(** The flag set by the call graph pass is right. *)
Hypothesis FLAG : s_indirect_cf s = false -> no_indirect co bs.

Notation unsafe := (s_unsafe_blocks s).
Notation dgr := (danger co (s_unsafe_blocks s)).

Lemma gr_edge_ok b e : In b bs -> In e (b_targets (co_block co b)) -> followable e -> gr_edge e = true.
Proof.
  intros Hb He F. unfold gr_edge. pose proof (RETS b e Hb He F) as R. destruct F as (A & B & C).
  rewrite A, B. cbn. apply negb_true_iff, orb_false_iff. split; apply is_false; auto.
Qed.
Lemma gr_edge_follow e : gr_edge e = true -> followable e.
Proof.
  unfold gr_edge. rewrite !andb_true_iff, !negb_true_iff, orb_false_iff, !is_false. intros ((A & B) & C & D).
  split; auto.
Qed.

Definition U2 : list node := map (pair false) bs ++ map (pair true) bs.
Lemma U2_in n : In n U2 <-> In (snd n) bs.
Proof.
  unfold U2. rewrite in_app_iff, !in_map_iff. destruct n as [c b]. cbn. split.
  - intros [(x & E & H)|(x & E & H)]; injection E as _ <-; auto.
  - intros H. destruct c; [right|left]; exists b; auto.
Qed.
Lemma gr_closed nd red n m : In n U2 -> In m (gr_succ co nd red n) -> In m U2.
Proof.
  rewrite !U2_in. intros Hn Hm. unfold gr_succ in Hm. apply in_map_iff in Hm.
  destruct Hm as ([k e] & <- & H). apply filter_In in H. destruct H as [H G]. cbn [fst snd] in *.
  apply itargets_in in H. apply gr_edge_follow in G. destruct n as [c b]. cbn [fst snd] in *.
  assert (In (e_trg e) bs).
  { apply (proj2 CFG b); auto. exists e. split; [eapply nth_error_In; eauto|auto]. }
  unfold patched_trg. destruct nd; [auto|]. destruct c; auto.
Qed.

Lemma lower_total : lower co fl fn s <> LNoFuel.
Proof.
  clear RETS FLAG.
  unfold lower. destruct (_ || _ || _)%bool; [discriminate|].
  destruct (redir_exact co unsafe bs (proj2 CFG) entry (proj1 CFG)) as (red & vis & R & _).
  unfold fuel_of in R. rewrite R.
  destruct (negb (forallb _ red)); [discriminate|].
  destruct (_ && _)%bool; [discriminate|].
  assert (L : List.length U2 = (2 * List.length bs)%nat).
  { unfold U2. rewrite app_length, !map_length. lia. }
  destruct (mark_reaches node_dec (gr_succ co (fl_ndebug fl) red) U2
     (fun x y => gr_closed (fl_ndebug fl) red x y) (false, entry)) as (v & E & _).
  { apply U2_in. apply (proj1 CFG). }
  rewrite L in E. rewrite E. destruct (_ && _)%bool; discriminate.
Qed.

Variable l : lowered.
Hypothesis LOW : lower co fl fn s = Lowered l.
Hypothesis DEBUG : fl_ndebug fl = false.

Lemma lower_inv :
  no_indirect co bs /\ ~ In entry unsafe /\ l_ndebug l = false /\
  (forall x, In x (l_red l) <-> exists t, calm co unsafe entry (fst x) /\ is_edge co x t /\ dgr t = true) /\
  exists reachable,
    (forall n, In n reachable <-> reaches (gr_succ co false (l_red l)) (false, entry) n) /\
    l_push_blocks l = coalesce co false (l_red l) reachable bs /\
    l_push_edges l = filter (fun x => negb (mem (trg co x) (l_push_blocks l))) (l_red l) /\
    l_pops l = filter (fun b => negb (nonreturning_call (co_block co b))) (f_exits f) /\
    l_reg l = use_reg fl s.
Proof.
  revert LOW. unfold lower.
  destruct (fl_no_lowering fl || negb (lower_ok f s) || s_indirect_cf s)%bool eqn:G; [discriminate|].
  apply orb_false_iff in G. destruct G as [G GI]. apply orb_false_iff in G. destruct G as [_ G].
  apply negb_false_iff in G. unfold lower_ok in G. rewrite !andb_true_iff in G. destruct G as [[G _] _].
  apply negb_true_iff, mem_nin in G.
  destruct (redir_exact co unsafe bs (proj2 CFG) entry (proj1 CFG)) as (red & vis & R & RX).
  unfold fuel_of in R. rewrite R.
  destruct (negb (forallb _ red)); [discriminate|].
  match goal with |- context [if ?c then NotLowered else _] => destruct c; [discriminate|] end.
  rewrite DEBUG. cbv zeta.
  assert (L : List.length U2 = (2 * List.length bs)%nat).
  { unfold U2. rewrite app_length, !map_length. lia. }
  destruct (mark_reaches node_dec (gr_succ co false red) U2
     (fun x y => gr_closed false red x y) (false, entry)) as (v & E & EX).
  { apply U2_in. apply (proj1 CFG). }
  rewrite L in E. rewrite E.
  match goal with |- context [if ?c then LAbort else _] => destruct c; [discriminate|] end.
  intros K. injection K as <-. cbn [l_red l_ndebug l_push_blocks l_push_edges l_pops l_reg].
  split; [auto|]. split; [auto|]. split; [auto|]. split; [exact RX|]. exists v. auto.
Qed.

Lemma has_ind_false b : no_indirect co bs -> In b bs -> has_ind co b = false.
Proof.
  intros NI Hb. unfold has_ind. destruct (existsb _ _) eqn:E; auto. exfalso.
  apply existsb_exists in E. destruct E as (e & He & K). apply andb_true_iff in K. destruct K as [K1 K2].
  apply negb_true_iff, skipped_false in K1. apply is_true in K2. eapply NI; eauto.
Qed.
Lemma danger_unsafe b : no_indirect co bs -> In b bs -> dgr b = mem b unsafe.
Proof. intros NI Hb. unfold danger. rewrite has_ind_false by auto. apply orb_false_r. Qed.

Lemma calm_in_bs b : calm co unsafe entry b -> In b bs.
Proof.
  induction 1 as [|m x t H IH F IE D]; [apply (proj1 CFG)|].
  destruct IE as (e & N & Fe & <-). subst m. apply (proj2 CFG (fst x)); auto.
  exists e. split; [eapply nth_error_In; eauto|auto].
Qed.
Lemma calm_safe b : calm co unsafe entry b -> dgr b = false.
Proof.
  destruct lower_inv as (NI & NE & _). intros H. destruct H; auto.
  rewrite danger_unsafe by (auto; apply (proj1 CFG)). apply mem_nin; auto.
Qed.
Lemma red_edge x t : is_edge co x t -> calm co unsafe entry (fst x) ->
  emem x (l_red l) = dgr t.
Proof.
  intros IE C. destruct lower_inv as (_ & _ & _ & RX & _).
  destruct (dgr t) eqn:D.
  - apply emem_in, RX. exists t. auto.
  - apply emem_nin. intros K. apply RX in K. destruct K as (t' & _ & IE' & D').
    apply is_edge_trg in IE. apply is_edge_trg in IE'. congruence.
Qed.
Lemma gr_step c b k e : In b bs -> nth_error (b_targets (co_block co b)) k = Some e -> followable e ->
  In (patched_trg false (l_red l) (c, b) k e) (gr_succ co false (l_red l) (c, b)).
Proof.
  intros Hb Hk Fe. unfold gr_succ. apply in_map_iff. exists (k, e). split; [reflexivity|].
  apply filter_In. split; [apply itargets_in; exact Hk|]. eapply gr_edge_ok; eauto. eapply nth_error_In; eauto.
Qed.
Lemma calm_reaches b : calm co unsafe entry b -> reaches (gr_succ co false (l_red l)) (false, entry) (false, b).
Proof.
  induction 1 as [|m x t H IH F IE D]; [constructor|]. subst m.
  eapply reaches_snoc; [exact IH|]. pose proof (red_edge x t IE H) as RE. rewrite D in RE.
  destruct IE as (e & N & Fe & <-). pose proof (gr_step false (fst x) (snd x) e (calm_in_bs _ H) N Fe) as G.
  cbn [patched_trg] in G. destruct x as [a k]. cbn [fst snd] in *. rewrite RE in G. exact G.
Qed.

(** A path all of whose catch edges are taken before the first dangerous block and
    lead to blocks that ordinary edges reach through harmless blocks as well. *)
Fixpoint tame (pushed : bool) (b : nat) (ks : list nat) : Prop :=
  match ks with
  | [] => True
  | k :: r =>
      match nth_error (b_targets (co_block co b)) k with
      | Some e => (e_ty e <> CATCH \/ (pushed = false /\ calm co unsafe entry (e_trg e))) /\
                  tame (pushed || dgr (e_trg e)) (e_trg e) r
      | None => True
      end
  end.
Lemma no_catch_tame ks : forall pushed b, no_catch co b ks -> tame pushed b ks.
Proof.
  induction ks as [|k r IH]; intros pushed b H; cbn in *; auto.
  destruct (nth_error _ _) as [e|]; auto. destruct H as [H1 H2]. split; auto.
Qed.

Definition pops_at (b : nat) : bool := mem b (l_pops l).

(** The state before each step: an original block is harmless and calmly reached,
    a clone is reachable in the patched function. *)
Definition inv (n : node) : Prop :=
  In (snd n) bs /\ reaches (gr_succ co false (l_red l)) (false, entry) n /\
  (fst n = false -> calm co unsafe entry (snd n)).

Lemma push_block_edge x t : In x (l_red l) -> is_edge co x t ->
  emem x (l_push_edges l) = negb (mem t (l_push_blocks l)).
Proof.
  destruct lower_inv as (_ & _ & _ & _ & v & _ & _ & PE & _). intros Hx IE. rewrite PE.
  apply is_edge_trg in IE. destruct (mem t (l_push_blocks l)) eqn:M; cbn [negb].
  - apply emem_nin. intros K. apply filter_In in K. destruct K as [_ K]. rewrite IE, M in K. discriminate.
  - apply emem_in, filter_In. rewrite IE, M. auto.
Qed.
Lemma no_push_block b k e : In b bs -> reaches (gr_succ co false (l_red l)) (false, entry) (true, b) ->
  nth_error (b_targets (co_block co b)) k = Some e -> followable e ->
  mem (e_trg e) (l_push_blocks l) = false.
Proof.
  intros Hb HR HN Fe. destruct lower_inv as (_ & _ & _ & _ & v & RV & PB & _). rewrite PB.
  unfold coalesce. apply mem_nin. intros K. apply filter_In in K. destruct K as [_ K].
  rewrite !andb_true_iff in K. destruct K as [_ K]. apply negb_true_iff in K.
  unfold not_inst_edges in K. assert (T : existsb (fun a => amem node_dec (true, a) v &&
     existsb (fun e0 => negb (skipped e0) && Nat.eqb (e_trg e0) (e_trg e)) (b_targets (co_block co a))) bs = true).
  { apply existsb_exists. exists b. split; auto. apply andb_true_iff. split.
    - apply amem_in, RV. exact HR.
    - apply existsb_exists. exists e. split; [eapply nth_error_In; eauto|].
      rewrite (proj2 (skipped_false e) Fe), Nat.eqb_refl. reflexivity. }
  congruence.
Qed.

Lemma run_tail ks : forall n path, inv n ->
  orig_blocks co (snd n) ks = Some path -> tame (fst n) (snd n) ks ->
  exists rest, path = snd n :: rest /\
    run_lowered co l n ks = Some (node_evs l n ++ protect dgr pops_at (fst n) rest).
Proof.
  destruct lower_inv as (NI & NE & ND & RX & _).
  induction ks as [|k r IH]; intros n path (Hb & HR & HC) HO HT.
  - cbn in HO. injection HO as <-. exists []. split; auto. cbn. rewrite app_nil_r. reflexivity.
  - cbn [orig_blocks] in HO. cbn [run_lowered]. cbn [tame] in HT.
    destruct (nth_error (b_targets (co_block co (snd n))) k) as [e|] eqn:HN; [|discriminate].
    destruct (e_sink e || e_inter e)%bool eqn:SI; [discriminate|].
    destruct (orig_blocks co (e_trg e) r) as [p|] eqn:HP; [|discriminate].
    cbn in HO. injection HO as <-. exists p. split; auto.
    destruct HT as [HT1 HT2]. rewrite ND.
    destruct n as [c b]. cbn [fst snd] in *.
    apply orb_false_iff in SI. destruct SI as [S1 S2].
    destruct (etype_eq_dec (e_ty e) CATCH) as [EC|NC].
    + (* a catch edge out of a harmless block *)
      destruct HT1 as [HT1|[-> HT1]]; [contradiction|].
      pose proof (calm_safe _ HT1) as DS. rewrite DS in HT2. cbn [orb] in HT2.
      assert (XR : emem (b, k) (l_red l) = false).
      { apply emem_nin. intros K. apply RX in K. destruct K as (t & _ & (e' & N' & (_ & _ & F') & _) & _).
        cbn [fst snd] in N'. rewrite HN in N'. injection N' as <-. contradiction. }
      cbn [patched_trg]. rewrite XR.
      destruct (IH (false, e_trg e) p) as (rest & -> & RR); auto.
      { split; [apply calm_in_bs; auto|]. split; [apply calm_reaches; auto|auto]. }
      rewrite RR. f_equal. f_equal.
      unfold edge_evs. cbn [fst snd negb andb].
      assert (XE : emem (b, k) (l_push_edges l) = false).
      { destruct lower_inv as (_ & _ & _ & _ & v & _ & _ & PE & _). rewrite PE.
        apply emem_nin. apply emem_nin in XR. intros K. apply filter_In in K. tauto. }
      rewrite XE. cbn [app protect node_evs fst snd andb]. rewrite DS. reflexivity.
    + assert (Fe : followable e) by (repeat split; auto).
      assert (IE : is_edge co (b, k) (e_trg e)) by (exists e; auto).
      assert (Ht : In (e_trg e) bs).
      { apply (proj2 CFG b); auto. exists e. split; [eapply nth_error_In; eauto|auto]. }
      pose proof (gr_step c b k e Hb HN Fe) as GS.
      destruct c; cbn [patched_trg] in *.
      * (* in the clone *)
        rewrite (proj2 (skipped_false e) Fe) in *. cbn [negb] in *.
        destruct (IH (true, e_trg e) p) as (rest & -> & RR); auto.
        { split; [auto|]. split; [eapply reaches_snoc; eauto|discriminate]. }
        rewrite RR. f_equal. f_equal. unfold edge_evs. cbn [fst snd negb andb app].
        unfold node_evs. cbn [fst snd andb]. rewrite (no_push_block b k e) by auto.
        cbn [app protect orb negb andb]. unfold pops_at. reflexivity.
      * (* in the original *)
        specialize (HC eq_refl). pose proof (red_edge (b, k) _ IE HC) as RE. rewrite RE in *.
        destruct (dgr (e_trg e)) eqn:D; cbn [orb] in HT2.
        -- destruct (IH (true, e_trg e) p) as (rest & -> & RR); auto.
           { split; [auto|]. split; [eapply reaches_snoc; eauto|discriminate]. }
           rewrite RR. f_equal. f_equal. unfold edge_evs. cbn [fst snd negb andb].
           rewrite (push_block_edge (b, k) (e_trg e)) by (auto; apply emem_in; auto).
           unfold node_evs. cbn [fst snd andb]. cbn [protect orb negb andb]. rewrite D. unfold pops_at.
           destruct (mem (e_trg e) (l_push_blocks l)); cbn [negb app]; reflexivity.
        -- destruct (IH (false, e_trg e) p) as (rest & -> & RR); auto.
           { split; [auto|]. split; [eapply reaches_snoc; eauto|].
             intros _. econstructor; [exact HC| |exact IE|exact D]. reflexivity. }
           rewrite RR. f_equal. f_equal. unfold edge_evs. cbn [fst snd negb andb].
           assert (XE : emem (b, k) (l_push_edges l) = false).
           { destruct lower_inv as (_ & _ & _ & _ & v & _ & _ & PE & _). rewrite PE.
             apply emem_nin. apply emem_nin in RE. intros K. apply filter_In in K. tauto. }
           rewrite XE. cbn [app protect node_evs fst snd andb]. rewrite D. reflexivity.
Qed.

Lemma protect_ext d1 d2 e1 e2 path : forall p, (forall b, In b path -> d1 b = d2 b /\ e1 b = e2 b) ->
  protect d1 e1 p path = protect d2 e2 p path.
Proof.
  induction path as [|b r IH]; intros p H; cbn [protect]; auto.
  destruct (H b (or_introl eq_refl)) as [-> ->]. rewrite (IH (p || d2 b)%bool); auto.
  intros x Hx. apply H. right; auto.
Qed.
(** Paths that start in the function and follow tame edges stay in it. *)
Lemma tame_in_bs ks : forall pushed b path, In b bs -> tame pushed b ks ->
  orig_blocks co b ks = Some path -> forall x, In x path -> In x bs.
Proof.
  induction ks as [|k r IH]; intros pushed b path Hb T O x Hx; cbn in *.
  - injection O as <-. destruct Hx as [<-|[]]. auto.
  - destruct (nth_error _ _) as [e|] eqn:HN; [|discriminate].
    destruct (e_sink e || e_inter e)%bool eqn:SI; [discriminate|].
    destruct (orig_blocks co (e_trg e) r) as [p|] eqn:HP; [|discriminate].
    cbn in O. injection O as <-. destruct Hx as [<-|Hx]; auto.
    destruct T as [T1 T2]. eapply IH; [|exact T2|exact HP|exact Hx].
    destruct (etype_eq_dec (e_ty e) CATCH) as [EC|NC].
    + destruct T1 as [T1|[_ T1]]; [contradiction|]. apply calm_in_bs; auto.
    + apply (proj2 CFG b); auto. exists e. split; [eapply nth_error_In; eauto|].
      apply orb_false_iff in SI. destruct SI. split; [repeat split; auto|auto].
Qed.

Theorem lowered_events ks path :
  orig_blocks co entry ks = Some path -> tame false entry ks ->
  run_lowered co l (false, entry) ks =
  Some (protect (fun b => mem b unsafe)
          (fun b => mem b (f_exits f) && negb (nonreturning_call (co_block co b))) false path).
Proof.
  intros HO HT. destruct lower_inv as (NI & NE & _ & _ & _ & _ & _ & _ & PO & _).
  assert (I : inv (false, entry)).
  { split; [apply (proj1 CFG)|]. split; [constructor|constructor]. }
  destruct (run_tail ks (false, entry) path I HO HT) as (rest & E & R). cbn [snd] in E. rewrite R.
  f_equal. rewrite E. unfold node_evs. cbn [fst snd andb app]. cbn [protect negb orb].
  assert (M : mem entry unsafe = false) by (apply mem_nin; auto). rewrite M. cbn [andb app]. f_equal.
  apply protect_ext. intros b Hb. split.
  - apply danger_unsafe; auto.
    eapply (tame_in_bs ks false entry path); [apply (proj1 CFG)|exact HT|exact HO|].
    rewrite E. right; auto.
  - unfold pops_at. rewrite PO. destruct (mem b (f_exits f)) eqn:M1; cbn [andb].
    + destruct (nonreturning_call _) eqn:M2; cbn [negb].
      * apply mem_nin. intros K. apply filter_In in K. destruct K as [_ K]. rewrite M2 in K. discriminate.
      * apply mem_in, filter_In. rewrite M2. split; auto. apply mem_in; auto.
    + apply mem_nin. intros K. apply filter_In in K. destruct K as [K _]. apply mem_in in K. congruence.
Qed.
End LP.

(** ** Control flow (C34) *)
Lemma lowered_control_flow co l ks : forall n,
  match lowered_blocks co l n ks with
  | Some ns => orig_blocks co (snd n) ks = Some (map snd ns)
  | None => orig_blocks co (snd n) ks = None
  end.
Proof.
  induction ks as [|k r IH]; intros n; cbn; auto.
  destruct (nth_error _ _) as [e|]; auto. destruct (e_sink e || e_inter e)%bool; auto.
  specialize (IH (patched_trg (l_ndebug l) (l_red l) n k e)).
  assert (E : snd (patched_trg (l_ndebug l) (l_red l) n k e) = e_trg e).
  { destruct n as [c b]. unfold patched_trg. destruct (l_ndebug l); auto. destruct c; auto. }
  rewrite E in IH. destruct (lowered_blocks _ _ _ _); rewrite IH; reflexivity.
Qed.

(** ** Facts about [protect] *)
Section PROT.
Variable dang ex : nat -> bool.
Definition pushes (l : list ev) : nat := count_occ ev_eq_dec l Push.
Lemma protect_pushed path : pushes (protect dang ex true path) = 0%nat.
Proof.
  unfold pushes. induction path as [|b r IH]; auto. cbn [protect negb andb orb app].
  destruct (ex b); cbn [app count_occ ev_eq_dec]; repeat (destruct (ev_eq_dec _ _); try discriminate); auto.
Qed.
Lemma protect_pushes path :
  pushes (protect dang ex false path) = if existsb dang path then 1%nat else 0%nat.
Proof.
  induction path as [|b r IH]; auto. cbn [protect negb andb orb existsb].
  destruct (dang b); cbn [orb app].
  - pose proof (protect_pushed r) as P. unfold pushes in *. destruct (ex b); cbn [app andb count_occ];
      repeat (destruct (ev_eq_dec _ _); try discriminate); congruence.
  - unfold pushes in *. cbn [andb app count_occ]. destruct (ev_eq_dec _ _); [discriminate|]. exact IH.
Qed.
(** The blocks executed. *)
Definition executed (l : list ev) : list nat :=
  flat_map (fun e => match e with Blk b => [b] | _ => [] end) l.
Lemma protect_executed path : forall p, executed (protect dang ex p path) = path.
Proof.
  unfold executed. induction path as [|b r IH]; intros p; auto. cbn [protect].
  rewrite !flat_map_app. rewrite IH. destruct (negb p && dang b)%bool; destruct (_ && ex b)%bool; reflexivity.
Qed.
(** Events before the [i]-th block: pushed exactly if a dangerous block has been seen. *)
Lemma protect_split path : forall p pre b post,
  protect dang ex p path = pre ++ Blk b :: post ->
  exists before after, path = before ++ b :: after /\
    (p = false -> (In Push pre <-> existsb dang (before ++ [b]) = true)) /\
    (p = true -> ~ In Push pre) /\
    ((exists r, post = Pop :: r) <-> ((p || existsb dang (before ++ [b])) && ex b)%bool = true).
Proof.
  induction path as [|a r IH]; intros p pre b post H; cbn [protect] in H.
  - destruct pre; discriminate.
  - set (p' := (p || dang a)%bool) in *.
    assert (NB : forall x y, (if p' && ex a then [Pop] else []) ++ protect dang ex p' r = x ++ Blk b :: y ->
       exists x', x = (if p' && ex a then [Pop] else []) ++ x' /\ protect dang ex p' r = x' ++ Blk b :: y).
    { intros x y. destruct (p' && ex a)%bool; cbn [app]; [|eauto].
      destruct x as [|c x]; cbn [app]; [discriminate|]. intros K. injection K as <- K. eauto. }
    assert (HP : forall q, (exists r1, (if p' && ex a then [Pop] else []) ++ protect dang ex q r = Pop :: r1) <->
                  (p' && ex a)%bool = true).
    { intros q. destruct (p' && ex a)%bool; cbn [app]; [split; eauto|].
      split; [|discriminate]. intros (r1 & K). destruct r as [|c r']; [discriminate|]. cbn [protect] in K.
      destruct (negb q && dang c)%bool; discriminate. }
    assert (CASE : (exists pre', pre = (if negb p && dang a then [Push] else []) ++ pre') /\
       ((pre = (if negb p && dang a then [Push] else []) /\ a = b /\
         post = (if p' && ex a then [Pop] else []) ++ protect dang ex p' r) \/
        (exists pre', pre = (if negb p && dang a then [Push] else []) ++ Blk a ::
             (if p' && ex a then [Pop] else []) ++ pre' /\ protect dang ex p' r = pre' ++ Blk b :: post))).
    { assert (G : [Blk a] ++ (if p' && ex a then [Pop] else []) ++ protect dang ex p' r = pre ++ Blk b :: post ->
        pre = [] /\ a = b /\ post = (if p' && ex a then [Pop] else []) ++ protect dang ex p' r \/
        (exists pre', pre = Blk a :: (if p' && ex a then [Pop] else []) ++ pre' /\
                  protect dang ex p' r = pre' ++ Blk b :: post)).
      { cbn [app]. intros K. destruct pre as [|c pre]; cbn [app] in K.
        - injection K as -> K. left. auto.
        - injection K as <- K. right. apply NB in K. destruct K as (x' & -> & K). eauto. }
      destruct (negb p && dang a)%bool; cbn [app] in *.
      - destruct pre as [|c pre]; [discriminate|]. injection H as <- H. split; [eauto|].
        destruct pre as [|c pre]; cbn [app] in H.
        + injection H as -> H. left. auto.
        + injection H as <- H. right. apply NB in H. destruct H as (x' & -> & H). eauto.
      - split; [eauto|]. apply G. exact H. }
    destruct CASE as [_ [(-> & -> & ->)|(pre' & -> & K)]].
    + exists [], r. split; auto. cbn [app existsb]. rewrite orb_false_r. fold p'. rewrite HP.
      split; [|split; [|reflexivity]].
      * intros ->. cbn [negb andb]. destruct (dang b); cbn; split; intros; auto; try contradiction; discriminate.
      * intros ->. cbn [negb andb]. auto.
    + destruct (IH _ _ _ _ K) as (bf & af & -> & A & B & C). exists (a :: bf), af. split; auto.
      cbn [app existsb]. rewrite orb_assoc. fold p'.
      split; [|split; [|exact C]].
      * intros ->. cbn [negb andb orb] in *. subst p'. cbn [orb] in *.
        destruct (dang a) eqn:D; cbn [orb app].
        -- split; auto. intros _. left; auto.
        -- cbn [andb app]. rewrite <- (A eq_refl). cbn. split; [intros [Q|Q]; [discriminate|auto]|auto].
      * intros ->. cbn [negb andb orb] in *. subst p'. cbn [app]. intros [Q|Q]; [discriminate|].
        apply in_app_or in Q. destruct Q as [Q|Q]; [|apply (B eq_refl Q)].
        destruct (ex a); [|contradiction]. destruct Q as [Q|[]]; discriminate.
Qed.
End PROT.
