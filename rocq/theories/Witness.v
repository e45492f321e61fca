(** * Witness: concrete states and requests for examples and refutations. *)
From Coq Require Import ZArith List Bool String Lia ZifyBool ZifyNat.
From Verif Require Import Machine MachineFacts Jit ShadowSpec JitFacts JitPushPop History.
Import ListNotations.
Open Scope Z_scope.

(** Memory that holds a given shadow stack. *)
Fixpoint put (b : Z) (i : nat) (es : list Z) (m : memory) : memory :=
  match es with
  | [] => m
  | v :: r => put b (S i) r (store64 m (slot b i) v)
  end.
Definition build (b : Z) (l : list Z) (m : memory) : memory :=
  store64 (store64 (put b 0 (rev l) m) (b + 24) 0) b (slot b (List.length l)).

Lemma put_out b es : forall i m x,
  x < slot b i \/ slot b (i + List.length es) <= x -> put b i es m x = m x.
Proof.
  induction es as [|v es IH]; intros i m x Hx; cbn [put]; auto.
  cbn [List.length] in Hx. rewrite IH by (unfold slot in *; lia).
  apply store64_out. unfold slot in *. lia.
Qed.

Lemma put_nth b es : forall i m j v,
  nth_error es j = Some v -> 0 <= v < W ->
  load64 (put b i es m) (slot b (i + j)) = v.
Proof.
  induction es as [|w es IH]; intros i m j v Hj Hv; [destruct j; discriminate|].
  cbn [put]. destruct j as [|j]; cbn in Hj.
  - inversion Hj; subst. rewrite Nat.add_0_r.
    erewrite load64_ext with (m' := store64 m (slot b i) v).
    + apply load64_store64_same. auto.
    + intros x Hx. apply put_out. unfold slot in *. lia.
  - replace (i + S j)%nat with (S i + j)%nat by lia. apply IH; auto.
Qed.

Lemma build_rep b l m :
  (forall v, In v l -> 0 <= v < W) -> 0 <= b -> slot b (List.length l) < W ->
  shadow_rep (build b l m) b l.
Proof.
  intros HV HB HS. unfold build. split; [|split].
  - apply load64_store64_same. unfold slot in *. lia.
  - rewrite load64_store64_disj by lia. apply load64_store64_same. unfold W; lia.
  - intros i v Hi. rewrite !load64_store64_disj by (unfold slot; lia).
    change (slot b i) with (slot b (0 + i)). apply put_nth; auto.
    apply HV. apply in_rev. eapply nth_error_In; eauto.
Qed.
Lemma build_out b l m x :
  ~ inside b 32 x -> ~ inside (slot b 0) (8 * Z.of_nat (List.length l)) x ->
  build b l m x = m x.
Proof.
  intros H1 H2. unfold build, inside, slot in *.
  rewrite !store64_out by lia. apply put_out. rewrite rev_length. unfold slot. lia.
Qed.

(** All memory accessible. *)
Definition mp_all : perm := fun _ => true.
Lemma mapped_all a n : 0 <= a -> a + n <= W -> mapped mp_all a n.
Proof. repeat split; auto. Qed.

(** Stack pointer 0x7000, shadow stack at 0x10000, return address [ra] on top
    of the stack, shadow stack [l]. *)
Definition wsp : Z := 28672.
Definition wgs : Z := 65536.
Definition wfl : flags := mkFlags true false true false true false true.
Definition wregs : regs := fun r =>
  match r with RSP => wsp | R10 => 1010 | R11 => 1111 | R12 => 1212 | RAX => 7
             | _ => 3 end.
Definition wstate (l : list Z) (ra : Z) : state :=
  mkState wregs (build wgs l (store64 (fun _ => 0) wsp ra)) wgs wfl 0.

Lemma wstate_wf l ra : wf (wstate l ra).
Proof.
  split; [|cbn; unfold wgs, W; lia].
  intros r. cbn. unfold wregs, wsp, W. destruct r; lia.
Qed.
Lemma wstate_ra l ra :
  0 <= ra < W -> load64 (mem (wstate l ra)) wsp = ra.
Proof.
  intros H. cbn [mem wstate].
  erewrite load64_ext with (m' := store64 (fun _ => 0) wsp ra).
  - apply load64_store64_same. auto.
  - intros x Hx. apply build_out; unfold inside, slot, wgs, wsp in *; lia.
Qed.

Lemma wstate_env l ra k :
  (forall v, In v l -> 0 <= v < W) -> (List.length l <= k)%nat ->
  Z.of_nat k <= 2000000 -> env mp_all (wstate l ra) l 0 k.
Proof.
  intros HV HL HK. constructor.
  - apply wstate_wf.
  - apply mapped_all; cbn; unfold wsp, W; lia.
  - lia.
  - apply mapped_all; cbn; unfold wsp, W; lia.
  - auto.
  - apply mapped_all; cbn [gs wstate]; unfold wgs, W; lia.
  - cbn [gs wstate]. unfold slot, wgs, W; lia.
  - cbn [gs rg wstate]. unfold apart, wregs, wsp, wgs. lia.
  - cbn [mem gs wstate]. apply build_rep; auto; unfold slot, wgs, W; lia.
Qed.

Lemma wstate_thread l ra k :
  (forall v, In v l -> 0 <= v < W) -> (List.length l <= k)%nat ->
  Z.of_nat k <= 2000000 -> thread_ok mp_all k (wstate l ra) l.
Proof. intros H1 H2 H3. destruct (wstate_env l ra k H1 H2 H3). constructor; auto. Qed.

Lemma wstate_stack l ra k :
  Z.of_nat k <= 2000000 -> stack_ok mp_all k (wstate l ra) 0.
Proof.
  intros HK. repeat split; try (cbn; unfold wsp, W; lia).
  - cbn [gs rg wstate]. unfold apart, wregs, wsp, wgs. lia.
  - cbn [gs rg wstate]. unfold apart, wregs, wsp, wgs. lia.
Qed.

(** ** Requests *)
Definition wopts : opts := mkOpts "" false false.
Definition wopts_regs : opts := mkOpts "" false true.
Definition wopts_frame : opts := mkOpts "" true false.
Definition wopts_empty : opts := mkOpts "empty" false false.
Definition wopts_only : opts := mkOpts "only-save" false false.

(** A function entry in block 4096 with 5 dead registers, register data for
    moved instrumentation at block 4096 and one unused register. *)
Definition wpt : point := mkPoint 4096 8192 4100.
Definition wdead : list string :=
  ["x86_64::r8"; "x86_64::r9"; "x86_64::rcx"; "x86_64::rdi"; "x86_64::rdx"]%string.
Definition wjs : jsum :=
  mkJsum wdead [(4100, wdead)] ["x86_64::r12"; "x86_64::r13"]%string
    [(4096, mkMid 4099 16 1 "x86_64::r10" "")]%string
    [(4096, mkMid 4099 0 2 "x86_64::rdi" "x86_64::rsi")]%string
    [].
Definition wenter : ereq := mkEreq wopts wpt wjs false 0 false.
Definition wenter_regs : ereq := mkEreq wopts_regs wpt wjs false 0 false.
Definition wenter_moved : ereq := mkEreq wopts wpt wjs true 0 false.
Definition wexit : xreq := mkXreq wopts wpt wjs false.
Definition wexit_regs : xreq := mkXreq wopts_regs wpt wjs false.
Definition wexit_moved : xreq := mkXreq wopts wpt wjs true.

Ltac dec_names :=
  split; [repeat constructor; cbn; intuition discriminate|];
  intros n Hn; cbn in Hn; decompose [or] Hn; try contradiction; subst;
  first [ exists R8; split; [discriminate|reflexivity]
        | exists R9; split; [discriminate|reflexivity]
        | exists R10; split; [discriminate|reflexivity]
        | exists RCX; split; [discriminate|reflexivity]
        | exists RDX; split; [discriminate|reflexivity]
        | exists RSI; split; [discriminate|reflexivity]
        | exists RDI; split; [discriminate|reflexivity] ].

Lemma wopts_plain : plain wopts.
Proof. repeat split; discriminate. Qed.
Lemma wopts_regs_plain : plain wopts_regs.
Proof. repeat split; discriminate. Qed.
Lemma wdead_names : names wdead.
Proof. dec_names. Qed.
Lemma wenter_ok : e_ok wenter.
Proof. split; [apply wopts_plain|]. left. reflexivity. Qed.
Lemma wenter_regs_ok : e_ok wenter_regs.
Proof.
  split; [apply wopts_regs_plain|]. right; right. split; [apply wdead_names|cbn; lia].
Qed.
Lemma wenter_moved_ok : e_ok wenter_moved.
Proof. split; [apply wopts_plain|]. left. split; [reflexivity|]. dec_names. Qed.
Lemma wexit_ok : x_ok wexit.
Proof. split; [apply wopts_plain|]. left. reflexivity. Qed.
Lemma wexit_regs_ok : x_ok wexit_regs.
Proof.
  split; [apply wopts_regs_plain|]. right; right. split; [apply wdead_names|cbn; lia].
Qed.
Lemma wexit_moved_ok : x_ok wexit_moved.
Proof. split; [apply wopts_plain|]. right. split; [reflexivity|]. dec_names. Qed.

(** ** Running concrete code *)
Definition is_done (r : result) : bool := match r with Done _ => true | _ => false end.
Definition is_trap (r : result) : bool := match r with Trap => true | _ => false end.
Definition final (s : state) (r : result) : state := match r with Done s' => s' | _ => s end.

Lemma exec_done n c mp s :
  is_done (run n c mp (enter s)) = true ->
  exec c mp s (Done (final s (run n c mp (enter s)))).
Proof.
  intros H. destruct (run n c mp (enter s)) as [s'| | |] eqn:E; try discriminate.
  split; [discriminate|]. exists n. exact E.
Qed.
Lemma exec_trap n c mp s :
  is_trap (run n c mp (enter s)) = true -> exec c mp s Trap.
Proof.
  intros H. destruct (run n c mp (enter s)) eqn:E; try discriminate.
  split; [discriminate|]. exists n. exact E.
Qed.

Definition ecode {A} (x : eres (list instr * A)) : list instr :=
  match x with EOk (c, _) => c | _ => [] end.
