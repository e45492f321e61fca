(** * Property C83: all executions of the instrumented program *)
From Coq Require Import ZArith Bool Lia ZifyBool ZifyNat Arith String List.
From Verif Require Import Machine MachineFacts Jit ShadowSpec JitFacts JitPushPop History RegFrame Witness.
From Verif Require Import Dfs Binary CallGraph InterProc MemPasses Pipeline RegNames BlockLive ExSem ExCode
  Reach SafePaths Lowering P_Lower FastPath Decision P_Instr FullRun Whole P_Whole Sites SiteEx P_Regs P_Sites P_SiteUse
  Order Activation PlanCode ActRun P_Activation RegRun P_RegRun Follow P_Follow Tree TreeFacts P_Tree LightSame LightFollow P_LightSame LightDet.
Import ListNotations.
Open Scope Z_scope.
Local Notation mem := Machine.mem.

(** C83: as for C82, with the way of the program (the next block, the function called) given by its
    state, and an order [le] on what can be seen of a state such that the program only goes up; for
    example, [X] has the list of all that was done, and [le] is "is an initial part of".  Then all runs
    of the instrumented program are like the run of the program as it is: if the latter returns, inserted
    code never traps or faults, what returns is the same, and at all times what was done is below
    what the program does; if the latter is looked at up to [x] only, inserted code neither traps nor
    faults before [x].
    Two edges to the same block need not be told apart: they get the same code.  Partial: as C82. *)
Theorem C83_all_executions_partial : forall co fl fs m width,
  parsed co fs -> (forall k, within co fl width k) -> fl_light fl = true -> run_light co = Ok m ->
  (forall g, own co g -> analysed co m g /\ tidy co g /\ (on_reg (planned co fl m fs g) = true -> names_ok co g)) -> calls_usual co ->
  forall o d, plain o -> o_optimize_regs o = false ->
  forall mp base k X sem after lib turns dials loads stores lloads lstores fsets (le : X -> X -> Prop),
  machine_ok X sem after loads stores fsets -> library_ok X lib lloads lstores ->
  one_way X turns dials -> upwards X sem lib le ->
  forall h n g lo cfa ra (C : Z -> Prop) p z, own co g ->
  p_rg p RSP = cfa - 8 -> load64 (p_mem p) (cfa - 8) = ra -> 0 < ra < W ->
  (forall a, Whole.slot cfa a -> C a) -> (forall a, C a -> ~ reserved base k a) ->
  quiet co fl fs m o d mp base k X sem after lib turns dials loads stores lloads lstores fsets h n g lo cfa ra C p z ->
  forall q l, alike X C p q -> wfp X q -> shadow_rep (p_mem q) base l -> (List.length l <= n)%nat ->
  forall h' z', call co fl fs m o d mp base X sem after lib turns dials true h' g ra q z' ->
  match z, z' with
  | QEnd p' C', Ended q' => p_rg p' RSP = cfa /\ alike X C' p' q' /\ shadow_rep (p_mem q') base l /\ forall a, cfa - 8 <= a -> C a -> C' a
  | QEnd p' _, Paused y => le y (p_rest p')
  | QEnd _ _, Tripped _ => False
  | QPause x, Ended q' => le x (p_rest q')
  | QPause x, Paused y => le x y \/ le y x
  | QPause x, Tripped y => le x y
  end.
Proof.
  intros co fl fs m width PA SU LI RL FN CU o d PL NO mp base k X sem after lib turns dials loads stores lloads lstores fsets le MO LO OW UP
    h n g lo cfa ra C p z HG RS RA R0 SL CR QT q l AL WF RP LL h' z' Z'.
  destruct (C82_executions_partial co fl fs m width PA SU LI RL FN CU o d PL NO mp base k X sem after lib turns dials loads stores lloads lstores fsets MO LO
    h n g lo cfa ra C p z HG RS RA R0 SL CR QT) as (_ & K). destruct (K q l AL WF RP LL) as (z1 & Z1 & E).
  pose proof (det_call co fl fs m o d mp base X sem after lib turns dials le OW UP PA (fun g H => proj1 (proj2 (FN g H))) LI true h h' g ra q z1 z' HG Z1 Z') as AG.
  destruct z as [p' C'|x], z1 as [q1|y|y]; try contradiction.
  - destruct z' as [q'|y'|y']; cbn in AG.
    + subst q'. exact E.
    + replace (p_rest p') with (p_rest q1); [exact AG|]. symmetry. apply (proj1 (proj2 E)).
    + exact AG.
  - subst y. exact AG.
Qed.
Print Assumptions C83_all_executions_partial.

(** *** The program of C82; running it *)
Section TEV.
Variable A : nat -> Z -> ast -> option (fin unit).
Fixpoint tlev (f : nat) (c : lcode) (p : ast) : option (fin unit) :=
  match f, c_lib c p with
  | S f', Some (p1, Back) => Some (Ended p1)
  | S f', Some (p1, Callback g ra) => match A g ra p1 with Some (Ended q) => tlev f' (Resume ra) q | z => z end
  | _, _ => None
  end.
Fixpoint tev (its : list item) (p : ast) : option (fin unit) :=
  match its with
  | [] => Some (Ended p)
  | Here n :: r => tev r p
  | Out n :: r => if c_enters (snd n) r then tev r p else None
  | Ins n i :: r =>
      match csem i p with
      | Some p1 =>
          if isop (i_op i) OCall then
            match match c_callee (snd n) with Some (Own g) => A g (c_after i) p1 | Some (Foreign name) => tlev 5 (Start name) p1 | None => None end with
            | Some (Ended q) => tev r q
            | z => z
            end
          else tev r p1
      | None => None
      end
  | Snip sn :: r =>
      match snip_code wopts sn with
      | Some c => match run 200 c t_mp (Machine.enter (as_state unit t_base p)) with
                  | Done u => tev r (of_state unit u p)
                  | Trap | Fault => Some (Tripped tt)
                  | OutOfFuel => None
                  end
      | None => Some (Tripped tt)
      end
  end.
End TEV.
Fixpoint cev (h g : nat) (ra : Z) (p : ast) : option (fin unit) :=
  match h with
  | O => None
  | S h' => match c_items g with
            | Some its => match tev (cev h') its p with
                          | Some (Ended q) => if word_at unit q =? ra then Some (Ended (popped unit q)) else None
                          | z => z
                          end
            | None => None
            end
  end.
Notation c_call := (call t_code fl_plain t_fs (wsums t_code) wopts (fun _ => no_dead) t_mp t_base unit csem c_after c_lib c_turns c_dials).
Notation c_trun := (trun t_code wopts t_mp t_base unit csem c_after c_lib c_turns c_dials).
Lemma tlev_ok A (R : caller unit) :
  (forall g ra p z, In g [0;1;2]%nat -> A g ra p = Some z -> R g ra p z) ->
  forall f c p z, tlev A f c p = Some z -> lrun t_code unit c_lib R c p z.
Proof.
  intros AO. induction f as [|f IH]; intros c p z H; cbn [tlev] in H; [discriminate|].
  destruct (c_lib c p) as [[p1 [|g ra]]|] eqn:L; [| |discriminate].
  - injection H as <-. apply lr_back. exact L.
  - assert (HG : In g [0;1;2]%nat).
    { apply c_lib_inv in L. destruct L as (_ & [(g' & ra' & P & _ & E2)|(_ & _ & E2)]); [|discriminate]. injection E2 as <- <-.
      apply c_pushes_in in P. apply P. }
    assert (OWN : own t_code g) by (split; [exact HG|]; cbn in HG; destruct HG as [<-|[<-|[<-|[]]]]; reflexivity).
    destruct (A g ra p1) as [z1|] eqn:EA; [|discriminate]. apply AO in EA; [|exact HG].
    destruct z1 as [q|y|y]; [eapply lr_call; eauto|injection H as <-; eapply lr_inner; eauto; exact I|injection H as <-; eapply lr_inner; eauto; exact I].
Qed.
Lemma tev_ok A (R : caller unit) :
  (forall g ra p z, In g [0;1;2]%nat -> A g ra p = Some z -> R g ra p z) ->
  forall its p z, tev A its p = Some z -> c_trun R its p z.
Proof.
  intros AO. induction its as [|x its IH]; intros p z H; cbn [tev] in H.
  - injection H as <-. constructor.
  - destruct x as [n|n i|sn|n].
    + apply t_here. auto.
    + destruct (csem i p) as [p1|] eqn:SE; [|discriminate]. destruct (isop (i_op i) OCall) eqn:OC.
      * apply isop_true in OC. destruct (match c_callee (snd n) with Some _ => _ | None => _ end) as [z1|] eqn:EA; [|discriminate].
        assert (TH : through t_code unit csem c_after c_lib c_dials R n i p z1).
        { destruct (c_callee (snd n)) as [[g|name]|] eqn:TC; [| |discriminate].
          - destruct (c_goes _ _ TC) as (e & IC & GT). apply AO in EA; [|exact (proj1 (proj1 GT))].
            exists e, p1. split; [exact IC|]. split; [exact SE|]. left. exists g. auto.
          - destruct (c_goes_out _ _ TC) as (e & IC & GT). apply (tlev_ok A R AO) in EA.
            exists e, p1. split; [exact IC|]. split; [exact SE|]. right. exists name. auto. }
        destruct z1 as [q|y|y]; [eapply t_call; eauto|injection H as <-; apply t_inner; cbn; auto|injection H as <-; apply t_inner; cbn; auto].
      * apply isop_false in OC. eapply t_ins; eauto.
    + assert (TT : forall p : ast, tt = p_rest p) by (intros p0; destruct (p_rest p0); reflexivity).
      destruct (snip_code wopts sn) as [c|] eqn:SC.
      * destruct (run 200 c t_mp _) as [u| | |] eqn:RU; [|injection H as <-..|discriminate].
        -- eapply t_snip; [exact SC| |apply IH; exact H]. split; [discriminate|]. exists 200%nat. exact RU.
        -- rewrite (TT p). apply t_trip. right. exists c. split; [exact SC|]. left. split; [discriminate|]. exists 200%nat. exact RU.
        -- rewrite (TT p). apply t_trip. right. exists c. split; [exact SC|]. right. split; [discriminate|]. exists 200%nat. exact RU.
      * injection H as <-. rewrite (TT p). apply t_trip. left. exact SC.
    + destruct (c_enters _ _) eqn:CE; [|discriminate]. apply t_out; [apply c_enters_ok; exact CE|auto].
Qed.
Lemma cev_ok : forall h g ra p z, In g [0;1;2]%nat -> cev h g ra p = Some z -> c_call true h g ra p z.
Proof.
  induction h as [|h IH]; intros g ra p z HG H; cbn [cev] in H; [discriminate|].
  destruct (c_items g) as [its|] eqn:TI; [|discriminate]. destruct (tev (cev h) its p) as [z0|] eqn:E; [|discriminate].
  exists (fst (fst (t_path g))), (snd (fst (t_path g))), (snd (t_path g)), its, z0.
  split; [cbn in HG; destruct HG as [<-|[<-|[<-|[]]]]; vm_compute; reflexivity|].
  split; [cbn in HG; destruct HG as [<-|[<-|[<-|[]]]]; cbn; repeat split; discriminate|]. split; [exact TI|].
  split; [exact (tev_ok _ _ IH _ _ _ E)|].
  destruct z0 as [q|y|y]; [|injection H as <-; apply l_pause; exact I..].
  destruct (word_at unit q =? ra) eqn:EW; [|discriminate]. injection H as <-. apply Z.eqb_eq in EW.
  apply l_ret; [| |exact EW]; cbn in HG; destruct HG as [<-|[<-|[<-|[]]]]; try reflexivity; exists ret_e; (split; [left; reflexivity|reflexivity]).
Qed.
(** When function 1 writes to 70000, no run of the instrumented program is stopped and what returns has
    the byte written.  When it writes to the return address of 0 instead, the check stops the program. *)
Example C83_case :
  one_way unit c_turns c_dials /\ upwards unit csem c_lib (fun _ _ => True) /\
  (exists h z', c_call true h 0 5555 (t_start 70000) z' /\ exists q', z' = Ended q') /\
  (forall h z', c_call true h 0 5555 (t_start 70000) z' ->
     match z' with Ended q' => p_mem q' 70000 = 70000 /\ p_rg q' RSP = 65536 | Paused _ => True | Tripped _ => False end) /\
  c_call true 3 0 5555 (t_start 65528) (Tripped tt).
Proof.
  destruct C82_case as (C1 & C2 & C3 & C4 & C5 & C6 & C7 & C8 & C9 & C10 & _ & _ & C13 & C14 & C15 & q & D & QT & Q1 & _ & Q2 & q1 & K1 & K2 & K3).
  assert (OWW : one_way unit c_turns c_dials).
  { split; [unfold c_turns; congruence|]. intros b x c1 c2. unfold c_dials. congruence. }
  assert (UP : upwards unit csem c_lib (fun _ _ => True)) by (repeat split; auto).
  split; [exact OWW|]. split; [exact UP|]. split; [exists 3%nat, (Ended q1); split; [exact K1|eauto]|]. split.
  - intros h z' Z'.
    pose proof (C83_all_executions_partial t_code fl_plain t_fs (wsums t_code) eight C1 C2 C3 C4 C5 C6 wopts (fun _ => no_dead) C7 C8
      t_mp t_base 10 unit csem c_after c_lib c_turns c_dials b_loads c_stores c_none c_lstores no_flags (fun _ _ => True) C9 C10 OWW UP
      3 0 0%nat t_lo 65536 5555 (fun a => c_all a = true) (t_start 70000) (QEnd q D) C13 C14 C15) as K.
    assert (1000000 < W) by (vm_compute; reflexivity).
    specialize (K ltac:(lia) ltac:(intros a Ha; unfold Whole.slot in Ha; unfold c_all, t_base; lia)
      ltac:(intros a Ha R; unfold LightSame.reserved, inside in R; unfold c_all in Ha; lia) QT (t_start 70000) []).
    specialize (K ltac:(split; auto) ltac:(intros r; destruct r; cbn; lia)).
    assert (RP : shadow_rep (p_mem (t_start 70000)) t_base []).
    { split; [vm_compute; reflexivity|]. split; [vm_compute; reflexivity|]. intros [|i] v E; discriminate. }
    specialize (K RP (Nat.le_0_l _) h z' Z'). destruct z' as [q'|y|y]; [|exact I|exact K].
    destruct K as (A1 & (A2 & A3 & _) & _). split; [rewrite <- (A3 _ Q1); exact Q2|rewrite <- A2; exact A1].
  - apply cev_ok; [left; reflexivity|]. vm_compute. reflexivity.
Qed.
