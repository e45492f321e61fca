(** * RegNames: register names and UnusedRegisterAnalysis
      (/repo/src/register_utils.h, /repo/src/passes.h:422-529) *)
From Coq Require Import ZArith Bool Lia Arith Ascii String List.
From Verif Require Import Machine Jit Dfs Binary ShadowSpec.
Import ListNotations.
Open Scope Z_scope.

(** [std::set<std::string>]: a list in increasing order. *)
Definition smem (x : string) (l : list string) : bool := existsb (String.eqb x) l.
Fixpoint splace (x : string) (l : list string) : list string :=
  match l with
  | [] => [x]
  | y :: t => if String.ltb x y then x :: l else y :: splace x t
  end.
Definition ssins (x : string) (l : list string) : list string :=
  if smem x l then l else splace x l.
Definition sdel (x : string) (l : list string) : list string :=
  filter (fun y => negb (String.eqb x y)) l.

Lemma smem_in x l : smem x l = true <-> In x l.
Proof.
  unfold smem. rewrite existsb_exists. split.
  - intros (y & Hy & E). apply String.eqb_eq in E. subst. auto.
  - intros H. exists x. split; auto. apply String.eqb_refl.
Qed.
Lemma smem_nin x l : smem x l = false <-> ~ In x l.
Proof.
  rewrite <- smem_in. destruct (smem x l); split; intros H; auto; try discriminate.
  exfalso; auto.
Qed.
Lemma splace_in x l y : In y (splace x l) <-> y = x \/ In y l.
Proof.
  induction l as [|a l IH]; cbn [splace].
  - cbn. intuition.
  - destruct (String.ltb x a); [cbn; intuition|]. cbn. rewrite IH. intuition.
Qed.
Lemma ssins_in x l y : In y (ssins x l) <-> y = x \/ In y l.
Proof.
  unfold ssins. destruct (smem x l) eqn:E; [|apply splace_in].
  apply smem_in in E. split; auto. intros [->|H]; auto.
Qed.
Lemma splace_nodup x l : NoDup l -> ~ In x l -> NoDup (splace x l).
Proof.
  induction l as [|a l IH]; cbn [splace]; intros N K.
  - constructor; auto.
  - inversion N; subst. destruct (String.ltb x a); [constructor; auto|].
    constructor; [|apply IH; auto; intros Q; apply K; right; auto].
    rewrite splace_in. intros [->|Q]; auto. apply K. left; auto.
Qed.
Lemma ssins_nodup x l : NoDup l -> NoDup (ssins x l).
Proof.
  intros N. unfold ssins. destruct (smem x l) eqn:E; auto.
  apply smem_nin in E. apply splace_nodup; auto.
Qed.
Lemma sdel_in x l y : In y (sdel x l) <-> y <> x /\ In y l.
Proof.
  unfold sdel. rewrite filter_In. destruct (String.eqb x y) eqn:E; cbn [negb].
  - apply String.eqb_eq in E. subst. split; intros [A B]; [discriminate|contradiction].
  - apply String.eqb_neq in E. split; intros [A B]; split; auto.
Qed.
Lemma sdel_nodup x l : NoDup l -> NoDup (sdel x l).
Proof. apply NoDup_filter. Qed.

(** ** NormalizeRegisterName, register_utils.h:7-42 *)
Definition arch : string := "x86_64::".
Definition is_digit (c : ascii) : bool :=
  let n := nat_of_ascii c in (48 <=? n)%nat && (n <=? 57)%nat.
Definition is_alpha (c : ascii) : bool :=
  let n := nat_of_ascii c in
  ((65 <=? n)%nat && (n <=? 90)%nat) || ((97 <=? n)%nat && (n <=? 122)%nat).
(** The last character of a non-empty string. *)
Fixpoint last_char (d : ascii) (s : string) : ascii :=
  match s with EmptyString => d | String c t => last_char c t end.

Definition pfx (r : string) : string := (arch ++ r)%string.
Definition any3 (a b c s : string) : bool :=
  (String.eqb s a || String.eqb s b || String.eqb s c)%bool.

(** [norm_reg full reg]: lines 12-41 on the name [reg] without prefix; [None] is
    a thrown std::out_of_range ([reg.substr(1,1).at(0)] with reg = "r"). *)
Definition norm_reg (full reg : string) : option string :=
  match reg with
  | String "e" rest => Some (pfx (String "r" rest))
  | _ =>
    if any3 "ax" "ah" "al" reg then Some (pfx "rax")
    else if any3 "bx" "bh" "bl" reg then Some (pfx "rbx")
    else if any3 "cx" "ch" "cl" reg then Some (pfx "rcx")
    else if any3 "dx" "dh" "dl" reg then Some (pfx "rdx")
    else if String.eqb reg "si" then Some (pfx "rsi")
    else if String.eqb reg "di" then Some (pfx "rdi")
    else if String.eqb reg "bp" then Some (pfx "rbp")
    else if String.eqb reg "sp" then Some (pfx "rsp")
    else match reg with
         | String "r" EmptyString => None
         | String "r" (String c rest) =>
             if (is_digit c && is_alpha (last_char c rest))%bool then
               match rest with
               | String c2 _ =>
                   if is_digit c2 then Some (pfx (String "r" (String c (String c2 EmptyString))))
                   else Some (pfx (String "r" (String c EmptyString)))
               | EmptyString => None
               end
             else Some full
         | _ => Some full
         end
  end.
(** [substr(8)] throws on names shorter than 8 characters (line 11). *)
Definition normalize (n : string) : option string :=
  if (String.length n <? 8)%nat then None
  else norm_reg n (substring 8 (String.length n - 8) n).

(** ** The names Dyninst gives to the parts of the general registers
       (dyn_regs.h, x86_64 namespace) *)
Definition alias_suffix (r : reg) (p : part) : string :=
  match p with
  | P64 => match r with
           | RAX => "rax" | RBX => "rbx" | RCX => "rcx" | RDX => "rdx" | RSP => "rsp"
           | RBP => "rbp" | RSI => "rsi" | RDI => "rdi" | R8 => "r8" | R9 => "r9"
           | R10 => "r10" | R11 => "r11" | R12 => "r12" | R13 => "r13" | R14 => "r14"
           | R15 => "r15" end
  | P32 => match r with
           | RAX => "eax" | RBX => "ebx" | RCX => "ecx" | RDX => "edx" | RSP => "esp"
           | RBP => "ebp" | RSI => "esi" | RDI => "edi" | R8 => "r8d" | R9 => "r9d"
           | R10 => "r10d" | R11 => "r11d" | R12 => "r12d" | R13 => "r13d" | R14 => "r14d"
           | R15 => "r15d" end
  | P16 => match r with
           | RAX => "ax" | RBX => "bx" | RCX => "cx" | RDX => "dx" | RSP => "sp"
           | RBP => "bp" | RSI => "si" | RDI => "di" | R8 => "r8w" | R9 => "r9w"
           | R10 => "r10w" | R11 => "r11w" | R12 => "r12w" | R13 => "r13w" | R14 => "r14w"
           | R15 => "r15w" end
  | P8l => match r with
           | RAX => "al" | RBX => "bl" | RCX => "cl" | RDX => "dl" | RSP => "spl"
           | RBP => "bpl" | RSI => "sil" | RDI => "dil" | R8 => "r8b" | R9 => "r9b"
           | R10 => "r10b" | R11 => "r11b" | R12 => "r12b" | R13 => "r13b" | R14 => "r14b"
           | R15 => "r15b" end
  | P8h => match r with
           | RAX => "ah" | RBX => "bh" | RCX => "ch" | RDX => "dh" | _ => "" end
  end.
Definition alias (r : reg) (p : part) : string := pfx (alias_suffix r p).
(** Only four registers have an addressable high byte. *)
Definition has_part (r : reg) (p : part) : bool :=
  match p with
  | P8h => match r with RAX | RBX | RCX | RDX => true | _ => false end
  | _ => true
  end.
(** The aliases that need a REX prefix without being numbered. *)
Definition rex_low (r : reg) (p : part) : bool :=
  match p, r with
  | P8l, RSP | P8l, RBP | P8l, RSI | P8l, RDI => true
  | _, _ => false
  end.

Lemma alias64 r : alias r P64 = reg_name r.
Proof. destruct r; reflexivity. Qed.

Lemma normalize_alias r p :
  has_part r p = true -> rex_low r p = false -> normalize (alias r p) = Some (reg_name r).
Proof. destruct r, p; cbn; intros A B; try discriminate; reflexivity. Qed.
Lemma normalize_rex r p :
  rex_low r p = true -> normalize (alias r p) = Some (alias r p).
Proof. destruct r, p; cbn; intros A; try discriminate; reflexivity. Qed.

Lemma substring_all s : substring 0 (String.length s) s = s.
Proof. induction s as [|c s IH]; cbn; [auto|rewrite IH; auto]. Qed.
Lemma normalize_pfx r : normalize (pfx r) = norm_reg (pfx r) r.
Proof.
  unfold normalize, pfx, arch. cbn [append String.length].
  replace (_ <? 8)%nat with false by (symmetry; apply Nat.ltb_ge; lia).
  f_equal. replace (_ - 8)%nat with (String.length r) by lia.
  cbn [substring]. apply substring_all.
Qed.

Lemma digit_not_alpha c : is_digit c = true -> is_alpha c = false.
Proof.
  unfold is_digit, is_alpha. intros H. apply andb_true_iff in H. destruct H as [A B].
  apply Nat.leb_le in A. apply Nat.leb_le in B.
  apply orb_false_iff. split; apply andb_false_iff; left; apply Nat.leb_gt; lia.
Qed.

Local Opaque append.
(** Normalising the result changes nothing, except that a name starting with
    "e" is only rewritten to "r...", which may call for a second step. *)
Definition e_name (n : string) : bool :=
  match substring 8 (String.length n - 8) n with String "e" _ => true | _ => false end.

Lemma norm_r1 c : is_digit c = true ->
  normalize (pfx (String "r" (String c ""))) = Some (pfx (String "r" (String c ""))).
Proof.
  intros H. rewrite normalize_pfx. unfold norm_reg. cbn [any3 String.eqb].
  cbv [any3]. cbn [String.eqb Ascii.eqb Bool.eqb orb]. cbn [last_char].
  rewrite (digit_not_alpha _ H), andb_false_r. reflexivity.
Qed.
Lemma norm_r2 c c2 : is_digit c = true -> is_digit c2 = true ->
  normalize (pfx (String "r" (String c (String c2 "")))) = Some (pfx (String "r" (String c (String c2 "")))).
Proof.
  intros H H2. rewrite normalize_pfx. unfold norm_reg.
  cbv [any3]. cbn [String.eqb Ascii.eqb Bool.eqb orb]. cbn [last_char].
  rewrite (digit_not_alpha _ H2), andb_false_r. reflexivity.
Qed.

Lemma normalize_idem n m :
  normalize n = Some m -> e_name n = false -> normalize m = Some m.
Proof.
  intros H E. pose proof H as H0. unfold normalize in H. unfold e_name in E.
  destruct (String.length n <? 8)%nat; [discriminate|].
  set (reg := substring 8 (String.length n - 8) n) in *.
  assert (D : m = n \/ m = pfx "rax" \/ m = pfx "rbx" \/ m = pfx "rcx" \/ m = pfx "rdx" \/
              m = pfx "rsi" \/ m = pfx "rdi" \/ m = pfx "rbp" \/ m = pfx "rsp" \/
              (exists c, is_digit c = true /\ m = pfx (String "r" (String c ""))) \/
              (exists c c2, is_digit c = true /\ is_digit c2 = true /\
                            m = pfx (String "r" (String c (String c2 ""))))).
  { assert (H' : norm_reg n reg = Some m) by exact H. clear H H0.
    unfold norm_reg in H'.
    assert (Q : match reg with String "e" rest => False | _ => True end).
    { destruct reg as [|[[] [] [] [] [] [] [] []] t]; cbn in E; auto; discriminate. }
    set (X := if any3 "ax" "ah" "al" reg then _ else _) in H'.
    assert (HX : X = Some m).
    { destruct reg as [|[[] [] [] [] [] [] [] []] t]; auto; contradiction. }
    clear H' Q E. subst X.
    repeat match goal with
    | H : (if ?b then _ else _) = Some _ |- _ =>
        destruct b; [injection H as <-; tauto|]
    end.
    set (Y := (match reg with String "r" EmptyString => None | _ => _ end)) in HX.
    destruct reg as [|a t].
    { subst Y. injection HX as <-. tauto. }
    destruct (ascii_dec a "r") as [->|NR].
    - destruct t as [|c rest]; [subst Y; discriminate|].
      subst Y. cbv iota beta in HX.
      destruct (is_digit c) eqn:D1; cbn [andb] in HX; [|injection HX as <-; tauto].
      destruct (is_alpha (last_char c rest)); [|injection HX as <-; tauto].
      destruct rest as [|c2 rest]; [discriminate|].
      destruct (is_digit c2) eqn:D2; injection HX as <-.
      + do 10 right. exists c, c2. auto.
      + do 9 right. left. exists c. auto.
    - assert (Y = Some n).
      { subst Y. destruct a as [[] [] [] [] [] [] [] []]; auto. exfalso. apply NR. reflexivity. }
      rewrite H in HX. injection HX as <-. tauto. }
  destruct D as [->|[->|[->|[->|[->|[->|[->|[->|[->|[(c & A & ->)|(c & c2 & A & B & ->)]]]]]]]]]]; auto.
  - apply norm_r1; auto.
  - apply norm_r2; auto.
Qed.
Local Transparent append.

(** ** RedZoneAccessVisitor, passes.h:422-452: the tree is visited bottom-up *)
Record rzv := mkRzv { rz_disp : Z; rz_plus : bool; rz_sp : bool; rz_only : bool }.
Definition rzv0 := mkRzv 0 false false true.
Fixpoint rz_visit (v : rzv) (e : expr) : rzv :=
  match e with
  | EReg (MG RSP P64) => mkRzv (rz_disp v) (rz_plus v) true (rz_only v)
  | EReg _ => mkRzv (rz_disp v) (rz_plus v) (rz_sp v) false
  | EImm z => mkRzv z (rz_plus v) (rz_sp v) (rz_only v)
  | EAdd a b => let v := rz_visit (rz_visit v a) b in mkRzv (rz_disp v) true (rz_sp v) (rz_only v)
  | EMul a b => rz_visit (rz_visit v a) b
  | EDeref a => rz_visit v a
  end.
Definition rz_access (e : expr) : option Z :=
  let v := rz_visit rzv0 e in
  if (rz_plus v && rz_sp v && (rz_disp v <? 0) && rz_only v)%bool then Some (rz_disp v) else None.

(** ** UnusedRegisterAnalysis, passes.h:461-528 *)
Definition mreg_name (m : mreg) : string :=
  match m with MG r p => alias r p | MFlag n => n | MOther n => n end.
Definition all14 : list string :=
  [ "x86_64::r10"; "x86_64::r11"; "x86_64::r12"; "x86_64::r13"; "x86_64::r14"; "x86_64::r15";
    "x86_64::r8"; "x86_64::r9"; "x86_64::rax"; "x86_64::rbx"; "x86_64::rcx"; "x86_64::rdi";
    "x86_64::rdx"; "x86_64::rsi" ]%string.

(** Insert the normalised names; [None] when a name makes the normaliser throw. *)
Fixpoint use_regs (l : list mreg) (used : list string) : option (list string) :=
  match l with
  | [] => Some used
  | m :: t => match normalize (mreg_name m) with
              | Some n => use_regs t (ssins n used)
              | None => None
              end
  end.
Definition ur_insn (st : option (summary * list string)) (i : insn) : option (summary * list string) :=
  match st with
  | None => None
  | Some (s, used) =>
      let s1 := match i_sp i with
                | Some h => if 128 <=? -8 - h then set_moveDownSP s true else s
                | None => s end in
      match use_regs (i_read i ++ i_written i) used with
      | None => None
      | Some used' =>
          let s2 := if (negb (i_wmem i) && negb (i_rmem i))%bool then s1
                    else fold_left (fun s e => match rz_access e with
                                               | Some d => set_redZone s (d :: s_redZone s)
                                               | None => s end) (i_memops i) s1 in
          Some (s2, used')
      end
  end.
Section UR.
Variable co : code.
Definition func_insns (f : func) : list insn :=
  List.concat (map (fun b => b_insns (co_block co b)) (f_blocks f)).
(** [None]: an exception leaves the pass. *)
Definition unused_regs (fn : nat) (s : summary) : option summary :=
  if s_assume_unsafe s then Some s
  else match s_callees s with
       | _ :: _ => Some s
       | [] =>
           match fold_left ur_insn (func_insns (co_fun co fn)) (Some (s, [])) with
           | None => None
           | Some (s', used) =>
               Some (set_unused s' (fold_left (fun u r => if smem r used then u else ssins r u)
                                              all14 (s_unused s')))
           end
       end.
End UR.

(** *** Facts *)
Lemma use_regs_in l : forall used u,
  use_regs l used = Some u ->
  (forall x, In x used -> In x u) /\
  (forall m n, In m l -> normalize (mreg_name m) = Some n -> In n u).
Proof.
  induction l as [|a l IH]; cbn [use_regs]; intros used u H.
  - injection H as <-. split; auto. intros m n [].
  - destruct (normalize (mreg_name a)) as [n0|] eqn:E; [|discriminate].
    destruct (IH _ _ H) as [A B]. split.
    + intros x Hx. apply A. apply ssins_in. auto.
    + intros m n [->|Hm] K; [|eapply B; eauto].
      rewrite E in K. injection K as <-. apply A. apply ssins_in. auto.
Qed.
Lemma use_regs_total l : forall used u,
  use_regs l used = Some u -> forall m, In m l -> exists n, normalize (mreg_name m) = Some n.
Proof.
  induction l as [|a l IH]; cbn [use_regs]; intros used u H m []; subst.
  - destruct (normalize (mreg_name m)); [eauto|discriminate].
  - destruct (normalize (mreg_name a)); [|discriminate]. eapply IH; eauto.
Qed.

Lemma rz_fold_unused l s :
  s_unused (fold_left (fun s e => match rz_access e with
                                  | Some d => set_redZone s (d :: s_redZone s)
                                  | None => s end) l s) = s_unused s.
Proof.
  revert s. induction l as [|e l IH]; cbn [fold_left]; intros s; auto.
  rewrite IH. destruct (rz_access e); reflexivity.
Qed.

Lemma ur_none l : fold_left ur_insn l None = None.
Proof. induction l; cbn; auto. Qed.
Lemma ur_fold l : forall s used s' u,
  fold_left ur_insn l (Some (s, used)) = Some (s', u) ->
  s_unused s' = s_unused s /\
  (forall x, In x used -> In x u) /\
  (forall i m n, In i l -> In m (i_read i ++ i_written i) ->
                 normalize (mreg_name m) = Some n -> In n u).
Proof.
  induction l as [|i l IH]; intros s used s' u H.
  - cbn in H. injection H as <- <-. split; auto. split; auto. intros i m n [].
  - cbn [fold_left] in H. unfold ur_insn at 2 in H.
    destruct (use_regs (i_read i ++ i_written i) used) as [u1|] eqn:E;
      [|rewrite ur_none in H; discriminate].
    destruct (use_regs_in _ _ _ E) as [A B].
    destruct (IH _ _ _ _ H) as (C & D & F). split; [|split].
    + rewrite C. set (q := match i_sp i with Some h => _ | None => s end).
      assert (Q : s_unused q = s_unused s).
      { subst q. destruct (i_sp i); auto. destruct (_ <=? _); reflexivity. }
      destruct (_ && _)%bool; auto. rewrite rz_fold_unused. auto.
    + auto.
    + intros j m n [->|Hj] Hm Hn; [|eapply F; eauto]. apply D. eapply B; eauto.
Qed.

Lemma unused_fold (used : list string) : forall l u0 x,
  In x (fold_left (fun u r => if smem r used then u else ssins r u) l u0) <->
  In x u0 \/ (In x l /\ ~ In x used).
Proof.
  induction l as [|a l IH]; cbn [fold_left]; intros u0 x.
  - cbn. tauto.
  - rewrite IH. destruct (smem a used) eqn:E.
    + apply smem_in in E. cbn. split; [tauto|]. intros [K|[[->|K] Q]]; tauto.
    + apply smem_nin in E. rewrite ssins_in. cbn. split.
      * intros [[->|K]|[K Q]]; auto.
      * intros [K|[[->|K] Q]]; auto.
Qed.

(** Names in [unused_regs] are not names, after normalisation, of any register
    in the read or write set of any instruction. *)
Lemma unused_regs_spec co fn s s' :
  unused_regs co fn s = Some s' -> s_unused s = [] ->
  forall x, In x (s_unused s') ->
    In x all14 /\
    forall i m, In i (func_insns co (co_fun co fn)) -> In m (i_read i) \/ In m (i_written i) ->
      normalize (mreg_name m) <> Some x.
Proof.
  unfold unused_regs. intros H E x Hx.
  destruct (s_assume_unsafe s); [injection H as <-; rewrite E in Hx; contradiction|].
  destruct (s_callees s); [|injection H as <-; rewrite E in Hx; contradiction].
  destruct (fold_left ur_insn _ _) as [[s1 used]|] eqn:F; [|discriminate].
  injection H as <-.
  destruct (ur_fold _ _ _ _ _ F) as (A & _ & B).
  change (s_unused (set_unused s1 ?v)) with v in Hx.
  assert (Hx' : In x (fold_left (fun u r => if smem r used then u else ssins r u) all14 (s_unused s1))) by exact Hx.
  apply unused_fold in Hx'. rewrite A, E in Hx'. destruct Hx' as [[]|[K Q]]. split; auto.
  intros i m Hi Hm K2. apply Q. eapply B; [eauto| |eauto]. apply in_or_app; auto.
Qed.
