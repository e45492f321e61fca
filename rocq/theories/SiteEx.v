(** * SiteEx: functions used as examples and witnesses in P_Sites.v *)
From Coq Require Import ZArith Bool Lia ZifyBool ZifyNat Arith String List.
From Verif Require Import Machine Jit ShadowSpec Dfs Binary CallGraph InterProc MemPasses Pipeline
  RegNames BlockLive ExSem Reach SafePaths Lowering FastPath Decision FullRun Sites.
Import ListNotations.
Open Scope Z_scope.

(** A code object with the single function 0, whose blocks are 0 .. nb-1. *)
Definition scode (nb : nat) (ex : list nat) (bl : nat -> block) : code :=
  mkCode [0%nat] (fun _ => mkFunc "f" 4096 0 (seq 0 nb) ex ex [])
    bl (fun b => if Nat.ltb b nb then [0%nat] else []) (fun _ => None).
Definition ssum (co : code) : sums := match run_light co with Ok m => m | _ => fun _ => summary0 end.
Definition ready (co : code) : bool := match run_light co with Ok _ => true | _ => false end.

Fixpoint zdistinct (l : list Z) : bool :=
  match l with [] => true | x :: t => negb (existsb (Z.eqb x) t) && zdistinct t end.
Lemma zdistinct_ok l : zdistinct l = true -> NoDup l.
Proof.
  induction l as [|x t IH]; cbn [zdistinct]; intros H; [constructor|].
  apply andb_true_iff in H. destruct H as [H1 H2]. constructor; auto.
  intros K. apply negb_true_iff in H1.
  assert (E : existsb (Z.eqb x) t = true) by (apply existsb_exists; exists x; split; [auto|apply Z.eqb_refl]).
  congruence.
Qed.
Definition scode_ok (nb : nat) (ex : list nat) (bl : nat -> block) : bool :=
  (0 <? nb)%nat && ready (scode nb ex bl) &&
  zdistinct (map (fun b => b_start (bl b)) (seq 0 nb)) &&
  forallb (fun b => zdistinct (map i_addr (b_insns (bl b))) &&
                    forallb (fun e => e_sink e || e_inter e || (e_trg e <? nb)%nat) (b_targets (bl b))) (seq 0 nb) &&
  forallb (fun b => (b <? nb)%nat) ex.

Definition s_edge (t : etype) (n : nat) : edge := mkEdge t false false n.
Definition s_ret : edge := mkEdge RET true false 0.
Definition x_wild (a : Z) (base src : reg) : insn :=
  mkInsn a OMov false true false [MG base P64; MG src P64] [] [AUnknown] []
    [EAdd (EReg (MG base P64)) (EImm 0)] [] None.

(** push rbp; mov rbp, rsp; test; then either straight to the exit (block 1) or through
    block 2, which loads two registers, stores through a pointer and, if [lp], may repeat. *)
Definition s_frame (lp : bool) : nat -> block := fun b =>
  match b with
  | 0%nat => mkBlock 4096 4104 4106 [s_edge COND_TAKEN 2; s_edge COND_NOT_TAKEN 1]
      [x_push 4096 RBP P64; x_op 4097 [sp64] [MG RBP P64]; x_op 4100 [MG RDI P64] [MFlag "x86_64::zf"];
       x_op 4104 [MFlag "x86_64::zf"] []] (Some (-8)) (Some (-16))
  | 1%nat => mkBlock 4200 4201 4202 [s_ret] [x_pop 4200 RBP P64; x_ret 4201] (Some (-16)) (Some (-8))
  | 2%nat => mkBlock 4300 4309 4310
      (if lp then [s_edge COND_TAKEN 2; s_edge COND_NOT_TAKEN 3] else [s_edge DIRECT 3])
      [x_op 4300 [MG RDI P64] [MG RCX P64]; x_op 4303 [MG RDI P64] [MG RDX P64]; x_wild 4306 RSI RCX;
       x_op 4309 [] []] (Some (-16)) (Some (-16))
  | _ => mkBlock 4400 4401 4402 [s_ret] [x_pop 4400 RBP P64; x_ret 4401] (Some (-16)) (Some (-8))
  end.
Definition c_frame (lp : bool) : code := scode 4 [1; 3]%nat (s_frame lp).
(** The same on one path only: no safe path, so the push goes to the function entry. *)
Definition s_line : nat -> block := fun _ =>
  mkBlock 4096 4110 4111 [s_ret]
    [x_push 4096 RCX P64; x_op 4097 [MG RDI P64] [MG RCX P64]; x_op 4100 [MG RDI P64] [MG RDX P64];
     x_wild 4103 RSI RCX; x_op 4106 [MG RAX P64] [MG RAX P64]; x_pop 4109 RCX P64; x_ret 4110] (Some (-8)) (Some (-8)).
Definition c_line : code := scode 1 [0]%nat s_line.
(** With a push and a pop of two bytes. *)
Definition s_word : nat -> block := fun _ =>
  mkBlock 4096 4110 4111 [s_ret]
    [x_push 4096 RCX P16; x_op 4097 [MG RDI P64] [MG RCX P64]; x_op 4100 [MG RDI P64] [MG RDX P64];
     x_wild 4103 RSI RCX; x_op 4106 [MG RDI P64] [MG RDX P64]; x_pop 4109 RCX P16; x_ret 4110] (Some (-8)) (Some (-8)).
Definition c_word : code := scode 1 [0]%nat s_word.
(** A leaf function with a variable in the red zone. *)
Definition s_red (lp : bool) : nat -> block := fun b =>
  match b with
  | 0%nat => mkBlock 4096 4104 4106 [s_edge COND_TAKEN 2; s_edge COND_NOT_TAKEN 1]
      [x_store 4096 RSP (-8) RDI; x_op 4104 [MG RDI P64; MFlag "x86_64::zf"] []] (Some (-8)) (Some (-8))
  | 1%nat => mkBlock 4200 4201 4202 [s_ret] [x_ret 4201] (Some (-8)) (Some (-8))
  | 2%nat => mkBlock 4300 4309 4310
      (if lp then [s_edge COND_TAKEN 2; s_edge COND_NOT_TAKEN 3] else [s_edge DIRECT 3])
      [x_load 4300 RAX RSP (-8); x_op 4303 [MG RDI P64] [MG RDX P64]; x_wild 4306 RSI RAX;
       x_op 4309 [] []] (Some (-8)) (Some (-8))
  | _ => mkBlock 4400 4401 4402 [s_ret] [x_ret 4401] (Some (-8)) (Some (-8))
  end.
Definition c_red (lp : bool) : code := scode 4 [1; 3]%nat (s_red lp).
(** A leaf function compiled without optimisation: its variable is in the red zone, and
    addressed from rbp. *)
Definition s_rbp : nat -> block := fun b =>
  match b with
  | 0%nat => mkBlock 4096 4108 4110 [s_edge COND_TAKEN 2; s_edge COND_NOT_TAKEN 1]
      [x_push 4096 RBP P64; x_op 4097 [sp64] [MG RBP P64]; x_store 4100 RBP (-8) RDI;
       x_op 4108 [MG RDI P64; MFlag "x86_64::zf"] []] (Some (-8)) (Some (-16))
  | 1%nat => mkBlock 4200 4201 4202 [s_ret] [x_pop 4200 RBP P64; x_ret 4201] (Some (-16)) (Some (-8))
  | 2%nat => mkBlock 4300 4309 4310 [s_edge COND_TAKEN 2; s_edge COND_NOT_TAKEN 3]
      [x_load 4300 RAX RBP (-8); x_wild 4306 RAX RDI; x_op 4309 [] []] (Some (-16)) (Some (-16))
  | _ => mkBlock 4400 4401 4402 [s_ret] [x_pop 4400 RBP P64; x_ret 4401] (Some (-16)) (Some (-8))
  end.
Definition c_rbp : code := scode 4 [1; 3]%nat s_rbp.
(** A function that sets r9 before the branch and uses it after: r9 is dead where the
    function starts, and live on the edge. *)
Definition s_live : nat -> block := fun b =>
  match b with
  | 0%nat => mkBlock 4096 4104 4106 [s_edge COND_TAKEN 2; s_edge COND_NOT_TAKEN 1]
      [x_op 4096 [MG RSI P64] [MG R8 P64]; x_op 4097 [MG RSI P64] [MG R9 P64];
       x_op 4098 [MG RSI P64] [MG RCX P64]; x_op 4099 [MG RSI P64] [MG RDI P64];
       x_op 4100 [MG RSI P64] [MG RDX P64];
       x_op 4104 [MG RSI P64; MFlag "x86_64::zf"] []] (Some (-8)) (Some (-8))
  | 1%nat => mkBlock 4200 4201 4202 [s_ret] [x_ret 4201] (Some (-8)) (Some (-8))
  | 2%nat => mkBlock 4300 4309 4310 [s_edge COND_TAKEN 2; s_edge COND_NOT_TAKEN 3]
      [x_wild 4300 RSI R9; x_op 4309 [] []] (Some (-8)) (Some (-8))
  | _ => mkBlock 4400 4401 4402 [s_ret] [x_ret 4401] (Some (-8)) (Some (-8))
  end.
Definition c_live : code := scode 4 [1; 3]%nat s_live.
(** A function in which every register but rsi occurs by its name, and rsi only as sil. *)
Definition s_sil : nat -> block := fun _ =>
  mkBlock 4096 4110 4111 [s_ret]
    [x_op 4096 [MG RDI P64; MG RAX P64; MG RBX P64; MG RCX P64; MG RDX P64; MG R8 P64; MG R9 P64;
                MG R10 P64; MG R11 P64; MG R12 P64; MG R13 P64; MG R14 P64; MG R15 P64] [];
     x_op 4099 [MG RDI P8l] [MG RSI P8l]; x_wild 4103 RDI RAX; x_ret 4110] (Some (-8)) (Some (-8)).
Definition c_sil : code := scode 1 [0]%nat s_sil.
(** test; je exit; slow path.  The stack analysis fails for block 0. *)
Definition s_fast : nat -> block := fun b =>
  match b with
  | 0%nat => mkBlock 4096 4104 4106 [s_edge COND_TAKEN 2; s_edge COND_NOT_TAKEN 1]
      [x_op 4100 [MG RDI P64] [MFlag "x86_64::zf"]; x_op 4104 [MFlag "x86_64::zf"] []] (Some (-8)) None
  | 1%nat => mkBlock 4300 4309 4310 [s_edge DIRECT 2]
      [x_push 4300 RBP P64; x_op 4303 [MG RDI P64] [MG RDX P64]; x_wild 4306 RSI RDX;
       x_pop 4308 RBP P64; x_op 4309 [] []] (Some (-8)) (Some (-8))
  | _ => mkBlock 4400 4401 4402 [s_ret] [x_ret 4401] (Some (-8)) (Some (-8))
  end.
Definition c_fast : code := scode 3 [2]%nat s_fast.

Definition fl_plain : Lowering.flags := Lowering.mkFlags false false false false false true [] false.
Definition fl_stack : Lowering.flags := Lowering.mkFlags false true false false false true [] false.
Definition fl_nosave : Lowering.flags := Lowering.mkFlags false true true false false true [] false.
Definition no_dead : dead_info := mkDead [] [].
