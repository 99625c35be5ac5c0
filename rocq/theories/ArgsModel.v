(** Model of the arguments of instructions that are handed to code generation, riscv-elf/src/lib.rs 402-589, 670-713. *)
From Coq Require Import NArith ZArith Bool List.
From Verif Require Import DbgModel.
Import ListNotations.
Local Open Scope N_scope.

(** 671-676 [HighLevelImmediate]; values are [i32]. *)
Inductive himmediate := ImmNone | CodeLabel (a : N) | ImmValue (z : Z).
(** 678-684 [HighLevelArgs]. *)
Record hargs := mkArgs { imm : himmediate; rd : option N; rs1 : option N; rs2 : option N }.
(** riscv-types/src/lib.rs 9-12 [Register::new] of [as u8]. *)
Definition register (n : N) : N := n mod 256.
(** [as u32] of an [i32]. *)
Definition as_u32 (z : Z) : N := Z.to_N (z mod 2 ^ 32).

Section Args.
  Variable t : table.
  (** 412-422 [l]; [None] is the error. *)
  Definition arg_l (a : hargs) : option text := match a with mkArgs (CodeLabel x) None None None => Some (get_one t x) | _ => None end.
  (** 424-434 [r]. *)
  Definition arg_r (a : hargs) : option N := match a with mkArgs ImmNone None (Some x) None => Some (register x) | _ => None end.
  (** 436-450 [rri]. *)
  Definition arg_rri (a : hargs) : option (N * N * N) :=
    match a with mkArgs (ImmValue z) (Some d) (Some x) None => Some (register d, register x, as_u32 z) | _ => None end.
  (** 452-466 [rrr]. *)
  Definition arg_rrr (a : hargs) : option (N * N * N) :=
    match a with mkArgs ImmNone (Some d) (Some x) (Some y) => Some (register d, register x, register y) | _ => None end.
  (** 468-482 [rrr2]. *)
  Definition arg_rrr2 (a : hargs) : option (N * N * N) :=
    match a with mkArgs ImmNone (Some d) (Some x) (Some y) => Some (register d, register y, register x) | _ => None end.
  (** 484-494 [ri]. *)
  Definition arg_ri (a : hargs) : option (N * N) := match a with mkArgs (ImmValue z) (Some d) None None => Some (register d, as_u32 z) | _ => None end.
  (** 496-506 [rr]. *)
  Definition arg_rr (a : hargs) : option (N * N) := match a with mkArgs ImmNone (Some d) (Some x) None => Some (register d, register x) | _ => None end.
  (** 508-524 [rrl]. *)
  Definition arg_rrl (a : hargs) : option (N * N * text) :=
    match a with mkArgs (CodeLabel l) None (Some x) (Some y) => Some (register x, register y, get_one t l) | _ => None end.
  (** 526-548 [rl]. *)
  Definition arg_rl (a : hargs) : option (N * text) :=
    match a with
    | mkArgs (CodeLabel l) None (Some x) None => Some (register x, get_one t l)
    | mkArgs (CodeLabel l) (Some d) None None => Some (register d, get_one t l)
    | _ => None
    end.
  (** 550-576 [rro]. *)
  Definition arg_rro (a : hargs) : option (N * N * N) :=
    match a with
    | mkArgs (ImmValue z) (Some d) (Some x) None => Some (register d, register x, as_u32 z)
    | mkArgs (ImmValue z) None (Some x) (Some y) => Some (register y, register x, as_u32 z)
    | _ => None
    end.
  (** 578-588 [empty]. *)
  Definition arg_empty (a : hargs) : option unit := match a with mkArgs ImmNone None None None => Some tt | _ => None end.
End Args.
