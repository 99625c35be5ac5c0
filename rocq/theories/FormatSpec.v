(** What the printed form of instructions should say. *)
From Coq Require Import NArith ZArith List Ascii String.
From Verif Require Import NumModel JsonModel FormatModel.
Import ListNotations.
Local Open Scope list_scope.

(** The operands are canonical field elements. *)
Definition canonical (p : N) (i : instruction) : Prop :=
  (op_a i < p /\ op_b i < p /\ op_c i < p /\ op_d i < p /\ op_e i < p /\ op_f i < p /\ op_g i < p)%N.
(** A signed decimal number. *)
Definition signed (z : Z) : text := match z with Zneg n => 45%N :: print 10 (Npos n) | _ => print 10 (Z.to_N z) end.
(** The kinds of instructions by the numbers of their opcodes. *)
Definition alu (o : N) : Prop := (512 <= o <= 521)%N.
Definition load_store (o : N) : Prop := (528 <= o <= 535)%N.
(** The instructions of which the last two operands are printed. *)
Definition prints_all (o : N) : Prop := load_store o \/ ~ In o (map fst opcode_names).
(** Arguments that field elements can represent. *)
Definition small (p : N) (l : list N) : Prop := Forall (fun x => (x < p)%N) l.
