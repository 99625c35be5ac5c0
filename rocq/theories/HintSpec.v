(** What a call of a hint function finds in the machine. *)
From Coq Require Import Arith NArith List.
From Verif Require Import K256Model K256Spec HintModel.
Import ListNotations.
Local Open Scope N_scope.

(** The bytes of a list are in memory from an address on. *)
Definition holds (m : N -> N) (p : N) (l : list N) : Prop := forall k b, nth_error l k = Some b -> m (p + N.of_nat k) = b.
(** Register [r], which takes the four bytes from [4 * r] on, has the value [p], and the bytes are there in memory. *)
Definition passes (s : vm) (r p : N) (l : list N) : Prop := r < 32 /\ p < 2 ^ 32 /\ holds (registers s) (4 * r) (word_bytes p) /\ holds (memory s) p l.
(** A call of a guest function: its instruction is transpiled, and what comes out is executed; the hint stream afterwards is [h], all else is as before. *)
Definition answers (table : list (N * funct7)) (f : funct7) (r : N) (s : vm) (h : list N) : Prop :=
  exists i, (forall rest, process_custom (guest_insn f r :: rest) = Some i) /\ run_phantom table i s = Some (mkVm (registers s) (memory s) h).
(** A list of sub-executors that has those of the extension. *)
Definition installed (table : list (N * funct7)) : Prop := exists table0, extend_execution table0 = Some table.
