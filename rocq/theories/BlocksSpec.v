(** Basic blocks, occurrences and runs, independently of how they are computed. *)
From Coq Require Import NArith Bool List Sorted.
From Verif Require Import BlocksModel.
Import ListNotations.

(** ** Occurrences of a sequence *)
Definition occurs_at {A} (needle hay : list A) (i : nat) : Prop := exists a b, hay = a ++ needle ++ b /\ length a = i.
Definition contiguous {A} (needle hay : list A) : Prop := exists a b, hay = a ++ needle ++ b.
(** Positions of occurrences that do not overlap, in ascending order. *)
Definition disjoint_occurrences {A} (needle hay : list A) (l : list nat) : Prop :=
  StronglySorted (fun i j => i + length needle <= j) l /\ Forall (occurs_at needle hay) l.
(** [n] is the maximal number of occurrences without overlap. *)
Definition max_disjoint {A} (needle hay : list A) (n : nat) : Prop :=
  (exists l, disjoint_occurrences needle hay l /\ length l = n) /\
  (forall l, disjoint_occurrences needle hay l -> length l <= n).

(** ** Runs *)
(** The maximal non-empty stretches of elements that are not [sep]arators. *)
Fixpoint split_on {A} (sep : A -> bool) (l : list A) : list (list A) :=
  match l with
  | [] => [[]]
  | x :: l' => if sep x then [] :: split_on sep l'
               else match split_on sep l' with s :: r => (x :: s) :: r | [] => [[x]] end
  end.
Definition stretches {A} (sep : A -> bool) (l : list A) : list (list A) :=
  filter (fun s => negb (Nat.eqb (length s) 0)) (split_on sep l).
Definition single_instr {I} (b : bblock I) : bool := Nat.eqb (length (instrs b)) 1.
(** The runs of an execution that goes through the blocks [trace]. *)
Definition runs_of {I} (trace : list (bblock I)) : list (list (bblock I)) := stretches single_instr trace.
(** How often a superblock can be executed as a unit over all runs. *)
Definition total_count {I} (sb : list (bblock I)) (trace : list (bblock I)) (n : N) : Prop :=
  exists ns, Forall2 (fun run k => max_disjoint (map start_pc sb) (map start_pc run) k) (runs_of trace) ns /\ n = N.of_nat (list_sum ns).
