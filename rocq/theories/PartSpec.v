(** Partitions as relations: all classes are disjoint and have at least two elements. *)
From Coq Require Import Arith List.
From Verif Require Import PartModel.
Import ListNotations.

Section PartSpec.
  Context {T : Type}.
  (** Two elements are in the same class of a list of classes. *)
  Definition in_same (classes : list (list T)) (x y : T) : Prop := exists c, In c classes /\ In x c /\ In y c.
  (** Two elements are in the same class of a partition. *)
  Definition together (p : part T) (x y : T) : Prop := exists i, In (x, i) (class_of p) /\ In (y, i) (class_of p).
  (** Each element has one class; the ids of the classes are 0 .. num_classes - 1 and each class
      has at least two elements. *)
  Record part_ok (p : part T) : Prop := {
    ok_once : NoDup (map fst (class_of p));
    ok_ids : forall x i, In (x, i) (class_of p) -> i < num_classes p;
    ok_two : forall i, i < num_classes p -> exists x y, x <> y /\ In (x, i) (class_of p) /\ In (y, i) (class_of p) }.
End PartSpec.
