(** C37: partitions. *)
From Coq Require Import Arith Bool List Lia Permutation.
From Verif Require Import PartModel PartSpec PartFacts.
Import ListNotations.

(** In all statements [ord] and [gord] stand for the order in which hash maps are iterated over. *)

(** C37: collecting classes gives the partition of the classes with at least two elements;
    it panics exactly if such classes share an element or repeat one. *)
Theorem C37_from_iter : forall T (T_eqb : T -> T -> bool), (forall x y, T_eqb x y = true <-> x = y) ->
  forall classes : list (list T),
  let big := filter (fun c => Nat.ltb 1 (length c)) classes in
  (NoDup (concat big) -> exists p, from_iter T_eqb classes = Some p /\ part_ok p /\ forall x y, together p x y <-> in_same big x y) /\
  (~ NoDup (concat big) -> from_iter T_eqb classes = None).
Proof.
  intros T T_eqb He classes big. pose proof (from_iter_spec T_eqb He (fun l => l) (fun l => l) (fun l => Permutation_refl l) (fun l => Permutation_refl l) classes) as F. destruct (from_iter T_eqb classes) as [p|]; split; intros H; auto.
  - exists p. split; auto. tauto.
  - exfalso. apply H. apply F.
  - exfalso. now apply F.
Qed.
(** C37: the classes of a partition: none has fewer than two elements, no element is in two of them. *)
Theorem C37_to_classes : forall T (ord : list (T * nat) -> list (T * nat)), (forall l, Permutation (ord l) l) ->
  forall (T_eqb : T -> T -> bool), (forall x y, T_eqb x y = true <-> x = y) ->
  forall p, part_ok p -> exists cl, to_classes ord p = Some cl /\ length cl = num_classes p /\ NoDup (concat cl) /\
    Forall (fun c => 2 <= length c) cl /\ (forall x y, in_same cl x y <-> together p x y).
Proof. intros T ord Ho T_eqb He p Hp. exact (to_classes_ok T_eqb He ord Ho p Hp). Qed.
(** C37: a partition that is serialized and read back is the same relation. *)
Theorem C37_roundtrip : forall T (T_eqb : T -> T -> bool), (forall x y, T_eqb x y = true <-> x = y) ->
  forall ord : list (T * nat) -> list (T * nat), (forall l, Permutation (ord l) l) ->
  forall p, part_ok p -> exists cl q, to_classes ord p = Some cl /\ from_iter T_eqb cl = Some q /\ part_ok q /\ (forall x y, together q x y <-> together p x y).
Proof. intros T T_eqb He ord Ho p Hp. exact (roundtrip T_eqb He ord (fun l => l) Ho (fun l => Permutation_refl l) p Hp). Qed.
(** C37: intersection is the conjunction of the relations. *)
Theorem C37_intersect : forall T (T_eqb : T -> T -> bool), (forall x y, T_eqb x y = true <-> x = y) ->
  forall (ord : list (T * nat) -> list (T * nat)) gord, (forall l, Permutation (ord l) l) -> (forall l, Permutation (gord l) l) ->
  forall a b, part_ok a -> part_ok b -> exists p, intersected_with T_eqb ord gord a b = Some p /\ part_ok p /\
    (forall x y, x <> y -> (together p x y <-> together a x y /\ together b x y)).
Proof. intros T T_eqb He ord gord Ho Hg a b Ha Hb. exact (intersect_ok T_eqb He ord gord Ho Hg a b Ha Hb). Qed.
Theorem C37_intersect_many : forall T (T_eqb : T -> T -> bool), (forall x y, T_eqb x y = true <-> x = y) ->
  forall (ord : list (T * nat) -> list (T * nat)) gord, (forall l, Permutation (ord l) l) -> (forall l, Permutation (gord l) l) ->
  forall ps, ps <> [] -> Forall part_ok ps -> exists p, intersect_many T_eqb ord gord ps = Some p /\ part_ok p /\
    (forall x y, x <> y -> (together p x y <-> forall q, In q ps -> together q x y)).
Proof. intros T T_eqb He ord gord Ho Hg ps H1 H2. exact (intersect_many_ok T_eqb He ord gord Ho Hg ps H1 H2). Qed.
(** C37: the chunked intersection gives the same relation, for every chunk size of at least two. *)
Theorem C37_parallel : forall T (T_eqb : T -> T -> bool), (forall x y, T_eqb x y = true <-> x = y) ->
  forall (ord : list (T * nat) -> list (T * nat)) gord, (forall l, Permutation (ord l) l) -> (forall l, Permutation (gord l) l) ->
  forall chunk ps, 2 <= chunk -> ps <> [] -> Forall part_ok ps ->
  exists p, parallel_intersect T_eqb ord gord chunk (length ps) ps = Some p /\ part_ok p /\
    (forall x y, x <> y -> (together p x y <-> forall q, In q ps -> together q x y)).
Proof. intros T T_eqb He ord gord Ho Hg chunk ps H1 H2 H3. exact (parallel_ok T_eqb He ord gord Ho Hg chunk H1 (length ps) ps H2 (le_n _) H3). Qed.
Theorem C37_chunk_size : 2 <= CHUNK_SIZE.
Proof. apply Nat.leb_le. reflexivity. Qed.
(** C37: combining partitions without common elements is the disjunction; with a common element it panics. *)
Theorem C37_combine : forall T (T_eqb : T -> T -> bool), (forall x y, T_eqb x y = true <-> x = y) ->
  forall ord : list (T * nat) -> list (T * nat), (forall l, Permutation (ord l) l) ->
  forall a b, part_ok a -> part_ok b ->
  ((forall x, together a x x -> together b x x -> False) ->
     exists p, combine_parts T_eqb ord a b = Some p /\ part_ok p /\ forall x y, together p x y <-> together a x y \/ together b x y) /\
  ((exists x, together a x x /\ together b x x) -> combine_parts T_eqb ord a b = None).
Proof.
  intros T T_eqb He ord Ho a b Ha Hb. pose proof (combine_ok T_eqb He ord Ho a b Ha Hb) as C. destruct (combine_parts T_eqb ord a b) as [p|]; split; intros H; auto.
  - exists p. split; auto. tauto.
  - exfalso. destruct H as (x & X & Y). destruct C as (_ & _ & C). eauto.
  - exfalso. destruct C as (x & X & Y). eauto.
Qed.
(** C37: renaming elements without collisions renames the relation. *)
Theorem C37_map : forall T T2 (T2_eqb : T2 -> T2 -> bool), (forall x y, T2_eqb x y = true <-> x = y) ->
  forall ord : list (T * nat) -> list (T * nat), (forall l, Permutation (ord l) l) ->
  forall (f : T -> T2) p, part_ok p -> (forall x y, together p x x -> together p y y -> f x = f y -> x = y) ->
  exists q, map_elements T2_eqb ord f p = Some q /\ part_ok q /\ (forall u v, together q u v <-> exists x y, u = f x /\ v = f y /\ together p x y).
Proof. intros T T2 T2_eqb He ord Ho f p Hp Hf. exact (map_elements_ok T2_eqb He ord Ho f p Hp Hf). Qed.

(** The partitions {1,2,3},{4,5,6} and {1,2},{3,4,5}, read backwards. *)
Example C37_example :
  exists a b, from_iter Nat.eqb [[1; 2; 3]; [9]; [4; 5; 6]] = Some a /\ from_iter Nat.eqb [[1; 2]; [3; 4; 5]] = Some b /\
    option_map (to_classes (@rev _)) (intersected_with Nat.eqb (@rev _) (@rev _) a b) = Some (Some [[1; 2]; [4; 5]]) /\
    option_map (to_classes (@rev _)) (parallel_intersect Nat.eqb (@rev _) (@rev _) 2 5 [a; b; a; b; a]) = Some (Some [[1; 2]; [4; 5]]).
Proof. eexists _, _. split; [reflexivity|]. split; [reflexivity|]. split; reflexivity. Qed.
Example C37_panics : from_iter Nat.eqb [[1; 2]; [2; 3]] = None /\ from_iter Nat.eqb [[1; 1]] = None.
Proof. split; reflexivity. Qed.
Print Assumptions C37_from_iter. Print Assumptions C37_to_classes. Print Assumptions C37_roundtrip. Print Assumptions C37_intersect. Print Assumptions C37_intersect_many. Print Assumptions C37_parallel.
Print Assumptions C37_combine. Print Assumptions C37_map.
