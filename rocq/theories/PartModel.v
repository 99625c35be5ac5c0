(** Model of autoprecompiles/src/equivalence_classes.rs: partitions. *)
From Coq Require Import Arith Bool List.
Import ListNotations.

(** equivalence_classes.rs 16-25 [Partition]: the map from elements to class ids, as an association
    list, and the number of classes. *)
Record part (T : Type) := mkPart { class_of : list (T * nat); num_classes : nat }.
Arguments mkPart {T}. Arguments class_of {T}. Arguments num_classes {T}.

Section PartModel.
  Context {T : Type} (T_eqb : T -> T -> bool).
  (** The order in which a hash map is iterated over: [ord] for maps from elements, [gord] for the
      groups of [into_group_map]. *)
  Context (ord : list (T * nat) -> list (T * nat)) (gord : list (list T) -> list (list T)).
  Fixpoint p_get (m : list (T * nat)) (x : T) : option nat :=
    match m with [] => None | (y, i) :: m' => if T_eqb x y then Some i else p_get m' x end.
  (** [assert!(map.insert(x, i).is_none())]; [None] is the panic. *)
  Definition p_insert (m : list (T * nat)) (x : T) (i : nat) : option (list (T * nat)) :=
    match p_get m x with Some _ => None | None => Some (m ++ [(x, i)]) end.
  Fixpoint p_insert_all (m : list (T * nat)) (l : list (T * nat)) : option (list (T * nat)) :=
    match l with
    | [] => Some m
    | (x, i) :: r => match p_insert m x i with Some m' => p_insert_all m' r | None => None end
    end.
  (** 42-66 [from_iter]; [None] is a panic. *)
  Fixpoint from_loop (classes : list (list T)) (m : list (T * nat)) (n : nat) : option (part T) :=
    match classes with
    | [] => Some (mkPart m n)
    | c :: r =>
      if Nat.ltb 1 (length c) then
        match p_insert_all m (map (fun x => (x, n)) c) with
        | Some m' => from_loop r m' (S n)
        | None => None
        end
      else from_loop r m n
    end.
  Definition from_iter (classes : list (list T)) : option (part T) := from_loop classes [] 0.
  (** 73-79 [to_classes]; [None] is an index out of bounds. *)
  Definition push_at (classes : list (list T)) (i : nat) (x : T) : option (list (list T)) :=
    match nth_error classes i with
    | Some c => Some (firstn i classes ++ (c ++ [x]) :: skipn (S i) classes)
    | None => None
    end.
  Definition to_classes (p : part T) : option (list (list T)) :=
    fold_left (fun acc xi => match acc with Some cl => push_at cl (snd xi) (fst xi) | None => None end)
              (ord (class_of p)) (Some (repeat [] (num_classes p))).
  (** itertools [into_group_map] on pairs of class ids, in the order of first occurrences. *)
  Fixpoint group_insert (k : nat * nat) (x : T) (g : list ((nat * nat) * list T)) : list ((nat * nat) * list T) :=
    match g with
    | [] => [(k, [x])]
    | (k', l) :: g' => if Nat.eqb (fst k) (fst k') && Nat.eqb (snd k) (snd k') then (k', l ++ [x]) :: g' else (k', l) :: group_insert k x g'
    end.
  (** 97-113 [intersected_with]. *)
  Definition intersected_with (a b : part T) : option (part T) :=
    from_iter (gord (map snd
      (fold_left (fun g xi => match p_get (class_of b) (fst xi) with Some j => group_insert (snd xi, j) (fst xi) g | None => g end)
                 (ord (class_of a)) []))).
  (** 85-94 [intersect_many]; the empty case is a panic. *)
  Definition intersect_many (ps : list (part T)) : option (part T) :=
    match ps with
    | [] => None
    | p :: r => fold_left (fun acc q => match acc with Some a => intersected_with a q | None => None end) r (Some p)
    end.
  (** 117-127 [combine]. *)
  Definition combine_parts (a b : part T) : option (part T) :=
    match p_insert_all (class_of a) (map (fun xi => (fst xi, snd xi + num_classes a)) (ord (class_of b))) with
    | Some m => Some (mkPart m (num_classes a + num_classes b))
    | None => None
    end.
  (** [chunks] of a parallel iterator: pieces of [n], the last one possibly shorter. *)
  Fixpoint chunks {A} (fuel n : nat) (l : list A) : list (list A) :=
    match fuel, l with
    | S fuel, _ :: _ => firstn n l :: chunks fuel n (skipn n l)
    | _, _ => []
    end.
  Fixpoint all_some {A} (l : list (option A)) : option (list A) :=
    match l with
    | [] => Some []
    | x :: r => match x, all_some r with Some a, Some l' => Some (a :: l') | _, _ => None end
    end.
  (** 149-170 [parallel_intersect], for any chunk size ([CHUNK_SIZE] is 64).  The results of the
      chunks are collected in the order of the chunks, whatever the schedule. [None]: a panic or not enough fuel. *)
  Fixpoint parallel_intersect (chunk fuel : nat) (ps : list (part T)) : option (part T) :=
    match fuel with
    | O => None
    | S fuel =>
      if Nat.leb (length ps) chunk then intersect_many ps
      else match all_some (map intersect_many (chunks (length ps) chunk ps)) with
           | Some l => parallel_intersect chunk fuel l
           | None => None
           end
    end.
End PartModel.
Definition CHUNK_SIZE : nat := 64.
(** 131-143 [map_elements]. *)
Definition map_elements {T T2} (T2_eqb : T2 -> T2 -> bool) (ord : list (T * nat) -> list (T * nat)) (f : T -> T2) (p : part T) : option (part T2) :=
  match p_insert_all T2_eqb [] (map (fun xi => (f (fst xi), snd xi)) (ord (class_of p))) with
  | Some m => Some (mkPart m (num_classes p))
  | None => None
  end.
