(** Model of autoprecompiles/src/low_degree_bus_interaction_optimizer.rs. *)
From Coq Require Import Arith NArith Bool List.
From Verif Require Import Field RangeModel ExprModel SolveModel SystemModel BusModel OvmModel.
Import ListNotations.
Local Open Scope nat_scope.

(** itertools [permutations]: all orders of [n] elements of the list, by increasing positions. *)
Fixpoint picks {A} (l : list A) : list (A * list A) :=
  match l with [] => [] | x :: l' => (x, l') :: map (fun yr => (fst yr, x :: snd yr)) (picks l') end.
Fixpoint perms {A} (n : nat) (l : list A) : list (list A) :=
  match n with O => [[]] | S n' => flat_map (fun xr => map (cons (fst xr)) (perms n' (snd xr))) (picks l) end.
(** itertools [multi_cartesian_product]. *)
Fixpoint product {A} (ls : list (list A)) : list (list A) :=
  match ls with [] => [[]] | l :: ls' => flat_map (fun x => map (cons x) (product ls')) l end.
(** [collect] of options. *)
Fixpoint collect_all {A} (l : list (option A)) : option (list A) :=
  match l with
  | [] => Some []
  | Some x :: l' => match collect_all l' with Some xs => Some (x :: xs) | None => None end
  | None :: _ => None
  end.

Section LowModel.
  Context {p : positive}.
  Local Notation gexp := (gexp p).
  Local Notation rc := (rc p).
  (** The bus interaction handler of the virtual machine (three traits, lines 38). *)
  Variable handler : busi rc -> busi rc.
  Variable stateful : F p -> bool.
  Variable make : list (gexp * rc) -> made p.
  (** The solver: range constraints of variables and of expressions. *)
  Variable g : var -> rc.
  Variable rq : gexp -> rc.
  (** The degree bound for identities. *)
  Variable bound : nat.

  (** 315-323 [SymbolicField]. *)
  Record sfield := mkSF { sf_index : nat; sf_expr : gexp; sf_rc : rc }.
  (** 151-166: the fields that are not constant. *)
  Definition unknown_fields (b : busi gexp) : list sfield :=
    flat_map (fun ie => match try_to_known (snd ie) with None => [mkSF (fst ie) (snd ie) (rq (snd ie))] | Some _ => [] end)
      (combine (seq 0 (length (payload b))) (payload b)).
  (** 176-182: the last one is the output. *)
  Definition split_output (l : list sfield) : option (list sfield * sfield) :=
    match rev l with o :: r => Some (rev r, o) | [] => None end.
  (** 196-216 [has_few_possible_values] with [MAX_DOMAIN_SIZE] (312). *)
  Definition value_count (r : rc) : option N :=
    if (range_width r <? 2 ^ 16)%N then match allowed_values r with Some l => Some (N.of_nat (length l)) | None => None end else None.
  Definition few_values (rs : list rc) : bool :=
    match fold_left (fun acc r => match acc, value_count r with
                                  | Some a, Some n => if (a * n <? 2 ^ 64)%N then Some (a * n)%N else None
                                  | _, _ => None end) rs (Some 1%N) with
    | Some n => (n <=? 256)%N
    | None => false
    end.
  (** 147-192 [symbolic_function_candidates_with_small_domain]. *)
  Definition candidates (b : busi gexp) : list (list sfield * sfield) :=
    let l := unknown_fields b in
    if Nat.eqb (length l) 2 || Nat.eqb (length l) 3 then
      filter (fun io => few_values (map sf_rc (fst io)))
        (flat_map (fun f => match split_output f with Some io => [io] | None => [] end) (perms (length l) l))
    else [].

  (** 334-373 [hypotheses]; the last case panics, but is not reached.  [nth] out of bounds panics in the code, the length is always right. *)
  Definition hypotheses (n : nat) : list (list gexp -> gexp) :=
    let x (es : list gexp) := nth 0 es gzero in
    let y (es : list gexp) := nth 1 es gzero in
    match n with
    | 1 => [x;
            (fun es => gsub (from_number 1%F) (x es));
            (fun es => gsub (from_number (of_N 255)) (x es));
            (fun es => gsub (from_number (of_N 65535)) (x es))]
    | 2 => [x;
            (fun es => gadd (x es) (y es));
            (fun es => gmul (x es) (y es));
            (fun es => gsub (gadd (x es) (y es)) (gmul (x es) (y es)));
            (fun es => gsub (gadd (x es) (y es)) (gmul (from_number (of_N 2)) (gmul (x es) (y es))))]
    | _ => []
    end.

  (** 264-307 [concrete_input_output_pairs]: the inputs that are tried; [None] is a panic in [allowed_values], which [few_values] excludes. *)
  Definition input_assignments (ins : list sfield) : option (list (list (nat * F p))) :=
    match collect_all (map (fun f => match allowed_values (sf_rc f) with Some l => Some (map (pair (sf_index f)) l) | None => None end) ins) with
    | Some ls => Some (product ls)
    | None => None
    end.
  (** 288-293: set the inputs. *)
  Definition set_inputs (a : list (nat * F p)) (b : busi rc) : busi rc :=
    mkBus (bus_id b) (mult b) (fold_left (fun pl iv => set_nth (fst iv) (from_value (snd iv)) pl) a (payload b)).
  (** 297-305: the unique output of the handler; [BViolates] also stands for an output that is not unique. *)
  Definition output_for (b : busi rc) (o : nat) (a : list (nat * F p)) : bres (F p) :=
    match handle_checked handler (set_inputs a b) with
    | BOk b' => match nth_error (payload b') o with
                | Some r => match try_to_single_value r with Some v => BOk v | None => BViolates end
                | None => BPanic
                end
    | BViolates => BViolates
    | BPanic => BPanic
    end.
  (** 234-237: whether a hypothesis agrees; [None] is the failing [unwrap]. *)
  Definition agrees_with (a : list (nat * F p)) (v : F p) (f : list gexp -> gexp) : option bool :=
    match try_to_known (f (map (fun iv => from_number (snd iv)) a)) with Some k => Some (feqb k v) | None => None end.
  Fixpoint retain (f : (list gexp -> gexp) -> option bool) (l : list (list gexp -> gexp)) : option (list (list gexp -> gexp)) :=
    match l with
    | [] => Some []
    | x :: l' => match f x, retain f l' with
                 | Some b, Some r => Some (if b then x :: r else r)
                 | _, _ => None
                 end
    end.
  Inductive found := Found (f : list gexp -> gexp) | NotFound | FindPanic.
  (** 220-254 [find_low_degree_function]. *)
  Fixpoint test_all (b : busi rc) (o : nat) (l : list (list (nat * F p))) (hs : list (list gexp -> gexp)) : found :=
    match l with
    | [] => match hs with [f] => Found f | _ => FindPanic end
    | a :: l' =>
      match output_for b o a with
      | BViolates => NotFound
      | BPanic => FindPanic
      | BOk v => match retain (agrees_with a v) hs with
                 | None => FindPanic
                 | Some [] => NotFound
                 | Some hs' => test_all b o l' hs'
                 end
      end
    end.
  Definition find_function (b : busi gexp) (ins : list sfield) (o : sfield) : found :=
    match input_assignments ins with
    | None => FindPanic
    | Some l => test_all (to_range_constraints g b) (sf_index o) l (hypotheses (length ins))
    end.

  Inductive replacement := Replace (k : gexp) (rs : list (gexp * rc)) | Keep | ReplacePanic.
  (** 106-142: the first candidate with a function within the degree bound. *)
  Fixpoint first_replacement (b : busi gexp) (l : list (list sfield * sfield)) : replacement :=
    match l with
    | [] => Keep
    | (ins, o) :: l' =>
      match find_function b ins o with
      | FindPanic => ReplacePanic
      | NotFound => first_replacement b l'
      | Found f =>
        let k := gsub (sf_expr o) (f (map sf_expr ins)) in
        if Nat.leb (degree k) bound then Replace k (map (fun x => (sf_expr x, sf_rc x)) ins) else first_replacement b l'
      end
    end.
  (** 98-143 [try_replace_bus_interaction]. *)
  Definition try_replace (b : busi gexp) : replacement :=
    match try_to_known (bus_id b) with
    | None => Keep
    | Some i => if stateful i then Keep else first_replacement b (candidates b)
    end.
  (** 54-82: one bus interaction; the new constraints and the interactions. *)
  Definition replace_one (b : busi gexp) : option (list gexp * list (busi gexp)) :=
    match try_replace b with
    | ReplacePanic => None
    | Keep => Some ([], [b])
    | Replace k rs =>
      let ks := if is_redundant k then [] else [k] in
      match make rs with
      | Made bs => Some (ks, bs)
      | MakeError => Some (ks, [b])
      | MakePanic => None
      end
    end.
  (** 50-94 [optimize]; [None] is a panic.  The constraints added to the solver (88-89) are the new ones of the result. *)
  Definition low_degree (c : csys p) : option (csys p) :=
    match collect_all (map replace_one (buses c)) with
    | None => None
    | Some l => Some (mkCS (algs c ++ flat_map fst l) (flat_map snd l) (derived c))
    end.
End LowModel.
