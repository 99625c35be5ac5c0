(** Model of riscv-elf/src/bin/elf-labels.rs 157-245: the listing of a 64-bit program.  The columns are not modelled letter by letter: the
    listing is the list of its rows. *)
From Coq Require Import NArith Bool List.
From Verif Require DbgModel.
From Verif Require Import ElfModel WideModel.
Import ListNotations.
Local Open Scope N_scope.

(** The rows of the listing: addresses with symbols (176-186), the summary (189-208), the map of labels (211-220), the jumps (223-240). *)
Record listing := mkListing {
  t_rows : list (N * list N); t_total : nat; t_named : nat; t_without : nat; t_functions : option nat;
  t_map : list (list N * N); t_jumps : list (N * N * jump_text) }.
(** 158-163, 243: the entry point, the base and what follows; [None]: the message that there are no labels. *)
Record output := mkOutput { t_entry : N; t_base : N; t_listing : option listing }.

(** 178-183: the name of the first symbol at an address, or the empty text. *)
Definition symbol_at (syms : list (N * list N)) (a : N) : list N :=
  match find (fun s => fst s =? a) syms with Some s => snd s | None => [] end.
(** 201: the name does not start with a dollar and has no dot. *)
Definition is_function (name : list N) : bool :=
  negb (match name with c :: _ => c =? 36 | [] => false end) && negb (existsb (N.eqb 46) name).
(** 216-217 [sort_by], a stable sort by the names. *)
Fixpoint insert_name (x : N * list N) (l : list (N * list N)) : list (N * list N) :=
  match l with
  | [] => [x]
  | y :: r => match DbgModel.text_compare (snd x) (snd y) with Gt => y :: insert_name x r | _ => x :: l end
  end.
Definition sort_names (l : list (N * list N)) : list (N * list N) := fold_right insert_name [] l.
(** 157-245 [print_elf_info_64].  The map of jumps is in ascending order already, so that sorting it (231-232) does not change it. *)
Definition print_elf_info_64 (L : labels64) : output :=
  mkOutput (entry_point L) (pc_base L)
    match jumpdests L with
    | [] => None
    | ds =>
      let functions := length (filter (fun s => is_function (snd s)) (symbols L)) in
      Some (mkListing
        (map (fun a => (a, symbol_at (symbols L) a)) ds)
        (length ds) (length (symbols L)) (length (with_debug L))
        (if Nat.eqb functions 0 then None else Some functions)
        (map (fun s => (snd s, fst s)) (sort_names (symbols L)))
        (flat_map (fun e => map (fun j => (fst e, j_from j, j_text j)) (snd e)) (with_debug L)))
    end.
