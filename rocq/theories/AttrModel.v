(** Model of reading the attributes of debugging information entries and the sections they are in, riscv-elf/src/debug_info.rs 182-398.
    The tree of entries with its attributes is what gimli reads; the names of entries and their notes are in DbgModel.v. *)
From Coq Require Import NArith ZArith Bool List.
From Verif Require Import DbgModel.
Import ListNotations.
Local Open Scope N_scope.

(** The attributes that are looked for (gimli's [DwAt]). *)
Inductive at_ := AtName | AtLinkageName | AtLowPc | AtRanges | AtLocation | AtDeclFile | AtDeclLine | AtOther (n : N).
Definition at_eqb (a b : at_) : bool :=
  match a, b with
  | AtName, AtName | AtLinkageName, AtLinkageName | AtLowPc, AtLowPc | AtRanges, AtRanges | AtLocation, AtLocation | AtDeclFile, AtDeclFile | AtDeclLine, AtDeclLine => true
  | AtOther x, AtOther y => x =? y
  | _, _ => false
  end.
(** gimli's [Operation] and [AttributeValue]; strings, addresses and ranges are resolved, and ranges are the pairs the iterator gives. *)
Inductive operation := OpAddress (a : N) | OpOther.
Inductive avalue := VString (s : text) | VAddress (a : N) | VRanges (l : list (N * N)) | VExprloc (ops : list operation) | VFileIndex (n : N) | VUdata (n : N) | VOther.
Inductive tag := TagSubprogram | TagVariable | TagOther.
Record die := mkDie { die_tag : tag; attrs : list (at_ * avalue) }.

(** 325-336 [find_attr]. *)
Fixpoint find_attr (l : list (at_ * avalue)) (a : at_) : option avalue := match l with [] => None | (b, v) :: r => if at_eqb b a then Some v else find_attr r a end.
(** [attr_string] with [transpose]: the outer [None] is the error for a value that is not a string. *)
Definition string_attr (l : list (at_ * avalue)) (a : at_) : option (option text) :=
  match find_attr l a with None => Some None | Some (VString s) => Some (Some s) | Some _ => None end.
(** 345-369 [get_static_var_address]. *)
Definition get_static_var_address (l : list (at_ * avalue)) : option N :=
  match find_attr l AtLocation with Some (VExprloc [OpAddress a]) => Some (a mod 2 ^ 32) | _ => None end.
(** 371-398 [get_function_start]. *)
Definition get_function_start (l : list (at_ * avalue)) : list N :=
  match find_attr l AtLowPc with Some (VAddress a) => [a mod 2 ^ 32] | _ => [] end ++
  match find_attr l AtRanges with Some (VRanges rs) => map (fun r => fst r mod 2 ^ 32) rs | _ => [] end.
(** 239-248: where the variable was declared. *)
Definition declared (l : list (at_ * avalue)) : option (N * N) :=
  match find_attr l AtDeclFile, find_attr l AtDeclLine with Some (VFileIndex f), Some (VUdata n) => Some (f, n) | _, _ => None end.

Section Attr.
  Context (is_data : N -> bool) (jump_target : N -> bool) (file_delta : N).
  (** 194-280: what is read of one entry; [None] is an error of gimli. *)
  Definition read_die (d : die) : option entry :=
    match string_attr (attrs d) AtName with
    | None => None
    | Some name =>
        match die_tag d with
        | TagSubprogram =>
            match string_attr (attrs d) AtLinkageName with
            | None => None
            | Some None => Some (mkEntry name OtherEntry)
            | Some (Some n) => Some (mkEntry name (Subprogram (Some n) (get_function_start (attrs d))))
            end
        | TagVariable =>
            match get_static_var_address (attrs d) with
            | None => Some (mkEntry name OtherEntry)
            | Some a => if is_data a
                        then match string_attr (attrs d) AtLinkageName with None => None | Some n => Some (mkEntry name (Variable_ (Some a) n (declared (attrs d)))) end
                        else Some (mkEntry name OtherEntry)
            end
        | TagOther => Some (mkEntry name OtherEntry)
        end
    end.
  (** 182-284 [read_unit_symbols].  An error ends the reading of the whole file, so it does not matter that entries are read before the
      names are put together here. *)
  Fixpoint read_dies (l : list (Z * die)) : option (list (Z * entry)) :=
    match l with
    | [] => Some []
    | (delta, d) :: r => match read_die d, read_dies r with Some e, Some es => Some ((delta, e) :: es) | _, _ => None end
    end.
  Definition read_unit (l : list (Z * die)) (st : unit_state) : option unit_state :=
    match read_dies l with Some es => read_unit_symbols is_data jump_target file_delta es st | None => None end.
End Attr.

(** ** 286-315 [load_dwarf_sections] *)
(** A section header: its name, if it has one, and its place in the file. *)
Record header := mkHeader { h_name : option text; h_offset : N; h_size : N }.
(** The hash map of the sections: a later one replaces an earlier one of the same name. *)
Fixpoint last_named (n : text) (hs : list header) : option header :=
  match hs with
  | [] => None
  | h :: r => match last_named n r with Some x => Some x | None => match h_name h with Some m => if text_eqb m n then Some h else None | None => None end end
  end.
(** The bytes of a section, none if there is no such section; [None] is the panic of the slice. *)
Definition section_bytes (file : list N) (hs : list header) (n : text) : option (list N) :=
  match last_named n hs with
  | None => Some []
  | Some h => if h_offset h + h_size h <=? N.of_nat (length file) then Some (firstn (N.to_nat (h_size h)) (skipn (N.to_nat (h_offset h)) file)) else None
  end.
(** [true] is the error [NoDebugInfo]. *)
Definition no_debug_info (hs : list header) : bool := forallb (fun h => match h_name h with Some _ => false | None => true end) hs.
