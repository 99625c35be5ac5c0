(** Model of riscv-elf/src/debug_info.rs (names of addresses, source locations, notes on variables) and of
    riscv-elf/src/lib.rs 302-391 (how they are merged with the instructions).  Texts are lists of bytes.
    Reading DWARF (gimli) and ELF symbols (goblin) is not modelled: the input is what these libraries return. *)
From Coq Require Import NArith ZArith Bool List.
Import ListNotations.
Local Open Scope N_scope.

Definition text := list N.
(** A symbol: name and address (debug_info.rs 507-520 [read_symbol_table]). *)
Definition symbol := (text * N)%type.

(** [{:08x}] of a [u32]: eight lower case hexadecimal digits. *)
Definition hex_digit (d : N) : N := if d <? 10 then 48 + d else 87 + d.
Fixpoint hex (k : nat) (n : N) : text := match k with O => [] | S k => hex k (n / 16) ++ [hex_digit (n mod 16)] end.
Definition hex8 (n : N) : text := hex 8 n.

(** The derived order of strings (by bytes) and of pairs. *)
Fixpoint text_compare (a b : text) : comparison :=
  match a, b with
  | [], [] => Eq | [], _ :: _ => Lt | _ :: _, [] => Gt
  | x :: a, y :: b => match x ?= y with Eq => text_compare a b | c => c end
  end.
Definition text_eqb (a b : text) : bool := match text_compare a b with Eq => true | _ => false end.
Definition symbol_compare (x y : symbol) : comparison := match text_compare (fst x) (fst y) with Eq => snd x ?= snd y | c => c end.
Definition symbol_leb (x y : symbol) : bool := match symbol_compare x y with Gt => false | _ => true end.
Definition symbol_eqb (x y : symbol) : bool := match symbol_compare x y with Eq => true | _ => false end.

(** [sort_unstable]: elements that are equal in this order are the same, so every algorithm gives this list. *)
Fixpoint insert (x : symbol) (l : list symbol) : list symbol := match l with [] => [x] | y :: r => if symbol_leb x y then x :: l else y :: insert x r end.
Definition sort (l : list symbol) : list symbol := fold_right insert [] l.
(** [Vec::dedup]. *)
Fixpoint dedup (l : list symbol) : list symbol :=
  match l with
  | x :: r => match r with y :: _ => if symbol_eqb x y then dedup r else x :: dedup r | [] => l end
  | [] => []
  end.

(** debug_info.rs 552, 561: [format!("{name}_{address:08x}")]. *)
Definition rename (s : symbol) : symbol := (fst s ++ 95 :: hex8 (snd s), snd s).
(** The end of a group, 559-562: its leader is renamed if others were.  [group] has the others, last first. *)
Definition close_group (leader : symbol) (group : list symbol) : list symbol := (match group with [] => leader | _ => rename leader end) :: rev group.
(** 537-563: the loops over the groups. *)
Fixpoint groups (leader : symbol) (group : list symbol) (l : list symbol) : list symbol * bool :=
  match l with
  | [] => (close_group leader group, match group with [] => false | _ => true end)
  | s :: l =>
    if text_eqb (fst s) (fst leader) then groups leader (rename s :: group) l
    else let '(r, d) := groups s [] l in (close_group leader group ++ r, match group with [] => d | _ => true end)
  end.
(** 528-566 [dedup_names_pass]. *)
Definition dedup_names_pass (l : list symbol) : list symbol * bool :=
  match dedup (sort l) with [] => ([], false) | s :: r => groups s [] r end.
(** 522-526 [dedup_names]; [None] if it needs more than [fuel] passes. *)
Fixpoint dedup_names (fuel : nat) (l : list symbol) : option (list symbol) :=
  match fuel with
  | O => None
  | S fuel => let '(l', again) := dedup_names_pass l in if again then dedup_names fuel l' else Some l'
  end.

(** ** The symbol table *)
(** 98-107, 433-446: grouped by address, in a B-tree map, which is a list sorted by keys here. *)
Fixpoint insert_key (a : N) (l : list N) : list N := match l with [] => [a] | b :: r => match a ?= b with Lt => a :: l | Eq => l | Gt => b :: insert_key a r end end.
Definition keys (l : list symbol) : list N := fold_right insert_key [] (map snd l).
Definition names_at (l : list symbol) (a : N) : list text := map fst (filter (fun s => snd s =? a) l).
Definition table := list (N * list text).
Definition table_of (l : list symbol) : table := map (fun a => (a, names_at l a)) (keys l).
Definition get (t : table) (a : N) : option (list text) := match find (fun e => fst e =? a) t with Some e => Some (snd e) | None => None end.
(** 448-450 [default_label]: ["__.L{addr:08x}"]. *)
Definition default_label (a : N) : text := [95; 95; 46; 76] ++ hex8 a.
(** 453-457 [try_get_one]. *)
Definition try_get_one (t : table) (a : N) : option text := match get t a with Some (n :: _) => Some n | _ => None end.
(** 460-465 [get_one]. *)
Definition get_one (t : table) (a : N) : text := match try_get_one t a with Some n => n | None => default_label a end.
(** 468-480 [get_all]. *)
Definition get_all (t : table) (a : N) : list text :=
  let elems := match get t a with Some l => l | None => [] end in
  elems ++ match elems with [] => [default_label a] | _ => [] end.
(** 489-495 [try_get_one_or_preceding]; the outer [None] is the panic of line 490. *)
Definition try_get_one_or_preceding (t : table) (a : N) : option (option (text * N)) :=
  if a <? 2 ^ 32 then
    Some (match rev (filter (fun e => fst e <=? a) t) with
          | (b, n :: _) :: _ => Some (n, a - b)
          | _ => None
          end)
  else None.

(** ** Source locations *)
(** 45-50 [SourceLocationInfo]; file, line and column together are [where_]. *)
Record location := mkLoc { address : N; where_ : N }.
(** A loaded segment (goblin's [ProgramHeader]): start, size, and whether it is executable. *)
Record segment := mkSeg { start : N; memsz : N; executable : bool }.
Section Locations.
  (** [slice::binary_search_by_key]: [inl] is [Ok], [inr] is [Err]. *)
  Variable search : list location -> N -> nat + nat.
  (** [sort_unstable_by_key]: the order of locations with the same address is not fixed. *)
  Variable sort_locations : list location -> list location.
  (** 419-421. *)
  Fixpoint walk_back (l : list location) (a : N) (idx : nat) : nat :=
    match idx with
    | O => O
    | S k => match nth_error l k with Some x => if address x =? a then walk_back l a k else idx | None => idx end
    end.
  (** 416-426 [find_first_idx]. *)
  Definition find_first_idx (l : list location) (a : N) : nat := match search l a with inl idx => walk_back l a idx | inr idx => idx end.
  (** 404-413, the loop; [None] is the overflow in line 411. *)
  Fixpoint filter_segments (done : nat) (l : list location) (m : list segment) : option (list location) :=
    match m with
    | [] => Some l
    | s :: m =>
      let start_idx := (find_first_idx (skipn done l) (start s) + done)%nat in
      let l := firstn done l ++ skipn start_idx l in
      let end_ := start s + memsz s mod 2 ^ 32 in
      if end_ <? 2 ^ 32 then filter_segments (done + find_first_idx (skipn done l) end_)%nat l m else None
    end.
  (** 400-414 [filter_locations_in_text]; the segments are in the order of their addresses. *)
  Definition filter_locations_in_text (l : list location) (m : list segment) : option (list location) := filter_segments 0 (sort_locations l) m.
End Locations.

(** ** Statements *)
(** lib.rs: an instruction with its address and size. *)
Record insn := mkInsn { at_ : N; size : N; what : N }.
Inductive statement := SLabel (n : text) | SLoc (l : location) | SInsn (i : insn).
(** lib.rs 334-355: locations and instructions; [None] is the failed assertion in lines 339-343.  A location that is taken because
    there are no more instructions keeps the address 0 of line 337. *)
Fixpoint merge_locations (is : list insn) : list location -> option (list (N * statement)) :=
  fix go (ls : list location) : option (list (N * statement)) :=
    match ls, is with
    | [], _ => Some (map (fun i => (at_ i, SInsn i)) is)
    | _, [] => Some (map (fun l => (0, SLoc l)) ls)
    | l :: ls', i :: is' =>
      if address l <? at_ i then None
      else if address l <? at_ i + size i then match go ls' with Some r => Some ((at_ i, SLoc l) :: r) | None => None end
      else match merge_locations is' ls with Some r => Some ((at_ i, SInsn i) :: r) | None => None end
    end.
(** lib.rs 357-390: labels first; [None] is the panic in line 363. *)
Fixpoint merge_labels (t : table) (rs : list (N * statement)) : list N -> option (list statement) :=
  fix go (labels : list N) : option (list statement) :=
    match labels, rs with
    | [], _ => Some (map snd rs)
    | _, [] => Some (flat_map (fun a => map SLabel (get_all t a)) labels)
    | a :: labels', (b, s) :: rs' =>
      match a ?= b with
      | Lt => None
      | Eq => match go labels' with Some r => Some (map SLabel (get_all t a) ++ r) | None => None end
      | Gt => match merge_labels t rs' labels with Some r => Some (s :: r) | None => None end
      end
    end.
(** lib.rs 327-391 [take_executable_statements]; the iterator is read to its end, and the ends of instructions are below 2^32. *)
Definition executable_statements (t : table) (labels : list N) (ls : list location) (is : list insn) : option (list statement) :=
  match merge_locations is ls with Some rs => merge_labels t rs labels | None => None end.

(** ** Symbols and notes of compilation units *)
(** The attributes of a debugging information entry that are read (debug_info.rs 194-275). *)
Inductive entry_kind :=
| Subprogram (linkage : option text) (starts : list N)
| Variable_ (addr : option N) (linkage : option text) (decl : option (N * N))
| OtherEntry.
Record entry := mkEntry { entry_name : option text; kind : entry_kind }.
(** A note: the name and the place of the declaration; the words "at file ... line ..." are not modelled. *)
Definition note := (text * option (N * N))%type.
(** [join("::")]. *)
Fixpoint join_names (l : list text) : text := match l with [] => [] | [x] => x | x :: r => x ++ 58 :: 58 :: join_names r end.
(** 251-259: the names on the stack, ["?"] for none. *)
Definition full_text (stack : list (option text)) : text := join_names (map (fun o => match o with Some s => s | None => [63] end) stack).
Record unit_state := mkUnit { symbols : list symbol; notes : list (N * note) }.
Section Units.
  Variables (is_data : N -> bool) (jump_target : N -> bool) (file_delta : N).
  (** 200-207: the stack of names; [None] is the error of line 201.  [as usize] makes a negative length so large that nothing
      is cut off. *)
  Definition push_name (stack : list (option text)) (delta : Z) (name : option text) : option (list (option text)) :=
    if (1 <? delta)%Z then None
    else if (delta =? 1)%Z then Some (stack ++ [name])
    else let n := (Z.of_nat (length stack) + delta - 1)%Z in
      Some ((if (n <? 0)%Z then stack else firstn (Z.to_nat n) stack) ++ [name]).
  (** 209-280: one entry.  [notes.insert] adds in front.  The test in line 237 asks whether the stack has an element, and it
      always has. *)
  Definition read_entry (stack : list (option text)) (e : entry) (st : unit_state) : unit_state :=
    match kind e with
    | Subprogram (Some n) starts => mkUnit (symbols st ++ map (fun a => (n, a)) (filter jump_target starts)) (notes st)
    | Variable_ (Some a) linkage decl =>
      if is_data a then
        mkUnit (symbols st ++ match linkage with Some n => [(n, a)] | None => [] end)
          ((if (0 <? length stack)%nat then [(a, (full_text stack, match decl with Some (f, l) => Some (f + file_delta, l) | None => None end))] else []) ++ notes st)
      else st
    | _ => st
    end.
  (** 182-284 [read_unit_symbols]. *)
  Fixpoint read_entries (stack : list (option text)) (l : list (Z * entry)) (st : unit_state) : option unit_state :=
    match l with
    | [] => Some st
    | (delta, e) :: l =>
      match push_name stack delta (entry_name e) with
      | Some stack => read_entries stack l (read_entry stack e st)
      | None => None
      end
    end.
  Definition read_unit_symbols (l : list (Z * entry)) (st : unit_state) : option unit_state := read_entries [None] l st.
End Units.
(** lib.rs 311-317: the label of a data address, a note before a symbol. *)
Definition data_label (n : list (N * note)) (t : table) (a : N) : option (note + text) :=
  match find (fun e => fst e =? a) n with
  | Some e => Some (inl (snd e))
  | None => match try_get_one t a with Some s => Some (inr s) | None => None end
  end.
