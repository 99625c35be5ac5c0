(** What the names, locations and notes read from an ELF file should be, without the functions of the model. *)
From Coq Require Import NArith ZArith Bool List Sorted Permutation.
From Verif Require Import DbgModel.
Import ListNotations.
Local Open Scope N_scope.

(** The text of eight digits [0]-[9], [a]-[f] with value [a]. *)
Definition hex_char (c v : N) : Prop := (48 <= c <= 57 /\ v = c - 48) \/ (97 <= c <= 102 /\ v = c - 97 + 10).
Inductive hex_value : text -> N -> Prop :=
| hv_nil : hex_value [] 0
| hv_snoc t n c v : hex_value t n -> hex_char c v -> hex_value (t ++ [c]) (16 * n + v).
Definition spells (a : N) (t : text) : Prop := length t = 8%nat /\ hex_value t a.

(** [m] is [n] followed by any number of copies of ["_"] and the address. *)
Inductive extended (a : N) (n : text) : text -> Prop :=
| ext_none : extended a n n
| ext_more m t : extended a n m -> spells a t -> extended a n (m ++ [95] ++ t).

(** The alphabetic order. *)
Inductive text_lt : text -> text -> Prop :=
| lt_nil y b : text_lt [] (y :: b)
| lt_head x y a b : x < y -> text_lt (x :: a) (y :: b)
| lt_tail x a b : text_lt a b -> text_lt (x :: a) (x :: b).

(** A label that the program makes up for the address. *)
Definition made_up (a : N) (n : text) : Prop := exists t, n = [95; 95; 46; 76] ++ t /\ spells a t.

(** Libraries: searching a list sorted by address, and sorting by address. *)
Definition by_address (x y : location) : Prop := address x <= address y.
Definition searches (search : list location -> N -> nat + nat) : Prop :=
  forall l a, StronglySorted by_address l ->
    match search l a with
    | inl k => exists x, nth_error l k = Some x /\ address x = a
    | inr k => (k <= length l)%nat /\ Forall (fun x => address x < a) (firstn k l) /\ Forall (fun x => a < address x) (skipn k l)
    end.
Definition sorts (sort : list location -> list location) : Prop :=
  forall l, StronglySorted by_address (sort l) /\ Permutation l (sort l).

Definition end_of (s : segment) : N := start s + memsz s.
Definition inside (x : location) (s : segment) : Prop := start s <= address x < end_of s.
Definition in_order (m : list segment) : Prop := StronglySorted (fun s t => start s < start t) m.

(** Instructions one after the other. *)
Definition consecutive (is : list insn) : Prop := StronglySorted (fun i j => at_ i + size i <= at_ j) is /\ Forall (fun i => 0 < size i) is.
Definition belongs (i : insn) (l : location) : bool := (at_ i <=? address l) && (address l <? at_ i + size i).
Definition beyond (is : list insn) (l : location) : bool := forallb (fun i => at_ i + size i <=? address l) is.
(** Each instruction after the labels of its address and the locations in it. *)
Definition listing (t : table) (labels : list N) (ls : list location) (is : list insn) : list statement :=
  flat_map (fun i => flat_map (fun a => map SLabel (get_all t a)) (filter (fun a => a =? at_ i) labels)
                     ++ map SLoc (filter (belongs i) ls) ++ [SInsn i]) is
  ++ map SLoc (filter (beyond is) ls)
  ++ flat_map (fun a => map SLabel (get_all t a)) (filter (fun a => forallb (fun i => at_ i <? a) is) labels).
Definition location_fits (is : list insn) (l : location) : Prop := (exists i, In i is /\ belongs i l = true) \/ beyond is l = true.
Definition label_fits (is : list insn) (a : N) : Prop := (exists i, In i is /\ at_ i = a) \/ (forall i, In i is -> at_ i < a).

(** A tree of debugging information entries, and what a walk through it returns: each entry with the change of depth. *)
Inductive die := Die (e : entry) (children : list die).
Fixpoint walk (depth : Z) (d : die) : list (Z * entry) :=
  match d with Die e cs => (depth, e) :: flat_map (walk (depth + 1)) cs end.
Fixpoint changes (before : Z) (l : list (Z * entry)) : list (Z * entry) :=
  match l with [] => [] | (d, e) :: l => ((d - before)%Z, e) :: changes d l end.
(** Each entry with the names from the root to it. *)
Fixpoint paths (above : list (option text)) (d : die) : list (list (option text) * entry) :=
  match d with Die e cs => (above ++ [entry_name e], e) :: flat_map (paths (above ++ [entry_name e])) cs end.
(** The names with ["::"] between them. *)
Inductive joined : list (option text) -> text -> Prop :=
| j_one n : joined [Some n] n
| j_none : joined [None] [63]
| j_more n r t : r <> [] -> joined r t -> joined (Some n :: r) (n ++ [58; 58] ++ t)
| j_more_none r t : r <> [] -> joined r t -> joined (None :: r) ([63] ++ [58; 58] ++ t).
(** The symbols that an entry gives. *)
Definition gives_symbol (is_data jump_target : N -> bool) (e : entry) (n : text) (a : N) : Prop :=
  (exists starts, kind e = Subprogram (Some n) starts /\ In a starts /\ jump_target a = true)
  \/ (exists decl, kind e = Variable_ (Some a) (Some n) decl /\ is_data a = true).
(** The note that an entry below these names gives. *)
Definition gives_note (is_data : N -> bool) (delta : N) (p : list (option text) * entry) (a : N) (x : note) : Prop :=
  exists linkage decl, kind (snd p) = Variable_ (Some a) linkage decl /\ is_data a = true /\ joined (fst p) (fst x)
    /\ snd x = match decl with Some (f, l) => Some (f + delta, l) | None => None end.
