(** What the attributes of an entry say. *)
From Coq Require Import NArith ZArith Bool List.
From Verif Require Import DbgModel AttrModel.
Import ListNotations.
Local Open Scope N_scope.

(** The first attribute [a] has the value [v]. *)
Definition first (d : die) (a : at_) (v : avalue) : Prop := exists before after, attrs d = before ++ (a, v) :: after /\ forall w, ~ In (a, w) before.
(** The entry is a function with this linkage name that has this address as its start or the start of one of its ranges; addresses are
    cut to 32 bits. *)
Definition function_at (d : die) (n : text) (x : N) : Prop :=
  die_tag d = TagSubprogram /\ first d AtLinkageName (VString n) /\
  exists y, x = y mod 2 ^ 32 /\ (first d AtLowPc (VAddress y) \/ exists rs z, first d AtRanges (VRanges rs) /\ In (y, z) rs).
(** The entry is a variable at this fixed address. *)
Definition variable_at (d : die) (x : N) : Prop := die_tag d = TagVariable /\ exists y, x = y mod 2 ^ 32 /\ first d AtLocation (VExprloc [OpAddress y]).
(** The first attribute [a] is not a string. *)
Definition not_a_string (d : die) (a : at_) : Prop := exists v, first d a v /\ forall s, v <> VString s.
(** An entry that cannot be read. *)
Definition unreadable (is_data : N -> bool) (d : die) : Prop :=
  not_a_string d AtName \/ not_a_string d AtLinkageName /\ (die_tag d = TagSubprogram \/ exists x, variable_at d x /\ is_data x = true).
(** The place of the declaration of an entry, with the number of the file after the files of the units before. *)
Definition declared_at (file_delta : N) (d : die) (p : option (N * N)) : Prop :=
  match p with
  | Some (f, l) => exists g, f = g + file_delta /\ first d AtDeclFile (VFileIndex g) /\ first d AtDeclLine (VUdata l)
  | None => forall g l, ~ (first d AtDeclFile (VFileIndex g) /\ first d AtDeclLine (VUdata l))
  end.
