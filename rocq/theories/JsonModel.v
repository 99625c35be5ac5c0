(** Model of saving, loading and printing: expression/src/lib.rs and display.rs, autoprecompiles/src/expression.rs
    (references) and symbolic_machine.rs (machines), constraint-solver/src/grouped_expression.rs and
    constraint_system.rs (exported constraint systems).
    Documents are modelled after serde's data model: numbers without sign or fraction, texts, lists and maps.
    What the derived implementations of serde do is part of the trusted base and written out here: structs are
    read from lists with exactly their fields or from maps in which every field occurs once and other
    keys are ignored, an untagged enum takes the first alternative that can be read.  Not modelled: unit
    variants written as maps with a null. *)
From Coq Require Import Arith NArith Bool List Ascii String.
From Verif Require Import Field ExprModel SystemModel SymModel NumModel.
Import ListNotations.
Local Open Scope list_scope.

Inductive json := JNum (n : N) | JStr (t : text) | JArr (l : list json) | JObj (l : list (text * json)).
Fixpoint txt (s : string) : text := match s with EmptyString => [] | String c s => N_of_ascii c :: txt s end.

(** autoprecompiles/src/expression.rs 13-20 [AlgebraicReference] and expression/src/lib.rs 26-75
    [AlgebraicExpression]; [SymModel.aexpr] with names.  symbolic_machine.rs 35-39, 70-75, 115-127. *)
Inductive nexpr (p : positive) := NRef (name : text) (id : N) | NNum (k : F p) | NBin (l : nexpr p) (o : aop) (r : nexpr p) | NNeg (e : nexpr p).
Arguments NRef {p}. Arguments NNum {p}. Arguments NBin {p}. Arguments NNeg {p}.
Record nbus (p : positive) := mkNB { nb_id : N; nb_mult : nexpr p; nb_args : list (nexpr p) }.
Arguments mkNB {p}. Arguments nb_id {p}. Arguments nb_mult {p}. Arguments nb_args {p}.
Inductive nmethod (p : positive) := NConst (k : F p) | NQuot (a b : nexpr p).
Arguments NConst {p}. Arguments NQuot {p}.
Record nmach (p : positive) := mkNM { nm_cons : list (nexpr p); nm_buses : list (nbus p); nm_derived : list (text * N * nmethod p) }.
Arguments mkNM {p}. Arguments nm_cons {p}. Arguments nm_buses {p}. Arguments nm_derived {p}.

Section JsonModel.
  Context {p : positive}.
  (** The numbers that the field's integer type can hold (number/src/plonky3_macros.rs 38-48: 2^32; goldilocks.rs 40: 2^64).
      Goldilocks keeps a number between the modulus and 2^64 as it is read; here it is reduced. *)
  Variable word : N.

  (** ** Saving *)
  Definition ser_number (k : F p) : json := JNum (val k).
  (** expression.rs 51-58; [64] is the character @. *)
  Definition ser_ref (name : text) (id : N) : json := JStr (name ++ [64%N] ++ print 10 id).
  (** expression/src/lib.rs 49-57, 66-70: the names of the operators. *)
  Definition ser_op (o : aop) : json := match o with OAdd => JStr (txt "+") | OSub => JStr (txt "-") | OMul => JStr (txt "*") end.
  (** expression/src/lib.rs 27-35, 215-238. *)
  Fixpoint ser_expr (e : nexpr p) : json :=
    match e with
    | NRef name id => ser_ref name id
    | NNum k => ser_number k
    | NBin l o r => JArr [ser_expr l; ser_op o; ser_expr r]
    | NNeg e => JArr [JStr (txt "-"); ser_expr e]
    end.
  Definition ser_bus (b : nbus p) : json := JObj [(txt "id", JNum (nb_id b)); (txt "mult", ser_expr (nb_mult b)); (txt "args", JArr (map ser_expr (nb_args b)))].
  (** constraint_system.rs 97-108, 130-137. *)
  Definition ser_method (m : nmethod p) : json :=
    match m with NConst k => JObj [(txt "Constant", ser_number k)] | NQuot a b => JObj [(txt "QuotientOrZero", JArr [ser_expr a; ser_expr b])] end.
  Definition ser_derived (d : text * N * nmethod p) : json := match d with (name, id, m) => JArr [ser_ref name id; ser_method m] end.
  Definition ser_machine (m : nmach p) : json :=
    JObj [(txt "constraints", JArr (map ser_expr (nm_cons m))); (txt "bus_interactions", JArr (map ser_bus (nm_buses m))); (txt "derived_columns", JArr (map ser_derived (nm_derived m)))].

  (** ** Loading *)
  Definition de_number (j : json) : option (F p) := match j with JNum n => if (n <? word)%N then Some (of_N n) else None | _ => None end.
  Definition de_u64 (j : json) : option N := match j with JNum n => if (n <? 2 ^ 64)%N then Some n else None | _ => None end.
  (** Rust's [u64::from_str]: digits after an optional plus, and no overflow. *)
  Definition parse_u64 (s : text) : option N :=
    match read 10 (match s with c :: t => if (c =? 43)%N then t else s | [] => s end) with Some n => if (n <? 2 ^ 64)%N then Some n else None | None => None end.
  (** [rfind('@')]: what is before and after the last one. *)
  Fixpoint split_last_at (s : text) : option (text * text) :=
    match s with
    | [] => None
    | c :: s => match split_last_at s with Some (a, b) => Some (c :: a, b) | None => if (c =? 64)%N then Some ([], s) else None end
    end.
  (** expression.rs 60-79. *)
  Definition de_ref (j : json) : option (text * N) :=
    match j with
    | JStr s => match split_last_at s with Some (name, id) => match parse_u64 id with Some n => Some (name, n) | None => None end | None => None end
    | _ => None
    end.
  Definition de_op (j : json) : option aop :=
    match j with
    | JStr s => if text_eqb s (txt "+") then Some OAdd else if text_eqb s (txt "-") then Some OSub else if text_eqb s (txt "*") then Some OMul else None
    | _ => None
    end.
  Definition de_minus (j : json) : option unit := match j with JStr s => if text_eqb s (txt "-") then Some tt else None | _ => None end.
  (** The value of a key that must occur exactly once. *)
  Definition the_field {A} (k : text) (l : list (text * A)) : option A := match filter (fun f => text_eqb (fst f) k) l with [(_, x)] => Some x | _ => None end.
  Fixpoint the_fields {A} (ks : list text) (l : list (text * A)) : option (list A) :=
    match ks with [] => Some [] | k :: ks => match the_field k l, the_fields ks l with Some x, Some xs => Some (x :: xs) | _, _ => None end end.
  Definition read_struct (ks : list text) (j : json) : option (list json) :=
    match j with JArr l => if Nat.eqb (List.length l) (List.length ks) then Some l else None | JObj l => the_fields ks l | _ => None end.
  (** [AlgebraicExpression]: the alternatives in the order of the declaration; operands that are read twice in the code
      are read once here. *)
  Fixpoint de_expr (j : json) : option (nexpr p) :=
    let binary l o r := match l, de_op o, r with Some l, Some o, Some r => Some (NBin l o r) | _, _, _ => None end in
    let unary o e := match de_minus o, e with Some _, Some e => Some (NNeg e) | _, _ => None end in
    match j with
    | JStr _ => match de_ref j with Some (name, id) => Some (NRef name id) | None => None end
    | JNum _ => match de_number j with Some k => Some (NNum k) | None => None end
    | JArr [l; o; r] => binary (de_expr l) o (de_expr r)
    | JArr [o; e] => unary o (de_expr e)
    | JArr _ => None
    | JObj l =>
      let l := map (fun f => (fst f, (snd f, de_expr (snd f)))) l in
      match match the_fields [txt "left"; txt "op"; txt "right"] l with Some [x; o; y] => binary (snd x) (fst o) (snd y) | _ => None end with
      | Some e => Some e
      | None => match the_fields [txt "op"; txt "expr"] l with Some [o; e] => unary (fst o) (snd e) | _ => None end
      end
    end.
  Definition de_list {A} (f : json -> option A) (j : json) : option (list A) := match j with JArr l => all_opt (map f l) | _ => None end.
  Definition de_bus (j : json) : option (nbus p) :=
    match read_struct [txt "id"; txt "mult"; txt "args"] j with
    | Some [i; m; a] => match de_u64 i, de_expr m, de_list de_expr a with Some i, Some m, Some a => Some (mkNB i m a) | _, _, _ => None end
    | _ => None
    end.
  Definition de_method (j : json) : option (nmethod p) :=
    match j with
    | JObj [(k, x)] =>
      if text_eqb k (txt "Constant") then match de_number x with Some k => Some (NConst k) | None => None end
      else if text_eqb k (txt "QuotientOrZero") then match x with JArr [a; b] => match de_expr a, de_expr b with Some a, Some b => Some (NQuot a b) | _, _ => None end | _ => None end
      else None
    | _ => None
    end.
  (** constraint_system.rs 110-127. *)
  Definition de_derived (j : json) : option (text * N * nmethod p) :=
    match j with JArr [v; m] => match de_ref v, de_method m with Some v, Some m => Some (v, m) | _, _ => None end | _ => None end.
  Definition de_machine (j : json) : option (nmach p) :=
    match read_struct [txt "constraints"; txt "bus_interactions"; txt "derived_columns"] j with
    | Some [c; b; d] => match de_list de_expr c, de_list de_bus b, de_list de_derived d with Some c, Some b, Some d => Some (mkNM c b d) | _, _, _ => None end
    | _ => None
    end.
  (** Readers (serde_json, serde_cbor) give up on documents that are nested too deeply. *)
  Fixpoint depth (j : json) : nat :=
    match j with
    | JNum _ | JStr _ => 0
    | JArr l => S (fold_right Nat.max 0 (map depth l))
    | JObj l => S (fold_right Nat.max 0 (map (fun f => depth (snd f)) l))
    end.
  Definition load {A} (limit : nat) (de : json -> option A) (j : json) : option A := if depth j <=? limit then de j else None.

  (** ** Exporting constraint systems *)
  Variable name_of : var -> text.
  (** grouped_expression.rs 898-915. *)
  Definition ser_linear (vc : var * F p) : json :=
    if is_one (snd vc) then ser_ref (name_of (fst vc)) (vid (fst vc)) else JArr [ser_number (snd vc); JStr (txt "*"); ser_ref (name_of (fst vc)) (vid (fst vc))].
  (** 887-896 [SumSerializer], from the last element; here from the first. *)
  Definition ser_sum (l : list json) : option json := match l with [] => None | x :: l => Some (fold_left (fun a y => JArr [a; JStr (txt "+"); y]) l x) end.
  (** 862-873, with 275-288 [into_summands]. *)
  Fixpoint ser_grouped (e : gexp p) : json :=
    match e with
    | GE q l c =>
      let summands := map (fun lr => JArr [ser_grouped (fst lr); JStr (txt "*"); ser_grouped (snd lr)]) q ++ map ser_linear l ++ (if is_zero c then [] else [ser_number c]) in
      match ser_sum summands with Some j => j | None => ser_number 0%F end
    end.
  Definition ser_cmethod (m : cmethod p) : json :=
    match m with CConst k => JObj [(txt "Constant", ser_number k)] | CQuot a b => JObj [(txt "QuotientOrZero", JArr [ser_grouped a; ser_grouped b])] end.
  (** constraint_system.rs 18-31, 192-205; algebraic_constraint/mod.rs 14-19. *)
  Definition ser_system (c : csys p) : json :=
    JObj [(txt "constraints", JArr (map ser_grouped (algs c)));
          (txt "bus_interactions", JArr (map (fun b => JObj [(txt "id", ser_grouped (bus_id b)); (txt "mult", ser_grouped (mult b)); (txt "args", JArr (map ser_grouped (payload b)))]) (buses c)));
          (txt "derived_columns", JArr (map (fun d => JArr [ser_ref (name_of (fst d)) (vid (fst d)); ser_cmethod (snd d)]) (derived c)))].
End JsonModel.

(** ** Printing *)
(** A printed text as a list of words; names of columns are words, and a field element is printed as a word
    without a sign. *)
Inductive token (p : positive) := TName (name : text) | TNumber (k : F p) | TOp (o : aop) | TOpen | TClose.
Arguments TName {p}. Arguments TNumber {p}. Arguments TOp {p}. Arguments TOpen {p}. Arguments TClose {p}.
Section Printing.
  Context {p : positive}.
  (** display.rs 13-38. *)
  Definition op_precedence (o : aop) : nat := match o with OMul => 3 | OAdd | OSub => 4 end.
  Definition precedence (e : nexpr p) : option nat := match e with NNeg _ => Some 1 | NBin _ o _ => Some (op_precedence o) | _ => None end.
  Definition parens (b : bool) (l : list (token p)) : list (token p) := if b then TOpen :: l ++ [TClose] else l.
  (** display.rs 40-81, with the references printed by their names (expression.rs 22-26); the sign of a negation is
      the same word as the operator. *)
  Fixpoint display (e : nexpr p) : list (token p) :=
    match e with
    | NRef name _ => [TName name]
    | NNum k => [TNumber k]
    | NBin l o r =>
      parens (match precedence l with Some x => op_precedence o <? x | None => false end) (display l) ++ [TOp o] ++
      parens (match precedence r with Some x => op_precedence o <=? x | None => false end) (display r)
    | NNeg e => TOp OSub :: parens (match precedence e with Some x => 1 <? x | None => false end) (display e)
    end.

  (** grouped_expression.rs 846-858. *)
  Definition signed_number (k : F p) : bool * list (token p) := if is_in_lower_half k then (false, [TNumber k]) else (true, [TNumber (fopp k)]).
  Variable name_of : var -> text.
  (** 822-832. *)
  Definition signed_linear (vc : var * F p) : bool * list (token p) :=
    let (v, k) := vc in
    if is_one k then (false, [TName (name_of v)])
    else if feqb k (fopp 1%F) then (true, [TName (name_of v)])
    else let (sign, c) := signed_number k in (sign, c ++ [TOp OMul; TName (name_of v)]).
  Definition join (a b : bool * list (token p)) : bool * list (token p) :=
    (fst a, snd a ++ [TOp (if Bool.eqb (fst a) (fst b) then OAdd else OSub)] ++ snd b).
  (** 808-844 [to_signed_string]. *)
  Fixpoint to_signed (e : gexp p) : bool * list (token p) :=
    match e with
    | GE q l c =>
      let parts := map (fun lr => let (sa, a) := to_signed (fst lr) in let (sb, b) := to_signed (snd lr) in
                                   (xorb sa sb, parens true a ++ [TOp OMul] ++ parens true b)) q
                   ++ map signed_linear l ++ (if is_zero c then [] else [signed_number c]) in
      match parts with [] => (false, [TNumber 0%F]) | x :: r => fold_left join r x end
    end.
  (** 796-805. *)
  Definition display_grouped (e : gexp p) : list (token p) :=
    let (sign, s) := to_signed e in if sign then TOp OSub :: parens true s else s.
End Printing.
