(** Conversions of the 31-bit fields (number/src/plonky3_macros.rs), exact base-two
    logarithms (number/src/lib.rs) and the CSV files of columns
    (number/src/serialize.rs).

    An element is its canonical value, a number below the modulus [p]. What the code
    takes from the plonky3 library is modelled by its contract:
    [from_canonical_checked] returns the element of value [n] when [n < p] and nothing
    otherwise, [as_canonical_u32] returns the canonical value. [None] is a panic. *)
From Coq Require Import NArith ZArith Bool List.
From Verif Require Import GoldModel.
Import ListNotations.
Local Open Scope N_scope.

Section Small.
  (** [<$p3_type>::order()]. *)
  Variable p : N.

  (** The contract of the library. *)
  Definition p3_from_canonical_checked (n : N) : option N := if n <? p then Some n else None.

  (** [from_canonical_u32], lines 51-54; [From<u32>], 143-147; [From<u64>], 149-154;
      [From<BBLargeInt>], 184-189: [unwrap]. *)
  Definition sm_from (n : N) : option N := p3_from_canonical_checked n.
  (** [From<bool>], 137-141. *)
  Definition sm_from_bool (b : bool) : option N := Some (bit b).
  (** [From<i64>], 156-170, and [From<i32>], 172-176. *)
  Definition sm_from_i64 (n : Z) : option N :=
    sm_from (if (n <? 0)%Z then wrapping_add p (as_u64 n) else as_u64 n).
  (** [From<BigUint>], 178-182. *)
  Definition sm_from_big (n : N) : option N :=
    let? w := (if n <? W64 then Some n else None) in sm_from w.
  (** [to_integer], 79-81; [to_degree], 75-77. *)
  Definition sm_to_integer (x : N) : N := x.
  (** [to_bytes_le], 93-95, and [from_bytes_le], 97-100: the slice must have four
      bytes. *)
  Definition sm_to_bytes_le (x : N) : list N := to_le_bytes 4 x.
  Definition sm_from_bytes_le (l : list N) : option N :=
    if Nat.eqb (length l) 4 then sm_from (from_le_bytes l) else None.
  (** [from_str_radix], 102-106, after the digits have been read: reading into a
      [u32] fails above [2^32]. The inner [None] is [Err]. *)
  Definition sm_from_str_radix (n : N) : option (option N) :=
    if negb (n <? 2 ^ 32) then Some None else let? x := sm_from n in Some (Some x).
  (** [checked_from], 108-114: [u32::try_from(..).unwrap()] after the comparison. *)
  Definition sm_checked_from (n : N) : option (option N) :=
    if n <? p then
      let? w := (if n <? 2 ^ 32 then Some n else None) in
      let? x := sm_from w in Some (Some x)
    else Some None.
  (** [FromStr], 219-230, after the digits have been read. *)
  Definition sm_from_str (n : N) : option (option N) :=
    if p <=? n then Some None else let? x := sm_from_big n in Some (Some x).
  (** [is_in_lower_half], 116-119. *)
  Definition sm_is_in_lower_half (x : N) : bool := x <=? (p - 1) / 2.
  (** serde: [into = "u32", from = "u32"], line 41. *)
  Definition sm_serialize (x : N) : N := x.
  Definition sm_deserialize (w : N) : option N := if w <? 2 ^ 32 then sm_from w else None.
End Small.

(** [From<u64> for BBLargeInt], lines 390-394: [value as u32]. *)
Definition bb_large_from_u64 (n : N) : N := n mod 2 ^ 32.

(** ** [log2_exact], number/src/lib.rs 34-38 *)

(** [UBig::trailing_zeros]: nothing for zero. *)
Fixpoint trailing_zeros_pos (n : positive) : N :=
  match n with
  | xO n => N.succ (trailing_zeros_pos n)
  | _ => 0
  end.
Definition trailing_zeros (n : N) : option N :=
  match n with 0 => None | N.pos n => Some (trailing_zeros_pos n) end.
Definition log2_exact (n : N) : option N :=
  let? zeros := trailing_zeros n in
  if n =? N.shiftl 1 zeros then Some zeros else None.

(** ** Numerals: [format!] and reading of digits (Rust's core and ibig libraries) *)

(** Texts are lists of character codes. *)
Definition text := list N.

(** Digits, most significant first; [fuel] digits at most. *)
Fixpoint digits_of (base : N) (fuel : nat) (n : N) (acc : text) : text :=
  match fuel with
  | O => acc
  | S fuel =>
      let d := n mod base in
      let c := if d <? 10 then 48 + d else 87 + d in
      if n / base =? 0 then c :: acc else digits_of base fuel (n / base) (c :: acc)
  end.
(** [format!("{}")] and [format!("{:x}")]. *)
Definition print (base n : N) : text := digits_of base (S (N.size_nat n)) n [].

Definition digit_value (c : N) : option N :=
  if (48 <=? c) && (c <=? 57) then Some (c - 48)
  else if (97 <=? c) && (c <=? 122) then Some (c - 87)
  else if (65 <=? c) && (c <=? 90) then Some (c - 55)
  else None.
(** Unsigned numerals with at least one digit; the sign [+] that Rust accepts and the
    underscores that ibig accepts are left out. *)
Fixpoint read_digits (base : N) (s : text) (acc : N) : option N :=
  match s with
  | [] => Some acc
  | c :: s =>
      let? d := digit_value c in
      if d <? base then read_digits base s (acc * base + d) else None
  end.
Definition read (base : N) (s : text) : option N :=
  match s with [] => None | _ => read_digits base s 0 end.

(** ** CSV files, number/src/serialize.rs 14-92

    A file is the list of its records, each a list of cells: the csv library's
    quoting is not modelled. The field is given by its conversions from numbers
    (already read) and its negation. *)
Inductive render_mode := SignedBase10 | UnsignedBase10 | Hex.

(** [ROW_NAME], line 22: "Row". *)
Definition ROW_NAME : text := [82; 111; 119].

Definition text_eqb (s t : text) : bool := if list_eq_dec N.eq_dec s t then true else false.

(** Lines 44-51. [{v}] prints the canonical value for every field of the crate
    (goldilocks.rs 37, plonky3_macros.rs 36, macros.rs 521-526). *)
Definition render (mode : render_mode) (v : N) : text :=
  match mode with
  | SignedBase10 => print 10 v
  | UnsignedBase10 => print 10 v
  | Hex => 48 :: 120 :: print 16 v
  end.

Definition max_len (polys : list (text * list N)) : option nat :=
  match polys with
  | [] => None
  | _ => Some (fold_right (fun c m => Nat.max (length (snd c)) m) O polys)
  end.

(** [write_polys_csv_file], lines 24-58. *)
Definition write_row (mode : render_mode) (polys : list (text * list N)) (i : nat) : list text :=
  print 10 (N.of_nat i) ::
  map (fun c => match nth_error (snd c) i with Some v => render mode v | None => [] end) polys.
Definition write_csv (mode : render_mode) (polys : list (text * list N)) : option (list (list text)) :=
  if forallb (fun c => negb (text_eqb (fst c) ROW_NAME)) polys then
    let? n := max_len polys in
    Some ((ROW_NAME :: map fst polys) :: map (write_row mode polys) (seq 0 n))
  else None.

(** [str::strip_prefix]. *)
Fixpoint strip_prefix (pre s : text) : option text :=
  match pre, s with
  | [], s => Some s
  | c :: pre, d :: s => if c =? d then strip_prefix pre s else None
  | _, [] => None
  end.

Section Read.
  Variable from_str_radix16 : N -> option (option N).
  Variable from_str : N -> option (option N).
  Variable neg : N -> option N.

  (** Lines 73-82; [Some None] is a skipped cell. White space does not occur. *)
  Definition read_cell (s : text) : option (option N) :=
    match s with
    | [] => Some None
    | _ =>
        match strip_prefix [48; 120] s, strip_prefix [45] s with
        | Some s, _ =>
            let? n := read 16 s in let? r := from_str_radix16 n in let? v := r in Some (Some v)
        | None, Some s =>
            let? n := read 10 s in let? r := from_str n in let? v := r in
            let? v := neg v in Some (Some v)
        | None, None => let? n := read 10 s in let? r := from_str n in let? v := r in Some (Some v)
        end
    end.

  (** Lines 71-84: one record; [polys[idx]] panics past the headers. *)
  Fixpoint read_record (polys : list (text * list N)) (record : list text) : option (list (text * list N)) :=
    match record with
    | [] => Some polys
    | s :: record =>
        match polys with
        | [] => let? v := read_cell s in
                match v with None => read_record [] record | Some _ => None end
        | (name, l) :: polys =>
            let? v := read_cell s in
            let? polys := read_record polys record in
            Some ((name, match v with Some v => l ++ [v] | None => l end) :: polys)
        end
    end.
  Fixpoint read_records (polys : list (text * list N)) (records : list (list text)) :
    option (list (text * list N)) :=
    match records with
    | [] => Some polys
    | r :: records => let? polys := read_record polys r in read_records polys records
    end.
  (** [read_polys_csv_file], lines 60-92. *)
  Definition read_csv (file : list (list text)) : option (list (text * list N)) :=
    match file with
    | [] => None
    | headers :: records =>
        let? polys := read_records (map (fun n => (n, [])) headers) records in
        Some (filter (fun c => negb (text_eqb (fst c) ROW_NAME)) polys)
    end.
End Read.

(** Reading with the fields of the crate. *)
Definition read_csv_goldilocks := read_csv gl_from_str_radix gl_from_str gl_neg.
(** Negation is the library's: [p - x], zero for zero. *)
Definition sm_neg (p x : N) : option N := Some ((p - x) mod p).
Definition read_csv_small (p : N) := read_csv (sm_from_str_radix p) (sm_from_str p) (sm_neg p).
