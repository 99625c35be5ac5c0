(** Model of the integers that belong to fields (number/src/traits.rs 16-73 [LargeInt]): machine words
    (number/src/plonky3_macros.rs 320-423, number/src/goldilocks.rs 489-592) and lists of limbs (number/src/macros.rs),
    and of constraint-solver/src/range_constraint.rs on top of them.  [RangeModel.v] uses numbers without a size
    instead.  [None] is a panic, and overflows of machine words panic, as in builds with overflow checks. *)
From Coq Require Import NArith Bool List.
From Verif Require Import Field RangeModel.
Import ListNotations.
Local Open Scope N_scope.
Local Notation "'let?' x ':=' e 'in' k" := (match e with Some x => k | None => None end) (at level 200, x pattern, k at level 200).

(** traits.rs 16-73 [LargeInt], together with [modulus], [to_integer] and [From<Integer>] of the field (traits.rs 85-218);
    [number_of] is [to_arbitrary_integer].  Without [from_hex] and printing. *)
Record integers (p : positive) := mkInts {
  int : Type;
  bits : N;
  number_of : int -> N;
  and_ : int -> int -> int; or_ : int -> int -> int; xor_ : int -> int -> int; not_ : int -> int;
  add_ : int -> int -> option int; sub_ : int -> int -> option int;
  shl_ : int -> N -> option int; shr_ : int -> N -> option int;
  zero_ : int; one_ : int; max_ : int; is_zero_ : int -> bool; is_one_ : int -> bool;
  leb_ : int -> int -> bool; eqb_ : int -> int -> bool;
  num_bits_ : int -> N; try_into_u64 : int -> option N; try_into_u32 : int -> option N; from_u64 : N -> int;
  modulus_ : int; to_integer : F p -> int; from_integer : int -> option (F p) }.
Arguments mkInts {p}. Arguments int {p}. Arguments bits {p}. Arguments number_of {p}. Arguments and_ {p}. Arguments or_ {p}. Arguments xor_ {p}. Arguments not_ {p}.
Arguments add_ {p}. Arguments sub_ {p}. Arguments shl_ {p}. Arguments shr_ {p}. Arguments zero_ {p}. Arguments one_ {p}. Arguments max_ {p}. Arguments is_zero_ {p}. Arguments is_one_ {p}.
Arguments leb_ {p}. Arguments eqb_ {p}. Arguments num_bits_ {p}. Arguments try_into_u64 {p}. Arguments try_into_u32 {p}. Arguments from_u64 {p}.
Arguments modulus_ {p}. Arguments to_integer {p}. Arguments from_integer {p}.

(** ** Machine words of [w] bits: [u32] in plonky3_macros.rs 320-423, [u64] in goldilocks.rs 489-592 *)
Section Machine.
  Context {p : positive} (w : N) (wraps : bool).
  (** Leading zeros of a word: the position of the highest bit, searched from the top. *)
  Fixpoint leading_zeros (k : nat) (x : N) : N := match k with O => 0 | S k' => if N.testbit x (N.of_nat k') then 0 else 1 + leading_zeros k' x end.
  (** plonky3_macros.rs 320-423, goldilocks.rs 489-592: derived operators act on the word. *)
  Definition machine_integers : integers p := {|
    int := N; bits := w; number_of := fun x => x;
    and_ := N.land; or_ := N.lor; xor_ := N.lxor; not_ := fun x => 2 ^ w - 1 - x;
    add_ := fun x y => if x + y <? 2 ^ w then Some (x + y) else None;
    sub_ := fun x y => if y <=? x then Some (x - y) else None;
    (* A shift drops high bits; only a shift by too many bits panics. *)
    shl_ := fun x e => if e <? w then Some (N.shiftl x e mod 2 ^ w) else None;
    shr_ := fun x e => if e <? w then Some (N.shiftr x e) else None;
    zero_ := 0; one_ := 1; max_ := 2 ^ w - 1; is_zero_ := fun x => x =? 0; is_one_ := fun x => x =? 1;
    leb_ := N.leb; eqb_ := N.eqb;
    num_bits_ := fun x => w - leading_zeros (N.to_nat w) x;
    try_into_u64 := fun x => Some x;
    (* plonky3_macros.rs 374-376: a [u32] is returned as it is. *)
    try_into_u32 := fun x => if (w <=? 32) || (x <? 2 ^ 32) then Some x else None;
    (* [as u32], plonky3_macros.rs 390-394 *)
    from_u64 := fun x => x mod 2 ^ w;
    modulus_ := N.pos p; to_integer := val;
    (* plonky3_macros.rs 184-189 and 144-148 panic for numbers that are not reduced; goldilocks.rs 441-446 and 133-139 subtract
       the modulus once ([wraps]). *)
    from_integer := fun x => if x <? N.pos p then Some (of_N x) else if wraps then Some (of_N (x - N.pos p)) else None |}.
End Machine.

(** ** Limbs of 64 bits, the least significant first *)
Section Limbs.
  Context {p : positive} (n : nat).
  Local Notation B := (2 ^ 64).
  Fixpoint limbs_value (l : list N) : N := match l with [] => 0 | x :: l => x + B * limbs_value l end.
  Fixpoint to_limbs (k : nat) (x : N) : list N := match k with O => [] | S k => x mod B :: to_limbs k (x / B) end.
  (** macros.rs 93-176: one limb after the other. *)
  Fixpoint limbwise (f : N -> N -> N) (a b : list N) : list N := match a, b with x :: a, y :: b => f x y :: limbwise f a b | _, _ => a end.
  (** ark_ff's [add_with_carry] and [sub_with_borrow] (assumed, as everything said here about ark_ff, whose source is not in the repository); the carry out of the last limb is dropped (macros.rs 178-205). *)
  Fixpoint add_carry (a b : list N) (c : N) : list N := match a, b with x :: a, y :: b => (x + y + c) mod B :: add_carry a b ((x + y + c) / B) | _, _ => a end.
  Fixpoint sub_borrow (a b : list N) (c : N) : list N :=
    match a, b with x :: a, y :: b => (B + x - y - c) mod B :: sub_borrow a b (if x <? y + c then 1 else 0) | _, _ => a end.
  (** macros.rs 217-226: [TryFrom<BigUint>] fails if the number does not fit. *)
  Definition limbs_try_from (x : N) : option (list N) := if x <? B ^ N.of_nat n then Some (to_limbs n x) else None.
  (** The comparison of ark_ff starts with the most significant limb; here on reversed lists. *)
  Fixpoint compare_from_top (a b : list N) : comparison := match a, b with x :: a, y :: b => match x ?= y with Eq => compare_from_top a b | c => c end | _, _ => Eq end.
  Definition limbs_compare (a b : list N) : comparison := compare_from_top (rev a) (rev b).
  (** [num_bits] of ark_ff, on the reversed list. *)
  Fixpoint bits_from_top (l : list N) (total : N) : N :=
    match l with [] => total | x :: l => let z := leading_zeros 64 x in if z =? 64 then bits_from_top l (total - z) else total - z end.
  (** macros.rs 249-256 [try_into_u64]. *)
  Definition limbs_try_u64 (l : list N) : option N := match l with [] => None | x :: l => if forallb (fun y => y =? 0) l then Some x else None end.
  (** macros.rs 35-285 [LargeIntImpl]. *)
  Definition limb_integers : integers p := {|
    int := list N; bits := 64 * N.of_nat n; number_of := limbs_value;
    and_ := limbwise N.land; or_ := limbwise N.lor; xor_ := limbwise N.lxor; not_ := map (fun x => B - 1 - x);
    add_ := fun a b => Some (add_carry a b 0); sub_ := fun a b => Some (sub_borrow a b 0);
    shl_ := fun a e => limbs_try_from (N.shiftl (limbs_value a) e); shr_ := fun a e => limbs_try_from (N.shiftr (limbs_value a) e);
    zero_ := repeat 0 n; one_ := to_limbs n 1; max_ := repeat (B - 1) n; is_zero_ := forallb (fun x => x =? 0);
    is_one_ := fun a => match limbs_compare a (to_limbs n 1) with Eq => true | _ => false end;
    leb_ := fun a b => match limbs_compare a b with Gt => false | _ => true end;
    eqb_ := fun a b => match limbs_compare a b with Eq => true | _ => false end;
    num_bits_ := fun a => bits_from_top (rev a) (64 * N.of_nat n);
    try_into_u64 := limbs_try_u64;
    try_into_u32 := fun a => let? x := limbs_try_u64 a in if x <? 2 ^ 32 then Some x else None;
    from_u64 := to_limbs n;
    modulus_ := to_limbs n (N.pos p); to_integer := fun x => to_limbs n (val x);
    (* macros.rs 279-285: [From<BigInt>] of ark_ff panics if the number is not smaller than the modulus. *)
    from_integer := fun a => if limbs_value a <? N.pos p then Some (of_N (limbs_value a)) else None |}.

  (** macros.rs 382-401 [to_bytes_le], [from_bytes_le]. *)
  Fixpoint bytes_of (k : nat) (x : N) : list N := match k with O => [] | S k => x mod 256 :: bytes_of k (x / 256) end.
  Fixpoint of_bytes (l : list N) : N := match l with [] => 0 | x :: l => x + 256 * of_bytes l end.
  Fixpoint chunks8 (k : nat) (l : list N) : list (list N) := match k with O => [] | S k => firstn 8 l :: chunks8 k (skipn 8 l) end.
  Definition to_bytes_le (x : F p) : list N := flat_map (bytes_of 8) (to_limbs n (val x)).
  Definition from_bytes_le (l : list N) : option (F p) :=
    if Nat.eqb (length l) (n * 8) then from_integer limb_integers (map of_bytes (chunks8 n l)) else None.
End Limbs.

(** ** Range constraints *)
Section RangeWord.
  Context {p : positive} (i : integers p).
  (** range_constraint.rs 38-47. *)
  Record wrc := mkW { wmask : int i; wmin : F p; wmax : F p }.
  Definition ltb_ (a b : int i) : bool := negb (leb_ i b a).

  (** range_constraint.rs 346-355 [mask_from_bits]. *)
  Definition w_mask_from_bits (b : N) : option (int i) :=
    if b =? 0 then Some (zero_ i) else if b <=? bits i then shr_ i (not_ i (zero_ i)) (bits i - b) else None.
  (** 58-66 [from_mask]. *)
  Definition w_from_mask (m : int i) : option wrc :=
    let top := to_integer i fminus1 in
    let? mx := from_integer i (if leb_ i m top then m else top) in Some (mkW m 0%F mx).
  (** 52-54 [from_max_bit]. *)
  Definition w_from_max_bit (b : N) : option wrc := let? m := w_mask_from_bits (b + 1) in w_from_mask m.
  (** 69-75 [from_value]. *)
  Definition w_from_value (v : F p) : wrc := mkW (to_integer i v) v v.
  (** 93-95 [unconstrained], unfolded as in [RangeModel]. *)
  Definition w_unconstrained : option wrc := let? m := w_mask_from_bits (num_bits_ i (to_integer i fminus1)) in Some (mkW m 0%F fminus1).
  (** 83-90 [from_range]. *)
  Definition w_from_range (mn mx : F p) : option wrc :=
    let? m := if fleb mn mx then w_mask_from_bits (num_bits_ i (to_integer i mx)) else let? u := w_unconstrained in Some (wmask u) in
    Some (mkW m mn mx).
  (** 337-343, 122-124 [range_width]. *)
  Definition w_width_of (mn mx : F p) : int i := if feqb (mx + 1)%F mn then modulus_ i else to_integer i (mx - mn + 1)%F.
  Definition w_width (r : wrc) : int i := w_width_of (wmin r) (wmax r).
  (** 99-102 [is_unconstrained]. *)
  Definition w_is_unconstrained (r : wrc) : option bool :=
    let? u := w_unconstrained in
    Some (eqb_ i (w_width r) (w_width u) && eqb_ i (and_ i (wmask r) (wmask u)) (wmask u)).
  (** 131-139 [allows_value]. *)
  Definition w_allows_value (r : wrc) (v : F p) : bool :=
    in_interval (wmin r) (wmax r) v && eqb_ i (and_ i (to_integer i v) (wmask r)) (to_integer i v).
  (** 144-169 [combine_sum]. *)
  Definition w_combine_sum (a b : wrc) : option wrc :=
    let? u := w_unconstrained in
    let? m := if number_of i (modulus_ i) <=? number_of i (wmask a) + number_of i (wmask b) then Some (wmask u)
              else let? s := add_ i (wmask a) (wmask b) in Some (or_ i (or_ i s (wmask a)) (wmask b)) in
    let '(mn, mx) := if number_of i (w_width a) + number_of i (w_width b) <=? number_of i (w_width u)
                     then ((wmin a + wmin b)%F, (wmax a + wmax b)%F) else (wmin u, wmax u) in
    let? m := if fleb mn mx then let? r := w_from_range mn mx in Some (and_ i m (wmask r)) else Some m in
    Some (mkW m mn mx).
  (** 298-304 [try_to_single_value]. *)
  Definition w_single (r : wrc) : option (F p) :=
    if feqb (wmin r) (wmax r) && eqb_ i (and_ i (to_integer i (wmin r)) (wmask r)) (to_integer i (wmin r)) then Some (wmin r) else None.
  (** 361-371 [range_multiple]. *)
  Definition w_range_multiple (mn mx f : F p) : F p * F p :=
    if number_of i (w_width_of mn mx) * number_of i (to_integer i f) <=? number_of i (modulus_ i) then ((mn * f)%F, (mx * f)%F) else (1%F, 0%F).
  (** 280-295 [multiple]. *)
  Definition w_multiple (r : wrc) (f : F p) : option wrc :=
    let? m := match log2_exact (number_of i (to_integer i f)) with
              | Some e => if N.shiftl (number_of i (wmask r)) e <? number_of i (modulus_ i) then let? m := shl_ i (wmask r) e in Some (Some m) else Some None
              | None => Some None
              end in
    let '(mn, mx) := if is_in_lower_half f then w_range_multiple (wmin r) (wmax r) f else w_range_multiple (- wmax r)%F (- wmin r)%F (- f)%F in
    let? m := match m with Some m => Some m | None => let? r := w_from_range mn mx in Some (wmask r) end in
    Some (mkW m mn mx).
  (** 174-188 [combine_product]. *)
  Definition w_combine_product (a b : wrc) : option wrc :=
    match w_single b with
    | Some v => w_multiple a v
    | None =>
      match w_single a with
      | Some v => w_multiple b v
      | None =>
        if fleb (wmin a) (wmax a) && fleb (wmin b) (wmax b)
           && (number_of i (to_integer i (wmax a)) * number_of i (to_integer i (wmax b)) <? number_of i (modulus_ i))
        then w_from_range (wmin a * wmin b)%F (wmax a * wmax b)%F
        else w_unconstrained
      end
    end.
  (** 192-205 [square]. *)
  Definition w_square (a : wrc) : option wrc :=
    let max_abs := fmax_ (- wmin a)%F (wmax a) in
    if fltb (wmax a) (wmin a) && (number_of i (to_integer i max_abs) * number_of i (to_integer i max_abs) <? number_of i (modulus_ i))
    then w_from_range 0%F (max_abs * max_abs)%F
    else w_combine_product a a.
  (** 379-408 [interval_intersection]; only the comparison of the widths uses integers. *)
  Definition w_intersection (a b : F p * F p) : option (F p * F p) :=
    match (match try_shift a b (fst a) with Some r => Some r | None => try_shift a b (fst b) end) with
    | Some (s, (a', b')) =>
      let j := (fmax_ (fst a') (fst b'), fmin_ (snd a') (snd b')) in
      if fleb (fst j) (snd j) then Some (shifted_interval j s) else None
    | None => if leb_ i (w_width_of (fst a) (snd a)) (w_width_of (fst b) (snd b)) then Some a else Some b
    end.
  (** 213-244 [conjunction]. *)
  Definition w_conjunction (a b : wrc) : option wrc :=
    let m := and_ i (wmask a) (wmask b) in
    let '(mn, mx) := match w_intersection (wmin a, wmax a) (wmin b, wmax b) with Some j => j | None => (0%F, 0%F) end in
    let? r :=
      if ltb_ m (modulus_ i) then
        if fleb mn mx then let? x := from_integer i m in Some (fmin_ x mn, fmin_ x mx)
        else if ltb_ m (to_integer i mn) then let? x := from_integer i m in Some (0%F, fmin_ x mx)
        else Some (mn, mx)
      else Some (mn, mx) in
    let '(mn, mx) := r in
    let? m := if fleb mn mx then let? r := w_from_range mn mx in Some (and_ i m (wmask r)) else Some m in
    Some (mkW m mn mx).
  (** 252-275 [disjunction]. *)
  Definition w_disjunction (a b : wrc) : option wrc :=
    let m := or_ i (wmask a) (wmask b) in
    match fleb (wmin a) (wmax a), fleb (wmin b) (wmax b) with
    | true, true => Some (mkW m (fmin_ (wmin a) (wmin b)) (fmax_ (wmax a) (wmax b)))
    | true, false | false, true => w_from_mask m
    | false, false =>
      let mn := fmin_ (wmin a) (wmin b) in
      let mx := fmax_ (wmax a) (wmax b) in
      if fleb mn mx then w_from_mask m else Some (mkW m mn mx)
    end.
  (** 308-317 [is_disjoint]. *)
  Definition w_is_disjoint (a b : wrc) : bool :=
    let zero_allowed := w_allows_value a 0%F && w_allows_value b 0%F in
    let masks_disjoint := negb zero_allowed && is_zero_ i (and_ i (wmask a) (wmask b)) in
    masks_disjoint || match w_intersection (wmin a, wmax a) (wmin b, wmax b) with None => true | Some _ => false end.
  (** 322-326 [allowed_values]. *)
  Definition w_allowed_values (r : wrc) : option (list (F p)) :=
    let? width := try_into_u32 i (w_width r) in
    Some (filter (w_allows_value r) (map (fun o => (wmin r + of_N o)%F) (N_range width))).
  (** 414-421 [Neg]. *)
  Definition w_neg (r : wrc) : option wrc := w_from_range (- wmax r)%F (- wmin r)%F.
  (** 38, derived [PartialEq]. *)
  Definition w_eqb (a b : wrc) : bool := eqb_ i (wmask a) (wmask b) && feqb (wmin a) (wmin b) && feqb (wmax a) (wmax b).
End RangeWord.
Arguments mkW {p i}. Arguments wmask {p i}. Arguments wmin {p i}. Arguments wmax {p i}.
