(** The Goldilocks field of the number crate: number/src/goldilocks.rs.

    Machine words are numbers of [N] below [2^64]. A function returns [None] where
    the code panics: a checked operation of a build with overflow checks leaves the
    range of the word, a [debug_assert!] or an [unwrap] fails; and where it would be
    undefined behaviour ([assume] of a false condition, line 288-295). In a release
    build the checked operations wrap instead; the theorems show that no check ever
    fails, so both builds compute the same. *)
From Coq Require Import NArith ZArith Bool List.
From Verif Require Import Fermat.
Import ListNotations.
Local Open Scope N_scope.

Notation "'let?' x ':=' a 'in' b" :=
  (match a with Some x => b | None => None end)
  (at level 200, x pattern, a at level 100, b at level 200).

(** ** Words of the machine (Rust's core library) *)

Definition W64 : N := 2 ^ 64.

(** [u64::overflowing_add] and [u64::overflowing_sub]. *)
Definition overflowing_add (x y : N) : N * bool := ((x + y) mod W64, W64 <=? x + y).
Definition overflowing_sub (x y : N) : N * bool := ((x + W64 - y) mod W64, x <? y).
(** [+], [-], [*] on [u64]. *)
Definition add64 (x y : N) : option N := if x + y <? W64 then Some (x + y) else None.
Definition sub64 (x y : N) : option N := if y <=? x then Some (x - y) else None.
Definition mul64 (x y : N) : option N := if x * y <? W64 then Some (x * y) else None.
(** [*] on [u128]. *)
Definition mul128 (x y : N) : option N := if x * y <? 2 ^ 128 then Some (x * y) else None.
(** [b as u64]. *)
Definition bit (b : bool) : N := if b then 1 else 0.
(** [n as u64] for a signed [n]. *)
Definition as_u64 (n : Z) : N := Z.to_N (n mod 2 ^ 64).
(** [u64::wrapping_add]. *)
Definition wrapping_add (x y : N) : N := (x + y) mod W64.
(** [assert!], [debug_assert!]. *)
Definition check {A} (b : bool) (k : option A) : option A := if b then k else None.

(** ** Constants, lines 22 and 43 *)

Definition EPSILON : N := 2 ^ 32 - 1.
Definition ORDER : N := 18446744069414584321. (* 0xFFFFFFFF00000001 *)

(** ** Arithmetic *)

(** [wrap], lines 132-139. *)
Definition wrap (x : N) : option N := if ORDER <=? x then sub64 x ORDER else Some x.

(** [Neg], lines 141-152. *)
Definition gl_neg (x : N) : option N := if x =? 0 then Some 0 else sub64 ORDER x.

(** [Add], lines 154-165. *)
Definition gl_add (x y : N) : option N :=
  let '(sum, over) := overflowing_add x y in
  let? k := mul64 (bit over) EPSILON in
  let '(sum, over) := overflowing_add sum k in
  check (negb over) (wrap sum).

(** [Sub], lines 174-185. *)
Definition gl_sub (x y : N) : option N :=
  let '(diff, under) := overflowing_sub x y in
  let? k := mul64 (bit under) EPSILON in
  let '(diff, under) := overflowing_sub diff k in
  check (negb under) (wrap diff).

(** [assume], lines 286-295: a false condition is undefined behaviour. *)
Definition assume {A} (b : bool) (k : option A) : option A := if b then k else None.

(** [add_no_canonicalize_trashing_input] on x86-64, lines 222-247: [add] sets the
    carry flag, [sbb] subtracts the low half of the second register and the flag
    from that low half and clears the high half. *)
Definition add_no_canonicalize_x86 (x y : N) : option N :=
  let '(res_wrapped, carry) := overflowing_add x y in
  let low := y mod 2 ^ 32 in
  let adjustment := (2 ^ 32 + low - low - bit carry) mod 2 ^ 32 in
  assume (negb (x =? 0) || ((res_wrapped =? y) && (adjustment =? 0)))
    (assume (negb (y =? 0) || ((res_wrapped =? x) && (adjustment =? 0)))
       (add64 res_wrapped adjustment)).

(** The same elsewhere, lines 249-255. *)
Definition add_no_canonicalize_other (x y : N) : option N :=
  let '(res_wrapped, carry) := overflowing_add x y in
  let? k := mul64 EPSILON (bit carry) in
  add64 res_wrapped k.

(** The target the crate is compiled for. *)
Inductive target := X86_64 | Other.
Definition add_no_canonicalize (t : target) : N -> N -> option N :=
  match t with X86_64 => add_no_canonicalize_x86 | Other => add_no_canonicalize_other end.

(** [split], lines 281-284. *)
Definition split (x : N) : N * N := (x mod W64, N.shiftr x 64 mod W64).

(** [reduce128], lines 257-273. *)
Definition reduce128 (t : target) (x : N) : option N :=
  let '(x_lo, x_hi) := split x in
  let x_hi_hi := N.shiftr x_hi 32 in
  let x_hi_lo := N.land x_hi EPSILON in
  let '(t0, borrow) := overflowing_sub x_lo x_hi_hi in
  let? t0 := (if borrow then sub64 t0 EPSILON else Some t0) in
  let? t1 := mul64 x_hi_lo EPSILON in
  let? t2 := add_no_canonicalize t t0 t1 in
  wrap t2.

(** [Mul], lines 194-200. *)
Definition gl_mul (t : target) (x y : N) : option N :=
  let? m := mul128 x y in reduce128 t m.

(** [square], lines 96-98. *)
Definition gl_square (t : target) (x : N) : option N := gl_mul t x x.

(** [exp_power_of_2], lines 100-106. *)
Fixpoint exp_power_of_2 (t : target) (x : N) (power_log : nat) : option N :=
  match power_log with
  | O => Some x
  | S n => let? r := gl_square t x in exp_power_of_2 t r n
  end.

(** [exp_acc], lines 275-279. *)
Definition exp_acc (t : target) (n : nat) (base tail : N) : option N :=
  let? b := exp_power_of_2 t base n in gl_mul t b tail.

(** [try_inverse], lines 45-94. The outer option is a panic, the inner one is the
    result of the function. *)
Definition try_inverse (t : target) (x : N) : option (option N) :=
  if x =? 0 then Some None else
  let? s := gl_square t x in let? t2 := gl_mul t s x in
  let? s := gl_square t t2 in let? t3 := gl_mul t s x in
  let? t6 := exp_acc t 3 t3 t3 in
  let? t12 := exp_acc t 6 t6 t6 in
  let? t24 := exp_acc t 12 t12 t12 in
  let? t30 := exp_acc t 6 t24 t6 in
  let? s := gl_square t t30 in let? t31 := gl_mul t s x in
  let? t63 := exp_acc t 32 t31 t31 in
  let? s := gl_square t t63 in let? r := gl_mul t s x in
  Some (Some r).

(** [Div], lines 208-215. *)
Definition gl_div (t : target) (x y : N) : option N :=
  let? i := try_inverse t y in
  let? i := i in
  gl_mul t x i.

(** [pow], lines 341-358. The loop halves the exponent, a [u64], so 64 iterations
    are enough; running out of them is [None]. *)
Fixpoint pow_loop (t : target) (fuel : nat) (exp x r : N) : option N :=
  match fuel with
  | O => None
  | S fuel =>
      if 2 <=? exp then
        let? r := (if negb (N.land exp 1 =? 0) then gl_mul t r x else Some r) in
        let? x := gl_square t x in
        pow_loop t fuel (N.shiftr exp 1) x r
      else gl_mul t r x
  end.
Definition gl_pow (t : target) (x exp : N) : option N :=
  if exp =? 0 then Some 1
  else if exp =? 1 then Some x
  else pow_loop t 64 exp x 1.

(** ** Conversions *)

(** [from_canonical_u64], lines 108-112. *)
Definition from_canonical_u64 (n : N) : option N := check (n <? ORDER) (Some n).
(** [from_noncanonical_i64], lines 114-124; [From<i64>] and [From<i32>], 410-420. *)
Definition gl_from_i64 (n : Z) : option N :=
  from_canonical_u64 (if (n <? 0)%Z then wrapping_add ORDER (as_u64 n) else as_u64 n).
(** [From<u64>], 428-433, and [From<GLLargeInt>], 441-446. *)
Definition gl_from_u64 (n : N) : option N := wrap n.
(** [From<u32>], 422-426. *)
Definition gl_from_u32 (n : N) : option N := from_canonical_u64 n.
(** [From<bool>], 404-408. *)
Definition gl_from_bool (b : bool) : option N := Some (bit b).
(** [From<BigUint>], 435-439: [u64::try_from] fails above the word. *)
Definition gl_from_big (n : N) : option N :=
  let? w := (if n <? W64 then Some n else None) in gl_from_u64 w.
(** [to_integer], 332-334; [to_canonical_u64], 126-129. *)
Definition gl_to_integer (x : N) : N := x.
(** [checked_from], 377-383; the outer option is a panic. *)
Definition gl_checked_from (n : N) : option (option N) :=
  if n <? ORDER then let? x := gl_from_big n in Some (Some x) else Some None.
(** [from_str_radix], 368-375, after the digits have been read as the number [n]:
    reading fails above the word. [Some None] is [Err]. *)
Definition gl_from_str_radix (n : N) : option (option N) :=
  if negb (n <? W64) then Some None
  else if n <? ORDER then let? x := from_canonical_u64 n in Some (Some x) else Some None.
(** [FromStr], 476-487, after the digits have been read. *)
Definition gl_from_str (n : N) : option (option N) :=
  if ORDER <=? n then Some None else let? x := gl_from_big n in Some (Some x).

(** Little-endian bytes: [u64::to_le_bytes], [BigUint::from_le_bytes]. *)
Fixpoint to_le_bytes (len : nat) (n : N) : list N :=
  match len with
  | O => []
  | S len => n mod 256 :: to_le_bytes len (n / 256)
  end.
Fixpoint from_le_bytes (l : list N) : N :=
  match l with
  | [] => 0
  | b :: l => b + 256 * from_le_bytes l
  end.
(** [to_bytes_le], 360-362, and [from_bytes_le], 364-366. *)
Definition gl_to_bytes_le (x : N) : list N := to_le_bytes 8 x.
Definition gl_from_bytes_le (l : list N) : option N :=
  let? n := (let n := from_le_bytes l in if n <? W64 then Some n else None) in
  let? w := wrap n in gl_from_u64 w.

(** [is_in_lower_half], 385-387. *)
Definition gl_is_in_lower_half (x : N) : bool := x <=? (ORDER - 1) / 2.

(** [to_signed_integer], number/src/traits.rs 190-201, for a field with modulus [m]
    whose lower half is decided by [low]. *)
Definition to_signed_integer (m : N) (low : N -> bool) (x : N) : Z :=
  if low x then Z.of_N x else (Z.of_N x - Z.of_N m)%Z.

(** The derived [Deserialize] of the wrapper around [u64], lines 24-40: any word. *)
Definition gl_deserialize (w : N) : option N := if w <? W64 then Some w else None.
Definition gl_serialize (x : N) : N := x.
(** The derived equality and [is_zero], 457-459. *)
Definition gl_eqb (x y : N) : bool := x =? y.
Definition gl_is_zero (x : N) : bool := x =? 0.
