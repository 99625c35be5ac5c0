(** Model of constraint-solver/src/range_constraint.rs.

    [T::Integer] is modelled by [N]; the only additions and shifts performed on it by
    this file are guarded by a comparison with the modulus, so machine overflow
    cannot occur (see [RangeFacts.combine_sum_no_overflow]).  [WordModel.v] has the same
    operations on integers of a fixed size, and [PropsWord.C59_ranges] shows that they agree. *)
From Coq Require Import NArith Bool List.
From Verif Require Import Field.
Import ListNotations.
Local Open Scope N_scope.

(** range_constraint.rs 38-47 [struct RangeConstraint]. *)
Record rc (p : positive) := mkRC { mask : N; rmin : F p; rmax : F p }.
Arguments mkRC {p}. Arguments mask {p}. Arguments rmin {p}. Arguments rmax {p}.

Section RangeModel.
  Context {p : positive}.
  Local Notation P := (N.pos p).

  (** [T::from(-1)]. *)
  Definition fminus1 : F p := fopp fone.
  Definition fmin_ (a b : F p) : F p := if fleb a b then a else b.
  Definition fmax_ (a b : F p) : F p := if fleb a b then b else a.

  (** range_constraint.rs 346-355 [mask_from_bits].  Simplification: the assertion
      [bits <= NUM_BITS] is not modelled, [N] has no width; every internal call
      passes the bit length of a field element. *)
  Definition mask_from_bits (bits : N) : N := N.ones bits.

  (** number/src/traits.rs 52 [LargeInt::num_bits] (width minus leading zeros). *)
  Definition num_bits (n : N) : N := N.size n.

  (** range_constraint.rs 58-66 [from_mask]. *)
  Definition from_mask (m : N) : rc p :=
    mkRC m 0%F (of_N (N.min m (val fminus1))).

  (** range_constraint.rs 52-54 [from_max_bit]. *)
  Definition from_max_bit (b : N) : rc p := from_mask (mask_from_bits (b + 1)).

  (** range_constraint.rs 69-75 [from_value]. *)
  Definition from_value (v : F p) : rc p := mkRC (val v) v v.

  (** range_constraint.rs 93-95 [unconstrained], with [from_range(0, -1)] unfolded. *)
  Definition unconstrained : rc p :=
    mkRC (mask_from_bits (num_bits (val fminus1))) 0%F fminus1.

  (** range_constraint.rs 83-90 [from_range]. *)
  Definition from_range (mn mx : F p) : rc p :=
    mkRC (if fleb mn mx then mask_from_bits (num_bits (val mx)) else mask unconstrained) mn mx.

  (** range_constraint.rs 337-343 [range_width] (free function). *)
  Definition range_width_of (mn mx : F p) : N :=
    if feqb (mx + 1)%F mn then P else val (mx - mn + 1)%F.

  (** range_constraint.rs 122-124 [range_width]; 127-129 [size_estimate]. *)
  Definition range_width (r : rc p) : N := range_width_of (rmin r) (rmax r).
  Definition size_estimate (r : rc p) : N := range_width r.

  (** range_constraint.rs 99-102 [is_unconstrained]. *)
  Definition is_unconstrained (r : rc p) : bool :=
    (range_width r =? range_width unconstrained)
    && (N.land (mask r) (mask unconstrained) =? mask unconstrained).

  (** The interval part of range_constraint.rs 131-135. *)
  Definition in_interval (mn mx v : F p) : bool :=
    if fleb mn mx then fleb mn v && fleb v mx else fleb mn v || fleb v mx.

  (** range_constraint.rs 131-139 [allows_value]. *)
  Definition allows_value (r : rc p) (v : F p) : bool :=
    in_interval (rmin r) (rmax r) v && (N.land (val v) (mask r) =? val v).

  (** range_constraint.rs 144-169 [combine_sum]. *)
  Definition combine_sum (a b : rc p) : rc p :=
    let m := if P <=? mask a + mask b then mask unconstrained
             else N.lor (N.lor (mask a + mask b) (mask a)) (mask b) in
    let '(mn, mx) :=
      if range_width a + range_width b <=? range_width unconstrained
      then ((rmin a + rmin b)%F, (rmax a + rmax b)%F)
      else (rmin unconstrained, rmax unconstrained) in
    let m := if fleb mn mx then N.land m (mask (from_range mn mx)) else m in
    mkRC m mn mx.

  (** range_constraint.rs 298-304 [try_to_single_value]. *)
  Definition try_to_single_value (r : rc p) : option (F p) :=
    if feqb (rmin r) (rmax r) && (N.land (val (rmin r)) (mask r) =? val (rmin r))
    then Some (rmin r) else None.

  (** number/src/lib.rs 35-38 [log2_exact]. *)
  Definition log2_exact (n : N) : option N :=
    if negb (n =? 0) && (n =? 2 ^ N.log2 n) then Some (N.log2 n) else None.

  (** range_constraint.rs 361-371 [range_multiple]. *)
  Definition range_multiple (mn mx f : F p) : F p * F p :=
    if range_width_of mn mx * val f <=? P then ((mn * f)%F, (mx * f)%F) else (1%F, 0%F).

  (** range_constraint.rs 280-295 [multiple]. *)
  Definition multiple (r : rc p) (f : F p) : rc p :=
    let m := match log2_exact (val f) with
             | Some e => if N.shiftl (mask r) e <? P then Some (N.shiftl (mask r) e) else None
             | None => None
             end in
    let '(mn, mx) := if is_in_lower_half f then range_multiple (rmin r) (rmax r) f
                     else range_multiple (- rmax r)%F (- rmin r)%F (- f)%F in
    mkRC (match m with Some m => m | None => mask (from_range mn mx) end) mn mx.

  (** range_constraint.rs 174-188 [combine_product]. *)
  Definition combine_product (a b : rc p) : rc p :=
    match try_to_single_value b with
    | Some v => multiple a v
    | None =>
      match try_to_single_value a with
      | Some v => multiple b v
      | None =>
        if fleb (rmin a) (rmax a) && fleb (rmin b) (rmax b)
           && (val (rmax a) * val (rmax b) <? P)
        then from_range (rmin a * rmin b)%F (rmax a * rmax b)%F
        else unconstrained
      end
    end.

  (** range_constraint.rs 192-205 [square]. *)
  Definition square (a : rc p) : rc p :=
    let max_abs := fmax_ (- rmin a)%F (rmax a) in
    if fltb (rmax a) (rmin a) && (val max_abs * val max_abs <? P)
    then from_range 0%F (max_abs * max_abs)%F
    else combine_product a a.

  (** range_constraint.rs 410-412 [shifted_interval]. *)
  Definition shifted_interval (i : F p * F p) (s : F p) : F p * F p :=
    ((fst i + s)%F, (snd i + s)%F).

  (** range_constraint.rs 379-408 [interval_intersection]. *)
  Definition try_shift (a b : F p * F p) (s : F p) : option (F p * ((F p * F p) * (F p * F p))) :=
    let a' := shifted_interval a (- s)%F in
    let b' := shifted_interval b (- s)%F in
    if fleb (fst a') (snd a') && fleb (fst b') (snd b') then Some (s, (a', b')) else None.
  Definition interval_intersection (a b : F p * F p) : option (F p * F p) :=
    match (match try_shift a b (fst a) with Some r => Some r | None => try_shift a b (fst b) end) with
    | Some (s, (a', b')) =>
      let i := (fmax_ (fst a') (fst b'), fmin_ (snd a') (snd b')) in
      if fleb (fst i) (snd i) then Some (shifted_interval i s) else None
    | None =>
      if range_width_of (fst a) (snd a) <=? range_width_of (fst b) (snd b) then Some a else Some b
    end.

  (** range_constraint.rs 213-244 [conjunction]. *)
  Definition conjunction (a b : rc p) : rc p :=
    let m := N.land (mask a) (mask b) in
    let '(mn, mx) := match interval_intersection (rmin a, rmax a) (rmin b, rmax b) with
                     | Some i => i | None => (0%F, 0%F) end in
    let '(mn, mx) :=
      if m <? P then
        if fleb mn mx then (fmin_ (of_N m) mn, fmin_ (of_N m) mx)
        else if m <? val mn then (0%F, fmin_ (of_N m) mx)
        else (mn, mx)
      else (mn, mx) in
    let m := if fleb mn mx then N.land m (mask (from_range mn mx)) else m in
    mkRC m mn mx.

  (** range_constraint.rs 252-275 [disjunction]. *)
  Definition disjunction (a b : rc p) : rc p :=
    let m := N.lor (mask a) (mask b) in
    match fleb (rmin a) (rmax a), fleb (rmin b) (rmax b) with
    | true, true => mkRC m (fmin_ (rmin a) (rmin b)) (fmax_ (rmax a) (rmax b))
    | true, false | false, true => from_mask m
    | false, false =>
      let mn := fmin_ (rmin a) (rmin b) in
      let mx := fmax_ (rmax a) (rmax b) in
      if fleb mn mx then from_mask m else mkRC m mn mx
    end.

  (** range_constraint.rs 308-317 [is_disjoint]. *)
  Definition is_disjoint (a b : rc p) : bool :=
    let zero_allowed := allows_value a 0%F && allows_value b 0%F in
    let masks_disjoint := negb zero_allowed && (N.land (mask a) (mask b) =? 0) in
    let intervals_disjoint :=
      match interval_intersection (rmin a, rmax a) (rmin b, rmax b) with
      | None => true | Some _ => false end in
    masks_disjoint || intervals_disjoint.

  (** [0..n] as a list of [N]. *)
  Definition N_range (n : N) : list N := map N.of_nat (seq 0 (N.to_nat n)).

  (** range_constraint.rs 322-326 [allowed_values]; [None] is the panic of
      [try_into_u32().unwrap()]. *)
  Definition allowed_values (r : rc p) : option (list (F p)) :=
    if range_width r <? 2 ^ 32
    then Some (filter (allows_value r)
                 (map (fun o => (rmin r + of_N o)%F) (N_range (range_width r))))
    else None.

  (** range_constraint.rs 414-421 [Neg]. *)
  Definition rc_neg (r : rc p) : rc p := from_range (- rmax r)%F (- rmin r)%F.

  (** Derived [PartialEq]. *)
  Definition rc_eqb (a b : rc p) : bool :=
    (mask a =? mask b) && feqb (rmin a) (rmin b) && feqb (rmax a) (rmax b).
End RangeModel.
