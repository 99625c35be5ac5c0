(** C59: range constraints on the integers of a fixed size that fields have. *)
From Coq Require Import NArith Bool List Lia.
From Verif Require Import Field Primes Fermat RangeModel WordModel WordSpec WordFacts.
Import ListNotations.
Local Open Scope N_scope.

(** The integers of every field calculate like numbers as long as the result fits: machine words of up to 64 bits, and any
    number of limbs. *)
Theorem C59_words : forall (p : positive) (w : N) (wraps : bool), 0 < w <= 64 -> N.pos p < 2 ^ w -> calculates (machine_integers (p := p) w wraps) (fun x => x < 2 ^ w).
Proof. intros p w wraps. apply machine_calculates. Qed.
Theorem C59_limbs : forall (p : positive) (n : nat), N.pos p < 2 ^ (64 * N.of_nat n) ->
  calculates (limb_integers (p := p) n) (fun l => length l = n /\ Forall (fun x => x < 2 ^ 64) l).
Proof. intros p n. apply limb_calculates. Qed.
(** All fields of the number crate. *)
Theorem C59_fields :
  calculates (words32 babybear) (fun x => x < 2 ^ 32) /\ calculates (words32 koalabear) (fun x => x < 2 ^ 32) /\ calculates (words32 mersenne31) (fun x => x < 2 ^ 32) /\
  calculates (words64 goldilocks) (fun x => x < 2 ^ 64) /\ calculates (limbs4 bn254_modulus) (fun l => length l = 4%nat /\ Forall (fun x => x < 2 ^ 64) l).
Proof.
  split; [apply machine_calculates; [lia|reflexivity]|]. split; [apply machine_calculates; [lia|reflexivity]|]. split; [apply machine_calculates; [lia|reflexivity]|].
  split; [apply machine_calculates; [lia|reflexivity]|]. apply limb_calculates. reflexivity.
Qed.

(** Every operation on range constraints gives the result it has for numbers without a size, and does not panic. *)
Theorem C59_ranges : forall (p : positive) (i : integers p) (valid : int i -> Prop), calculates i valid ->
  (forall m, valid m -> returns i valid (w_from_mask i m) (from_mask (number_of i m))) /\
  (forall b, b < bits i -> returns i valid (w_from_max_bit i b) (from_max_bit b)) /\
  (forall v, stands_for i valid (w_from_value i v) (from_value v)) /\
  (forall mn mx, returns i valid (w_from_range i mn mx) (from_range mn mx)) /\
  returns i valid (w_unconstrained i) unconstrained /\
  (forall a a', stands_for i valid a a' ->
    number_of i (w_width i a) = range_width a' /\
    w_is_unconstrained i a = Some (is_unconstrained a') /\
    (forall v, w_allows_value i a v = allows_value a' v) /\
    w_single i a = try_to_single_value a' /\
    w_allowed_values i a = allowed_values a' /\
    returns i valid (w_square i a) (square a') /\
    returns i valid (w_neg i a) (rc_neg a') /\
    (forall f, returns i valid (w_multiple i a f) (multiple a' f)) /\
    forall b b', stands_for i valid b b' ->
      returns i valid (w_combine_sum i a b) (combine_sum a' b') /\
      returns i valid (w_combine_product i a b) (combine_product a' b') /\
      returns i valid (w_conjunction i a b) (conjunction a' b') /\
      returns i valid (w_disjunction i a b) (disjunction a' b') /\
      w_is_disjoint i a b = is_disjoint a' b' /\
      w_eqb i a b = rc_eqb a' b').
Proof.
  intros p i valid C. split; [exact (w_from_mask_ok i valid C)|]. split; [intros b B; apply (w_from_max_bit_ok i valid C); lia|].
  split; [exact (w_from_value_ok i valid C)|]. split; [exact (w_from_range_ok i valid C)|]. split; [exact (w_unconstrained_ok i valid C)|].
  intros a a' A. split; [apply (w_width_ok i valid C _ _ A)|]. split; [apply (w_is_unconstrained_ok i valid C _ _ A)|].
  split; [intros v; apply (w_allows_value_ok i valid C _ _ _ A)|]. split; [apply (w_single_ok i valid C _ _ A)|]. split; [apply (w_allowed_values_ok i valid C _ _ A)|].
  split; [apply (w_square_ok i valid C _ _ A)|]. split; [apply (w_neg_ok i valid C _ _ A)|]. split; [intros f; apply (w_multiple_ok i valid C _ _ _ A)|].
  intros b b' B. split; [apply (w_combine_sum_ok i valid C _ _ _ _ A B)|]. split; [apply (w_combine_product_ok i valid C _ _ _ _ A B)|].
  split; [apply (w_conjunction_ok i valid C _ _ _ _ A B)|]. split; [apply (w_disjunction_ok i valid C _ _ _ _ A B)|].
  split; [apply (w_is_disjoint_ok i valid C _ _ _ _ A B)|apply (w_eqb_ok i valid C _ _ _ _ A B)].
Qed.

(** Whatever is built from range constraints, no operation panics, and no possible value is lost. *)
Theorem C59_built : forall (p : positive) (i : integers p) (valid : int i -> Prop), calculates i valid ->
  forall e, arguments_fit (bits i) e -> exists r, build i e = Some r /\ forall v, possible e v -> w_allows_value i r v = true.
Proof. intros p i valid C e. apply (build_allows i valid C). Qed.
(** The only panic: a bit outside of the integer. *)
Theorem C59_max_bit_panics : forall (p : positive) (i : integers p) (valid : int i -> Prop), calculates i valid ->
  forall b, w_from_max_bit i b = None <-> bits i <= b.
Proof. intros p i valid C b. rewrite (w_from_max_bit_panics i valid C). lia. Qed.
(** A mask of 64 bits means the same in a field with integers of 32 bits, where its upper half is cut off. *)
Theorem C59_mask_u64 : forall (p : positive) (i : integers p) (valid : int i -> Prop), calculates i valid ->
  forall m (v : F p), m < 2 ^ 64 ->
  exists r, w_from_mask i (from_u64 i m) = Some r /\ (w_allows_value i r v = true <-> N.land (val v) m = val v).
Proof. intros p i valid C m v M. destruct (w_from_u64_allows i valid C m v M) as (r & R & _ & A). eauto. Qed.
(** Integers that are not reduced: BabyBear, KoalaBear, Mersenne31 and Bn254 panic, Goldilocks reduces them. *)
Theorem C59_not_reduced : forall x : N, x < 2 ^ 64 ->
  (forall p, from_integer (words32 p) x = None <-> N.pos p <= x) /\
  (forall p l, from_integer (limbs4 p) l = None <-> N.pos p <= number_of (limbs4 p) l) /\
  from_integer (words64 goldilocks) x = Some (of_N x).
Proof.
  intros x X. split; [|split].
  - intros p. cbn [words32 machine_integers from_integer]. destruct (N.ltb_spec x (N.pos p)); split; intros; try discriminate; try reflexivity; lia.
  - intros p l. cbn [limbs4 limb_integers from_integer number_of]. destruct (N.ltb_spec (limbs_value l) (N.pos p)); split; intros; try discriminate; try reflexivity; lia.
  - cbn [words64 machine_integers from_integer]. destruct (N.ltb_spec x (N.pos goldilocks)) as [|L]; [reflexivity|]. f_equal. apply F_ext. rewrite !val_of_N.
    replace x with (x - N.pos goldilocks + 1 * N.pos goldilocks) at 2 by lia. rewrite N.mod_add by discriminate. reflexivity.
Qed.

(** Field elements as bytes: byte [k] is digit [k] to the base 256, and exactly these bytes are read back. *)
Theorem C59_bytes : forall (p : positive) (n : nat), N.pos p < 2 ^ (64 * N.of_nat n) ->
  forall x : F p,
  length (to_bytes_le n x) = (8 * n)%nat /\
  (forall k, (k < 8 * n)%nat -> nth k (to_bytes_le n x) 0 = (val x / 256 ^ N.of_nat k) mod 256) /\
  (forall l, Forall (fun b => b < 256) l -> from_bytes_le n l = Some x <-> l = to_bytes_le n x).
Proof.
  intros p n PN x. rewrite !to_bytes_eq. split; [rewrite bytes_length; lia|]. split; [intros k K; apply nth_bytes; lia|].
  intros l L. rewrite <- to_bytes_eq. apply from_bytes_iff; assumption.
Qed.

(** A sum of a byte and a negative interval, cut to a mask with more than 32 bits, in words of 32 bits and in limbs. *)
Definition sample (p : positive) : rexp p :=
  RBoth (RSum (RMultiple (RMaxBit 7) (of_N 256)) (RNeg (RRange (of_N 1) (of_N 3)))) (RMask 1152921504606846975).
Example C59_built_example :
  arguments_fit 32 (sample babybear) /\ arguments_fit 256 (sample bn254_modulus) /\ possible (sample babybear) (of_N 509) /\
  match build (words32 babybear) (sample babybear), build (limbs4 bn254_modulus) (sample bn254_modulus) with
  | Some r, Some r' => w_allows_value _ r (of_N 509) = true /\ w_allows_value _ r' (of_N 65279) = true /\ w_allows_value _ r (of_N 70000) = false /\
      wmask r = 2147483647 /\ wmask r' = [65535; 0; 0; 0]
  | _, _ => False
  end.
Proof.
  split; [cbn [arguments_fit sample]; repeat split; reflexivity|]. split; [cbn [arguments_fit sample]; repeat split; reflexivity|]. split.
  - cbn [possible sample]. split; [|vm_compute; reflexivity]. exists (of_N 512), (- of_N 3)%F.
    split; [exists (of_N 2); split; [vm_compute; reflexivity|apply F_ext; vm_compute; reflexivity]|].
    split; [exists (of_N 3); split; [vm_compute; split; discriminate|reflexivity]|apply F_ext; vm_compute; reflexivity].
  - vm_compute. repeat split; reflexivity.
Qed.
(** Carries and borrows pass from limb to limb, and comparisons look at the highest limb first. *)
Example C59_limbs_example :
  let i := limbs4 bn254_modulus in
  add_ i [2 ^ 64 - 1; 2 ^ 64 - 1; 5; 0] [1; 0; 0; 0] = Some [0; 0; 6; 0] /\ sub_ i [0; 0; 6; 0] [1; 0; 0; 0] = Some [2 ^ 64 - 1; 2 ^ 64 - 1; 5; 0] /\
  leb_ i [9; 0; 0; 1] [0; 0; 0; 2] = true /\ num_bits_ i [9; 0; 1; 0] = 129 /\ shl_ i [0; 0; 0; 2 ^ 63] 1 = None.
Proof. vm_compute. repeat split; reflexivity. Qed.
Example C59_bytes_example :
  firstn 3 (to_bytes_le 4 (of_N 66051 : F bn254_modulus)) = [3; 2; 1] /\ from_bytes_le (p := bn254_modulus) 4 (to_bytes_le 4 (of_N 66051 : F bn254_modulus)) = Some (of_N 66051) /\
  from_bytes_le (p := bn254_modulus) 4 (repeat 255 32) = None /\ from_bytes_le (p := bn254_modulus) 4 (repeat 0 31) = None.
Proof. vm_compute. repeat split; reflexivity. Qed.

Print Assumptions C59_words. Print Assumptions C59_limbs. Print Assumptions C59_fields. Print Assumptions C59_ranges. Print Assumptions C59_built.
Print Assumptions C59_max_bit_panics. Print Assumptions C59_mask_u64. Print Assumptions C59_not_reduced. Print Assumptions C59_bytes.
