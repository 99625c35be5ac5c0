(** C01, C02, C03: range constraints. *)
From Coq Require Import NArith ZArith Bool List Lia.
From Verif Require Import Field Primes RangeModel Spec Bridge.
Import ListNotations.
Local Open Scope N_scope.

(** C01: arithmetic on range constraints never loses a possible value; the constructors
    describe exactly the stated sets. *)
Theorem C01_sum : forall (p : positive) (a b : rc p) x y,
  rc_allows a x -> rc_allows b y -> rc_allows (combine_sum a b) (x + y)%F.
Proof. intros p. exact b_sum. Qed.
Theorem C01_product : forall (p : positive) (a b : rc p) x y,
  rc_allows a x -> rc_allows b y -> rc_allows (combine_product a b) (x * y)%F.
Proof. intros p. exact b_product. Qed.
Theorem C01_square : forall (p : positive) (a : rc p) x, rc_allows a x -> rc_allows (square a) (x * x)%F.
Proof. intros p. exact b_square. Qed.
Theorem C01_neg : forall (p : positive) (a : rc p) x, rc_allows a x -> rc_allows (rc_neg a) (- x)%F.
Proof. intros p. exact b_neg. Qed.
Theorem C01_multiple : forall (p : positive) (a : rc p) k x,
  rc_allows a x -> rc_allows (multiple a k) (k * x)%F.
Proof. intros p. exact b_multiple. Qed.
Theorem C01_constructors : forall (p : positive) (x : F p),
  (rc_allows unconstrained x) /\
  (forall v, rc_allows (from_value v) x <-> x = v) /\
  (forall mn mx, rc_allows (from_range mn mx) x <-> between mn mx x) /\
  (forall m, rc_allows (from_mask m) x <-> only_bits m x) /\
  (forall n, rc_allows (from_max_bit n) x <-> val x < 2 ^ (n + 1)).
Proof. intros p. exact b_constructors. Qed.

(** A byte plus a wrapping interval, with a value at a boundary. *)
Example C01_example :
  let a : rc babybear := from_mask 255 in
  let b : rc babybear := from_range (of_Z (-3)) (of_Z 5) in
  rc_allows a (of_N 255) /\ rc_allows b (of_Z (-3)) /\
  rc_allows (combine_sum a b) (of_N 252) /\ ~ rc_allows (combine_sum a b) (of_N 261) /\
  rc_allows (combine_product a b) (of_N 255 * of_Z (-3))%F.
Proof.
  cbv zeta. rewrite !rc_allows_iff. vm_compute. intuition discriminate.
Qed.

(** C02: conjunction, disjunction, disjointness, single values. *)
Theorem C02_conjunction : forall (p : positive) (a b : rc p) x,
  rc_allows a x -> rc_allows b x -> rc_allows (conjunction a b) x.
Proof. intros p. exact b_conjunction. Qed.
Theorem C02_disjunction : forall (p : positive) (a b : rc p) x,
  rc_allows a x \/ rc_allows b x -> rc_allows (disjunction a b) x.
Proof. intros p. exact b_disjunction. Qed.
Theorem C02_disjoint : forall (p : positive) (a b : rc p) x,
  is_disjoint a b = true -> ~ (rc_allows a x /\ rc_allows b x).
Proof. intros p. exact b_disjoint. Qed.
Theorem C02_single : forall (p : positive) (a : rc p) v x,
  try_to_single_value a = Some v -> (rc_allows a x <-> x = v).
Proof. intros p. exact b_single. Qed.
Theorem C02_unconstrained : forall (p : positive) (a : rc p),
  is_unconstrained a = true <-> forall x, rc_allows a x.
Proof. intros p. exact b_unconstrained. Qed.

Example C02_example :
  let a : rc babybear := from_range (of_N 10) (of_N 20) in
  let b : rc babybear := from_range (of_N 20) (of_N 3) in
  rc_allows a (of_N 20) /\ rc_allows b (of_N 20) /\
  try_to_single_value (conjunction a b) = Some (of_N 20) /\
  is_disjoint a (from_range (of_N 21) (of_N 9)) = true.
Proof. cbv zeta. rewrite !rc_allows_iff. vm_compute. intuition discriminate. Qed.

(** C03: enumeration and width.  The enumeration lists every allowed value exactly once and
    is defined exactly when the width fits into 32 bits; the width is the exact number of
    elements of the interval, hence an upper bound on the number of allowed values. *)
Theorem C03_allowed_values : forall (p : positive) (a : rc p) l,
  allowed_values a = Some l -> NoDup l /\ forall x, In x l <-> rc_allows a x.
Proof. intros p. exact b_allowed_values. Qed.
Theorem C03_allowed_values_total : forall (p : positive) (a : rc p),
  allowed_values a = None <-> 2 ^ 32 <= range_width a.
Proof. intros p. exact b_allowed_values_total. Qed.
Theorem C03_width : forall (p : positive) (a : rc p), has_size (between (rmin a) (rmax a)) (range_width a).
Proof. intros p. exact b_width. Qed.
Theorem C03_width_bound : forall (p : positive) (a : rc p) l,
  NoDup l -> (forall x, In x l -> rc_allows a x) -> N.of_nat (length l) <= range_width a.
Proof. intros p. exact b_width_bound. Qed.

Example C03_example :
  let a : rc babybear := conjunction (from_range (of_Z (-2)) (of_N 6)) (from_mask 5) in
  exists l, allowed_values a = Some l /\ map val l = [0; 1; 4; 5].
Proof. cbv zeta. eexists. split; vm_compute; reflexivity. Qed.

Print Assumptions C01_sum. Print Assumptions C01_product. Print Assumptions C01_square.
Print Assumptions C01_neg. Print Assumptions C01_multiple. Print Assumptions C01_constructors.
Print Assumptions C02_conjunction. Print Assumptions C02_disjunction. Print Assumptions C02_disjoint.
Print Assumptions C02_single. Print Assumptions C02_unconstrained.
Print Assumptions C03_allowed_values. Print Assumptions C03_allowed_values_total.
Print Assumptions C03_width. Print Assumptions C03_width_bound.
