(** What integers of fields should do: calculate like numbers as long as the result fits. *)
From Coq Require Import NArith Bool List.
From Verif Require Import Field RangeModel WordModel.
Local Open Scope N_scope.

Section WordSpec.
  Context {p : positive} (i : integers p).
  (** [valid]: the values that exist; in the models of words and limbs there are others. *)
  Variable valid : int i -> Prop.
  Local Notation "# x" := (number_of i x) (at level 2).
  (** The result exists, is valid and stands for [n]. *)
  Definition gives (r : option (int i)) (n : N) : Prop := exists x, r = Some x /\ valid x /\ #x = n.
  Record calculates : Prop := {
    in_bits : forall x, valid x -> #x < 2 ^ bits i;
    and_ok : forall x y, valid x -> valid y -> valid (and_ i x y) /\ #(and_ i x y) = N.land #x #y;
    or_ok : forall x y, valid x -> valid y -> valid (or_ i x y) /\ #(or_ i x y) = N.lor #x #y;
    xor_ok : forall x y, valid x -> valid y -> valid (xor_ i x y) /\ #(xor_ i x y) = N.lxor #x #y;
    not_ok : forall x, valid x -> valid (not_ i x) /\ #(not_ i x) = 2 ^ bits i - 1 - #x;
    add_ok : forall x y, valid x -> valid y -> #x + #y < 2 ^ bits i -> gives (add_ i x y) (#x + #y);
    sub_ok : forall x y, valid x -> valid y -> #y <= #x -> gives (sub_ i x y) (#x - #y);
    shl_ok : forall x e, valid x -> e < bits i -> #x * 2 ^ e < 2 ^ bits i -> gives (shl_ i x e) (#x * 2 ^ e);
    shr_ok : forall x e, valid x -> e < bits i -> gives (shr_ i x e) (#x / 2 ^ e);
    zero_ok : valid (zero_ i) /\ #(zero_ i) = 0;
    one_ok : valid (one_ i) /\ #(one_ i) = 1;
    max_ok : valid (max_ i) /\ #(max_ i) = 2 ^ bits i - 1;
    is_zero_ok : forall x, valid x -> is_zero_ i x = (#x =? 0);
    is_one_ok : forall x, valid x -> is_one_ i x = (#x =? 1);
    leb_ok : forall x y, valid x -> valid y -> leb_ i x y = (#x <=? #y);
    eqb_ok : forall x y, valid x -> valid y -> eqb_ i x y = (#x =? #y);
    num_bits_ok : forall x k, valid x -> num_bits_ i x <= k <-> #x < 2 ^ k;
    u64_ok : forall x, valid x -> try_into_u64 i x = if #x <? 2 ^ 64 then Some #x else None;
    u32_ok : forall x, valid x -> try_into_u32 i x = if #x <? 2 ^ 32 then Some #x else None;
    from_u64_ok : forall n, n < 2 ^ 64 -> valid (from_u64 i n) /\ #(from_u64 i n) = n mod 2 ^ bits i;
    modulus_ok : valid (modulus_ i) /\ #(modulus_ i) = N.pos p;
    to_integer_ok : forall x, valid (to_integer i x) /\ #(to_integer i x) = val x;
    from_integer_ok : forall x, valid x -> #x < N.pos p -> from_integer i x = Some (of_N #x) }.

  (** A range constraint with words stands for one with numbers. *)
  Definition stands_for (r : wrc i) (r' : rc p) : Prop := valid (wmask r) /\ r' = mkRC #(wmask r) (wmin r) (wmax r).
  Definition returns (o : option (wrc i)) (r' : rc p) : Prop := exists r, o = Some r /\ stands_for r r'.
End WordSpec.

(** Everything a user can build from the operations on range constraints, and the values that are possible for it.
    Masks are given as [u64]. *)
Inductive rexp (p : positive) : Type :=
| RMask (m : N) | RMaxBit (b : N) | RValue (v : F p) | RRange (mn mx : F p) | RAny
| RSum (a b : rexp p) | RProduct (a b : rexp p) | RSquare (a : rexp p) | RMultiple (a : rexp p) (f : F p) | RNeg (a : rexp p)
| RBoth (a b : rexp p) | REither (a b : rexp p).
Arguments RMask {p}. Arguments RMaxBit {p}. Arguments RValue {p}. Arguments RRange {p}. Arguments RAny {p}. Arguments RSum {p}. Arguments RProduct {p}.
Arguments RSquare {p}. Arguments RMultiple {p}. Arguments RNeg {p}. Arguments RBoth {p}. Arguments REither {p}.

Section Rexp.
  Context {p : positive}.
  Fixpoint possible (e : rexp p) (v : F p) : Prop :=
    match e with
    | RMask m => N.land (val v) m = val v
    | RMaxBit b => val v < 2 ^ (b + 1)
    | RValue w => v = w
    | RRange mn mx => if val mn <=? val mx then val mn <= val v /\ val v <= val mx else val mn <= val v \/ val v <= val mx
    | RAny => True
    | RSum a b => exists x y, possible a x /\ possible b y /\ v = (x + y)%F
    | RProduct a b => exists x y, possible a x /\ possible b y /\ v = (x * y)%F
    | RSquare a => exists x, possible a x /\ v = (x * x)%F
    | RMultiple a f => exists x, possible a x /\ v = (f * x)%F
    | RNeg a => exists x, possible a x /\ v = (- x)%F
    | RBoth a b => possible a v /\ possible b v
    | REither a b => possible a v \/ possible b v
    end.
  (** The arguments exist: masks are [u64], and bits are bits of the integers (otherwise the program panics). *)
  Fixpoint arguments_fit (w : N) (e : rexp p) : Prop :=
    match e with
    | RMask m => m < 2 ^ 64
    | RMaxBit b => b < w
    | RValue _ | RRange _ _ | RAny => True
    | RSum a b | RProduct a b | RBoth a b | REither a b => arguments_fit w a /\ arguments_fit w b
    | RSquare a | RMultiple a _ | RNeg a => arguments_fit w a
    end.
  Definition with1 {A B} (o : option A) (f : A -> option B) : option B := match o with Some x => f x | None => None end.
  Fixpoint build (i : integers p) (e : rexp p) : option (wrc i) :=
    match e with
    | RMask m => w_from_mask i (from_u64 i m)
    | RMaxBit b => w_from_max_bit i b
    | RValue v => Some (w_from_value i v)
    | RRange mn mx => w_from_range i mn mx
    | RAny => w_unconstrained i
    | RSum a b => with1 (build i a) (fun x => with1 (build i b) (fun y => w_combine_sum i x y))
    | RProduct a b => with1 (build i a) (fun x => with1 (build i b) (fun y => w_combine_product i x y))
    | RSquare a => with1 (build i a) (w_square i)
    | RMultiple a f => with1 (build i a) (fun x => w_multiple i x f)
    | RNeg a => with1 (build i a) (w_neg i)
    | RBoth a b => with1 (build i a) (fun x => with1 (build i b) (fun y => w_conjunction i x y))
    | REither a b => with1 (build i a) (fun x => with1 (build i b) (fun y => w_disjunction i x y))
    end.
End Rexp.

(** The fields of the number crate: baby_bear.rs, koala_bear.rs, mersenne31.rs, goldilocks.rs, bn254.rs. *)
Definition bn254_modulus : positive := 21888242871839275222246405745257275088548364400416034343698204186575808495617.
Definition words32 (p : positive) : integers p := machine_integers 32 false.
Definition words64 (p : positive) : integers p := machine_integers 64 true.
Definition limbs4 (p : positive) : integers p := limb_integers 4.
