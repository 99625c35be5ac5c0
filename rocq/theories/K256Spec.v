(** * What the k256 field arithmetic and hints are about

    The coordinate field of secp256k1 has K256 = 2^256 - 2^32 - 977 elements. *)
From Coq Require Import NArith List.
From Verif Require Import K256Model.
Local Open Scope N_scope.

Definition K256 : N := 2 ^ 256 - 2 ^ 32 - 977.
(** The number that ten limbs stand for: base 2^26, least significant limb first. *)
Definition value (x : fe) : N :=
  l0 x + 2 ^ 26 * l1 x + 2 ^ 52 * l2 x + 2 ^ 78 * l3 x + 2 ^ 104 * l4 x + 2 ^ 130 * l5 x + 2 ^ 156 * l6 x + 2 ^ 182 * l7 x + 2 ^ 208 * l8 x + 2 ^ 234 * l9 x.
(** A magnitude bounds the limbs: [m] times twice the largest normalized limb. *)
Definition magnitude (m : N) (x : fe) : Prop :=
  l0 x <= m * (2 * (2 ^ 26 - 1)) /\ l1 x <= m * (2 * (2 ^ 26 - 1)) /\ l2 x <= m * (2 * (2 ^ 26 - 1)) /\ l3 x <= m * (2 * (2 ^ 26 - 1)) /\
  l4 x <= m * (2 * (2 ^ 26 - 1)) /\ l5 x <= m * (2 * (2 ^ 26 - 1)) /\ l6 x <= m * (2 * (2 ^ 26 - 1)) /\ l7 x <= m * (2 * (2 ^ 26 - 1)) /\
  l8 x <= m * (2 * (2 ^ 26 - 1)) /\ l9 x <= m * (2 * (2 ^ 22 - 1)).
(** Nine limbs of 26 bits and one of 22. *)
Definition weakly_normal (x : fe) : Prop :=
  l0 x < 2 ^ 26 /\ l1 x < 2 ^ 26 /\ l2 x < 2 ^ 26 /\ l3 x < 2 ^ 26 /\ l4 x < 2 ^ 26 /\ l5 x < 2 ^ 26 /\ l6 x < 2 ^ 26 /\ l7 x < 2 ^ 26 /\ l8 x < 2 ^ 26 /\ l9 x < 2 ^ 22.
(** The one representation of a field element that is fully normalized. *)
Definition canonical (x : fe) : Prop := weakly_normal x /\ value x < K256.
(** Equality in the field. *)
Definition eqm (a b : N) : Prop := a mod K256 = b mod K256.
Definition is_square (a : N) : Prop := exists y, eqm (y * y) a.
(** Big-endian number of a string of bytes. *)
Definition be_value (bytes : list N) : N := fold_left (fun n b => 256 * n + b) bytes 0.
Definition are_bytes (bytes : list N) : Prop := Forall (fun b => b < 256) bytes.
