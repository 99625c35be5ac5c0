(** C40: the arithmetic of the Goldilocks field on machine words is exact.

    Everything is stated in ordinary arithmetic modulo [ORDER], on words, which are
    numbers below [2^64]. [Some r] says that the function returns [r] and that no
    overflow check, debug assertion or assumption of the unsafe code fails on the
    way. [t] is the target: the x86-64 assembly or the portable code. *)
From Coq Require Import NArith ZArith Znumtheory Bool List Lia.
From Coq Require Import ZifyBool ZifyN ZifyNat.
From Verif Require Import Field Fermat GoldModel GoldFacts.
Import ListNotations.
Local Open Scope N_scope.

(** The modulus is the prime 2^64 - 2^32 + 1. *)
Theorem C40_order : ORDER = 2 ^ 64 - 2 ^ 32 + 1 /\ prime (Z.of_N ORDER).
Proof. split; [reflexivity|]. exact prime_goldilocks. Qed.

(** The reduction of every 128-bit number. *)
Theorem C40_reduce (t : target) (x : N) : x < 2 ^ 128 -> reduce128 t x = Some (x mod ORDER).
Proof. apply reduce128_spec. Qed.

(** Multiplication of every pair of words, canonical or not. *)
Theorem C40_mul (t : target) (x y : N) : x < 2 ^ 64 -> y < 2 ^ 64 ->
  gl_mul t x y = Some ((x * y) mod ORDER).
Proof. apply gl_mul_word. Qed.

(** Addition, subtraction and negation of every pair of elements. *)
Theorem C40_add (x y : N) : x < ORDER -> y < ORDER -> gl_add x y = Some ((x + y) mod ORDER).
Proof.
  intros. rewrite gl_add_word by (consts; lia). destruct (N.ltb_spec (x + y) (W64 + ORDER)); [reflexivity|consts; lia].
Qed.

Theorem C40_sub (x y : N) : x < ORDER -> y < ORDER ->
  gl_sub x y = Some (Z.to_N ((Z.of_N x - Z.of_N y) mod Z.of_N ORDER)).
Proof.
  intros. rewrite gl_sub_word by (consts; lia). destruct (N.leb_spec y (x + ORDER)); [|lia]. f_equal.
  apply N2Z.inj. rewrite N2Z.inj_mod. rewrite Z2N.id by (apply Z.mod_pos_bound; consts; lia).
  rewrite N2Z.inj_sub by lia. rewrite <- (Z.mod_add (Z.of_N x - Z.of_N y) 2) by (consts; lia). f_equal. lia.
Qed.

Theorem C40_neg (x : N) : x < ORDER ->
  gl_neg x = Some (Z.to_N ((- Z.of_N x) mod Z.of_N ORDER)).
Proof.
  intros H. unfold gl_neg, sub64. destruct (N.eqb_spec x 0) as [->|NZ]; [reflexivity|].
  destruct (N.leb_spec x ORDER); [|lia]. f_equal. rewrite <- (Z.mod_add _ 1) by (consts; lia).
  rewrite Z.mod_small by (consts; lia). consts; lia.
Qed.

(** Where the unreduced words of a foreign source would go wrong: addition and
    subtraction are exact on all pairs of words but those whose sum is at least
    [2^64 + ORDER], respectively whose difference is below [- ORDER]; there a debug
    build panics. *)
Theorem C40_add_words (x y : N) : x < 2 ^ 64 -> y < 2 ^ 64 ->
  gl_add x y = if x + y <? 2 ^ 64 + ORDER then Some ((x + y) mod ORDER) else None.
Proof. apply gl_add_word. Qed.

Theorem C40_sub_words (x y : N) : x < 2 ^ 64 -> y < 2 ^ 64 ->
  gl_sub x y = if y <=? x + ORDER then Some ((x + 2 * ORDER - y) mod ORDER) else None.
Proof. apply gl_sub_word. Qed.

(** Canonicalisation of every word. *)
Theorem C40_wrap (x : N) : x < 2 ^ 64 -> wrap x = Some (x mod ORDER).
Proof. apply wrap_spec. Qed.

(** Inversion: nothing for zero; otherwise the inverse. *)
Theorem C40_inverse (t : target) (x : N) : x < ORDER ->
  (x = 0 /\ try_inverse t x = Some None) \/
  (x <> 0 /\ exists y, try_inverse t x = Some (Some y) /\ y < ORDER /\ (x * y) mod ORDER = 1).
Proof.
  intros H. destruct (N.eq_dec x 0) as [->|NZ]; [left; now split|right]. split; [exact NZ|].
  exists (x ^ (ORDER - 2) mod ORDER). split; [apply try_inverse_pow; [consts; lia|exact NZ]|].
  split; [now apply N.mod_lt|].
  rewrite N.mul_mod_idemp_r by discriminate.
  replace (x * x ^ (ORDER - 2)) with (x ^ (ORDER - 1)).
  2:{ replace (ORDER - 1) with (N.succ (ORDER - 2)) by reflexivity. apply N.pow_succ_r'. }
  apply (fermat_N prime_goldilocks). change (N.pos goldilocks) with ORDER. now rewrite N.mod_small.
Qed.

(** Division: a panic for zero; otherwise the quotient. *)
Theorem C40_div (t : target) (x y : N) : x < ORDER -> y < ORDER ->
  (y = 0 /\ gl_div t x y = None) \/
  (y <> 0 /\ exists q, gl_div t x y = Some q /\ q < ORDER /\ (q * y) mod ORDER = x).
Proof.
  intros Hx Hy. unfold gl_div. destruct (C40_inverse t y Hy) as [[-> ->]|(NZ & i & -> & Hi & E)].
  - left. now split.
  - right. split; [exact NZ|]. rewrite gl_mul_word by (consts; lia). eexists. split; [reflexivity|].
    split; [now apply N.mod_lt|]. rewrite N.mul_mod_idemp_l by discriminate.
    rewrite <- N.mul_assoc, (N.mul_comm i y), <- N.mul_mod_idemp_r, E, N.mul_1_r by discriminate.
    now apply N.mod_small.
Qed.

(** Powers, for every exponent that fits a word. *)
Theorem C40_pow (t : target) (x e : N) : x < ORDER -> e < 2 ^ 64 -> gl_pow t x e = Some (x ^ e mod ORDER).
Proof. apply gl_pow_spec. Qed.

(** The operations are those of the field [F goldilocks] the other theorems speak
    of, so these hold for this implementation. *)
Theorem C40_field (t : target) (a b : F goldilocks) :
  gl_add (val a) (val b) = Some (val (fadd a b)) /\
  gl_sub (val a) (val b) = Some (val (fsub a b)) /\
  gl_neg (val a) = Some (val (fopp a)) /\
  gl_mul t (val a) (val b) = Some (val (fmul a b)) /\
  (b <> fzero -> try_inverse t (val b) = Some (Some (val (finv b)))) /\
  (b <> fzero -> gl_div t (val a) (val b) = Some (val (fdiv a b))).
Proof.
  pose proof (val_lt a) as Ha. pose proof (val_lt b) as Hb. change (N.pos goldilocks) with ORDER in *.
  assert (Inv : b <> fzero -> try_inverse t (val b) = Some (Some (val (finv b)))).
  { intros NZ. destruct (C40_inverse t (val b) Hb) as [[Z _]|(_ & y & -> & Hy & E)].
    - exfalso. apply NZ. apply F_ext. rewrite Z. symmetry. apply val_zero.
    - do 2 f_equal.
      assert (M : fmul b (of_N y) = fone).
      { apply F_ext. unfold fmul, fone. rewrite !val_of_N. change (N.pos goldilocks) with ORDER.
        now rewrite N.mul_mod_idemp_r by discriminate. }
      assert (EQ : of_N y = finv b).
      { assert (X : fmul (finv b) (fmul b (of_N y)) = fmul (finv b) fone) by now rewrite M.
        rewrite (Ring_theory.Rmul_assoc F_ring_theory), (finv_l b prime_goldilocks NZ) in X.
        rewrite (Ring_theory.Rmul_1_l F_ring_theory) in X.
        rewrite (Ring_theory.Rmul_comm F_ring_theory), (Ring_theory.Rmul_1_l F_ring_theory) in X. exact X. }
      rewrite <- EQ, val_of_N. change (N.pos goldilocks) with ORDER. symmetry. now apply N.mod_small. }
  split.
  { rewrite C40_add by assumption. reflexivity. }
  split.
  { rewrite gl_sub_word by (consts; lia). destruct (N.leb_spec (val b) (val a + ORDER)); [|lia]. f_equal.
    unfold fsub. rewrite val_of_N. change (N.pos goldilocks) with ORDER.
    replace (val a + 2 * ORDER - val b) with (val a + (ORDER - val b) + 1 * ORDER) by lia.
    now rewrite N.mod_add by discriminate. }
  split.
  { unfold gl_neg, sub64, fopp. rewrite val_of_N. change (N.pos goldilocks) with ORDER.
    destruct (N.eqb_spec (val a) 0) as [->|NZ]; [reflexivity|]. destruct (N.leb_spec (val a) ORDER); [|lia].
    f_equal. symmetry. apply N.mod_small. lia. }
  split.
  { rewrite gl_mul_word by (consts; lia). reflexivity. }
  split; [exact Inv|].
  intros NZ. unfold gl_div. rewrite (Inv NZ). unfold fdiv.
  pose proof (val_lt (finv b)) as Hi. change (N.pos goldilocks) with ORDER in *.
  rewrite gl_mul_word by (consts; lia). reflexivity.
Qed.

(** ** Finding: deserialisation does not canonicalise

    The derived [Deserialize] accepts every word, so a reader can obtain an element
    whose word is not canonical: it is congruent to zero without being zero or equal
    to zero, has an "inverse", and doubling one of them panics. *)
Theorem C40_deserialize_refuted :
  (exists w, gl_deserialize w = Some w /\ w mod ORDER = 0 /\ gl_is_zero w = false /\ gl_eqb w 0 = false /\
             try_inverse X86_64 w = Some (Some 0)) /\
  (exists w, gl_deserialize w = Some w /\ gl_add w w = None) /\
  (exists w, gl_deserialize w = Some w /\ gl_neg w = None).
Proof.
  split; [|split].
  - exists ORDER. repeat split; vm_compute; reflexivity.
  - exists (2 ^ 64 - 1). split; vm_compute; reflexivity.
  - exists (2 ^ 64 - 1). split; vm_compute; reflexivity.
Qed.

(** ** Concrete cases: the largest element, a carry in the reduction, a borrow *)
Example gold_add : gl_add (ORDER - 1) (ORDER - 1) = Some (ORDER - 2). Proof. vm_compute. reflexivity. Qed.
Example gold_sub : gl_sub 0 (ORDER - 1) = Some 1. Proof. vm_compute. reflexivity. Qed.
Example gold_mul : gl_mul X86_64 (ORDER - 1) (ORDER - 1) = Some 1 /\ gl_mul Other (ORDER - 1) (ORDER - 1) = Some 1.
Proof. split; vm_compute; reflexivity. Qed.
Example gold_borrow : reduce128 X86_64 (2 ^ 127) = Some ((2 ^ 127) mod ORDER) /\ (2 ^ 127) mod 2 ^ 64 < N.shiftr (2 ^ 127) 96.
Proof. split; vm_compute; reflexivity. Qed.
Example gold_inv : try_inverse X86_64 3 = Some (Some 12297829379609722881) /\ (3 * 12297829379609722881) mod ORDER = 1.
Proof. split; vm_compute; reflexivity. Qed.
Example gold_pow : gl_pow Other 7 (ORDER - 1) = Some 1. Proof. vm_compute. reflexivity. Qed.

Print Assumptions C40_order.
Print Assumptions C40_reduce.
Print Assumptions C40_mul.
Print Assumptions C40_add.
Print Assumptions C40_sub.
Print Assumptions C40_neg.
Print Assumptions C40_add_words.
Print Assumptions C40_sub_words.
Print Assumptions C40_wrap.
Print Assumptions C40_inverse.
Print Assumptions C40_div.
Print Assumptions C40_pow.
Print Assumptions C40_field.
Print Assumptions C40_deserialize_refuted.
