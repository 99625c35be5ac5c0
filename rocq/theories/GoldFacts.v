(** Facts about the word operations of the Goldilocks field. *)
From Coq Require Import NArith ZArith Znumtheory Bool List Lia.
From Coq Require Import ZifyBool ZifyN ZifyNat.
From Verif Require Import Field Fermat GoldModel.
Import ListNotations.
Local Open Scope N_scope.

Lemma W64_val : W64 = 18446744073709551616. Proof. reflexivity. Qed.
Lemma EPS_val : EPSILON = 4294967295. Proof. reflexivity. Qed.
Lemma ORDER_val : ORDER = 18446744069414584321. Proof. reflexivity. Qed.
Ltac consts := rewrite ?W64_val, ?EPS_val, ?ORDER_val in *.

Lemma mod_is (a r k : N) : r < ORDER -> a = k * ORDER + r -> a mod ORDER = r.
Proof. intros H ->. rewrite N.add_comm, N.mod_add by discriminate. now apply N.mod_small. Qed.

Lemma wrap_spec x : x < W64 -> wrap x = Some (x mod ORDER).
Proof.
  intros H. unfold wrap, sub64. destruct (N.leb_spec ORDER x) as [L|L].
  - f_equal. symmetry. apply mod_is with 1; consts; lia.
  - f_equal. symmetry. now apply N.mod_small.
Qed.

Lemma oadd_spec x y : x < W64 -> y < W64 ->
  overflowing_add x y = if W64 <=? x + y then (x + y - W64, true) else (x + y, false).
Proof.
  intros. unfold overflowing_add. destruct (N.leb_spec W64 (x + y)) as [L|L]; f_equal.
  - replace (x + y) with (x + y - W64 + 1 * W64) at 1 by lia. rewrite N.mod_add by discriminate.
    apply N.mod_small. lia.
  - apply N.mod_small. lia.
Qed.

Lemma osub_spec x y : x < W64 -> y < W64 ->
  overflowing_sub x y = if x <? y then (x + W64 - y, true) else (x - y, false).
Proof.
  intros. unfold overflowing_sub. destruct (N.ltb_spec x y) as [L|L]; f_equal.
  - apply N.mod_small. lia.
  - replace (x + W64 - y) with (x - y + 1 * W64) by lia. rewrite N.mod_add by discriminate.
    apply N.mod_small. lia.
Qed.

Lemma mul_bit b : mul64 (bit b) EPSILON = Some (if b then EPSILON else 0).
Proof. destruct b; reflexivity. Qed.
Lemma mul_bit' b : mul64 EPSILON (bit b) = Some (if b then EPSILON else 0).
Proof. destruct b; reflexivity. Qed.

(** Addition of two arbitrary words. *)
Lemma gl_add_word x y : x < W64 -> y < W64 ->
  gl_add x y = if x + y <? W64 + ORDER then Some ((x + y) mod ORDER) else None.
Proof.
  intros Hx Hy. unfold gl_add. rewrite oadd_spec by assumption.
  destruct (N.leb_spec W64 (x + y)) as [L|L]; rewrite mul_bit; cbv iota.
  - rewrite oadd_spec by (consts; lia).
    destruct (N.leb_spec W64 (x + y - W64 + EPSILON)) as [M|M]; cbn [negb check].
    + destruct (N.ltb_spec (x + y) (W64 + ORDER)); [|reflexivity]. consts; lia.
    + destruct (N.ltb_spec (x + y) (W64 + ORDER)); [|consts; lia].
      rewrite wrap_spec by lia. f_equal.
      replace (x + y) with (x + y - W64 + EPSILON + 1 * ORDER) by (consts; lia).
      rewrite N.mod_add by discriminate. f_equal. consts; lia.
  - rewrite oadd_spec by (consts; lia). rewrite N.add_0_r.
    destruct (N.leb_spec W64 (x + y)) as [M|M]; [lia|]. cbn [negb check].
    destruct (N.ltb_spec (x + y) (W64 + ORDER)); [|consts; lia]. now apply wrap_spec.
Qed.

(** Subtraction of two arbitrary words. *)
Lemma gl_sub_word x y : x < W64 -> y < W64 ->
  gl_sub x y = if y <=? x + ORDER then Some ((x + 2 * ORDER - y) mod ORDER) else None.
Proof.
  intros Hx Hy. unfold gl_sub. rewrite osub_spec by assumption.
  destruct (N.ltb_spec x y) as [L|L]; rewrite mul_bit; cbv iota.
  - rewrite osub_spec by (consts; lia).
    destruct (N.ltb_spec (x + W64 - y) EPSILON) as [M|M]; cbn [negb check].
    + destruct (N.leb_spec y (x + ORDER)); [|reflexivity]. consts; lia.
    + destruct (N.leb_spec y (x + ORDER)); [|consts; lia].
      rewrite wrap_spec by lia. f_equal.
      replace (x + 2 * ORDER - y) with (x + W64 - y - EPSILON + 1 * ORDER) by (consts; lia).
      now rewrite N.mod_add by discriminate.
  - rewrite osub_spec by (consts; lia). rewrite !N.sub_0_r.
    destruct (N.ltb_spec (x - y) 0) as [M|M]; [lia|]. cbn [negb check].
    destruct (N.leb_spec y (x + ORDER)); [|consts; lia].
    rewrite wrap_spec by lia. f_equal. replace (x + 2 * ORDER - y) with (x - y + 2 * ORDER) by lia.
    now rewrite N.mod_add by discriminate.
Qed.

Lemma add_nc_spec t x y : x < W64 -> y < W64 -> x + y < W64 + ORDER ->
  add_no_canonicalize t x y = Some (if W64 <=? x + y then x + y - ORDER else x + y).
Proof.
  intros Hx Hy B. destruct t; cbn [add_no_canonicalize];
    unfold add_no_canonicalize_x86, add_no_canonicalize_other; rewrite oadd_spec by assumption.
  - destruct (N.leb_spec W64 (x + y)) as [L|L].
    + replace ((2 ^ 32 + y mod 2 ^ 32 - y mod 2 ^ 32 - bit true) mod 2 ^ 32) with EPSILON.
      2:{ rewrite N.add_sub. reflexivity. }
      destruct (N.eqb_spec x 0); [lia|]. destruct (N.eqb_spec y 0); [lia|]. cbn [negb orb assume].
      unfold add64. destruct (N.ltb_spec (x + y - W64 + EPSILON) W64) as [M|M]; [|consts; lia].
      f_equal. consts; lia.
    + replace ((2 ^ 32 + y mod 2 ^ 32 - y mod 2 ^ 32 - bit false) mod 2 ^ 32) with 0.
      2:{ rewrite N.add_sub. reflexivity. }
      replace (negb (x =? 0) || (x + y =? y) && (0 =? 0)) with true by lia.
      replace (negb (y =? 0) || (x + y =? x) && (0 =? 0)) with true by lia.
      cbn [assume]. unfold add64. rewrite N.add_0_r. destruct (N.ltb_spec (x + y) W64); [reflexivity|lia].
  - destruct (N.leb_spec W64 (x + y)) as [L|L]; rewrite mul_bit'; unfold add64.
    + destruct (N.ltb_spec (x + y - W64 + EPSILON) W64) as [M|M]; [|consts; lia]. f_equal. consts; lia.
    + rewrite N.add_0_r. destruct (N.ltb_spec (x + y) W64); [reflexivity|lia].
Qed.

Theorem reduce128_spec t x : x < 2 ^ 128 -> reduce128 t x = Some (x mod ORDER).
Proof.
  intros H. unfold reduce128, split.
  assert (D : exists lo hh hl, lo < W64 /\ hh < 2 ^ 32 /\ hl < 2 ^ 32 /\
              x = lo + W64 * (hh * 2 ^ 32 + hl) /\ x mod W64 = lo /\
              N.shiftr x 64 mod W64 = hh * 2 ^ 32 + hl).
  { exists (x mod W64), (x / W64 / 2 ^ 32), (x / W64 mod 2 ^ 32).
    pose proof (N.mod_lt x W64 ltac:(discriminate)). pose proof (N.mod_lt (x / W64) (2 ^ 32) ltac:(discriminate)).
    pose proof (N.div_mod x W64 ltac:(discriminate)). pose proof (N.div_mod (x / W64) (2 ^ 32) ltac:(discriminate)).
    assert (x / W64 < W64). { apply N.div_lt_upper_bound; [discriminate|]. exact H. }
    assert (x / W64 / 2 ^ 32 < 2 ^ 32). { apply N.div_lt_upper_bound; [discriminate|]. exact H4. }
    split; [assumption|]. split; [assumption|]. split; [assumption|].
    assert (E : x / W64 / 2 ^ 32 * 2 ^ 32 + x / W64 mod 2 ^ 32 = x / W64) by lia.
    split; [rewrite E; lia|]. split; [reflexivity|]. rewrite E, N.shiftr_div_pow2. fold W64.
    now apply N.mod_small. }
  destruct D as (lo & hh & hl & Hlo & Hhh & Hhl & E & -> & ->).
  assert (Ehh : N.shiftr (hh * 2 ^ 32 + hl) 32 = hh).
  { rewrite N.shiftr_div_pow2, N.div_add_l by discriminate. rewrite (N.div_small hl) by assumption. lia. }
  assert (Ehl : N.land (hh * 2 ^ 32 + hl) EPSILON = hl).
  { change EPSILON with (N.ones 32). rewrite N.land_ones, N.add_comm, N.mod_add by discriminate.
    now apply N.mod_small. }
  rewrite Ehh, Ehl. clear Ehh Ehl. change (2 ^ 32) with 4294967296 in *.
  assert (Ht1 : mul64 hl EPSILON = Some (hl * EPSILON)).
  { unfold mul64. destruct (N.ltb_spec (hl * EPSILON) W64); [reflexivity|]. consts; lia. }
  rewrite osub_spec by (consts; lia).
  assert (G : exists t0, (if lo <? hh then sub64 (lo + W64 - hh) EPSILON else Some (lo - hh)) = Some t0 /\
              t0 < W64 /\ t0 + hh = lo + (if lo <? hh then ORDER else 0)).
  { destruct (N.ltb_spec lo hh) as [L|L].
    - exists (lo + W64 - hh - EPSILON). unfold sub64.
      destruct (N.leb_spec EPSILON (lo + W64 - hh)); [|consts; lia]. split; [reflexivity|]. consts; lia.
    - exists (lo - hh). split; [reflexivity|]. lia. }
  destruct G as (t0 & G & B & S).
  assert (G' : (let '(t1, borrow) := if lo <? hh then (lo + W64 - hh, true) else (lo - hh, false) in
                if borrow then sub64 t1 EPSILON else Some t1) = Some t0).
  { destruct (lo <? hh); exact G. }
  destruct (if lo <? hh then (lo + W64 - hh, true) else (lo - hh, false)) as [t00 borrow].
  cbv beta iota in G'. rewrite G', Ht1.
  rewrite add_nc_spec by (consts; lia).
  rewrite wrap_spec. 2:{ destruct (N.leb_spec W64 (t0 + hl * EPSILON)); consts; lia. }
  f_equal.
  assert (X : exists k, x + k * ORDER = t0 + hl * EPSILON + (hh * 4294967297 + hl) * ORDER).
  { exists (if lo <? hh then 1 else 0). rewrite E. destruct (N.ltb_spec lo hh); consts; lia. }
  destruct X as [k X].
  rewrite <- (N.mod_add x k) by discriminate. rewrite X, N.mod_add by discriminate.
  destruct (N.leb_spec W64 (t0 + hl * EPSILON)) as [L|L]; [|reflexivity].
  replace (t0 + hl * EPSILON) with (t0 + hl * EPSILON - ORDER + 1 * ORDER) at 2 by (consts; lia).
  now rewrite N.mod_add by discriminate.
Qed.

Lemma gl_mul_word t x y : x < W64 -> y < W64 -> gl_mul t x y = Some ((x * y) mod ORDER).
Proof.
  intros Hx Hy. unfold gl_mul, mul128.
  assert (x * y < 2 ^ 128). { change (2 ^ 128) with (W64 * W64). apply N.mul_lt_mono; assumption. }
  destruct (N.ltb_spec (x * y) (2 ^ 128)); [|lia]. now apply reduce128_spec.
Qed.

Lemma res_word a : a mod ORDER < W64.
Proof. pose proof (N.mod_lt a ORDER ltac:(discriminate)). consts; lia. Qed.

Lemma pow_mod_l a n : (a mod ORDER) ^ n mod ORDER = a ^ n mod ORDER.
Proof.
  induction n as [|n IH] using N.peano_ind; [reflexivity|]. rewrite !N.pow_succ_r'.
  rewrite N.mul_mod, IH, N.mod_mod, <- N.mul_mod by discriminate. reflexivity.
Qed.

(** The words below are residues of powers of [x]. *)
Lemma mul_pow t x a b : gl_mul t (x ^ a mod ORDER) (x ^ b mod ORDER) = Some (x ^ (a + b) mod ORDER).
Proof.
  rewrite gl_mul_word by apply res_word. f_equal. rewrite <- N.mul_mod by discriminate. now rewrite N.pow_add_r.
Qed.

Lemma mul_pow_x t x a : x < W64 -> gl_mul t (x ^ a mod ORDER) x = Some (x ^ (a + 1) mod ORDER).
Proof.
  intros H. rewrite gl_mul_word by (auto using res_word). f_equal.
  rewrite N.mul_mod_idemp_l by discriminate. now rewrite N.pow_add_r, N.pow_1_r.
Qed.

Lemma exp_pow t x n : forall a, exp_power_of_2 t (x ^ a mod ORDER) n = Some (x ^ (a * 2 ^ N.of_nat n) mod ORDER).
Proof.
  induction n as [|n IH]; intros a; cbn [exp_power_of_2].
  - now rewrite N.mul_1_r.
  - unfold gl_square. rewrite mul_pow, IH. do 3 f_equal. rewrite Nat2N.inj_succ, N.pow_succ_r'. lia.
Qed.

Lemma acc_pow t x n a b :
  exp_acc t n (x ^ a mod ORDER) (x ^ b mod ORDER) = Some (x ^ (a * 2 ^ N.of_nat n + b) mod ORDER).
Proof. unfold exp_acc. now rewrite exp_pow, mul_pow. Qed.

Theorem try_inverse_pow t x : x < W64 -> x <> 0 ->
  try_inverse t x = Some (Some (x ^ (ORDER - 2) mod ORDER)).
Proof.
  intros H NZ. unfold try_inverse. destruct (N.eqb_spec x 0); [contradiction|].
  unfold gl_square.
  assert (E1 : gl_mul t x x = Some (x ^ 2 mod ORDER)).
  { rewrite gl_mul_word by assumption. now rewrite N.pow_2_r. }
  rewrite E1. clear E1.
  repeat (first [rewrite mul_pow_x by assumption | rewrite mul_pow | rewrite acc_pow]; cbv iota).
  do 3 f_equal.
Qed.

Lemma pow_loop_spec t : forall fuel exp y r, exp <> 0 -> exp < 2 ^ N.of_nat fuel ->
  y < ORDER -> r < ORDER ->
  pow_loop t fuel exp y r = Some ((r * y ^ exp) mod ORDER).
Proof.
  induction fuel as [|fuel IH]; intros exp y r NZ B Hy Hr.
  - cbn in B. lia.
  - cbn [pow_loop]. assert (yw : y < W64) by (consts; lia). assert (rw : r < W64) by (consts; lia).
    destruct (N.leb_spec 2 exp) as [L|L].
    + assert (B' : N.shiftr exp 1 < 2 ^ N.of_nat fuel).
      { rewrite N.shiftr_div_pow2, N.pow_1_r. apply N.div_lt_upper_bound; [lia|].
        rewrite Nat2N.inj_succ, N.pow_succ_r' in B. exact B. }
      assert (NZ' : N.shiftr exp 1 <> 0).
      { rewrite N.shiftr_div_pow2, N.pow_1_r. intros Z. apply N.div_small_iff in Z; lia. }
      assert (E : exp = 2 * N.shiftr exp 1 + bit (negb (N.land exp 1 =? 0))).
      { rewrite N.shiftr_div_pow2, N.pow_1_r. change 1 with (N.ones 1) at 1. rewrite N.land_ones, N.pow_1_r.
        pose proof (N.div_mod exp 2 ltac:(discriminate)). pose proof (N.mod_lt exp 2 ltac:(discriminate)).
        destruct (N.eqb_spec (exp mod 2) 0); cbn [negb bit]; lia. }
      assert (R : exists r', (if negb (N.land exp 1 =? 0) then gl_mul t r y else Some r) = Some r' /\ r' < ORDER /\
                  r' mod ORDER = (r * y ^ bit (negb (N.land exp 1 =? 0))) mod ORDER).
      { destruct (negb (N.land exp 1 =? 0)); cbn [bit].
        - rewrite gl_mul_word by assumption. eexists. split; [reflexivity|].
          split; [now apply N.mod_lt|]. rewrite N.mod_mod by discriminate. now rewrite N.pow_1_r.
        - exists r. split; [reflexivity|]. split; [assumption|]. now rewrite N.pow_0_r, N.mul_1_r. }
      destruct R as (r' & -> & Hr' & Er). unfold gl_square. rewrite gl_mul_word by assumption.
      rewrite IH; [|assumption|assumption|now apply N.mod_lt|assumption]. f_equal.
      rewrite <- N.mul_mod_idemp_r, pow_mod_l, N.mul_mod_idemp_r by discriminate.
      rewrite <- N.mul_mod_idemp_l, Er, N.mul_mod_idemp_l by discriminate.
      f_equal. rewrite E at 3. rewrite N.pow_add_r, N.pow_mul_r, N.pow_2_r. lia.
    + assert (exp = 1) by lia. subst exp. rewrite gl_mul_word by assumption. now rewrite N.pow_1_r.
Qed.

Theorem gl_pow_spec t x exp : x < ORDER -> exp < W64 -> gl_pow t x exp = Some (x ^ exp mod ORDER).
Proof.
  intros Hx He. unfold gl_pow. destruct (N.eqb_spec exp 0) as [->|]; [reflexivity|].
  destruct (N.eqb_spec exp 1) as [->|].
  - rewrite N.pow_1_r. f_equal. symmetry. now apply N.mod_small.
  - rewrite pow_loop_spec; auto; [now rewrite N.mul_1_l|consts; lia].
Qed.

Lemma from_to_le_bytes len : forall n, n < 2 ^ (8 * N.of_nat len) -> from_le_bytes (to_le_bytes len n) = n.
Proof.
  induction len as [|len IH]; intros n H; cbn [to_le_bytes from_le_bytes].
  - cbn in H. lia.
  - rewrite IH.
    + pose proof (N.div_mod n 256 ltac:(discriminate)). lia.
    + apply N.div_lt_upper_bound; [lia|].
      replace (8 * N.of_nat (S len)) with (8 + 8 * N.of_nat len) in H by lia. now rewrite N.pow_add_r in H.
Qed.

Lemma from_le_bytes_bound l : Forall (fun b => b < 256) l -> from_le_bytes l < 2 ^ (8 * N.of_nat (length l)).
Proof.
  induction 1 as [|b l B _ IH]; cbn [from_le_bytes length]; [reflexivity|].
  replace (8 * N.of_nat (S (length l))) with (8 + 8 * N.of_nat (length l)) by lia. rewrite N.pow_add_r.
  change (2 ^ 8) with 256. lia.
Qed.
