(** * C48, C49: the k256 field arithmetic, and the hints built on it *)
From Coq Require Import NArith ZArith List Bool Lia.
From Coq Require Import ZifyBool ZifyN ZifyNat.
From Verif Require Import K256Prime K256Model K256Spec K256Mul K256Norm K256Ops K256Pow K256Bytes.
Import ListNotations.
Local Open Scope N_scope.

(** ** Arithmetic *)
(** Products of elements of magnitude at most 8: no 64-bit sum overflows, no debug assertion fails, and the result has magnitude 1. *)
Theorem C48_mul (x y : fe) : magnitude 8 x -> magnitude 8 y ->
  exists r, mul x y = Some r /\ magnitude 1 r /\ eqm (value r) (value x * value y).
Proof. intros Mx My. destruct (mul_inner_correct x y Mx My) as (r & E & Sh & k & V). exists r. split; [exact E|]. split; [apply shape_magnitude; exact Sh|]. rewrite V. apply eqm_sym, eqm_add_multiple. Qed.
Print Assumptions C48_mul.
Theorem C48_square (x : fe) : magnitude 8 x -> exists r, square x = Some r /\ magnitude 1 r /\ eqm (value r) (value x * value x).
Proof. intros M. exact (C48_mul x x M M). Qed.
Print Assumptions C48_square.
(** [normalize] gives the one canonical representation. *)
Theorem C48_normalize (x : fe) : magnitude 31 x -> exists r, normalize x = Some r /\ canonical r /\ value r = value x mod K256.
Proof. exact (normalize_correct x). Qed.
Print Assumptions C48_normalize.
Theorem C48_canonical_unique (x y : fe) : canonical x -> canonical y -> eqm (value x) (value y) -> x = y.
Proof. intros [Wx Lx] [Wy Ly] E. unfold eqm in E. rewrite !N.mod_small in E by assumption. now apply value_inj. Qed.
Print Assumptions C48_canonical_unique.
Theorem C48_normalize_weak (x : fe) : magnitude 31 x -> exists r, normalize_weak x = Some r /\ magnitude 1 r /\ eqm (value r) (value x).
Proof.
  intros M. destruct (normalize_weak_correct x M) as (r & E & (C0 & C1 & C2 & C3 & C4 & C5 & C6 & C7 & C8 & C9) & k & V). exists r. split; [exact E|]. split; [|rewrite V; apply eqm_sym, eqm_add_multiple].
  unfold magnitude. change (1 * (2 * (2 ^ 26 - 1))) with 134217726. change (1 * (2 * (2 ^ 22 - 1))) with 8388606. powers. repeat split; lia.
Qed.
Print Assumptions C48_normalize_weak.
(** [normalizes_to_zero] decides zero in the field; [is_zero] and [is_odd] do on normalized elements. *)
Theorem C48_zero (x : fe) : magnitude 31 x -> exists b, normalizes_to_zero x = Some b /\ (b = true <-> eqm (value x) 0).
Proof. intros M. exists (value x mod K256 =? 0). split; [now apply normalizes_to_zero_correct|]. rewrite N.eqb_eq. symmetry. apply eqm_zero. Qed.
Print Assumptions C48_zero.
Theorem C48_is_zero (x : fe) : fe_is_zero x = true <-> value x = 0.
Proof.
  destruct x as [t0 t1 t2 t3 t4 t5 t6 t7 t8 t9]. unfold fe_is_zero, value. cbn [l0 l1 l2 l3 l4 l5 l6 l7 l8 l9]. rewrite N.eqb_eq, !N.lor_eq_0_iff. powers. split; [intros H; repeat match goal with H : _ /\ _ |- _ => destruct H end; subst; reflexivity|intros; repeat split; lia].
Qed.
Print Assumptions C48_is_zero.
Theorem C48_is_odd (x : fe) : fe_is_odd x = N.odd (value x).
Proof.
  unfold fe_is_odd, as8. change (N.land (l0 x mod 2 ^ 8) 1) with (N.land (l0 x mod 2 ^ 8) (N.ones 1)). rewrite N.land_ones. unfold value. set (y := l0 x). 
  assert (O : N.odd (y + 2 ^ 26 * l1 x + 2 ^ 52 * l2 x + 2 ^ 78 * l3 x + 2 ^ 104 * l4 x + 2 ^ 130 * l5 x + 2 ^ 156 * l6 x + 2 ^ 182 * l7 x + 2 ^ 208 * l8 x + 2 ^ 234 * l9 x) = N.odd y).
  { assert (G : forall a k b, N.odd (a + 2 ^ N.succ k * b) = N.odd a) by (intros a k b; rewrite N.pow_succ_r', <- N.mul_assoc, N.odd_add, N.odd_mul; cbn [N.odd]; now rewrite andb_false_l, xorb_false_r).
    rewrite (G _ 233), (G _ 207), (G _ 181), (G _ 155), (G _ 129), (G _ 103), (G _ 77), (G _ 51), (G _ 25). reflexivity. }
  rewrite O. change (2 ^ 8) with 256. change (2 ^ 1) with 2. assert (E : (y mod 256) mod 2 = y mod 2) by lia. assert (B : y mod 2 = N.b2n (N.odd y)) by (rewrite <- N.bit0_mod, N.bit0_odd; reflexivity). rewrite E, B. destruct (N.odd y); reflexivity.
Qed.
Print Assumptions C48_is_odd.
(** Negation and addition; the magnitudes add up. *)
Theorem C48_negate (x : fe) (m : N) : m <= 31 -> magnitude m x -> exists r, negate x m = Some r /\ magnitude (m + 1) r /\ eqm (value r + value x) 0.
Proof. intros Hm M. destruct (negate_correct x m Hm M) as (r & E & Mr & V). exists r. split; [exact E|]. split; [exact Mr|]. rewrite V, N.mul_comm. apply (eqm_add_multiple 0). Qed.
Print Assumptions C48_negate.
Theorem C48_add (x y : fe) (m n : N) : m + n <= 31 -> magnitude m x -> magnitude n y -> exists r, fe_add x y = Some r /\ magnitude (m + n) r /\ value r = value x + value y.
Proof. exact (fe_add_correct x y m n). Qed.
Print Assumptions C48_add.
Theorem C48_mul_single (x : fe) (m k : N) : m * k <= 31 -> magnitude m x -> exists r, mul_single x k = Some r /\ magnitude (m * k) r /\ value r = value x * k.
Proof. exact (mul_single_correct x m k). Qed.
Print Assumptions C48_mul_single.
(** The addition chains compute inverses and square roots. *)
Theorem C48_invert (x : fe) : magnitude 8 x -> exists r, invert x = Some r /\ magnitude 1 r /\ (~ eqm (value x) 0 -> eqm (value r * value x) 1) /\ (eqm (value x) 0 -> eqm (value r) 0).
Proof.
  intros M. destruct (invert_rep x M) as (r & E & Sh & V). exists r. split; [exact E|]. split; [apply shape_magnitude; exact Sh|]. split.
  - intros Z. eapply eqm_trans; [apply eqm_mul; [exact V|apply eqm_refl]|]. apply invert_mul. intros C. apply Z. now apply eqm_zero.
  - intros Z. eapply eqm_trans; [exact V|]. apply pow_zero; [exact Z|discriminate].
Qed.
Print Assumptions C48_invert.
Theorem C48_sqrt (x : fe) : magnitude 8 x ->
  (is_square (value x) /\ exists r, sqrt x = Some (Some r) /\ magnitude 1 r /\ eqm (value r * value r) (value x)) \/ (~ is_square (value x) /\ sqrt x = Some None).
Proof.
  intros M. destruct (sqrt_rep x M) as ([r|] & E & H); [left|right; auto]. destruct H as [Sh V]. split; [exists (value r); exact V|]. exists r. split; [exact E|]. split; [apply shape_magnitude; exact Sh|exact V].
Qed.
Print Assumptions C48_sqrt.

(** ** SEC1 encoding *)
Theorem C48_from_bytes (bytes : list N) : are_bytes bytes -> length bytes = 32%nat ->
  (be_value bytes < K256 -> exists x, from_bytes bytes = Some (Some x) /\ canonical x /\ value x = be_value bytes) /\
  (K256 <= be_value bytes -> from_bytes bytes = Some None).
Proof.
  intros A L. destruct (from_bytes_correct bytes A L) as [W V]. unfold from_bytes. rewrite get_overflow_correct by (destruct W as (W0 & W1 & W2 & W3 & W4 & W5 & W6 & W7 & W8 & W9); unfold limbs26; repeat split; try assumption; powers; lia). cbn [bind]. rewrite V. split; intros H.
  - replace (K256 <=? be_value bytes) with false by (symmetry; now apply N.leb_gt). eexists. split; [reflexivity|]. split; [split; [exact W|rewrite V; exact H]|exact V].
  - now replace (K256 <=? be_value bytes) with true by (symmetry; now apply N.leb_le).
Qed.
Print Assumptions C48_from_bytes.
Theorem C48_to_bytes (x : fe) : weakly_normal x -> length (to_bytes x) = 32%nat /\ are_bytes (to_bytes x) /\ be_value (to_bytes x) = value x.
Proof. exact (to_bytes_correct x). Qed.
Print Assumptions C48_to_bytes.
Theorem C48_bytes_round_trip (x : fe) : canonical x -> from_bytes (to_bytes x) = Some (Some x).
Proof.
  intros [W Lx]. destruct (to_bytes_correct x W) as (L & A & V). destruct (C48_from_bytes (to_bytes x) A L) as [H _]. rewrite V in H. destruct (H Lx) as (y & E & [Wy _] & Vy). rewrite E. do 2 f_equal. apply value_inj; auto.
Qed.
Print Assumptions C48_bytes_round_trip.
Theorem C48_bytes_round_trip_back (bytes : list N) (x : fe) : are_bytes bytes -> length bytes = 32%nat -> from_bytes bytes = Some (Some x) -> to_bytes x = bytes.
Proof.
  intros A L E. destruct (C48_from_bytes bytes A L) as [H1 H2]. destruct (N.lt_ge_cases (be_value bytes) K256) as [Lt|Ge]; [|rewrite (H2 Ge) in E; discriminate]. destruct (H1 Lt) as (y & E' & [W _] & V). rewrite E' in E. injection E as <-. destruct (to_bytes_correct y W) as (L' & A' & V'). apply be_value_inj; auto; congruence.
Qed.
Print Assumptions C48_bytes_round_trip_back.
Theorem C48_from_u64 (v : N) : v < 2 ^ 64 -> value (from_u64 v) = v /\ canonical (from_u64 v).
Proof.
  intros H. assert (E : from_u64 v = FE (v mod 2 ^ 26) (v / 2 ^ 26 mod 2 ^ 26) (v / 2 ^ 52) 0 0 0 0 0 0 0).
  { unfold from_u64, as32. rewrite !low26, !N.shiftr_div_pow2. change (2 ^ 64) with 18446744073709551616 in H. powers. f_equal; lia. }
  rewrite E. change (2 ^ 64) with 18446744073709551616 in H. assert (V : value (FE (v mod 2 ^ 26) (v / 2 ^ 26 mod 2 ^ 26) (v / 2 ^ 52) 0 0 0 0 0 0 0) = v). { unfold value. cbn [l0 l1 l2 l3 l4 l5 l6 l7 l8 l9]. powers. lia. }
  split; [exact V|]. split; [|rewrite V; powers; lia]. unfold weakly_normal. cbn [l0 l1 l2 l3 l4 l5 l6 l7 l8 l9]. powers. repeat split; lia.
Qed.
Print Assumptions C48_from_u64.

(** ** Hints *)
Lemma magnitude_words x : magnitude 8 x -> words32 x.
Proof. intros (H0 & H1 & H2 & H3 & H4 & H5 & H6 & H7 & H8 & H9). unfold words32. change (8 * (2 * (2 ^ 26 - 1))) with 1073741808 in *. change (8 * (2 * (2 ^ 22 - 1))) with 67108848 in *. powers. repeat split; lia. Qed.
Lemma magnitude_le m x : m <= 8 -> magnitude m x -> magnitude 8 x. Proof. apply magnitude_mono. Qed.
Lemma weakly_normal_magnitude x : weakly_normal x -> magnitude 1 x.
Proof. intros (H0 & H1 & H2 & H3 & H4 & H5 & H6 & H7 & H8 & H9). unfold magnitude. change (1 * (2 * (2 ^ 26 - 1))) with 134217726. change (1 * (2 * (2 ^ 22 - 1))) with 8388606. powers. repeat split; lia. Qed.
Lemma ensure_noop x : weakly_normal x -> ensure_weakly_normalized_10x26 x = x.
Proof.
  destruct x as [x0 x1 x2 x3 x4 x5 x6 x7 x8 x9]. intros (H0 & H1 & H2 & H3 & H4 & H5 & H6 & H7 & H8 & H9). cbn [l0 l1 l2 l3 l4 l5 l6 l7 l8 l9] in *. unfold ensure_weakly_normalized_10x26. rewrite !low26, low22. rewrite !N.mod_small by assumption. reflexivity.
Qed.
Lemma read_fe_bytes_nil x : words32 x -> read_fe (fe_bytes x) = Some (x, []).
Proof. intros H. pose proof (read_fe_bytes x [] H) as E. now rewrite app_nil_r in E. Qed.
Lemma three_magnitude : magnitude 8 K256_NON_QUADRATIC_RESIDUE.
Proof. repeat split; vm_compute; discriminate. Qed.

(** Whatever the stream holds, the elements that the guest returns have nine limbs of 26 bits and one of 22. *)
Theorem C49_masked (x : fe) : weakly_normal (ensure_weakly_normalized_10x26 x).
Proof. destruct x as [x0 x1 x2 x3 x4 x5 x6 x7 x8 x9]. unfold weakly_normal, ensure_weakly_normalized_10x26. cbn [l0 l1 l2 l3 l4 l5 l6 l7 l8 l9]. rewrite !low26, low22. repeat split; now apply N.mod_lt. Qed.
Print Assumptions C49_masked.

(** The inverse hint: what the executor writes is canonical, the guest's mask changes nothing, and the result is the inverse. *)
Theorem C49_inverse_hint (x : fe) : magnitude 8 x -> exists r, exec_inverse (fe_bytes x) = Some (fe_bytes r) /\ guest_inverse x = Some r /\ canonical r /\
  (~ eqm (value x) 0 -> eqm (value r * value x) 1).
Proof.
  intros M. destruct (C48_invert x M) as (y & Ey & My & Iy & _). destruct (C48_normalize y) as (r & Er & Cr & Vr); [eapply magnitude_mono; [|exact My]; discriminate|].
  assert (Wr : words32 r) by (apply magnitude_words; eapply magnitude_mono; [|apply weakly_normal_magnitude, Cr]; discriminate).
  assert (X : exec_inverse (fe_bytes x) = Some (fe_bytes r)). { unfold exec_inverse. rewrite (read_fe_bytes_nil x (magnitude_words x M)). cbn [bind]. rewrite Ey. cbn [bind]. rewrite Er. reflexivity. }
  exists r. split; [exact X|]. split; [|split; [exact Cr|]].
  - unfold guest_inverse. rewrite X. cbn [bind]. rewrite (read_fe_bytes_nil r Wr). cbn [bind]. rewrite ensure_noop by apply Cr. reflexivity.
  - intros Z. rewrite Vr. eapply eqm_trans; [apply eqm_mul; [apply eqm_mod|apply eqm_refl]|]. now apply Iy.
Qed.
Print Assumptions C49_inverse_hint.

(** The square root hint, as the executor writes it: the flag tells whether the input is a square, what follows is a root of
    the input or of three times the input, and the [unwrap] never panics. *)
Theorem C49_sqrt_hint (x : fe) : magnitude 8 x -> exists flag root, exec_sqrt (fe_bytes x) = Some (word_bytes flag ++ fe_bytes root) /\ magnitude 1 root /\
  ((flag = 1 /\ is_square (value x) /\ eqm (value root * value root) (value x)) \/ (flag = 0 /\ ~ is_square (value x) /\ eqm (value root * value root) (3 * value x))).
Proof.
  intros M. unfold exec_sqrt. rewrite (read_fe_bytes_nil x (magnitude_words x M)). cbn [bind]. destruct (C48_sqrt x M) as [[Sq (r & -> & Mr & V)]|[Ns ->]]; cbn [bind].
  - exists 1, r. split; [reflexivity|]. split; [exact Mr|]. left. auto.
  - destruct (C48_mul x K256_NON_QUADRATIC_RESIDUE M three_magnitude) as (p & -> & Mp & Vp). cbn [bind]. change (value K256_NON_QUADRATIC_RESIDUE) with 3 in Vp.
    assert (Sp : is_square (value p)). { destruct (nonsquare_times_three _ Ns) as [y Hy]. exists y. eapply eqm_trans; [exact Hy|]. now apply eqm_sym. }
    destruct (C48_sqrt p (magnitude_mono 1 8 p ltac:(discriminate) Mp)) as [[_ (r & -> & Mr & V)]|[Nsp _]]; [|contradiction]. cbn [bind]. exists 0, r. split; [reflexivity|]. split; [exact Mr|]. right. split; [reflexivity|]. split; [exact Ns|]. eapply eqm_trans; [exact V|]. rewrite N.mul_comm. exact Vp.
Qed.
Print Assumptions C49_sqrt_hint.

(** What the guest returns: the flag is right, and the root is the one of the stream if its limbs have 26 and 22 bits. The
    missing case is refuted below: the third limb may have 27 bits, and the guest then cuts it off. *)
Theorem C49_sqrt_guest_partial (x : fe) : magnitude 8 x -> exists flag root, exec_sqrt (fe_bytes x) = Some (word_bytes flag ++ fe_bytes root) /\
  guest_sqrt x = Some (negb (flag =? 0), ensure_weakly_normalized_10x26 root) /\ (negb (flag =? 0) = true <-> is_square (value x)) /\
  (weakly_normal root -> ensure_weakly_normalized_10x26 root = root /\ eqm (value root * value root) (if negb (flag =? 0) then value x else 3 * value x)).
Proof.
  intros M. destruct (C49_sqrt_hint x M) as (flag & root & E & Mr & H). exists flag, root. split; [exact E|]. split; [|split].
  - unfold guest_sqrt. rewrite E. cbn [bind]. rewrite word_round_trip by (destruct H as [[-> _]|[-> _]]; reflexivity). cbn [bind]. rewrite read_fe_bytes_nil by (apply magnitude_words; eapply magnitude_mono; [|exact Mr]; discriminate). reflexivity.
  - destruct H as [(-> & S & _)|(-> & S & _)]; cbn; split; auto; discriminate.
  - intros W. split; [now apply ensure_noop|]. destruct H as [(-> & _ & V)|(-> & _ & V)]; exact V.
Qed.
Print Assumptions C49_sqrt_guest_partial.

(** The square root in the stream is not normalized, so "for an honest prover, this is a no-op" (hints-guest/src/lib.rs 118) does
    not hold: 338398 is a square, the executor answers with a right root, and the guest returns something that is not a root. *)
Definition bad_input : fe := FE 338398 0 0 0 0 0 0 0 0 0.
Definition bad_root : fe := FE 29432375 21886788 67110698 18246611 46151532 18480286 54222992 35240723 20383866 930171.
Theorem C49_sqrt_mask_refuted : exists x root r, canonical x /\ is_square (value x) /\ exec_sqrt (fe_bytes x) = Some (word_bytes 1 ++ fe_bytes root) /\ eqm (value root * value root) (value x) /\
  guest_sqrt x = Some (true, r) /\ r <> root /\ ~ eqm (value r * value r) (value x).
Proof.
  exists bad_input, bad_root, (ensure_weakly_normalized_10x26 bad_root). assert (V : eqm (value bad_root * value bad_root) (value bad_input)) by (vm_compute; reflexivity).
  split; [split; [repeat split; reflexivity|reflexivity]|]. split; [exists (value bad_root); exact V|]. split; [vm_compute; reflexivity|]. split; [exact V|]. split; [vm_compute; reflexivity|]. split; [discriminate|]. intros C. vm_compute in C. discriminate.
Qed.
Print Assumptions C49_sqrt_mask_refuted.

(** The guest code for the VM and the code for other targets agree on reversed bytes. *)
Lemma land_byte x k : N.land x (N.shiftl 255 k) = N.shiftl (N.shiftr x k mod 256) k.
Proof.
  rewrite <- land8. apply N.bits_inj. intros i. rewrite N.land_spec. destruct (N.lt_ge_cases i k) as [H|H]; [rewrite !N.shiftl_spec_low by exact H; apply andb_false_r|]. rewrite !N.shiftl_spec_high' by exact H. rewrite N.land_spec, N.shiftr_spec', N.sub_add by exact H. reflexivity.
Qed.
Theorem C49_reverse_bytes (v : N) : v < 2 ^ 32 -> guest_reverse_bytes v = Some (host_reverse_bytes v) /\ word_bytes (host_reverse_bytes v) = rev (word_bytes v).
Proof.
  intros H. unfold guest_reverse_bytes, exec_reverse_bytes. cbn [word_bytes rev app read_word bind ok]. unfold word_bytes. cbn [rev app read_word bind]. unfold bytes_word.
  assert (E : host_reverse_bytes v = v / 16777216 mod 256 + 256 * (v / 65536 mod 256) + 65536 * (v / 256 mod 256) + 16777216 * (v mod 256)).
  { unfold host_reverse_bytes. change 0x0000FF00 with (N.shiftl 255 8). change 0x00FF0000 with (N.shiftl 255 16). change 0xFF000000 with (N.shiftl 255 24). change 0x000000FF with 255. rewrite land8, !land_byte.
    pose proof (N.mod_lt v 256 ltac:(discriminate)) as M0. pose proof (N.mod_lt (N.shiftr v 8) 256 ltac:(discriminate)) as M1. pose proof (N.mod_lt (N.shiftr v 16) 256 ltac:(discriminate)) as M2. pose proof (N.mod_lt (N.shiftr v 24) 256 ltac:(discriminate)) as M3.
    rewrite (shr24 v), (shr16 v), (shr8 v) in *. set (b0 := v mod 256) in *. set (b1 := v / 256 mod 256) in *. set (b2 := v / 65536 mod 256) in *. set (b3 := v / 16777216 mod 256) in *. clearbody b0 b1 b2 b3.
    unfold shl32. rewrite N.shiftl_shiftl. change (8 + 8) with 16. rewrite (N.shiftr_shiftl_l b2 16 8), (N.shiftr_shiftl_l b3 24 24) by (vm_compute; discriminate). change (16 - 8) with 8. change (24 - 24) with 0. rewrite N.shiftl_0_r.
    rewrite (N.mod_small (N.shiftl b0 24)), (N.mod_small (N.shiftl b1 16)) by (rewrite N.shiftl_mul_pow2; change (2 ^ 24) with 16777216; change (2 ^ 16) with 65536; change (2 ^ 32) with 4294967296; lia).
    rewrite (N.lor_comm (N.shiftl b0 24)), (lor_add (N.shiftl b1 16) b0 24) by (rewrite N.shiftl_mul_pow2; change (2 ^ 24) with 16777216; change (2 ^ 16) with 65536; lia).
    replace (N.shiftl b1 16 + b0 * 2 ^ 24) with (N.shiftl (b1 + b0 * 256) 16) by (rewrite !N.shiftl_mul_pow2; change (2 ^ 24) with 16777216; change (2 ^ 16) with 65536; lia).
    rewrite (N.lor_comm (N.shiftl (b1 + b0 * 256) 16)), (lor_add (N.shiftl b2 8) (b1 + b0 * 256) 16) by (rewrite N.shiftl_mul_pow2; change (2 ^ 8) with 256; change (2 ^ 16) with 65536; lia).
    replace (N.shiftl b2 8 + (b1 + b0 * 256) * 2 ^ 16) with (N.shiftl (b2 + b1 * 256 + b0 * 65536) 8) by (rewrite !N.shiftl_mul_pow2; change (2 ^ 8) with 256; change (2 ^ 16) with 65536; lia).
    rewrite N.lor_comm, lor_add by (change (2 ^ 8) with 256; lia). change (2 ^ 8) with 256. lia. }
  rewrite E. split; [reflexivity|]. change (2 ^ 32) with 4294967296 in H.
  pose proof (N.mod_lt v 256 ltac:(discriminate)) as M0. pose proof (N.mod_lt (v / 256) 256 ltac:(discriminate)) as M1. pose proof (N.mod_lt (v / 65536) 256 ltac:(discriminate)) as M2. pose proof (N.mod_lt (v / 16777216) 256 ltac:(discriminate)) as M3.
  set (b0 := v mod 256) in *. set (b1 := v / 256 mod 256) in *. set (b2 := v / 65536 mod 256) in *. set (b3 := v / 16777216 mod 256) in *. clearbody b0 b1 b2 b3.
  apply (f_equal2 cons); [lia|]. apply (f_equal2 cons); [lia|]. apply (f_equal2 cons); [lia|]. apply (f_equal2 cons); [lia|reflexivity].
Qed.
Print Assumptions C49_reverse_bytes.

(** The hypotheses are met: elements of magnitude 8 and 31, a non-square, a string of bytes. *)
Example C48_example :
  magnitude 8 (FE 1073741808 5 7 1073741808 0 1 2 3 1073741808 67108848) /\ magnitude 31 (FE 4160749506 1 4160749506 3 4 5 6 7 4160749506 260046786) /\
  (exists r, mul (FE 1073741808 5 7 1073741808 0 1 2 3 1073741808 67108848) (FE 1073741808 5 7 1073741808 0 1 2 3 1073741808 67108848) = Some r) /\
  guest_inverse (FE 338398 0 0 0 0 0 0 0 0 0) = Some (FE 16110631 17685964 13370687 44008127 36545196 2683180 63201693 20430644 39034823 1507169) /\
  (exists r, guest_sqrt (FE 5 0 0 0 0 0 0 0 0 0) = Some (false, r)) /\ (exists r, guest_sqrt (FE 4 0 0 0 0 0 0 0 0 0) = Some (true, r)) /\
  from_bytes (repeat 7 32) = Some (Some (from_bytes_unchecked (repeat 7 32))) /\ from_bytes (repeat 255 32) = Some None.
Proof.
  split; [repeat split; vm_compute; discriminate|]. split; [repeat split; vm_compute; discriminate|]. split; [eexists; vm_compute; reflexivity|]. split; [vm_compute; reflexivity|]. split; [eexists; vm_compute; reflexivity|]. split; [eexists; vm_compute; reflexivity|]. split; vm_compute; reflexivity.
Qed.
