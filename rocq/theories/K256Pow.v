(** The addition chains of [invert] and [sqrt], and the squares of the field. *)
From Coq Require Import NArith ZArith Znumtheory Zpow_facts List Bool Lia.
From Coq Require Import ZifyBool ZifyN ZifyNat.
From Verif Require Import Field Fermat K256Prime K256Model K256Spec K256Mul K256Norm K256Ops.
Local Open Scope N_scope.

Lemma K256_prime : prime (Z.of_N K256). Proof. exact prime_k256. Qed.
Lemma K256_nz : K256 <> 0. Proof. discriminate. Qed.
Lemma fermat_K a : a mod K256 <> 0 -> eqm (a ^ (K256 - 1)) 1.
Proof. intros H. unfold eqm. change (1 mod K256) with 1. exact (fermat_N prime_k256 a H). Qed.

Lemma eqm_refl a : eqm a a. Proof. reflexivity. Qed.
Lemma eqm_sym a b : eqm a b -> eqm b a. Proof. unfold eqm. auto. Qed.
Lemma eqm_trans a b c : eqm a b -> eqm b c -> eqm a c. Proof. unfold eqm. congruence. Qed.
Lemma eqm_mul a b c d : eqm a b -> eqm c d -> eqm (a * c) (b * d).
Proof. unfold eqm. intros H1 H2. rewrite (N.mul_mod a), (N.mul_mod b), H1, H2 by exact K256_nz. reflexivity. Qed.
Lemma eqm_pow a b e : eqm a b -> eqm (a ^ e) (b ^ e).
Proof. unfold eqm. intros H. rewrite (pow_mod a), (pow_mod b), H by exact K256_nz. reflexivity. Qed.
Lemma eqm_mod a : eqm (a mod K256) a. Proof. unfold eqm. apply N.mod_mod. exact K256_nz. Qed.
Lemma eqm_add_multiple a k : eqm (a + K256 * k) a. Proof. unfold eqm. rewrite N.mul_comm. apply N.mod_add. exact K256_nz. Qed.

(** The limbs that a product has. *)
Definition shape (r : fe) : Prop := l0 r < 2 ^ 26 /\ l1 r < 2 ^ 26 /\ l2 r <= 68157440 /\ l3 r < 2 ^ 26 /\ l4 r < 2 ^ 26 /\ l5 r < 2 ^ 26 /\ l6 r < 2 ^ 26 /\ l7 r < 2 ^ 26 /\ l8 r < 2 ^ 26 /\ l9 r < 2 ^ 22.
Lemma shape_magnitude r : shape r -> magnitude 1 r.
Proof. intros (H0 & H1 & H2 & H3 & H4 & H5 & H6 & H7 & H8 & H9). unfold magnitude. change (1 * (2 * (2 ^ 26 - 1))) with 134217726. change (1 * (2 * (2 ^ 22 - 1))) with 8388606. powers. repeat split; lia. Qed.

Definition rep (a e : N) (x : fe) : Prop := magnitude 8 x /\ eqm (value x) (a ^ e).
Lemma mul_rep a e f x y : rep a e x -> rep a f y -> wp (mul x y) (fun r => shape r /\ rep a (e + f) r).
Proof.
  intros [M1 V1] [M2 V2]. eapply wp_weaken; [apply (mul_inner_correct x y M1 M2)|]. intros r [Sh [k E]]. split; [exact Sh|]. split; [eapply magnitude_mono; [|apply shape_magnitude; exact Sh]; lia|].
  rewrite N.pow_add_r. eapply eqm_trans; [apply eqm_sym, (eqm_add_multiple _ k)|]. rewrite <- E. now apply eqm_mul.
Qed.
Lemma pow2k_rep a e x k : rep a e x -> wp (pow2k x k) (fun r => (k <> O -> shape r) /\ rep a (e * 2 ^ N.of_nat k) r).
Proof.
  intros H. induction k as [|k IH].
  - apply wp_ret. split; [congruence|]. change (2 ^ N.of_nat 0) with 1. now rewrite N.mul_1_r.
  - cbn [pow2k]. eapply wp_bind; [exact IH|]. intros v [_ R]. eapply wp_weaken; [apply (mul_rep a _ _ v v R R)|]. intros r [Sh R']. split; [auto|]. replace (e * 2 ^ N.of_nat (S k)) with (e * 2 ^ N.of_nat k + e * 2 ^ N.of_nat k); [exact R'|]. rewrite Nat2N.inj_succ, N.pow_succ_r'. lia.
Qed.
(** A step of the chains: square [k] times, then multiply. *)
Lemma chain_step {A} a e f g x y k (next : fe -> option A) post : rep a e x -> rep a f y -> (e * 2 ^ N.of_nat k + f =? g) = true -> (forall r, shape r -> rep a g r -> wp (next r) post) ->
  wp (bind (pow2k x k) (fun z => bind (mul z y) next)) post.
Proof. intros Rx Ry G H. apply N.eqb_eq in G. subst g. eapply wp_bind; [apply (pow2k_rep a e x k Rx)|]. intros z [_ Rz]. eapply wp_bind; [apply (mul_rep a _ _ z y Rz Ry)|]. intros r [Sh R]. now apply H. Qed.

Lemma ladder_rep a x : rep a 1 x -> wp (ladder x) (fun t => let '(x2, x22, x223) := t in rep a (2 ^ 2 - 1) x2 /\ rep a (2 ^ 22 - 1) x22 /\ rep a (2 ^ 223 - 1) x223).
Proof.
  intros R. unfold ladder.
  eapply (chain_step a 1 1 (2 ^ 2 - 1)); [exact R|exact R|reflexivity|intros x2 _ R2].
  eapply (chain_step a (2 ^ 2 - 1) 1 (2 ^ 3 - 1)); [exact R2|exact R|reflexivity|intros x3 _ R3].
  eapply (chain_step a (2 ^ 3 - 1) (2 ^ 3 - 1) (2 ^ 6 - 1)); [exact R3|exact R3|reflexivity|intros x6 _ R6].
  eapply (chain_step a (2 ^ 6 - 1) (2 ^ 3 - 1) (2 ^ 9 - 1)); [exact R6|exact R3|reflexivity|intros x9 _ R9].
  eapply (chain_step a (2 ^ 9 - 1) (2 ^ 2 - 1) (2 ^ 11 - 1)); [exact R9|exact R2|reflexivity|intros x11 _ R11].
  eapply (chain_step a (2 ^ 11 - 1) (2 ^ 11 - 1) (2 ^ 22 - 1)); [exact R11|exact R11|reflexivity|intros x22 _ R22].
  eapply (chain_step a (2 ^ 22 - 1) (2 ^ 22 - 1) (2 ^ 44 - 1)); [exact R22|exact R22|reflexivity|intros x44 _ R44].
  eapply (chain_step a (2 ^ 44 - 1) (2 ^ 44 - 1) (2 ^ 88 - 1)); [exact R44|exact R44|reflexivity|intros x88 _ R88].
  eapply (chain_step a (2 ^ 88 - 1) (2 ^ 88 - 1) (2 ^ 176 - 1)); [exact R88|exact R88|reflexivity|intros x176 _ R176].
  eapply (chain_step a (2 ^ 176 - 1) (2 ^ 44 - 1) (2 ^ 220 - 1)); [exact R176|exact R44|reflexivity|intros x220 _ R220].
  eapply (chain_step a (2 ^ 220 - 1) (2 ^ 3 - 1) (2 ^ 223 - 1)); [exact R220|exact R3|reflexivity|intros x223 _ R223].
  apply wp_ret. auto.
Qed.
Lemma rep_self x : magnitude 8 x -> rep (value x) 1 x.
Proof. intros M. split; [exact M|]. rewrite N.pow_1_r. apply eqm_refl. Qed.

Definition e1 : N := (2 ^ 223 - 1) * 2 ^ 23 + (2 ^ 22 - 1).
Definition e2 : N := e1 * 2 ^ 5 + 1.
Definition e3 : N := e2 * 2 ^ 3 + 3.
Lemma invert_rep x : magnitude 8 x -> wp (invert x) (fun r => shape r /\ eqm (value r) (value x ^ (K256 - 2))).
Proof.
  intros M. pose proof (rep_self x M) as R. unfold invert. eapply wp_bind; [apply (ladder_rep _ x R)|]. intros [[x2 x22] x223] (R2 & R22 & R223).
  eapply (chain_step _ (2 ^ 223 - 1) (2 ^ 22 - 1) e1); [exact R223|exact R22|reflexivity|intros y1 _ S1].
  eapply (chain_step _ e1 1 e2); [exact S1|exact R|reflexivity|intros y2 _ S2].
  eapply (chain_step _ e2 (2 ^ 2 - 1) e3); [exact S2|exact R2|reflexivity|intros y3 _ S3].
  eapply wp_bind; [apply (pow2k_rep _ e3 y3 2 S3)|]. intros z [_ Rz]. eapply wp_weaken; [apply (mul_rep _ _ _ z x Rz R)|]. intros r [Sh [_ V]]. split; [exact Sh|exact V].
Qed.
Lemma invert_mul x : x mod K256 <> 0 -> eqm (x ^ (K256 - 2) * x) 1.
Proof. intros H. pose proof (fermat_K x H) as Fe. replace (K256 - 1) with (N.succ (K256 - 2)) in Fe by reflexivity. rewrite N.pow_succ_r', N.mul_comm in Fe. exact Fe. Qed.

(** ** Squares *)
Lemma K256_odd_parts : K256 - 1 = 2 * ((K256 - 1) / 2) /\ (K256 + 1) / 4 * 2 = (K256 - 1) / 2 + 1.
Proof. split; vm_compute; reflexivity. Qed.
Lemma eqm_zero a : eqm a 0 <-> a mod K256 = 0. Proof. unfold eqm. now rewrite N.mod_0_l by exact K256_nz. Qed.
Lemma pow_zero a e : eqm a 0 -> e <> 0 -> eqm (a ^ e) 0.
Proof. intros H He. eapply eqm_trans; [apply (eqm_pow a 0 e H)|]. rewrite N.pow_0_l by exact He. apply eqm_refl. Qed.
Lemma square_root a : is_square a -> eqm (a ^ ((K256 + 1) / 4) * a ^ ((K256 + 1) / 4)) a.
Proof.
  intros [y Hy]. set (q := (K256 + 1) / 4). assert (Q : q + q = (K256 - 1) / 2 + 1) by (vm_compute; reflexivity). rewrite <- N.pow_add_r, Q. rewrite N.pow_add_r, N.pow_1_r.
  destruct (N.eq_dec (y mod K256) 0) as [Z|Z].
  - assert (A : eqm a 0). { eapply eqm_trans; [apply eqm_sym, Hy|]. change 0 with (0 * 0). apply eqm_mul; now apply eqm_zero. } eapply eqm_trans; [apply eqm_mul; [apply eqm_refl|exact A]|]. rewrite N.mul_0_r. now apply eqm_sym.
  - assert (A : eqm (a ^ ((K256 - 1) / 2)) 1). { eapply eqm_trans; [apply eqm_pow, eqm_sym, Hy|]. rewrite <- N.pow_2_r, <- N.pow_mul_r. rewrite <- (proj1 K256_odd_parts). now apply fermat_K. }
    eapply eqm_trans; [apply eqm_mul; [exact A|apply eqm_refl]|]. rewrite N.mul_1_l. apply eqm_refl.
Qed.
Lemma sqrt_one e : eqm (e * e) 1 -> eqm e 1 \/ eqm e (K256 - 1).
Proof.
  unfold eqm. intros H. set (f := e mod K256). assert (Lf : f < K256) by (apply N.mod_lt; exact K256_nz). assert (Hf : (f * f) mod K256 = 1) by (unfold f; rewrite <- N.mul_mod by exact K256_nz; exact H).
  assert (D : (Z.of_N K256 | (Z.of_N f - 1) * (Z.of_N f + 1))%Z). { exists (Z.of_N (f * f / K256)). pose proof (N.div_mod (f * f) K256 K256_nz) as E. rewrite Hf in E. set (k := f * f / K256) in *. clearbody k. lia. }
  apply (prime_mult _ K256_prime) in D. change (1 mod K256) with 1. change ((K256 - 1) mod K256) with (K256 - 1). assert (KZ : (1 < Z.of_N K256)%Z) by reflexivity. set (KK := K256) in *. clearbody KK. clearbody f. clear H.
  destruct D as [[k D]|[k D]].
  - left. assert (0 < f) by (destruct (N.eq_dec f 0) as [->|]; [rewrite N.mul_0_l, N.mod_0_l in Hf by lia; discriminate|lia]). assert (k = 0)%Z by nia. nia.
  - right. assert (k = 1)%Z by nia. nia.
Qed.
Lemma euler a : ~ is_square a -> eqm (a ^ ((K256 - 1) / 2)) (K256 - 1).
Proof.
  intros H. assert (Z : a mod K256 <> 0). { intros Z. apply H. exists 0. apply eqm_sym. now apply eqm_zero. }
  assert (S2 : eqm (a ^ ((K256 - 1) / 2) * a ^ ((K256 - 1) / 2)) 1). { rewrite <- N.pow_2_r, <- N.pow_mul_r, N.mul_comm, <- (proj1 K256_odd_parts). now apply fermat_K. }
  destruct (sqrt_one _ S2) as [S1|S1]; [|exact S1]. exfalso. apply H. exists (a ^ ((K256 + 1) / 4)). rewrite <- N.pow_2_r, <- N.pow_mul_r, (proj2 K256_odd_parts), N.pow_add_r, N.pow_1_r.
  eapply eqm_trans; [apply eqm_mul; [exact S1|apply eqm_refl]|]. rewrite N.mul_1_l. apply eqm_refl.
Qed.
Lemma three_nonsquare_pow : eqm (3 ^ ((K256 - 1) / 2)) (K256 - 1).
Proof.
  unfold eqm. apply N2Z.inj. rewrite N2Z.inj_mod, N2Z.inj_pow. transitivity (Zpow_mod 3 (Z.of_N ((K256 - 1) / 2)) (Z.of_N K256)); [symmetry; apply Zpow_mod_correct; discriminate|]. vm_compute. reflexivity.
Qed.
Lemma three_nonsquare : ~ is_square 3.
Proof.
  intros [y Hy]. destruct (N.eq_dec (y mod K256) 0) as [Z|Z]. { assert (A : eqm 3 0) by (eapply eqm_trans; [apply eqm_sym, Hy|]; change 0 with (0 * 0); apply eqm_mul; now apply eqm_zero). vm_compute in A. discriminate. }
  assert (A : eqm (3 ^ ((K256 - 1) / 2)) 1). { eapply eqm_trans; [apply eqm_pow, eqm_sym, Hy|]. rewrite <- N.pow_2_r, <- N.pow_mul_r. rewrite <- (proj1 K256_odd_parts). now apply fermat_K. }
  pose proof (eqm_trans _ _ _ (eqm_sym _ _ A) three_nonsquare_pow) as C. vm_compute in C. discriminate.
Qed.
(** Of two non-squares the product is a square. *)
Lemma square_by_euler a : eqm (a ^ ((K256 - 1) / 2)) 1 -> is_square a.
Proof. intros H. exists (a ^ ((K256 + 1) / 4)). rewrite <- N.pow_2_r, <- N.pow_mul_r, (proj2 K256_odd_parts), N.pow_add_r, N.pow_1_r. eapply eqm_trans; [apply eqm_mul; [exact H|apply eqm_refl]|]. rewrite N.mul_1_l. apply eqm_refl. Qed.
Lemma minus_one_squared : eqm ((K256 - 1) * (K256 - 1)) 1. Proof. vm_compute. reflexivity. Qed.
Lemma nonsquare_times_three a : ~ is_square a -> is_square (a * 3).
Proof. intros H. apply square_by_euler. rewrite N.pow_mul_l. eapply eqm_trans; [apply eqm_mul; [apply euler, H|exact three_nonsquare_pow]|]. exact minus_one_squared. Qed.

Definition s2 : N := e1 * 2 ^ 6 + 3.
Lemma sqrt_rep x : magnitude 8 x -> wp (sqrt x) (fun o => match o with Some r => shape r /\ eqm (value r * value r) (value x) | None => ~ is_square (value x) end).
Proof.
  intros M. pose proof (rep_self x M) as R. unfold sqrt. eapply wp_bind; [apply (ladder_rep _ x R)|]. intros [[x2 x22] x223] (R2 & R22 & R223).
  eapply (chain_step _ (2 ^ 223 - 1) (2 ^ 22 - 1) e1); [exact R223|exact R22|reflexivity|intros y1 _ S1].
  eapply (chain_step _ e1 (2 ^ 2 - 1) s2); [exact S1|exact R2|reflexivity|intros y2 _ S2].
  eapply wp_bind; [apply (pow2k_rep _ s2 y2 2 S2)|]. intros res [Sh Rr]. specialize (Sh ltac:(discriminate)).
  eapply wp_bind; [apply (mul_inner_correct res res (proj1 Rr) (proj1 Rr))|]. intros sq [Shq [k Eq]].
  eapply wp_bind; [apply (negate_correct sq 1); [discriminate|apply shape_magnitude; exact Shq]|]. intros ng [Mn En].
  eapply wp_bind; [apply (fe_add_correct ng x 2 8); [discriminate|exact Mn|exact M]|]. intros df [Md Ed].
  rewrite normalizes_to_zero_correct by (eapply magnitude_mono; [|exact Md]; discriminate). cbn [bind]. apply wp_ret.
  assert (Iff : value df mod K256 = 0 <-> eqm (value sq) (value x)).
  { assert (Es : value df + value sq = value x + K256 * 4) by (rewrite Ed; lia). clear - Es. unfold eqm.
    assert (E2 : (value df + value sq) mod K256 = value x mod K256) by (rewrite Es; apply eqm_add_multiple). rewrite N.add_mod in E2 by exact K256_nz. pose proof (N.mod_lt (value df) K256 K256_nz) as L1. pose proof (N.mod_lt (value sq) K256 K256_nz) as L2. set (d := value df mod K256) in *. set (q := value sq mod K256) in *. clearbody d q. rewrite <- E2. clear - L1 L2. split.
    - intros ->. rewrite N.add_0_l. symmetry. now apply N.mod_small.
    - intros E. destruct (N.lt_ge_cases (d + q) K256) as [L|L]; [rewrite N.mod_small in E by exact L; lia|]. replace (d + q) with (d + q - K256 + 1 * K256) in E by lia. rewrite N.mod_add in E by exact K256_nz. rewrite N.mod_small in E by lia. lia. }
  assert (Sq : eqm (value sq) (value res * value res)) by (rewrite Eq; apply eqm_sym, eqm_add_multiple).
  destruct (value df mod K256 =? 0) eqn:Z.
  - apply N.eqb_eq in Z. split; [exact Sh|]. eapply eqm_trans; [apply eqm_sym, Sq|]. now apply Iff.
  - apply N.eqb_neq in Z. intros Q. apply Z. apply Iff. eapply eqm_trans; [exact Sq|]. destruct Rr as [_ V]. eapply eqm_trans; [apply eqm_mul; exact V|]. exact (square_root (value x) Q).
Qed.
