(** Pocklington's criterion, and the primality of the coordinate field of secp256k1,
    2^256 - 2^32 - 977 (openvm-riscv/extensions/hints-circuit/src/field10x26_k256.rs 48). *)
From Coq Require Import NArith ZArith Znumtheory Zpow_facts Bool List Lia.
From Coq Require Import ZifyBool ZifyN ZifyNat.
From Verif Require Import Field Fermat Primes.
Import ListNotations.
Local Open Scope N_scope.

Lemma pow_mod (a e n : N) : n <> 0 -> (a ^ e) mod n = ((a mod n) ^ e) mod n.
Proof.
  intros Hn. induction e as [|e IH] using N.peano_ind; [reflexivity|]. rewrite !N.pow_succ_r'. rewrite N.mul_mod, IH by auto. rewrite N.mul_mod_idemp_r by auto. reflexivity.
Qed.
Lemma pow_one_mod (x e n : N) : 1 < n -> x mod n = 1 -> (x ^ e) mod n = 1.
Proof. intros Hn H. rewrite pow_mod, H, N.pow_1_l by lia. apply N.mod_small. lia. Qed.
Lemma mod_divisor (x y s n : N) : s <> 0 -> n <> 0 -> (s | n) -> x mod n = y mod n -> x mod s = y mod s.
Proof.
  intros Hs Hn [q ->] H. rewrite (N.div_mod x (q * s)), (N.div_mod y (q * s)) by lia. rewrite H. replace (q * s * (x / (q * s)) + y mod (q * s)) with (y mod (q * s) + q * (x / (q * s)) * s) by lia. replace (q * s * (y / (q * s)) + y mod (q * s)) with (y mod (q * s) + q * (y / (q * s)) * s) by lia. now rewrite !N.mod_add by auto.
Qed.

(** Certificate for one prime factor [r] of [n - 1]. *)
Definition pock_check (n : positive) (r : N) (a : N) : bool :=
  let c := Zpow_mod (Z.of_N a) ((Z.pos n - 1) / Z.of_N r) (Z.pos n) in
  (Z.eqb ((Z.pos n - 1) mod Z.of_N r) 0 && Z.eqb (Zpow_mod (Z.of_N a) (Z.pos n - 1) (Z.pos n)) 1 && Z.eqb (Z.gcd (c + Z.pos n - 1) (Z.pos n)) 1)%bool.

Lemma pock_divides (n : positive) (r a : N) : prime (Z.of_N r) -> 1 < N.pos n -> pock_check n r a = true ->
  forall s, prime (Z.pos s) -> (N.pos s | N.pos n) -> (r | N.pos s - 1).
Proof.
  intros Pr Hn H s Ps Ds. unfold pock_check in H. rewrite !andb_true_iff, !Z.eqb_eq in H. destruct H as [[H1 H2] H3].
  assert (Hr : 1 < r) by (pose proof (prime_ge_2 _ Pr); lia). assert (Hs : 1 < N.pos s) by (pose proof (prime_ge_2 _ Ps); lia).
  assert (D : exists k, N.pos n - 1 = k * r). { apply Z.mod_divide in H1; [|lia]. destruct H1 as [k Hk]. exists (Z.to_N k). assert (0 <= k)%Z by nia. nia. }
  destruct D as [k Hk]. assert (Ek : ((Z.pos n - 1) / Z.of_N r = Z.of_N k)%Z). { replace (Z.pos n - 1)%Z with (Z.of_N k * Z.of_N r)%Z by lia. apply Z.div_mul. lia. }
  rewrite Ek in H3. rewrite Zpow_mod_correct in H2, H3 by discriminate.
  assert (E2 : a ^ (N.pos n - 1) mod N.pos n = 1). { apply N2Z.inj. rewrite N2Z.inj_mod, N2Z.inj_pow. replace (Z.of_N (N.pos n - 1)) with (Z.pos n - 1)%Z by lia. exact H2. }
  assert (E3 : Z.of_N (a ^ k mod N.pos n) = (Z.of_N a ^ Z.of_N k mod Z.pos n)%Z) by (rewrite N2Z.inj_mod, N2Z.inj_pow; reflexivity). rewrite <- E3 in H3. clear E3 H1 H2 Ek.
  set (c := a ^ k) in *. assert (C1 : c mod N.pos s <> 1).
  { intros C. assert (Dz : (Z.pos s | Z.of_N (c mod N.pos n) + Z.pos n - 1)%Z).
    { assert (Cn : (c mod N.pos n) mod N.pos s = 1). { rewrite (mod_divisor (c mod N.pos n) c (N.pos s) (N.pos n)); auto; try lia. now rewrite N.mod_mod by lia. }
      destruct Ds as [q Dq]. pose proof (N.div_mod (c mod N.pos n) (N.pos s)) as E. rewrite Cn in E. exists (Z.of_N (c mod N.pos n / N.pos s) + Z.of_N q)%Z. lia. }
    assert (Dn : (Z.pos s | Z.pos n)%Z). { destruct Ds as [q Dq]. exists (Z.of_N q). lia. }
    pose proof (Z.gcd_greatest _ _ _ Dz Dn) as G. rewrite H3 in G. apply Z.divide_1_r_nonneg in G; lia. }
  assert (Cr : (c ^ r) mod N.pos s = 1). { unfold c. rewrite <- N.pow_mul_r, <- Hk. rewrite (mod_divisor _ 1 (N.pos s) (N.pos n)); auto; try lia; [apply N.mod_small; lia|]. rewrite E2. symmetry. apply N.mod_small. lia. }
  assert (Cz : c mod N.pos s <> 0). { intros Z0. rewrite pow_mod, Z0, N.pow_0_l, N.mod_0_l in Cr by lia. discriminate. }
  pose proof (fermat_N Ps c Cz) as Fe.
  destruct (Zdivide_dec (Z.of_N r) (Z.pos s - 1)) as [[q Dq]|Nd]. { exists (Z.to_N q). assert (0 <= q)%Z by nia. nia. }
  exfalso. apply C1. assert (Rp : rel_prime (Z.of_N r) (Z.pos s - 1)) by (now apply prime_rel_prime). apply Zgcd_1_rel_prime in Rp.
  assert (G : N.gcd r (N.pos s - 1) = 1). { set (g := N.gcd r (N.pos s - 1)). destruct (N.gcd_divide_l r (N.pos s - 1)) as [g1 G1]. destruct (N.gcd_divide_r r (N.pos s - 1)) as [g2 G2]. fold g in G1, G2.
    assert (Dg : (Z.of_N g | Z.gcd (Z.of_N r) (Z.pos s - 1))%Z) by (apply Z.gcd_greatest; [exists (Z.of_N g1)|exists (Z.of_N g2)]; lia). rewrite Rp in Dg. apply Z.divide_1_r_nonneg in Dg; lia. }
  destruct (N.gcd_bezout_pos r (N.pos s - 1)) as (u & v & Buv); [lia|]. rewrite G in Buv.
  transitivity ((c ^ (1 + v * (N.pos s - 1))) mod N.pos s).
  - rewrite N.pow_add_r, N.pow_1_r, (N.mul_comm v), N.pow_mul_r. rewrite N.mul_mod by lia. rewrite (pow_one_mod (c ^ (N.pos s - 1)) v (N.pos s)) by auto. rewrite N.mul_1_r, N.mod_mod by lia. reflexivity.
  - rewrite <- Buv, N.mul_comm, N.pow_mul_r. now apply pow_one_mod.
Qed.

Lemma pock_large (n : positive) (f : N) : 1 < N.pos n -> N.pos n <= f * f -> (forall s, prime (Z.pos s) -> (N.pos s | N.pos n) -> f < N.pos s) -> prime (Z.pos n).
Proof.
  intros Hn Hf H. destruct (prime_dec (Z.pos n)) as [|NP]; [assumption|exfalso]. destruct (not_prime_divide (Z.pos n) ltac:(lia) NP) as (u & U & [v V]). assert (1 < v)%Z by nia.
  assert (G : forall r, prime r -> (r | Z.pos n)%Z -> (Z.of_N f < r)%Z).
  { intros r R D. pose proof (prime_ge_2 r R). destruct r as [|r|r]; try lia. specialize (H r R). assert (DN : (N.pos r | N.pos n)). { destruct D as [q D]. exists (Z.to_N q). assert (0 <= q)%Z by nia. lia. } specialize (H DN). lia. }
  destruct (prime_divisor u) as (r & R & RD); [lia|]. destruct (prime_divisor v) as (s & T & SD); [lia|].
  assert (Z.of_N f < r)%Z. { apply G; auto. rewrite V. now apply Z.divide_mul_r. }
  assert (Z.of_N f < s)%Z. { apply G; auto. rewrite V. now apply Z.divide_mul_l. }
  assert (r <= u)%Z by (apply Z.divide_pos_le; [lia|auto]). assert (s <= v)%Z by (apply Z.divide_pos_le; [lia|auto]).
  assert (Z.of_N f * Z.of_N f < u * v)%Z by nia. nia.
Qed.
(** Distinct primes that divide a number: so does their product. *)
Lemma primes_product (r1 r2 x : N) : prime (Z.of_N r2) -> ~ (r2 | r1) -> (r1 | x) -> (r2 | x) -> (r1 * r2 | x).
Proof.
  intros P2 Nd [k ->] D2. assert (Z : (Z.of_N r2 | Z.of_N k * Z.of_N r1)%Z). { destruct D2 as [q D]. exists (Z.of_N q). lia. }
  apply prime_mult in Z; auto. destruct Z as [Z|Z]; [|exfalso; apply Nd; destruct Z as [q Z]; exists (Z.to_N q); assert (0 <= q)%Z by (pose proof (prime_ge_2 _ P2); nia); lia].
  destruct Z as [q Z]. exists (Z.to_N q). assert (0 <= q)%Z by (pose proof (prime_ge_2 _ P2); nia). nia.
Qed.
Lemma divide_lt (d x : N) : 0 < x -> (d | x) -> d < x + 1.
Proof. intros Hx D. apply N.divide_pos_le in D; lia. Qed.

(** ** The chain of certificates *)
Definition p_b : positive := 255515944373312847190720520512484175977.
Definition p_q : positive := 205115282021455665897114700593932402728804164701536103180137503955397371.
Definition K256_P : positive := 115792089237316195423570985008687907853269984665640564039457584007908834671663.
Lemma K256_P_val : Z.pos K256_P = (2 ^ 256 - 2 ^ 32 - 977)%Z. Proof. reflexivity. Qed.
Lemma prime_r1 : prime (Z.pos 107590001). Proof. apply (prime_check_sound _ 5200). vm_compute. reflexivity. Qed.
Lemma prime_r2 : prime (Z.pos 7240687). Proof. apply (prime_check_sound _ 1400). vm_compute. reflexivity. Qed.
Lemma prime_r3 : prime (Z.pos 96557). Proof. apply (prime_check_sound _ 200). vm_compute. reflexivity. Qed.
Lemma prime_b : prime (Z.pos p_b).
Proof.
  apply (pock_large p_b (107590001 * 7240687 * 96557)); [reflexivity|vm_compute; discriminate|]. intros s Ps Ds.
  pose proof (pock_divides p_b 107590001 3 prime_r1 eq_refl ltac:(vm_compute; reflexivity) s Ps Ds) as D1. pose proof (pock_divides p_b 7240687 3 prime_r2 eq_refl ltac:(vm_compute; reflexivity) s Ps Ds) as D2. pose proof (pock_divides p_b 96557 3 prime_r3 eq_refl ltac:(vm_compute; reflexivity) s Ps Ds) as D3.
  assert (D : (107590001 * 7240687 * 96557 | N.pos s - 1)).
  { apply primes_product; [exact prime_r3| |apply primes_product; [exact prime_r2| | |]; auto|]; auto; intros X; apply N.mod_divide in X; try discriminate; vm_compute in X; discriminate. }
  pose proof (prime_ge_2 _ Ps). apply N.divide_pos_le in D; lia.
Qed.
Lemma prime_q : prime (Z.pos p_q).
Proof.
  apply (pock_large p_q (N.pos p_b)); [reflexivity|vm_compute; discriminate|]. intros s Ps Ds. pose proof (pock_divides p_q (N.pos p_b) 2 prime_b eq_refl ltac:(vm_compute; reflexivity) s Ps Ds) as D. pose proof (prime_ge_2 _ Ps). apply N.divide_pos_le in D; lia.
Qed.
Theorem prime_k256 : prime (Z.pos K256_P).
Proof.
  apply (pock_large K256_P (N.pos p_q)); [reflexivity|vm_compute; discriminate|]. intros s Ps Ds. pose proof (pock_divides K256_P (N.pos p_q) 2 prime_q eq_refl ltac:(vm_compute; reflexivity) s Ps Ds) as D. pose proof (prime_ge_2 _ Ps). apply N.divide_pos_le in D; lia.
Qed.
