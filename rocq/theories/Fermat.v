(** Fermat's little theorem in [F p] and a primality certificate for the modulus of
    the Goldilocks field (number/src/goldilocks.rs 43), whose inversion routine
    relies on it. *)
From Coq Require Import NArith ZArith Znumtheory Zpow_facts Bool List Lia Permutation FinFun.
From Coq Require Import ZifyBool ZifyN ZifyNat.
From Verif Require Import Field.
Import ListNotations.
Local Open Scope nat_scope.

Section Fermat.
  Context {p : positive}.
  Hypothesis Hp : prime (Z.pos p).
  Let Pn := N.pos p.
  Add Ring FR : (F_ring_theory (p:=p)).

  Local Lemma p_gt_1 : (1 < Pn)%N.
  Proof. destruct Hp as [H _]. unfold Pn. lia. Qed.

  (** The non-zero elements. *)
  Definition units : list (F p) := map (fun n => of_N (N.of_nat n)) (seq 1 (N.to_nat Pn - 1)).

  Lemma units_spec (a : F p) : In a units <-> a <> fzero.
  Proof.
    pose proof p_gt_1. unfold units. rewrite in_map_iff. split.
    - intros (n & E & I) Z. apply in_seq in I. subst a.
      assert (V : val (of_N (N.of_nat n) : F p) = N.of_nat n) by (apply val_of_N_small; fold Pn; lia).
      rewrite Z, val_zero in V. lia.
    - intros Z. exists (N.to_nat (val a)). rewrite N2Nat.id, of_N_val. split; [reflexivity|].
      apply in_seq. pose proof (val_lt a). fold Pn in H0.
      assert (val a <> 0%N). { intros E. apply Z. apply F_ext. rewrite E. symmetry. apply val_zero. }
      lia.
  Qed.

  Lemma units_nodup : NoDup units.
  Proof.
    pose proof p_gt_1. unfold units.
    assert (G : forall l, (forall n, In n l -> (N.of_nat n < Pn)%N) -> NoDup l ->
                NoDup (map (fun n => of_N (N.of_nat n) : F p) l)).
    { induction l as [|n l IH]; intros B D; cbn [map]; [constructor|]. inversion D; subst. constructor.
      - rewrite in_map_iff. intros (m & E & I). apply (f_equal val) in E.
        rewrite !val_of_N_small in E; [|fold Pn; apply B; now left|fold Pn; apply B; now right].
        assert (m = n) by lia. now subst.
      - apply IH; auto. intros k I. apply B. now right. }
    apply G; [|apply seq_NoDup]. intros n I. apply in_seq in I. lia.
  Qed.

  Fixpoint prodf (l : list (F p)) : F p :=
    match l with [] => fone | a :: l => fmul a (prodf l) end.

  Lemma prodf_perm l l' : Permutation l l' -> prodf l = prodf l'.
  Proof. induction 1; cbn [prodf]; try congruence; ring. Qed.

  Lemma prodf_neq l : (forall a, In a l -> a <> fzero) -> prodf l <> fzero.
  Proof.
    induction l as [|a l IH]; intros H; cbn [prodf].
    - apply one_neq_zero. exact Hp.
    - intros E. apply mul_eq_zero in E; [|exact Hp]. destruct E as [E|E].
      + now apply (H a (or_introl eq_refl)).
      + revert E. apply IH. intros b I. apply H. now right.
  Qed.

  Lemma prodf_scale (x : N) l :
    prodf (map (fmul (of_N x)) l) = fmul (of_N (x ^ N.of_nat (length l))) (prodf l).
  Proof.
    induction l as [|a l IH]; cbn [map prodf length].
    - rewrite N.pow_0_r. fold (@fone p). ring.
    - rewrite IH, Nat2N.inj_succ, N.pow_succ_r', of_N_mul. ring.
  Qed.

  Theorem fermat (x : N) : of_N x <> (fzero : F p) -> of_N (x ^ (Pn - 1)) = (fone : F p).
  Proof.
    intros Hx.
    assert (P : Permutation (map (fmul (of_N x)) units) units).
    { apply Permutation_sym. apply NoDup_Permutation_bis.
      - exact units_nodup.
      - rewrite map_length. lia.
      - intros a Ha. apply units_spec in Ha. apply in_map_iff.
        exists (fmul (finv (of_N x)) a). split.
        + transitivity (fmul (fmul (finv (of_N x)) (of_N x)) a); [ring|]. rewrite finv_l; auto. ring.
        + apply units_spec. intros E. apply mul_eq_zero in E; [|exact Hp]. destruct E as [E|E]; [|now apply Ha].
          revert E. now apply finv_neq_zero. }
    pose proof (prodf_perm _ _ P) as E. rewrite prodf_scale in E.
    assert (L : N.of_nat (length units) = (Pn - 1)%N).
    { unfold units. rewrite map_length, seq_length. pose proof p_gt_1. lia. }
    rewrite L in E.
    assert (Q : fmul (fsub (of_N (x ^ (Pn - 1))) fone) (prodf units) = fzero).
    { transitivity (fsub (fmul (of_N (x ^ (Pn - 1))) (prodf units)) (prodf units)); [ring|]. rewrite E. ring. }
    apply mul_eq_zero in Q; [|exact Hp]. destruct Q as [Q|Q].
    - now apply sub_eq_zero.
    - exfalso. revert Q. apply prodf_neq. intros a I. now apply units_spec in I.
  Qed.

  (** In plain numbers. *)
  Corollary fermat_N (x : N) : (x mod Pn <> 0 -> x ^ (Pn - 1) mod Pn = 1)%N.
  Proof.
    intros H. pose proof p_gt_1.
    assert (E : of_N (x ^ (Pn - 1)) = (fone : F p)).
    { apply fermat. intros E. apply (f_equal val) in E. rewrite val_of_N, val_zero in E. now apply H. }
    apply (f_equal val) in E. rewrite val_of_N in E. fold Pn in E. rewrite E.
    unfold fone. rewrite val_of_N. fold Pn. apply N.mod_small. lia.
  Qed.
End Fermat.

Section Ring.
  Context {p : positive}.
  Add Ring FR2 : (F_ring_theory (p:=p)).
  Local Lemma r_mul_0_l (a : F p) : fmul fzero a = fzero. Proof. ring. Qed.
  Local Lemma r_mul_0_r (a : F p) : fmul a fzero = fzero. Proof. ring. Qed.
  Local Lemma r_mul_1_l (a : F p) : fmul fone a = a. Proof. ring. Qed.
  Local Lemma r_mul_1_r (a : F p) : fmul a fone = a. Proof. ring. Qed.
  Local Lemma r_add_0_l (a : F p) : fadd fzero a = a. Proof. ring. Qed.
  Local Lemma r_opp_opp : fmul (fopp fone) (fopp fone) = (fone : F p). Proof. ring. Qed.
  Local Lemma r_of_p : of_N (N.pos p) = (fzero : F p).
  Proof. apply F_ext. rewrite val_of_N. rewrite N.mod_same by lia. symmetry. apply val_zero. Qed.
End Ring.

(** A prime divisor of a number above one. *)
Lemma prime_divisor : forall n : Z, (1 < n)%Z -> exists r, prime r /\ (r | n)%Z.
Proof.
  intros n. induction n as [n IH] using (well_founded_induction (Z.lt_wf 0)). intros H.
  destruct (prime_dec n) as [P|P]; [exists n; split; [exact P|apply Z.divide_refl]|].
  destruct (not_prime_divide n H P) as (m & M & D).
  destruct (IH m) as (r & R & RD); [lia|lia|]. exists r. split; [exact R|]. now apply Z.divide_trans with m.
Qed.

(** If the power [2^k] of some [b] is [-1] modulo [n], every prime divisor of [n]
    other than two is one more than a multiple of [2^(k+1)]. *)
Lemma divisor_form (n r : positive) (b : N) (k : nat) :
  prime (Z.pos r) -> r <> 2%positive -> (N.pos r | N.pos n)%N ->
  (b ^ (2 ^ N.of_nat k) mod N.pos n = N.pos n - 1)%N ->
  (2 ^ N.of_nat (S k) | N.pos r - 1)%N.
Proof.
  intros R R2 D E. pose proof (p_gt_1 R) as R1.
  assert (M : of_N (b ^ (2 ^ N.of_nat k)) = (fopp fone : F r)).
  { destruct D as [q D]. assert (Q : (q <> 0)%N) by lia.
    pose proof (N.div_mod (b ^ (2 ^ N.of_nat k)) (N.pos n)) as DM.
    rewrite E in DM. rewrite DM by lia. rewrite of_N_add, D. rewrite !of_N_mul.
    rewrite r_of_p.
    assert (A : fadd (of_N (q * N.pos r - 1)) fone = (fzero : F r)).
    { unfold fone. rewrite <- of_N_add. replace (q * N.pos r - 1 + 1)%N with (q * N.pos r)%N by lia.
      rewrite of_N_mul, r_of_p. apply r_mul_0_r. }
    apply add_eq_zero in A. rewrite A, r_mul_0_r, r_mul_0_l. apply r_add_0_l. }
  assert (V1 : val (fone : F r) = 1%N) by (unfold fone; now apply val_of_N_small).
  assert (NE : (fopp fone : F r) <> fone).
  { intros X. apply (f_equal val) in X. rewrite V1 in X. pose proof (val_opp (fone : F r)). rewrite V1 in *. lia. }
  assert (B : of_N b <> (fzero : F r)).
  { intros X. apply NE. rewrite <- M.
    assert (val (of_N (b ^ (2 ^ N.of_nat k)) : F r) = 0)%N as V.
    { rewrite val_of_N. apply (f_equal val) in X. rewrite val_of_N, val_zero in X.
      apply N.mod_divide; [lia|]. apply N.mod_divide in X; [|lia].
      assert (P : (2 ^ N.of_nat k <> 0)%N) by (apply N.pow_nonzero; lia).
      replace (2 ^ N.of_nat k)%N with (N.succ (2 ^ N.of_nat k - 1)) by lia.
      rewrite N.pow_succ_r'. now apply N.divide_mul_l. }
    exfalso. rewrite M in V. pose proof (val_opp (fone : F r)). rewrite V1 in *. lia. }
  pose proof (fermat R b B) as FE.
  assert (G : forall j, (j <= S k)%nat -> (2 ^ N.of_nat j | N.pos r - 1)%N); [|now apply G].
  induction j as [|j IH]; intros J.
  - exists (N.pos r - 1)%N. cbn. lia.
  - destruct IH as [m Hm]; [lia|].
    destruct (N.even m) eqn:Ev.
    + apply N.even_spec in Ev. destruct Ev as [t ->]. exists t. rewrite Hm, Nat2N.inj_succ, N.pow_succ_r'. lia.
    + exfalso. apply NE.
      assert (Od : N.odd m = true) by (rewrite <- N.negb_even, Ev; reflexivity).
      apply N.odd_spec in Od. destruct Od as [t Ht].
      (* b^(2^k m) is both (-1)^m and 1 *)
      assert (S1 : forall t, of_N (b ^ (2 ^ N.of_nat k * (2 * t + 1))) = (fopp fone : F r)).
      { intros t'. induction t' as [|t' IHt] using N.peano_ind.
        - replace (2 ^ N.of_nat k * (2 * 0 + 1))%N with (2 ^ N.of_nat k)%N by lia. exact M.
        - replace (2 ^ N.of_nat k * (2 * N.succ t' + 1))%N
            with (2 ^ N.of_nat k * (2 * t' + 1) + (2 ^ N.of_nat k + 2 ^ N.of_nat k))%N by lia.
          rewrite !N.pow_add_r, !of_N_mul, IHt, M.
          rewrite r_opp_opp. apply r_mul_1_r. }
      rewrite <- (S1 t), <- Ht.
      replace (2 ^ N.of_nat k * m)%N with ((N.pos r - 1) * 2 ^ N.of_nat (k - j))%N.
      2:{ rewrite Hm. replace k with (j + (k - j))%nat at 2 by lia. rewrite Nat2N.inj_add, N.pow_add_r. lia. }
      rewrite N.pow_mul_r. generalize (2 ^ N.of_nat (k - j))%N as e. intros e.
      induction e as [|e IHe] using N.peano_ind; [reflexivity|].
      rewrite N.pow_succ_r', of_N_mul, IHe, FE. apply r_mul_1_l.
Qed.

(** The modulus 2^64 - 2^32 + 1, number/src/goldilocks.rs 43. *)
Definition goldilocks : positive := 18446744069414584321.

Lemma goldilocks_cert :
  (1753635133440165772 ^ (2 ^ N.of_nat 31) mod N.pos goldilocks = N.pos goldilocks - 1)%N.
Proof.
  apply N2Z.inj. rewrite N2Z.inj_mod, !N2Z.inj_pow.
  rewrite <- Zpow_mod_correct by discriminate. vm_compute. reflexivity.
Qed.

Theorem prime_goldilocks : prime (Z.pos goldilocks).
Proof.
  assert (G : forall r, prime r -> (r | Z.pos goldilocks)%Z -> (4294967296 < r)%Z).
  { intros r R D. pose proof (prime_ge_2 r R). destruct r as [|r|r]; try lia.
    assert (H0 : r <> 2%positive). { intros ->. apply Z.mod_divide in D; [|lia]. vm_compute in D. discriminate. }
    assert (DN : (N.pos r | N.pos goldilocks)%N).
    { destruct D as [q D]. exists (Z.to_N q). assert (0 <= q)%Z by nia. lia. }
    pose proof (divisor_form goldilocks r 1753635133440165772 31 R H0 DN goldilocks_cert) as [m M].
    change (2 ^ N.of_nat 32)%N with 4294967296%N in M. nia. }
  destruct (prime_dec (Z.pos goldilocks)) as [|NP]; [assumption|exfalso].
  destruct (not_prime_divide (Z.pos goldilocks) eq_refl NP) as (u & U & [v V]).
  assert (1 < v)%Z by nia.
  destruct (prime_divisor u) as (r & R & RD); [lia|]. destruct (prime_divisor v) as (s & T & SD); [lia|].
  assert (4294967296 < r)%Z. { apply G; auto. rewrite V. now apply Z.divide_mul_r. }
  assert (4294967296 < s)%Z. { apply G; auto. rewrite V. now apply Z.divide_mul_l. }
  assert (r <= u)%Z by (apply Z.divide_pos_le; [lia|auto]).
  assert (s <= v)%Z by (apply Z.divide_pos_le; [lia|auto]).
  unfold goldilocks in V. nia.
Qed.
