(** Primality of the moduli of the 31-bit fields supported by the number crate
    (number/src/baby_bear.rs, koala_bear.rs, mersenne31.rs), by trial division. *)
From Coq Require Import NArith ZArith Znumtheory Bool List Lia.
From Coq Require Import ZifyBool ZifyN ZifyNat.
Import ListNotations.

(** No [d = start + 2k] with [k < n] divides [m]. *)
Fixpoint no_divisor (n : nat) (d m : N) : bool :=
  match n with
  | O => true
  | S n' => negb ((m mod d =? 0)%N) && no_divisor n' (d + 2)%N m
  end.

Lemma no_divisor_sound n : forall d m, no_divisor n d m = true -> (d <> 0)%N ->
  forall k, (k < n)%nat -> ~ (d + 2 * N.of_nat k | m)%N.
Proof.
  induction n as [|n IH]; intros d m H Hd k Hk; [lia|]. cbn [no_divisor] in H. apply andb_true_iff in H. destruct H as [H1 H2].
  destruct k as [|k].
  - intros Hdiv. replace (d + 2 * N.of_nat 0)%N with d in Hdiv by lia. apply N.mod_divide in Hdiv; auto.
    rewrite Hdiv in H1. discriminate.
  - replace (d + 2 * N.of_nat (S k))%N with (d + 2 + 2 * N.of_nat k)%N by lia. apply IH; auto; lia.
Qed.

Definition prime_check (p : positive) (n : nat) : bool :=
  N.odd (N.pos p) && (1 <? N.pos p)%N && no_divisor n 3 (N.pos p)
  && (N.pos p <? (2 * N.of_nat n + 3) * (2 * N.of_nat n + 3))%N.

Lemma prime_check_sound p n : prime_check p n = true -> prime (Z.pos p).
Proof.
  unfold prime_check. rewrite !andb_true_iff. intros [[[Hodd H1] Hnd] Hsq].
  apply N.ltb_lt in H1, Hsq.
  assert (Hsmall : forall d, (1 < d)%N -> (d < 2 * N.of_nat n + 3)%N -> ~ (d | N.pos p)%N).
  { intros d Hd1 Hd2 Hdiv. destruct (N.even d) eqn:Ed.
    - apply N.even_spec in Ed. destruct Ed as [m ->]. destruct Hdiv as [q Hq].
      rewrite Hq in Hodd. rewrite N.odd_mul, N.odd_mul in Hodd. cbn in Hodd. rewrite andb_false_r in Hodd. discriminate.
    - assert (Eo : N.odd d = true) by (rewrite <- N.negb_even, Ed; reflexivity). apply N.odd_spec in Eo. destruct Eo as [m Hm].
      assert (3 <= d)%N by lia. assert (Hk : exists k, d = (3 + 2 * N.of_nat k)%N /\ (k < n)%nat).
      { exists (N.to_nat (m - 1)). split; lia. }
      destruct Hk as (k & -> & Hk). revert Hdiv. apply (no_divisor_sound n 3 (N.pos p) Hnd); [lia|auto]. }
  apply prime_alt. split; [lia|]. intros m [Hm1 Hm2] [q Hq].
  assert (Hq0 : (0 < q)%Z) by nia.
  assert (HN : N.pos p = (Z.to_N q * Z.to_N m)%N) by (rewrite <- Z2N.inj_mul, <- Hq by lia; reflexivity).
  destruct (N.lt_ge_cases (Z.to_N m) (2 * N.of_nat n + 3)) as [Hlt|Hge].
  - apply (Hsmall (Z.to_N m)); [lia|auto|]. exists (Z.to_N q). lia.
  - apply (Hsmall (Z.to_N q)); [nia|nia|]. exists (Z.to_N m). lia.
Qed.

Definition babybear : positive := 2013265921.
Definition koalabear : positive := 2130706433.
Definition mersenne31 : positive := 2147483647.
Lemma prime_babybear : prime (Z.pos babybear).
Proof. apply (prime_check_sound _ (N.to_nat 22435)). vm_compute. reflexivity. Qed.
Lemma prime_koalabear : prime (Z.pos koalabear).
Proof. apply (prime_check_sound _ (N.to_nat 23079)). vm_compute. reflexivity. Qed.
Lemma prime_mersenne31 : prime (Z.pos mersenne31).
Proof. apply (prime_check_sound _ (N.to_nat 23170)). vm_compute. reflexivity. Qed.
