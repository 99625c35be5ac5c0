From Coq Require Import Arith NArith ZArith Bool List Lia ZifyBool ZifyNat ZifyN.
From Verif Require Import Field Fermat K256Prime K256Model K256Spec K256Mul K256Norm K256Ops K256Pow K256Bytes HintModel.
Import ListNotations.
Local Open Scope N_scope.

(** ** Fields of a word *)
Lemma low_bits w k : N.land w (N.ones k) = w mod 2 ^ k. Proof. apply N.land_ones. Qed.
Lemma field_bits w s k : N.land (N.shiftr w s) (N.ones k) = w / 2 ^ s mod 2 ^ k. Proof. now rewrite N.land_ones, N.shiftr_div_pow2. Qed.
Lemma encode_fields o rd f3 rs1 rs2 f7 : o < 128 -> rd < 32 -> f3 < 8 -> rs1 < 32 -> rs2 < 32 -> f7 < 128 ->
  let w := encode_r o rd f3 rs1 rs2 f7 in w mod 2 ^ 7 = o /\ w / 2 ^ 12 mod 2 ^ 3 = f3 /\ w / 2 ^ 15 mod 2 ^ 5 = rs1 /\ w / 2 ^ 25 mod 2 ^ 7 = f7.
Proof.
  intros. subst w. unfold encode_r. change (2 ^ 7) with 128. change (2 ^ 12) with 4096. change (2 ^ 15) with 32768. change (2 ^ 20) with 1048576. change (2 ^ 25) with 33554432. change (2 ^ 3) with 8. change (2 ^ 5) with 32.
  split; [symmetry; apply N.mod_unique with (rd + 32 * f3 + 256 * rs1 + 8192 * rs2 + 262144 * f7); lia|].
  split; [|split].
  - replace ((o + 128 * rd + 4096 * f3 + 32768 * rs1 + 1048576 * rs2 + 33554432 * f7) / 4096) with (f3 + 8 * rs1 + 256 * rs2 + 8192 * f7) by (apply N.div_unique with (o + 128 * rd); lia).
    symmetry. apply N.mod_unique with (rs1 + 32 * rs2 + 1024 * f7); lia.
  - replace ((o + 128 * rd + 4096 * f3 + 32768 * rs1 + 1048576 * rs2 + 33554432 * f7) / 32768) with (rs1 + 32 * rs2 + 1024 * f7) by (apply N.div_unique with (o + 128 * rd + 4096 * f3); lia).
    symmetry. apply N.mod_unique with (rs2 + 32 * f7); lia.
  - replace ((o + 128 * rd + 4096 * f3 + 32768 * rs1 + 1048576 * rs2 + 33554432 * f7) / 33554432) with f7 by (apply N.div_unique with (o + 128 * rd + 4096 * f3 + 32768 * rs1 + 1048576 * rs2); lia).
    apply N.mod_small. lia.
Qed.
Lemma split_word w : w < 2 ^ 32 -> w = encode_r (w mod 2 ^ 7) (w / 2 ^ 7 mod 2 ^ 5) (w / 2 ^ 12 mod 2 ^ 3) (w / 2 ^ 15 mod 2 ^ 5) (w / 2 ^ 20 mod 2 ^ 5) (w / 2 ^ 25 mod 2 ^ 7).
Proof.
  intros H. unfold encode_r.
  assert (D : forall a b, w / 2 ^ (a + b) = w / 2 ^ a / 2 ^ b) by (intros a b; rewrite N.pow_add_r, N.div_div by (apply N.pow_nonzero; discriminate); reflexivity).
  assert (H25 : w / 2 ^ 25 < 2 ^ 7) by (apply N.div_lt_upper_bound; [discriminate|exact H]). rewrite (N.mod_small (w / 2 ^ 25)) by exact H25.
  pose proof (N.div_mod w (2 ^ 7) ltac:(discriminate)) as E0. pose proof (N.div_mod (w / 2 ^ 7) (2 ^ 5) ltac:(discriminate)) as E1. pose proof (N.div_mod (w / 2 ^ 12) (2 ^ 3) ltac:(discriminate)) as E2.
  pose proof (N.div_mod (w / 2 ^ 15) (2 ^ 5) ltac:(discriminate)) as E3. pose proof (N.div_mod (w / 2 ^ 20) (2 ^ 5) ltac:(discriminate)) as E4.
  rewrite <- (D 7 5) in E1. rewrite <- (D 12 3) in E2. rewrite <- (D 15 5) in E3. rewrite <- (D 20 5) in E4.
  change (7 + 5) with 12 in *. change (12 + 3) with 15 in *. change (15 + 5) with 20 in *. change (20 + 5) with 25 in *.
  generalize dependent (w mod 2 ^ 7). generalize dependent (w / 2 ^ 7 mod 2 ^ 5). generalize dependent (w / 2 ^ 12 mod 2 ^ 3). generalize dependent (w / 2 ^ 15 mod 2 ^ 5). generalize dependent (w / 2 ^ 20 mod 2 ^ 5).
  generalize dependent (w / 2 ^ 7). generalize dependent (w / 2 ^ 12). generalize dependent (w / 2 ^ 15). generalize dependent (w / 2 ^ 20). generalize dependent (w / 2 ^ 25).
  change (2 ^ 7) with 128. change (2 ^ 12) with 4096. change (2 ^ 15) with 32768. change (2 ^ 20) with 1048576. change (2 ^ 25) with 33554432. change (2 ^ 3) with 8. change (2 ^ 5) with 32. intros. lia.
Qed.
Lemma repr_from f : funct7_from_repr (funct7_repr f) = Some f. Proof. destruct f; reflexivity. Qed.
Lemma from_repr n f : funct7_from_repr n = Some f -> n = funct7_repr f.
Proof. destruct n as [|[[p|p|]|[p|p|]|]]; cbn; try discriminate; intros [= <-]; reflexivity. Qed.
Lemma process_fields w rest : process_custom (w :: rest) = if w mod 2 ^ 7 =? OPCODE then if w / 2 ^ 12 mod 2 ^ 3 =? HINTS_FUNCT3 then
    match funct7_from_repr (w / 2 ^ 25 mod 2 ^ 7) with Some f => Some (phantom_instruction (discriminant f) (4 * (w / 2 ^ 15 mod 2 ^ 5)) 0 0) | None => None end else None else None.
Proof. unfold process_custom. change 0x7f with (N.ones 7). change 0x7 with (N.ones 3). change 0x1f with (N.ones 5). now rewrite !field_bits, low_bits. Qed.

(** ** Bytes *)
Lemma be_value_snoc l b : be_value (l ++ [b]) = 256 * be_value l + b.
Proof. unfold be_value. now rewrite fold_left_app. Qed.
Lemma be_bytes_ok k : forall n, n < 256 ^ N.of_nat k -> length (be_bytes k n) = k /\ are_bytes (be_bytes k n) /\ be_value (be_bytes k n) = n.
Proof.
  induction k as [|k IH]; intros n H; cbn [be_bytes].
  - cbn in H. split; auto. split; [constructor|]. cbn. lia.
  - rewrite Nat2N.inj_succ, N.pow_succ_r' in H. destruct (IH (n / 256)) as (A & B & C); [apply N.div_lt_upper_bound; [discriminate|exact H]|].
    rewrite app_length, A. split; [cbn; lia|]. split; [apply Forall_app; split; auto; constructor; [now apply N.mod_lt|constructor]|]. rewrite be_value_snoc, C. symmetry. now apply N.div_mod.
Qed.
Lemma K256_bytes : K256 < 256 ^ N.of_nat 32. Proof. reflexivity. Qed.
(** ** The inverse *)
Lemma powm_ok b e : powm b e = b ^ N.pos e mod K256.
Proof.
  induction e as [e IH|e IH|]; cbn [powm]; cbv zeta.
  - rewrite IH. replace (b ^ N.pos e~1) with (b ^ N.pos e * b ^ N.pos e * b).
    + rewrite <- (N.mul_mod (b ^ N.pos e) (b ^ N.pos e)) by exact K256_nz. now rewrite N.mul_mod_idemp_l by exact K256_nz.
    + replace (N.pos e~1) with (N.pos e + N.pos e + 1) by lia. now rewrite !N.pow_add_r, N.pow_1_r.
  - rewrite IH. rewrite <- N.mul_mod by exact K256_nz. f_equal. replace (N.pos e~0) with (N.pos e + N.pos e) by lia. now rewrite N.pow_add_r.
  - now rewrite N.pow_1_r.
Qed.
Lemma powm_lt b e : powm b e < K256. Proof. rewrite powm_ok. apply N.mod_lt. exact K256_nz. Qed.
Lemma inv_mod_ok n : ~ eqm n 0 -> exists i, inv_mod n = Some i /\ i < K256 /\ eqm (i * n) 1.
Proof.
  intros H. rewrite eqm_zero in H. unfold inv_mod. destruct (N.eqb_spec (n mod K256) 0); [contradiction|].
  destruct (K256 - 2) as [|e] eqn:E; [discriminate|]. exists (powm n e). split; auto. split; [apply powm_lt|]. rewrite powm_ok, <- E.
  eapply eqm_trans; [apply eqm_mul; [apply eqm_mod|apply eqm_refl]|]. replace (n ^ (K256 - 2) * n) with (n ^ (K256 - 1)); [now apply fermat_K|].
  replace (K256 - 1) with (K256 - 2 + 1) by reflexivity. rewrite N.pow_add_r, N.pow_1_r. reflexivity.
Qed.
(** ** Memory *)
Lemma read_holds m p : forall l, (forall k b, nth_error l k = Some b -> m (p + N.of_nat k) = b) -> read m p (length l) = l.
Proof.
  intros l H. unfold read. assert (G : forall l' o, (forall k b, nth_error l' k = Some b -> m (p + N.of_nat (o + k)) = b) -> map (fun k => m (p + N.of_nat k)) (seq o (length l')) = l').
  { induction l' as [|x l' IH]; intros o Ho; cbn [length seq map]; auto. f_equal.
    - rewrite <- (Ho 0%nat x eq_refl). f_equal. lia.
    - apply IH. intros k b Hk. rewrite <- (Ho (S k) b Hk). f_equal. lia. }
  apply G. exact H.
Qed.
Lemma word_value p : p < 2 ^ 32 -> bytes_word (p mod 256) (p / 256 mod 256) (p / 65536 mod 256) (p / 16777216 mod 256) = p.
Proof. intros H. pose proof (word_round_trip p [] H) as E. unfold word_bytes in E. cbn [app read_word] in E. congruence. Qed.
