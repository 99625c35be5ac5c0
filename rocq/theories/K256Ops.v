(** Normalization, the test for zero, negation and addition, on whole field elements. *)
From Coq Require Import NArith ZArith List Bool Lia.
From Coq Require Import ZifyBool ZifyN ZifyNat.
From Verif Require Import K256Model K256Spec K256Mul K256Norm.
Local Open Scope N_scope.

Lemma wp_some {A} (o : option A) post r : wp o post -> o = Some r -> post r.
Proof. intros (x & -> & H) E. now injection E as <-. Qed.
Lemma wp_ret {A} (a : A) (post : A -> Prop) : post a -> wp (ok a) post. Proof. intros H. exists a. auto. Qed.

Lemma sma_value (s : fe) : value (fst (subtract_modulus_approximation s)) + 2 ^ 256 * snd (subtract_modulus_approximation s) = value s.
Proof.
  destruct s as [s0 s1 s2 s3 s4 s5 s6 s7 s8 s9]. unfold subtract_modulus_approximation, value. cbn [fst snd l0 l1 l2 l3 l4 l5 l6 l7 l8 l9]. change 0x03FFFFF with 0x3FFFFF. rewrite low22, N.shiftr_div_pow2. pose proof (N.div_mod s9 (2 ^ 22) ltac:(discriminate)) as D. set (q := s9 / 2 ^ 22) in *. set (m := s9 mod 2 ^ 22) in *. clearbody q m. subst s9. powers. lia.
Qed.
Definition weak_post (s r : fe) : Prop :=
  (l0 r < 2 ^ 26 /\ l1 r < 2 ^ 26 /\ l2 r < 2 ^ 26 /\ l3 r < 2 ^ 26 /\ l4 r < 2 ^ 26 /\ l5 r < 2 ^ 26 /\ l6 r < 2 ^ 26 /\ l7 r < 2 ^ 26 /\ l8 r < 2 ^ 26 /\ l9 r <= 2 ^ 22 + 61) /\ exists k, value s = value r + K256 * k.
Lemma magnitude_31 s : magnitude 31 s <-> (l0 s <= 4160749506 /\ l1 s <= 4160749506 /\ l2 s <= 4160749506 /\ l3 s <= 4160749506 /\ l4 s <= 4160749506 /\ l5 s <= 4160749506 /\ l6 s <= 4160749506 /\ l7 s <= 4160749506 /\ l8 s <= 4160749506 /\ l9 s <= 260046786).
Proof. reflexivity. Qed.
Lemma normalize_weak_correct (s : fe) : magnitude 31 s -> wp (normalize_weak s) (weak_post s).
Proof.
  intros M. rewrite magnitude_31 in M. pose proof (sma_value s) as V. destruct s as [s0 s1 s2 s3 s4 s5 s6 s7 s8 s9]. proj. destruct M as (B0 & B1 & B2 & B3 & B4 & B5 & B6 & B7 & B8 & B9). unfold normalize_weak. cbn [subtract_modulus_approximation]. unfold subtract_modulus_approximation in V. cbn [fst snd] in V.
  set (t := FE s0 s1 s2 s3 s4 s5 s6 s7 s8 (N.land s9 0x03FFFFF)) in *. set (x := N.shiftr s9 22) in *.
  assert (Hx : x <= 64) by (unfold x; eapply N.le_trans; [eapply shr_mono; exact B9|vm_compute; discriminate]).
  assert (L9 : l9 t <= 4194303) by (cbn; change 0x03FFFFF with 0x3FFFFF; rewrite low22; pose proof (N.mod_lt s9 (2 ^ 22) ltac:(discriminate)); powers; lia).
  assert (P : amc_pre t) by (unfold amc_pre; repeat split; try assumption; eapply N.le_trans; [exact L9|vm_compute; discriminate]).
  eapply wp_bind; [apply (amc_correct t x P Hx)|]. intros r [(C0 & C1 & C2 & C3 & C4 & C5 & C6 & C7 & C8 & C9) E].
  assert (N9 : l9 r <= 4194365) by lia. apply (wp_assert_shr _ 23 4194365); [assumption|reflexivity|]. apply wp_ret. split; [repeat split; try assumption; powers; lia|]. exists x. rewrite <- V, E. clear. powers. lia.
Qed.
Lemma weak_lt (s r : fe) : weak_post s r -> value r < 2 * K256.
Proof. intros [(C0 & C1 & C2 & C3 & C4 & C5 & C6 & C7 & C8 & C9) _]. unfold value. powers. lia. Qed.

Lemma normalize_correct (s : fe) : magnitude 31 s -> wp (normalize s) (fun r => canonical r /\ value r = value s mod K256).
Proof.
  intros M. unfold normalize. eapply wp_bind; [apply (normalize_weak_correct s M)|]. intros r W. pose proof (weak_lt s r W) as L. destruct W as [(C0 & C1 & C2 & C3 & C4 & C5 & C6 & C7 & C8 & C9) [k E]].
  rewrite get_overflow_correct by (unfold limbs26; repeat split; try assumption; powers; lia). cbn [bind].
  assert (P : amc_pre r) by (unfold amc_pre; powers; repeat split; lia).
  eapply wp_bind; [apply (amc_correct r 1 P); discriminate|]. intros c [(D0 & D1 & D2 & D3 & D4 & D5 & D6 & D7 & D8 & D9) F]. pose proof (sma_value c) as V. destruct (subtract_modulus_approximation c) as [t x] eqn:Ec. cbn [fst snd] in V.
  assert (Lt : l0 t = l0 c /\ l1 t = l1 c /\ l2 t = l2 c /\ l3 t = l3 c /\ l4 t = l4 c /\ l5 t = l5 c /\ l6 t = l6 c /\ l7 t = l7 c /\ l8 t = l8 c /\ l9 t = l9 c mod 2 ^ 22 /\ x = l9 c / 2 ^ 22).
  { destruct c as [c0 c1 c2 c3 c4 c5 c6 c7 c8 c9]. pose proof (f_equal fst Ec) as Et. pose proof (f_equal snd Ec) as Ex. unfold subtract_modulus_approximation in Et, Ex. cbn [fst snd] in Et, Ex. subst t x. cbn [l0 l1 l2 l3 l4 l5 l6 l7 l8 l9]. change 0x03FFFFF with 0x3FFFFF. rewrite low22, N.shiftr_div_pow2. repeat split; reflexivity. }
  destruct Lt as (T0 & T1 & T2 & T3 & T4 & T5 & T6 & T7 & T8 & T9 & X).
  assert (Wt : weakly_normal t). { pose proof (N.mod_lt (l9 c) (2 ^ 22) ltac:(discriminate)). unfold weakly_normal. rewrite T0, T1, T2, T3, T4, T5, T6, T7, T8, T9. repeat split; assumption. }
  assert (Lv : value t < 2 ^ 256). { destruct Wt as (W0 & W1 & W2 & W3 & W4 & W5 & W6 & W7 & W8 & W9). unfold value. clear - W0 W1 W2 W3 W4 W5 W6 W7 W8 W9. powers. lia. }
  assert (Em : value s mod K256 = value r mod K256). { rewrite E, N.mul_comm. apply N.mod_add. discriminate. }
  rewrite Em. destruct (K256 <=? value r) eqn:O.
  - apply N.leb_le in O. assert (X1 : x = 1). { clear - V F Lv L O. powers. lia. } rewrite X1. cbn [N.eqb Pos.eqb guard]. apply wp_ret. assert (Ev : value t = value r - K256). { clear - V F Lv L O X1. subst x. powers. lia. }
    split; [split; [exact Wt|]|].
    + clear - Ev L O. powers. lia.
    + rewrite Ev. replace (value r) with (value r - K256 + 1 * K256) at 2 by lia. rewrite N.mod_add by discriminate. symmetry. apply N.mod_small. clear - L O. lia.
  - apply N.leb_gt in O. assert (X0 : x = 0). { clear - V F Lv L O. powers. lia. } rewrite X0. cbn [N.eqb guard]. apply wp_ret. split; [split; [|exact O]|symmetry; now apply N.mod_small].
    assert (l9 r < 2 ^ 22). { clear - O. unfold value in O. powers. lia. } repeat split; assumption.
Qed.

Lemma lxor_small x y : x <= 67108863 -> y <= 67108863 -> N.lxor x y <= 67108863.
Proof.
  intros Hx Hy. assert (G : forall z, z <= 67108863 <-> N.land z (N.ones 26) = z). { intros z. rewrite N.land_ones. change (2 ^ 26) with 67108864. split; [intros; apply N.mod_small; lia|]. intros E. pose proof (N.mod_lt z 67108864 ltac:(discriminate)). lia. }
  apply G. apply G in Hx, Hy. apply N.bits_inj. intros i. rewrite N.land_spec, !N.lxor_spec. rewrite <- Hx at 1 2. rewrite <- Hy at 1 2. rewrite !N.land_spec. destruct (N.testbit (N.ones 26) i); rewrite ?andb_true_r, ?andb_false_r; reflexivity.
Qed.
Lemma lxor_iff x y z : N.lxor x y = z <-> x = N.lxor z y.
Proof. split; [intros <-|intros ->]; rewrite N.lxor_assoc, N.lxor_nilpotent, N.lxor_0_r; reflexivity. Qed.

Lemma normalizes_to_zero_correct (s : fe) : magnitude 31 s -> normalizes_to_zero s = Some (value s mod K256 =? 0).
Proof.
  intros M. unfold normalizes_to_zero. destruct (normalize_weak_correct s M) as (r & -> & W). cbn [bind]. pose proof (weak_lt s r W) as L. destruct W as [C [k E]].
  destruct r as [t0 t1 t2 t3 t4 t5 t6 t7 t8 t9]. unfold ok. apply (f_equal (@Some bool)). proj. destruct C as (C0 & C1 & C2 & C3 & C4 & C5 & C6 & C7 & C8 & C9).
  assert (Em : value s mod K256 = value (FE t0 t1 t2 t3 t4 t5 t6 t7 t8 t9) mod K256). { rewrite E, N.mul_comm. apply N.mod_add. discriminate. } rewrite Em. clear E Em M.
  apply eq_iff_eq_true. rewrite orb_true_iff, !N.eqb_eq, !N.lor_eq_0_iff. rewrite !land_ones_iff by (repeat first [apply land_le | apply lxor_small]; powers; lia). rewrite !lxor_iff.
  change (N.lxor 67108863 976) with 67107887. change (N.lxor 67108863 64) with 67108799. change (N.lxor 67108863 62914560) with 4194303.
  set (v := value _) in *. assert (Ev : v = value (FE t0 t1 t2 t3 t4 t5 t6 t7 t8 t9)) by reflexivity. clearbody v. unfold value in Ev. cbn [l0 l1 l2 l3 l4 l5 l6 l7 l8 l9] in Ev.
  transitivity (v = 0 \/ v = K256).
  - split.
    + intros [Z|Z]; [left|right]; repeat match goal with H : _ /\ _ |- _ => destruct H end; subst; reflexivity.
    + intros [Z|Z]; [left|right]; powers; repeat split; lia.
  - split; [intros [->| ->]; reflexivity|]. intros Z. destruct (N.lt_ge_cases v K256) as [Lv|Lv]; [left; rewrite N.mod_small in Z by exact Lv; exact Z|right]. replace v with (v - K256 + 1 * K256) in Z by lia. rewrite N.mod_add in Z by discriminate. rewrite N.mod_small in Z by (clear - L Lv; lia). clear - Z Lv. lia.
Qed.

Lemma wp_sub32 {A} (a b : N) (k : N -> option A) post : b <= a -> (forall v, v = a - b -> wp (k v) post) -> wp (bind (sub32 a b) k) post.
Proof. intros H1 H. unfold sub32. replace (b <=? a) with true by (symmetry; now apply N.leb_le). cbn [bind]. now apply H. Qed.

(** [m + 1] may not make 2 (m + 1) (2^26 - 1) overflow: [max_magnitude]. *)
Lemma negate_correct (s : fe) (m : N) : m <= 31 -> magnitude m s -> wp (negate s m) (fun r => magnitude (m + 1) r /\ value r + value s = 2 * (m + 1) * K256).
Proof.
  intros Hm. destruct s as [s0 s1 s2 s3 s4 s5 s6 s7 s8 s9]. unfold magnitude. cbn [l0 l1 l2 l3 l4 l5 l6 l7 l8 l9]. change (2 * (2 ^ 26 - 1)) with 134217726. change (2 * (2 ^ 22 - 1)) with 8388606. intros (B0 & B1 & B2 & B3 & B4 & B5 & B6 & B7 & B8 & B9). unfold negate.
  apply (wp_u32 _ 32); [lia|reflexivity|intros n En Bn]. 
  apply (wp_u32 _ 4294904768); [lia|reflexivity|intros v0 E0 _]. apply wp_sub32; [clear - E0 B0 En Hm; lia|intros r0 R0].
  apply (wp_u32 _ 4294963136); [lia|reflexivity|intros v1 E1 _]. apply wp_sub32; [clear - E1 B1 En Hm; lia|intros r1 R1].
  apply (wp_u32 _ 4294967232); [lia|reflexivity|intros v2 E2 _]. apply wp_sub32; [clear - E2 B2 En Hm; lia|intros r2 R2].
  apply (wp_u32 _ 4294967232); [lia|reflexivity|intros v3 E3 _]. apply wp_sub32; [clear - E3 B3 En Hm; lia|intros r3 R3].
  apply (wp_u32 _ 4294967232); [lia|reflexivity|intros v4 E4 _]. apply wp_sub32; [clear - E4 B4 En Hm; lia|intros r4 R4].
  apply (wp_u32 _ 4294967232); [lia|reflexivity|intros v5 E5 _]. apply wp_sub32; [clear - E5 B5 En Hm; lia|intros r5 R5].
  apply (wp_u32 _ 4294967232); [lia|reflexivity|intros v6 E6 _]. apply wp_sub32; [clear - E6 B6 En Hm; lia|intros r6 R6].
  apply (wp_u32 _ 4294967232); [lia|reflexivity|intros v7 E7 _]. apply wp_sub32; [clear - E7 B7 En Hm; lia|intros r7 R7].
  apply (wp_u32 _ 4294967232); [lia|reflexivity|intros v8 E8 _]. apply wp_sub32; [clear - E8 B8 En Hm; lia|intros r8 R8].
  apply (wp_u32 _ 268435392); [lia|reflexivity|intros v9 E9 _]. apply wp_sub32; [clear - E9 B9 En Hm; lia|intros r9 R9].
  apply wp_ret. unfold value. cbn [l0 l1 l2 l3 l4 l5 l6 l7 l8 l9]. split; [subst n; clear - R0 E0 R1 E1 R2 E2 R3 E3 R4 E4 R5 E5 R6 E6 R7 E7 R8 E8 R9 E9; repeat split; lia|].
  assert (F0 : r0 + s0 = v0) by (clear - R0 B0 E0 En Hm; lia). assert (F1 : r1 + s1 = v1) by (clear - R1 B1 E1 En Hm; lia). assert (F2 : r2 + s2 = v2) by (clear - R2 B2 E2 En Hm; lia). assert (F3 : r3 + s3 = v3) by (clear - R3 B3 E3 En Hm; lia). assert (F4 : r4 + s4 = v4) by (clear - R4 B4 E4 En Hm; lia). assert (F5 : r5 + s5 = v5) by (clear - R5 B5 E5 En Hm; lia). assert (F6 : r6 + s6 = v6) by (clear - R6 B6 E6 En Hm; lia). assert (F7 : r7 + s7 = v7) by (clear - R7 B7 E7 En Hm; lia). assert (F8 : r8 + s8 = v8) by (clear - R8 B8 E8 En Hm; lia). assert (F9 : r9 + s9 = v9) by (clear - R9 B9 E9 En Hm; lia).
  clear - F0 E0 F1 E1 F2 E2 F3 E3 F4 E4 F5 E5 F6 E6 F7 E7 F8 E8 F9 E9 En. powers. subst n. lia.
Qed.

Lemma magnitude_mono (m n : N) (x : fe) : m <= n -> magnitude m x -> magnitude n x.
Proof. intros Hmn (M0 & M1 & M2 & M3 & M4 & M5 & M6 & M7 & M8 & M9). repeat split; (etransitivity; [eassumption|apply N.mul_le_mono_r; exact Hmn]). Qed.
Lemma fe_add_correct (s r : fe) (m n : N) : m + n <= 31 -> magnitude m s -> magnitude n r -> wp (fe_add s r) (fun t => magnitude (m + n) t /\ value t = value s + value r).
Proof.
  intros Hm. destruct s as [s0 s1 s2 s3 s4 s5 s6 s7 s8 s9]. destruct r as [r0 r1 r2 r3 r4 r5 r6 r7 r8 r9]. unfold magnitude. cbn [l0 l1 l2 l3 l4 l5 l6 l7 l8 l9]. change (2 * (2 ^ 26 - 1)) with 134217726. change (2 * (2 ^ 22 - 1)) with 8388606. intros (B0 & B1 & B2 & B3 & B4 & B5 & B6 & B7 & B8 & B9) (C0 & C1 & C2 & C3 & C4 & C5 & C6 & C7 & C8 & C9). unfold fe_add.
  apply (wp_u32 _ 4160749506); [clear - B0 C0 Hm; lia|reflexivity|intros v0 E0 _].
  apply (wp_u32 _ 4160749506); [clear - B1 C1 Hm; lia|reflexivity|intros v1 E1 _].
  apply (wp_u32 _ 4160749506); [clear - B2 C2 Hm; lia|reflexivity|intros v2 E2 _].
  apply (wp_u32 _ 4160749506); [clear - B3 C3 Hm; lia|reflexivity|intros v3 E3 _].
  apply (wp_u32 _ 4160749506); [clear - B4 C4 Hm; lia|reflexivity|intros v4 E4 _].
  apply (wp_u32 _ 4160749506); [clear - B5 C5 Hm; lia|reflexivity|intros v5 E5 _].
  apply (wp_u32 _ 4160749506); [clear - B6 C6 Hm; lia|reflexivity|intros v6 E6 _].
  apply (wp_u32 _ 4160749506); [clear - B7 C7 Hm; lia|reflexivity|intros v7 E7 _].
  apply (wp_u32 _ 4160749506); [clear - B8 C8 Hm; lia|reflexivity|intros v8 E8 _].
  apply (wp_u32 _ 260046786); [clear - B9 C9 Hm; lia|reflexivity|intros v9 E9 _].
  apply wp_ret. unfold value. cbn [l0 l1 l2 l3 l4 l5 l6 l7 l8 l9]. split; [repeat split;           (subst; rewrite N.mul_add_distr_r; apply N.add_le_mono; assumption)|]. subst. clear. lia.
Qed.
Lemma mul_single_correct (s : fe) (m k : N) : m * k <= 31 -> magnitude m s -> wp (mul_single s k) (fun t => magnitude (m * k) t /\ value t = value s * k).
Proof.
  intros Hm. destruct s as [s0 s1 s2 s3 s4 s5 s6 s7 s8 s9]. unfold magnitude. cbn [l0 l1 l2 l3 l4 l5 l6 l7 l8 l9]. change (2 * (2 ^ 26 - 1)) with 134217726. change (2 * (2 ^ 22 - 1)) with 8388606. intros (B0 & B1 & B2 & B3 & B4 & B5 & B6 & B7 & B8 & B9). unfold mul_single.
  assert (G : forall x c, x <= m * c -> x * k <= m * k * c) by (clear; intros x c Hx; apply (N.mul_le_mono_r _ _ k) in Hx; lia).
  apply (wp_u32 _ 4160749506); [transitivity (m * k * 134217726); [apply G; assumption|clear - Hm; lia]|reflexivity|intros v0 E0 _].
  apply (wp_u32 _ 4160749506); [transitivity (m * k * 134217726); [apply G; assumption|clear - Hm; lia]|reflexivity|intros v1 E1 _].
  apply (wp_u32 _ 4160749506); [transitivity (m * k * 134217726); [apply G; assumption|clear - Hm; lia]|reflexivity|intros v2 E2 _].
  apply (wp_u32 _ 4160749506); [transitivity (m * k * 134217726); [apply G; assumption|clear - Hm; lia]|reflexivity|intros v3 E3 _].
  apply (wp_u32 _ 4160749506); [transitivity (m * k * 134217726); [apply G; assumption|clear - Hm; lia]|reflexivity|intros v4 E4 _].
  apply (wp_u32 _ 4160749506); [transitivity (m * k * 134217726); [apply G; assumption|clear - Hm; lia]|reflexivity|intros v5 E5 _].
  apply (wp_u32 _ 4160749506); [transitivity (m * k * 134217726); [apply G; assumption|clear - Hm; lia]|reflexivity|intros v6 E6 _].
  apply (wp_u32 _ 4160749506); [transitivity (m * k * 134217726); [apply G; assumption|clear - Hm; lia]|reflexivity|intros v7 E7 _].
  apply (wp_u32 _ 4160749506); [transitivity (m * k * 134217726); [apply G; assumption|clear - Hm; lia]|reflexivity|intros v8 E8 _].
  apply (wp_u32 _ 260046786); [transitivity (m * k * 8388606); [apply G; assumption|clear - Hm; lia]|reflexivity|intros v9 E9 _].
  apply wp_ret. unfold value. cbn [l0 l1 l2 l3 l4 l5 l6 l7 l8 l9]. split; [repeat split; subst; apply G; assumption|]. subst. clear. lia.
Qed.
