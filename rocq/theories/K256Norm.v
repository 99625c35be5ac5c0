(** Normalization, the test for zero, negation and addition of field elements. *)
From Coq Require Import NArith ZArith List Bool Lia.
From Coq Require Import ZifyBool ZifyN ZifyNat.
From Verif Require Import K256Model K256Spec K256Mul.
Local Open Scope N_scope.

Ltac powers := change (2 ^ 26) with 67108864 in *; change (2 ^ 52) with 4503599627370496 in *; change (2 ^ 78) with 302231454903657293676544 in *; change (2 ^ 104) with 20282409603651670423947251286016 in *; change (2 ^ 130) with 1361129467683753853853498429727072845824 in *; change (2 ^ 156) with 91343852333181432387730302044767688728495783936 in *; change (2 ^ 182) with 6129982163463555433433388108601236734474956488734408704 in *; change (2 ^ 208) with 411376139330301510538742295639337626245683966408394965837152256 in *; change (2 ^ 234) with 27606985387162255149739023449108101809804435888681546220650096895197184 in *; change (2 ^ 22) with 4194304 in *; change (2 ^ 23) with 8388608 in *; change (2 ^ 32) with 4294967296 in *; change (2 ^ 256) with 115792089237316195423570985008687907853269984665640564039457584007913129639936 in *; change K256 with 115792089237316195423570985008687907853269984665640564039457584007908834671663 in *.
Ltac proj := cbn [l0 l1 l2 l3 l4 l5 l6 l7 l8 l9] in *.

Lemma shr_mono d n B : d <= B -> N.shiftr d n <= N.shiftr B n.
Proof. intros H. eapply shr_le; [exact H|]. apply N.eqb_refl. Qed.
Ltac bnd1 := lazymatch goal with |- _ + _ <= _ => eapply N.add_le_mono; bnd1 | |- _ * _ <= _ => eapply N.mul_le_mono; bnd1 | |- N.shiftr _ _ <= _ => eapply shr_mono; bnd1 | _ => first [ eassumption | apply N.le_refl ] end.
Ltac bndn := eapply N.le_trans; [ bnd1 | vm_compute; discriminate ].

Section Identity.
Local Open Scope Z_scope.
Lemma amc_identity (s0 s1 s2 s3 s4 s5 s6 s7 s8 s9 x v0 v1 v2 v3 v4 v5 v6 v7 v8 v9 t0 t1 t2 t3 t4 t5 t6 t7 t8 t9 q0 q1 q2 q3 q4 q5 q6 q7 q8 : Z) :
  v0 = s0 + x * 977 -> v1 = s1 + x * 64 + q0 -> v2 = s2 + q1 -> v3 = s3 + q2 -> v4 = s4 + q3 -> v5 = s5 + q4 -> v6 = s6 + q5 -> v7 = s7 + q6 -> v8 = s8 + q7 -> v9 = s9 + q8 ->
  t0 = v0 - 67108864 * q0 -> t1 = v1 - 67108864 * q1 -> t2 = v2 - 67108864 * q2 -> t3 = v3 - 67108864 * q3 -> t4 = v4 - 67108864 * q4 -> t5 = v5 - 67108864 * q5 -> t6 = v6 - 67108864 * q6 -> t7 = v7 - 67108864 * q7 -> t8 = v8 - 67108864 * q8 -> t9 = v9 ->
  t0 + 67108864 * t1 + 4503599627370496 * t2 + 302231454903657293676544 * t3 + 20282409603651670423947251286016 * t4 + 1361129467683753853853498429727072845824 * t5 + 91343852333181432387730302044767688728495783936 * t6 + 6129982163463555433433388108601236734474956488734408704 * t7 + 411376139330301510538742295639337626245683966408394965837152256 * t8 + 27606985387162255149739023449108101809804435888681546220650096895197184 * t9 = s0 + 67108864 * s1 + 4503599627370496 * s2 + 302231454903657293676544 * s3 + 20282409603651670423947251286016 * s4 + 1361129467683753853853498429727072845824 * s5 + 91343852333181432387730302044767688728495783936 * s6 + 6129982163463555433433388108601236734474956488734408704 * s7 + 411376139330301510538742295639337626245683966408394965837152256 * s8 + 27606985387162255149739023449108101809804435888681546220650096895197184 * s9 + x * 4294968273.
Proof. intros. subst. ring. Qed.
End Identity.

(** Limbs below 62 (2^26 - 1): what is left when magnitude 31 is reached. *)
Definition amc_pre (s : fe) : Prop := l0 s <= 4160749506 /\ l1 s <= 4160749506 /\ l2 s <= 4160749506 /\ l3 s <= 4160749506 /\ l4 s <= 4160749506 /\ l5 s <= 4160749506 /\ l6 s <= 4160749506 /\ l7 s <= 4160749506 /\ l8 s <= 4160749506 /\ l9 s <= 8388608.
Definition amc_post (s : fe) (x : N) (r : fe) : Prop :=
  (l0 r < 2 ^ 26 /\ l1 r < 2 ^ 26 /\ l2 r < 2 ^ 26 /\ l3 r < 2 ^ 26 /\ l4 r < 2 ^ 26 /\ l5 r < 2 ^ 26 /\ l6 r < 2 ^ 26 /\ l7 r < 2 ^ 26 /\ l8 r < 2 ^ 26 /\ l9 r <= l9 s + 62) /\ value r = value s + x * (2 ^ 32 + 977).
Lemma shl6 x : x <= 64 -> shl32 x 6 = x * 64.
Proof. intros H. unfold shl32. rewrite N.shiftl_mul_pow2. change (2 ^ 6) with 64. apply N.mod_small. powers. lia. Qed.
Lemma amc_correct (s : fe) (x : N) : amc_pre s -> x <= 64 -> wp (add_modulus_correction s x) (amc_post s x).
Proof.
  destruct s as [s0 s1 s2 s3 s4 s5 s6 s7 s8 s9]. unfold amc_pre. cbn [l0 l1 l2 l3 l4 l5 l6 l7 l8 l9]. intros (B0 & B1 & B2 & B3 & B4 & B5 & B6 & B7 & B8 & B9) Bx. unfold add_modulus_correction. rewrite shl6 by assumption.
  apply (wp_u32 _ 4160812034); [bndn|reflexivity|intros v0 E0 C0].
  apply (wp_u32 _ 4160753602); [bndn|reflexivity|intros w1 E1 D1].
  apply (wp_u32 _ 4160753664); [bndn|reflexivity|intros v1 E1' C1].
  apply wp_low26'; intros t0 T0 U0. pose proof (split_eq t0 (v0 / 2 ^ 26) v0 26 T0 eq_refl) as S0.
  apply (wp_u32 _ 4160749568); [bndn|reflexivity|intros v2 E2 C2].
  apply wp_low26'; intros t1 T1 U1. pose proof (split_eq t1 (v1 / 2 ^ 26) v1 26 T1 eq_refl) as S1.
  apply (wp_u32 _ 4160749568); [bndn|reflexivity|intros v3 E3 C3].
  apply wp_low26'; intros t2 T2 U2. pose proof (split_eq t2 (v2 / 2 ^ 26) v2 26 T2 eq_refl) as S2.
  apply (wp_u32 _ 4160749568); [bndn|reflexivity|intros v4 E4 C4].
  apply wp_low26'; intros t3 T3 U3. pose proof (split_eq t3 (v3 / 2 ^ 26) v3 26 T3 eq_refl) as S3.
  apply (wp_u32 _ 4160749568); [bndn|reflexivity|intros v5 E5 C5].
  apply wp_low26'; intros t4 T4 U4. pose proof (split_eq t4 (v4 / 2 ^ 26) v4 26 T4 eq_refl) as S4.
  apply (wp_u32 _ 4160749568); [bndn|reflexivity|intros v6 E6 C6].
  apply wp_low26'; intros t5 T5 U5. pose proof (split_eq t5 (v5 / 2 ^ 26) v5 26 T5 eq_refl) as S5.
  apply (wp_u32 _ 4160749568); [bndn|reflexivity|intros v7 E7 C7].
  apply wp_low26'; intros t6 T6 U6. pose proof (split_eq t6 (v6 / 2 ^ 26) v6 26 T6 eq_refl) as S6.
  apply (wp_u32 _ 4160749568); [bndn|reflexivity|intros v8 E8 C8].
  apply wp_low26'; intros t7 T7 U7. pose proof (split_eq t7 (v7 / 2 ^ 26) v7 26 T7 eq_refl) as S7.
  apply (wp_u32 _ 8388670); [bndn|reflexivity|intros v9 E9 C9].
  apply wp_low26'; intros t8 T8 U8. pose proof (split_eq t8 (v8 / 2 ^ 26) v8 26 T8 eq_refl) as S8.
  eexists. split; [reflexivity|]. split.
  - cbn [l0 l1 l2 l3 l4 l5 l6 l7 l8 l9]. repeat split; try (eapply N.le_lt_trans; [eassumption|reflexivity]). rewrite E9. apply N.add_le_mono_l. eapply shr_le; [eassumption|reflexivity].
  - unfold value. cbn [l0 l1 l2 l3 l4 l5 l6 l7 l8 l9]. change (2 ^ 32 + 977) with 4294968273. change (2 ^ 52) with 4503599627370496. change (2 ^ 78) with 302231454903657293676544. change (2 ^ 104) with 20282409603651670423947251286016. change (2 ^ 130) with 1361129467683753853853498429727072845824. change (2 ^ 156) with 91343852333181432387730302044767688728495783936. change (2 ^ 182) with 6129982163463555433433388108601236734474956488734408704. change (2 ^ 208) with 411376139330301510538742295639337626245683966408394965837152256. change (2 ^ 234) with 27606985387162255149739023449108101809804435888681546220650096895197184.
    pose proof (amc_identity (Z.of_N s0) (Z.of_N s1) (Z.of_N s2) (Z.of_N s3) (Z.of_N s4) (Z.of_N s5) (Z.of_N s6) (Z.of_N s7) (Z.of_N s8) (Z.of_N s9) (Z.of_N x) (Z.of_N v0) (Z.of_N v1) (Z.of_N v2) (Z.of_N v3) (Z.of_N v4) (Z.of_N v5) (Z.of_N v6) (Z.of_N v7) (Z.of_N v8) (Z.of_N v9) (Z.of_N t0) (Z.of_N t1) (Z.of_N t2) (Z.of_N t3) (Z.of_N t4) (Z.of_N t5) (Z.of_N t6) (Z.of_N t7) (Z.of_N t8) (Z.of_N v9) (Z.of_N (v0 / 2 ^ 26)) (Z.of_N (v1 / 2 ^ 26)) (Z.of_N (v2 / 2 ^ 26)) (Z.of_N (v3 / 2 ^ 26)) (Z.of_N (v4 / 2 ^ 26)) (Z.of_N (v5 / 2 ^ 26)) (Z.of_N (v6 / 2 ^ 26)) (Z.of_N (v7 / 2 ^ 26)) (Z.of_N (v8 / 2 ^ 26))) as Id.
    specialize (Id ltac:(rewrite E0, N2Z.inj_add, N2Z.inj_mul; reflexivity)). specialize (Id ltac:(rewrite E1', E1, N.shiftr_div_pow2, !N2Z.inj_add, N2Z.inj_mul; reflexivity)).
    specialize (Id ltac:(rewrite E2, N.shiftr_div_pow2, N2Z.inj_add; reflexivity)).
    specialize (Id ltac:(rewrite E3, N.shiftr_div_pow2, N2Z.inj_add; reflexivity)).
    specialize (Id ltac:(rewrite E4, N.shiftr_div_pow2, N2Z.inj_add; reflexivity)).
    specialize (Id ltac:(rewrite E5, N.shiftr_div_pow2, N2Z.inj_add; reflexivity)).
    specialize (Id ltac:(rewrite E6, N.shiftr_div_pow2, N2Z.inj_add; reflexivity)).
    specialize (Id ltac:(rewrite E7, N.shiftr_div_pow2, N2Z.inj_add; reflexivity)).
    specialize (Id ltac:(rewrite E8, N.shiftr_div_pow2, N2Z.inj_add; reflexivity)).
    specialize (Id ltac:(rewrite E9, N.shiftr_div_pow2, N2Z.inj_add; reflexivity)).
    specialize (Id (split_Z26 _ _ _ S0)).
    specialize (Id (split_Z26 _ _ _ S1)).
    specialize (Id (split_Z26 _ _ _ S2)).
    specialize (Id (split_Z26 _ _ _ S3)).
    specialize (Id (split_Z26 _ _ _ S4)).
    specialize (Id (split_Z26 _ _ _ S5)).
    specialize (Id (split_Z26 _ _ _ S6)).
    specialize (Id (split_Z26 _ _ _ S7)).
    specialize (Id (split_Z26 _ _ _ S8)).
    specialize (Id eq_refl). change (2 ^ 26) with 67108864. apply N2Z.inj. rewrite ?N2Z.inj_add, ?N2Z.inj_mul, ?N2Z.inj_add, ?N2Z.inj_mul. cbn [Z.of_N]. exact Id.
Qed.

(** ** All limbs are ones exactly if their conjunction is *)
Lemma land_ones_iff x y : x <= 67108863 -> y <= 67108863 -> (N.land x y = 67108863 <-> x = 67108863 /\ y = 67108863).
Proof.
  intros Hx Hy. split.
  - intros H. assert (G : forall z w, z <= 67108863 -> N.land z w = 67108863 -> z = 67108863).
    { intros z w Hz E. assert (Z : N.land z 67108863 = 67108863). { rewrite <- E at 1. rewrite N.land_assoc, N.land_diag. exact E. }
      change 67108863 with (N.ones 26) in Z at 1. rewrite N.land_ones in Z. change (2 ^ 26) with 67108864 in Z. rewrite N.mod_small in Z by lia. exact Z. }
    split; [eapply G; eauto|]. rewrite N.land_comm in H. eapply G; eauto.
  - intros [-> ->]. reflexivity.
Qed.
Lemma land_le x y : x <= 67108863 -> N.land x y <= 67108863.
Proof. intros H. assert (E : N.land x y = N.land (N.land x y) 67108863). { rewrite <- N.land_assoc, (N.land_comm y), N.land_assoc. change 67108863 with (N.ones 26). rewrite N.land_ones. rewrite N.mod_small; [reflexivity|]. change (2 ^ 26) with 67108864. lia. } rewrite E. change 67108863 with (N.ones 26) at 1. rewrite N.land_ones. change (2 ^ 26) with 67108864. pose proof (N.mod_lt (N.land x y) 67108864 ltac:(discriminate)). lia. Qed.

(** ** [get_overflow] decides whether the value is at least the modulus *)
Definition limbs26 (s : fe) : Prop := l0 s < 2 ^ 26 /\ l1 s < 2 ^ 26 /\ l2 s < 2 ^ 26 /\ l3 s < 2 ^ 26 /\ l4 s < 2 ^ 26 /\ l5 s < 2 ^ 26 /\ l6 s < 2 ^ 26 /\ l7 s < 2 ^ 26 /\ l8 s < 2 ^ 26 /\ l9 s < 2 ^ 23.
Lemma get_overflow_correct (s : fe) : limbs26 s -> get_overflow s = Some (K256 <=? value s).
Proof.
  destruct s as [s0 s1 s2 s3 s4 s5 s6 s7 s8 s9]. unfold limbs26, get_overflow, value. proj. intros (B0 & B1 & B2 & B3 & B4 & B5 & B6 & B7 & B8 & B9). unfold u32. 
  assert (Z : N.shiftr (s0 + 0x3D1) 26 = (s0 + 977) / 2 ^ 26) by apply N.shiftr_div_pow2.
  powers. assert ((s0 + 977) / 67108864 <= 1) by (apply N.lt_succ_r; apply N.div_lt_upper_bound; lia).
  replace (s0 + 977 <? 4294967296) with true by lia. cbn [bind]. rewrite Z. replace (s1 + 64 + (s0 + 977) / 67108864 <? 4294967296) with true by lia. cbn [bind]. unfold ok. apply (f_equal (@Some bool)).
  assert (Ls : N.shiftr s9 22 = s9 / 4194304) by apply N.shiftr_div_pow2. rewrite Ls.
  set (m := N.land (N.land (N.land (N.land (N.land (N.land s2 s3) s4) s5) s6) s7) s8).
  assert (Hm : m = 67108863 <-> s2 = 67108863 /\ s3 = 67108863 /\ s4 = 67108863 /\ s5 = 67108863 /\ s6 = 67108863 /\ s7 = 67108863 /\ s8 = 67108863).
  { unfold m. rewrite !land_ones_iff by (repeat apply land_le; lia). tauto. }
  clearbody m. clear Z Ls. apply eq_iff_eq_true. rewrite orb_true_iff, negb_true_iff, !andb_true_iff, N.eqb_neq, !N.eqb_eq, N.ltb_lt, N.leb_le, Hm. clear Hm.
  pose proof (N.div_mod s9 4194304 ltac:(discriminate)) as D9. pose proof (N.mod_lt s9 4194304 ltac:(discriminate)) as L9. pose proof (N.div_mod (s0 + 977) 67108864 ltac:(discriminate)) as D0. pose proof (N.mod_lt (s0 + 977) 67108864 ltac:(discriminate)) as L0.
  set (q9 := s9 / 4194304) in *. set (m9 := s9 mod 4194304) in *. set (q0 := (s0 + 977) / 67108864) in *. set (m0 := (s0 + 977) mod 67108864) in *. clearbody q9 m9 q0 m0.
  split.
  - intros [Q|[[S9 (S2 & S3 & S4 & S5 & S6 & S7 & S8)] Y]]; [lia|]. subst s9 s2 s3 s4 s5 s6 s7 s8. lia.
  - intros G. destruct (N.eq_dec q9 0) as [Q|Q]; [right|left; exact Q]. assert (s9 <= 4194303) by lia. repeat split; lia.
Qed.
