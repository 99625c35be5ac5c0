(** The product of field elements: bounds of every intermediate result, and the value of the result. The steps of the proof
    follow the statements of [mul_inner] one by one. *)
From Coq Require Import NArith ZArith List Bool Lia.
From Coq Require Import ZifyBool ZifyN ZifyNat.
From Verif Require Import K256Model K256Spec.
Local Open Scope N_scope.

Definition wp {A} (o : option A) (post : A -> Prop) : Prop := exists r, o = Some r /\ post r.
Lemma wp_u64 {A} (e B : N) (k : N -> option A) post : e <= B -> (B <? 2 ^ 64) = true -> (forall v, v = e -> v <= B -> wp (k v) post) -> wp (bind (u64 e) k) post.
Proof. intros H1 H2 H. apply N.ltb_lt in H2. unfold u64. replace (e <? 2 ^ 64) with true by (symmetry; apply N.ltb_lt; eapply N.le_lt_trans; eauto). cbn [bind]. now apply H. Qed.
Lemma wp_u32 {A} (e B : N) (k : N -> option A) post : e <= B -> (B <? 2 ^ 32) = true -> (forall v, v = e -> v <= B -> wp (k v) post) -> wp (bind (u32 e) k) post.
Proof. intros H1 H2 H. apply N.ltb_lt in H2. unfold u32. replace (e <? 2 ^ 32) with true by (symmetry; apply N.ltb_lt; eapply N.le_lt_trans; eauto). cbn [bind]. now apply H. Qed.
Lemma wp_ok {A B} (v : B) (k : B -> option A) post : wp (k v) post -> wp (bind (ok v) k) post.
Proof. auto. Qed.
Lemma low26 d : N.land d 0x3FFFFFF = d mod 2 ^ 26. Proof. exact (N.land_ones d 26). Qed.
Lemma low22 d : N.land d 0x3FFFFF = d mod 2 ^ 22. Proof. exact (N.land_ones d 22). Qed.
Lemma as32_small x : x < 2 ^ 32 -> as32 x = x. Proof. intros. now apply N.mod_small. Qed.
Lemma wp_low26 {A} (d : N) (k : N -> option A) post : (forall t, t = d mod 2 ^ 26 -> t <= 67108863 -> wp (k t) post) -> wp (bind (ok (as32 (N.land d 0x3FFFFFF))) k) post.
Proof. intros H. rewrite low26. assert (d mod 2 ^ 26 < 2 ^ 26) by now apply N.mod_lt. cbn [bind ok]. rewrite as32_small by (change (2 ^ 26) with 67108864 in *; change (2 ^ 32) with 4294967296; lia). apply H; auto. change (2 ^ 26) with 67108864 in *. lia. Qed.
Lemma wp_low22 {A} (d : N) (k : N -> option A) post : (forall t, t = d mod 2 ^ 22 -> t <= 4194303 -> wp (k t) post) -> wp (bind (ok (as32 (N.land d (N.shiftr 0x3FFFFFF 4)))) k) post.
Proof. intros H. change (N.shiftr 0x3FFFFFF 4) with 0x3FFFFF. rewrite low22. assert (d mod 2 ^ 22 < 2 ^ 22) by now apply N.mod_lt. cbn [bind ok]. rewrite as32_small by (change (2 ^ 22) with 4194304 in *; change (2 ^ 32) with 4294967296; lia). apply H; auto. change (2 ^ 22) with 4194304 in *. lia. Qed.
Lemma wp_low26' {A} (d : N) (k : N -> option A) post : (forall t, t = d mod 2 ^ 26 -> t <= 67108863 -> wp (k t) post) -> wp (bind (ok (N.land d 0x3FFFFFF)) k) post.
Proof. intros H. rewrite low26. assert (d mod 2 ^ 26 < 2 ^ 26) by now apply N.mod_lt. cbn [bind ok]. apply H; auto. change (2 ^ 26) with 67108864 in *. lia. Qed.
Lemma shr_le d n B C : d <= B -> (N.shiftr B n =? C) = true -> N.shiftr d n <= C.
Proof. intros H1 H2. apply N.eqb_eq in H2. subst C. rewrite !N.shiftr_div_pow2. apply N.div_le_mono; auto. apply N.pow_nonzero. discriminate. Qed.
Lemma wp_shr {A} (d n B C : N) (k : N -> option A) post : d <= B -> (N.shiftr B n =? C) = true -> (forall q, q = d / 2 ^ n -> q <= C -> wp (k q) post) -> wp (bind (ok (N.shiftr d n)) k) post.
Proof. intros H1 H2 H. cbn [bind ok]. apply H; [apply N.shiftr_div_pow2|eapply shr_le; eauto]. Qed.
Lemma wp_assert_shr {A} (v n B : N) (k : option A) post : v <= B -> (N.shiftr B n =? 0) = true -> wp k post -> wp (guard (N.shiftr v n =? 0) k) post.
Proof. intros H1 H2 H. pose proof (shr_le v n B 0 H1 H2) as L. apply N.le_0_r in L. now rewrite L. Qed.
Lemma wp_assert_le {A} (v n B : N) (k : option A) post : v <= B -> (B <=? n) = true -> wp k post -> wp (guard (v <=? n) k) post.
Proof. intros H1 H2 H. apply N.leb_le in H2. unfold guard. replace (v <=? n) with true; auto. symmetry. apply N.leb_le. etransitivity; eauto. Qed.
Lemma wp_as32 {A} (v B : N) (k : N -> option A) post : v <= B -> (B <? 2 ^ 32) = true -> wp (k v) post -> wp (bind (ok (as32 v)) k) post.
Proof. intros H1 H2 H. apply N.ltb_lt in H2. cbn [bind ok]. rewrite as32_small; auto. eapply N.le_lt_trans; eauto. Qed.
Lemma wp_bind {A B} (o : option B) (k : B -> option A) (mid : B -> Prop) post : wp o mid -> (forall v, mid v -> wp (k v) post) -> wp (bind o k) post.
Proof. intros (v & -> & M) H. cbn [bind]. auto. Qed.
Lemma wp_weaken {A} (o : option A) (mid post : A -> Prop) : wp o mid -> (forall v, mid v -> post v) -> wp o post.
Proof. intros (v & -> & M) H. exists v. auto. Qed.
Lemma split_eq (t q d n : N) : t = d mod 2 ^ n -> q = d / 2 ^ n -> d = 2 ^ n * q + t.
Proof. intros -> ->. apply N.div_mod. apply N.pow_nonzero. discriminate. Qed.

Lemma split_Z26 (d q t : N) : d = 2 ^ 26 * q + t -> (Z.of_N t = Z.of_N d - 67108864 * Z.of_N q)%Z.
Proof. change (2 ^ 26) with 67108864. lia. Qed.
Lemma split_Z22 (d q t : N) : d = 2 ^ 22 * q + t -> (Z.of_N t = Z.of_N d - 4194304 * Z.of_N q)%Z.
Proof. change (2 ^ 22) with 4194304. lia. Qed.
Ltac bnd0 := lazymatch goal with |- _ + _ <= _ => eapply N.add_le_mono; bnd0 | |- _ * _ <= _ => eapply N.mul_le_mono; bnd0 | _ => first [ eassumption | apply N.le_refl ] end.
Ltac bnd := eapply N.le_trans; [ bnd0 | vm_compute; discriminate ].

(** 2^260 is 16 K256 + 2^26 rr1 + rr0. *)
Section Identity.
Local Open Scope Z_scope.
Lemma mul_identity (a0 a1 a2 a3 a4 a5 a6 a7 a8 a9 b0 b1 b2 b3 b4 b5 b6 b7 b8 b9 d_1 t9_1 d_2 c_1 d_3 u0_1 d_4 c_2 t0_1 c_3 c_4 c_5 d_5 u1_1 d_6 c_6 t1_1 c_7 c_8 c_9 d_7 u2_1 d_8 c_10 t2_1 c_11 c_12 c_13 d_9 u3_1 d_10 c_14 t3_1 c_15 c_16 c_17 d_11 u4_1 d_12 c_18 t4_1 c_19 c_20 c_21 d_13 u5_1 d_14 c_22 t5_1 c_23 c_24 c_25 d_15 u6_1 d_16 c_26 t6_1 c_27 c_28 c_29 d_17 u7_1 d_18 c_30 t7_1 c_31 c_32 c_33 d_19 u8_1 d_20 c_34 r8_1 c_35 c_36 c_37 r9_1 c_38 c_39 d_21 r0_1 d_22 d_23 r1_1 d_24 d_25 : Z) :
  (d_1 = a0 * b9 + a1 * b8 + a2 * b7 + a3 * b6 + a4 * b5 + a5 * b4 + a6 * b3 + a7 * b2 + a8 * b1 + a9 * b0) -> (t9_1 = d_1 - 67108864 * d_2) -> (c_1 = a0 * b0) -> (d_3 = d_2 + (a1 * b9 + a2 * b8 + a3 * b7 + a4 * b6 + a5 * b5 + a6 * b4 + a7 * b3 + a8 * b2 + a9 * b1)) -> (u0_1 = d_3 - 67108864 * d_4) -> (c_2 = c_1 + (u0_1 * 15632)) -> (t0_1 = c_2 - 67108864 * c_3) -> (c_4 = c_3 + (u0_1 * 1024)) -> (c_5 = c_4 + (a0 * b1 + a1 * b0)) -> (d_5 = d_4 + (a2 * b9 + a3 * b8 + a4 * b7 + a5 * b6 + a6 * b5 + a7 * b4 + a8 * b3 + a9 * b2)) -> (u1_1 = d_5 - 67108864 * d_6) -> (c_6 = c_5 + (u1_1 * 15632)) -> (t1_1 = c_6 - 67108864 * c_7) -> (c_8 = c_7 + (u1_1 * 1024)) -> (c_9 = c_8 + (a0 * b2 + a1 * b1 + a2 * b0)) -> (d_7 = d_6 + (a3 * b9 + a4 * b8 + a5 * b7 + a6 * b6 + a7 * b5 + a8 * b4 + a9 * b3)) -> (u2_1 = d_7 - 67108864 * d_8) -> (c_10 = c_9 + (u2_1 * 15632)) -> (t2_1 = c_10 - 67108864 * c_11) -> (c_12 = c_11 + (u2_1 * 1024)) -> (c_13 = c_12 + (a0 * b3 + a1 * b2 + a2 * b1 + a3 * b0)) -> (d_9 = d_8 + (a4 * b9 + a5 * b8 + a6 * b7 + a7 * b6 + a8 * b5 + a9 * b4)) -> (u3_1 = d_9 - 67108864 * d_10) -> (c_14 = c_13 + (u3_1 * 15632)) -> (t3_1 = c_14 - 67108864 * c_15) -> (c_16 = c_15 + (u3_1 * 1024)) -> (c_17 = c_16 + (a0 * b4 + a1 * b3 + a2 * b2 + a3 * b1 + a4 * b0)) -> (d_11 = d_10 + (a5 * b9 + a6 * b8 + a7 * b7 + a8 * b6 + a9 * b5)) -> (u4_1 = d_11 - 67108864 * d_12) -> (c_18 = c_17 + (u4_1 * 15632)) -> (t4_1 = c_18 - 67108864 * c_19) -> (c_20 = c_19 + (u4_1 * 1024)) -> (c_21 = c_20 + (a0 * b5 + a1 * b4 + a2 * b3 + a3 * b2 + a4 * b1 + a5 * b0)) -> (d_13 = d_12 + (a6 * b9 + a7 * b8 + a8 * b7 + a9 * b6)) -> (u5_1 = d_13 - 67108864 * d_14) -> (c_22 = c_21 + (u5_1 * 15632)) -> (t5_1 = c_22 - 67108864 * c_23) -> (c_24 = c_23 + (u5_1 * 1024)) -> (c_25 = c_24 + (a0 * b6 + a1 * b5 + a2 * b4 + a3 * b3 + a4 * b2 + a5 * b1 + a6 * b0)) -> (d_15 = d_14 + (a7 * b9 + a8 * b8 + a9 * b7)) -> (u6_1 = d_15 - 67108864 * d_16) -> (c_26 = c_25 + (u6_1 * 15632)) -> (t6_1 = c_26 - 67108864 * c_27) -> (c_28 = c_27 + (u6_1 * 1024)) -> (c_29 = c_28 + (a0 * b7 + a1 * b6 + a2 * b5 + a3 * b4 + a4 * b3 + a5 * b2 + a6 * b1 + a7 * b0)) -> (d_17 = d_16 + (a8 * b9 + a9 * b8)) -> (u7_1 = d_17 - 67108864 * d_18) -> (c_30 = c_29 + (u7_1 * 15632)) -> (t7_1 = c_30 - 67108864 * c_31) -> (c_32 = c_31 + (u7_1 * 1024)) -> (c_33 = c_32 + (a0 * b8 + a1 * b7 + a2 * b6 + a3 * b5 + a4 * b4 + a5 * b3 + a6 * b2 + a7 * b1 + a8 * b0)) -> (d_19 = d_18 + a9 * b9) -> (u8_1 = d_19 - 67108864 * d_20) -> (c_34 = c_33 + (u8_1 * 15632)) -> (r8_1 = c_34 - 67108864 * c_35) -> (c_36 = c_35 + (u8_1 * 1024)) -> (c_37 = c_36 + (d_20 * 15632 + t9_1)) -> (r9_1 = c_37 - 4194304 * c_38) -> (c_39 = c_38 + (d_20 * 16384)) -> (d_21 = c_39 * 977 + t0_1) -> (r0_1 = d_21 - 67108864 * d_22) -> (d_23 = d_22 + c_39 * 64 + t1_1) -> (r1_1 = d_23 - 67108864 * d_24) -> (d_25 = d_24 + t2_1) ->
  (a0 + 67108864 * a1 + 4503599627370496 * a2 + 302231454903657293676544 * a3 + 20282409603651670423947251286016 * a4 + 1361129467683753853853498429727072845824 * a5 + 91343852333181432387730302044767688728495783936 * a6 + 6129982163463555433433388108601236734474956488734408704 * a7 + 411376139330301510538742295639337626245683966408394965837152256 * a8 + 27606985387162255149739023449108101809804435888681546220650096895197184 * a9) * (b0 + 67108864 * b1 + 4503599627370496 * b2 + 302231454903657293676544 * b3 + 20282409603651670423947251286016 * b4 + 1361129467683753853853498429727072845824 * b5 + 91343852333181432387730302044767688728495783936 * b6 + 6129982163463555433433388108601236734474956488734408704 * b7 + 411376139330301510538742295639337626245683966408394965837152256 * b8 + 27606985387162255149739023449108101809804435888681546220650096895197184 * b9) = r0_1 + 67108864 * r1_1 + 4503599627370496 * d_25 + 302231454903657293676544 * t3_1 + 20282409603651670423947251286016 * t4_1 + 1361129467683753853853498429727072845824 * t5_1 + 91343852333181432387730302044767688728495783936 * t6_1 + 6129982163463555433433388108601236734474956488734408704 * t7_1 + 411376139330301510538742295639337626245683966408394965837152256 * r8_1 + 27606985387162255149739023449108101809804435888681546220650096895197184 * r9_1 + 115792089237316195423570985008687907853269984665640564039457584007908834671663 * (16 * (1 * u0_1 + 67108864 * u1_1 + 4503599627370496 * u2_1 + 302231454903657293676544 * u3_1 + 20282409603651670423947251286016 * u4_1 + 1361129467683753853853498429727072845824 * u5_1 + 91343852333181432387730302044767688728495783936 * u6_1 + 6129982163463555433433388108601236734474956488734408704 * u7_1 + 411376139330301510538742295639337626245683966408394965837152256 * u8_1 + 27606985387162255149739023449108101809804435888681546220650096895197184 * d_20) + c_39).
Proof. intros. subst. ring. Qed.
End Identity.

(** What [mul_inner] gives: nine limbs of 26 bits, except for the third one, and a last limb of 22 bits. *)
Definition mul_post (x y r : fe) : Prop :=
  (l0 r < 2 ^ 26 /\ l1 r < 2 ^ 26 /\ l2 r <= 68157440 /\ l3 r < 2 ^ 26 /\ l4 r < 2 ^ 26 /\ l5 r < 2 ^ 26 /\ l6 r < 2 ^ 26 /\ l7 r < 2 ^ 26 /\ l8 r < 2 ^ 26 /\ l9 r < 2 ^ 22) /\
  exists k, value x * value y = value r + K256 * k.

Lemma mul_inner_correct (x y : fe) : magnitude 8 x -> magnitude 8 y -> wp (mul_inner x y) (mul_post x y).
Proof.
  destruct x as [a0 a1 a2 a3 a4 a5 a6 a7 a8 a9]. destruct y as [b0 b1 b2 b3 b4 b5 b6 b7 b8 b9]. unfold magnitude. cbn [l0 l1 l2 l3 l4 l5 l6 l7 l8 l9].
  change (8 * (2 * (2 ^ 26 - 1))) with 1073741808. change (8 * (2 * (2 ^ 22 - 1))) with 67108848.
  intros (B_a0 & B_a1 & B_a2 & B_a3 & B_a4 & B_a5 & B_a6 & B_a7 & B_a8 & B_a9) (B_b0 & B_b1 & B_b2 & B_b3 & B_b4 & B_b5 & B_b6 & B_b7 & B_b8 & B_b9).
  unfold mul_inner. cbv zeta.
  change (N.shiftr 0x3D10 4) with 977. change (N.shiftr 0x400 4) with 64. change (N.shiftl 0x400 4) with 16384.
  apply (wp_u64 _ 9367486913545505280); [bnd | reflexivity | intros d_1 E_d_1 B_d_1].
  apply (wp_low26); intros t9_1 E_t9_1 B_t9_1.
  apply (wp_shr _ 26 9367486913545505280 139586432480); [assumption | reflexivity | intros d_2 E_d_2 B_d_2].
  pose proof (split_eq _ _ _ _ E_t9_1 E_d_2) as D_d_2.
  apply (wp_assert_shr _ 26 67108863); [assumption | reflexivity |].
  apply (wp_assert_shr _ 38 139586432480); [assumption | reflexivity |].
  apply (wp_u64 _ 1152921470247108864); [bnd | reflexivity | intros c_1 E_c_1 B_c_1].
  apply (wp_assert_shr _ 60 1152921470247108864); [assumption | reflexivity |].
  apply (wp_u64 _ 8214565582884828896); [bnd | reflexivity | intros d_3 E_d_3 B_d_3].
  apply (wp_assert_shr _ 63 8214565582884828896); [assumption | reflexivity |].
  apply (wp_low26); intros u0_1 E_u0_1 B_u0_1.
  apply (wp_shr _ 26 8214565582884828896 122406565887); [assumption | reflexivity | intros d_4 E_d_4 B_d_4].
  pose proof (split_eq _ _ _ _ E_u0_1 E_d_4) as D_d_4.
  apply (wp_u64 _ 1152922519292855280); [bnd | reflexivity | intros c_2 E_c_2 B_c_2].
  apply (wp_assert_shr _ 26 67108863); [assumption | reflexivity |].
  apply (wp_assert_shr _ 37 122406565887); [assumption | reflexivity |].
  apply (wp_assert_shr _ 61 1152922519292855280); [assumption | reflexivity |].
  apply (wp_low26); intros t0_1 E_t0_1 B_t0_1.
  apply (wp_shr _ 26 1152922519292855280 17179884303); [assumption | reflexivity | intros c_3 E_c_3 B_c_3].
  pose proof (split_eq _ _ _ _ E_t0_1 E_c_3) as D_c_3.
  apply (wp_u64 _ 85899360015); [bnd | reflexivity | intros c_4 E_c_4 B_c_4].
  apply (wp_assert_shr _ 26 67108863); [assumption | reflexivity |].
  apply (wp_assert_shr _ 37 85899360015); [assumption | reflexivity |].
  apply (wp_u64 _ 2305843026393577743); [bnd | reflexivity | intros c_5 E_c_5 B_c_5].
  apply (wp_assert_shr _ 62 2305843026393577743); [assumption | reflexivity |].
  apply (wp_u64 _ 7061644095457853439); [bnd | reflexivity | intros d_5 E_d_5 B_d_5].
  apply (wp_assert_shr _ 63 7061644095457853439); [assumption | reflexivity |].
  apply (wp_low26); intros u1_1 E_u1_1 B_u1_1.
  apply (wp_shr _ 26 7061644095457853439 105226696959); [assumption | reflexivity | intros d_6 E_d_6 B_d_6].
  pose proof (split_eq _ _ _ _ E_u1_1 E_d_6) as D_d_6.
  apply (wp_u64 _ 2305844075439324159); [bnd | reflexivity | intros c_6 E_c_6 B_c_6].
  apply (wp_assert_shr _ 26 67108863); [assumption | reflexivity |].
  apply (wp_assert_shr _ 37 105226696959); [assumption | reflexivity |].
  apply (wp_assert_shr _ 63 2305844075439324159); [assumption | reflexivity |].
  apply (wp_low26); intros t1_1 E_t1_1 B_t1_1.
  apply (wp_shr _ 26 2305844075439324159 34359754255); [assumption | reflexivity | intros c_7 E_c_7 B_c_7].
  pose proof (split_eq _ _ _ _ E_t1_1 E_c_7) as D_c_7.
  apply (wp_u64 _ 103079229967); [bnd | reflexivity | intros c_8 E_c_8 B_c_8].
  apply (wp_assert_shr _ 26 67108863); [assumption | reflexivity |].
  apply (wp_assert_shr _ 38 103079229967); [assumption | reflexivity |].
  apply (wp_u64 _ 3458764513820556559); [bnd | reflexivity | intros c_9 E_c_9 B_c_9].
  apply (wp_assert_shr _ 62 3458764513820556559); [assumption | reflexivity |].
  apply (wp_u64 _ 5908722608030875647); [bnd | reflexivity | intros d_7 E_d_7 B_d_7].
  apply (wp_assert_shr _ 63 5908722608030875647); [assumption | reflexivity |].
  apply (wp_low26); intros u2_1 E_u2_1 B_u2_1.
  apply (wp_shr _ 26 5908722608030875647 88046828031); [assumption | reflexivity | intros d_8 E_d_8 B_d_8].
  pose proof (split_eq _ _ _ _ E_u2_1 E_d_8) as D_d_8.
  apply (wp_u64 _ 3458765562866302975); [bnd | reflexivity | intros c_10 E_c_10 B_c_10].
  apply (wp_assert_shr _ 26 67108863); [assumption | reflexivity |].
  apply (wp_assert_shr _ 37 88046828031); [assumption | reflexivity |].
  apply (wp_assert_shr _ 63 3458765562866302975); [assumption | reflexivity |].
  apply (wp_low26); intros t2_1 E_t2_1 B_t2_1.
  apply (wp_shr _ 26 3458765562866302975 51539623183); [assumption | reflexivity | intros c_11 E_c_11 B_c_11].
  pose proof (split_eq _ _ _ _ E_t2_1 E_c_11) as D_c_11.
  apply (wp_u64 _ 120259098895); [bnd | reflexivity | intros c_12 E_c_12 B_c_12].
  apply (wp_assert_shr _ 26 67108863); [assumption | reflexivity |].
  apply (wp_assert_shr _ 38 120259098895); [assumption | reflexivity |].
  apply (wp_u64 _ 4611686001247534351); [bnd | reflexivity | intros c_13 E_c_13 B_c_13].
  apply (wp_assert_shr _ 63 4611686001247534351); [assumption | reflexivity |].
  apply (wp_u64 _ 4755801120603897855); [bnd | reflexivity | intros d_9 E_d_9 B_d_9].
  apply (wp_assert_shr _ 63 4755801120603897855); [assumption | reflexivity |].
  apply (wp_low26); intros u3_1 E_u3_1 B_u3_1.
  apply (wp_shr _ 26 4755801120603897855 70866959103); [assumption | reflexivity | intros d_10 E_d_10 B_d_10].
  pose proof (split_eq _ _ _ _ E_u3_1 E_d_10) as D_d_10.
  apply (wp_u64 _ 4611687050293280767); [bnd | reflexivity | intros c_14 E_c_14 B_c_14].
  apply (wp_assert_shr _ 26 67108863); [assumption | reflexivity |].
  apply (wp_assert_shr _ 37 70866959103); [assumption | reflexivity |].
  apply (wp_low26); intros t3_1 E_t3_1 B_t3_1.
  apply (wp_shr _ 26 4611687050293280767 68719492111); [assumption | reflexivity | intros c_15 E_c_15 B_c_15].
  pose proof (split_eq _ _ _ _ E_t3_1 E_c_15) as D_c_15.
  apply (wp_u64 _ 137438967823); [bnd | reflexivity | intros c_16 E_c_16 B_c_16].
  apply (wp_assert_shr _ 26 67108863); [assumption | reflexivity |].
  apply (wp_assert_shr _ 39 137438967823); [assumption | reflexivity |].
  apply (wp_u64 _ 5764607488674512143); [bnd | reflexivity | intros c_17 E_c_17 B_c_17].
  apply (wp_assert_shr _ 63 5764607488674512143); [assumption | reflexivity |].
  apply (wp_u64 _ 3602879633176920063); [bnd | reflexivity | intros d_11 E_d_11 B_d_11].
  apply (wp_assert_shr _ 62 3602879633176920063); [assumption | reflexivity |].
  apply (wp_low26); intros u4_1 E_u4_1 B_u4_1.
  apply (wp_shr _ 26 3602879633176920063 53687090175); [assumption | reflexivity | intros d_12 E_d_12 B_d_12].
  pose proof (split_eq _ _ _ _ E_u4_1 E_d_12) as D_d_12.
  apply (wp_u64 _ 5764608537720258559); [bnd | reflexivity | intros c_18 E_c_18 B_c_18].
  apply (wp_assert_shr _ 26 67108863); [assumption | reflexivity |].
  apply (wp_assert_shr _ 36 53687090175); [assumption | reflexivity |].
  apply (wp_low26); intros t4_1 E_t4_1 B_t4_1.
  apply (wp_shr _ 26 5764608537720258559 85899361039); [assumption | reflexivity | intros c_19 E_c_19 B_c_19].
  pose proof (split_eq _ _ _ _ E_t4_1 E_c_19) as D_c_19.
  apply (wp_u64 _ 154618836751); [bnd | reflexivity | intros c_20 E_c_20 B_c_20].
  apply (wp_assert_shr _ 26 67108863); [assumption | reflexivity |].
  apply (wp_assert_shr _ 39 154618836751); [assumption | reflexivity |].
  apply (wp_u64 _ 6917528976101489935); [bnd | reflexivity | intros c_21 E_c_21 B_c_21].
  apply (wp_assert_shr _ 63 6917528976101489935); [assumption | reflexivity |].
  apply (wp_u64 _ 2449958145749942271); [bnd | reflexivity | intros d_13 E_d_13 B_d_13].
  apply (wp_assert_shr _ 62 2449958145749942271); [assumption | reflexivity |].
  apply (wp_low26); intros u5_1 E_u5_1 B_u5_1.
  apply (wp_shr _ 26 2449958145749942271 36507221247); [assumption | reflexivity | intros d_14 E_d_14 B_d_14].
  pose proof (split_eq _ _ _ _ E_u5_1 E_d_14) as D_d_14.
  apply (wp_u64 _ 6917530025147236351); [bnd | reflexivity | intros c_22 E_c_22 B_c_22].
  apply (wp_assert_shr _ 26 67108863); [assumption | reflexivity |].
  apply (wp_assert_shr _ 36 36507221247); [assumption | reflexivity |].
  apply (wp_low26); intros t5_1 E_t5_1 B_t5_1.
  apply (wp_shr _ 26 6917530025147236351 103079229967); [assumption | reflexivity | intros c_23 E_c_23 B_c_23].
  pose proof (split_eq _ _ _ _ E_t5_1 E_c_23) as D_c_23.
  apply (wp_u64 _ 171798705679); [bnd | reflexivity | intros c_24 E_c_24 B_c_24].
  apply (wp_assert_shr _ 26 67108863); [assumption | reflexivity |].
  apply (wp_assert_shr _ 39 171798705679); [assumption | reflexivity |].
  apply (wp_u64 _ 8070450463528467727); [bnd | reflexivity | intros c_25 E_c_25 B_c_25].
  apply (wp_assert_shr _ 63 8070450463528467727); [assumption | reflexivity |].
  apply (wp_u64 _ 1297036658322964479); [bnd | reflexivity | intros d_15 E_d_15 B_d_15].
  apply (wp_assert_shr _ 61 1297036658322964479); [assumption | reflexivity |].
  apply (wp_low26); intros u6_1 E_u6_1 B_u6_1.
  apply (wp_shr _ 26 1297036658322964479 19327352319); [assumption | reflexivity | intros d_16 E_d_16 B_d_16].
  pose proof (split_eq _ _ _ _ E_u6_1 E_d_16) as D_d_16.
  apply (wp_u64 _ 8070451512574214143); [bnd | reflexivity | intros c_26 E_c_26 B_c_26].
  apply (wp_assert_shr _ 26 67108863); [assumption | reflexivity |].
  apply (wp_assert_shr _ 35 19327352319); [assumption | reflexivity |].
  apply (wp_low26); intros t6_1 E_t6_1 B_t6_1.
  apply (wp_shr _ 26 8070451512574214143 120259098895); [assumption | reflexivity | intros c_27 E_c_27 B_c_27].
  pose proof (split_eq _ _ _ _ E_t6_1 E_c_27) as D_c_27.
  apply (wp_u64 _ 188978574607); [bnd | reflexivity | intros c_28 E_c_28 B_c_28].
  apply (wp_assert_shr _ 26 67108863); [assumption | reflexivity |].
  apply (wp_assert_shr _ 39 188978574607); [assumption | reflexivity |].
  apply (wp_u64 _ 9223371950955445519); [bnd | reflexivity | intros c_29 E_c_29 B_c_29].
  apply (wp_assert_le _ 9223372569430720519 9223371950955445519); [assumption | reflexivity |].
  apply (wp_u64 _ 144115170895986687); [bnd | reflexivity | intros d_17 E_d_17 B_d_17].
  apply (wp_assert_shr _ 58 144115170895986687); [assumption | reflexivity |].
  apply (wp_low26); intros u7_1 E_u7_1 B_u7_1.
  apply (wp_shr _ 26 144115170895986687 2147483391); [assumption | reflexivity | intros d_18 E_d_18 B_d_18].
  pose proof (split_eq _ _ _ _ E_u7_1 E_d_18) as D_d_18.
  apply (wp_u64 _ 9223373000001191935); [bnd | reflexivity | intros c_30 E_c_30 B_c_30].
  apply (wp_assert_shr _ 26 67108863); [assumption | reflexivity |].
  apply (wp_assert_shr _ 32 2147483391); [assumption | reflexivity |].
  apply (wp_as32 _ 2147483391); [assumption | reflexivity |].
  apply (wp_assert_le _ 9223373618476466935 9223373000001191935); [assumption | reflexivity |].
  apply (wp_low26); intros t7_1 E_t7_1 B_t7_1.
  apply (wp_shr _ 26 9223373000001191935 137438967823); [assumption | reflexivity | intros c_31 E_c_31 B_c_31].
  pose proof (split_eq _ _ _ _ E_t7_1 E_c_31) as D_c_31.
  apply (wp_u64 _ 206158443535); [bnd | reflexivity | intros c_32 E_c_32 B_c_32].
  apply (wp_assert_shr _ 26 67108863); [assumption | reflexivity |].
  apply (wp_assert_shr _ 38 206158443535); [assumption | reflexivity |].
  apply (wp_u64 _ 10376293438382423311); [bnd | reflexivity | intros c_33 E_c_33 B_c_33].
  apply (wp_assert_le _ 10376294071890083848 10376293438382423311); [assumption | reflexivity |].
  apply (wp_u64 _ 4503599627370495); [bnd | reflexivity | intros d_19 E_d_19 B_d_19].
  apply (wp_assert_shr _ 57 4503599627370495); [assumption | reflexivity |].
  apply (wp_low26); intros u8_1 E_u8_1 B_u8_1.
  apply (wp_shr _ 26 4503599627370495 67108863); [assumption | reflexivity | intros d_20 E_d_20 B_d_20].
  pose proof (split_eq _ _ _ _ E_u8_1 E_d_20) as D_d_20.
  apply (wp_u64 _ 10376294487428169727); [bnd | reflexivity | intros c_34 E_c_34 B_c_34].
  apply (wp_assert_shr _ 26 67108863); [assumption | reflexivity |].
  apply (wp_assert_shr _ 31 67108863); [assumption | reflexivity |].
  apply (wp_as32 _ 67108863); [assumption | reflexivity |].
  apply (wp_assert_le _ 10376295120935830264 10376294487428169727); [assumption | reflexivity |].
  apply wp_ok.
  apply (wp_assert_shr _ 26 67108863); [assumption | reflexivity |].
  apply wp_ok.
  apply (wp_assert_shr _ 26 67108863); [assumption | reflexivity |].
  apply wp_ok.
  apply (wp_assert_shr _ 26 67108863); [assumption | reflexivity |].
  apply wp_ok.
  apply (wp_assert_shr _ 26 67108863); [assumption | reflexivity |].
  apply wp_ok.
  apply (wp_assert_shr _ 26 67108863); [assumption | reflexivity |].
  apply (wp_low26); intros r8_1 E_r8_1 B_r8_1.
  apply (wp_shr _ 26 10376294487428169727 154618836751); [assumption | reflexivity | intros c_35 E_c_35 B_c_35].
  pose proof (split_eq _ _ _ _ E_r8_1 E_c_35) as D_c_35.
  apply (wp_u64 _ 223338312463); [bnd | reflexivity | intros c_36 E_c_36 B_c_36].
  apply (wp_assert_shr _ 26 67108863); [assumption | reflexivity |].
  apply (wp_assert_shr _ 39 223338312463); [assumption | reflexivity |].
  apply (wp_u64 _ 1272451167742); [bnd | reflexivity | intros c_37 E_c_37 B_c_37].
  apply (wp_assert_shr _ 45 1272451167742); [assumption | reflexivity |].
  apply (wp_low22); intros r9_1 E_r9_1 B_r9_1.
  apply (wp_shr _ 22 1272451167742 303375); [assumption | reflexivity | intros c_38 E_c_38 B_c_38].
  pose proof (split_eq _ _ _ _ E_r9_1 E_c_38) as D_c_38.
  apply (wp_u64 _ 1099511914767); [bnd | reflexivity | intros c_39 E_c_39 B_c_39].
  apply (wp_assert_shr _ 22 4194303); [assumption | reflexivity |].
  apply (wp_assert_shr _ 46 1099511914767); [assumption | reflexivity |].
  apply (wp_u64 _ 1074223207836222); [bnd | reflexivity | intros d_21 E_d_21 B_d_21].
  apply (wp_assert_shr _ 56 1074223207836222); [assumption | reflexivity |].
  apply (wp_low26); intros r0_1 E_r0_1 B_r0_1.
  apply (wp_shr _ 26 1074223207836222 16007173); [assumption | reflexivity | intros d_22 E_d_22 B_d_22].
  pose proof (split_eq _ _ _ _ E_r0_1 E_d_22) as D_d_22.
  apply (wp_assert_shr _ 26 67108863); [assumption | reflexivity |].
  apply (wp_assert_shr _ 30 16007173); [assumption | reflexivity |].
  apply (wp_as32 _ 16007173); [assumption | reflexivity |].
  apply (wp_u64 _ 70368845661124); [bnd | reflexivity | intros d_23 E_d_23 B_d_23].
  apply (wp_assert_shr _ 53 70368845661124); [assumption | reflexivity |].
  apply (wp_assert_le _ 4503599694479295 70368845661124); [assumption | reflexivity |].
  apply (wp_low26); intros r1_1 E_r1_1 B_r1_1.
  apply (wp_shr _ 26 70368845661124 1048577); [assumption | reflexivity | intros d_24 E_d_24 B_d_24].
  pose proof (split_eq _ _ _ _ E_r1_1 E_d_24) as D_d_24.
  apply (wp_assert_shr _ 26 67108863); [assumption | reflexivity |].
  apply (wp_assert_shr _ 27 1048577); [assumption | reflexivity |].
  apply (wp_as32 _ 1048577); [assumption | reflexivity |].
  apply (wp_assert_le _ 67108864 1048577); [assumption | reflexivity |].
  apply (wp_u64 _ 68157440); [bnd | reflexivity | intros d_25 E_d_25 B_d_25].
  apply (wp_assert_shr _ 27 68157440); [assumption | reflexivity |].
  apply (wp_as32 _ 68157440); [assumption | reflexivity |].
  apply (wp_assert_shr _ 27 68157440); [assumption | reflexivity |].
  eexists. split; [reflexivity|]. split.
  - cbn [l0 l1 l2 l3 l4 l5 l6 l7 l8 l9]. repeat split; try assumption; (eapply N.le_lt_trans; [eassumption|reflexivity]).
  - exists (16 * (1 * u0_1 + 67108864 * u1_1 + 4503599627370496 * u2_1 + 302231454903657293676544 * u3_1 + 20282409603651670423947251286016 * u4_1 + 1361129467683753853853498429727072845824 * u5_1 + 91343852333181432387730302044767688728495783936 * u6_1 + 6129982163463555433433388108601236734474956488734408704 * u7_1 + 411376139330301510538742295639337626245683966408394965837152256 * u8_1 + 27606985387162255149739023449108101809804435888681546220650096895197184 * d_20) + c_39). unfold value, K256. cbn [l0 l1 l2 l3 l4 l5 l6 l7 l8 l9].
    change (2 ^ 26) with 67108864. change (2 ^ 52) with 4503599627370496. change (2 ^ 78) with 302231454903657293676544. change (2 ^ 104) with 20282409603651670423947251286016. change (2 ^ 130) with 1361129467683753853853498429727072845824. change (2 ^ 156) with 91343852333181432387730302044767688728495783936. change (2 ^ 182) with 6129982163463555433433388108601236734474956488734408704. change (2 ^ 208) with 411376139330301510538742295639337626245683966408394965837152256. change (2 ^ 234) with 27606985387162255149739023449108101809804435888681546220650096895197184. change (2 ^ 256 - 2 ^ 32 - 977) with 115792089237316195423570985008687907853269984665640564039457584007908834671663.
    pose proof (mul_identity (Z.of_N a0) (Z.of_N a1) (Z.of_N a2) (Z.of_N a3) (Z.of_N a4) (Z.of_N a5) (Z.of_N a6) (Z.of_N a7) (Z.of_N a8) (Z.of_N a9) (Z.of_N b0) (Z.of_N b1) (Z.of_N b2) (Z.of_N b3) (Z.of_N b4) (Z.of_N b5) (Z.of_N b6) (Z.of_N b7) (Z.of_N b8) (Z.of_N b9) (Z.of_N d_1) (Z.of_N t9_1) (Z.of_N d_2) (Z.of_N c_1) (Z.of_N d_3) (Z.of_N u0_1) (Z.of_N d_4) (Z.of_N c_2) (Z.of_N t0_1) (Z.of_N c_3) (Z.of_N c_4) (Z.of_N c_5) (Z.of_N d_5) (Z.of_N u1_1) (Z.of_N d_6) (Z.of_N c_6) (Z.of_N t1_1) (Z.of_N c_7) (Z.of_N c_8) (Z.of_N c_9) (Z.of_N d_7) (Z.of_N u2_1) (Z.of_N d_8) (Z.of_N c_10) (Z.of_N t2_1) (Z.of_N c_11) (Z.of_N c_12) (Z.of_N c_13) (Z.of_N d_9) (Z.of_N u3_1) (Z.of_N d_10) (Z.of_N c_14) (Z.of_N t3_1) (Z.of_N c_15) (Z.of_N c_16) (Z.of_N c_17) (Z.of_N d_11) (Z.of_N u4_1) (Z.of_N d_12) (Z.of_N c_18) (Z.of_N t4_1) (Z.of_N c_19) (Z.of_N c_20) (Z.of_N c_21) (Z.of_N d_13) (Z.of_N u5_1) (Z.of_N d_14) (Z.of_N c_22) (Z.of_N t5_1) (Z.of_N c_23) (Z.of_N c_24) (Z.of_N c_25) (Z.of_N d_15) (Z.of_N u6_1) (Z.of_N d_16) (Z.of_N c_26) (Z.of_N t6_1) (Z.of_N c_27) (Z.of_N c_28) (Z.of_N c_29) (Z.of_N d_17) (Z.of_N u7_1) (Z.of_N d_18) (Z.of_N c_30) (Z.of_N t7_1) (Z.of_N c_31) (Z.of_N c_32) (Z.of_N c_33) (Z.of_N d_19) (Z.of_N u8_1) (Z.of_N d_20) (Z.of_N c_34) (Z.of_N r8_1) (Z.of_N c_35) (Z.of_N c_36) (Z.of_N c_37) (Z.of_N r9_1) (Z.of_N c_38) (Z.of_N c_39) (Z.of_N d_21) (Z.of_N r0_1) (Z.of_N d_22) (Z.of_N d_23) (Z.of_N r1_1) (Z.of_N d_24) (Z.of_N d_25)) as Id.
    specialize (Id ltac:(rewrite E_d_1, ?N2Z.inj_add, ?N2Z.inj_mul, ?N2Z.inj_add, ?N2Z.inj_mul, ?N2Z.inj_add, ?N2Z.inj_mul; reflexivity)).
    specialize (Id (split_Z26 _ _ _ D_d_2)).
    specialize (Id ltac:(rewrite E_c_1, ?N2Z.inj_add, ?N2Z.inj_mul, ?N2Z.inj_add, ?N2Z.inj_mul, ?N2Z.inj_add, ?N2Z.inj_mul; reflexivity)).
    specialize (Id ltac:(rewrite E_d_3, ?N2Z.inj_add, ?N2Z.inj_mul, ?N2Z.inj_add, ?N2Z.inj_mul, ?N2Z.inj_add, ?N2Z.inj_mul; reflexivity)).
    specialize (Id (split_Z26 _ _ _ D_d_4)).
    specialize (Id ltac:(rewrite E_c_2, ?N2Z.inj_add, ?N2Z.inj_mul, ?N2Z.inj_add, ?N2Z.inj_mul, ?N2Z.inj_add, ?N2Z.inj_mul; reflexivity)).
    specialize (Id (split_Z26 _ _ _ D_c_3)).
    specialize (Id ltac:(rewrite E_c_4, ?N2Z.inj_add, ?N2Z.inj_mul, ?N2Z.inj_add, ?N2Z.inj_mul, ?N2Z.inj_add, ?N2Z.inj_mul; reflexivity)).
    specialize (Id ltac:(rewrite E_c_5, ?N2Z.inj_add, ?N2Z.inj_mul, ?N2Z.inj_add, ?N2Z.inj_mul, ?N2Z.inj_add, ?N2Z.inj_mul; reflexivity)).
    specialize (Id ltac:(rewrite E_d_5, ?N2Z.inj_add, ?N2Z.inj_mul, ?N2Z.inj_add, ?N2Z.inj_mul, ?N2Z.inj_add, ?N2Z.inj_mul; reflexivity)).
    specialize (Id (split_Z26 _ _ _ D_d_6)).
    specialize (Id ltac:(rewrite E_c_6, ?N2Z.inj_add, ?N2Z.inj_mul, ?N2Z.inj_add, ?N2Z.inj_mul, ?N2Z.inj_add, ?N2Z.inj_mul; reflexivity)).
    specialize (Id (split_Z26 _ _ _ D_c_7)).
    specialize (Id ltac:(rewrite E_c_8, ?N2Z.inj_add, ?N2Z.inj_mul, ?N2Z.inj_add, ?N2Z.inj_mul, ?N2Z.inj_add, ?N2Z.inj_mul; reflexivity)).
    specialize (Id ltac:(rewrite E_c_9, ?N2Z.inj_add, ?N2Z.inj_mul, ?N2Z.inj_add, ?N2Z.inj_mul, ?N2Z.inj_add, ?N2Z.inj_mul; reflexivity)).
    specialize (Id ltac:(rewrite E_d_7, ?N2Z.inj_add, ?N2Z.inj_mul, ?N2Z.inj_add, ?N2Z.inj_mul, ?N2Z.inj_add, ?N2Z.inj_mul; reflexivity)).
    specialize (Id (split_Z26 _ _ _ D_d_8)).
    specialize (Id ltac:(rewrite E_c_10, ?N2Z.inj_add, ?N2Z.inj_mul, ?N2Z.inj_add, ?N2Z.inj_mul, ?N2Z.inj_add, ?N2Z.inj_mul; reflexivity)).
    specialize (Id (split_Z26 _ _ _ D_c_11)).
    specialize (Id ltac:(rewrite E_c_12, ?N2Z.inj_add, ?N2Z.inj_mul, ?N2Z.inj_add, ?N2Z.inj_mul, ?N2Z.inj_add, ?N2Z.inj_mul; reflexivity)).
    specialize (Id ltac:(rewrite E_c_13, ?N2Z.inj_add, ?N2Z.inj_mul, ?N2Z.inj_add, ?N2Z.inj_mul, ?N2Z.inj_add, ?N2Z.inj_mul; reflexivity)).
    specialize (Id ltac:(rewrite E_d_9, ?N2Z.inj_add, ?N2Z.inj_mul, ?N2Z.inj_add, ?N2Z.inj_mul, ?N2Z.inj_add, ?N2Z.inj_mul; reflexivity)).
    specialize (Id (split_Z26 _ _ _ D_d_10)).
    specialize (Id ltac:(rewrite E_c_14, ?N2Z.inj_add, ?N2Z.inj_mul, ?N2Z.inj_add, ?N2Z.inj_mul, ?N2Z.inj_add, ?N2Z.inj_mul; reflexivity)).
    specialize (Id (split_Z26 _ _ _ D_c_15)).
    specialize (Id ltac:(rewrite E_c_16, ?N2Z.inj_add, ?N2Z.inj_mul, ?N2Z.inj_add, ?N2Z.inj_mul, ?N2Z.inj_add, ?N2Z.inj_mul; reflexivity)).
    specialize (Id ltac:(rewrite E_c_17, ?N2Z.inj_add, ?N2Z.inj_mul, ?N2Z.inj_add, ?N2Z.inj_mul, ?N2Z.inj_add, ?N2Z.inj_mul; reflexivity)).
    specialize (Id ltac:(rewrite E_d_11, ?N2Z.inj_add, ?N2Z.inj_mul, ?N2Z.inj_add, ?N2Z.inj_mul, ?N2Z.inj_add, ?N2Z.inj_mul; reflexivity)).
    specialize (Id (split_Z26 _ _ _ D_d_12)).
    specialize (Id ltac:(rewrite E_c_18, ?N2Z.inj_add, ?N2Z.inj_mul, ?N2Z.inj_add, ?N2Z.inj_mul, ?N2Z.inj_add, ?N2Z.inj_mul; reflexivity)).
    specialize (Id (split_Z26 _ _ _ D_c_19)).
    specialize (Id ltac:(rewrite E_c_20, ?N2Z.inj_add, ?N2Z.inj_mul, ?N2Z.inj_add, ?N2Z.inj_mul, ?N2Z.inj_add, ?N2Z.inj_mul; reflexivity)).
    specialize (Id ltac:(rewrite E_c_21, ?N2Z.inj_add, ?N2Z.inj_mul, ?N2Z.inj_add, ?N2Z.inj_mul, ?N2Z.inj_add, ?N2Z.inj_mul; reflexivity)).
    specialize (Id ltac:(rewrite E_d_13, ?N2Z.inj_add, ?N2Z.inj_mul, ?N2Z.inj_add, ?N2Z.inj_mul, ?N2Z.inj_add, ?N2Z.inj_mul; reflexivity)).
    specialize (Id (split_Z26 _ _ _ D_d_14)).
    specialize (Id ltac:(rewrite E_c_22, ?N2Z.inj_add, ?N2Z.inj_mul, ?N2Z.inj_add, ?N2Z.inj_mul, ?N2Z.inj_add, ?N2Z.inj_mul; reflexivity)).
    specialize (Id (split_Z26 _ _ _ D_c_23)).
    specialize (Id ltac:(rewrite E_c_24, ?N2Z.inj_add, ?N2Z.inj_mul, ?N2Z.inj_add, ?N2Z.inj_mul, ?N2Z.inj_add, ?N2Z.inj_mul; reflexivity)).
    specialize (Id ltac:(rewrite E_c_25, ?N2Z.inj_add, ?N2Z.inj_mul, ?N2Z.inj_add, ?N2Z.inj_mul, ?N2Z.inj_add, ?N2Z.inj_mul; reflexivity)).
    specialize (Id ltac:(rewrite E_d_15, ?N2Z.inj_add, ?N2Z.inj_mul, ?N2Z.inj_add, ?N2Z.inj_mul, ?N2Z.inj_add, ?N2Z.inj_mul; reflexivity)).
    specialize (Id (split_Z26 _ _ _ D_d_16)).
    specialize (Id ltac:(rewrite E_c_26, ?N2Z.inj_add, ?N2Z.inj_mul, ?N2Z.inj_add, ?N2Z.inj_mul, ?N2Z.inj_add, ?N2Z.inj_mul; reflexivity)).
    specialize (Id (split_Z26 _ _ _ D_c_27)).
    specialize (Id ltac:(rewrite E_c_28, ?N2Z.inj_add, ?N2Z.inj_mul, ?N2Z.inj_add, ?N2Z.inj_mul, ?N2Z.inj_add, ?N2Z.inj_mul; reflexivity)).
    specialize (Id ltac:(rewrite E_c_29, ?N2Z.inj_add, ?N2Z.inj_mul, ?N2Z.inj_add, ?N2Z.inj_mul, ?N2Z.inj_add, ?N2Z.inj_mul; reflexivity)).
    specialize (Id ltac:(rewrite E_d_17, ?N2Z.inj_add, ?N2Z.inj_mul, ?N2Z.inj_add, ?N2Z.inj_mul, ?N2Z.inj_add, ?N2Z.inj_mul; reflexivity)).
    specialize (Id (split_Z26 _ _ _ D_d_18)).
    specialize (Id ltac:(rewrite E_c_30, ?N2Z.inj_add, ?N2Z.inj_mul, ?N2Z.inj_add, ?N2Z.inj_mul, ?N2Z.inj_add, ?N2Z.inj_mul; reflexivity)).
    specialize (Id (split_Z26 _ _ _ D_c_31)).
    specialize (Id ltac:(rewrite E_c_32, ?N2Z.inj_add, ?N2Z.inj_mul, ?N2Z.inj_add, ?N2Z.inj_mul, ?N2Z.inj_add, ?N2Z.inj_mul; reflexivity)).
    specialize (Id ltac:(rewrite E_c_33, ?N2Z.inj_add, ?N2Z.inj_mul, ?N2Z.inj_add, ?N2Z.inj_mul, ?N2Z.inj_add, ?N2Z.inj_mul; reflexivity)).
    specialize (Id ltac:(rewrite E_d_19, ?N2Z.inj_add, ?N2Z.inj_mul, ?N2Z.inj_add, ?N2Z.inj_mul, ?N2Z.inj_add, ?N2Z.inj_mul; reflexivity)).
    specialize (Id (split_Z26 _ _ _ D_d_20)).
    specialize (Id ltac:(rewrite E_c_34, ?N2Z.inj_add, ?N2Z.inj_mul, ?N2Z.inj_add, ?N2Z.inj_mul, ?N2Z.inj_add, ?N2Z.inj_mul; reflexivity)).
    specialize (Id (split_Z26 _ _ _ D_c_35)).
    specialize (Id ltac:(rewrite E_c_36, ?N2Z.inj_add, ?N2Z.inj_mul, ?N2Z.inj_add, ?N2Z.inj_mul, ?N2Z.inj_add, ?N2Z.inj_mul; reflexivity)).
    specialize (Id ltac:(rewrite E_c_37, ?N2Z.inj_add, ?N2Z.inj_mul, ?N2Z.inj_add, ?N2Z.inj_mul, ?N2Z.inj_add, ?N2Z.inj_mul; reflexivity)).
    specialize (Id (split_Z22 _ _ _ D_c_38)).
    specialize (Id ltac:(rewrite E_c_39, ?N2Z.inj_add, ?N2Z.inj_mul, ?N2Z.inj_add, ?N2Z.inj_mul, ?N2Z.inj_add, ?N2Z.inj_mul; reflexivity)).
    specialize (Id ltac:(rewrite E_d_21, ?N2Z.inj_add, ?N2Z.inj_mul, ?N2Z.inj_add, ?N2Z.inj_mul, ?N2Z.inj_add, ?N2Z.inj_mul; reflexivity)).
    specialize (Id (split_Z26 _ _ _ D_d_22)).
    specialize (Id ltac:(rewrite E_d_23, ?N2Z.inj_add, ?N2Z.inj_mul, ?N2Z.inj_add, ?N2Z.inj_mul, ?N2Z.inj_add, ?N2Z.inj_mul; reflexivity)).
    specialize (Id (split_Z26 _ _ _ D_d_24)).
    specialize (Id ltac:(rewrite E_d_25, ?N2Z.inj_add, ?N2Z.inj_mul, ?N2Z.inj_add, ?N2Z.inj_mul, ?N2Z.inj_add, ?N2Z.inj_mul; reflexivity)).
    apply N2Z.inj. rewrite ?N2Z.inj_add, ?N2Z.inj_mul, ?N2Z.inj_add, ?N2Z.inj_mul, ?N2Z.inj_add, ?N2Z.inj_mul. cbn [Z.of_N]. exact Id.
Qed.
