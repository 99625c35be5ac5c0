(** Facts about the integers of fields and range constraints on them. *)
From Coq Require Import Arith NArith Bool List Lia ZifyBool ZifyN ZifyNat.
From Verif Require Import Field RangeModel RangeFacts WordModel WordSpec.
Import ListNotations.
Local Open Scope N_scope.

(** ** Bits *)
Lemma pow2_pos k : 0 < 2 ^ k. Proof. apply N.neq_0_lt_0, N.pow_nonzero. discriminate. Qed.
Lemma lt_pow2_bits x w : x < 2 ^ w <-> forall k, w <= k -> N.testbit x k = false.
Proof.
  split.
  - intros L k K. destruct (N.eq_dec x 0) as [->|Z]; [apply N.bits_0|]. apply N.bits_above_log2.
    apply N.log2_lt_pow2 in L; lia.
  - intros Hb. destruct (N.eq_dec x 0) as [->|Z]; [apply pow2_pos|]. apply N.log2_lt_pow2; [lia|].
    destruct (N.ltb_spec (N.log2 x) w) as [|G]; [assumption|]. pose proof (N.bit_log2 x Z) as B. rewrite Hb in B by assumption. discriminate.
Qed.
Lemma land_lt x y w : x < 2 ^ w -> N.land x y < 2 ^ w.
Proof. rewrite !lt_pow2_bits. intros X k K. rewrite N.land_spec, X by assumption. reflexivity. Qed.
Lemma lor_lt x y w : x < 2 ^ w -> y < 2 ^ w -> N.lor x y < 2 ^ w.
Proof. rewrite !lt_pow2_bits. intros X Y k K. rewrite N.lor_spec, X, Y by assumption. reflexivity. Qed.
Lemma lxor_lt x y w : x < 2 ^ w -> y < 2 ^ w -> N.lxor x y < 2 ^ w.
Proof. rewrite !lt_pow2_bits. intros X Y k K. rewrite N.lxor_spec, X, Y by assumption. reflexivity. Qed.

Lemma leading_zeros_spec k x : x < 2 ^ N.of_nat k -> leading_zeros k x <= N.of_nat k /\ N.size x = N.of_nat k - leading_zeros k x.
Proof.
  revert x. induction k as [|k IH]; intros x X.
  - cbn in X. assert (x = 0) as -> by lia. cbn. lia.
  - cbn [leading_zeros]. destruct (N.testbit x (N.of_nat k)) eqn:T.
    + split; [lia|]. assert (Z : x <> 0) by (intros ->; rewrite N.bits_0 in T; discriminate).
      rewrite N.size_log2 by assumption. replace (N.of_nat (S k) - 0) with (N.succ (N.of_nat k)) by lia. f_equal.
      apply N.le_antisymm.
      * apply N.log2_lt_pow2 in X; lia.
      * destruct (N.leb_spec (N.of_nat k) (N.log2 x)) as [|L]; [assumption|]. rewrite N.bits_above_log2 in T by assumption. discriminate.
    + destruct (IH x) as [A B].
      { apply lt_pow2_bits. intros j J. destruct (N.eq_dec j (N.of_nat k)) as [->|N0]; [assumption|].
        apply (proj1 (lt_pow2_bits x (N.of_nat (S k)))); [assumption|lia]. }
      split; [lia|]. rewrite B. lia.
Qed.
Lemma size_le x k : N.size x <= k <-> x < 2 ^ k.
Proof.
  destruct (N.eq_dec x 0) as [->|Z].
  - cbn [N.size]. split; intros _; [apply pow2_pos|lia].
  - rewrite N.size_log2 by assumption. rewrite N.log2_lt_pow2 by lia. lia.
Qed.

(** ** Machine words *)
Section MachineFacts.
  Context {p : positive}.
  Lemma machine_calculates (w : N) (wraps : bool) : 0 < w <= 64 -> N.pos p < 2 ^ w -> calculates (machine_integers (p := p) w wraps) (fun x => x < 2 ^ w).
  Proof.
    intros W PW. pose proof (pow2_pos w) as P0. assert (V2 : 2 <= 2 ^ w) by (change 2 with (2 ^ 1) at 1; apply N.pow_le_mono_r; lia).
    split; cbn [int bits number_of and_ or_ xor_ not_ add_ sub_ shl_ shr_ zero_ one_ max_ is_zero_ is_one_ leb_ eqb_ num_bits_ try_into_u64 try_into_u32 from_u64 modulus_ to_integer from_integer machine_integers];
      unfold gives; cbn [number_of machine_integers]; try solve [intros; lia | intros; auto].
    - intros x y X Y. split; [apply land_lt; assumption|reflexivity].
    - intros x y X Y. split; [apply lor_lt; assumption|reflexivity].
    - intros x y X Y. split; [apply lxor_lt; assumption|reflexivity].
    - intros x y X Y L. rewrite (proj2 (N.ltb_lt _ _) L). eauto.
    - intros x y X Y L. rewrite (proj2 (N.leb_le _ _) L). exists (x - y). split; [reflexivity|]. lia.
    - intros x e X E L. rewrite (proj2 (N.ltb_lt _ _) E). rewrite N.shiftl_mul_pow2, N.mod_small by assumption. eauto.
    - intros x e X E. rewrite (proj2 (N.ltb_lt _ _) E). rewrite N.shiftr_div_pow2. exists (x / 2 ^ e). split; [reflexivity|]. split; [|reflexivity].
      eapply N.le_lt_trans; [|exact X]. apply N.div_le_upper_bound; [apply N.pow_nonzero; discriminate|]. pose proof (pow2_pos e). nia.
    - intros x k X. destruct (leading_zeros_spec (N.to_nat w) x) as [A B]; [rewrite N2Nat.id; assumption|].
      rewrite N2Nat.id in *. rewrite <- B. apply size_le.
    - intros x X. replace (x <? 2 ^ 64) with true; [reflexivity|]. symmetry. apply N.ltb_lt. eapply N.lt_le_trans; [exact X|]. apply N.pow_le_mono_r; lia.
    - intros x X. destruct (N.leb_spec w 32) as [L|L]; cbn [orb]; [|reflexivity].
      replace (x <? 2 ^ 32) with true; [reflexivity|]. symmetry. apply N.ltb_lt. eapply N.lt_le_trans; [exact X|]. apply N.pow_le_mono_r; lia.
    - intros x. split; [|reflexivity]. pose proof (val_lt x). lia.
    - intros x X L. rewrite (proj2 (N.ltb_lt _ _) L). reflexivity.
  Qed.
End MachineFacts.

(** ** Limbs *)
Definition limbs_ok (n : nat) (l : list N) : Prop := length l = n /\ Forall (fun x => x < 2 ^ 64) l.
Lemma limbs_ok_cons n x l : limbs_ok (S n) (x :: l) <-> x < 2 ^ 64 /\ limbs_ok n l.
Proof. unfold limbs_ok. cbn [length]. rewrite Forall_cons_iff. intuition lia. Qed.
Lemma limbs_ok_nil l : limbs_ok 0 l <-> l = [].
Proof. unfold limbs_ok. destruct l; cbn [length]; split; intros; try easy. Qed.
Lemma pow64_S n : 2 ^ (64 * N.of_nat (S n)) = 2 ^ 64 * 2 ^ (64 * N.of_nat n).
Proof. replace (64 * N.of_nat (S n)) with (64 + 64 * N.of_nat n) by lia. apply N.pow_add_r. Qed.
Ltac limb_cases a b :=
  destruct a as [|x a]; [try discriminate|]; destruct b as [|y b]; [try discriminate|].

Local Notation BB := 18446744073709551616.
Lemma BB_eq : 2 ^ 64 = BB. Proof. reflexivity. Qed.
Local Opaque N.pow N.modulo N.div.

Lemma value_cons x l : limbs_value (x :: l) = x + BB * limbs_value l.
Proof. cbn [limbs_value]. rewrite BB_eq. reflexivity. Qed.
Local Arguments limbs_value : simpl never.
Lemma value_nil : limbs_value [] = 0. Proof. reflexivity. Qed.

Lemma value_lt n l : limbs_ok n l -> limbs_value l < 2 ^ (64 * N.of_nat n).
Proof.
  revert l. induction n as [|n IH]; intros l L.
  - apply limbs_ok_nil in L. subst. rewrite value_nil. apply pow2_pos.
  - destruct l as [|x l]; [destruct L; discriminate|]. apply limbs_ok_cons in L. destruct L as [X L].
    specialize (IH l L). rewrite value_cons, pow64_S. rewrite BB_eq in *. lia.
Qed.
Lemma to_limbs_ok n x : limbs_ok n (to_limbs n x).
Proof.
  revert x. induction n as [|n IH]; intros x; [split; [reflexivity|constructor]|].
  cbn [to_limbs]. apply limbs_ok_cons. split; [apply N.mod_lt; discriminate|apply IH].
Qed.
Lemma to_limbs_value n x : x < 2 ^ (64 * N.of_nat n) -> limbs_value (to_limbs n x) = x.
Proof.
  revert x. induction n as [|n IH]; intros x X.
  - cbn [to_limbs]. rewrite value_nil. change (64 * N.of_nat 0) with 0 in X. rewrite N.pow_0_r in X. lia.
  - cbn [to_limbs]. rewrite value_cons, pow64_S in *. rewrite BB_eq in *. rewrite IH.
    + pose proof (N.div_mod x BB). lia.
    + apply N.div_lt_upper_bound; [discriminate|assumption].
Qed.
Lemma value_inj n a b : limbs_ok n a -> limbs_ok n b -> limbs_value a = limbs_value b -> a = b.
Proof.
  revert a b. induction n as [|n IH]; intros a b A B E.
  - apply limbs_ok_nil in A, B. congruence.
  - destruct a as [|x a]; [destruct A; discriminate|]. destruct b as [|y b]; [destruct B; discriminate|].
    apply limbs_ok_cons in A, B. destruct A as [X A], B as [Y B]. rewrite !value_cons in E. rewrite BB_eq in *.
    f_equal; [lia|]. apply IH; auto. lia.
Qed.

Lemma testbit_limb x v k : x < 2 ^ 64 -> N.testbit (x + BB * v) k = if k <? 64 then N.testbit x k else N.testbit v (k - 64).
Proof.
  intros X. destruct (N.ltb_spec k 64) as [L|L].
  - rewrite <- (N.mod_pow2_bits_low (x + BB * v) 64 k L). rewrite BB_eq in *. rewrite N.mul_comm, N.mod_add by discriminate.
    rewrite N.mod_small by assumption. reflexivity.
  - replace k with (k - 64 + 64) at 1 by lia. rewrite <- N.div_pow2_bits. rewrite BB_eq in *.
    rewrite N.mul_comm, N.div_add by discriminate. rewrite N.div_small by assumption. reflexivity.
Qed.
Lemma limbwise_value n f (g : bool -> bool -> bool) a b :
  (forall x y k, N.testbit (f x y) k = g (N.testbit x k) (N.testbit y k)) -> g false false = false ->
  limbs_ok n a -> limbs_ok n b -> limbs_ok n (limbwise f a b) /\ limbs_value (limbwise f a b) = f (limbs_value a) (limbs_value b).
Proof.
  intros FB G. assert (FL : forall x y, x < 2 ^ 64 -> y < 2 ^ 64 -> f x y < 2 ^ 64).
  { intros x y. rewrite !lt_pow2_bits. intros X Y k K. rewrite FB, X, Y by assumption. assumption. }
  revert a b. induction n as [|n IH]; intros a b A B.
  - apply limbs_ok_nil in A, B. subst. split; [split; [reflexivity|constructor]|]. cbn [limbwise]. rewrite value_nil.
    apply N.bits_inj. intros k. rewrite FB, N.bits_0, G. reflexivity.
  - destruct a as [|x a]; [destruct A; discriminate|]. destruct b as [|y b]; [destruct B; discriminate|].
    apply limbs_ok_cons in A, B. destruct A as [X A], B as [Y B]. destruct (IH a b A B) as [O V]. cbn [limbwise].
    split; [apply limbs_ok_cons; auto|]. rewrite !value_cons, V. apply N.bits_inj. intros k.
    rewrite FB, !testbit_limb by auto. destruct (k <? 64); rewrite FB; reflexivity.
Qed.
Lemma limbs_not n a : limbs_ok n a -> limbs_ok n (map (fun x => 2 ^ 64 - 1 - x) a) /\ limbs_value (map (fun x => 2 ^ 64 - 1 - x) a) = 2 ^ (64 * N.of_nat n) - 1 - limbs_value a.
Proof.
  revert a. induction n as [|n IH]; intros a A.
  - apply limbs_ok_nil in A. subst. cbn [map]. rewrite value_nil. split; [split; [reflexivity|constructor]|]. reflexivity.
  - destruct a as [|x a]; [destruct A; discriminate|]. apply limbs_ok_cons in A. destruct A as [X A]. destruct (IH a A) as [O V].
    pose proof (value_lt n a A) as L. cbn [map]. split; [apply limbs_ok_cons; split; [rewrite BB_eq; lia|assumption]|].
    rewrite !value_cons, V, pow64_S. rewrite BB_eq in *. lia.
Qed.
Lemma limbs_add n a b c : limbs_ok n a -> limbs_ok n b -> c <= 1 -> limbs_ok n (add_carry a b c) /\
  limbs_value (add_carry a b c) = (limbs_value a + limbs_value b + c) mod 2 ^ (64 * N.of_nat n).
Proof.
  revert a b c. induction n as [|n IH]; intros a b c A B C.
  - apply limbs_ok_nil in A, B. subst. cbn [add_carry]. rewrite value_nil. split; [split; [reflexivity|constructor]|].
    change (64 * N.of_nat 0) with 0. rewrite N.pow_0_r, N.mod_1_r. reflexivity.
  - destruct a as [|x a]; [destruct A; discriminate|]. destruct b as [|y b]; [destruct B; discriminate|].
    apply limbs_ok_cons in A, B. destruct A as [X A], B as [Y B]. cbn [add_carry].
    assert (C' : (x + y + c) / 2 ^ 64 <= 1).
    { rewrite BB_eq in *. apply N.lt_succ_r. apply N.div_lt_upper_bound; lia. }
    destruct (IH a b _ A B C') as [O V]. split; [apply limbs_ok_cons; split; [apply N.mod_lt; discriminate|assumption]|].
    rewrite !value_cons, V, pow64_S. rewrite BB_eq in *. set (M := 2 ^ (64 * N.of_nat n)). assert (M <> 0) by (apply N.pow_nonzero; discriminate).
    set (q := (x + y + c) / BB). pose proof (N.div_mod (x + y + c) BB ltac:(discriminate)) as D. fold q in D.
    apply (N.mod_unique _ _ ((limbs_value a + limbs_value b + q) / M)).
    + pose proof (N.mod_lt (x + y + c) BB ltac:(discriminate)). pose proof (N.mod_lt (limbs_value a + limbs_value b + q) M H). nia.
    + pose proof (N.div_mod (limbs_value a + limbs_value b + q) M H) as E. set (r := (limbs_value a + limbs_value b + q) mod M) in *.
      set (k := (limbs_value a + limbs_value b + q) / M) in *. replace (BB * M * k) with (BB * (M * k)) by ring. lia.
Qed.
Lemma limbs_sub n a b c : limbs_ok n a -> limbs_ok n b -> c <= 1 -> limbs_ok n (sub_borrow a b c) /\
  limbs_value (sub_borrow a b c) + limbs_value b + c = limbs_value a + (if limbs_value a <? limbs_value b + c then 2 ^ (64 * N.of_nat n) else 0).
Proof.
  revert a b c. induction n as [|n IH]; intros a b c A B C.
  - apply limbs_ok_nil in A, B. subst. cbn [sub_borrow]. rewrite value_nil. split; [split; [reflexivity|constructor]|].
    change (64 * N.of_nat 0) with 0. rewrite N.pow_0_r. destruct (N.ltb_spec 0 (0 + c)); lia.
  - destruct a as [|x a]; [destruct A; discriminate|]. destruct b as [|y b]; [destruct B; discriminate|].
    apply limbs_ok_cons in A, B. destruct A as [X A], B as [Y B]. cbn [sub_borrow].
    destruct (IH a b (if x <? y + c then 1 else 0) A B) as [O V]; [destruct (x <? y + c); lia|].
    split; [apply limbs_ok_cons; split; [apply N.mod_lt; discriminate|assumption]|].
    rewrite !value_cons, pow64_S. rewrite BB_eq in *. set (M := 2 ^ (64 * N.of_nat n)) in *.
    assert (E : (BB + x - y - c) mod BB + y + c = x + BB * (if x <? y + c then 1 else 0)).
    { destruct (N.ltb_spec x (y + c)); [rewrite N.mod_small by lia; lia|].
      replace (BB + x - y - c) with (x - y - c + 1 * BB) by lia. rewrite N.mod_add by discriminate. rewrite N.mod_small by lia. lia. }
    pose proof (value_lt _ _ A) as LA. pose proof (value_lt _ _ B) as LB. pose proof (value_lt _ _ O) as LO. fold M in LA, LB, LO.
    destruct (N.ltb_spec x (y + c)); destruct (N.ltb_spec (limbs_value a) (limbs_value b + 1)) as [|];
      destruct (N.ltb_spec (limbs_value a) (limbs_value b + 0)) as [|];
      destruct (N.ltb_spec (x + BB * limbs_value a) (y + BB * limbs_value b + c)) as [|]; lia.
Qed.
Lemma compare_app l m x y : length l = length m -> compare_from_top (l ++ [x]) (m ++ [y]) = match compare_from_top l m with Eq => x ?= y | c => c end.
Proof.
  revert m. induction l as [|u l IH]; intros [|v m] E; try discriminate; cbn [app compare_from_top].
  - destruct (x ?= y); reflexivity.
  - rewrite IH by (cbn in E; lia). destruct (u ?= v); reflexivity.
Qed.
Lemma limbs_compare_ok n a b : limbs_ok n a -> limbs_ok n b -> limbs_compare a b = (limbs_value a ?= limbs_value b).
Proof.
  unfold limbs_compare. revert a b. induction n as [|n IH]; intros a b A B.
  - apply limbs_ok_nil in A, B. subst. reflexivity.
  - destruct a as [|x a]; [destruct A; discriminate|]. destruct b as [|y b]; [destruct B; discriminate|].
    apply limbs_ok_cons in A, B. destruct A as [X A], B as [Y B]. cbn [rev]. rewrite compare_app by (rewrite !rev_length; destruct A, B; congruence).
    rewrite IH by assumption. rewrite !value_cons. rewrite BB_eq in *. symmetry.
    destruct (N.compare_spec (limbs_value a) (limbs_value b)) as [E|L|L].
    + rewrite E. destruct (N.compare_spec x y); [subst; apply N.compare_refl|apply N.compare_lt_iff; lia|apply N.compare_gt_iff; lia].
    + apply N.compare_lt_iff. lia.
    + apply N.compare_gt_iff. lia.
Qed.
Lemma all_zero l : forallb (fun x => x =? 0) l = (limbs_value l =? 0).
Proof.
  induction l as [|x l IH]; [reflexivity|]. cbn [forallb]. rewrite IH, value_cons.
  destruct (N.eqb_spec x 0), (N.eqb_spec (limbs_value l) 0), (N.eqb_spec (x + BB * limbs_value l) 0); cbn; lia.
Qed.
Lemma forallb_rev {A} (f : A -> bool) l : forallb f (rev l) = forallb f l.
Proof. induction l as [|x l IH]; [reflexivity|]. cbn [rev forallb]. rewrite forallb_app, IH. cbn [forallb]. rewrite andb_true_r. apply andb_comm. Qed.
Lemma leading_zeros_64 x : x < 2 ^ 64 -> leading_zeros 64 x <= 64 /\ N.size x = 64 - leading_zeros 64 x.
Proof. apply (leading_zeros_spec 64). Qed.
Lemma size_0 x : N.size x = 0 <-> x = 0.
Proof. split; [|intros ->; reflexivity]. intros E. assert (H : N.size x <= 0) by lia. apply size_le in H. rewrite N.pow_0_r in H. lia. Qed.
Local Arguments leading_zeros : simpl never.
Lemma bits_app l x t : Forall (fun x => x < 2 ^ 64) l -> 64 * N.of_nat (length l) + 64 <= t -> x < 2 ^ 64 ->
  bits_from_top (l ++ [x]) t = if forallb (fun x => x =? 0) l then t - 64 * N.of_nat (length l) - leading_zeros 64 x else bits_from_top l t.
Proof.
  revert t. induction l as [|y l IH]; intros t L T X.
  - cbn [app bits_from_top forallb length]. destruct (leading_zeros 64 x =? 64); lia.
  - apply Forall_cons_iff in L. destruct L as [Y L]. cbn [app bits_from_top forallb]. destruct (leading_zeros_64 y Y) as [A B].
    cbn [length] in T. pose proof (size_0 y) as S0. destruct (N.eqb_spec (leading_zeros 64 y) 64) as [E|E].
    + assert (y = 0) as -> by (apply S0; lia). cbn [andb N.eqb]. rewrite IH by (auto; lia). rewrite E.
      destruct (forallb (fun x => x =? 0) l); [|reflexivity]. cbn [length]. lia.
    + destruct (N.eqb_spec y 0) as [->|]; [|reflexivity]. exfalso. assert (N.size 0 = 0) by reflexivity. lia.
Qed.
Lemma bits_shift l t s : Forall (fun x => x < 2 ^ 64) l -> 64 * N.of_nat (length l) <= t -> bits_from_top l (t + s) = bits_from_top l t + s.
Proof.
  revert t. induction l as [|y l IH]; intros t L T; [reflexivity|].
  apply Forall_cons_iff in L. destruct L as [Y L]. cbn [bits_from_top]. cbn [length] in T. destruct (leading_zeros_64 y Y) as [A B].
  destruct (leading_zeros 64 y =? 64); [|lia]. replace (t + s - leading_zeros 64 y) with (t - leading_zeros 64 y + s) by lia. apply IH; [assumption|lia].
Qed.
Lemma size_limb x v : x < 2 ^ 64 -> v <> 0 -> N.size (x + BB * v) = N.size v + 64.
Proof.
  intros X V. apply N.le_antisymm.
  - apply size_le. assert (H : v < 2 ^ N.size v) by (apply size_le; lia). rewrite N.pow_add_r. rewrite BB_eq in *. lia.
  - assert (Z : N.size v <> 0) by (rewrite size_0; assumption).
    destruct (N.leb_spec (N.size v + 64) (N.size (x + BB * v))) as [|L]; [assumption|exfalso].
    assert (L' : N.size (x + BB * v) <= (N.size v - 1) + 64) by lia. apply size_le in L'. rewrite N.pow_add_r in L'. rewrite BB_eq in L'.
    assert (v < 2 ^ (N.size v - 1)) as K by lia. apply size_le in K. lia.
Qed.
Lemma limbs_num_bits n a : limbs_ok n a -> bits_from_top (rev a) (64 * N.of_nat n) = N.size (limbs_value a).
Proof.
  revert a. induction n as [|n IH]; intros a A.
  - apply limbs_ok_nil in A. subst. reflexivity.
  - destruct a as [|x a]; [destruct A; discriminate|]. apply limbs_ok_cons in A. destruct A as [X A]. specialize (IH a A). destruct A as [LA FA].
    cbn [rev]. rewrite bits_app; [|apply Forall_rev; assumption|rewrite rev_length; lia|assumption].
    rewrite forallb_rev, all_zero, rev_length, value_cons, LA. destruct (N.eqb_spec (limbs_value a) 0) as [->|Z].
    + replace (x + BB * 0) with x by lia. destruct (leading_zeros_64 x X) as [P1 P2]. rewrite P2. lia.
    + rewrite size_limb by assumption. rewrite <- IH. replace (64 * N.of_nat (S n)) with (64 * N.of_nat n + 64) by lia.
      apply bits_shift; [apply Forall_rev; assumption|rewrite rev_length; lia].
Qed.
Lemma repeat_max n : limbs_ok n (repeat (2 ^ 64 - 1) n) /\ limbs_value (repeat (2 ^ 64 - 1) n) = 2 ^ (64 * N.of_nat n) - 1.
Proof.
  induction n as [|n [IO IV]]; [split; [split; [reflexivity|constructor]|reflexivity]|]. cbn [repeat].
  split; [apply limbs_ok_cons; split; [rewrite BB_eq; lia|assumption]|]. rewrite value_cons, IV, pow64_S. pose proof (pow2_pos (64 * N.of_nat n)). rewrite BB_eq in *. lia.
Qed.
Lemma repeat_zero n : limbs_ok n (repeat 0 n) /\ limbs_value (repeat 0 n) = 0.
Proof.
  induction n as [|n [IO IV]]; [split; [split; [reflexivity|constructor]|reflexivity]|]. cbn [repeat].
  split; [apply limbs_ok_cons; split; [rewrite BB_eq; lia|assumption]|]. rewrite value_cons, IV. lia.
Qed.

Lemma limbs_try_from_ok n x : x < 2 ^ (64 * N.of_nat n) -> exists l, limbs_try_from n x = Some l /\ limbs_ok n l /\ limbs_value l = x.
Proof.
  intros X. unfold limbs_try_from. rewrite <- N.pow_mul_r. rewrite (proj2 (N.ltb_lt _ _) X).
  exists (to_limbs n x). split; [reflexivity|]. split; [apply to_limbs_ok|apply to_limbs_value; assumption].
Qed.
Lemma limb_calculates {p : positive} (n : nat) : N.pos p < 2 ^ (64 * N.of_nat n) -> calculates (limb_integers (p := p) n) (limbs_ok n).
Proof.
  intros PN. assert (N0 : n <> 0%nat). { intros ->. change (64 * N.of_nat 0) with 0 in PN. rewrite N.pow_0_r in PN. lia. }
  split; cbn [int bits number_of and_ or_ xor_ not_ add_ sub_ shl_ shr_ zero_ one_ max_ is_zero_ is_one_ leb_ eqb_ num_bits_ try_into_u64 try_into_u32 from_u64 modulus_ to_integer from_integer limb_integers];
    unfold gives; cbn [number_of limb_integers].
  - intros x X. apply value_lt. assumption.
  - intros x y X Y. apply (limbwise_value n N.land andb); auto. apply N.land_spec.
  - intros x y X Y. apply (limbwise_value n N.lor orb); auto. apply N.lor_spec.
  - intros x y X Y. apply (limbwise_value n N.lxor xorb); auto. apply N.lxor_spec.
  - intros x X. apply limbs_not. assumption.
  - intros x y X Y L. destruct (limbs_add n x y 0 X Y) as [O V]; [lia|]. exists (add_carry x y 0). split; [reflexivity|]. split; [assumption|].
    rewrite V, N.add_0_r. apply N.mod_small. assumption.
  - intros x y X Y L. destruct (limbs_sub n x y 0 X Y) as [O V]; [lia|]. exists (sub_borrow x y 0). split; [reflexivity|]. split; [assumption|].
    destruct (N.ltb_spec (limbs_value x) (limbs_value y + 0)); lia.
  - intros x e X E L. rewrite N.shiftl_mul_pow2. apply limbs_try_from_ok. assumption.
  - intros x e X E. rewrite N.shiftr_div_pow2. apply limbs_try_from_ok. pose proof (value_lt n x X).
    eapply N.le_lt_trans; [|eassumption]. apply N.div_le_upper_bound; [apply N.pow_nonzero; discriminate|]. pose proof (pow2_pos e). nia.
  - apply repeat_zero.
  - split; [apply to_limbs_ok|]. apply to_limbs_value. lia.
  - apply repeat_max.
  - intros x X. apply all_zero.
  - intros x X. rewrite (limbs_compare_ok n); [|assumption|apply to_limbs_ok]. rewrite to_limbs_value by lia.
    destruct (N.compare_spec (limbs_value x) 1); symmetry; first [apply N.eqb_eq; assumption|apply N.eqb_neq; lia].
  - intros x y X Y. rewrite (limbs_compare_ok n) by assumption. reflexivity.
  - intros x y X Y. rewrite (limbs_compare_ok n) by assumption. destruct (N.compare_spec (limbs_value x) (limbs_value y)); symmetry; first [apply N.eqb_eq; assumption|apply N.eqb_neq; lia].
  - intros x k X. rewrite limbs_num_bits by assumption. apply size_le.
  - intros x X. destruct n as [|n]; [contradiction|]. destruct x as [|x l]; [destruct X; discriminate|]. apply limbs_ok_cons in X. destruct X as [X L].
    unfold limbs_try_u64. rewrite all_zero, value_cons. rewrite BB_eq in *. destruct (N.eqb_spec (limbs_value l) 0) as [->|Z].
    + replace (x + BB * 0) with x by lia. rewrite (proj2 (N.ltb_lt _ _) X). reflexivity.
    + rewrite (proj2 (N.ltb_ge _ _)) by lia. reflexivity.
  - intros x X. destruct n as [|n]; [contradiction|]. destruct x as [|x l]; [destruct X; discriminate|]. apply limbs_ok_cons in X. destruct X as [X L].
    unfold limbs_try_u64. rewrite all_zero, value_cons. rewrite BB_eq in *. destruct (N.eqb_spec (limbs_value l) 0) as [->|Z].
    + replace (x + BB * 0) with x by lia. reflexivity.
    + change (2 ^ 32) with 4294967296. rewrite (proj2 (N.ltb_ge _ _)) by lia. reflexivity.
  - intros k K. split; [apply to_limbs_ok|]. assert (k < 2 ^ (64 * N.of_nat n)) by (eapply N.lt_le_trans; [exact K|apply N.pow_le_mono_r; lia]).
    rewrite to_limbs_value, N.mod_small by assumption. reflexivity.
  - split; [apply to_limbs_ok|apply to_limbs_value; assumption].
  - intros x. split; [apply to_limbs_ok|apply to_limbs_value]. pose proof (val_lt x). lia.
  - intros x X L. rewrite (proj2 (N.ltb_lt _ _) L). reflexivity.
Qed.

(** ** Bytes *)
Lemma bytes_length k x : length (bytes_of k x) = k.
Proof. revert x. induction k as [|k IH]; intros x; [reflexivity|]. cbn [bytes_of length]. rewrite IH. reflexivity. Qed.
Lemma bytes_small k x : Forall (fun b => b < 256) (bytes_of k x).
Proof. revert x. induction k as [|k IH]; intros x; cbn [bytes_of]; constructor; [apply N.mod_lt; discriminate|apply IH]. Qed.
Lemma of_bytes_of k x : x < 256 ^ N.of_nat k -> of_bytes (bytes_of k x) = x.
Proof.
  revert x. induction k as [|k IH]; intros x X.
  - change (N.of_nat 0) with 0 in X. rewrite N.pow_0_r in X. cbn. lia.
  - cbn [bytes_of of_bytes]. rewrite IH; [pose proof (N.div_mod x 256); lia|]. rewrite Nat2N.inj_succ, N.pow_succ_r' in X.
    apply N.div_lt_upper_bound; [discriminate|assumption].
Qed.
Lemma bytes_of_of l : Forall (fun b => b < 256) l -> bytes_of (length l) (of_bytes l) = l /\ of_bytes l < 256 ^ N.of_nat (length l).
Proof.
  induction 1 as [|b l B L [E U]]; [split; [reflexivity|cbn; lia]|]. cbn [length bytes_of of_bytes]. split.
  - replace (b + 256 * of_bytes l) with (b + of_bytes l * 256) by lia. rewrite N.mod_add, N.mod_small, N.div_add, N.div_small by (assumption || discriminate).
    rewrite N.add_0_l, E. reflexivity.
  - rewrite Nat2N.inj_succ, N.pow_succ_r'. lia.
Qed.
Lemma nth_bytes k x j : (j < k)%nat -> nth j (bytes_of k x) 0 = (x / 256 ^ N.of_nat j) mod 256.
Proof.
  revert x j. induction k as [|k IH]; intros x j J; [lia|]. cbn [bytes_of]. destruct j as [|j]; cbn [nth].
  - change (N.of_nat 0) with 0. rewrite N.pow_0_r, N.div_1_r. reflexivity.
  - rewrite IH by lia. rewrite Nat2N.inj_succ, N.pow_succ_r'. rewrite N.div_div by (try apply N.pow_nonzero; discriminate). reflexivity.
Qed.
Lemma bytes_app k j x : bytes_of (k + j) x = bytes_of k x ++ bytes_of j (x / 256 ^ N.of_nat k).
Proof.
  revert x. induction k as [|k IH]; intros x.
  - cbn [bytes_of app Nat.add]. change (N.of_nat 0) with 0. rewrite N.pow_0_r, N.div_1_r. reflexivity.
  - cbn [Nat.add bytes_of app]. rewrite IH. rewrite Nat2N.inj_succ, N.pow_succ_r'. rewrite N.div_div by (try apply N.pow_nonzero; discriminate). reflexivity.
Qed.
Lemma bytes_mod k x : bytes_of k (x mod 256 ^ N.of_nat k) = bytes_of k x.
Proof.
  revert x. induction k as [|k IH]; intros x; [reflexivity|]. cbn [bytes_of]. rewrite Nat2N.inj_succ, N.pow_succ_r'.
  assert (256 ^ N.of_nat k <> 0) by (apply N.pow_nonzero; discriminate). rewrite N.mod_mul_r by (assumption || discriminate).
  rewrite (N.mul_comm 256 ((x / 256) mod _)). rewrite N.mod_add, N.div_add by discriminate.
  rewrite N.mod_mod, (N.div_small (x mod 256)) by (try apply N.mod_lt; discriminate). rewrite N.add_0_l, IH. reflexivity.
Qed.
Lemma limbs_bytes n x : flat_map (bytes_of 8) (to_limbs n x) = bytes_of (n * 8) x.
Proof.
  revert x. induction n as [|n IH]; intros x; [reflexivity|]. cbn [to_limbs flat_map]. rewrite IH.
  change (S n * 8)%nat with (8 + n * 8)%nat. rewrite bytes_app. change (256 ^ N.of_nat 8) with (2 ^ 64). f_equal.
  change (2 ^ 64) with (256 ^ N.of_nat 8). apply bytes_mod.
Qed.
Lemma limbs_of_bytes n l : length l = (n * 8)%nat -> Forall (fun b => b < 256) l ->
  limbs_ok n (map of_bytes (chunks8 n l)) /\ limbs_value (map of_bytes (chunks8 n l)) = of_bytes l.
Proof.
  revert l. induction n as [|n IH]; intros l L B.
  - destruct l; [|discriminate]. split; [split; [reflexivity|constructor]|reflexivity].
  - cbn [chunks8 map]. assert (L8 : length (firstn 8 l) = 8%nat) by (rewrite firstn_length; lia).
    rewrite <- (firstn_skipn 8 l) in B. apply Forall_app in B. destruct B as [B1 B2].
    destruct (IH (skipn 8 l)) as [O V]; [rewrite skipn_length; lia|assumption|].
    destruct (bytes_of_of (firstn 8 l) B1) as [_ U]. rewrite L8 in U. change (256 ^ N.of_nat 8) with (2 ^ 64) in U.
    split; [apply limbs_ok_cons; auto|]. rewrite value_cons, V. rewrite <- (firstn_skipn 8 l) at 3.
    clear -L8. destruct (firstn 8 l) as [|b0 [|b1 [|b2 [|b3 [|b4 [|b5 [|b6 [|b7 [|]]]]]]]]]; try discriminate. cbn [app of_bytes]. lia.
Qed.
Section Bytes.
  Context {p : positive} (n : nat).
  Hypothesis fits : N.pos p < 2 ^ (64 * N.of_nat n).
  Lemma pow_bytes : 256 ^ N.of_nat (n * 8) = 2 ^ (64 * N.of_nat n).
  Proof. clear. change 256 with (2 ^ 8). rewrite <- N.pow_mul_r. f_equal. lia. Qed.
  Lemma to_bytes_eq (x : F p) : to_bytes_le n x = bytes_of (n * 8) (val x).
  Proof. apply limbs_bytes. Qed.
  Lemma from_bytes_iff (l : list N) (x : F p) : Forall (fun b => b < 256) l -> from_bytes_le n l = Some x <-> l = to_bytes_le n x.
  Proof.
    intros B. unfold from_bytes_le. rewrite to_bytes_eq. destruct (Nat.eqb_spec (length l) (n * 8)) as [L|L].
    - destruct (limbs_of_bytes n l L B) as [O V]. cbn [from_integer limb_integers]. rewrite V.
      destruct (bytes_of_of l B) as [E U]. rewrite L in E, U. destruct (N.ltb_spec (of_bytes l) (N.pos p)) as [S0|S0]; split; intros H.
      + injection H as H. rewrite <- H. rewrite val_of_N_small by assumption. congruence.
      + subst l. rewrite of_bytes_of; [rewrite of_N_val; reflexivity|]. rewrite pow_bytes. pose proof (val_lt x). lia.
      + discriminate.
      + exfalso. subst l. rewrite of_bytes_of in S0; [pose proof (val_lt x); lia|]. rewrite pow_bytes. pose proof (val_lt x). lia.
    - split; [discriminate|]. intros ->. rewrite bytes_length in L. contradiction.
  Qed.
End Bytes.

(** ** Range constraints *)
Section RangeWordFacts.
  Context {p : positive} (i : integers p) (valid : int i -> Prop) (C : calculates i valid).
  Local Notation "# x" := (number_of i x) (at level 2).
  Local Notation returns := (returns i valid).
  Local Notation stands_for := (stands_for i valid).

  Lemma modulus_fits : N.pos p < 2 ^ bits i.
  Proof. destruct (modulus_ok _ _ C) as [V E]. rewrite <- E. apply (in_bits _ _ C). assumption. Qed.
  Lemma num_bits_size x : valid x -> num_bits_ i x = N.size #x.
  Proof. intros V. apply N.le_antisymm; [apply (num_bits_ok _ _ C _ _ V), size_le|apply size_le, (num_bits_ok _ _ C _ _ V)]; lia. Qed.
  Lemma size_fits (x : F p) : N.size (val x) <= bits i.
  Proof. apply size_le. pose proof (val_lt x). pose proof modulus_fits. lia. Qed.
  Lemma to_int_bits (x : F p) : num_bits_ i (to_integer i x) = N.size (val x).
  Proof. destruct (to_integer_ok _ _ C x) as [V E]. rewrite num_bits_size by assumption. rewrite E. reflexivity. Qed.

  Lemma w_mask_from_bits_ok b : b <= bits i -> gives i valid (w_mask_from_bits i b) (mask_from_bits b).
  Proof.
    intros B. unfold w_mask_from_bits, mask_from_bits. destruct (zero_ok _ _ C) as [ZV ZE]. destruct (N.eqb_spec b 0) as [->|N0].
    - exists (zero_ i). auto.
    - rewrite (proj2 (N.leb_le _ _) B). destruct (not_ok _ _ C _ ZV) as [NV NE].
      destruct (shr_ok _ _ C (not_ i (zero_ i)) (bits i - b) NV) as (x & X & XV & XE); [lia|]. exists x. repeat split; auto.
      rewrite XE, NE, ZE, N.sub_0_r, N.ones_equiv. set (d := bits i - b). replace (bits i) with (b + d) by (subst d; lia).
      rewrite N.pow_add_r. pose proof (pow2_pos b). pose proof (pow2_pos d). symmetry. apply (N.div_unique _ _ _ (2 ^ d - 1)); [lia|]. nia.
  Qed.
  Lemma w_mask_from_bits_panics b : w_mask_from_bits i b = None <-> bits i < b.
  Proof.
    split.
    - intros H. destruct (N.ltb_spec (bits i) b) as [|L]; [assumption|]. destruct (w_mask_from_bits_ok b L) as (x & X & _). congruence.
    - intros L. unfold w_mask_from_bits. destruct (N.eqb_spec b 0); [lia|]. destruct (N.leb_spec b (bits i)); [lia|reflexivity].
  Qed.
  Lemma w_from_mask_ok m : valid m -> returns (w_from_mask i m) (from_mask #m).
  Proof.
    intros V. unfold w_from_mask, from_mask. destruct (to_integer_ok _ _ C fminus1) as [TV TE].
    rewrite (leb_ok _ _ C) by assumption. rewrite TE. set (y := if #m <=? val (fminus1 : F p) then m else to_integer i fminus1).
    assert (Y : valid y /\ #y = N.min #m (val (fminus1 : F p))). { subst y. destruct (N.leb_spec #m (val (fminus1 : F p))); split; auto; lia. }
    destruct Y as [YV YE]. rewrite (from_integer_ok _ _ C y YV).
    - rewrite YE. eexists. split; [reflexivity|]. split; [assumption|reflexivity].
    - rewrite YE. pose proof (val_lt (fminus1 : F p)). lia.
  Qed.
  Lemma w_from_max_bit_ok b : b + 1 <= bits i -> returns (w_from_max_bit i b) (from_max_bit b).
  Proof.
    intros B. unfold w_from_max_bit, from_max_bit. destruct (w_mask_from_bits_ok (b + 1) B) as (m & M & V & E). rewrite M, <- E. apply w_from_mask_ok. assumption.
  Qed.
  Lemma w_from_max_bit_panics b : w_from_max_bit i b = None <-> bits i < b + 1.
  Proof.
    split.
    - intros H. destruct (N.ltb_spec (bits i) (b + 1)) as [|L]; [assumption|]. destruct (w_from_max_bit_ok b L) as (x & X & _). congruence.
    - intros L. unfold w_from_max_bit. rewrite (proj2 (w_mask_from_bits_panics _) L). reflexivity.
  Qed.
  Lemma w_from_value_ok v : stands_for (w_from_value i v) (from_value v).
  Proof. destruct (to_integer_ok _ _ C v) as [V E]. split; [assumption|]. unfold from_value, w_from_value. cbn [wmask wmin wmax]. rewrite E. reflexivity. Qed.
  Lemma w_unconstrained_ok : returns (w_unconstrained i) unconstrained.
  Proof.
    unfold w_unconstrained, unconstrained. rewrite to_int_bits. destruct (w_mask_from_bits_ok (N.size (val (fminus1 : F p))) (size_fits _)) as (m & M & V & E).
    rewrite M. eexists. split; [reflexivity|]. split; [assumption|]. cbn [wmask wmin wmax]. rewrite E. reflexivity.
  Qed.
  Lemma w_from_range_ok mn mx : returns (w_from_range i mn mx) (from_range mn mx).
  Proof.
    unfold w_from_range, from_range. destruct (fleb mn mx).
    - rewrite to_int_bits. destruct (w_mask_from_bits_ok (N.size (val mx)) (size_fits _)) as (m & M & V & E).
      rewrite M. eexists. split; [reflexivity|]. split; [assumption|]. cbn [wmask wmin wmax]. rewrite E. reflexivity.
    - destruct w_unconstrained_ok as (u & U & V & E). rewrite U, E. eexists. split; [reflexivity|]. split; [assumption|]. reflexivity.
  Qed.
  Lemma w_width_of_ok mn mx : valid (w_width_of i mn mx) /\ #(w_width_of i mn mx) = range_width_of mn mx.
  Proof. unfold w_width_of, range_width_of. destruct (feqb _ _); [apply (modulus_ok _ _ C)|apply (to_integer_ok _ _ C)]. Qed.
  Lemma w_width_ok a a' : stands_for a a' -> valid (w_width i a) /\ #(w_width i a) = range_width a'.
  Proof. intros [V ->]. apply w_width_of_ok. Qed.
  Lemma w_is_unconstrained_ok a a' : stands_for a a' -> w_is_unconstrained i a = Some (is_unconstrained a').
  Proof.
    intros A. unfold w_is_unconstrained, is_unconstrained. destruct w_unconstrained_ok as (u & U & SU). rewrite U.
    destruct (w_width_ok _ _ A) as [WV WE], (w_width_ok _ _ SU) as [UV UE]. destruct A as [V ->], SU as [MV ME].
    destruct (and_ok _ _ C _ _ V MV) as [AV AE]. rewrite !(eqb_ok _ _ C) by assumption. rewrite WE, UE, AE, ME. reflexivity.
  Qed.
  Lemma w_allows_value_ok a a' v : stands_for a a' -> w_allows_value i a v = allows_value a' v.
  Proof.
    intros [V ->]. unfold w_allows_value, allows_value. destruct (to_integer_ok _ _ C v) as [TV TE]. destruct (and_ok _ _ C _ _ TV V) as [AV AE].
    rewrite (eqb_ok _ _ C) by assumption. rewrite AE, TE. reflexivity.
  Qed.
  (** The end of [combine_sum] and [conjunction]. *)
  Lemma w_narrow (m : int i) mn mx : valid m ->
    returns (match (if fleb mn mx then match w_from_range i mn mx with Some r => Some (and_ i m (wmask r)) | None => None end else Some m) with
             | Some m => Some (mkW m mn mx) | None => None end)
      (mkRC (if fleb mn mx then N.land #m (mask (from_range mn mx)) else #m) mn mx).
  Proof.
    intros V. destruct (fleb mn mx).
    - destruct (w_from_range_ok mn mx) as (r & R & RV & RE). rewrite R, RE. destruct (and_ok _ _ C _ _ V RV) as [AV AE].
      eexists. split; [reflexivity|]. split; [assumption|]. cbn [wmask wmin wmax mask]. rewrite AE. reflexivity.
    - eexists. split; [reflexivity|]. split; [assumption|reflexivity].
  Qed.
  Lemma w_combine_sum_ok a b a' b' : stands_for a a' -> stands_for b b' -> returns (w_combine_sum i a b) (combine_sum a' b').
  Proof.
    intros A B. unfold w_combine_sum, combine_sum. destruct w_unconstrained_ok as (u & U & SU). rewrite U.
    destruct (w_width_ok _ _ A) as [AV AE], (w_width_ok _ _ B) as [BV BE], (w_width_ok _ _ SU) as [UV UE]. rewrite AE, BE, UE. clear AV AE BV BE UV UE.
    destruct (modulus_ok _ _ C) as [MV ME]. rewrite ME. destruct A as [A ->], B as [B ->], SU as [V E]. cbn [mask rmin rmax].
    set (w := range_width _ + range_width _ <=? _). rewrite E. cbn [rmin rmax mask].
    assert (M : gives i valid (if N.pos p <=? #(wmask a) + #(wmask b) then Some (wmask u)
        else match add_ i (wmask a) (wmask b) with Some s => Some (or_ i (or_ i s (wmask a)) (wmask b)) | None => None end)
        (if N.pos p <=? #(wmask a) + #(wmask b) then #(wmask u) else N.lor (N.lor (#(wmask a) + #(wmask b)) #(wmask a)) #(wmask b))).
    { destruct (N.leb_spec (N.pos p) (#(wmask a) + #(wmask b))) as [L|L]; [exists (wmask u); auto|].
      destruct (add_ok _ _ C _ _ A B) as (s & S0 & SV & SE); [pose proof modulus_fits; lia|]. rewrite S0.
      destruct (or_ok _ _ C _ _ SV A) as [OV OE]. destruct (or_ok _ _ C _ _ OV B) as [PV PE]. eexists. split; [reflexivity|].
      split; [assumption|]. rewrite PE, OE, SE. reflexivity. }
    destruct M as (m & M & MV' & ME'). rewrite M, <- ME'. destruct w; apply w_narrow; assumption.
  Qed.
  Lemma w_single_ok a a' : stands_for a a' -> w_single i a = try_to_single_value a'.
  Proof.
    intros [V ->]. unfold w_single, try_to_single_value. cbn [rmin rmax mask]. destruct (to_integer_ok _ _ C (wmin a)) as [TV TE].
    destruct (and_ok _ _ C _ _ TV V) as [AV AE]. rewrite (eqb_ok _ _ C) by assumption. rewrite AE, TE. reflexivity.
  Qed.
  Lemma w_range_multiple_ok mn mx f : w_range_multiple i mn mx f = range_multiple mn mx f.
  Proof.
    unfold w_range_multiple, range_multiple. destruct (w_width_of_ok mn mx) as [_ ->], (to_integer_ok _ _ C f) as [_ ->], (modulus_ok _ _ C) as [_ ->]. reflexivity.
  Qed.
  Lemma w_multiple_ok a a' f : stands_for a a' -> returns (w_multiple i a f) (multiple a' f).
  Proof.
    intros [V ->]. unfold w_multiple, multiple. cbn [rmin rmax mask]. rewrite !w_range_multiple_ok.
    destruct (to_integer_ok _ _ C f) as [_ ->], (modulus_ok _ _ C) as [_ ->].
    set (mm := if is_in_lower_half f then range_multiple (wmin a) (wmax a) f else range_multiple (- wmax a)%F (- wmin a)%F (- f)%F). destruct mm as [mn mx].
    assert (R : returns (match w_from_range i mn mx with Some r => Some (mkW (wmask r) mn mx) | None => None end) (mkRC (mask (from_range mn mx)) mn mx)).
    { destruct (w_from_range_ok mn mx) as (r & -> & RV & RE). rewrite RE. eexists. split; [reflexivity|]. split; [assumption|reflexivity]. }
    assert (R' : returns (match (match w_from_range i mn mx with Some r => Some (wmask r) | None => None end) with Some m => Some (mkW m mn mx) | None => None end) (mkRC (mask (from_range mn mx)) mn mx)).
    { destruct (w_from_range i mn mx); exact R. }
    destruct (log2_exact (val f)) as [e|] eqn:L; [|exact R'].
    destruct (N.ltb_spec (N.shiftl #(wmask a) e) (N.pos p)) as [S0|S0]; [|exact R'].
    apply log2_exact_spec in L. rewrite N.shiftl_mul_pow2 in *. pose proof (val_lt f) as LF. pose proof modulus_fits as MF.
    destruct (shl_ok _ _ C (wmask a) e V) as (m & M & MV & ME).
    - apply (N.pow_lt_mono_r_iff 2); [lia|]. rewrite <- L. lia.
    - lia.
    - rewrite M. eexists. split; [reflexivity|]. split; [assumption|]. cbn [wmask wmin wmax]. rewrite ME. reflexivity.
  Qed.
  Lemma w_combine_product_ok a b a' b' : stands_for a a' -> stands_for b b' -> returns (w_combine_product i a b) (combine_product a' b').
  Proof.
    intros A B. unfold w_combine_product, combine_product. rewrite (w_single_ok _ _ A), (w_single_ok _ _ B).
    destruct (try_to_single_value b'); [apply w_multiple_ok; assumption|]. destruct (try_to_single_value a'); [apply w_multiple_ok; assumption|].
    destruct A as [A ->], B as [B ->]. cbn [rmin rmax]. destruct (to_integer_ok _ _ C (wmax a)) as [_ ->], (to_integer_ok _ _ C (wmax b)) as [_ ->], (modulus_ok _ _ C) as [_ ->].
    destruct (_ && _ && _); [apply w_from_range_ok|apply w_unconstrained_ok].
  Qed.
  Lemma w_square_ok a a' : stands_for a a' -> returns (w_square i a) (square a').
  Proof.
    intros A. pose proof (w_combine_product_ok _ _ _ _ A A) as PR. unfold w_square, square. pose proof A as [_ ->]. cbn [rmin rmax].
    destruct (to_integer_ok _ _ C (fmax_ (- wmin a)%F (wmax a))) as [_ ->], (modulus_ok _ _ C) as [_ ->]. destruct (_ && _); [apply w_from_range_ok|exact PR].
  Qed.
  Lemma w_intersection_ok a b : w_intersection i a b = interval_intersection a b.
  Proof.
    unfold w_intersection, interval_intersection. destruct (w_width_of_ok (fst a) (snd a)) as [AV AE], (w_width_of_ok (fst b) (snd b)) as [BV BE].
    rewrite (leb_ok _ _ C) by assumption. rewrite AE, BE. reflexivity.
  Qed.
  Lemma ltb_ok x y : valid x -> valid y -> ltb_ i x y = (#x <? #y).
  Proof. intros X Y. unfold ltb_. rewrite (leb_ok _ _ C) by assumption. rewrite N.ltb_antisym. reflexivity. Qed.
  Lemma w_conjunction_ok a b a' b' : stands_for a a' -> stands_for b b' -> returns (w_conjunction i a b) (conjunction a' b').
  Proof.
    intros [A ->] [B ->]. unfold w_conjunction, conjunction. cbn [mask rmin rmax]. rewrite w_intersection_ok.
    destruct (and_ok _ _ C _ _ A B) as [MV ME]. rewrite <- ME. set (m := and_ i (wmask a) (wmask b)) in *.
    set (j := match interval_intersection (wmin a, wmax a) (wmin b, wmax b) with Some j => j | None => (0%F, 0%F) end). destruct j as [mn mx].
    destruct (modulus_ok _ _ C) as [PV PE]. rewrite ltb_ok by assumption. rewrite PE.
    destruct (to_integer_ok _ _ C mn) as [NV NE]. rewrite (ltb_ok m) by assumption. rewrite NE.
    destruct (N.ltb_spec #m (N.pos p)) as [L|L]; [|apply w_narrow; assumption]. rewrite (from_integer_ok _ _ C m MV L).
    destruct (fleb mn mx); [apply w_narrow; assumption|]. destruct (#m <? val mn); apply w_narrow; assumption.
  Qed.
  Lemma w_disjunction_ok a b a' b' : stands_for a a' -> stands_for b b' -> returns (w_disjunction i a b) (disjunction a' b').
  Proof.
    intros [A ->] [B ->]. unfold w_disjunction, disjunction. cbn [mask rmin rmax]. destruct (or_ok _ _ C _ _ A B) as [MV ME]. rewrite <- ME.
    pose proof (w_from_mask_ok _ MV) as FM.
    assert (G : forall mn mx, returns (Some (mkW (or_ i (wmask a) (wmask b)) mn mx)) (mkRC #(or_ i (wmask a) (wmask b)) mn mx)).
    { intros mn mx. eexists. split; [reflexivity|]. split; [assumption|reflexivity]. }
    destruct (fleb (wmin a) (wmax a)), (fleb (wmin b) (wmax b)); auto. destruct (fleb _ _); auto.
  Qed.
  Lemma w_is_disjoint_ok a b a' b' : stands_for a a' -> stands_for b b' -> w_is_disjoint i a b = is_disjoint a' b'.
  Proof.
    intros A B. unfold w_is_disjoint, is_disjoint. rewrite (w_allows_value_ok _ _ _ A), (w_allows_value_ok _ _ _ B), w_intersection_ok.
    destruct A as [A ->], B as [B ->]. destruct (and_ok _ _ C _ _ A B) as [MV ME]. rewrite (is_zero_ok _ _ C) by assumption. rewrite ME. reflexivity.
  Qed.
  Lemma w_allowed_values_ok a a' : stands_for a a' -> w_allowed_values i a = allowed_values a'.
  Proof.
    intros A. unfold w_allowed_values, allowed_values. destruct (w_width_ok _ _ A) as [WV WE]. rewrite (u32_ok _ _ C) by assumption. rewrite WE.
    destruct (range_width a' <? 2 ^ 32); [|reflexivity]. f_equal. pose proof A as [_ E]. rewrite (filter_ext _ (allows_value a')).
    - rewrite E. reflexivity.
    - intros v. apply w_allows_value_ok. assumption.
  Qed.
  Lemma w_neg_ok a a' : stands_for a a' -> returns (w_neg i a) (rc_neg a').
  Proof. intros [_ ->]. apply w_from_range_ok. Qed.
  Lemma w_eqb_ok a b a' b' : stands_for a a' -> stands_for b b' -> w_eqb i a b = rc_eqb a' b'.
  Proof. intros [A ->] [B ->]. unfold w_eqb, rc_eqb. rewrite (eqb_ok _ _ C) by assumption. reflexivity. Qed.

  (** Masks given as [u64]. *)
  Lemma w_from_u64_allows m (v : F p) : m < 2 ^ 64 -> exists r, w_from_mask i (from_u64 i m) = Some r /\ valid (wmask r) /\ (w_allows_value i r v = true <-> N.land (val v) m = val v).
  Proof.
    intros M. destruct (from_u64_ok _ _ C m M) as [V E]. destruct (w_from_mask_ok _ V) as (r & R & S0). exists r. split; [assumption|].
    split; [apply S0|]. rewrite (w_allows_value_ok _ _ _ S0), from_mask_allows. rewrite E. unfold submask.
    assert (K : N.land (val v) (m mod 2 ^ bits i) = N.land (val v) m); [|rewrite K; reflexivity].
    apply N.bits_inj. intros k. rewrite !N.land_spec. destruct (N.ltb_spec k (bits i)) as [L|L].
    - rewrite N.mod_pow2_bits_low by assumption. reflexivity.
    - rewrite (proj1 (lt_pow2_bits (val v) (bits i))); [reflexivity| |assumption]. pose proof (val_lt v). pose proof modulus_fits. lia.
  Qed.
End RangeWordFacts.

Section BuildFacts.
  Context {p : positive} (i : integers p) (valid : int i -> Prop) (C : calculates i valid).
  Lemma land_fits m (v : F p) : N.land (val v) (m mod 2 ^ bits i) = N.land (val v) m.
  Proof.
    apply N.bits_inj. intros k. rewrite !N.land_spec. destruct (N.ltb_spec k (bits i)) as [L|L].
    - rewrite N.mod_pow2_bits_low by assumption. reflexivity.
    - rewrite (proj1 (lt_pow2_bits (val v) (bits i))); [reflexivity| |assumption]. pose proof (val_lt v). pose proof (modulus_fits i valid C). lia.
  Qed.
  Lemma build_ok (e : rexp p) : arguments_fit (bits i) e -> exists r r', build i e = Some r /\ stands_for i valid r r' /\ forall v, possible e v -> allows_value r' v = true.
  Proof.
    assert (R : forall o r', returns i valid o r' -> exists r, o = Some r /\ stands_for i valid r r') by (intros o r' H; exact H).
    induction e as [m|b|w|mn mx| |a IHa b IHb|a IHa b IHb|a IHa|a IHa f|a IHa|a IHa b IHb|a IHa b IHb]; cbn [arguments_fit build possible]; intros AF.
    1: { destruct (from_u64_ok _ _ C m AF) as [V E]. destruct (w_from_mask_ok i valid C _ V) as (r & Hr & S0). exists r, (from_mask (m mod 2 ^ bits i)).
      rewrite E in S0. split; [assumption|]. split; [assumption|]. intros v P. apply from_mask_allows. unfold submask. rewrite land_fits. assumption. }
    1: { destruct (w_from_max_bit_ok i valid C b) as (r & Hr & S0); [lia|]. exists r, (from_max_bit b). split; [assumption|]. split; [assumption|]. intros v P. apply from_max_bit_allows. assumption. }
    1: { eexists _, (from_value w). split; [reflexivity|]. split; [apply w_from_value_ok; assumption|]. intros v P. apply from_value_allows. assumption. }
    1: { destruct (w_from_range_ok i valid C mn mx) as (r & Hr & S0). exists r, (from_range mn mx). split; [assumption|]. split; [assumption|]. intros v P. rewrite from_range_allows.
      unfold in_interval, fleb. destruct (val mn <=? val mx); [apply andb_true_iff|apply orb_true_iff]; rewrite !N.leb_le; assumption. }
    1: { destruct (w_unconstrained_ok i valid C) as (r & Hr & S0). exists r, unconstrained. split; [assumption|]. split; [assumption|]. intros v _. apply unconstrained_allows. }
    1, 2, 6, 7: destruct AF as [AFa AFb]; destruct (IHa AFa) as (ra & ra' & -> & Sa & Pa); destruct (IHb AFb) as (rb & rb' & -> & Sb & Pb); cbn [with1].
    5, 6, 7: destruct (IHa AF) as (ra & ra' & -> & Sa & Pa); cbn [with1].
    - destruct (w_combine_sum_ok i valid C _ _ _ _ Sa Sb) as (r & Hr & S0). exists r, (combine_sum ra' rb'). split; [assumption|]. split; [assumption|].
      intros v (x & y & X & Y & ->). apply combine_sum_sound; auto.
    - destruct (w_combine_product_ok i valid C _ _ _ _ Sa Sb) as (r & Hr & S0). exists r, (combine_product ra' rb'). split; [assumption|]. split; [assumption|].
      intros v (x & y & X & Y & ->). apply combine_product_sound; auto.
    - destruct (w_conjunction_ok i valid C _ _ _ _ Sa Sb) as (r & Hr & S0). exists r, (conjunction ra' rb'). split; [assumption|]. split; [assumption|].
      intros v (X & Y). apply conjunction_sound; auto.
    - destruct (w_disjunction_ok i valid C _ _ _ _ Sa Sb) as (r & Hr & S0). exists r, (disjunction ra' rb'). split; [assumption|]. split; [assumption|].
      intros v [X|Y]; [apply disjunction_sound_l|apply disjunction_sound_r]; auto.
    - destruct (w_square_ok i valid C _ _ Sa) as (r & Hr & S0). exists r, (square ra'). split; [assumption|]. split; [assumption|].
      intros v (x & X & ->). apply square_sound; auto.
    - destruct (w_multiple_ok i valid C _ _ f Sa) as (r & Hr & S0). exists r, (multiple ra' f). split; [assumption|]. split; [assumption|].
      intros v (x & X & ->). replace (f * x)%F with (x * f)%F by (apply F_ext; unfold fmul; f_equal; f_equal; lia). apply multiple_sound; auto.
    - destruct (w_neg_ok i valid C _ _ Sa) as (r & Hr & S0). exists r, (rc_neg ra'). split; [assumption|]. split; [assumption|].
      intros v (x & X & ->). apply rc_neg_sound; auto.
  Qed.
  Lemma build_allows (e : rexp p) : arguments_fit (bits i) e -> exists r, build i e = Some r /\ forall v, possible e v -> w_allows_value i r v = true.
  Proof.
    intros AF. destruct (build_ok e AF) as (r & r' & B & S0 & P). exists r. split; [assumption|]. intros v V. rewrite (w_allows_value_ok i valid C _ _ _ S0). auto.
  Qed.
  Lemma build_panics (b : N) : bits i <= b -> build i (RMaxBit b) = None.
  Proof. intros L. cbn [build]. apply (w_from_max_bit_panics i valid C). lia. Qed.
End BuildFacts.
