(** Soundness of the range-constraint operations of [RangeModel]. *)
From Coq Require Import NArith ZArith Bool List Lia Ring Znumtheory FinFun.
From Coq Require Import ZifyBool ZifyN.
From Verif Require Import Field RangeModel.
Import ListNotations.
Local Open Scope N_scope.

Definition submask (a m : N) : Prop := N.land a m = a.

Lemma submask_spec a m : submask a m <-> forall i, N.testbit a i = true -> N.testbit m i = true.
Proof.
  unfold submask. split.
  - intros H i Hi. rewrite <- H, N.land_spec in Hi. now apply andb_true_iff in Hi.
  - intros H. apply N.bits_inj. intros i. rewrite N.land_spec.
    destruct (N.testbit a i) eqn:E; cbn; auto.
Qed.
Lemma submask_le a m : submask a m -> a <= m.
Proof.
  intros H.
  assert (E : m = a + N.ldiff m a).
  { rewrite N.add_nocarry_lxor.
    - apply N.bits_inj. intros i. rewrite N.lxor_spec, N.ldiff_spec.
      assert (Ha := proj1 (submask_spec a m) H i).
      destruct (N.testbit a i), (N.testbit m i); cbn; auto; discriminate (Ha eq_refl).
    - apply N.bits_inj. intros i. rewrite N.land_spec, N.ldiff_spec, N.bits_0.
      now destruct (N.testbit a i), (N.testbit m i). }
  lia.
Qed.
Lemma submask_trans a b c : submask a b -> submask b c -> submask a c.
Proof. rewrite !submask_spec. auto. Qed.
Lemma submask_land a b c : submask a b -> submask a c -> submask a (N.land b c).
Proof.
  rewrite !submask_spec. intros H1 H2 i Hi. rewrite N.land_spec, H1, H2; auto.
Qed.
Lemma submask_lor_l a b c : submask a b -> submask a (N.lor b c).
Proof. rewrite !submask_spec. intros H i Hi. now rewrite N.lor_spec, H. Qed.
Lemma submask_lor_r a b c : submask a c -> submask a (N.lor b c).
Proof. rewrite !submask_spec. intros H i Hi. rewrite N.lor_spec, H; auto. apply orb_true_r. Qed.
Lemma submask_refl a : submask a a.
Proof. apply N.land_diag. Qed.
Lemma submask_0 m : submask 0 m.
Proof. reflexivity. Qed.
Lemma submask_shiftl a m e : submask a m -> submask (N.shiftl a e) (N.shiftl m e).
Proof. unfold submask. intros H. rewrite <- N.shiftl_land. now rewrite H. Qed.

Lemma Ntestbit_div2 a i : N.testbit (N.div2 a) i = N.testbit a (N.succ i).
Proof. rewrite N.div2_spec, N.shiftr_spec'. now rewrite N.add_1_r. Qed.
Lemma submask_ones a n : submask a (N.ones n) <-> a < 2 ^ n.
Proof.
  unfold submask. rewrite N.land_ones. split.
  - intros <-. apply N.mod_lt. now apply N.pow_nonzero.
  - apply N.mod_small.
Qed.
Lemma lt_pow2_size a b : a <= b -> a < 2 ^ N.size b.
Proof.
  intros. eapply N.le_lt_trans; [eassumption|]. apply N.size_gt.
Qed.
Lemma submask_size a b : a <= b -> submask a (N.ones (N.size b)).
Proof. intros. now apply submask_ones, lt_pow2_size. Qed.

Section RangeFacts.
  Context {p : positive}.
  Local Notation P := (N.pos p).
  Add Ring Fring : (F_ring_theory (p:=p)).

  Lemma fleb_le (a b : F p) : fleb a b = true <-> val a <= val b.
  Proof. apply N.leb_le. Qed.
  Lemma fleb_gt (a b : F p) : fleb a b = false <-> val b < val a.
  Proof. apply N.leb_gt. Qed.
  Lemma val_fmin (a b : F p) : val (fmin_ a b) = N.min (val a) (val b).
  Proof. unfold fmin_. destruct (fleb a b) eqn:E; unfold fleb in E; lia. Qed.
  Lemma val_fmax (a b : F p) : val (fmax_ a b) = N.max (val a) (val b).
  Proof. unfold fmax_. destruct (fleb a b) eqn:E; unfold fleb in E; lia. Qed.
  Lemma val_minus1 : val (fminus1 : F p) = P - 1.
  Proof.
    unfold fminus1, fopp, fone. rewrite !val_of_N. destruct (N.lt_ge_cases 1 P).
    - rewrite (N.mod_small 1) by auto. apply N.mod_small. lia.
    - assert (P = 1) as -> by lia. reflexivity.
  Qed.

  (** Membership in a cyclic interval is a comparison of offsets from its start. *)
  Lemma in_interval_offset (mn mx v : F p) :
    in_interval mn mx v = (val (v - mn) <=? val (mx - mn)).
  Proof.
    pose proof (val_lt v). pose proof (val_lt mn). pose proof (val_lt mx).
    pose proof (val_lt (v - mn)%F). pose proof (val_lt (mx - mn)%F).
    pose proof (val_sub v mn). pose proof (val_sub mx mn).
    unfold in_interval, fleb. 
    destruct (N.leb_spec (val mn) (val mx)); lia.
  Qed.

  Lemma allows_iff (r : rc p) v :
    allows_value r v = true <->
    val (v - rmin r) <= val (rmax r - rmin r) /\ submask (val v) (mask r).
  Proof.
    unfold allows_value. rewrite in_interval_offset, andb_true_iff, N.leb_le, N.eqb_eq. reflexivity.
  Qed.

  Lemma range_width_of_eq (mn mx : F p) : range_width_of mn mx = val (mx - mn) + 1.
  Proof.
    unfold range_width_of. destruct (feqb_spec (mx + 1)%F mn) as [E|E].
    - replace (mx - mn)%F with (fminus1 : F p) by (rewrite <- E; unfold fminus1; ring).
      rewrite val_minus1. lia.
    - pose proof (val_lt (mx - mn + 1)%F). pose proof (val_lt (mx - mn)%F).
      destruct (N.lt_ge_cases 1 P) as [Hp|Hp].
      + pose proof (val_add (mx - mn) 1). unfold fone in *. rewrite (val_of_N 1), (N.mod_small 1) in * by auto.
        destruct H1 as [H1|H1]; [lia|].
        exfalso. apply E. replace (mx)%F with (mx - mn + mn)%F by ring.
        replace (mx - mn)%F with (fminus1 : F p). { unfold fminus1, fone. ring. }
        apply F_ext. rewrite val_minus1. lia.
      + exfalso. apply E. apply F_ext. pose proof (val_lt (mx + 1)%F). pose proof (val_lt mn). lia.
  Qed.

  Lemma range_width_bounds (r : rc p) : 1 <= range_width r <= P.
  Proof. unfold range_width. rewrite range_width_of_eq. pose proof (val_lt (rmax r - rmin r)%F). lia. Qed.

  Lemma unconstrained_width : range_width (unconstrained : rc p) = P.
  Proof.
    unfold range_width. rewrite range_width_of_eq. cbn [rmin rmax unconstrained].
    replace (fminus1 - 0)%F with (fminus1 : F p) by ring. rewrite val_minus1. lia.
  Qed.

  Lemma in_mask_unconstrained (v : F p) : submask (val v) (mask (unconstrained : rc p)).
  Proof.
    cbn [mask unconstrained]. apply submask_size. rewrite val_minus1. pose proof (val_lt v). lia.
  Qed.

  Lemma in_mask_from_range (mn mx v : F p) :
    in_interval mn mx v = true -> submask (val v) (mask (from_range mn mx)).
  Proof.
    unfold in_interval, from_range. cbn [mask]. destruct (fleb mn mx) eqn:E.
    - intros H. apply submask_size. apply andb_true_iff in H. destruct H as [_ H]. now apply fleb_le.
    - intros _. apply in_mask_unconstrained.
  Qed.

  Lemma from_range_allows mn mx (v : F p) :
    allows_value (from_range mn mx) v = in_interval mn mx v.
  Proof.
    unfold allows_value. cbn [rmin rmax from_range]. destruct (in_interval mn mx v) eqn:E; auto.
    cbn. apply N.eqb_eq. now apply in_mask_from_range.
  Qed.

  Lemma unconstrained_allows (v : F p) : allows_value unconstrained v = true.
  Proof.
    apply allows_iff. split; [|apply in_mask_unconstrained]. cbn [rmin rmax unconstrained].
    replace (fminus1 - 0)%F with (fminus1 : F p) by ring. rewrite val_minus1.
    pose proof (val_lt (v - 0)%F). lia.
  Qed.

  Lemma from_value_allows (a v : F p) : allows_value (from_value a) v = true <-> v = a.
  Proof.
    rewrite allows_iff. cbn [rmin rmax mask from_value]. split.
    - intros [H _]. replace (a - a)%F with (0 : F p)%F in H by ring. rewrite val_zero in H.
      apply sub_eq_zero. apply F_ext. rewrite val_zero. lia.
    - intros ->. split; [lia|]. apply submask_refl.
  Qed.

  Lemma from_mask_allows m (v : F p) : allows_value (from_mask m) v = true <-> submask (val v) m.
  Proof.
    rewrite allows_iff. cbn [rmin rmax mask from_mask]. split; [tauto|]. intros H. split; auto.
    pose proof (submask_le _ _ H). replace (v - 0)%F with v by ring.
    replace (of_N (N.min m (val fminus1)) - 0)%F with (of_N (N.min m (val (fminus1 : F p))) : F p) by ring.
    rewrite val_minus1. pose proof (val_lt v). rewrite val_of_N_small; lia.
  Qed.

  Lemma from_max_bit_allows b (v : F p) :
    allows_value (from_max_bit b) v = true <-> val v < 2 ^ (b + 1).
  Proof. unfold from_max_bit. rewrite from_mask_allows. apply submask_ones. Qed.

  Lemma combine_sum_sound (a b : rc p) x y :
    allows_value a x = true -> allows_value b y = true ->
    allows_value (combine_sum a b) (x + y)%F = true.
  Proof.
    intros Ha Hb. apply allows_iff in Ha, Hb. destruct Ha as [Ha Hma], Hb as [Hb Hmb].
    assert (Hm : submask (val (x + y))
                  (if P <=? mask a + mask b then mask (unconstrained : rc p)
                   else N.lor (N.lor (mask a + mask b) (mask a)) (mask b))).
    { destruct (N.leb_spec P (mask a + mask b)) as [|Hlt]; [apply in_mask_unconstrained|].
      pose proof (submask_le _ _ Hma). pose proof (submask_le _ _ Hmb).
      assert (Hv : val (x + y) = val x + val y).
      { pose proof (val_add x y). pose proof (val_lt (x + y)%F). lia. }
      rewrite Hv. clear - Hma Hmb.
      (* the carries of x + y are carries of mask a + mask b *)
      assert (G : forall X Y A B, submask X A -> submask Y B ->
                 submask (X + Y) (N.lor (N.lor (A + B) A) B)); [|now apply G].
      clear. intros X Y A B HX HY.
      assert (C : forall i c d, (c = true -> d = true) ->
        forall X Y A B, submask X A -> submask Y B ->
          (N.testbit (X + Y + N.b2n c) i = true ->
           (N.testbit (A + B + N.b2n d) i || N.testbit A i || N.testbit B i)%bool = true)).
      { clear. intros i. induction i as [|i IH] using N.peano_ind; intros c d Hcd X Y A B HX HY HT.
        - rewrite <- N.add_assoc in HT. rewrite !N.add_bit0 in HT. rewrite <- N.add_assoc, !N.add_bit0.
          assert (HX0 := proj1 (submask_spec _ _) HX 0). assert (HY0 := proj1 (submask_spec _ _) HY 0).
          destruct c, d, (N.testbit X 0), (N.testbit A 0), (N.testbit Y 0), (N.testbit B 0); cbn in *;
            try discriminate (HX0 eq_refl); try discriminate (HY0 eq_refl); try discriminate (Hcd eq_refl); congruence.
        - assert (HX0 := proj1 (submask_spec _ _) HX 0). assert (HY0 := proj1 (submask_spec _ _) HY 0).
          assert (E : forall X Y c, N.testbit (X + Y + N.b2n c) (N.succ i) =
             N.testbit (N.div2 X + N.div2 Y + N.b2n (N.testbit X 0 && N.testbit Y 0 || c && (N.testbit X 0 || N.testbit Y 0))) i).
          { clear. intros X Y c. rewrite <- Ntestbit_div2. f_equal. rewrite !N.bit0_odd.
            rewrite (N.div2_odd X) at 1. rewrite (N.div2_odd Y) at 1.
            set (u := N.div2 X). set (v := N.div2 Y). rewrite N.div2_div.
            destruct (N.odd X), (N.odd Y), c; cbn [N.b2n andb orb];
              match goal with |- ?n / 2 = ?m =>
                ((assert (n = m * 2 + 0) as -> by lia) || (assert (n = m * 2 + 1) as -> by lia));
                rewrite N.div_add_l by discriminate; cbn; lia end. }
          rewrite E in HT. rewrite E.
          rewrite <- !(Ntestbit_div2 _ i).
          eapply IH; [|  | | exact HT].
          + destruct c, d, (N.testbit X 0), (N.testbit A 0), (N.testbit Y 0), (N.testbit B 0); cbn in *;
            try discriminate (HX0 eq_refl); try discriminate (HY0 eq_refl); try discriminate (Hcd eq_refl); congruence.
          + apply submask_spec. intros j. rewrite !Ntestbit_div2. now apply submask_spec.
          + apply submask_spec. intros j. rewrite !Ntestbit_div2. now apply submask_spec. }
      apply submask_spec. intros i Hi. rewrite !N.lor_spec.
      specialize (C i false false ltac:(auto) X Y A B HX HY).
      cbn [N.b2n] in C. rewrite !N.add_0_r in C. now apply C. }
    assert (Hi : in_interval (fst (if range_width a + range_width b <=? range_width (unconstrained : rc p)
        then ((rmin a + rmin b)%F, (rmax a + rmax b)%F)
        else (rmin unconstrained, rmax unconstrained)))
        (snd (if range_width a + range_width b <=? range_width (unconstrained : rc p)
        then ((rmin a + rmin b)%F, (rmax a + rmax b)%F)
        else (rmin unconstrained, rmax unconstrained))) (x + y)%F = true).
    { rewrite unconstrained_width. destruct (N.leb_spec (range_width a + range_width b) P) as [Hw|Hw]; cbn [fst snd].
      - unfold range_width in Hw. rewrite !range_width_of_eq in Hw. rewrite in_interval_offset.
        replace (x + y - (rmin a + rmin b))%F with ((x - rmin a) + (y - rmin b))%F by ring.
        replace (rmax a + rmax b - (rmin a + rmin b))%F with ((rmax a - rmin a) + (rmax b - rmin b))%F by ring.
        pose proof (val_add (x - rmin a) (y - rmin b)). 
        pose proof (val_add (rmax a - rmin a) (rmax b - rmin b)).
        pose proof (val_lt (x - rmin a + (y - rmin b))%F). lia.
      - pose proof (unconstrained_allows (x + y)%F) as HU. unfold allows_value in HU.
        now apply andb_true_iff in HU. }
    unfold combine_sum.
    destruct (if range_width a + range_width b <=? range_width unconstrained
        then ((rmin a + rmin b)%F, (rmax a + rmax b)%F)
        else (rmin unconstrained, rmax unconstrained)) as [mn mx]. cbn [fst snd] in Hi.
    unfold allows_value. cbn [rmin rmax mask]. rewrite Hi, andb_true_l. apply N.eqb_eq.
    destruct (fleb mn mx).
    - apply submask_land; auto. now apply in_mask_from_range.
    - exact Hm.
  Qed.

  Lemma in_interval_neg (mn mx v : F p) :
    in_interval mn mx v = true -> in_interval (- mx)%F (- mn)%F (- v)%F = true.
  Proof.
    rewrite !in_interval_offset, !N.leb_le.
    replace (- v - - mx)%F with ((mx - mn) - (v - mn))%F by ring.
    replace (- mn - - mx)%F with (mx - mn)%F by ring.
    intros H. pose proof (val_sub (mx - mn) (v - mn)). pose proof (val_lt (mx - mn - (v - mn))%F). lia.
  Qed.

  Lemma rc_neg_sound (r : rc p) v :
    allows_value r v = true -> allows_value (rc_neg r) (- v)%F = true.
  Proof.
    intros H. unfold rc_neg. rewrite from_range_allows. apply in_interval_neg.
    unfold allows_value in H. now apply andb_true_iff in H.
  Qed.

  Lemma val_mul_small (a b : F p) : val a * val b < P -> val (a * b) = val a * val b.
  Proof. intros. unfold fmul. now rewrite val_of_N_small. Qed.

  Lemma range_multiple_sound (mn mx f v : F p) :
    in_interval mn mx v = true ->
    in_interval (fst (range_multiple mn mx f)) (snd (range_multiple mn mx f)) (v * f)%F = true.
  Proof.
    intros H. unfold range_multiple. rewrite range_width_of_eq.
    rewrite in_interval_offset, N.leb_le in H.
    destruct (N.leb_spec ((val (mx - mn) + 1) * val f) P) as [Hw|Hw]; cbn [fst snd].
    - rewrite in_interval_offset. apply N.leb_le.
      replace (v * f - mn * f)%F with ((v - mn) * f)%F by ring.
      replace (mx * f - mn * f)%F with ((mx - mn) * f)%F by ring.
      destruct (N.eq_dec (val f) 0) as [E|E].
      + assert (f = 0%F) as -> by now apply F_ext. 
        replace ((v - mn) * 0)%F with (0 : F p)%F by ring. rewrite val_zero. lia.
      + assert (val (mx - mn) * val f < P) by nia.
        assert (val (v - mn) * val f <= val (mx - mn) * val f) by nia.
        rewrite !val_mul_small by lia. lia.
    - rewrite in_interval_offset. apply N.leb_le.
      replace (0 - 1)%F with (fminus1 : F p) by (unfold fminus1; ring). rewrite val_minus1.
      pose proof (val_lt (v * f - 1)%F). lia.
  Qed.

  Lemma log2_exact_spec n e : log2_exact n = Some e -> n = 2 ^ e.
  Proof.
    unfold log2_exact. destruct (_ && _) eqn:E; [|discriminate]. intros [= <-].
    apply andb_true_iff in E. now apply N.eqb_eq.
  Qed.

  Lemma multiple_sound (r : rc p) f v :
    allows_value r v = true -> allows_value (multiple r f) (v * f)%F = true.
  Proof.
    intros H. unfold allows_value in H. apply andb_true_iff in H. destruct H as [Hi Hm].
    apply N.eqb_eq in Hm. fold (submask (val v) (mask r)) in Hm.
    unfold multiple.
    set (mm := if is_in_lower_half f then _ else _).
    assert (HI : in_interval (fst mm) (snd mm) (v * f)%F = true).
    { unfold mm. destruct (is_in_lower_half f).
      - now apply range_multiple_sound.
      - replace (v * f)%F with ((- v) * (- f))%F by ring. apply range_multiple_sound.
        now apply in_interval_neg. }
    destruct mm as [mn mx]. cbn [fst snd] in HI.
    unfold allows_value. cbn [rmin rmax mask]. rewrite HI, andb_true_l. apply N.eqb_eq.
    destruct (log2_exact (val f)) as [e|] eqn:El; [|now apply in_mask_from_range].
    destruct (N.ltb_spec (N.shiftl (mask r) e) P) as [Hlt|]; [|now apply in_mask_from_range].
    apply log2_exact_spec in El. pose proof (submask_le _ _ Hm).
    assert (Hs : val (v * f) = N.shiftl (val v) e).
    { rewrite N.shiftl_mul_pow2 in *. rewrite val_mul_small; rewrite El; nia. }
    rewrite Hs. apply (submask_shiftl _ _ e Hm).
  Qed.

  Lemma try_to_single_value_sound (r : rc p) v x :
    try_to_single_value r = Some v -> allows_value r x = true -> x = v.
  Proof.
    unfold try_to_single_value. destruct (feqb_spec (rmin r) (rmax r)) as [E|E]; [|discriminate].
    destruct (_ =? _); [|discriminate]. intros [= <-]. rewrite allows_iff. intros [H _].
    rewrite E in *. replace (rmax r - rmax r)%F with (0 : F p)%F in H by ring. rewrite val_zero in H.
    apply sub_eq_zero. apply F_ext. rewrite val_zero. lia.
  Qed.
  Lemma try_to_single_value_allowed (r : rc p) v :
    try_to_single_value r = Some v -> allows_value r v = true.
  Proof.
    unfold try_to_single_value. destruct (feqb_spec (rmin r) (rmax r)) as [E|E]; [|discriminate].
    destruct (N.eqb_spec (N.land (val (rmin r)) (mask r)) (val (rmin r))) as [Em|Em]; [|discriminate]. intros [= <-].
    apply allows_iff. split; auto. rewrite E. lia.
  Qed.

  Lemma combine_product_sound (a b : rc p) x y :
    allows_value a x = true -> allows_value b y = true ->
    allows_value (combine_product a b) (x * y)%F = true.
  Proof.
    intros Ha Hb. unfold combine_product.
    destruct (try_to_single_value b) as [v|] eqn:Eb.
    { rewrite (try_to_single_value_sound _ _ _ Eb Hb). now apply multiple_sound. }
    destruct (try_to_single_value a) as [v|] eqn:Ea.
    { rewrite (try_to_single_value_sound _ _ _ Ea Ha).
      replace (v * y)%F with (y * v)%F by ring. now apply multiple_sound. }
    destruct (fleb (rmin a) (rmax a)) eqn:E1; [|apply unconstrained_allows].
    destruct (fleb (rmin b) (rmax b)) eqn:E2; [|apply unconstrained_allows].
    destruct (N.ltb_spec (val (rmax a) * val (rmax b)) P) as [Hlt|]; [|apply unconstrained_allows].
    cbn [andb]. rewrite from_range_allows.
    unfold allows_value, in_interval in Ha, Hb. rewrite E1 in Ha. rewrite E2 in Hb.
    rewrite !andb_true_iff, !fleb_le in Ha, Hb.
    apply fleb_le in E1, E2.
    assert (val x * val y <= val (rmax a) * val (rmax b)) by nia.
    assert (val (rmin a) * val (rmin b) <= val x * val y) by nia.
    unfold in_interval, fleb. rewrite !val_mul_small by lia. 
    destruct (N.leb_spec (val (rmin a) * val (rmin b)) (val (rmax a) * val (rmax b))); lia.
  Qed.

  Lemma square_sound (a : rc p) x :
    allows_value a x = true -> allows_value (square a) (x * x)%F = true.
  Proof.
    intros H. unfold square. destruct (fltb (rmax a) (rmin a)) eqn:E; [|now apply combine_product_sound].
    destruct (N.ltb_spec (val (fmax_ (- rmin a) (rmax a))%F * val (fmax_ (- rmin a) (rmax a))%F) P) as [Hlt|];
      [|now apply combine_product_sound].
    cbn [andb]. unfold fltb in E.
    rewrite from_range_allows. unfold allows_value, in_interval in H. unfold fleb in H at 1.
    destruct (N.leb_spec (val (rmin a)) (val (rmax a))); [lia|].
    apply andb_true_iff in H. destruct H as [H _]. apply orb_true_iff in H. rewrite !fleb_le in H.
    set (m := fmax_ (- rmin a)%F (rmax a)) in *.
    assert (Hm : val m = N.max (val (- rmin a)%F) (val (rmax a))) by apply val_fmax.
    unfold in_interval, fleb. rewrite (val_mul_small m m) by auto. rewrite val_zero.
    assert (val (x * x) <= val m * val m).
    { destruct H as [H|H].
      - (* x >= min: -x <= -min *)
        replace (x * x)%F with ((- x) * (- x))%F by ring.
        assert (val (- x) <= val m).
        { rewrite Hm. pose proof (val_opp x). pose proof (val_opp (rmin a)). pose proof (val_lt x). lia. }
        rewrite val_mul_small; nia.
      - assert (val x <= val m) by lia. rewrite val_mul_small; nia. }
    destruct (N.leb_spec 0 (val m * val m)); lia.
  Qed.

  Lemma in_interval_shift (mn mx v s : F p) :
    in_interval (mn + s)%F (mx + s)%F (v + s)%F = in_interval mn mx v.
  Proof.
    rewrite !in_interval_offset. f_equal; f_equal; ring.
  Qed.

  Lemma try_shift_spec (a b : F p * F p) s s' a' b' :
    try_shift a b s = Some (s', (a', b')) ->
    s' = s /\ a' = shifted_interval a (- s)%F /\ b' = shifted_interval b (- s)%F /\ val (fst a') <= val (snd a') /\ val (fst b') <= val (snd b').
  Proof.
    unfold try_shift. destruct (fleb _ _) eqn:E1; [|discriminate].
    destruct (fleb (fst (shifted_interval b _)) _) eqn:E2; [|discriminate]. cbn [andb].
    intros [= <- <- <-]. apply fleb_le in E1, E2. auto.
  Qed.

  Lemma interval_intersection_sound (a b : F p * F p) v :
    in_interval (fst a) (snd a) v = true -> in_interval (fst b) (snd b) v = true ->
    exists i, interval_intersection a b = Some i /\ in_interval (fst i) (snd i) v = true.
  Proof.
    intros Ha Hb. unfold interval_intersection.
    destruct (match try_shift a b (fst a) with Some r => Some r | None => try_shift a b (fst b) end)
      as [[s [a' b']]|] eqn:E.
    - assert (H : exists s0, try_shift a b s0 = Some (s, (a', b'))).
      { destruct (try_shift a b (fst a)) eqn:E'; eexists; [rewrite E'|]; eauto. }
      destruct H as [s0 H]. apply try_shift_spec in H. destruct H as (-> & -> & -> & H1 & H2).
      unfold shifted_interval in H1, H2 |- *. cbn [fst snd] in *.
      rewrite <- (in_interval_shift _ _ _ (- s0)) in Ha. rewrite <- (in_interval_shift _ _ _ (- s0)) in Hb.
      unfold in_interval in Ha, Hb.
      rewrite (proj2 (fleb_le _ _) H1) in Ha. rewrite (proj2 (fleb_le _ _) H2) in Hb.
      rewrite andb_true_iff, !fleb_le in Ha, Hb.
      set (lo := fmax_ _ _). set (hi := fmin_ _ _).
      assert (Hlo : val lo <= val (v + - s0)) by (unfold lo; rewrite val_fmax; lia).
      assert (Hhi : val (v + - s0) <= val hi) by (unfold hi; rewrite val_fmin; lia).
      assert (Hle : fleb lo hi = true) by (apply fleb_le; lia).
      rewrite Hle. eexists. split; [reflexivity|]. cbn [fst snd].
      replace v with (v + - s0 + s0)%F by ring. rewrite in_interval_shift.
      unfold in_interval. rewrite Hle. apply andb_true_iff. rewrite !fleb_le. auto.
    - destruct (_ <=? _); eauto.
  Qed.

  Lemma conjunction_sound (a b : rc p) v :
    allows_value a v = true -> allows_value b v = true ->
    allows_value (conjunction a b) v = true.
  Proof.
    intros Ha Hb. unfold allows_value in Ha, Hb. apply andb_true_iff in Ha, Hb.
    destruct Ha as [Ha Hma], Hb as [Hb Hmb]. apply N.eqb_eq in Hma, Hmb.
    unfold conjunction.
    destruct (interval_intersection_sound (rmin a, rmax a) (rmin b, rmax b) v Ha Hb) as [[mn mx] [-> Hi]].
    cbn [fst snd] in Hi.
    set (m := N.land (mask a) (mask b)).
    assert (Hm : submask (val v) m) by now apply submask_land.
    pose proof (submask_le _ _ Hm) as Hvm. pose proof (val_lt v) as Hv.
    set (q := if m <? P then _ else _).
    assert (Hq : in_interval (fst q) (snd q) v = true).
    { unfold q. destruct (N.ltb_spec m P) as [Hlt|]; [|exact Hi].
      unfold in_interval in Hi.
      destruct (fleb mn mx) eqn:E; cbn [fst snd].
      - rewrite andb_true_iff, !fleb_le in Hi. apply fleb_le in E.
        unfold in_interval, fleb. rewrite !val_fmin, val_of_N_small by auto.
        destruct (N.leb_spec (N.min m (val mn)) (N.min m (val mx))); lia.
      - rewrite orb_true_iff, !fleb_le in Hi. apply fleb_gt in E.
        destruct (N.ltb_spec m (val mn)) as [Hmn|Hmn]; cbn [fst snd].
        + unfold in_interval, fleb. rewrite !val_fmin, val_of_N_small, val_zero by auto.
          destruct (N.leb_spec 0 (N.min m (val mx))); lia.
        + unfold in_interval. rewrite (proj2 (fleb_gt _ _) E). rewrite orb_true_iff, !fleb_le. auto. }
    destruct q as [mn' mx']. cbn [fst snd] in Hq.
    unfold allows_value. cbn [rmin rmax mask]. rewrite Hq, andb_true_l. apply N.eqb_eq.
    destruct (fleb mn' mx'); auto. apply submask_land; auto. now apply in_mask_from_range.
  Qed.

  Lemma disjunction_sound_l (a b : rc p) v :
    allows_value a v = true -> allows_value (disjunction a b) v = true.
  Proof.
    intros Ha. unfold allows_value, in_interval in Ha. apply andb_true_iff in Ha.
    destruct Ha as [Ha Hma]. apply N.eqb_eq in Hma.
    assert (Hm : submask (val v) (N.lor (mask a) (mask b))) by now apply submask_lor_l.
    unfold disjunction.
    destruct (fleb (rmin a) (rmax a)) eqn:E1, (fleb (rmin b) (rmax b)) eqn:E2;
      try (now apply from_mask_allows).
    - unfold allows_value. cbn [rmin rmax mask]. rewrite (proj2 (N.eqb_eq _ _) Hm), andb_true_r.
      rewrite andb_true_iff, !fleb_le in Ha. apply fleb_le in E1, E2.
      unfold in_interval, fleb. rewrite !val_fmin, !val_fmax.
      destruct (N.leb_spec (N.min (val (rmin a)) (val (rmin b))) (N.max (val (rmax a)) (val (rmax b)))); lia.
    - destruct (fleb (fmin_ _ _) _) eqn:E; [now apply from_mask_allows|].
      unfold allows_value, in_interval. cbn [rmin rmax mask]. rewrite (proj2 (N.eqb_eq _ _) Hm), andb_true_r, E.
      rewrite orb_true_iff, !fleb_le in Ha |- *. rewrite val_fmin, val_fmax. lia.
  Qed.
  Lemma disjunction_comm (a b : rc p) : disjunction a b = disjunction b a.
  Proof.
    assert (Hmin : fmin_ (rmin a) (rmin b) = fmin_ (rmin b) (rmin a)).
    { apply F_ext. rewrite !val_fmin. lia. }
    assert (Hmax : fmax_ (rmax a) (rmax b) = fmax_ (rmax b) (rmax a)).
    { apply F_ext. rewrite !val_fmax. lia. }
    unfold disjunction. rewrite (N.lor_comm (mask b)), Hmin, Hmax.
    destruct (fleb (rmin a) (rmax a)), (fleb (rmin b) (rmax b)); reflexivity.
  Qed.
  Lemma disjunction_sound_r (a b : rc p) v :
    allows_value b v = true -> allows_value (disjunction a b) v = true.
  Proof. rewrite disjunction_comm. apply disjunction_sound_l. Qed.

  Lemma is_disjoint_sound (a b : rc p) v :
    is_disjoint a b = true -> allows_value a v = true -> allows_value b v = true -> False.
  Proof.
    unfold is_disjoint. intros H Ha Hb. apply orb_true_iff in H. destruct H as [H|H].
    - apply andb_true_iff in H. destruct H as [Hz Hm]. apply N.eqb_eq in Hm.
      assert (v = 0%F) as ->.
      { apply allows_iff in Ha, Hb. apply F_ext. rewrite val_zero.
        assert (submask (val v) (N.land (mask a) (mask b))) by (apply submask_land; tauto).
        rewrite Hm in H. apply submask_le in H. lia. }
      rewrite Ha, Hb in Hz. discriminate.
    - unfold allows_value in Ha, Hb. apply andb_true_iff in Ha, Hb.
      destruct (interval_intersection_sound (rmin a, rmax a) (rmin b, rmax b) v) as [i [Ei _]]; [tauto..|].
      rewrite Ei in H. discriminate.
  Qed.

  Lemma N_range_in n k : In k (N_range n) <-> k < n.
  Proof.
    unfold N_range. rewrite in_map_iff. split.
    - intros (i & <- & Hi). apply in_seq in Hi. lia.
    - intros H. exists (N.to_nat k). split; [lia|]. apply in_seq. lia.
  Qed.
  Lemma N_range_nodup n : NoDup (N_range n).
  Proof.
    unfold N_range. apply FinFun.Injective_map_NoDup; [|apply seq_NoDup]. intros x y. lia.
  Qed.

  Lemma allowed_values_complete (r : rc p) l v :
    allowed_values r = Some l -> (In v l <-> allows_value r v = true).
  Proof.
    unfold allowed_values. destruct (_ <? _); [|discriminate]. intros [= <-].
    rewrite filter_In. split; [tauto|]. intros H. split; auto.
    apply in_map_iff. exists (val (v - rmin r)). split.
    - rewrite of_N_val. ring.
    - apply N_range_in. unfold range_width. rewrite range_width_of_eq. apply allows_iff in H. lia.
  Qed.
  Lemma allowed_values_nodup (r : rc p) l : allowed_values r = Some l -> NoDup l.
  Proof.
    unfold allowed_values. destruct (_ <? _); [|discriminate]. intros [= <-].
    apply NoDup_filter. 
    assert (HB := range_width_bounds r).
    assert (G : forall n, n <= P -> NoDup (map (fun o => (rmin r + of_N o)%F) (N_range n))); [|apply G; lia].
    clear. intros n Hn.
    assert (HN := N_range_nodup n). 
    assert (HI : forall k, In k (N_range n) -> k < P) by (intros k Hk; apply N_range_in in Hk; lia).
    revert HN HI. generalize (N_range n). intros l. induction l as [|a l IH]; intros HN HI; cbn [map]; constructor.
    - inversion_clear HN. rewrite in_map_iff. intros (b & Hb & Hin). apply H.
      assert (val (of_N a : F p) = val (of_N b : F p)).
      { f_equal. transitivity (rmin r + of_N a - rmin r)%F; [ring|]. rewrite <- Hb. ring. }
      rewrite !val_of_N_small in H1 by (apply HI; cbn; auto). now subst.
    - inversion_clear HN. apply IH; auto. intros k Hk. apply HI. now right.
  Qed.
  Lemma allowed_values_length (r : rc p) l :
    allowed_values r = Some l -> N.of_nat (length l) <= range_width r.
  Proof.
    unfold allowed_values. destruct (_ <? _); [|discriminate]. intros [= <-].
    assert (forall (f : F p -> bool) l', (length (filter f l') <= length l')%nat) as HF.
    { clear. intros f l'. induction l' as [|a l' IH]; cbn; auto. destruct (f a); cbn; lia. }
    specialize (HF (allows_value r) (map (fun o => (rmin r + of_N o)%F) (N_range (range_width r)))).
    unfold N_range in HF at 2. rewrite !map_length, seq_length in HF. lia.
  Qed.

  Lemma is_unconstrained_iff (r : rc p) :
    is_unconstrained r = true <-> forall v, allows_value r v = true.
  Proof.
    unfold is_unconstrained. rewrite unconstrained_width, andb_true_iff, !N.eqb_eq.
    unfold range_width. rewrite range_width_of_eq.
    split.
    - intros [Hw Hm] v. apply allows_iff. pose proof (val_lt (v - rmin r)%F). split; [lia|].
      eapply submask_trans; [apply in_mask_unconstrained|]. unfold submask. now rewrite N.land_comm.
    - intros H. pose proof (val_lt (rmax r - rmin r)%F). split.
      + specialize (H (rmin r + fminus1)%F). apply allows_iff in H. destruct H as [H _].
        replace (rmin r + fminus1 - rmin r)%F with (fminus1 : F p) in H by ring.
        rewrite val_minus1 in H. lia.
      + assert (HS : submask (mask (unconstrained : rc p)) (mask r)); [|unfold submask in HS; now rewrite N.land_comm].
        apply submask_spec. intros i Hi. cbn [mask unconstrained] in Hi.
        unfold mask_from_bits, num_bits in Hi.
        rewrite val_minus1 in Hi.
        destruct (N.lt_ge_cases i (N.size (P - 1))) as [Hlt|Hge].
        2:{ rewrite N.ones_spec_high in Hi by auto. discriminate. }
        destruct (N.eq_dec (P - 1) 0) as [Ez|Ez]; [rewrite Ez in Hlt; cbn in Hlt; lia|].
        assert (Hpow : 2 ^ i < P).
        { rewrite N.size_log2 in Hlt by auto. 
          assert (2 ^ i <= P - 1); [|lia].
          transitivity (2 ^ N.log2 (P - 1)); [apply N.pow_le_mono_r; lia|]. apply N.log2_spec. lia. }
        specialize (H (of_N (2 ^ i))). apply allows_iff in H. destruct H as [_ H].
        rewrite val_of_N_small in H by auto. 
        apply (proj1 (submask_spec _ _) H). apply N.pow2_bits_true.
  Qed.

  Lemma rc_eqb_eq (a b : rc p) : rc_eqb a b = true <-> a = b.
  Proof.
    unfold rc_eqb. rewrite !andb_true_iff, N.eqb_eq, !feqb_eq.
    destruct a, b; cbn. split; [intros [[-> ->] ->]; reflexivity|intros [= -> -> ->]; auto].
  Qed.

  (** No machine overflow: the sums and shifts of masks stay below the modulus or
      are replaced. *)
  Lemma combine_sum_no_overflow (a b : rc p) :
    (P <=? mask a + mask b) = false -> mask a + mask b < P.
  Proof. intros H. now apply N.leb_gt. Qed.
End RangeFacts.
