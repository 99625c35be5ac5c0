(** Facts about pure range checks, batching and the range constraint optimizer. *)
From Coq Require Import NArith ZArith Znumtheory Bool List Lia ZifyBool ZifyN ZifyNat.
From Verif Require Import Field RangeModel RangeFacts ExprModel ExprFacts ExprWf SolveModel SolveFacts SystemModel Spec Bridge InlinerModel
  BaseModel SolverSpec OvmModel OvmSpec OvmFacts.
Import ListNotations.
Local Open Scope N_scope.

Lemma Forall_filter_split {A} (f : A -> bool) (R : A -> Prop) l :
  Forall R l <-> Forall R (filter f l) /\ Forall R (filter (fun x => negb (f x)) l).
Proof.
  rewrite !Forall_forall. split.
  - intros H. split; intros x Hx; apply filter_In in Hx; apply H; tauto.
  - intros [H1 H2] x Hx. destruct (f x) eqn:E; [apply H1|apply H2]; apply filter_In; rewrite E; auto.
Qed.
Lemma Forall_firstn_skipn {A} n (R : A -> Prop) l : Forall R l <-> Forall R (firstn n l) /\ Forall R (skipn n l).
Proof. rewrite <- Forall_app, firstn_skipn. tauto. Qed.
Lemma Forall_combine {A B} (R : A -> Prop) (S : B -> Prop) l l' : length l = length l' ->
  (Forall (fun x => R (fst x) /\ S (snd x)) (combine l l') <-> Forall R l /\ Forall S l').
Proof.
  revert l'. induction l as [|a l IH]; intros [|b l'] E; try discriminate; cbn [combine].
  - split; [split; constructor|constructor].
  - injection E as E. rewrite !Forall_cons_iff, (IH _ E). cbn [fst snd]. tauto.
Qed.
Lemma all_some_F2 {A B} (f : A -> option B) l bs : all_some (map f l) = Some bs -> Forall2 (fun x b => f x = Some b) l bs.
Proof.
  revert bs. induction l as [|a l IH]; intros bs; cbn [map all_some]; [intros [= <-]; constructor|].
  destruct (f a) as [b|] eqn:E; [|discriminate]. destruct (all_some (map f l)) as [xs|]; [|discriminate]. intros [= <-]. constructor; auto.
Qed.
Lemma Forall2_iff {A B} (T : A -> B -> Prop) (R : A -> Prop) (S : B -> Prop) l l' :
  Forall2 T l l' -> (forall a b, In a l -> T a b -> (S b <-> R a)) -> (Forall S l' <-> Forall R l).
Proof.
  induction 1 as [|a b l l' H1 H2 IH]; intros K; [split; constructor|]. rewrite !Forall_cons_iff, IH, (K a b); auto; [tauto|now left|].
  intros; apply K; auto. now right.
Qed.

Section OvmBatch.
  Context {p : positive}.
  Hypothesis Hbig : 2 ^ 26 < N.pos p.
  Local Notation gexp := (gexp p).
  Local Notation rc := (rc p).
  Local Notation P := (N.pos p).
  Local Notation big26 := (big26 Hbig).
  Add Ring Fr : (F_ring_theory (p:=p)).

  (** ** Conjunctions of ranges that start at zero *)
  Definition low (r : rc) : Prop := rmin r = 0%F /\ val (rmax r) < 2 ^ 25.
  Lemma conj_finish (m0 : N) (mn mx : F p) M v : val mn <= val mx -> val mx <= M ->
    allows_value (
      let '(mn, mx) :=
      if m0 <? P then
        if fleb mn mx then (fmin_ (of_N m0) mn, fmin_ (of_N m0) mx)
        else if m0 <? val mn then (0%F, fmin_ (of_N m0) mx)
        else (mn, mx)
      else (mn, mx) in
      let m := if fleb mn mx then N.land m0 (mask (from_range mn mx)) else m0 in
      mkRC m mn mx) v = true -> val v <= M /\ submask (val v) m0.
  Proof.
    intros H1 H2. rewrite (proj2 (fleb_le mn mx) H1).
    assert (K : forall a b : F p, val a <= val b -> val b <= M ->
      allows_value (mkRC (if fleb a b then N.land m0 (mask (from_range a b)) else m0) a b) v = true -> val v <= M /\ submask (val v) m0).
    { intros a b Hab Hb. rewrite (proj2 (fleb_le a b) Hab). unfold allows_value, in_interval. cbn [rmin rmax mask]. rewrite (proj2 (fleb_le a b) Hab).
      rewrite !andb_true_iff, !fleb_le, N.eqb_eq. intros [[A1 A2] A3]. split; [lia|]. apply submask_spec. intros i Hi.
      rewrite <- A3, N.land_spec, N.land_spec, !andb_true_iff in Hi. tauto. }
    destruct (m0 <? P); apply K; rewrite ?val_fmin; lia.
  Qed.
  Lemma val_sub_le (a b : F p) : val b <= val a -> val (a - b)%F = val a - val b.
  Proof. intros H. pose proof (val_lt a). pose proof (val_lt (a - b)%F). destruct (val_sub a b); lia. Qed.

  Lemma intersection_low (a b : F p * F p) i : fst b = 0%F -> 2 * val (snd b) < P -> interval_intersection a b = Some i ->
    val (fst i) <= val (snd i) /\ val (snd i) <= val (snd b).
  Proof.
    intros Hb0 HbM. unfold interval_intersection.
    assert (K : forall s s' a' b', try_shift a b s = Some (s', (a', b')) ->
      (let i := (fmax_ (fst a') (fst b'), fmin_ (snd a') (snd b')) in if fleb (fst i) (snd i) then Some (shifted_interval i s') else None) = Some i ->
      val (fst i) <= val (snd i) /\ val (snd i) <= val (snd b)).
    { intros s s' a' b' E. apply try_shift_spec in E. destruct E as (-> & Ea & Eb & La & Lb). cbn zeta. cbn [fst snd].
      destruct (fleb _ _) eqn:E; [|discriminate]. apply fleb_le in E. intros [= <-]. cbn [shifted_interval fst snd].
      set (x := fmax_ (fst a') (fst b')) in *. set (y := fmin_ (snd a') (snd b')) in *.
      assert (Hx : val (fst b') <= val x) by (unfold x; rewrite val_fmax; lia).
      assert (Hy : val y <= val (snd b')) by (unfold y; rewrite val_fmin; lia).
      assert (Ec : (- s)%F = fst b') by (rewrite Eb; cbn [shifted_interval fst]; rewrite Hb0; ring).
      replace (x + s)%F with (x - fst b')%F by (rewrite <- Ec; ring). replace (y + s)%F with (y - fst b')%F by (rewrite <- Ec; ring).
      assert (Es : val (snd b') - val (fst b') = val (snd b)).
      { rewrite <- val_sub_le by auto. f_equal. rewrite Eb at 1. cbn [shifted_interval snd]. rewrite <- Ec. ring. }
      rewrite !val_sub_le by lia. lia. }
    destruct (try_shift a b (fst a)) as [[s' [a' b']]|] eqn:E1; [eapply K; eauto|].
    destruct (try_shift a b (fst b)) as [[s' [a' b']]|] eqn:E2; [eapply K; eauto|]. clear K.
    rewrite !range_width_of_eq. unfold try_shift in E1, E2.
    destruct (fleb _ _ && _) eqn:F1 in E1; [discriminate|]. destruct (fleb _ _ && _) eqn:F2 in E2; [discriminate|]. clear E1 E2.
    rewrite Hb0 in *. cbn [shifted_interval fst snd] in F1, F2.
    assert (Z1 : forall x : F p, (x + - 0)%F = x) by (intros; ring). assert (Z2 : forall x : F p, (x + - x)%F = 0%F) by (intros; ring).
    assert (Z3 : forall x y : F p, (x + - y)%F = (x - y)%F) by (intros; ring).
    rewrite !Z1 in F2. rewrite Z2, !Z3 in F1.
    apply andb_false_iff in F1, F2. rewrite !fleb_gt in F1, F2. assert (V1 : val (0%F : F p) = 0) by apply val_zero.
    rewrite ?Hb0, ?V1 in F1, F2.
    destruct F1 as [F1|F1]; [lia|]. destruct F2 as [F2|F2]; [|lia].
    pose proof (val_lt (fst a)). pose proof (val_lt (snd b)). pose proof (val_lt (snd b - fst a)%F). pose proof (val_lt (0 - fst a)%F).
    pose proof (val_lt (snd a - fst a)%F). replace (snd b - 0)%F with (snd b) by ring.
    pose proof (val_sub (snd a) (fst a)). pose proof (val_sub (snd b) (fst a)). pose proof (val_sub 0%F (fst a)) as V0. rewrite val_zero in V0.
    destruct (N.leb_spec (val (snd a - fst a)%F + 1) (val (snd b) + 1)); [lia|].
    intros [= <-]. rewrite Hb0, val_zero. lia.
  Qed.

  Lemma allows_zero_min (r : rc) v : rmin r = 0%F -> (allows_value r v = true <-> val v <= val (rmax r) /\ submask (val v) (mask r)).
  Proof.
    intros E. unfold allows_value, in_interval. rewrite E.
    assert (L : fleb (0%F : F p) (rmax r) = true) by (apply fleb_le; rewrite val_zero; lia). rewrite L.
    rewrite !andb_true_iff, !fleb_le, N.eqb_eq, val_zero. unfold submask. split; intros; repeat split; try tauto; lia.
  Qed.
  Lemma submask_land_inv a m1 m2 : submask a (N.land m1 m2) -> submask a m1 /\ submask a m2.
  Proof. rewrite !submask_spec. intros H. split; intros i Hi; specialize (H i Hi); rewrite N.land_spec, andb_true_iff in H; tauto. Qed.
  (** The conjunction with a range that starts at zero and is shorter than half the field is contained in it. *)
  Lemma conj_sub_r (a b : rc) v : rmin b = 0%F -> 2 * val (rmax b) < P -> rc_allows (conjunction a b) v -> rc_allows b v.
  Proof.
    rewrite !rc_allows_iff. intros Hb HM. unfold conjunction.
    assert (K : exists i, match interval_intersection (rmin a, rmax a) (rmin b, rmax b) with Some i => i | None => (0%F, 0%F) end = i /\
      val (fst i) <= val (snd i) /\ val (snd i) <= val (rmax b)).
    { eexists. split; [reflexivity|]. destruct (interval_intersection _ _) as [i|] eqn:E; [|cbn [fst snd]; rewrite val_zero; lia].
      apply intersection_low in E; cbn [fst snd] in *; auto. }
    destruct K as ([mn mx] & -> & K1 & K2). intros H. apply (conj_finish _ _ _ (val (rmax b))) in H; auto. destruct H as [H1 H2].
    apply allows_zero_min; auto. split; auto. now apply submask_land_inv in H2.
  Qed.
  Lemma conj_low (a b : rc) : rmin a = 0%F -> rmin b = 0%F ->
    rmin (conjunction a b) = 0%F /\ val (rmax (conjunction a b)) <= val (rmax b) /\
    forall v, rc_allows (conjunction a b) v <-> rc_allows a v /\ rc_allows b v.
  Proof.
    intros Ha Hb.
    assert (E : interval_intersection (rmin a, rmax a) (rmin b, rmax b) = Some (0%F, fmin_ (rmax a) (rmax b))).
    { unfold interval_intersection, try_shift. cbn [fst snd shifted_interval]. rewrite Ha, Hb.
      assert (Z1 : forall x : F p, (x + - 0)%F = x) by (intros; ring). rewrite !Z1.
      assert (L : forall x : F p, fleb 0 x = true) by (intros; apply fleb_le; rewrite val_zero; lia). rewrite !L. cbn [andb fst snd].
      assert (M : fmax_ (0 : F p)%F 0%F = 0%F) by (apply F_ext; now rewrite val_fmax, N.max_id). cbn [shifted_interval fst snd]. rewrite !Z1, M, L.
      f_equal. unfold shifted_interval. cbn [fst snd]. f_equal; ring. }
    assert (G : rmin (conjunction a b) = 0%F /\ val (rmax (conjunction a b)) <= val (fmin_ (rmax a) (rmax b))).
    { unfold conjunction. rewrite E. assert (L : forall x : F p, fleb 0 x = true) by (intros; apply fleb_le; rewrite val_zero; lia). rewrite L.
      destruct (_ <? P); cbn [rmin rmax]; [|split; [auto|lia]]. rewrite !val_fmin. split; [apply F_ext; rewrite val_fmin, val_zero; lia|lia]. }
    destruct G as [G1 G2]. split; auto. rewrite val_fmin in G2. split; [lia|]. intros v. split.
    - rewrite !rc_allows_iff. unfold conjunction. rewrite E. intros H.
      apply (conj_finish _ _ _ (val (fmin_ (rmax a) (rmax b)))) in H; [|rewrite val_zero; lia|lia]. destruct H as [H1 H2].
      rewrite val_fmin in H1. apply submask_land_inv in H2. split; apply allows_zero_min; auto; split; try tauto; lia.
    - intros [H1 H2]. now apply b_conjunction.
  Qed.
  Lemma low_double (r : rc) : low r -> rmin r = 0%F /\ 2 * val (rmax r) < P.
  Proof. intros [H1 H2]. change (2 ^ 25) with 33554432 in H2. pose proof big26. split; auto. lia. Qed.
  Lemma conj_low_low (a b : rc) : rmin a = 0%F -> low b -> low (conjunction a b).
  Proof. intros Ha [Hb1 Hb2]. destruct (conj_low a b Ha Hb1) as (A & B & _). split; auto. lia. Qed.
  Lemma from_mask_max m : m < P -> val (rmax (from_mask m : rc)) = m.
  Proof. intros H. cbn [rmax from_mask]. rewrite val_minus1. rewrite val_of_N_small; lia. Qed.
  Lemma low_mask m : m < 2 ^ 25 -> low (from_mask m).
  Proof. intros H. change (2 ^ 25) with 33554432 in H. pose proof big26. split; auto. rewrite from_mask_max; [exact H|lia]. Qed.
  Lemma low_zero : low (from_value 0%F).
  Proof. split; auto. cbn [rmax from_value]. now rewrite val_zero. Qed.
  Lemma low_bits k : k <= 25 -> low (from_mask (N.shiftl 1 k - 1)).
  Proof.
    intros H. apply low_mask. rewrite N.shiftl_1_l. assert (2 ^ k <= 2 ^ 25) by (apply N.pow_le_mono_r; lia).
    assert (0 < 2 ^ k) by (apply N.neq_0_lt_0, N.pow_nonzero; lia). lia.
  Qed.

  (** ** C20 *)
  Lemma known_iff (e : gexp) k : try_to_known e = Some k <-> e = from_number k.
  Proof. split; [apply try_to_known_some|intros ->; reflexivity]. Qed.
  Lemma one_nz : (1 : F p)%F <> 0%F.
  Proof. intros H. apply (f_equal val) in H. rewrite val_one_, val_zero in H; [discriminate|exact Hbig]. Qed.
  Lemma legal_iff m t (v : busi (F p)) : map_ok p m -> In (val (bus_id v), t) m -> mult v = 1%F -> (legal m v <-> accepts t (mult v) (payload v)).
  Proof.
    intros [Hn _] Hin E. split; [|intros H; right; eauto]. intros [H|(t' & Hin' & H)].
    - rewrite E in H. now apply one_nz in H.
    - apply (bus_type_of _ _ _ Hn) in Hin, Hin'. assert (t = t') by congruence. now subst.
  Qed.
  Lemma ovm_pure_ok m b rs : map_ok p m -> mult b = from_number 1%F -> bits_in_table m b -> ovm_pure m b = Some (Some rs) ->
    (forall s, legal m (bmap (eval s) b) <-> Forall (in_range s) rs) /\ Forall (fun er => low (snd er) /\ In (fst er) (payload b)) rs /\
    (forall s, keeps_state m (bmap (eval s) b) = false).
  Proof.
    intros Hm H1 Hbits. unfold ovm_pure. destruct (try_to_known (bus_id b)) as [i|] eqn:Ei; [|discriminate]. apply known_iff in Ei.
    destruct (bus_type m (val i)) as [t|] eqn:Et; [|discriminate]. apply bus_type_in in Et.
    assert (L : forall s, legal m (bmap (eval s) b) <-> accepts t 1%F (map (eval s) (payload b))).
    { intros s. rewrite (legal_iff m t).
      - cbn [bmap mult payload]. rewrite H1, eval_from_number. reflexivity.
      - auto.
      - cbn [bmap bus_id]. now rewrite Ei, eval_from_number.
      - cbn [bmap mult]. now rewrite H1, eval_from_number. }
    assert (KS : (match t with BExec | BMemory => False | _ => True end) -> forall s, keeps_state m (bmap (eval s) b) = false).
    { intros Ht s. unfold keeps_state. apply not_true_iff_false. intros X. apply existsb_exists in X. destruct X as ([j u] & X1 & X2).
      cbn [fst snd bmap bus_id] in X2. rewrite Ei, eval_from_number, andb_true_iff, N.eqb_eq in X2. destruct X2 as [-> X2].
      destruct Hm as [Hn _]. apply (bus_type_of _ _ _ Hn) in X1, Et. assert (u = t) by congruence. subst u. destruct t; tauto || discriminate. }
    destruct t as [| | | |s0 s1|]; try discriminate.
    - (* variable range checker *)
      unfold var_range_pure. destruct (payload b) as [|x [|bits [|]]] eqn:Ep; try discriminate.
      destruct (try_to_known bits) as [k|] eqn:Ek; [|discriminate]. apply known_iff in Ek. destruct (val k <? 64); [|discriminate].
      intros E9. assert (E8 : rs = [(x, from_mask (N.shiftl 1 (val k) - 1))]) by congruence. rewrite E8. clear E8 E9.
      assert (Hk : val k <= 25) by (eapply (Hbits i x k); eauto; now rewrite Ep, Ek). split; [|split; [|now apply KS]].
      + intros s. rewrite L, Ek. cbn [map accepts]. rewrite eval_from_number, Forall_cons_iff. unfold in_range at 1. cbn [fst snd]. rewrite allows_bits. split.
        * intros (x' & b' & E & _ & Hx). injection E as <- <-. split; [exact Hx|constructor].
        * intros [Hx _]. exists (eval s x), k. auto.
      + constructor; [|constructor]. cbn [fst snd]. split; [now apply low_bits|now left].
    - (* tuple range checker *)
      unfold tuple_pure. destruct (payload b) as [|x [|y [|]]] eqn:Ep; try discriminate.
      destruct (proj2 Hm _ _ Et) as [_ [B0 B1]]. destruct (tuple_range_some Hbig s0 B0) as (r0 & E0 & R0 & M0 & N0). destruct (tuple_range_some Hbig s1 B1) as (r1 & E1 & R1 & M1 & N1).
      unfold tuple_ranges. rewrite E0, E1. intros [= <-]. split; [|split; [|now apply KS]].
      + intros s. rewrite L. cbn [map accepts]. rewrite !Forall_cons_iff. unfold in_range at 1 2. cbn [fst snd]. rewrite R0, R1. split.
        * intros (x' & y' & E & Hx & Hy). injection E as <- <-. auto.
        * intros (Hx & Hy & _). eauto 6.
      + change (2 ^ 25) with 33554432 in B0, B1. constructor; [|constructor; [|constructor]]; cbn [fst snd]; (split; [|cbn; auto]); split; auto; change (2 ^ 25) with 33554432; lia.
    - (* bitwise lookup *)
      unfold bitwise_pure. destruct (payload b) as [|x [|y [|z [|op [|]]]]] eqn:Ep; try discriminate.
      destruct (match try_to_known op with Some k => is_zero k | None => false end) eqn:Eop.
      + destruct (try_to_known op) as [k|] eqn:Ek; [|discriminate]. apply known_iff in Ek. apply is_zero_eq in Eop. subst k. intros [= <-]. split; [|split; [|now apply KS]].
        * intros s. rewrite L, Ek. cbn [map accepts]. rewrite !Forall_cons_iff. unfold in_range at 1 2 3. cbn [fst snd]. fold (byte_constraint : rc). rewrite !allows_byte, allows_val, eval_from_number. split.
          -- intros (x' & y' & z' & op' & E & Hx & Hy & Hz). injection E as <- <- <- <-. destruct Hz as [[_ Hz]|[Hz _]]; [|rewrite val_zero in Hz; lia].
             apply val_zero_eq in Hz. auto.
          -- intros (Hx & Hy & Hz & _). exists (eval s x), (eval s y), (eval s z), 0%F. split; auto. split; auto. split; auto. left. rewrite Hz, val_zero. auto.
        * repeat (apply Forall_cons || apply Forall_nil); cbn [fst snd]; (split; [|cbn; auto]); auto using low_zero; apply low_mask; reflexivity.
      + destruct (gexp_eqb x y) eqn:Exy; [|discriminate]. apply gexp_eqb_eq in Exy. subst y. intros [= <-]. split; [|split; [|now apply KS]].
        * intros s. rewrite L. cbn [map accepts]. rewrite !Forall_cons_iff. unfold in_range at 1 2 3. cbn [fst snd]. fold (byte_constraint : rc).
          rewrite allows_byte, allows_val, (allows_one Hbig), <- val_zero_eq. split.
          -- intros (x' & y' & z' & op' & E & Hx & Hy & Hz). injection E as <- <- <- <-. rewrite N.lxor_nilpotent in Hz. split; auto. split; [lia|]. split; [lia|constructor].
          -- intros (Hx & Hz & Hop & _). eexists _, _, _, _. split; [reflexivity|]. split; auto. split; auto. rewrite N.lxor_nilpotent. lia.
        * repeat (apply Forall_cons || apply Forall_nil); cbn [fst snd]; (split; [|cbn; auto]); auto using low_zero; apply low_mask; reflexivity.
  Qed.

  (** ** C21 *)
  Lemma num_bits_some (r : rc) k : rc_to_num_bits r = Some k -> r = from_mask (N.shiftl 1 k - 1) /\ k < 30.
  Proof.
    unfold rc_to_num_bits. intros H. apply find_some in H. destruct H as [H1 H2]. apply rc_eqb_eq in H2. split; auto.
    apply in_map_iff in H1. destruct H1 as (n & <- & Hn). apply in_seq in Hn. lia.
  Qed.
  Lemma low_num_bits (r : rc) k : low r -> r = from_mask (N.shiftl 1 k - 1) -> k <= 25.
  Proof.
    intros [_ H] ->. cbn [rmax from_mask] in H. rewrite val_minus1, N.shiftl_1_l in H.
    destruct (N.le_gt_cases k 25) as [|Hk]; auto. exfalso. assert (2 ^ 26 <= 2 ^ k) by (apply N.pow_le_mono_r; lia).
    rewrite val_of_N_small in H by lia. change (2 ^ 26) with 67108864 in *. change (2 ^ 25) with 33554432 in *. pose proof big26. lia.
  Qed.
  Lemma is_byte_ok (r : rc) : is_byte_rc r = true -> r = from_mask 255.
  Proof.
    unfold is_byte_rc. destruct (rc_to_num_bits r) as [k|] eqn:E; [|discriminate]. apply num_bits_some in E. intros H. apply N.eqb_eq in H. subst k. tauto.
  Qed.
  Lemma exprs_unique_in (e : gexp) l seen : (In e (exprs_unique seen l) \/ In e seen) <-> (In e l \/ In e seen).
  Proof.
    revert seen. induction l as [|x l IH]; intros seen; cbn [exprs_unique]; [tauto|]. destruct (existsb (gexp_eqb x) seen) eqn:E.
    - rewrite IH. apply existsb_exists in E. destruct E as (y & Hy & E). apply gexp_eqb_eq in E. subst y. cbn [In]. intuition (subst; auto).
    - specialize (IH (x :: seen)). cbn [In] in *. tauto.
  Qed.
  Lemma Forall_unique (R : gexp -> Prop) l : Forall R (exprs_unique [] l) <-> Forall R l.
  Proof.
    rewrite !Forall_forall. split; intros H x Hx; apply H; pose proof (exprs_unique_in x l []) as K; cbn [In] in K; tauto.
  Qed.
  Lemma mk_check_ok m t pl (b : busi gexp) : map_ok p m -> mk_check m t pl = Some b ->
    mult b = from_number 1%F /\ payload b = pl /\ (forall s, legal m (bmap (eval s) b) <-> accepts t 1%F (map (eval s) pl)) /\
    (match t with BExec | BMemory => True | _ => forall s, keeps_state m (bmap (eval s) b) = false end).
  Proof.
    intros Hm. unfold mk_check. destruct (get_bus_id m t) as [i|] eqn:Ei; [|discriminate]. apply get_bus_id_in in Ei.
    unfold from_u64. destruct (N.ltb_spec i P) as [Hi|]; [|discriminate]. intros [= <-]. cbn [mult payload]. split; auto. split; auto. split.
    - intros s. rewrite (legal_iff m t); cbn [bmap bus_id mult payload]; rewrite ?eval_from_number; auto; [reflexivity|]. now rewrite val_of_N_small.
    - assert (KS : (match t with BExec | BMemory => False | _ => True end) -> forall s, keeps_state m (bmap (eval s) (mkBus (from_number (of_N i)) (from_number 1%F) pl)) = false).
      { intros Ht s. unfold keeps_state. apply not_true_iff_false. intros X. apply existsb_exists in X. destruct X as ([j u] & X1 & X2).
        cbn [fst snd bmap bus_id] in X2. rewrite eval_from_number, val_of_N_small, andb_true_iff, N.eqb_eq in X2 by auto. destruct X2 as [-> X2].
        destruct Hm as [Hn _]. apply (bus_type_of _ _ _ Hn) in X1, Ei. assert (u = t) by congruence. subst u. destruct t; tauto || discriminate. }
      destruct t; auto.
  Qed.
  Lemma accepts_bytes (x y z op : F p) : val z = 0 -> val op = 0 -> (accepts BBitwise 1%F [x; y; z; op] <-> byte x /\ byte y).
  Proof.
    intros Hz Ho. cbn [accepts]. split.
    - intros (x' & y' & z' & op' & E & Hx & Hy & _). injection E as <- <- _ _. auto.
    - intros [Hx Hy]. exists x, y, z, op. auto 7.
  Qed.
  Lemma byte_pairs_ok s (l : list gexp) : Forall (fun pl => accepts BBitwise 1%F (map (eval s) pl)) (byte_pairs l) <-> Forall (fun e => byte (eval s e)) l.
  Proof.
    assert (K : forall n (l : list gexp), (length l <= n)%nat -> (Forall (fun pl => accepts BBitwise 1%F (map (eval s) pl)) (byte_pairs l) <-> Forall (fun e => byte (eval s e)) l)).
    { clear l. induction n as [|n IH]; intros l Hl; [destruct l; [split; constructor|cbn in Hl; lia]|].
      destruct l as [|x [|y l]]; cbn [byte_pairs]; [split; constructor| |].
      - rewrite !Forall_cons_iff. cbn [map]. rewrite !eval_from_number, accepts_bytes by apply val_zero.
        assert (byte (0%F : F p)) by (unfold byte; rewrite val_zero; lia). split; [intros [[? _] _]; auto|intros [? _]; auto].
      - rewrite !Forall_cons_iff, IH by (cbn [length] in Hl; lia). cbn [map]. rewrite !eval_from_number, accepts_bytes by apply val_zero. tauto. }
    eapply K; eauto.
  Qed.
  Lemma accepts_var_range s (e : gexp) k : k < 30 -> (accepts BVarRange 1%F [eval s e; of_N k] <-> k <= 25 /\ val (eval s e) < 2 ^ k).
  Proof.
    intros Hk. pose proof big26. cbn [accepts]. split.
    - intros (x & b & E & H1 & H2). injection E as <- <-. rewrite val_of_N_small in * by lia. auto.
    - intros [H1 H2]. exists (eval s e), (of_N k). rewrite val_of_N_small by lia. auto.
  Qed.
  Lemma num_bits_list_ok s (l : list (gexp * rc)) pls : num_bits_list l = Some pls ->
    (Forall (fun pl => accepts BVarRange 1%F (map (eval s) pl)) pls -> Forall (in_range s) l) /\
    (Forall (fun er => low (snd er)) l -> Forall (in_range s) l -> Forall (fun pl => accepts BVarRange 1%F (map (eval s) pl)) pls).
  Proof.
    intros H. apply all_some_F2 in H. induction H as [|[e r] pl l pls H1 H2 [IH1 IH2]]; [split; constructor|]. cbn [fst snd] in H1.
    destruct (rc_to_num_bits r) as [k|] eqn:Ek; [|discriminate]. apply num_bits_some in Ek. destruct Ek as [-> Hk]. injection H1 as <-.
    assert (R : in_range s (e, from_mask (N.shiftl 1 k - 1)) <-> val (eval s e) < 2 ^ k) by (unfold in_range; cbn [fst snd]; apply allows_bits).
    rewrite !Forall_cons_iff, R. cbn [map snd]. rewrite eval_from_number, accepts_var_range by auto. split.
    - intros [[_ A] B]. auto.
    - intros [A A'] [B B']. repeat split; auto. eapply low_num_bits; eauto.
  Qed.

  Lemma batch_ok m (l : list (gexp * rc)) bs : map_ok p m -> batch_make m l = Made bs ->
    (forall s, (Forall (fun b => legal m (bmap (eval s) b)) bs -> Forall (in_range s) l) /\
               (Forall (fun er => low (snd er)) l -> Forall (in_range s) l -> Forall (fun b => legal m (bmap (eval s) b)) bs)) /\
    Forall (fun b => mult b = from_number 1%F /\ forall s, keeps_state m (bmap (eval s) b) = false) bs.
  Proof.
    intros Hm. unfold batch_make, filter_byte_constraints. set (bytes := exprs_unique _ _). set (rest := filter (fun er => negb (is_byte_rc (snd er))) l).
    destruct (tuple_sizes m) as [[s0 s1]|] eqn:Es; [|discriminate]. apply tuple_sizes_in in Es. destruct Es as [it Hit].
    destruct (proj2 Hm _ _ Hit) as [_ [B0 B1]]. destruct (tuple_range_some Hbig s0 B0) as (r0 & E0 & R0 & M0 & N0). destruct (tuple_range_some Hbig s1 B1) as (r1 & E1 & R1 & M1 & N1).
    unfold tuple_ranges. rewrite E0, E1. destruct (rc_eqb r0 (from_mask 255)) eqn:Er0; [|discriminate]. apply rc_eqb_eq in Er0. cbn [negb].
    set (second0 := filter (fun er => rc_eqb (snd er) r1) rest). set (others0 := filter (fun er => negb (rc_eqb (snd er) r1)) rest).
    set (second := firstn (length bytes) second0). set (others := others0 ++ skipn (length bytes) second0). set (n := length second).
    destruct (all_some (map (fun bs => mk_check m (BTuple s0 s1) [fst bs; fst (snd bs)]) (combine (firstn n bytes) second))) as [b1|] eqn:Eb1; [|discriminate].
    destruct (all_some (map (mk_check m BBitwise) (byte_pairs (skipn n bytes)))) as [b2|] eqn:Eb2; [|discriminate].
    destruct (num_bits_list others) as [pls|] eqn:Eo; [|discriminate].
    destruct (all_some (map (mk_check m BVarRange) pls)) as [b3|] eqn:Eb3; [|discriminate]. intros [= <-].
    apply all_some_F2 in Eb1, Eb2, Eb3.
    assert (Ln : length (firstn n bytes) = length second).
    { rewrite firstn_length. unfold n, second. rewrite firstn_length. lia. }
    assert (Hsec : Forall (fun er : gexp * rc => snd er = r1) second0).
    { apply Forall_forall. intros er Her. apply filter_In in Her. destruct Her as [_ Her]. now apply rc_eqb_eq in Her. }
    assert (Hlow1 : low r1) by (change (2 ^ 25) with 33554432 in *; split; auto; change (2 ^ 25) with 33554432; lia).
    (* the requested ranges, regrouped *)
    assert (G : forall s, Forall (in_range s) l <->
      Forall (fun e => byte (eval s e)) (firstn n bytes) /\ Forall (in_range s) second /\ Forall (fun e => byte (eval s e)) (skipn n bytes) /\ Forall (in_range s) others).
    { intros s. rewrite (Forall_filter_split (fun er => is_byte_rc (snd er)) (in_range s) l). fold rest.
      rewrite (Forall_filter_split (fun er => rc_eqb (snd er) r1) (in_range s) rest). fold second0 others0.
      rewrite (Forall_firstn_skipn (length bytes) (in_range s) second0). fold second. unfold others. rewrite Forall_app.
      assert (Gb : Forall (in_range s) (filter (fun er => is_byte_rc (snd er)) l) <-> Forall (fun e => byte (eval s e)) bytes).
      { unfold bytes. rewrite Forall_unique, Forall_map, !Forall_forall. split; intros H er Her; specialize (H er Her); apply filter_In in Her;
          destruct Her as [_ Her]; apply is_byte_ok in Her; unfold in_range in *; rewrite Her in *; fold (byte_constraint : rc) in *; [now apply allows_byte in H|now apply allows_byte]. }
      rewrite Gb, (Forall_firstn_skipn n _ bytes). tauto. }
    assert (G1 : forall s, Forall (fun b => legal m (bmap (eval s) b)) b1 <-> Forall (fun e => byte (eval s e)) (firstn n bytes) /\ Forall (in_range s) second).
    { intros s. rewrite <- (Forall_combine (fun e => byte (eval s e)) (in_range s)) by exact Ln. eapply Forall2_iff; [exact Eb1|].
      intros [e [e2 r]] b Hin Hb. cbn beta in Hb. cbn [fst snd] in Hb. destruct (mk_check_ok _ _ _ _ Hm Hb) as (_ & _ & Lg & _). rewrite Lg. cbn [map accepts fst snd].
      assert (Er : r = r1).
      { apply in_combine_r in Hin. unfold second in Hin. rewrite Forall_forall in Hsec. apply (Hsec (e2, r)).
        rewrite <- (firstn_skipn (length bytes) second0). apply in_or_app. now left. }
      subst r. unfold in_range. cbn [fst snd]. rewrite R1.
      assert (Hs0 : forall x : F p, val x < s0 <-> byte x) by (intros x; rewrite <- R0, Er0; apply allows_byte).
      split.
      - intros (x & y & E & Hx & Hy). injection E as <- <-. rewrite Hs0 in Hx. auto.
      - intros [Hx Hy]. exists (eval s e), (eval s e2). rewrite Hs0. auto. }
    assert (G2 : forall s, Forall (fun b => legal m (bmap (eval s) b)) b2 <-> Forall (fun e => byte (eval s e)) (skipn n bytes)).
    { intros s. rewrite <- byte_pairs_ok. eapply Forall2_iff; [exact Eb2|]. intros pl b _ Hb. now apply mk_check_ok in Hb. }
    assert (G3 : forall s, Forall (fun b => legal m (bmap (eval s) b)) b3 <-> Forall (fun pl => accepts BVarRange 1%F (map (eval s) pl)) pls).
    { intros s. eapply Forall2_iff; [exact Eb3|]. intros pl b _ Hb. now apply mk_check_ok in Hb. }
    split.
    - intros s. rewrite !Forall_app, G, G1, G2, G3. destruct (num_bits_list_ok s _ _ Eo) as [K1 K2]. split.
      + intros [H1 [H2 H3]]. tauto.
      + intros Hl (H1 & H2 & H3 & H4). repeat split; auto. apply K2; auto. unfold others. apply Forall_app. split.
        * apply Forall_forall. intros er Her. apply filter_In in Her. destruct Her as [Her _]. apply filter_In in Her. destruct Her as [Her _]. rewrite Forall_forall in Hl. auto.
        * apply Forall_forall. intros er Her. rewrite Forall_forall in Hsec. rewrite (Hsec er); auto. rewrite <- (firstn_skipn (length bytes) second0). apply in_or_app. now right.
    - assert (Q : forall t (A : Type) (f : A -> list gexp) l bs, (match t with BExec | BMemory => False | _ => True end) -> Forall2 (fun x b => mk_check m t (f x) = Some b) l bs ->
        Forall (fun b => mult b = from_number 1%F /\ forall s, keeps_state m (bmap (eval s) b) = false) bs).
      { intros t A f l' bs Ht F2. induction F2; constructor; auto. apply mk_check_ok in H; auto. destruct H as (H & _ & _ & H'). destruct t; tauto. }
      rewrite !Forall_app. repeat split.
      + eapply (Q (BTuple s0 s1) _ (fun bs => [fst bs; fst (snd bs)])); eauto.
      + eapply (Q BBitwise _ (fun bs => bs)); eauto.
      + eapply (Q BVarRange _ (fun bs => bs)); eauto.
  Qed.
  (** Errors are justified: the range of some request is not of the form [0, 2^k - 1] with k < 30. *)
  Lemma batch_error m (l : list (gexp * rc)) : batch_make m l = MakeError -> Exists (fun er => forall k, k < 30 -> snd er <> from_mask (N.shiftl 1 k - 1)) l.
  Proof.
    unfold batch_make, filter_byte_constraints. destruct (tuple_sizes m) as [[s0 s1]|]; [|discriminate]. destruct (tuple_ranges s0 s1) as [[r0 r1]|]; [|discriminate].
    destruct (negb (rc_eqb r0 _)); [discriminate|]. set (bytes := exprs_unique _ _). set (rest := filter (fun er => negb (is_byte_rc (snd er))) l).
    set (others := filter (fun er => negb (rc_eqb (snd er) r1)) rest ++ _).
    destruct (all_some _); [|discriminate]. destruct (all_some _); [|discriminate]. destruct (num_bits_list others) as [pls|] eqn:E; [destruct (all_some _); discriminate|]. intros _.
    assert (Sub : forall er, In er others -> In er l).
    { intros er H. unfold others in H. apply in_app_or in H. destruct H as [H|H].
      - apply filter_In in H. destruct H as [H _]. apply filter_In in H. tauto.
      - assert (H' : In er (filter (fun er => rc_eqb (snd er) r1) rest)) by (rewrite <- (firstn_skipn (length bytes)); apply in_or_app; now right).
        apply filter_In in H'. destruct H' as [H' _]. apply filter_In in H'. tauto. }
    clearbody others. apply Exists_exists. revert E Sub. unfold num_bits_list. induction others as [|[e r] o IH]; cbn [map all_some fst snd]; [discriminate|].
    destruct (rc_to_num_bits r) as [k|] eqn:Ek.
    - destruct (all_some _) as [xs|] eqn:E'; [discriminate|]. intros _ Sub. apply IH; auto. intros er Her. apply Sub. now right.
    - intros _ Sub. exists (e, r). split; [apply Sub; now left|]. intros k Hk. cbn [snd]. intros ->.
      assert (X := find_none _ _ Ek k). cbn beta in X. rewrite (proj2 (rc_eqb_eq _ _) eq_refl) in X. apply diff_true_false, X.
      apply in_map_iff. exists (N.to_nat k). split; [lia|]. apply in_seq. lia.
  Qed.

  (** ** C22 *)
  Lemma rc_merge_ok s (e : gexp) (r : rc) l : low r -> Forall (fun er => low (snd er)) l ->
    Forall (fun er => low (snd er)) (rc_merge e r l) /\ (Forall (in_range s) (rc_merge e r l) <-> in_range s (e, r) /\ Forall (in_range s) l).
  Proof.
    intros Hr Hl. induction Hl as [|[e' r'] l H1 H2 IH]; cbn [rc_merge].
    - destruct (conj_low unconstrained r eq_refl (proj1 Hr)) as (_ & _ & C). split.
      + constructor; [|constructor]. now apply conj_low_low.
      + rewrite !Forall_cons_iff. unfold in_range at 1 2. cbn [fst snd]. rewrite C. pose proof (proj2 (rc_allows_iff unconstrained (eval s e)) (unconstrained_allows _)).
        assert (Forall (in_range s) []) by constructor. tauto.
    - cbn [snd] in H1. destruct (gexp_eqb e e') eqn:E.
      + apply gexp_eqb_eq in E. subst e'. destruct (conj_low r' r (proj1 H1) (proj1 Hr)) as (_ & _ & C). split.
        * constructor; auto. cbn [snd]. apply conj_low_low; auto. apply H1.
        * rewrite !Forall_cons_iff. unfold in_range at 1 3 4. cbn [fst snd]. rewrite C. tauto.
      + destruct IH as [A B]. split; [constructor; auto|]. rewrite !Forall_cons_iff, B. tauto.
  Qed.
  Lemma rc_merge_in (e : gexp) (r : rc) l x : In x (map fst (rc_merge e r l)) -> x = e \/ In x (map fst l).
  Proof.
    induction l as [|[e' r'] l IH]; cbn [rc_merge map fst In]; [intros [->|[]]; auto|].
    destruct (gexp_eqb e e'); cbn [map fst In]; [tauto|]. intros [H|H]; [auto|]. destruct (IH H); auto.
  Qed.
  Lemma fold_merge_ok s (rs l : list (gexp * rc)) : Forall (fun er => low (snd er)) rs -> Forall (fun er => low (snd er)) l ->
    let l' := fold_left (fun acc er => rc_merge (fst er) (snd er) acc) rs l in
    Forall (fun er => low (snd er)) l' /\ (Forall (in_range s) l' <-> Forall (in_range s) rs /\ Forall (in_range s) l) /\
    forall x, In x (map fst l') -> In x (map fst rs) \/ In x (map fst l).
  Proof.
    intros Hrs. revert l. induction Hrs as [|[e r] rs H1 H2 IH]; intros l Hl; cbn [fold_left fst snd map In].
    - split; auto. split; [|auto]. split; [intros H; split; [constructor|auto]|tauto].
    - cbn [snd] in H1. destruct (rc_merge_ok s e r l H1 Hl) as [A B]. destruct (IH _ A) as (C & D & E). split; auto. split.
      + rewrite D, B, Forall_cons_iff. tauto.
      + intros x Hx. apply E in Hx. destruct Hx as [Hx|Hx]; [auto|]. apply rc_merge_in in Hx. destruct Hx as [->|Hx]; auto.
  Qed.
  Lemma collect_pure_ok m (bs : list (busi gexp)) : map_ok p m -> Forall (bits_in_table m) bs -> forall l kept l', Forall (fun er => low (snd er)) l ->
    collect_pure m bs l = Some (kept, l') ->
    Forall (fun er => low (snd er)) l' /\
    (forall s, Forall (legal m) (map (bmap (eval s)) bs) /\ Forall (in_range s) l <-> Forall (legal m) (map (bmap (eval s)) kept) /\ Forall (in_range s) l') /\
    (forall s, filter (keeps_state m) (map (bmap (eval s)) kept) = filter (keeps_state m) (map (bmap (eval s)) bs)) /\
    (forall x, In x (map fst l') -> In x (map fst l) \/ In x (flat_map (fun b => payload b) bs)) /\ (forall b, In b kept -> In b bs).
  Proof.
    intros Hm Hb. induction Hb as [|b bs Hbb Hbs IH]; intros l kept l' Hl; cbn [collect_pure].
    - intros [= <- <-]. split; auto. split; [tauto|]. split; auto.
    - assert (K : match collect_pure m bs l with Some (k, l') => Some (b :: k, l') | None => None end = Some (kept, l') ->
        Forall (fun er => low (snd er)) l' /\
        (forall s, Forall (legal m) (map (bmap (eval s)) (b :: bs)) /\ Forall (in_range s) l <-> Forall (legal m) (map (bmap (eval s)) kept) /\ Forall (in_range s) l') /\
        (forall s, filter (keeps_state m) (map (bmap (eval s)) kept) = filter (keeps_state m) (map (bmap (eval s)) (b :: bs))) /\
        (forall x, In x (map fst l') -> In x (map fst l) \/ In x (flat_map (fun b => payload b) (b :: bs))) /\ (forall b', In b' kept -> In b' (b :: bs))).
      { destruct (collect_pure m bs l) as [[k l1]|] eqn:E; [|discriminate]. intros [= <- <-]. destruct (IH _ _ _ Hl E) as (A & B & C & D & F).
        split; auto. split; [|split; [|split]].
        - intros s. cbn [map]. rewrite !Forall_cons_iff. specialize (B s). tauto.
        - intros s. cbn [map filter]. rewrite (C s). reflexivity.
        - intros x Hx. destruct (D x Hx); auto. right. cbn [flat_map]. apply in_or_app. auto.
        - intros b' [->|H]; [now left|right; auto]. }
      destruct (negb (gexp_eqb (mult b) (from_number 1%F))) eqn:Em; [exact K|]. apply negb_false_iff, gexp_eqb_eq in Em.
      destruct (ovm_pure m b) as [[rs|]|] eqn:Ep; [|exact K|discriminate]. clear K. intros E.
      destruct (ovm_pure_ok m b rs Hm Em Hbb Ep) as (P1 & P2 & P3).
      assert (Lrs : Forall (fun er => low (snd er)) rs) by (eapply Forall_impl; [|exact P2]; cbn; tauto).
      pose proof (fun s => fold_merge_ok s rs l Lrs Hl) as Q. cbn zeta in Q. set (l1 := fold_left _ rs l) in *.
      assert (Hl1 : Forall (fun er => low (snd er)) l1) by apply (Q (fun _ => 0%F)).
      destruct (IH _ _ _ Hl1 E) as (A & B & C & D & F). split; auto. split; [|split; [|split]].
      + intros s. rewrite <- B. cbn [map]. rewrite Forall_cons_iff, P1. destruct (Q s) as (_ & Q2 & _). rewrite Q2. tauto.
      + intros s. rewrite C. cbn [map filter]. now rewrite P3.
      + intros x Hx. apply D in Hx. cbn [flat_map]. destruct Hx as [Hx|Hx]; [|right; apply in_or_app; auto].
        destruct (Q (fun _ => 0%F)) as (_ & _ & Q3). apply Q3 in Hx. destruct Hx as [Hx|Hx]; auto. right. apply in_or_app. left.
        apply in_map_iff in Hx. destruct Hx as (er & <- & Her). rewrite Forall_forall in P2. now apply P2.
      + intros b' Hb'. right. auto.
  Qed.
  Lemma not_implied_sound s (cur : rc) (er : gexp * rc) : low (snd er) -> rc_allows cur (eval s (fst er)) -> not_implied cur er = false -> in_range s er.
  Proof.
    intros Hl Hc. unfold not_implied. intros H. apply negb_false_iff, rc_eqb_eq in H. rewrite H in Hc.
    destruct (low_double _ Hl). now apply conj_sub_r in Hc.
  Qed.
  Lemma filter_implied s curs (l : list (gexp * rc)) : Forall (fun er => low (snd er)) l -> Forall2 (fun er cur => rc_allows cur (eval s (fst er))) l curs ->
    (Forall (in_range s) (map snd (filter (fun x => not_implied (fst x) (snd x)) (combine curs l))) <-> Forall (in_range s) l).
  Proof.
    intros Hl F2. induction F2 as [|er cur l curs H1 H2 IH]; cbn [combine filter map]; [tauto|]. inversion Hl; subst. cbn [fst snd].
    destruct (not_implied cur er) eqn:E; cbn [map snd]; rewrite !Forall_cons_iff, IH by auto; [tauto|].
    pose proof (not_implied_sound s cur er). tauto.
  Qed.
  Lemma as_bit_ok (Hp : prime (Z.pos p)) s bound (er : gexp * rc) : as_bit bound er = true -> (in_range s er <-> solves s (assert_bool (fst er))).
  Proof.
    unfold as_bit. intros H. apply andb_true_iff in H. destruct H as [H _]. apply rc_eqb_eq in H. unfold in_range, solves. rewrite H, (allows_one Hbig), assert_bool_iff by auto.
    rewrite val_zero_eq, (val_one_eq Hbig). reflexivity.
  Qed.
End OvmBatch.
