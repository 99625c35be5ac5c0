(** Replacements of constraints by the rules: the new constraints follow from the old ones, and the old ones from the new ones
    after a suitable choice of the variables that disappear. *)
From Coq Require Import Arith NArith ZArith Znumtheory Bool List Lia Ring Sorted Permutation.
From Coq Require Import ZifyBool ZifyN ZifyNat.
From Verif Require Import Field RangeModel RangeFacts ExprModel ExprFacts ExprWf ExprMore SolveModel SystemModel Spec Bridge RuleModel RuleSpec RuleFacts.
Import ListNotations.
Local Open Scope F_scope.

Section Ranges.
  Context {p : positive} (Hp : prime (Z.pos p)).
  Local Notation rc := (rc p).
  Local Notation P := (N.pos p).
  Add Ring Fring : (F_ring_theory (p:=p)).
  Lemma allows_max (r : rc) x : rc_allows r x -> rmin r = 0 -> (val x <= val (rmax r))%N.
  Proof. intros [B _] Z. unfold between in B. rewrite Z, val_zero in B. lia. Qed.
  Lemma allows_zero (r : rc) : rmin r = 0 -> rc_allows r 0.
  Proof. intros Z. split; [unfold between; rewrite Z, val_zero; lia|]. intros i. rewrite val_zero, N.bits_0. discriminate. Qed.
  Lemma allows_mask (r : rc) x : rc_allows r x -> (val x <= mask r)%N.
  Proof.
    intros [_ B]. destruct (N.le_gt_cases (val x) (mask r)) as [|G]; auto. exfalso.
    assert (L : N.land (val x) (mask r) = val x). { apply only_bits_iff, N.eqb_eq in B. exact B. }
    assert (N.ldiff (val x) (mask r) = 0%N). { apply N.bits_inj. intros i. rewrite N.ldiff_spec, N.bits_0. destruct (N.testbit (val x) i) eqn:T; auto. now rewrite (B i T). }
    apply N.ldiff_le in H. lia.
  Qed.
  (** A sum of two values starting at zero that is not unconstrained does not wrap around. *)
  Lemma sum_no_wrap (a b : rc) x y : rmin a = 0 -> rmin b = 0 -> is_unconstrained (combine_sum a b) = false ->
    rc_allows a x -> rc_allows b y -> x + y = 0 -> x = 0 /\ y = 0.
  Proof.
    intros Za Zb U A B S. assert (P2 : (2 <= P)%N) by (destruct Hp; lia).
    destruct (N.le_gt_cases (range_width a + range_width b) P) as [W|W].
    - pose proof (allows_max _ _ A Za). pose proof (allows_max _ _ B Zb).
      apply (no_wrap x y (val (rmax a)) (val (rmax b))); auto.
      pose proof (range_width_of_eq (rmin a) (rmax a)) as Wa. pose proof (range_width_of_eq (rmin b) (rmax b)) as Wb.
      fold (range_width a) in Wa. fold (range_width b) in Wb. rewrite Za in Wa. rewrite Zb in Wb.
      replace (rmax a - 0) with (rmax a) in Wa by ring. replace (rmax b - 0) with (rmax b) in Wb by ring. lia.
    - assert (M : (mask a + mask b < P)%N).
      { destruct (N.le_gt_cases P (mask a + mask b)) as [M|]; auto. exfalso. apply not_true_iff_false in U. apply U. apply b_unconstrained.
        intros z. unfold combine_sum. replace (P <=? mask a + mask b)%N with true by (symmetry; now apply N.leb_le).
        assert (RU : range_width (unconstrained (p:=p)) = P).
        { unfold range_width, range_width_of. cbn [rmin rmax unconstrained]. replace (feqb (fminus1 + 1) 0) with true; auto. symmetry. apply feqb_eq. unfold fminus1. ring. }
        rewrite RU. replace (range_width a + range_width b <=? P)%N with false by (symmetry; apply N.leb_gt; lia).
        apply rc_allows_iff. pose proof (unconstrained_allows z) as Uz. apply rc_allows_iff in Uz. destruct Uz as [U1 U2]. apply rc_allows_iff. split; cbn [rmin rmax mask]; auto.
        destruct (fleb (rmin unconstrained) (rmax unconstrained)); auto. intros i Hi. rewrite N.land_spec. apply andb_true_iff. split; [now apply U2|].
        assert (R : rc_allows (from_range (rmin unconstrained) (rmax (unconstrained (p:=p)))) z) by (apply b_constructors; exact U1).
        destruct R as [_ R]. now apply R. }
      apply (no_wrap x y (mask a) (mask b)); auto using allows_mask.
  Qed.
  (** The same for multiples, if the range of the sum starts at zero. *)
  Lemma multiples_no_wrap (a b : rc) k1 k2 x y : rmin a = 0 -> rmin b = 0 ->
    rmin (combine_sum (RangeModel.multiple a k1) (RangeModel.multiple b k2)) = 0 ->
    fltb (rmax (combine_sum (RangeModel.multiple a k1) (RangeModel.multiple b k2))) fminus1 = true ->
    rc_allows a x -> rc_allows b y -> k1 * x + k2 * y = 0 -> k1 * x = 0 /\ k2 * y = 0.
  Proof.
    intros Za Zb. set (m1 := RangeModel.multiple a k1). set (m2 := RangeModel.multiple b k2). intros Mn Mx A B S.
    assert (P2 : (2 <= P)%N) by (destruct Hp; lia).
    assert (RU : range_width (unconstrained (p:=p)) = P).
    { unfold range_width, range_width_of. cbn [rmin rmax unconstrained]. replace (feqb (fminus1 + 1) 0) with true; auto. symmetry. apply feqb_eq. unfold fminus1. ring. }
    unfold combine_sum in Mn, Mx. rewrite RU in Mn, Mx.
    destruct (N.leb_spec (range_width m1 + range_width m2) P) as [W|W]; cbn [rmin rmax unconstrained] in Mn, Mx.
    2:{ unfold fltb in Mx. lia. }
    assert (I1 : forall z, rc_allows a z -> (val (k1 * z - rmin m1) < range_width m1)%N).
    { intros z Z. apply (b_multiple a k1) in Z. destruct Z as [Z _]. apply between_iff in Z. fold m1 in Z. rewrite in_interval_offset in Z. pose proof (range_width_of_eq (rmin m1) (rmax m1)). fold (range_width m1) in H. lia. }
    assert (I2 : forall z, rc_allows b z -> (val (k2 * z - rmin m2) < range_width m2)%N).
    { intros z Z. apply (b_multiple b k2) in Z. destruct Z as [Z _]. apply between_iff in Z. fold m2 in Z. rewrite in_interval_offset in Z. pose proof (range_width_of_eq (rmin m2) (rmax m2)). fold (range_width m2) in H. lia. }
    assert (G : forall u w, rc_allows a u -> rc_allows b w -> k1 * u + k2 * w = 0 -> k1 * u = rmin m1 /\ k2 * w = rmin m2).
    { intros u w U V Z. apply I1 in U. apply I2 in V.
      destruct (no_wrap (k1 * u - rmin m1) (k2 * w - rmin m2) (range_width m1 - 1) (range_width m2 - 1)) as [Q1 Q2]; try lia.
      - replace (k1 * u - rmin m1 + (k2 * w - rmin m2)) with (k1 * u + k2 * w - (rmin m1 + rmin m2)) by ring. rewrite Z, Mn. ring.
      - split; now apply sub_eq_zero. }
    destruct (G _ _ A B S) as [-> ->]. destruct (G 0 0) as [<- <-]; auto using allows_zero; [ring|]. split; ring.
  Qed.
End Ranges.

Section Occurrences.
  Context {p : positive}.
  Local Notation gexp := (gexp p).
  Definition pair_vars (ab : gexp * gexp) : list var := vars (fst ab) ++ vars (snd ab).
  Lemma count_var_app v l1 l2 : count_var v (l1 ++ l2) = (count_var v l1 + count_var v l2)%nat.
  Proof. unfold count_var. now rewrite filter_app, app_length. Qed.
  Lemma count_var_in v l : In v l <-> (1 <= count_var v l)%nat.
  Proof.
    unfold count_var. induction l as [|w l IH]; cbn [In filter length]; [lia|]. destruct (veqb_spec v w) as [->|N]; cbn [length]; [split; [lia|auto]|].
    rewrite <- IH. split; [intros [->|]; tauto|auto].
  Qed.
  Lemma count_var_out v l : count_var v l = 0%nat <-> ~ In v l.
  Proof. rewrite count_var_in. lia. Qed.
  Lemma qvars_app (q1 q2 : list (gexp * gexp)) : qvars (q1 ++ q2) = qvars q1 ++ qvars q2.
  Proof. unfold qvars. apply flat_map_app. Qed.
  Lemma qvars_cons (ab : gexp * gexp) q : qvars (ab :: q) = pair_vars ab ++ qvars q.
  Proof. reflexivity. Qed.
End Occurrences.
#[global] Arguments pair_vars : simpl never.

Section Replace.
  Context {p : positive} (Hp : prime (Z.pos p)).
  Local Notation gexp := (gexp p).
  Local Notation rc := (rc p).
  Local Notation P := (N.pos p).
  Add Ring Fring2 : (F_ring_theory (p:=p)).

  Variable E : renv p.
  Hypothesis Hwa : Forall wf (r_algs E).
  Hypothesis Hwi : forall e r, In (e, r) (r_init E) -> wf e.
  Hypothesis Hsingle : forall v e, In v (r_single E) -> In e (r_algs E) -> (count_var v (vars e) <= 1)%nat.

  Definition touches (v1 v2 : var) (ab : gexp * gexp) : bool := existsb (fun v => veqb v v1 || veqb v v2) (vars (fst ab) ++ vars (snd ab)).
  Lemma touches_spec v1 v2 ab : touches v1 v2 ab = false <-> ~ In v1 (pair_vars ab) /\ ~ In v2 (pair_vars ab).
  Proof.
    unfold touches. rewrite <- not_true_iff_false, existsb_exists. fold (pair_vars ab). split.
    - intros H. split; intros I; apply H; [exists v1|exists v2]; rewrite veqb_refl, ?orb_true_r; auto.
    - intros [N1 N2] (x & I & H). apply orb_true_iff in H. destruct H as [H|H]; apply veqb_eq in H; subst; auto.
  Qed.
  Lemma filter_untouched v1 v2 (q : list (gexp * gexp)) : ~ In v1 (qvars q) -> ~ In v2 (qvars q) -> filter (fun ab => negb (touches v1 v2 ab)) q = q.
  Proof.
    induction q as [|ab q IH]; cbn [filter]; auto. rewrite qvars_cons, !in_app_iff. intros N1 N2.
    replace (touches v1 v2 ab) with false by (symmetry; apply touches_spec; tauto). cbn [negb]. rewrite IH; tauto.
  Qed.
  (** An expression in which two variables occur once, each in its own product. *)
  Lemma two_products s (e : gexp) v1 v2 ab1 ab2 : (count_var v1 (vars e) <= 1)%nat -> (count_var v2 (vars e) <= 1)%nat ->
    In ab1 (quad e) -> In ab2 (quad e) -> ab1 <> ab2 -> In v1 (pair_vars ab1) -> In v2 (pair_vars ab2) ->
    eval s e = eval s (without v1 v2 e) + eval s (fst ab1) * eval s (snd ab1) + eval s (fst ab2) * eval s (snd ab2) /\
    ~ In v1 (vars (without v1 v2 e)) /\ ~ In v2 (vars (without v1 v2 e)) /\ incl (vars (without v1 v2 e)) (vars e) /\
    count_var v1 (pair_vars ab1) = 1%nat /\ count_var v2 (pair_vars ab2) = 1%nat /\ ~ In v2 (pair_vars ab1) /\ ~ In v1 (pair_vars ab2).
  Proof.
    destruct e as [q l c]. cbn [quad]. rewrite vars_GE. intros C1 C2 I1 I2 N V1 V2. rewrite count_var_app in C1, C2.
    (* the two products are apart *)
    assert (D : exists a b c', (q = a ++ ab1 :: b ++ ab2 :: c' \/ q = a ++ ab2 :: b ++ ab1 :: c')).
    { apply in_split in I1. destruct I1 as (a & b & ->). rewrite in_app_iff in I2. cbn [In] in I2. destruct I2 as [I2|[I2|I2]]; [|congruence|].
      - apply in_split in I2. destruct I2 as (a1 & a2 & ->). exists a1, a2, b. right. now rewrite <- app_assoc.
      - apply in_split in I2. destruct I2 as (a1 & a2 & ->). exists a, a1, a2. now left. }
    apply count_var_in in V1, V2.
    assert (O : forall a b c', q = a ++ ab1 :: b ++ ab2 :: c' \/ q = a ++ ab2 :: b ++ ab1 :: c' ->
      ~ In v1 (qvars (a ++ b ++ c')) /\ ~ In v2 (qvars (a ++ b ++ c')) /\ ~ In v1 (map fst l) /\ ~ In v2 (map fst l) /\ count_var v1 (pair_vars ab1) = 1%nat /\ count_var v2 (pair_vars ab2) = 1%nat /\
      ~ In v2 (pair_vars ab1) /\ ~ In v1 (pair_vars ab2)).
    { intros a b c' H. rewrite <- !count_var_out, !qvars_app, !count_var_app.
      destruct H as [-> | ->]; rewrite qvars_app, qvars_cons, qvars_app, qvars_cons, !count_var_app in C1, C2; lia. }
    destruct D as (a & b & c' & D). destruct (O _ _ _ D) as (O1 & O2 & O3 & O4 & O5 & O6 & O7 & O8). clear O.
    assert (Fq : filter (fun ab => negb (touches v1 v2 ab)) q = a ++ b ++ c').
    { assert (T1 : touches v1 v2 ab1 = true). { apply not_false_iff_true. rewrite touches_spec, !count_var_in. lia. }
      assert (T2 : touches v1 v2 ab2 = true). { apply not_false_iff_true. rewrite touches_spec, !count_var_in. lia. }
      rewrite <- (filter_untouched _ _ _ O1 O2), !filter_app.
      destruct D as [-> | ->]; rewrite !filter_app; cbn [filter]; rewrite ?filter_app; cbn [filter]; rewrite T1, T2; cbn [negb]; now rewrite ?filter_app. }
    assert (EW : forall s, eval s (without v1 v2 (GE q l c)) = eq_sum s (a ++ b ++ c') + el_sum s l + c).
    { intros s0. unfold without. cbn [quad lin cst]. unfold touches in Fq. rewrite Fq. rewrite eval_gsum.
      pose proof (summands_eval s0 (GE (a ++ b ++ c') l c)) as Su. unfold summands in Su. cbn [quad lin cst] in Su. now rewrite <- Su. }
    assert (VW : forall v, In v (vars (without v1 v2 (GE q l c))) -> In v (qvars (a ++ b ++ c')) \/ In v (map fst l)).
    { intros v H. unfold without in H. cbn [quad lin cst] in H. unfold touches in Fq. rewrite Fq in H. apply vars_gsum in H. destruct H as (x & X & Vx).
      rewrite !in_app_iff in X. destruct X as [X|[X|X]].
      - rewrite !in_map_iff in X. destruct X as (ab & <- & X). left. rewrite vars_GE in Vx. cbn [map] in Vx. rewrite app_nil_r in Vx. apply qvars_in in Vx. apply qvars_in.
        destruct Vx as (ab' & [<-|[]] & Vx). eauto.
      - apply in_map_iff in X. destruct X as (vc & <- & X). right. rewrite vars_GE in Vx. cbn in Vx. destruct Vx as [<-|[]]. apply in_map_iff. eauto.
      - destruct (is_zero c); [destruct X|]. destruct X as [<-|[]]. destruct Vx. }
    split; [|split; [|split; [|split; [|repeat split; auto]]]].
    - rewrite EW, eval_GE. rewrite !eq_sum_app. destruct D as [-> | ->]; rewrite eq_sum_app, eq_sum_cons, eq_sum_app, eq_sum_cons; ring.
    - intros H. apply VW in H. tauto.
    - intros H. apply VW in H. tauto.
    - intros v H. apply VW in H. apply in_app_iff. destruct H as [H|H]; auto. left. apply qvars_in in H. apply qvars_in. destruct H as (ab & Ia & Ib). exists ab. split; auto.
      rewrite <- Fq in Ia. apply filter_In in Ia. tauto.
  Qed.

  (** The parts of a candidate for the combination of free variables. *)
  Lemma free_candidate_parts e k1 v1 x1 k2 v2 x2 : free_candidate E e k1 v1 x1 k2 v2 x2 ->
    In e (r_algs E) /\ In v1 (r_single E) /\ In v2 (r_single E) /\ In v1 (vars e) /\ In v2 (vars e) /\ v1 <> v2 /\ k1 <> 0 /\ k2 <> 0 /\
    (forall s, eval s e = eval s (without v1 v2 e) + k1 * s v1 * eval s x1 + k2 * s v2 * eval s x2) /\
    ~ In v1 (vars (without v1 v2 e)) /\ ~ In v2 (vars (without v1 v2 e)) /\ incl (vars (without v1 v2 e)) (vars e) /\
    ~ In v1 (vars x1) /\ ~ In v2 (vars x1) /\ ~ In v1 (vars x2) /\ ~ In v2 (vars x2) /\ incl (vars x1) (vars e) /\ incl (vars x2) (vars e).
  Proof.
    intros (((S1 & (_ & V1) & _) & (S2 & (_ & V2) & _) & _ & N & _) & A & e1 & e2 & (y1 & Y1 & R1) & L1 & (y2 & Y2 & R2) & N1 & N2 & L2).
    pose proof L1 as L1'. pose proof L2 as L2'. apply (linear_eq Hp E Hwa Hwi) in L1, L2. destruct L1 as [L1 K1], L2 as [L2 K2].
    assert (Q : forall y x e0, has_summand E e y -> product E y x e0 -> exists ab, In ab (quad e) /\ (ab = (x, e0) \/ ab = (e0, x))).
    { intros y x e0 Y R. apply product_eq in R. destruct (has_summand_in Hp E Hwa Hwi _ _ Y) as [(ab & I & ->)|(vk & _ & ->)]; [|destruct R; discriminate].
      exists ab. split; auto. destruct R as [[= ->]|[= ->]]; auto. }
    destruct (Q _ _ _ Y1 R1) as (ab1 & I1 & D1). destruct (Q _ _ _ Y2 R2) as (ab2 & I2 & D2).
    assert (Nab : ab1 <> ab2). { intros ->. destruct D1 as [-> | ->], D2 as [D|D]; injection D; intros; subst; try congruence. }
    assert (E1 : vars e1 = [v1]) by now subst. assert (E2 : vars e2 = [v2]) by now subst.
    assert (T1 : In v1 (pair_vars ab1)). { unfold pair_vars. rewrite in_app_iff. destruct D1 as [-> | ->]; cbn [fst snd]; rewrite E1; cbn; auto. }
    assert (T2 : In v2 (pair_vars ab2)). { unfold pair_vars. rewrite in_app_iff. destruct D2 as [-> | ->]; cbn [fst snd]; rewrite E2; cbn; auto. }
    pose proof (fun s => two_products s e v1 v2 ab1 ab2 (Hsingle _ _ S1 A) (Hsingle _ _ S2 A) I1 I2 Nab T1 T2) as G.
    destruct (G (fun _ => 0)) as (_ & W1 & W2 & W3 & O1 & O2 & O3 & O4).
    assert (PV1 : forall v, count_var v (pair_vars ab1) = (count_var v (vars x1) + count_var v [v1])%nat).
    { intros v. unfold pair_vars. destruct D1 as [-> | ->]; cbn [fst snd]; rewrite count_var_app, E1; lia. }
    assert (PV2 : forall v, count_var v (pair_vars ab2) = (count_var v (vars x2) + count_var v [v2])%nat).
    { intros v. unfold pair_vars. destruct D2 as [-> | ->]; cbn [fst snd]; rewrite count_var_app, E2; lia. }
    assert (Cs : forall v, count_var v [v] = 1%nat). { intros v. unfold count_var. cbn [filter]. now rewrite veqb_refl. }
    assert (Iq : forall ab v, In ab (quad e) -> In v (pair_vars ab) -> In v (vars e)).
    { intros ab v Ia Iv. destruct e as [q l c]. rewrite vars_GE. apply in_app_iff. left. apply qvars_in. exists ab. split; auto. now apply in_app_iff. }
    split; [exact A|]. repeat split; auto.
    - intros s. destruct (G s) as (-> & _). f_equal; [f_equal|].
      + pose proof (linear_eval Hp E Hwa Hwi s _ _ _ L1') as Ev. destruct D1 as [-> | ->]; cbn [fst snd]; rewrite Ev; ring.
      + pose proof (linear_eval Hp E Hwa Hwi s _ _ _ L2') as Ev. destruct D2 as [-> | ->]; cbn [fst snd]; rewrite Ev; ring.
    - apply count_var_out. pose proof (PV1 v1) as H. rewrite (Cs v1) in H. lia.
    - intros I. apply O3. apply count_var_in. rewrite PV1. apply count_var_in in I. lia.
    - intros I. apply O4. apply count_var_in. rewrite PV2. apply count_var_in in I. lia.
    - apply count_var_out. pose proof (PV2 v2) as H. rewrite (Cs v2) in H. lia.
    - intros v I. apply (Iq ab1); auto. apply count_var_in. rewrite PV1. apply count_var_in in I. lia.
    - intros v I. apply (Iq ab2); auto. apply count_var_in. rewrite PV2. apply count_var_in in I. lia.
  Qed.

  (** Expressions only contain variables of the system. *)
  Lemma expression_known e v : expression E e -> In v (vars e) -> known_var E v.
  Proof.
    assert (Pr : forall e l r : gexp, try_as_single_product e = Some (l, r) -> incl (vars l) (vars e) /\ incl (vars r) (vars e)).
    { intros [[|[a b] [|? ?]] [|? ?] c] x y H; cbn [try_as_single_product] in H; try discriminate. destruct (is_zero c); [|discriminate]. injection H as <- <-.
      rewrite vars_GE, qvars_cons. unfold pair_vars. cbn [fst snd]. split; intros w W; rewrite !in_app_iff; auto. }
    assert (Sp : forall e h t : gexp, try_split_head_tail e = Some (h, t) -> incl (vars h) (vars e) /\ incl (vars t) (vars e)).
    { intros [[|[a b] q] [|[w k] l] c] h t H; cbn [try_split_head_tail] in H; try discriminate; injection H as <- <-; rewrite ?vars_GE, ?qvars_cons; unfold pair_vars; cbn [fst snd map]; split.
      - intros x. cbn. tauto.
      - intros x. cbn. tauto.
      - intros x X. apply vars_gmul in X. rewrite !in_app_iff. tauto.
      - intros x X. rewrite !in_app_iff in *. tauto.
      - intros x X. apply vars_gmul in X. rewrite !in_app_iff. tauto.
      - intros x X. rewrite !in_app_iff in *. tauto. }
    intros H. revert v. induction H as [e H|e r H|e l r _ IH H|e l r _ IH H|e h t _ IH H|e h t _ IH H]; intros v V.
    - left. eauto.
    - right. eauto.
    - apply IH. apply (proj1 (Pr _ _ _ H)). exact V.
    - apply IH. apply (proj2 (Pr _ _ _ H)). exact V.
    - apply IH. apply (proj1 (Sp _ _ _ H)). exact V.
    - apply IH. apply (proj2 (Sp _ _ _ H)). exact V.
  Qed.

  (** ** Free variables *)
  Lemma square_eval (s : var -> F p) (x : gexp) r x' r' : square_if_needed x r = (x', r') ->
    (x' = x \/ x' = gmul x x) /\ (rc_allows r (eval s x) -> rc_allows r' (eval s x')) /\ (eval s x' = 0 -> eval s x = 0) /\ (wf x -> wf x') /\ incl (vars x') (vars x).
  Proof.
    unfold square_if_needed. destruct (feqb (rmin r) 0); intros [= <- <-].
    - split; [auto|split; [auto|split; [auto|split; [auto|apply incl_refl]]]].
    - split; [auto|split; [|split; [|split]]].
      + rewrite eval_gmul. apply b_square.
      + rewrite eval_gmul. intros H. destruct (mul_eq_zero _ _ Hp H); auto.
      + intros W. now apply wf_gmul.
      + intros v V. apply vars_gmul in V. tauto.
  Qed.
  (** 375-408. *)
  Lemma free_replacement_parts (e : gexp) k1 v1 x1 rc1 k2 v2 x2 rc2 a : free_replacement e k1 v1 x1 rc1 k2 v2 x2 rc2 = Some a ->
    exists y1 y2, (y1 = x1 \/ y1 = gmul x1 x1) /\ (y2 = x2 \/ y2 = gmul x2 x2) /\
    (forall s, rc_allows rc1 (eval s x1) -> rc_allows rc2 (eval s x2) -> k1 <> 0 -> k2 <> 0 -> k1 * eval s y1 + k2 * eval s y2 = 0 -> eval s x1 = 0 /\ eval s x2 = 0) /\
    (let factor := gadd (gscale y1 k1) (gscale y2 k2) in
     a = WithVar [e] (gneg (without v1 v2 e)) factor (fun v => [gadd (without v1 v2 e) (gmul (from_var v) factor)])).
  Proof.
    unfold free_replacement. destruct (square_if_needed x1 rc1) as [y1 r1] eqn:S1. destruct (square_if_needed x2 rc2) as [y2 r2] eqn:S2.
    destruct (feqb (rmin r1) 0) eqn:Z1; [|discriminate]. destruct (feqb (rmin r2) 0) eqn:Z2; [|discriminate]. cbn [negb orb].
    destruct (feqb (rmin (combine_sum (RangeModel.multiple r1 k1) (RangeModel.multiple r2 k2))) 0) eqn:Z3; [|discriminate].
    destruct (fltb (rmax (combine_sum (RangeModel.multiple r1 k1) (RangeModel.multiple r2 k2))) fminus1) eqn:Z4; [|discriminate]. cbn [andb negb].
    intros [= <-]. apply feqb_eq in Z1, Z2, Z3. exists y1, y2.
    pose proof (square_eval (fun _ => 0) _ _ _ _ S1) as (Q1 & _). pose proof (square_eval (fun _ => 0) _ _ _ _ S2) as (Q2 & _). repeat split; auto.
    - destruct (square_eval s _ _ _ _ S1) as (_ & A1 & B1 & _). destruct (square_eval s _ _ _ _ S2) as (_ & A2 & _).
      destruct (multiples_no_wrap Hp r1 r2 k1 k2 (eval s y1) (eval s y2)) as [M1 _]; auto. apply B1. destruct (mul_eq_zero _ _ Hp M1); congruence.
    - destruct (square_eval s _ _ _ _ S1) as (_ & A1 & _). destruct (square_eval s _ _ _ _ S2) as (_ & A2 & B2 & _).
      destruct (multiples_no_wrap Hp r1 r2 k1 k2 (eval s y1) (eval s y2)) as [_ M1]; auto. apply B2. destruct (mul_eq_zero _ _ Hp M1); congruence.
  Qed.
  Lemma free_forward s a : ranges_true E s -> Forall (solves s) (r_algs E) -> free_rule E a -> repl_true E s a.
  Proof.
    intros Hr Ha (e & k1 & v1 & x1 & rc1 & k2 & v2 & x2 & rc2 & C & R1 & R2 & H).
    destruct (free_candidate_parts _ _ _ _ _ _ _ C) as (A & S1 & S2 & V1 & V2 & N & K1 & K2 & Ev & W1 & W2 & W3 & X11 & X12 & X21 & X22 & I1 & I2).
    destruct (free_replacement_parts _ _ _ _ _ _ _ _ _ _ H) as (y1 & y2 & Y1 & Y2 & NW & ->). clear H. cbn [repl_true].
    intros v Kv. apply (range_on_true Hp E Hwa Hwi s Hr) in R1, R2. pose proof (NW s R1 R2 K1 K2) as Z. clear NW.
    assert (Vn : ~ In v (vars e)). { intros I. apply Kv. left. eauto. }
    assert (Vy : forall x y : gexp, y = x \/ y = gmul x x -> incl (vars x) (vars e) -> incl (vars y) (vars e)).
    { intros x y [-> | ->] I w Iw; auto. apply vars_gmul in Iw. apply I. tauto. }
    pose proof (Vy _ _ Y1 I1) as J1. pose proof (Vy _ _ Y2 I2) as J2.
    set (x := cm_value _ _). constructor; [|constructor]. unfold solves.
    assert (Vf : ~ In v (vars (gadd (gscale y1 k1) (gscale y2 k2)))). { intros I. apply vars_gadd in I. destruct I as [I|I]; apply vars_gscale in I; auto. }
    rewrite eval_gadd, eval_gmul, eval_from_var, upd_same, (eval_upd_notin s v x _ Vf), (eval_upd_notin s v x (without v1 v2 e)) by (intros I; apply Vn, W3, I).
    assert (T : eval s e = 0). { rewrite Forall_forall in Ha. now apply Ha. } rewrite Ev in T.
    subst x. cbn [cm_value]. rewrite eval_gneg, eval_gadd, !eval_gscale.
    assert (Fe : eval s y1 * k1 + eval s y2 * k2 = k1 * eval s y1 + k2 * eval s y2) by ring. rewrite Fe.
    destruct (is_zero (k1 * eval s y1 + k2 * eval s y2)) eqn:Zf.
    - apply is_zero_eq in Zf. destruct (Z Zf) as [Q1 Q2]. rewrite Zf. rewrite Q1, Q2 in T. transitivity (eval s (without v1 v2 e) + k1 * s v1 * 0 + k2 * s v2 * 0); [ring|exact T].
    - apply is_zero_neq in Zf. rewrite fdiv_mul; auto. ring.
  Qed.
  (** The old constraint holds again for suitable values of the two variables. *)
  Lemma free_back s a old num den new v : free_rule E a -> a = WithVar old num den new -> Forall (solves s) (new v) ->
    exists e v1 v2 a1 a2, old = [e] /\ In v1 (r_single E) /\ In v2 (r_single E) /\ In v1 (vars e) /\ In v2 (vars e) /\ solves (upd (upd s v1 a1) v2 a2) e.
  Proof.
    intros (e & k1 & v1 & x1 & rc1 & k2 & v2 & x2 & rc2 & C & R1 & R2 & H) -> Hn.
    destruct (free_candidate_parts _ _ _ _ _ _ _ C) as (A & S1 & S2 & V1 & V2 & N & K1 & K2 & Ev & W1 & W2 & W3 & X11 & X12 & X21 & X22 & I1 & I2).
    destruct (free_replacement_parts _ _ _ _ _ _ _ _ _ _ H) as (y1 & y2 & Y1 & Y2 & _ & Hw). clear H. cbv zeta in Hw. injection Hw as -> -> -> ->.
    inversion_clear Hn as [|? ? S _]. unfold solves in S. rewrite eval_gadd, eval_gmul, eval_from_var, eval_gadd, !eval_gscale in S.
    assert (Q : forall x y : gexp, y = x \/ y = gmul x x -> exists b, s v * eval s y = b * eval s x).
    { intros x y [-> | ->]; [eauto|]. exists (s v * eval s x). rewrite eval_gmul. ring. }
    destruct (Q _ _ Y1) as (a1 & B1). destruct (Q _ _ Y2) as (a2 & B2). exists e, v1, v2, a1, a2. repeat split; auto.
    unfold solves. rewrite Ev. rewrite upd_same, (upd_other _ v2 a2 v1), upd_same by congruence.
    rewrite !eval_upd_notin; auto. transitivity (eval s (without v1 v2 e) + k1 * (a1 * eval s x1) + k2 * (a2 * eval s x2)); [ring|].
    rewrite <- B1, <- B2, <- S. ring.
  Qed.

  (** ** Constraints with non-negative factors *)
  Lemma combine_forward s a : Forall (solves s) (r_algs E) -> combine_rule E a -> repl_true E s a.
  Proof.
    intros Ha (e1 & e2 & x & l & r & rl & rr & H1 & H2 & _ & _ & _ & _ & _ & _ & ->). cbn [repl_true]. constructor; [|constructor].
    apply (product_constraint_true Hp E s Ha) in H1, H2. unfold solves. rewrite eval_gmul, eval_gadd.
    destruct H1 as [-> | ->]; [ring|]. destruct H2 as [-> | ->]; ring.
  Qed.
  Lemma combine_back s a old new : ranges_true E s -> combine_rule E a -> a = Plain old new -> Forall (solves s) new -> Forall (solves s) old.
  Proof.
    intros Hr (e1 & e2 & x & l & r & rl & rr & [_ H1] & [_ H2] & _ & R1 & R2 & Z1 & Z2 & U & ->) [= <- <-] Hn.
    apply (range_on_true Hp E Hwa Hwi s Hr) in R1, R2. inversion_clear Hn as [|? ? S _]. unfold solves in S. rewrite eval_gmul, eval_gadd in S.
    assert (Q : eval s x = 0 \/ (eval s l = 0 /\ eval s r = 0)).
    { destruct (mul_eq_zero _ _ Hp S) as [|M]; auto. right. apply (sum_no_wrap Hp rl rr); auto. }
    constructor; [|constructor; [|constructor]]; unfold solves; [rewrite (product_eval E s _ _ _ H1)|rewrite (product_eval E s _ _ _ H2)]; destruct Q as [-> |[Q1 Q2]]; rewrite ?Q1, ?Q2; ring.
  Qed.

  (** ** The zero test *)
  Local Notation minus1 := (fopp (p:=p) fone).
  Local Notation two := (of_N (p:=p) 2).
  Lemma two_eq : two = 1 + 1.
  Proof. change 2%N with (1 + 1)%N. now rewrite of_N_add. Qed.
  Lemma plus_minus_eval s e x v : plus_minus E e x v -> eval s e = eval s x * ((1 + 1) * s v - 1).
  Proof. intros (r & H & A). rewrite (product_eval E s _ _ _ H), (affine_eval Hp E Hwa Hwi s _ _ _ _ A), two_eq. ring. Qed.
  Lemma sum_max (a b : rc) : rmin a = 0 -> rmin b = 0 -> (val (rmax (combine_sum a b)) + 1 < P)%N ->
    rmin (combine_sum a b) = 0 /\ (val (rmax a) + val (rmax b) + 1 < P)%N /\ (val (rmax (combine_sum a b)) = val (rmax a) + val (rmax b))%N.
  Proof.
    intros Za Zb. assert (P2 : (2 <= P)%N) by (destruct Hp; lia).
    assert (RU : range_width (unconstrained (p:=p)) = P).
    { unfold range_width, range_width_of. cbn [rmin rmax unconstrained]. replace (feqb (fminus1 + 1) 0) with true; auto. symmetry. apply feqb_eq. unfold fminus1. ring. }
    unfold combine_sum. rewrite RU. destruct (N.leb_spec (range_width a + range_width b) P) as [W|W]; cbn [rmin rmax unconstrained].
    - intros _. pose proof (range_width_of_eq (rmin a) (rmax a)) as Wa. pose proof (range_width_of_eq (rmin b) (rmax b)) as Wb.
      fold (range_width a) in Wa. fold (range_width b) in Wb. rewrite Za in Wa. rewrite Zb in Wb.
      replace (rmax a - 0) with (rmax a) in Wa by ring. replace (rmax b - 0) with (rmax b) in Wb by ring.
      rewrite Za, Zb. split; [ring|]. split; [lia|]. destruct (val_add (rmax a) (rmax b)); lia.
    - intros H. exfalso. pose proof (val_opp (p:=p) 1) as V. unfold fminus1 in H.
      assert (V1 : val (1 : F p) = 1%N). { unfold fone. apply val_of_N_small. lia. } rewrite V1 in V. lia.
  Qed.
  Lemma four_no_wrap (r0 r1 r2 r3 : rc) x0 x1 x2 x3 : rmin r0 = 0 -> rmin r1 = 0 -> rmin r2 = 0 -> rmin r3 = 0 ->
    fltb (rmax (combine_sum (combine_sum (combine_sum r0 r1) r2) r3)) fminus1 = true ->
    rc_allows r0 x0 -> rc_allows r1 x1 -> rc_allows r2 x2 -> rc_allows r3 x3 -> x0 + x1 + x2 + x3 = 0 -> x0 = 0 /\ x1 = 0 /\ x2 = 0 /\ x3 = 0.
  Proof.
    intros Z0 Z1 Z2 Z3 M A0 A1 A2 A3 S. set (r01 := combine_sum r0 r1) in *. set (r012 := combine_sum r01 r2) in *.
    assert (M' : (val (rmax (combine_sum r012 r3)) + 1 < P)%N). { unfold fltb in M. pose proof (val_lt (fminus1 (p:=p))). lia. }
    assert (Y01 : rmin r01 = 0).
    { unfold r01, combine_sum. destruct (_ <=? _)%N; cbn [rmin unconstrained]; auto. rewrite Z0, Z1. ring. }
    assert (Y012 : rmin r012 = 0).
    { unfold r012, combine_sum. destruct (_ <=? _)%N; cbn [rmin unconstrained]; auto. rewrite Y01, Z2. ring. }
    destruct (sum_max _ _ Y012 Z3 M') as (_ & B1 & _).
    assert (M2 : (val (rmax (combine_sum r01 r2)) + 1 < P)%N) by (fold r012; lia). destruct (sum_max _ _ Y01 Z2 M2) as (_ & B2 & _).
    assert (M3 : (val (rmax (combine_sum r0 r1)) + 1 < P)%N) by (fold r01; lia). destruct (sum_max _ _ Z0 Z1 M3) as (_ & B3 & _).
    pose proof (b_sum _ _ _ _ A0 A1) as A01. fold r01 in A01. pose proof (b_sum _ _ _ _ A01 A2) as A012. fold r012 in A012.
    destruct (no_wrap (x0 + x1 + x2) x3 _ _ (allows_max _ _ A012 Y012) (allows_max _ _ A3 Z3)) as [S1 S2]; auto; [lia|].
    destruct (no_wrap (x0 + x1) x2 _ _ (allows_max _ _ A01 Y01) (allows_max _ _ A2 Z2)) as [S3 S4]; auto; [lia|].
    destruct (no_wrap x0 x1 _ _ (allows_max _ _ A0 Z0) (allows_max _ _ A1 Z1)) as [S5 S6]; auto. lia.
  Qed.
  Lemma negated_parts e m l v res n : negated E e m l v res n ->
    exists r r2, product_constraint E e l r /\ plus_minus E r r2 res /\ linear E r2 v minus1.
  Proof. intros [|]; eauto 10. Qed.
  (** A marked difference of a limb [a] to [k] (zero or one) tells whether the limb is smaller. *)
  Lemma marked (r : rc) (a d res : F p) : rmin r = 0 -> rc_allows r a -> positive_difference r d -> res = 0 \/ res = 1 ->
    (a * ((1 + 1) * res - 1) + d = 0 -> res = 0 /\ a <> 0) /\
    ((a - 1) * ((1 + 1) * res - 1) + d = 0 -> (res = 0 /\ a <> 0) \/ (res = 1 /\ a = 0)).
  Proof.
    intros Z A [D1 D2] R. pose proof (allows_max _ _ A Z) as L. assert (P2 : (2 <= P)%N) by (destruct Hp; lia).
    assert (V1 : val (1 : F p) = 1%N). { unfold fone. apply val_of_N_small. lia. }
    split; intros H.
    - destruct R as [-> | ->].
      + split; auto. intros ->. assert (d = 0) by (rewrite <- H; ring). subst d. rewrite val_zero in D1. lia.
      + exfalso. assert (S : a + d = 0) by (rewrite <- H; ring). destruct (no_wrap a d (val (rmax r)) (val d)) as [_ Q]; auto; try lia. rewrite Q, val_zero in D1. lia.
    - destruct R as [-> | ->].
      + left. split; auto. intros ->. assert (S : d + 1 = 0) by (rewrite <- H; ring).
        destruct (no_wrap d 1 (val d) 1) as [Q _]; auto; try lia. rewrite Q, val_zero in D1. lia.
      + right. split; auto. assert (S : a + d = 1). { replace (a + d) with ((a - 1) * ((1 + 1) * 1 - 1) + d + 1) by ring. rewrite H. ring. }
        pose proof (val_add a d) as V. rewrite S, V1 in V. apply F_ext. rewrite val_zero. lia.
  Qed.
  Hypothesis Hp4 : (4 < P)%N.
  (** At most one of four flags is set if their sum is a flag. *)
  Lemma one_of_four (a b c d : F p) : (a = 0 \/ a = 1) -> (b = 0 \/ b = 1) -> (c = 0 \/ c = 1) -> (d = 0 \/ d = 1) ->
    (a + b + c + d = 0 \/ a + b + c + d = 1) ->
    (a = 0 /\ b = 0 /\ c = 0 /\ d = 0) \/ (a = 1 /\ b = 0 /\ c = 0 /\ d = 0) \/ (a = 0 /\ b = 1 /\ c = 0 /\ d = 0) \/
    (a = 0 /\ b = 0 /\ c = 1 /\ d = 0) \/ (a = 0 /\ b = 0 /\ c = 0 /\ d = 1).
  Proof.
    assert (Of : forall n, (n <= 4)%N -> val (of_N n : F p) = n). { intros n Hn. apply val_of_N_small. lia. }
    assert (N2 : (1 + 1 : F p) = of_N 2) by (change 2%N with (1 + 1)%N; now rewrite of_N_add).
    assert (N3 : (1 + 1 + 1 : F p) = of_N 3) by (change 3%N with (2 + 1)%N; now rewrite of_N_add, N2).
    assert (N4 : (1 + 1 + 1 + 1 : F p) = of_N 4) by (change 4%N with (3 + 1)%N; now rewrite of_N_add, N3).
    assert (G : forall n, (2 <= n <= 4)%N -> of_N n <> (0 : F p) /\ of_N n <> (1 : F p)).
    { intros n Hn. split; intros H; apply (f_equal (val (p:=p))) in H; rewrite Of in H by lia; [rewrite val_zero in H|change (1 : F p) with (of_N (p:=p) 1) in H; rewrite Of in H by lia]; lia. }
    pose proof (G 2%N) as G2. pose proof (G 3%N) as G3. pose proof (G 4%N) as G4. rewrite <- N2 in G2. rewrite <- N3 in G3. rewrite <- N4 in G4.
    destruct G2 as [G20 G21]; [lia|]. destruct G3 as [G30 G31]; [lia|]. destruct G4 as [G40 G41]; [lia|].
    intros [-> | ->] [-> | ->] [-> | ->] [-> | ->] H; try tauto; exfalso; destruct H as [H|H];
      first [apply G20; etransitivity; [|exact H]; ring|apply G21; etransitivity; [|exact H]; ring|apply G30; etransitivity; [|exact H]; ring|apply G31; etransitivity; [|exact H]; ring|apply G40; etransitivity; [|exact H]; ring|apply G41; etransitivity; [|exact H]; ring].
  Qed.

  (** The constraints of the zero test. *)
  Record zero_shape (cs : list gexp) (res : var) (m0 m1 m2 m3 a0 a1 a2 a3 : var) (l0 l1 l2 l3 l4 d0 d1 d2 d3 : gexp) (r0 r1 r2 r3 : rc)
      (diff : var) (q0 q1 q2 q3 : F p) : Prop := {
    zs_algs : Forall (fun c => In c (r_algs E)) cs;
    zs_diffs : (forall s, eval s d0 = q0 * s diff /\ eval s d1 = q1 * s diff /\ eval s d2 = q2 * s diff /\ eval s d3 = q3 * s diff);
    zs_units : q0 <> 0 /\ q1 <> 0 /\ q2 <> 0 /\ q3 <> 0;
    zs_solves : forall s, Forall (solves s) cs <->
      (eval s l0 = 0 \/ s a3 * ((1 + 1) * s res - 1) = 0) /\ (eval s l1 = 0 \/ s a2 * ((1 + 1) * s res - 1) = 0) /\
      (eval s l2 = 0 \/ s a1 * ((1 + 1) * s res - 1) = 0) /\ (eval s l3 = 0 \/ s res = 0) /\
      (eval s l4 = 0 \/ (1 - s a0) * ((1 + 1) * s res - 1) = 0) /\
      (s m0 = 0 \/ (s a0 - 1) * ((1 + 1) * s res - 1) + eval s d0 = 0) /\ (s m1 = 0 \/ s a1 * ((1 + 1) * s res - 1) + eval s d1 = 0) /\
      (s m2 = 0 \/ s a2 * ((1 + 1) * s res - 1) + eval s d2 = 0) /\ (s m3 = 0 \/ s a3 * ((1 + 1) * s res - 1) + eval s d3 = 0) /\
      (eval s l3 = 1 \/ eval s l3 = 0);
    zs_flags : boolean_var E res /\ boolean_var E m0 /\ boolean_var E m1 /\ boolean_var E m2 /\ boolean_var E m3;
    zs_ranges : range_on_var E a0 r0 /\ range_on_var E a1 r1 /\ range_on_var E a2 r2 /\ range_on_var E a3 r3;
    zs_min : rmin r0 = 0 /\ rmin r1 = 0 /\ rmin r2 = 0 /\ rmin r3 = 0;
    zs_max : fltb (rmax (combine_sum (combine_sum (combine_sum r0 r1) r2) r3)) fminus1 = true;
    zs_known : Forall (known_var E) [res; a0; a1; a2; a3] }.
  Lemma product_algebraic e l r : product_constraint E e l r -> In e (r_algs E) /\ (forall s, solves s e <-> eval s l = 0 \/ eval s r = 0) /\ expression E l /\ expression E r.
  Proof.
    intros [A R]. split; auto. apply product_expression in R as X. split; [|tauto]. intros s. unfold solves. rewrite (product_eval E s _ _ _ R). now apply mul_eq_zero_iff.
  Qed.
  Lemma scaled_zero (k x : F p) : k <> 0 -> (k * x = 0 <-> x = 0).
  Proof. intros K. split; [intros H; destruct (mul_eq_zero _ _ Hp H); congruence|intros ->; ring]. Qed.
  Lemma minus1_neq : minus1 <> 0.
  Proof. intros H. apply (proj1 (opp_eq_zero _)) in H. now apply (one_neq_zero Hp). Qed.
  Lemma zero_check_shape cs res a m ls ds rs : zero_check E cs res a m ls ds rs ->
    exists m0 m1 m2 m3 a0 a1 a2 a3 l0 l1 l2 l3 l4 d0 d1 d2 d3 r0 r1 r2 r3 diff q0 q1 q2 q3,
    a = [a0; a1; a2; a3] /\ m = [m0; m1; m2; m3] /\ ls = [l0; l1; l2; l3; l4] /\ ds = [d0; d1; d2; d3] /\ rs = [r0; r1; r2; r3] /\
    zero_shape cs res m0 m1 m2 m3 a0 a1 a2 a3 l0 l1 l2 l3 l4 d0 d1 d2 d3 r0 r1 r2 r3 diff q0 q1 q2 q3.
  Proof.
    intros (c0 & c1 & c2 & c3 & c4 & c5 & c6 & c7 & c8 & c9 & m0 & m1 & m2 & m3 & a0 & a1 & a2 & a3 & l0 & l1 & l2 & l3 & l4 & diff & d0 & d1 & d2 & d3 &
      e0 & e1 & e2 & e3 & r0 & r1 & r2 & r3 & sum & -> & -> & -> & -> & -> & -> & N0 & N1 & N2 & N3 & N4 & D0 & A0 & D1 & A1 & D2 & A2 & D3 & A3 &
      B & B0 & B1 & B2 & B3 & R0 & R1 & R2 & R3 & Z0 & Z1 & Z2 & Z3 & Mx & Be & Rel).
    assert (NG : forall e m l v r n, negated E e m l v r n -> In e (r_algs E) /\ (forall s, solves s e <-> eval s l = 0 \/ s v * ((1 + 1) * s r - 1) = 0)).
    { intros e m l v r n H. apply negated_parts in H. destruct H as (x & x2 & C & Pm & L). apply product_algebraic in C. destruct C as (I & C & _). split; auto.
      intros s. rewrite C, (plus_minus_eval s _ _ _ Pm), (linear_eval Hp E Hwa Hwi s _ _ _ L).
      replace (minus1 * s v * ((1 + 1) * s r - 1)) with (minus1 * (s v * ((1 + 1) * s r - 1))) by ring. rewrite (scaled_zero minus1); [tauto|apply minus1_neq]. }
    assert (DM : forall e m x k y, diff_marker E e m x res diff y -> exists q, q <> 0 /\ In e (r_algs E) /\
        (forall s, eval s y = q * s diff) /\ (forall v o, affine E x k v o -> known_var E v /\ forall s, solves s e <-> s m = 0 \/ (k * s v + o) * ((1 + 1) * s res - 1) + eval s y = 0)).
    { intros e m x k y (l & r & x1 & km & kd & C & L & H & Pm & L2). exists kd. apply product_algebraic in C. destruct C as (I & C & _).
      split; [apply (linear_eq Hp E Hwa Hwi _ _ _ L2)|]. split; [auto|]. split; [intros s; apply (linear_eval Hp E Hwa Hwi s _ _ _ L2)|].
      intros v o A. split.
      - apply (expression_known x). { now destruct A. } apply (affine_eq Hp E Hwa Hwi) in A. destruct A as [-> _]. cbn. auto.
      - intros s. rewrite C, (linear_eval Hp E Hwa Hwi s _ _ _ L), (head_tail_eval E s _ _ _ H), (plus_minus_eval s _ _ _ Pm), (affine_eval Hp E Hwa Hwi s _ _ _ _ A).
        rewrite (scaled_zero km); [reflexivity|]. apply (linear_eq Hp E Hwa Hwi _ _ _ L). }
    destruct (NG _ _ _ _ _ _ N0) as [I0 S0]. destruct (NG _ _ _ _ _ _ N1) as [I1 S1]. destruct (NG _ _ _ _ _ _ N2) as [I2 S2]. clear NG N0 N1 N2.
    destruct N3 as (x3 & _ & _ & _ & _ & _ & _ & _ & C3 & _ & _ & _ & L3). apply product_algebraic in C3. destruct C3 as (I3 & S3 & _).
    destruct N4 as (x4 & y4 & _ & _ & _ & _ & _ & _ & _ & C4 & _ & _ & _ & Pm4 & A4). apply product_algebraic in C4. destruct C4 as (I4 & S4 & _).
    destruct (DM _ _ _ 1 _ D0) as (q0 & Q0 & I5 & V0 & S5). destruct (S5 _ _ A0) as [K0 S5']. clear S5.
    destruct (DM _ _ _ 1 _ D1) as (q1 & Q1 & I6 & V1 & S6). destruct (S6 _ _ A1) as [K1 S6']. clear S6.
    destruct (DM _ _ _ 1 _ D2) as (q2 & Q2 & I7 & V2 & S7). destruct (S7 _ _ A2) as [K2 S7']. clear S7.
    destruct (DM _ _ _ 1 _ D3) as (q3 & Q3 & I8 & V3 & S8). destruct (S8 _ _ A3) as [K3 S8']. clear S8.
    destruct Be as (l9 & f & c & C9 & Rel9 & ->). apply product_algebraic in C9. destruct C9 as (I9 & S9 & _).
    exists m0, m1, m2, m3, a0, a1, a2, a3, l0, l1, l2, l3, l4, d0, d1, d2, d3, r0, r1, r2, r3, diff, q0, q1, q2, q3. do 5 (split; [reflexivity|]). split; try assumption.
    - repeat constructor; assumption.
    - intros s. exact (conj (V0 s) (conj (V1 s) (conj (V2 s) (V3 s)))).
    - exact (conj Q0 (conj Q1 (conj Q2 Q3))).
    - intros s. rewrite !Forall_cons_iff.
      assert (E3 : solves s c3 <-> eval s l3 = 0 \/ s res = 0). { rewrite S3, (linear_eval Hp E Hwa Hwi s _ _ _ L3). replace (1 * s res) with (s res) by ring. tauto. }
      assert (E4 : solves s c4 <-> eval s l4 = 0 \/ (1 - s a0) * ((1 + 1) * s res - 1) = 0).
      { rewrite S4, (plus_minus_eval s _ _ _ Pm4), (affine_eval Hp E Hwa Hwi s _ _ _ _ A4). replace (minus1 * s a0 + 1) with (1 - s a0) by ring. tauto. }
      assert (E5 : solves s c5 <-> s m0 = 0 \/ (s a0 - 1) * ((1 + 1) * s res - 1) + eval s d0 = 0). { rewrite S5'. replace (1 * s a0 + minus1) with (s a0 - 1) by ring. tauto. }
      assert (E6 : solves s c6 <-> s m1 = 0 \/ s a1 * ((1 + 1) * s res - 1) + eval s d1 = 0). { rewrite S6'. replace (1 * s a1 + 0) with (s a1) by ring. tauto. }
      assert (E7 : solves s c7 <-> s m2 = 0 \/ s a2 * ((1 + 1) * s res - 1) + eval s d2 = 0). { rewrite S7'. replace (1 * s a2 + 0) with (s a2) by ring. tauto. }
      assert (E8 : solves s c8 <-> s m3 = 0 \/ s a3 * ((1 + 1) * s res - 1) + eval s d3 = 0). { rewrite S8'. replace (1 * s a3 + 0) with (s a3) by ring. tauto. }
      assert (E9 : solves s c9 <-> eval s l3 = 1 \/ eval s l3 = 0).
      { rewrite S9. destruct (affinely_related_eval Hp E Hwa Hwi s _ _ _ _ Rel9) as [-> Nf]. destruct (affinely_related_eval Hp E Hwa Hwi s _ _ _ _ Rel) as [-> _].
        replace (f * (minus1 * eval s l3 + 1) + - f) with (f * (- eval s l3)) by ring. rewrite (scaled_zero f), opp_eq_zero; auto.
        replace (minus1 * eval s l3 + 1) with (1 - eval s l3) by ring. rewrite sub_eq_zero. split; intros [H|H]; auto. }
      rewrite S0, S1, S2, E3, E4, E5, E6, E7, E8, E9. split.
      + intros (? & ? & ? & ? & ? & ? & ? & ? & ? & ? & _). exact (conj H (conj H0 (conj H1 (conj H2 (conj H3 (conj H4 (conj H5 (conj H6 (conj H7 H8))))))))).
      + intros (? & ? & ? & ? & ? & ? & ? & ? & ? & ?). do 10 (split; [assumption|]). constructor.
    - exact (conj B (conj B0 (conj B1 (conj B2 B3)))).
    - exact (conj R0 (conj R1 (conj R2 R3))).
    - exact (conj Z0 (conj Z1 (conj Z2 Z3))).
    - constructor; [|exact (Forall_cons _ K0 (Forall_cons _ K1 (Forall_cons _ K2 (Forall_cons _ K3 (Forall_nil _)))))]. apply (expression_known x3); [now destruct L3|]. apply (linear_eq Hp E Hwa Hwi) in L3. destruct L3 as [-> _]. cbn. auto.
  Qed.
  Lemma sign_neq (r x : F p) : r = 0 \/ r = 1 -> x * ((1 + 1) * r - 1) = 0 -> x = 0.
  Proof.
    intros R H. destruct R as [-> | ->].
    - apply opp_eq_zero. rewrite <- H. ring.
    - rewrite <- H. ring.
  Qed.
  Lemma zero_forward s cs res a m ls ds rs : ranges_true E s -> Forall (solves s) (r_algs E) -> zero_check E cs res a m ls ds rs -> markers_ok s m ls ds rs ->
    repl_true E s (zero_replacement cs res a).
  Proof.
    intros Hr Ha Z (n0 & n1 & n2 & n3 & Hm & Hl & Hd).
    destruct (zero_check_shape _ _ _ _ _ _ _ Z) as (m0 & m1 & m2 & m3 & a0 & a1 & a2 & a3 & l0 & l1 & l2 & l3 & l4 & d0 & d1 & d2 & d3 & r0 & r1 & r2 & r3 & diff & q0 & q1 & q2 & q3 &
      -> & -> & -> & -> & -> & [ZA ZD ZU ZS (B & B0 & B1 & B2 & B3) (R0 & R1 & R2 & R3) (M0 & M1 & M2 & M3) Mx ZK]). clear Z.
    injection Hm as <- <- <- <-. cbn [map] in Hl. injection Hl as L0 L1 L2 L3 L4. cbn [combine] in Hd.
    inversion_clear Hd as [|? ? ? ? Hd0 Hd']. inversion_clear Hd' as [|? ? ? ? Hd1 Hd]. inversion_clear Hd as [|? ? ? ? Hd2 Hd']. inversion_clear Hd' as [|? ? ? ? Hd3 _]. cbn [fst snd] in *.
    assert (Hc : Forall (solves s) cs). { apply Forall_forall. intros c Ic. rewrite Forall_forall in ZA, Ha. auto. }
    apply (proj1 (ZS s)) in Hc. destruct Hc as (S0 & S1 & S2 & S3 & S4 & S5 & S6 & S7 & S8 & S9). clear ZS. rewrite L0 in S0. rewrite L1 in S1. rewrite L2 in S2. rewrite L3 in S3, S9. rewrite L4 in S4.
    pose proof (boolean_true Hp E s Hr _ B) as Br. pose proof (boolean_true Hp E s Hr _ B0) as Bm0. pose proof (boolean_true Hp E s Hr _ B1) as Bm1. pose proof (boolean_true Hp E s Hr _ B2) as Bm2. pose proof (boolean_true Hp E s Hr _ B3) as Bm3.
    destruct Hr as [_ Hr]. specialize (Hr _ _ R0) as X0. specialize (Hr _ _ R1) as X1. specialize (Hr _ _ R2) as X2. specialize (Hr _ _ R3) as X3. clear Hr R0 R1 R2 R3. rename X0 into R0, X1 into R1, X2 into R2, X3 into R3.
    assert (T : forall l x : F p, l = 0 \/ x * ((1 + 1) * s res - 1) = 0 -> l = 0 \/ x = 0). { intros l x [|H]; auto. right. exact (sign_neq _ _ Br H). }
    apply T in S0, S1, S2, S4. clear T.
    assert (O : s m0 + s m1 + s m2 + s m3 = 0 \/ s m0 + s m1 + s m2 + s m3 = 1).
    { destruct S9 as [H|H]; [left|right].
      - replace (s m0 + s m1 + s m2 + s m3) with (1 - (1 - s m3 - s m2 - s m1 - s m0)) by ring. rewrite H. ring.
      - replace (s m0 + s m1 + s m2 + s m3) with (1 - (1 - s m3 - s m2 - s m1 - s m0)) by ring. rewrite H. ring. }
    pose proof (one_of_four _ _ _ _ Bm0 Bm1 Bm2 Bm3 O) as Cases. clear O S9 Bm0 Bm1 Bm2 Bm3 B B0 B1 B2 B3 L0 L1 L2 L3 L4 ZA ZD ZU.
    assert (N01 : (0 : F p) <> 1) by (intros H; now apply (one_neq_zero Hp)).
    (* the result says whether all limbs are zero *)
    assert (Main : (s res = 1 /\ s a0 + s a1 + s a2 + s a3 = 0) \/ (s res = 0 /\ s a0 + s a1 + s a2 + s a3 <> 0)).
    { assert (NW : s a0 + s a1 + s a2 + s a3 = 0 -> s a0 = 0 /\ s a1 = 0 /\ s a2 = 0 /\ s a3 = 0) by (now apply (four_no_wrap r0 r1 r2 r3)).
      assert (U : forall x, (1 : F p) - 0 - 0 - 0 - 0 = 0 \/ x -> x). { intros x [H|H]; auto. exfalso. apply N01. rewrite <- H. ring. }
      assert (U3 : forall x, (1 : F p) - 0 - 0 - 0 = 0 \/ x -> x). { intros x [H|H]; auto. exfalso. apply N01. rewrite <- H. ring. }
      assert (U2 : forall x, (1 : F p) - 0 - 0 = 0 \/ x -> x). { intros x [H|H]; auto. exfalso. apply N01. rewrite <- H. ring. }
      assert (U1 : forall x, (1 : F p) - 0 = 0 \/ x -> x). { intros x [H|H]; auto. exfalso. apply N01. rewrite <- H. ring. }
      assert (UM : forall x, (1 : F p) = 0 \/ x -> x). { intros x [H|H]; auto. exfalso. now apply N01. }
      destruct Cases as [(Z0 & Z1 & Z2 & Z3)|[(Z0 & Z1 & Z2 & Z3)|[(Z0 & Z1 & Z2 & Z3)|[(Z0 & Z1 & Z2 & Z3)|(Z0 & Z1 & Z2 & Z3)]]]];
        rewrite Z0, ?Z1, ?Z2, ?Z3 in *.
      - apply U in S3, S4. right. split; auto. intros H. apply NW in H. destruct H as [H _]. apply N01. apply (proj1 (sub_eq_zero _ _)) in S4. now rewrite S4.
      - apply U1 in S0. apply U2 in S1. apply U3 in S2. apply UM in S5. rewrite S0, S1, S2.
        destruct (proj2 (marked r0 (s a0) (eval s d0) (s res) M0 R0 (Hd0 eq_refl) Br) S5) as [[Q1 Q2]|[Q1 Q2]]; [right|left]; split; auto.
        + intros H. apply Q2. rewrite <- H. ring.
        + rewrite Q2. ring.
      - apply UM in S6. destruct (proj1 (marked r1 (s a1) (eval s d1) (s res) M1 R1 (Hd1 eq_refl) Br) S6) as [Q1 Q2]. right. split; auto. intros H. apply NW in H. destruct H as (G0 & G1 & G2 & G3). exact (Q2 G1).
      - apply UM in S7. destruct (proj1 (marked r2 (s a2) (eval s d2) (s res) M2 R2 (Hd2 eq_refl) Br) S7) as [Q1 Q2]. right. split; auto. intros H. apply NW in H. destruct H as (G0 & G1 & G2 & G3). exact (Q2 G2).
      - apply UM in S8. destruct (proj1 (marked r3 (s a3) (eval s d3) (s res) M3 R3 (Hd3 eq_refl) Br) S8) as [Q1 Q2]. right. split; auto. intros H. apply NW in H. destruct H as (G0 & G1 & G2 & G3). exact (Q2 G3). }
    unfold zero_replacement. cbn [repl_true map]. intros v Kv. set (sum := gsum _). set (x := cm_value _ _).
    assert (Vs : forall w, In w [res; a0; a1; a2; a3] -> v <> w). { intros w Iw ->. apply Kv. rewrite Forall_forall in ZK. auto. }
    assert (Es : forall s, eval s sum = s a0 + s a1 + s a2 + s a3).
    { intros s0. unfold sum. rewrite eval_gsum. cbn [fold_right]. rewrite !eval_from_var by exact Hp. ring. }
    assert (Eu : eval (upd s v x) sum = eval s sum). { rewrite !Es, !upd_other; auto; apply Vs; cbn; auto 9. }
    assert (Ru : upd s v x res = s res). { apply upd_other. apply Vs. cbn. auto. }
    repeat constructor; unfold solves.
    - rewrite eval_gmul, eval_from_var, Eu, Ru, Es by exact Hp. destruct Main as [[_ ->]|[-> _]]; ring.
    - rewrite eval_gsub, eval_gadd, eval_gmul, !eval_from_var, eval_gone, Eu, Ru, upd_same by exact Hp. unfold x. cbn [cm_value]. rewrite Es, eval_gone.
      destruct Main as [[-> ->]|[-> H]].
      + ring.
      + apply is_zero_neq in H as H'. rewrite H'. rewrite fdiv_mul; auto. ring.
  Qed.
  (** Whoever satisfies the two new constraints can choose the markers and the difference. *)
  Lemma zero_back s cs res a m ls ds rs v : ranges_true E s -> zero_check E cs res a m ls ds rs ->
    (forall t, exists m0 m1 m2 m3, m = [m0; m1; m2; m3] /\
      map (eval t) ls = [1 - t m3; 1 - t m3 - t m2; 1 - t m3 - t m2 - t m1; 1 - t m3 - t m2 - t m1 - t m0; 1 - t m3 - t m2 - t m1 - t m0]) ->
    Forall (solves s) (match zero_replacement cs res a with WithVar _ _ _ new => new v | Plain _ new => new end) ->
    exists diff, (NoDup (diff :: m) -> (forall w, In w (res :: a) -> ~ In w (diff :: m)) ->
      exists s', (forall w, ~ In w (diff :: m) -> s' w = s w) /\ (forall w, In w m -> s' w = 0 \/ s' w = 1) /\ Forall (solves s') cs) /\
      (forall t d, In d ds -> exists q, q <> 0 /\ eval t d = q * t diff).
  Proof.
    intros Hr Z HL HN.
    destruct (zero_check_shape _ _ _ _ _ _ _ Z) as (m0 & m1 & m2 & m3 & a0 & a1 & a2 & a3 & l0 & l1 & l2 & l3 & l4 & d0 & d1 & d2 & d3 & r0 & r1 & r2 & r3 & diff & q0 & q1 & q2 & q3 &
      -> & -> & -> & -> & -> & [ZA ZD (U0 & U1 & U2 & U3) ZS _ (R0 & R1 & R2 & R3) (M0 & M1 & M2 & M3) Mx ZK]). clear Z.
    exists diff. split.
    2: { intros t d [<-|[<-|[<-|[<-|[]]]]]; destruct (ZD t) as (T0 & T1 & T2 & T3); eauto. }
    intros ND NI.
    assert (L : forall t : var -> F p, eval t l0 = 1 - t m3 /\ eval t l1 = 1 - t m3 - t m2 /\ eval t l2 = 1 - t m3 - t m2 - t m1 /\
      eval t l3 = 1 - t m3 - t m2 - t m1 - t m0 /\ eval t l4 = 1 - t m3 - t m2 - t m1 - t m0).
    { intros t. destruct (HL t) as (? & ? & ? & ? & X & Y). injection X as <- <- <- <-. cbn [map] in Y. injection Y as Y0 Y1 Y2 Y3 Y4.
      exact (conj Y0 (conj Y1 (conj Y2 (conj Y3 Y4)))). }
    clear HL ZA ZK.
    destruct Hr as [_ Hr]. specialize (Hr _ _ R0) as X0. specialize (Hr _ _ R1) as X1. specialize (Hr _ _ R2) as X2. specialize (Hr _ _ R3) as X3. clear Hr R0 R1 R2 R3.
    assert (NW : s a0 + s a1 + s a2 + s a3 = 0 -> s a0 = 0 /\ s a1 = 0 /\ s a2 = 0 /\ s a3 = 0) by (now apply (four_no_wrap r0 r1 r2 r3)).
    assert (N01 : (0 : F p) <> 1) by (intros H; now apply (one_neq_zero Hp)).
    assert (Main : (s res = 1 /\ s a0 = 0 /\ s a1 = 0 /\ s a2 = 0 /\ s a3 = 0) \/ (s res = 0 /\ (s a0 <> 0 \/ s a1 <> 0 \/ s a2 <> 0 \/ s a3 <> 0))).
    { unfold zero_replacement in HN. cbn [map] in HN. inversion_clear HN as [|? ? H1 HN']. inversion_clear HN' as [|? ? H2 _]. unfold solves in H1, H2.
      set (sum := gsum _) in *. assert (Es : eval s sum = s a0 + s a1 + s a2 + s a3).
      { unfold sum. rewrite eval_gsum. cbn [fold_right]. rewrite !eval_from_var by exact Hp. ring. }
      rewrite eval_gmul, eval_from_var, Es in H1 by exact Hp. rewrite eval_gsub, eval_gadd, eval_gmul, !eval_from_var, eval_gone, Es in H2 by exact Hp. clearbody sum. clear Es.
      apply (mul_eq_zero _ _ Hp) in H1. destruct H1 as [H1|H1].
      - right. split; auto. destruct (F_dec (s a0) 0) as [G0|G0]; [|left; exact G0]. destruct (F_dec (s a1) 0) as [G1|G1]; [|right; left; exact G1].
        destruct (F_dec (s a2) 0) as [G2|G2]; [|right; right; left; exact G2]. destruct (F_dec (s a3) 0) as [G3|G3]; [|right; right; right; exact G3].
        exfalso. rewrite H1, G0, G1, G2, G3 in H2. apply minus1_neq. etransitivity; [|exact H2]. ring.
      - left. split; [|now apply NW]. rewrite H1 in H2. apply (proj1 (sub_eq_zero _ _)). etransitivity; [|exact H2]. ring. }
    clear NW HN X0 X1 X2 X3 M0 M1 M2 M3 Mx.
    assert (Pick : forall n0 n1 n2 n3 d : F p, exists s' : var -> F p, (forall w, ~ In w [diff; m0; m1; m2; m3] -> s' w = s w) /\ s' diff = d /\ s' m0 = n0 /\ s' m1 = n1 /\ s' m2 = n2 /\ s' m3 = n3).
    { intros n0 n1 n2 n3 d. exists (upd (upd (upd (upd (upd s diff d) m0 n0) m1 n1) m2 n2) m3 n3).
      inversion_clear ND as [|? ? Nd ND']. inversion_clear ND' as [|? ? Nm0 ND]. inversion_clear ND as [|? ? Nm1 ND']. inversion_clear ND' as [|? ? Nm2 _]. cbn [In] in *.
      split; [intros w Nw; rewrite !upd_other; auto; intros ->; apply Nw; auto 9|].
      repeat split; repeat first [rewrite upd_same; reflexivity | rewrite upd_other by (intros ->; auto 9)]. }
    assert (Fin : forall n0 n1 n2 n3 d : F p, (n0 = 0 \/ n0 = 1) -> (n1 = 0 \/ n1 = 1) -> (n2 = 0 \/ n2 = 1) -> (n3 = 0 \/ n3 = 1) ->
      (1 - n3 = 0 \/ s a3 * ((1 + 1) * s res - 1) = 0) -> (1 - n3 - n2 = 0 \/ s a2 * ((1 + 1) * s res - 1) = 0) ->
      (1 - n3 - n2 - n1 = 0 \/ s a1 * ((1 + 1) * s res - 1) = 0) -> (1 - n3 - n2 - n1 - n0 = 0 \/ s res = 0) ->
      (1 - n3 - n2 - n1 - n0 = 0 \/ (1 - s a0) * ((1 + 1) * s res - 1) = 0) ->
      (n0 = 0 \/ (s a0 - 1) * ((1 + 1) * s res - 1) + q0 * d = 0) -> (n1 = 0 \/ s a1 * ((1 + 1) * s res - 1) + q1 * d = 0) ->
      (n2 = 0 \/ s a2 * ((1 + 1) * s res - 1) + q2 * d = 0) -> (n3 = 0 \/ s a3 * ((1 + 1) * s res - 1) + q3 * d = 0) ->
      (1 - n3 - n2 - n1 - n0 = 1 \/ 1 - n3 - n2 - n1 - n0 = 0) ->
      exists s', (forall w, ~ In w [diff; m0; m1; m2; m3] -> s' w = s w) /\ (forall w, In w [m0; m1; m2; m3] -> s' w = 0 \/ s' w = 1) /\ Forall (solves s') cs).
    { intros n0 n1 n2 n3 d B0 B1 B2 B3 S0 S1 S2 S3 S4 S5 S6 S7 S8 S9. destruct (Pick n0 n1 n2 n3 d) as (s' & O & Ed & E0 & E1 & E2 & E3). exists s'. split; [exact O|]. split.
      - intros w [<-|[<-|[<-|[<-|[]]]]]; congruence.
      - apply ZS. destruct (L s') as (-> & -> & -> & -> & ->). destruct (ZD s') as (-> & -> & -> & ->). rewrite Ed, E0, E1, E2, E3.
        rewrite (O res), (O a0), (O a1), (O a2), (O a3) by (apply NI; cbn; auto 9).
        exact (conj S0 (conj S1 (conj S2 (conj S3 (conj S4 (conj S5 (conj S6 (conj S7 (conj S8 S9))))))))). }
    clear Pick ZS ZD L ND NI.
    assert (Di : forall q x : F p, q <> 0 -> q * (x / q) = x). { intros q x Q. replace (q * (x / q)) with (x / q * q) by ring. now apply fdiv_mul. }
    destruct Main as [(Q & Q0 & Q1 & Q2 & Q3)|[Q Nz]]; rewrite Q, ?Q0, ?Q1, ?Q2, ?Q3 in Fin.
    - apply (Fin 1 0 0 0 (1 / q0)); auto; try (left; ring); right; try ring. rewrite Di by exact U0. ring.
    - destruct (F_dec (s a3) 0) as [G3|G3].
      2: { apply (Fin 0 0 0 1 (s a3 / q3)); auto; try (left; ring); right; try ring. rewrite Di by exact U3. ring. }
      rewrite G3 in Fin. destruct (F_dec (s a2) 0) as [G2|G2].
      2: { apply (Fin 0 0 1 0 (s a2 / q2)); auto; try (left; ring); right; try ring. rewrite Di by exact U2. ring. }
      rewrite G2 in Fin. destruct (F_dec (s a1) 0) as [G1|G1].
      2: { apply (Fin 0 1 0 0 (s a1 / q1)); auto; try (left; ring); right; try ring. rewrite Di by exact U1. ring. }
      rewrite G1 in Fin. destruct (F_dec (s a0) 1) as [G0|G0].
      + rewrite G0 in Fin. apply (Fin 0 0 0 0 0); auto; try (left; ring); right; ring.
      + apply (Fin 1 0 0 0 ((s a0 - 1) / q0)); auto; try (left; ring); right; try ring. rewrite Di by exact U0. ring.
  Qed.
End Replace.
