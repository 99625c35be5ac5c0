(** C56: run-time constants (symbolic expressions). *)
From Coq Require Import NArith ZArith Znumtheory Bool List Ring.
From Verif Require Import Field RangeModel RangeFacts Primes Spec Bridge SeModel SeSpec.
Import ListNotations.
Local Open Scope F_scope.

Section Ops.
  Context {S : Type} {p : positive} (eqb : S -> S -> bool).
  Hypothesis eqb_ok : forall a b, eqb a b = true <-> a = b.
  Local Notation E := (sexp S p).
  Local Notation sadd := (@sadd S p eqb).
  Local Notation ssub := (@ssub S p eqb).
  Local Notation sneg := (@sneg S p eqb).
  Local Notation smul := (@smul S p eqb).
  Local Notation sdiv := (@sdiv S p eqb).
  Add Ring Fr : (@F_ring_theory p).

  Lemma sop_eqb_ok a b : sop_eqb a b = true -> a = b.
  Proof. destruct a, b; cbn; congruence. Qed.
  Lemma sexp_eqb_ok (a b : E) : sexp_eqb eqb a b = true -> a = b.
  Proof.
    revert b. induction a as [k|s r|l IHl o e IHe r|e IHe r]; intros [k'|s' r'|l' o' e' r'|e' r']; cbn; try discriminate; rewrite ?andb_true_iff.
    - intros H. apply feqb_eq in H. now subst.
    - intros [H1 H2]. apply eqb_ok in H1. apply rc_eqb_eq in H2. now subst.
    - intros [[[H1 H2] H3] H4]. apply IHl in H1. apply sop_eqb_ok in H2. apply IHe in H3. apply rc_eqb_eq in H4. now subst.
    - intros [H1 H2]. apply IHe in H1. apply rc_eqb_eq in H2. now subst.
  Qed.

  Variable env : S -> F p.
  Local Notation means := (means env).

  Lemma means_rc e x : means e x -> rc_allows (s_rc e) x.
  Proof. intros M. destruct M; cbn; auto. now apply (b_constructors k). Qed.
  Lemma known_zero_ok e x : known_zero e = true -> means e x -> x = 0.
  Proof. unfold known_zero. intros H M. destruct M; cbn in H; try discriminate. now apply is_zero_eq. Qed.
  Lemma known_one_ok e x : known_one e = true -> means e x -> x = 1.
  Proof. unfold known_one. intros H M. destruct M; cbn in H; try discriminate. now apply feqb_eq. Qed.
  Lemma known_minus_one_ok e x : known_minus_one e = true -> means e x -> x = - (1).
  Proof. unfold known_minus_one. intros H M. destruct M; cbn in H; try discriminate. now apply feqb_eq. Qed.
  Lemma means_eq e x y : means e x -> x = y -> means e y.
  Proof. now intros M <-. Qed.

  Hypothesis Hp : prime (Z.pos p).
  Lemma cancel_r (a b c : F p) : c <> 0 -> a * c = b * c -> a = b.
  Proof.
    intros C H. transitivity (a * (c * finv c)); [rewrite finv_r by auto; ring|]. transitivity (b * (c * finv c)); [|rewrite finv_r by auto; ring].
    transitivity (a * c * finv c); [ring|]. rewrite H. ring.
  Qed.
  Lemma means_fun e x : means e x -> forall y, means e y -> x = y.
  Proof.
    intros M. induction M as [k|s r A|a b r x y Ma IHa Mb IHb A|a b r x y Ma IHa Mb IHb A|a b r x y Ma IHa Mb IHb A|a b r x y z Ma IHa Mb IHb Ny Ez A|a r x Ma IHa A];
      intros y0 M0; inversion M0; subst; auto; try (now f_equal; auto).
    match goal with H1 : SeSpec.means env a (?z' * ?y'), H2 : SeSpec.means env b ?y' |- _ => apply IHa in H1; apply IHb in H2; subst end. eapply cancel_r; eauto.
  Qed.

  Lemma sadd_ok a b x y : means a x -> means b y -> means (sadd a b) (x + y).
  Proof.
    intros Ma Mb. unfold SeModel.sadd.
    destruct (known_zero a) eqn:Za; [apply (means_eq b y); auto; rewrite (known_zero_ok a x) by auto; ring|].
    destruct (known_zero b) eqn:Zb; [apply (means_eq a x); auto; rewrite (known_zero_ok b y) by auto; ring|].
    assert (G : means (if match a with SNeg n _ => sexp_eqb eqb n b | _ => false end || match b with SNeg n _ => sexp_eqb eqb n a | _ => false end then Concrete 0 else SBin a SAdd b (combine_sum (s_rc a) (s_rc b))) (x + y)).
    { destruct (_ || _) eqn:C.
      - replace (x + y) with (0 : F p); [constructor|]. apply orb_true_iff in C. destruct C as [C|C].
        + destruct a; try discriminate. apply sexp_eqb_ok in C. subst. inversion Ma; subst. rewrite (means_fun b x0 ltac:(eassumption) y Mb). ring.
        + destruct b; try discriminate. apply sexp_eqb_ok in C. subst. inversion Mb; subst. rewrite (means_fun a x0 ltac:(eassumption) x Ma). ring.
      - constructor; auto. apply b_sum; now apply means_rc. }
    destruct a; try exact G. destruct b; try exact G. inversion Ma; subst. inversion Mb; subst. constructor.
  Qed.
  Lemma minus (x : F p) : - x = - (1) * x. Proof. ring. Qed.
  Lemma neg_rc e x : means e x -> rc_allows (multiple (s_rc e) (- (1))) (- x).
  Proof. intros M. rewrite (minus x). apply b_multiple. now apply means_rc. Qed.
  Lemma sneg_ok a : forall x, means a x -> means (sneg a) (- x).
  Proof.
    induction a as [k|s r|l IHl o e IHe r|e IHe r]; intros x M.
    - inversion M; subst. constructor.
    - constructor; auto. now apply neg_rc in M.
    - pose proof (neg_rc _ _ M) as R.
      assert (G : means (SNeg (SBin l o e r) (multiple r (- (1)))) (- x)) by (constructor; auto).
      destruct o; [| | |destruct l; exact G].
      + inversion M; subst. replace (sneg (SBin l SAdd e r)) with (sadd (sneg l) (sneg e)) by (destruct l; reflexivity). apply (means_eq _ (- x0 + - y)); [apply sadd_ok; auto|ring].
      + inversion M; subst. replace (sneg (SBin l SSub e r)) with (SBin e SSub l (multiple r (- (1)))) by (destruct l; reflexivity). apply (means_eq _ (y - x0)); [|ring]. constructor; auto. replace (y - x0) with (- (x0 - y)) by ring. auto.
      + inversion M as [| | | |? ? ? x0 y Ml Me Rr Ea Eb| |]; subst.
        assert (N1 : forall k, l = Concrete k -> means (SBin (Concrete (- k)) SMul e (multiple r (- (1)))) (- (x0 * y))).
        { intros k ->. inversion Ml; subst. apply (means_eq _ (- x0 * y)); [|ring]. apply m_mul; try apply m_concrete; auto. replace (- x0 * y) with (- (x0 * y)) by ring. auto. }
        assert (N2 : forall k, e = Concrete k -> means (SBin l SMul (Concrete (- k)) (multiple r (- (1)))) (- (x0 * y))).
        { intros k ->. inversion Me; subst. apply (means_eq _ (x0 * - y)); [|ring]. apply m_mul; try apply m_concrete; auto. replace (x0 * - y) with (- (x0 * y)) by ring. auto. }
        destruct l; cbn [SeModel.sneg s_rc]; auto; destruct e; auto.
    - inversion M; subst. cbn [SeModel.sneg]. eapply means_eq; eauto. ring.
  Qed.
  Lemma ssub_ok a b x y : means a x -> means b y -> means (ssub a b) (x - y).
  Proof.
    intros Ma Mb. unfold SeModel.ssub.
    destruct (known_zero a) eqn:Za; [apply (means_eq _ (- y)); [now apply sneg_ok|]; rewrite (known_zero_ok a x) by auto; ring|].
    destruct (known_zero b) eqn:Zb; [apply (means_eq a x); auto; rewrite (known_zero_ok b y) by auto; ring|].
    assert (G : means (if sexp_eqb eqb a b then Concrete 0 else SBin a SSub b (combine_sum (s_rc a) (rc_neg (s_rc b)))) (x - y)).
    { destruct (sexp_eqb eqb a b) eqn:C.
      - apply sexp_eqb_ok in C. subst. rewrite (means_fun b x Ma y Mb). apply (means_eq _ 0); [constructor|ring].
      - constructor; auto. replace (x - y) with (x + - y) by ring. apply b_sum; [|apply b_neg]; now apply means_rc. }
    destruct a; try exact G. destruct b; try exact G. inversion Ma; subst. inversion Mb; subst. constructor.
  Qed.
  Lemma smul_ok a b x y : means a x -> means b y -> means (smul a b) (x * y).
  Proof.
    intros Ma Mb. unfold SeModel.smul.
    assert (G : means (if known_zero a || known_zero b then Concrete 0 else if known_one a then b else if known_one b then a
      else if known_minus_one a then sneg b else if known_minus_one b then sneg a else SBin a SMul b (combine_product (s_rc a) (s_rc b))) (x * y)).
    { destruct (_ || _) eqn:Z0.
      { apply (means_eq _ 0); [constructor|]. apply orb_true_iff in Z0. destruct Z0 as [H|H]; [rewrite (known_zero_ok a x)|rewrite (known_zero_ok b y)]; auto; ring. }
      destruct (known_one a) eqn:Oa; [apply (means_eq _ y); auto; rewrite (known_one_ok a x) by auto; ring|].
      destruct (known_one b) eqn:Ob; [apply (means_eq _ x); auto; rewrite (known_one_ok b y) by auto; ring|].
      destruct (known_minus_one a) eqn:Na; [apply (means_eq _ (- y)); [now apply sneg_ok|]; rewrite (known_minus_one_ok a x) by auto; ring|].
      destruct (known_minus_one b) eqn:Nb; [apply (means_eq _ (- x)); [now apply sneg_ok|]; rewrite (known_minus_one_ok b y) by auto; ring|].
      constructor; auto. apply b_product; now apply means_rc. }
    destruct a; try exact G. destruct b; try exact G. inversion Ma; subst. inversion Mb; subst. constructor.
  Qed.
  Lemma quotient (x y z : F p) : y <> 0 -> z * y = x -> x / y = z.
  Proof. intros N H. unfold fdiv. rewrite <- H. transitivity (z * (y * finv y)); [ring|]. rewrite finv_r by auto. ring. Qed.
  Lemma any (x : F p) : rc_allows unconstrained x.
  Proof. apply (b_constructors x). Qed.
  Lemma sdiv_ok a b x y z : means a x -> means b y -> y <> 0 -> z * y = x -> exists r, sdiv a b = Some r /\ means r z.
  Proof.
    intros Ma Mb Ny Ez. unfold SeModel.sdiv.
    assert (G : means (if known_zero a then Concrete 0 else if known_one b then a else if known_minus_one b then sneg a else SBin a SDiv b unconstrained) z).
    { destruct (known_zero a) eqn:Za.
      { apply (means_eq _ 0); [constructor|]. apply (cancel_r _ _ y); auto. rewrite Ez, (known_zero_ok a x) by auto. ring. }
      destruct (known_one b) eqn:Ob; [apply (means_eq _ x); auto; rewrite <- Ez, (known_one_ok b y) by auto; ring|].
      destruct (known_minus_one b) eqn:Nb; [apply (means_eq _ (- x)); [now apply sneg_ok|]; rewrite <- Ez, (known_minus_one_ok b y) by auto; ring|].
      eapply m_div; eauto. apply any. }
    destruct a; try (now eexists; split; [reflexivity|exact G]). destruct b; try (now eexists; split; [reflexivity|exact G]).
    inversion Ma; subst. inversion Mb; subst. rewrite (proj2 (feqb_neq y 0) Ny). eexists. split; [reflexivity|]. rewrite (quotient _ y z) by auto. constructor.
  Qed.
  Lemma sinv_ok a x z : means a x -> z * x = 1 -> exists r, sinv a = Some r /\ means r z.
  Proof.
    intros M Ez.
    assert (Nx : x <> 0). { intros ->. apply (one_neq_zero Hp). rewrite <- Ez. ring. }
    assert (G : means (SBin (Concrete 1) SDiv a unconstrained) z). { eapply m_div; eauto; [constructor|apply any]. }
    destruct a as [k|s r|l o e r|e r]; cbn [sinv]; try (now eexists; split; [reflexivity|exact G]).
    - inversion M; subst. rewrite (proj2 (feqb_neq x 0) Nx). eexists. split; [reflexivity|]. rewrite (quotient 1 x z) by auto. constructor.
    - destruct o; try (now eexists; split; [reflexivity|exact G]). inversion M; subst. eexists. split; [reflexivity|].
      eapply m_div; eauto; [|transitivity (z * x * y); [ring|]; rewrite Ez; ring|apply any].
      intros H. match goal with H : ?y <> 0 |- _ => apply H end. transitivity (z * x * y); [rewrite Ez; ring|]. transitivity (z * (x * y)); [ring|]. rewrite H. ring.
  Qed.
End Ops.

Section Subst.
  Context {S : Type} {p : positive} (eqb : S -> S -> bool).
  Hypothesis eqb_ok : forall a b, eqb a b = true <-> a = b.
  Hypothesis Hp : prime (Z.pos p).
  Local Notation E := (sexp S p).

  Lemma substitution_none v (s e : E) : compute_substitution eqb v s e = Some None -> ~ occurs v e.
  Proof.
    induction e as [k|x r|l IHl o e IHe r|e IHe r]; cbn [compute_substitution occurs]; intros H.
    - tauto.
    - destruct (eqb x v) eqn:Q; [discriminate|]. intros ->. rewrite (proj2 (eqb_ok v v) eq_refl) in Q. discriminate.
    - destruct (compute_substitution eqb v s l) as [[l'|]|]; [| |discriminate];
        (destruct (compute_substitution eqb v s e) as [[e'|]|]; [| |discriminate]).
      4: now intros [Q|Q]; [apply IHl in Q|apply IHe in Q].
      all: exfalso; destruct o; try discriminate; cbn in H; destruct (sdiv _ _ _); discriminate.
    - destruct (compute_substitution eqb v s e) as [[e'|]|]; try discriminate. now apply IHe.
  Qed.
  Lemma substitution_absent v (s e : E) : ~ occurs v e -> compute_substitution eqb v s e = Some None.
  Proof.
    induction e as [k|x r|l IHl o e IHe r|e IHe r]; cbn [compute_substitution occurs]; intros H.
    - reflexivity.
    - destruct (eqb x v) eqn:Q; auto. apply eqb_ok in Q. now destruct H.
    - rewrite IHl, IHe by tauto. reflexivity.
    - now rewrite IHe.
  Qed.
  Lemma substitution_ok env v (s e : E) y : means env s y -> forall x, means (with_value eqb env v y) e x ->
    exists c, compute_substitution eqb v s e = Some c /\ means env (match c with Some e' => e' | None => e end) x.
  Proof.
    intros Ms x M.
    assert (St : forall a, ~ occurs v a -> forall x, means (with_value eqb env v y) a x -> means env a x).
    { induction a as [k|s0 r|l IHl o e0 IHe r|e0 IHe r]; cbn [occurs]; intros Na x0 M0.
      - inversion M0; subst. constructor.
      - assert (W : with_value eqb env v y s0 = env s0). { unfold with_value. destruct (eqb s0 v) eqn:Q; auto. apply eqb_ok in Q. now destruct Na. }
        inversion M0; subst. rewrite W in *. now constructor.
      - inversion M0; subst; [apply m_add|apply m_sub|apply m_mul|eapply m_div]; eauto.
      - inversion M0; subst. apply m_neg; eauto. }
    induction M as [k|s0 r A|a b r x1 y1 Ma IHa Mb IHb A|a b r x1 y1 Ma IHa Mb IHb A|a b r x1 y1 Ma IHa Mb IHb A|a b r x1 y1 z Ma IHa Mb IHb Ny Ez A|a r x1 Ma IHa A]; cbn [compute_substitution].
    - exists None. split; auto. constructor.
    - unfold with_value in *. destruct (eqb s0 v) eqn:Q; [exists (Some s); auto|exists None; split; auto; now constructor].
    - destruct IHa as (ca & -> & Ra), IHb as (cb & -> & Rb).
      destruct ca as [a'|], cb as [b'|]; (eexists; split; [reflexivity|]); try (now apply sadd_ok); now apply m_add.
    - destruct IHa as (ca & -> & Ra), IHb as (cb & -> & Rb).
      destruct ca as [a'|], cb as [b'|]; (eexists; split; [reflexivity|]); try (now apply ssub_ok); now apply m_sub.
    - destruct IHa as (ca & -> & Ra), IHb as (cb & -> & Rb).
      destruct ca as [a'|], cb as [b'|]; (eexists; split; [reflexivity|]); try (now apply smul_ok); now apply m_mul.
    - destruct IHa as (ca & -> & Ra), IHb as (cb & -> & Rb).
      destruct (sdiv_ok eqb eqb_ok env Hp _ _ x1 y1 z Ra Rb Ny Ez) as (d & Ed & Md).
      destruct ca as [a'|], cb as [b'|]; try (rewrite Ed; eexists; split; [reflexivity|exact Md]).
      eexists. split; [reflexivity|]. eapply m_div; eauto.
    - destruct IHa as (ca & -> & Ra). destruct ca as [a'|]; (eexists; split; [reflexivity|]); [now apply sneg_ok|now apply m_neg].
  Qed.

  (** Symbols never appear out of nowhere. *)
  Lemma occ_add v (a b : E) : occurs v (sadd eqb a b) -> occurs v a \/ occurs v b.
  Proof.
    unfold sadd. destruct (known_zero a); auto. destruct (known_zero b); auto.
    assert (G : occurs v (if match a with SNeg n _ => sexp_eqb eqb n b | _ => false end || match b with SNeg n _ => sexp_eqb eqb n a | _ => false end then Concrete 0 else SBin a SAdd b (combine_sum (s_rc a) (s_rc b))) -> occurs v a \/ occurs v b).
    { destruct (_ || _); cbn; tauto. }
    destruct a; try exact G. destruct b; try exact G. cbn. tauto.
  Qed.
  Lemma occ_neg v (a : E) : occurs v (sneg eqb a) -> occurs v a.
  Proof.
    induction a as [k|s r|l IHl o e IHe r|e IHe r]; try (cbn; tauto).
    destruct o.
    - replace (sneg eqb (SBin l SAdd e r)) with (sadd eqb (sneg eqb l) (sneg eqb e)) by (destruct l; reflexivity). intros H. apply occ_add in H. cbn [occurs]. tauto.
    - destruct l; cbn; tauto.
    - destruct l; cbn; try tauto; destruct e; cbn; tauto.
    - destruct l; cbn; tauto.
  Qed.
  Lemma occ_sub v (a b : E) : occurs v (ssub eqb a b) -> occurs v a \/ occurs v b.
  Proof.
    unfold ssub. destruct (known_zero a); [intros H; apply occ_neg in H; auto|]. destruct (known_zero b); auto.
    assert (G : occurs v (if sexp_eqb eqb a b then Concrete 0 else SBin a SSub b (combine_sum (s_rc a) (rc_neg (s_rc b)))) -> occurs v a \/ occurs v b).
    { destruct (sexp_eqb _ _ _); cbn; tauto. }
    destruct a; try exact G. destruct b; try exact G. cbn. tauto.
  Qed.
  Lemma occ_mul v (a b : E) : occurs v (smul eqb a b) -> occurs v a \/ occurs v b.
  Proof.
    unfold smul.
    assert (G : occurs v (if known_zero a || known_zero b then Concrete 0 else if known_one a then b else if known_one b then a
      else if known_minus_one a then sneg eqb b else if known_minus_one b then sneg eqb a else SBin a SMul b (combine_product (s_rc a) (s_rc b))) -> occurs v a \/ occurs v b).
    { destruct (_ || _); [cbn; tauto|]. destruct (known_one a); auto. destruct (known_one b); auto.
      destruct (known_minus_one a); [intros H; apply occ_neg in H; auto|]. destruct (known_minus_one b); [intros H; apply occ_neg in H; auto|]. cbn; tauto. }
    destruct a; try exact G. destruct b; try exact G. cbn. tauto.
  Qed.
  Lemma occ_div v (a b r : E) : sdiv eqb a b = Some r -> occurs v r -> occurs v a \/ occurs v b.
  Proof.
    unfold sdiv.
    assert (G : Some (if known_zero a then Concrete 0 else if known_one b then a else if known_minus_one b then sneg eqb a else SBin a SDiv b unconstrained) = Some r -> occurs v r -> occurs v a \/ occurs v b).
    { intros Q. injection Q as <-. destruct (known_zero a); [cbn; tauto|]. destruct (known_one b); auto. destruct (known_minus_one b); [intros H; apply occ_neg in H; auto|]. cbn; tauto. }
    destruct a; try exact G. destruct b; try exact G. destruct (feqb k0 0); [discriminate|]. intros Q. injection Q as <-. cbn. tauto.
  Qed.
  Lemma substitution_occurs v w (s e : E) c : compute_substitution eqb v s e = Some (Some c) -> occurs w c -> occurs w s \/ (occurs w e /\ w <> v).
  Proof.
    revert c. induction e as [k|x r|l IHl o e IHe r|e IHe r]; cbn [compute_substitution occurs]; intros c H O.
    - discriminate.
    - destruct (eqb x v); [|discriminate]. injection H as <-. auto.
    - destruct (compute_substitution eqb v s l) as [cl|] eqn:Cl; [|discriminate].
      destruct (compute_substitution eqb v s e) as [ce|] eqn:Ce; [|discriminate].
      assert (Pl : occurs w (match cl with Some y => y | None => l end) -> occurs w s \/ (occurs w l /\ w <> v)).
      { destruct cl as [l'|]; [now apply IHl|]. intros W. right. split; auto. intros ->. exact (substitution_none _ _ _ Cl W). }
      assert (Pe : occurs w (match ce with Some y => y | None => e end) -> occurs w s \/ (occurs w e /\ w <> v)).
      { destruct ce as [e'|]; [now apply IHe|]. intros W. right. split; auto. intros ->. exact (substitution_none _ _ _ Ce W). }
      assert (J : occurs w (match cl with Some y => y | None => l end) \/ occurs w (match ce with Some y => y | None => e end)).
      { destruct cl as [l'|], ce as [e'|]; try discriminate; destruct o;
          try (injection H as <-; first [now apply occ_add in O|now apply occ_sub in O|now apply occ_mul in O]);
          destruct (sdiv eqb _ _) eqn:D; try discriminate; injection H as <-; now apply (occ_div _ _ _ _ D). }
      destruct J as [J|J]; [apply Pl in J|apply Pe in J]; tauto.
    - destruct (compute_substitution eqb v s e) as [[e'|]|] eqn:C; try discriminate. injection H as <-. apply occ_neg in O. destruct (IHe _ eq_refl O); tauto.
  Qed.
End Subst.

Section Transform.
  Context {S1 S2 : Type} {p : positive}.
  Lemma transform_none (f : S1 -> option S2) (e : sexp S1 p) : try_transform f e = None <-> exists v, occurs v e /\ f v = None.
  Proof.
    induction e as [k|x r|l IHl o e IHe r|e IHe r]; cbn [try_transform occurs].
    - split; [discriminate|]. now intros (v & [] & _).
    - destruct (f x) eqn:Q; split; try discriminate; auto; [intros (v & -> & H); congruence|intros _; now exists x].
    - destruct (try_transform f l) as [l'|]; [destruct (try_transform f e) as [e'|]|]; split; try discriminate; auto.
      + intros (v & [O|O] & N0); [assert (X : Some l' = None) by (apply IHl; eauto)|assert (X : Some e' = None) by (apply IHe; eauto)]; discriminate X.
      + intros _. destruct (proj1 IHe eq_refl) as (v & O & N0). eauto.
      + intros _. destruct (proj1 IHl eq_refl) as (v & O & N0). eauto.
    - destruct (try_transform f e) as [e'|]; split; try discriminate; auto.
      + intros X. now apply IHe in X.
      + intros _. now apply IHe.
  Qed.
  Lemma from_symbol_ok {S} (env : S -> F p) s r : rc_allows r (env s) -> means env (from_symbol s r) (env s).
  Proof. intros A. unfold from_symbol. destruct (try_to_single_value r) as [v|] eqn:Q; [apply (b_single _ _ (env s)) in Q; apply Q in A; rewrite A; constructor|now constructor]. Qed.
  Lemma transform_ok (f : S1 -> option S2) (env1 : S1 -> F p) (env2 : S2 -> F p) e x :
    (forall v w, f v = Some w -> occurs v e -> env1 v = env2 w) -> means env1 e x -> forall e', try_transform f e = Some e' -> means env2 e' x.
  Proof.
    intros Hf M. induction M as [k|s0 r A|a b r x1 y1 Ma IHa Mb IHb A|a b r x1 y1 Ma IHa Mb IHb A|a b r x1 y1 Ma IHa Mb IHb A|a b r x1 y1 z Ma IHa Mb IHb Ny Ez A|a r x1 Ma IHa A]; cbn [try_transform]; intros e' Q.
    - injection Q as <-. constructor.
    - destruct (f s0) as [w|] eqn:W; [|discriminate]. injection Q as <-. assert (Ew : env1 s0 = env2 w) by (apply Hf; cbn; auto). rewrite Ew in *. now apply from_symbol_ok.
    - destruct (try_transform f a) as [a'|]; [|discriminate]. destruct (try_transform f b) as [b'|]; [|discriminate]. injection Q as <-. apply m_add; auto; [apply IHa|apply IHb]; auto; intros; apply Hf; cbn; auto.
    - destruct (try_transform f a) as [a'|]; [|discriminate]. destruct (try_transform f b) as [b'|]; [|discriminate]. injection Q as <-. apply m_sub; auto; [apply IHa|apply IHb]; auto; intros; apply Hf; cbn; auto.
    - destruct (try_transform f a) as [a'|]; [|discriminate]. destruct (try_transform f b) as [b'|]; [|discriminate]. injection Q as <-. apply m_mul; auto; [apply IHa|apply IHb]; auto; intros; apply Hf; cbn; auto.
    - destruct (try_transform f a) as [a'|]; [|discriminate]. destruct (try_transform f b) as [b'|]; [|discriminate]. injection Q as <-. apply (m_div _ _ _ _ x1 y1); auto; [apply IHa|apply IHb]; auto; intros; apply Hf; cbn; auto.
    - destruct (try_transform f a) as [a'|]; [|discriminate]. injection Q as <-. apply m_neg; auto; apply IHa; auto; intros; apply Hf; cbn; auto.
  Qed.
End Transform.

(** C56: the operations on run-time constants simplify, but they always return an expression with the right
    value and with range constraints that are true; no operation panics on operands that are defined. *)
Theorem C56_arithmetic : forall (S : Type) (p : positive) (eqb : S -> S -> bool) (env : S -> F p), prime (Z.pos p) -> (forall a b, eqb a b = true <-> a = b) ->
  forall a b x y, means env a x -> means env b y ->
  means env (sadd eqb a b) (x + y) /\ means env (ssub eqb a b) (x - y) /\ means env (smul eqb a b) (x * y) /\ means env (sneg eqb a) (- x).
Proof.
  intros S p eqb env Hp Q a b x y Ma Mb. split; [|split; [|split]]; [apply sadd_ok|apply ssub_ok|apply smul_ok|apply sneg_ok]; auto.
Qed.
(** C56: division by something that is not zero, and inverses. *)
Theorem C56_division : forall (S : Type) (p : positive) (eqb : S -> S -> bool) (env : S -> F p), prime (Z.pos p) -> (forall a b, eqb a b = true <-> a = b) ->
  forall a b x y, means env a x -> means env b y -> y <> 0 ->
  exists q i z w, sdiv eqb a b = Some q /\ means env q z /\ z * y = x /\ sinv b = Some i /\ means env i w /\ w * y = 1.
Proof.
  intros S p eqb env Hp Q a b x y Ma Mb Ny.
  destruct (sdiv_ok eqb Q env Hp a b x y (x * finv y) Ma Mb Ny) as (q & Eq & Mq).
  { rewrite <- (Rmul_assoc F_ring_theory), finv_l by auto. rewrite (Rmul_comm F_ring_theory). apply (Rmul_1_l F_ring_theory). }
  destruct (sinv_ok env Hp b y (finv y) Mb) as (i & Ei & Mi); [now apply finv_l|].
  exists q, i, (x * finv y), (finv y). split; [auto|]. split; [auto|]. split; [|split; [auto|split; [auto|now apply finv_l]]].
  rewrite <- (Rmul_assoc F_ring_theory), finv_l by auto. rewrite (Rmul_comm F_ring_theory). apply (Rmul_1_l F_ring_theory).
Qed.
(** C56: what an expression says about itself without knowing the symbols: its range constraint, the number it
    is, or that it is not zero; and there is only one value. *)
Theorem C56_known : forall (S : Type) (p : positive) (env : S -> F p), prime (Z.pos p) ->
  forall e x, means env e x ->
  rc_allows (s_rc e) x /\ (forall k, s_number e = Some k -> x = k) /\ (known_nonzero e = true -> x <> 0) /\
  (known_zero e = true -> x = 0) /\ (known_one e = true -> x = 1) /\ (known_minus_one e = true -> x + 1 = 0) /\ (forall y, means env e y -> y = x).
Proof.
  intros S p env Hp e x M. pose proof (means_rc env e x M) as R.
  split; [exact R|]. split. { intros k K. destruct M; cbn in K; congruence. }
  split. { intros N0 ->. unfold known_nonzero in N0. apply rc_allows_iff in R. rewrite R in N0. discriminate. }
  split; [intros; eapply known_zero_ok; eauto|]. split; [intros; eapply known_one_ok; eauto|].
  split. { intros H. rewrite (known_minus_one_ok env e x H M), (Radd_comm F_ring_theory). apply (Ropp_def F_ring_theory). }
  intros y My. exact (means_fun env Hp e y My x M).
Qed.
Theorem C56_symbol : forall (S : Type) (p : positive) (env : S -> F p) s r, rc_allows r (env s) -> means env (from_symbol s r) (env s).
Proof. intros S p env s r. apply from_symbol_ok. Qed.

(** C56: substituting: the result has the value that the expression has when the symbol has the value of the
    replacement, there is no panic, the symbol is gone, and nothing is returned exactly if there is nothing to do. *)
Theorem C56_substitute : forall (S : Type) (p : positive) (eqb : S -> S -> bool), prime (Z.pos p) -> (forall a b, eqb a b = true <-> a = b) ->
  forall v (s e : sexp S p),
  (forall env x y, means env s y -> means (with_value eqb env v y) e x -> exists e', substitute eqb v s e = Some e' /\ means env e' x) /\
  (forall e' w, substitute eqb v s e = Some e' -> occurs w e' -> (occurs w s /\ occurs v e) \/ (occurs w e /\ w <> v)) /\
  (compute_substitution eqb v s e = Some None <-> ~ occurs v e).
Proof.
  intros S p eqb Hp Q v s e. split; [|split].
  - intros env x y Ms M. destruct (substitution_ok eqb Q Hp env v s e y Ms x M) as (c & C & Mc). unfold substitute. rewrite C. destruct c; eauto.
  - intros e' w H O. unfold substitute in H. destruct (compute_substitution eqb v s e) as [[c|]|] eqn:C; try discriminate; injection H as <-.
    + destruct (substitution_occurs eqb Q v w s e c C O) as [H|H]; auto. left. split; auto.
      assert (D : occurs v e \/ ~ occurs v e).
      { clear - Q. induction e as [k|x r|l IHl o e IHe r|e IHe r]; cbn [occurs]; try tauto. destruct (eqb x v) eqn:X; [left; now apply Q|right; intros ->; rewrite (proj2 (Q v v) eq_refl) in X; discriminate]. }
      destruct D as [D|D]; auto. rewrite (substitution_absent eqb Q v s e D) in C. discriminate.
    + right. split; auto. intros ->. exact (substitution_none eqb Q v s e C O).
  - split; [now apply substitution_none|now apply substitution_absent].
Qed.

(** C56: changing the type of the symbols keeps the value; it fails exactly if a symbol has no counterpart. *)
Theorem C56_transform : forall (S1 S2 : Type) (p : positive) (f : S1 -> option S2) (e : sexp S1 p),
  (forall env1 env2 x e', try_transform f e = Some e' -> (forall v w, f v = Some w -> occurs v e -> env1 v = env2 w) -> means env1 e x -> means env2 e' x) /\
  (try_transform f e = None <-> exists v, occurs v e /\ f v = None).
Proof. intros S1 S2 p f e. split; [intros env1 env2 x e' T H M; eapply transform_ok; eauto|apply transform_none]. Qed.

(** C56: conversion into another kind of expressions, whose operations compute: no panic, the right value, and
    success if all divisions are by numbers. *)
Theorem C56_convert : forall (S : Type) (p : positive) (X : Type) (add sub mul : X -> X -> X) (neg : X -> X) (number : F p -> X) (var_ : S -> X) (try_number : X -> option (F p))
    (env : S -> F p) (value : X -> F p), prime (Z.pos p) ->
  (forall a b, value (add a b) = value a + value b) -> (forall a b, value (sub a b) = value a - value b) -> (forall a b, value (mul a b) = value a * value b) ->
  (forall a, value (neg a) = - value a) -> (forall k, value (number k) = k) -> (forall s, value (var_ s) = env s) -> (forall a k, try_number a = Some k -> value a = k) ->
  forall e x, means env e x ->
  exists o, try_to_expression add sub mul neg number var_ try_number e = Some o /\ (forall t, o = Some t -> value t = x) /\
    ((forall k, try_number (number k) = Some k) -> only_by_numbers e -> o <> None).
Proof.
  intros S p X add sub mul neg number var_ try_number env value Hp Ha Hs Hm Hn Hk Hv Ht e x M.
  induction M as [k|s0 r A|a b r x1 y1 Ma IHa Mb IHb A|a b r x1 y1 Ma IHa Mb IHb A|a b r x1 y1 Ma IHa Mb IHb A|a b r x1 y1 z Ma IHa Mb IHb Ny Ez A|a r x1 Ma IHa A]; cbn [try_to_expression only_by_numbers].
  - eexists. split; [reflexivity|]. split; [|discriminate]. intros t Q. injection Q as <-. auto.
  - eexists. split; [reflexivity|]. split; [|discriminate]. intros t Q. injection Q as <-. auto.
  - destruct IHa as (oa & -> & Va & Sa), IHb as (ob & -> & Vb & Sb). destruct oa as [ta|]; [destruct ob as [tb|]|]; (eexists; split; [reflexivity|]); (split; [|]); try discriminate; try (intros K [Oa Ob]; now destruct (Sa K Oa)); try (intros K [Oa Ob]; now destruct (Sb K Ob)).
    intros t Q. injection Q as <-. rewrite Ha, (Va _ eq_refl), (Vb _ eq_refl). reflexivity.
  - destruct IHa as (oa & -> & Va & Sa), IHb as (ob & -> & Vb & Sb). destruct oa as [ta|]; [destruct ob as [tb|]|]; (eexists; split; [reflexivity|]); (split; [|]); try discriminate; try (intros K [Oa Ob]; now destruct (Sa K Oa)); try (intros K [Oa Ob]; now destruct (Sb K Ob)).
    intros t Q. injection Q as <-. rewrite Hs, (Va _ eq_refl), (Vb _ eq_refl). reflexivity.
  - destruct IHa as (oa & -> & Va & Sa), IHb as (ob & -> & Vb & Sb). destruct oa as [ta|]; [destruct ob as [tb|]|]; (eexists; split; [reflexivity|]); (split; [|]); try discriminate; try (intros K [Oa Ob]; now destruct (Sa K Oa)); try (intros K [Oa Ob]; now destruct (Sb K Ob)).
    intros t Q. injection Q as <-. rewrite Hm, (Va _ eq_refl), (Vb _ eq_refl). reflexivity.
  - destruct IHa as (oa & -> & Va & Sa), IHb as (ob & Eb & Vb & Sb). rewrite Eb. destruct oa as [ta|]; [destruct ob as [tb|]|].
    + destruct (try_number tb) as [k|] eqn:T.
      * apply Ht in T. rewrite (Vb _ eq_refl) in T. subst k. rewrite (proj2 (feqb_neq y1 0) Ny). eexists. split; [reflexivity|]. split; [|discriminate].
        intros t Q. injection Q as <-. rewrite Hm, Hk, (Va _ eq_refl), <- Ez. unfold fdiv. rewrite (Rmul_1_l F_ring_theory), <- (Rmul_assoc F_ring_theory), finv_r by auto. rewrite (Rmul_comm F_ring_theory). apply (Rmul_1_l F_ring_theory).
      * eexists. split; [reflexivity|]. split; [discriminate|]. intros K [_ [k ->]]. cbn in Eb. injection Eb as <-. rewrite K in T. discriminate.
    + eexists. split; [reflexivity|]. split; [discriminate|]. intros K [_ [k ->]]. cbn in Eb. discriminate.
    + eexists. split; [reflexivity|]. split; [discriminate|]. intros K [Oa _]. now destruct (Sa K Oa).
  - destruct IHa as (oa & -> & Va & Sa). destruct oa as [ta|]; (eexists; split; [reflexivity|]); split; try discriminate; auto.
    intros t Q. injection Q as <-. now rewrite Hn, (Va _ eq_refl).
Qed.

(** A byte [x0] and a bit [x1]: [-(3 * x0 - x1 / 2)], then [x0] is replaced by [x1 + 7]. *)
Definition se_byte : sexp nat babybear := from_symbol 0%nat (from_mask 255).
Definition se_bit : sexp nat babybear := from_symbol 1%nat (from_mask 1).
Definition se_half : option (sexp nat babybear) := sdiv Nat.eqb se_bit (Concrete (of_N 2)).
Definition se_all : option (sexp nat babybear) :=
  match se_half with Some h => Some (sneg Nat.eqb (ssub Nat.eqb (smul Nat.eqb (Concrete (of_N 3)) se_byte) h)) | None => None end.
Definition se_env (i : nat) : F babybear := match i with 0%nat => of_N 8 | _ => of_N 1 end.
Definition se_new : sexp nat babybear := sadd Nat.eqb se_bit (Concrete (of_N 7)).
Lemma se_meaning : exists e x, se_all = Some e /\ means se_env e x /\ means (with_value Nat.eqb se_env 0%nat (of_N 8)) e x /\ x * of_N 2 = of_N 1 - of_N 48.
Proof.
  pose proof (fun a b => PeanoNat.Nat.eqb_eq a b) as Q.
  assert (G : forall env, env 0%nat = of_N 8 -> env 1%nat = of_N 1 -> exists e, se_all = Some e /\ means env e (- (of_N 3 * of_N 8 - of_N 1 / of_N 2))).
  { intros env E0 E1.
    assert (Mb : means env se_byte (of_N 8)) by (rewrite <- E0; apply from_symbol_ok; rewrite E0; apply rc_allows_iff; reflexivity).
    assert (M1 : means env se_bit (of_N 1)) by (rewrite <- E1; apply from_symbol_ok; rewrite E1; apply rc_allows_iff; reflexivity).
    assert (N2 : (of_N 2 : F babybear) <> 0) by (apply feqb_neq; reflexivity).
    destruct (sdiv_ok Nat.eqb Q env prime_babybear se_bit (Concrete (of_N 2)) _ _ (of_N 1 / of_N 2) M1 (m_concrete _ _) N2) as (h & Eh & Mh).
    { apply feqb_eq. vm_compute. reflexivity. }
    unfold se_all, se_half. rewrite Eh. eexists. split; [reflexivity|].
    apply sneg_ok; auto using prime_babybear. apply ssub_ok; auto using prime_babybear. apply smul_ok; auto using prime_babybear. constructor. }
  destruct (G se_env eq_refl eq_refl) as (e & Ee & Me). destruct (G (with_value Nat.eqb se_env 0%nat (of_N 8)) eq_refl eq_refl) as (e2 & Ee2 & Me2).
  exists e. eexists. split; [exact Ee|]. split; [exact Me|]. split; [congruence|]. apply feqb_eq. vm_compute. reflexivity.
Qed.
Definition se_check (e : option (sexp nat babybear)) : bool :=
  match e with
  | Some (SBin (SBin (Symbol 1%nat _) SDiv (Concrete _) _) SSub (SBin (Concrete _) SMul (Symbol 0%nat _) _) _) => true
  | _ => false
  end.
Lemma se_shape e : se_check (Some e) = true -> exists r1 k1 r2 k2 r3 r4 r5, e = SBin (SBin (Symbol 1%nat r1) SDiv (Concrete k1) r2) SSub (SBin (Concrete k2) SMul (Symbol 0%nat r3) r4) r5.
Proof.
  unfold se_check. intros C. destruct e as [| |a o b r5|]; try discriminate.
  destruct a as [| |a1 o1 b1 r2|]; try discriminate. destruct a1 as [|v1 r1| |]; try discriminate. destruct v1 as [|[|]]; try discriminate. destruct o1; try discriminate. destruct b1 as [k1| | |]; try discriminate.
  destruct o; try discriminate. destruct b as [| |a2 o2 b2 r4|]; try discriminate. destruct a2 as [k2| | |]; try discriminate. destruct o2; try discriminate. destruct b2 as [|v2 r3| |]; try discriminate. destruct v2; try discriminate.
  now exists r1, k1, r2, k2, r3, r4, r5.
Qed.
Example C56_example : exists e e' x,
  se_all = Some e /\ se_check (Some e) = true /\ means se_env e x /\ x * of_N 2 = of_N 1 - of_N 48 /\
  means se_env se_new (of_N 8) /\ substitute Nat.eqb 0%nat se_new e = Some e' /\ means se_env e' x /\ occurs 0%nat e /\ ~ occurs 0%nat e' /\ known_nonzero se_new = true.
Proof.
  pose proof (fun a b => PeanoNat.Nat.eqb_eq a b) as Q.
  destruct se_meaning as (e & x & Ee & Me & Me8 & Ex).
  assert (Mn : means se_env se_new (of_N 8)).
  { apply (means_eq se_env _ (of_N 1 + of_N 7)); [|apply feqb_eq; reflexivity]. apply sadd_ok; auto using prime_babybear; [|constructor].
    apply (from_symbol_ok se_env 1%nat). apply rc_allows_iff. reflexivity. }
  destruct (C56_substitute nat babybear Nat.eqb prime_babybear Q 0%nat se_new e) as (H1 & H2 & H3).
  destruct (H1 se_env x (of_N 8) Mn Me8) as (e' & Es & Me').
  assert (C : se_check se_all = true) by (vm_compute; reflexivity).
  exists e, e', x. split; [exact Ee|]. split; [now rewrite <- Ee|]. split; [exact Me|]. split; [exact Ex|]. split; [exact Mn|]. split; [exact Es|]. split; [exact Me'|].
  split. { rewrite Ee in C. apply se_shape in C. destruct C as (? & ? & ? & ? & ? & ? & ? & ->). cbn [occurs]. auto. }
  split; [|vm_compute; reflexivity]. intros O. destruct (H2 e' 0%nat Es O) as [[A _]|[_ A]]; [|now destruct A]. vm_compute in A. intuition discriminate.
Qed.

(** The same expression with other symbols, and converted to a sum of its value. *)
Example C56_convert_example : exists e e' x o,
  se_all = Some e /\ try_transform (fun i => if Nat.leb i 1 then Some (Nat.eqb i 1) else None) e = Some e' /\
  means (fun b : bool => if b then of_N 1 else of_N 8) e' x /\
  try_to_expression fadd fsub fmul fopp (fun k => k) se_env (fun k => Some k) e = Some (Some o) /\ o = x /\ try_transform (fun i => if Nat.leb i 0 then Some i else None) e = None.
Proof.
  destruct se_meaning as (e & x & Ee & Me & _ & _).
  assert (C : se_check se_all = true) by (vm_compute; reflexivity). rewrite Ee in C.
  assert (O : forall v, occurs v e <-> v = 0%nat \/ v = 1%nat).
  { clear - C. apply se_shape in C. destruct C as (? & ? & ? & ? & ? & ? & ? & ->). cbn [occurs]. intros v. intuition. }
  assert (B : only_by_numbers e).
  { clear - C. apply se_shape in C. destruct C as (? & ? & ? & ? & ? & ? & ? & ->). cbn [only_by_numbers]. repeat split; eauto. }
  destruct (C56_transform nat bool babybear (fun i => if Nat.leb i 1 then Some (Nat.eqb i 1) else None) e) as [T1 T2].
  destruct (try_transform (fun i => if Nat.leb i 1 then Some (Nat.eqb i 1) else None) e) as [e'|] eqn:T.
  2: { destruct (proj1 T2 eq_refl) as (v & Ov & N0). apply O in Ov. destruct Ov; subst v; discriminate. }
  destruct (C56_convert nat babybear (F babybear) fadd fsub fmul fopp (fun k => k) se_env (fun k => Some k) se_env (fun k => k) prime_babybear ltac:(reflexivity) ltac:(reflexivity) ltac:(reflexivity) ltac:(reflexivity) ltac:(reflexivity) ltac:(reflexivity) ltac:(now intros ? ? [= ->]) e x Me)
    as (o & Eo & Vo & So).
  destruct o as [o|]; [|now destruct (So (fun _ => eq_refl) B)].
  exists e, e', x, o. split; [exact Ee|]. split; [exact T|]. split; [|split; [exact Eo|split; [now apply Vo|]]].
  - apply (T1 se_env (fun b : bool => if b then of_N 1 else of_N 8) x e' eq_refl); auto. intros v w H Ov. apply O in Ov. destruct Ov; subst v; injection H as <-; reflexivity.
  - apply (C56_transform nat nat babybear (fun i => if Nat.leb i 0 then Some i else None) e). exists 1%nat. split; [apply O; auto|reflexivity].
Qed.

(** C56, found by the proof: the divisor has to be different from zero.  Substituting can make it zero: then there
    is a panic if the numerator is a number, too, and otherwise a division by zero stays in the expression; zero
    divided by anything is simplified to zero. *)
Theorem C56_zero_divisor : forall (S : Type) (p : positive) (eqb : S -> S -> bool) (k : F p) (a : sexp S p) r,
  sdiv eqb (Concrete k : sexp S p) (Concrete 0) = None /\ sinv (Concrete (S := S) (p := p) 0) = None /\
  (forall env x, ~ means env (SBin a SDiv (Concrete 0) r) x) /\
  (forall s rs, known_zero a = true -> sdiv eqb a (Symbol s rs) = Some (Concrete 0)).
Proof.
  intros S p eqb k a r. cbn [sdiv sinv]. rewrite feqb_refl. split; [reflexivity|]. split; [reflexivity|]. split.
  - intros env x M. inversion M; subst. match goal with H : SeSpec.means _ (Concrete 0) ?y |- _ => inversion H; subst end. congruence.
  - intros s rs Z0. unfold sdiv. rewrite Z0. destruct a; reflexivity.
Qed.

Print Assumptions C56_arithmetic.
Print Assumptions C56_division.
Print Assumptions C56_known.
Print Assumptions C56_symbol.
Print Assumptions C56_substitute.
Print Assumptions C56_transform.
Print Assumptions C56_convert.
Print Assumptions C56_zero_divisor.
