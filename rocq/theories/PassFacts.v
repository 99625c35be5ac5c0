(** Facts about the clean-up passes. *)
From Coq Require Import Arith NArith ZArith Znumtheory Bool List Permutation Lia ZifyBool ZifyNat.
From Verif Require Import Field ExprModel ExprFacts ExprWf ExprMore SolveModel SystemModel Spec PassModel PassSpec MemFacts.
Import ListNotations.
Local Open Scope nat_scope.

Section Lists.
  Lemma all_some_spec {A B} (f : A -> option B) l r : all_some f l = Some r <-> Forall2 (fun x y => f x = Some y) l r.
  Proof.
    revert r. induction l as [|x l IH]; intros r; cbn [all_some].
    - split; [intros [= <-]; constructor|intros H; inversion H; auto].
    - split.
      + destruct (f x) as [y|] eqn:E; [|discriminate]. destruct (all_some f l) as [t|]; [|discriminate]. intros [= <-]. constructor; auto. now apply IH.
      + intros H. inversion H as [|? y ? t H1 H2]; subst. rewrite H1. apply IH in H2. now rewrite H2.
  Qed.
  Lemma all_some_none {A B} (f : A -> option B) l : all_some f l = None -> exists x, In x l /\ f x = None.
  Proof. induction l as [|x l IH]; cbn [all_some]; [discriminate|]. destruct (f x) eqn:E; [|exists x; cbn; auto]. destruct (all_some f l); [discriminate|]. intros _. destruct IH as (y & H1 & H2); auto. exists y. cbn. auto. Qed.
  Lemma Forall2_in_r {A B} (R : A -> B -> Prop) l r y : Forall2 R l r -> In y r -> exists x, In x l /\ R x y.
  Proof. induction 1 as [|a b l r H1 H2 IH]; [intros []|]. intros [<-|H]; [exists a; cbn; auto|]. destruct (IH H) as (x & X & Y). exists x. cbn. auto. Qed.
  Lemma Forall2_in_l {A B} (R : A -> B -> Prop) l r x : Forall2 R l r -> In x l -> exists y, In y r /\ R x y.
  Proof. induction 1 as [|a b l r H1 H2 IH]; [intros []|]. intros [<-|H]; [exists b; cbn; auto|]. destruct (IH H) as (y & X & Y). exists y. cbn. auto. Qed.
End Lists.

Section PassFacts.
  Context {p : positive}.
  Local Notation gexp := (gexp p).
  Add Ring Fr : (F_ring_theory (p:=p)).
  Lemma gexps_eqb_eq (a b : list gexp) : gexps_eqb a b = true <-> a = b.
  Proof.
    revert b. induction a as [|x a IH]; intros [|y b]; cbn [gexps_eqb]; split; try discriminate; auto.
    - intros H. apply andb_true_iff in H. destruct H as [H1 H2]. apply gexp_eqb_eq in H1. apply IH in H2. congruence.
    - intros [= -> ->]. apply andb_true_iff. split; [now apply gexp_eqb_eq|now apply IH].
  Qed.
  Lemma bus_eqb_eq (a b : busi gexp) : bus_eqb a b = true <-> a = b.
  Proof. unfold bus_eqb. rewrite gexps_eqb_eq. destruct a, b. unfold fields. cbn. split; congruence. Qed.
  Lemma in_gexps x (l : list gexp) : existsb (gexp_eqb x) l = true <-> In x l.
  Proof. rewrite existsb_exists. split; [intros (y & H & E); apply gexp_eqb_eq in E; congruence|intros H; exists x; split; auto; now apply gexp_eqb_eq]. Qed.
  Lemma gunique_in seen (l : list gexp) x : In x (gunique seen l) <-> In x l /\ ~ In x seen.
  Proof.
    revert seen. induction l as [|y l IH]; intros seen; cbn [gunique]; [cbn; tauto|]. destruct (existsb (gexp_eqb y) seen) eqn:E.
    - apply in_gexps in E. rewrite IH. cbn. split; [tauto|]. intros [[<-|H] H1]; tauto.
    - assert (N : ~ In y seen) by (intros H; apply in_gexps in H; congruence). cbn [In]. rewrite IH. cbn [In]. split.
      + intros [<-|[H1 H2]]; [tauto|]. split; [tauto|]. tauto.
      + intros [[<-|H] H1]; [tauto|]. destruct (existsb (gexp_eqb x) [y]) eqn:E2; [apply in_gexps in E2; cbn in E2; tauto|]. right. split; auto. intros [->|H2]; [|tauto]. assert (In x [x]) as H3 by (now left). apply in_gexps in H3. congruence.
  Qed.
  Lemma gunique_nodup seen (l : list gexp) : NoDup (gunique seen l).
  Proof. revert seen. induction l as [|y l IH]; intros seen; cbn [gunique]; [constructor|]. destruct (existsb _ _); auto. constructor; auto. rewrite gunique_in. cbn. tauto. Qed.
  Lemma gunique_le seen (l : list gexp) : length (gunique seen l) <= length l.
  Proof. revert seen. induction l as [|y l IH]; intros seen; cbn [gunique length]; auto. destruct (existsb _ _); [specialize (IH seen); lia|cbn [length]; specialize (IH (y :: seen)); lia]. Qed.
  Lemma gunique_full seen (l : list gexp) : ~ length (gunique seen l) < length l -> NoDup l.
  Proof.
    revert seen. induction l as [|y l IH]; intros seen; cbn [gunique length]; [constructor|]. destruct (existsb _ _); [pose proof (gunique_le seen l); lia|]. cbn [length]. intros H. assert (H' : gunique (y :: seen) l = l).
    { assert (L : length (gunique (y :: seen) l) = length l) by (pose proof (gunique_le (y :: seen) l); lia). clear - L. revert L. generalize (y :: seen). clear. induction l as [|x l IH]; intros s; cbn [gunique length]; auto. destruct (existsb _ _); [pose proof (gunique_le s l); lia|]. cbn [length]. intros [= H]. f_equal. auto. }
    constructor; [|apply (IH (y :: seen)); lia]. rewrite <- H'. rewrite gunique_in. cbn. tauto.
  Qed.

  Context (stateful : F p -> bool) (legal : F p -> list (F p) -> Prop).
  Local Notation admissible := (admissible stateful legal).
  Local Notation sends := (sends stateful).
  Local Notation acceptable := (acceptable stateful legal).
  Lemma same_refl c : same_meaning stateful legal c c.
  Proof. intros s. split; [tauto|auto]. Qed.
  Lemma same_trans a b c : same_meaning stateful legal a b -> same_meaning stateful legal b c -> same_meaning stateful legal a c.
  Proof. intros H1 H2 s. destruct (H1 s) as [A1 A2], (H2 s) as [B1 B2]. split; [tauto|]. intros H. rewrite (B2 (proj1 A1 H)). auto. Qed.
  Lemma same_algs a a' b d d' : (forall s, Forall (solves s) a <-> Forall (solves s) a') -> same_meaning stateful legal (mkCS a b d) (mkCS a' b d').
  Proof. intros H s. unfold PassSpec.admissible, sys_solves, PassSpec.sends, bus_values. cbn [algs buses]. rewrite H. tauto. Qed.
  Lemma trivial_same c : same_meaning stateful legal c (remove_trivial_constraints c).
  Proof.
    intros s. unfold remove_trivial_constraints, PassSpec.admissible, sys_solves, PassSpec.sends, bus_values. cbn [algs buses]. split.
    - assert (H1 : Forall (solves s) (algs c) <-> Forall (solves s) (filter (fun e => negb (is_redundant e)) (algs c))).
      { rewrite !Forall_forall. split; [intros H e He; apply filter_In in He; apply H; tauto|]. intros H e He. destruct (is_redundant e) eqn:E; [now apply (gis_zero_eval s)|]. apply H, filter_In. rewrite E. auto. }
      assert (H2 : Forall acceptable (map (bmap (eval s)) (buses c)) <-> Forall acceptable (map (bmap (eval s)) (filter (fun b => negb (gis_zero (mult b))) (buses c)))).
      { rewrite !Forall_map, !Forall_forall. split; [intros H e He; apply filter_In in He; apply H; tauto|]. intros H b Hb. destruct (gis_zero (mult b)) eqn:E; [|apply H, filter_In; rewrite E; auto]. intros _ Hm. exfalso. apply Hm. cbn. now apply (gis_zero_eval s). }
      rewrite <- H1, <- H2. tauto.
    - intros _. induction (buses c) as [|b l IH]; cbn [filter map]; auto. destruct (gis_zero (mult b)) eqn:E; cbn [negb map filter].
      + cbn [bmap mult]. rewrite (gis_zero_eval s _ E). replace (is_zero (0 : F p)%F) with true by (symmetry; now apply is_zero_eq). cbn [negb]. rewrite andb_false_r. exact IH.
      + rewrite IH. reflexivity.
  Qed.
  Lemma drop_equal_in seen l b : In b l -> In b (drop_equal stateful seen l) \/ In b seen.
  Proof.
    revert seen. induction l as [|x l IH]; intros seen; [intros []|]. cbn [drop_equal]. intros [->|H].
    - destruct (try_to_known (bus_id b)); [|left; now left]. destruct (negb (stateful f)); [|left; now left]. destruct (existsb (bus_eqb b) seen) eqn:E; [|left; now left]. apply existsb_exists in E. destruct E as (y & Hy & E). apply bus_eqb_eq in E. subst. auto.
    - destruct (try_to_known (bus_id x)); [|cbn; destruct (IH seen H); auto]. destruct (negb (stateful f)); [|cbn; destruct (IH seen H); auto]. destruct (existsb _ _); [auto|]. destruct (IH (x :: seen) H) as [H1|[<-|H1]]; cbn; auto.
  Qed.
  Lemma drop_equal_sub seen l b : In b (drop_equal stateful seen l) -> In b l.
  Proof.
    revert seen. induction l as [|x l IH]; intros seen; [intros []|]. cbn [drop_equal]. destruct (try_to_known (bus_id x)) as [id|]; [destruct (negb (stateful id)); [destruct (existsb _ _)|]|]; cbn [In]; intros H; try (destruct H as [->|H]; [now left|]); right; eauto.
  Qed.
  Lemma equal_same c : same_meaning stateful legal c (remove_equal_bus_interactions stateful c).
  Proof.
    intros s. unfold remove_equal_bus_interactions, PassSpec.admissible, sys_solves, PassSpec.sends, bus_values. cbn [algs buses]. split.
    - assert (H2 : Forall acceptable (map (bmap (eval s)) (buses c)) <-> Forall acceptable (map (bmap (eval s)) (drop_equal stateful [] (buses c)))).
      { rewrite !Forall_map, !Forall_forall. split; intros H b Hb; apply H; [now apply drop_equal_sub in Hb|]. destruct (drop_equal_in [] _ _ Hb) as [|[]]; auto. }
      rewrite <- H2. tauto.
    - intros _. generalize (@nil (busi gexp)). induction (buses c) as [|b l IH]; intros seen; cbn [drop_equal map]; auto. destruct (try_to_known (bus_id b)) as [id|] eqn:Ei; [|cbn [map filter]; rewrite IH; auto]. destruct (stateful id) eqn:Es; cbn [negb]; [cbn [map filter]; rewrite IH; auto|].
      assert (F : stateful (bus_id (bmap (eval s) b)) = false) by (cbn; rewrite (try_to_known_eval s _ _ Ei); auto).
      cbn [filter]. rewrite F. cbn [andb]. destruct (existsb _ _); [auto|]. cbn [map filter]. rewrite F. cbn [andb]. auto.
  Qed.

  Hypothesis Hp : prime (Z.pos p).
  Lemma solves_factors s (e : gexp) : wf e -> solves s e <-> exists f, In f (to_factors e) /\ eval s f = 0%F.
  Proof. intros W. apply to_factors_zero_iff; auto. Qed.
  Lemma product_eval (l : list gexp) e s : product l = Some e -> eval s e = 0%F <-> exists f, In f l /\ eval s f = 0%F.
  Proof.
    destruct l as [|f l]; [discriminate|]. cbn [product]. intros [= <-]. revert f. induction l as [|g l IH]; intros f; cbn [fold_left].
    - split; [intros H; exists f; cbn; auto|intros (x & [<-|[]] & H); auto].
    - rewrite IH. cbn [In]. split.
      + intros (x & [<-|H] & E); [|exists x; auto]. rewrite eval_gmul in E. apply mul_eq_zero in E; auto. destruct E; [exists f|exists g]; auto.
      + intros (x & [<-|[<-|H]] & E); [exists (gmul f g)|exists (gmul f g)|exists x]; split; auto; rewrite eval_gmul, E; ring.
  Qed.
  Lemma dup_same c c' : Forall wf (algs c) -> remove_duplicate_factors c = Some c' -> same_meaning stateful legal c c' /\ buses c' = buses c /\ derived c' = derived c.
  Proof.
    intros W. unfold remove_duplicate_factors. destruct (existsb _ _); [discriminate|]. destruct (all_some _ _) as [new|] eqn:E; [|discriminate]. intros [= <-]. cbn [buses derived]. split; auto. apply all_some_spec in E. destruct c as [a b d]. cbn [algs buses derived] in *. apply same_algs. intros s. rewrite Forall_app, !Forall_forall.
    rewrite Forall_forall in W. assert (N : forall e f, In e (filter has_duplicate_factors a) -> product (gunique [] (to_factors e)) = Some f -> solves s f <-> solves s e).
    { intros e f He Hf. apply filter_In in He. rewrite (solves_factors s e) by (apply W; tauto). unfold solves. rewrite (product_eval _ _ s Hf). split; intros (x & Hx & H0); exists x; split; auto; [apply gunique_in in Hx; tauto|apply gunique_in; cbn; tauto]. }
    split.
    - intros H. split; [intros e He; apply filter_In in He; apply H; tauto|]. intros f Hf. destruct (Forall2_in_r _ _ _ _ E Hf) as (e & He & Hef). apply (N e f); auto. apply filter_In in He. apply H. tauto.
    - intros [H1 H2] e He. destruct (has_duplicate_factors e) eqn:Ed.
      + assert (Hi : In e (filter has_duplicate_factors a)) by (apply filter_In; auto). destruct (Forall2_in_l _ _ _ _ E Hi) as (f & Hf & Hef). apply (N e f); auto.
      + apply H1, filter_In. rewrite Ed. auto.
  Qed.
  (** ** Factors *)
  Lemma gscale_nz_1 (e : gexp) : gscale_nz 1%F e = e.
  Proof.
    induction e as [q l c IH] using gexp_ind'. cbn [gscale_nz]. f_equal; [| |ring].
    - induction IH as [|[a b] q [H _] _ IHq]; cbn [map fst snd] in *; auto. now rewrite H, IHq.
    - induction l as [|[v k] l IHl]; cbn [map fst snd]; auto. rewrite IHl. f_equal. f_equal. ring.
  Qed.
  Lemma div_1_1 : (1 / 1 : F p)%F = 1%F.
  Proof. unfold fdiv. now rewrite finv_r by (auto using one_neq_zero). Qed.
  Lemma gscale_1 (e : gexp) : gscale e (1 / 1)%F = e.
  Proof. unfold gscale. rewrite div_1_1. replace (is_zero (1 : F p)%F) with false by (symmetry; apply is_zero_neq, one_neq_zero, Hp). apply gscale_nz_1. Qed.
  Definition prime_factor (f : gexp) : Prop := wf f /\ to_factors f = [f] /\ try_to_known f = None.
  Lemma prime_from_var v : prime_factor (from_var v).
  Proof. split; [now apply wf_from_var|]. split; [|reflexivity]. unfold from_var. cbn [to_factors length]. replace (is_zero (0 : F p)%F) with true by (symmetry; now apply is_zero_eq). reflexivity. Qed.
  Lemma is_zero_mul_inv (c d : F p) : d <> 0%F -> is_zero (c * (1 / d))%F = is_zero c.
  Proof.
    intros Hd. pose proof (inv1_mul_neq_zero d Hp Hd) as H. destruct (is_zero c) eqn:E.
    - apply is_zero_eq in E. subst. apply is_zero_eq. ring.
    - apply is_zero_neq in E. apply is_zero_neq. intros H0. apply mul_eq_zero in H0; tauto.
  Qed.
  Lemma prime_factors (e : gexp) : wf e -> try_to_known e = None -> to_factors e <> [] /\ Forall prime_factor (to_factors e).
  Proof.
    induction e as [q l c IH] using gexp_ind'. intros W K. pose proof W as W0. apply wf_GE in W. destruct W as [[Hs Hn] Hq]. unfold quad_ok in Hq.
    cbn [to_factors]. destruct (length q + length l + (if is_zero c then 0 else 1)) as [|[|n]] eqn:En.
    - destruct q; [|cbn in En; lia]. destruct l; [|cbn in En; lia]. discriminate.
    - destruct q as [|[a b] [|? ?]]; [| |cbn in En; lia].
      + destruct l as [|[v k] l]; [discriminate|]. split; [discriminate|]. constructor; [|constructor]. apply prime_from_var.
      + inversion_clear IH as [|? ? [IHa IHb] _]. inversion_clear Hq as [|? ? Hab _]. cbn [fst snd] in *. destruct Hab as (Wa & Wb & Ka & Kb). destruct (IHa Wa Ka) as [Na Fa], (IHb Wb Kb) as [Nb Fb]. split; [destruct (to_factors a); [tauto|discriminate]|]. now apply Forall_app.
    - split; [discriminate|]. constructor; [|constructor]. set (d := if negb (is_zero c) then c else match l with (_, k) :: _ => k | [] => 1%F end).
      assert (Hd : d <> 0%F).
      { unfold d. destruct (is_zero c) eqn:Ec; cbn [negb]; [|now apply is_zero_neq]. destruct l as [|[v k] l]; [now apply one_neq_zero|]. inversion_clear Hn; auto. }
      pose proof (inv1_mul_neq_zero d Hp Hd) as Hi. unfold gscale. replace (is_zero (1 / d)%F) with false by (symmetry; now apply is_zero_neq). split; [apply wf_gscale_nz; auto|]. split; [|now apply try_to_known_gscale_nz].
      assert (G : to_factors (gscale_nz (1 / d)%F (GE q l c)) = [gscale (gscale_nz (1 / d)%F (GE q l c)) (1 / (if negb (is_zero c) then c * (1 / d) else match l with (_, k) :: _ => k * (1 / d) | [] => 1 end))%F]).
      { cbn [gscale_nz]. cbn [to_factors]. rewrite !map_length, is_zero_mul_inv, En by auto. f_equal. f_equal. f_equal. destruct (negb _); auto. destruct l as [|[v k] l]; reflexivity. }
      rewrite G. f_equal. match goal with |- gscale _ (1 / ?x)%F = _ => replace x with (1 : F p)%F end; [apply gscale_1|].
      unfold d. destruct (is_zero c) eqn:Ec; cbn [negb].
      + destruct l as [|[v k] l]; auto. inversion_clear Hn as [|? ? Hk _]. cbn in Hk. unfold fdiv. transitivity (k * finv k)%F; [symmetry; now apply finv_r|ring].
      + apply is_zero_neq in Ec. unfold fdiv. transitivity (c * finv c)%F; [symmetry; now apply finv_r|ring].
  Qed.
  Lemma factors_wf (e : gexp) : wf e -> Forall wf (to_factors e).
  Proof.
    intros W. destruct (try_to_known e) as [k|] eqn:K.
    - destruct e as [[|? ?] [|? ?] c]; try discriminate. cbn [to_factors length]. destruct (is_zero c); cbn; [constructor; [apply wf_gzero|constructor]|constructor].
    - eapply Forall_impl; [|apply (prime_factors e W K)]. intros f H. apply H.
  Qed.
  Lemma product_prime f l : Forall prime_factor (f :: l) -> let e := fold_left gmul l f in wf e /\ to_factors e = f :: l /\ try_to_known e = None.
  Proof.
    intros H. inversion_clear H as [|? ? (W & Tf & K) Hl]. cbv zeta. replace (f :: l) with (to_factors f ++ l) by (rewrite Tf; reflexivity). clear Tf. revert f W K. induction Hl as [|g l (Wg & Tg & Kg) _ IH]; intros f W K; cbn [fold_left]; [rewrite app_nil_r; auto|].
    assert (E : gmul f g = GE [(f, g)] [] 0%F) by (unfold gmul; rewrite Kg, K; reflexivity).
    destruct (IH (gmul f g)) as (H1 & H2 & H3); [now apply wf_gmul|rewrite E; reflexivity|]. split; [exact H1|]. split; [|exact H3]. rewrite H2, E. cbn [to_factors length]. replace (is_zero (0 : F p)%F) with true by (symmetry; now apply is_zero_eq). cbn. rewrite Tg, <- app_assoc. reflexivity.
  Qed.
  Lemma product_wf (l : list gexp) e : Forall wf l -> product l = Some e -> wf e.
  Proof. destruct l as [|f l]; [discriminate|]. cbn [product]. intros H [= <-]. inversion_clear H as [|? ? W Hl]. revert f W. induction Hl as [|g l Wg _ IH]; intros f W; cbn [fold_left]; auto. apply IH. now apply wf_gmul. Qed.
  Lemma dup_wf (c c' : csys p) : Forall wf (algs c) -> remove_duplicate_factors c = Some c' -> Forall wf (algs c').
  Proof.
    intros W. unfold remove_duplicate_factors. destruct (existsb _ _); [discriminate|]. destruct (all_some _ _) as [new|] eqn:E; [|discriminate]. intros [= <-]. cbn [algs]. rewrite Forall_forall in W. apply all_some_spec in E. apply Forall_app. split; apply Forall_forall; intros e He.
    - apply filter_In in He. apply W. tauto.
    - destruct (Forall2_in_r _ _ _ _ E He) as (f & Hf & H). apply filter_In in Hf. eapply product_wf; [|exact H]. apply Forall_forall. intros g Hg. apply gunique_in in Hg. assert (Wf : wf f) by (apply W; tauto). apply factors_wf in Wf. rewrite Forall_forall in Wf. apply Wf. tauto.
  Qed.
  Lemma multiple_incl (fs gs : list gexp) : multiple fs gs = true <-> incl fs gs.
  Proof. unfold multiple. rewrite forallb_forall. split; intros H x Hx; [apply in_gexps; auto|apply in_gexps; auto]. Qed.
  Lemma redundant_same c c' : Forall wf (algs c) -> remove_redundant_constraints c = Some c' -> same_meaning stateful legal c c' /\ buses c' = buses c /\ derived c' = derived c.
  Proof.
    intros W. unfold remove_redundant_constraints. destruct (remove_duplicate_factors c) as [c1|] eqn:Ed; [|discriminate]. destruct (dup_same _ _ W Ed) as (S1 & B1 & D1). apply (dup_wf _ _ W) in Ed. clear W. destruct (existsb _ _); [discriminate|].
    destruct (all_some _ _) as [rs|] eqn:E; [|discriminate]. intros [= <-]. cbn [buses derived]. split; auto. eapply same_trans; [exact S1|]. clear S1 B1 D1 c. apply all_some_spec in E. destruct c1 as [a b d]. cbn [algs buses derived] in *. apply same_algs. intros s. rewrite !Forall_forall in *. split.
    - intros H e He. apply in_map_iff in He. destruct He as ((i & e') & <- & He). apply filter_In in He. destruct He as [He _]. apply H. apply enumerate_in in He. eapply nth_error_In. apply He.
    - intros H e He. apply In_nth_error in He. destruct He as (j & Hj).
      enough (G : forall n m j e, length (to_factors e) < n -> j < m -> nth_error a j = Some e -> solves s e) by (eapply (G (S _) (S j)); eauto).
      clear j e Hj. induction n as [|n IHn]; [lia|]. induction m as [|m IHm]; [lia|]. intros j e Hl Hm Hj.
      destruct (existsb (Nat.eqb j) (concat rs)) eqn:Ej.
      + apply existsb_exists in Ej. destruct Ej as (j' & Hin & Ej). apply Nat.eqb_eq in Ej. subst j'. apply in_concat in Hin. destruct Hin as (r & Hr & Hin). destruct (Forall2_in_r _ _ _ _ E Hr) as ((i & fs) & Hi & Hred). unfold redundant_by in Hred. cbn [fst snd] in Hred. destruct (existsb _ _) eqn:Ex; [discriminate|]. injection Hred as <-. apply in_map_iff in Hin. destruct Hin as ((j' & gs) & Ej & Hin). cbn in Ej. subst j'. apply filter_In in Hin. destruct Hin as [Hin Hc]. cbn [fst snd] in Hc.
        assert (Hle : ~ length gs < length fs) by (intros Hlt; assert (X : existsb (fun j_gs => Nat.ltb (length (snd j_gs)) (length fs)) (filter (fun j_gs => multiple fs (snd j_gs)) (enumerate (map to_factors a))) = true) by (apply existsb_exists; exists (j, gs); split; auto; cbn; now apply Nat.ltb_lt); congruence).
        apply filter_In in Hin. destruct Hin as [Hin Hm']. cbn [snd] in Hm'. apply multiple_incl in Hm'. apply enumerate_in in Hi, Hin. rewrite nth_error_map in Hi, Hin. rewrite Hj in Hin. cbn in Hin. injection Hin as <-. destruct (nth_error a i) as [ei|] eqn:Ei; [|discriminate]. cbn in Hi. injection Hi as <-.
        assert (Se : solves s ei).
        { apply orb_true_iff in Hc. destruct (Nat.lt_ge_cases (length (to_factors ei)) (length (to_factors e))) as [Hlt|Hge]; [eapply (IHn (S i)); eauto; lia|]. destruct Hc as [Hc|Hc]; [apply Nat.ltb_lt in Hc; lia|]. apply Nat.ltb_lt in Hc. eapply (IHm i); eauto; lia. }
        apply nth_error_In in Ei, Hj. apply (solves_factors s) in Se; [|auto]. apply (solves_factors s); auto. destruct Se as (f & Hf & H0). exists f. auto.
      + apply H. apply in_map_iff. exists (j, e). split; auto. apply filter_In. cbn [fst]. rewrite Ej. split; auto. now apply enumerate_in.
  Qed.
  Lemma unreferenced_same c : same_meaning stateful legal c (remove_unreferenced_derived_variables c).
  Proof. destruct c as [a b d]. apply same_algs. tauto. Qed.
  Lemma trivial_simplifications_same c c' : Forall wf (algs c) -> trivial_simplifications stateful c = Some c' -> same_meaning stateful legal c c'.
  Proof.
    intros W. unfold trivial_simplifications. set (c1 := remove_trivial_constraints c). set (c2 := remove_equal_bus_interactions stateful c1). destruct (remove_redundant_constraints c2) as [c3|] eqn:E; [|discriminate]. cbn. intros [= <-]. eapply same_trans; [apply trivial_same|]. eapply same_trans; [apply equal_same|]. eapply same_trans; [|apply unreferenced_same]. apply (redundant_same c2); auto. unfold c2, c1. cbn. apply Forall_forall. intros e He. apply filter_In in He. rewrite Forall_forall in W. apply W. tauto.
  Qed.
  (** ** Panics *)
  Definition nonzero_constant (e : gexp) : Prop := exists k, e = from_number k /\ k <> 0%F.
  Lemma no_factors (e : gexp) : wf e -> to_factors e = [] <-> nonzero_constant e.
  Proof.
    intros W. split.
    - intros H. destruct (try_to_known e) as [k|] eqn:K; [|destruct (prime_factors e W K); tauto]. destruct e as [[|? ?] [|? ?] c]; try discriminate. cbn [to_factors length] in H. destruct (is_zero c) eqn:Ec; [discriminate|]. exists c. split; auto. now apply is_zero_neq.
    - intros (k & -> & Hk). unfold from_number. cbn [to_factors length]. apply is_zero_neq in Hk. rewrite Hk. reflexivity.
  Qed.
  Lemma known_factors_nodup (e : gexp) k : try_to_known e = Some k -> NoDup (to_factors e).
  Proof. destruct e as [[|? ?] [|? ?] c]; try discriminate. cbn [to_factors length]. destruct (is_zero c); cbn; repeat constructor; auto. Qed.
  Lemma nodup_full seen (l : list gexp) : NoDup l -> (forall x, In x l -> ~ In x seen) -> gunique seen l = l.
  Proof.
    intros H. revert seen. induction H as [|x l Hx _ IH]; intros seen Hs; cbn [gunique]; auto. destruct (existsb _ _) eqn:E; [apply in_gexps in E; exfalso; eapply Hs; eauto; now left|]. f_equal. apply IH. intros y Hy [<-|H]; [tauto|]. eapply Hs; eauto. now right.
  Qed.
  Lemma dup_some c : Forall wf (algs c) -> Forall (fun e => ~ nonzero_constant e) (algs c) -> exists c', remove_duplicate_factors c = Some c' /\ Forall (fun e => ~ nonzero_constant e /\ NoDup (to_factors e)) (algs c').
  Proof.
    intros W N. rewrite Forall_forall in *. unfold remove_duplicate_factors. destruct (existsb _ _) eqn:E.
    { apply existsb_exists in E. destruct E as (e & He & E). exfalso. apply (N e He), no_factors; auto. destruct (to_factors e); [auto|discriminate]. }
    assert (P : forall e, In e (filter has_duplicate_factors (algs c)) -> exists f, product (gunique [] (to_factors e)) = Some f /\ ~ nonzero_constant f /\ NoDup (to_factors f)).
    { intros e He. apply filter_In in He. destruct He as [He Hd]. unfold has_duplicate_factors in Hd. apply Nat.ltb_lt in Hd. destruct (try_to_known e) as [k|] eqn:K.
      { exfalso. apply known_factors_nodup in K. rewrite nodup_full in Hd by (auto). lia. }
      destruct (prime_factors e (W e He) K) as [Hne Hf]. destruct (gunique [] (to_factors e)) as [|f l] eqn:Eu.
      { destruct (to_factors e) as [|x t] eqn:Et; [tauto|]. assert (In x (gunique [] (x :: t))) by (apply gunique_in; cbn; auto). rewrite Eu in H. destruct H. }
      assert (Pf : Forall prime_factor (f :: l)). { rewrite Forall_forall in *. intros g Hg. rewrite <- Eu in Hg. apply gunique_in in Hg. apply Hf. tauto. }
      pose proof (product_prime f l Pf) as Hpp. cbv zeta in Hpp. destruct Hpp as (H1 & H2 & H3). exists (fold_left gmul l f). split; [reflexivity|]. split; [intros (k & Ek & _); rewrite Ek in H3; discriminate|]. rewrite H2, <- Eu. apply gunique_nodup. }
    destruct (all_some _ _) as [new|] eqn:Ea.
    - eexists. split; [reflexivity|]. cbn [algs]. rewrite Forall_forall. intros e He. apply in_app_iff in He. destruct He as [He|He].
      + apply filter_In in He. destruct He as [He Hd]. split; auto. unfold has_duplicate_factors in Hd. apply gunique_full with (seen := []). intros H. apply Nat.ltb_lt in H. rewrite H in Hd. discriminate.
      + apply all_some_spec in Ea. destruct (Forall2_in_r _ _ _ _ Ea He) as (x & Hx & H). destruct (P x Hx) as (f & H1 & H2 & H3). assert (f = e) by congruence. subst. auto.
    - apply all_some_none in Ea. destruct Ea as (x & Hx & H). destruct (P x Hx) as (f & H1 & _). congruence.
  Qed.
  Lemma redundant_some c : Forall wf (algs c) -> Forall (fun e => ~ nonzero_constant e) (algs c) -> remove_redundant_constraints c <> None.
  Proof.
    intros W N. destruct (dup_some c W N) as (c1 & E1 & H1). pose proof (dup_wf _ _ W E1) as W1. unfold remove_redundant_constraints. rewrite E1. rewrite Forall_forall in *. destruct (existsb _ _) eqn:E.
    { apply existsb_exists in E. destruct E as ((j & gs) & He & E). apply enumerate_in in He. apply nth_error_In in He. apply in_map_iff in He. destruct He as (e & <- & He). exfalso. apply (proj1 (H1 e He)), no_factors; auto. cbn in E. destruct (to_factors e); [auto|discriminate]. }
    destruct (all_some _ _) eqn:Ea; [intros; discriminate|]. apply all_some_none in Ea. destruct Ea as ((i & fs) & Hi & Hr). apply enumerate_in in Hi. apply nth_error_In in Hi. apply in_map_iff in Hi. destruct Hi as (e & <- & He). unfold redundant_by in Hr. cbv zeta in Hr. cbn [fst snd] in Hr. match type of Hr with (if ?x then _ else _) = _ => destruct x eqn:Ex; [|discriminate Hr] end. apply existsb_exists in Ex. destruct Ex as ((j & gs) & Hj & Hlt). cbn [snd] in Hlt. apply Nat.ltb_lt in Hlt. apply filter_In in Hj. destruct Hj as [Hj Hm]. cbn [snd] in Hm. apply multiple_incl in Hm. exfalso. pose proof (NoDup_incl_length (proj2 (H1 e He)) Hm). lia.
  Qed.
  Lemma trivial_simplifications_none c : Forall wf (algs c) -> trivial_simplifications stateful c = None <-> exists e, In e (algs c) /\ nonzero_constant e.
  Proof.
    intros W. assert (W2 : Forall wf (algs (remove_equal_bus_interactions stateful (remove_trivial_constraints c)))) by (cbn; apply Forall_forall; intros e He; apply filter_In in He; rewrite Forall_forall in W; apply W; tauto). unfold trivial_simplifications. split.
    - intros H. destruct (remove_redundant_constraints _) eqn:E; [discriminate|]. destruct (existsb (fun e => match to_factors e with [] => true | _ => false end) (algs (remove_trivial_constraints c))) eqn:Ex.
      + apply existsb_exists in Ex. destruct Ex as (e & He & Et). pose proof He as He0. cbn in He. apply filter_In in He. exists e. split; [tauto|]. rewrite Forall_forall in W. apply no_factors; [apply W; tauto|]. destruct (to_factors e); [auto|discriminate].
      + exfalso. revert E. apply redundant_some; auto. apply Forall_forall. intros e He Hn. cbn [algs remove_equal_bus_interactions] in He. rewrite Forall_forall in W2. apply no_factors in Hn; [|now apply W2]. assert (X : existsb (fun e : gexp => match to_factors e with [] => true | _ => false end) (algs (remove_trivial_constraints c)) = true) by (apply existsb_exists; exists e; split; auto; now rewrite Hn). congruence.
    - intros (e & He & Hn). unfold remove_redundant_constraints, remove_duplicate_factors. match goal with |- context [existsb ?f ?l] => replace (existsb f l) with true end; [reflexivity|]. symmetry. apply existsb_exists. exists e. rewrite Forall_forall in W. pose proof Hn as Hn'. apply no_factors in Hn'; [|now apply W]. rewrite Hn'. split; auto. cbn. apply filter_In. split; auto. destruct Hn as (k & -> & Hk). cbn. apply is_zero_neq in Hk. unfold is_redundant, gis_zero. cbn. now rewrite Hk.
  Qed.
End PassFacts.
