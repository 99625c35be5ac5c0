(** One round of the rule-based optimizer, backwards: the variables that disappear can be chosen. *)
From Coq Require Import Arith NArith ZArith Bool List Lia Ring Znumtheory Permutation Sorted.
From Verif Require Import Field RangeModel RangeFacts ExprModel ExprFacts ExprWf ExprMore SolveModel SystemModel Spec Bridge BusModel BusFacts IndexFacts PassModel RuleModel RuleSpec RuleFacts RuleReplace RuleDrive.
Import ListNotations.
Local Open Scope nat_scope.

Section Equiv.
  Context {p : positive} (Hp : prime (Z.pos p)).
  Local Notation gexp := (gexp p).
  Variable E : renv p.
  Hypothesis Hwa : Forall wf (r_algs E).
  Hypothesis Hwi : forall e r, In (e, r) (r_init E) -> wf e.
  Hypothesis Hsingle : forall v e, In v (r_single E) -> In e (r_algs E) -> (count_var v (vars e) <= 1)%nat.

  Lemma merged_in l1 l2 d : merged (p:=p) l1 l2 d -> forall b x, In (b, x) d -> if b : bool then In (fst x) (map fst l1) else In (fst x) (map fst l2).
  Proof.
    induction 1; cbn [In map]; try (intros ? ? []; fail); intros b z I.
    all: try (destruct I as [[= <- <-]|I]; [now left|]).
    all: apply IHmerged in I; destruct b; auto.
  Qed.
  Lemma differ_in (a b : gexp) v w f : differ_in_exactly_one_variable a b = Some (v, w, f) -> In v (vars a) /\ In w (vars b).
  Proof.
    unfold differ_in_exactly_one_variable. destruct a as [qa la ca], b as [qb lb cb]. cbn [lin cst].
    destruct (_ && _ && _ && _); [|discriminate]. pose proof (merged_in _ _ _ (merge_diff_merged la lb)) as M. rewrite !vars_GE, !in_app_iff.
    destruct (merge_diff la lb) as [|[[] [v1 k1]] [|[[] [v2 k2]] [|? ?]]]; try discriminate; cbv zeta; destruct (_ && _); try discriminate; intros [= <- <- _]; split; right.
    - apply (M true (v1, k1)). now left.
    - apply (M false (v2, k2)). right; now left.
    - apply (M true (v2, k2)). right; now left.
    - apply (M false (v1, k1)). now left.
  Qed.
  Lemma related_vars e1 f e2 o : affinely_related E e1 f e2 o -> vars e1 = vars e2.
  Proof.
    induction 1 as [e1 f1 v o1 e2 f2 o2 A1 A2|e1 e2 f o t1 t2 h1 h2 v f1 _ IH H1 L1 H2 L2].
    - apply (affine_eq Hp E Hwa Hwi) in A1, A2. destruct A1 as [-> _], A2 as [-> _]. reflexivity.
    - destruct (head_linear Hp E Hwa Hwi _ _ _ _ _ H1 L1) as (l & k & -> & ->). destruct (head_linear Hp E Hwa Hwi _ _ _ _ _ H2 L2) as (l' & k' & -> & ->).
      rewrite !vars_GE in *. cbn [map fst qvars flat_map app] in *. congruence.
  Qed.
  Lemma candidate_twice e r o v : quadratic_candidate E e r o -> In v (vars r) -> ~ In v (r_single E).
  Proof.
    intros (l & f & k & [A R] & Rel & _) I S0. apply related_vars in Rel. apply (Hsingle _ _ S0) in A. apply product_eq in R.
    apply count_var_in in I as I1. rewrite <- Rel in I1. apply count_var_in in I.
    destruct R as [-> | ->]; rewrite vars_GE in A; cbn [qvars flat_map map app fst snd] in A; rewrite !app_nil_r, count_var_app in A; lia.
  Qed.
  Lemma equivalence_twice v w : equivalence E v w -> ~ In v (r_single E) /\ ~ In w (r_single E).
  Proof.
    intros (e1 & e2 & o & r & (c1 & c2 & o1 & o2 & f & k & C1 & C2 & _ & Df & _) & _). apply differ_in in Df. destruct Df as [V W]. split.
    - now apply (candidate_twice _ _ _ _ C1).
    - now apply (candidate_twice _ _ _ _ C2).
  Qed.
  Lemma setvar_twice v w : action_rule E (SetVar v w) -> ~ In v (r_single E) /\ ~ In w (r_single E).
  Proof. intros H. inversion H; subst; match goal with X : equivalence _ _ _ |- _ => apply equivalence_twice in X end; tauto. Qed.
End Equiv.

Section Back.
  Context {p : positive} (Hp : prime (Z.pos p)).
  Local Notation gexp := (gexp p).
  Local Notation rc := (rc p).
  Local Notation csys := (csys p).
  Variable handler : busi rc -> busi rc.
  Variable g : var -> rc.
  Variable fresh : nat -> var.
  Variable bound : option nat.

  (** ** Actions *)
  Lemma actions_map (single : var -> Prop) acts : (forall v w, In (SetVar v w) acts -> ~ single w) -> forall d, exists f new,
    d_sys (fold_left apply_action acts d) = sys_map (p:=p) f (d_sys d) /\ d_asg (fold_left apply_action acts d) = d_asg d ++ new /\
    d_next (fold_left apply_action acts d) = d_next d /\
    (forall s, asg_true s new -> forall e, eval s (f e) = eval s e) /\
    (forall v e, single v -> In v (vars (f e)) -> In v (vars e) /\ forall u e', In (u, e') new -> u <> v /\ ~ In v (vars e')).
  Proof.
    induction acts as [|a acts IH]; intros Hs d; cbn [fold_left].
    - exists (fun e => e), []. rewrite app_nil_r. repeat split; auto. destruct (d_sys d) as [aa bb dd]. unfold sys_map. cbn [algs buses derived]. f_equal.
      + now rewrite map_id.
      + rewrite <- (map_id bb) at 1. apply map_ext. intros [i m l]. unfold bmap. cbn. now rewrite map_id.
      + rewrite <- (map_id dd) at 1. apply map_ext. intros [x [k|x1 x2]]; reflexivity.
    - assert (Hs' : forall v w, In (SetVar v w) acts -> ~ single w) by (intros v w I; apply (Hs v w); now right).
      assert (G : exists f1 new1, d_sys (apply_action d a) = sys_map f1 (d_sys d) /\ d_asg (apply_action d a) = d_asg d ++ new1 /\ d_next (apply_action d a) = d_next d /\
        (forall s, asg_true s new1 -> forall e, eval s (f1 e) = eval s e) /\
        (forall v e, single v -> In v (vars (f1 e)) -> In v (vars e) /\ forall u e', In (u, e') new1 -> u <> v /\ ~ In v (vars e'))).
      { assert (Id : d_sys d = sys_map (fun e => e) (d_sys d)).
        { destruct (d_sys d) as [aa bb dd]. unfold sys_map. cbn [algs buses derived]. f_equal.
          - now rewrite map_id.
          - rewrite <- (map_id bb) at 1. apply map_ext. intros [i m l]. unfold bmap. cbn. now rewrite map_id.
          - rewrite <- (map_id dd) at 1. apply map_ext. intros [x [k|x1 x2]]; reflexivity. }
        assert (K : forall v k, exists f1 new1, d_sys (set_const v k d) = sys_map f1 (d_sys d) /\ d_asg (set_const v k d) = d_asg d ++ new1 /\ d_next (set_const v k d) = d_next d /\
          (forall s, asg_true s new1 -> forall e, eval s (f1 e) = eval s e) /\
          (forall v e, single v -> In v (vars (f1 e)) -> In v (vars e) /\ forall u e', In (u, e') new1 -> u <> v /\ ~ In v (vars e'))).
        { intros v k. exists (subst_known v k), [(v, from_number k)]. do 3 (split; [reflexivity|]). split.
          - intros s T e. inversion_clear T as [|? ? T1 _]. cbn [fst snd] in T1. rewrite eval_from_number in T1. rewrite eval_subst_known. now apply upd_same_value.
          - intros w e _ I. apply vars_subst_known in I. destruct I as [I N]. split; [exact I|]. intros u e' [[= <- <-]|[]]. split; [congruence|]. cbn. tauto. }
        destruct a as [v r|v k|v w]; cbn [apply_action].
        - destruct (rc_eqb _ _).
          { exists (fun e => e), []. rewrite app_nil_r. do 3 (split; [auto|]). split; [auto|]. intros u e _ I. split; [exact I|]. intros ? ? []. }
          destruct (try_to_single_value _); [apply K|]. exists (fun e => e), []. cbn [d_sys d_asg d_next]. rewrite app_nil_r. do 3 (split; [auto|]). split; [auto|]. intros u e _ I. split; [exact I|]. intros ? ? [].
        - apply K.
        - exists (subst_unknown v (from_var w)), [(v, from_var w)]. do 3 (split; [reflexivity|]). split.
          + intros s T e. inversion_clear T as [|? ? T1 _]. cbn [fst snd] in T1. rewrite eval_from_var in T1. rewrite eval_subst_unknown, eval_from_var. now apply upd_same_value.
          + intros u e Su I. assert (Nw : u <> w). { intros ->. apply (Hs v w); auto. now left. }
            apply vars_subst_unknown in I. destruct I as [[I N]|[_ I]]; [|cbn in I; destruct I as [<-|[]]; congruence]. split; auto. intros y e' [[= <- <-]|[]]. split; auto. cbn. intros [Q|[]]; congruence. }
      destruct G as (f1 & new1 & Q1 & Q2 & Q3 & Q4 & Q5). destruct (IH Hs' (apply_action d a)) as (f2 & new2 & R1 & R2 & R3 & R4 & R5).
      exists (fun e => f2 (f1 e)), (new1 ++ new2). split; [|split; [|split; [|split]]].
      + rewrite R1, Q1. unfold sys_map. cbn [algs buses derived]. rewrite !map_map. f_equal.
        * apply map_ext. intros [i m l]. unfold bmap. cbn. now rewrite map_map.
        * apply map_ext. intros [x [k|x1 x2]]; reflexivity.
      + now rewrite R2, Q2, app_assoc.
      + congruence.
      + intros s T e. apply Forall_app in T. destruct T as [T1 T2]. rewrite R4, Q4; auto.
      + intros v e Sv I. apply R5 in I; auto. destruct I as [I N2]. apply Q5 in I; auto. destruct I as [I N1]. split; auto. intros u e' Iu. apply in_app_iff in Iu. destruct Iu; auto.
  Qed.

  (** ** Selection *)
  Fixpoint disj (l : list (list gexp * list gexp)) : Prop :=
    match l with [] => True | r :: l' => (forall e r', In e (fst r) -> In r' l' -> ~ In e (fst r')) /\ disj l' end.
  Lemma member_in (e : gexp) l : member e l = true <-> In e l.
  Proof. unfold member. rewrite existsb_exists. split; [intros (x & I & Q); apply gexp_eqb_eq in Q; now subst|]. intros I. exists e. split; auto. now apply gexp_eqb_eq. Qed.
  Lemma disj_snoc l r : disj l -> (forall r' e, In r' l -> In e (fst r') -> ~ In e (fst r)) -> disj (l ++ [r]).
  Proof.
    induction l as [|r1 l IH]; cbn [disj app]; [intros _ _; split; auto; intros e r' _ []|]. intros [H1 H2] H3. split.
    - intros e r' Ie Ir. apply in_app_iff in Ir. destruct Ir as [Ir|[<-|[]]]; [eauto|]. apply (H3 r1); auto. now left.
    - apply IH; auto. intros r' e Ir. apply H3. now right.
  Qed.
  Lemma select_chosen (d : csys) rs : exists ch, incl ch rs /\ disj ch /\ fst (select d rs) = flat_map fst ch /\ snd (select d rs) = flat_map snd ch /\ (forall r e, In r ch -> In e (fst r) -> In e (algs d)).
  Proof.
    unfold select. set (f := fun acc r => _).
    assert (G : forall rs acc ch, disj ch -> fst acc = flat_map fst ch -> snd acc = flat_map snd ch -> (forall r e, In r ch -> In e (fst r) -> In e (algs d)) ->
      exists ch', incl ch' (ch ++ rs) /\ disj ch' /\ fst (fold_left f rs acc) = flat_map fst ch' /\ snd (fold_left f rs acc) = flat_map snd ch' /\ (forall r e, In r ch' -> In e (fst r) -> In e (algs d))).
    { clear rs. induction rs as [|r rs IH]; intros acc ch Dj Q1 Q2 A; cbn [fold_left].
      - exists ch. rewrite app_nil_r. repeat split; auto. apply incl_refl.
      - destruct (forallb (fun e => member e (algs d)) (fst r) && negb (existsb (fun e => member e (fst acc)) (fst r))) eqn:T.
        + apply andb_true_iff in T. destruct T as [T1 T2]. apply negb_true_iff in T2. rewrite forallb_forall in T1.
          destruct (IH (f acc r) (ch ++ [r])) as (ch' & I & J).
          * apply disj_snoc; auto. intros r' e Ir Ie Ie'. enough (existsb (fun e => member e (fst acc)) (fst r) = true) by congruence. apply existsb_exists. exists e. split; auto.
            apply member_in. rewrite Q1. apply in_flat_map. eauto.
          * unfold f. replace (_ && _) with true; [|symmetry; apply andb_true_iff; split; [now apply forallb_forall|now apply negb_true_iff]]. cbn [fst]. rewrite Q1, flat_map_app. cbn [flat_map]. now rewrite app_nil_r.
          * unfold f. replace (_ && _) with true; [|symmetry; apply andb_true_iff; split; [now apply forallb_forall|now apply negb_true_iff]]. cbn [snd]. rewrite Q2, flat_map_app. cbn [flat_map]. now rewrite app_nil_r.
          * intros r' e Ir Ie. apply in_app_iff in Ir. destruct Ir as [Ir|[<-|[]]]; [eauto|]. apply member_in. auto.
          * exists ch'. split; auto. rewrite <- app_assoc in I. exact I.
        + destruct (IH (f acc r) ch) as (ch' & I & J); auto.
          * unfold f. now rewrite T.
          * unfold f. now rewrite T.
          * exists ch'. split; auto. intros x Ix. apply I in Ix. apply in_app_iff in Ix. apply in_app_iff. destruct Ix; auto. right. now right. }
    destruct (G rs ([], []) []) as (ch & I & J); cbn; auto; [intros ? ? []|]. exists ch. auto.
  Qed.
  Lemma unique_has (l : list gexp) : forall seen e, In e l -> In e seen \/ In e (unique seen l).
  Proof.
    induction l as [|x l IH]; intros seen e; cbn [unique]; [intros []|]. intros [<-|I].
    - destruct (member x seen) eqn:M; [left; now apply member_in|right; now left].
    - destruct (member x seen); [auto|]. destruct (IH (x :: seen) e I) as [[<-|J]|J]; auto; right; [now left|now right].
  Qed.
  Lemma inst_src (reps : list (repl p)) : forall (d : dstate) xs d', instantiate_all fresh d reps = (xs, d') -> forall x, In x xs ->
    exists a, In a reps /\ (a = Plain (fst x) (snd x) \/ exists num den new v, a = WithVar (fst x) num den new /\ snd x = new v).
  Proof.
    induction reps as [|a reps IH]; intros d xs d'; cbn [instantiate_all].
    - intros [= <- <-] x [].
    - destruct (instantiate fresh d a) as [x1 d1] eqn:Q. destruct (instantiate_all fresh d1 reps) as [ys d2] eqn:Q2. intros [= <- <-] x [<-|I].
      + exists a. split; [now left|]. destruct a as [old new|old num den new]; cbn [instantiate] in Q; [injection Q as <- <-; now left|].
        right. exists num, den, new, (fresh (d_next d)). destruct (existsb _ _); injection Q as <- <-; auto.
      + destruct (IH _ _ _ Q2 x I) as (a' & Ia & H). exists a'. split; auto. now right.
  Qed.
  Lemma inst_rest (reps : list (repl p)) : forall (d : dstate) xs d', instantiate_all fresh d reps = (xs, d') -> algs (d_sys d') = algs (d_sys (p:=p) d) /\ buses (d_sys d') = buses (d_sys d) /\ d_asg d' = d_asg d.
  Proof.
    induction reps as [|a reps IH]; intros d xs d'; cbn [instantiate_all].
    - intros [= <- <-]. auto.
    - destruct (instantiate fresh d a) as [x1 d1] eqn:Q. destruct (instantiate_all fresh d1 reps) as [ys d2] eqn:Q2. intros [= <- <-]. apply IH in Q2. destruct Q2 as (-> & -> & ->).
      destruct a as [old new|old num den new]; cbn [instantiate] in Q; [injection Q as <- <-; auto|]. destruct (existsb _ _); injection Q as <- <-; auto.
  Qed.
  Lemma single_once (d : csys) v (e : gexp) : In v (single_occurrence d) -> In e (algs d) -> (count_var v (vars e) <= 1)%nat.
  Proof.
    intros I Ie. apply filter_In in I. destruct I as [_ I]. apply Nat.eqb_eq in I. unfold sys_vars in I. rewrite count_var_app in I.
    apply in_split in Ie. destruct Ie as (a & b & Q). rewrite Q, flat_map_app in I. cbn [flat_map] in I. rewrite !count_var_app in I. lia.
  Qed.
  Lemma single_two (d : csys) v (e1 e2 : gexp) : In v (single_occurrence d) -> In e1 (algs d) -> In e2 (algs d) -> In v (vars e1) -> In v (vars e2) -> e1 = e2.
  Proof.
    intros Sv I1 I2 V1 V2. destruct (gexp_eqb e1 e2) eqn:Q; [now apply gexp_eqb_eq|]. exfalso.
    assert (N : e1 <> e2) by (intros X; apply gexp_eqb_eq in X; congruence).
    apply filter_In in Sv. destruct Sv as [_ Sv]. apply Nat.eqb_eq in Sv. unfold sys_vars in Sv. rewrite count_var_app in Sv.
    apply count_var_in in V1, V2. apply in_split in I1. destruct I1 as (a & b & R). rewrite R in I2, Sv. rewrite flat_map_app in Sv. cbn [flat_map] in Sv. rewrite !count_var_app in Sv.
    apply in_app_iff in I2. cbn [In] in I2. destruct I2 as [I2|[I2|I2]]; [|congruence|]; apply in_split in I2; destruct I2 as (x & y & ->); rewrite flat_map_app in Sv; cbn [flat_map] in Sv; rewrite !count_var_app in Sv; lia.
  Qed.
  Lemma single_not_bus (d : csys) v (e : gexp) b : In v (single_occurrence d) -> In e (algs d) -> In v (vars e) -> In b (buses d) -> ~ In v (bus_vars b).
  Proof.
    intros Sv I1 V1 Ib V2. apply filter_In in Sv. destruct Sv as [_ Sv]. apply Nat.eqb_eq in Sv. unfold sys_vars in Sv. rewrite count_var_app in Sv. apply count_var_in in V1, V2.
    apply in_split in I1, Ib. destruct I1 as (a1 & a2 & Q1), Ib as (b1 & b2 & Q2). rewrite Q1, Q2, !flat_map_app in Sv. cbn [flat_map] in Sv. rewrite !count_var_app in Sv. lia.
  Qed.

  (** The chosen replacements of a round, all at once. *)
  Lemma chosen_back elt vlt d s ch : let E := env_of handler g elt vlt d in
    Forall wf (r_algs E) -> (forall e r, In (e, r) (r_init E) -> wf e) -> ranges_true E s ->
    (forall r, In r ch -> exists a old, (free_rule E a \/ combine_rule E a) /\ (forall e, In e (fst r) <-> In e old) /\
      (a = Plain old (snd r) \/ exists num den new v, a = WithVar old num den new /\ snd r = new v)) ->
    disj ch -> (forall r e, In r ch -> In e (snd r) -> solves s e) ->
    exists s0, (forall v, s0 v = s v \/ (In v (single_occurrence (d_sys d)) /\ exists r e, In r ch /\ In e (fst r) /\ In e (algs (d_sys d)) /\ In v (vars e))) /\
      forall r e, In r ch -> In e (fst r) -> solves s0 e /\ In e (algs (d_sys d)).
  Proof.
    intros E Hwa Hwi Hr. assert (Hsg : forall v e, In v (r_single E) -> In e (r_algs E) -> (count_var v (vars e) <= 1)%nat) by (intros v e; apply single_once).
    induction ch as [|r ch IH]; intros Hc Dj Hn.
    - exists s. split; [auto|]. intros r e [].
    - destruct Dj as [D1 D2]. destruct IH as (s0 & A & B); [intros; apply Hc; now right|auto|intros r' e Ir; apply Hn; now right|].
      destruct (Hc r (or_introl eq_refl)) as (a & old & Hrule & Ho & Ha).
      assert (Hnew : Forall (solves s) (snd r)). { apply Forall_forall. intros e Ie. apply (Hn r); auto. now left. }
      (* other constraints do not contain the variables that were changed *)
      assert (Same : forall e, In e (fst r) -> In e (algs (d_sys d)) -> forall v, In v (vars e) -> s0 v = s v).
      { intros e Ie Iae v Iv. destruct (A v) as [|(Sv & r' & e' & Ir & Ie' & Iae' & Iv')]; auto. exfalso. apply (D1 e r' Ie Ir). now rewrite (single_two _ v e e' Sv Iae Iae' Iv Iv'). }
      destruct Hrule as [Hf|Hcb].
      + destruct Ha as [-> |(num & den & new & v & -> & Qn)].
        { exfalso. destruct Hf as (e & k1 & v1 & x1 & rc1 & k2 & v2 & x2 & rc2 & _ & _ & _ & H). apply (free_replacement_parts Hp) in H. destruct H as (y1 & y2 & _ & _ & _ & H). discriminate H. }
        rewrite Qn in Hnew. destruct (free_back Hp E Hwa Hwi Hsg s _ old num den new v Hf eq_refl Hnew) as (e & v1 & v2 & a1 & a2 & -> & S1 & S2 & V1 & V2 & Se).
        assert (Ie : In e (algs (d_sys d))).
        { destruct Hf as (e0 & k1 & w1 & x1 & rc1 & k2 & w2 & x2 & rc2 & C & _ & _ & H). destruct (free_candidate_parts Hp E Hwa Hwi Hsg _ _ _ _ _ _ _ C) as (Ie & _).
          apply (free_replacement_parts Hp) in H. destruct H as (y1 & y2 & _ & _ & _ & H). cbv zeta in H. injection H as -> _ _ _. exact Ie. }
        assert (Er : In e (fst r)) by (apply Ho; now left).
        exists (upd (upd s0 v1 a1) v2 a2). split.
        * intros w. destruct (var_dec w v2) as [->|N2]; [right; split; auto; exists r, e; repeat split; auto; now left|]. rewrite (upd_other _ v2) by auto.
          destruct (var_dec w v1) as [->|N1]; [right; split; auto; exists r, e; repeat split; auto; now left|]. rewrite upd_other by auto.
          destruct (A w) as [|(Sw & r' & e' & Ir & X)]; auto. right. split; auto. exists r', e'. split; auto. now right.
        * intros r' e' [<-|Ir] Ie'.
          -- apply Ho in Ie'. destruct Ie' as [<-|[]]. split; auto. unfold solves. rewrite <- Se. apply eval_ext. intros w Iw. unfold upd. destruct (veqb v2 w); auto. destruct (veqb v1 w); auto. now apply (Same e).
          -- destruct (B r' e' Ir Ie') as [Sb Ab]. split; auto. unfold solves. rewrite !eval_upd_notin; [exact Sb| |]; intros I; apply (D1 e r' Er Ir).
             ++ now rewrite (single_two _ v1 e e' S1 Ie Ab V1 I).
             ++ now rewrite (single_two _ v2 e e' S2 Ie Ab V2 I).
      + destruct Ha as [-> |(num & den & new & v & -> & Qn)].
        2: { exfalso. destruct Hcb as (e1 & e2 & x & l & q & rl & rr & _ & _ & _ & _ & _ & _ & _ & _ & H). discriminate H. }
        assert (So : Forall (solves s) old). { now apply (combine_back Hp E Hwa Hwi s _ old (snd r) Hr Hcb eq_refl). }
        assert (Io : forall e, In e (fst r) -> In e (algs (d_sys d))).
        { destruct Hcb as (e1 & e2 & x & l & q & rl & rr & [A1 _] & [A2 _] & _ & _ & _ & _ & _ & _ & H). injection H as -> _. intros e Ie. apply Ho in Ie. destruct Ie as [<-|[<-|[]]]; auto. }
        exists s0. split.
        * intros w. destruct (A w) as [|(Sw & r' & e' & Ir & X)]; auto. right. split; auto. exists r', e'. split; auto. now right.
        * intros r' e' [<-|Ir] Ie'; [|exact (B r' e' Ir Ie')]. split; auto. unfold solves. rewrite (eval_ext s0 s); [|intros w Iw; apply (Same e'); auto]. rewrite Forall_forall in So. apply So. now apply Ho.
  Qed.

  (** One round without the zero test. *)
  Theorem round_back sem d d' new s : handler_sound sem handler -> Forall wf (algs (d_sys d)) -> (forall b e, In b (buses (d_sys d)) -> In e (fields b) -> wf e) ->
    round_of handler g fresh bound (fun E a => free_rule E a \/ combine_rule E a) d d' -> d_asg d' = d_asg d ++ new ->
    sys_solves s (d_sys d') -> Forall sem (bus_values s (d_sys d')) -> asg_true s new ->
    (forall b v, In b (buses (d_sys d)) -> In v (bus_vars b) -> rc_allows (g v) (s v)) -> (forall v r, In (v, r) (d_rc d) -> rc_allows r (s v)) ->
    exists s0, (forall v, ~ In v (single_occurrence (d_sys d)) -> s0 v = s v) /\ asg_true s0 new /\ sys_solves s0 (d_sys d) /\ bus_values s0 (d_sys d) = bus_values s (d_sys d').
  Proof.
    intros Hsound Hwa Hwb (elt & vlt & acts & reps & xs & rs & d1 & Ha & Hok & Hi & Hperm & ->) Hnew Hs Hsem Ta Hg Hrc. cbn [d_sys d_asg] in *.
    set (E := env_of handler g elt vlt d) in *.
    assert (Hwi : forall e r, In (e, r) (r_init E) -> wf e). { intros e r Ie. apply bus_ranges_src in Ie. destruct Ie as (b & Ib & Ie). now apply (Hwb b). }
    assert (Hsg : forall v e, In v (r_single E) -> In e (r_algs E) -> (count_var v (vars e) <= 1)%nat) by (intros v e; apply single_once).
    destruct (actions_map (fun v => In v (single_occurrence (d_sys d))) acts) with (d := d) as (f & new1 & Qs & Qa & _ & Qe & Qv).
    { intros v w I Sw. rewrite Forall_forall in Ha. apply Ha in I. apply (setvar_twice Hp E Hwa Hwi Hsg) in I. tauto. }
    destruct (inst_rest _ _ _ _ Hi) as (Ra & Rb & Rg). assert (new1 = new) by (rewrite Rg, Qa in Hnew; now apply app_inv_head in Hnew). subst new1. specialize (Qe s Ta) as Qe'.
    destruct (batch_rest bound (d_sys d1) rs) as [Bb _].
    assert (Bv : bus_values s (batch_replace bound (d_sys d1) rs) = bus_values s (d_sys d)). { unfold bus_values. rewrite Bb, Rb. change (bus_values s (d_sys (fold_left apply_action acts d)) = bus_values s (d_sys d)). rewrite Qs. now apply sys_map_bus. }
    rewrite Bv in *. clear Bv.
    assert (Hr : ranges_true E s). { split; [|exact Hrc]. exact (bus_ranges_hold handler g sem Hsound (d_sys d) s Hg Hsem). }
    assert (Ia : forall e, In e (algs (d_sys d)) -> In (f e) (algs (d_sys d1))). { intros e Ie. rewrite Ra, Qs. unfold sys_map. cbn [algs]. now apply in_map. }
    unfold batch_replace in Hs. set (l := map _ (filter _ rs)) in Hs. destruct (select_chosen (d_sys d1) l) as (ch & Ic & Dj & Sf & Ss & Sa).
    destruct (select (d_sys d1) l) as [removed added] eqn:Qsel. cbn [fst snd] in Sf, Ss.
    assert (Case : removed = [] \/ sys_solves s (mkCS (filter (fun e => negb (member e removed)) (algs (d_sys d1)) ++ added) (buses (d_sys d1)) (derived (d_sys d1)))).
    { destruct removed; auto. }
    destruct Case as [-> |Hs'].
    { exists s. repeat split; auto. unfold sys_solves in *. rewrite Forall_forall in *. intros e Ie. unfold solves. rewrite <- Qe'. now apply Hs, Ia. }
    clear Hs. unfold sys_solves in Hs'. cbn [algs] in Hs'. rewrite Forall_forall in Hs'.
    destruct (chosen_back elt vlt d s ch Hwa Hwi Hr) as (s0 & A & Bk); auto.
    { intros r Ir. apply Ic in Ir. unfold l in Ir. apply in_map_iff in Ir. destruct Ir as (r0 & <- & Ir). apply filter_In in Ir. destruct Ir as [Ir _].
      apply (Permutation_in r0 (Permutation_sym Hperm)) in Ir. destruct (inst_src _ _ _ _ Hi r0 Ir) as (a & Iar & Ha0). exists a, (fst r0). cbn [fst snd]. rewrite Forall_forall in Hok. split; [auto|]. split; auto.
      intros e. split; [apply unique_in|]. intros I. destruct (unique_has _ [] e I) as [[]|]; auto. }
    { intros r e Ir Ie. apply Hs'. apply in_app_iff. right. rewrite Ss. apply in_flat_map. eauto. }
    (* changed variables occur in exactly one constraint, which was replaced *)
    assert (Ch : forall v e, s0 v <> s v -> In e (algs (d_sys d)) -> In v (vars e) -> In (f e) removed).
    { intros v e N Ie Iv. destruct (A v) as [|(Sv & r & e' & Ir & Ie' & Iae & Iv')]; [tauto|]. pose proof (Sa r e' Ir Ie') as I1. rewrite Ra, Qs in I1. unfold sys_map in I1. cbn [algs] in I1.
      apply in_map_iff in I1. destruct I1 as (e'' & Qf & Ie''). pose proof Iv' as Iv''. rewrite <- Qf in Iv''. apply Qv in Iv''; auto. destruct Iv'' as [Iv'' _].
      assert (X1 : e = e') by (now apply (single_two (d_sys d) v)). assert (X2 : e'' = e') by (now apply (single_two (d_sys d) v)). rewrite X1. rewrite X2 in Qf. rewrite Qf, Sf. apply in_flat_map. eauto. }
    assert (Nasg : forall v u e', s0 v <> s v -> In (u, e') new -> u <> v /\ ~ In v (vars e')).
    { intros v u e' N Iu. destruct (A v) as [|(Sv & r & e & Ir & Ie & Iae & Iv)]; [tauto|]. pose proof (Sa r e Ir Ie) as I1. rewrite Ra, Qs in I1. unfold sys_map in I1. cbn [algs] in I1.
      apply in_map_iff in I1. destruct I1 as (e'' & Qf & _). rewrite <- Qf in Iv. apply Qv in Iv; auto. destruct Iv as [_ Iv]. now apply Iv. }
    assert (Ta0 : asg_true s0 new).
    { unfold asg_true in *. rewrite Forall_forall in *. intros [u e'] Iu. specialize (Ta _ Iu). cbn [fst snd] in *.
      assert (Qu : s0 u = s u). { destruct (F_dec (s0 u) (s u)); auto. destruct (Nasg u u e' n Iu). congruence. }
      rewrite Qu, Ta. apply eval_ext. intros w Iw. destruct (F_dec (s0 w) (s w)) as [|N]; auto. destruct (Nasg w u e' N Iu). tauto. }
    exists s0. split; [|split; [exact Ta0|split]].
    - intros v Nv. destruct (A v) as [|(Sv & _)]; tauto.
    - unfold sys_solves. apply Forall_forall. intros e Ie. unfold solves. destruct (member (f e) removed) eqn:M.
      + apply member_in in M. rewrite Sf in M. apply in_flat_map in M. destruct M as (r & Ir & M). rewrite <- (Qe s0 Ta0). now apply (Bk r).
      + rewrite (eval_ext s0 s).
        * rewrite <- Qe'. apply Hs'. apply in_app_iff. left. apply filter_In. split; auto. now rewrite M.
        * intros v Iv. destruct (F_dec (s0 v) (s v)) as [|N]; auto. exfalso. apply (Ch v e N Ie) in Iv. apply member_in in Iv. congruence.
    - apply map_ext_in. intros b Ib.
      assert (G : forall e, In e (fields b) -> eval s0 e = eval s e).
      { intros e Ie. apply eval_ext. intros v Iv. destruct (A v) as [|(Sv & r & e' & _ & _ & Iae & Iv')]; auto. exfalso. apply (single_not_bus (d_sys d) v e' b); auto. apply bus_vars_in. eauto. }
      unfold bmap. rewrite (G (bus_id b)), (G (mult b)); [|right; left; reflexivity|left; reflexivity]. f_equal. apply map_ext_in. intros e Ie. apply G. right. now right.
  Qed.
End Back.
