(** Exhaustive simplification. *)
From Coq Require Import Arith NArith ZArith Znumtheory Bool List Lia Ring.
From Verif Require Import Field RangeModel ExprModel ExprFacts ExprWf ExprMore SystemModel Spec Bridge SearchModel SearchFacts IndexFacts PassSpec PassSem ExhModel.
Import ListNotations.
Local Open Scope nat_scope.

Section ExhFacts.
  Context {p : positive}.
  Local Notation gexp := (gexp p).
  Local Notation csys := (csys p).
  Local Notation simp := (simp (p:=p)).
  Add Ring Fring : (F_ring_theory (p:=p)).
  Context (lookup : csys -> list var -> list (cref p)) (in_order : list gexp -> list gexp).

  (** The expressions collected are those of the constraints, each once, marked if one is an algebraic constraint. *)
  Lemma add_expr_in e alg (l : list simp) : Forall (fun x => simplified x = None) l -> NoDup (map expr_of l) ->
    Forall (fun x => simplified x = None) (add_expr e alg l) /\ NoDup (map expr_of (add_expr e alg l)) /\
    (forall e', In e' (map expr_of (add_expr e alg l)) <-> e' = e \/ In e' (map expr_of l)) /\
    (forall x, In x (add_expr e alg l) -> is_alg x = true -> (expr_of x = e /\ alg = true) \/ exists y, In y l /\ expr_of y = expr_of x /\ is_alg y = true) /\
    (alg = true -> exists x, In x (add_expr e alg l) /\ expr_of x = e /\ is_alg x = true) /\
    (forall y, In y l -> is_alg y = true -> exists x, In x (add_expr e alg l) /\ expr_of x = expr_of y /\ is_alg x = true).
  Proof.
    induction l as [|x l IH]; intros H1 H2; cbn [add_expr].
    - split; [constructor; auto|]. split; [cbn; constructor; auto; constructor|]. split; [intros e'; cbn; intuition|]. split; [intros x [<-|[]] Hx; left; cbn in *; auto|]. split; [intros ->; eexists; split; [now left|]; cbn; auto|intros y []].
    - inversion_clear H1 as [|? ? X1 X2]. cbn [map] in H2. inversion_clear H2 as [|? ? N1 N2]. destruct (gexp_eqb (expr_of x) e) eqn:E.
      + apply gexp_eqb_eq in E. split; [constructor; auto|]. split; [cbn [map expr_of]; constructor; auto|]. split; [intros e'; cbn [map expr_of In]; rewrite E; intuition|]. split; [|split].
        * intros y [<-|Hy]; cbn [is_alg expr_of]; [intros Ha; apply orb_true_iff in Ha; destruct Ha as [Ha|Ha]; [right; exists x; split; [now left|auto]|left; auto]|intros Ha; right; exists y; split; [now right|auto]].
        * intros ->. eexists. split; [now left|]. cbn. split; auto. apply orb_true_r.
        * intros y [<-|Hy] Ha; [eexists; split; [now left|]; cbn; rewrite Ha; auto|exists y; split; [now right|auto]].
      + destruct (IH X2 N2) as (A1 & A2 & A3 & A4 & A5 & A6). split; [constructor; auto|]. split; [cbn [map]; constructor; auto; intros Hin; apply A3 in Hin; destruct Hin as [Hin|Hin]; auto; rewrite Hin in E; rewrite (proj2 (gexp_eqb_eq e e) eq_refl) in E; discriminate|].
        split; [intros e'; cbn [map In]; rewrite A3; intuition|]. split; [|split].
        * intros y [<-|Hy] Ha; [right; exists x; split; [now left|auto]|]. destruct (A4 y Hy Ha) as [?|(z & Hz & Ez)]; auto. right. exists z. split; [now right|auto].
        * intros Ha. destruct (A5 Ha) as (z & Hz & Ez). exists z. split; [now right|auto].
        * intros y [<-|Hy] Ha; [exists x; split; [now left|auto]|]. destruct (A6 y Hy Ha) as (z & Hz & Ez). exists z. split; [now right|auto].
  Qed.
  Lemma adds_in l : forall (acc : list simp), Forall (fun x => simplified x = None) acc -> NoDup (map expr_of acc) ->
    let r := fold_left (fun acc eb => add_expr (fst eb) (snd eb) acc) l acc in
    Forall (fun x => simplified x = None) r /\ NoDup (map expr_of r) /\
    (forall e, In e (map expr_of r) <-> In e (map fst l) \/ In e (map expr_of acc)) /\
    (forall e, (exists x, In x r /\ expr_of x = e /\ is_alg x = true) <-> In (e, true) l \/ exists y, In y acc /\ expr_of y = e /\ is_alg y = true).
  Proof.
    induction l as [|[e b] l IH]; intros acc H1 H2; cbn [fold_left fst snd].
    - split; auto. split; auto. split; intros; cbn; intuition.
    - destruct (add_expr_in e b acc H1 H2) as (A1 & A2 & A3 & A4 & A5 & A6). destruct (IH _ A1 A2) as (B1 & B2 & B3 & B4). split; auto. split; auto. split.
      + intros e'. rewrite B3, A3. cbn [map In fst]. intuition.
      + intros e'. rewrite B4. split.
        * intros [H|(y & Hy & E & Ha)]; [left; now right|]. destruct (A4 y Hy Ha) as [[Ey ->]|(z & Hz & Ez & Hza)]; [left; left; congruence|right; exists z; split; auto; split; auto; congruence].
        * intros [[[= -> ->]|H]|(y & Hy & E & Ha)]; [right; destruct (A5 eq_refl) as (x & Hx & Ex); exists x; tauto|now left|]. right. destruct (A6 y Hy Ha) as (x & Hx & Ex & Hxa). exists x. split; auto. split; auto. congruence.
  Qed.
  Definition alg_in (rs : list (cref p)) (e : gexp) : Prop := In (RAlg e) rs.
  Definition expr_in (rs : list (cref p)) (e : gexp) : Prop := In (RAlg e) rs \/ exists b, In (RBus b) rs /\ In e (fields b).
  Lemma collect_ok rs : let r := collect_exprs rs in
    Forall (fun x => simplified x = None) r /\ NoDup (map expr_of r) /\ (forall e, In e (map expr_of r) <-> expr_in rs e) /\
    (forall x, In x r -> (is_alg x = true <-> alg_in rs (expr_of x))).
  Proof.
    unfold collect_exprs. destruct (adds_in (flat_map ref_exprs rs) [] (Forall_nil _) (NoDup_nil _)) as (A1 & A2 & A3 & A4). cbn zeta in *. split; auto. split; auto.
    assert (M : forall e, In (e, true) (flat_map ref_exprs rs) <-> alg_in rs e).
    { intros e. rewrite in_flat_map. split; [intros ([e'|b] & Hr & H); cbn in H|intros H; exists (RAlg e); split; [exact H|now left]].
      - destruct H as [[= <-]|[]]. exact Hr.
      - exfalso. revert H. unfold fields. cbn. intros [H|[H|H]]; [discriminate|discriminate|apply in_map_iff in H; destruct H as (y & E & _); discriminate]. }
    split.
    - intros e. rewrite A3. cbn [map In]. split.
      + intros [H|[]]. apply in_map_iff in H. destruct H as ([e' b] & <- & H). cbn [fst]. apply in_flat_map in H. destruct H as ([e0|b0] & Hr & H); cbn [ref_exprs] in H.
        * destruct H as [[= <- <-]|[]]. now left.
        * apply in_map_iff in H. destruct H as (y & [= <- <-] & Hy). right. eauto.
      + intros [H|(b & Hb & He)]; left; apply in_map_iff; [exists (e, true)|exists (e, false)]; (split; [reflexivity|]); apply in_flat_map; [exists (RAlg e); split; auto; now left|exists (RBus b); split; auto]. cbn [ref_exprs]. apply in_map_iff. eauto.
    - intros x Hx. split.
      + intros Ha. apply M. assert (E : exists y, In y (fold_left (fun acc eb => add_expr (fst eb) (snd eb) acc) (flat_map ref_exprs rs) []) /\ expr_of y = expr_of x /\ is_alg y = true) by eauto. apply A4 in E. destruct E as [E|(y & [] & _)]. exact E.
      + intros Ha. apply M in Ha. assert (E : exists y, In y (fold_left (fun acc eb => add_expr (fst eb) (snd eb) acc) (flat_map ref_exprs rs) []) /\ expr_of y = expr_of x /\ is_alg y = true) by (apply A4; now left). destruct E as (y & Hy & Ey & Hay).
        assert (y = x); [|now subst]. clear - A2 Hx Hy Ey. revert A2 Hx Hy. generalize (fold_left (fun acc eb => add_expr (fst eb) (snd eb) acc) (flat_map ref_exprs rs) []). intros l N Hx Hy.
        induction l as [|z l IH]; [destruct Hx|]. cbn [map] in N. inversion_clear N as [|? ? N1 N2]. destruct Hx as [->|Hx], Hy as [->|Hy]; auto; exfalso; apply N1; [rewrite <- Ey; now apply in_map|rewrite Ey; now apply in_map].
  Qed.

  (** What is known of an expression after the assignments [l]. *)
  Definition conflicting (rs : list (cref p)) (a : list (var * F p)) : bool := existsb (fun r => match r with RAlg e => violated a e | RBus _ => false end) rs.
  Definition all_to (rs : list (cref p)) (l : list (list (var * F p))) (e s : gexp) : Prop :=
    (exists a, In a l /\ conflicting rs a = false) /\ forall a, In a l -> conflicting rs a = false -> subst_known_multi a e = s.
  Definition differ (rs : list (cref p)) (l : list (list (var * F p))) (e : gexp) : Prop :=
    exists a b, In a l /\ In b l /\ conflicting rs a = false /\ conflicting rs b = false /\ subst_known_multi a e <> subst_known_multi b e.
  Lemma differ_all rs l e s : differ rs l e -> ~ all_to rs l e s.
  Proof. intros (a & b & Ha & Hb & Ca & Cb & N) [_ H]. apply N. now rewrite (H a Ha Ca), (H b Hb Cb). Qed.
  Lemma differ_more rs l e a : differ rs l e -> differ rs (l ++ [a]) e.
  Proof. intros (x & y & Hx & Hy & R). exists x, y. rewrite !in_app_iff. tauto. Qed.
  (** The state of the loop: [done] are the assignments seen. *)
  Definition state_ok (rs : list (cref p)) (done : list (list (var * F p))) (exprs : list simp) : Prop :=
    (forall x, In x exprs -> (is_alg x = true <-> alg_in rs (expr_of x)) /\ expr_in rs (expr_of x)) /\
    (forall e, alg_in rs e -> exists x, In x exprs /\ expr_of x = e) /\
    (forall x, In x exprs -> match simplified x with None => forall a, In a done -> conflicting rs a = true | Some (Some s) => all_to rs done (expr_of x) s | Some None => differ rs done (expr_of x) end) /\
    (forall e, expr_in rs e -> (exists x, In x exprs /\ expr_of x = e) \/ differ rs done e).
  Lemma try_ok rs done (exprs : list simp) a : state_ok rs done exprs -> state_ok rs (done ++ [a]) (try_assignment exprs a).
  Proof.
    intros (S1 & S2 & S3 & S5). assert (C : existsb (fun x => is_alg x && violated a (expr_of x)) exprs = conflicting rs a).
    { apply eq_true_iff_eq. unfold conflicting. rewrite !existsb_exists. split.
      - intros (x & Hx & H). apply andb_true_iff in H. destruct H as [H1 H2]. exists (RAlg (expr_of x)). split; auto. now apply S1.
      - intros ([e|b] & Hr & H); [|discriminate]. destruct (S2 e Hr) as (x & Hx & E). exists x. split; auto. rewrite E, H. apply andb_true_iff. split; auto. apply S1; auto. rewrite E. exact Hr. }
    unfold try_assignment. rewrite C. destruct (conflicting rs a) eqn:Ec.
    - split; auto. split; auto. split.
      + intros x Hx. specialize (S3 x Hx). destruct (simplified x) as [[s|]|].
        * destruct S3 as [(b & Hb & Eb) H]. split; [exists b; split; auto; apply in_app_iff; auto|]. intros b' Hb' Ec'. apply in_app_iff in Hb'. destruct Hb' as [Hb'|[<-|[]]]; auto. congruence.
        * now apply differ_more.
        * intros b Hb. apply in_app_iff in Hb. destruct Hb as [Hb|[<-|[]]]; auto.
      + intros e He. destruct (S5 e He) as [H|H]; auto. right. now apply differ_more.
    - set (f := fun x : simp => update x (subst_known_multi a (expr_of x))). set (keepf := fun x : simp => is_alg x || negb match simplified x with Some None => true | _ => false end).
      assert (In_f : forall x, In x (filter keepf (map f exprs)) -> exists y, In y exprs /\ x = f y) by (intros x Hx; apply filter_In in Hx; destruct Hx as [Hx _]; apply in_map_iff in Hx; destruct Hx as (y & <- & Hy); eauto).
      assert (Ia : In a (done ++ [a])) by (apply in_app_iff; right; now left).
      assert (Good : forall y, In y exprs -> match simplified (f y) with None => False | Some (Some s) => all_to rs (done ++ [a]) (expr_of y) s | Some None => differ rs (done ++ [a]) (expr_of y) end).
      { intros y Hy. specialize (S3 y Hy). unfold f, update. cbn [simplified]. destruct (simplified y) as [[s|]|].
        - destruct S3 as [(b & Hb & Eb) H]. destruct (gexp_eqb s (subst_known_multi a (expr_of y))) eqn:E.
          + apply gexp_eqb_eq in E. split; [eauto|]. intros b' Hb' Ec'. apply in_app_iff in Hb'. destruct Hb' as [Hb'|[<-|[]]]; auto.
          + exists b, a. split; [apply in_app_iff; auto|]. repeat (split; auto). rewrite (H b Hb Eb). intros X. apply (proj2 (gexp_eqb_eq _ _)) in X. congruence.
        - now apply differ_more.
        - split; [eauto|]. intros b Hb Eb. apply in_app_iff in Hb. destruct Hb as [Hb|[<-|[]]]; auto. rewrite (S3 b Hb) in Eb. discriminate. }
      split; [|split; [|split]].
      + intros x Hx. destruct (In_f x Hx) as (y & Hy & ->). exact (S1 y Hy).
      + intros e He. destruct (S2 e He) as (y & Hy & Ey). exists (f y). split; [|exact Ey]. apply filter_In. split; [now apply in_map|]. unfold keepf. apply orb_true_iff. left. change (is_alg (f y)) with (is_alg y). apply S1; auto. now rewrite Ey.
      + intros x Hx. destruct (In_f x Hx) as (y & Hy & ->). specialize (Good y Hy). change (expr_of (f y)) with (expr_of y). destruct (simplified (f y)) as [[s|]|]; auto; destruct Good.
      + intros e He. destruct (S5 e He) as [(y & Hy & Ey)|H]; [|right; now apply differ_more]. destruct (keepf (f y)) eqn:K; [left; exists (f y); split; [apply filter_In; split; auto; now apply in_map|exact Ey]|]. right.
        specialize (Good y Hy). unfold keepf in K. apply orb_false_iff in K. destruct K as [_ K]. destruct (simplified (f y)) as [[s|]|]; [discriminate|rewrite <- Ey; exact Good|destruct Good].
  Qed.
  Lemma tries_ok rs l : forall done exprs, state_ok rs done exprs -> state_ok rs (done ++ l) (fold_left try_assignment l exprs).
  Proof. induction l as [|a l IH]; intros done exprs H; cbn [fold_left]; [now rewrite app_nil_r|]. replace (done ++ a :: l) with ((done ++ [a]) ++ l) by (rewrite <- app_assoc; reflexivity). apply IH. now apply try_ok. Qed.
  Lemma collected_ok rs : state_ok rs [] (collect_exprs rs).
  Proof.
    destruct (collect_ok rs) as (A1 & A2 & A3 & A4). split; [|split; [|split]].
    - intros x Hx. split; [now apply A4|]. apply A3. now apply in_map.
    - intros e He. assert (X : In e (map expr_of (collect_exprs rs))) by (apply A3; now left). apply in_map_iff in X. destruct X as (x & E & Hx). eauto.
    - intros x Hx. rewrite Forall_forall in A1. rewrite (A1 x Hx). intros a [].
    - intros e He. left. apply A3 in He. apply in_map_iff in He. destruct He as (x & E & Hx). eauto.
  Qed.
  (** The substitutions found with one set: all assignments that violate no algebraic constraint, of which there is one, give the same. *)
  Lemma found_iff rs l e s : In (e, s) (flat_map found (fold_left try_assignment l (collect_exprs rs))) <-> expr_in rs e /\ all_to rs l e s /\ s <> e.
  Proof.
    destruct (tries_ok rs l [] _ (collected_ok rs)) as (S1 & S2 & S3 & S5). cbn [app] in *. rewrite in_flat_map. unfold found. split.
    - intros (x & Hx & H). specialize (S3 x Hx). destruct (simplified x) as [[s'|]|]; [|destruct H|destruct H]. destruct (gexp_eqb s' (expr_of x)) eqn:E; [destruct H|]. destruct H as [[= <- <-]|[]]. split; [now apply S1|]. split; auto. intros X. apply (proj2 (gexp_eqb_eq _ _)) in X. congruence.
    - intros (He & Ha & N). destruct (S5 e He) as [(x & Hx & <-)|H]; [|exfalso; exact (differ_all _ _ _ _ H Ha)]. exists x. split; auto. specialize (S3 x Hx). destruct Ha as [(a & Ia & Ca) Ha]. destruct (simplified x) as [[s'|]|].
      + assert (s' = s) by (destruct S3 as [_ H]; rewrite <- (H a Ia Ca); auto). subst s'. destruct (gexp_eqb s (expr_of x)) eqn:E; [apply gexp_eqb_eq in E; congruence|now left].
      + exfalso. apply (differ_all _ _ _ s S3). split; eauto.
      + exfalso. rewrite (S3 a Ia) in Ca. discriminate.
  Qed.

  (** ** Soundness *)
  Definition right_subs (s : var -> F p) (subs : list (gexp * gexp)) : Prop := Forall (fun es => eval s (fst es) = eval s (snd es)) subs.
  Lemma set_right g (c : csys) vs l s : (forall r, In r (lookup c vs) -> In r (crefs c)) -> sys_solves s c -> (forall v, In v vs -> rc_allows (g v) (s v)) -> set_substitutions lookup g c vs = Some l -> right_subs s l.
  Proof.
    intros G Hs Hr E. unfold set_substitutions in E. destruct (get_all_possible_assignments g vs) as [as_|] eqn:Ea; [|discriminate]. injection E as <-. apply Forall_forall. intros [e x] Hin. apply found_iff in Hin. destruct Hin as (_ & [_ H] & _).
    destruct (all_assignments_complete g vs as_ s Ea Hr) as (a & Ia & Aa). cbn [fst snd]. rewrite <- (H a Ia).
    - symmetry. now apply subst_multi_eval.
    - unfold conflicting. apply not_true_iff_false. intros X. apply existsb_exists in X. destruct X as ([e'|b] & Hr' & V); [|discriminate]. unfold violated in V. destruct (try_to_known (subst_known_multi a e')) as [n|] eqn:En; [|discriminate].
      apply negb_true_iff, is_zero_neq in V. apply V. rewrite <- (try_to_known_eval s _ _ En), subst_multi_eval by auto. apply G in Hr'. unfold crefs in Hr'. apply in_app_iff in Hr'. destruct Hr' as [Hr'|Hr']; apply in_map_iff in Hr'; destruct Hr' as (y & Ey & Hy); [|discriminate]. injection Ey as ->. unfold sys_solves in Hs. rewrite Forall_forall in Hs. now apply Hs.
  Qed.
  Lemma subs_right g (c : csys) s : good_lookup lookup c -> sys_solves s c -> (forall v, In v (sys_vars c) -> rc_allows (g v) (s v)) ->
    forall sets acc l, (forall vs v, In vs sets -> In v vs -> In v (sys_vars c)) -> right_subs s acc -> substitutions lookup g c sets acc = Some l -> right_subs s l.
  Proof.
    intros G Hs Hr. induction sets as [|vs sets IH]; intros acc l Hv Ha; cbn [substitutions]; [intros [= <-]; auto|]. destruct (set_substitutions lookup g c vs) as [l1|] eqn:E; [|discriminate]. apply IH; [intros ws v Hw; apply Hv; now right|]. apply Forall_app. split; auto. apply (set_right g c vs l1 s); auto.
    - intros r Hr'. destruct (G vs) as (extra & P & I). apply (Permutation.Permutation_in _ P) in Hr'. apply in_app_iff in Hr'. destruct Hr' as [Hr'|Hr']; auto. apply filter_In in Hr'. tauto.
    - intros v Hv'. apply Hr. apply (Hv vs); auto. now left.
  Qed.
  Lemma sub_get_in (e : gexp) subs x : sub_get e subs = Some x -> In (e, x) subs.
  Proof. induction subs as [|[k y] r IH]; cbn [sub_get]; [discriminate|]. destruct (gexp_eqb e k) eqn:E; [apply gexp_eqb_eq in E; intros [= ->]; subst; now left|intros H; right; auto]. Qed.
  Context (stateful : F p -> bool) (legal : F p -> list (F p) -> Prop).
  Hypothesis Horder : forall l e, In e (in_order l) <-> In e l.
  Local Notation admissible := (admissible stateful legal).
  Local Notation sends := (sends stateful).
  Definition applied (subs : list (gexp * gexp)) (c : csys) : csys :=
    mkCS (map (replace_alg subs) (algs c) ++ in_order (flat_map (alg_equation subs) (algs c) ++ flat_map (field_equation subs) (flat_map fields (buses c))))
         (map (bmap (replace_field subs)) (buses c)) (derived c).
  Lemma values_equal subs (c : csys) s : (forall b e, In b (buses c) -> In e (fields b) -> eval s (replace_field subs e) = eval s e) -> bus_values s (applied subs c) = bus_values s c.
  Proof. intros H. unfold bus_values, applied. cbn [buses]. rewrite map_map. apply map_ext_in. intros b Hb. rewrite bmap_bmap. apply bmap_ext_in. intros e He. now apply (H b). Qed.
  Lemma applied_back subs (c : csys) s : admissible s (applied subs c) -> admissible s c /\ sends s (applied subs c) = sends s c.
  Proof.
    intros [A B]. unfold sys_solves in A. rewrite Forall_forall in A. assert (V : bus_values s (applied subs c) = bus_values s c).
    { apply values_equal. intros b e Hb He. unfold replace_field. destruct (sub_get e subs) as [x|] eqn:E; auto. assert (X : solves s (gsub e x)). { apply A. cbn [applied algs]. apply in_app_iff. right. apply Horder. apply in_app_iff. right. apply in_flat_map. exists e. split; [apply in_flat_map; eauto|]. unfold field_equation. rewrite E. now left. }
      unfold solves in X. rewrite eval_gsub in X. apply (proj1 (sub_eq_zero _ _)) in X. congruence. }
    unfold PassSpec.sends. rewrite V in *. split; auto. split; auto. apply Forall_forall. intros e He. unfold solves. assert (X : solves s (replace_alg subs e)) by (apply A; cbn [applied algs]; apply in_app_iff; left; now apply in_map). unfold replace_alg in X. destruct (sub_get e subs) as [x|] eqn:E; auto. destruct (gis_zero x) eqn:Z; auto.
    assert (Y : solves s (gsub e x)). { apply A. cbn [applied algs]. apply in_app_iff. right. apply Horder. apply in_app_iff. left. apply in_flat_map. exists e. split; auto. unfold alg_equation. rewrite E, Z. now left. }
    unfold solves in *. rewrite eval_gsub in Y. apply (proj1 (sub_eq_zero _ _)) in Y. congruence.
  Qed.
  Lemma applied_forward subs (c : csys) s : right_subs s subs -> carries_over stateful legal c (applied subs c) s.
  Proof.
    intros R [A B]. unfold right_subs in R. rewrite Forall_forall in R. assert (E : forall e x, sub_get e subs = Some x -> eval s e = eval s x) by (intros e x H; apply sub_get_in in H; exact (R _ H)).
    assert (V : bus_values s (applied subs c) = bus_values s c). { apply values_equal. intros b e _ _. unfold replace_field. destruct (sub_get e subs) as [x|] eqn:Ex; auto. symmetry. auto. }
    unfold carries_over. cbv delta [PassSpec.sends PassSpec.admissible] beta. rewrite V. split; auto. split; auto. unfold sys_solves in *. rewrite Forall_forall in A. apply Forall_forall. intros e He. cbn [applied algs] in He. apply in_app_iff in He. destruct He as [He|He].
    - apply in_map_iff in He. destruct He as (y & <- & Hy). specialize (A y Hy). unfold replace_alg. destruct (sub_get y subs) as [x|] eqn:Ex; auto. destruct (gis_zero x); auto. unfold solves in *. rewrite <- (E y x Ex). exact A.
    - apply (proj1 (Horder _ _)) in He. unfold solves. apply in_app_iff in He. destruct He as [He|He]; apply in_flat_map in He; destruct He as (y & _ & He); unfold alg_equation, field_equation in He; destruct (sub_get y subs) as [x|] eqn:Ex; try (destruct He; fail).
      + destruct (gis_zero x); [destruct He|]. destruct He as [<-|[]]. rewrite eval_gsub. apply sub_eq_zero. auto.
      + destruct He as [<-|[]]. rewrite eval_gsub. apply sub_eq_zero. auto.
  Qed.
  Lemma simplify_subs g (c c' : csys) : simplify_exhaustive lookup in_order g c = Some c' -> exists subs, substitutions lookup g c (get_brute_force_candidates c g) [] = Some subs /\ (c' = applied subs c \/ subs = [] /\ c' = c).
  Proof. unfold simplify_exhaustive. destruct (substitutions _ _ _ _ _) as [[|x l]|]; [|intros [= <-]; eauto|discriminate]. intros [= <-]. eauto. Qed.
  Lemma simplify_back g (c c' : csys) s : simplify_exhaustive lookup in_order g c = Some c' -> admissible s c' -> admissible s c /\ sends s c' = sends s c.
  Proof. intros H. destruct (simplify_subs g c c' H) as (subs & _ & [->|[_ ->]]); [apply applied_back|auto]. Qed.
  Lemma simplify_forward g (c c' : csys) s : good_lookup lookup c -> (forall v, In v (sys_vars c) -> rc_allows (g v) (s v)) -> simplify_exhaustive lookup in_order g c = Some c' -> carries_over stateful legal c c' s.
  Proof.
    intros G Hr H. destruct (simplify_subs g c c' H) as (subs & Hs & [->|[_ ->]]); [|intros A; auto]. intros A. apply applied_forward; auto. destruct A as [A _]. apply (subs_right g c s G A Hr (get_brute_force_candidates c g) [] subs); auto; [|constructor]. intros vs v Hv. apply (candidates_vars c g vs v Hv).
  Qed.
  Lemma subs_total g (c : csys) : forall sets acc, (forall vs, In vs sets -> is_candidate g vs = true) -> substitutions lookup g c sets acc <> None.
  Proof.
    induction sets as [|vs sets IH]; intros acc H; cbn [substitutions]; [discriminate|]. unfold set_substitutions, get_all_possible_assignments. destruct (cartesian g vs) as [l|] eqn:E; [apply IH; intros; apply H; now right|]. exfalso. apply cartesian_panic in E. destruct E as (v & Hv & E).
    assert (C : is_candidate g vs = true) by (apply H; now left). unfold is_candidate in C. apply andb_true_iff in C. destruct C as [C _]. apply (few_small g vs MAX_SEARCH_WIDTH ltac:(reflexivity) C v Hv E).
  Qed.
  Lemma simplify_total g (c : csys) : simplify_exhaustive lookup in_order g c <> None.
  Proof.
    unfold simplify_exhaustive. pose proof (subs_total g c (get_brute_force_candidates c g) []) as H. destruct (substitutions _ _ _ _ _) as [[|x l]|]; try discriminate. exfalso. apply H; auto. intros vs Hv. apply (candidates_small c g vs Hv).
  Qed.
End ExhFacts.
