(** One run of the rule-based optimizer keeps the assignments of the original system. *)
From Coq Require Import Arith NArith ZArith Bool List Lia Ring Znumtheory Permutation Sorted.
From Verif Require Import Field RangeModel RangeFacts ExprModel ExprFacts ExprWf ExprMore SolveModel SystemModel Spec Bridge BusModel BusFacts IndexFacts PassModel RuleModel RuleSpec RuleFacts RuleReplace.
Import ListNotations.
Local Open Scope nat_scope.

Section Shape.
  Context {p : positive} (Hp : prime (Z.pos p)).
  Local Notation gexp := (gexp p).
  Local Notation rc := (rc p).
  Variable E : renv p.
  Hypothesis Hwa : Forall wf (r_algs E).
  Hypothesis Hwi : forall e r, In (e, r) (r_init E) -> wf e.
  Hypothesis Hsingle : forall v e, In v (r_single E) -> In e (r_algs E) -> (count_var v (vars e) <= 1)%nat.

  Definition known_vars (e : gexp) : Prop := forall w, In w (vars e) -> known_var E w.
  Definition almost_known (v : var) (e : gexp) : Prop := forall w, In w (vars e) -> w = v \/ known_var E w.
  Definition repl_shape (a : repl p) : Prop :=
    match a with
    | Plain old new => Forall (fun e => wf e /\ known_vars e) new
    | WithVar old num den new => known_vars num /\ known_vars den /\ forall v, Forall (fun e => wf e /\ almost_known v e) (new v)
    end.
  Lemma wf_without v1 v2 (e : gexp) : wf e -> wf (without v1 v2 e).
  Proof.
    intros W. destruct e as [q l c]. apply wf_GE in W. destruct W as [[Ws Wn] Wq]. unfold without. cbn [quad lin cst]. apply wf_gsum. rewrite !Forall_app. split; [|split].
    - apply Forall_map. apply Forall_forall. intros ab I. apply filter_In in I. destruct I as [I _]. apply wf_GE. split; [split; constructor|].
      unfold quad_ok in *. rewrite Forall_forall in Wq. repeat constructor; apply Wq; auto.
    - apply Forall_map. apply Forall_forall. intros vc I. apply wf_GE. split; [|constructor]. split; [repeat constructor|]. rewrite Forall_forall in Wn. repeat constructor. now apply Wn.
    - destruct (is_zero c); repeat constructor.
  Qed.
  Lemma vars_from_var v : vars (p:=p) (from_var v) = [v].
  Proof. reflexivity. Qed.
  Lemma vars_gone : vars (p:=p) gone = [].
  Proof. reflexivity. Qed.
  Lemma replace_shape a : (4 < N.pos p)%N -> replace_rule E a -> repl_shape a.
  Proof.
    intros Hp4 [H|[H|H]].
    - destruct H as (e & k1 & v1 & x1 & rc1 & k2 & v2 & x2 & rc2 & C & R1 & R2 & H).
      assert (X : expression E x1 /\ expression E x2).
      { destruct C as (_ & _ & e1 & e2 & (y1 & _ & P1) & _ & (y2 & _ & P2) & _). apply product_expression in P1, P2. tauto. }
      destruct X as [X1 X2].
      destruct (free_candidate_parts Hp E Hwa Hwi Hsingle _ _ _ _ _ _ _ C) as (A & S1 & S2 & V1 & V2 & N & K1 & K2 & Ev & W1 & W2 & W3 & _).
      destruct (free_replacement_parts Hp _ _ _ _ _ _ _ _ _ _ H) as (y1 & y2 & Y1 & Y2 & _ & ->). clear H. cbn [repl_shape].
      assert (We : wf e). { rewrite Forall_forall in Hwa. auto. }
      assert (Q : forall x y, expression E x -> y = x \/ y = gmul x x -> wf y /\ known_vars y).
      { intros x y X [-> | ->]; (split; [|intros w Iw]).
        - now apply (expression_wf Hp E Hwa Hwi).
        - now apply (expression_known E x).
        - apply wf_gmul; auto; now apply (expression_wf Hp E Hwa Hwi).
        - apply vars_gmul in Iw. apply (expression_known E x); tauto. }
      destruct (Q _ _ X1 Y1) as [Wy1 Ky1]. destruct (Q _ _ X2 Y2) as [Wy2 Ky2].
      assert (Kr : known_vars (without v1 v2 e)). { intros w I. left. exists e. auto. }
      assert (Kf : known_vars (gadd (gscale y1 k1) (gscale y2 k2))). { intros w I. apply vars_gadd in I. destruct I as [I|I]; apply vars_gscale in I; auto. }
      split; [intros w I; rewrite vars_gneg in I; auto|]. split; [exact Kf|]. intros v. constructor; [|constructor]. split.
      + apply wf_gadd; [now apply wf_without|]. apply wf_gmul; auto; [now apply wf_from_var|]. apply wf_gadd; now apply wf_gscale.
      + intros w I. apply vars_gadd in I. destruct I as [I|I]; [auto|]. apply vars_gmul in I. destruct I as [I|I]; auto. cbn in I. destruct I as [<-|[]]. auto.
    - destruct H as (e1 & e2 & x & l & r & rl & rr & [_ H1] & [_ H2] & _ & _ & _ & _ & _ & _ & ->). cbn [repl_shape]. constructor; [|constructor].
      apply product_expression in H1, H2. destruct H1 as (_ & X & L), H2 as (_ & _ & R). split.
      + apply wf_gmul; auto; [|apply wf_gadd]; now apply (expression_wf Hp E Hwa Hwi).
      + intros w I. apply vars_gmul in I. destruct I as [I|I]; [now apply (expression_known E x)|]. apply vars_gadd in I. destruct I as [I|I]; [now apply (expression_known E l)|now apply (expression_known E r)].
    - destruct H as (cs & res & a0 & m & ls & d & rs & Z & ->).
      destruct (zero_check_shape Hp E Hwa Hwi _ _ _ _ _ _ _ Z) as (m0 & m1 & m2 & m3 & b0 & b1 & b2 & b3 & l0 & l1 & l2 & l3 & l4 & d0 & d1 & d2 & d3 & r0 & r1 & r2 & r3 & diff & q0 & q1 & q2 & q3 &
        -> & -> & -> & -> & -> & [_ _ _ _ _ _ _ _ ZK]). rewrite Forall_forall in ZK. unfold zero_replacement. cbn [repl_shape].
      set (sum := gsum _).
      assert (Ws : wf sum). { apply wf_gsum. repeat constructor; cbn [fst snd map]; auto using (one_neq_zero Hp). }
      assert (Ks : known_vars sum).
      { intros w I. apply vars_gsum in I. destruct I as (x & Ix & I). apply in_map_iff in Ix. destruct Ix as (u & <- & Iu). cbn in I. destruct I as [<-|[]]. apply ZK. now right. }
      clearbody sum. assert (Kr : known_var E res) by (apply ZK; cbn; auto).
      split; [intros w []|]. split; [exact Ks|]. intros v. constructor; [|constructor; [|constructor]]; split.
      + apply wf_gmul; auto. now apply wf_from_var.
      + intros w I. apply vars_gmul in I. destruct I as [I|I]; auto. cbn in I. destruct I as [<-|[]]; auto.
      + apply wf_gsub; [|apply wf_from_number]. apply wf_gadd; [now apply wf_from_var|]. apply wf_gmul; auto. now apply wf_from_var.
      + intros w I. apply vars_gsub in I. destruct I as [I|[]]. apply vars_gadd in I. destruct I as [I|I]; [cbn in I; destruct I as [<-|[]]; auto|]. apply vars_gmul in I. destruct I as [I|I]; auto. cbn in I. destruct I as [<-|[]]; auto.
  Qed.
  (** Variables in actions are known or have a range constraint. *)
  Definition ranged (v : var) : Prop := exists r, In (v, r) (r_rc E).
  Lemma affine_known e k v c : affine E e k v c -> known_var E v.
  Proof. intros A. apply (expression_known E e); [now destruct A|]. apply (affine_eq Hp E Hwa Hwi) in A. destruct A as [-> _]. cbn. auto. Qed.
  Lemma action_vars a : action_rule E a -> match a with UpdateRange v _ | SetConst v _ => known_var E v | SetVar v w => ranged v /\ ranged w end.
  Proof.
    intros [v r H|v k H|v w H _|v w H _].
    - destruct H as [e r k v c R A N|e l r v c1 c2 C _ (k & o & A & _) S2]; now apply affine_known in A.
    - destruct H as [e v x _ (k & o & A & _)|e1 e2 v2 f x v k _ _ _ _ _ _ L]; [now apply affine_known in A|now apply affine_known in L].
    - destruct H as (e1 & e2 & o & r & _ & R & R' & _). split; now exists r.
    - destruct H as (e1 & e2 & o & r & _ & R & R' & _). split; now exists r.
  Qed.
End Shape.

Section Maps.
  Context {p : positive}.
  Local Notation gexp := (gexp p).
  Local Notation csys := (csys p).
  Definition cm_map (f : gexp -> gexp) (m : cmethod p) : cmethod p := match m with CConst k => CConst k | CQuot a b => CQuot (f a) (f b) end.
  Definition sys_map (f : gexp -> gexp) (c : csys) : csys :=
    mkCS (map f (algs c)) (map (bmap f) (buses c)) (map (fun d => (fst d, cm_map f (snd d))) (derived c)).
  Lemma subst_known_map v k c : sys_subst_known v k c = sys_map (subst_known v k) c.
  Proof. reflexivity. Qed.
  Lemma subst_map v e c : sys_subst v e c = sys_map (subst_unknown v e) c.
  Proof. reflexivity. Qed.
  Lemma sys_map_solves f c (s : var -> F p) : (forall e, eval s (f e) = eval s e) -> sys_solves s (sys_map f c) <-> sys_solves s c.
  Proof. intros H. unfold sys_solves, sys_map. cbn [algs]. rewrite Forall_map. split; apply Forall_impl; intros e; unfold solves; now rewrite H. Qed.
  Lemma sys_map_bus f c (s : var -> F p) : (forall e, eval s (f e) = eval s e) -> bus_values s (sys_map f c) = bus_values s c.
  Proof.
    intros H. unfold bus_values, sys_map. cbn [buses]. rewrite map_map. apply map_ext. intros b. unfold bmap. cbn [bus_id mult payload].
    rewrite !H, map_map. f_equal. apply map_ext. exact H.
  Qed.
  Lemma sys_map_derived f c (s : var -> F p) : (forall e, eval s (f e) = eval s e) -> derived_values s (sys_map f c) = derived_values s c.
  Proof. intros H. unfold derived_values, sys_map. cbn [derived]. rewrite map_map. apply map_ext. intros [x [k|a b]]; cbn [fst snd cm_map cm_value]; rewrite ?H; auto. Qed.
  Lemma sys_map_vars f c w : In w (sys_vars (sys_map f c)) -> exists e, In w (vars (f e)) /\ incl (vars e) (sys_vars c).
  Proof.
    unfold sys_vars, sys_map. cbn [algs buses]. rewrite in_app_iff, !in_flat_map. intros [(x & Ix & I)|(x & Ix & I)]; apply in_map_iff in Ix; destruct Ix as (e & <- & Ie).
    - exists e. split; auto. intros u Iu. apply in_app_iff. left. apply in_flat_map. eauto.
    - apply bus_vars_bmap in I. destruct I as (x & Ix & I). exists x. split; auto. intros u Iu. apply in_app_iff. right. apply in_flat_map. exists e. split; auto. apply bus_vars_in. eauto.
  Qed.
  Lemma bus_values_ext (s s' : var -> F p) (c : csys) : (forall v, In v (sys_vars c) -> s v = s' v) -> bus_values s c = bus_values s' c.
  Proof.
    intros H. unfold bus_values. apply map_ext_in. intros b Ib.
    assert (G : forall e, In e (fields b) -> eval s e = eval s' e).
    { intros e Ie. apply eval_ext. intros v Iv. apply H. apply in_app_iff. right. apply in_flat_map. exists b. split; auto. apply bus_vars_in. eauto. }
    unfold bmap. rewrite (G (bus_id b)), (G (mult b)); [|right; left; reflexivity|left; reflexivity]. f_equal. apply map_ext_in. intros e Ie. apply G. right. now right.
  Qed.
  Lemma solves_ext (s s' : var -> F p) (c : csys) : (forall v, In v (sys_vars c) -> s v = s' v) -> sys_solves s c -> sys_solves s' c.
  Proof.
    intros H. unfold sys_solves. rewrite !Forall_forall. intros G e Ie. unfold solves. rewrite <- (eval_ext s s'); [now apply G|]. intros v Iv. apply H. apply in_app_iff. left. apply in_flat_map. eauto.
  Qed.
  Lemma cm_value_ext (s s' : var -> F p) (m : cmethod p) : (forall v, In v (cm_vars m) -> s v = s' v) -> cm_value s m = cm_value s' m.
  Proof.
    destruct m as [k|a b]; cbn [cm_vars cm_value]; auto. intros H. rewrite (eval_ext s s' a), (eval_ext s s' b); auto; intros v I; apply H; apply in_app_iff; auto.
  Qed.
  Lemma derived_values_ext (s s' : var -> F p) (c : csys) : (forall x m v, In (x, m) (derived c) -> In v (cm_vars m) -> s v = s' v) -> derived_values s c = derived_values s' c.
  Proof. intros H. unfold derived_values. apply map_ext_in. intros [x m] I. cbn [fst snd]. f_equal. apply cm_value_ext. intros v Iv. now apply (H x m). Qed.
  Lemma dedup_in l v : In v (dedup l) <-> In v l.
  Proof.
    induction l as [|w l IH]; cbn [dedup]; [tauto|]. destruct (existsb (veqb w) l) eqn:X; cbn [In]; rewrite IH; [|tauto].
    split; auto. intros [<-|]; auto. apply existsb_exists in X. destruct X as (u & Iu & X). apply veqb_eq in X. now subst.
  Qed.
End Maps.

Section Drive.
  Context {p : positive} (Hp : prime (Z.pos p)).
  Local Notation gexp := (gexp p).
  Local Notation rc := (rc p).
  Local Notation csys := (csys p).
  Local Notation P := (N.pos p).
  Variable handler : busi rc -> busi rc.
  Variable g : var -> rc.
  Variable fresh : nat -> var.
  Variable bound : option nat.
  Variable sem : busi (F p) -> Prop.
  Hypothesis Hsound : handler_sound sem handler.
  Hypothesis Hp4 : (4 < P)%N.
  Hypothesis Hword : (2 * P <= 2 ^ 64)%N.
  Hypothesis Hfresh : forall i j, fresh i = fresh j -> i = j.
  Variable c : csys.
  Variable next : nat.
  Hypothesis Hfresh_any : forall k x, next <= k -> rc_allows (g (fresh k)) x.
  Hypothesis Hnew : forall k, next <= k -> ~ In (fresh k) (sys_vars c).
  Hypothesis Hnewd : forall k, next <= k -> forall x m, In (x, m) (derived c) -> ~ In (fresh k) (cm_vars m).
  Variable B : list (busi (F p)).
  Variable D : list (var * F p).

  Definition scope (n : nat) (v : var) : Prop := In v (sys_vars c) \/ exists k, next <= k < n /\ v = fresh k.
  Lemma scope_old n v k : scope n v -> next <= k -> n <= k -> v <> fresh k.
  Proof. intros [I|(j & J & ->)] L1 L2 Q; [rewrite Q in I; now apply (Hnew k)|]. apply Hfresh in Q. lia. Qed.
  Lemma scope_le n n' v : n <= n' -> scope n v -> scope n' v.
  Proof. intros L [I|(j & J & ->)]; [now left|]. right. exists j. split; auto. lia. Qed.

  (** The variables in computation methods. *)
  Definition dscope (n : nat) (v : var) : Prop := scope n v \/ exists x m, In (x, m) (derived c) /\ In v (cm_vars m).
  Lemma dscope_old n v k : dscope n v -> next <= k -> n <= k -> v <> fresh k.
  Proof. intros [I|(x & m & J & K)] L1 L2 Q; [now apply (scope_old n v k)|]. subst v. now apply (Hnewd k L1 x m). Qed.
  Lemma dscope_le n n' v : n <= n' -> dscope n v -> dscope n' v.
  Proof. intros L [I|I]; [left; now apply (scope_le n)|now right]. Qed.

  Record inv (d : dstate) (s : var -> F p) : Prop := {
    i_next : next <= d_next d;
    i_solves : sys_solves s (d_sys d);
    i_bus : bus_values s (d_sys d) = B;
    i_wf : Forall wf (algs (d_sys d));
    i_wfb : forall b e, In b (buses (d_sys d)) -> In e (fields b) -> wf e;
    i_scope : forall v, In v (sys_vars (d_sys d)) -> scope (d_next d) v;
    i_rcscope : forall v r, In (v, r) (d_rc d) -> scope (d_next d) v;
    i_der : forall x m v, In (x, m) (derived (d_sys d)) -> In v (cm_vars m) -> dscope (d_next d) v;
    i_rc : forall v r, In (v, r) (d_rc d) -> rc_allows r (s v);
    i_g : forall v, In v (sys_vars c) -> rc_allows (g v) (s v);
    i_asg : forall v e, In (v, e) (d_asg d) -> s v = eval s e /\ scope (d_next d) v /\ wf e /\ forall w, In w (vars e) -> scope (d_next d) w;
    i_dv : exists extra, derived_values s (d_sys d) = D ++ extra /\ map fst extra = map fresh (seq next (d_next d - next)) /\
      Forall (fun vx => s (fst vx) = snd vx) extra }.

  (** ** Actions *)
  Lemma map_inv f d asg s : inv d s -> (forall e, eval s (f e) = eval s e) -> (forall e, wf e -> wf (f e)) ->
    (forall e w, In w (vars (f e)) -> In w (vars e) \/ scope (d_next d) w) ->
    (forall v e, In (v, e) asg -> s v = eval s e /\ scope (d_next d) v /\ wf e /\ forall w, In w (vars e) -> scope (d_next d) w) ->
    inv (mkD (sys_map f (d_sys d)) (d_rc d) (d_asg d ++ asg) (d_next d)) s.
  Proof.
    intros [] Fe Fw Fv Fa. constructor; cbn [d_sys d_rc d_asg d_next]; auto.
    - now apply sys_map_solves.
    - now rewrite sys_map_bus.
    - unfold sys_map. cbn [algs]. apply Forall_map. eapply Forall_impl; [|exact i_wf0]. auto.
    - intros b e Ib Ie. unfold sys_map in Ib. cbn [buses] in Ib. apply in_map_iff in Ib. destruct Ib as (b0 & <- & Ib). rewrite fields_bmap in Ie. apply in_map_iff in Ie.
      destruct Ie as (e0 & <- & Ie). eauto.
    - intros v Iv. apply sys_map_vars in Iv. destruct Iv as (e & Ie & Ii). apply Fv in Ie. destruct Ie as [Ie|]; auto.
    - intros x m v Ix Iv. unfold sys_map in Ix. cbn [derived] in Ix. apply in_map_iff in Ix. destruct Ix as ([x0 m0] & [= <- <-] & Ix).
      destruct m0 as [k0|a b]; cbn [cm_map cm_vars] in Iv; [destruct Iv|]. apply in_app_iff in Iv.
      assert (G : (In v (vars a) \/ In v (vars b)) \/ scope (d_next d) v). { destruct Iv as [Iv|Iv]; apply Fv in Iv; tauto. }
      destruct G as [G|G]; [|now left]. apply (i_der0 x0 (CQuot a b) v); auto. cbn [cm_vars]. now apply in_app_iff.
    - intros v e I. apply in_app_iff in I. destruct I; auto.
    - destruct i_dv0 as (extra & Q & R). exists extra. rewrite sys_map_derived; auto.
  Qed.
  Lemma upd_same_value (s : var -> F p) v x e : s v = x -> eval (upd s v x) e = eval s e.
  Proof. intros H. apply eval_ext. intros w _. destruct (var_dec w v) as [->|N]; [now rewrite upd_same|now apply upd_other; auto]. Qed.
  Lemma const_inv d s v k : inv d s -> s v = k -> scope (d_next d) v -> inv (set_const v k d) s.
  Proof.
    intros I Q Sv. unfold set_const. rewrite subst_known_map. apply map_inv; auto.
    - intros e. rewrite eval_subst_known. now apply upd_same_value.
    - intros e. now apply wf_subst_known.
    - intros e w Iw. apply vars_subst_known in Iw. tauto.
    - intros w e [[= <- <-]|[]]. split; [now rewrite eval_from_number|]. split; auto. split; [now apply wf_from_number|]. intros w [].
  Qed.
  Lemma action_inv d s a : inv d s -> action_true s a ->
    match a with UpdateRange v _ | SetConst v _ => scope (d_next d) v | SetVar v w => scope (d_next d) v /\ scope (d_next d) w end ->
    inv (apply_action d a) s /\ d_next (apply_action d a) = d_next d.
  Proof.
    intros I T Sc. destruct a as [v r|v k|v w]; cbn [apply_action action_true] in *.
    - set (old := rc_find v (d_rc d)).
      assert (A : rc_allows old (s v)).
      { unfold old. pose proof (i_rc _ _ I) as R. clear - R. induction (d_rc d) as [|[w r0] l IH]; cbn [rc_find]; [apply rc_allows_iff, unconstrained_allows|].
        destruct (veqb v w) eqn:Q; [apply veqb_eq in Q; subst; apply R; now left|]. apply IH. intros; apply R; now right. }
      assert (A' : rc_allows (conjunction old r) (s v)) by now apply b_conjunction.
      destruct (rc_eqb _ _); [auto|]. destruct (try_to_single_value _) as [k|] eqn:Q.
      + split; [|reflexivity]. apply const_inv; auto. now apply (b_single _ _ _ Q).
      + split; [|reflexivity]. destruct I. constructor; cbn [d_sys d_rc d_asg d_next]; auto.
        * intros w r0 [[= <- <-]|Iw]; auto. apply filter_In in Iw. destruct Iw. eauto.
        * intros w r0 [[= <- <-]|Iw]; auto. apply filter_In in Iw. destruct Iw. eauto.
    - split; [now apply const_inv|reflexivity].
    - destruct Sc as [Sv Sw]. split; [|reflexivity]. rewrite subst_map. apply map_inv; auto.
      + intros e. rewrite eval_subst_unknown, eval_from_var. now apply upd_same_value.
      + intros e. apply wf_subst_unknown; auto. now apply wf_from_var.
      + intros e u Iu. apply vars_subst_unknown in Iu. destruct Iu as [[Iu _]|[_ Iu]]; auto. cbn in Iu. destruct Iu as [<-|[]]. auto.
      + intros u e [[= <- <-]|[]]. split; [now rewrite eval_from_var|]. split; auto. split; [now apply wf_from_var|]. intros u Iu. cbn in Iu. destruct Iu as [<-|[]]. auto.
  Qed.

  (** ** What the rules get *)
  Lemma group_true (s : var -> F p) e r l : rc_allows r (eval s e) -> (forall e' r', In (e', r') l -> rc_allows r' (eval s e')) ->
    forall e' r', In (e', r') (group e r l) -> rc_allows r' (eval s e').
  Proof.
    intros Q. induction l as [|[e1 r1] l IH]; cbn [group]; intros H e' r'.
    - intros [[= <- <-]|[]]. auto.
    - destruct (gexp_eqb e e1) eqn:G.
      + apply gexp_eqb_eq in G. subst e1. intros [[= <- <-]|I]; [|apply H; now right]. apply b_conjunction; auto. apply H. now left.
      + intros [[= <- <-]|I]; [apply H; now left|]. apply IH; auto. intros; apply H; now right.
  Qed.
  Lemma group_src e r l (Q : gexp -> Prop) : Q e -> (forall e' r', In (e', r') l -> Q e') -> forall e' r', In (e', r') (group e r l) -> Q e'.
  Proof.
    intros He. induction l as [|[e1 r1] l IH]; cbn [group]; intros H e' r'.
    - intros [[= <- <-]|[]]. auto.
    - destruct (gexp_eqb e e1) eqn:G.
      + intros [[= <- <-]|I]; [apply (H e1 r1); now left|apply (H e' r'); now right].
      + intros [[= <- <-]|I]; [apply (H e1 r1); now left|]. apply (IH (fun _ _ J => H _ _ (or_intror J)) e' r'); auto.
  Qed.
  Lemma bus_ranges_src (d : csys) (e : gexp) r : In (e, r) (bus_ranges handler g d) -> exists b, In b (buses d) /\ In e (fields b).
  Proof.
    unfold bus_ranges. set (l := filter _ _).
    assert (H : forall er, In er l -> exists b, In b (buses d) /\ In (fst er) (fields b)).
    { intros [e0 r0] I. apply filter_In in I. destruct I as [I _]. apply in_flat_map in I. destruct I as (b & Ib & I). apply in_combine_l in I. cbn [fst]. eauto. }
    clearbody l. assert (G : forall acc, (forall e r, In (e, r) acc -> exists b, In b (buses d) /\ In e (fields b)) ->
      forall e r, In (e, r) (fold_left (fun acc er => group (fst er) (snd er) acc) l acc) -> exists b, In b (buses d) /\ In e (fields b)).
    { induction l as [|er l IH]; cbn [fold_left]; auto. intros acc A. apply IH; [intros; apply H; now right|].
      apply (group_src (fst er) (snd er) acc (fun e => exists b, In b (buses d) /\ In e (fields b))); auto. apply H. now left. }
    apply G. intros e0 r0 [].
  Qed.
  Lemma bus_ranges_hold (d : csys) (s : var -> F p) : (forall b v, In b (buses d) -> In v (bus_vars b) -> rc_allows (g v) (s v)) -> Forall sem (bus_values s d) ->
    forall e r, In (e, r) (bus_ranges handler g d) -> rc_allows r (eval s e).
  Proof.
    intros Hg Hsem. unfold bus_ranges. set (l := filter _ _).
    assert (H : forall er, In er l -> rc_allows (snd er) (eval s (fst er))).
    { intros [e r] J. apply filter_In in J. destruct J as [J _]. apply in_flat_map in J. destruct J as (b & Ib & J).
      destruct (Hsound (to_range_constraints g b)) as [_ Hs].
      assert (A : bus_allows (handler (to_range_constraints g b)) (bmap (eval s) b)).
      { apply Hs.
        - rewrite Forall_forall in Hsem. apply Hsem. unfold bus_values. apply in_map_iff. eauto.
        - apply to_rcs_allows. intros v Iv. now apply (Hg b). }
      unfold bus_allows in A. rewrite fields_bmap in A. revert A J. generalize (fields (handler (to_range_constraints g b))) as rs. generalize (fields b) as es. clear.
      induction es as [|e1 es IH]; intros [|r1 rs] A J; cbn in *; [destruct J|destruct J|destruct J|]. inversion A; subst. destruct J as [[= <- <-]|J]; auto. exact (IH _ H4 J). }
    clearbody l. assert (G : forall acc, (forall e r, In (e, r) acc -> rc_allows r (eval s e)) -> forall e r, In (e, r) (fold_left (fun acc er => group (fst er) (snd er) acc) l acc) -> rc_allows r (eval s e)).
    { induction l as [|er l IH]; cbn [fold_left]; auto. intros acc A. apply IH; [intros; apply H; now right|]. apply group_true; auto. apply H. now left. }
    apply G. intros e r [].
  Qed.
  Lemma bus_ranges_true d s : inv d s -> Forall sem B -> forall e r, In (e, r) (bus_ranges handler g (d_sys d)) -> rc_allows r (eval s e).
  Proof.
    intros I Hsem. apply bus_ranges_hold; [|now rewrite (i_bus _ _ I)].
    intros b v Ib Iv. assert (Iw : In v (sys_vars (d_sys d))) by (apply in_app_iff; right; apply in_flat_map; eauto).
    apply (i_scope _ _ I) in Iw. destruct Iw as [Iw|(k & Lk & ->)]; [now apply (i_g _ _ I)|now apply Hfresh_any].
  Qed.
  Lemma single_count (d : csys) v (e : gexp) : In v (single_occurrence d) -> In e (algs d) -> (count_var v (vars e) <= 1)%nat.
  Proof.
    intros I Ie. apply filter_In in I. destruct I as [_ I]. apply Nat.eqb_eq in I. unfold sys_vars in I. rewrite count_var_app in I.
    apply in_split in Ie. destruct Ie as (a & b & Q). rewrite Q, flat_map_app in I. cbn [flat_map] in I. rewrite !count_var_app in I. lia.
  Qed.
  Lemma sorted_nodup (l : list var) : StronglySorted vlt l -> NoDup l.
  Proof.
    induction 1 as [|v l H IH F0]; constructor; auto. intros I. rewrite Forall_forall in F0. apply F0 in I. unfold vlt in I. now rewrite vltb_irrefl in I.
  Qed.
  Lemma count_inv d s e : inv d s -> (N.of_nat (length (dedup (sys_vars c)) + (d_next d - next)) <= P)%N -> In e (algs (d_sys d)) -> (N.of_nat (length (lin e)) <= P)%N.
  Proof.
    intros I L Ie. pose proof (i_wf _ _ I) as W. rewrite Forall_forall in W. apply W in Ie as We. destruct e as [q l k]. apply wf_GE in We. destruct We as [[Ws _] _]. cbn [lin].
    assert (G : length (map fst l) <= length (dedup (sys_vars c) ++ map fresh (seq next (d_next d - next)))).
    { apply NoDup_incl_length; [now apply sorted_nodup|]. intros v Iv. apply in_app_iff.
      assert (Sv : scope (d_next d) v). { apply (i_scope _ _ I). apply in_app_iff. left. apply in_flat_map. exists (GE q l k). split; auto. rewrite vars_GE. apply in_app_iff. auto. }
      destruct Sv as [Sv|(j & J & ->)]; [left; now apply dedup_in|right]. apply in_map, in_seq. lia. }
    rewrite app_length, !map_length, seq_length in G. lia.
  Qed.
  Lemma known_scope elt vlt d s v : inv d s -> known_var (env_of handler g elt vlt d) v -> scope (d_next d) v.
  Proof.
    intros I [(e & Ie & Iv)|(e & r & Ie & Iv)]; cbn [env_of r_algs r_init] in Ie; apply (i_scope _ _ I); apply in_app_iff.
    - left. apply in_flat_map. eauto.
    - apply bus_ranges_src in Ie. destruct Ie as (b & Ib & Ie). right. apply in_flat_map. exists b. split; auto. apply bus_vars_in. eauto.
  Qed.

  (** ** Replacements *)
  Definition agree_below (n : nat) (s s' : var -> F p) : Prop := forall v, (forall k, n <= k -> v <> fresh k) -> s' v = s v.
  Lemma repl_true_ext E (s s' : var -> F p) a : repl_shape E a -> (forall v, known_var E v -> s v = s' v) -> repl_true E s a -> repl_true E s' a.
  Proof.
    destruct a as [old new|old num den new]; cbn [repl_shape repl_true].
    - intros Sh A. rewrite !Forall_forall in *. intros T e Ie. unfold solves. rewrite <- (eval_ext s s'); [now apply T|]. intros v Iv. apply A. now apply (Sh e).
    - intros (Kn & Kd & Sh) A T v Kv. specialize (T v Kv). specialize (Sh v). rewrite !Forall_forall in *. intros e Ie. unfold solves.
      assert (Q : cm_value s (CQuot num den) = cm_value s' (CQuot num den)). { apply cm_value_ext. intros w Iw. apply A. cbn [cm_vars] in Iw. apply in_app_iff in Iw. destruct Iw; auto. }
      rewrite <- Q. rewrite <- (eval_ext (upd s v (cm_value s (CQuot num den)))); [now apply T|]. intros w Iw. destruct (Sh _ Ie) as [_ K]. destruct (K w Iw) as [-> | Kw].
      + now rewrite !upd_same.
      + unfold upd. destruct (veqb v w); auto.
  Qed.
  Definition good_new (n : nat) (s : var -> F p) (x : list gexp * list gexp) : Prop := Forall (fun e => solves s e /\ wf e /\ forall w, In w (vars e) -> scope n w) (snd x).
  Lemma good_new_later n n' s s' x : n <= n' -> next <= n -> agree_below n s s' -> good_new n s x -> good_new n' s' x.
  Proof.
    intros L L1 A. apply Forall_impl. intros e (Se & We & Ve). split; [|split; auto].
    - unfold solves. rewrite (eval_ext s' s); auto. intros w Iw. apply A. intros k Lk. apply (scope_old n); auto. lia.
    - intros w Iw. apply (scope_le n); auto.
  Qed.
  Lemma fresh_inv d s x num den : inv d s -> x = cm_value s (CQuot num den) -> (forall v, In v (cm_vars (CQuot num den)) -> scope (d_next d) v) ->
    inv (mkD (mkCS (algs (d_sys d)) (buses (d_sys d)) (derived (d_sys d) ++ [(fresh (d_next d), CQuot num den)])) (d_rc d) (d_asg d) (S (d_next d))) (upd s (fresh (d_next d)) x).
  Proof.
    intros I Qx Hv. set (n := d_next d) in *. set (s' := upd s (fresh n) x).
    assert (A : agree_below n s s'). { intros v N. unfold s'. apply upd_other. intros Q. apply (N n); auto. }
    assert (As : forall v, scope n v -> s' v = s v). { intros v Sv. apply A. intros k Lk. apply (scope_old n); auto. pose proof (i_next _ _ I). fold n in H. lia. }
    destruct I. fold n in i_next0, i_scope0, i_rcscope0, i_der0, i_asg0, i_dv0. constructor; cbn [d_sys d_rc d_asg d_next algs buses derived]; auto.
    - apply (solves_ext s); auto. intros v Iv. symmetry. apply As. now apply i_scope0.
    - rewrite <- i_bus0. unfold bus_values at 1. cbn [buses]. change (bus_values s' (d_sys d) = bus_values s (d_sys d)). apply bus_values_ext. intros v Iv. apply As. now apply i_scope0.
    - intros v Iv. apply (scope_le n); [lia|]. now apply i_scope0.
    - intros v r Iv. apply (scope_le n); [lia|]. now apply (i_rcscope0 v r).
    - intros y m v Iy Iv. apply in_app_iff in Iy. destruct Iy as [Iy|[Iy|[]]].
      + apply (dscope_le n); [lia|]. now apply (i_der0 y m).
      + injection Iy as <- <-. left. apply (scope_le n); [lia|auto].
    - intros v r Iv. rewrite As; eauto.
    - intros v Iv. rewrite As; auto. now left.
    - intros v e Iv. destruct (i_asg0 v e Iv) as (Q & Sv & Sw & Se). split; [|split; [|split; [exact Sw|]]].
      + rewrite As by auto. rewrite Q. apply eval_ext. intros w Iw. symmetry. auto.
      + apply (scope_le n); auto.
      + intros w Iw. apply (scope_le n); auto.
    - destruct i_dv0 as (extra & Q & Qf & Ft). exists (extra ++ [(fresh n, x)]). split; [|split].
      + unfold derived_values. cbn [derived]. rewrite map_app. cbn [map fst snd]. rewrite app_assoc. f_equal.
        * change (derived_values s' (d_sys d) = D ++ extra). rewrite <- Q. apply derived_values_ext. intros y m v Iy Iv. apply A. intros k Lk. apply (dscope_old n); [now apply (i_der0 y m)|lia|lia].
        * f_equal. f_equal. rewrite Qx. apply cm_value_ext. intros v Iv. auto.
      + rewrite map_app, Qf. cbn [map fst]. replace (S n - next) with ((n - next) + 1) by lia. rewrite seq_app, map_app. cbn [seq map]. do 3 f_equal. lia.
      + apply Forall_app. split; [|constructor; [|constructor]].
        * rewrite Forall_forall in *. intros vx Ix. rewrite As; [now apply Ft|]. right. apply (in_map fst) in Ix. rewrite Qf in Ix. apply in_map_iff in Ix. destruct Ix as (k & <- & Ik). apply in_seq in Ik. exists k. split; auto. lia.
        * cbn [fst snd]. apply upd_same.
  Qed.
  Lemma instantiate_inv E reps : forall d s, inv d s -> (forall v, known_var E v -> scope (d_next d) v) -> Forall (repl_shape E) reps -> Forall (repl_true E s) reps ->
    forall xs d', instantiate_all fresh d reps = (xs, d') -> exists s', inv d' s' /\ agree_below (d_next d) s s' /\ d_next d <= d_next d' /\ Forall (good_new (d_next d') s') xs /\
      algs (d_sys d') = algs (d_sys d) /\ d_rc d' = d_rc d /\ d_asg d' = d_asg d /\ buses (d_sys d') = buses (d_sys d).
  Proof.
    induction reps as [|a reps IH]; intros d s I K Sh T xs d'; cbn [instantiate_all].
    - intros [= <- <-]. exists s. split; auto. split; [intros v _; auto|]. split; [lia|]. split; [constructor|auto].
    - destruct (instantiate fresh d a) as [x d1] eqn:Q1. destruct (instantiate_all fresh d1 reps) as [xs2 d2] eqn:Q2. intros [= <- <-].
      inversion Sh as [|? ? Sa Sr]; subst. inversion T as [|? ? Ta Tr]; subst.
      assert (G : exists s1, inv d1 s1 /\ agree_below (d_next d) s s1 /\ d_next d <= d_next d1 /\ good_new (d_next d1) s1 x /\ algs (d_sys d1) = algs (d_sys d) /\ d_rc d1 = d_rc d /\ d_asg d1 = d_asg d /\ buses (d_sys d1) = buses (d_sys d)).
      { destruct a as [old new|old num den new]; cbn [instantiate repl_shape repl_true] in *.
        - injection Q1 as <- <-. exists s. split; auto. split; [intros v _; auto|]. split; auto. split; [|auto].
          unfold good_new. cbn [snd]. rewrite Forall_forall in *. intros e Ie. destruct (Sa e Ie) as [We Ke]. split; [now apply Ta|]. split; auto.
        - destruct Sa as (Kn & Kd & Sa). set (v := fresh (d_next d)) in *.
          assert (Kv : ~ known_var E v). { intros Kv. apply K in Kv. apply (scope_old (d_next d) v (d_next d)) in Kv; auto. apply (i_next _ _ I). }
          specialize (Ta v Kv). specialize (Sa v).
          destruct (existsb (mentions v) (new v)) eqn:M; injection Q1 as <- <-.
          + exists (upd s v (cm_value s (CQuot num den))). split; [|split; [|split; [|split]]].
            * apply fresh_inv; auto. intros w Iw. cbn [cm_vars] in Iw. apply in_app_iff in Iw. destruct Iw; auto.
            * intros w N. apply upd_other. intros Q. apply (N (d_next d)); auto.
            * cbn [d_next]. lia.
            * unfold good_new. cbn [snd d_next]. rewrite Forall_forall in *. intros e Ie. destruct (Sa e Ie) as [We Ke]. split; [now apply Ta|]. split; auto.
              intros w Iw. destruct (Ke w Iw) as [-> |Kw]; [|apply (scope_le (d_next d)); auto]. right. exists (d_next d). split; auto. pose proof (i_next _ _ I). lia.
            * auto.
          + exists s. split; auto. split; [intros w _; auto|]. split; auto. split; [|auto]. unfold good_new. cbn [snd]. rewrite Forall_forall in *. intros e Ie. destruct (Sa e Ie) as [We Ke].
            assert (Nv : ~ In v (vars e)). { intros Iv. apply mentions_In in Iv. enough (existsb (mentions v) (new v) = true) by congruence. apply existsb_exists. eauto. }
            split; [|split; auto].
            * unfold solves. rewrite <- (eval_upd_notin s v (cm_value s (CQuot num den)) e Nv). now apply Ta.
            * intros w Iw. destruct (Ke w Iw) as [-> |Kw]; [tauto|auto]. }
      destruct G as (s1 & I1 & A1 & L1 & G1 & Qa & Qr & Qg & Qb). pose proof (i_next _ _ I) as Ln.
      destruct (IH d1 s1 I1) with (xs := xs2) (d' := d2) as (s2 & I2 & A2 & L2 & G2 & Qa2 & Qr2 & Qg2 & Qb2); auto.
      + intros v Kv. apply (scope_le (d_next d)); auto.
      + rewrite Forall_forall in *. intros a' Ia. apply (repl_true_ext E s); auto. intros v Kv. symmetry. apply A1. intros k Lk. apply (scope_old (d_next d)); auto. lia.
      + exists s2. split; auto. split; [|split; [lia|split; [constructor; auto|rewrite Qa2, Qr2, Qg2, Qb2; auto]]].
        * intros v N. rewrite A2; [now apply A1|]. intros k Lk. apply N. lia.
        * apply (good_new_later (d_next d1) _ s1); auto. lia.
  Qed.
  (** ** Selection *)
  Lemma unique_in seen (l : list gexp) e : In e (unique seen l) -> In e l.
  Proof. revert seen. induction l as [|x l IH]; cbn [unique]; auto. intros seen. destruct (member x seen); [right; eauto|]. intros [<-|I]; [now left|right; eauto]. Qed.
  Lemma select_added (d : csys) (rs : list (list gexp * list gexp)) e : In e (snd (select d rs)) -> exists r, In r rs /\ In e (snd r).
  Proof.
    unfold select. set (f := fun acc r => _).
    assert (G : forall rs acc, In e (snd (fold_left f rs acc)) -> In e (snd acc) \/ exists r, In r rs /\ In e (snd r)).
    { clear rs. induction rs as [|r rs IH]; cbn [fold_left]; auto. intros acc H. apply IH in H. destruct H as [H|(r' & I & H)]; [|right; exists r'; split; auto; now right].
      unfold f in H. destruct (_ && _); auto. cbn [snd] in H. apply in_app_iff in H. destruct H as [H|H]; auto. right. exists r. split; auto. now left. }
    intros H. apply G in H. destruct H as [[]|H]; auto.
  Qed.
  Lemma batch_in (d : csys) rs (e : gexp) : In e (algs (batch_replace bound d rs)) -> In e (algs d) \/ exists r, In r rs /\ In e (snd r).
  Proof.
    unfold batch_replace. set (l := map _ _). destruct (select d l) as [removed added] eqn:Q.
    assert (G : In e added -> exists r, In r rs /\ In e (snd r)).
    { intros I. replace added with (snd (select d l)) in I by now rewrite Q. apply select_added in I. destruct I as (r & Ir & I). unfold l in Ir. apply in_map_iff in Ir. destruct Ir as (r0 & <- & Ir). cbn [snd] in I.
      apply filter_In in Ir. destruct Ir. eauto. }
    destruct removed; [auto|]. cbn [algs]. rewrite in_app_iff, filter_In. tauto.
  Qed.
  Lemma batch_rest (d : csys) rs : buses (batch_replace bound d rs) = buses d /\ derived (batch_replace bound d rs) = derived d.
  Proof. unfold batch_replace. destruct (select d _) as [[|] added]; auto. Qed.
  Lemma batch_inv d s rs : inv d s -> Forall (good_new (d_next d) s) rs -> inv (mkD (batch_replace bound (d_sys d) rs) (d_rc d) (d_asg d) (d_next d)) s.
  Proof.
    intros I G. destruct (batch_rest (d_sys d) rs) as [Qb Qd]. unfold good_new in G. rewrite Forall_forall in G.
    assert (N : forall e, In e (algs (batch_replace bound (d_sys d) rs)) -> solves s e /\ wf e /\ forall w, In w (vars e) -> scope (d_next d) w).
    { intros e Ie. apply batch_in in Ie. destruct Ie as [Ie|(r & Ir & Ie)].
      - pose proof (i_wf _ _ I) as W. pose proof (i_solves _ _ I) as Sv. unfold sys_solves in Sv. rewrite Forall_forall in W, Sv. split; [auto|]. split; [auto|]. intros w Iw. apply (i_scope _ _ I). apply in_app_iff. left. apply in_flat_map. eauto.
      - specialize (G r Ir). rewrite Forall_forall in G. now apply G. }
    destruct I. constructor; cbn [d_sys d_rc d_asg d_next]; rewrite ?Qb, ?Qd; auto.
    - unfold sys_solves. apply Forall_forall. intros e Ie. now apply N.
    - unfold bus_values. now rewrite Qb.
    - apply Forall_forall. intros e Ie. now apply N.
    - intros v Iv. unfold sys_vars in Iv. rewrite Qb, in_app_iff in Iv. destruct Iv as [Iv|Iv].
      + apply in_flat_map in Iv. destruct Iv as (e & Ie & Iv). now apply (N e).
      + apply i_scope0. apply in_app_iff. auto.
    - unfold derived_values. rewrite Qd. exact i_dv0.
  Qed.

  (** ** Rounds *)
  Definition markers_at (d : dstate) (s : var -> F p) : Prop := forall elt vlt cs res a m ls ds rs,
    zero_check (env_of handler g elt vlt d) cs res a m ls ds rs -> markers_ok s m ls ds rs.
  Lemma round_inv d d' s : inv d s -> Forall sem B -> (N.of_nat (length (dedup (sys_vars c)) + (d_next d - next)) <= P)%N -> markers_at d s -> round handler g fresh bound d d' ->
    exists s', inv d' s' /\ agree_below (d_next d) s s' /\ d_next d <= d_next d'.
  Proof.
    intros I Hsem Hcnt Hm (elt & vlt & acts & reps & xs & rs & d1 & Ha & Hr & Hi & Hperm & ->).
    set (E := env_of handler g elt vlt d) in *.
    assert (Hwa : Forall wf (r_algs E)) by exact (i_wf _ _ I).
    assert (Hwi : forall e r, In (e, r) (r_init E) -> wf e).
    { intros e r Ie. apply bus_ranges_src in Ie. destruct Ie as (b & Ib & Ie). now apply (i_wfb _ _ I b). }
    assert (Hsg : forall v e, In v (r_single E) -> In e (r_algs E) -> (count_var v (vars e) <= 1)%nat) by (intros v e; apply single_count).
    assert (Hct : forall e, In e (r_algs E) -> (N.of_nat (length (lin e)) <= P)%N) by (intros e; now apply (count_inv d s)).
    assert (Hrt : ranges_true E s). { split; [now apply bus_ranges_true|exact (i_rc _ _ I)]. }
    assert (Hal : Forall (solves s) (r_algs E)) by exact (i_solves _ _ I).
    assert (Kn : forall v, known_var E v -> scope (d_next d) v) by (intros v; now apply (known_scope elt vlt d s)).
    assert (A : forall acts d0, Forall (action_rule E) acts -> inv d0 s -> d_next d0 = d_next d -> inv (fold_left apply_action acts d0) s /\ d_next (fold_left apply_action acts d0) = d_next d).
    { clear acts Ha Hi. induction acts as [|a acts IH]; intros d0 Ha I0 Q; cbn [fold_left]; auto. inversion_clear Ha as [|? ? Ha1 Ha2].
      destruct (action_inv d0 s a) as [I1 Q1]; auto.
      - now apply (action_rule_true Hp E Hwa Hwi s Hrt Hal Hword Hct).
      - apply (action_vars Hp E Hwa Hwi) in Ha1. rewrite Q. destruct a as [v r|v k|v w]; auto. destruct Ha1 as [(r & R) (r' & R')]. split; eapply (i_rcscope _ _ I); eauto.
      - apply IH; auto. congruence. }
    destruct (A acts d Ha I eq_refl) as [I1 Q1].
    destruct (instantiate_inv E reps (fold_left apply_action acts d) s I1) with (xs := xs) (d' := d1) as (s' & I2 & A2 & L2 & G2 & _); auto.
    - rewrite Q1. exact Kn.
    - eapply Forall_impl; [|exact Hr]. intros a. now apply replace_shape.
    - eapply Forall_impl; [|exact Hr]. intros a [H|[H|H]].
      + now apply (free_forward Hp E Hwa Hwi Hsg).
      + now apply (combine_forward Hp).
      + destruct H as (cs & res & vs & m & ls & ds & rs0 & Z & ->). apply (zero_forward Hp E Hwa Hwi Hp4 s cs res vs m ls ds rs0); auto. now apply (Hm elt vlt cs res vs m ls ds rs0).
    - exists s'. rewrite Q1 in A2, L2. split; [|auto]. apply batch_inv; auto. rewrite Forall_forall in *. intros x Ix. apply G2. apply (Permutation_in x (Permutation_sym Hperm)). exact Ix.
  Qed.
  Lemma rounds_inv d d' : rounds handler g fresh bound d d' -> forall s, inv d s -> Forall sem B -> (N.of_nat (length (dedup (sys_vars c)) + (d_next d' - next)) <= P)%N ->
    (forall d1 s1, rounds handler g fresh bound d d1 -> agree_below (d_next d) s s1 -> inv d1 s1 -> markers_at d1 s1) ->
    exists s', inv d' s' /\ agree_below (d_next d) s s' /\ d_next d <= d_next d'.
  Proof.
    intros R. induction R as [d|d d1 d2 R1 R2 IH]; intros s I Hsem Hc Hm.
    - exists s. split; auto. split; [intros v _; reflexivity|lia].
    - assert (Mono : forall d d', round handler g fresh bound d d' -> d_next d <= d_next d').
      { clear. intros d d' (elt & vlt & acts & reps & xs & rs & d1 & _ & _ & Hi & _ & ->). cbn [d_next].
        assert (A : forall (acts : list (action p)) d0, d_next (fold_left apply_action acts d0) = d_next d0).
        { clear. induction acts as [|a acts IH]; intros d0; cbn [fold_left]; auto. rewrite IH. destruct a as [v r|v k|v w]; cbn [apply_action]; auto. destruct (rc_eqb _ _); auto. destruct (try_to_single_value _); auto. }
        rewrite <- (A acts d). revert Hi. generalize (fold_left apply_action acts d) as d0. intros d0. revert d0 xs d1. induction reps as [|a reps IH]; intros d0 xs d1; cbn [instantiate_all].
        - intros [= _ <-]. auto.
        - destruct (instantiate fresh d0 a) as [x d2] eqn:Q. destruct (instantiate_all fresh d2 reps) as [ys d3] eqn:Q3. intros [= _ <-]. apply IH in Q3. enough (d_next d0 <= d_next d2) by lia.
          destruct a as [old new|old num den new]; cbn [instantiate] in Q; [injection Q as _ <-; auto|]. destruct (existsb _ _); injection Q as _ <-; cbn [d_next]; lia. }
      assert (Mono2 : forall d d', rounds handler g fresh bound d d' -> d_next d <= d_next d'). { induction 1; auto. apply Mono in H. lia. }
      pose proof (Mono _ _ R1) as M1. pose proof (Mono2 _ _ R2) as M2.
      destruct (round_inv d d1 s I Hsem) as (s1 & I1 & A1 & L1); auto.
      + pose proof (i_next _ _ I). lia.
      + apply Hm; auto; [constructor|intros v _; reflexivity].
      + destruct (IH s1 I1 Hsem Hc) as (s2 & I2 & A2 & L2).
        * intros d3 s3 R3 A3 I3. apply Hm; auto; [now apply rs_step with d1|]. intros v N. rewrite A3; [now apply A1|]. intros k Lk. apply N. lia.
        * exists s2. split; auto. split; [|lia]. intros v N. rewrite A2; [now apply A1|]. intros k Lk. apply N. lia.
  Qed.
End Drive.

Section Run.
  Context {p : positive} (Hp : prime (Z.pos p)).
  Local Notation csys := (csys p).
  Local Notation P := (N.pos p).
  Theorem rule_based_full (handler : busi (rc p) -> busi (rc p)) (g : var -> rc p) (fresh : nat -> var) (bound : option nat) (sem : busi (F p) -> Prop) (c c' : csys) next next' asg (s : var -> F p) :
    handler_sound sem handler -> (4 < P)%N -> (2 * P <= 2 ^ 64)%N -> (forall i j, fresh i = fresh j -> i = j) -> (forall k x, next <= k -> rc_allows (g (fresh k)) x) ->
    (forall k, next <= k -> ~ In (fresh k) (sys_vars c) /\ forall x m, In (x, m) (derived c) -> ~ In (fresh k) (cm_vars m)) ->
    Forall wf (algs c) -> (forall b e, In b (buses c) -> In e (fields b) -> wf e) ->
    (N.of_nat (length (dedup (sys_vars c)) + (next' - next)) <= P)%N ->
    rule_based handler g fresh bound c next c' asg next' ->
    sys_solves s c -> Forall sem (bus_values s c) -> (forall v, In v (sys_vars c) -> rc_allows (g v) (s v)) ->
    (forall d s1, rounds handler g fresh bound (initial_state g c next) d -> agree_below fresh next s s1 -> sys_solves s1 (d_sys d) ->
      (forall v r, In (v, r) (d_rc d) -> rc_allows r (s1 v)) -> Forall wf (algs (d_sys d)) -> (forall b e, In b (buses (d_sys d)) -> In e (fields b) -> wf e) -> markers_at handler g d s1) ->
    exists s', agree_below fresh next s s' /\ sys_solves s' c' /\ bus_values s' c' = bus_values s c /\ (forall v e, In (v, e) asg -> s' v = eval s' e) /\
      (exists extra, derived_values s' c' = derived_values s c ++ extra /\ map fst extra = map fresh (seq next (next' - next)) /\ Forall (fun vx => s' (fst vx) = snd vx) extra) /\
      Forall wf (algs c') /\ (forall b e, In b (buses c') -> In e (fields b) -> wf e) /\ (forall v, In v (sys_vars c') -> scope fresh c next next' v) /\ next <= next' /\
      (forall x m v, In (x, m) (derived c') -> In v (cm_vars m) -> dscope fresh c next next' v) /\
      (forall v e, In (v, e) asg -> scope fresh c next next' v /\ wf e /\ forall w, In w (vars e) -> scope fresh c next next' w).
  Proof.
    intros Hsound Hp4 Hword Hfresh Hany Hnew Hwf Hwb Hcnt (d & R & -> & -> & ->) Hs Hsem Hg Hm.
    set (d0 := initial_state g c next) in *.
    assert (I0 : inv g fresh c next (bus_values s c) (derived_values s c) d0 s).
    { assert (Rc : forall v r, In (v, r) (d_rc d0) -> In v (sys_vars c) /\ r = g v).
      { intros v r I. apply filter_In in I. destruct I as [I _]. apply in_map_iff in I. destruct I as (w & [= <- <-] & I). split; auto. now apply dedup_in. }
      constructor; auto.
      - intros v I. now left.
      - intros v r I. apply Rc in I. now left.
      - intros x m v I Iv. right. eauto.
      - intros v r I. apply Rc in I. destruct I as [I ->]. auto.
      - intros v e [].
      - exists []. cbn [d_next d0 initial_state]. rewrite app_nil_r, Nat.sub_diag. repeat split; auto. }
    destruct (rounds_inv Hp handler g fresh bound sem Hsound Hp4 Hword Hfresh c next Hany (fun k L => proj1 (Hnew k L)) (fun k L => proj2 (Hnew k L)) _ _ d0 d R s I0 Hsem Hcnt) as (s' & I & A & L).
    - intros d1 s1 R1 A1 I1. apply Hm; auto; apply I1.
    - exists s'. split; [exact A|]. split; [|split; [exact (i_bus _ _ _ _ _ _ _ _ I)|split; [|split; [exact (i_dv _ _ _ _ _ _ _ _ I)|]]]].
      + pose proof (i_solves _ _ _ _ _ _ _ _ I) as Sv. unfold sys_solves in *. cbn [algs]. rewrite Forall_forall in *. intros e Ie. apply filter_In in Ie. now apply Sv.
      + intros v e Iv. now apply (i_asg _ _ _ _ _ _ _ _ I).
      + destruct I. cbn [algs buses derived]. split; [apply Forall_forall; intros e Ie; apply filter_In in Ie; rewrite Forall_forall in i_wf0; now apply i_wf0|].
        split; [auto|]. split; [|split; [auto|split; [auto|intros v e Iv; now apply i_asg0 in Iv]]].
        intros v Iv. apply i_scope0. unfold sys_vars in *. cbn [algs buses] in Iv. apply in_app_iff in Iv. apply in_app_iff. destruct Iv as [Iv|Iv]; [left|now right].
        apply in_flat_map in Iv. destruct Iv as (e & Ie & Iv). apply filter_In in Ie. apply in_flat_map. exists e. tauto.
  Qed.
  Theorem rule_based_forward (handler : busi (rc p) -> busi (rc p)) (g : var -> rc p) (fresh : nat -> var) (bound : option nat) (sem : busi (F p) -> Prop) (c c' : csys) next next' asg (s : var -> F p) :
    handler_sound sem handler -> (4 < P)%N -> (2 * P <= 2 ^ 64)%N -> (forall i j, fresh i = fresh j -> i = j) -> (forall k x, next <= k -> rc_allows (g (fresh k)) x) ->
    (forall k, next <= k -> ~ In (fresh k) (sys_vars c) /\ forall x m, In (x, m) (derived c) -> ~ In (fresh k) (cm_vars m)) ->
    Forall wf (algs c) -> (forall b e, In b (buses c) -> In e (fields b) -> wf e) ->
    (N.of_nat (length (dedup (sys_vars c)) + (next' - next)) <= P)%N ->
    rule_based handler g fresh bound c next c' asg next' ->
    sys_solves s c -> Forall sem (bus_values s c) -> (forall v, In v (sys_vars c) -> rc_allows (g v) (s v)) ->
    (forall d s1, rounds handler g fresh bound (initial_state g c next) d -> agree_below fresh next s s1 -> sys_solves s1 (d_sys d) ->
      (forall v r, In (v, r) (d_rc d) -> rc_allows r (s1 v)) -> Forall wf (algs (d_sys d)) -> (forall b e, In b (buses (d_sys d)) -> In e (fields b) -> wf e) -> markers_at handler g d s1) ->
    exists s', agree_below fresh next s s' /\ sys_solves s' c' /\ bus_values s' c' = bus_values s c /\ (forall v e, In (v, e) asg -> s' v = eval s' e) /\
      exists extra, derived_values s' c' = derived_values s c ++ extra /\ map fst extra = map fresh (seq next (next' - next)) /\ Forall (fun vx => s' (fst vx) = snd vx) extra.
  Proof.
    intros H1 H2 H3 H4 H5 H6 H7 H8 H9 H10 H11 H12 H13 H14.
    destruct (rule_based_full handler g fresh bound sem c c' next next' asg s H1 H2 H3 H4 H5 H6 H7 H8 H9 H10 H11 H12 H13 H14) as (s' & A & B & C & D & E & _). exists s'. auto.
  Qed.
End Run.
