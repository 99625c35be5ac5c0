(** What the boolean extractor remembers, over any history of extractions and assignments. *)
From Coq Require Import NArith ZArith Znumtheory Bool List Lia Ring.
From Coq Require Import ZifyBool ZifyN ZifyNat.
From Verif Require Import Field RangeModel RangeFacts ExprModel ExprFacts ExprWf ExprMore SolveModel SolveFacts
  SystemModel IndexFacts BoolLinModel BoolLinFacts.
Import ListNotations.
Local Open Scope F_scope.

(** The operations that change the extractor: boolean_extractor.rs 49 and 154. *)
Inductive bool_op (p : positive) := BoolExtract (e : gexp p) | BoolAssign (ss : list (var * gexp p)).
Arguments BoolExtract {p}. Arguments BoolAssign {p}.

Section BoolHist.
  Context {p : positive}.
  Context (Hp : prime (Z.pos p)).
  Local Notation gexp := (gexp p).
  Add Ring Fring : (F_ring_theory (p:=p)).

  Definition bool_do (o : bool_op p) (st : bool_map p * N) : option (gexp * option var) * (bool_map p * N) :=
    match o with
    | BoolExtract e => try_extract_boolean (fst st) (snd st) e
    | BoolAssign ss => (None, (bool_apply ss (fst st), snd st))
    end.
  (** The emitted constraints with their fresh variables and the final state. *)
  Fixpoint bool_run (os : list (bool_op p)) (st : bool_map p * N) : list (gexp * option var) * (bool_map p * N) :=
    match os with
    | [] => ([], st)
    | o :: os' => let '(r, st1) := bool_do o st in let '(rs, st2) := bool_run os' st1 in (option_list r ++ rs, st2)
    end.
  Definition bop_assigns (o : bool_op p) : list (var * gexp) := match o with BoolAssign ss => ss | _ => [] end.

  Definition bool_known (s : var -> F p) (m : bool_map p) : Prop :=
    Forall (fun kv => match snd kv with None => eval s (fst kv) = 0 | Some z => eval s (fst kv) = s z /\ (s z = 0 \/ s z = 1) end) m.
  (** An emitted constraint holds and its fresh variable is boolean. *)
  Definition emitted_ok (s : var -> F p) (r : gexp * option var) : Prop :=
    eval s (fst r) = 0 /\ match snd r with None => True | Some z => s z = 0 \/ s z = 1 end.

  Lemma div_key (x off b : F p) : off <> 0 -> x + b * off = 0 -> - x * (1 / off) = b.
  Proof.
    intros H E. transitivity (- (x + b * off) * (1 / off) + b * (off * finv off)).
    - unfold fdiv. ring.
    - rewrite E, (finv_r _ Hp H). ring.
  Qed.
  Lemma key_bool (x off : F p) : off <> 0 -> (- x * (1 / off) = 0 \/ - x * (1 / off) = 1) -> x = 0 \/ x = - off.
  Proof.
    intros H E. assert (G : x = - off * (- x * (1 / off))).
    { transitivity (x * (off * finv off)); [rewrite (finv_r _ Hp H); ring|]. unfold fdiv. ring. }
    destruct E as [E|E]; rewrite E in G; [left|right]; rewrite G; ring.
  Qed.
  Lemma extract_known s m nb e r m' nb' : bool_known s m -> try_extract_boolean m nb e = (r, (m', nb')) ->
    Forall (emitted_ok s) (option_list r) -> bool_known s m'.
  Proof.
    intros Hm. unfold try_extract_boolean. destruct (try_as_single_product e) as [[le ri]|]; [|intros [= <- <- <-]; auto].
    destruct (try_to_known _) as [off|]; [|intros [= <- <- <-]; auto]. destruct (is_zero off) eqn:Ez.
    - destruct (bool_contains _ _); intros [= <- <- <-]; auto. cbn [option_list]. intros H. inversion_clear H as [|? ? H1 _].
      constructor; auto. exact (proj1 H1).
    - apply is_zero_neq in Ez. set (expr := if opt_leb _ _ then _ else _). destruct (bool_contains _ _); [intros [= <- <- <-]; auto|].
      destruct (try_to_simple_unknown _); intros [= <- <- <-]; auto. cbn [option_list]. intros H. inversion_clear H as [|? ? [H1 H2] _].
      constructor; auto. cbn [fst snd] in *. split; auto. rewrite eval_gscale, eval_gneg. apply div_key; auto.
      rewrite eval_gadd, eval_gscale, eval_from_var in H1. exact H1.
  Qed.
  Lemma bool_apply_known s ss m : Forall (fun ve => ~ In (fst ve) (vars (snd ve))) ss ->
    Forall (fun ve => s (fst ve) = eval s (snd ve)) ss -> bool_known s m -> bool_known s (bool_apply ss m).
  Proof.
    intros H1 H2 Hm. unfold bool_apply. destruct ss as [|a ss]; auto. rewrite apply_substs_map by auto. rewrite map_map.
    induction Hm as [|[k z] m Hk Hm IH]; cbn [map combine]; constructor; auto. cbn [fst snd] in *. now rewrite substs_in_eval.
  Qed.
  (** The current form of [e] needs no extraction: it holds already, or it says that a single
      variable is boolean, or is no product of two expressions with a known non-zero difference
      (up to a factor). *)
  Lemma skip_justified s m nb e le ri off st' : wf e -> bool_known s m ->
    try_extract_boolean m nb e = (None, st') ->
    try_as_single_product e = Some (le, ri) -> try_to_known (gsub (gscale le (bool_factor le ri)) ri) = Some off -> off <> 0 ->
    eval s e = 0 \/ exists v, forall s', eval s' e = 0 <-> s' v = 0 \/ s' v = 1.
  Proof.
    intros W Hm. unfold try_extract_boolean. intros H Hs Ho Hne. rewrite Hs, Ho in H.
    destruct (is_zero off) eqn:Ez. { apply is_zero_eq in Ez. congruence. }
    apply single_product_inv in Hs. subst e. destruct (wf_product _ _ _ W) as [Wl Wr].
    pose proof (bool_factor_nz Hp le ri Wl Wr) as Hf. set (f := bool_factor le ri) in *.
    set (alt := gsub (gneg ri) (from_number off)) in *. set (expr := if opt_leb _ _ then ri else alt) in *.
    assert (Hoff : forall s, eval s le * f = eval s ri + off).
    { intros s0. apply (try_to_known_eval s0) in Ho. rewrite eval_gsub, eval_gscale in Ho. rewrite <- Ho. ring. }
    assert (He : forall s, eval s (GE [(le, ri)] [] 0) = 0 <-> (eval s expr = 0 \/ eval s expr = - off)).
    { intros s0. rewrite eval_GE, eq_sum_cons, eq_sum_nil, el_sum_nil. cbn [fst snd].
      replace (eval s0 le * eval s0 ri + 0 + 0 + 0) with (eval s0 le * eval s0 ri) by ring.
      rewrite (mul_eq_zero_iff _ _ Hp).
      assert (E1 : eval s0 le = 0 <-> eval s0 ri = - off).
      { rewrite <- (add_eq_zero (eval s0 ri) off), <- Hoff, (mul_eq_zero_iff _ _ Hp). tauto. }
      rewrite E1. unfold expr, alt. destruct opt_leb; [tauto|]. rewrite eval_gsub, eval_gneg, eval_from_number.
      split; intros [G|G].
      - left. rewrite G. ring.
      - right. rewrite G. ring.
      - left. transitivity (- (- eval s0 ri - off) - off); [ring|]. rewrite G. ring.
      - right. transitivity (- (- eval s0 ri - off) - off); [ring|]. rewrite G. ring. }
    assert (Hkey : forall s, (eval s expr = 0 \/ eval s expr = - off) <->
       (eval s (gscale (gneg expr) (1 / off)) = 0 \/ eval s (gscale (gneg expr) (1 / off)) = 1)).
    { intros s0. rewrite eval_gscale, eval_gneg. split; [|now apply key_bool].
      intros [->| ->]; [left|right]; unfold fdiv; [ring|]. transitivity (off * finv off); [ring|now apply finv_r]. }
    destruct (bool_contains _ m) eqn:Ec.
    - left. rewrite He, Hkey. unfold bool_contains in Ec. apply existsb_exists in Ec. destruct Ec as ([k z] & Hin & Heq).
      apply gexp_eqb_eq in Heq. cbn [fst] in Heq. rewrite Heq. unfold bool_known in Hm. rewrite Forall_forall in Hm.
      specialize (Hm _ Hin). cbn [fst snd] in Hm. destruct z; [destruct Hm as [-> Hm]; exact Hm|left; exact Hm].
    - destruct (try_to_simple_unknown _) as [v|] eqn:Ev; [|discriminate]. right. exists v. intros s'. rewrite He, Hkey.
      apply simple_unknown_inv in Ev. rewrite Ev, eval_from_var. tauto.
  Qed.
  Lemma bool_run_known s os : Forall (fun o => Forall (fun ve => ~ In (fst ve) (vars (snd ve))) (bop_assigns o)) os ->
    forall st rs st', bool_run os st = (rs, st') -> bool_known s (fst st) -> Forall (emitted_ok s) rs ->
    Forall (fun ve => s (fst ve) = eval s (snd ve)) (flat_map bop_assigns os) -> bool_known s (fst st').
  Proof.
    induction 1 as [|o os Ho Hos IH]; intros st rs st'; cbn [bool_run].
    - intros [= <- <-]. auto.
    - destruct (bool_do o st) as [r st1] eqn:E1. destruct (bool_run os st1) as [rs' st2] eqn:E2. intros [= <- <-] Hm.
      cbn [flat_map]. rewrite !Forall_app. intros [H1 H2] [A1 A2]. apply (IH _ _ _ E2); auto. destruct o as [e|ss]; cbn [bool_do] in E1.
      + destruct st1 as [m1 n1]. eapply extract_known; eauto.
      + injection E1 as <- <-. cbn [fst]. cbn [bop_assigns] in *. now apply bool_apply_known.
  Qed.
  Theorem extractor_history os rs m nb s : Forall (fun o => Forall (fun ve => ~ In (fst ve) (vars (snd ve))) (bop_assigns o)) os ->
    bool_run os ([], 0%N) = (rs, (m, nb)) -> Forall (emitted_ok s) rs ->
    Forall (fun ve => s (fst ve) = eval s (snd ve)) (flat_map bop_assigns os) ->
    forall e le ri off st', wf e -> try_extract_boolean m nb e = (None, st') ->
    try_as_single_product e = Some (le, ri) -> try_to_known (gsub (gscale le (bool_factor le ri)) ri) = Some off -> off <> 0 ->
    eval s e = 0 \/ exists v, forall s', eval s' e = 0 <-> s' v = 0 \/ s' v = 1.
  Proof.
    intros Ho E H1 H2 e le ri off st' W Hx Hs Hk Hne. eapply skip_justified; eauto.
    apply (bool_run_known s os Ho _ _ _ E); auto. constructor.
  Qed.

  Lemma extract_affine m nb (e c : gexp) zo st' le ri : try_extract_boolean m nb e = (Some (c, zo), st') ->
    try_as_single_product e = Some (le, ri) -> is_affine ri = true -> is_affine c = true.
  Proof.
    unfold try_extract_boolean. intros H Hs Ha. rewrite Hs in H. destruct (try_to_known _); [|discriminate].
    assert (Q : quad ri = []) by (unfold is_affine in Ha; destruct ri as [[|] l k]; cbn in *; [reflexivity|discriminate]).
    destruct (is_zero f).
    - destruct (bool_contains _ _); [discriminate|]. now injection H as <- <- <-.
    - set (expr := if opt_leb _ _ then _ else _) in *. destruct (bool_contains _ _); [discriminate|]. 
      destruct (try_to_simple_unknown _); [discriminate|]. injection H as <- <- <-.
      assert (Qe : quad expr = []).
      { unfold expr. destruct opt_leb; auto. unfold gsub, gadd. cbn [quad]. destruct ri as [q l k]. cbn in *. now subst. }
      assert (Q2 : quad (gscale (from_var (Boolv nb)) f) = []) by (unfold gscale; destruct is_zero; reflexivity).
      unfold is_affine, is_quadratic, gadd. cbn [quad]. now rewrite Qe, Q2.
  Qed.
End BoolHist.
