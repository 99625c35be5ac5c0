(** The facts that the rules derive are true of every assignment of which the input facts are true. *)
From Coq Require Import Arith NArith ZArith Znumtheory Bool List Lia Ring Sorted Permutation.
From Coq Require Import ZifyBool ZifyN ZifyNat.
From Verif Require Import Field RangeModel RangeFacts ExprModel ExprFacts ExprWf ExprMore SolveModel SystemModel Spec Bridge RuleModel RuleSpec.
Import ListNotations.
Local Open Scope F_scope.

Section RuleFacts.
  Context {p : positive} (Hp : prime (Z.pos p)).
  Local Notation gexp := (gexp p).
  Local Notation rc := (rc p).
  Local Notation P := (N.pos p).
  Add Ring Fring : (F_ring_theory (p:=p)).

  Lemma wf_split e (h t : gexp) : wf e -> try_split_head_tail e = Some (h, t) -> wf h /\ wf t.
  Proof.
    destruct e as [[|[a b] q] [|[v k] l] c]; cbn [try_split_head_tail]; try discriminate; intros W [= <- <-];
      apply wf_GE in W; destruct W as [[Ws Wn] Wq].
    - split; apply wf_GE; split; try constructor; try split; try constructor; try constructor.
      + inversion_clear Wn; auto.
      + cbn [map] in Ws. inversion_clear Ws; auto.
      + inversion_clear Wn; auto.
    - inversion_clear Wq as [|? ? (A & B & _ & _) Wq']. cbn [fst snd] in *. split; [now apply wf_gmul|].
      apply wf_GE. split; [split|]; auto.
    - inversion_clear Wq as [|? ? (A & B & _ & _) Wq']. cbn [fst snd] in *. split; [now apply wf_gmul|].
      apply wf_GE. split; [split|]; auto.
  Qed.
  Lemma wf_product e (l r : gexp) : wf e -> try_as_single_product e = Some (l, r) -> wf l /\ wf r.
  Proof.
    destruct e as [[|[a b] [|? ?]] [|[v k] l'] c]; cbn [try_as_single_product]; try discriminate.
    destruct (is_zero c); [|discriminate]. intros W [= <- <-]. apply wf_GE in W. destruct W as [_ Wq].
    inversion_clear Wq as [|? ? (A & B & _ & _) _]. auto.
  Qed.
  Lemma fdiv_mul (a b : F p) : b <> 0 -> a / b * b = a.
  Proof. intros H. unfold fdiv. replace (a * finv b * b) with (a * (finv b * b)) by ring. rewrite finv_l; auto. ring. Qed.
  Lemma fdiv_neq (a b : F p) : a <> 0 -> b <> 0 -> a / b <> 0.
  Proof. intros Ha Hb E. apply Ha. rewrite <- (fdiv_mul a b Hb), E. ring. Qed.

  (** environment.rs 188-229. *)
  Inductive merged : list (var * F p) -> list (var * F p) -> list (bool * (var * F p)) -> Prop :=
  | mg_nil : merged [] [] []
  | mg_both x y l1 l2 d : fst x = fst y -> merged l1 l2 d -> merged (x :: l1) (y :: l2) d
  | mg_left x l1 l2 d : merged l1 l2 d -> merged (x :: l1) l2 ((true, x) :: d)
  | mg_right y l1 l2 d : merged l1 l2 d -> merged l1 (y :: l2) ((false, y) :: d).
  Lemma merge_diff_merged l1 : forall l2, merged l1 l2 (merge_diff l1 l2).
  Proof.
    induction l1 as [|x l1 IH1]; induction l2 as [|y l2 IH2].
    - constructor.
    - cbn [merge_diff map]. constructor. destruct l2; exact IH2.
    - cbn [merge_diff map]. constructor. specialize (IH1 []). destruct l1; exact IH1.
    - cbn [merge_diff]. destruct (veqb_spec (fst x) (fst y)) as [H|]; [constructor; auto|]. destruct (vltb (fst x) (fst y)); constructor; [apply IH1|exact IH2].
  Qed.
  Lemma merged_nil l1 l2 : merged l1 l2 [] -> map fst l1 = map fst l2.
  Proof. intros H. remember [] as d eqn:D. revert D. induction H; intros; try discriminate; auto. cbn. f_equal; auto. Qed.
  Lemma merged_left l1 l2 x : merged l1 l2 [(true, x)] -> exists a b, l1 = a ++ x :: b /\ map fst (a ++ b) = map fst l2.
  Proof.
    intros H. remember [(true, x)] as d eqn:D. revert D. induction H as [|y z l1 l2 d H _ IH|y l1 l2 d H _|]; intros D; try discriminate.
    - destruct (IH D) as (a & b & -> & M). exists (y :: a), b. cbn. split; auto. now f_equal.
    - injection D as -> ->. apply merged_nil in H. exists [], l1. auto.
  Qed.
  Lemma merged_right l1 l2 y : merged l1 l2 [(false, y)] -> exists a b, l2 = a ++ y :: b /\ map fst l1 = map fst (a ++ b).
  Proof.
    intros H. remember [(false, y)] as d eqn:D. revert D. induction H as [|x z l1 l2 d H _ IH| |z l1 l2 d H _]; intros D; try discriminate.
    - destruct (IH D) as (a & b & -> & M). exists (z :: a), b. cbn. split; auto. now f_equal.
    - injection D as -> ->. apply merged_nil in H. exists [], l2. auto.
  Qed.
  Lemma merged_two l1 l2 x y d : merged l1 l2 d -> d = [(true, x); (false, y)] \/ d = [(false, y); (true, x)] ->
    exists a1 b1 a2 b2, l1 = a1 ++ x :: b1 /\ l2 = a2 ++ y :: b2 /\ map fst (a1 ++ b1) = map fst (a2 ++ b2).
  Proof.
    induction 1 as [|u w l1 l2 d H _ IH|u l1 l2 d H _|w l1 l2 d H _]; intros D.
    - destruct D; discriminate.
    - destruct (IH D) as (a1 & b1 & a2 & b2 & -> & -> & M). exists (u :: a1), b1, (w :: a2), b2. cbn. repeat split; auto. now f_equal.
    - destruct D as [[= -> ->]|D]; [|discriminate]. apply merged_right in H. destruct H as (a & b & -> & M). exists [], l1, a, b. auto.
    - destruct D as [|[= -> ->]]; [discriminate|]. apply merged_left in H. destruct H as (a & b & -> & M). exists a, b, [], l2. auto.
  Qed.
  Lemma filter_other v k (a b : list (var * F p)) : NoDup (map fst (a ++ (v, k) :: b)) -> filter (fun x => negb (veqb (fst x) v)) (a ++ (v, k) :: b) = a ++ b.
  Proof.
    intros N. rewrite map_app in N. cbn [map fst] in N. apply NoDup_remove_2 in N. rewrite in_app_iff in N.
    assert (G : forall l, ~ In v (map fst l) -> filter (fun x : var * F p => negb (veqb (fst x) v)) l = l).
    { induction l as [|[w kw] l IH]; cbn [map fst In filter]; auto. intros H. destruct (veqb_spec w v) as [->|]; [tauto|]. cbn [negb]. rewrite IH; tauto. }
    rewrite filter_app. cbn [filter fst]. rewrite veqb_refl. cbn [negb]. rewrite !G; tauto.
  Qed.
  Lemma el_sum_scaled s f : forall l1 l2 : list (var * F p), map fst l1 = map fst l2 -> length (map snd l1) = length (map (fun x => snd x * f) l2) ->
    forallb (fun xy => feqb (fst xy) (snd xy)) (combine (map snd l1) (map (fun x => snd x * f) l2)) = true -> el_sum s l1 = f * el_sum s l2.
  Proof.
    induction l1 as [|[v k] l1 IH]; intros [|[w j] l2]; cbn [map combine forallb fst snd length]; intros K L H; try discriminate; [rewrite !el_sum_nil; ring|].
    injection K as -> K. apply andb_true_iff in H. destruct H as [H1 H2]. apply feqb_eq in H1. rewrite !el_sum_cons. cbn [fst snd]. rewrite (IH l2); auto. rewrite H1. ring.
  Qed.
  Lemma differ_eval (s : var -> F p) a b lv rv f : wf a -> wf b -> differ_in_exactly_one_variable a b = Some (lv, rv, f) ->
    exists k, coefficient_of_variable lv a = Some k /\ k <> 0 /\ f <> 0 /\ eval s a = f * eval s b + k * (s lv - s rv).
  Proof.
    intros Wa Wb. unfold differ_in_exactly_one_variable. destruct a as [qa la ca], b as [qb lb cb]. cbn [is_affine is_quadratic quad lin cst].
    destruct qa; [|discriminate]. destruct qb; [|discriminate]. cbn [negb andb].
    destruct (Nat.eqb (length la) (length lb)); [|discriminate]. destruct (Nat.leb 2 (length la)); [|discriminate]. cbn [andb].
    assert (G : forall lv0 rv0 lc rc, (forall d, merge_diff la lb = d -> d = [(true, (lv0, lc)); (false, (rv0, rc))] \/ d = [(false, (rv0, rc)); (true, (lv0, lc))] ->
       (if feqb ca (cb * (lc / rc)) && (Nat.eqb (length (map snd (filter (fun x => negb (veqb (fst x) lv0)) la))) (length (map (fun x => snd x * (lc / rc)) (filter (fun x => negb (veqb (fst x) rv0)) lb)))
         && forallb (fun xy => feqb (fst xy) (snd xy)) (combine (map snd (filter (fun x => negb (veqb (fst x) lv0)) la)) (map (fun x => snd x * (lc / rc)) (filter (fun x => negb (veqb (fst x) rv0)) lb))))
        then Some (lv0, rv0, lc / rc) else None) = Some (lv, rv, f) ->
       exists k, coefficient_of_variable lv (GE [] la ca) = Some k /\ k <> 0 /\ f <> 0 /\ eval s (GE [] la ca) = f * eval s (GE [] lb cb) + k * (s lv - s rv))).
    { intros lv0 rv0 lc rc d M D H. destruct (feqb ca (cb * (lc / rc))) eqn:Ec; [|discriminate]. apply feqb_eq in Ec.
      destruct (Nat.eqb_spec (length (map snd (filter (fun x => negb (veqb (fst x) lv0)) la))) (length (map (fun x => snd x * (lc / rc)) (filter (fun x => negb (veqb (fst x) rv0)) lb)))) as [El|]; [|discriminate].
      destruct (forallb _ _) eqn:Ef; [|discriminate]. injection H as -> -> <-. pose proof (merge_diff_merged la lb) as MM. rewrite M in MM.
      destruct (merged_two _ _ _ _ _ MM D) as (a1 & b1 & a2 & b2 & -> & -> & K). pose proof Wa as Wa'. apply wf_GE in Wa, Wb. destruct Wa as [[Sa Na] _], Wb as [[Sb Nb] _].
      assert (Da : NoDup (map fst (a1 ++ (lv, lc) :: b1))). { clear - Sa. induction Sa as [|v l _ IH Fa]; constructor; auto. intros I. rewrite Forall_forall in Fa. apply Fa in I. unfold vlt in I. rewrite vltb_irrefl in I. discriminate. }
      assert (Db : NoDup (map fst (a2 ++ (rv, rc) :: b2))). { clear - Sb. induction Sb as [|v l _ IH Fa]; constructor; auto. intros I. rewrite Forall_forall in Fa. apply Fa in I. unfold vlt in I. rewrite vltb_irrefl in I. discriminate. }
      rewrite (filter_other _ _ _ _ Da), (filter_other _ _ _ _ Db) in *.
      assert (Nl : lc <> 0). { rewrite Forall_forall in Na. apply (Na (lv, lc)). apply in_elt. }
      assert (Nr : rc <> 0). { rewrite Forall_forall in Nb. apply (Nb (rv, rc)). apply in_elt. }
      exists lc. split; [|split; [auto|split; [now apply fdiv_neq|]]].
      { unfold coefficient_of_variable. cbn [lin]. apply lget_some_in; [split; auto|apply in_elt]. }
      rewrite !eval_GE, !eq_sum_nil, !el_sum_app, !el_sum_cons. cbn [fst snd].
      pose proof (el_sum_scaled s (lc / rc) _ _ K El Ef) as Es. rewrite !el_sum_app in Es. rewrite Ec. pose proof (fdiv_mul lc rc Nr) as Dv.
      transitivity (el_sum s a1 + el_sum s b1 + lc * s lv + cb * (lc / rc)); [ring|]. rewrite Es. 
      replace (lc / rc * (0 + (el_sum s a2 + (rc * s rv + el_sum s b2)) + cb)) with (lc / rc * (el_sum s a2 + el_sum s b2) + lc / rc * rc * s rv + cb * (lc / rc)) by ring.
      rewrite Dv. ring. }
    destruct (merge_diff la lb) as [|[[] [v1 k1]] [|[[] [v2 k2]] [|? ?]]] eqn:M; try discriminate; intros H.
    - eapply G; eauto.
    - eapply G; eauto.
  Qed.

  Variable E : renv p.
  Hypothesis Hwa : Forall wf (r_algs E).
  Hypothesis Hwi : forall e r, In (e, r) (r_init E) -> wf e.

  Lemma expression_wf e : expression E e -> wf e.
  Proof.
    induction 1 as [e H|e r H|e l r _ IH H|e l r _ IH H|e h t _ IH H|e h t _ IH H].
    - rewrite Forall_forall in Hwa. auto.
    - eauto.
    - now apply (wf_product _ _ _ IH) in H.
    - now apply (wf_product _ _ _ IH) in H.
    - now apply (wf_split _ _ _ IH) in H.
    - now apply (wf_split _ _ _ IH) in H.
  Qed.
  Lemma affine_eq e k v c : affine E e k v c -> e = GE [] [(v, k)] c /\ k <> 0.
  Proof.
    intros [H1 H2]. apply expression_wf in H1. destruct e as [[|? ?] [|[w k'] [|? ?]] c']; cbn in H2; try discriminate.
    injection H2 as -> -> ->. split; auto. apply wf_GE in H1. destruct H1 as [[_ H1] _]. inversion H1; auto.
  Qed.
  Lemma linear_eq e v k : linear E e v k -> e = GE [] [(v, k)] 0 /\ k <> 0.
  Proof. apply affine_eq. Qed.
  Lemma affine_eval s e k v c : affine E e k v c -> eval s e = k * s v + c.
  Proof. intros H. apply affine_eq in H. destruct H as [-> _]. rewrite eval_GE, eq_sum_nil, el_sum_cons, el_sum_nil. cbn [fst snd]. ring. Qed.
  Lemma linear_eval s e k v : linear E e v k -> eval s e = k * s v.
  Proof. intros H. rewrite (affine_eval s _ _ _ _ H). ring. Qed.
  Lemma constant_eq e k : constant E e k -> e = GE [] [] k.
  Proof. intros [_ H]. now apply try_to_known_some. Qed.
  Lemma head_tail_eval s e h t : head_tail E e h t -> eval s e = eval s h + eval s t.
  Proof. intros [_ H]. now apply try_split_head_tail_eval. Qed.
  Lemma head_tail_wf e h t : head_tail E e h t -> wf e /\ wf h /\ wf t.
  Proof. intros [H1 H2]. apply expression_wf in H1. split; auto. now apply (wf_split e). Qed.
  (** A split is at the first product or, if there is none, at the first variable. *)
  Lemma head_tail_cases e h t : head_tail E e h t ->
    (exists a b q l c, e = GE ((a, b) :: q) l c /\ h = GE [(a, b)] [] 0 /\ t = GE q l c) \/
    (exists v k l c, e = GE [] ((v, k) :: l) c /\ h = GE [] [(v, k)] 0 /\ t = GE [] l c).
  Proof.
    intros [H1 H2]. apply expression_wf in H1. destruct e as [[|[a b] q] l c].
    - right. destruct l as [|[v k] l]; [discriminate|]. cbn in H2. injection H2 as <- <-. eauto 10.
    - left. cbn [try_split_head_tail] in H2. injection H2 as <- <-. apply wf_GE in H1. destruct H1 as [_ Wq].
      inversion_clear Wq as [|? ? (A & B & KA & KB) _]. cbn [fst snd] in *. exists a, b, q, l, c. repeat split.
      unfold gmul. now rewrite KB, KA.
  Qed.
  Lemma head_linear e h t v k : head_tail E e h t -> linear E h v k ->
    exists l c, e = GE [] ((v, k) :: l) c /\ t = GE [] l c.
  Proof.
    intros H1 H2. apply linear_eq in H2. destruct H2 as [-> _].
    destruct (head_tail_cases _ _ _ H1) as [(a & b & q & l & c & _ & H & _)|(w & k' & l & c & H & H' & Ht)]; [discriminate|].
    injection H' as -> ->. eauto.
  Qed.
  Lemma head_affine e h t q l c : head_tail E e h t -> h = GE [] l c -> e = GE q (lin e) (cst e) ->
    exists v k l', e = GE [] ((v, k) :: l') (cst e) /\ h = GE [] [(v, k)] 0 /\ t = GE [] l' (cst e).
  Proof.
    intros H1 -> _. destruct (head_tail_cases _ _ _ H1) as [(a & b & q' & l' & c' & _ & H & _)|(w & k' & l' & c' & H & H' & Ht)]; [discriminate|].
    subst e. cbn [cst]. eauto 10.
  Qed.
  Lemma product_eval s e l r : product E e l r -> eval s e = eval s l * eval s r.
  Proof. induction 1 as [e l r H1 H2|e l r _ IH]; [now apply try_as_single_product_eval|]. rewrite IH. ring. Qed.
  Lemma product_eq e l r : product E e l r -> e = GE [(l, r)] [] 0 \/ e = GE [(r, l)] [] 0.
  Proof.
    induction 1 as [e l r H1 H2|e l r _ IH]; [|tauto].
    left. destruct e as [[|[a b] [|? ?]] [|[v k] l'] c]; cbn [try_as_single_product] in H2; try discriminate.
    destruct (is_zero c) eqn:Z; [|discriminate]. apply is_zero_eq in Z. congruence.
  Qed.
  Lemma product_expression e l r : product E e l r -> expression E e /\ expression E l /\ expression E r.
  Proof. induction 1 as [e l r H1 H2|e l r _ IH]; [|tauto]. repeat split; eauto using ex_left, ex_right. Qed.

  (** 134-139. *)
  Lemma simple_sum_eq e f c : simple_sum E e f c -> exists l, e = GE [] l c /\ l <> [] /\ Forall (fun vk => snd vk = f) l.
  Proof.
    induction 1 as [e h t v f c H1 _ (l & -> & _ & IH) H3|e f v c H].
    - destruct (head_linear _ _ _ _ _ H1 H3) as (l' & c' & -> & Ht). injection Ht as <- <-.
      exists ((v, f) :: l). repeat split; auto. discriminate.
    - apply affine_eq in H. destruct H as [-> _]. exists [(v, f)]. repeat split; auto. discriminate.
  Qed.
  Lemma is_affine_eq e : is_affine_ E e -> exists l c, e = GE [] l c.
  Proof.
    induction 1 as [e k H|e h t v k H1 H2 _ (l & c & ->)].
    - apply constant_eq in H. eauto.
    - destruct (head_linear _ _ _ _ _ H1 H2) as (l' & c' & -> & Ht). eauto.
  Qed.
  (** 151-155: a summand is a product or a variable with its coefficient. *)
  Lemma has_summand_in e x : has_summand E e x ->
    (exists ab, In ab (quad e) /\ x = GE [ab] [] 0) \/ (exists vk, In vk (lin e) /\ x = GE [] [vk] 0).
  Proof.
    induction 1 as [e h t H|e h t x H _ IH]; destruct (head_tail_cases _ _ _ H) as [(a & b & q & l & c & -> & Hh & Ht)|(v & k & l & c & -> & Hh & Ht)]; subst.
    - left. exists (a, b). cbn. auto.
    - right. exists (v, k). cbn. auto.
    - cbn [quad lin] in *. destruct IH as [(ab & I & ->)|(vk & I & ->)]; [left|right]; eexists; (split; [|reflexivity]); cbn; auto.
    - cbn [quad lin] in *. destruct IH as [(ab & I & ->)|(vk & I & ->)]; [left|right]; eexists; (split; [|reflexivity]); cbn; auto.
  Qed.
  Lemma differ_by_summand_eval s e1 e2 x : differ_by_summand E e1 e2 x -> eval s e1 = eval s e2 + eval s x.
  Proof.
    induction 1 as [e1 e2 x H|e1 e2 h t1 t2 x _ IH H1 H2].
    - rewrite (head_tail_eval s _ _ _ H). ring.
    - rewrite (head_tail_eval s _ _ _ H1), (head_tail_eval s _ _ _ H2), IH. ring.
  Qed.
  (** 176-191. *)
  Lemma affinely_related_eval s e1 f e2 o : affinely_related E e1 f e2 o -> eval s e1 = f * eval s e2 + o /\ f <> 0.
  Proof.
    induction 1 as [e1 f1 v o1 e2 f2 o2 H1 H2|e1 e2 f o t1 t2 h1 h2 v f1 _ [IH F] H1 L1 H2 L2].
    - rewrite (affine_eval s _ _ _ _ H1), (affine_eval s _ _ _ _ H2). apply affine_eq in H1, H2. destruct H1 as [_ N1], H2 as [_ N2].
      split; [|now apply fdiv_neq]. pose proof (fdiv_mul f1 f2 N2) as D.
      replace (f1 / f2 * (f2 * s v + o2) + (o1 - o2 * (f1 / f2))) with (f1 / f2 * f2 * s v + o1) by ring. now rewrite D.
    - split; auto. rewrite (head_tail_eval s _ _ _ H1), (head_tail_eval s _ _ _ H2), (linear_eval s _ _ _ L1), (linear_eval s _ _ _ L2), IH.
      pose proof (fdiv_mul f1 f F) as D. replace (f * (f1 / f * s v + eval s t2) + o) with (f1 / f * f * s v + (f * eval s t2 + o)) by ring. now rewrite D.
  Qed.
  (** 227-234. *)
  Lemma affine_boolean_eq e : affine_boolean E e -> exists l c, e = GE [] l c /\ Forall (boolean_var E) (map fst l).
  Proof.
    induction 1 as [e k v c H B|e h t H _ (lh & ch & -> & IH1) _ (lt & ct & -> & IH2)].
    - apply affine_eq in H. destruct H as [-> _]. exists [(v, k)], c. cbn. auto.
    - destruct (head_tail_cases _ _ _ H) as [(a & b & q' & l' & c' & _ & H' & _)|(w & k' & l' & c' & -> & H' & Ht)]; [discriminate|].
      injection H' as -> ->. injection Ht as -> ->. exists ((w, k') :: l'), c'. split; auto. cbn in *. inversion IH1; auto.
  Qed.
  (** 208-224. *)
  Lemma boolean_subset_eq e1 e2 : boolean_subset E e1 e2 -> exists l1 c1 l2 c2,
    e1 = GE [] l1 c1 /\ e2 = GE [] l2 c2 /\ incl (map fst l1) (map fst l2) /\ Forall (boolean_var E) (map fst l2).
  Proof.
    induction 1 as [e1 e2 k v c H [_ C] B1 B2|e1 e2 h1 t1 h2 t2 v k1 k2 _ (l1 & c1 & l2 & c2 & -> & -> & I & B) H1 L1 B0 H2 L2
                   |e1 e2 h2 t2 _ (l1 & c1 & l2 & c2 & -> & -> & I & B) H2 B2].
    - apply affine_eq in H. destruct H as [-> _]. destruct (affine_boolean_eq _ B2) as (l2 & c2 & -> & F).
      exists [(v, k)], c, l2, c2. repeat split; auto. cbn. intros x [<-|[]]. rewrite vars_GE in C. exact C.
    - destruct (head_linear _ _ _ _ _ H1 L1) as (l1' & c1' & -> & Ht1). injection Ht1 as <- <-.
      destruct (head_linear _ _ _ _ _ H2 L2) as (l2' & c2' & -> & Ht2). injection Ht2 as <- <-.
      exists ((v, k1) :: l1), c1, ((v, k2) :: l2), c2. repeat split; auto; cbn; auto.
      intros x [<-|X]; cbn; auto.
    - destruct (affine_boolean_eq _ B2) as (l & c & -> & F).
      destruct (head_tail_cases _ _ _ H2) as [(a & b & q' & l' & c' & H' & _)|(w & k' & l' & c' & H' & _ & Ht)]; [discriminate|].
      injection H' as -> ->. injection Ht as <- <-. exists l1, c1, ((w, k') :: l2), c2. repeat split; auto. cbn. intros x X. right. auto.
  Qed.
  (** 610-620. *)
  Lemma count_coeffs_eq e ov f : count_coeffs E e ov f -> exists l c, e = GE [] l c /\ f = - c /\
    forall v k, In (v, k) l -> k = f -> ov = Some v.
  Proof.
    induction 1 as [e c H|e h t v f _ (l & c & -> & Hf & IH) H L|e h t v1 v f k _ (l & c & -> & Hf & IH) H L N].
    - apply constant_eq in H. exists [], c. repeat split; auto. intros v k [].
    - destruct (head_linear _ _ _ _ _ H L) as (l' & c' & -> & Ht). injection Ht as <- <-.
      exists ((v, f) :: l), c. repeat split; auto. intros w k [[= -> ->]|I] Hk; auto. pose proof (IH _ _ I Hk). discriminate.
    - destruct (head_linear _ _ _ _ _ H L) as (l' & c' & -> & Ht). injection Ht as <- <-.
      exists ((v, k) :: l), c. repeat split; auto. intros w k' [[= -> ->]|I] Hk; auto; [congruence|]. eauto.
  Qed.
  Lemma count_coeffs_some e ov f w : count_coeffs E e ov f -> ov = Some w -> In (w, f) (lin e).
  Proof.
    induction 1 as [e c H|e h t v f _ IH H L|e h t v1 v f k _ IH H L N]; intros Hw; [discriminate| |].
    - injection Hw as ->. destruct (head_linear _ _ _ _ _ H L) as (l' & c' & -> & ->). cbn. auto.
    - destruct (head_linear _ _ _ _ _ H L) as (l' & c' & -> & ->). cbn in *. auto.
  Qed.

  (** ** Truth *)
  Variable s : var -> F p.
  Hypothesis Hs : ranges_true E s.
  Lemma range_on_true e r : range_on E e r -> rc_allows r (eval s e).
  Proof.
    destruct Hs as (Hi & Hr).
    induction 1 as [e r H|e l r H _ IH|e l r rl rr H _ _ IH1 _ IH2|e v k r H R|e h t rh rt H _ IH1 _ IH2|e k H].
    - auto.
    - rewrite (product_eval s _ _ _ H). now apply b_square.
    - rewrite (product_eval s _ _ _ H). now apply b_product.
    - rewrite (linear_eval s _ _ _ H). apply b_multiple. auto.
    - rewrite (head_tail_eval s _ _ _ H). now apply b_sum.
    - apply constant_eq in H. subst e. rewrite eval_GE, eq_sum_nil, el_sum_nil. apply b_constructors. ring.
  Qed.
  Lemma boolean_true v : boolean_var E v -> s v = 0 \/ s v = 1.
  Proof.
    intros H. destruct Hs as (_ & Hr). apply Hr in H. apply b_constructors in H.
    assert (val (s v) <= 1)%N.
    { destruct (N.le_gt_cases (val (s v)) 1) as [|G]; auto. exfalso. pose proof (H (N.log2 (val (s v)))) as T.
      rewrite N.bit_log2 in T by lia. specialize (T eq_refl). assert (1 <= N.log2 (val (s v)))%N. { change 1%N with (N.log2 2) at 1. apply N.log2_le_mono. lia. }
      change 1%N with (N.ones 1) in T. rewrite N.ones_spec_high in T by lia. discriminate. }
    destruct (N.eq_dec (val (s v)) 0) as [Z|Z]; [left; now apply F_ext|right]. apply F_ext. unfold fone. rewrite val_of_N_small; [lia|].
    destruct Hp. lia.
  Qed.
  Lemma allows_le r x : rc_allows (p:=p) r x -> rmin r = 0 -> (val x <= val (rmax r))%N.
  Proof. intros [B _] Z. unfold between in B. rewrite Z, val_zero in B. lia. Qed.
  Lemma no_wrap (x y : F p) m n : (val x <= m)%N -> (val y <= n)%N -> (m + n < P)%N -> x + y = 0 -> x = 0 /\ y = 0.
  Proof.
    intros A B C D. pose proof (val_add x y) as V. rewrite D, val_zero in V.
    split; apply F_ext; rewrite val_zero; lia.
  Qed.
  Hypothesis Ha : Forall (solves s) (r_algs E).
  Lemma algebraic_true e : algebraic E e -> eval s e = 0.
  Proof. intros H. rewrite Forall_forall in Ha. now apply Ha. Qed.
  Lemma product_constraint_true e l r : product_constraint E e l r -> eval s l = 0 \/ eval s r = 0.
  Proof. intros [H1 H2]. apply algebraic_true in H1. rewrite (product_eval s _ _ _ H2) in H1. now apply mul_eq_zero. Qed.
  Lemma solvable_true e v x : solvable E e v x -> eval s e = 0 -> s v = x.
  Proof.
    intros (k & c & H & ->) Z. rewrite (affine_eval s _ _ _ _ H) in Z. apply affine_eq in H. destruct H as [_ K].
    assert (H : k * s v = - c). { now apply add_eq_zero. }
    unfold fdiv. rewrite <- H. replace (k * s v * finv k) with (k * finv k * s v) by ring. rewrite finv_r; auto. ring.
  Qed.
  Lemma update_range_true v r : update_range E v r -> rc_allows r (s v).
  Proof.
    intros H. destruct H as [e r k v c R A K|e l r v c1 c2 H _ S1 S2].
    - apply range_on_true in R. rewrite (affine_eval s _ _ _ _ A) in R.
      assert (R' : rc_allows (combine_sum r (from_value (- c))) (k * s v + c + - c)). { apply b_sum; auto. now apply b_constructors. }
      apply (b_multiple _ (1 / k)) in R'. replace (1 / k * (k * s v + c + - c)) with (1 / k * k * s v) in R' by ring.
      rewrite fdiv_mul in R'; auto. replace (1 * s v) with (s v) in R' by ring. exact R'.
    - apply b_disjunction. destruct (product_constraint_true _ _ _ H) as [Z|Z]; [left|right]; apply b_constructors; eapply solvable_true; eauto.
  Qed.
  (** The sum of the maxima fits into a word. *)
  Hypothesis Hword : (2 * P <= 2 ^ 64)%N.
  Lemma equal_zero_true e : equal_zero E e -> eval s e = 0.
  Proof.
    assert (G : forall e h t rh rt, eval s e = 0 -> head_tail E e h t -> range_on E h rh -> range_on E t rt -> rmin rh = 0 -> rmin rt = 0 ->
      ((val (rmax rh) + val (rmax rt)) mod 2 ^ 64 < val (p:=p) (fopp fone))%N -> eval s h = 0 /\ eval s t = 0).
    { intros e0 h t rh rt Z H R1 R2 M1 M2 L. rewrite (head_tail_eval s _ _ _ H) in Z. apply range_on_true in R1, R2.
      pose proof (allows_le _ _ R1 M1). pose proof (allows_le _ _ R2 M2). pose proof (val_lt (rmax rh)). pose proof (val_lt (rmax rt)).
      pose proof (val_lt (fopp (p:=p) fone)). rewrite N.mod_small in L by lia. eapply no_wrap; eauto. lia. }
    induction 1 as [e H|e h t rh rt _ IH H R1 R2 M1 M2 L|e h t rh rt _ IH H R1 R2 M1 M2 L].
    - now apply algebraic_true.
    - edestruct G; eauto.
    - edestruct G; eauto.
  Qed.

  (** ** One-hot flags *)
  (** No constraint has more variables than the field has elements. *)
  Hypothesis Hcount : forall e, In e (r_algs E) -> (N.of_nat (length (lin e)) <= P)%N.
  Definition ones (l : list (var * F p)) := filter (fun vk => is_one (s (fst vk))) l.
  Definition coeff_sum (l : list (var * F p)) : F p := fold_right (fun vk acc => snd vk + acc) 0 l.
  Lemma el_sum_ones l : Forall (boolean_var E) (map fst l) -> el_sum s l = coeff_sum (ones l).
  Proof.
    induction l as [|[v k] l IH]; intros H; [reflexivity|]. cbn [map fst] in H. inversion_clear H as [|? ? B F].
    rewrite el_sum_cons. unfold ones. cbn [filter fst snd]. fold (ones l). rewrite IH by auto.
    destruct (boolean_true _ B) as [Z|Z]; rewrite Z.
    - destruct (is_one 0) eqn:O; [apply is_one_eq in O; now destruct (one_neq_zero Hp)|]. cbn [fst snd]. ring.
    - replace (is_one 1) with true by (symmetry; now apply is_one_eq). unfold coeff_sum. cbn [fold_right fst snd]. ring.
  Qed.
  Lemma coeff_sum_same f l : Forall (fun vk => snd vk = f) l -> coeff_sum l = f * of_N (N.of_nat (length l)).
  Proof.
    induction 1 as [|[v k] l H _ IH]; [unfold coeff_sum; cbn [fold_right length]; change (of_N (N.of_nat 0)) with (fzero (p:=p)); ring|].
    cbn [snd] in H. subst k. unfold coeff_sum. cbn [fold_right snd length]. fold (coeff_sum l). rewrite IH.
    replace (N.of_nat (Datatypes.S (length l))) with (1 + N.of_nat (length l))%N by lia. rewrite of_N_add. change (of_N 1) with (fone (p:=p)). ring.
  Qed.
  Lemma filter_length_le {A} (f : A -> bool) l : (length (filter f l) <= length l)%nat.
  Proof. induction l as [|a l IH]; cbn [filter length]; auto. destruct (f a); cbn [length]; lia. Qed.
  Lemma sorted_nodup l : StronglySorted vlt l -> NoDup l.
  Proof.
    induction 1 as [|v l _ IH F]; constructor; auto. intros I. rewrite Forall_forall in F. apply F in I. unfold vlt in I. rewrite vltb_irrefl in I. discriminate.
  Qed.
  Lemma wf_keys q l c : wf (p:=p) (GE q l c) -> NoDup (map fst l) /\ Forall (fun vk => snd vk <> 0) l.
  Proof. intros W. apply wf_GE in W. destruct W as [[A B] _]. split; auto. now apply sorted_nodup. Qed.
  (** 595-600. *)
  Lemma exactly_one_true e : exactly_one E e -> exists l c v k, e = GE [] l c /\ ones l = [(v, k)].
  Proof.
    intros (A & B & f & c & S & Z). destruct (affine_boolean_eq _ B) as (l & c' & -> & Fb).
    destruct (simple_sum_eq _ _ _ S) as (l' & Hl & N & Sf). injection Hl as <- ->.
    pose proof (algebraic_true _ A) as T. rewrite eval_GE, eq_sum_nil, (el_sum_ones _ Fb) in T.
    assert (Sf' : Forall (fun vk => snd vk = f) (ones l)). { apply Forall_forall. intros x X. apply filter_In in X. rewrite Forall_forall in Sf. now apply Sf. }
    rewrite (coeff_sum_same f _ Sf') in T. apply add_eq_zero in Z.
    assert (W : wf (GE [] l c)). { rewrite Forall_forall in Hwa. now apply Hwa. }
    apply wf_keys in W. destruct W as [ND NZ].
    assert (Nf : f <> 0). { destruct l as [|x l]; [congruence|]. inversion_clear NZ. inversion_clear Sf. congruence. }
    assert (O : of_N (N.of_nat (length (ones l))) = (1 : F p)).
    { assert (M : f * (of_N (N.of_nat (length (ones l))) - 1) = 0). { rewrite <- T, Z. ring. }
      destruct (mul_eq_zero _ _ Hp M) as [|M']; [congruence|]. now apply sub_eq_zero. }
    pose proof (Hcount _ A) as C. cbn [lin] in C. pose proof (filter_length_le (fun vk => is_one (s (fst vk))) l) as L. fold (ones l) in L.
    assert (P2 : (2 <= P)%N) by (destruct Hp; lia).
    apply (f_equal (val (p:=p))) in O. rewrite val_of_N in O. unfold fone in O. rewrite val_of_N_small in O by lia.
    assert (LO : length (ones l) = 1%nat).
    { destruct (N.eq_dec (N.of_nat (length (ones l))) P) as [Q|Q]; [rewrite Q, N.mod_same in O by lia; lia|].
      rewrite N.mod_small in O by lia. lia. }
    destruct (ones l) as [|[v k] [|? ?]] eqn:EO; cbn in LO; try lia. exists l, c, v, k. auto.
  Qed.
  Lemma ones_in l v k : In (v, k) l -> s v = 1 -> In (v, k) (ones l).
  Proof. intros I O. apply filter_In. split; auto. now apply is_one_eq. Qed.
  (** 622-634. *)
  Lemma one_hot_true e1 e2 ov f x v k : exactly_one E e1 -> boolean_subset E e2 e1 -> algebraic E e2 -> count_coeffs E e2 ov f ->
    has_summand E e2 x -> linear E x v k -> s v = match ov with Some w => if veqb v w then 1 else 0 | None => 0 end.
  Proof.
    intros X B A C S L. destruct (exactly_one_true _ X) as (l1 & c1 & u & ku & -> & O1).
    destruct (boolean_subset_eq _ _ B) as (l2 & c2 & l1' & c1' & -> & H1 & I & F). injection H1 as <- <-.
    destruct (count_coeffs_eq _ _ _ C) as (l2' & c2' & H2 & Hf & Hc). injection H2 as <- <-.
    assert (F2 : Forall (boolean_var E) (map fst l2)). { apply Forall_forall. intros w W. rewrite Forall_forall in F. auto. }
    assert (Iv : In (v, k) l2).
    { apply linear_eq in L. destruct L as [-> _]. destruct (has_summand_in _ _ S) as [(ab & _ & H)|(vk & H & E')]; [discriminate|]. cbn [lin] in H. now injection E' as <-. }
    pose proof (algebraic_true _ A) as T. rewrite eval_GE, eq_sum_nil, (el_sum_ones _ F2) in T.
    assert (W : wf (GE [] l2 c2)). { rewrite Forall_forall in Hwa. now apply Hwa. }
    apply wf_keys in W. destruct W as [ND NZ].
    (* A flag of the second constraint that is set is the one of the first. *)
    assert (U : forall w, In w (map fst l2) -> s w = 1 -> w = u).
    { intros w Iw Ow. apply I in Iw. apply in_map_iff in Iw. destruct Iw as ([w' k'] & Ew & Iw). cbn in Ew. subst w'.
      pose proof (ones_in _ _ _ Iw Ow) as Q. rewrite O1 in Q. destruct Q as [[= ? ?]|[]]. congruence. }
    assert (V : forall w, In w (map fst l2) -> s w = 0 \/ s w = 1). { intros w Iw. rewrite Forall_forall in F2. apply boolean_true. auto. }
    assert (Iv' : In v (map fst l2)). { apply in_map_iff. now exists (v, k). }
    assert (OL : (ones l2 = [] /\ forall w, In w (map fst l2) -> s w = 0) \/ exists k2, ones l2 = [(u, k2)] /\ In (u, k2) l2 /\ s u = 1).
    { destruct (ones l2) as [|[w kw] r] eqn:EO.
      - left. split; auto. intros w Iw. destruct (V w Iw) as [|Q]; auto. apply in_map_iff in Iw. destruct Iw as ([w' k'] & Ew & Iw). cbn in Ew. subst w'.
        pose proof (ones_in _ _ _ Iw Q) as R. rewrite EO in R. destruct R.
      - right. assert (Q : forall w' k', In (w', k') ((w, kw) :: r) -> w' = u /\ In (w', k') l2 /\ s w' = 1).
        { intros w' k' Q. rewrite <- EO in Q. apply filter_In in Q. destruct Q as [Q1 Q2]. apply is_one_eq in Q2. cbn [fst] in Q2. repeat split; auto.
          apply U; auto. apply in_map_iff. now exists (w', k'). }
        destruct (Q w kw (or_introl eq_refl)) as (-> & Q2 & Q3). exists kw. repeat split; auto.
        destruct r as [|[w' k'] r]; auto. exfalso. destruct (Q w' k') as (-> & _ & _); [cbn; auto|].
        assert (N2 : NoDup (map fst (ones l2))). { clear - ND. unfold ones. induction l2 as [|a l IH]; cbn [filter map] in *; [constructor|]. inversion_clear ND.
          destruct (is_one (s (fst a))); cbn [map]; auto. constructor; auto. intros I. apply filter_fst_in in I. contradiction. }
        rewrite EO in N2. cbn in N2. inversion_clear N2. apply H. cbn. auto. }
    assert (KZ : forall w kw, In (w, kw) l2 -> kw <> 0). { intros w kw Q. rewrite Forall_forall in NZ. apply (NZ _ Q). }
    destruct OL as [[O2 Z]|(k2 & O2 & I2 & Z)]; rewrite O2 in T.
    - (* No flag is set: the constant is zero. *)
      unfold coeff_sum in T. cbn [fold_right] in T. assert (c2 = 0). { rewrite <- T. ring. } subst c2.
      rewrite (Z v Iv'). destruct ov as [w|]; auto. pose proof (count_coeffs_some _ _ _ _ C eq_refl) as Iw. cbn [lin] in Iw.
      exfalso. apply (KZ _ _ Iw). rewrite Hf. ring.
    - unfold coeff_sum in T. cbn [fold_right snd] in T. assert (K2 : k2 = f). { rewrite Hf. apply add_eq_zero. rewrite <- T. ring. }
      rewrite (Hc u k2 I2 K2). destruct (veqb_spec v u) as [->|N]; auto. destruct (V v Iv') as [|Q]; auto. destruct N. auto.
  Qed.
  Lemma assignment_true v x : assignment E v x -> s v = x.
  Proof.
    intros H. destruct H as [e v x H1 H2|e1 e2 ov f x v k H1 _ H3 H4 H5 H6 H7].
    - eapply solvable_true; eauto. now apply equal_zero_true.
    - eapply one_hot_true; eauto.
  Qed.

  (** ** Equivalences *)
  Lemma quadratic_candidate_true e r o : quadratic_candidate E e r o -> eval s r = 0 \/ eval s r = - o.
  Proof.
    intros (l & f & c & H & R & _ & _ & ->). destruct (affinely_related_eval s _ _ _ _ R) as [H1 F].
    destruct (product_constraint_true _ _ _ H) as [Z|Z]; auto. right. rewrite Z in H1.
    assert (M : f * (eval s r + c / f) = 0). { replace (f * (eval s r + c / f)) with (f * eval s r + c / f * f) by ring. rewrite fdiv_mul; auto. }
    destruct (mul_eq_zero _ _ Hp M) as [|M']; [congruence|]. now apply add_eq_zero.
  Qed.
  Lemma quadratic_pair_true e1 e2 o v1 v2 : quadratic_pair E e1 e2 o v1 v2 -> s v1 = s v2 \/ s v1 = s v2 + o \/ s v2 = s v1 + o.
  Proof.
    intros (c1 & c2 & o1 & o2 & f & k & Q1 & Q2 & _ & D & -> & K & ->).
    assert (W1 : wf e1). { destruct Q1 as (l & ? & ? & [_ H] & _). apply product_expression in H. now apply expression_wf. }
    assert (W2 : wf e2). { destruct Q2 as (l & ? & ? & [_ H] & _). apply product_expression in H. now apply expression_wf. }
    destruct (differ_eval s _ _ _ _ _ W1 W2 D) as (k' & K' & Nk & Nf & Ev). assert (k' = k) by congruence. subst k'.
    apply quadratic_candidate_true in Q1, Q2.
    assert (C : forall d x, k * x = d -> x = d / k). { intros d x <-. unfold fdiv. replace (k * x * finv k) with (k * finv k * x) by ring. rewrite finv_r; auto. ring. }
    assert (Dv : forall d : F p, - d / k = - (d / k)) by (intros; unfold fdiv; ring).
    assert (Z : k * (s v1 - s v2) = 0 \/ k * (s v1 - s v2) = - (o2 * f) \/ k * (s v1 - s v2) = o2 * f).
    { assert (Ev' : k * (s v1 - s v2) = eval s e1 - f * eval s e2) by (rewrite Ev; ring). rewrite Ev'.
      destruct Q1 as [->| ->], Q2 as [->| ->]; [left|right; right|right; left|left]; ring. }
    destruct Z as [Z|[Z|Z]].
    - left. destruct (mul_eq_zero _ _ Hp Z) as [|Z']; [congruence|]. now apply sub_eq_zero.
    - right. right. apply C in Z. rewrite Dv in Z. replace (s v2) with (s v1 - (s v1 - s v2)) by ring. rewrite Z. ring.
    - right. left. apply C in Z. replace (s v1) with (s v2 + (s v1 - s v2)) at 1 by ring. now rewrite Z.
  Qed.
  Lemma equivalence_true v1 v2 : equivalence E v1 v2 -> s v1 = s v2.
  Proof.
    intros (e1 & e2 & o & r & Q & R1 & R2 & D). destruct Hs as (_ & Hr). apply Hr in R1, R2.
    assert (O : rc_allows (from_value o) o) by now apply b_constructors.
    destruct (quadratic_pair_true _ _ _ _ _ Q) as [|[H|H]]; auto; exfalso.
    - apply (b_disjoint _ _ (s v1) D). split; auto. rewrite H. now apply b_sum.
    - apply (b_disjoint _ _ (s v2) D). split; auto. rewrite H. now apply b_sum.
  Qed.
  Lemma action_rule_true a : action_rule E a -> action_true s a.
  Proof.
    intros [v r H|v k H|v w H _|v w H _]; cbn [action_true].
    - now apply update_range_true.
    - now apply assignment_true.
    - now apply equivalence_true.
    - symmetry. now apply equivalence_true.
  Qed.
End RuleFacts.
