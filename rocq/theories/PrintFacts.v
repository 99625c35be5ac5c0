(** Proofs about printing. *)
From Coq Require Import Arith NArith Bool List Lia Ring.
From Verif Require Import Field ExprModel ExprFacts NumModel SymModel JsonModel JsonSpec.
Import ListNotations.
Local Open Scope list_scope. Local Open Scope F_scope.

Section Print.
  Context {p : positive}.
  Add Ring Fring : (F_ring_theory (p:=p)).
  Local Notation toks := (list (token p)).

  (** ** What is printed is a formula *)
  Definition at_least (x : option nat) (n : nat) : bool := match x with Some x => n <=? x | None => false end.
  Lemma factor_parens_if b (t : toks) (e : nexpr p) : is_sum t e -> (b = false -> is_factor t e) -> is_factor (parens b t) e.
  Proof. intros H1 H2. destruct b; cbn [parens]; [now constructor|auto]. Qed.
  Lemma display_ok (e : nexpr p) :
    is_sum (display e) e /\ (at_least (precedence e) 4 = false -> is_product (display e) e) /\ (at_least (precedence e) 3 = false -> is_factor (display e) e).
  Proof.
    assert (K : forall (t : toks) (e : nexpr p), is_factor t e -> is_sum t e /\ is_product t e /\ is_factor t e).
    { intros t e0 H. repeat split; auto; repeat constructor; auto. }
    assert (PS : forall (t : toks) (e : nexpr p), is_sum t e -> is_sum (TOpen :: t ++ [TClose]) e) by (intros; do 2 constructor; now apply factor_parens).
    assert (PP : forall (t : toks) (e : nexpr p), is_sum t e -> is_product (TOpen :: t ++ [TClose]) e) by (intros; constructor; now apply factor_parens).
    assert (PF : forall (t : toks) (e : nexpr p), is_sum t e -> is_factor (TOpen :: t ++ [TClose]) e) by (intros; now apply factor_parens).
    induction e as [name id|k|l IHl o r IHr|e IH]; cbn [display precedence at_least].
    - destruct (K [TName name] (NRef name id)) as (? & ? & ?); [constructor|auto].
    - destruct (K [TNumber k] (NNum k)) as (? & ? & ?); [constructor|auto].
    - destruct IHl as (L1 & L2 & L3), IHr as (R1 & R2 & R3). destruct o; cbn [op_precedence].
      + split; [|split; discriminate]. apply sum_more; auto.
        * destruct (precedence l) as [n|] eqn:E0; [|auto]. destruct (4 <? n) eqn:E1; cbn [parens]; auto.
        * destruct (precedence r) as [n|] eqn:E0; cbn [at_least] in *; [|auto]. destruct (4 <=? n) eqn:E1; cbn [parens]; auto.
      + split; [|split; discriminate]. apply sum_more; auto.
        * destruct (precedence l) as [n|] eqn:E0; [|auto]. destruct (4 <? n) eqn:E1; cbn [parens]; auto.
        * destruct (precedence r) as [n|] eqn:E0; cbn [at_least] in *; [|auto]. destruct (4 <=? n) eqn:E1; cbn [parens]; auto.
      + assert (M : is_product (parens match precedence l with Some x => 3 <? x | None => false end (display l) ++ [TOp OMul] ++ parens match precedence r with Some x => 3 <=? x | None => false end (display r)) (NBin l OMul r)).
        { apply product_more.
          - destruct (precedence l) as [n|] eqn:E0; cbn [at_least] in *; [|auto]. destruct (3 <? n) eqn:E1; cbn [parens].
            + auto.
            + apply L2. apply Nat.leb_gt. apply Nat.ltb_ge in E1. lia.
          - destruct (precedence r) as [n|] eqn:E0; cbn [at_least] in *; [|auto]. destruct (3 <=? n) eqn:E1; cbn [parens]; auto. }
        split; [now constructor|]. split; [auto|discriminate].
    - destruct IH as (I1 & I2 & I3).
      assert (M : is_factor (parens match precedence e with Some x => 1 <? x | None => false end (display e)) e).
      { destruct (precedence e) as [n|] eqn:E0; cbn [at_least] in *; [|auto]. destruct (1 <? n) eqn:E1; cbn [parens]; [now constructor|]. apply I3. apply Nat.leb_gt. apply Nat.ltb_ge in E1. lia. }
      apply factor_minus in M. destruct (K _ _ M) as (? & ? & ?). auto.
  Qed.

  (** ** Formulas can be read in one way only *)
  Definition no_mul (r : toks) : Prop := match r with TOp OMul :: _ => False | _ => True end.
  Definition no_op (r : toks) : Prop := match r with TOp _ :: _ => False | _ => True end.
  Lemma product_list (t : toks) (e : nexpr p) : is_product t e -> exists t0 e0 l, is_factor t0 e0 /\ Forall (fun x => is_factor (fst x) (snd x)) l /\
    t = t0 ++ flat_map (fun x => TOp OMul :: fst x) l /\ e = fold_left (fun a x => NBin a OMul (snd x)) l e0.
  Proof.
    induction 1 as [t e H|t1 e1 t2 e2 _ (t0 & e0 & l & I1 & I2 & -> & ->) H].
    - exists t, e, []. cbn. rewrite app_nil_r. auto.
    - exists t0, e0, (l ++ [(t2, e2)]). split; auto. split; [apply Forall_app; auto|]. rewrite flat_map_app, fold_left_app. cbn. rewrite app_nil_r, <- app_assoc. auto.
  Qed.
  Lemma sum_list (t : toks) (e : nexpr p) : is_sum t e -> exists t0 e0 l, is_product t0 e0 /\ Forall (fun x => fst x <> OMul /\ is_product (fst (snd x)) (snd (snd x))) l /\
    t = t0 ++ flat_map (fun x => TOp (fst x) :: fst (snd x)) l /\ e = fold_left (fun a x => NBin a (fst x) (snd (snd x))) l e0.
  Proof.
    induction 1 as [t e H|t1 e1 t2 e2 o _ (t0 & e0 & l & I1 & I2 & -> & ->) H Ho].
    - exists t, e, []. cbn. rewrite app_nil_r. auto.
    - exists t0, e0, (l ++ [(o, (t2, e2))]). split; auto. split; [apply Forall_app; split; auto; constructor; auto; cbn; split; auto; destruct Ho; subst; discriminate|].
      rewrite flat_map_app, fold_left_app. cbn. rewrite app_nil_r, <- app_assoc. auto.
  Qed.
  Definition one_way (Q : toks -> nexpr p -> Prop) (R : toks -> Prop) (n : nat) : Prop :=
    forall t1 e1 t2 e2 r1 r2, Q t1 e1 -> Q t2 e2 -> R r1 -> R r2 -> length t1 <= n -> t1 ++ r1 = t2 ++ r2 -> t1 = t2 /\ r1 = r2 /\ forget_ids e1 = forget_ids e2.
  Lemma forget_products (l : list (toks * nexpr p)) : forall e, forget_ids (fold_left (fun a x => NBin a OMul (snd x)) l e) =
    fold_left (fun a x => NBin a OMul x) (map (fun x => forget_ids (snd x)) l) (forget_ids e).
  Proof. induction l as [|x l IH]; intros e; cbn [fold_left map]; auto. rewrite IH. reflexivity. Qed.
  Lemma forget_sums (l : list (aop * (toks * nexpr p))) : forall e, forget_ids (fold_left (fun a x => NBin a (fst x) (snd (snd x))) l e) =
    fold_left (fun a x => NBin a (fst x) (snd x)) (map (fun x => (fst x, forget_ids (snd (snd x)))) l) (forget_ids e).
  Proof. induction l as [|x l IH]; intros e; cbn [fold_left map]; auto. rewrite IH. reflexivity. Qed.

  Lemma products_one_way n : one_way is_factor (fun _ => True) n -> one_way is_product no_mul n.
  Proof.
    intros HF. assert (T : forall l1 l2 r1 r2, Forall (fun x => is_factor (p:=p) (fst x) (snd x)) l1 -> Forall (fun x => is_factor (fst x) (snd x)) l2 -> no_mul r1 -> no_mul r2 ->
      length (flat_map (fun x => TOp OMul :: fst x) l1) <= n -> flat_map (fun x => TOp OMul :: fst x) l1 ++ r1 = flat_map (fun x => TOp OMul :: fst x) l2 ++ r2 ->
      flat_map (fun x => TOp OMul :: fst x) l1 = flat_map (fun x => TOp OMul :: fst x) l2 /\ r1 = r2 /\ map (fun x => forget_ids (snd x)) l1 = map (fun x => forget_ids (snd x)) l2).
    { induction l1 as [|[t1 e1] l1 IH]; intros [|[t2 e2] l2] r1 r2 H1 H2 N1 N2 L E0; cbn [flat_map map app fst snd] in *.
      - auto.
      - subst r1. destruct N1.
      - subst r2. destruct N2.
      - injection E0 as E0. rewrite <- !app_assoc in E0. inversion_clear H1. inversion_clear H2. cbn [fst snd length] in *. rewrite app_length in L.
        destruct (HF t1 e1 t2 e2 _ _ H H1 I I ltac:(lia) E0) as (-> & E1 & ->). destruct (IH l2 r1 r2 H0 H3 N1 N2 ltac:(lia) E1) as (-> & -> & ->). auto. }
    intros t1 e1 t2 e2 r1 r2 H1 H2 N1 N2 L E0.
    destruct (product_list _ _ H1) as (s1 & f1 & l1 & A1 & B1 & -> & ->). destruct (product_list _ _ H2) as (s2 & f2 & l2 & A2 & B2 & -> & ->).
    rewrite <- !app_assoc in E0. rewrite app_length in L. destruct (HF s1 f1 s2 f2 _ _ A1 A2 I I ltac:(lia) E0) as (-> & E1 & E2).
    destruct (T l1 l2 r1 r2 B1 B2 N1 N2 ltac:(lia) E1) as (-> & -> & E3). split; auto. split; auto. rewrite !forget_products. now rewrite E2, E3.
  Qed.
  Lemma no_mul_tail (l : list (aop * (toks * nexpr p))) r : Forall (fun x => fst x <> OMul /\ is_product (fst (snd x)) (snd (snd x))) l -> no_op r -> no_mul (flat_map (fun x => TOp (fst x) :: fst (snd x)) l ++ r).
  Proof. intros H N. destruct H as [|[o x] l [H _] _]; cbn [flat_map app fst] in *; [|destruct o; cbn; auto; congruence]. destruct r as [|[| | | |] r]; cbn in *; auto. destruct N. Qed.
  Lemma sums_one_way n : one_way is_factor (fun _ => True) n -> one_way is_sum no_op n.
  Proof.
    intros HF. pose proof (products_one_way n HF) as HP.
    assert (T : forall l1 l2 r1 r2, Forall (fun x => fst x <> OMul /\ is_product (p:=p) (fst (snd x)) (snd (snd x))) l1 -> Forall (fun x => fst x <> OMul /\ is_product (fst (snd x)) (snd (snd x))) l2 -> no_op r1 -> no_op r2 ->
      length (flat_map (fun x => TOp (fst x) :: fst (snd x)) l1) <= n -> flat_map (fun x => TOp (fst x) :: fst (snd x)) l1 ++ r1 = flat_map (fun x => TOp (fst x) :: fst (snd x)) l2 ++ r2 ->
      flat_map (fun x => TOp (fst x) :: fst (snd x)) l1 = flat_map (fun x => TOp (fst x) :: fst (snd x)) l2 /\ r1 = r2 /\ map (fun x => (fst x, forget_ids (snd (snd x)))) l1 = map (fun x => (fst x, forget_ids (snd (snd x)))) l2).
    { induction l1 as [|[o1 [t1 e1]] l1 IH]; intros [|[o2 [t2 e2]] l2] r1 r2 H1 H2 N1 N2 L E0; cbn [flat_map map app fst snd] in *.
      - auto.
      - subst r1. destruct N1.
      - subst r2. destruct N2.
      - injection E0 as -> E0. rewrite <- !app_assoc in E0. inversion_clear H1. inversion_clear H2. cbn [fst snd length] in *. rewrite app_length in L. destruct H as [_ H], H1 as [_ H1].
        destruct (HP t1 e1 t2 e2 _ _ H H1 (no_mul_tail _ _ H0 N1) (no_mul_tail _ _ H3 N2) ltac:(lia) E0) as (-> & E1 & ->). destruct (IH l2 r1 r2 H0 H3 N1 N2 ltac:(lia) E1) as (-> & -> & ->). auto. }
    intros t1 e1 t2 e2 r1 r2 H1 H2 N1 N2 L E0.
    destruct (sum_list _ _ H1) as (s1 & f1 & l1 & A1 & B1 & -> & ->). destruct (sum_list _ _ H2) as (s2 & f2 & l2 & A2 & B2 & -> & ->).
    rewrite <- !app_assoc in E0. rewrite app_length in L. destruct (HP s1 f1 s2 f2 _ _ A1 A2 (no_mul_tail _ _ B1 N1) (no_mul_tail _ _ B2 N2) ltac:(lia) E0) as (-> & E1 & E2).
    destruct (T l1 l2 r1 r2 B1 B2 N1 N2 ltac:(lia) E1) as (-> & -> & E3). split; auto. split; auto. rewrite !forget_sums. now rewrite E2, E3.
  Qed.
  Lemma factors_one_way n : one_way is_factor (fun _ => True) n.
  Proof.
    induction n as [|n IH]; intros t1 e1 t2 e2 r1 r2 H1 H2 _ _ L E0.
    - destruct H1; cbn in L; lia.
    - destruct H1 as [name id|k|t e H|t e H], H2 as [name' id'|k'|t' e' H'|t' e' H']; cbn [app] in E0; try discriminate; cbn [length] in L.
      + injection E0 as -> ->. auto.
      + injection E0 as -> ->. auto.
      + injection E0 as E0. destruct (IH _ _ _ _ _ _ H H' I I ltac:(lia) E0) as (-> & -> & E1). cbn [forget_ids]. rewrite E1. auto.
      + injection E0 as E0. rewrite <- !app_assoc in E0. rewrite app_length in L.
        destruct (sums_one_way n IH t e t' e' ([TClose] ++ r1) ([TClose] ++ r2) H H' I I ltac:(lia) E0) as (-> & E1 & E2). injection E1 as ->. auto.
  Qed.
  Lemma read_once (t : toks) (e1 e2 : nexpr p) : is_sum t e1 -> is_sum t e2 -> forget_ids e1 = forget_ids e2.
  Proof. intros H1 H2. destruct (sums_one_way (length t) (factors_one_way _) t e1 t e2 [] [] H1 H2 I I ltac:(lia) eq_refl) as (_ & _ & H). exact H. Qed.
  Lemma forget_value env (e : nexpr p) : name_value env (forget_ids e) = name_value env e.
  Proof. induction e as [name id|k|l IHl o r IHr|e IH]; cbn [forget_ids name_value]; auto; [rewrite IHl, IHr|rewrite IH]; auto. Qed.

  (** ** Grouped expressions *)
  Variable name_of : var -> text.
  Definition signed (s : bool) (x : F p) : F p := if s then - x else x.
  Definition part_ok (Q : toks -> nexpr p -> Prop) (x : bool * toks) (v : (text -> F p) -> F p) : Prop := exists e, Q (snd x) e /\ forall env, signed (fst x) (name_value env e) = v env.
  Lemma signed_number_ok (k : F p) : part_ok is_factor (signed_number k) (fun _ => k).
  Proof. unfold signed_number. destruct (is_in_lower_half k); [exists (NNum k)|exists (NNum (fopp k))]; split; cbn; [constructor|intros; ring|constructor|intros; ring]. Qed.
  Lemma signed_linear_ok (vc : var * F p) : part_ok is_product (signed_linear name_of vc) (fun env => snd vc * env (name_of (fst vc))).
  Proof.
    destruct vc as [v k]. unfold signed_linear. cbn [fst snd]. destruct (is_one k) eqn:E0; [|destruct (feqb k (fopp 1)) eqn:E1].
    - apply is_one_eq in E0. subst k. exists (NRef (name_of v) 0). split; [repeat constructor|]. intros env. cbn. ring.
    - apply feqb_eq in E1. subst k. exists (NRef (name_of v) 0). split; [repeat constructor|]. intros env. cbn. ring.
    - destruct (signed_number_ok k) as (e & H1 & H2). destruct (signed_number k) as [s c]. cbn [fst snd] in *. exists (NBin e OMul (NRef (name_of v) 0)). cbn [fst snd]. split.
      + change [TOp OMul; TName (name_of v)] with ([TOp (p:=p) OMul] ++ [TName (name_of v)]). apply product_more; [now constructor|constructor].
      + intros env. rewrite <- (H2 env). destruct s; cbn; ring.
  Qed.
  Lemma join_ok a b va vb : part_ok is_sum a va -> part_ok is_product b vb -> part_ok is_sum (join a b) (fun env => va env + vb env).
  Proof.
    destruct a as [sa a], b as [sb b]. unfold join, part_ok. cbn [fst snd]. intros (ea & A1 & A2) (eb & B1 & B2).
    exists (NBin ea (if Bool.eqb sa sb then OAdd else OSub) eb). split; [apply sum_more; auto; destruct (Bool.eqb sa sb); auto|].
    intros env. rewrite <- A2, <- B2. destruct sa, sb; cbn; ring.
  Qed.
  Lemma fold_ok l vs : Forall2 (part_ok is_product) l vs -> forall a va, part_ok is_sum a va -> part_ok is_sum (fold_left join l a) (fun env => va env + fold_right (fun v acc => v env + acc) 0 vs).
  Proof.
    induction 1 as [|x v l vs H _ IH]; intros a va Ha; cbn [fold_left fold_right].
    - destruct Ha as (e & H1 & H2). exists e. split; auto. intros env. rewrite H2. ring.
    - destruct (IH _ _ (join_ok _ _ _ _ Ha H)) as (e & H1 & H2). exists e. split; auto. intros env. rewrite H2. ring.
  Qed.
  Lemma to_signed_ok (e : gexp p) : part_ok is_sum (to_signed name_of e) (fun env => eval (fun v => env (name_of v)) e).
  Proof.
    induction e as [q l c Hq] using gexp_ind'. cbn [to_signed].
    assert (A : exists vs, Forall2 (part_ok is_product) (map (fun lr => let (sa, a) := to_signed name_of (fst lr) in let (sb, b) := to_signed name_of (snd lr) in (xorb sa sb, parens true a ++ [TOp OMul] ++ parens true b)) q) vs /\
      forall env, fold_right (fun v acc => v env + acc) 0 vs = eq_sum (fun v => env (name_of v)) q).
    { induction Hq as [|[a b] q [Ha Hb] Hq (vs & I1 & I2)]; cbn [map]; [exists []; split; [constructor|intros; now rewrite eq_sum_nil]|].
      exists ((fun env => eval (fun v => env (name_of v)) a * eval (fun v => env (name_of v)) b) :: vs). split; [constructor; auto|intros env; rewrite eq_sum_cons, <- I2; reflexivity].
      cbn [fst snd] in *. destruct Ha as (ea & A1 & A2), Hb as (eb & B1 & B2). destruct (to_signed name_of a) as [sa ta], (to_signed name_of b) as [sb tb]. cbn [fst snd] in *.
      exists (NBin ea OMul eb). cbn [fst snd parens]. split; [apply product_more; [constructor|]; now apply factor_parens|]. intros env. rewrite <- A2, <- B2. destruct sa, sb; cbn; ring. }
    assert (B : exists vs, Forall2 (part_ok is_product) (map (signed_linear name_of) l) vs /\ forall env, fold_right (fun v acc => v env + acc) 0 vs = el_sum (fun v => env (name_of v)) l).
    { clear. induction l as [|x l (vs & I1 & I2)]; cbn [map]; [exists []; split; [constructor|intros; now rewrite el_sum_nil]|].
      exists ((fun env => snd x * env (name_of (fst x))) :: vs). split; [constructor; auto; apply signed_linear_ok|]. intros env. cbn [fold_right]. rewrite el_sum_cons, <- I2. reflexivity. }
    assert (C : exists vs, Forall2 (part_ok is_product) (if is_zero c then [] else [signed_number c]) vs /\ forall env, fold_right (fun v acc => v env + acc) 0 vs = c).
    { destruct (is_zero c) eqn:E0.
      - exists []. split; [constructor|]. intros env. symmetry. now apply is_zero_eq.
      - exists [fun _ => c]. split; [|intros env; cbn; ring]. constructor; [|constructor]. destruct (signed_number_ok c) as (e & H1 & H2). exists e. split; auto. now constructor. }
    destruct A as (va & A1 & A2), B as (vb & B1 & B2), C as (vc & C1 & C2).
    assert (S : forall env, fold_right (fun v acc => v env + acc) 0 (va ++ vb ++ vc) = eval (fun v => env (name_of v)) (GE q l c)).
    { intros env. rewrite eval_GE, <- A2, <- B2, <- (C2 env) at 1.
      assert (X : forall a b : list ((text -> F p) -> F p), fold_right (fun v acc => v env + acc) 0 (a ++ b) = fold_right (fun v acc => v env + acc) 0 a + fold_right (fun v acc => v env + acc) 0 b).
      { intros a b. induction a as [|x a IHa]; cbn [app fold_right]; [ring|]. rewrite IHa. ring. }
      rewrite !X. ring. }
    pose proof (Forall2_app A1 (Forall2_app B1 C1)) as H. destruct H as [|x v l' vs Hx Hl].
    - exists (NNum 0). split; [repeat constructor|]. intros env. rewrite <- S. reflexivity.
    - destruct (fold_ok _ _ Hl x v) as (e & H1 & H2).
      + destruct Hx as (e & H1 & H2). exists e. split; auto. now constructor.
      + exists e. split; auto. intros env. rewrite H2, <- S. reflexivity.
  Qed.
  Lemma display_grouped_ok (e : gexp p) : exists e', is_sum (display_grouped name_of e) e' /\ forall env, name_value env e' = eval (fun v => env (name_of v)) e.
  Proof.
    unfold display_grouped. destruct (to_signed_ok e) as (e' & H1 & H2). destruct (to_signed name_of e) as [s t]. cbn [fst snd] in *. destruct s.
    - exists (NNeg e'). split; [do 3 constructor; now apply factor_parens|]. intros env. rewrite <- H2. reflexivity.
    - exists e'. auto.
  Qed.
End Print.
