(** No two hypotheses of the low-degree optimizer agree on inputs with two values each. *)
From Coq Require Import Arith NArith ZArith Znumtheory Bool List Permutation Lia ZifyBool ZifyNat.
From Verif Require Import Field RangeModel ExprModel ExprFacts SolveModel SystemModel Spec Bridge BusModel OvmModel OvmSpec PassSpec LowModel LowSpec LowFacts LowSem.
Import ListNotations.
Local Open Scope nat_scope.
Set Default Proof Using "Type".

Lemma two_true {A} (Q : A -> bool) (l : list A) : length (filter Q l) <> 1 -> filter Q l <> [] -> exists i j x y, i < j /\ nth_error l i = Some x /\ nth_error l j = Some y /\ Q x = true /\ Q y = true.
Proof.
  induction l as [|z l IH]; cbn [filter]; [congruence|]. destruct (Q z) eqn:E.
  - intros H _. destruct (filter Q l) as [|y t] eqn:F; [cbn in H; congruence|]. assert (I : In y (filter Q l)) by (rewrite F; now left). apply filter_In in I. destruct I as [I1 I2]. apply In_nth_error in I1. destruct I1 as [j I1].
    exists 0, (S j), z, y. repeat split; auto. lia.
  - intros H1 H2. destruct (IH H1 H2) as (i & j & x & y & L & X & Y & Z). exists (S i), (S j), x, y. cbn [nth_error]. repeat split; try tauto. lia.
Qed.

Section LowUnique.
  Context {p : positive}.
  Local Notation gexp := (gexp p).
  Local Notation rc := (rc p).
  Local Notation sfield := (@sfield p).
  Add Ring Fu : (F_ring_theory (p:=p)).

  (** ** Evaluation on constants does not fail *)
  Definition const (e : gexp) : Prop := exists k, e = GE [] [] k.
  Lemma const_add (a b : gexp) : const a -> const b -> const (gadd a b).
  Proof. intros [k ->] [k' ->]. eexists. reflexivity. Qed.
  Lemma const_sub (a b : gexp) : const a -> const b -> const (gsub a b).
  Proof. intros [k ->] [k' ->]. eexists. reflexivity. Qed.
  Lemma const_mul (a b : gexp) : const a -> const b -> const (gmul a b).
  Proof. intros [k ->] [k' ->]. unfold gmul. cbn [try_to_known]. unfold gscale. destruct (is_zero _); [eexists; reflexivity|]. eexists. reflexivity. Qed.
  Lemma hypotheses_const n f (es : list gexp) : In f (hypotheses n) -> Forall const es -> const (f es).
  Proof.
    intros Hf H. assert (X : forall i, const (nth i es gzero)).
    { intros i. destruct (nth_in_or_default i es gzero) as [I| ->]; [rewrite Forall_forall in H; auto|now exists 0%F]. }
    assert (K : forall k : F p, const (from_number k)) by (intros k; now exists k).
    destruct n as [|[|[|n]]]; cbn [hypotheses In] in Hf; repeat (destruct Hf as [<-|Hf]); try contradiction; auto using const_add, const_sub, const_mul.
  Qed.
  Lemma agrees_total n f a (v : F p) : In f (hypotheses n) -> exists b, agrees_with a v f = Some b.
  Proof.
    intros Hf. unfold agrees_with. destruct (hypotheses_const n f (map (fun iv => from_number (snd iv)) a) Hf) as [k ->]; [|cbn; eauto]. apply Forall_map. apply Forall_forall. intros x _. now eexists.
  Qed.
  Lemma retain_total P (hs : list (list gexp -> gexp)) : (forall f, In f hs -> exists b, P f = Some b) -> exists r, retain P hs = Some r.
  Proof. induction hs as [|f hs IH]; cbn [retain]; [eauto|]. intros H. destruct (H f (or_introl eq_refl)) as [b ->]. destruct IH as [r ->]; [intros; apply H; now right|eauto]. Qed.

  Lemma filter_filter {A} (f g : A -> bool) l : filter f (filter g l) = filter (fun x => g x && f x) l.
  Proof. induction l as [|x l IH]; cbn [filter]; auto. destruct (g x); cbn [filter andb]; [destruct (f x); now rewrite IH|auto]. Qed.
  Lemma test_panic handler (b : busi rc) o l : forall hs, test_all handler b o l hs = FindPanic -> (forall a, In a l -> output_for handler b o a <> BPanic) -> (forall a v f, In f hs -> exists b, agrees_with a v f = Some b) -> hs <> [] ->
    exists Q, length (filter Q hs) <> 1 /\ filter Q hs <> [] /\ forall f, In f hs -> Q f = true -> forall a, In a l -> exists v, output_for handler b o a = BOk v /\ agrees_with a v f = Some true.
  Proof.
    induction l as [|a l IH]; intros hs H Ho Ht Hn; cbn [test_all] in H.
    - exists (fun _ => true). assert (E : filter (fun _ : list gexp -> gexp => true) hs = hs) by (clear; induction hs; cbn; congruence). rewrite E. split; [destruct hs as [|? [|]]; [congruence|discriminate|cbn; lia]|]. split; auto. intros f _ _ a [].
    - specialize (Ho a (or_introl eq_refl)) as Ha. destruct (output_for handler b o a) as [v| |] eqn:E; try congruence. destruct (retain (agrees_with a v) hs) as [r|] eqn:R.
      + destruct (retain_spec _ _ _ R) as [R1 R2]. destruct r as [|x r]; [discriminate|]. destruct (IH _ H) as (Q & Q1 & Q2 & Q3); [intros; apply Ho; now right|intros a' v' f Hf; apply Ht; now apply R1|discriminate|].
        set (G := fun f => match agrees_with a v f with Some b => b | None => false end) in *. exists (fun f => G f && Q f). rewrite <- filter_filter, <- R2. split; auto.
        split; auto. intros f Hf HQ a' [<-|Ha']; apply andb_true_iff in HQ; destruct HQ as [HG HQ].
        * exists v. split; auto. unfold G in HG. destruct (agrees_with a v f) as [[]|]; congruence.
        * apply (Q3 f); auto. rewrite R2. apply filter_In. auto.
      + exfalso. destruct (retain_total (agrees_with a v) hs) as [r X]; [intros; now apply Ht|congruence].
  Qed.
  (** ** The hypotheses differ *)
  Lemma agrees_eval a (v : F p) f s : agrees_with a v f = Some true -> eval s (f (map (fun iv => from_number (snd iv)) a)) = v.
  Proof. unfold agrees_with. destruct (try_to_known _) as [k|] eqn:K; [|discriminate]. intros [= H]. apply feqb_eq in H. subst k. exact (try_to_known_eval s _ _ K). Qed.
  Definition two_values (r : rc) : Prop := exists x y, x <> y /\ rc_allows r x /\ rc_allows r y.
  Hypothesis (Hp : prime (Z.pos p)) (Hbig : (2 ^ 17 < N.pos p)%N).
  Set Default Proof Using "Type Hp Hbig".
  Lemma neq_num a b : (a < 2 ^ 17)%N -> (b < 2 ^ 17)%N -> a <> b -> of_N (p:=p) a <> of_N b.
  Proof. intros A B N E. apply (f_equal val) in E. rewrite !val_of_N_small in E by (change (2 ^ 17)%N with 131072%N in *; lia). contradiction. Qed.
  Lemma cancel (a b c : F p) : c <> 0%F -> (c * a = c * b)%F -> a = b.
  Proof. intros C H. assert (E : (c * (a - b) = 0)%F) by (replace (c * (a - b))%F with (c * a - c * b)%F by ring; rewrite H; ring). apply mul_eq_zero in E; auto. destruct E as [E|E]; [contradiction|]. now apply (proj1 (sub_eq_zero a b)) in E. Qed.
  Lemma two_neq : (1 + 1 : F p)%F <> 0%F.
  Proof. replace (1 + 1 : F p)%F with (of_N 2 : F p); [|apply F_ext; unfold fadd; change (1 : F p)%F with (of_N 1 : F p); rewrite (val_of_N_small 1) by (change (2 ^ 17)%N with 131072%N in *; lia); reflexivity]. apply (neq_num 2 0); [reflexivity|reflexivity|discriminate]. Qed.
  (** One input: all hypotheses are [k - x] or [x]. *)
  Lemma differ1 i j f f' x x' : i < j -> nth_error (hypotheses (p:=p) 1) i = Some f -> nth_error (hypotheses 1) j = Some f' -> x <> x' ->
    (forall s y, y = x \/ y = x' -> eval s (f [from_number y]) = eval s (f' [from_number y])) -> False.
  Proof.
    intros L Hf Hf' Hx H. pose proof (H (fun _ => 0%F) x (or_introl eq_refl)) as H1. pose proof (H (fun _ => 0%F) x' (or_intror eq_refl)) as H2. clear H.
    assert (S : forall k, (x = k - x)%F -> (x' = k - x')%F -> False). { intros k E1 E2. apply Hx. apply (cancel x x' (1 + 1)%F two_neq). replace ((1 + 1) * x)%F with (x + x)%F by ring. replace ((1 + 1) * x')%F with (x' + x')%F by ring. rewrite E1 at 1. rewrite E2 at 1. ring. }
    assert (K : forall a b, (a < 2 ^ 17)%N -> (b < 2 ^ 17)%N -> a <> b -> (of_N a - x = of_N b - x)%F -> False). { intros a b A B N E. apply (neq_num a b A B N). replace (of_N a) with (of_N a - x + x)%F by ring. rewrite E. ring. }
    destruct i as [|[|[|[|i]]]]; cbn [hypotheses nth_error] in Hf; try (destruct i; discriminate); injection Hf as <-;
    (destruct j as [|[|[|[|j]]]]; cbn [hypotheses nth_error] in Hf'; try (destruct j; discriminate); try lia; injection Hf' as <-);
      cbn [nth] in H1, H2; rewrite ?eval_gsub, ?eval_from_number in H1, H2; try (eapply S; eassumption); (eapply K; [| | |exact H1]; [reflexivity|reflexivity|discriminate]).
  Qed.
  (** Two inputs: all hypotheses are [a x + b y + c x y]. *)
  Definition coeffs (i : nat) : F p * F p * F p := match i with 0 => (1, 0, 0)%F | 1 => (1, 1, 0)%F | 2 => (0, 0, 1)%F | 3 => (1, 1, - (1))%F | _ => (1, 1, - of_N 2)%F end.
  Lemma eval_coeffs i f s x y : nth_error (hypotheses (p:=p) 2) i = Some f -> eval s (f [from_number x; from_number y]) = (let '(a, b, c) := coeffs i in a * x + b * y + c * (x * y))%F.
  Proof.
    intros H. destruct i as [|[|[|[|[|i]]]]]; cbn [hypotheses nth_error] in H; try (destruct i; discriminate); injection H as <-; cbn [nth coeffs]; rewrite ?eval_gsub, ?eval_gadd, ?eval_gmul, ?eval_from_number, ?eval_gmul, ?eval_from_number; ring.
  Qed.
  Lemma grid (a b c a' b' c' x x' y y' : F p) : x <> x' -> y <> y' ->
    (forall u v, u = x \/ u = x' -> v = y \/ v = y' -> a * u + b * v + c * (u * v) = a' * u + b' * v + c' * (u * v))%F -> a = a' /\ b = b' /\ c = c'.
  Proof.
    intros Hx Hy H. pose proof (H x y (or_introl eq_refl) (or_introl eq_refl)) as H1. pose proof (H x y' (or_introl eq_refl) (or_intror eq_refl)) as H2.
    pose proof (H x' y (or_intror eq_refl) (or_introl eq_refl)) as H3. pose proof (H x' y' (or_intror eq_refl) (or_intror eq_refl)) as H4. clear H.
    assert (Dx : (x - x')%F <> 0%F) by (intros E; apply Hx; now apply (proj1 (sub_eq_zero x x')) in E). assert (Dy : (y - y')%F <> 0%F) by (intros E; apply Hy; now apply (proj1 (sub_eq_zero y y')) in E).
    assert (Ec : c = c').
    { apply (cancel c c' (y - y')%F Dy). apply (cancel _ _ (x - x')%F Dx).
      replace ((x - x') * ((y - y') * c))%F with ((a * x + b * y + c * (x * y)) - (a * x + b * y' + c * (x * y')) - (a * x' + b * y + c * (x' * y)) + (a * x' + b * y' + c * (x' * y')))%F by ring.
      rewrite H1, H2, H3, H4. ring. }
    subst c'. split; [|split; auto].
    - apply (cancel a a' (x - x')%F Dx). replace ((x - x') * a)%F with ((a * x + b * y + c * (x * y)) - (a * x' + b * y + c * (x' * y)) - c * (x * y) + c * (x' * y))%F by ring. rewrite H1, H3. ring.
    - apply (cancel b b' (y - y')%F Dy). replace ((y - y') * b)%F with ((a * x + b * y + c * (x * y)) - (a * x + b * y' + c * (x * y')) - c * (x * y) + c * (x * y'))%F by ring. rewrite H1, H2. ring.
  Qed.
  Lemma differ2 i j f f' x x' y y' : i < j -> nth_error (hypotheses (p:=p) 2) i = Some f -> nth_error (hypotheses 2) j = Some f' -> x <> x' -> y <> y' ->
    (forall s u v, u = x \/ u = x' -> v = y \/ v = y' -> eval s (f [from_number u; from_number v]) = eval s (f' [from_number u; from_number v])) -> False.
  Proof.
    intros L Hf Hf' Hx Hy H. assert (Lj : j < 5) by (change 5 with (length (hypotheses (p:=p) 2)); apply nth_error_Some; congruence).
    destruct (coeffs i) as [[a b] c] eqn:C. destruct (coeffs j) as [[a' b'] c'] eqn:C'. destruct (grid a b c a' b' c' x x' y y' Hx Hy) as (E1 & E2 & E3).
    { intros u v Hu Hv. specialize (H (fun _ => 0%F) u v Hu Hv). now rewrite (eval_coeffs i f _ u v Hf), (eval_coeffs j f' _ u v Hf'), C, C' in H. }
    pose proof (neq_num 1 0 ltac:(reflexivity) ltac:(reflexivity) ltac:(discriminate)) as N1. pose proof (neq_num 1 2 ltac:(reflexivity) ltac:(reflexivity) ltac:(discriminate)) as N2. pose proof (neq_num 2 0 ltac:(reflexivity) ltac:(reflexivity) ltac:(discriminate)) as N3.
    change (of_N 1 : F p) with (1 : F p)%F in *. change (of_N 0 : F p) with (0 : F p)%F in *.
    assert (O : forall u : F p, (- u)%F = 0%F -> u = 0%F) by (intros u E; replace u with (- - u)%F by ring; rewrite E; ring).
    assert (O2 : forall u w : F p, (- u = - w)%F -> u = w) by (intros u w E; replace u with (- - u)%F by ring; rewrite E; ring).
    destruct i as [|[|[|[|[|i]]]]]; try lia; (destruct j as [|[|[|[|[|j]]]]]; try lia); cbn [coeffs] in C, C'; assert (R1 := f_equal (fun t => fst (fst t)) C); assert (R2 := f_equal (fun t => snd (fst t)) C); assert (R3 := f_equal snd C);
      assert (R1' := f_equal (fun t => fst (fst t)) C'); assert (R2' := f_equal (fun t => snd (fst t)) C'); assert (R3' := f_equal snd C'); cbn [fst snd] in *; subst a b c a' b' c'; try congruence; try (symmetry in E3; apply O in E3; congruence); try (apply O2 in E3; congruence); apply (f_equal snd) in C'; cbn [snd] in C'; try (apply O in C'; congruence); try (apply O2 in C'; congruence).
  Qed.
  Lemma assignments_total rq (b : busi gexp) ins o : In (ins, o) (candidates rq b) -> exists l, input_assignments ins = Some l.
  Proof.
    intros H. apply candidates_spec in H. destruct H as (_ & H & _). apply few_all in H. destruct H as (ls & H & _). unfold input_assignments.
    assert (X : map (fun f : sfield => match allowed_values (sf_rc f) with Some l => Some (map (pair (sf_index f)) l) | None => None end) ins = map Some (map (fun fl => map (pair (sf_index (fst fl))) (snd fl)) (combine ins ls))).
    { revert ls H. induction ins as [|x ins IH]; intros ls H; inversion H; subst; cbn [map combine]; auto. cbn [fst snd]. match goal with E : allowed_values (sf_rc x) = _ |- _ => rewrite E end. f_equal. now apply IH. }
    apply (proj2 (collect_all_spec _ _)) in X. rewrite X. eauto.
  Qed.
  Lemma find_no_panic handler g rq (b : busi gexp) ins o : In (ins, o) (candidates rq b) -> Forall (fun x => two_values (sf_rc x)) ins -> (forall x, length (payload (handler x)) = length (payload x)) -> find_function handler g b ins o <> FindPanic.
  Proof.
    intros Hc H2 Hl H. destruct (assignments_total rq b ins o Hc) as [l Ea]. unfold find_function in H. rewrite Ea in H.
    destruct (assignments_spec ins l Ea) as (vs & V1 & V2). destruct (cand_fields rq b ins o Hc) as (N & No & HF). destruct (proj1 (HF o)) as (Eo & _); [apply in_or_app; right; now left|].
    assert (Hn := proj2 (proj2 (candidates_spec rq b ins o Hc))).
    destruct (test_panic handler _ _ _ _ H) as (Q & Q1 & Q2 & Q3).
    - intros a Ha. unfold output_for, handle_checked. destruct (existsb _ _); [discriminate|]. set (b1 := set_inputs a (to_range_constraints g b)).
      assert (L1 : length (payload b1) = length (payload b)).
      { unfold b1, set_inputs, to_range_constraints. cbn [payload bmap]. rewrite <- (map_length (range_constraint g) (payload b)). generalize (map (range_constraint g) (payload b)). clear. induction a as [|[i v] a IH]; intros pl; cbn [fold_left]; auto. rewrite IH. apply set_nth_length. }
      unfold fields. cbn [length]. rewrite Hl, Nat.eqb_refl. destruct (nth_error (payload (handler b1)) (sf_index o)) as [r|] eqn:E.
      + destruct (try_to_single_value r); discriminate.
      + exfalso. apply nth_error_None in E. rewrite Hl, L1 in E. apply nth_error_None in E. congruence.
    - intros a v f. apply agrees_total.
    - destruct Hn as [-> | ->]; discriminate.
    - destruct (two_true Q _ Q1 Q2) as (i & j & f & f' & L & F1 & F2 & T1 & T2). apply nth_error_In in F1 as I1. apply nth_error_In in F2 as I2.
      assert (EQ : forall a s, In a l -> eval s (f (map (fun iv => from_number (snd iv)) a)) = eval s (f' (map (fun iv => from_number (snd iv)) a))).
      { intros a s Ha. destruct (Q3 f I1 T1 a Ha) as (v & O1 & A1). destruct (Q3 f' I2 T2 a Ha) as (v' & O2 & A2). rewrite (agrees_eval a v f s A1), (agrees_eval a v' f' s A2). congruence. }
      destruct Hn as [Hn|Hn]; rewrite Hn in F1, F2.
      + destruct ins as [|x [|]]; try discriminate. inversion H2 as [|? ? (u & w & U1 & U2 & U3) _]; subst. inversion V1 as [|? ? ? ? A1 A2]; subst. inversion A2; subst. apply (differ1 i j f f' u w L F1 F2 U1).
        intros s z Hz. specialize (EQ [(sf_index x, z)] s). cbn [map snd] in EQ. apply EQ. apply (V2 [z]). constructor; [|constructor]. apply (proj2 (b_allowed_values _ _ A1)). destruct Hz as [-> | ->]; auto.
      + destruct ins as [|x [|y [|]]]; try discriminate. inversion H2 as [|? ? (u & w & U1 & U2 & U3) H3]; subst. inversion H3 as [|? ? (u' & w' & U1' & U2' & U3') _]; subst. inversion V1 as [|? ? ? ? A1 A2]; subst. inversion A2 as [|? ? ? ? A3 A4]; subst. inversion A4; subst.
        apply (differ2 i j f f' u w u' w' L F1 F2 U1 U1'). intros s z z' Hz Hz'. specialize (EQ [(sf_index x, z); (sf_index y, z')] s). cbn [map snd] in EQ. apply EQ. apply (V2 [z; z']).
        constructor; [|constructor; [|constructor]]; [apply (proj2 (b_allowed_values _ _ A1)); destruct Hz as [-> | ->]; auto|apply (proj2 (b_allowed_values _ _ A3)); destruct Hz' as [-> | ->]; auto].
  Qed.
  Lemma low_total handler stateful make g rq bound (c : csys p) : (forall x, length (payload (handler x)) = length (payload x)) -> (forall rs, make rs <> MakePanic) ->
    (forall b e, In b (buses c) -> In e (payload b) -> try_to_known e = None -> two_values (rq e)) -> exists c', low_degree handler stateful make g rq bound c = Some c'.
  Proof.
    intros Hl Hm H2. unfold low_degree. assert (X : forall b, In b (buses c) -> exists kb, replace_one handler stateful make g rq bound b = Some kb).
    { intros b Hb. unfold replace_one. destruct (try_replace handler stateful g rq bound b) as [k rs| |] eqn:E; [|eauto|].
      - specialize (Hm rs). destruct (make rs); eauto. congruence.
      - exfalso. unfold try_replace in E. destruct (try_to_known (bus_id b)); [|discriminate]. destruct (stateful f); [discriminate|].
        assert (G : forall l, incl l (candidates rq b) -> first_replacement handler g bound b l <> ReplacePanic).
        { induction l as [|[ins o] l IH]; intros I; cbn [first_replacement]; [discriminate|]. pose proof (I (ins, o) (or_introl eq_refl)) as Hc.
          assert (T : Forall (fun x => two_values (sf_rc x)) ins).
          { destruct (cand_fields rq b ins o Hc) as (_ & _ & HF). apply Forall_forall. intros x Hx. destruct (proj1 (HF x)) as (A1 & A2 & ->); [apply in_or_app; auto|]. apply (H2 b); auto. eapply nth_error_In; eauto. }
          pose proof (find_no_panic handler g rq b ins o Hc T Hl) as NP. destruct (find_function handler g b ins o); [destruct (Nat.leb _ _); [discriminate|]| |congruence]; apply IH; intros z Hz; apply I; now right. }
        now apply (G (candidates rq b) (incl_refl _)). }
    destruct (collect_all (map (replace_one handler stateful make g rq bound) (buses c))) as [l|] eqn:E; [eauto|]. exfalso. clear - X E. induction (buses c) as [|b bs IH]; [discriminate|]. cbn [map collect_all] in E. destruct (X b (or_introl eq_refl)) as [kb K]. rewrite K in E.
    destruct (collect_all (map (replace_one handler stateful make g rq bound) bs)); [discriminate|]. apply IH; auto. intros; apply X; now right.
  Qed.
End LowUnique.
