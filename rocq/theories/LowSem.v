(** What the low-degree optimizer preserves. *)
From Coq Require Import Arith NArith ZArith Znumtheory Bool List Permutation Lia ZifyBool ZifyNat.
From Verif Require Import Field RangeModel ExprModel ExprFacts SolveModel SystemModel Spec Bridge BusModel OvmModel OvmSpec PassSpec LowModel LowSpec LowFacts.
Import ListNotations.
Local Open Scope nat_scope.
Set Default Proof Using "Type".

Section LowSem.
  Context {p : positive}.
  Local Notation gexp := (gexp p).
  Local Notation rc := (rc p).
  Local Notation sfield := (@sfield p).
  Add Ring Fs : (F_ring_theory (p:=p)).
  Variable handler : busi rc -> busi rc.
  Variable g : var -> rc.
  Variable rq : gexp -> rc.
  Variable bound : nat.

  Lemma assignments_spec (ins : list sfield) l : input_assignments ins = Some l -> exists vs, Forall2 (fun f v => allowed_values (sf_rc f) = Some v) ins vs /\ forall xs, Forall2 (@In (F p)) xs vs <-> length xs = length ins /\ In (combine (map sf_index ins) xs) l.
  Proof.
    unfold input_assignments. destruct (collect_all _) as [ls|] eqn:E; [|discriminate]. intros [= <-]. apply collect_all_spec in E. revert ls E.
    induction ins as [|f ins IH]; intros [|t ls] E; try discriminate.
    - exists []. split; [constructor|]. intros xs. cbn. split; [intros H; inversion H; auto|]. intros [H _]. destruct xs; [constructor|discriminate].
    - cbn [map] in E. injection E as E1 E2. destruct (IH ls E2) as (vs & V1 & V2). destruct (allowed_values (sf_rc f)) as [v|] eqn:A; [|discriminate]. injection E1 as <-. exists (v :: vs). split; [constructor; auto|].
      intros xs. destruct xs as [|x xs]; [split; [intros H; inversion H|intros [H _]; discriminate]|]. cbn [map combine length]. rewrite product_in. split.
      + intros H. inversion H as [|? ? ? ? H1 H2]; subst. apply V2 in H2. destruct H2 as [H2 H3]. split; [lia|]. constructor; [now apply in_map|]. now apply product_in.
      + intros [H1 H2]. inversion H2 as [|? ? ? ? H3 H4]; subst. apply in_map_iff in H3. destruct H3 as (y & H3 & Hy). injection H3 as ->. constructor; auto. apply V2. split; [lia|]. now apply product_in.
  Qed.
  Lemma found_spec b ins o f : In (ins, o) (candidates rq b) -> find_function handler g b ins o = Found f ->
    In f (hypotheses (length ins)) /\ Forall (fun x => small (sf_rc x)) ins /\
    forall xs, Forall2 (fun x v => rc_allows (sf_rc x) v) ins xs -> exists b' r v, handle_checked handler (set_inputs (combine (map sf_index ins) xs) (to_range_constraints g b)) = BOk b' /\
      nth_error (payload b') (sf_index o) = Some r /\ try_to_single_value r = Some v /\ forall s es, map (eval s) es = xs -> eval s (f es) = v.
  Proof.
    intros Hc H. apply candidates_spec in Hc. destruct Hc as (_ & Hf & Hn). unfold find_function in H. destruct (input_assignments ins) as [l|] eqn:E; [|discriminate].
    destruct (assignments_spec ins l E) as (vs & V1 & V2).
    assert (L : l <> []). { intros ->. cbn [test_all] in H. destruct Hn as [Hn|Hn]; rewrite Hn in H; discriminate. }
    apply test_all_spec in H. destruct H as [H1 H2]. split; auto. split.
    - destruct (few_all (map sf_rc ins) Hf) as (ls & F1 & F2). assert (EL : ls = vs).
      { clear - F1 V1. revert ls F1. induction V1 as [|f v ins vs A B IH]; intros ls F1; inversion F1; subst; auto. f_equal; [congruence|auto]. }
      subst ls. assert (NE : Forall (fun l => l <> []) vs).
      { unfold input_assignments in E. destruct (collect_all _) as [ls|] eqn:C; [|discriminate]. injection E as <-. apply collect_all_spec in C. destruct (product ls) as [|a t] eqn:P; [congruence|].
        assert (X : In a (product ls)) by (rewrite P; now left). apply product_in in X. clear - V1 C X. revert a ls C X. induction V1 as [|f v ins vs A B IH]; intros a ls C X; constructor.
        - destruct ls as [|q ls]; [discriminate|]. cbn [map] in C. injection C as C1 C2. rewrite A in C1. injection C1 as <-. inversion X as [|? ? ? ? X1 X2]; subst. intros ->. destruct X1.
        - destruct ls as [|q ls]; [discriminate|]. cbn [map] in C. injection C as C1 C2. inversion X as [|? ? ? ? X1 X2]; subst. exact (IH _ ls C2 X2). }
      destruct (count_small vs 1%N ltac:(lia) NE) as [_ S]. clear - V1 S F2. revert F2 S. generalize (fold_left (fun a (l : list (F p)) => (a * N.of_nat (length l))%N) vs 1%N). intros n F2 S.
      induction V1 as [|f v ins vs A B IH]; inversion S; subst; constructor; auto. exists v. split; [lia|]. intros x Hx. now apply (b_allowed_values (sf_rc f) v).
    - intros xs Hxs. assert (X : Forall2 (@In (F p)) xs vs).
      { clear - V1 Hxs. revert xs Hxs. induction V1 as [|f v ins vs A B IH]; intros xs Hxs; inversion Hxs; subst; constructor; auto. now apply (b_allowed_values (sf_rc f) v). }
      apply V2 in X. destruct X as [XL X]. destruct (H2 _ X) as (v & O & A). unfold output_for in O. destruct (handle_checked _ _) as [b'| |]; try discriminate. destruct (nth_error (payload b') (sf_index o)) as [r|] eqn:R; [|discriminate].
      destruct (try_to_single_value r) as [w|] eqn:S; [|discriminate]. injection O as ->. exists b', r, v. split; auto. split; auto. split; auto. intros s es Es. unfold agrees_with in A. destruct (try_to_known _) as [k|] eqn:K; [|discriminate]. injection A as A.
      apply feqb_eq in A. subst k. rewrite <- (try_to_known_eval s _ _ K). apply (hypotheses_ext (length ins)); auto. rewrite Es, map_map. clear - XL. revert xs XL. induction ins as [|f ins IH]; intros [|x xs] XL; try discriminate; auto.
      cbn [map combine snd]. rewrite eval_from_number. f_equal. apply IH. cbn in XL. lia.
  Qed.

  (** Where the inputs and the output are in the payload. *)
  Lemma cand_fields b ins o : In (ins, o) (candidates rq b) -> NoDup (map sf_index ins) /\ ~ In (sf_index o) (map sf_index ins) /\
    (forall f, In f (ins ++ [o]) <-> nth_error (payload b) (sf_index f) = Some (sf_expr f) /\ try_to_known (sf_expr f) = None /\ sf_rc f = rq (sf_expr f)).
  Proof.
    intros H. apply candidates_spec in H. destruct H as (H & _ & _). destruct (unknown_spec rq b) as [U1 U2].
    assert (N : NoDup (map sf_index (ins ++ [o]))) by (eapply Permutation_NoDup; [apply Permutation_map, H|exact U2]).
    rewrite map_app in N. cbn [map] in N. apply NoDup_remove in N. rewrite app_nil_r in N. destruct N as [N1 N2]. split; auto. split; auto. intros f. rewrite <- U1. split; apply Permutation_in; [symmetry|]; auto.
  Qed.

  Lemma combine_in (ins : list sfield) (s : var -> F p) j v : In (j, v) (combine (map sf_index ins) (map (fun f => eval s (sf_expr f)) ins)) -> exists f, In f ins /\ sf_index f = j /\ eval s (sf_expr f) = v.
  Proof. induction ins as [|f ins IH]; cbn; [intros []|]. intros [H|H]; [injection H as <- <-; eauto|]. destruct (IH H) as (x & X & Y). eauto. Qed.
  Lemma in_combine_of (ins : list sfield) (s : var -> F p) f : In f ins -> In (sf_index f, eval s (sf_expr f)) (combine (map sf_index ins) (map (fun f => eval s (sf_expr f)) ins)).
  Proof. induction ins as [|x ins IH]; cbn; [intros []|]. intros [->|H]; auto. Qed.
  Lemma combine_fst (ins : list sfield) (s : var -> F p) : map fst (combine (map sf_index ins) (map (fun f => eval s (sf_expr f)) ins)) = map sf_index ins.
  Proof. induction ins as [|f ins IH]; cbn; [auto|now rewrite IH]. Qed.
  (** The payload after setting the inputs to their values. *)
  Lemma set_payload b ins o s : In (ins, o) (candidates rq b) -> let b1 := set_inputs (combine (map sf_index ins) (map (fun f => eval s (sf_expr f)) ins)) (to_range_constraints g b) in
    length (payload b1) = length (payload b) /\
    forall j e, nth_error (payload b) j = Some e -> nth_error (payload b1) j = Some (if existsb (Nat.eqb j) (map sf_index ins) then from_value (eval s e) else range_constraint g e).
  Proof.
    intros Hc. destruct (cand_fields b ins o Hc) as (N & No & Hf). cbn zeta. unfold set_inputs, to_range_constraints. cbn [payload bmap].
    destruct (set_spec (combine (map sf_index ins) (map (fun f => eval s (sf_expr f)) ins)) (map (range_constraint g) (payload b))) as (S1 & S2 & S3); [now rewrite combine_fst|].
    rewrite map_length in S1, S2. split; auto. intros j e He. destruct (existsb (Nat.eqb j) (map sf_index ins)) eqn:X.
    - apply existsb_exists in X. destruct X as (j' & X & Y). apply Nat.eqb_eq in Y. subst j'. apply in_map_iff in X. destruct X as (f & <- & X).
      destruct (proj1 (Hf f)) as (A & _); [apply in_or_app; auto|]. assert (e = sf_expr f) by congruence. subst e. apply S2; [now apply in_combine_of|]. apply nth_error_Some. congruence.
    - rewrite S3; [now apply map_nth_error|]. rewrite combine_fst. intros X'. assert (T : existsb (Nat.eqb j) (map sf_index ins) = true) by (apply existsb_exists; exists j; split; auto; apply Nat.eqb_refl). congruence.
  Qed.

  Lemma known_rc (k : F p) : try_to_single_value (range_constraint g (GE [] [] k)) = Some k.
  Proof.
    assert (E : range_constraint g (GE [] [] k) = from_value k) by reflexivity. rewrite E. unfold try_to_single_value. cbn [rmin rmax mask from_value]. rewrite (proj2 (feqb_eq k k) eq_refl), N.land_diag, N.eqb_refl. reflexivity.
  Qed.
  Lemma fv_single (k : F p) : try_to_single_value (from_value k) = Some k.
  Proof. unfold try_to_single_value. cbn [rmin rmax mask from_value]. rewrite (proj2 (feqb_eq k k) eq_refl), N.land_diag, N.eqb_refl. reflexivity. Qed.
  Lemma fv_allows (k : F p) : rc_allows (from_value k) k.
  Proof. now apply (b_single (from_value k) k k (fv_single k)). Qed.

  Variable stateful : F p -> bool.
  Variable legal : F p -> list (F p) -> Prop.
  Variable make : list (gexp * rc) -> made p.
  Local Notation acceptable := (acceptable stateful legal).
  Local Notation admissible := (admissible stateful legal).
  Local Notation sends := (sends stateful).
  (** ** One interaction *)
  Section One.
    Variables (b : busi gexp) (k : gexp) (rs : list (gexp * rc)).
    Hypothesis (Hr : try_replace handler stateful g rq bound b = Replace k rs).

    Set Default Proof Using "Type Hr".
    Lemma replace_data : exists i ins o f, try_to_known (bus_id b) = Some i /\ stateful i = false /\ In (ins, o) (candidates rq b) /\ find_function handler g b ins o = Found f /\
      k = gsub (sf_expr o) (f (map sf_expr ins)) /\ degree k <= bound /\ rs = map (fun x => (sf_expr x, sf_rc x)) ins.
    Proof.
      clear legal make. unfold try_replace in Hr. destruct (try_to_known (bus_id b)) as [i|] eqn:E; [|discriminate]. destruct (stateful i) eqn:S; [discriminate|].
      apply first_spec in Hr. destruct Hr as (ins & o & f & H). exists i, ins, o, f. tauto.
    Qed.
    Lemma one_small : Forall (fun er => small (snd er)) rs.
    Proof.
      destruct replace_data as (i & ins & o & f & _ & _ & Hc & Hf & _ & _ & ->). destruct (found_spec b ins o f Hc Hf) as (_ & S & _). rewrite Forall_map. exact S.
    Qed.
    (** Everything that the table answers satisfies the polynomial constraint and is in range. *)
    Lemma one_forward s : lookup_sound stateful legal handler -> (forall e, In e (fields b) -> rc_allows (range_constraint g e) (eval s e) /\ rc_allows (rq e) (eval s e)) ->
      acceptable (bmap (eval s) b) -> eval s k = 0%F /\ Forall (in_range s) rs.
    Proof.
      intros Hh Hg Ha. destruct replace_data as (i & ins & o & f & Ei & Si & Hc & Hf & -> & _ & ->). destruct (cand_fields b ins o Hc) as (N & No & HF).
      destruct (found_spec b ins o f Hc Hf) as (_ & _ & Hx). destruct (set_payload b ins o s Hc) as [P1 P2]. set (b1 := set_inputs _ _) in P1, P2.
      assert (R : Forall (fun f => rc_allows (sf_rc f) (eval s (sf_expr f))) ins).
      { apply Forall_forall. intros x Hxi. destruct (proj1 (HF x)) as (A & _ & ->); [apply in_or_app; auto|]. apply Hg. right. right. eapply nth_error_In; eauto. }
      split.
      - destruct (Hx (map (fun f => eval s (sf_expr f)) ins)) as (b' & r & v & H1 & H2 & H3 & H4).
        { clear - R. induction R; constructor; auto. }
        fold b1 in H1. assert (B1 : bus_allows b1 (bmap (eval s) b)).
        { unfold bus_allows, fields. constructor; [apply Hg; now left|]. constructor; [apply Hg; right; now left|]. cbn [payload bmap]. apply Forall2_nth. rewrite map_length. split; auto.
          intros j x y Hjx Hjy. rewrite nth_error_map in Hjy. destruct (nth_error (payload b) j) as [e|] eqn:Ej; [|discriminate]. injection Hjy as <-. rewrite (P2 j e Ej) in Hjx. injection Hjx as <-.
          destruct (existsb _ _); [apply fv_allows|]. apply Hg. right. right. eapply nth_error_In; eauto. }
        assert (B2 : bus_allows (handler b1) (bmap (eval s) b)).
        { apply Hh; auto. cbn [bus_id bmap]. rewrite (try_to_known_eval s _ _ Ei). exact Si. }
        unfold handle_checked in H1. destruct (existsb _ _); [discriminate|]. destruct (Nat.eqb _ _); [|discriminate]. injection H1 as <-.
        unfold bus_allows, fields in B2. inversion B2 as [|? ? ? ? _ B3]; subst. inversion B3 as [|? ? ? ? _ B4]; subst. apply Forall2_nth in B4. destruct B4 as [_ B4].
        destruct (proj1 (HF o)) as (Eo & _); [apply in_or_app; right; now left|].
        specialize (B4 (sf_index o) r (eval s (sf_expr o)) H2). cbn [payload bmap] in B4. rewrite nth_error_map, Eo in B4. specialize (B4 eq_refl). apply (b_single r v _ H3) in B4.
        rewrite eval_gsub, B4, (H4 s (map sf_expr ins)); [ring|]. now rewrite map_map.
      - rewrite Forall_map. exact R.
    Qed.
    (** What satisfies the constraint and is in range is answered by the table. *)
    Lemma one_backward dom s : knows_tables stateful legal dom handler -> (forall i e, try_to_known (bus_id b) = Some i -> stateful i = false -> In e (payload b) ->
        match try_to_known e with Some k => dom i k | None => try_to_single_value (range_constraint g e) = None end) ->
      Forall (fun er => forall i x, rc_allows (snd er) x -> dom i x) rs ->
      eval s k = 0%F -> Forall (in_range s) rs -> acceptable (bmap (eval s) b).
    Proof.
      intros Hk Hok Hd E R. destruct replace_data as (i & ins & o & f & Ei & Si & Hc & Hf & -> & _ & ->). destruct (cand_fields b ins o Hc) as (N & No & HF).
      destruct (found_spec b ins o f Hc Hf) as (_ & _ & Hx). destruct (set_payload b ins o s Hc) as [P1 P2]. set (b1 := set_inputs _ _) in P1, P2. rewrite Forall_map in R, Hd.
      destruct (Hx (map (fun f => eval s (sf_expr f)) ins)) as (b' & r & v & H1 & H2 & H3 & H4).
      { clear - R. induction R; constructor; auto. }
      fold b1 in H1. destruct (proj1 (HF o)) as (Eo & Ko & _); [apply in_or_app; right; now left|].
      assert (Vo : eval s (sf_expr o) = v).
      { rewrite eval_gsub, (H4 s (map sf_expr ins)) in E by now rewrite map_map. now apply (proj1 (sub_eq_zero _ _)) in E. }
      intros _ _. cbn [bus_id payload bmap]. rewrite (try_to_known_eval s _ _ Ei).
      assert (No' : existsb (Nat.eqb (sf_index o)) (map sf_index ins) = false).
      { apply not_true_iff_false. intros X. apply existsb_exists in X. destruct X as (j & X & Y). apply Nat.eqb_eq in Y. subst j. contradiction. }
      apply (Hk b1 b' i (sf_index o) (range_constraint g (sf_expr o)) (map (eval s) (payload b)) v Si); auto.
      - unfold b1, set_inputs, to_range_constraints. cbn [bus_id bmap]. apply try_to_known_some in Ei. rewrite Ei. apply known_rc.
      - rewrite (P2 _ _ Eo), No'. reflexivity.
      - assert (I : In (sf_expr o) (payload b)) by (eapply nth_error_In; eauto). specialize (Hok i (sf_expr o) Ei Si I). rewrite Ko in Hok. exact Hok.
      - eauto.
      - rewrite map_length. auto.
      - rewrite nth_error_map, Eo. cbn. now rewrite Vo.
      - intros j x Hj Hx'. rewrite nth_error_map in Hx'. destruct (nth_error (payload b) j) as [e|] eqn:Ej; [|discriminate]. injection Hx' as <-.
        assert (I : In e (payload b)) by (eapply nth_error_In; eauto). specialize (Hok i e Ei Si I). destruct (try_to_known e) as [c|] eqn:Ke.
        + rewrite (try_to_known_eval s _ _ Ke). split; auto. rewrite (P2 _ _ Ej). apply try_to_known_some in Ke. subst e. destruct (existsb (Nat.eqb j) (map sf_index ins)); [|eauto using known_rc]. eexists. split; [reflexivity|].
          rewrite (try_to_known_eval s (GE [] [] c) c eq_refl). apply fv_single.
        + assert (F : In (mkSF j e (rq e)) (ins ++ [o])) by (apply HF; cbn; auto). apply in_app_or in F. destruct F as [F|[F|[]]]; [|subst o; cbn in Hj; congruence].
          rewrite Forall_forall in R, Hd. specialize (Hd _ F i (eval s e) (R _ F)). split; auto. rewrite (P2 _ _ Ej).
          assert (X : existsb (Nat.eqb j) (map sf_index ins) = true). { apply existsb_exists. exists j. split; [|apply Nat.eqb_refl]. apply in_map_iff. exists (mkSF j e (rq e)). auto. }
          rewrite X. eexists. split; [reflexivity|apply fv_single].
    Qed.
    Set Default Proof Using "Type".
  End One.

  (** ** The system *)
  Definition one_ok (b : busi gexp) (kb : list gexp * list (busi gexp)) : Prop := replace_one handler stateful make g rq bound b = Some kb.
  Lemma low_spec c c' : low_degree handler stateful make g rq bound c = Some c' -> exists l, Forall2 one_ok (buses c) l /\ c' = mkCS (algs c ++ flat_map fst l) (flat_map snd l) (derived c).
  Proof.
    unfold low_degree. destruct (collect_all _) as [l|] eqn:E; [|discriminate]. intros [= <-]. exists l. split; auto. apply collect_all_spec in E. revert l E. induction (buses c) as [|b bs IH]; intros [|kb l] E; try discriminate; constructor.
    - cbn [map] in E. now injection E.
    - apply IH. cbn [map] in E. now injection E.
  Qed.
  Lemma redundant_eval s (k : gexp) : is_redundant k = true -> eval s k = 0%F.
  Proof. unfold is_redundant. apply gis_zero_eval. Qed.
  (** What one replacement does. *)
  Lemma one_cases b kb : one_ok b kb -> kb = ([], [b]) \/ exists k rs, try_replace handler stateful g rq bound b = Replace k rs /\ (forall s, Forall (solves s) (fst kb) <-> eval s k = 0%F) /\ incl (fst kb) [k] /\
    ((make rs = MakeError /\ snd kb = [b]) \/ make rs = Made (snd kb)).
  Proof.
    unfold one_ok, replace_one. destruct (try_replace handler stateful g rq bound b) as [k rs| |]; [|intros [= <-]; auto|discriminate].
    assert (X : forall s, Forall (solves s) (if is_redundant k then [] else [k]) <-> eval s k = 0%F).
    { intros s. destruct (is_redundant k) eqn:E; [split; [intros _; now apply redundant_eval|constructor]|]. split; [intros H; inversion H; subst; auto|intros H; repeat constructor; auto]. }
    assert (Y : incl (if is_redundant k then [] else [k]) [k]) by (destruct (is_redundant k); intros x; cbn; tauto).
    intros H. right. exists k, rs. split; auto. destruct (make rs) as [bs| |] eqn:M; [| |discriminate]; injection H as <-; cbn [fst snd]; auto.
  Qed.
  Lemma low_events c l s : checks_ranges stateful legal make -> Forall2 one_ok (buses c) l ->
    filter (fun b => stateful (bus_id b) && negb (is_zero (mult b))) (map (bmap (eval s)) (flat_map snd l)) = filter (fun b => stateful (bus_id b) && negb (is_zero (mult b))) (map (bmap (eval s)) (buses c)).
  Proof.
    intros Hm H. induction H as [|b kb bs l H1 H2 IH]; cbn [flat_map map]; auto. rewrite map_app, filter_app, IH. change (bmap (eval s) b :: map (bmap (eval s)) bs) with ([bmap (eval s) b] ++ map (bmap (eval s)) bs). rewrite filter_app. f_equal.
    destruct (one_cases b kb H1) as [->|(k & rs & Hr & _ & _ & [[M ->]|M])]; auto.
    destruct (replace_data b k rs Hr) as (i & ins & o & f & Ei & Si & _). destruct (Hm rs (snd kb) s (one_small b k rs Hr) M) as [Hs _].
    cbn [filter bus_id bmap map]. rewrite (try_to_known_eval s _ _ Ei), Si. cbn [andb]. clear - Hs. induction Hs as [|x t Hx Ht IHt]; cbn [map filter bus_id bmap]; auto. rewrite Hx. cbn [andb]. exact IHt.
  Qed.
  Lemma low_forward c c' s : low_degree handler stateful make g rq bound c = Some c' -> lookup_sound stateful legal handler -> checks_ranges stateful legal make ->
    (forall b e, In b (buses c) -> In e (fields b) -> rc_allows (range_constraint g e) (eval s e) /\ rc_allows (rq e) (eval s e)) -> carries_over stateful legal c c' s.
  Proof.
    intros H Hh Hm Hg [A B]. destruct (low_spec c c' H) as (l & Hl & ->). split; [|apply (low_events c l s); auto]. unfold bus_values in *.
    assert (X : Forall (solves s) (flat_map fst l) /\ Forall acceptable (map (bmap (eval s)) (flat_map snd l))).
    { clear - Hl Hg B Hh Hm. induction Hl as [|b kb bs l H1 H2 IH]; cbn [flat_map map]; [split; constructor|]. cbn [map] in B. inversion B as [|? ? B1 B2]; subst. destruct IH as [I1 I2]; auto; [intros; apply (Hg b0); auto; now right|].
      rewrite map_app, !Forall_app. destruct (one_cases b kb H1) as [->|(k & rs & Hr & Hk & _ & M)]; [cbn [fst snd map]; repeat split; auto|].
      destruct (one_forward b k rs Hr s Hh (fun e He => Hg b e (or_introl eq_refl) He) B1) as [K R]. destruct M as [[M ->]|M].
      - split; split; auto; [now apply Hk|]. cbn [map]. constructor; auto.
      - destruct (Hm rs (snd kb) s (one_small b k rs Hr) M) as [_ Hs]. split; split; auto; [now apply Hk|]. rewrite Forall_map. now apply Hs. }
    destruct X as [X1 X2]. split; auto. unfold sys_solves in *. cbn [algs]. apply Forall_app. auto.
  Qed.
  Lemma low_backward c c' s dom : low_degree handler stateful make g rq bound c = Some c' -> knows_tables stateful legal dom handler -> checks_ranges stateful legal make -> checks_domain dom make -> lookups_ok stateful dom g c ->
    admissible s c' -> admissible s c /\ sends s c' = sends s c.
  Proof.
    intros H Hk Hm Hd Hok [A B]. destruct (low_spec c c' H) as (l & Hl & ->). split; [|apply (low_events c l s); auto]. unfold bus_values, sys_solves in *. cbn [algs buses] in *. apply Forall_app in A. destruct A as [A1 A2]. split; auto.
    assert (Hok' : forall b, In b (buses c) -> forall i e, try_to_known (bus_id b) = Some i -> stateful i = false -> In e (payload b) ->
        match try_to_known e with Some k => dom i k | None => try_to_single_value (range_constraint g e) = None end) by (intros b Hb i e K S I; exact (Hok b i e Hb K S I)).
    clear Hok A1 H. unfold bus_values. induction Hl as [|b kb bs l H1 H2 IH]; cbn [map]; [constructor|]. cbn [flat_map] in A2, B. rewrite map_app in B. apply Forall_app in A2, B. destruct A2 as [A2 A3]. destruct B as [B1 B2].
    constructor; [|apply IH; auto; intros b0 Hb0; apply (Hok' b0); now right].
    destruct (one_cases b kb H1) as [->|(k & rs & Hr & Hkk & _ & M)]; [cbn [snd map] in B1; now inversion B1|]. destruct M as [[M E]|M]; [rewrite E in B1; cbn [map] in B1; now inversion B1|].
    destruct (Hm rs (snd kb) s (one_small b k rs Hr) M) as [_ Hs]. apply (one_backward b k rs Hr dom s Hk); [apply (Hok' b); now left| |now apply Hkk|].
    - now apply (Hd rs (snd kb) (one_small b k rs Hr)).
    - apply Hs. now rewrite Forall_map in B1.
  Qed.
  Lemma low_degree_ok c c' : low_degree handler stateful make g rq bound c = Some c' -> derived c' = derived c /\ exists new, algs c' = algs c ++ new /\ Forall (fun e => degree e <= bound) new.
  Proof.
    intros H. destruct (low_spec c c' H) as (l & Hl & ->). split; auto. exists (flat_map fst l). split; auto. clear - Hl. induction Hl as [|b kb bs l H1 H2 IH]; cbn [flat_map]; [constructor|]. apply Forall_app. split; auto.
    destruct (one_cases b kb H1) as [->|(k & rs & Hr & _ & I & _)]; [constructor|]. destruct (replace_data b k rs Hr) as (_ & _ & _ & _ & _ & _ & _ & _ & _ & D & _). apply Forall_forall. intros e He. destruct (I e He) as [<-|[]]. exact D.
  Qed.
End LowSem.
