(** Threads that access different cells: every interleaving has the same result. *)
From Coq Require Import Arith ZArith NArith Bool List Lia.
From Verif Require Import Field ExprModel SystemModel SymModel TraceModel TraceSpec TraceFacts CudaModel CudaSpec.
Import ListNotations.

Section CudaSched.
  Context {p : positive}.
  Local Notation row := (list (F p)).
  (** A thread that runs alone. *)
  Inductive runs : prog p -> row -> row -> list bin -> nat -> Prop :=
  | runs_done M : runs Done M M [] 0
  | runs_read a k M v M' e n : load M a = Some v -> runs (k v) M M' e n -> runs (Read a k) M M' e (S n)
  | runs_write a v k M M1 M' e n : set_at (N.to_nat a) v M = Some M1 -> runs k M1 M' e n -> runs (Write a v k) M M' e (S n)
  | runs_count b k M M' e n : runs k M M' e n -> runs (Count b k) M M' (b :: e) (S n).
  (** A thread that only accesses the cells of [S]. *)
  Fixpoint within (S : N -> Prop) (q : prog p) : Prop :=
    match q with
    | Done | Fault => True
    | Read a k => S a /\ forall v, within S (k v)
    | Write a _ k => S a /\ within S k
    | Count _ k => within S k
    end.
  Lemma within_weaken (S T : N -> Prop) q : (forall a, S a -> T a) -> within S q -> within T q.
  Proof. intros HST. induction q; cbn; intuition. Qed.
  Lemma runs_length q M M' e n : runs q M M' e n -> length M' = length M.
  Proof. induction 1; auto. apply set_at_inv in H as (L & _). lia. Qed.
  Definition agree (S : N -> Prop) (M M' : row) : Prop := length M = length M' /\ forall a, S a -> load M a = load M' a.
  Lemma load_set (M M' : row) a v b : set_at (N.to_nat a) v M = Some M' -> load M' b = if (b =? a)%N then Some v else load M b.
  Proof.
    intros H. apply set_at_inv in H as (_ & _ & H). unfold load. rewrite H. destruct (N.eqb_spec b a) as [->|D].
    - now rewrite Nat.eqb_refl.
    - destruct (Nat.eqb_spec (N.to_nat b) (N.to_nat a)); auto. exfalso. lia.
  Qed.
  Lemma runs_frame S q M M' e n : runs q M M' e n -> forall M2, within S q -> agree S M M2 ->
    exists M2', runs q M2 M2' e n /\ agree S M' M2' /\ forall a, ~ S a -> load M2' a = load M2 a.
  Proof.
    induction 1 as [M|a k M v M' e n L _ IH|a v k M M1 M' e n W _ IH|b k M M' e n _ IH]; cbn; intros M2 Hw Ha.
    - exists M2. repeat split; auto; [constructor|apply Ha|apply Ha].
    - destruct Hw as [Hs Hw]. destruct (IH M2 (Hw v) Ha) as (M2' & R & A & O). exists M2'. split; auto.
      econstructor; eauto. destruct Ha as [_ Ha]. now rewrite <- Ha.
    - destruct Hw as [Hs Hw]. destruct (set_at_inv _ _ _ _ W) as (L1 & L2 & _). destruct Ha as [La Ha].
      destruct (set_at_ok (N.to_nat a) v M2) as [M3 E3]; [lia|]. destruct (set_at_inv _ _ _ _ E3) as (L3 & _).
      destruct (IH M3 Hw) as (M2' & R & A & O).
      { split; [lia|]. intros b Hb. rewrite (load_set _ _ _ _ _ W), (load_set _ _ _ _ _ E3). destruct (N.eqb b a); auto. }
      exists M2'. split; [econstructor; eauto|]. split; auto. intros b Hb. rewrite O by auto. rewrite (load_set _ _ _ _ _ E3).
      destruct (N.eqb_spec b a) as [->|]; auto. contradiction.
    - destruct (IH M2 Hw Ha) as (M2' & R & A & O). exists M2'. split; auto. now constructor.
  Qed.
  Lemma runs_outside S q M M' e n a : runs q M M' e n -> within S q -> ~ S a -> load M' a = load M a.
  Proof.
    intros H. induction H as [M|b k M v M' e n L _ IH|b v k M M1 M' e n W _ IH|b k M M' e n _ IH]; cbn; intros Hw Ha; auto.
    - destruct Hw. auto.
    - destruct Hw. rewrite IH by auto. rewrite (load_set _ _ _ _ _ W). destruct (N.eqb_spec a b) as [->|]; auto. contradiction.
  Qed.
  Lemma runs_fault M M' e n : ~ runs Fault M M' e n. Proof. intros H. inversion H. Qed.

  Lemma nth_update {A} (l : list A) i x j : nth_error (update l i x) j = if (j =? i) && (i <? length l) then Some x else nth_error l j.
  Proof.
    revert i j. induction l as [|y l IH]; intros i j; cbn [update length].
    - rewrite andb_false_r. auto.
    - destruct i as [|i]; destruct j as [|j]; cbn; auto. rewrite IH. change (S i <? S (length l)) with (i <? length l). auto.
  Qed.
  Lemma update_length {A} (l : list A) i x : length (update l i x) = length l.
  Proof. revert i. induction l as [|y l IH]; intros [|i]; cbn; auto. Qed.
  Lemma sum_update (l : list nat) i x y : nth_error l i = Some x -> list_sum (update l i y) + x = list_sum l + y.
  Proof.
    revert i. induction l as [|z l IH]; intros [|i]; cbn; try discriminate.
    - intros [= ->]. lia.
    - intros H. specialize (IH i H). unfold list_sum in IH. lia.
  Qed.
  Lemma requests_cons b c l : requests b (c :: l) = ((if bin_eqb b c then 1 else 0) + requests b l)%N.
  Proof. unfold requests. cbn. destruct (bin_eqb b c); cbn [length]; lia. Qed.
  Lemma requests_app b l r : requests b (l ++ r) = (requests b l + requests b r)%N.
  Proof. unfold requests. rewrite filter_app, app_length. lia. Qed.
  Lemma requests_update b (es : list (list bin)) i c e : nth_error es i = Some (c :: e) ->
    (requests b (concat es) = (if bin_eqb b c then 1 else 0) + requests b (concat (update es i e)))%N.
  Proof.
    revert i. induction es as [|x es IH]; intros [|i]; cbn [nth_error update concat]; try discriminate.
    - intros [= ->]. rewrite !requests_app, requests_cons. lia.
    - intros H. rewrite !requests_app, (IH i H). lia.
  Qed.
  Lemma update_same {A} (l : list A) i x : nth_error l i = Some x -> update l i x = l.
  Proof. revert i. induction l as [|y l IH]; intros [|i]; cbn; try discriminate; [congruence|]. intros H. now rewrite IH. Qed.

  (** The invariant of an interleaving: every thread, if it ran alone from here, would end with its cells as in [R]. *)
  Definition sched_inv (S : nat -> N -> Prop) (R : row) (Cf : bin -> N) (M : row) (C : bin -> N) (ts : list (prog p)) (es : list (list bin)) (ns : list nat) : Prop :=
    length es = length ts /\ length ns = length ts /\ length M = length R /\
    (forall i q, nth_error ts i = Some q -> within (S i) q /\ exists M' e n, nth_error es i = Some e /\ nth_error ns i = Some n /\ runs q M M' e n /\ forall a, S i a -> load M' a = load R a) /\
    (forall a, (forall i, i < length ts -> ~ S i a) -> load M a = load R a) /\
    (forall b, (C b + requests b (concat es) = Cf b)%N).

  Lemma sched_step (S : nat -> N -> Prop) R Cf M C ts es ns M1 C1 ts1 :
    (forall i j a, S i a -> S j a -> i = j) ->
    sched_inv S R Cf M C ts es ns -> step (M, C, ts) (M1, C1, ts1) ->
    exists es1 ns1, sched_inv S R Cf M1 C1 ts1 es1 ns1 /\ list_sum ns = Datatypes.S (list_sum ns1).
  Proof.
    intros Hd (Le & Ln & LM & Ht & Ho & Hc) Hs. inversion Hs as [? ? ? i q ? ? q' Hq Ha]; subst.
    destruct (Ht i q Hq) as (Hw & M' & e & n & He & Hn & Hr & Hf).
    assert (Hi : i < length ts) by (apply nth_error_Some; congruence).
    (* the other threads *)
    assert (Hother : forall M2 es2 ns2, length M2 = length M -> (forall a, ~ S i a -> load M2 a = load M a) ->
      (forall j, j <> i -> nth_error es2 j = nth_error es j) -> (forall j, j <> i -> nth_error ns2 j = nth_error ns j) ->
      forall j q0, j <> i -> nth_error ts j = Some q0 -> within (S j) q0 /\ exists M' e n, nth_error es2 j = Some e /\ nth_error ns2 j = Some n /\ runs q0 M2 M' e n /\ forall a, S j a -> load M' a = load R a).
    { intros M2 es2 ns2 HL HM Hes Hns j q0 Hj Hq0. destruct (Ht j q0 Hq0) as (Hw0 & M0' & e0 & n0 & He0 & Hn0 & Hr0 & Hf0). split; auto.
      destruct (runs_frame (S j) _ _ _ _ _ Hr0 M2 Hw0) as (M2' & R2 & (_ & A2) & _).
      { split; [lia|]. intros a Haj. rewrite HM; auto. intros Hai. apply Hj. symmetry. eauto. }
      exists M2', e0, n0. rewrite Hes, Hns by auto. repeat split; auto. intros a Haj. rewrite <- A2 by auto. auto. }
    assert (Hup : forall A (l : list A) x j, j <> i -> nth_error (update l i x) j = nth_error l j).
    { intros A l x j Hj. rewrite nth_update. destruct (Nat.eqb_spec j i); [contradiction|reflexivity]. }
    assert (Hat : forall A (l : list A) x, i < length l -> nth_error (update l i x) i = Some x).
    { intros A l x Hl. rewrite nth_update, Nat.eqb_refl. destruct (Nat.ltb_spec i (length l)); [reflexivity|lia]. }
    assert (Hall : forall M2 C2 e2 n2, length M2 = length M -> (forall a, ~ S i a -> load M2 a = load M a) -> n = Datatypes.S n2 ->
       within (S i) q' -> runs q' M2 M' e2 n2 -> (forall b, (C2 b + requests b (concat (update es i e2)) = Cf b)%N) ->
       exists es1 ns1, sched_inv S R Cf M2 C2 (update ts i q') es1 ns1 /\ list_sum ns = Datatypes.S (list_sum ns1)).
    { intros M2 C2 e2 n2 HL HM En Hw2 Hr2 Hc2. exists (update es i e2), (update ns i n2). split.
      - unfold sched_inv. rewrite !update_length. repeat (split; [congruence|]). split.
        + intros j q0 Hj. destruct (Nat.eq_dec j i) as [->|D].
          * rewrite Hat in Hj by auto. injection Hj as <-. split; auto. exists M', e2, n2. rewrite !Hat by (rewrite ?Le, ?Ln; auto). repeat split; auto.
          * rewrite Hup in Hj by auto. eapply Hother; eauto.
        + split; auto. intros a Hno. rewrite HM; auto.
      - pose proof (sum_update ns i n n2 Hn). lia. }
    destruct q as [| |a k|a v k|b k]; cbn in Ha; try discriminate; inversion Hr; subst; clear Hr.
    - match goal with H : load M a = Some _ |- _ => rewrite H in Ha end. injection Ha as <- <- <-. destruct Hw as [Hs1 Hw].
      eapply Hall; eauto. intros b. rewrite update_same; auto.
    - match goal with H : set_at _ _ _ = Some _ |- _ => rewrite H in Ha; rename H into HW end. injection Ha as <- <- <-. destruct Hw as [Hs1 Hw].
      eapply Hall; eauto; [apply set_at_inv in HW; apply HW| |intros b; rewrite update_same; auto].
      intros c Hc'. rewrite (load_set _ _ _ _ _ HW). destruct (N.eqb_spec c a) as [->|]; auto. contradiction.
    - injection Ha as <- <- <-. eapply Hall; eauto. intros c. specialize (Hc c). rewrite (requests_update c _ _ _ _ He) in Hc. unfold bump.
      destruct (bin_eqb c b); lia.
  Qed.
  Lemma sched_steps (S : nat -> N -> Prop) R Cf n : forall M C ts es ns M1 C1 ts1,
    (forall i j a, S i a -> S j a -> i = j) ->
    sched_inv S R Cf M C ts es ns -> steps n (M, C, ts) (M1, C1, ts1) ->
    exists es1 ns1, sched_inv S R Cf M1 C1 ts1 es1 ns1 /\ list_sum ns = n + list_sum ns1.
  Proof.
    induction n as [|n IH]; intros M C ts es ns M1 C1 ts1 Hd Hi Hs; inversion Hs as [|? ? s' ? H1 H2]; subst.
    - eauto.
    - destruct s' as [[M2 C2] ts2]. destruct (sched_step _ _ _ _ _ _ _ _ _ _ _ Hd Hi H1) as (es1 & ns1 & I1 & S1).
      destruct (IH _ _ _ _ _ _ _ _ Hd I1 H2) as (es2 & ns2 & I2 & S2). exists es2, ns2. split; auto. lia.
  Qed.
  Lemma list_ext_load (l r : row) : length l = length r -> (forall a, load l a = load r a) -> l = r.
  Proof.
    intros L H. apply nth_error_ext_len; auto. intros i x y Hx Hy. specialize (H (N.of_nat i)). unfold load in H. rewrite Nat2N.id in H. congruence.
  Qed.
  (** Threads that access different cells complete, with the result that each of them has alone. *)
  Theorem disjoint_completes (S : nat -> N -> Prop) (ts : list (prog p)) (M R : row) (C : bin -> N) (es : list (list bin)) :
    (forall i j a, S i a -> S j a -> i = j) ->
    length M = length R -> length es = length ts ->
    (forall i q, nth_error ts i = Some q -> within (S i) q /\ exists M' e n, nth_error es i = Some e /\ runs q M M' e n /\ forall a, S i a -> load M' a = load R a) ->
    (forall a, (forall i, i < length ts -> ~ S i a) -> load M a = load R a) ->
    completes ts M C R (fun b => C b + requests b (concat es))%N.
  Proof.
    intros Hd HL HE Ht Ho.
    assert (Hns : exists ns, length ns = length ts /\ forall i q e, nth_error ts i = Some q -> nth_error es i = Some e -> exists n, nth_error ns i = Some n /\ exists M', runs q M M' e n /\ forall a, S i a -> load M' a = load R a).
    { assert (G : forall ts0 es0, length es0 = length ts0 -> forall S0 : nat -> N -> Prop, (forall i q, nth_error ts0 i = Some q -> exists M' e n, nth_error es0 i = Some e /\ runs q M M' e n /\ forall a, S0 i a -> load M' a = load R a) ->
        exists ns, length ns = length ts0 /\ forall i q e, nth_error ts0 i = Some q -> nth_error es0 i = Some e -> exists n, nth_error ns i = Some n /\ exists M', runs q M M' e n /\ forall a, S0 i a -> load M' a = load R a).
      { induction ts0 as [|q0 ts0 IH]; intros [|e0 es0] L0 S0 H0; cbn in L0; try discriminate.
        - exists []. split; auto. intros [|i]; discriminate.
        - destruct (IH es0 (f_equal pred L0) (fun i => S0 (Datatypes.S i))) as (ns & L1 & H1).
          { intros i q Hq. apply (H0 (Datatypes.S i)). auto. }
          destruct (H0 0 q0 eq_refl) as (M' & e & n & He & Hr & Hf). cbn in He. injection He as <-.
          exists (n :: ns). split; cbn; [now rewrite L1|]. intros [|i] q e Hq He; cbn in *.
          + injection Hq as <-. injection He as <-. eauto.
          + eauto. }
      destruct (G ts es HE S) as (ns & L1 & H1); [intros i q Hq; apply (Ht i q Hq)|]. eauto. }
    destruct Hns as (ns & LN & Hns).
    assert (Hinv : sched_inv S R (fun b => C b + requests b (concat es))%N M C ts es ns).
    { unfold sched_inv. repeat (split; [auto; fail|]). split; [|auto]. intros i q Hq. destruct (Ht i q Hq) as (Hw & _ & e & _ & He & _). split; auto.
      destruct (Hns i q e Hq He) as (n & Hn & M' & Hr & Hf). exists M', e, n. auto. }
    exists (list_sum ns). intros n M1 C1 ts1 Hst. destruct (sched_steps _ _ _ _ _ _ _ _ _ _ _ _ Hd Hinv Hst) as (es1 & ns1 & (I1 & I2 & I3 & I4 & I5 & I6) & HS).
    split; [lia|]. split.
    - intros Hin. apply In_nth_error in Hin as [i Hi]. destruct (I4 i _ Hi) as (_ & M' & e & m & _ & _ & Hr & _). now apply runs_fault in Hr.
    - intros Hstuck.
      assert (HD : forall i q, nth_error ts1 i = Some q -> q = Done).
      { intros i q Hq. destruct (access M1 C1 q) as [[[M2 C2] q2]|] eqn:E.
        - exfalso. eapply Hstuck. econstructor; eauto.
        - destruct (I4 i _ Hq) as (_ & M' & e & m & _ & _ & Hr & _). destruct q; cbn in E; try discriminate; auto. now apply runs_fault in Hr. }
      assert (HDone : Forall (fun q => q = Done) ts1). { apply Forall_forall. intros q Hq. apply In_nth_error in Hq as [i Hi]. eauto. }
      split; auto. split.
      + apply list_ext_load; auto. intros a.
        destruct (nth_error M1 (N.to_nat a)) as [x|] eqn:Ex.
        2:{ unfold load. rewrite Ex. symmetry. apply nth_error_None. apply nth_error_None in Ex. lia. }
        (* a cell that differed would belong to no thread *)
        destruct (nth_error R (N.to_nat a)) as [y|] eqn:Ey; [|apply nth_error_None in Ey; assert (nth_error M1 (N.to_nat a) <> None) as X by congruence; apply nth_error_Some in X; lia].
        destruct (feqb x y) eqn:D; [apply feqb_eq in D as ->; unfold load; congruence|]; apply feqb_neq in D.
        exfalso. apply D. assert (L : load M1 a = load R a).
        { apply I5. intros i Hi HSi. apply D. destruct (nth_error ts1 i) as [q|] eqn:Hq; [|apply nth_error_None in Hq; lia].
          destruct (I4 i q Hq) as (_ & M' & e & m & _ & _ & Hr & Hf). rewrite (HD i q Hq) in Hr. inversion Hr; subst. specialize (Hf a HSi). unfold load in Hf. congruence. }
        unfold load in L. congruence.
      + intros b. specialize (I6 b). assert (E0 : concat es1 = []).
        { assert (G : forall l, (forall i e, nth_error l i = Some e -> e = []) -> @concat bin l = []).
          { induction l as [|e l IH]; auto. intros H. cbn. rewrite (H 0 e eq_refl), IH; auto. intros i e' He'. apply (H (Datatypes.S i)). auto. }
          apply G. intros i e He. destruct (nth_error ts1 i) as [q|] eqn:Hq.
          - destruct (I4 i q Hq) as (_ & M' & e' & m & He' & _ & Hr & _). rewrite (HD i q Hq) in Hr. inversion Hr; subst. congruence.
          - apply nth_error_None in Hq. assert (nth_error es1 i <> None) as X by congruence. apply nth_error_Some in X. lia. }
        rewrite E0 in I6. cbn in I6. rewrite <- I6. unfold requests. cbn. lia.
  Qed.
End CudaSched.
