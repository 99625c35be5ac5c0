From Coq Require Import Arith NArith Bool List Lia ZifyBool ZifyNat Sorted.
From Verif Require Import ExecModel ExecSpec ExecFacts.
Import ListNotations.

(** ** Resolving overlaps *)
Lemma in_existsb i d : existsb (Nat.eqb i) d = true <-> In i d.
Proof. rewrite existsb_exists. split; [intros (x & H & E); apply Nat.eqb_eq in E; now subst|intros H; exists i; now rewrite Nat.eqb_refl]. Qed.
Lemma pairs_ordered {A} (P : A -> A -> Prop) l : (forall a b, In (a, b) (pairs l) -> P a b) <-> ForallOrdPairs P l.
Proof.
  induction l as [|x l IH]; cbn [pairs].
  - split; [constructor|intros _ a b []].
  - split.
    + intros H. constructor; [apply Forall_forall; intros y Hy; apply H; apply in_or_app; left; now apply in_map|]. apply IH. intros a b Hab. apply H. apply in_or_app. now right.
    + intros H a b Hab. inversion H as [|? ? H1 H2]; subst. apply in_app_or in Hab. destruct Hab as [Hab|Hab].
      * apply in_map_iff in Hab. destruct Hab as (y & E & Hy). injection E as <- <-. rewrite Forall_forall in H1. auto.
      * now apply IH.
Qed.
Lemma pairs_in {A} (l : list A) a b : In (a, b) (pairs l) -> In a l /\ In b l.
Proof.
  induction l as [|x l IH]; cbn [pairs]; [intros []|]. intros H. apply in_app_or in H. destruct H as [H|H].
  - apply in_map_iff in H. destruct H as (y & E & Hy). injection E as <- <-. split; [now left|now right].
  - destruct (IH H). split; now right.
Qed.
Local Notation meta := (rank * (nat * nat))%type.
Definition mid (m : meta) : nat := r_id (fst m).
Lemma overlap_disjoint a b : ranges_overlap a b = false <-> disjoint a b.
Proof. unfold ranges_overlap, disjoint. destruct (Nat.ltb_spec (fst a) (snd b)), (Nat.ltb_spec (fst b) (snd a)); cbn; split; intros; try discriminate; try lia; auto. Qed.
Lemma rank_cmp_opp a b : rank_cmp b a = CompOpp (rank_cmp a b).
Proof.
  unfold rank_cmp. rewrite (Nat.compare_antisym (r_priority a) (r_priority b)), (Nat.compare_antisym (r_len a) (r_len b)).
  destruct (Nat.compare (r_priority a) (r_priority b)); cbn; auto. destruct (Nat.compare (r_len a) (r_len b)); cbn; auto. now rewrite (Nat.compare_antisym (r_id b) (r_id a)).
Qed.
Lemma rank_cmp_gt a b : rank_cmp a b = Gt <-> outranks (r_priority a, r_len a, r_id a) (r_priority b, r_len b, r_id b).
Proof.
  unfold rank_cmp, outranks. destruct (Nat.compare_spec (r_priority a) (r_priority b)); [|split; [discriminate|lia]|split; auto].
  destruct (Nat.compare_spec (r_len a) (r_len b)); [|split; [discriminate|lia]|split; auto; right; auto].
  destruct (Nat.compare_spec (r_id b) (r_id a)); split; try discriminate; auto; try lia.
Qed.
Lemma rank_cmp_neq a b : r_id a <> r_id b -> rank_cmp a b <> Eq.
Proof.
  unfold rank_cmp. intros H. destruct (Nat.compare_spec (r_priority a) (r_priority b)); try discriminate.
  destruct (Nat.compare_spec (r_len a) (r_len b)); try discriminate. destruct (Nat.compare_spec (r_id b) (r_id a)); try discriminate. congruence.
Qed.
Definition resolved (d : list nat) (a b : meta) : Prop := disjoint (snd a) (snd b) \/ In (mid a) d \/ In (mid b) d.
Definition justified (ms : list meta) (i : nat) : Prop :=
  exists a b, In a ms /\ In b ms /\ mid b = i /\ ~ disjoint (snd a) (snd b) /\ rank_cmp (fst a) (fst b) = Gt.
Lemma discard_fold ms ps : (forall a b, In (a, b) ps -> In a ms /\ In b ms /\ mid a <> mid b) -> forall d, Forall (justified ms) d ->
  exists d', fold_left discard_step ps (Some d) = Some d' /\ incl d d' /\ Forall (justified ms) d' /\ (forall a b, In (a, b) ps -> resolved d' a b).
Proof.
  induction ps as [|[[ra ga] [rb gb]] ps IH]; intros Hp d Hd; cbn [fold_left].
  - exists d. split; auto. split; [intros x; auto|]. split; auto. intros a b [].
  - assert (Hp' : forall a b, In (a, b) ps -> In a ms /\ In b ms /\ mid a <> mid b) by (intros; apply Hp; now right).
    destruct (Hp (ra, ga) (rb, gb)) as (Ha & Hb & Hn); [now left|]. unfold mid in Hn. cbn [fst] in Hn.
    assert (G : exists d1, discard_step (Some d) (ra, ga, (rb, gb)) = Some d1 /\ incl d d1 /\ Forall (justified ms) d1 /\ resolved d1 (ra, ga) (rb, gb)).
    { unfold discard_step. destruct (existsb (Nat.eqb (r_id ra)) d) eqn:E1; cbn [orb].
      { exists d. split; auto. split; [intros x; auto|]. split; auto. right. left. now apply in_existsb. }
      destruct (existsb (Nat.eqb (r_id rb)) d) eqn:E2; cbn [orb].
      { exists d. split; auto. split; [intros x; auto|]. split; auto. right. right. now apply in_existsb. }
      destruct (ranges_overlap ga gb) eqn:E3; cbn [negb].
      2: { exists d. split; auto. split; [intros x; auto|]. split; auto. left. now apply overlap_disjoint. }
      assert (Ho : ~ disjoint ga gb) by (intros X; apply overlap_disjoint in X; congruence).
      destruct (rank_cmp ra rb) eqn:E4.
      - now apply rank_cmp_neq in E4.
      - eexists. split; [reflexivity|]. split; [intros x Hx; now right|]. split; [|right; left; now left]. constructor; auto. exists (rb, gb), (ra, ga).
        split; auto. split; auto. split; auto. cbn [fst snd]. split; [intros [X|X]; apply Ho; [right|left]; auto|]. rewrite rank_cmp_opp, E4. reflexivity.
      - eexists. split; [reflexivity|]. split; [intros x Hx; now right|]. split; [|right; right; now left]. constructor; auto. exists (ra, ga), (rb, gb).
        split; auto. }
    destruct G as (d1 & -> & G1 & G2 & G3). destruct (IH Hp' d1 G2) as (d' & -> & H1 & H2 & H3). exists d'. split; auto. split; [intros x Hx; auto|]. split; auto.
    intros a b [X|X]; auto. injection X as <- <-. destruct G3 as [G3|[G3|G3]]; [left; auto|right; left; auto|right; right; auto].
Qed.
Lemma discarded_ok ms : NoDup (map mid ms) -> exists d, discarded ms = Some d /\ Forall (justified ms) d /\ ForallOrdPairs (resolved d) ms.
Proof.
  intros Hn. destruct (discard_fold ms (pairs ms)) with (d := @nil nat) as (d & E & _ & A & B).
  - intros a b Hab. destruct (pairs_in _ _ _ Hab). split; auto. split; auto.
    assert (G : ForallOrdPairs (fun x y => mid x <> mid y) ms).
    { clear - Hn. induction ms as [|m ms IH]; constructor; inversion Hn as [|? ? N1 N2]; subst; [apply Forall_forall; intros y Hy Ey; apply N1; rewrite Ey; now apply in_map|].
      apply IH; auto. }
    now apply (proj2 (pairs_ordered _ _) G).
  - constructor.
  - exists d. split; auto. split; auto. now apply pairs_ordered.
Qed.

Section Cands.
  Context {S : Type}.
  Local Notation cand := (cand S).
  Definition cand_good (apcs : list apc) (c : cand) : Prop := in_progress c = false /\ apc_id c < length apcs /\ from_clk c <= cand_end c.
  Definition prio (apcs : list apc) (c : cand) : nat := match nth_error apcs (apc_id c) with Some a => apc_priority a | None => 0 end.
  Lemma metas_ok apcs cs : forall i, Forall (cand_good apcs) cs ->
    metas apcs i cs = Some (map (fun ic => (mkRank (prio apcs (snd ic)) (cand_end (snd ic) - from_clk (snd ic)) (fst ic), cand_range (snd ic))) (combine (seq i (length cs)) cs)).
  Proof.
    induction cs as [|c cs IH]; intros i H; cbn [metas length seq combine map]; auto. inversion H as [|? ? (H1 & H2 & H3) Hr]; subst.
    unfold meta1, cand_range, prio. unfold in_progress, cand_end in *. destruct (status c) as [|e t] eqn:Es; [discriminate|].
    destruct (nth_error apcs (apc_id c)) as [a|] eqn:Ea; [|apply nth_error_None in Ea; lia]. destruct (Nat.leb_spec (from_clk c) e); [|lia].
    rewrite IH by auto. cbn [fst snd]. rewrite Es, Ea. reflexivity.
  Qed.
  Lemma in_combine_seq {A} (l : list A) i j c : In (j, c) (combine (seq i (length l)) l) <-> i <= j /\ nth_error l (j - i) = Some c.
  Proof.
    revert i. induction l as [|x l IH]; intros i; cbn [length seq combine In].
    - split; [intros []|]. intros [_ H]. destruct (j - i); discriminate.
    - rewrite IH. split.
      + intros [H|[H1 H2]]; [injection H as <- <-; rewrite Nat.sub_diag; auto|]. split; [lia|]. replace (j - i) with (Datatypes.S (j - Datatypes.S i)) by lia. exact H2.
      + intros [H1 H2]. destruct (Nat.eq_dec i j) as [->|N0]; [rewrite Nat.sub_diag in H2; injection H2 as <-; now left|]. right. split; [lia|].
        replace (j - i) with (Datatypes.S (j - Datatypes.S i)) in H2 by lia. exact H2.
  Qed.
  (** The indices that are kept. *)
  Definition kept (d : list nat) (i n : nat) : list nat := filter (fun j => negb (existsb (Nat.eqb j) d)) (seq i n).
  Lemma keep_calls apcs cs d : forall i, Forall (cand_good apcs) cs ->
    exists l, to_calls (keep i d cs) = Some l /\ Forall2 (fun j k => exists c t, nth_error cs (j - i) = Some c /\ status c = DoneAt (cand_end c) t /\ k = mkCall (apc_id c) (from_snap c) t) (kept d i (length cs)) l.
  Proof.
    induction cs as [|c cs IH]; intros i H; cbn [keep length].
    - exists []. split; auto. constructor.
    - inversion H as [|? ? (H1 & H2 & H3) Hr]; subst. destruct (IH (Datatypes.S i) Hr) as (l & E & F). unfold kept. cbn [seq filter]. fold (kept d (Datatypes.S i) (length cs)).
      assert (F' : Forall2 (fun j k => exists c0 t, nth_error (c :: cs) (j - i) = Some c0 /\ status c0 = DoneAt (cand_end c0) t /\ k = mkCall (apc_id c0) (from_snap c0) t) (kept d (Datatypes.S i) (length cs)) l).
      { assert (G : Forall (fun j => i < j) (kept d (Datatypes.S i) (length cs))).
        { apply Forall_forall. intros j Hj. apply filter_In in Hj. destruct Hj as [Hj _]. apply in_seq in Hj. lia. }
        clear - F G. induction F as [|j k js ks (c0 & t & A & B) F IH]; constructor; inversion G; subst; auto. exists c0, t.
        replace (j - i) with (Datatypes.S (j - Datatypes.S i)) by lia. auto. }
      destruct (existsb (Nat.eqb i) d); cbn [negb]; [exists l; auto|]. cbn [to_calls]. unfold in_progress in H1. destruct (status c) as [|e t] eqn:Es; [discriminate|]. rewrite E.
      eexists. split; [reflexivity|]. constructor; auto. exists c, t. rewrite Nat.sub_diag. unfold cand_end. rewrite Es. auto.
  Qed.
  Lemma ordered_nth {A} (P : A -> A -> Prop) l i j a b : ForallOrdPairs P l -> nth_error l i = Some a -> nth_error l j = Some b -> i < j -> P a b.
  Proof.
    intros H. revert i j. induction H as [|x l H1 H2 IH]; intros i j Hi Hj L; [destruct i; discriminate|]. destruct j as [|j]; [lia|]. destruct i as [|i].
    - injection Hi as <-. cbn in Hj. rewrite Forall_forall in H1. apply H1. now apply nth_error_In in Hj.
    - cbn in Hi, Hj. apply (IH i j); auto. lia.
  Qed.
  Lemma nth_combine_seq {A} (l : list A) i : nth_error (combine (seq 0 (length l)) l) i = match nth_error l i with Some c => Some (i, c) | None => None end.
  Proof.
    assert (G : forall k, nth_error (combine (seq k (length l)) l) i = match nth_error l i with Some c => Some (k + i, c) | None => None end); [|apply (G 0)].
    revert i. induction l as [|x l IH]; intros i k; cbn [length seq combine]; [destruct i; reflexivity|]. destruct i as [|i]; cbn [nth_error]; [now rewrite Nat.add_0_r|].
    rewrite IH. destruct (nth_error l i); auto. f_equal. f_equal. lia.
  Qed.
  Lemma extract_ok apcs (cs : list cand) : Forall (cand_good apcs) cs ->
    exists l ks, extract_calls apcs cs = Some ([], l) /\ StronglySorted lt ks /\ Forall2 (call_at cs) ks l /\
      (forall i j, In i ks -> In j ks -> i <> j -> disjoint (range_at cs i) (range_at cs j)) /\
      (forall j, j < length cs -> ~ In j ks -> exists i, i < length cs /\ outranks (cand_rank apcs cs i) (cand_rank apcs cs j) /\ ~ disjoint (range_at cs i) (range_at cs j)).
  Proof.
    intros H. unfold extract_calls.
    assert (Hip : existsb in_progress cs = false).
    { apply not_true_iff_false. intros X. apply existsb_exists in X. destruct X as (c & X1 & X2). rewrite Forall_forall in H. destruct (H c X1). congruence. }
    rewrite Hip, (metas_ok apcs cs 0 H). set (ms := map _ _).
    assert (Hms : forall i m, nth_error ms i = Some m <-> exists c, nth_error cs i = Some c /\ m = (mkRank (prio apcs c) (cand_end c - from_clk c) i, cand_range c)).
    { intros i m. unfold ms. rewrite nth_error_map, nth_combine_seq. destruct (nth_error cs i) as [c|]; cbn [option_map fst snd].
      - split; [intros [= <-]; eauto|intros (c' & [= <-] & ->); reflexivity].
      - split; [discriminate|intros (c & X & _); discriminate]. }
    assert (Hn : NoDup (map mid ms)).
    { unfold ms. rewrite map_map. cbn [mid fst r_id]. assert (E : map (fun x : nat * cand => fst x) (combine (seq 0 (length cs)) cs) = seq 0 (length cs)).
      { generalize 0. clear. induction cs as [|c cs IH]; intros k; cbn; auto. now rewrite IH. }
      unfold mid. cbn [fst r_id]. rewrite E. apply seq_NoDup. }
    destruct (discarded_ok ms Hn) as (d & -> & A & B). destruct (keep_calls apcs cs d 0 H) as (l & -> & F). exists l, (kept d 0 (length cs)). split; auto.
    assert (Hk : forall i, In i (kept d 0 (length cs)) <-> i < length cs /\ ~ In i d).
    { intros i. unfold kept. rewrite filter_In, in_seq, negb_true_iff, <- not_true_iff_false, in_existsb. intuition lia. }
    split; [|split; [|split]].
    - unfold kept. assert (G : forall k n, StronglySorted lt (seq k n)).
      { clear. intros k n. revert k. induction n as [|n IH]; intros k; cbn; constructor; auto. apply Forall_forall. intros x Hx. apply in_seq in Hx. lia. }
      generalize (G 0 (length cs)). generalize (seq 0 (length cs)). clear. intros L HL. induction HL as [|x L H1 IH H2]; cbn [filter]; [constructor|].
      destruct (negb _); auto. constructor; auto. rewrite Forall_forall in *. intros y Hy. apply filter_In in Hy. apply H2. tauto.
    - clear - F. induction F as [|j k js ks (c & t & X & Y) F IH]; constructor; auto. rewrite Nat.sub_0_r in X. exists c, t. tauto.
    - assert (G : forall i j, i < j -> In i (kept d 0 (length cs)) -> In j (kept d 0 (length cs)) -> disjoint (range_at cs i) (range_at cs j)).
      { intros i j L Hi Hj. apply Hk in Hi. apply Hk in Hj. destruct (nth_error cs i) as [ci|] eqn:Ei; [|apply nth_error_None in Ei; lia]. destruct (nth_error cs j) as [cj|] eqn:Ej; [|apply nth_error_None in Ej; lia].
        assert (X : resolved d (mkRank (prio apcs ci) (cand_end ci - from_clk ci) i, cand_range ci) (mkRank (prio apcs cj) (cand_end cj - from_clk cj) j, cand_range cj)).
        { eapply (ordered_nth (resolved d) ms i j); auto; apply Hms; eauto. }
        unfold range_at. rewrite Ei, Ej. destruct X as [X|[X|X]]; auto; cbn in X; tauto. }
      intros i j Hi Hj N0. destruct (Nat.lt_trichotomy i j) as [L|[L|L]]; [auto|congruence|]. destruct (G j i L Hj Hi) as [X|X]; [right|left]; auto.
    - intros j Hj Hnk. assert (Hd : In j d). { destruct (in_dec Nat.eq_dec j d); auto. exfalso. apply Hnk. apply Hk. auto. }
      rewrite Forall_forall in A. destruct (A j Hd) as (a & b & Ha & Hb & Em & Ho & Hr). apply In_nth_error in Ha. destruct Ha as [i Ha]. apply In_nth_error in Hb. destruct Hb as [j' Hb].
      apply Hms in Ha. apply Hms in Hb. destruct Ha as (ca & Ca & ->). destruct Hb as (cb & Cb & ->). cbn in Em. subst j'. apply rank_cmp_gt in Hr. cbn [fst snd r_priority r_len r_id] in *.
      exists i. split; [apply nth_error_Some; congruence|]. unfold cand_rank, range_at. rewrite Ca, Cb. auto.
  Qed.
End Cands.
