(** Proofs about walks. *)
From Coq Require Import Arith NArith Bool List Lia.
From Verif Require Import Field ExprModel SystemModel SymModel NumModel JsonModel JsonSpec VisitModel VisitSpec.
Import ListNotations.

Section Facts.
  Context {p : positive}.
  Local Notation E := (nexpr p).

  (** ** Walking *)
  Section Walk.
    Context {St B : Type}.
    Lemma try_each_calls {A} (f : St -> A -> St * option B) l : forall s s' b, calls f s l s' b <-> try_each f s l = (s', b).
    Proof.
      induction l as [|a l IH]; intros s s' b; split; cbn [try_each].
      - intros C. now inversion C; subst.
      - intros [= <- <-]. constructor.
      - intros C. inversion C as [|s0 a0 l0 s1 b0 H|s0 a0 l0 s1 s2 b0 H H2]; subst; rewrite H; [reflexivity|]. now apply IH.
      - destruct (f s a) as [s1 [b1|]] eqn:H; [intros [= <- <-]; now constructor|]. intros H2. apply IH in H2. eapply calls_on; eauto.
    Qed.
    Lemma try_each_app {A} (f : St -> A -> St * option B) l r : forall s,
      try_each f s (l ++ r) = match try_each f s l with (s1, Some b) => (s1, Some b) | (s1, None) => try_each f s1 r end.
    Proof. induction l as [|a l IH]; intros s; cbn; [reflexivity|]. destruct (f s a) as [s1 [b|]]; [reflexivity|]. apply IH. Qed.
    Lemma visit_listed (f : St -> E -> St * option B) w e l : listed w e l -> forall s, visit f w s e = try_each f s l.
    Proof.
      induction 1 as [w name id|w k|l o r ls rs Hl IHl Hr IHr|l o r ls rs Hl IHl Hr IHr|e l Hl IHl|e l Hl IHl]; intros s.
      - cbn. destruct w; cbn; destruct (f s _) as [s1 [b|]]; reflexivity.
      - cbn. destruct w; cbn; destruct (f s _) as [s1 [b|]]; reflexivity.
      - cbn [visit try_each]. destruct (f s _) as [s1 [b|]]; [reflexivity|]. rewrite try_each_app, <- IHl.
        destruct (visit f Pre s1 l) as [s2 [b|]]; [reflexivity|]. rewrite <- IHr. now destruct (visit f Pre s2 r) as [s3 [b|]].
      - cbn [visit]. rewrite try_each_app, <- IHl. destruct (visit f Post s l) as [s2 [b|]]; [reflexivity|].
        rewrite try_each_app, <- IHr. destruct (visit f Post s2 r) as [s3 [b|]]; [reflexivity|]. cbn [try_each]. now destruct (f s3 _) as [s4 [b|]].
      - cbn [visit try_each]. destruct (f s _) as [s1 [b|]]; [reflexivity|]. rewrite IHl. now destruct (try_each f s1 l) as [s2 [b|]].
      - cbn [visit]. rewrite try_each_app, <- IHl. destruct (visit f Post s e) as [s2 [b|]]; [reflexivity|]. cbn [try_each]. now destruct (f s2 _) as [s4 [b|]].
    Qed.
    Lemma try_each_listed (f : St -> E -> St * option B) w es ls : Forall2 (listed w) es ls -> forall s, try_each (visit f w) s es = try_each f s (concat ls).
    Proof.
      induction 1 as [|e l es ls H Hr IH]; intros s; cbn; [reflexivity|]. rewrite try_each_app, <- (visit_listed f w e l H).
      destruct (visit f w s e) as [s1 [b|]]; auto.
    Qed.
  End Walk.

  Lemma listed_total w (e : E) : exists l, listed w e l.
  Proof.
    induction e as [name id|k|l (ls & Hl) o r (rs & Hr)|e (l & Hl)]; destruct w; eexists; constructor; eauto.
  Qed.
  Lemma listed_unique w (e : E) l : listed w e l -> forall l', listed w e l' -> l = l'.
  Proof.
    induction 1 as [w name id|w k|l o r ls rs Hl IHl Hr IHr|l o r ls rs Hl IHl Hr IHr|e l Hl IHl|e l Hl IHl]; intros l' H'; inversion H'; subst; f_equal; auto;
      try (f_equal; auto); f_equal; auto.
  Qed.
  Lemma listed_parts w (e : E) l : listed w e l -> forall x, In x l <-> part_of x e.
  Proof.
    induction 1 as [w name id|w k|l o r ls rs Hl IHl Hr IHr|l o r ls rs Hl IHl Hr IHr|e l Hl IHl|e l Hl IHl]; intros x.
    - split; [intros [<- | []]; constructor|]. intros H. inversion H; subst. now left.
    - split; [intros [<- | []]; constructor|]. intros H. inversion H; subst. now left.
    - cbn. rewrite in_app_iff, IHl, IHr. split; [intros [<- | [H|H]]; now constructor|]. intros H. inversion H; subst; auto.
    - rewrite !in_app_iff, IHl, IHr. cbn. split; [intros [H|[H|[<- | []]]]; now constructor|]. intros H. inversion H; subst; auto.
    - cbn. rewrite IHl. split; [intros [<- | H]; now constructor|]. intros H. inversion H; subst; auto.
    - rewrite in_app_iff, IHl. cbn. split; [intros [H|[<- | []]]; now constructor|]. intros H. inversion H; subst; auto.
  Qed.
  Lemma all_children_listed (e : E) : listed Pre e (all_children e).
  Proof. induction e; cbn; now constructor. Qed.

  (** ** Rewriting *)
  Lemma put_same (e : E) : put_children e (children e) = e.
  Proof. now destruct e. Qed.
  Section Mut.
    Context {St B : Type}.
    Implicit Types (f : St -> E -> St * E * option B).
    Lemma try_each_mut_mono {A} (f f' : St -> A -> option (St * A * option B)) l : (forall s a r, f s a = Some r -> f' s a = Some r) ->
      forall s r, try_each_mut f s l = Some r -> try_each_mut f' s l = Some r.
    Proof.
      intros M. induction l as [|a l IH]; intros s r; cbn; [auto|]. destruct (f s a) as [[[s1 a1] b1]|] eqn:Ef; [|discriminate]. rewrite (M _ _ _ Ef).
      destruct b1; [auto|]. destruct (try_each_mut f s1 l) as [[[s2 l1] b2]|] eqn:Et; [|discriminate]. now rewrite (IH _ _ Et).
    Qed.
    Lemma visit_mut_mono n f w : forall k s e r, visit_mut n f w s e = Some r -> n <= k -> visit_mut k f w s e = Some r.
    Proof.
      induction n as [|n IH]; intros [|k] s e r H L; try discriminate; try lia. cbn in H |- *.
      destruct (match w with Pre => f s e | Post => _ end) as [[s1 e1] [b|]]; [auto|].
      destruct (try_each_mut (visit_mut n f w) s1 (children e1)) as [[[s2 l] b2]|] eqn:Et; [|discriminate].
      rewrite (try_each_mut_mono (visit_mut n f w) (visit_mut k f w) (children e1)) with (r := (s2, l, b2)); auto.
      intros s0 a r0 H0. eapply IH; eauto. lia.
    Qed.
    (** Post-order always ends. *)
    Lemma try_each_mut_total {A} (g : St -> A -> option (St * A * option B)) l : (forall s a, In a l -> exists r, g s a = Some r) ->
      forall s, exists r, try_each_mut g s l = Some r /\ length (snd (fst r)) = length l.
    Proof.
      induction l as [|a l IH]; intros H s; cbn; [eexists; split; reflexivity|]. destruct (H s a) as [[[s1 a1] b1] ->]; [now left|].
      destruct b1; [eexists; split; reflexivity|]. destruct (IH ltac:(intros; apply H; now right) s1) as [[[s2 l1] b2] [-> L]]. eexists. split; [reflexivity|]. cbn in L |- *. congruence.
    Qed.
    Lemma post_total f n : forall s (e : E), height e < n -> exists r, visit_mut n f Post s e = Some r.
    Proof.
      induction n as [|n IH]; intros s e H; [lia|]. cbn.
      destruct (try_each_mut_total (visit_mut n f Post) (children e)) with (s := s) as [[[s2 l] b2] [-> _]].
      - intros s0 a Ha. apply IH. destruct e; cbn in Ha, H; try contradiction.
        + destruct Ha as [<- | [<- | []]]; lia.
        + destruct Ha as [<- | []]; lia.
      - destruct b2; eauto.
    Qed.
    (** A callback that changes nothing. *)
    Lemma unchanged (f : St -> E -> St * option B) w n : forall s (e : E), height e < n ->
      visit_mut n (fun s e => (fst (f s e), e, snd (f s e))) w s e = Some (fst (visit f w s e), e, snd (visit f w s e)).
    Proof.
      set (g := fun s e => (fst (f s e), e, snd (f s e))).
      induction n as [|n IH]; intros s e H; [lia|]. destruct e as [name id|k|l o r|e]; cbn [height] in H.
      - cbn. destruct w; unfold g; cbn; destruct (f s _) as [s1 [b|]]; reflexivity.
      - cbn. destruct w; unfold g; cbn; destruct (f s _) as [s1 [b|]]; reflexivity.
      - destruct w; cbn [visit_mut visit].
        + unfold g at 1. destruct (f s (NBin l o r)) as [s1 [b|]]; cbn [fst snd]; [reflexivity|]. cbn [children try_each_mut]. rewrite IH by lia.
          destruct (visit f Pre s1 l) as [s2 [b|]]; cbn [fst snd]; [reflexivity|]. rewrite IH by lia. destruct (visit f Pre s2 r) as [s3 [b|]]; reflexivity.
        + cbn [children try_each_mut]. rewrite IH by lia. destruct (visit f Post s l) as [s2 [b|]]; cbn [fst snd]; [reflexivity|]. rewrite IH by lia.
          destruct (visit f Post s2 r) as [s3 [b|]]; cbn [fst snd]; [reflexivity|]. reflexivity.
      - destruct w; cbn [visit_mut visit].
        + unfold g at 1. destruct (f s (NNeg e)) as [s1 [b|]]; cbn [fst snd]; [reflexivity|]. cbn [children try_each_mut]. rewrite IH by lia.
          destruct (visit f Pre s1 e) as [s2 [b|]]; reflexivity.
        + cbn [children try_each_mut]. rewrite IH by lia. destruct (visit f Post s e) as [s2 [b|]]; reflexivity.
    Qed.
    (** A callback that changes leaves into leaves. *)
    Definition only_leaves f : Prop := forall s e, (leaf e -> leaf (snd (fst (f s e)))) /\ (~ leaf e -> f s e = (s, e, None)).
    Lemma same_shape_refl (e : E) : same_shape e e.
    Proof. induction e; cbn; auto. Qed.
    Lemma leaves_one (e : E) : leaf e -> leaves e = [e].
    Proof. now destruct e. Qed.
    Lemma leaves_leaf (e x : E) : In x (leaves e) -> leaf x.
    Proof. induction e; cbn; intros H; auto; try (now destruct H as [<- | []]). apply in_app_iff in H. tauto. Qed.
    Lemma changes_app {A} (f : St -> A -> St * A * option B) l r : forall s s1 l1 s2 r1 b, changes f s l s1 l1 None -> changes f s1 r s2 r1 b ->
      changes f s (l ++ r) s2 (l1 ++ r1) b.
    Proof.
      induction l as [|a l IH]; intros s s1 l1 s2 r1 b H1 H2.
      - inversion H1; subst. exact H2.
      - inversion H1; subst. cbn. eapply changes_on; eauto.
    Qed.
    Lemma changes_app_break {A} (f : St -> A -> St * A * option B) l r : forall s s1 l1 b, changes f s l s1 l1 (Some b) ->
      changes f s (l ++ r) s1 (l1 ++ r) (Some b).
    Proof.
      induction l as [|a l IH]; intros s s1 l1 b H1.
      - inversion H1.
      - inversion H1; subst; cbn; [now constructor|eapply changes_on; eauto].
    Qed.
    Lemma on_leaf f w s (e : E) : only_leaves f -> leaf e -> forall n, visit_mut (S n) f w s e = Some (f s e).
    Proof.
      intros O L n. pose proof (proj1 (O s e) L) as L'. cbn. destruct w.
      - destruct (f s e) as [[s1 e1] [b|]]; cbn in L' |- *; [reflexivity|]. now destruct e1.
      - destruct e; cbn in L; try contradiction; cbn; now destruct (f s _) as [[s1 e1] b].
    Qed.
    Lemma change_leaf f s (e : E) : only_leaves f -> leaf e ->
      exists s' e' b, f s e = (s', e', b) /\ same_shape e e' /\ changes f s (leaves e) s' (leaves e') b.
    Proof.
      intros O L. pose proof (proj1 (O s e) L) as L'. destruct (f s e) as [[s1 e1] b] eqn:Ef. exists s1, e1, b. split; [reflexivity|]. cbn in L'.
      split; [destruct e, e1; cbn in *; tauto|]. rewrite !leaves_one by auto. destruct b; [now constructor|eapply changes_on; [exact Ef|constructor]].
    Qed.
    Lemma change_leaves f w n : only_leaves f -> forall s (e : E), height e < n ->
      exists s' e' b, visit_mut n f w s e = Some (s', e', b) /\ same_shape e e' /\ changes f s (leaves e) s' (leaves e') b.
    Proof.
      intros O. induction n as [|n IH]; intros s e H; [lia|]. destruct e as [name id|k|l o r|e]; cbn [height] in H.
      - destruct (change_leaf f s (NRef name id) O I) as (s' & e' & b & Hf & Hr). exists s', e', b. rewrite (on_leaf f w s (NRef name id) O I), Hf. auto.
      - destruct (change_leaf f s (NNum k) O I) as (s' & e' & b & Hf & Hr). exists s', e', b. rewrite (on_leaf f w s (NNum k) O I), Hf. auto.
      - assert (Hf : forall s' l' r', f s' (NBin l' o r') = (s', NBin l' o r', None)) by (intros; apply (proj2 (O _ _)); cbn; auto).
        destruct (IH s l ltac:(lia)) as (s1 & l1 & b1 & Hl & Sl & Cl). cbn [visit_mut].
        assert (E0 : match w with Pre => f s (NBin l o r) | Post => (s, NBin l o r, None) end = (s, NBin l o r, None)) by (destruct w; auto). rewrite E0.
        cbn [children try_each_mut]. rewrite Hl. destruct b1 as [b1|].
        + exists s1, (NBin l1 o r), (Some b1). cbn. split; [reflexivity|]. split; [split; [exact Sl|split; [reflexivity|apply same_shape_refl]]|]. now apply changes_app_break.
        + destruct (IH s1 r ltac:(lia)) as (s2 & r1 & b2 & Hr & Sr & Cr). rewrite Hr. exists s2, (NBin l1 o r1), b2.
          cbn [put_children same_shape leaves]. split; [|split; [auto|eapply changes_app; eauto]]. destruct b2; cbn; [reflexivity|]. destruct w; [reflexivity|]. now rewrite Hf.
      - assert (Hf : forall s' e', f s' (NNeg e') = (s', NNeg e', None)) by (intros; apply (proj2 (O _ _)); cbn; auto).
        destruct (IH s e ltac:(lia)) as (s1 & e1 & b1 & He & Se & Ce). cbn [visit_mut].
        assert (E0 : match w with Pre => f s (NNeg e) | Post => (s, NNeg e, None) end = (s, NNeg e, None)) by (destruct w; auto). rewrite E0.
        cbn [children try_each_mut]. rewrite He. exists s1, (NNeg e1), b1. cbn [same_shape leaves]. split; [|auto]. destruct b1; cbn; [reflexivity|]. destruct w; [reflexivity|]. now rewrite Hf.
    Qed.
  End Mut.
End Facts.
