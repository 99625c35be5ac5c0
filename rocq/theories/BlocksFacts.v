From Coq Require Import Arith NArith Bool List Lia ZifyBool ZifyNat ZifyN Sorted Permutation.
From Verif Require Import BlocksModel BlocksSpec.
Import ListNotations.

Section Detection.
  Context {I : Type} (is_branching is_allowed : I -> bool) (jumpdest : N -> bool) (base step : N).
  Local Notation pc := (index_to_pc base step).
  Local Notation collect := (collect_from is_branching is_allowed jumpdest base step).
  Definition block_good (k : nat) (b : bblock I) : Prop :=
    instrs b <> [] /\ start_pc b = pc k /\
    (forall j x, nth_error (instrs b) j = Some x ->
      (jumpdest (pc (k + j)) = true -> j = 0) /\
      (is_branching x = true -> S j = length (instrs b)) /\
      (is_allowed x = false -> instrs b = [x])).
  Fixpoint blocks_good (k : nat) (bs : list (bblock I)) : Prop :=
    match bs with [] => True | b :: r => block_good k b /\ blocks_good (k + length (instrs b)) r end.
  (** A boundary between two blocks has a reason. *)
  Definition boundary_ok (k : nat) (x y : I) : Prop :=
    is_allowed x = false \/ is_branching x = true \/ is_allowed y = false \/ jumpdest (pc k) = true.
  (** State of the current block. *)
  Definition cur_ok (i : nat) (p0 : N) (cur : list I) : Prop :=
    length cur <= i /\ p0 = pc (i - length cur) /\
    forall j x, nth_error cur j = Some x ->
      is_allowed x = true /\ is_branching x = false /\ (jumpdest (pc (i - length cur + j)) = true -> j = 0).
  Lemma cur_ok_nil i : cur_ok i (pc i) [].
  Proof. split; [cbn; lia|]. split; [cbn; f_equal; lia|]. intros [|j] x; discriminate. Qed.
  Lemma cur_ok_snoc i p0 cur x : cur_ok i p0 cur -> is_allowed x = true -> is_branching x = false -> (jumpdest (pc i) = true -> cur = []) ->
    cur_ok (S i) p0 (cur ++ [x]).
  Proof.
    intros (H1 & H2 & H3) Ha Hb Hj. split; [rewrite app_length; cbn; lia|]. rewrite app_length. cbn [length].
    replace (S i - (length cur + 1)) with (i - length cur) by lia. split; auto. intros j y Hy.
    destruct (Nat.lt_ge_cases j (length cur)).
    - rewrite nth_error_app1 in Hy by lia. auto.
    - rewrite nth_error_app2 in Hy by lia. destruct (j - length cur) as [|q] eqn:E; [|destruct q; discriminate]. injection Hy as <-.
      split; auto. split; auto. replace (i - length cur + j) with i by lia. intros Z. rewrite (Hj Z) in *. cbn in *. lia.
  Qed.
  Lemma cur_block i p0 cur : cur_ok i p0 cur -> cur <> [] -> block_good (i - length cur) (mkBB p0 cur).
  Proof.
    intros (H1 & H2 & H3) Hn. split; [exact Hn|]. split; [exact H2|]. cbn [instrs]. intros j x Hx. destruct (H3 j x Hx) as (A & B & C).
    split; [exact C|]. split; congruence.
  Qed.
  Lemma flush_good i p0 cur rest : cur_ok i p0 cur -> blocks_good i rest -> blocks_good (i - length cur) (flush p0 cur ++ rest).
  Proof.
    intros H Hr. destruct cur as [|x cur].
    - cbn. now rewrite Nat.sub_0_r.
    - cbn [flush app blocks_good]. split; [apply cur_block; auto; discriminate|]. cbn [instrs]. destruct H as [H _].
      replace (i - length (x :: cur) + length (x :: cur)) with i by lia. exact Hr.
  Qed.
  Lemma flush_instrs p0 (cur : list I) : flat_map instrs (flush p0 cur) = cur.
  Proof. destruct cur; cbn; auto. now rewrite app_nil_r. Qed.
  Lemma collect_ok is : forall i p0 cur, cur_ok i p0 cur ->
    flat_map instrs (collect i p0 cur is) = cur ++ is /\ blocks_good (i - length cur) (collect i p0 cur is).
  Proof.
    induction is as [|x r IH]; intros i p0 cur H; cbn [collect_from].
    - split; [rewrite flush_instrs; now rewrite app_nil_r|]. rewrite <- (app_nil_r (flush p0 cur)). apply flush_good; [auto|exact Logic.I].
    - destruct (is_allowed x) eqn:Ea; cbn [negb].
      + destruct (jumpdest (pc i)) eqn:Ej.
        * cbn [app]. destruct (is_branching x) eqn:Eb.
          -- destruct (IH (S i) _ [] (cur_ok_nil (S i))) as [A B]. rewrite flat_map_app, flush_instrs. cbn [flat_map instrs]. rewrite A. split; [reflexivity|].
             apply flush_good; auto. cbn [blocks_good instrs length]. split.
             ++ split; [discriminate|]. split; [reflexivity|]. cbn [instrs]. intros [|j] y Hy; [|destruct j; discriminate]. injection Hy as <-. auto.
             ++ cbn [length] in B. replace (i + 1) with (S i - 0) by lia. exact B.
          -- assert (C : cur_ok (S i) (pc i) [x]).
             { apply (cur_ok_snoc i (pc i) []); auto. apply cur_ok_nil. }
             destruct (IH (S i) _ [x] C) as [A B]. rewrite flat_map_app, flush_instrs, A. split; [reflexivity|]. apply flush_good; auto. cbn [length] in B.
             replace i with (S i - 1) at 1 by lia. exact B.
        * cbn [app]. destruct (is_branching x) eqn:Eb.
          -- destruct (IH (S i) _ [] (cur_ok_nil (S i))) as [A B]. cbn [flat_map instrs]. rewrite A, <- app_assoc. split; [reflexivity|].
             cbn [blocks_good instrs length]. rewrite app_length. cbn [length]. destruct H as (H1 & H2 & H3). split.
             ++ split; [cbn [instrs]; destruct cur; discriminate|]. split; [exact H2|]. cbn [instrs]. intros j y Hy.
                destruct (Nat.lt_ge_cases j (length cur)) as [L|L].
                ** rewrite nth_error_app1 in Hy by lia. destruct (H3 j y Hy) as (D1 & D2 & D3). split; auto. split; congruence.
                ** rewrite nth_error_app2 in Hy by lia. destruct (j - length cur) as [|q] eqn:E; [|destruct q; discriminate]. injection Hy as <-.
                   rewrite app_length. cbn [length]. replace (i - length cur + j) with i by lia. split; [congruence|]. split; [lia|congruence].
             ++ cbn [length] in B. replace (i - length cur + (length cur + 1)) with (S i - 0) by lia. exact B.
          -- assert (C : cur_ok (S i) p0 (cur ++ [x])) by (apply cur_ok_snoc; auto; congruence).
             destruct (IH (S i) _ _ C) as [A B]. rewrite A, <- app_assoc. split; [reflexivity|]. rewrite app_length in B. cbn [length] in B.
             replace (S i - (length cur + 1)) with (i - length cur) in B by lia. exact B.
      + destruct (IH (S i) _ [] (cur_ok_nil (S i))) as [A B]. rewrite flat_map_app, flush_instrs. cbn [flat_map instrs]. rewrite A. split; [reflexivity|].
        apply flush_good; auto. cbn [blocks_good instrs length]. split.
        * split; [discriminate|]. split; [reflexivity|]. cbn [instrs]. intros [|j] y Hy; [|destruct j; discriminate]. injection Hy as <-. auto.
        * cbn [length] in B. replace (i + 1) with (S i - 0) by lia. exact B.
  Qed.
  (** Adjacent blocks: no needless boundary. *)
  Fixpoint tight (k : nat) (bs : list (bblock I)) : Prop :=
    match bs with
    | b :: ((c :: _) as r) => (exists x y, (exists l, instrs b = l ++ [x]) /\ (exists l, instrs c = y :: l) /\ boundary_ok (k + length (instrs b)) x y) /\
                              tight (k + length (instrs b)) r
    | _ => True
    end.
  Lemma tight_cons k b r : blocks_good (k + length (instrs b)) r -> tight (k + length (instrs b)) r ->
    (forall y l, flat_map instrs r = y :: l -> exists x l', instrs b = l' ++ [x] /\ boundary_ok (k + length (instrs b)) x y) -> tight k (b :: r).
  Proof.
    intros G T H. destruct r as [|c r]; [exact Logic.I|]. cbn [blocks_good] in G. destruct G as [[Gn _] _]. cbn [tight]. split; [|exact T].
    destruct (instrs c) as [|y l] eqn:E; [congruence|]. cbn [flat_map] in H. rewrite E in H. destruct (H y (l ++ flat_map instrs r) eq_refl) as (x & l' & A & B).
    exists x, y. split; [eauto|]. split; [eauto|exact B].
  Qed.
  Lemma flush_tight i p0 cur rest : cur_ok i p0 cur -> blocks_good i rest -> tight i rest ->
    (forall y l, flat_map instrs rest = y :: l -> forall x, boundary_ok i x y) -> tight (i - length cur) (flush p0 cur ++ rest).
  Proof.
    intros H G T B. destruct cur as [|x cur]; cbn [flush app].
    - now rewrite Nat.sub_0_r.
    - destruct H as [H _]. assert (E : i - length (x :: cur) + length (x :: cur) = i) by lia.
      apply tight_cons; cbn [instrs]; rewrite ?E; auto. intros y l Hy. destruct (exists_last (l := x :: cur)) as (l' & z & Ez); [discriminate|].
      exists z, l'. split; auto. eapply B; eauto.
  Qed.
  Lemma collect_tight is : forall i p0 cur, cur_ok i p0 cur -> tight (i - length cur) (collect i p0 cur is).
  Proof.
    induction is as [|x r IH]; intros i p0 cur H; cbn [collect_from].
    - destruct cur; exact Logic.I.
    - pose proof (collect_ok r (S i) _ [] (cur_ok_nil (S i))) as [F0 G0]. pose proof (IH (S i) _ [] (cur_ok_nil (S i))) as T0. cbn [length app] in F0, G0, T0.
      replace (S i - 0) with (i + 1) in G0, T0 by lia.
      destruct (is_allowed x) eqn:Ea; cbn [negb].
      + destruct (jumpdest (pc i)) eqn:Ej.
        * cbn [app]. destruct (is_branching x) eqn:Eb.
          -- apply flush_tight; auto.
             ++ pose proof (collect_ok (x :: r) i (pc i) [] (cur_ok_nil i)) as [_ G]. cbn [collect_from length] in G. rewrite Ea, Ej, Eb in G. cbn [negb flush app] in G. now rewrite Nat.sub_0_r in G.
             ++ apply tight_cons; cbn [instrs length]; auto. intros y l _. exists x, []. split; auto. right. now left.
             ++ intros. right. right. now right.
          -- assert (C : cur_ok (S i) (pc i) [x]). { apply (cur_ok_snoc i (pc i) []); auto. apply cur_ok_nil. }
             pose proof (collect_ok r (S i) _ [x] C) as [F1 G1]. pose proof (IH (S i) _ [x] C) as T1. cbn [length] in G1, T1. replace (S i - 1) with i in G1, T1 by lia.
             apply flush_tight; auto. intros. right. right. now right.
        * cbn [app]. destruct (is_branching x) eqn:Eb.
          -- destruct H as [H _]. assert (E : i - length cur + length (cur ++ [x]) = i + 1) by (rewrite app_length; cbn; lia).
             apply tight_cons; cbn [instrs]; rewrite ?E; auto. intros y l _. exists x, cur. split; auto. right. now left.
          -- assert (C : cur_ok (S i) p0 (cur ++ [x])) by (apply cur_ok_snoc; auto; congruence).
             pose proof (IH (S i) _ _ C) as T1. rewrite app_length in T1. cbn [length] in T1. replace (S i - (length cur + 1)) with (i - length cur) in T1 by lia. exact T1.
      + apply flush_tight; auto.
        * pose proof (collect_ok (x :: r) i (pc i) [] (cur_ok_nil i)) as [_ G]. cbn [collect_from length] in G. rewrite Ea in G. cbn [negb flush app] in G. now rewrite Nat.sub_0_r in G.
        * apply tight_cons; cbn [instrs length]; auto. intros y l _. exists x, []. split; auto. now left.
        * intros y l Hy z. cbn [flat_map instrs app] in Hy. injection Hy as <- _. right. right. now left.
  Qed.
End Detection.

(** ** Occurrences *)
Lemma pcs_eqb_eq a b : pcs_eqb a b = true <-> a = b.
Proof.
  revert b. induction a as [|x a IH]; intros [|y b]; cbn [pcs_eqb]; split; intros H; try congruence; auto.
  - apply andb_true_iff in H. destruct H as [H1 H2]. apply N.eqb_eq in H1. apply IH in H2. congruence.
  - injection H as -> ->. rewrite N.eqb_refl. now apply IH.
Qed.
Lemma occurs_at_slice (needle hay : list N) i : i + length needle <= length hay -> (occurs_at needle hay i <-> firstn (length needle) (skipn i hay) = needle).
Proof.
  intros L. split.
  - intros (a & b & -> & <-). rewrite skipn_app, skipn_all, Nat.sub_diag. cbn [app skipn]. rewrite firstn_app, firstn_all, Nat.sub_diag. cbn. apply app_nil_r.
  - intros H. exists (firstn i hay), (skipn (length needle) (skipn i hay)). split; [|rewrite firstn_length; lia]. rewrite <- H at 1. rewrite firstn_skipn. symmetry. apply firstn_skipn.
Qed.
Lemma occurs_at_bound {A} (needle hay : list A) i : occurs_at needle hay i -> i + length needle <= length hay.
Proof. intros (a & b & -> & <-). rewrite !app_length. lia. Qed.
Lemma find_loop_ok hay needle : needle <> [] -> forall fuel pos, length hay < pos + fuel ->
  exists l, find_loop fuel pos hay needle = Some l /\ disjoint_occurrences needle hay l /\ Forall (fun i => pos <= i) l /\
  (forall q, occurs_at needle hay q -> pos <= q -> exists i, In i l /\ i <= q < i + length needle) /\
  (forall qs, disjoint_occurrences needle hay qs -> Forall (fun i => pos <= i) qs -> length qs <= length l).
Proof.
  intros Hn. assert (L0 : 0 < length needle) by (destruct needle; [congruence|cbn; lia]).
  induction fuel as [|fuel IH]; intros pos Hf; cbn [find_loop].
  - destruct (Nat.leb_spec (pos + length needle) (length hay)); [lia|]. exists []. split; auto. split; [split; constructor|]. split; [constructor|]. split.
    + intros q Hq Hp. apply occurs_at_bound in Hq. lia.
    + intros [|q qs] [_ Hq] Hp; [cbn; lia|]. inversion Hq; subst. inversion Hp; subst. apply occurs_at_bound in H2. lia.
  - destruct (Nat.leb_spec (pos + length needle) (length hay)) as [L|L].
    + destruct (pcs_eqb (firstn (length needle) (skipn pos hay)) needle) eqn:E.
      * apply pcs_eqb_eq in E. apply (occurs_at_slice needle hay pos L) in E. destruct (IH (pos + length needle)) as (l & -> & [A1 A2] & B & C & D); [lia|].
        exists (pos :: l). split; auto. split; [split; constructor; auto|]. split; [|split].
        -- constructor; [lia|]. eapply Forall_impl; [|exact B]. cbn. lia.
        -- intros q Hq Hp. destruct (Nat.lt_ge_cases q (pos + length needle)); [exists pos; split; [now left|lia]|]. destruct (C q Hq) as (i & Hi & Hi'); [lia|]. exists i. split; [now right|auto].
        -- intros [|q qs] [S Hq] Hp; [cbn; lia|]. cbn [length]. apply le_n_S. inversion S as [|? ? S1 S2]; subst. inversion Hq; subst. inversion Hp; subst. apply D; [split; auto|].
           eapply Forall_impl; [|exact S2]. cbn. lia.
      * destruct (IH (pos + 1)) as (l & -> & A & B & C & D); [lia|]. exists l. split; auto. split; auto.
        assert (X : ~ occurs_at needle hay pos). { intros X. apply (occurs_at_slice needle hay pos L) in X. apply pcs_eqb_eq in X. congruence. }
        split; [|split].
        -- eapply Forall_impl; [|exact B]. cbn. lia.
        -- intros q Hq Hp. apply C; auto. destruct (Nat.eq_dec q pos); [subst; tauto|lia].
        -- intros qs [S Hq] Hp. apply D; [split; auto|]. clear - X Hp Hq. rewrite Forall_forall in *. intros q Hq'. specialize (Hp q Hq'). specialize (Hq q Hq'). destruct (Nat.eq_dec q pos); [subst; tauto|lia].
    + exists []. split; auto. split; [split; constructor|]. split; [constructor|]. split.
      * intros q Hq Hp. apply occurs_at_bound in Hq. lia.
      * intros [|q qs] [_ Hq] Hp; [cbn; lia|]. inversion Hq; subst. inversion Hp; subst. apply occurs_at_bound in H1. lia.
Qed.
Lemma find_ok hay needle : needle <> [] -> exists l, find_non_overlapping hay needle = Some l /\ disjoint_occurrences needle hay l /\
  (forall q, occurs_at needle hay q -> exists i, In i l /\ i <= q < i + length needle) /\
  (forall qs, disjoint_occurrences needle hay qs -> length qs <= length l).
Proof.
  intros Hn. destruct (find_loop_ok hay needle Hn (S (length hay)) 0) as (l & A & B & _ & C & D); [lia|]. exists l. split; [exact A|]. split; auto. split.
  - intros q Hq. apply C; auto. lia.
  - intros qs Hq. apply D; auto. apply Forall_forall. intros; lia.
Qed.
Lemma max_disjoint_fun {A} (needle hay : list A) n k : max_disjoint needle hay n -> max_disjoint needle hay k -> n = k.
Proof. intros [(l & A1 & <-) A2] [(l' & B1 & <-) B2]. specialize (A2 _ B1). specialize (B2 _ A1). lia. Qed.
Lemma count_in_ok run sb : sb <> [] -> exists k, max_disjoint sb run k /\ count_in run sb = N.of_nat k.
Proof.
  intros H. destruct (find_ok run sb H) as (l & E & A & _ & B). exists (length l). split; [split; eauto|]. unfold count_in. now rewrite E.
Qed.
Lemma count_in_pos run sb : sb <> [] -> (contiguous sb run <-> (count_in run sb <> 0)%N).
Proof.
  intros H. destruct (find_ok run sb H) as (l & E & A & C & B). unfold count_in. rewrite E. split.
  - intros (a & b & ->). destruct (C (length a)) as (i & Hi & _); [now exists a, b|]. destruct l; [destruct Hi|cbn; lia].
  - intros Hl. destruct l as [|i l]; [cbn in Hl; lia|]. destruct A as [_ A]. inversion A as [|? ? (a & b & X & _) _]; subst. exists a, b. reflexivity.
Qed.

(** ** Maps *)
Lemma pcs_cmp_eq a b : pcs_cmp a b = Eq <-> a = b.
Proof.
  revert b. induction a as [|x a IH]; intros [|y b]; cbn [pcs_cmp]; split; intros H; try congruence; auto.
  - destruct (N.compare_spec x y); try discriminate. apply IH in H. congruence.
  - injection H as -> ->. rewrite N.compare_refl. now apply IH.
Qed.
Lemma pcs_cmp_opp a b : pcs_cmp b a = CompOpp (pcs_cmp a b).
Proof.
  revert b. induction a as [|x a IH]; intros [|y b]; cbn [pcs_cmp]; auto. rewrite (N.compare_antisym x y). destruct (N.compare x y); cbn; auto.
Qed.
Lemma pcs_cmp_trans a b c : pcs_cmp a b = Lt -> pcs_cmp b c = Lt -> pcs_cmp a c = Lt.
Proof.
  revert b c. induction a as [|x a IH]; intros [|y b] [|z c]; cbn [pcs_cmp]; try congruence; auto.
  destruct (N.compare_spec x y); destruct (N.compare_spec y z); destruct (N.compare_spec x z); intros; try discriminate; try (exfalso; lia); auto.
  eapply IH; eauto.
Qed.
Definition keys (m : list (list N * N)) : list (list N) := map fst m.
Definition total (k : list N) (m : list (list N * N)) : N := fold_right (fun kn acc => if pcs_eqb k (fst kn) then snd kn + acc else acc)%N 0%N m.
Definition wsum (f : list N -> N) (m : list (list N * N)) : N := fold_right (fun kn acc => snd kn * f (fst kn) + acc)%N 0%N m.
Definition sorted (m : list (list N * N)) : Prop := StronglySorted (fun a b => pcs_cmp (fst a) (fst b) = Lt) m.
Lemma bt_keys k n m k' : In k' (keys (bt_add k n m)) <-> k' = k \/ In k' (keys m).
Proof.
  induction m as [|[j c] m IH]; cbn [bt_add]; [cbn; intuition|]. destruct (pcs_cmp k j) eqn:E.
  - apply pcs_cmp_eq in E. subst j. cbn. intuition.
  - cbn. intuition.
  - cbn. cbn in IH. rewrite IH. intuition.
Qed.
Lemma bt_wsum f k n m : wsum f (bt_add k n m) = (n * f k + wsum f m)%N.
Proof.
  induction m as [|[j c] m IH]; cbn [bt_add]; [cbn; lia|]. destruct (pcs_cmp k j) eqn:E.
  - apply pcs_cmp_eq in E. subst j. cbn. lia.
  - reflexivity.
  - unfold wsum in *. cbn [fold_right fst snd]. rewrite IH. lia.
Qed.
Lemma total_wsum k m : total k m = wsum (fun j => if pcs_eqb k j then 1 else 0)%N m.
Proof. unfold total, wsum. induction m as [|[j c] m IH]; cbn [fold_right fst snd]; auto. rewrite IH. destruct (pcs_eqb k j); lia. Qed.
Lemma bt_sorted k n m : sorted m -> sorted (bt_add k n m).
Proof.
  induction m as [|[j c] m IH]; intros H; cbn [bt_add]; [repeat constructor|]. inversion H as [|? ? H1 H2]; subst. destruct (pcs_cmp k j) eqn:E.
  - constructor; auto.
  - constructor; auto. constructor; [exact E|]. eapply Forall_impl; [|exact H2]. cbn. intros a Ha. eapply pcs_cmp_trans; eauto.
  - constructor; [now apply IH|]. apply Forall_forall. intros [k' n'] Hk. assert (X : In k' (keys (bt_add k n m))) by (apply in_map_iff; exists (k', n'); auto).
    apply bt_keys in X. cbn [fst]. destruct X as [->|X]; [rewrite pcs_cmp_opp, E; reflexivity|]. apply in_map_iff in X. destruct X as (kn & <- & X). rewrite Forall_forall in H2. now apply (H2 kn).
Qed.
Lemma sorted_nodup m : sorted m -> NoDup (keys m).
Proof.
  induction 1 as [|a l H1 IH H2]; cbn; constructor; auto. intros X. apply in_map_iff in X. destruct X as (b & E & X). rewrite Forall_forall in H2. specialize (H2 b X). cbn in H2.
  rewrite E in H2. rewrite (proj2 (pcs_cmp_eq (fst a) (fst a)) eq_refl) in H2. discriminate.
Qed.
Lemma total_notin k m : ~ In k (keys m) -> total k m = 0%N.
Proof.
  induction m as [|[j c] m IH]; intros H; cbn; auto. destruct (pcs_eqb k j) eqn:E; [apply pcs_eqb_eq in E; subst; exfalso; apply H; now left|]. apply IH. intros X. apply H. now right.
Qed.
Lemma in_total k n m : NoDup (keys m) -> (In (k, n) m <-> In k (keys m) /\ n = total k m).
Proof.
  induction m as [|[j c] m IH]; intros H; [cbn; tauto|]. inversion H as [|? ? H1 H2]; subst. specialize (IH H2). unfold keys. cbn [map In fst total fold_right snd]. fold (total k m). fold (keys m).
  destruct (pcs_eqb k j) eqn:E.
  - apply pcs_eqb_eq in E. subst j. rewrite (total_notin k m) by auto. split.
    + intros [X|X]; [injection X as <-; split; [now left|lia]|]. exfalso. apply H1. apply in_map_iff. exists (k, n). auto.
    + intros [_ ->]. left. f_equal. lia.
  - assert (j <> k) by (intros ->; rewrite (proj2 (pcs_eqb_eq k k) eq_refl) in E; discriminate). split.
    + intros [X|X]; [congruence|]. apply IH in X. tauto.
    + intros [[X|X] Y]; [congruence|]. right. apply IH. auto.
Qed.
Lemma fold_bt_keys (f : list N * N -> N) l m k : In k (keys (fold_left (fun m kn => bt_add (fst kn) (f kn) m) l m)) <-> In k (keys l) \/ In k (keys m).
Proof.
  revert m. induction l as [|[j c] l IH]; intros m; cbn [fold_left keys map In fst]; [tauto|]. rewrite IH, bt_keys. cbn. intuition.
Qed.
Lemma fold_bt_sorted (f : list N * N -> N) l m : sorted m -> sorted (fold_left (fun m kn => bt_add (fst kn) (f kn) m) l m).
Proof. revert m. induction l as [|[j c] l IH]; intros m H; cbn [fold_left]; auto. apply IH. now apply bt_sorted. Qed.
Lemma merge_wsum f a b : wsum f (merge_counts a b) = (wsum f a + wsum f b)%N.
Proof.
  unfold merge_counts. revert a. induction b as [|[j c] b IH]; intros a; cbn [fold_left fst snd]; [cbn; lia|]. rewrite IH, bt_wsum. unfold wsum. cbn [fold_right fst snd]. lia.
Qed.

Lemma in_windows len l w : 1 <= len -> (In w (windows len l) <-> length w = len /\ contiguous w l).
Proof.
  intros L. unfold windows. rewrite in_map_iff. split.
  - intros (i & <- & Hi). apply in_seq in Hi. assert (Lw : length (firstn len (skipn i l)) = len) by (rewrite firstn_length, skipn_length; lia). split; auto.
    exists (firstn i l), (skipn len (skipn i l)). rewrite firstn_skipn. symmetry. apply firstn_skipn.
  - intros (Hl & a & b & ->). exists (length a). rewrite skipn_app, skipn_all, Nat.sub_diag. cbn [app skipn]. rewrite firstn_app, <- Hl, firstn_all, Nat.sub_diag. cbn [firstn]. rewrite app_nil_r.
    split; auto. apply in_seq. rewrite !app_length. lia.
Qed.
Lemma fold_windows_keys l m k : In k (keys (fold_left (fun m w => bt_add w 0 m) l m)) <-> In k l \/ In k (keys m).
Proof. revert m. induction l as [|w l IH]; intros m; cbn [fold_left In]; [tauto|]. rewrite IH, bt_keys. intuition. Qed.
Lemma fold_windows_sorted l m : sorted m -> sorted (fold_left (fun m w => bt_add w 0 m) l m).
Proof. revert m. induction l as [|w l IH]; intros m H; cbn [fold_left]; auto. apply IH. now apply bt_sorted. Qed.
Lemma superblocks_keys run max sb : In sb (keys (superblocks_in_run run max)) <-> sb <> [] /\ length sb <= max /\ contiguous sb run.
Proof.
  unfold superblocks_in_run.
  assert (G : forall ls m, In sb (keys (fold_left (fun m len => fold_left (fun m w => bt_add w 0 m) (windows len run) m) ls m)) <->
            (exists len, In len ls /\ In sb (windows len run)) \/ In sb (keys m)).
  { induction ls as [|len ls IH]; intros m; cbn [fold_left]; [split; [auto|intros [(? & [] & _)|]; auto]|]. rewrite IH, fold_windows_keys. split.
    - intros [(q & A & B)|[A|A]]; auto; left; [exists q|exists len]; cbn; auto.
    - intros [(q & [->|A] & B)|A]; auto. left. eauto. }
  rewrite G. cbn. split.
  - intros [(len & A & B)|[]]. apply in_seq in A. apply in_windows in B; [|lia]. destruct B as [B1 B2]. split; [intros ->; cbn in B1; lia|]. split; auto. lia.
  - intros (A & B & C). left. exists (length sb). split; [|apply in_windows; auto; destruct sb; [congruence|cbn; lia]]. apply in_seq.
    destruct C as (a & b & ->). rewrite !app_length. destruct sb; [congruence|cbn [length] in *; lia].
Qed.
Lemma superblocks_sorted run max : sorted (superblocks_in_run run max).
Proof.
  unfold superblocks_in_run. set (ls := seq _ _). clearbody ls. assert (G : forall m, sorted m -> sorted (fold_left (fun m len => fold_left (fun m w => bt_add w 0 m) (windows len run) m) ls m)).
  { induction ls as [|q ls IH]; intros m H; cbn [fold_left]; auto. apply IH. now apply fold_windows_sorted. }
  apply G. constructor.
Qed.
Lemma csir_keys run max : keys (count_superblocks_in_run run max) = keys (superblocks_in_run run max).
Proof. unfold count_superblocks_in_run, keys. rewrite map_map. reflexivity. Qed.
Lemma csir_total run max sb : sb <> [] -> length sb <= max -> total sb (count_superblocks_in_run run max) = count_in run sb.
Proof.
  intros H1 H2. assert (D : NoDup (keys (count_superblocks_in_run run max))) by (rewrite csir_keys; apply sorted_nodup, superblocks_sorted).
  destruct (in_dec (list_eq_dec N.eq_dec) sb (keys (count_superblocks_in_run run max))) as [X|X].
  - assert (Y : In (sb, count_in run sb) (count_superblocks_in_run run max)).
    { rewrite csir_keys in X. unfold keys in X. apply in_map_iff in X. destruct X as ([k n] & <- & X). apply in_map_iff. exists (k, n). auto. }
    apply in_total in Y; auto. symmetry. tauto.
  - rewrite total_notin by auto. rewrite csir_keys, superblocks_keys in X. destruct (N.eq_dec (count_in run sb) 0) as [->|E]; auto. apply (count_in_pos run sb H1) in E. tauto.
Qed.
Lemma scaled_total (c : N) sb m : total sb (map (fun kn => (fst kn, snd kn * c)%N) m) = (c * total sb m)%N.
Proof. unfold total. induction m as [|[k n] m IH]; cbn [map fold_right fst snd]; [lia|]. rewrite IH. destruct (pcs_eqb sb k); lia. Qed.
Lemma merge_total sb a b : total sb (merge_counts a b) = (total sb a + total sb b)%N.
Proof. rewrite !total_wsum. apply merge_wsum. Qed.
Lemma count_superblocks_ok runs max : sorted (count_superblocks runs max) /\
  (forall sb, In sb (keys (count_superblocks runs max)) <-> sb <> [] /\ length sb <= max /\ Exists (contiguous sb) (keys runs)) /\
  (forall sb, sb <> [] -> length sb <= max -> total sb (count_superblocks runs max) = wsum (fun run => count_in run sb) runs).
Proof.
  unfold count_superblocks.
  assert (G : forall m, sorted m -> let r := fold_left (fun m rn => merge_counts m (map (fun kn => (fst kn, snd kn * snd rn)%N) (count_superblocks_in_run (fst rn) max))) runs m in
    sorted r /\ (forall sb, In sb (keys r) <-> In sb (keys m) \/ (sb <> [] /\ length sb <= max /\ Exists (contiguous sb) (keys runs))) /\
    (forall sb, sb <> [] -> length sb <= max -> total sb r = (total sb m + wsum (fun run => count_in run sb) runs)%N)).
  { induction runs as [|[run c] runs IH]; intros m Hm; cbn [fold_left fst snd].
    - split; auto. split; [intros sb; rewrite Exists_nil; tauto|]. intros. cbn. lia.
    - assert (K : forall k, In k (keys (map (fun kn => (fst kn, snd kn * c)%N) (count_superblocks_in_run run max))) <-> In k (keys (superblocks_in_run run max))).
      { intros k. rewrite <- csir_keys. unfold keys. rewrite map_map. reflexivity. }
      destruct (IH (merge_counts m (map (fun kn => (fst kn, snd kn * c)%N) (count_superblocks_in_run run max)))) as (A & B & C).
      { unfold merge_counts. now apply (fold_bt_sorted snd). }
      split; auto. split.
      + intros sb. rewrite B. unfold merge_counts. rewrite (fold_bt_keys snd), K, superblocks_keys. unfold keys at 4. cbn [map fst]. rewrite Exists_cons. tauto.
      + intros sb H1 H2. rewrite C by auto. rewrite merge_total, scaled_total, csir_total by auto. unfold wsum at 2. cbn [fold_right fst snd]. fold (wsum (fun run => count_in run sb) runs). lia. }
  destruct (G [] (SSorted_nil _)) as (A & B & C). split; auto. split.
  - intros sb. rewrite B. cbn. tauto.
  - intros sb H1 H2. rewrite C; auto.
Qed.

(** ** Executions *)
Section Exec.
  Context {I : Type} (step : N) (bs : list (bblock I)).
  Hypothesis Hnd : NoDup (map start_pc bs).
  Hypothesis Hne : Forall (fun b => instrs b <> []) bs.
  Lemma lookup_none pc (l : list (bblock I)) : ~ In pc (map start_pc l) -> lookup_bb pc l = None.
  Proof.
    induction l as [|b l IH]; intros H; cbn [lookup_bb]; auto. rewrite IH; [|intros X; apply H; now right]. destruct (N.eqb_spec (start_pc b) pc); auto. exfalso. apply H. now left.
  Qed.
  Lemma lookup_in b : In b bs -> lookup_bb (start_pc b) bs = Some b.
  Proof.
    clear Hne. induction bs as [|c l IH]; intros H; [destruct H|]. inversion Hnd as [|? ? N1 N2]; subst. cbn [lookup_bb]. destruct H as [->|H].
    - rewrite lookup_none by auto. now rewrite N.eqb_refl.
    - now rewrite (IH N2 H).
  Qed.
  Lemma lookup_some pc b : lookup_bb pc bs = Some b -> In b bs /\ start_pc b = pc.
  Proof.
    clear Hnd Hne. induction bs as [|c l IH]; cbn [lookup_bb]; [discriminate|]. destruct (lookup_bb pc l) as [b'|].
    - intros [= ->]. destruct (IH eq_refl). split; auto. now right.
    - destruct (N.eqb_spec (start_pc c) pc); [|discriminate]. intros [= ->]. split; auto. now left.
  Qed.
  (** The stretches of [trace] if [cur] precedes it. *)
  Definition segs (cur : list N) (trace : list (bblock I)) : list (list N) :=
    match map (map start_pc) (split_on single_instr trace) with
    | s :: r => filter (fun s => negb (Nat.eqb (length s) 0)) ((cur ++ s) :: r)
    | [] => []
    end.
  Definition fsum (f : list N -> N) (l : list (list N)) : N := fold_right (fun s acc => f s + acc)%N 0%N l.
  Lemma split_on_nonempty {A} (f : A -> bool) l : split_on f l <> [].
  Proof. destruct l as [|x l]; cbn; [discriminate|]. destruct (f x); [discriminate|]. destruct (split_on f l); discriminate. Qed.
  Lemma runs_loop_ok trace : incl trace bs -> forall fuel cur runs, length (flat_map (bb_pcs step) trace) <= fuel -> sorted runs ->
    exists r, runs_loop fuel bs (flat_map (bb_pcs step) trace) cur runs = Some r /\ sorted r /\
      (forall k, In k (keys r) <-> In k (keys runs) \/ In k (segs cur trace)) /\
      (forall f, wsum f r = (wsum f runs + fsum f (segs cur trace))%N).
  Proof.
    induction trace as [|b trace IH]; intros Hi fuel cur runs Hf Hs.
    - assert (E : runs_loop fuel bs (@flat_map (bblock I) N (bb_pcs step) []) cur runs = Some (match cur with [] => runs | _ => bt_add cur 1 runs end)) by (destruct fuel; reflexivity).
      rewrite E. eexists. split; [reflexivity|]. unfold segs. cbn [split_on map filter app]. rewrite app_nil_r. destruct cur as [|x cur].
      + cbn. split; auto. split; [tauto|]. intros; lia.
      + cbn [length Nat.eqb negb]. split; [now apply bt_sorted|]. split.
        * intros k. rewrite bt_keys. cbn [In]. intuition.
        * intros f. rewrite bt_wsum. cbn [fsum fold_right]. lia.
    - assert (Hb : In b bs) by (apply Hi; now left). assert (Hi' : incl trace bs) by (intros x Hx; apply Hi; now right).
      assert (Hbn : instrs b <> []) by (rewrite Forall_forall in Hne; auto).
      assert (Lp : length (bb_pcs step b) = length (instrs b)) by (unfold bb_pcs; rewrite map_length, seq_length; auto).
      assert (Hp : exists l, bb_pcs step b = start_pc b :: l).
      { unfold bb_pcs. destruct (instrs b) as [|x is]; [congruence|]. cbn [length seq map]. eexists. f_equal. lia. }
      destruct Hp as [l Hp]. cbn [flat_map] in *. rewrite app_length in Hf. rewrite Hp in *. cbn [app length] in *. destruct fuel as [|fuel]; [lia|].
      cbn [runs_loop]. rewrite lookup_in by auto. unfold segs. cbn [split_on]. assert (Sb : single_instr b = Nat.eqb (length (instrs b)) 1) by reflexivity. rewrite !Sb. clear Sb. destruct (instrs b) as [|i0 [|i1 is]] eqn:Eb; [congruence| |].
      + cbn [length Nat.eqb]. assert (l = []) by (destruct l; [auto|cbn in Lp; lia]). subst l. cbn [app skipn].
        destruct (IH Hi' fuel [] (match cur with [] => runs | _ => bt_add cur 1 runs end)) as (r & E & A & B & C).
        { cbn in Hf; lia. } { destruct cur; auto. now apply bt_sorted. }
        exists r. split; [exact E|]. split; auto.
        assert (S : forall s r0, map (map start_pc) (split_on single_instr trace) = s :: r0 -> segs [] trace = filter (fun s => negb (Nat.eqb (length s) 0)) (s :: r0)).
        { intros s r0 Es. unfold segs. rewrite Es. reflexivity. }
        cbn [map]. destruct (map (map start_pc) (split_on single_instr trace)) as [|s r0] eqn:Es; [apply map_eq_nil in Es; now apply split_on_nonempty in Es|].
        rewrite (S _ _ eq_refl) in B, C. rewrite app_nil_r. set (X := filter _ (s :: r0)) in *.
        assert (F : filter (fun s => negb (Nat.eqb (length s) 0)) (cur :: s :: r0) = match cur with [] => X | _ => cur :: X end) by (destruct cur; reflexivity).
        rewrite F. split.
        * intros k. rewrite B. destruct cur as [|x cur]; [tauto|]. rewrite bt_keys. cbn [In]. intuition.
        * intros f. rewrite C. destruct cur as [|x cur]; auto. rewrite bt_wsum. unfold fsum at 2. cbn [fold_right]. fold (fsum f X). lia.
      + change (Nat.eqb (length (i0 :: i1 :: is)) 1) with false. cbv iota.
        assert (Sk : skipn (length (i0 :: i1 :: is)) (start_pc b :: l ++ flat_map (bb_pcs step) trace) = flat_map (bb_pcs step) trace).
        { change (start_pc b :: l ++ flat_map (bb_pcs step) trace) with ((start_pc b :: l) ++ flat_map (bb_pcs step) trace). rewrite skipn_app, skipn_all2 by (cbn [length] in *; lia).
          cbn [app]. replace (length (i0 :: i1 :: is) - length (start_pc b :: l)) with 0 by (cbn [length] in *; lia). reflexivity. }
        rewrite Sk. destruct (IH Hi' fuel (cur ++ [start_pc b]) runs) as (r & E & A & B & C); [lia|auto|]. exists r. split; [exact E|]. split; auto.
        unfold segs in B, C. destruct (split_on single_instr trace) as [|s r0] eqn:Es; [now apply split_on_nonempty in Es|]. cbn [map] in *. rewrite <- app_assoc in B, C. cbn [app] in B, C. auto.
  Qed.
  Lemma segs_runs trace : segs [] trace = map (map start_pc) (runs_of trace).
  Proof.
    unfold segs, runs_of, stretches. destruct (split_on single_instr trace) as [|s r] eqn:E; [now apply split_on_nonempty in E|]. rewrite <- E. clear E. cbn [app].
    assert (G : forall L : list (list (bblock I)), match map (map start_pc) L with s :: r => filter (fun s => negb (Nat.eqb (length s) 0)) (s :: r) | [] => [] end = map (map start_pc) (filter (fun s => negb (Nat.eqb (length s) 0)) L)).
    { intros L. assert (X : filter (fun s => negb (Nat.eqb (length s) 0)) (map (map start_pc) L) = map (map start_pc) (filter (fun s : list (bblock I) => negb (Nat.eqb (length s) 0)) L)).
      { induction L as [|s0 L IH]; cbn [map filter]; auto. rewrite map_length. destruct (negb _); cbn [map]; now rewrite IH. }
      destruct L; [reflexivity|exact X]. }
    apply G.
  Qed.
  Lemma fsum_count k l : fsum (fun s => if pcs_eqb k s then 1 else 0)%N l = N.of_nat (count_occ (list_eq_dec N.eq_dec) l k).
  Proof.
    induction l as [|s l IH]; cbn [fsum fold_right count_occ]; auto. fold (fsum (fun s => if pcs_eqb k s then 1 else 0)%N l). rewrite IH.
    destruct (list_eq_dec N.eq_dec s k) as [->|E]; [rewrite (proj2 (pcs_eqb_eq k k) eq_refl); lia|].
    destruct (pcs_eqb k s) eqn:X; [apply pcs_eqb_eq in X; congruence|lia].
  Qed.
  Lemma split_on_incl trace : forall seg, In seg (split_on (@single_instr I) trace) -> incl seg trace.
  Proof.
    induction trace as [|b trace IH]; intros seg; cbn [split_on].
    - intros [<-|[]]. intros x [].
    - destruct (single_instr b).
      + intros [<-|H]; [intros x []|]. intros x Hx. right. now apply (IH seg).
      + destruct (split_on single_instr trace) as [|s r] eqn:E; [now apply split_on_nonempty in E|]. intros [<-|H].
        * intros x [->|Hx]; [now left|]. right. apply (IH s); auto. now left.
        * intros x Hx. right. apply (IH seg); auto. now right.
  Qed.
  Lemma runs_incl (trace : list (bblock I)) run : In run (runs_of trace) -> incl run trace.
  Proof. intros H. apply filter_In in H. now apply split_on_incl. Qed.

  Lemma pcs_inj a b : incl a bs -> incl b bs -> map start_pc a = map start_pc b -> a = b.
  Proof.
    revert b. induction a as [|x a IH]; intros [|y b] Ha Hb E; try discriminate; auto. cbn in E. injection E as E1 E2.
    assert (x = y). { assert (X : Some x = Some y); [|congruence]. rewrite <- (lookup_in x), <- (lookup_in y), E1; auto; [apply Hb|apply Ha]; now left. }
    subst. f_equal. apply IH; auto; intros z Hz; [apply Ha|apply Hb]; now right.
  Qed.
  Lemma blocks_at_iff pcs sb : blocks_at bs pcs = Some sb <-> pcs = map start_pc sb /\ incl sb bs.
  Proof.
    revert sb. induction pcs as [|pc pcs IH]; intros sb; cbn [blocks_at].
    - split; [intros [= <-]; split; auto; intros x []|]. intros [E _]. destruct sb; [auto|discriminate].
    - split.
      + destruct (lookup_bb pc bs) as [b|] eqn:E; [|discriminate]. destruct (blocks_at bs pcs) as [l|] eqn:E2; [|discriminate]. intros [= <-].
        apply lookup_some in E. destruct (proj1 (IH l) eq_refl) as [-> X]. destruct E as [E1 E3]. split; [cbn; congruence|]. intros x [->|Hx]; auto.
      + intros [E Hi]. destruct sb as [|b sb]; [discriminate|]. cbn in E. injection E as -> ->. rewrite lookup_in by (apply Hi; now left).
        rewrite (proj2 (IH sb)); [auto|]. split; auto. intros x Hx. apply Hi. now right.
  Qed.
  Lemma contiguous_pcs sb run : incl sb bs -> incl run bs -> (contiguous (map start_pc sb) (map start_pc run) <-> contiguous sb run).
  Proof.
    intros H1 H2. split.
    - intros (a & b & E). destruct (map_eq_app _ _ _ _ E) as (a' & r1 & -> & <- & E1). destruct (map_eq_app _ _ _ _ E1) as (s' & b' & -> & E2 & <-).
      assert (s' = sb); [|subst; now exists a', b']. apply pcs_inj; auto. intros x Hx. apply H2. apply in_or_app. right. apply in_or_app. now left.
    - intros (a & b & ->). exists (map start_pc a), (map start_pc b). now rewrite !map_app.
  Qed.
  Lemma contiguous_incl {A} (sb run : list A) : contiguous sb run -> incl sb run.
  Proof. intros (a & b & ->) x Hx. apply in_or_app. right. apply in_or_app. now left. Qed.

  Lemma select_ok cutoff maxi found : (forall k, In k (keys found) -> exists sb, blocks_at bs k = Some sb) ->
    exists l, select_blocks cutoff maxi bs found = Some l /\
      (forall sb n, In (sb, n) l <-> exists k, In (k, n) found /\ blocks_at bs k = Some sb /\ (cutoff <= n)%N /\ length (flat_map instrs sb) <= maxi) /\
      (NoDup (keys found) -> NoDup (map fst l)).
  Proof.
    induction found as [|[k n] found IH]; intros H; cbn [select_blocks].
    - exists []. split; auto. split; [intros; split; [intros []|intros (? & [] & _)]|]. constructor.
    - destruct (H k) as [sb E]; [now left|]. destruct IH as (l & E2 & A & B); [intros; apply H; now right|]. rewrite E, E2.
      assert (R : (n <? cutoff)%N = true \/ Nat.ltb maxi (length (flat_map instrs sb)) = true ->
        (forall sb' n', In (sb', n') l <-> exists k', In (k', n') ((k, n) :: found) /\ blocks_at bs k' = Some sb' /\ (cutoff <= n')%N /\ length (flat_map instrs sb') <= maxi) /\
        (NoDup (keys ((k, n) :: found)) -> NoDup (map fst l))).
      { intros X. split; [|intros D; inversion D; auto]. intros sb' n'. rewrite A. split.
        - intros (k' & Y & Z). exists k'. split; auto. now right.
        - intros (k' & [Y|Y] & Z1 & Z2 & Z3); [|eauto]. exfalso. injection Y as <- <-. rewrite E in Z1. injection Z1 as <-. destruct X as [X|X]; [apply N.ltb_lt in X; lia|apply Nat.ltb_lt in X; lia]. }
      destruct (N.ltb_spec n cutoff) as [L|L]; [exists l; split; auto|]. destruct (Nat.ltb_spec maxi (length (flat_map instrs sb))) as [L2|L2]; [exists l; split; auto|].
      clear R. eexists. split; [reflexivity|]. split.
      + intros sb' n'. cbn [In]. rewrite A. split.
        * intros [Y|(k' & Y & Z)]; [injection Y as <- <-; exists k; auto|exists k'; auto].
        * intros (k' & [Y|Y] & Z1 & Z2 & Z3); [|right; eauto 8]. injection Y as <- <-. left. congruence.
      + intros D. inversion D as [|? ? D1 D2]; subst. cbn. constructor; auto. intros X. apply in_map_iff in X. destruct X as ([sb' n'] & Y & X). cbn in Y. subst sb'.
        apply A in X. destruct X as (k' & Z1 & Z2 & _). apply blocks_at_iff in E. apply blocks_at_iff in Z2. assert (k' = k) by (destruct E, Z2; congruence). subst k'. apply D1. apply in_map_iff. exists (k, n'). auto.
  Qed.

  Lemma detect_ok max cutoff maxi trace : incl trace bs ->
    exists l runs, detect_superblocks max cutoff maxi (flat_map (bb_pcs step) trace) bs = Some (l, runs) /\
      (forall sb n, In (sb, n) l <-> sb <> [] /\ length sb <= max /\ Exists (contiguous sb) (runs_of trace) /\ total_count sb trace n /\ (cutoff <= n)%N /\ length (flat_map instrs sb) <= maxi) /\
      NoDup (map fst l) /\
      (forall run n, In (run, n) runs <-> In run (map (map start_pc) (runs_of trace)) /\ n = N.of_nat (count_occ (list_eq_dec N.eq_dec) (map (map start_pc) (runs_of trace)) run)).
  Proof.
    intros Hi. unfold detect_superblocks, detect_runs. destruct (runs_loop_ok trace Hi (length (flat_map (bb_pcs step) trace)) [] [] (le_n _) (SSorted_nil _)) as (runs & E & A & B & C).
    rewrite E. rewrite segs_runs in B, C. cbn [keys map In] in B. cbn [wsum fold_right] in C. set (R := map (map start_pc) (runs_of trace)) in *.
    destruct (count_superblocks_ok runs max) as (D1 & D2 & D3).
    assert (Kr : forall k, In k (keys runs) <-> In k R) by (intros; rewrite B; tauto).
    assert (Ex : forall sb, incl sb bs -> (Exists (contiguous (map start_pc sb)) (keys runs) <-> Exists (contiguous sb) (runs_of trace))).
    { intros sb Hsb. rewrite !Exists_exists. split.
      - intros (k & X & Y). apply Kr in X. unfold R in X. apply in_map_iff in X. destruct X as (run & <- & X). exists run. split; auto. apply contiguous_pcs; auto. intros x Hx. apply Hi. now apply (runs_incl trace run).
      - intros (run & X & Y). exists (map start_pc run). split; [apply Kr; unfold R; now apply in_map|]. apply contiguous_pcs; auto. intros x Hx. apply Hi. now apply (runs_incl trace run). }
    assert (HR : forall run, In run (runs_of trace) -> incl run bs). { intros run Hr x Hx. apply Hi. now apply (runs_incl trace run). }
    destruct (select_ok cutoff maxi (count_superblocks runs max)) as (l & El & F1 & F2).
    { intros k Hk. apply D2 in Hk. destruct Hk as (_ & _ & Hk). apply Exists_exists in Hk. destruct Hk as (run & X & (a & b & Y)). apply Kr in X. unfold R in X. apply in_map_iff in X.
      destruct X as (r & <- & X). destruct (map_eq_app _ _ _ _ Y) as (a' & r1 & -> & _ & E1). destruct (map_eq_app _ _ _ _ E1) as (s' & b' & -> & E2 & _). exists s'. apply blocks_at_iff.
      split; auto. intros x Hx. apply (HR _ X). apply in_or_app. right. apply in_or_app. now left. }
    exists l, runs. rewrite El. split; auto. split; [|split].
    - assert (T : forall sb, sb <> [] -> incl sb bs -> length sb <= max -> forall n, (n = total (map start_pc sb) (count_superblocks runs max) <-> total_count sb trace n)).
      { intros sb H1 H2 H3 n. rewrite D3; [|destruct sb; [congruence|discriminate]|now rewrite map_length]. rewrite C. cbn [N.add]. unfold R.
        assert (G : forall L : list (list (bblock I)), exists ns, Forall2 (fun run k => max_disjoint (map start_pc sb) (map start_pc run) k) L ns /\
            fsum (fun run => count_in run (map start_pc sb)) (map (map start_pc) L) = N.of_nat (list_sum ns)).
        { induction L as [|run L (ns & X & Y)]; [exists []; split; [constructor|reflexivity]|].
          destruct (count_in_ok (map start_pc run) (map start_pc sb)) as (k & Z1 & Z2); [destruct sb; [congruence|discriminate]|].
          exists (k :: ns). split; [constructor; auto|]. cbn [map fsum fold_right list_sum]. fold (fsum (fun run => count_in run (map start_pc sb)) (map (map start_pc) L)). rewrite Y, Z2.
          unfold list_sum. cbn [fold_right]. lia. }
        destruct (G (runs_of trace)) as (ns & X & Y). rewrite Y. split; [intros ->; exists ns; auto|]. intros (ns' & X' & ->). f_equal. f_equal. clear - X X'. revert ns' X'.
        induction X as [|run k L ns Z X IH]; intros ns' X'; inversion X'; subst; auto. f_equal; [eapply max_disjoint_fun; eauto|auto]. }
      intros sb n. rewrite F1. split.
      + intros (k & X1 & X2 & X3 & X4). apply blocks_at_iff in X2. destruct X2 as [-> X2]. apply in_total in X1; [|now apply sorted_nodup]. destruct X1 as [X1 Xn].
        apply D2 in X1. destruct X1 as (Y1 & Y2 & Y3). rewrite map_length in Y2. assert (sb <> []) by (destruct sb; [cbn in Y1; congruence|discriminate]).
        repeat (split; auto); [now apply Ex|]. apply T; auto.
      + intros (X1 & X2 & X3 & X4 & X5 & X6). exists (map start_pc sb). assert (Hs : incl sb bs).
        { apply Exists_exists in X3. destruct X3 as (run & Y1 & Y2). intros x Hx. apply (HR run Y1). now apply (contiguous_incl sb run). }
        split; [|split; [now apply blocks_at_iff|auto]]. apply in_total; [now apply sorted_nodup|]. split; [apply D2|apply T; auto]. split; [destruct sb; [congruence|discriminate]|].
        rewrite map_length. split; auto. now apply Ex.
    - apply F2. now apply sorted_nodup.
    - intros run n. rewrite in_total by (now apply sorted_nodup). rewrite Kr, total_wsum, C. cbn [N.add]. now rewrite fsum_count.
  Qed.
End Exec.
