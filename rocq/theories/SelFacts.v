(** The greedy selection. *)
From Coq Require Import Arith NArith Bool List Lia Permutation.
From Coq Require Import ZifyBool ZifyNat ZifyN.
From Verif Require Import BlocksModel BlocksSpec BlocksFacts SelModel SelSpec SelCount.
Import ListNotations.
Local Open Scope N_scope.

Lemma set_nth_length {A} i (x : A) l : length (set_nth i x l) = length l.
Proof. revert i. induction l as [|y l IH]; intros [|i]; cbn; auto. Qed.
Lemma set_nth_same {A} i (x y : A) l : nth_error l i = Some y -> nth_error (set_nth i x l) i = Some x.
Proof. revert i. induction l as [|z l IH]; intros [|i]; cbn; try discriminate; auto. Qed.
Lemma set_nth_other {A} i j (x : A) l : i <> j -> nth_error (set_nth i x l) j = nth_error l j.
Proof. revert i j. induction l as [|z l IH]; intros [|i] [|j] H; cbn; auto; try congruence. Qed.

(** ** Columns *)
Definition cost_at (cands : list cand) (i : nat) : N := match nth_error cands i with Some c => c_cost c | None => 0 end.
Lemma columns_app cands a b : columns cands (a ++ b) = columns cands a + columns cands b.
Proof. unfold columns. induction a as [|i a IH]; cbn [app map fold_right]; [reflexivity|]. rewrite IH. lia. Qed.
Lemma columns_one cands i c : nth_error cands i = Some c -> columns cands [i] = c_cost c.
Proof. intros H. unfold columns. cbn [map fold_right]. rewrite H. lia. Qed.
Lemma columns_incl cands l : forall l', NoDup l -> incl l l' -> columns cands l <= columns cands l'.
Proof.
  induction l as [|i l IH]; intros l' D H; [unfold columns; cbn; lia|]. pose proof (proj1 (NoDup_cons_iff _ _) D) as [D1 D2].
  destruct (in_split i l') as (a & b & ->); [apply H; now left|].
  assert (X : columns cands l <= columns cands (a ++ b)).
  { apply IH; auto. intros x Hx. assert (In x (a ++ i :: b)) by (apply H; now right). apply in_app_iff in H0. apply in_app_iff. destruct H0 as [|[->|]]; auto. tauto. }
  change (i :: l) with ([i] ++ l). change (a ++ i :: b) with (a ++ ([i] ++ b)). rewrite !columns_app in *. lia.
Qed.
Lemma left_snoc cands exec l rest i c n rest' : left_after cands exec l rest -> nth_error cands i = Some c -> uses (c_pcs c) rest n rest' ->
  left_after cands exec (l ++ [i]) rest'.
Proof. induction 1; intros; cbn [app]; [econstructor; eauto; constructor|]. econstructor; eauto. Qed.

(** ** The counts in the state of the loop *)
Definition same_but_count (a b : cand) : Prop := c_pcs a = c_pcs b /\ c_cost a = c_cost b /\ c_value a = c_value b /\ c_count b <= c_count a.
Lemma same_refl a : same_but_count a a.
Proof. repeat split. reflexivity. Qed.
Lemma same_trans a b c : same_but_count a b -> same_but_count b c -> same_but_count a c.
Proof. intros (A1 & A2 & A3 & A4) (B1 & B2 & B3 & B4). repeat split; try congruence. lia. Qed.
Definition count_sum (cands : list cand) : nat := list_sum (map (fun c => N.to_nat (c_count c)) cands).
Lemma count_sum_set i c c' cands : nth_error cands i = Some c -> c_count c' < c_count c -> (count_sum (set_nth i c' cands) < count_sum cands)%nat.
Proof.
  unfold count_sum. revert i. induction cands as [|d cands IH]; intros [|i]; cbn [nth_error set_nth]; try discriminate.
  - intros E L. injection E as ->. cbn [map]. change (list_sum (N.to_nat (c_count c') :: map (fun c => N.to_nat (c_count c)) cands)) with (N.to_nat (c_count c') + list_sum (map (fun c => N.to_nat (c_count c)) cands))%nat.
    change (list_sum (N.to_nat (c_count c) :: map (fun c => N.to_nat (c_count c)) cands)) with (N.to_nat (c_count c) + list_sum (map (fun c => N.to_nat (c_count c)) cands))%nat. lia.
  - intros E L. specialize (IH _ E L). cbn [map]. change (list_sum (N.to_nat (c_count d) :: map (fun c => N.to_nat (c_count c)) cands)) with (N.to_nat (c_count d) + list_sum (map (fun c => N.to_nat (c_count c)) cands))%nat.
    change (list_sum (N.to_nat (c_count d) :: map (fun c => N.to_nat (c_count c)) (set_nth i c' cands))) with (N.to_nat (c_count d) + list_sum (map (fun c => N.to_nat (c_count c)) (set_nth i c' cands)))%nat. lia.
Qed.

Section Loop.
  Variable pop : list (nat * density) -> option ((nat * density) * list (nat * density)).
  Hypothesis Hpop : queue_ok pop.
  Variables (cands0 : list cand) (exec0 : list (list N * N)) (budget : N) (limit : nat).
  Hypothesis Hrange : in_range cands0 exec0.
  Hypothesis Hcands : Forall (candidate_ok exec0) cands0.

  Definition count_in_exec (c : cand) (exec : list (list N * N)) (n : N) : Prop := exists rest, uses (c_pcs c) exec n rest.
  Definition entry_ok (cands : list cand) (e : nat * density) : Prop :=
    exists c, nth_error cands (fst e) = Some c /\ density_of c = Some (snd e).
  Record inv (cands : list cand) (queue : list (nat * density)) (l : list nat) (cum : N) (exec : list (list N * N)) : Prop := {
    i_same : Forall2 same_but_count cands0 cands;
    i_nodup : NoDup (map fst queue);
    i_entries : Forall (entry_ok cands) queue;
    i_fresh : forall i, In i l -> ~ In i (map fst queue);
    i_left : left_after cands0 exec0 l exec;
    i_cum : cum = columns cands0 l;
    i_upper : forall i c n, nth_error cands i = Some c -> count_in_exec c exec n -> n <= c_count c;
    i_dropped : forall i c n, nth_error cands0 i = Some c -> ~ In i l -> ~ In i (map fst queue) -> count_in_exec c exec n ->
      n = 0 \/ budget < cum + c_cost c;
    i_distinct : NoDup l;
    i_bound : Forall (fun i => (i < length cands0)%nat) l;
    i_history : forall a i b, l = a ++ i :: b -> best_next cands0 budget exec0 a i;
    i_budget : cum <= budget;
    i_executed : executed exec < 2 ^ 32 }.

  Lemma f2_nth {A B} (R : A -> B -> Prop) l l' i y : Forall2 R l l' -> nth_error l' i = Some y -> exists x, nth_error l i = Some x /\ R x y.
  Proof.
    intros H. revert i. induction H as [|x y' l l' H _ IH]; intros [|i] E; cbn in *; try discriminate; [injection E as <-; eauto|eauto].
  Qed.
  Lemma f2_nth' {A B} (R : A -> B -> Prop) l l' i x : Forall2 R l l' -> nth_error l i = Some x -> exists y, nth_error l' i = Some y /\ R x y.
  Proof.
    intros H. revert i. induction H as [|x' y l l' H _ IH]; intros [|i] E; cbn in *; try discriminate; [injection E as <-; eauto|eauto].
  Qed.
  Lemma f2_set cands i c c' : Forall2 same_but_count cands0 cands -> nth_error cands i = Some c -> same_but_count c c' ->
    Forall2 same_but_count cands0 (set_nth i c' cands).
  Proof.
    clear. intros H. revert i. induction H as [|x y l l' H F IH]; intros [|i] E S1; cbn in *; try discriminate; constructor; auto.
    - injection E as ->. eapply same_trans; eauto.
  Qed.

  Lemma pcs_nonempty c : In c cands0 -> c_pcs c <> [].
  Proof. intros H. exact (proj1 (proj1 (Forall_forall _ _) Hcands c H)). Qed.
  Lemma cost_pos c : In c cands0 -> 0 < c_cost c.
  Proof. intros H. exact (proj1 (proj2 (proj1 (Forall_forall _ _) Hcands c H))). Qed.
  Lemma mul_some a b : a * b < 2 ^ 64 -> checked_mul64 a b = Some (a * b).
  Proof. intros H. unfold checked_mul64. now rewrite (proj2 (N.ltb_lt _ _) H). Qed.
  Lemma product_small c d x y : In c cands0 -> In d cands0 -> x <= c_count c -> y <= c_value c -> x * y * c_cost d < 2 ^ 64.
  Proof. intros Hc Hd L M. destruct Hrange as (_ & _ & R). specialize (R c d Hc Hd). eapply N.le_lt_trans; [|exact R]. apply N.mul_le_mono_r. now apply N.mul_le_mono. Qed.
  Lemma density_some c0 c : In c0 cands0 -> same_but_count c0 c ->
    density_of c = Some (mkDensity (c_count c * c_value c) (c_cost c) (hd 0 (c_pcs c))).
  Proof.
    intros Hc (A & B & C & D). unfold density_of. rewrite mul_some.
    - pose proof (pcs_nonempty c0 Hc) as X. rewrite A in X. destruct (c_pcs c); [congruence|reflexivity].
    - pose proof (product_small c0 c0 (c_count c) (c_value c) Hc Hc D) as X. pose proof (cost_pos c0 Hc). rewrite C in X. specialize (X (N.le_refl _)). nia.
  Qed.
  Lemma entry_density cands e : Forall2 same_but_count cands0 cands -> entry_ok cands e ->
    exists c0 c, nth_error cands0 (fst e) = Some c0 /\ nth_error cands (fst e) = Some c /\ In c0 cands0 /\ same_but_count c0 c /\
      snd e = mkDensity (c_count c * c_value c) (c_cost c) (hd 0 (c_pcs c)).
  Proof.
    intros F (c & E & D). destruct (f2_nth _ _ _ _ _ F E) as (c0 & E0 & S0). exists c0, c. assert (In c0 cands0) by (eapply nth_error_In; eauto).
    rewrite (density_some c0 c) in D by auto. injection D as <-. auto.
  Qed.
  Lemma cmp_some cands a b : Forall2 same_but_count cands0 cands -> entry_ok cands a -> entry_ok cands b ->
    density_cmp (snd a) (snd b) = Some (match N.compare (d_value (snd a) * d_cost (snd b)) (d_value (snd b) * d_cost (snd a)) with Eq => N.compare (d_tie (snd a)) (d_tie (snd b)) | o => o end).
  Proof.
    intros F A B. destruct (entry_density _ _ F A) as (a0 & ca & _ & _ & Ia & Sa & Ea). destruct (entry_density _ _ F B) as (b0 & cb & _ & _ & Ib & Sb & Eb).
    unfold density_cmp. rewrite Ea, Eb. cbn [d_value d_cost d_tie]. destruct Sa as (A1 & A2 & A3 & A4). destruct Sb as (B1 & B2 & B3 & B4).
    rewrite !mul_some; auto.
    - rewrite <- A2. apply (product_small b0 a0); auto. lia.
    - rewrite <- B2. apply (product_small a0 b0); auto. lia.
  Qed.

  Lemma pop_entry cands queue : Forall2 same_but_count cands0 cands -> Forall (entry_ok cands) queue -> queue <> [] ->
    exists x r, pop queue = Some (x, r) /\ Permutation queue (x :: r) /\ forall y, In y r -> density_cmp (snd x) (snd y) <> Some Lt.
  Proof.
    intros F E Q. rewrite Forall_forall in E. apply Hpop; auto.
    - intros a b Ha Hb. rewrite (cmp_some cands a b); auto. discriminate.
    - intros a Ha. destruct (entry_density _ _ F (E a Ha)) as (c0 & c & _ & _ & I0 & S0 & ->). cbn [d_cost]. destruct S0 as (_ & <- & _). now apply cost_pos.
  Qed.

  Lemma cum_small cands queue l cum exec i c0 : inv cands queue l cum exec -> nth_error cands0 i = Some c0 -> ~ In i l -> cum + c_cost c0 < 2 ^ 64.
  Proof.
    intros V E N0. destruct Hrange as (_ & R & _). rewrite (i_cum _ _ _ _ _ V). rewrite <- (columns_one _ _ _ E), <- columns_app. eapply N.le_lt_trans; [|exact R].
    apply columns_incl.
    - apply (Permutation_NoDup (Permutation_cons_append l i)). constructor; auto. apply (i_distinct _ _ _ _ _ V).
    - intros x Hx. apply in_seq. apply in_app_iff in Hx. destruct Hx as [Hx|[<-|[]]].
      + pose proof (proj1 (Forall_forall _ _) (i_bound _ _ _ _ _ V) x Hx) as X. cbv beta in X. lia.
      + assert (i < length cands0)%nat by (apply nth_error_Some; congruence). lia.
  Qed.

  (** Dropping the popped entry. *)
  Lemma inv_drop cands queue x r l cum exec : inv cands queue l cum exec -> Permutation queue (x :: r) ->
    (forall c n, nth_error cands0 (fst x) = Some c -> count_in_exec c exec n -> n = 0 \/ budget < cum + c_cost c) ->
    inv cands r l cum exec.
  Proof.
    intros V P D. destruct V. assert (P' := Permutation_map fst P). cbn [map] in P'. split; auto.
    - apply (Permutation_NoDup P') in i_nodup0. now inversion i_nodup0.
    - apply (Permutation_Forall P) in i_entries0. now inversion i_entries0.
    - intros i Hi Hr. apply (i_fresh0 i Hi). apply (Permutation_in _ (Permutation_sym P')). now right.
    - intros i c n E Nl Nr U. destruct (Nat.eq_dec i (fst x)) as [->|X]; [eauto|]. apply (i_dropped0 i c n); auto.
      intros Hi. apply (Permutation_in _ P') in Hi. destruct Hi as [Hi|Hi]; [congruence|auto].
  Qed.
  (** Putting it back with its current count. *)
  Lemma inv_update cands queue x r l cum exec c c' d n : inv cands queue l cum exec -> Permutation queue (x :: r) ->
    nth_error cands (fst x) = Some c -> count_in_exec c exec n -> c' = mkCand (c_pcs c) (c_cost c) (c_value c) n -> n < c_count c -> density_of c' = Some d ->
    inv (set_nth (fst x) c' cands) ((fst x, d) :: r) l cum exec.
  Proof.
    intros V P E U Ec L Ed. destruct V. assert (P' := Permutation_map fst P). cbn [map] in P'.
    assert (D := Permutation_NoDup P' i_nodup0). pose proof (proj1 (NoDup_cons_iff _ _) D) as [D1 D2].
    split; auto.
    - eapply f2_set; eauto. rewrite Ec. repeat split. cbn [c_count]. lia.
    - constructor.
      + exists c'. cbn [fst snd]. split; auto. eapply set_nth_same; eauto.
      + apply (Permutation_Forall P) in i_entries0. inversion i_entries0 as [|? ? _ F]; subst. apply Forall_forall. intros y Hy. rewrite Forall_forall in F.
        destruct (F y Hy) as (cy & E1 & E2). exists cy. split; auto. rewrite set_nth_other; auto. intros X. apply D1. rewrite X. now apply in_map.
    - intros i Hi Hr. apply (i_fresh0 i Hi). apply (Permutation_in _ (Permutation_sym P')). exact Hr.
    - intros i ci m Ei Um. destruct (Nat.eq_dec (fst x) i) as [<-|X].
      + rewrite (set_nth_same _ _ c) in Ei by auto. injection Ei as <-. rewrite Ec in Um |- *. destruct U as [r1 U1]. destruct Um as [r2 U2]. cbn [c_pcs c_count] in *.
        destruct (uses_fun _ _ _ _ U1 _ _ U2) as [-> _]. lia.
      + rewrite set_nth_other in Ei by auto. eapply i_upper0; eauto.
    - intros i ci m Ei Nl Nr Um. apply (i_dropped0 i ci m); auto. intros Hi. apply Nr. apply (Permutation_in _ P') in Hi. exact Hi.
  Qed.
  (** Selecting it. *)
  Lemma select_best cands queue x r l cum exec c n rest : inv cands queue l cum exec -> Permutation queue (x :: r) ->
    (forall y, In y r -> density_cmp (snd x) (snd y) <> Some Lt) ->
    nth_error cands (fst x) = Some c -> uses (c_pcs c) exec n rest -> 0 < n -> c_count c <= n -> cum + c_cost c <= budget ->
    best_next cands0 budget exec0 l (fst x).
  Proof.
    intros V P Mx E U Pos L B. assert (V' := V). destruct V'. assert (P' := Permutation_map fst P). cbn [map] in P'.
    assert (Nx : ~ In (fst x) l). { intros H. apply (i_fresh0 _ H). apply (Permutation_in _ (Permutation_sym P')). now left. }
    destruct (f2_nth _ _ _ _ _ i_same0 E) as (c0 & E0 & S0). assert (S0' := S0). destruct S0' as (S1 & S2 & S3 & S4).
    assert (En : n = c_count c). { assert (n <= c_count c); [|lia]. apply (i_upper0 (fst x) c n); auto. now exists rest. }
    split; auto. exists c0, exec, n, rest. rewrite S1, S2, <- i_cum0. split; auto. split; auto. split; auto. split; auto. split; auto.
    intros j d m rest'' Nj Ej Um Pm Fit.
    destruct (Nat.eq_dec j (fst x)) as [->|Xj].
    { rewrite E0 in Ej. injection Ej as <-. rewrite S1 in Um. destruct (uses_fun _ _ _ _ U _ _ Um) as [-> _]. right. split; reflexivity. }
    assert (Hq : In j (map fst r)).
    { destruct (in_dec Nat.eq_dec j (map fst queue)) as [H|H].
      - apply (Permutation_in _ P') in H. destruct H as [H|H]; [congruence|auto].
      - destruct (i_dropped0 j d m Ej Nj H); [now exists rest''|lia|lia]. }
    apply in_map_iff in Hq. destruct Hq as (y & <- & Hy).
    assert (Ex : entry_ok cands x /\ entry_ok cands y).
    { apply (Permutation_Forall P) in i_entries0. inversion i_entries0 as [|? ? A F]; subst. split; auto. rewrite Forall_forall in F. auto. }
    destruct Ex as [Ex Ey]. specialize (Mx y Hy). rewrite (cmp_some cands x y) in Mx by auto.
    destruct (entry_density _ _ i_same0 Ex) as (x0 & cx & X1 & X2 & X3 & X4 & X5). destruct (entry_density _ _ i_same0 Ey) as (y0 & cy & Y1 & Y2 & Y3 & Y4 & Y5).
    rewrite X1 in E0. injection E0 as ->. rewrite X2 in E. injection E as ->. rewrite Y1 in Ej. injection Ej as ->.
    rewrite X5, Y5 in Mx. cbn [d_value d_cost d_tie] in Mx. destruct Y4 as (T1 & T2 & T3 & T4).
    assert (Lm : m <= c_count cy). { apply (i_upper0 (fst y) cy m); auto. exists rest''. now rewrite <- T1. }
    unfold at_least_as_good. rewrite S1, S2, S3, T1, T2, T3, En.
    assert (K : m * c_value cy * c_cost c <= c_count cy * c_value cy * c_cost c) by (apply N.mul_le_mono_r, N.mul_le_mono_r; auto).
    destruct (N.compare_spec (c_count c * c_value c * c_cost cy) (c_count cy * c_value cy * c_cost c)) as [G|G|G].
    - destruct (N.compare_spec (hd 0 (c_pcs c)) (hd 0 (c_pcs cy))) as [H|H|H]; try (exfalso; now apply Mx).
      + destruct (N.eq_dec (m * c_value cy * c_cost c) (c_count c * c_value c * c_cost cy)); [right; split; auto; lia|left; lia].
      + destruct (N.eq_dec (m * c_value cy * c_cost c) (c_count c * c_value c * c_cost cy)); [right; split; auto; lia|left; lia].
    - exfalso. now apply Mx.
    - left. lia.
  Qed.
  Lemma inv_select cands queue x r l cum exec c n rest : inv cands queue l cum exec -> Permutation queue (x :: r) ->
    (forall y, In y r -> density_cmp (snd x) (snd y) <> Some Lt) ->
    nth_error cands (fst x) = Some c -> uses (c_pcs c) exec n rest -> 0 < n -> c_count c <= n -> cum + c_cost c <= budget ->
    inv cands r (l ++ [fst x]) (cum + c_cost c) rest.
  Proof.
    intros V P Mx E U Pos L B. pose proof (select_best _ _ _ _ _ _ _ _ _ _ V P Mx E U Pos L B) as Best. destruct V. assert (P' := Permutation_map fst P). cbn [map] in P'.
    destruct (f2_nth _ _ _ _ _ i_same0 E) as (c0 & E0 & S1 & S2 & S3 & S4).
    assert (D := Permutation_NoDup P' i_nodup0). pose proof (proj1 (NoDup_cons_iff _ _) D) as [D1 D2].
    assert (Mono : forall c1 m, In c1 cands0 -> count_in_exec c1 rest m -> exists m', count_in_exec c1 exec m' /\ m <= m').
    { intros c1 m H [r1 U1]. destruct (uses_total (c_pcs c1) exec (pcs_nonempty c1 H)) as (m' & r2 & U2). exists m'. split; [now exists r2|].
      eapply (uses_mono (c_pcs c1) (c_pcs c)); eauto. now apply pcs_nonempty. }
    split; auto.
    - apply (Permutation_Forall P) in i_entries0. now inversion i_entries0.
    - intros i Hi Hr. apply in_app_iff in Hi. destruct Hi as [Hi|[<-|[]]]; auto. apply (i_fresh0 i Hi). apply (Permutation_in _ (Permutation_sym P')). now right.
    - eapply left_snoc; [eassumption|exact E0|]. rewrite S1. exact U.
    - rewrite columns_app, (columns_one _ _ _ E0), S2, i_cum0. reflexivity.
    - intros i ci m Ei Um. destruct (f2_nth _ _ _ _ _ i_same0 Ei) as (di & Fi & G1 & G2 & G3 & G4).
      destruct (Mono di m) as (m' & [q Uq] & Lm); [eapply nth_error_In; eauto|destruct Um as [q Uq]; exists q; now rewrite G1|].
      assert (m' <= c_count ci); [|lia]. apply (i_upper0 i ci m'); auto. exists q. now rewrite <- G1.
    - intros i ci m Ei Nl Nr Um. rewrite in_app_iff in Nl.
      assert (Xi : i <> fst x) by (intros ->; apply Nl; right; now left).
      destruct (Mono ci m) as (m' & Um' & Lm); auto; [eapply nth_error_In; eauto|].
      destruct (i_dropped0 i ci m' Ei) as [H|H]; auto.
      + intros Hq. apply (Permutation_in _ P') in Hq. destruct Hq as [Hq|Hq]; [congruence|auto].
      + left. lia.
      + right. lia.
    - apply (Permutation_NoDup (Permutation_cons_append l (fst x))). constructor; auto. exact (proj1 Best).
    - apply Forall_app. split; auto. constructor; [|constructor]. apply nth_error_Some. congruence.
    - intros a i b Hl. destruct (exists_last (l := i :: b)) as (b' & z & Hz); [discriminate|]. rewrite Hz, app_assoc in Hl. apply app_inj_tail in Hl. destruct Hl as [Hl Hz']. subst z.
      destruct b' as [|i' b']; cbn [app] in Hz; injection Hz as -> Hz.
      + rewrite app_nil_r in Hl. now rewrite <- Hl.
      + now apply (i_history0 a i' b').
    - pose proof (uses_shrinks _ _ _ _ U). lia.
  Qed.

  Definition outcome (l : list nat) : Prop := selection_ok cands0 exec0 budget limit l.

  Lemma loop_ok : forall fuel cands queue l cum exec, inv cands queue l cum exec -> (length l < limit \/ l = [])%nat ->
    (length queue + count_sum cands <= fuel)%nat ->
    exists l', select_loop pop fuel budget limit cands queue l cum exec = Some l' /\ outcome l'.
  Proof.
    induction fuel as [|fuel IH]; intros cands queue l cum exec V Hl Hf.
    - destruct queue as [|e queue]; [|cbn [length] in Hf; lia]. cbn [select_loop]. exists l. split; auto. destruct V. unfold outcome, selection_ok. split; [auto|]. split; [auto|]. split; [|split; [congruence|split; [auto|]]].
      + destruct Hl as [Hl| ->]; cbn [length]; lia.
      + right. exists exec. split; auto. intros j d m rest Nj Ej U. rewrite <- i_cum0. apply (i_dropped0 j d m); auto. now exists rest.
    - destruct queue as [|e queue].
      { cbn [select_loop]. exists l. split; auto. destruct V. unfold outcome, selection_ok. split; [auto|]. split; [auto|]. split; [|split; [congruence|split; [auto|]]].
        - destruct Hl as [Hl| ->]; cbn [length]; lia.
        - right. exists exec. split; auto. intros j d m rest Nj Ej U. rewrite <- i_cum0. apply (i_dropped0 j d m); auto. now exists rest. }
      cbn [select_loop]. set (q := e :: queue) in *. assert (V' := V). destruct V'.
      destruct (pop_entry cands q i_same0 i_entries0) as (x & r & Ep & P & Mx); [discriminate|]. rewrite Ep. destruct x as [idx dx].
      assert (Lq : length q = S (length r)) by (apply Permutation_length in P; exact P).
      assert (Ex : entry_ok cands (idx, dx)). { apply (Permutation_Forall P) in i_entries0. now inversion i_entries0. }
      destruct (entry_density _ _ i_same0 Ex) as (c0 & c & E0 & Ec & I0 & Sc & _). cbn [fst] in E0, Ec. rewrite Ec.
      assert (Nx : ~ In idx l). { intros H. apply (i_fresh0 _ H). apply (Permutation_in _ (Permutation_sym (Permutation_map fst P))). now left. }
      pose proof (cum_small _ _ _ _ _ _ _ V E0 Nx) as Small. assert (Sc' := Sc). destruct Sc' as (S1 & S2 & S3 & S4). rewrite S2 in Small.
      assert (Wr : wrap64 (cum + c_cost c) = cum + c_cost c) by (apply N.mod_small; auto). rewrite Wr.
      destruct (N.ltb_spec budget (cum + c_cost c)) as [B|B].
      { apply IH; auto; [|lia]. eapply inv_drop; eauto. cbn [fst]. intros d n Ed _. rewrite E0 in Ed. injection Ed as <-. right. now rewrite S2. }
      destruct (count_ok (c_pcs c) exec) as (n & rest & U & Eq); [rewrite <- S1; now apply pcs_nonempty|auto|]. rewrite Eq.
      destruct (N.eqb_spec n 0) as [Z|Z].
      { apply IH; auto; [|lia]. eapply inv_drop; eauto. cbn [fst]. intros d m Ed [r1 U1]. rewrite E0 in Ed. injection Ed as <-. rewrite S1 in U1.
        destruct (uses_fun _ _ _ _ U _ _ U1) as [-> _]. now left. }
      destruct (N.ltb_spec n (c_count c)) as [Lc|Lc].
      { cbv zeta. set (c' := mkCand (c_pcs c) (c_cost c) (c_value c) n).
        assert (Sd : same_but_count c0 c') by (unfold c'; repeat split; cbn [c_pcs c_cost c_value c_count]; auto; lia).
        rewrite (density_some c0 c') by auto. apply IH; auto.
        - eapply (inv_update cands q (idx, dx) r l cum exec c c' _ n); eauto; [now exists rest|]. apply (density_some c0 c'); auto.
        - pose proof (count_sum_set idx c c' cands Ec). cbn [c_count c'] in H. specialize (H Lc). cbn [length]. lia. }
      cbv zeta. pose proof (inv_select _ _ _ _ _ _ _ _ _ _ V P Mx Ec U ltac:(lia) Lc B) as V2. cbn [fst] in V2.
      destruct (Nat.leb_spec limit (length (l ++ [idx]))) as [K|K].
      + exists (l ++ [idx]). split; auto. destruct V2. unfold outcome, selection_ok. split; [auto|]. split; [auto|]. split; [|split; [rewrite <- i_cum1; exact B|split; [auto|now left]]].
        rewrite app_length in *. cbn [length] in *. destruct Hl as [Hl| ->]; cbn [length] in *; lia.
      + apply IH; auto. lia.
  Qed.
  Lemma densities_ok : forall cands k, (forall c, In c cands -> In c cands0) ->
    exists q, densities k cands = Some q /\ map fst q = seq k (length cands) /\
      Forall (fun e => exists c, nth_error cands (fst e - k) = Some c /\ (k <= fst e)%nat /\ density_of c = Some (snd e)) q.
  Proof.
    induction cands as [|c cands IH]; intros k H; cbn [densities].
    - exists []. repeat split; constructor.
    - assert (Hc : In c cands0) by (apply H; now left). rewrite (density_some c c Hc (same_refl c)). destruct (IH (S k)) as (q & -> & M & F); [intros d Hd; apply H; now right|].
      eexists. split; [reflexivity|]. split; [cbn [map fst length seq]; now rewrite M|]. constructor.
      + exists c. cbn [fst snd]. rewrite Nat.sub_diag. repeat split; auto. apply (density_some c c); auto. apply same_refl.
      + eapply Forall_impl; [|exact F]. intros e (d & A & B & C). exists d. split; [|split; auto; lia]. replace (fst e - k)%nat with (S (fst e - S k)) by lia. exact A.
  Qed.
  Theorem select_ok : exists l, select_blocks_greedy pop cands0 budget limit exec0 = Some l /\ outcome l.
  Proof.
    unfold select_blocks_greedy. destruct (densities_ok cands0 0) as (q & -> & M & F); [auto|].
    apply loop_ok; [|now right|].
    - split.
      + clear. induction cands0; constructor; auto. apply same_refl.
      + rewrite M. apply seq_NoDup.
      + eapply Forall_impl; [|exact F]. intros e (c & A & _ & B). rewrite Nat.sub_0_r in A. now exists c.
      + intros i [].
      + constructor.
      + reflexivity.
      + intros i c n E [rest U]. apply nth_error_In in E. exact (proj2 (proj2 (proj1 (Forall_forall _ _) Hcands c E)) n rest U).
      + intros i c n E _ Nq _. exfalso. apply Nq. rewrite M. apply in_seq. assert (i < length cands0)%nat by (apply nth_error_Some; congruence). lia.
      + constructor.
      + constructor.
      + intros a i b H. destruct a; discriminate.
      + lia.
      + exact (proj1 Hrange).
    - unfold select_fuel, count_sum. rewrite <- (map_length fst q), M, seq_length. lia.
  Qed.
End Loop.
