(** Facts on names, locations and notes. *)
From Coq Require Import NArith ZArith Bool List Sorted Permutation Lia Arith.
From Coq Require Import ZifyBool ZifyNat ZifyN.
From Verif Require Import DbgModel DbgSpec.
Import ListNotations.
Local Open Scope N_scope.

(** ** Texts *)
Lemma text_compare_eq : forall a b, text_compare a b = Eq <-> a = b.
Proof.
  induction a as [|x a IH]; destruct b as [|y b]; cbn; try (split; congruence).
  destruct (N.compare_spec x y) as [->|h|h].
  - rewrite IH. split; congruence.
  - split; try discriminate. intros E. injection E as E _. lia.
  - split; try discriminate. intros E. injection E as E _. lia.
Qed.
Lemma text_compare_lt : forall a b, text_compare a b = Lt <-> text_lt a b.
Proof.
  induction a as [|x a IH]; destruct b as [|y b]; cbn.
  - split; try discriminate. intros h. inversion h.
  - split; intros; constructor.
  - split; try discriminate. intros h. inversion h.
  - destruct (N.compare_spec x y) as [->|h|h].
    + rewrite IH. split; intros h. { now constructor. } { inversion h; subst; [lia|assumption]. }
    + split; intros _; [now constructor|reflexivity].
    + split; try discriminate. intros k. inversion k; subst; lia.
Qed.
Lemma text_compare_antisym : forall a b, text_compare b a = CompOpp (text_compare a b).
Proof.
  induction a as [|x a IH]; destruct b as [|y b]; cbn; auto.
  rewrite (N.compare_antisym x y). destruct (x ?= y); cbn; auto.
Qed.
Lemma text_lt_trans : forall a b c, text_lt a b -> text_lt b c -> text_lt a c.
Proof.
  intros a b c h. revert c. induction h; intros c k; inversion k; subst; first [apply lt_nil | apply lt_head; lia | apply lt_tail; auto].
Qed.
Lemma text_lt_irrefl : forall a, ~ text_lt a a.
Proof. intros a h. apply text_compare_lt in h. rewrite (proj2 (text_compare_eq a a) eq_refl) in h. discriminate. Qed.
Lemma text_eqb_eq : forall a b, text_eqb a b = true <-> a = b.
Proof. intros a b. unfold text_eqb. rewrite <- text_compare_eq. destruct (text_compare a b); split; congruence. Qed.

Definition symbol_lt (x y : symbol) : Prop := text_lt (fst x) (fst y) \/ (fst x = fst y /\ snd x < snd y).
Definition symbol_le (x y : symbol) : Prop := x = y \/ symbol_lt x y.
Lemma symbol_compare_spec : forall x y, match symbol_compare x y with Eq => x = y | Lt => symbol_lt x y | Gt => symbol_lt y x end.
Proof.
  intros [n a] [m b]. unfold symbol_compare, symbol_lt; cbn.
  destruct (text_compare n m) eqn:E.
  - apply text_compare_eq in E. subst m. destruct (N.compare_spec a b); subst; auto.
  - apply text_compare_lt in E. auto.
  - left. apply text_compare_lt. rewrite text_compare_antisym, E. reflexivity.
Qed.
Lemma symbol_eqb_eq : forall x y, symbol_eqb x y = true -> x = y.
Proof. intros x y. unfold symbol_eqb. generalize (symbol_compare_spec x y). destruct (symbol_compare x y); congruence. Qed.
Lemma symbol_eqb_refl : forall x, symbol_eqb x x = true.
Proof.
  intros [n a]. unfold symbol_eqb, symbol_compare; cbn. rewrite (proj2 (text_compare_eq n n) eq_refl), N.compare_refl. reflexivity.
Qed.
Lemma symbol_lt_trans : forall x y z, symbol_lt x y -> symbol_lt y z -> symbol_lt x z.
Proof.
  intros [n a] [m b] [k c] [h|[h1 h2]] [g|[g1 g2]]; unfold symbol_lt; cbn in *; subst; eauto using text_lt_trans.
  right. split; auto. lia.
Qed.
Lemma symbol_lt_irrefl : forall x, ~ symbol_lt x x.
Proof. intros x [h|[_ h]]; [exact (text_lt_irrefl _ h)|lia]. Qed.
Lemma symbol_le_trans : forall x y z, symbol_le x y -> symbol_le y z -> symbol_le x z.
Proof. intros x y z [->|h] [->|g]; unfold symbol_le; auto. right. eapply symbol_lt_trans; eassumption. Qed.

Lemma insert_perm : forall x l, Permutation (x :: l) (insert x l).
Proof.
  intros x. induction l as [|y l IH]; cbn; auto. destruct (symbol_leb x y); auto.
  rewrite perm_swap. now constructor.
Qed.
Lemma sort_perm : forall l, Permutation l (sort l).
Proof. induction l as [|x l IH]; cbn; auto. rewrite <- insert_perm. now constructor. Qed.
Lemma insert_sorted : forall x l, StronglySorted symbol_le l -> StronglySorted symbol_le (insert x l).
Proof.
  intros x l h. induction h as [|y l h IH H]; cbn. { repeat constructor. }
  unfold symbol_leb. generalize (symbol_compare_spec x y). destruct (symbol_compare x y); intros K.
  - subst y. constructor; [now constructor|]. constructor; [now left|exact H].
  - constructor; [now constructor|]. constructor; [now right|].
    eapply Forall_impl; [|exact H]. intros z Hz. eapply symbol_le_trans; [right; exact K|exact Hz].
  - constructor; auto. eapply Permutation_Forall; [apply insert_perm|]. constructor; [now right|exact H].
Qed.
Lemma sort_sorted : forall l, StronglySorted symbol_le (sort l).
Proof. induction l as [|x l IH]; cbn. { constructor. } now apply insert_sorted. Qed.
Lemma dedup_In : forall l x, In x (dedup l) <-> In x l.
Proof.
  induction l as [|x l IH]; intros z; [reflexivity|].
  cbn [dedup]. destruct l as [|y r]; [reflexivity|].
  destruct (symbol_eqb x y) eqn:E.
  - apply symbol_eqb_eq in E. subst y. rewrite IH. cbn. tauto.
  - cbn [In] in *. rewrite IH. cbn. tauto.
Qed.
Lemma dedup_sorted : forall l, StronglySorted symbol_le l -> StronglySorted symbol_lt (dedup l).
Proof.
  induction l as [|x l IH]; intros h; [constructor|].
  apply StronglySorted_inv in h. destruct h as [h H].
  cbn [dedup]. destruct l as [|y r]; [constructor; constructor|].
  destruct (symbol_eqb x y) eqn:E; auto. constructor; auto.
  assert (Hxy : symbol_lt x y).
  { apply Forall_inv in H. destruct H as [K|K]; auto. subst y. rewrite symbol_eqb_refl in E. discriminate. }
  apply StronglySorted_inv in h. destruct h as [h G].
  apply Forall_forall. intros z Hz. apply (proj1 (dedup_In _ _)) in Hz. destruct Hz as [<-|Hz]; auto.
  rewrite Forall_forall in G. destruct (G z Hz) as [<-|K]; auto. eapply symbol_lt_trans; eassumption.
Qed.
Lemma dedup_length : forall l, (length (dedup l) <= length l)%nat.
Proof.
  induction l as [|x l IH]; [auto|]. cbn [dedup]. destruct l as [|y r]; [auto|].
  destruct (symbol_eqb x y); cbn [length] in *; lia.
Qed.

(** ** Hexadecimal digits *)
Lemma hex_digit_char : forall d, d < 16 -> hex_char (hex_digit d) d.
Proof. intros d h. unfold hex_char, hex_digit. destruct (d <? 10) eqn:E; lia. Qed.
Lemma hex_length : forall k n, length (hex k n) = k.
Proof. induction k as [|k IH]; intros n; cbn [hex]; auto. rewrite app_length, IH. cbn. lia. Qed.
Lemma hex_value_hex : forall k n, n < 16 ^ N.of_nat k -> hex_value (hex k n) n.
Proof.
  induction k as [|k IH]; intros n h; cbn [hex].
  - cbn in h. assert (n = 0) as -> by lia. constructor.
  - rewrite (N.div_mod' n 16) at 3. apply hv_snoc.
    + apply IH. apply N.div_lt_upper_bound; [lia|]. replace (N.of_nat (S k)) with (N.succ (N.of_nat k)) in h by lia. rewrite N.pow_succ_r' in h. exact h.
    + apply hex_digit_char. apply N.mod_lt. lia.
Qed.
Lemma hex8_spells : forall a, a < 2 ^ 32 -> spells a (hex8 a).
Proof. intros a h. split; [apply hex_length|]. apply hex_value_hex. exact h. Qed.
Lemma hex_value_fun : forall t n, hex_value t n -> forall m, hex_value t m -> n = m.
Proof.
  induction 1 as [|t n c v h IH C]; intros m K; inversion K; subst.
  - reflexivity.
  - destruct t; discriminate.
  - destruct t; discriminate.
  - apply app_inj_tail in H. destruct H as [-> ->]. rewrite (IH _ H0). unfold hex_char in *. lia.
Qed.
Lemma hex_value_inj : forall t n, hex_value t n -> forall u, hex_value u n -> length t = length u -> t = u.
Proof.
  induction 1 as [|t n c v h IH C]; intros u K L.
  - destruct u; [reflexivity|discriminate].
  - remember (16 * n + v) as w eqn:W. destruct K as [|t' n' c' v' K C'].
    + rewrite app_length in L. cbn in L. lia.
    + rewrite !app_length in L. cbn in L. unfold hex_char in *.
      assert (n' = n /\ v' = v) as [-> ->] by lia. rewrite (IH t') by (auto; lia). f_equal. f_equal. lia.
Qed.
Lemma spells_hex8 : forall a t, a < 2 ^ 32 -> spells a t -> t = hex8 a.
Proof. intros a t h [L V]. destruct (hex8_spells a h) as [L' V']. eapply hex_value_inj; eauto; congruence. Qed.
Lemma hex8_inj : forall a b, a < 2 ^ 32 -> b < 2 ^ 32 -> hex8 a = hex8 b -> a = b.
Proof. intros a b ha hb E. destruct (hex8_spells a ha) as [_ V]. destruct (hex8_spells b hb) as [_ W]. rewrite E in V. eapply hex_value_fun; eauto. Qed.
Lemma app_inj_length : forall (A : Type) (a b c d : list A), length b = length d -> a ++ b = c ++ d -> a = c /\ b = d.
Proof.
  intros A a. induction a as [|x a IH]; intros b c d L E; destruct c as [|y c]; cbn in *; auto.
  - subst b. cbn in L. rewrite app_length in L. lia.
  - subst d. cbn in L. rewrite app_length in L. lia.
  - injection E as -> E. destruct (IH _ _ _ L E) as [-> ->]. auto.
Qed.
Lemma hex8_length : forall a, length (hex8 a) = 8%nat.
Proof. intros a. apply hex_length. Qed.
Local Opaque hex8.

(** ** Renaming *)
(** The names that end with their address. *)
Fixpoint ends_with (t : text) (s : text) : bool := text_eqb t s || match t with [] => false | _ :: t => ends_with t s end.
Definition marked (s : symbol) : bool := ends_with (fst s) (95 :: hex8 (snd s)).
Lemma ends_with_spec : forall t s, ends_with t s = true <-> exists u, t = u ++ s.
Proof.
  induction t as [|x t IH]; intros s; cbn [ends_with]; rewrite orb_true_iff, text_eqb_eq.
  - split. { intros [<-|h]; [now exists []|discriminate]. } intros [u E]. left. destruct u; [exact E|discriminate].
  - rewrite IH. split.
    + intros [<-|[u ->]]; [now exists []|now exists (x :: u)].
    + intros [u E]. destruct u as [|y u]; [now left|]. right. injection E as -> ->. now exists u.
Qed.
Lemma marked_rename : forall s, marked (rename s) = true.
Proof. intros [n a]. unfold marked, rename. cbn [fst snd]. apply ends_with_spec. now exists n. Qed.
Lemma marked_same : forall x y, snd x < 2 ^ 32 -> snd y < 2 ^ 32 -> marked x = true -> marked y = true -> fst x = fst y -> x = y.
Proof.
  intros [n a] [m b] ha hb h k E. cbn [fst snd] in *. subst m. unfold marked in *. cbn [fst snd] in *.
  apply ends_with_spec in h. apply ends_with_spec in k. destruct h as [u ->]. destruct k as [v k].
  apply app_inj_length in k; [|cbn [length]; now rewrite !hex8_length]. destruct k as [_ k]. apply (f_equal (@tl N)) in k. cbn [tl] in k.
  now rewrite (hex8_inj a b ha hb k).
Qed.

(** The groups of a list. *)
Definition group_ok (g : list symbol) : Prop := exists n, g <> [] /\ Forall (fun s => fst s = n) g.
Definition treat (g : list symbol) : list symbol := if (1 <? length g)%nat then map rename g else g.
Definition head_name (g : list symbol) : text := match g with [] => [] | s :: _ => fst s end.
Fixpoint adjacent (gs : list (list symbol)) : Prop :=
  match gs with g :: (h :: _) as r => head_name g <> head_name h /\ adjacent r | _ => True end.
Lemma groups_spec : forall l leader others,
  Forall (fun s => fst s = fst leader) others ->
  exists gs g,
    concat (g :: gs) = leader :: others ++ l
    /\ (exists r, g = leader :: others ++ r)
    /\ Forall group_ok (g :: gs) /\ adjacent (g :: gs)
    /\ groups leader (rev (map rename others)) l = (concat (map treat (g :: gs)), existsb (fun g => (1 <? length g)%nat) (g :: gs)).
Proof.
  assert (close : forall leader others, close_group leader (rev (map rename others)) = treat (leader :: others)).
  { intros leader others. unfold close_group, treat. destruct others as [|o others]; [reflexivity|].
    rewrite rev_involutive. cbn [length map Nat.ltb Nat.leb].
    destruct (rev (rename o :: map rename others)) eqn:E; [|reflexivity].
    apply (f_equal (@length _)) in E. rewrite rev_length in E. discriminate. }
  assert (test : forall (b : bool) (leader : symbol) others, match rev (map rename others) with [] => b | _ => true end = (1 <? length (leader :: others))%nat || b).
  { intros b leader others. destruct others as [|o others]; [reflexivity|]. cbn [map].
    destruct (rev (rename o :: map rename others)) eqn:E; [|reflexivity].
    apply (f_equal (@length _)) in E. rewrite rev_length in E. discriminate. }
  induction l as [|s l IH]; intros leader others H.
  - exists [], (leader :: others). rewrite app_nil_r. cbn [concat map existsb adjacent]. rewrite app_nil_r.
    split; [reflexivity|]. split; [exists []; now rewrite app_nil_r|].
    split; [constructor; [|constructor]; exists (fst leader); split; [discriminate|now constructor]|].
    split; [exact I|]. cbn [groups]. rewrite close, (test false leader), app_nil_r. reflexivity.
  - cbn [groups]. destruct (text_eqb (fst s) (fst leader)) eqn:E.
    + apply text_eqb_eq in E.
      destruct (IH leader (others ++ [s])) as (gs & g & C & (r & R) & O & A & G). { apply Forall_app. split; auto. }
      exists gs, g. rewrite <- app_assoc in C. split; [exact C|]. split; [exists (s :: r); rewrite R; now rewrite <- app_assoc|].
      split; [exact O|]. split; [exact A|]. rewrite map_app, rev_app_distr in G. exact G.
    + destruct (IH s []) as (gs & g & C & (r & R) & O & A & G); [constructor|]. cbn [map rev] in G. rewrite G.
      exists (g :: gs), (leader :: others). split. { cbn [concat] in *. rewrite C. reflexivity. }
      split; [exists []; now rewrite app_nil_r|].
      split. { constructor; [|exact O]. exists (fst leader). split; [discriminate|now constructor]. }
      split. { split; [|exact A]. rewrite R. cbn. intros K. rewrite <- K in E. rewrite (proj2 (text_eqb_eq _ _) eq_refl) in E. discriminate. }
      rewrite close, (test _ leader). reflexivity.
Qed.

Definition clean (l : list symbol) : list symbol := dedup (sort l).
Lemma clean_In : forall l x, In x (clean l) <-> In x l.
Proof. intros l x. unfold clean. rewrite dedup_In. split; apply Permutation_in; [symmetry|]; apply sort_perm. Qed.
Lemma clean_sorted : forall l, StronglySorted symbol_lt (clean l).
Proof. intros l. apply dedup_sorted, sort_sorted. Qed.
Lemma pass_spec : forall l, exists gs,
  concat gs = clean l /\ Forall group_ok gs /\ adjacent gs
  /\ dedup_names_pass l = (concat (map treat gs), existsb (fun g => (1 <? length g)%nat) gs).
Proof.
  intros l. unfold dedup_names_pass. fold (clean l). destruct (clean l) as [|s r] eqn:E.
  - exists []. repeat split; constructor.
  - destruct (groups_spec r s [] (Forall_nil _)) as (gs & g & C & _ & O & A & G). exists (g :: gs). auto.
Qed.
Lemma sorted_NoDup : forall l, StronglySorted symbol_lt l -> NoDup l.
Proof.
  induction 1 as [|x l h IH H]; constructor; auto. intros K. rewrite Forall_forall in H. exact (symbol_lt_irrefl _ (H x K)).
Qed.
Lemma sorted_app : forall (A : Type) (R : A -> A -> Prop) a b, StronglySorted R (a ++ b) -> StronglySorted R a /\ StronglySorted R b /\ (forall x y, In x a -> In y b -> R x y).
Proof.
  intros A R. induction a as [|x a IH]; cbn; intros b h.
  - repeat split; auto; [constructor|intros ? ? []].
  - apply StronglySorted_inv in h. destruct h as [h H]. destruct (IH b h) as (h1 & h2 & h3). apply Forall_app in H. destruct H as [H1 H2].
    split; [now constructor|]. split; auto. intros y z [<-|hy] hz; auto. rewrite Forall_forall in H2. auto.
Qed.

(** One pass renames an element exactly if another element has its name, as seen from its neighbours in the group. *)
Lemma treat_In : forall g y, In y (treat g) -> exists x, In x g /\ (y = x \/ y = rename x).
Proof.
  intros g y. unfold treat. destruct (1 <? length g)%nat; intros h; [|eauto].
  apply in_map_iff in h. destruct h as (x & <- & h). eauto.
Qed.
Lemma In_treat : forall g x, In x g -> In x (treat g) \/ In (rename x) (treat g).
Proof. intros g x h. unfold treat. destruct (1 <? length g)%nat; auto. right. now apply in_map. Qed.
Lemma pass_from : forall l y, In y (fst (dedup_names_pass l)) -> exists x, In x l /\ (y = x \/ y = rename x).
Proof.
  intros l y. destruct (pass_spec l) as (gs & C & _ & _ & ->). cbn [fst]. intros h. apply in_concat in h. destruct h as (t & ht & hy).
  apply in_map_iff in ht. destruct ht as (g & <- & hg). apply treat_In in hy. destruct hy as (x & hx & hy).
  exists x. split; auto. apply clean_In. rewrite <- C. apply in_concat. eauto.
Qed.
Lemma pass_to : forall l x, In x l -> In x (fst (dedup_names_pass l)) \/ In (rename x) (fst (dedup_names_pass l)).
Proof.
  intros l x h. apply clean_In in h. destruct (pass_spec l) as (gs & C & _ & _ & ->). cbn [fst]. rewrite <- C in h.
  apply in_concat in h. destruct h as (g & hg & hx). destruct (In_treat g x hx) as [k|k]; [left|right]; apply in_concat; exists (treat g); split; auto; now apply in_map.
Qed.
Lemma pass_keeps : forall l x, In x l -> (forall y, In y l -> fst y = fst x -> y = x) -> In x (fst (dedup_names_pass l)).
Proof.
  intros l x h U. apply clean_In in h. pose proof (sorted_NoDup _ (clean_sorted l)) as D.
  destruct (pass_spec l) as (gs & C & O & _ & ->). cbn [fst]. rewrite <- C in h.
  apply in_concat in h. destruct h as (g & hg & hx). apply in_concat. exists (treat g). split; [now apply in_map|].
  unfold treat. destruct (1 <? length g)%nat eqn:L; [|exact hx]. exfalso.
  rewrite Forall_forall in O. destruct (O g hg) as (n & _ & N). rewrite Forall_forall in N.
  assert (all : forall y, In y g -> y = x).
  { intros y hy. apply U. - apply clean_In. rewrite <- C. apply in_concat. eauto. - rewrite (N y hy), (N x hx). reflexivity. }
  assert (Dg : NoDup g).
  { apply in_split in hg. destruct hg as (g1 & g2 & ->). rewrite <- C, concat_app in D. cbn [concat] in D.
    clear - D. induction (concat g1) as [|a q IH]; cbn in D. - clear - D. induction g as [|b g IH]; constructor; inversion D; subst. + intros K. apply H1. apply in_app_iff. auto. + auto.
    - apply IH. now inversion D. }
  destruct g as [|y [|z g]]; cbn in L; try discriminate.
  assert (y = z). { rewrite (all y), (all z); cbn; auto. } subst z. inversion Dg; subst. apply H1. now left.
Qed.

(** The number of names that do not end with their address. *)
Definition unmarked (l : list symbol) : nat := length (filter (fun s => negb (marked s)) l).
Lemma unmarked_app : forall a b, unmarked (a ++ b) = (unmarked a + unmarked b)%nat.
Proof. intros a b. unfold unmarked. now rewrite filter_app, app_length. Qed.
Lemma unmarked_perm : forall a b, Permutation a b -> unmarked a = unmarked b.
Proof.
  intros a b h. unfold unmarked. induction h as [|x a b h IH|x y a|a b c h1 IH1 h2 IH2]; cbn [filter].
  - reflexivity.
  - destruct (negb (marked x)); cbn; auto.
  - destruct (negb (marked x)), (negb (marked y)); reflexivity.
  - congruence.
Qed.
Lemma unmarked_dedup : forall l, (unmarked (dedup l) <= unmarked l)%nat.
Proof.
  induction l as [|x l IH]; [auto|]. cbn [dedup]. destruct l as [|y r]; [auto|].
  unfold unmarked in *. destruct (symbol_eqb x y); cbn [filter] in *; destruct (negb (marked x)); cbn [length] in *; lia.
Qed.
Lemma unmarked_renamed : forall g, unmarked (map rename g) = 0%nat.
Proof. unfold unmarked. induction g as [|x g IH]; cbn [map filter]; auto. now rewrite marked_rename. Qed.
Lemma unmarked_treat : forall g : list symbol, NoDup g -> Forall (fun s => snd s < 2 ^ 32) g -> group_ok g ->
  (unmarked (treat g) <= unmarked g)%nat /\ ((1 < length g)%nat -> (unmarked (treat g) < unmarked g)%nat).
Proof.
  intros g D B (n & _ & N). unfold treat. destruct (1 <? length g)%nat eqn:L; [|split; [auto|lia]].
  rewrite unmarked_renamed. split; [lia|]. intros _.
  destruct g as [|x [|y g]]; cbn in L; try discriminate.
  destruct (marked x) eqn:Mx.
  - destruct (marked y) eqn:My.
    + exfalso. inversion B as [|? ? Bx B']; subst. inversion B' as [|? ? By _]; subst.
      inversion N as [|? ? Nx N']; subst. inversion N' as [|? ? Ny _]; subst.
      assert (x = y) by (apply marked_same; congruence). subst y. inversion D; subst. apply H1. now left.
    + unfold unmarked. cbn [filter]. rewrite Mx, My. cbn. lia.
  - unfold unmarked. cbn [filter]. rewrite Mx. cbn. lia.
Qed.
Lemma NoDup_concat : forall (A : Type) (gs : list (list A)), NoDup (concat gs) -> Forall (@NoDup A) gs.
Proof.
  intros A gs. induction gs as [|g gs IH]; cbn; intros D; constructor.
  - clear IH. induction g as [|b g IH]; constructor; inversion D; subst; [|auto]. intros K. apply H1. apply in_app_iff. auto.
  - apply IH. clear IH. induction g as [|b g IH]; cbn in D; auto. apply IH. now inversion D.
Qed.
Lemma pass_decreases : forall l : list symbol, Forall (fun s => snd s < 2 ^ 32) l ->
  (unmarked (fst (dedup_names_pass l)) <= unmarked l)%nat /\ (snd (dedup_names_pass l) = true -> (unmarked (fst (dedup_names_pass l)) < unmarked l)%nat).
Proof.
  intros l B.
  assert (B' : Forall (fun s => snd s < 2 ^ 32) (clean l)). { apply Forall_forall. intros x hx. rewrite Forall_forall in B. apply B. now apply clean_In. }
  pose proof (sorted_NoDup _ (clean_sorted l)) as D.
  assert (U : (unmarked (clean l) <= unmarked l)%nat). { unfold clean. rewrite unmarked_dedup. rewrite (unmarked_perm _ _ (sort_perm l)). lia. }
  destruct (pass_spec l) as (gs & C & O & _ & ->). cbn [fst snd]. rewrite <- C in *. apply NoDup_concat in D.
  assert (K : (unmarked (concat (map treat gs)) <= unmarked (concat gs))%nat /\ (existsb (fun g => (1 <? length g)%nat) gs = true -> (unmarked (concat (map treat gs)) < unmarked (concat gs))%nat)).
  { clear C U B. induction gs as [|g gs IH]; cbn [concat map existsb]; [split; [auto|discriminate]|].
    inversion D; subst. inversion O; subst. cbn [concat] in B'. apply Forall_app in B'. destruct B' as [Bg Bgs].
    rewrite !unmarked_app. destruct (IH Bgs H2 H4) as [I1 I2]. destruct (unmarked_treat g H1 Bg H3) as [T1 T2].
    split; [lia|]. intros E. apply orb_true_iff in E. destruct E as [E|E]; [|specialize (I2 E); lia]. apply Nat.ltb_lt in E. specialize (T2 E). lia. }
  destruct K as [K1 K2]. split; [lia|]. intros E. specialize (K2 E). lia.
Qed.
Lemma pass_bounded : forall l : list symbol, Forall (fun s => snd s < 2 ^ 32) l -> Forall (fun s => snd s < 2 ^ 32) (fst (dedup_names_pass l)).
Proof.
  intros l B. apply Forall_forall. intros y hy. apply pass_from in hy. destruct hy as (x & hx & [-> | ->]); rewrite Forall_forall in B; [auto|exact (B x hx)].
Qed.
Lemma pass_length : forall l, (length (fst (dedup_names_pass l)) <= length l)%nat.
Proof.
  intros l. assert (L : (length (clean l) <= length l)%nat). { unfold clean. rewrite dedup_length. rewrite (Permutation_length (sort_perm l)). lia. }
  destruct (pass_spec l) as (gs & C & _ & _ & ->). cbn [fst]. rewrite <- C in L.
  enough (length (concat (map treat gs)) = length (concat gs)) by lia. clear.
  induction gs as [|g gs IH]; cbn [concat map]; auto. rewrite !app_length, IH. f_equal. unfold treat. destruct (1 <? length g)%nat; auto. apply map_length.
Qed.
Lemma pass_final : forall l, snd (dedup_names_pass l) = false -> fst (dedup_names_pass l) = clean l /\ StronglySorted text_lt (map fst (clean l)).
Proof.
  intros l. pose proof (clean_sorted l) as Hs. destruct (pass_spec l) as (gs & C & O & A & ->). cbn [fst snd]. rewrite <- C in *. clear C. intros E.
  assert (S1 : Forall (fun g => exists x, g = [x]) gs).
  { clear A Hs. induction gs as [|g gs IH]; constructor; inversion O; subst; cbn in E; apply orb_false_iff in E; destruct E as [E1 E2]; auto.
    destruct H1 as (n & K & _). destruct g as [|x [|y g]]; try congruence; eauto. discriminate. }
  split.
  - f_equal. clear - S1. induction S1 as [|g gs (x & ->) h IH]; cbn; congruence.
  - clear O E. induction S1 as [|g gs (x & ->) h IH]; cbn [concat map app] in *; [constructor|].
    apply StronglySorted_inv in Hs. destruct Hs as [Hs F]. constructor.
    + apply IH; auto. destruct gs; [exact I|]. apply A.
    + assert (IH' : StronglySorted text_lt (map fst (concat gs))). { apply IH; auto. destruct gs; [exact I|]. apply A. }
      destruct h as [|h0 gs (y & ->) h]; [constructor|]. cbn [concat map app adjacent head_name] in *.
      destruct A as [A _]. inversion F; subst. destruct H1 as [H1|[H1 _]]; [|congruence].
      constructor; auto. apply StronglySorted_inv in IH'. destruct IH' as [_ F']. eapply Forall_impl; [|exact F'].
      intros z hz. eapply text_lt_trans; eauto.
Qed.

(** The loop. *)
Lemma rename_extended : forall n a m, a < 2 ^ 32 -> extended a n m -> extended a n (fst (rename (m, a))).
Proof. intros n a m h K. unfold rename. cbn [fst snd]. change (95 :: hex8 a) with ([95] ++ hex8 a). apply ext_more; auto. now apply hex8_spells. Qed.
Lemma extended_trans : forall a n m k, extended a n m -> extended a m k -> extended a n k.
Proof. intros a n m k h g. induction g; auto. constructor; auto. Qed.
Definition derived (l r : list symbol) : Prop :=
  (forall n a, In (n, a) l -> exists m, In (m, a) r /\ extended a n m)
  /\ (forall m a, In (m, a) r -> exists n, In (n, a) l /\ extended a n m)
  /\ (forall n a, In (n, a) l -> (forall n' a', In (n', a') l -> extended a' n' n -> (n', a') = (n, a)) -> In (n, a) r).
Lemma pass_derived : forall l : list symbol, Forall (fun s => snd s < 2 ^ 32) l -> derived l (fst (dedup_names_pass l)).
Proof.
  intros l B. rewrite Forall_forall in B. repeat split.
  - intros n a h. pose proof (B _ h) as Ba. cbn in Ba. destruct (pass_to _ _ h) as [k|k]; [exists n; split; auto; constructor|].
    exists (fst (rename (n, a))). split; [exact k|]. apply rename_extended; auto. constructor.
  - intros m a h. destruct (pass_from _ _ h) as ((n & b) & k & [E|E]).
    + injection E as -> ->. exists n. split; auto. constructor.
    + pose proof (f_equal fst E) as E1. pose proof (f_equal snd E) as E2. unfold rename in E2. cbn [fst snd] in E1, E2. subst m a. exists n. split; auto. apply (rename_extended n b n); [exact (B _ k)|constructor].
  - intros n a h U. apply pass_keeps; auto. intros [n' a'] k E. cbn in E. subst n'. apply U; auto. constructor.
Qed.
Lemma derived_trans : forall a b c, derived a b -> derived b c -> derived a c.
Proof.
  intros x y z (A1 & A2 & A3) (B1 & B2 & B3). repeat split.
  - intros n a h. destruct (A1 _ _ h) as (m & hm & E). destruct (B1 _ _ hm) as (k & hk & E'). eauto using extended_trans.
  - intros n a h. destruct (B2 _ _ h) as (m & hm & E). destruct (A2 _ _ hm) as (k & hk & E'). eauto using extended_trans.
  - intros n a h U. apply B3; auto. intros n' a' h' E. destruct (A2 _ _ h') as (k & hk & E').
    pose proof (U k a' hk (extended_trans _ _ _ _ E' E)) as K. injection K as -> ->.
    (* the name is between [n] and [n] *)
    assert (L : (length n <= length n')%nat). { clear - E'. induction E'; auto. rewrite !app_length. lia. }
    clear - E L. destruct E as [|m t E S]; [reflexivity|]. exfalso.
    assert (length n' <= length m)%nat. { clear - E. induction E; auto. rewrite !app_length. lia. }
    rewrite !app_length in L. cbn in L. lia.
Qed.
Lemma derived_refl_clean : forall l, derived l (clean l).
Proof.
  intros l. repeat split.
  - intros n a h. exists n. split; [now apply clean_In|constructor].
  - intros n a h. exists n. split; [now apply clean_In|constructor].
  - intros n a h _. now apply clean_In.
Qed.
Theorem names_unique : forall fuel (l : list symbol), Forall (fun s => snd s < 2 ^ 32) l -> (unmarked l < fuel)%nat ->
  exists r, dedup_names fuel l = Some r /\ StronglySorted text_lt (map fst r) /\ derived l r /\ (length r <= length l)%nat.
Proof.
  induction fuel as [|fuel IH]; intros l B U; [lia|]. cbn [dedup_names].
  pose proof (pass_decreases l B) as [P1 P2]. pose proof (pass_final l) as P3. pose proof (pass_derived l B) as P4. pose proof (pass_length l) as P5. pose proof (pass_bounded l B) as P6.
  destruct (dedup_names_pass l) as [l' d]. cbn [fst snd] in *. destruct d.
  - specialize (P2 eq_refl). destruct (IH l' P6) as (r & E & S & D & L); [lia|]. exists r. repeat split; auto; try (eapply derived_trans; eassumption). lia.
  - destruct (P3 eq_refl) as [-> S]. exists (clean l). auto.
Qed.
Lemma dedup_names_more : forall fuel l r, dedup_names fuel l = Some r -> forall fuel', (fuel <= fuel')%nat -> dedup_names fuel' l = Some r.
Proof.
  induction fuel as [|fuel IH]; cbn [dedup_names]; intros l r h fuel' L; [discriminate|].
  destruct fuel' as [|fuel']; [lia|]. cbn [dedup_names]. destruct (dedup_names_pass l) as [l' d]. destruct d; auto. apply IH; auto. lia.
Qed.
Lemma unmarked_length : forall l, (unmarked l <= length l)%nat.
Proof. intros l. unfold unmarked. induction l as [|x l IH]; cbn [filter]; auto. destruct (negb (marked x)); cbn [length]; lia. Qed.

(** A pass renames exactly the symbols whose name another symbol has. *)
Definition shared (l : list symbol) (x : symbol) : Prop := exists y, In y l /\ y <> x /\ fst y = fst x.
Lemma groups_apart : forall gs, StronglySorted symbol_lt (concat gs) -> Forall group_ok gs -> adjacent gs ->
  StronglySorted (fun g h => text_lt (head_name g) (head_name h)) gs.
Proof.
  induction gs as [|g gs IH]; intros Hs O A; constructor; inversion O as [|? ? Og O']; subst.
  - apply IH; auto; [cbn [concat] in Hs; apply sorted_app in Hs; apply Hs|]. destruct gs; [exact I|apply A].
  - assert (IH' : StronglySorted (fun g h => text_lt (head_name g) (head_name h)) gs).
    { apply IH; auto; [cbn [concat] in Hs; apply sorted_app in Hs; apply Hs|]. destruct gs; [exact I|apply A]. }
    destruct gs as [|h gs]; [constructor|]. inversion O' as [|? ? Oh _]; subst.
    assert (K : text_lt (head_name g) (head_name h)).
    { cbn [concat] in Hs. apply sorted_app in Hs. destruct Hs as (_ & _ & Hs).
      destruct Og as (n & N1 & _). destruct Oh as (m & M1 & _). destruct g as [|x g]; [congruence|]. destruct h as [|y h]; [congruence|].
      cbn [head_name]. destruct (Hs x y) as [K|[K _]]; [now left|now left|exact K|]. exfalso. apply A. exact K. }
    constructor; [exact K|]. apply StronglySorted_inv in IH'. destruct IH' as [_ F]. eapply Forall_impl; [|exact F]. intros z hz. cbn in hz. eapply text_lt_trans; eauto.
Qed.
Lemma group_name : forall g x, group_ok g -> In x g -> fst x = head_name g.
Proof. intros g x (n & _ & N1) h. rewrite Forall_forall in N1. rewrite (N1 x h). destruct g as [|y g]; [destruct h|]. symmetry. apply N1. now left. Qed.
Lemma same_group : forall gs g h, StronglySorted (fun g h => text_lt (head_name g) (head_name h)) gs -> In g gs -> In h gs -> head_name g = head_name h -> g = h.
Proof.
  induction gs as [|k gs IH]; intros g h Hs hg hh E; [destruct hg|]. apply StronglySorted_inv in Hs. destruct Hs as [Hs F]. rewrite Forall_forall in F.
  destruct hg as [<-|hg]; destruct hh as [<-|hh]; auto.
  - exfalso. specialize (F h hh). cbn in F. rewrite E in F. exact (text_lt_irrefl _ F).
  - exfalso. specialize (F g hg). cbn in F. rewrite E in F. exact (text_lt_irrefl _ F).
Qed.
Lemma group_shared : forall l gs g x, concat gs = clean l -> Forall group_ok gs -> adjacent gs -> In g gs -> In x g -> ((1 < length g)%nat <-> shared l x).
Proof.
  intros l gs g x C O A hg hx. pose proof (clean_sorted l) as Hs. pose proof (sorted_NoDup _ Hs) as D. rewrite <- C in Hs, D.
  pose proof (groups_apart gs Hs O A) as P. pose proof O as O'. rewrite Forall_forall in O'. apply NoDup_concat in D. rewrite Forall_forall in D. specialize (D g hg).
  assert (M : forall y h, In h gs -> In y h -> In y l). { intros y h hh hy. apply clean_In. rewrite <- C. apply in_concat. eauto. }
  split.
  - intros L. destruct g as [|y [|z g]]; cbn [length] in L; try lia.
    assert (K : y <> z). { intros ->. inversion D as [|? ? D1 _]; subst. apply D1. now left. }
    assert (B : forall w, In w (y :: z :: g) -> w <> x -> shared l x).
    { intros w hw n. exists w. split; [eapply M; eauto|]. split; auto. rewrite (group_name _ w (O' _ hg) hw), (group_name _ x (O' _ hg) hx). reflexivity. }
    destruct (symbol_eqb y x) eqn:E.
    + apply symbol_eqb_eq in E. apply (B z); [right; now left|congruence].
    + apply (B y); [now left|]. intros ->. rewrite symbol_eqb_refl in E. discriminate.
  - intros (y & hy & n & E). apply clean_In in hy. rewrite <- C in hy. apply in_concat in hy. destruct hy as (h & hh & hy).
    assert (g = h). { eapply same_group; eauto. rewrite <- (group_name g x), <- (group_name h y); auto. }
    subst h. destruct g as [|a [|b g]]; cbn [length]; [destruct hx| |lia].
    destruct hx as [<-|[]]. destruct hy as [<-|[]]. congruence.
Qed.
Lemma pass_exact : forall l y, In y (fst (dedup_names_pass l)) <-> exists x, In x l /\ ((shared l x /\ y = rename x) \/ (~ shared l x /\ y = x)).
Proof.
  intros l y. destruct (pass_spec l) as (gs & C & O & A & ->). cbn [fst]. split.
  - intros h. apply in_concat in h. destruct h as (t & ht & hy). apply in_map_iff in ht. destruct ht as (g & <- & hg).
    assert (K : forall x, In x g -> In x l /\ ((1 < length g)%nat <-> shared l x)).
    { intros x hx. split; [apply clean_In; rewrite <- C; apply in_concat; eauto|]. eapply group_shared; eauto. }
    unfold treat in hy. destruct (Nat.ltb_spec 1 (length g)) as [L|L].
    + apply in_map_iff in hy. destruct hy as (x & <- & hx). destruct (K x hx) as [k1 k2]. exists x. split; auto. left. split; auto. now apply k2.
    + destruct (K y hy) as [k1 k2]. exists y. split; auto. right. split; auto. intros h. apply k2 in h. lia.
  - intros (x & hx & h). apply clean_In in hx. rewrite <- C in hx. apply in_concat in hx. destruct hx as (g & hg & hx).
    pose proof (group_shared l gs g x C O A hg hx) as K. apply in_concat. exists (treat g). split; [now apply in_map|].
    unfold treat. destruct (Nat.ltb_spec 1 (length g)) as [L|L].
    + destruct h as [[_ ->]|[h _]]; [now apply in_map|]. exfalso. apply h. now apply K.
    + destruct h as [[h _]|[_ ->]]; [apply K in h; lia|exact hx].
Qed.
Lemma extended_between : forall a n m, extended a n m -> (length m <= length n + 9)%nat -> m = n \/ exists t, m = n ++ [95] ++ t /\ spells a t.
Proof.
  intros a n m h L. destruct h as [|m t h Ht]; [now left|]. right. exists t. split; auto. f_equal.
  destruct h as [|m' t' h Ht']; [reflexivity|]. exfalso.
  assert (length n <= length m')%nat. { clear - h. induction h; auto. rewrite !app_length. lia. }
  destruct Ht as [Ht _]. destruct Ht' as [Ht' _]. rewrite !app_length in L. cbn [length] in L. lia.
Qed.
(** A shared name gets one suffix if no other symbol can get the name with it. *)
Lemma once : forall fuel (l r : list symbol), Forall (fun s => snd s < 2 ^ 32) l -> dedup_names fuel l = Some r ->
  forall n a b t, In (n, a) l -> In (n, b) l -> b <> a -> spells a t ->
  (forall n' a', In (n', a') l -> extended a' n' (n ++ [95] ++ t) -> (n', a') = (n, a)) -> In (n ++ [95] ++ t, a) r.
Proof.
  intros fuel l r B E n a b t h k ne Ht U. pose proof (names_unique (S (length l)) l B) as Z.
  assert (Ba : a < 2 ^ 32). { rewrite Forall_forall in B. exact (B _ h). }
  assert (Q : fst (rename (n, a)) = n ++ [95] ++ t). { rewrite (spells_hex8 a t Ba Ht). reflexivity. }
  assert (Sh : shared l (n, a)) by (exists (n, b); repeat split; auto; congruence).
  destruct fuel as [|fuel]; [discriminate|]. cbn [dedup_names] in E.
  assert (I1 : In (n ++ [95] ++ t, a) (fst (dedup_names_pass l))).
  { apply pass_exact. exists (n, a). split; auto. left. split; auto. rewrite <- Q. reflexivity. }
  pose proof (pass_bounded l B) as B1. pose proof (pass_final l) as P3.
  assert (U1 : forall n' a', In (n', a') (fst (dedup_names_pass l)) -> extended a' n' (n ++ [95] ++ t) -> (n', a') = (n ++ [95] ++ t, a)).
  { intros n' a' h' x'. destruct (pass_derived l B) as (_ & D & _). destruct (D n' a' h') as (n0 & h0 & x0).
    pose proof (U n0 a' h0 (extended_trans _ _ _ _ x0 x')) as W. injection W as -> ->.
    assert (L : length t = 8%nat) by apply Ht.
    assert (H : Peano.le (length n') (length (n ++ [95] ++ t))). { clear - x'. revert x'. generalize (n ++ [95] ++ t). intros m x'. induction x'; auto. rewrite !app_length. lia. }
    rewrite !app_length in H. cbn [length] in H. destruct (extended_between a n n' x0) as [->|(t' & -> & Ht')]; [lia| |].
    - exfalso. apply pass_exact in h'. destruct h' as ([m c] & hm & [[_ e]|[e1 e2]]).
      + pose proof (f_equal snd e) as e2. unfold rename in e2. cbn [snd] in e2. subst c.
        assert (x1 : extended a m n). { rewrite (f_equal fst e : n = _). apply rename_extended; auto. constructor. }
        pose proof (U m a hm (extended_trans _ _ _ _ x1 x')) as W. injection W as ->. 
        apply (f_equal fst) in e. apply (f_equal (@length _)) in e. unfold rename in e. cbn [fst] in e. rewrite app_length in e. cbn [length] in e. lia.
      + rewrite <- e2 in e1. exact (e1 Sh).
    - rewrite (spells_hex8 _ _ Ba Ht'), (spells_hex8 _ _ Ba Ht). reflexivity. }
  destruct (dedup_names_pass l) as [l' d]. cbn [fst snd] in *. destruct d.
  - destruct (names_unique (S (length l')) l' B1) as (r' & E' & _ & (_ & _ & D3) & _). { pose proof (unmarked_length l'). lia. }
    assert (r' = r). { pose proof (dedup_names_more _ _ _ E' (S (length l') + fuel) ltac:(lia)) as e1. pose proof (dedup_names_more _ _ _ E (S (length l') + fuel) ltac:(lia)) as e2. congruence. }
    subst r'. apply D3; auto.
  - injection E as <-. exact I1.
Qed.
