(** Facts for C54. *)
From Coq Require Import Arith NArith ZArith Bool List Lia Sorted.
From Coq Require Import ZifyBool ZifyNat ZifyN.
From Verif Require Import BlocksModel ElfModel ElfSpec.
Import ListNotations.
Local Open Scope N_scope.

(** ** Arithmetic *)
Lemma w32_small a : a < 2 ^ 32 -> w32 a = a.
Proof. unfold w32. apply N.mod_small. Qed.
Lemma w32_bound a : w32 a < 2 ^ 32.
Proof. unfold w32. apply N.mod_lt. discriminate. Qed.
Lemma to_u32_bound z : to_u32 z < 2 ^ 32.
Proof. unfold to_u32. assert (0 <= z mod 2 ^ 32 < 2 ^ 32)%Z by (apply Z.mod_pos_bound; reflexivity). lia. Qed.
Lemma to_i32_mod a : ((to_i32 a) mod 2 ^ 32 = Z.of_N a mod 2 ^ 32)%Z.
Proof.
  unfold to_i32, w32. rewrite N2Z.inj_mod. change (Z.of_N (2 ^ 32)) with (2 ^ 32)%Z. set (z := Z.of_N a). cbv zeta.
  destruct (z mod 2 ^ 32 <? 2 ^ 31)%Z; [now rewrite Z.mod_mod|]. replace (z mod 2 ^ 32 - 2 ^ 32)%Z with (z mod 2 ^ 32 + (-1) * 2 ^ 32)%Z by lia.
  rewrite Z.mod_add by discriminate. now rewrite Z.mod_mod.
Qed.
Lemma to_u32_eq x y : (x mod 2 ^ 32 = y mod 2 ^ 32)%Z -> to_u32 x = to_u32 y.
Proof. unfold to_u32. now intros ->. Qed.
Lemma add_mod x x' y y' : (x mod 2 ^ 32 = x' mod 2 ^ 32)%Z -> (y mod 2 ^ 32 = y' mod 2 ^ 32)%Z -> ((x + y) mod 2 ^ 32 = (x' + y') mod 2 ^ 32)%Z.
Proof. intros A B. now rewrite Zplus_mod, A, B, <- Zplus_mod. Qed.
Lemma of_to_u32 z : (Z.of_N (to_u32 z) mod 2 ^ 32 = z mod 2 ^ 32)%Z.
Proof. unfold to_u32. assert (0 <= z mod 2 ^ 32 < 2 ^ 32)%Z by (apply Z.mod_pos_bound; reflexivity). rewrite Z2N.id by lia. now rewrite Z.mod_mod. Qed.
Lemma wrap_add_mod x y : (wrap_add x y mod 2 ^ 32 = (x + y) mod 2 ^ 32)%Z.
Proof. unfold wrap_add. rewrite to_i32_mod. apply of_to_u32. Qed.
Lemma plus_u32 a z : plus a z = to_u32 (Z.of_N a + z).
Proof. reflexivity. Qed.
Lemma jump_target a z : to_u32 (z + to_i32 a) = plus a z.
Proof. rewrite plus_u32. apply to_u32_eq. rewrite Z.add_comm. apply add_mod; [apply to_i32_mod|reflexivity]. Qed.
Lemma pair_target a hi lo : to_u32 (wrap_add (wrap_add hi (to_i32 a)) lo) = plus a (hi + lo).
Proof.
  rewrite plus_u32. apply to_u32_eq. rewrite wrap_add_mod. replace (Z.of_N a + (hi + lo))%Z with (hi + Z.of_N a + lo)%Z by lia.
  apply add_mod; [|reflexivity]. rewrite wrap_add_mod. apply add_mod; [reflexivity|apply to_i32_mod].
Qed.
Lemma abs_target hi lo : to_u32 (wrap_add hi lo) = plus 0 (hi + lo).
Proof. rewrite plus_u32. apply to_u32_eq. rewrite wrap_add_mod. reflexivity. Qed.
Lemma plus_bound a z : plus a z < 2 ^ 32.
Proof. rewrite plus_u32. apply to_u32_bound. Qed.
Lemma plus_small a z : (0 <= Z.of_N a + z < 2 ^ 32)%Z -> plus a z = Z.to_N (Z.of_N a + z).
Proof. intros H. unfold plus. now rewrite Z.mod_small. Qed.
Lemma plus_plus a x y : plus (plus a x) y = plus a (x + y).
Proof.
  rewrite !plus_u32. apply to_u32_eq. rewrite Z.add_assoc. apply add_mod; [|reflexivity]. apply of_to_u32.
Qed.
Lemma plus_w32 a n : plus a (Z.of_nat n) = w32 (a + N.of_nat n).
Proof. unfold plus, w32. rewrite <- N2Z.id. f_equal. rewrite N2Z.inj_mod. f_equal. lia. Qed.

(** ** Maps *)
Definition klt {V} (a b : N * V) : Prop := fst a < fst b.
Lemma bt_insert_in {V} k (v : V) m k' v' : ~ In k (map fst m) -> (In (k', v') (bt_insert k v m) <-> (k', v') = (k, v) \/ In (k', v') m).
Proof.
  induction m as [|[x y] m IH]; intros N0; cbn [bt_insert In map fst] in *.
  - split; intros H; [destruct H as [H|[]]; left; congruence|destruct H as [H|[]]; left; congruence].
  - destruct (k <? x) eqn:L; [cbn [In]; split; intros H; intuition congruence|]. destruct (N.eqb_spec k x) as [->|E]; [exfalso; apply N0; now left|].
    cbn [In]. rewrite IH by (intros H; apply N0; now right). intuition congruence.
Qed.
Lemma bt_insert_keys {V} k (v : V) m x : In x (map fst (bt_insert k v m)) <-> x = k \/ In x (map fst m).
Proof.
  induction m as [|[a b] m IH]; cbn [bt_insert map fst In]; [intuition congruence|]. destruct (k <? a); [cbn [map fst In]; intuition congruence|].
  destruct (N.eqb_spec k a) as [->|E]; cbn [map fst In]; [intuition congruence|]. rewrite IH. intuition congruence.
Qed.
Lemma bt_insert_sorted {V} k (v : V) m : StronglySorted klt m -> StronglySorted klt (bt_insert k v m).
Proof.
  induction m as [|[x y] m IH]; intros H; cbn [bt_insert]; [repeat constructor|]. inversion_clear H as [|? ? H1 H2].
  destruct (k <? x) eqn:L.
  - constructor; [constructor; auto|]. constructor; [unfold klt; cbn; lia|]. eapply Forall_impl; [|exact H2]. unfold klt. cbn. intros [p q]. cbn. lia.
  - destruct (N.eqb_spec k x) as [->|E]; [constructor; auto|]. constructor; auto. apply Forall_forall. intros [p q] H.
    assert (G : In p (map fst (bt_insert k v m))) by (apply in_map_iff; exists (p, q); auto). apply bt_insert_keys in G. unfold klt. cbn. destruct G as [->|G]; [lia|].
    apply in_map_iff in G. destruct G as ([p' q'] & E1 & G). cbn in E1. subst p'. rewrite Forall_forall in H2. specialize (H2 _ G). unfold klt in H2. cbn in H2. lia.
Qed.
Lemma bt_get_insert {V} k (v : V) m k' : bt_get k' (bt_insert k v m) = if k' =? k then Some v else bt_get k' m.
Proof.
  induction m as [|[x y] m IH]; cbn [bt_insert bt_get]; [reflexivity|]. destruct (k <? x) eqn:L; [reflexivity|].
  destruct (N.eqb_spec k x) as [->|E]; cbn [bt_get]; [destruct (k' =? x); reflexivity|]. rewrite IH. destruct (N.eqb_spec k' x) as [->|E']; [|reflexivity]. destruct (N.eqb_spec x k); [congruence|reflexivity].
Qed.
Lemma sorted_snoc {V} (m : list (N * V)) e : StronglySorted klt (m ++ [e]) -> StronglySorted klt m /\ Forall (fun x => klt x e) m.
Proof.
  induction m as [|x m IH]; intros H; [split; constructor|]. inversion_clear H as [|? ? H1 H2]. destruct (IH H1) as [A B]. apply Forall_app in H2. destruct H2 as [H2 H3]. split; constructor; auto. now inversion H3.
Qed.
Lemma last_ok {V} a (m : list (N * V)) : StronglySorted klt m ->
  match last_at_most a m with
  | Some v => exists k, In (k, v) m /\ k <= a /\ forall k' v', In (k', v') m -> k' <= a -> k' <= k
  | None => forall k v, In (k, v) m -> a < k
  end.
Proof.
  induction m as [|e m IH] using rev_ind; intros H; [intros k v []|]. destruct (sorted_snoc _ _ H) as [A B]. specialize (IH A).
  unfold last_at_most in *. rewrite fold_left_app. cbn [fold_left]. destruct e as [k0 v0]. cbn [fst snd]. destruct (k0 <=? a) eqn:L.
  - exists k0. split; [apply in_or_app; right; now left|]. split; [lia|]. intros k' v' G _. apply in_app_or in G. destruct G as [G|[G|[]]]; [|injection G; lia].
    rewrite Forall_forall in B. specialize (B _ G). unfold klt in B. cbn in B. lia.
  - destruct (fold_left _ m None) as [v|].
    + destruct IH as (k & G1 & G2 & G3). exists k. split; [apply in_or_app; now left|]. split; auto. intros k' v' G L'. apply in_app_or in G. destruct G as [G|[G|[]]]; [eauto|]. injection G as <- <-. lia.
    + intros k v G. apply in_app_or in G. destruct G as [G|[G|[]]]; [eauto|]. injection G as <- <-. lia.
Qed.
Lemma amap_ok segs : NoDup (map s_vaddr segs) -> Forall (fun s => s_vaddr s < 2 ^ 32) segs ->
  StronglySorted klt (address_map segs) /\ forall k s, In (k, s) (address_map segs) <-> In s segs /\ k = s_vaddr s.
Proof.
  intros D B. unfold address_map.
  assert (G : forall segs m, NoDup (map s_vaddr segs) -> Forall (fun s => s_vaddr s < 2 ^ 32) segs -> StronglySorted klt m ->
    (forall s, In s segs -> ~ In (s_vaddr s) (map fst m)) ->
    StronglySorted klt (fold_left (fun m s => bt_insert (w32 (s_vaddr s)) s m) segs m) /\
    forall k s, In (k, s) (fold_left (fun m s => bt_insert (w32 (s_vaddr s)) s m) segs m) <-> (In s segs /\ k = s_vaddr s) \/ In (k, s) m).
  { clear. induction segs as [|s segs IH]; intros m D B S Hm; cbn [fold_left]; [split; auto; intros; cbn; tauto|]. pose proof (proj1 (NoDup_cons_iff _ _) D) as [D1 D2]. inversion_clear B as [|? ? B1 B2].
    rewrite w32_small by auto. destruct (IH (bt_insert (s_vaddr s) s m)) as [I1 I2]; auto.
    - now apply bt_insert_sorted.
    - intros s' Hs' H. apply bt_insert_keys in H. destruct H as [H|H]; [|eapply Hm; eauto; now right]. apply D1. rewrite <- H. now apply in_map.
    - split; auto. intros k s'. rewrite I2, bt_insert_in by (apply Hm; now left). cbn [In]. split.
      + intros [[H E]|[H|H]]; auto. injection H as -> ->. left. auto.
      + intros [[[<-|H] E]|H]; auto. right. left. now rewrite E. }
  destruct (G segs [] D B) as [G1 G2]; [constructor|intros s _ []|]. split; auto. intros k s. rewrite G2. cbn. tauto.
Qed.
Lemma nodup_inj {A B} (f : A -> B) l x y : NoDup (map f l) -> In x l -> In y l -> f x = f y -> x = y.
Proof.
  induction l as [|a l IH]; intros D Hx Hy E; [destruct Hx|]. destruct Hx as [<-|Hx]; destruct Hy as [<-|Hy]; auto; cbn [map] in D; pose proof (proj1 (NoDup_cons_iff _ _) D) as [D1 D2].
  - exfalso. apply D1. rewrite E. now apply in_map.
  - exfalso. apply D1. rewrite <- E. now apply in_map.
  - now apply IH.
Qed.
Lemma section_ok segs a s : segments_ok segs -> (section_of (address_map segs) a = Some s <-> owner segs a s).
Proof.
  intros [D B]. destruct (amap_ok segs D) as [So I]; [eapply Forall_impl; [|exact B]; cbv beta; intros; lia|].
  assert (B' : forall s, In s segs -> s_vaddr s + s_memsz s < 2 ^ 32) by (apply Forall_forall; exact B).
  unfold section_of, owner. pose proof (last_ok a _ So) as L. destruct (last_at_most a (address_map segs)) as [s0|].
  - destruct L as (k & L1 & L2 & L3). apply I in L1. destruct L1 as [L1 ->]. specialize (B' _ L1) as B0. rewrite !w32_small by (rewrite ?w32_small; lia).
    assert (M : forall s', In s' segs -> s_vaddr s' <= a -> s_vaddr s' <= s_vaddr s0) by (intros s' H1 H2; apply (L3 _ s'); auto; apply I; auto).
    destruct (N.ltb_spec (s_vaddr s0 + s_memsz s0) a); split.
    + discriminate.
    + intros (H1 & H2 & H3). exfalso. assert (s = s0); [|subst; lia]. apply (nodup_inj s_vaddr segs); auto. pose proof (H3 s0 L1 L2). pose proof (M s H1 (proj1 H2)). lia.
    + intros [= <-]. split; auto.
    + intros (H1 & H2 & H3). f_equal. symmetry. apply (nodup_inj s_vaddr segs); auto. pose proof (H3 s0 L1 L2). pose proof (M s H1 (proj1 H2)). lia.
  - split; [discriminate|]. intros (H1 & H2 & _). exfalso. assert (a < s_vaddr s); [|lia]. apply (L _ s). apply I. auto.
Qed.
Lemma text_ok segs a : segments_ok segs -> (is_in_text_section (address_map segs) a = true <-> text_address segs a).
Proof.
  intros H. unfold is_in_text_section, text_address. destruct (section_of (address_map segs) a) as [s|] eqn:E.
  - split; [intros Hs; exists s; split; auto; now apply section_ok|]. intros (s' & O & X). apply section_ok in O; auto. congruence.
  - split; [discriminate|]. intros (s' & O & X). apply section_ok in O; auto. congruence.
Qed.
Lemma data_ok segs a : segments_ok segs -> (is_in_data_section (address_map segs) a = true <-> data_address segs a).
Proof.
  intros H. unfold is_in_data_section, data_address. destruct (section_of (address_map segs) a) as [s|] eqn:E.
  - split; [intros Hs; exists s; split; [now apply section_ok|now destruct (s_exec s)]|]. intros (s' & O & X). apply section_ok in O; auto. assert (s' = s) by congruence. subst. now rewrite X.
  - split; [discriminate|]. intros (s' & O & X). apply section_ok in O; auto. congruence.
Qed.

(** ** Instructions *)
Definition adjacent {A} (x y : A) (l : list A) : Prop := exists p q, l = p ++ x :: y :: q.
Lemma adjacent_cons {A} (x y a : A) l : adjacent x y (a :: l) <-> (a = x /\ exists q, l = y :: q) \/ adjacent x y l.
Proof.
  split.
  - intros ([|b p] & q & E); injection E as -> E; [left; eauto|right; exists p, q; auto].
  - intros [[-> [q ->]]|(p & q & ->)]; [exists [], q; auto|exists (a :: p), q; auto].
Qed.
Section Decode.
  Variable decode32 : N -> option ins.
  Variable decode16 : N -> decoded16.
  (** The same with the function of the model. *)
  Inductive lies_at0 : N -> list N -> N -> maybe_ins -> nat -> Prop :=
  | lies_here0 base data m n : first_ins decode32 decode16 data = Some (m, n) -> lies_at0 base data base m n
  | lies_later0 base data m' n' a m n : first_ins decode32 decode16 data = Some (m', n') ->
      lies_at0 (w32 (base + N.of_nat n')) (skipn n' data) a m n -> lies_at0 base data a m n.
  Inductive lies_two0 : N -> list N -> N -> maybe_ins -> nat -> maybe_ins -> nat -> Prop :=
  | two_here0 base data m1 n1 m2 n2 : first_ins decode32 decode16 data = Some (m1, n1) ->
      first_ins decode32 decode16 (skipn n1 data) = Some (m2, n2) -> lies_two0 base data base m1 n1 m2 n2
  | two_later0 base data m' n' a m1 n1 m2 n2 : first_ins decode32 decode16 data = Some (m', n') ->
      lies_two0 (w32 (base + N.of_nat n')) (skipn n' data) a m1 n1 m2 n2 -> lies_two0 base data a m1 n1 m2 n2.
  Lemma land3 b : (N.land b 3 =? 3) = (b mod 4 =? 3).
  Proof. change 3 with (N.ones 2) at 1. now rewrite N.land_ones. Qed.
  Lemma first_ok data m n : first_ins decode32 decode16 data = Some (m, n) <-> first_of decode32 decode16 data m n.
  Proof.
    assert (W4 : forall b0 b1 b2 b3, le_bytes [b0; b1; b2; b3] = b0 + 2 ^ 8 * b1 + 2 ^ 16 * b2 + 2 ^ 24 * b3) by (intros; cbn [le_bytes]; change (2 ^ 8) with 256; change (2 ^ 16) with 65536; change (2 ^ 24) with 16777216; lia).
    assert (W2 : forall b0 b1, le_bytes [b0; b1] = b0 + 2 ^ 8 * b1) by (intros; cbn [le_bytes]; change (2 ^ 8) with 256; lia).
    split.
    - intros H. unfold first_ins in H. destruct data as [|b0 data]; [discriminate|]. rewrite land3 in H. destruct (N.eqb_spec (b0 mod 4) 3) as [E|E].
      + destruct data as [|b1 [|b2 [|b3 rest]]]; try discriminate H. cbn [length Nat.leb firstn] in H. rewrite W4 in H. destruct (decode32 _) as [i|] eqn:D.
        * destruct (i_op i) eqn:O; injection H as <- <-; try (apply first_long; auto; rewrite O; discriminate). apply first_unimp; auto. right. eauto.
        * injection H as <- <-. apply first_unimp; auto.
      + destruct data as [|b1 rest]; try discriminate H. cbn [length Nat.leb firstn] in H. cbv zeta in H. rewrite W2 in H. destruct (decode16 _) as [c| |] eqn:D; [|destruct (N.eqb_spec (b0 + 2 ^ 8 * b1) 0) as [Z|]; [|discriminate]|discriminate].
        * destruct (to_32bit_equivalent c) as [i|] eqn:T; [|discriminate]. injection H as <- <-. eapply first_short; eauto.
        * injection H as <- <-. change (2 ^ 8) with 256 in *. apply first_zero; auto; lia.
    - intros H. destruct H as [b0 b1 b2 b3 rest i E D O|b0 b1 b2 b3 rest E D|b0 b1 rest c i E D T|b0 b1 rest E D Z0 Z1]; unfold first_ins; rewrite land3.
      + rewrite E. cbn [N.eqb Pos.eqb length Nat.leb firstn]. rewrite W4, D. destruct (i_op i); congruence.
      + rewrite E. cbn [N.eqb Pos.eqb length Nat.leb firstn]. rewrite W4. destruct D as [D|(i & D & O)]; rewrite D; [reflexivity|]. now rewrite O.
      + apply N.eqb_neq in E. rewrite E. cbn [length Nat.leb firstn]. cbv zeta. rewrite W2, D, T. reflexivity.
      + apply N.eqb_neq in E. rewrite E. cbn [length Nat.leb firstn]. cbv zeta. rewrite W2, D. subst. reflexivity.
  Qed.
  Lemma lies_ok base data a m n : lies_at0 base data a m n <-> lies_at decode32 decode16 base data a m n.
  Proof. split; induction 1; [eapply lies_here|eapply lies_later|eapply lies_here0|eapply lies_later0]; eauto; apply first_ok; eauto. Qed.
  Lemma lies_two_ok base data a m1 n1 m2 n2 : lies_two0 base data a m1 n1 m2 n2 <-> lies_two decode32 decode16 base data a m1 n1 m2 n2.
  Proof. split; induction 1; [eapply two_here|eapply two_later|eapply two_here0|eapply two_later0]; eauto; apply first_ok; eauto. Qed.
  Lemma first_nonempty d m n : first_ins decode32 decode16 d = Some (m, n) -> d <> [].
  Proof. intros H ->. discriminate. Qed.
  Lemma iterate_ok0 : forall fuel addr data l, iterate decode32 decode16 fuel addr data = Some l ->
    (forall a m, In (a, m) l <-> exists n, lies_at0 addr data a m n) /\
    (forall a m1 m2, (exists a2, adjacent (a, m1) (a2, m2) l) <-> exists n1 n2, lies_two0 addr data a m1 n1 m2 n2) /\
    (l = [] <-> data = []).
  Proof.
    induction fuel as [|fuel IH]; intros addr data l H.
    - destruct data; [|discriminate]. injection H as <-. split; [|split; [|tauto]].
      + intros a m. split; [intros []|]. intros (n & G). inversion G; subst; discriminate.
      + intros a m1 m2. split; [intros (a2 & [|] & q & E); discriminate|]. intros (n1 & n2 & G). inversion G; subst; discriminate.
    - destruct data as [|b data0].
      + injection H as <-. split; [|split; [|tauto]].
        * intros a m. split; [intros []|]. intros (n & G). inversion G; subst; discriminate.
        * intros a m1 m2. split; [intros (a2 & [|] & q & E); discriminate|]. intros (n1 & n2 & G). inversion G; subst; discriminate.
      + set (data := b :: data0) in *. cbn [iterate] in H. fold data in H. destruct (first_ins decode32 decode16 data) as [[m0 n0]|] eqn:F0; [|unfold data in H; discriminate].
        unfold data in H at 1. destruct (iterate decode32 decode16 fuel (w32 (addr + N.of_nat n0)) (skipn n0 data)) as [r|] eqn:R; [|discriminate]. injection H as <-.
        destruct (IH _ _ _ R) as (I1 & I2 & I3). split; [|split; [|split; discriminate]].
        * intros a m. cbn [In]. rewrite I1. split.
          -- intros [E|(n & G)]; [injection E as <- <-; exists n0; now constructor|exists n; econstructor; eauto].
          -- intros (n & G). inversion G; subst; [left; congruence|]. right. exists n. assert (n' = n0) by congruence. now subst.
        * intros a m1 m2. split.
          -- intros (a2 & G). apply adjacent_cons in G. destruct G as [[E (q & Eq)]|G].
             ++ injection E as <- <-. assert (In (a2, m2) r) by (rewrite Eq; now left). 
                destruct fuel as [|fuel]; [destruct (skipn n0 data); [injection R as <-; destruct H|discriminate]|]. cbn [iterate] in R. destruct (skipn n0 data) eqn:Sk; [injection R as <-; destruct H|]. rewrite <- Sk in R.
                destruct (first_ins decode32 decode16 (skipn n0 data)) as [[m' n']|] eqn:F1; [|discriminate]. destruct (iterate decode32 decode16 fuel _ _) as [r'|]; [|discriminate].
                rewrite Eq in R. injection R as E1 E2 E3. subst m'. exists n0, n'. now constructor.
             ++ destruct (proj1 (I2 a m1 m2)) as (n1 & n2 & L); [eauto|]. exists n1, n2. econstructor; eauto.
          -- intros (n1 & n2 & G). inversion G as [? ? ? ? ? ? F1 F2|? ? ? n' ? ? ? ? ? F1 G']; subst.
             ++ assert (m1 = m0 /\ n1 = n0) as [-> ->] by (split; congruence). 
                destruct fuel as [|fuel]; [destruct (skipn n0 data) eqn:Sk; [discriminate|cbn [iterate] in R; discriminate]|]. cbn [iterate] in R. destruct (skipn n0 data) eqn:Sk; [discriminate|]. rewrite <- Sk in R, F2.
                rewrite F2 in R. destruct (iterate decode32 decode16 fuel _ _) as [r'|]; [|discriminate]. injection R as <-. eexists. apply adjacent_cons. left. split; [reflexivity|]. eauto.
             ++ assert (n' = n0) by congruence. subst n'. destruct (proj2 (I2 a m1 m2)) as (a2 & L); [eauto|]. exists a2. apply adjacent_cons. now right.
  Qed.
  Lemma iterate_ok : forall fuel addr data l, iterate decode32 decode16 fuel addr data = Some l ->
    (forall a m, In (a, m) l <-> exists n, lies_at decode32 decode16 addr data a m n) /\
    (forall a m1 m2, (exists a2, adjacent (a, m1) (a2, m2) l) <-> exists n1 n2, lies_two decode32 decode16 addr data a m1 n1 m2 n2) /\
    (l = [] <-> data = []).
  Proof.
    intros fuel addr data l H. destruct (iterate_ok0 _ _ _ _ H) as (H1 & H2 & H3). split; [|split; auto].
    - intros a m. rewrite H1. split; intros (n & X); exists n; now apply lies_ok.
    - intros a m1 m2. rewrite H2. split; intros (n1 & n2 & X); exists n1, n2; now apply lies_two_ok.
  Qed.
End Decode.

(** ** The first pass over the instructions *)
Section Pass.
  Variable rellocs : list N.
  Variable amap : list (N * segment).
  Local Notation text := (is_in_text_section amap).
  (** What a pair of instructions refers to. *)
  Inductive pair_label (a : N) (i1 i2 : ins) : N -> Prop :=
  | pl_call rd1 hi rd2 rs1 lo : i_op i1 = AUIPC -> i_rd i1 = Some rd1 -> i_imm i1 = Some hi ->
      i_op i2 = JALR -> i_rd i2 = Some rd2 -> i_rs1 i2 = Some rs1 -> i_imm i2 = Some lo -> pair_label a i1 i2 (plus a (hi + lo))
  | pl_relative rd hi rd2 lo : i_op i1 = AUIPC -> i_rd i1 = Some rd -> i_imm i1 = Some hi ->
      i_op i2 = ADDI -> i_rd i2 = Some rd2 -> i_rs1 i2 = Some rd -> i_imm i2 = Some lo ->
      rd2 <> 3 -> text (plus a (hi + lo)) = true -> pair_label a i1 i2 (plus a (hi + lo))
  | pl_absolute rd hi rd2 lo : i_op i1 = LUI -> i_rd i1 = Some rd -> i_imm i1 = Some hi ->
      i_op i2 = ADDI -> i_rd i2 = Some rd2 -> i_rs1 i2 = Some rd -> i_imm i2 = Some lo ->
      In a rellocs -> rd2 <> 3 -> text (plus 0 (hi + lo)) = true -> pair_label a i1 i2 (plus 0 (hi + lo)).
  Definition mentions (l : list (N * maybe_ins)) (t : N) : Prop :=
    (exists a i z, In (a, Ins i) l /\ is_jump (i_op i) = true /\ i_imm i = Some z /\ t = plus a z) \/
    (exists a a2 i1 i2, adjacent (a, Ins i1) (a2, Ins i2) l /\ pair_label a i1 i2 t).
  Lemma mem_addr_in a l : mem_addr a l = true <-> In a l.
  Proof. unfold mem_addr. rewrite existsb_exists. split; [intros (x & H & E); apply N.eqb_eq in E; now subst|intros H; exists a; split; auto; apply N.eqb_refl]. Qed.

  Lemma composed_label hi lo rd1 rd2 a2 is_address op rd imm : composed_immediate amap None hi lo rd1 rd2 a2 is_address = Some (op, rd, imm) ->
    forall t, (match imm with HLabel x => [x] | _ => [] end = [t]) <-> (is_address = true /\ text (to_u32 (wrap_add hi lo)) = true /\ rd2 <> 3 /\ t = to_u32 (wrap_add hi lo)).
  Proof.
    unfold composed_immediate. cbv zeta. destruct is_address; cbn [andb].
    - destruct (text (to_u32 (wrap_add hi lo))) eqn:T; cbn [andb].
      + destruct (N.eqb_spec rd2 3) as [->|E]; cbn [negb].
        * destruct (rd1 =? 3); [|discriminate]. intros [= <- <- <-] t. split; [discriminate|intros (_ & _ & H & _); congruence].
        * intros [= <- <- <-] t. split; [intros [= <-]; auto|intros (_ & _ & _ & ->); reflexivity].
      + destruct (rd1 =? rd2); [|discriminate]. intros [= <- <- <-] t. split; [discriminate|intros (_ & H & _); congruence].
    - destruct (rd1 =? rd2); [|discriminate]. intros [= <- <- <-] t. split; [discriminate|intros (H & _); congruence].
  Qed.
  Lemma composed_none hi lo rd1 rd2 a2 is_address : composed_immediate amap None hi lo rd1 rd2 a2 is_address = None ->
    ~ (is_address = true /\ text (to_u32 (wrap_add hi lo)) = true /\ rd2 <> 3).
  Proof.
    unfold composed_immediate. cbv zeta. intros H (-> & T & E). rewrite T in H. cbn [andb] in H. destruct (N.eqb_spec rd2 3); [congruence|discriminate].
  Qed.
  Lemma pair_abs a i1 i2 t hi lo rd2 : i_op i1 = LUI -> i_imm i1 = Some hi -> i_rd i2 = Some rd2 -> i_imm i2 = Some lo -> pair_label a i1 i2 t ->
    In a rellocs /\ text (plus 0 (hi + lo)) = true /\ rd2 <> 3 /\ t = plus 0 (hi + lo).
  Proof. intros A B C D X. destruct X as [q1 q2 q3 q4 q5|q1 q2 q3 q4|q1 q2 q3 q4]; try congruence. assert (q2 = hi) by congruence. assert (q4 = lo) by congruence. assert (q3 = rd2) by congruence. subst. auto. Qed.
  Lemma pair_rel a i1 i2 t hi lo rd2 : i_op i1 = AUIPC -> i_op i2 = ADDI -> i_imm i1 = Some hi -> i_rd i2 = Some rd2 -> i_imm i2 = Some lo -> pair_label a i1 i2 t ->
    text (plus a (hi + lo)) = true /\ rd2 <> 3 /\ t = plus a (hi + lo).
  Proof. intros A A' B C D X. destruct X as [q1 q2 q3 q4 q5|q1 q2 q3 q4|q1 q2 q3 q4]; try congruence. assert (q2 = hi) by congruence. assert (q4 = lo) by congruence. assert (q3 = rd2) by congruence. subst. auto. Qed.
  Lemma pair_jalr a i1 i2 t hi lo : i_op i1 = AUIPC -> i_op i2 = JALR -> i_imm i1 = Some hi -> i_imm i2 = Some lo -> pair_label a i1 i2 t -> t = plus a (hi + lo).
  Proof. intros A A' B D X. destruct X as [q1 q2 q3 q4 q5|q1 q2 q3 q4|q1 q2 q3 q4]; congruence. Qed.
  Lemma two_ok a m1 a2 m2 : match try_map_two rellocs amap None (a, m1) (a2, m2) with
    | None => True
    | Some (Some h) => exists i1 i2, m1 = Ins i1 /\ m2 = Ins i2 /\ is_jump (i_op i1) = false /\ is_jump (i_op i2) = false /\ i_op i2 <> AUIPC /\ i_op i2 <> LUI /\
        forall t, In t (label_of h) <-> pair_label a i1 i2 t
    | Some None => forall i1 i2 t, m1 = Ins i1 -> m2 = Ins i2 -> ~ pair_label a i1 i2 t
    end.
  Proof.
    unfold try_map_two. cbn [fst snd]. cbv zeta. destruct m1 as [| |i1]; [intros; discriminate| intros; discriminate|]. destruct m2 as [| |i2]; [intros; discriminate|intros; discriminate|].
    destruct (i_op i1) eqn:O1; try (intros j1 j2 t [= <-] [= <-] X; inversion X; congruence).
    - (* LUI *) destruct (i_rd i1) as [rd1|] eqn:R1; [|intros j1 j2 t [= <-] [= <-] X; inversion X; congruence]. destruct (i_imm i1) as [hi|] eqn:M1; [|intros j1 j2 t [= <-] [= <-] X; inversion X; congruence].
      destruct (i_op i2) eqn:O2; try (intros j1 j2 t [= <-] [= <-] X; inversion X; congruence).
      destruct (i_rd i2) as [rd2|] eqn:R2; [|intros j1 j2 t [= <-] [= <-] X; inversion X; congruence]. destruct (i_rs1 i2) as [rs|] eqn:S2; [|intros j1 j2 t [= <-] [= <-] X; inversion X; congruence].
      destruct (i_imm i2) as [lo|] eqn:M2; [|intros j1 j2 t [= <-] [= <-] X; inversion X; congruence].
      destruct (N.eqb_spec rd1 rs) as [->|E]; [|intros j1 j2 t [= <-] [= <-] X; inversion X; congruence].
      destruct (composed_immediate amap None hi lo rs rd2 a2 (mem_addr a rellocs)) as [[[op rd] imm]|] eqn:C.
      + exists i1, i2. rewrite O1, O2. repeat (split; [reflexivity||discriminate|]). intros t. unfold label_of. cbn [h_imm].
        pose proof (composed_label _ _ _ _ _ _ _ _ _ C t) as L. rewrite abs_target in L. split.
        * intros H. assert (G : match imm with HLabel x => [x] | _ => [] end = [t]) by (destruct imm; cbn [In] in H; intuition congruence). apply L in G. destruct G as (G1 & G2 & G3 & ->).
          eapply pl_absolute; eauto. now apply mem_addr_in.
        * intros X. destruct (pair_abs _ _ _ _ _ _ _ O1 M1 R2 M2 X) as (X1 & X2 & X3 & X4). rewrite (proj2 L); [now left|]. split; [now apply mem_addr_in|auto].
      + intros j1 j2 t [= <-] [= <-] X. apply (composed_none _ _ _ _ _ _ C). destruct (pair_abs _ _ _ _ _ _ _ O1 M1 R2 M2 X) as (X1 & X2 & X3 & X4).
        split; [now apply mem_addr_in|]. rewrite abs_target. auto.
    - (* AUIPC *) destruct (i_rd i1) as [rd1|] eqn:R1; [|intros j1 j2 t [= <-] [= <-] X; inversion X; congruence]. destruct (i_imm i1) as [hi|] eqn:M1; [|intros j1 j2 t [= <-] [= <-] X; inversion X; congruence].
      destruct (i_op i2) eqn:O2; destruct (i_rd i2) as [rd2|] eqn:R2; destruct (i_rs1 i2) as [rs|] eqn:S2; destruct (i_rs2 i2) as [rs2|] eqn:T2; destruct (i_imm i2) as [lo|] eqn:M2;
        cbn [is_load is_store andb]; try exact Logic.I;
        try (destruct (rd1 =? rs) eqn:Eq; cbn [andb]; [|exact Logic.I]; destruct (is_in_text_section amap _); [exact Logic.I|]; intros j1 j2 t [= <-] [= <-] X; inversion X; congruence).
      all: try (destruct ((rd1 =? rd2) && (rd2 =? rs)) eqn:Eq; [|exact Logic.I]; destruct (is_in_text_section amap _); [exact Logic.I|];
                exists i1, i2; rewrite O1, O2; repeat (split; [reflexivity||discriminate|]); intros t; unfold label_of; cbn [h_imm]; split; [intros []|intros X; inversion X; congruence]).
      1,2: destruct (N.eqb_spec rd1 rs) as [->|E]; [|exact Logic.I];
        destruct (composed_immediate amap None (wrap_add hi (to_i32 a)) lo rs rd2 a2 true) as [[[op rd] imm]|] eqn:C;
        [ exists i1, i2; rewrite O1, O2; repeat (split; [reflexivity||discriminate|]); intros t; unfold label_of; cbn [h_imm];
          pose proof (composed_label _ _ _ _ _ _ _ _ _ C t) as L; rewrite pair_target in L; split;
          [ intros H; assert (G : match imm with HLabel x => [x] | _ => [] end = [t]) by (destruct imm; cbn [In] in H; intuition congruence); apply L in G; destruct G as (G1 & G2 & G3 & ->); eapply pl_relative; eauto
          | intros X; destruct (pair_rel _ _ _ _ _ _ _ O1 O2 M1 R2 M2 X) as (X1 & X2 & X3); rewrite (proj2 L); [now left|]; auto ]
        | intros j1 j2 t [= <-] [= <-] X; apply (composed_none _ _ _ _ _ _ C); destruct (pair_rel _ _ _ _ _ _ _ O1 O2 M1 R2 M2 X) as (X1 & X2 & X3);
          split; auto; rewrite pair_target; auto ].
      destruct ((rd1 =? rs) && (rs =? rd2)) eqn:Eq.
      + exists i1, i2. rewrite O1, O2. repeat (split; [reflexivity||discriminate|]). intros t. unfold label_of. cbn [h_imm]. rewrite pair_target. split.
        * intros [<-|[]]. eapply pl_call; eauto.
        * intros X. left. symmetry. eapply pair_jalr; eauto.
      + destruct ((rd2 =? 0) && (rs =? 6) && (rd1 =? 6)) eqn:Eq2; [|exact Logic.I]. exists i1, i2. rewrite O1, O2. repeat (split; [reflexivity||discriminate|]). intros t. unfold label_of. cbn [h_imm]. rewrite pair_target. split.
        * intros [<-|[]]. eapply pl_call; eauto.
        * intros X. left. symmetry. eapply pair_jalr; eauto.
    - (* ADDI *) destruct (i_rd i1) as [rd1|] eqn:R1; [|intros j1 j2 t [= <-] [= <-] X; inversion X; congruence]. destruct (i_rs1 i1) as [rs|] eqn:S1; [|intros j1 j2 t [= <-] [= <-] X; inversion X; congruence].
      destruct (i_imm i1) as [z|] eqn:M1; [|intros j1 j2 t [= <-] [= <-] X; inversion X; congruence].
      destruct (i_op i2) eqn:O2; try (intros j1 j2 t [= <-] [= <-] X; inversion X; congruence).
      destruct ((rd1 =? 5) && (rs =? 0) && is_syscall z); [|intros j1 j2 t [= <-] [= <-] X; inversion X; congruence].
      exists i1, i2. rewrite O1, O2. repeat (split; [reflexivity||discriminate|]). intros t. unfold label_of. cbn [h_imm]. split; [intros []|intros X; inversion X; congruence].
  Qed.
  Lemma one_ok a m h r : map_one (a, m) = Some (h, r) ->
    forall t, In t r <-> exists i z, m = Ins i /\ is_jump (i_op i) = true /\ i_imm i = Some z /\ t = plus a z.
  Proof.
    unfold map_one. cbn [fst snd]. cbv zeta. destruct m as [| |i]; try (intros [= <- <-] t; split; [intros []|intros (i & z & E & _); discriminate]).
    destruct (i_op i) eqn:O; try (destruct (i_imm i) as [z|] eqn:M; [|discriminate]); try (destruct (z =? 0)%Z; [|discriminate]); intros [= <- <-] t;
      try (split; [intros []|intros (j & z' & [= <-] & J & _); rewrite O in J; discriminate]);
      rewrite jump_target; (split; [intros [<-|[]]; exists i, z; rewrite O; auto|intros (j & z' & [= <-] & _ & E & ->); left; congruence]).
  Qed.
  Lemma jalr_alone a i h r : map_one (a, Ins i) = Some (h, r) -> i_op i = JALR -> i_imm i = Some 0%Z.
  Proof. unfold map_one. cbn [fst snd]. cbv zeta. intros H E. rewrite E in H. destruct (i_imm i) as [z|]; [|discriminate]. destruct (Z.eqb_spec z 0); [now subst|discriminate]. Qed.

  Lemma mentions_nil t : ~ mentions [] t.
  Proof. intros [(a & i & z & [] & _)|(a & a2 & i1 & i2 & ([|] & q & E) & _)]; discriminate. Qed.
  Lemma mentions_cons a m l t : mentions ((a, m) :: l) t <->
    (exists i z, m = Ins i /\ is_jump (i_op i) = true /\ i_imm i = Some z /\ t = plus a z) \/
    (exists i1 a2 i2 l', m = Ins i1 /\ l = (a2, Ins i2) :: l' /\ pair_label a i1 i2 t) \/ mentions l t.
  Proof.
    split.
    - intros [(b & i & z & [E|H] & J)|(b & a2 & i1 & i2 & Ad & P)].
      + injection E as -> ->. left. exists i, z. tauto.
      + right. right. left. exists b, i, z. tauto.
      + apply adjacent_cons in Ad. destruct Ad as [[E (q & ->)]|Ad]; [injection E as -> ->; right; left; exists i1, a2, i2, q; auto|]. right. right. right. exists b, a2, i1, i2. auto.
    - intros [(i & z & -> & J)|[(i1 & a2 & i2 & l' & -> & -> & P)|[(b & i & z & H & J)|(b & a2 & i1 & i2 & Ad & P)]]].
      + left. exists a, i, z. split; [now left|auto].
      + right. exists a, a2, i1, i2. split; auto. apply adjacent_cons. left. eauto.
      + left. exists b, i, z. split; [now right|auto].
      + right. exists b, a2, i1, i2. split; auto. apply adjacent_cons. auto.
  Qed.
  Lemma le_2 {A} (x y : A) l n : (length (x :: y :: l) <= S n)%nat -> (length l <= n)%nat.
  Proof. cbn. lia. Qed.
  Lemma le_1 {A} (x : A) l n : (length (x :: l) <= S n)%nat -> (length l <= n)%nat.
  Proof. cbn. lia. Qed.
  Lemma pass_ok : forall n l hs refs, (length l <= n)%nat -> map_two_by_two rellocs amap None l = Some (hs, refs) -> forall t, In t refs <-> mentions l t.
  Proof.
    induction n as [|n IH]; intros l hs refs L H t; (destruct l as [|[a m] l]; [injection H as <- <-; split; [intros []|intros X; destruct (mentions_nil _ X)]|]); [cbn in L; lia|].
    cbn [map_two_by_two] in H. destruct l as [|[a2 m2] l].
    - destruct (map_one (a, m)) as [[h r]|] eqn:O; [|discriminate]. injection H as <- <-. rewrite mentions_cons, (one_ok _ _ _ _ O). split; auto.
      intros [X|[(i1 & a2 & i2 & l' & _ & X & _)|X]]; auto; [discriminate|destruct (mentions_nil _ X)].
    - pose proof (two_ok a m a2 m2) as T. destruct (try_map_two rellocs amap None (a, m) (a2, m2)) as [[h|]|]; [| |discriminate].
      + destruct (map_two_by_two rellocs amap None l) as [[hs' refs']|] eqn:R; [|discriminate]. injection H as <- <-.
        destruct T as (i1 & i2 & -> & -> & J1 & J2 & A2 & L2 & P). rewrite in_app_iff, P, (IH l _ _ (le_2 _ _ _ _ L) R). rewrite (mentions_cons a), (mentions_cons a2). split.
        * intros [X|X]; auto. right. left. exists i1, a2, i2, l. auto.
        * intros [(i & z & [= <-] & J & _)|[(j1 & b & j2 & l' & [= <-] & E & X)|[(i & z & [= <-] & J & _)|[(j1 & b & j2 & l' & [= <-] & E & X)|X]]]]; auto; try congruence.
          -- left. injection E as <- <- <-. auto.
          -- inversion X; congruence.
      + destruct (map_one (a, m)) as [[h r]|] eqn:O; [|discriminate]. destruct (map_two_by_two rellocs amap None ((a2, m2) :: l)) as [[hs' refs']|] eqn:R; [|discriminate]. injection H as <- <-.
        rewrite in_app_iff, (one_ok _ _ _ _ O), (IH ((a2, m2) :: l) _ _ (le_1 _ _ _ L) R), (mentions_cons a). split; [tauto|]. intros [X|[(j1 & b & j2 & l' & -> & E & X)|X]]; auto.
        injection E as -> -> ->. destruct (T _ _ _ eq_refl eq_refl X).
  Qed.
  (** What the absence of a panic says about calls and indirect jumps. *)
  Lemma pass_calls : forall n l hs refs, (length l <= n)%nat -> map_two_by_two rellocs amap None l = Some (hs, refs) ->
    (forall a a2 i1 i2 rd1 hi, adjacent (a, Ins i1) (a2, Ins i2) l -> i_op i1 = AUIPC -> i_rd i1 = Some rd1 -> i_imm i1 = Some hi -> i_op i2 = JALR ->
       exists rd2 lo, i_rd i2 = Some rd2 /\ i_rs1 i2 = Some rd1 /\ i_imm i2 = Some lo /\ (rd2 = rd1 \/ (rd2 = 0 /\ rd1 = 6))) /\
    (forall p a i q, l = p ++ (a, Ins i) :: q -> i_op i = JALR -> i_imm i = Some 0%Z \/ exists p' b j, p = p' ++ [(b, Ins j)] /\ i_op j = AUIPC).
  Proof.
    induction n as [|n IH]; intros l hs refs L H; (destruct l as [|[a m] l]; [split; [intros a a2 i1 i2 rd1 hi ([|] & q & E); discriminate|intros [|] a i q E; discriminate]|]); [cbn in L; lia|].
    cbn [map_two_by_two] in H. destruct l as [|[a2 m2] l].
    - destruct (map_one (a, m)) as [[h r]|] eqn:O; [|discriminate]. split; [intros b b2 i1 i2 rd1 hi ([|? [|]] & q & E); discriminate|].
      intros [|x p] b i q E J; [|destruct p; discriminate]. injection E as -> -> _. left. eapply jalr_alone; eauto.
    - destruct (try_map_two rellocs amap None (a, m) (a2, m2)) as [[h|]|] eqn:T; [| |discriminate].
      + destruct (map_two_by_two rellocs amap None l) as [[hs' refs']|] eqn:R; [|discriminate]. destruct (IH l _ _ (le_2 _ _ _ _ L) R) as [I1 I2].
        pose proof (two_ok a m a2 m2) as T0. rewrite T in T0. destruct T0 as (i1 & i2 & -> & -> & J1 & J2 & A2 & L2 & _). split.
        * intros b b2 j1 j2 rd1 hi Ad O1 R1 M1 O2. apply adjacent_cons in Ad. destruct Ad as [[E (q & Eq)]|Ad].
          -- injection E as <- <-. injection Eq as <- <- <-. unfold try_map_two in T. cbn [fst snd] in T. cbv zeta in T. rewrite O1, R1, M1, O2 in T.
             destruct (i_rd i2) as [rd2|]; [|destruct (i_rs1 i2), (i_rs2 i2), (i_imm i2); discriminate]. destruct (i_rs1 i2) as [rs|]; [|discriminate]. destruct (i_rs2 i2); [discriminate|]. destruct (i_imm i2) as [lo|]; [|discriminate]. cbn [is_load] in T.
             exists rd2, lo. destruct ((rd1 =? rs) && (rs =? rd2)) eqn:E1.
             ++ assert (rs = rd1 /\ rd2 = rd1) as [-> ->] by lia. auto.
             ++ destruct ((rd2 =? 0) && (rs =? 6) && (rd1 =? 6)) eqn:E2; [|discriminate]. assert (rd2 = 0 /\ rs = 6 /\ rd1 = 6) as (-> & -> & ->) by lia. auto 10.
          -- apply adjacent_cons in Ad. destruct Ad as [[E (q & Eq)]|Ad]; [injection E as <- <-; congruence|]. eapply I1; eauto.
        * intros p b i q E J. destruct p as [|x p]; [injection E as <- <- <-; rewrite J in *; exfalso; clear - T J; unfold try_map_two in T; cbn [fst snd] in T; cbv zeta in T; rewrite J in T; discriminate|].
          injection E as <- E. destruct p as [|x p].
          -- injection E as <- <- <-. right. exists [], a, i1. split; auto. unfold try_map_two in T. cbn [fst snd] in T. cbv zeta in T. rewrite J in T.
             destruct (i_op i1); try reflexivity; try discriminate T; destruct (i_rd i1); try discriminate T; destruct (i_imm i1); try discriminate T; destruct (i_rs1 i1); discriminate T.
          -- injection E as <- E. destruct (I2 _ _ _ _ E J) as [X|(p' & b' & j & -> & X)]; [now left|]. right. exists ((a, Ins i1) :: (a2, Ins i2) :: p'), b', j. auto.
      + destruct (map_one (a, m)) as [[h r]|] eqn:O; [|discriminate]. destruct (map_two_by_two rellocs amap None ((a2, m2) :: l)) as [[hs' refs']|] eqn:R; [|discriminate]. destruct (IH ((a2, m2) :: l) _ _ (le_1 _ _ _ L) R) as [I1 I2]. split.
        * intros b b2 j1 j2 rd1 hi Ad O1 R1 M1 O2. apply adjacent_cons in Ad. destruct Ad as [[E (q & Eq)]|Ad]; [|eapply I1; eauto]. exfalso.
          injection E as -> ->. injection Eq as -> -> ->. unfold try_map_two in T. cbn [fst snd] in T. cbv zeta in T. rewrite O1, R1, M1, O2 in T.
          destruct (i_rd j2) as [rd2|]; [|destruct (i_rs1 j2), (i_rs2 j2), (i_imm j2); discriminate]. destruct (i_rs1 j2) as [rs|]; [|discriminate]. destruct (i_rs2 j2); [discriminate|]. destruct (i_imm j2) as [lo|]; [|discriminate]. cbn [is_load] in T.
          destruct ((rd1 =? rs) && (rs =? rd2)); [discriminate|]. destruct ((rd2 =? 0) && (rs =? 6) && (rd1 =? 6)); discriminate.
        * intros p b i q E J. destruct p as [|x p]; [injection E as -> -> _; left; eapply jalr_alone; eauto|]. injection E as <- E. destruct (I2 _ _ _ _ E J) as [X|(p' & b' & j & -> & X)]; [now left|]. right. exists ((a, m) :: p'), b', j. auto.
  Qed.
End Pass.
