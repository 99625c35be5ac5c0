(** C78: the initial memory handed to code generation is that of the file after relocation. *)
From Coq Require Import Arith NArith ZArith Bool List Lia Sorted.
From Coq Require Import ZifyBool ZifyNat ZifyN.
From Verif Require DbgModel PropsElf.
From Verif Require Import BlocksModel ElfModel ElfSpec ElfFacts ElfLoad InitModel InitSpec.
Import ListNotations.
Local Open Scope N_scope.

Definition chunk (bytes : list N) (k : nat) : N := le_bytes (firstn 4 (skipn (4 * k) bytes)).
Definition chunk_at (addr : N) (bytes : list N) (a v : N) : Prop := exists k, (4 * k < length bytes)%nat /\ a = addr + N.of_nat (4 * k) /\ v = chunk bytes k /\ v <> 0.

Lemma chunk_S bytes k : chunk bytes (S k) = chunk (skipn 4 bytes) k.
Proof.
  unfold chunk. do 2 f_equal. replace (4 * S k)%nat with (4 + 4 * k)%nat by lia. generalize (4 * k)%nat. intros n. generalize 4%nat bytes. clear.
  induction n0 as [|i IH]; intros l; [reflexivity|]. destruct l; [now rewrite !skipn_nil|]. cbn [skipn Nat.add]. apply IH.
Qed.
Lemma chunk_step addr bytes a v : bytes <> [] ->
  (chunk_at addr bytes a v <-> (a = addr /\ v = chunk bytes 0 /\ v <> 0) \/ chunk_at (addr + 4) (skipn 4 bytes) a v).
Proof.
  intros Hn. assert (L : (0 < length bytes)%nat) by (destruct bytes; [congruence|cbn; lia]). split.
  - intros (k & K1 & K2 & K3 & K4). destruct k as [|k]; [left; repeat split; auto; lia|]. right. exists k. rewrite skipn_length, <- chunk_S. repeat split; auto; lia.
  - intros [(K2 & K3 & K4)|(k & K1 & K2 & K3 & K4)]; [exists 0%nat; repeat split; auto; lia|]. rewrite skipn_length in K1. rewrite <- chunk_S in K3. exists (S k). repeat split; auto; lia.
Qed.
Lemma chunk_nil addr a v : ~ chunk_at addr [] a v.
Proof. intros (k & K & _). cbn in K. lia. Qed.

Lemma load_data_exact : forall fuel addr bytes m a, (length bytes <= fuel)%nat -> addr + N.of_nat (length bytes) + 4 <= 2 ^ 32 ->
  (forall x, bt_get a (load_data fuel addr bytes m) = Some x -> (exists v, chunk_at addr bytes a v /\ x = Value v) \/ bt_get a m = Some x) /\
  (forall v, chunk_at addr bytes a v \/ bt_get a m = Some (Value v) -> (forall v', chunk_at addr bytes a v' -> v' = v) -> bt_get a (load_data fuel addr bytes m) = Some (Value v)).
Proof.
  induction fuel as [|fuel IH]; intros addr bytes m a Lf B.
  { destruct bytes; [|cbn in Lf; lia]. cbn [load_data]. split; auto. intros v [H|H] _; auto. now apply chunk_nil in H. }
  cbn [load_data]. destruct bytes as [|b bytes0]. { split; auto. intros v [H|H] _; auto. now apply chunk_nil in H. }
  set (bytes := b :: bytes0) in *. assert (Hn : bytes <> []) by discriminate. assert (L : (0 < length bytes)%nat) by (cbn; lia).
  change (le_bytes (firstn 4 bytes)) with (chunk bytes 0). cbv zeta.
  set (m1 := if chunk bytes 0 =? 0 then m else bt_insert addr (Value (chunk bytes 0)) m).
  assert (C : forall v, chunk_at addr bytes a v <-> (a = addr /\ v = chunk bytes 0 /\ v <> 0) \/ chunk_at (addr + 4) (skipn 4 bytes) a v) by (intros; now apply chunk_step).
  assert (I : (forall x, bt_get a (load_data fuel (w32 (addr + 4)) (skipn 4 bytes) m1) = Some x -> (exists v, chunk_at (addr + 4) (skipn 4 bytes) a v /\ x = Value v) \/ bt_get a m1 = Some x) /\
    (forall v, chunk_at (addr + 4) (skipn 4 bytes) a v \/ bt_get a m1 = Some (Value v) -> (forall v', chunk_at (addr + 4) (skipn 4 bytes) a v' -> v' = v) -> bt_get a (load_data fuel (w32 (addr + 4)) (skipn 4 bytes) m1) = Some (Value v))).
  { destruct (le_lt_dec (length bytes) 4) as [S4|S4].
    - rewrite (skipn_all2 _ S4). assert (E : load_data fuel (w32 (addr + 4)) [] m1 = m1) by (destruct fuel; reflexivity). rewrite E. split; auto. intros v [H|H] _; auto. now apply chunk_nil in H.
    - rewrite w32_small by lia. apply IH; rewrite skipn_length; lia. }
  destruct I as [I1 I2]. split.
  - intros x H. destruct (I1 x H) as [(v & V & ->)|G]; [left; exists v; rewrite C; auto|]. unfold m1 in G. destruct (N.eqb_spec (chunk bytes 0) 0); auto.
    rewrite bt_get_insert in G. destruct (N.eqb_spec a addr); auto. injection G as <-. left. exists (chunk bytes 0). rewrite C. auto.
  - intros v H U. apply I2; [|intros v' V; apply U; rewrite C; auto]. destruct H as [H|H].
    + rewrite C in H. destruct H as [(Ha & Hv & Hz)|H]; auto. right. unfold m1. destruct (N.eqb_spec (chunk bytes 0) 0); [congruence|]. rewrite bt_get_insert, Ha, N.eqb_refl. now subst.
    + right. unfold m1. destruct (N.eqb_spec (chunk bytes 0) 0); auto. rewrite bt_get_insert. destruct (N.eqb_spec a addr) as [->|]; auto. do 2 f_equal. apply U. rewrite C. auto.
Qed.
Lemma load_data_sorted : forall fuel addr bytes m, StronglySorted klt m -> StronglySorted klt (load_data fuel addr bytes m).
Proof.
  induction fuel as [|fuel IH]; intros addr bytes m H; cbn [load_data]; destruct bytes; auto. apply IH. destruct (_ =? 0); auto. now apply bt_insert_sorted.
Qed.
Lemma bt_get_in {V} (m : list (N * V)) a x : StronglySorted klt m -> (bt_get a m = Some x <-> In (a, x) m).
Proof.
  induction m as [|[k v] m IH]; intros H; cbn [bt_get In]; [split; [discriminate|tauto]|]. inversion_clear H as [|? ? H1 H2]. destruct (N.eqb_spec a k) as [->|E].
  - split; [intros [= <-]; auto|]. intros [[= <-]|X]; auto. rewrite Forall_forall in H2. specialize (H2 _ X). unfold klt in H2. cbn in H2. lia.
  - rewrite (IH H1). split; auto. intros [[= <- <-]|X]; auto. congruence.
Qed.

Section Load.
  Variable decode32 : N -> option ins.
  Variable decode16 : N -> decoded16.
  Variable rellocs : list N.
  Variable amap : list (N * segment).

  Definition in_list (l : list (N * segment)) (a v : N) : Prop := exists addr s bytes, In (addr, s) l /\ s_exec s = false /\ s_data s = Some bytes /\ chunk_at addr bytes a v.
  Lemma scan_exact : forall l m refs m' refs', scan decode32 decode16 rellocs amap l m refs = Some (m', refs') ->
    (forall addr s bytes, In (addr, s) l -> s_exec s = false -> s_data s = Some bytes -> addr + N.of_nat (length bytes) + 4 <= 2 ^ 32) ->
    (StronglySorted klt m -> StronglySorted klt m') /\
    forall a,
    (forall x, bt_get a m' = Some x -> (exists v, in_list l a v /\ x = Value v) \/ bt_get a m = Some x) /\
    (forall v, in_list l a v \/ bt_get a m = Some (Value v) -> (forall v', in_list l a v' -> v' = v) -> bt_get a m' = Some (Value v)).
  Proof.
    induction l as [|[addr s] l IH]; intros m refs m' refs' H B; cbn [scan] in H.
    - injection H as <- <-. split; auto. intros a. split; auto. intros v [(? & ? & ? & [] & _)|G] _. exact G.
    - destruct (s_data s) as [bytes|] eqn:Ed; [|discriminate]. destruct (s_exec s) eqn:Ex.
      + destruct (instructions decode32 decode16 addr bytes) as [is|] eqn:Ei; [|discriminate]. destruct (map_two_by_two rellocs amap None is) as [[hs r]|] eqn:Em; [|discriminate].
        destruct (IH _ _ _ _ H ltac:(intros; eapply B; eauto; now right)) as (I0 & I). split; auto. intros a. destruct (I a) as [I1 I2].
        assert (C : forall v, in_list ((addr, s) :: l) a v <-> in_list l a v).
        { intros v. split; intros (ad & s' & b' & X1 & X); [|exists ad, s', b'; split; [now right|auto]]. exists ad, s', b'. split; auto. destruct X1 as [[= <- <-]|X1]; auto. destruct X as [X _]. congruence. }
        split; [intros x G; destruct (I1 x G) as [(v & V & E)|G']; auto; left; exists v; rewrite C; auto|]. intros v G U. apply I2; [rewrite <- C; auto|intros v' G'; apply U; now apply C].
      + destruct (IH _ _ _ _ H ltac:(intros; eapply B; eauto; now right)) as (I0 & I). split; [intros X; apply I0; now apply load_data_sorted|]. intros a. destruct (I a) as [I1 I2].
        destruct (load_data_exact (length bytes) addr bytes m a (le_n _) ltac:(eapply B; eauto; now left)) as [D1 D2].
        assert (C : forall v, in_list ((addr, s) :: l) a v <-> chunk_at addr bytes a v \/ in_list l a v).
        { intros v. split; [intros (ad & s' & b' & [[= <- <-]|X1] & X)|intros [X|(ad & s' & b' & X1 & X)]].
          - destruct X as (_ & X2 & X3). assert (b' = bytes) by congruence. subst. auto.
          - right. exists ad, s', b'. auto.
          - exists addr, s, bytes. split; [now left|auto].
          - exists ad, s', b'. split; [now right|auto]. }
        split.
        * intros x G. destruct (I1 x G) as [(v & V & E)|G']; [left; exists v; rewrite C; auto|]. destruct (D1 x G') as [(v & V & E)|G'']; auto. left. exists v. rewrite C. auto.
        * intros v G U. apply I2; [|intros v' G'; apply U; rewrite C; auto]. rewrite C in G. destruct G as [[G|G]|G]; auto; right; apply D2; auto; intros v' G'; apply U; rewrite C; auto.
  Qed.

  Lemma static_exact : forall rs m refs m' refs', static_relocate amap rs m refs = Some (m', refs') ->
    (StronglySorted klt m -> StronglySorted klt m') /\
    forall a, bt_get a m' = match bt_get a m with
                            | Some (Value v) => if existsb (fun r => is_in_data_section amap (w32 (r_offset r)) && (w32 (r_offset r) =? a)) rs && is_in_text_section amap v then Some (TextLabel v) else Some (Value v)
                            | o => o
                            end.
  Proof.
    induction rs as [|r rs IH]; intros m refs m' refs' H; cbn [static_relocate] in H.
    - injection H as <- <-. split; auto. intros a. cbn [existsb andb]. now destruct (bt_get a m) as [[|]|].
    - cbv zeta in H. cbn [existsb]. destruct (is_in_data_section amap (w32 (r_offset r))) eqn:D; cbn [negb andb orb] in *.
      + destruct (negb (r_type r =? R_RISCV_32)); [discriminate|]. destruct (bt_get (w32 (r_offset r)) m) as [[|v]|] eqn:G; try discriminate. destruct (is_in_text_section amap v) eqn:T.
        * destruct (IH _ _ _ _ H) as [I0 I]. split; [intros X; apply I0; now apply bt_insert_sorted|]. intros a. rewrite I, bt_get_insert. rewrite (N.eqb_sym (w32 _) a).
          destruct (N.eqb_spec a (w32 (r_offset r))) as [->|E]; [rewrite G; cbn [orb andb]; now rewrite T|]. reflexivity.
        * destruct (IH _ _ _ _ H) as [I0 I]. split; auto. intros a. rewrite I. rewrite (N.eqb_sym (w32 _) a). destruct (N.eqb_spec a (w32 (r_offset r))) as [->|E]; [|reflexivity]. rewrite G, T, !andb_false_r. reflexivity.
      + destruct (IH _ _ _ _ H) as [I0 I]. auto.
  Qed.
  (** The last relocation about a word. *)
  Fixpoint last_set (rs : list reloc) (a : N) : option N :=
    match rs with
    | [] => None
    | r :: rs => match last_set rs a with Some v => Some v | None => if w32 (r_offset r) =? a then match r_addend r with Some z => Some (to_u32 z) | None => None end else None end
    end.
  Lemma last_set_none : forall rs a, (forall r, In r rs -> w32 (r_offset r) <> a) -> last_set rs a = None.
  Proof.
    induction rs as [|r rs IH]; intros a H; cbn [last_set]; auto. rewrite IH by (intros; apply H; now right). destruct (N.eqb_spec (w32 (r_offset r)) a) as [E|]; auto. exfalso. apply (H r); auto. now left.
  Qed.
  Lemma pie_exact : forall rs m refs m' refs', pie_relocate amap rs m refs = Some (m', refs') ->
    (StronglySorted klt m -> StronglySorted klt m') /\
    (forall a, bt_get a m' = match last_set rs a with Some v => Some (if is_in_text_section amap v then TextLabel v else Value v) | None => bt_get a m end) /\
    (forall a, last_set rs a = None -> forall r, In r rs -> w32 (r_offset r) <> a) /\
    (forall a v, last_set rs a = Some v -> set_to rs a v).
  Proof.
    induction rs as [|r rs IH]; intros m refs m' refs' H; cbn [pie_relocate] in H.
    - injection H as <- <-. split; auto. split; auto. split; [intros a _ r []|discriminate].
    - cbv zeta in H. destruct (negb (is_in_data_section amap (w32 (r_offset r)))); [discriminate|]. destruct (negb (r_type r =? R_RISCV_RELATIVE)); [discriminate|].
      destruct (r_addend r) as [z|] eqn:A; [|discriminate].
      assert (X : exists m1 refs1, m1 = bt_insert (w32 (r_offset r)) (if is_in_text_section amap (to_u32 z) then TextLabel (to_u32 z) else Value (to_u32 z)) m /\ pie_relocate amap rs m1 refs1 = Some (m', refs')).
      { destruct (is_in_text_section amap (to_u32 z)); eauto. }
      destruct X as (m1 & refs1 & -> & X). destruct (IH _ _ _ _ X) as (I0 & I1 & I2 & I3). cbn [last_set]. rewrite A.
      split; [intros Q; apply I0; now apply bt_insert_sorted|]. split; [|split].
      + intros a. rewrite I1. destruct (last_set rs a) as [v|]; auto. rewrite bt_get_insert, (N.eqb_sym a). destruct (w32 (r_offset r) =? a); reflexivity.
      + intros a. destruct (last_set rs a) as [v|] eqn:E; [discriminate|]. destruct (N.eqb_spec (w32 (r_offset r)) a) as [Q|Q]; [discriminate|]. intros _ r' [<-|R]; [auto|now apply I2].
      + intros a v. destruct (last_set rs a) as [v0|] eqn:E.
        * intros [= <-]. destruct (I3 a v0 E) as (l1 & r' & l2 & z' & -> & Q). exists (r :: l1), r', l2, z'. auto.
        * destruct (N.eqb_spec (w32 (r_offset r)) a) as [Q|Q]; [|discriminate]. intros [= <-]. exists [], r, rs, z. split; auto. split; auto. split; auto. split; [|now apply I2].
          unfold to_u32. apply Z2N.id. apply Z.mod_pos_bound. lia.
  Qed.
End Load.

Lemma set_to_unique rs a v v' : set_to rs a v -> set_to rs a v' -> v = v'.
Proof.
  assert (K : forall rs v, set_to rs a v -> last_set rs a = Some v).
  { clear. intros rs v (l1 & r & l2 & z & -> & E & A & V & L). induction l1 as [|x l1 IH]; cbn [app last_set].
    - rewrite last_set_none by auto. rewrite E, N.eqb_refl, A. f_equal. unfold to_u32. rewrite <- V. apply N2Z.id.
    - now rewrite IH. }
  intros H H'. apply K in H. apply K in H'. congruence.
Qed.

Lemma word_unique e a v v' : words_ok (e_segs e) -> word_at e a v -> word_at e a v' -> v = v'.
Proof.
  intros [_ W] (s & b & k & S1 & S2 & S3 & S4 & S5 & S6 & _) (s' & b' & k' & T1 & T2 & T3 & T4 & T5 & T6 & _).
  assert (s = s') by (eapply (W s s' b b' k k'); eauto; congruence). subst s'. assert (b = b') by congruence. subst b'. assert (k = k') by lia. subst. reflexivity.
Qed.

(** The words of the loaded program are those of the file after relocation, in ascending order. *)
Lemma data_exact decode32 decode16 e p : segments_ok (e_segs e) -> words_ok (e_segs e) -> load_elf decode32 decode16 e = Some p ->
  StronglySorted klt (p_data p) /\ forall a d, In (a, d) (p_data p) <-> holds e a d.
Proof.
  intros Hs Hw H. unfold load_elf in H. destruct (negb (e_riscv32 e)); [discriminate|]. destruct (negb (e_dyn e || e_has_relocs e)); [discriminate|]. cbv zeta in H.
  set (amap := address_map (e_segs e)) in *. set (rellocs := map _ _) in H.
  destruct (scan decode32 decode16 rellocs amap amap [] [w32 (e_entry e)]) as [[m refs]|] eqn:Sc; [|discriminate].
  assert (Ai : forall k s, In (k, s) amap <-> In s (e_segs e) /\ k = s_vaddr s) by (intros; now apply amap_in).
  destruct (scan_exact _ _ _ _ _ _ _ _ _ Sc) as [S0 S1]. { intros ad s b X X' X''. apply Ai in X. destruct X as [X ->]. destruct Hw as [W _]. eauto. }
  specialize (S0 ltac:(constructor)).
  assert (Il : forall a v, in_list amap a v <-> word_at e a v).
  { intros a v. split.
    - intros (ad & s & b & X1 & X2 & X3 & (k & K1 & K2 & K3 & K4)). apply Ai in X1. destruct X1 as [X1 ->]. exists s, b, k. auto 8.
    - intros (s & b & k & X1 & X2 & X3 & K1 & K2 & K3 & K4). exists (s_vaddr s), s, b. split; [apply Ai; auto|]. do 2 (split; auto). exists k. auto. }
  assert (Me : forall a x, bt_get a m = Some x <-> exists v, word_at e a v /\ x = Value v).
  { intros a x. destruct (S1 a) as [A1 A2]. split.
    - intros G. destruct (A1 x G) as [(v & V & ->)|G']; [|discriminate G']. exists v. rewrite <- Il. auto.
    - intros (v & V & ->). apply A2; [left; now apply Il|]. intros v' V'. apply Il in V'. eapply word_unique; eauto. }
  assert (Tx : forall v, is_in_text_section amap v = true <-> text_address (e_segs e) v) by (intros; now apply text_ok).
  assert (Dt : forall v, is_in_data_section amap v = true <-> data_address (e_segs e) v) by (intros; now apply data_ok).
  destruct (e_dyn e) eqn:Dy.
  - destruct (pie_relocate amap (e_dynrelas e) m refs) as [[m' refs']|] eqn:P; [|discriminate]. destruct (Nat.eqb (e_dynrels e) 0); [|discriminate].
    destruct (lift_all decode32 decode16 rellocs amap amap refs') as [hs|]; [|discriminate]. injection H as <-. cbn [p_data].
    destruct (pie_exact decode32 decode16 _ _ _ _ _ _ P) as (P0 & P1 & P2 & P3). split; [auto|]. intros a d. rewrite <- bt_get_in by auto. rewrite P1.
    destruct (last_set (e_dynrelas e) a) as [v|] eqn:L.
    + apply P3 in L. destruct (is_in_text_section amap v) eqn:T.
      * split; [intros [= <-]; apply moved_code; auto; now apply Tx|]. intros Q. inversion Q as [w D|w D|w D S' T'|w D S' T'|w D W' N']; try congruence.
        -- assert (w = v) by (eapply set_to_unique; eauto). congruence.
        -- assert (w = v) by (eapply set_to_unique; eauto). subst w. exfalso. apply T'. now apply Tx.
        -- exfalso. destruct L as (l1 & r & l2 & z & E & O & _). apply (N' r); auto. rewrite E. apply in_elt.
      * assert (T0 : ~ text_address (e_segs e) v) by (rewrite <- Tx; congruence). split; [intros [= <-]; apply moved_number; auto|]. intros Q. inversion Q as [w D|w D|w D S' T'|w D S' T'|w D W' N']; try congruence.
        -- assert (w = v) by (eapply set_to_unique; eauto). subst w. contradiction.
        -- assert (w = v) by (eapply set_to_unique; eauto). congruence.
        -- exfalso. destruct L as (l1 & r & l2 & z & E & O & _). apply (N' r); auto. rewrite E. apply in_elt.
    + assert (N0 := P2 a L). rewrite Me. split; [intros (v & V & ->); apply moved_word; auto|]. intros Q. inversion Q as [w D|w D|w D S' T'|w D S' T'|w D W' N']; try congruence.
      * exfalso. destruct S' as (l1 & r & l2 & z & E & O & _). apply (N0 r); auto. rewrite E. apply in_elt.
      * exfalso. destruct S' as (l1 & r & l2 & z & E & O & _). apply (N0 r); auto. rewrite E. apply in_elt.
      * exists w. auto.
  - destruct (static_relocate amap (e_relocs e) m refs) as [[m' refs']|] eqn:P; [|discriminate].
    destruct (lift_all decode32 decode16 rellocs amap amap refs') as [hs|]; [|discriminate]. injection H as <-. cbn [p_data].
    destruct (static_exact _ _ _ _ _ _ P) as (P0 & P1). split; [auto|]. intros a d. rewrite <- bt_get_in by auto. rewrite P1.
    assert (Rl : existsb (fun r => is_in_data_section amap (w32 (r_offset r)) && (w32 (r_offset r) =? a)) (e_relocs e) = true <-> relocated e a).
    { rewrite existsb_exists. split; intros (r & R1 & R2).
      - apply andb_true_iff in R2. destruct R2 as [R2 R3]. apply N.eqb_eq in R3. exists r. split; auto. split; auto. rewrite <- R3. now apply Dt.
      - destruct R2 as [R2 R3]. exists r. split; auto. rewrite R2, N.eqb_refl, andb_true_r. now apply Dt. }
    destruct (bt_get a m) as [x|] eqn:G.
    + apply Me in G. destruct G as (v & V & ->). assert (U : forall w, word_at e a w -> w = v) by (intros w Hv; eapply word_unique; eauto).
      destruct (existsb _ _ && is_in_text_section amap v) eqn:T.
      * apply andb_true_iff in T. destruct T as [T1 T2]. apply Rl in T1. apply Tx in T2. split; [intros [= <-]; now apply fixed_code|].
        intros Q. inversion Q as [w D W' R' T'|w D W' N'|w D|w D|w D]; try congruence; rewrite (U w W') in *; [reflexivity|]. exfalso. apply N'. auto.
      * assert (T0 : ~ (relocated e a /\ text_address (e_segs e) v)) by (intros [T1 T2]; apply Rl in T1; apply Tx in T2; rewrite T1, T2 in T; discriminate).
        split; [intros [= <-]; now apply fixed_number|]. intros Q. inversion Q as [w D W' R' T'|w D W' N'|w D|w D|w D]; try congruence; rewrite (U w W') in *; [|reflexivity]. exfalso. apply T0. auto.
    + split; [discriminate|]. intros Q. exfalso. assert (X : exists w, word_at e a w) by (inversion Q; try congruence; eauto). destruct X as (w & X).
      assert (Some (Value w) = None) by (rewrite <- G; symmetry; apply Me; eauto). discriminate.
Qed.

(** The entries of the initial memory are exactly the words of the file after relocation: numbers, or the name of the code they point
    to; in ascending order of their addresses; each with the note at its address, or else the first symbol there. *)
Theorem C78_memory : forall decode32 decode16 e p t notes,
  segments_ok (e_segs e) -> words_ok (e_segs e) -> load_elf decode32 decode16 e = Some p ->
  StronglySorted (fun x y => m_addr x < m_addr y) (take_initial_mem t notes p) /\
  forall l a,
  (forall v, In (mkEntry l a (MemValue v)) (take_initial_mem t notes p) <->
     holds e a (Value v) /\ l = match notes a with Some n => Some n | None => DbgModel.try_get_one t a end) /\
  (forall n, In (mkEntry l a (LabelReference n)) (take_initial_mem t notes p) <->
     exists c, holds e a (TextLabel c) /\ n = DbgModel.get_one t c /\ l = match notes a with Some n => Some n | None => DbgModel.try_get_one t a end).
Proof.
  intros d32 d16 e p t notes Hs Hw H. destruct (data_exact _ _ _ _ Hs Hw H) as [D0 D]. unfold take_initial_mem. split; [|intros l a; split].
  - clear D. induction D0 as [|[a d] m H1 IH H2]; cbn [map]; constructor; auto. apply Forall_forall. intros x X. apply in_map_iff in X. destruct X as ([b y] & <- & X).
    rewrite Forall_forall in H2. exact (H2 _ X).
  - intros v. rewrite in_map_iff. split.
    + intros ([b d] & E & X). apply D in X. unfold entry_of in E. destruct d as [c|w]; [discriminate E|]. injection E as E1 E2 E3. subst. auto.
    + intros [X ->]. apply D in X. exists (a, Value v). auto.
  - intros n. rewrite in_map_iff. split.
    + intros ([b d] & E & X). apply D in X. unfold entry_of in E. destruct d as [c|w]; [|discriminate E]. injection E as E1 E2 E3. subst. exists c. auto.
    + intros (c & X & -> & ->). apply D in X. exists (a, TextLabel c). auto.
Qed.
Print Assumptions C78_memory.

(** If the sections of data and the relocated words are aligned, the words do not overlap. *)
Theorem C78_aligned : forall decode32 decode16 e p t notes,
  segments_ok (e_segs e) -> words_ok (e_segs e) -> load_elf decode32 decode16 e = Some p ->
  (forall s, In s (e_segs e) -> s_exec s = false -> s_vaddr s mod 4 = 0) -> (forall r, In r (e_dynrelas e) -> w32 (r_offset r) mod 4 = 0) ->
  forall x, In x (take_initial_mem t notes p) -> m_addr x mod 4 = 0.
Proof.
  intros d32 d16 e p t notes Hs Hw H Al Ar x X. destruct (data_exact _ _ _ _ Hs Hw H) as [_ D]. apply in_map_iff in X. destruct X as ([a d] & <- & X). cbn [entry_of m_addr]. apply D in X.
  assert (W : forall v, word_at e a v -> a mod 4 = 0). { intros v (s & b & k & S1 & S2 & _ & _ & -> & _). specialize (Al s S1 S2). lia. }
  assert (R : forall v, set_to (e_dynrelas e) a v -> a mod 4 = 0). { intros v (l1 & r & l2 & z & E & <- & _). apply Ar. rewrite E. apply in_elt. }
  inversion X; eauto.
Qed.
Print Assumptions C78_aligned.

Lemma le_bytes_nth : forall l j b, Forall (fun x => x < 256) l -> nth_error l j = Some b -> (le_bytes l / 256 ^ N.of_nat j) mod 256 = b.
Proof.
  induction l as [|x l IH]; intros j b F0 H; [destruct j; discriminate|]. inversion_clear F0 as [|? ? F1 F2]. destruct j as [|j]; cbn [nth_error] in H; cbn [le_bytes].
  - injection H as <-. change (N.of_nat 0) with 0. rewrite N.pow_0_r, N.div_1_r. rewrite N.mul_comm, N.mod_add by lia. now apply N.mod_small.
  - rewrite Nat2N.inj_succ, N.pow_succ_r', <- N.div_div by (try apply N.pow_nonzero; lia). rewrite (N.mul_comm 256), N.div_add by lia. rewrite (N.div_small x) by auto. rewrite N.add_0_l. now apply IH.
Qed.
Lemma nth_chunk (bytes : list N) k j : (j < 4)%nat -> nth_error (firstn 4 (skipn (4 * k) bytes)) j = nth_error bytes (4 * k + j).
Proof.
  intros Hj. assert (A : forall n (l : list N) i, (i < n)%nat -> nth_error (firstn n l) i = nth_error l i).
  { clear. induction n as [|n IH]; intros l i H; [lia|]. destruct l; [now destruct i|]. destruct i; [reflexivity|]. cbn. apply IH. lia. }
  assert (B : forall n (l : list N) i, nth_error (skipn n l) i = nth_error l (n + i)).
  { clear. induction n as [|n IH]; intros l i; [reflexivity|]. destruct l; [now destruct i|]. cbn. apply IH. }
  now rewrite A, B.
Qed.
(** Byte by byte: in a program with aligned sections, each byte of data is in the word of memory it belongs to (a name stands for the
    address of the code), or there is no such word and it is zero; except for words that are set when the program is moved. *)
Theorem C78_bytes : forall decode32 decode16 e p t notes,
  segments_ok (e_segs e) -> words_ok (e_segs e) -> load_elf decode32 decode16 e = Some p ->
  (forall s, In s (e_segs e) -> s_exec s = false -> s_vaddr s mod 4 = 0) ->
  (forall s bytes, In s (e_segs e) -> s_data s = Some bytes -> Forall (fun b => b < 256) bytes) ->
  forall s bytes i b, In s (e_segs e) -> s_exec s = false -> s_data s = Some bytes -> nth_error bytes i = Some b ->
  let a := s_vaddr s + N.of_nat i in
  (e_dyn e = true -> forall r, In r (e_dynrelas e) -> w32 (r_offset r) <> a - a mod 4) ->
  (exists x v, In x (take_initial_mem t notes p) /\ m_addr x = a - a mod 4 /\ (m_value x = MemValue v \/ m_value x = LabelReference (DbgModel.get_one t v)) /\
     b = (v / 256 ^ (a mod 4)) mod 256) \/
  ((forall x, In x (take_initial_mem t notes p) -> m_addr x <> a - a mod 4) /\ b = 0).
Proof.
  intros d32 d16 e p t notes Hs Hw H Al By s bytes i b S1 S2 S3 Hb a Mv. destruct (data_exact _ _ _ _ Hs Hw H) as [D0 D].
  set (k := (i / 4)%nat). set (j := (i mod 4)%nat). assert (Ei : i = (4 * k + j)%nat) by (apply Nat.div_mod; lia). assert (Hj : (j < 4)%nat) by (apply Nat.mod_upper_bound; lia). clearbody k j.
  assert (Li : (i < length bytes)%nat) by (apply nth_error_Some; congruence). specialize (Al s S1 S2).
  assert (Ea : a mod 4 = N.of_nat j) by (unfold a; lia). assert (Eb : a - a mod 4 = s_vaddr s + N.of_nat (4 * k)) by (unfold a in *; lia). rewrite Eb in *. rewrite Ea.
  set (v := le_bytes (firstn 4 (skipn (4 * k) bytes))).
  assert (Vb : (v / 256 ^ N.of_nat j) mod 256 = b).
  { apply le_bytes_nth; [|now rewrite nth_chunk, <- Ei]. specialize (By s bytes S1 S3). rewrite Forall_forall in *. intros y Y. apply By.
    assert (G1 : In y (skipn (4 * k) bytes)) by (rewrite <- (firstn_skipn 4); apply in_or_app; auto). rewrite <- (firstn_skipn (4 * k)). apply in_or_app. auto. }
  assert (U : forall w, word_at e (s_vaddr s + N.of_nat (4 * k)) w -> w = v).
  { intros w (s' & b' & k' & T1 & T2 & T3 & T4 & T5 & T6 & _). assert (s = s') by (eapply (proj2 Hw s s' bytes b' k k'); eauto; lia). subst s'. assert (bytes = b') by congruence. subst b'.
    assert (k = k') by lia. subst k'. exact T6. }
  assert (Q : forall d, holds e (s_vaddr s + N.of_nat (4 * k)) d -> v <> 0 /\ (d = Value v \/ d = TextLabel v)).
  { intros d X. assert (Ms : forall w, e_dyn e = true -> ~ set_to (e_dynrelas e) (s_vaddr s + N.of_nat (4 * k)) w) by (intros w Dy (l1 & r & l2 & z & El & O & _); apply (Mv Dy r); auto; rewrite El; apply in_elt).
    inversion X as [w W1 W|w W1 W|w W1 W|w W1 W|w W1 W]; try (exfalso; exact (Ms w W1 W)); rewrite <- (U w W); (split; [|auto]); now destruct W as (? & ? & ? & _ & _ & _ & _ & _ & _ & Nz). }
  destruct (in_dec N.eq_dec (s_vaddr s + N.of_nat (4 * k)) (map fst (p_data p))) as [I|I].
  - left. apply in_map_iff in I. destruct I as ([a' d] & E & I). cbn [fst] in E. subst a'. exists (entry_of t notes (s_vaddr s + N.of_nat (4 * k), d)), v.
    split; [now apply in_map|]. split; [reflexivity|]. split; [|now symmetry]. apply D in I. destruct (Q d I) as [_ [-> | ->]]; cbn; auto.
  - right. split.
    + intros x X E. apply I. apply in_map_iff in X. destruct X as ([a' d] & <- & X). cbn [entry_of m_addr] in E. subst a'. apply in_map_iff. eexists. split; [|exact X]. reflexivity.
    + destruct (N.eq_dec v 0) as [Z|Z]; [rewrite <- Vb, Z, N.div_0_l by (apply N.pow_nonzero; lia); reflexivity|]. exfalso. apply I.
      assert (W : word_at e (s_vaddr s + N.of_nat (4 * k)) v) by (exists s, bytes, k; repeat split; auto; lia).
      destruct (bt_get (s_vaddr s + N.of_nat (4 * k)) (p_data p)) as [d|] eqn:G.
      * apply bt_get_in in G; auto. apply in_map_iff. eexists. split; [|exact G]. reflexivity.
      * exfalso.
        assert (N1 : ~ holds e (s_vaddr s + N.of_nat (4 * k)) (Value v)) by (intros X; apply D, bt_get_in in X; auto; congruence).
        assert (N2 : ~ holds e (s_vaddr s + N.of_nat (4 * k)) (TextLabel v)) by (intros X; apply D, bt_get_in in X; auto; congruence).
        apply N1. destruct (e_dyn e) eqn:Dy; [now apply moved_word; auto|]. apply fixed_number; auto. intros [R T]. apply N2. now apply fixed_code.
Qed.
Print Assumptions C78_bytes.

(** A name in memory is a name of a label of the program: the code it stands for is there. *)
Theorem C78_references : forall decode32 decode16 e p t notes,
  segments_ok (e_segs e) -> words_ok (e_segs e) -> e_entry e < 2 ^ 32 -> load_elf decode32 decode16 e = Some p ->
  forall x n, In x (take_initial_mem t notes p) -> m_value x = LabelReference n -> exists c, In c (p_labels p) /\ In n (DbgModel.get_all t c).
Proof.
  intros d32 d16 e p t notes Hs Hw He H x n X V. destruct (data_exact _ _ _ _ Hs Hw H) as [_ D]. apply in_map_iff in X. destruct X as ([a d] & <- & X). apply D in X.
  destruct d as [c|v]; [|discriminate V]. cbn in V. injection V as <-. exists c. split.
  - apply (PropsElf.C54_labels d32 d16 e p Hs Hw He H). inversion X as [w D1 (s & b & k & S1 & S2 & S3 & S4 & S5 & S6 & _) (r & R1 & R2 & R3) T|w|w D1 (l1 & r & l2 & z & E & O & A & Z & _) T|w|w].
    + subst. eapply ref_static; eauto. now rewrite R2.
    + assert (Ec : c = plus 0 z) by (rewrite plus_u32; unfold to_u32; rewrite Z.add_0_l, <- Z; now rewrite N2Z.id). rewrite Ec in *. eapply ref_dynamic; eauto. rewrite E. apply in_elt.
  - unfold DbgModel.get_one, DbgModel.try_get_one, DbgModel.get_all. destruct (DbgModel.get t c) as [[|m l]|]; cbn; auto.
Qed.
Print Assumptions C78_references.

(** The program starts at the name of its entry point, which is one of the names of a label. *)
Theorem C78_start : forall decode32 decode16 e p t,
  segments_ok (e_segs e) -> words_ok (e_segs e) -> e_entry e < 2 ^ 32 -> load_elf decode32 decode16 e = Some p ->
  In (e_entry e) (p_labels p) /\ In (start_function t p) (DbgModel.get_all t (e_entry e)).
Proof.
  intros d32 d16 e p t Hs Hw He H. split; [apply (PropsElf.C54_labels d32 d16 e p Hs Hw He H); constructor|].
  assert (E : p_entry p = e_entry e).
  { unfold load_elf in H. destruct (negb (e_riscv32 e)); [discriminate|]. destruct (negb (e_dyn e || e_has_relocs e)); [discriminate|]. cbv zeta in H.
    destruct (scan _ _ _ _ _ _ _) as [[m refs]|]; [|discriminate]. destruct (if e_dyn e then _ else _) as [[m' refs']|]; [|discriminate]. destruct (lift_all _ _ _ _ _ _); [|discriminate]. injection H as <-. cbn [p_entry]. now apply w32_small. }
  unfold start_function, DbgModel.get_one, DbgModel.try_get_one, DbgModel.get_all. rewrite E. destruct (DbgModel.get t (e_entry e)) as [[|n l]|]; cbn; auto.
Qed.
Print Assumptions C78_start.

(** A function at [0x1000] and two sections of data: one with a number and the address of the function, and one with the last [n] bytes. *)
Definition sample (start : N) (tail : list N) : elf :=
  mkElf true false true 0x1000
    [mkSeg 0x1000 4 true (Some [0x6f; 0; 0; 0]); mkSeg 0x2000 14 false (Some [7; 1; 0; 0; 0; 0; 0; 0; 0; 0x10; 0; 0; 5; 6]); mkSeg start 4 false (Some tail)]
    [mkReloc 0x2008 R_RISCV_32 None] [] 0.
Definition memory_of (e : elf) : option (list mem_entry) :=
  match load_elf PropsElf.decode PropsElf.no16 e with Some p => Some (take_initial_mem [(0x1000, [[109]]); (0x2000, [[110]])] (fun a => if a =? 0x2008 then Some [102] else None) p) | None => None end.
Lemma sample_ok start tail : 0x200e <= start -> start < 2 ^ 31 -> (length tail <= 4)%nat -> segments_ok (e_segs (sample start tail)) /\ words_ok (e_segs (sample start tail)).
Proof.
  intros H1 H2 L. split; [split|split].
  - cbn. repeat constructor; cbn; intuition (try discriminate; lia).
  - cbn [e_segs sample]. repeat constructor; cbn [s_vaddr s_memsz]; lia.
  - cbn [e_segs sample]. intros s b [<-|[<-|[<-|[]]]] E [= <-]; try discriminate E; cbn [s_vaddr]; [cbn; lia|lia].
  - cbn [e_segs sample]. intros s s' b b' k k' [<-|[<-|[<-|[]]]] E [= <-] K; try discriminate E; intros [<-|[<-|[<-|[]]]] E' [= <-] K'; try discriminate E'; auto; cbn [s_vaddr]; cbn [length] in *; lia.
Qed.
Example C78_example : (segments_ok (e_segs (sample 0x3000 [1; 2; 3; 4])) /\ words_ok (e_segs (sample 0x3000 [1; 2; 3; 4]))) /\
  memory_of (sample 0x3000 [1; 2; 3; 4]) =
  Some [mkEntry (Some [110]) 0x2000 (MemValue 0x107); mkEntry (Some [102]) 0x2008 (LabelReference [109]); mkEntry None 0x200c (MemValue 0x605); mkEntry None 0x3000 (MemValue 0x4030201)].
Proof. split; [apply sample_ok; cbn; lia|vm_compute; reflexivity]. Qed.

(** If a section starts within the last word of another, memory has two words that overlap, and the first one has zeros where the second
    has bytes of the file. *)
Theorem C78_overlap_refuted : exists e m x y v w, segments_ok (e_segs e) /\ words_ok (e_segs e) /\ memory_of e = Some m /\ In x m /\ In y m /\
  m_addr y = m_addr x + 2 /\ m_value x = MemValue v /\ m_value y = MemValue w /\ v / 2 ^ 16 = 0 /\ w mod 2 ^ 16 <> 0.
Proof.
  exists (sample 0x200e [1; 2; 3; 4]).
  exists [mkEntry (Some [110]) 0x2000 (MemValue 0x107); mkEntry (Some [102]) 0x2008 (LabelReference [109]); mkEntry None 0x200c (MemValue 0x605); mkEntry None 0x200e (MemValue 0x4030201)].
  exists (mkEntry None 0x200c (MemValue 0x605)), (mkEntry None 0x200e (MemValue 0x4030201)), 0x605, 0x4030201.
  destruct (sample_ok 0x200e [1; 2; 3; 4]) as [H1 H2]; [lia|lia|cbn; lia|]. split; [exact H1|]. split; [exact H2|]. split; [vm_compute; reflexivity|].
  split; [cbn; auto|]. split; [cbn; auto|]. repeat split. discriminate.
Qed.
Print Assumptions C78_overlap_refuted.

(** A program that can be moved: two relocations are about the first word, of which the last counts. *)
Definition movable : elf :=
  mkElf true true false 0x1000
    [mkSeg 0x1000 4 true (Some [0x6f; 0; 0; 0]); mkSeg 0x2000 14 false (Some [7; 1; 0; 0; 0; 0; 0; 0; 0; 0x10; 0; 0; 5; 6]); mkSeg 0x3000 4 false (Some [1; 2; 3; 4])]
    [] [mkReloc 0x2000 R_RISCV_RELATIVE (Some 9%Z); mkReloc 0x2004 R_RISCV_RELATIVE (Some 0x1000%Z); mkReloc 0x2000 R_RISCV_RELATIVE (Some (-1)%Z)] 0.
Example C78_movable : (segments_ok (e_segs movable) /\ words_ok (e_segs movable)) /\
  memory_of movable =
  Some [mkEntry (Some [110]) 0x2000 (MemValue 0xffffffff); mkEntry None 0x2004 (LabelReference [109]); mkEntry (Some [102]) 0x2008 (MemValue 0x1000); mkEntry None 0x200c (MemValue 0x605);
        mkEntry None 0x3000 (MemValue 0x4030201)].
Proof. split; [exact (sample_ok 0x3000 [1; 2; 3; 4] ltac:(lia) ltac:(lia) (le_n _))|vm_compute; reflexivity]. Qed.
Example C78_bytes_example : let e := sample 0x3000 [1; 2; 3; 4] in load_elf PropsElf.decode PropsElf.no16 e <> None /\ e_dyn e = false /\
  (forall s, In s (e_segs e) -> s_exec s = false -> s_vaddr s mod 4 = 0) /\
  (forall s bytes, In s (e_segs e) -> s_data s = Some bytes -> Forall (fun b => b < 256) bytes).
Proof.
  cbv zeta. split; [vm_compute; discriminate|]. split; [reflexivity|]. cbn [e_segs sample]. split.
  - intros s [<-|[<-|[<-|[]]]] _; reflexivity.
  - intros s bytes [<-|[<-|[<-|[]]]] [= <-]; repeat constructor.
Qed.
(** In the program that is moved, the words at 0x2008 and 0x200c are not set. *)
Example C78_bytes_movable : load_elf PropsElf.decode PropsElf.no16 movable <> None /\ e_dyn movable = true /\
  (forall s, In s (e_segs movable) -> s_exec s = false -> s_vaddr s mod 4 = 0) /\
  (forall s bytes, In s (e_segs movable) -> s_data s = Some bytes -> Forall (fun b => b < 256) bytes) /\
  (let a := 0x2000 + N.of_nat 13 in forall r, In r (e_dynrelas movable) -> w32 (r_offset r) <> a - a mod 4).
Proof.
  split; [vm_compute; discriminate|]. split; [reflexivity|]. cbn [e_segs e_dynrelas movable]. split; [|split].
  - intros s [<-|[<-|[<-|[]]]] _; reflexivity.
  - intros s bytes [<-|[<-|[<-|[]]]] [= <-]; repeat constructor.
  - intros r [<-|[<-|[<-|[]]]]; vm_compute; discriminate.
Qed.
