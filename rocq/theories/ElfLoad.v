(** Facts for C54: loading. *)
From Coq Require Import Arith NArith ZArith Bool List Lia Sorted.
From Coq Require Import ZifyBool ZifyNat ZifyN.
From Verif Require Import BlocksModel ElfModel ElfSpec ElfFacts.
Import ListNotations.
Local Open Scope N_scope.

Lemma load_data_get : forall fuel addr bytes m a x, addr + N.of_nat (length bytes) + 4 <= 2 ^ 32 ->
  bt_get a (load_data fuel addr bytes m) = Some x ->
  bt_get a m = Some x \/ exists k, (4 * k < length bytes)%nat /\ a = addr + N.of_nat (4 * k) /\ x = Value (le_bytes (firstn 4 (skipn (4 * k) bytes))).
Proof.
  induction fuel as [|fuel IH]; intros addr bytes m a x B H; [destruct bytes; auto|]. cbn [load_data] in H. destruct bytes as [|b bytes0]; auto. set (bytes := b :: bytes0) in *.
  cbv zeta in H. assert (L : (0 < length bytes)%nat) by (unfold bytes; cbn; lia).
  assert (D : bt_get a (if le_bytes (firstn 4 bytes) =? 0 then m else bt_insert addr (Value (le_bytes (firstn 4 bytes))) m) = Some x ->
    bt_get a m = Some x \/ exists k, (4 * k < length bytes)%nat /\ a = addr + N.of_nat (4 * k) /\ x = Value (le_bytes (firstn 4 (skipn (4 * k) bytes)))).
  { destruct (le_bytes (firstn 4 bytes) =? 0); auto. rewrite bt_get_insert. destruct (N.eqb_spec a addr) as [->|E]; auto. intros [= <-]. right. exists 0%nat. split; auto. split; [lia|reflexivity]. }
  destruct (le_lt_dec (length bytes) 4) as [S4|S4].
  - rewrite (skipn_all2 _ S4) in H. apply D. destruct fuel; exact H.
  - rewrite w32_small in H by lia. apply IH in H; [|rewrite skipn_length; lia]. destruct H as [H|(k & K1 & K2 & K3)]; [auto|]. right. exists (S k). rewrite skipn_length in K1. split; [lia|]. split; [lia|].
    rewrite K3. do 3 f_equal. replace (4 * S k)%nat with (4 + 4 * k)%nat by lia. generalize (4 * k)%nat. clear. intros n. generalize bytes. generalize 4%nat. induction n0; intros l; [reflexivity|]. destruct l; [now rewrite !skipn_nil|]. cbn [skipn Nat.add]. apply IHn0.
Qed.

Section Load.
  Variable decode32 : N -> option ins.
  Variable decode16 : N -> decoded16.
  Variable rellocs : list N.
  Variable amap : list (N * segment).

  Lemma scan_ok : forall l m refs m' refs', scan decode32 decode16 rellocs amap l m refs = Some (m', refs') ->
    (forall t, In t refs' <-> In t refs \/ exists addr s bytes is, In (addr, s) l /\ s_exec s = true /\ s_data s = Some bytes /\ instructions decode32 decode16 addr bytes = Some is /\ mentions rellocs amap is t) /\
    (forall addr s, In (addr, s) l -> s_exec s = true -> exists bytes is r, s_data s = Some bytes /\ instructions decode32 decode16 addr bytes = Some is /\ map_two_by_two rellocs amap None is = Some r) /\
    ((forall addr s bytes, In (addr, s) l -> s_exec s = false -> s_data s = Some bytes -> addr + N.of_nat (length bytes) + 4 <= 2 ^ 32) ->
     forall a x, bt_get a m' = Some x -> bt_get a m = Some x \/ exists addr s bytes k, In (addr, s) l /\ s_exec s = false /\ s_data s = Some bytes /\
       (4 * k < length bytes)%nat /\ a = addr + N.of_nat (4 * k) /\ x = Value (le_bytes (firstn 4 (skipn (4 * k) bytes)))).
  Proof.
    induction l as [|[addr s] l IH]; intros m refs m' refs' H; cbn [scan] in H.
    - injection H as <- <-. split; [|split].
      + intros t. split; auto. intros [X|(? & ? & ? & ? & [] & _)]. auto.
      + intros ? ? [].
      + auto.
    - destruct (s_data s) as [bytes|] eqn:Ed; [|discriminate]. destruct (s_exec s) eqn:Ex.
      + destruct (instructions decode32 decode16 addr bytes) as [is|] eqn:Ei; [|discriminate]. destruct (map_two_by_two rellocs amap None is) as [[hs r]|] eqn:Em; [|discriminate].
        destruct (IH _ _ _ _ H) as (I1 & I2 & I3). split; [|split].
        * intros t. rewrite I1, in_app_iff, (pass_ok rellocs amap _ is hs r (le_n _) Em). split.
          -- intros [[X|X]|(ad & s' & b' & is' & X1 & X)]; auto; [right; exists addr, s, bytes, is; split; [now left|auto]|right; exists ad, s', b', is'; split; [now right|auto]].
          -- intros [X|(ad & s' & b' & is' & [X1|X1] & X)]; auto.
             ++ injection X1 as <- <-. left. left. destruct X as (_ & X2 & X3 & X4). assert (b' = bytes) by congruence. subst b'. assert (is' = is) by congruence. now subst.
             ++ right. exists ad, s', b', is'. auto.
        * intros ad s' [X|X] Es; [injection X as <- <-; exists bytes, is, (hs, r); auto|eauto].
        * intros B a x G. destruct (I3 ltac:(intros; eapply B; eauto; now right) a x G) as [X|(ad & s' & b' & k & X1 & X)]; auto. right. exists ad, s', b', k. split; [now right|auto].
      + destruct (IH _ _ _ _ H) as (I1 & I2 & I3). split; [|split].
        * intros t. rewrite I1. split; (intros [X|(ad & s' & b' & is' & X1 & X)]; [auto|]); right; exists ad, s', b', is'; [split; [now right|auto]|]. destruct X1 as [X1|X1]; auto. injection X1 as <- <-. destruct X as [X _]. congruence.
        * intros ad s' [X|X] Es; [injection X as <- <-; congruence|eauto].
        * intros B a x G. destruct (I3 ltac:(intros; eapply B; eauto; now right) a x G) as [X|(ad & s' & b' & k & X1 & X)]; [|right; exists ad, s', b', k; split; [now right|auto]].
          apply load_data_get in X; [|eapply B; eauto; now left]. destruct X as [X|(k & X1 & X2 & X3)]; auto. right. exists addr, s, bytes, k. split; [now left|auto 6].
  Qed.
  Lemma pie_ok : forall rs m refs m' refs', pie_relocate amap rs m refs = Some (m', refs') ->
    forall t, In t refs' <-> In t refs \/ exists r z, In r rs /\ r_addend r = Some z /\ is_in_text_section amap (plus 0 z) = true /\ t = plus 0 z.
  Proof.
    induction rs as [|r rs IH]; intros m refs m' refs' H t; cbn [pie_relocate] in H.
    - injection H as <- <-. split; auto. intros [X|(r & z & [] & _)]; auto.
    - cbv zeta in H. destruct (negb (is_in_data_section amap (w32 (r_offset r)))); [discriminate|]. destruct (negb (r_type r =? R_RISCV_RELATIVE)); [discriminate|].
      destruct (r_addend r) as [z|] eqn:Ez; [|discriminate]. change (to_u32 z) with (plus 0 z) in H. destruct (is_in_text_section amap (plus 0 z)) eqn:T.
      + rewrite (IH _ _ _ _ H t). cbn [In]. split.
        * intros [[<-|X]|(r' & z' & X1 & X)]; auto; right; [exists r, z; auto|exists r', z'; auto].
        * intros [X|(r' & z' & [->|X1] & X2 & X3 & X4)]; auto; [left; left; congruence|]. right. exists r', z'. auto.
      + rewrite (IH _ _ _ _ H t). split; (intros [X|(r' & z' & X1 & X)]; [auto|]); right; exists r', z'; [split; [now right|auto]|]. destruct X1 as [->|X1]; [|auto]. destruct X as (X2 & X3 & _). congruence.
  Qed.
  Lemma static_ok : forall rs m refs m' refs', static_relocate amap rs m refs = Some (m', refs') ->
    (forall t, In t refs' <-> In t refs \/ exists r, In r rs /\ is_in_data_section amap (w32 (r_offset r)) = true /\ bt_get (w32 (r_offset r)) m = Some (Value t) /\ is_in_text_section amap t = true) /\
    (forall r, In r rs -> is_in_data_section amap (w32 (r_offset r)) = true -> exists v, bt_get (w32 (r_offset r)) m = Some (Value v)).
  Proof.
    induction rs as [|r rs IH]; intros m refs m' refs' H; cbn [static_relocate] in H.
    - injection H as <- <-. split; [|intros r []]. intros t. split; auto. intros [X|(r & [] & _)]; auto.
    - cbv zeta in H. destruct (is_in_data_section amap (w32 (r_offset r))) eqn:D; cbn [negb] in H.
      + destruct (negb (r_type r =? R_RISCV_32)); [discriminate|]. destruct (bt_get (w32 (r_offset r)) m) as [[|v]|] eqn:G; try discriminate. destruct (is_in_text_section amap v) eqn:T.
        * destruct (IH _ _ _ _ H) as [I1 I2].
          assert (Ne : forall r', In r' rs -> is_in_data_section amap (w32 (r_offset r')) = true -> bt_get (w32 (r_offset r')) (bt_insert (w32 (r_offset r)) (TextLabel v) m) = bt_get (w32 (r_offset r')) m).
          { intros r' Hr Hd. destruct (I2 r' Hr Hd) as (v' & G'). rewrite bt_get_insert in *. destruct (w32 (r_offset r') =? w32 (r_offset r)); [discriminate|reflexivity]. }
          split.
          -- intros t. rewrite I1. cbn [In]. split.
             ++ intros [[<-|X]|(r' & X1 & X2 & X3 & X4)]; auto; right; [exists r; auto|]. exists r'. rewrite <- (Ne r') by auto. auto.
             ++ intros [X|(r' & [->|X1] & X2 & X3 & X4)]; auto; [left; left; congruence|]. right. exists r'. rewrite (Ne r') by auto. auto.
          -- intros r' [->|Hr] Hd; [eauto|]. rewrite <- (Ne r') by auto. auto.
        * destruct (IH _ _ _ _ H) as [I1 I2]. split.
          -- intros t. rewrite I1. split; (intros [X|(r' & X1 & X)]; [auto|]); right; exists r'; [split; [now right|auto]|]. destruct X1 as [->|X1]; auto. destruct X as (_ & X2 & X3). rewrite G in X2. injection X2 as <-. congruence.
          -- intros r' [->|Hr] Hd; [eauto|]. auto.
      + destruct (IH _ _ _ _ H) as [I1 I2]. split.
        * intros t. rewrite I1. split; (intros [X|(r' & X1 & X)]; [auto|]); right; exists r'; [split; [now right|auto]|]. destruct X1 as [->|X1]; auto. destruct X as (X & _). congruence.
        * intros r' [->|Hr] Hd; [congruence|auto].
  Qed.
End Load.

Section Elf.
  Variable decode32 : N -> option ins.
  Variable decode16 : N -> decoded16.
  Variable e : elf.
  Hypothesis Hs : segments_ok (e_segs e).
  Local Notation amap := (address_map (e_segs e)).
  Local Notation rellocs := (map (fun r => w32 (r_offset r)) (filter (fun r => r_type r =? R_RISCV_HI20) (e_relocs e))).

  Lemma amap_in k s : In (k, s) amap <-> In s (e_segs e) /\ k = s_vaddr s.
  Proof. destruct Hs as [D B]. apply amap_ok; auto. eapply Forall_impl; [|exact B]. cbv beta. intros. lia. Qed.
  Lemma relloc_in a : In a rellocs <-> exists r, In r (e_relocs e) /\ r_type r = R_RISCV_HI20 /\ w32 (r_offset r) = a.
  Proof.
    rewrite in_map_iff. split.
    - intros (r & E & H). apply filter_In in H. exists r. split; [tauto|]. split; auto. now apply N.eqb_eq.
    - intros (r & H & T & E). exists r. split; auto. apply filter_In. split; auto. now apply N.eqb_eq.
  Qed.
  (** What the sections mention is what the code refers to. *)
  Lemma mentions_code s bytes is t : In s (e_segs e) -> s_exec s = true -> s_data s = Some bytes -> instructions decode32 decode16 (s_vaddr s) bytes = Some is ->
    mentions rellocs amap is t -> referenced decode32 decode16 e t.
  Proof.
    intros H1 H2 H3 H4 [(a & i & z & H & J & M & ->)|(a & a2 & i1 & i2 & Ad & P)]; destruct (iterate_ok _ _ _ _ _ _ H4) as (K1 & K2 & _).
    - apply K1 in H. destruct H as (n & H). eapply ref_jump; eauto. exists s, bytes. eauto.
    - destruct (proj1 (K2 a (Ins i1) (Ins i2))) as (n1 & n2 & L); [eauto|]. assert (C : code2 decode32 decode16 e a i1 n1 i2 n2) by (exists s, bytes; auto).
      destruct P as [rd1 hi rd2 rs1 lo|rd hi rd2 lo O1 R1 M1 O2 R2 S2 M2 N3 T|rd hi rd2 lo O1 R1 M1 O2 R2 S2 M2 Rl N3 T].
      + eapply ref_call; eauto.
      + apply text_ok in T; auto. eapply ref_relative; eauto.
      + apply text_ok in T; auto. apply relloc_in in Rl. destruct Rl as (r & Hr1 & Hr2 & Hr3). eapply ref_absolute; eauto.
  Qed.

  Theorem labels_ok p : words_ok (e_segs e) -> e_entry e < 2 ^ 32 -> load_elf decode32 decode16 e = Some p ->
    forall t, In t (p_labels p) <-> referenced decode32 decode16 e t.
  Proof.
    intros [W1 W2] He H t. unfold load_elf in H. destruct (negb (e_riscv32 e)); [discriminate|]. destruct (negb (e_dyn e || e_has_relocs e)); [discriminate|]. cbv zeta in H.
    destruct (scan decode32 decode16 rellocs amap amap [] [w32 (e_entry e)]) as [[m refs]|] eqn:Sc; [|discriminate].
    destruct (scan_ok _ _ _ _ _ _ _ _ _ Sc) as (S1 & S2 & S3).
    assert (S3' : forall a x, bt_get a m = Some x -> exists s bytes k, In s (e_segs e) /\ s_exec s = false /\ s_data s = Some bytes /\ (4 * k < length bytes)%nat /\ a = s_vaddr s + N.of_nat (4 * k) /\ x = Value (le_bytes (firstn 4 (skipn (4 * k) bytes)))).
    { intros a x G. destruct (S3 ltac:(intros ad s b X X' X''; apply amap_in in X; destruct X as [X ->]; eauto) a x G) as [X|(ad & s & b & k & X1 & X)]; [discriminate|]. apply amap_in in X1. destruct X1 as [X1 ->]. exists s, b, k. auto. }
    clear S3.
    assert (Code : forall s bytes, In s (e_segs e) -> s_exec s = true -> s_data s = Some bytes -> exists is, instructions decode32 decode16 (s_vaddr s) bytes = Some is).
    { intros s bytes G1 G2 G3. destruct (S2 (s_vaddr s) s) as (b & is & r & X1 & X2 & _); [apply amap_in; auto|auto|]. exists is. congruence. }
    assert (Base : (exists addr s bytes is, In (addr, s) amap /\ s_exec s = true /\ s_data s = Some bytes /\ instructions decode32 decode16 addr bytes = Some is /\ mentions rellocs amap is t) -> In t refs) by (intros X; apply S1; now right).
    assert (Ment : forall a, In a refs -> referenced decode32 decode16 e a).
    { intros a X. apply S1 in X. destruct X as [[<-|[]]|(ad & s & b & is & X1 & X2 & X3 & X4 & X5)]; [rewrite w32_small by auto; apply ref_entry|]. apply amap_in in X1. destruct X1 as [X1 ->]. eapply mentions_code; eauto. }
    assert (Conv : referenced decode32 decode16 e t -> In t refs \/
      (exists r z, e_dyn e = true /\ In r (e_dynrelas e) /\ r_addend r = Some z /\ text_address (e_segs e) (plus 0 z) /\ t = plus 0 z) \/
      (exists r s bytes k, e_dyn e = false /\ In r (e_relocs e) /\ data_address (e_segs e) (w32 (r_offset r)) /\ In s (e_segs e) /\ s_exec s = false /\ s_data s = Some bytes /\ w32 (r_offset r) = s_vaddr s + N.of_nat (4 * k) /\
         (4 * k < length bytes)%nat /\ text_address (e_segs e) t /\ t = le_bytes (firstn 4 (skipn (4 * k) bytes)))).
    { intros X. destruct X as [|a i n z (s & bytes & C1 & C2 & C3 & C4) J M|a i1 n1 i2 n2 rd1 hi rd2 rs1 lo (s & bytes & C1 & C2 & C3 & C4) O1 R1 M1 O2 R2 Q2 M2|
        a i1 n1 i2 n2 rd hi rd2 lo (s & bytes & C1 & C2 & C3 & C4) O1 R1 M1 O2 R2 Q2 M2 N3 T|a i1 n1 i2 n2 rd hi rd2 lo r (s & bytes & C1 & C2 & C3 & C4) O1 R1 M1 O2 R2 Q2 M2 Rl1 Rl2 Rl3 N3 T|r z D I A T|r s bytes k D I Da C1 C2 C3 C4 C5 v T].
      - left. apply S1. left. left. now apply w32_small.
      - left. apply Base. destruct (Code s bytes C1 C2 C3) as (is & E). exists (s_vaddr s), s, bytes, is. split; [apply amap_in; auto|]. do 3 (split; auto). left. exists a, i, z. split; auto.
        apply (proj1 (iterate_ok _ _ _ _ _ _ E)). eauto.
      - left. apply Base. destruct (Code s bytes C1 C2 C3) as (is & E). exists (s_vaddr s), s, bytes, is. split; [apply amap_in; auto|]. do 3 (split; auto). right.
        destruct (proj2 (proj1 (proj2 (iterate_ok _ _ _ _ _ _ E)) a (Ins i1) (Ins i2))) as (a2 & Ad); [eauto|]. exists a, a2, i1, i2. split; auto. eapply pl_call; eauto.
      - left. apply Base. destruct (Code s bytes C1 C2 C3) as (is & E). exists (s_vaddr s), s, bytes, is. split; [apply amap_in; auto|]. do 3 (split; auto). right.
        destruct (proj2 (proj1 (proj2 (iterate_ok _ _ _ _ _ _ E)) a (Ins i1) (Ins i2))) as (a2 & Ad); [eauto|]. exists a, a2, i1, i2. split; auto. eapply pl_relative; eauto. now apply text_ok.
      - left. apply Base. destruct (Code s bytes C1 C2 C3) as (is & E). exists (s_vaddr s), s, bytes, is. split; [apply amap_in; auto|]. do 3 (split; auto). right.
        destruct (proj2 (proj1 (proj2 (iterate_ok _ _ _ _ _ _ E)) a (Ins i1) (Ins i2))) as (a2 & Ad); [eauto|]. exists a, a2, i1, i2. split; auto. eapply pl_absolute; eauto; [apply relloc_in; eauto|now apply text_ok].
      - right. left. exists r, z. auto.
      - right. right. exists r, s, bytes, k. auto 12. }
    destruct (e_dyn e) eqn:Dy.
    - destruct (pie_relocate amap (e_dynrelas e) m refs) as [[m2 refs2]|] eqn:P; [|discriminate]. destruct (Nat.eqb (e_dynrels e) 0); [|discriminate].
      destruct (lift_all decode32 decode16 rellocs amap amap refs2); [|discriminate]. injection H as <-. cbn [p_labels]. rewrite (pie_ok _ _ _ _ _ _ P t). split.
      + intros [X|(r & z & X1 & X2 & X3 & ->)]; auto. apply text_ok in X3; auto. eapply ref_dynamic; eauto.
      + intros X. apply Conv in X. destruct X as [X|[(r & z & _ & X1 & X2 & X3 & X4)|(r & s & b & k & X & _)]]; [auto| |congruence]. right. exists r, z. split; auto. split; auto. split; auto. now apply text_ok.
    - destruct (static_relocate amap (e_relocs e) m refs) as [[m2 refs2]|] eqn:P; [|discriminate]. destruct (lift_all decode32 decode16 rellocs amap amap refs2); [|discriminate]. injection H as <-. cbn [p_labels].
      destruct (static_ok _ _ _ _ _ _ P) as [P1 P2]. rewrite P1. split.
      + intros [X|(r & X1 & X2 & X3 & X4)]; auto. destruct (S3' _ _ X3) as (s & bytes & k & G1 & G2 & G3 & G4 & G5 & G6). injection G6 as ->. eapply ref_static; eauto; [now apply data_ok|now apply text_ok].
      + intros X. apply Conv in X. destruct X as [X|[(r & z & X & _)|(r & s & bytes & k & _ & X1 & X2 & X3 & X4 & X5 & X6 & X7 & X8 & ->)]]; [auto|congruence|]. right. exists r. apply data_ok in X2; auto. split; auto. split; auto.
        destruct (P2 r X1 X2) as (v & G). destruct (S3' _ _ G) as (s' & bytes' & k' & G1 & G2 & G3 & G4 & G5 & G6). assert (s' = s) by (eapply (W2 s' s bytes' bytes k' k); eauto; congruence). subst s'.
        assert (bytes' = bytes) by congruence. subst bytes'. assert (k' = k) by lia. subst k'. split; [congruence|]. now apply text_ok.
  Qed.
End Elf.
