From Coq Require Import Arith NArith ZArith Bool List Lia Sorted ZifyBool ZifyNat ZifyN.
From Verif Require Import ElfModel ElfSpec WideModel WideSpec.
Import ListNotations.
Local Open Scope N_scope.

(** ** Sets and maps *)
Lemma set_insert_in x l : forall t, In t (set_insert x l) <-> t = x \/ In t l.
Proof.
  induction l as [|y l IH]; intros t; cbn [set_insert]; [cbn; intuition|]. destruct (N.ltb_spec x y); [cbn; intuition|]. destruct (N.eqb_spec x y) as [->|].
  - cbn. intuition.
  - cbn [In]. rewrite IH. intuition.
Qed.
Lemma set_insert_sorted x l : StronglySorted N.lt l -> StronglySorted N.lt (set_insert x l).
Proof.
  induction 1 as [|y l Sl IH Fl]; cbn [set_insert]; [repeat constructor|]. destruct (N.ltb_spec x y).
  - constructor; [now constructor|]. constructor; auto. eapply Forall_impl; [|exact Fl]. intros a Ha. cbn beta in *. lia.
  - destruct (N.eqb_spec x y); [now constructor|]. constructor; auto. apply Forall_forall. intros t Ht. apply set_insert_in in Ht. destruct Ht as [->|Ht]; [lia|]. exact (proj1 (Forall_forall _ _) Fl t Ht).
Qed.
(** The entry of a map for a key. *)
Definition at_key (t : N) (m : list (N * list jump)) : list jump := flat_map (fun x => if fst x =? t then snd x else []) m.
Lemma at_key_above t m : Forall (fun x => t < fst x) m -> at_key t m = [].
Proof. induction 1 as [|x m Hx F IH]; auto. cbn [at_key flat_map]. destruct (N.eqb_spec (fst x) t); [lia|]. exact IH. Qed.
Definition map_ok (m : list (N * list jump)) : Prop := StronglySorted (fun a b => fst a < fst b) m /\ Forall (fun x => snd x <> []) m.
Lemma map_push_keys j m : forall x, In x (map_push j m) -> fst x = j_target j \/ In (fst x) (map fst m).
Proof.
  induction m as [|[y js] m IH]; cbn [map_push]; intros x; [intros [<-|[]]; now left|]. destruct (N.ltb_spec (j_target j) y).
  - intros [<-|Hx]; [now left|]. right. now apply in_map.
  - destruct (N.eqb_spec (j_target j) y) as [E|].
    + intros [<-|Hx]; [left; now symmetry|]. right. right. now apply in_map.
    + intros [<-|Hx]; [right; now left|]. destruct (IH x Hx); [now left|]. right. now right.
Qed.
Lemma map_push_ok j m : map_ok m -> map_ok (map_push j m).
Proof.
  intros [H1 H2]. split.
  - clear H2. induction H1 as [|[y js] m Sm IH Fm]; cbn [map_push]; [repeat constructor|]. cbn [fst] in Fm. destruct (N.ltb_spec (j_target j) y).
    + constructor; [now constructor|]. constructor; [exact H|]. eapply Forall_impl; [|exact Fm]. intros a Ha. cbn [fst] in *. lia.
    + destruct (N.eqb_spec (j_target j) y) as [E|]; [now constructor|]. constructor; auto. apply Forall_forall. intros x Hx. cbn [fst]. apply map_push_keys in Hx. destruct Hx as [->|Hx]; [lia|].
      apply in_map_iff in Hx. destruct Hx as (z & <- & Hz). exact (proj1 (Forall_forall _ _) Fm z Hz).
  - clear H1. induction H2 as [|[y js] m Hx F IH]; cbn [map_push]; [constructor; [discriminate|constructor]|]. destruct (N.ltb_spec (j_target j) y); [constructor; [discriminate|now constructor]|].
    destruct (N.eqb_spec (j_target j) y); constructor; auto. cbn [snd]. destruct js; discriminate.
Qed.
Lemma map_push_at j t m : map_ok m -> at_key t (map_push j m) = at_key t m ++ (if j_target j =? t then [j] else []).
Proof.
  intros [H1 _]. induction H1 as [|[y js] m Sm IH Fm]; cbn [map_push].
  - cbn. destruct (j_target j =? t); reflexivity.
  - cbn [fst] in Fm. destruct (N.ltb_spec (j_target j) y).
    + cbn [at_key flat_map fst snd]. destruct (N.eqb_spec (j_target j) t) as [<-|]; [|now rewrite app_nil_r].
      destruct (N.eqb_spec y (j_target j)); [lia|]. cbn [app]. fold (at_key (j_target j) m). rewrite at_key_above; [reflexivity|]. eapply Forall_impl; [|exact Fm]. intros a Ha. cbn [fst] in *. lia.
    + destruct (N.eqb_spec (j_target j) y) as [E|Ne].
      * cbn [at_key flat_map fst snd]. rewrite E. destruct (N.eqb_spec y t) as [<-|]; [|now rewrite app_nil_r]. fold (at_key y m).
        rewrite at_key_above; [now rewrite !app_nil_r|]. exact Fm.
      * cbn [at_key flat_map fst snd]. fold (at_key t (map_push j m)). fold (at_key t m). rewrite IH. now rewrite app_assoc.
Qed.
Lemma mem_in x l : mem x l = true <-> In x l.
Proof. unfold mem. rewrite existsb_exists. split; [intros (y & Hy & E); apply N.eqb_eq in E; now subst|]. intros H. exists x. split; auto. apply N.eqb_refl. Qed.

(** ** Recording *)
Lemma record_all labels : forall js acc, StronglySorted N.lt (fst acc) -> map_ok (snd acc) ->
  let r := fold_left (record_jump labels) js acc in
  StronglySorted N.lt (fst r) /\ map_ok (snd r) /\ (forall t, In t (fst r) <-> In t (fst acc) \/ exists j, In j js /\ j_target j = t) /\
  (forall t, at_key t (snd r) = at_key t (snd acc) ++ (if mem t labels then [] else filter (fun j => j_target j =? t) js)).
Proof.
  induction js as [|j js IH]; intros acc H1 H2; cbn [fold_left]; cbv zeta.
  - split; auto. split; auto. split; [intros t; split; [auto|intros [H|(j & [] & _)]; auto]|]. intros t. cbn. destruct (mem t labels); now rewrite app_nil_r.
  - specialize (IH (record_jump labels acc j)). cbv zeta in IH. destruct IH as (A & B & C & D).
    + cbn [record_jump fst]. now apply set_insert_sorted.
    + cbn [record_jump snd]. destruct (mem (j_target j) labels); auto. now apply map_push_ok.
    + split; auto. split; auto. split.
      * intros t. rewrite C. unfold record_jump at 1. cbn [fst]. rewrite set_insert_in. split.
        -- intros [[->|H]|(j' & H & E)]; [right; exists j; split; [now left|auto]|now left|right; exists j'; split; [now right|auto]].
        -- intros [H|(j' & [<-|H] & E)]; [auto|subst; auto|right; eauto].
      * intros t. rewrite D. unfold record_jump at 1. cbn [snd filter]. destruct (mem (j_target j) labels) eqn:E.
        -- destruct (N.eqb_spec (j_target j) t) as [<-|]; [rewrite E; reflexivity|reflexivity].
        -- rewrite map_push_at by auto. rewrite <- app_assoc. f_equal. destruct (N.eqb_spec (j_target j) t) as [<-|]; [now rewrite E|]. reflexivity.
Qed.

Section Facts.
  Variable decode64 : N -> option ins.
  (** ** Words *)
  Lemma four_ind (P : list N -> Prop) : P [] -> (forall a, P [a]) -> (forall a b, P [a; b]) -> (forall a b c, P [a; b; c]) -> (forall a b c d r, P r -> P (a :: b :: c :: d :: r)) -> forall l, P l.
  Proof. intros H0 H1 H2 H3 H4. fix IH 1. intros [|a [|b [|c [|d r]]]]; [exact H0|apply H1|apply H2|apply H3|apply H4; apply IH]. Qed.
  Lemma word_cons a b c d r k w : word_at (a :: b :: c :: d :: r) (4 * S k) w <-> word_at r (4 * k) w.
  Proof. unfold word_at. replace (4 * S k)%nat with (S (S (S (S (4 * k))))) by lia. cbn [nth_error Nat.add]. reflexivity. Qed.
  Lemma word_head a b c d r w : word_at (a :: b :: c :: d :: r) (4 * 0) w <-> w = le_bytes [a; b; c; d].
  Proof.
    unfold word_at. cbn [Nat.mul Nat.add nth_error le_bytes]. split.
    - intros (a' & b' & c' & d' & [= <-] & [= <-] & [= <-] & [= <-] & ->). lia.
    - intros ->. exists a, b, c, d. repeat split; auto. lia.
  Qed.
  Lemma land3 a : (N.land a 3 =? 3) = (a mod 4 =? 3).
  Proof. change 3 with (N.ones 2) at 1. rewrite N.land_ones. reflexivity. Qed.
  Lemma words_some : forall data is, decode_words decode64 data = Some is ->
    length data = (4 * length is)%nat /\ (forall k i, nth_error is k = Some i <-> exists w, word_at data (4 * k) w /\ decode64 w = Some i) /\
    (forall k, (k < length is)%nat -> exists a, nth_error data (4 * k) = Some a /\ a mod 4 = 3).
  Proof.
    induction data using four_ind; intros is H; cbn [decode_words] in H; try discriminate.
    - injection H as <-. split; auto. split; [|intros k L; cbn in L; lia]. intros k i. split; [destruct k; discriminate|]. intros (w & (a & b & c & d & X & _) & _). destruct (4 * k)%nat; discriminate.
    - rewrite land3 in H. destruct (N.eqb_spec (a mod 4) 3) as [Ha|]; [|discriminate]. destruct (decode64 (le_bytes [a; b; c; d])) as [i0|] eqn:D; [|discriminate]. destruct (decode_words decode64 data) as [l|] eqn:E; [|discriminate].
      injection H as <-. destruct (IHdata l eq_refl) as (A & B & C). split; [cbn [length]; lia|]. split.
      + intros [|k] i; cbn [nth_error].
        * split; [intros [= <-]; eexists; split; [apply word_head; reflexivity|auto]|]. intros (w & W & Hd). apply word_head in W. subst w. congruence.
        * rewrite B. split; intros (w & W & Hd); exists w; (split; [|exact Hd]); [exact (proj2 (word_cons _ _ _ _ _ _ _) W)|]. exact (proj1 (word_cons _ _ _ _ _ _ _) W).
      + intros [|k] L; [exists a; auto|]. cbn [length] in L. destruct (C k) as (x & X1 & X2); [lia|]. exists x. split; auto. replace (4 * S k)%nat with (S (S (S (S (4 * k))))) by lia. exact X1.
  Qed.
  Lemma words_total : forall data n, length data = (4 * n)%nat ->
    (forall k, (k < n)%nat -> exists a w i, nth_error data (4 * k) = Some a /\ a mod 4 = 3 /\ word_at data (4 * k) w /\ decode64 w = Some i) -> decode_words decode64 data <> None.
  Proof.
    induction data using four_ind; intros n L H; cbn [length] in L; try lia; cbn [decode_words]; [discriminate|].
    destruct n as [|n]; [lia|]. destruct (H 0%nat) as (x & w & i & X1 & X2 & X3 & X4); [lia|]. injection X1 as <-. apply word_head in X3. subst w. rewrite land3, X2. cbn [N.eqb Pos.eqb]. rewrite X4.
    specialize (IHdata n). destruct (decode_words decode64 data); [discriminate|]. exfalso. apply IHdata; [lia| |reflexivity]. intros k Hk. destruct (H (S k)) as (x & w & i' & Y1 & Y2 & Y3 & Y4); [lia|].
    exists x, w, i'. apply (proj1 (word_cons _ _ _ _ _ _ _)) in Y3. replace (4 * S k)%nat with (S (S (S (S (4 * k))))) in Y1 by lia. auto.
  Qed.
  Lemma nth_slice {A} (l : list A) o n j : nth_error (firstn n (skipn o l)) j = if Nat.ltb j n then nth_error l (o + j) else None.
  Proof.
    assert (Sk : forall o (l : list A) j, nth_error (skipn o l) j = nth_error l (o + j)). { clear. induction o as [|o IH]; intros l j; [reflexivity|]. destruct l; [cbn; now destruct j|]. apply IH. }
    rewrite <- Sk. generalize (skipn o l). clear. intros l. revert n j. induction l as [|x l IH]; intros [|n] [|j]; cbn [firstn nth_error]; auto. all: try (now destruct (Nat.ltb _ _)). rewrite IH. reflexivity.
  Qed.
  Variable file : list N.
  Lemma word_slice o n k w : word_at (firstn n (skipn o file)) (4 * k) w <-> (4 * k + 4 <= n)%nat /\ word_at file (o + 4 * k) w.
  Proof.
    unfold word_at. split.
    - intros (a & b & c & d & A & B & C & D & E). rewrite nth_slice in A, B, C, D. destruct (Nat.ltb_spec (4 * k) n); [|discriminate]. destruct (Nat.ltb_spec (4 * k + 1) n); [|discriminate]. destruct (Nat.ltb_spec (4 * k + 2) n); [|discriminate].
      destruct (Nat.ltb_spec (4 * k + 3) n); [|discriminate]. split; [lia|]. exists a, b, c, d. rewrite !Nat.add_assoc in *. repeat split; auto.
    - intros (L & a & b & c & d & A & B & C & D & E). exists a, b, c, d. rewrite !nth_slice. rewrite !Nat.add_assoc. repeat split; auto; match goal with |- (if ?x then _ else _) = _ => replace x with true by (symmetry; apply Nat.ltb_lt; lia) end; auto.
  Qed.
  (** The instructions of a segment. *)
  Lemma segment_some ph is : ph_exec ph = true -> ph_offset ph + ph_filesz ph <= N.of_nat (length file) ->
    decode_words decode64 (firstn (N.to_nat (ph_filesz ph)) (skipn (N.to_nat (ph_offset ph)) file)) = Some is ->
    readable decode64 file ph /\ forall k i, nth_error is k = Some i <-> code64 decode64 file ph k i.
  Proof.
    intros He Hl H. destruct (words_some _ _ H) as (A & B & C). rewrite firstn_length, skipn_length in A.
    assert (A' : N.to_nat (ph_filesz ph) = (4 * length is)%nat) by lia.
    assert (I : forall k i, nth_error is k = Some i <-> code64 decode64 file ph k i).
    { intros k i. rewrite B. unfold code64. split.
      - intros (w & W & D). apply word_slice in W. destruct W as [W1 W2]. split; auto. split; [lia|]. eauto.
      - intros (_ & L & w & W & D). exists w. split; auto. apply word_slice. split; [lia|auto]. }
    split; auto. split; auto. split; [replace (ph_filesz ph) with (N.of_nat (length is) * 4) by lia; now rewrite N.mod_mul|].
    intros k Hk. destruct (C k) as (a & C1 & C2); [lia|]. destruct (nth_error is k) as [i|] eqn:E; [|apply nth_error_None in E; lia]. apply I in E. destruct E as (_ & _ & w & W & D).
    exists a, w, i. rewrite nth_slice in C1. destruct (Nat.ltb_spec (4 * k) (N.to_nat (ph_filesz ph))); [|discriminate]. auto.
  Qed.
  Lemma segment_total ph : readable decode64 file ph -> decode_words decode64 (firstn (N.to_nat (ph_filesz ph)) (skipn (N.to_nat (ph_offset ph)) file)) <> None.
  Proof.
    intros (L & M & R). apply N.mod_divides in M; [|discriminate]. destruct M as [n M]. apply words_total with (n := N.to_nat n).
    - rewrite firstn_length, skipn_length. lia.
    - intros k Hk. destruct (R k) as (a & w & i & A & B & C & D); [lia|]. exists a, w, i. rewrite nth_slice. destruct (Nat.ltb_spec (4 * k) (N.to_nat (ph_filesz ph))); [|lia]. split; auto. split; auto. split; auto. apply word_slice. split; [lia|auto].
  Qed.

  (** ** Jumps *)
  Definition same_reg (a b : option N) : bool := match a, b with Some x, Some y => x =? y | None, None => true | _, _ => false end.
  Lemma same_reg_ok a b : same_reg a b = true <-> a = b.
  Proof. destruct a as [x|], b as [y|]; cbn; split; intros H; try discriminate; auto; [apply N.eqb_eq in H; congruence|injection H as ->; apply N.eqb_refl]. Qed.
  Inductive jump_at (base : N) (is : nat -> option ins) (prev : option (option N * option Z)) (k : nat) : jump -> Prop :=
  | at_jal i z : is k = Some i -> i_op i = JAL -> i_imm i = Some z -> jump_at base is prev k (mkJump (to_u64 (Z.of_N (base + N.of_nat (k * 4)) + z)) (base + N.of_nat (k * 4)) (TJal (i_rd i)))
  | at_branch i z : is k = Some i -> is_jump (i_op i) = true -> i_op i <> JAL -> i_imm i = Some z ->
      jump_at base is prev k (mkJump (to_u64 (Z.of_N (base + N.of_nat (k * 4)) + z)) (base + N.of_nat (k * 4)) (TBranch (i_op i) (i_rs1 i) (i_rs2 i)))
  | at_pair i h l : is k = Some i -> i_op i = JALR -> prev = Some (i_rd i, Some h) -> i_imm i = Some l ->
      jump_at base is prev k (mkJump (to_u64 (Z.of_N (base + N.of_nat (k * 4)) + h + l)) (base + N.of_nat (k * 4)) TPair).
  Definition prev_of (i : ins) : option (option N * option Z) := match i_op i with AUIPC => Some (i_rs1 i, i_imm i) | _ => None end.
  (** What precedes instruction [k] of a list. *)
  Definition before (is : list ins) (prev : option (option N * option Z)) (k : nat) : option (option N * option Z) :=
    match k with O => prev | S k' => match nth_error is k' with Some i => prev_of i | None => None end end.
  Lemma scan_jumps_in base : forall is k0 prev j, In j (scan_jumps base k0 prev is) <->
    exists k, jump_at base (fun n => nth_error is (n - k0)) (before is prev k) (k0 + k) j.
  Proof.
    induction is as [|i is IH]; intros k0 prev j; cbn [scan_jumps].
    - split; [intros []|]. intros (k & H). inversion H as [i z E|i z E|i h l E]; destruct (k0 + k - k0)%nat; discriminate.
    - cbv zeta. rewrite in_app_iff, IH. split.
      + intros [H|(k & H)].
        * exists 0%nat. cbn [before]. rewrite Nat.add_0_r. assert (E : nth_error (i :: is) (k0 - k0) = Some i) by (now rewrite Nat.sub_diag).
          destruct (i_op i) eqn:O; try (destruct H as []); try (destruct (i_imm i) as [z|] eqn:M; [|destruct H]; destruct H as [<-|[]]; try rewrite <- O; (eapply at_jal; eauto; fail) || (eapply at_branch; eauto; rewrite O; [reflexivity|discriminate])).
          destruct prev as [[rs imm]|]; [|destruct H]. fold (same_reg (i_rd i) rs) in H. destruct (same_reg (i_rd i) rs) eqn:R; [|destruct H]. apply same_reg_ok in R. subst rs. destruct imm as [h|]; [|destruct H]. destruct (i_imm i) as [l|] eqn:M; [|destruct H].
          destruct H as [<-|[]]. eapply at_pair; eauto.
        * exists (S k). replace (k0 + S k)%nat with (S k0 + k)%nat by lia. assert (Eb : before (i :: is) prev (S k) = before is (prev_of i) k) by (destruct k; reflexivity). rewrite Eb.
          assert (En : forall n, (S k0 <= n)%nat -> nth_error (i :: is) (n - k0) = nth_error is (n - S k0)) by (intros n Hn; replace (n - k0)%nat with (S (n - S k0)) by lia; reflexivity).
          inversion H as [i' z E|i' z E|i' h l E]; subst; [eapply at_jal|eapply at_branch|eapply at_pair]; eauto; (rewrite En by lia; exact E).
      + intros (k & H). destruct k as [|k].
        * left. cbn [before] in H. rewrite Nat.add_0_r in H. inversion H as [i' z E O M|i' z E O O' M|i' h l E O P M]; rewrite Nat.sub_diag in E; injection E as <-.
          -- rewrite O, M. now left.
          -- destruct (i_op i); try discriminate; try congruence; rewrite M; now left.
          -- rewrite O, P. fold (same_reg (i_rd i) (i_rd i)). rewrite (proj2 (same_reg_ok _ _) eq_refl), M. now left.
        * right. exists k. replace (k0 + S k)%nat with (S k0 + k)%nat in H by lia. assert (Eb : before (i :: is) prev (S k) = before is (prev_of i) k) by (destruct k; reflexivity). rewrite Eb in H.
          assert (En : forall n, (S k0 <= n)%nat -> nth_error (i :: is) (n - k0) = nth_error is (n - S k0)) by (intros n Hn; replace (n - k0)%nat with (S (n - S k0)) by lia; reflexivity).
          unfold prev_of in H. inversion H as [i' z E|i' z E|i' h l E]; subst; rewrite En in E by lia; [eapply at_jal|eapply at_branch|eapply at_pair]; eauto.
  Qed.
  Lemma scan_known ph is : (forall k i, nth_error is k = Some i <-> code64 decode64 file ph k i) ->
    forall j, In j (scan_jumps (ph_vaddr ph) 0 None is) <-> known_jump decode64 file ph j.
  Proof.
    intros I j. rewrite scan_jumps_in. assert (Ad : forall k, ph_vaddr ph + N.of_nat (k * 4) = addr64 ph k) by (intros k; unfold addr64; lia). split.
    - intros (k & H). cbn [Nat.add] in H. inversion H as [i z E O M|i z E O O' M|i h l E O P M]; subst; cbv beta in E; rewrite Nat.sub_0_r in E; apply I in E; rewrite Ad.
      + eapply known_jal; eauto.
      + eapply known_branch; eauto.
      + destruct k as [|k]; [discriminate|]. cbn [before] in P. destruct (nth_error is k) as [i0|] eqn:E0; [|discriminate]. apply I in E0. unfold prev_of in P. destruct (i_op i0) eqn:O0; try discriminate. injection P as P1 P2.
        eapply known_pair; eauto.
    - intros H. inversion H as [k i z E O M|k i z E O O' M|k i i' h l E O E' O' R M M']; subst.
      + exists k. cbn [Nat.add]. rewrite <- Ad. eapply at_jal; eauto. rewrite Nat.sub_0_r. now apply I.
      + exists k. cbn [Nat.add]. rewrite <- Ad. eapply at_branch; eauto. rewrite Nat.sub_0_r. now apply I.
      + exists (S k). cbn [Nat.add]. rewrite <- Ad. eapply at_pair; eauto; [rewrite Nat.sub_0_r; now apply I|]. cbn [before]. apply I in E. rewrite E. unfold prev_of. rewrite O. congruence.
  Qed.

  (** ** All segments *)
  Lemma scan_none labels phs : fold_left (scan_segment decode64 file labels) phs None = None.
  Proof. induction phs; auto. Qed.
  Lemma segments_all labels : forall phs acc, StronglySorted N.lt (fst acc) -> map_ok (snd acc) ->
    (fold_left (scan_segment decode64 file labels) phs (Some acc) = None <-> exists ph, In ph phs /\ ph_exec ph = true /\ ~ readable decode64 file ph) /\
    forall r, fold_left (scan_segment decode64 file labels) phs (Some acc) = Some r ->
      StronglySorted N.lt (fst r) /\ map_ok (snd r) /\
      (forall t, In t (fst r) <-> In t (fst acc) \/ exists ph j, In ph phs /\ known_jump decode64 file ph j /\ j_target j = t) /\
      (forall t j, In j (at_key t (snd r)) <-> In j (at_key t (snd acc)) \/ (exists ph, In ph phs /\ known_jump decode64 file ph j) /\ j_target j = t /\ ~ In t labels).
  Proof.
    induction phs as [|ph phs IH]; intros acc H1 H2; cbn [fold_left].
    - split; [split; [discriminate|intros (ph & [] & _)]|]. intros r [= <-]. split; auto. split; auto. split.
      + intros t. split; [auto|]. intros [H|(ph & j & [] & _)]; auto.
      + intros t j. split; [auto|]. intros [H|((ph & [] & _) & _)]; auto.
    - cbn [scan_segment]. destruct (ph_exec ph) eqn:He.
      + destruct (N.leb_spec (ph_offset ph + ph_filesz ph) (N.of_nat (length file))) as [L|L].
        * destruct (decode_words decode64 (firstn (N.to_nat (ph_filesz ph)) (skipn (N.to_nat (ph_offset ph)) file))) as [is|] eqn:D.
          -- destruct (segment_some _ _ He L D) as [R I]. pose proof (scan_known _ _ I) as K. destruct (record_all labels (scan_jumps (ph_vaddr ph) 0 None is) acc H1 H2) as (A & B & C & E).
             destruct (IH _ A B) as [N1 N2]. split.
             ++ rewrite N1. split; [intros (q & Q & X); exists q; split; [now right|auto]|]. intros (q & [<-|Q] & X & Y); [contradiction|eauto].
             ++ intros r Hr. destruct (N2 r Hr) as (A' & B' & C' & E'). split; auto. split; auto. split.
                ** intros t. rewrite C', C. split.
                   --- intros [[H|(j & Hj & T)]|(q & j & Q & X)]; [auto|right; exists ph, j; split; [now left|]; split; [now apply K|auto]|right; exists q, j; split; [now right|auto]].
                   --- intros [H|(q & j & [<-|Q] & X & T)]; [auto|left; right; exists j; split; [now apply K|auto]|right; exists q, j; auto].
                ** intros t j. rewrite E', E. rewrite in_app_iff. destruct (mem t labels) eqn:M.
                   --- apply mem_in in M. split; [intros [[H|[]]|(_ & _ & X)]; [auto|contradiction]|]. intros [H|(_ & _ & X)]; [auto|contradiction].
                   --- assert (M' : ~ In t labels) by (intros X; apply mem_in in X; congruence). rewrite filter_In, N.eqb_eq, K. split.
                       +++ intros [[H|[X T]]|((q & Q & X) & T & _)]; [auto|right; split; [exists ph; split; [now left|auto]|auto]|right; split; [exists q; split; [now right|auto]|auto]].
                       +++ intros [H|((q & [<-|Q] & X) & T & _)]; [auto|auto|right; split; [eauto|auto]].
          -- rewrite scan_none. split; [|discriminate]. split; auto. intros _. exists ph. split; [now left|]. split; auto. intros R. now apply (segment_total ph R).
        * rewrite scan_none. split; [|discriminate]. split; auto. intros _. exists ph. split; [now left|]. split; auto. intros [R _]. lia.
      + destruct (IH _ H1 H2) as [N1 N2]. assert (Nk : forall j, ~ known_jump decode64 file ph j) by (intros j K; inversion K as [k i z (X & _)|k i z (X & _)|k i i' h l (X & _)]; congruence). split.
        * rewrite N1. split; [intros (q & Q & X); exists q; split; [now right|auto]|]. intros (q & [<-|Q] & X & Y); [congruence|eauto].
        * intros r Hr. destruct (N2 r Hr) as (A' & B' & C' & E'). split; auto. split; auto. split.
          -- intros t. rewrite C'. split.
             ++ intros [H|(q & j & Q & X)]; [auto|right; exists q, j; split; [now right|auto]].
             ++ intros [H|(q & j & [<-|Q] & X & T)]; [auto|destruct (Nk j X)|right; exists q, j; auto].
          -- intros t j. rewrite E'. split.
             ++ intros [H|((q & Q & X) & T)]; [auto|right; split; [exists q; split; [now right|auto]|auto]].
             ++ intros [H|((q & [<-|Q] & X) & T)]; [auto|destruct (Nk j X)|right; split; [eauto|auto]].
  Qed.
  (** The jumps of a segment in the order of their addresses. *)
  Lemma scan_sorted base : forall is k prev, StronglySorted (fun a b => j_from a < j_from b) (scan_jumps base k prev is) /\ Forall (fun j => base + N.of_nat (k * 4) <= j_from j) (scan_jumps base k prev is).
  Proof.
    induction is as [|i is IH]; intros k prev; cbn [scan_jumps]; [split; constructor|]. cbv zeta.
    assert (G : forall o l', (exists j, o = [j] /\ j_from j = base + N.of_nat (k * 4)) \/ o = [] -> StronglySorted (fun a b => j_from a < j_from b) l' /\ Forall (fun j => base + N.of_nat (S k * 4) <= j_from j) l' ->
              StronglySorted (fun a b => j_from a < j_from b) (o ++ l') /\ Forall (fun j => base + N.of_nat (k * 4) <= j_from j) (o ++ l')).
    { intros o l' [(j & -> & E)| ->] [A B]; cbn [app].
      - split; constructor; auto; [|lia|]; (eapply Forall_impl; [|exact B]; intros a Ha; cbn beta in *; lia).
      - split; auto. eapply Forall_impl; [|exact B]. intros a Ha. cbn beta in *. lia. }
    apply G; [|apply IH]. destruct (i_op i); auto; try (destruct (i_imm i); [left; eexists; split; [reflexivity|reflexivity]|now right]).
    destruct prev as [[r m]|]; auto. destruct (match i_rd i with Some a => _ | None => _ end); auto. destruct m; auto. destruct (i_imm i); auto. left. eexists. split; reflexivity.
  Qed.
  Lemma segments_lists labels : forall phs acc, StronglySorted N.lt (fst acc) -> map_ok (snd acc) ->
    forall r, fold_left (scan_segment decode64 file labels) phs (Some acc) = Some r ->
      exists lists, Forall2 (fun ph js => (forall j, In j js <-> known_jump decode64 file ph j) /\ StronglySorted (fun a b => j_from a < j_from b) js) (filter ph_exec phs) lists /\
        forall t, at_key t (snd r) = at_key t (snd acc) ++ (if mem t labels then [] else filter (fun j => j_target j =? t) (concat lists)).
  Proof.
    induction phs as [|ph phs IH]; intros acc H1 H2 r; cbn [fold_left].
    - intros [= <-]. exists []. split; [constructor|]. intros t. cbn. destruct (mem t labels); now rewrite app_nil_r.
    - cbn [scan_segment filter]. destruct (ph_exec ph) eqn:He; [|now apply IH].
      destruct (N.leb_spec (ph_offset ph + ph_filesz ph) (N.of_nat (length file))) as [L|L]; [|rewrite scan_none; discriminate].
      destruct (decode_words decode64 (firstn (N.to_nat (ph_filesz ph)) (skipn (N.to_nat (ph_offset ph)) file))) as [is|] eqn:D; [|rewrite scan_none; discriminate].
      destruct (segment_some _ _ He L D) as [R I]. pose proof (scan_known _ _ I) as K. destruct (record_all labels (scan_jumps (ph_vaddr ph) 0 None is) acc H1 H2) as (A & B & C & E).
      intros Hr. destruct (IH _ A B r Hr) as (ls & F1 & F2). exists (scan_jumps (ph_vaddr ph) 0 None is :: ls). split.
      + constructor; auto. split; [exact K|]. apply scan_sorted.
      + intros t. rewrite F2, E. rewrite <- app_assoc. f_equal. destruct (mem t labels); auto. cbn [concat]. now rewrite filter_app.
  Qed.
End Facts.

(** ** Symbols and the base *)
Lemma in_text_iff phs a : in_text phs a = true <-> exists ph, In ph phs /\ ph_exec ph = true /\ ph_vaddr ph <= a < ph_vaddr ph + ph_memsz ph.
Proof.
  unfold in_text. rewrite existsb_exists. split.
  - intros (ph & H & E). exists ph. split; auto. rewrite !andb_true_iff, N.leb_le, N.ltb_lt in E. tauto.
  - intros (ph & H & E & L). exists ph. split; auto. rewrite !andb_true_iff, N.leb_le, N.ltb_lt. tauto.
Qed.
Definition used (e : elf64) : list sym64 := filter (fun s => negb (s_value s =? 0) && in_text (e_phs e) (s_value s)) (e_syms e).
Lemma used_in e t : In t (map s_value (used e)) <-> exists s, text_symbol e t s.
Proof.
  rewrite in_map_iff. unfold used, text_symbol. split.
  - intros (s & E & H). apply filter_In in H. destruct H as [H H']. rewrite andb_true_iff, negb_true_iff, N.eqb_neq, in_text_iff in H'. subst t. exists s. tauto.
  - intros (s & H & E & Z & X). exists s. split; auto. apply filter_In. split; auto. subst t. rewrite andb_true_iff, negb_true_iff, N.eqb_neq, in_text_iff. auto.
Qed.
Lemma insert_all : forall l s, StronglySorted N.lt s -> StronglySorted N.lt (fold_left (fun l a => set_insert a l) l s) /\ forall t, In t (fold_left (fun l a => set_insert a l) l s) <-> In t l \/ In t s.
Proof.
  induction l as [|x l IH]; intros s H; cbn [fold_left]; [split; auto; intros t; cbn; intuition|]. destruct (IH _ (set_insert_sorted x s H)) as [A B]. split; auto. intros t. rewrite B, set_insert_in. cbn. intuition.
Qed.
Lemma fold_min : forall l x, In (fold_left N.min l x) (x :: l) /\ Forall (fun y => fold_left N.min l x <= y) (x :: l).
Proof.
  induction l as [|y l IH]; intros x; cbn [fold_left]; [split; [now left|repeat constructor; lia]|]. destruct (IH (N.min x y)) as [A B]. inversion B as [|? ? B1 B2]; subst. split.
  - destruct A as [A|A]; [|right; now right]. rewrite <- A. destruct (N.min_spec x y) as [[_ ->] | [_ ->]]; [now left|right; now left].
  - constructor; [lia|]. constructor; [lia|auto].
Qed.
Lemma at_key_in m t j : map_ok m -> (In j (at_key t m) <-> exists js, In (t, js) m /\ In j js).
Proof.
  intros _. unfold at_key. rewrite in_flat_map. split.
  - intros ([k js] & H & X). cbn [fst snd] in X. destruct (N.eqb_spec k t) as [->|]; [|destruct X]. eauto.
  - intros (js & H & X). exists (t, js). split; auto. cbn [fst snd]. now rewrite N.eqb_refl.
Qed.
Lemma scan64_same base : forall is k prev, map j_target (scan_jumps base k prev is) = scan64 base k prev is.
Proof.
  induction is as [|i is IH]; intros k prev; cbn [scan_jumps scan64]; auto. cbv zeta. rewrite map_app, IH. f_equal. destruct (i_op i); auto; try (destruct (i_imm i); reflexivity).
  destruct prev as [[r m]|]; auto. destruct (match i_rd i with Some a => _ | None => _ end); auto. destruct m, (i_imm i); reflexivity.
Qed.

Lemma at_key_entry m t js : map_ok m -> (In (t, js) m <-> js <> [] /\ js = at_key t m).
Proof.
  intros [H1 H2]. induction H1 as [|[k l] m Sm IH Fm].
  - cbn. intuition.
  - inversion H2 as [|? ? H3 H4]; subst. cbn [snd fst] in *. specialize (IH H4). cbn [In at_key flat_map fst snd]. fold (at_key t m). destruct (N.eqb_spec k t) as [->|Ne].
    + assert (Z : at_key t m = []) by (apply at_key_above; exact Fm). rewrite Z, app_nil_r. split.
      * intros [[= ->]|X]; [auto|]. pose proof (proj1 (Forall_forall _ _) Fm _ X) as Y. cbn [fst] in Y. lia.
      * intros [_ ->]. now left.
    + cbn [app]. rewrite <- IH. split; [intros [[= -> _]|X]; [congruence|auto]|auto].
Qed.
