(** The OpenVM handler meets the requirements of the low-degree optimizer. *)
From Coq Require Import Arith NArith ZArith Znumtheory Bool List Lia ZifyBool ZifyN ZifyNat.
From Verif Require Import Field RangeModel RangeFacts ExprModel ExprFacts SystemModel Spec Bridge BusModel OvmModel OvmSpec OvmFacts OvmBatch EmpFacts PassSpec LowModel LowSpec LowFacts LowSem.
Import ListNotations.
Local Open Scope N_scope.

Section LowOvmSpec.
  Context {p : positive} (m : busmap).
  (** A bus is stateful if it is the execution or memory bus; for unknown buses [is_stateful] panics. *)
  Definition ovm_stateful (i : F p) : bool := match is_stateful m i with Some b => b | None => false end.
  (** The lookup tables of OpenVM; the program table is a parameter. *)
  Definition ovm_table (program : list (F p) -> Prop) (i : F p) (pl : list (F p)) : Prop :=
    exists t, In (val i, t) m /\ match t with BPc => program pl | _ => accepts t fone pl end.
  (** Bitwise lookups are about bytes. *)
  Definition ovm_domain (i x : F p) : Prop := In (val i, BBitwise) m -> byte x.
End LowOvmSpec.

Section LowOvm.
  Context {p : positive}.
  Hypothesis Hbig : 2 ^ 26 < N.pos p.
  Local Notation gexp := (gexp p).
  Local Notation rc := (rc p).
  Local Notation P := (N.pos p).
  Add Ring Fo : (F_ring_theory (p:=p)).
  Variables (m : busmap) (program : list (F p) -> Prop).
  Hypothesis Hm : map_ok p m.
  Local Notation stateful := (ovm_stateful (p:=p) m).
  Local Notation table := (ovm_table m program).

  Lemma stateful_type (i : F p) t : In (val i, t) m -> stateful i = match t with BExec | BMemory => true | _ => false end.
  Proof. intros H. unfold ovm_stateful, is_stateful. rewrite (bus_type_of _ _ _ (proj1 Hm) H). destruct t; reflexivity. Qed.
  Lemma acceptable_legal (v : busi (F p)) : stateful (bus_id v) = false -> acceptable stateful table v -> legal m v.
  Proof.
    intros H A. destruct (F_dec (mult v) fzero) as [E|E]; [now left|]. right. destruct (A H E) as (t & Ht & X). exists t. split; auto. rewrite (stateful_type _ _ Ht) in H. destruct t; auto; try discriminate. exact Logic.I.
  Qed.
  Lemma ovm_lookup_sound : lookup_sound stateful table (ovm_total m).
  Proof. intros b v H A B. apply (ovm_total_sound Hbig m Hm b); auto. now apply acceptable_legal. Qed.

  (** ** Small ranges *)
  Lemma not_257 (r : rc) : small r -> ~ forall x, val x <= 256 -> rc_allows r x.
  Proof.
    intros (l & L & Hl) H. pose proof (big26 Hbig) as B. set (xs := map (fun n => of_N (p:=p) (N.of_nat n)) (seq 0 257)).
    assert (N : NoDup xs).
    { apply EmpFacts.map_nodup_snd; [|apply seq_NoDup]. intros a b Ha Hb E. apply in_seq in Ha, Hb. apply (f_equal val) in E. rewrite !val_of_N_small in E by lia. lia. }
    assert (I : incl xs l). { intros x Hx. apply Hl, H. apply in_map_iff in Hx. destruct Hx as (n & <- & Hn). apply in_seq in Hn. rewrite val_of_N_small; lia. }
    pose proof (NoDup_incl_length N I) as X. unfold xs in X. rewrite map_length, seq_length in X. lia.
  Qed.
  Lemma small_bits k : small (from_mask (N.shiftl 1 k - 1) : rc) -> k <= 8.
  Proof.
    intros S. destruct (N.le_gt_cases k 8) as [|Hk]; auto. exfalso. apply (not_257 _ S). intros x Hx. apply allows_bits. assert (2 ^ 9 <= 2 ^ k) by (apply N.pow_le_mono_r; lia). change (2 ^ 9) with 512 in *. lia.
  Qed.
  Definition byte_range (r : rc) : Prop := low r /\ forall x, rc_allows r x -> byte x.
  Lemma small_bits_byte k : small (from_mask (N.shiftl 1 k - 1) : rc) -> byte_range (from_mask (N.shiftl 1 k - 1)).
  Proof.
    intros S. apply small_bits in S. split; [apply low_bits; auto; lia|]. intros x Hx. apply allows_bits in Hx. unfold byte. assert (2 ^ k <= 2 ^ 8) by (apply N.pow_le_mono_r; lia). change (2 ^ 8) with 256 in *. lia.
  Qed.
  Lemma batch_made l bs : Forall (fun er => small (snd er)) l -> batch_make m l = Made bs -> Forall (fun er => byte_range (snd er)) l /\
    Forall (fun b => mult b = from_number 1%F /\ exists i t, bus_id b = from_number i /\ In (val i, t) m /\ match t with BExec | BMemory | BPc => False | _ => True end) bs.
  Proof.
    intros S. unfold batch_make, filter_byte_constraints. set (bytes := exprs_unique _ _). set (rest := filter (fun er => negb (is_byte_rc (snd er))) l).
    destruct (tuple_sizes m) as [[s0 s1]|] eqn:Es; [|discriminate]. apply tuple_sizes_in in Es. destruct Es as [it Hit].
    destruct (proj2 Hm _ _ Hit) as [_ [B0 B1]]. destruct (tuple_range_some Hbig s0 B0) as (r0 & E0 & R0 & M0 & N0). destruct (tuple_range_some Hbig s1 B1) as (r1 & E1 & R1 & M1 & N1).
    unfold tuple_ranges. rewrite E0, E1. destruct (negb (rc_eqb r0 (from_mask 255))); [discriminate|].
    set (second := filter (fun er => rc_eqb (snd er) r1) rest). set (others := filter (fun er => negb (rc_eqb (snd er) r1)) rest ++ skipn (length bytes) second).
    set (n := length (firstn (length bytes) second)). destruct (all_some (map (fun bs => mk_check m (BTuple s0 s1) _) _)) as [b1|] eqn:F1; [|discriminate]. destruct (all_some (map (mk_check m BBitwise) _)) as [b2|] eqn:F2; [|discriminate].
    destruct (num_bits_list others) as [pls|] eqn:F3; [|discriminate]. destruct (all_some (map (mk_check m BVarRange) pls)) as [b3|] eqn:F4; [|discriminate]. intros [= <-]. split.
    - apply Forall_forall. intros [e r] Hr. rewrite Forall_forall in S. specialize (S _ Hr). cbn [snd] in *. destruct (is_byte_rc r) eqn:By.
      + apply (is_byte_ok Hbig) in By. subst r. exact (small_bits_byte 8 S).
      + destruct (rc_eqb r r1) eqn:E2.
        * apply rc_eqb_eq in E2. subst r. assert (s1 <= 256). { destruct (N.le_gt_cases s1 256) as [|H]; auto. exfalso. apply (not_257 _ S). intros x Hx. apply R1. lia. }
          split; [split; auto; rewrite N1; change (2 ^ 25) with 33554432; lia|]. intros x Hx. apply R1 in Hx. unfold byte. lia.
        * assert (I : In (e, r) others). { apply in_or_app. left. apply filter_In. split; [|cbn [snd]; now rewrite E2]. apply filter_In. split; auto. cbn [snd]. now rewrite By. }
          clear - I F3 S Hbig Hm program. apply all_some_F2 in F3. destruct (in_split _ _ I) as (l1 & l2 & E). rewrite E in F3. clear E I. revert pls F3. induction l1 as [|y l1 IH]; intros pls F3; inversion F3 as [|? ? ? ? X1 X2]; subst.
          -- cbn [snd] in X1. destruct (rc_to_num_bits r) as [k|] eqn:K; [|discriminate]. apply (num_bits_some Hbig) in K. destruct K as [-> _]. now apply small_bits_byte.
          -- now apply (IH _ X2).
    - assert (K : forall t pl (b : busi gexp), match t with BExec | BMemory | BPc => False | _ => True end -> mk_check m t pl = Some b -> mult b = from_number 1%F /\ exists i t, bus_id b = from_number i /\ In (val i, t) m /\ match t with BExec | BMemory | BPc => False | _ => True end).
      { intros t pl b Ht. unfold mk_check. destruct (get_bus_id m t) as [i|] eqn:Ei; [|discriminate]. apply get_bus_id_in in Ei. unfold from_u64. destruct (N.ltb_spec i P) as [Hi|]; [|discriminate]. intros [= <-]. cbn [mult bus_id]. split; auto. exists (of_N i), t. split; auto. now rewrite val_of_N_small. }
      assert (G : forall A (f : A -> list gexp) t xs ys, match t with BExec | BMemory | BPc => False | _ => True end -> all_some (map (fun x => mk_check m t (f x)) xs) = Some ys -> Forall (fun b => mult b = from_number 1%F /\ exists i t, bus_id b = from_number i /\ In (val i, t) m /\ match t with BExec | BMemory | BPc => False | _ => True end) ys).
      { intros A f t xs ys Ht H. apply all_some_F2 in H. induction H as [|x y xs ys X1 X2 IH]; constructor; auto. now apply (K t (f x)). }
      apply Forall_app. split; [|apply Forall_app; split].
      + apply (G _ (fun bs : gexp * (gexp * rc) => [fst bs; fst (snd bs)]) (BTuple s0 s1) _ _ Logic.I F1).
      + apply (G _ (fun x => x) BBitwise _ _ Logic.I F2).
      + apply (G _ (fun x => x) BVarRange _ _ Logic.I F4).
  Qed.
  Lemma ovm_checks_ranges : checks_ranges stateful table (batch_make m).
  Proof.
    intros l bs s S H. destruct (batch_made l bs S H) as [L T]. destruct (proj1 (batch_ok Hbig m l bs Hm H) s) as [A B].
    assert (ST : Forall (fun b => stateful (eval s (bus_id b)) = false) bs).
    { eapply Forall_impl; [|exact T]. intros b (_ & i & t & E & I & Ht). rewrite E, eval_from_number, (stateful_type _ _ I). destruct t; auto; destruct Ht. }
    split; auto. split.
    - intros X. apply A. rewrite Forall_forall in *. intros b Hb. apply acceptable_legal; [apply (ST b Hb)|auto].
    - intros X. assert (L' : Forall (fun er => low (snd er)) l) by (eapply Forall_impl; [|exact L]; intros er E; apply E).
      specialize (B L' X). rewrite Forall_forall in *. intros b Hb. destruct (T b Hb) as (E1 & i & t & E & I & Ht). intros _ Hz. specialize (B b Hb). destruct B as [B|(t' & I' & B)]; [contradiction|].
      exists t'. split; auto. cbn [bmap bus_id payload mult] in *. rewrite E, eval_from_number in I'. assert (t' = t). { apply (bus_type_of _ _ _ (proj1 Hm)) in I, I'. congruence. } subst t'. rewrite E1, eval_from_number in B. destruct t; auto; destruct Ht.
  Qed.
  Lemma ovm_checks_domain : checks_domain (p:=p) (ovm_domain m) (batch_make m).
  Proof. intros l bs S H. destruct (batch_made l bs S H) as [L _]. eapply Forall_impl; [|exact L]. intros er [_ E] i x Hx _. now apply E. Qed.

  (** ** Tables *)
  Lemma single_min (r : rc) x : try_to_single_value r = Some x -> rmin r = x /\ rmax r = x.
  Proof. unfold try_to_single_value. destruct (feqb (rmin r) (rmax r)) eqn:E; [|discriminate]. apply feqb_eq in E. destruct (_ =? _); [|discriminate]. cbn [andb]. intros [= <-]. auto. Qed.
  Lemma not_single (r : rc) : rmin r <> rmax r -> try_to_single_value r = None.
  Proof. intros H. unfold try_to_single_value. destruct (feqb (rmin r) (rmax r)) eqn:E; [|reflexivity]. now apply feqb_eq in E. Qed.
  Lemma not_disjoint (r r' : rc) x : try_to_single_value r = Some x -> rmin r' = 0%F -> is_disjoint r r' = false -> val x <= val (rmax r').
  Proof.
    intros S M. apply single_min in S. destruct S as [S1 S2]. unfold is_disjoint. intros D. apply orb_false_iff in D. destruct D as [_ D]. destruct (N.le_gt_cases (val x) (val (rmax r'))) as [|H]; auto. exfalso.
    rewrite S1, S2, M in D. unfold interval_intersection, try_shift in D. cbn [fst snd shifted_interval] in D.
    assert (Z2 : forall x : F p, (x + - x)%F = 0%F) by (intros; ring). assert (Z3 : forall x y : F p, (x + - y)%F = (x - y)%F) by (intros; ring). rewrite Z2, !Z3 in D.
    pose proof (val_lt x). pose proof (val_sub 0%F x) as V0. rewrite val_zero in V0. pose proof (val_sub (rmax r') x) as V1. pose proof (val_lt (0 - x)%F). pose proof (val_lt (rmax r' - x)%F).
    rewrite (proj2 (fleb_le (0 : F p)%F 0%F)), (proj2 (fleb_le (0 - x)%F (rmax r' - x)%F)) in D by lia. cbn [andb fst snd] in D.
    rewrite (proj2 (fleb_gt _ _)) in D; [discriminate|]. unfold shifted_interval. cbn [fst snd]. rewrite Z2, !Z3, val_fmax, val_fmin, val_zero. lia.
  Qed.
  Lemma mask_not_single n : 0 < n < P -> try_to_single_value (from_mask n : rc) = None.
  Proof. intros H. apply not_single. cbn [rmin rmax from_mask]. intros E. apply (f_equal val) in E. rewrite val_minus1, val_of_N_small, val_zero in E by lia. lia. Qed.
  Lemma mask_single n v : n < P -> try_to_single_value (from_mask n : rc) = Some v -> n = 0 /\ v = 0%F.
  Proof.
    intros H E. destruct (N.eq_dec n 0) as [->|N]; [|rewrite mask_not_single in E by lia; discriminate]. split; auto. apply single_min in E. symmetry. apply E.
  Qed.
  Lemma ovm_knows_tables : knows_tables stateful table (ovm_domain m) (ovm_total m).
  Proof.
    intros b b' i o r vs v Si Ei H Ho Hr (r' & Ho' & Hr') Lv Vo Hj. unfold handle_checked in H. destruct (existsb _ _) eqn:D; [discriminate|]. destruct (Nat.eqb _ _); [|discriminate]. injection H as H. subst b'. pose proof (big26 Hbig) as B.
    assert (D' : forall j q q', nth_error (payload b) j = Some q -> nth_error (payload (ovm_total m b)) j = Some q' -> is_disjoint q q' = false).
    { intros j q q' Hq Hq'. apply not_true_iff_false. intros X. assert (existsb (fun ab : rc * rc => is_disjoint (fst ab) (snd ab)) (combine (fields b) (fields (ovm_total m b))) = true); [|congruence].
      apply existsb_exists. exists (q, q'). split; auto. unfold fields. cbn [combine]. right. right. clear - Hq Hq'. revert Hq Hq'. generalize (payload b) (payload (ovm_total m b)). induction j as [|j IH]; intros [|a l] [|a' l']; try discriminate; cbn [nth_error combine]; [intros [= ->] [= ->]; now left|]. intros X Y. right. now apply IH. }
    clear D. unfold ovm_total in Ho', D'. destruct (ovm_handle m b) as [b1|] eqn:E; [|congruence]. unfold ovm_handle in E. rewrite Ei in E. destruct (try_to_single_value (mult b)) as [k|]; [|injection E as <-; congruence].
    destruct (is_zero k); [injection E as <-; congruence|]. destruct (bus_type m (val i)) as [t|] eqn:T; [|discriminate]. apply bus_type_in in T. rewrite (stateful_type _ _ T) in Si.
    destruct (match t with BExec => _ | _ => _ end) as [pl|] eqn:Ep in E; [|discriminate]. injection E as <-. cbn [payload] in Ho', D'. exists t. split; auto.
    destruct t as [| | | |s0 s1|]; try discriminate.
    - injection Ep as <-. congruence.
    - unfold handle_var_range in Ep. destruct (payload b) as [|q0 [|q1 [|]]] eqn:Pb; try discriminate. destruct vs as [|x0 [|x1 [|]]]; try discriminate. destruct o as [|[|o]]; [| |destruct o; discriminate].
      + injection Vo as ->. injection Ho as ->. destruct (Hj 1%nat x1) as (_ & q & Q1 & Q2); auto. injection Q1 as <-. rewrite Q2 in Ep. unfold MAX_BITS in Ep. destruct (N.leb_spec (val x1) 25) as [L|L].
        * assert (Epl : pl = [from_mask (N.shiftl 1 (val x1) - 1); q1]) by congruence. subst pl. cbn [nth_error] in Ho'. assert (Er : r' = from_mask (N.shiftl 1 (val x1) - 1)) by congruence. subst r'. rewrite N.shiftl_1_l in Hr'. assert (2 ^ val x1 <= 2 ^ 25) by (apply N.pow_le_mono_r; lia). change (2 ^ 25) with 33554432 in *. apply mask_single in Hr'; [|lia]. destruct Hr' as [_ ->].
          exists 0%F, x1. split; auto. split; auto. rewrite val_zero. apply N.neq_0_lt_0, N.pow_nonzero. lia.
        * injection Ep as <-. injection Ho' as <-. rewrite mask_not_single in Hr'; [discriminate|]. change (N.shiftl 1 25 - 1) with 33554431. lia.
      + injection Ho as ->. rewrite Hr in Ep. injection Ep as <-. injection Ho' as <-. rewrite not_single in Hr'; [discriminate|]. cbn [rmin rmax from_range]. intros E. apply (f_equal val) in E. unfold MAX_BITS in E. rewrite val_zero, val_of_N_small in E; lia.
    - unfold handle_tuple in Ep. destruct (payload b) as [|q0 [|q1 [|]]] eqn:Pb; try discriminate. destruct vs as [|x0 [|x1 [|]]]; try discriminate.
      destruct (proj2 Hm _ _ T) as [_ [B0 B1]]. destruct (tuple_range_some Hbig s0 B0) as (r0 & E0 & R0 & M0 & N0). destruct (tuple_range_some Hbig s1 B1) as (r1 & E1 & R1 & M1 & N1).
      unfold tuple_ranges in Ep. rewrite E0, E1 in Ep. injection Ep as <-. exists x0, x1. split; auto. destruct o as [|[|o]]; [| |destruct o; discriminate].
      + injection Vo as ->. injection Ho' as <-. split; [apply R0; now apply (b_single r0 v v Hr')|]. destruct (Hj 1%nat x1) as (_ & q & Q1 & Q2); auto. specialize (D' 1%nat q r1 Q1 eq_refl). apply (not_disjoint q r1 x1 Q2 M1) in D'. lia.
      + injection Vo as ->. injection Ho' as <-. split; [|apply R1; now apply (b_single r1 v v Hr')]. destruct (Hj 0%nat x0) as (_ & q & Q1 & Q2); auto. specialize (D' 0%nat q r0 Q1 eq_refl). apply (not_disjoint q r0 x0 Q2 M0) in D'. lia.
    - assert (Bn : try_to_single_value (byte_constraint : rc) = None) by (apply mask_not_single; lia). unfold handle_bitwise in Ep. destruct (payload b) as [|q0 [|q1 [|q2 [|q3 [|]]]]] eqn:Pb; try discriminate. destruct vs as [|x0 [|x1 [|x2 [|x3 [|]]]]]; try discriminate.
      assert (Hd : forall j x, j <> o -> nth_error [x0; x1; x2; x3] j = Some x -> byte x) by (intros j x J1 J2; destruct (Hj j x J1 J2) as [X _]; apply X; auto).
      assert (Hs : forall j x, j <> o -> nth_error [x0; x1; x2; x3] j = Some x -> exists q, nth_error [q0; q1; q2; q3] j = Some q /\ try_to_single_value q = Some x) by (intros j x J1 J2; destruct (Hj j x J1 J2) as [_ X]; auto).
      assert (o = 2%nat).
      { destruct o as [|[|[|[|o]]]]; auto; [| | |destruct o; discriminate]; injection Ho as ->; exfalso.
        - destruct (try_to_single_value q3) as [op|]; [|injection Ep as <-; injection Ho' as <-; congruence]. destruct (val op =? 0); [injection Ep as <-; injection Ho' as <-; congruence|]. destruct (val op =? 1); [|discriminate].
          rewrite Hr in Ep. injection Ep as <-; injection Ho' as <-; congruence.
        - destruct (try_to_single_value q3) as [op|]; [|injection Ep as <-; injection Ho' as <-; congruence]. destruct (val op =? 0); [injection Ep as <-; injection Ho' as <-; congruence|]. destruct (val op =? 1); [|discriminate].
          rewrite Hr in Ep. destruct (try_to_single_value q0); injection Ep as <-; injection Ho' as <-; congruence.
        - rewrite Hr in Ep. injection Ep as <-. injection Ho' as <-. rewrite mask_not_single in Hr'; [discriminate|lia]. }
      subst o. injection Vo as ->. pose proof (Hd 0%nat x0 ltac:(lia) eq_refl) as D0. pose proof (Hd 1%nat x1 ltac:(lia) eq_refl) as D1. destruct (Hs 0%nat x0 ltac:(lia) eq_refl) as (q & Q & S0). injection Q as <-. destruct (Hs 1%nat x1 ltac:(lia) eq_refl) as (q & Q & S1). injection Q as <-.
      destruct (Hs 3%nat x3 ltac:(lia) eq_refl) as (q & Q & S3). injection Q as <-. exists x0, x1, v, x3. split; auto. split; auto. split; auto. rewrite S3 in Ep. destruct (N.eqb_spec (val x3) 0) as [O|O].
      + injection Ep as <-. injection Ho' as <-. left. split; auto. rewrite fv_single in Hr'. injection Hr' as <-. apply val_zero.
      + destruct (N.eqb_spec (val x3) 1) as [O1|O1]; [|discriminate]. rewrite S0, S1 in Ep. unfold from_u64 in Ep. destruct (N.ltb_spec (N.lxor (val x0) (val x1)) P) as [X|X]; [|discriminate]. injection Ep as <-. injection Ho' as <-. rewrite fv_single in Hr'. injection Hr' as <-.
        right. split; auto. now rewrite val_of_N_small.
  Qed.
End LowOvm.
