(** Facts about the model of the OpenVM bus interaction handler. *)
From Coq Require Import NArith ZArith Znumtheory Bool List Lia ZifyBool ZifyN ZifyNat.
From Verif Require Import Field RangeModel RangeFacts ExprModel ExprFacts ExprWf SolveModel SolveFacts SystemModel Spec Bridge InlinerModel
  BaseModel SolverSpec OvmModel OvmSpec.
Import ListNotations.
Local Open Scope N_scope.

Section OvmFacts.
  Context {p : positive}.
  Hypothesis Hbig : 2 ^ 26 < N.pos p.
  Local Notation gexp := (gexp p).
  Local Notation rc := (rc p).
  Local Notation P := (N.pos p).

  Lemma big26 : 67108864 < P.
  Proof. exact Hbig. Qed.

  (** ** Bus maps *)
  Lemma bus_type_in m i t : bus_type m i = Some t -> In (i, t) m.
  Proof.
    induction m as [|[j u] m IH]; cbn; [discriminate|]. destruct (N.eqb_spec i j) as [->|]; [intros [= ->]; now left|]. auto.
  Qed.
  Lemma bus_type_of m i t : NoDup (map fst m) -> In (i, t) m -> bus_type m i = Some t.
  Proof.
    induction m as [|[j u] m IH]; cbn [map fst]; [intros _ []|]. intros N [E|E].
    - injection E as -> ->. cbn. now rewrite N.eqb_refl.
    - inversion N; subst. cbn. destruct (N.eqb_spec i j) as [->|]; [|now apply IH].
      exfalso. apply H1. apply in_map_iff. now exists (j, t).
  Qed.
  Lemma btype_eqb_eq a b : btype_eqb a b = true <-> a = b.
  Proof.
    destruct a, b; cbn; try (split; [discriminate|discriminate]); try tauto.
    rewrite andb_true_iff, !N.eqb_eq. split; [intros [-> ->]; auto|intros [= -> ->]; auto].
  Qed.
  Lemma get_bus_id_in m t i : get_bus_id m t = Some i -> In (i, t) m.
  Proof.
    induction m as [|[j u] m IH]; cbn; [discriminate|]. destruct (btype_eqb u t) eqn:E; [|auto].
    intros [= ->]. apply btype_eqb_eq in E. subst. now left.
  Qed.
  Lemma tuple_sizes_in m a b : tuple_sizes m = Some (a, b) -> exists i, In (i, BTuple a b) m.
  Proof.
    induction m as [|[j u] m IH]; cbn; [discriminate|]. intros E.
    assert (K : tuple_sizes m = Some (a, b) -> exists i, (j, u) = (i, BTuple a b) \/ In (i, BTuple a b) m)
      by (intros E1; destruct (IH E1) as [i Hi]; eauto).
    destruct u; auto. injection E as -> ->. eauto.
  Qed.

  (** ** Range constraints *)
  Lemma allows_byte (x : F p) : rc_allows (byte_constraint : rc) x <-> byte x.
  Proof.
    unfold byte_constraint, byte. rewrite rc_allows_iff, from_mask_allows. change 255 with (N.ones 8). rewrite submask_ones. reflexivity.
  Qed.
  Lemma allows_bits k (x : F p) : rc_allows (from_mask (N.shiftl 1 k - 1)) x <-> val x < 2 ^ k.
  Proof.
    rewrite rc_allows_iff, from_mask_allows, N.shiftl_1_l, <- (submask_ones (val x) k). rewrite N.ones_equiv.
    now rewrite N.sub_1_r.
  Qed.
  Lemma allows_val (k x : F p) : rc_allows (from_value k) x <-> x = k.
  Proof. rewrite rc_allows_iff. apply from_value_allows. Qed.
  Lemma allows_one (x : F p) : rc_allows (from_mask 1 : rc) x <-> val x = 0 \/ val x = 1.
  Proof. rewrite (allows_bits 1). change (2 ^ 1) with 2. lia. Qed.
  Lemma allows_low (k x : F p) : rc_allows (from_range 0%F k) x <-> val x <= val k.
  Proof.
    rewrite rc_allows_iff, from_range_allows. unfold in_interval. rewrite (proj2 (fleb_le 0%F k)).
    2:{ rewrite val_zero. lia. }
    rewrite andb_true_iff, !fleb_le, val_zero. lia.
  Qed.
  Lemma val_zero_eq (x : F p) : val x = 0 <-> x = 0%F.
  Proof. split; [intros H; apply F_ext; now rewrite val_zero|intros ->; apply val_zero]. Qed.
  Lemma val_one_ : val (1%F : F p) = 1.
  Proof. unfold fone. apply val_of_N_small. pose proof big26. lia. Qed.
  Lemma val_one_eq (x : F p) : val x = 1 <-> x = 1%F.
  Proof. split; [intros H; apply F_ext; now rewrite val_one_|intros ->; apply val_one_]. Qed.

  Lemma tuple_range_some s : 1 <= s <= 2 ^ 25 -> exists r, tuple_range s = Some r /\ (forall x : F p, rc_allows r x <-> val x < s) /\ rmin r = 0%F /\ val (rmax r) = s - 1.
  Proof.
    intros Hs. change (2 ^ 25) with 33554432 in Hs. pose proof big26. unfold tuple_range, from_u64.
    destruct (N.eqb_spec s 0); [lia|]. destruct (N.ltb_spec (s - 1) P); [|lia]. eexists. split; [reflexivity|].
    split; [intros x|split; [reflexivity|cbn [rmax from_range]; rewrite val_of_N_small; lia]]. rewrite allows_low, val_of_N_small by lia. lia.
  Qed.

  (** ** C19 *)
  Lemma split_memory_eq {A} (pl : list A) a q d ts : split_memory pl = Some (a, q, d, ts) <-> pl = a :: q :: d ++ [ts] /\ d <> [].
  Proof.
    unfold split_memory. split.
    - destruct pl as [|a' [|q' [|d' rest]]]; try discriminate.
      destruct (rev (d' :: rest)) as [|ts' [|y l]] eqn:E; try discriminate. intros [= <- <- <- <-].
      assert (E' : d' :: rest = rev (y :: l) ++ [ts']) by (rewrite <- (rev_involutive (d' :: rest)), E; reflexivity).
      rewrite E'. split; [reflexivity|]. intros H. cbn in H. symmetry in H. revert H. apply app_cons_not_nil.
    - intros [-> Hd]. destruct (d ++ [ts]) as [|d' rest] eqn:E; [now destruct d|]. rewrite <- E.
      rewrite rev_app_distr. cbn [rev app]. destruct (rev d) as [|y l] eqn:Er.
      + exfalso. apply Hd. rewrite <- (rev_involutive d), Er. reflexivity.
      + change (rev l ++ [y]) with (rev (y :: l)). rewrite <- Er, rev_involutive. reflexivity.
  Qed.
  Lemma Forall2_len {A B} (R : A -> B -> Prop) l l' : Forall2 R l l' -> length l = length l'.
  Proof. induction 1; cbn; auto. Qed.

  Lemma handle_bitwise_ok (pl : list rc) k v : accepts BBitwise k v -> Forall2 rc_allows pl v ->
    exists pl', handle_bitwise pl = Some pl' /\ Forall2 rc_allows pl' v.
  Proof.
    intros (x & y & z & op & -> & Hx & Hy & Hop) F2.
    inversion F2 as [|rx ? l1 ? Ax F3]; subst. inversion F3 as [|ry ? l2 ? Ay F4]; subst.
    inversion F4 as [|rz ? l3 ? Az F5]; subst. inversion F5 as [|rop ? l4 ? Aop F6]; subst. inversion F6; subst. clear F2 F3 F4 F5 F6.
    assert (Bz : byte z).
    { unfold byte in *. destruct Hop as [[_ ->]|[_ ->]]; [lia|].
      assert (S : submask (N.lxor (val x) (val y)) (N.ones 8)).
      { apply submask_spec. intros i Hi. change 256 with (2 ^ 8) in *. apply submask_ones in Hx, Hy. rewrite submask_spec in Hx, Hy.
        rewrite N.lxor_spec in Hi. destruct (N.testbit (val x) i) eqn:E1; [auto|]. destruct (N.testbit (val y) i) eqn:E2; [auto|discriminate]. }
      now apply submask_ones in S. }
    pose proof (proj2 (allows_byte x) Hx) as Rx. pose proof (proj2 (allows_byte y) Hy) as Ry. pose proof (proj2 (allows_byte z) Bz) as Rz.
    cbn [handle_bitwise]. destruct (try_to_single_value rop) as [c|] eqn:Ec.
    2:{ eexists. split; [reflexivity|]. repeat (apply Forall2_cons || apply Forall2_nil); auto. apply allows_one; tauto. }
    assert (Eop : op = c) by (eapply b_single; eauto). subst c.
    destruct (N.eqb_spec (val op) 0) as [E0|E0].
    { eexists. split; [reflexivity|]. assert (z = 0%F) by (apply val_zero_eq; lia). apply val_zero_eq in E0.
      repeat (apply Forall2_cons || apply Forall2_nil); auto; now apply allows_val. }
    destruct Hop as [[? _]|[E1 Ez]]; [lia|]. destruct (N.eqb_spec (val op) 1); [|lia]. apply val_one_eq in E1.
    assert (D : forall r, rc_allows r z -> exists pl', Some [byte_constraint; byte_constraint; r; from_value 1%F] = Some pl' /\ Forall2 rc_allows pl' [x; y; z; op]).
    { intros r Hr. eexists. split; [reflexivity|]. repeat (apply Forall2_cons || apply Forall2_nil); auto. now apply allows_val. }
    assert (D1 : rc_allows (conjunction (from_mask (N.lor (mask rx) (mask ry))) byte_constraint) z).
    { apply b_conjunction; auto. apply rc_allows_iff, from_mask_allows. rewrite Ez. apply submask_spec. intros i Hi.
      apply rc_allows_iff in Ax, Ay. unfold allows_value in Ax, Ay. apply andb_true_iff in Ax, Ay. destruct Ax as [_ Ax], Ay as [_ Ay].
      apply N.eqb_eq in Ax, Ay. pose proof (proj1 (submask_spec _ _) Ax i) as Bx. pose proof (proj1 (submask_spec _ _) Ay i) as By.
      rewrite N.lxor_spec in Hi. rewrite N.lor_spec. destruct (N.testbit (val x) i) eqn:E2; [rewrite Bx; auto|].
      destruct (N.testbit (val y) i) eqn:E3; [|discriminate]. rewrite By; auto. apply orb_true_r. }
    destruct (try_to_single_value rx) as [a|] eqn:Ea; [|now apply D]. destruct (try_to_single_value ry) as [b|] eqn:Eb; [|now apply D].
    assert (x = a) by (eapply b_single; eauto). assert (y = b) by (eapply b_single; eauto). subst a b. unfold from_u64.
    pose proof (val_lt z) as Hz. rewrite <- Ez. destruct (N.ltb_spec (val z) P); [|lia]. eexists. split; [reflexivity|].
    repeat (apply Forall2_cons || apply Forall2_nil); try (apply allows_val; auto). now rewrite of_N_val.
  Qed.
  Lemma Forall2_split {A B} (R : A -> B -> Prop) l v1 v2 : Forall2 R l (v1 ++ v2) -> exists l1 l2, l = l1 ++ l2 /\ Forall2 R l1 v1 /\ Forall2 R l2 v2.
  Proof.
    revert l. induction v1 as [|x v1 IH]; intros l H; cbn [app] in H; [exists [], l; auto|].
    inversion H as [|y ? l' ? A1 A2]; subst. destruct (IH _ A2) as (l1 & l2 & -> & B1 & B2). exists (y :: l1), l2. cbn. auto.
  Qed.
  Lemma handle_memory_ok (pl : list rc) k v : accepts BMemory k v -> Forall2 rc_allows pl v ->
    exists pl', handle_memory pl k = Some pl' /\ Forall2 rc_allows pl' v.
  Proof.
    intros (a & ptr & d & ts & -> & Hd & Ha & Hr) F2. inversion F2 as [|ra ? l1 ? Aa F3]; subst. inversion F3 as [|rq ? l2 ? Aq F4]; subst.
    destruct (Forall2_split _ _ _ _ F4) as (rd & rt & -> & Ad & At). pose proof (Forall2_len _ _ _ Ad) as Ld.
    inversion At as [|rts ? ? ? Ats At']; subst. inversion At'; subst. clear At At' F3 F4.
    assert (Es : split_memory (ra :: rq :: rd ++ [rts]) = Some (ra, rq, rd, rts)).
    { apply split_memory_eq. split; auto. intros ->. destruct d; [congruence|discriminate]. }
    unfold handle_memory. rewrite Es. destruct (feqb_spec k (- (1))%F) as [->|]; cbn [negb]; [|eauto].
    destruct (try_to_single_value ra) as [c|] eqn:Ec; [|eauto]. assert (a = c) by (eapply b_single; eauto). subst c.
    destruct (N.leb_spec (2 ^ 32) (val a)); [lia|]. destruct (N.eqb_spec (val a) 1) as [E1|E1]; cbn [orb andb].
    - eexists. split; [reflexivity|]. destruct (Hr eq_refl) as [Hr1 Hr2]. constructor; auto. constructor; auto.
      apply Forall2_app; [|apply Forall2_cons; [auto|apply Forall2_nil]].
      set (z := match try_to_single_value rq with Some x => is_zero x | None => false end).
      assert (Hz : z = true -> val ptr = 0).
      { subst z. destruct (try_to_single_value rq) as [c|] eqn:Eq; [|discriminate]. assert (ptr = c) by (eapply b_single; eauto). subst c.
        intros Hz. apply is_zero_eq in Hz. now apply val_zero_eq. }
      destruct z.
      + specialize (Hr2 E1 (Hz eq_refl)). clear - Ad Hr2. induction Ad; cbn; constructor.
        * apply allows_val. inversion Hr2; subst. now apply val_zero_eq.
        * apply IHAd. now inversion Hr2.
      + specialize (Hr1 (or_introl E1)). clear - Ad Hr1. induction Ad; cbn; constructor.
        * apply allows_byte. now inversion Hr1.
        * apply IHAd. now inversion Hr1.
    - destruct (N.eqb_spec (val a) 2) as [E2|E2]; [|eauto]. eexists. split; [reflexivity|]. destruct (Hr eq_refl) as [Hr1 _].
      constructor; auto. constructor; auto. apply Forall2_app; [|apply Forall2_cons; [auto|apply Forall2_nil]].
      specialize (Hr1 (or_intror E2)). clear - Ad Hr1. induction Ad; cbn; constructor.
      * apply allows_byte. now inversion Hr1.
      * apply IHAd. now inversion Hr1.
  Qed.
  Lemma handle_var_range_ok (pl : list rc) k v : accepts BVarRange k v -> Forall2 rc_allows pl v ->
    exists pl', handle_var_range pl = Some pl' /\ Forall2 rc_allows pl' v.
  Proof.
    intros (x & bits & -> & Hb & Hx) F2. inversion F2 as [|rx ? l1 ? Ax F3]; subst. inversion F3 as [|rb ? l2 ? Ab F4]; subst. inversion F4; subst.
    pose proof big26. assert (D : Forall2 rc_allows [from_mask (N.shiftl 1 MAX_BITS - 1); from_range 0%F (of_N MAX_BITS)] [x; bits]).
    { repeat (apply Forall2_cons || apply Forall2_nil).
      - apply allows_bits. eapply N.lt_le_trans; [exact Hx|]. apply N.pow_le_mono_r; [lia|exact Hb].
      - apply allows_low. rewrite val_of_N_small by (unfold MAX_BITS; lia). exact Hb. }
    cbn [handle_var_range]. destruct (try_to_single_value rb) as [c|] eqn:Ec; [|eauto]. assert (bits = c) by (eapply b_single; eauto). subst c.
    destruct (val bits <=? MAX_BITS) eqn:E; [|eauto]. eexists. split; [reflexivity|].
    repeat (apply Forall2_cons || apply Forall2_nil); auto. now apply allows_bits.
  Qed.
  Lemma handle_tuple_ok s0 s1 (pl : list rc) k v : 1 <= s0 <= 2 ^ 25 /\ 1 <= s1 <= 2 ^ 25 -> accepts (BTuple s0 s1) k v -> Forall2 rc_allows pl v ->
    exists pl', handle_tuple s0 s1 pl = Some pl' /\ Forall2 rc_allows pl' v.
  Proof.
    intros [B0 B1] (x & y & -> & Hx & Hy) F2. inversion F2 as [|rx ? l1 ? Ax F3]; subst. inversion F3 as [|rb ? l2 ? Ab F4]; subst. inversion F4; subst.
    destruct (tuple_range_some s0 B0) as (r0 & E0 & R0 & _). destruct (tuple_range_some s1 B1) as (r1 & E1 & R1 & _).
    cbn [handle_tuple]. unfold tuple_ranges. rewrite E0, E1. eexists. split; [reflexivity|]. repeat (apply Forall2_cons || apply Forall2_nil); [now apply R0|now apply R1].
  Qed.

  Lemma ovm_handle_ok m (b : busi rc) (v : busi (F p)) : map_ok p m -> legal m v -> bus_allows b v ->
    exists b', ovm_handle m b = Some b' /\ bus_allows b' v /\ length (payload b') = length (payload b).
  Proof.
    intros [Hn Hm] Hl Hb. unfold ovm_handle. unfold bus_allows, fields in Hb.
    inversion Hb as [|? ? ? ? Ai Hb1]; subst. inversion Hb1 as [|? ? ? ? Ak Ap]; subst. clear Hb1.
    assert (D : exists b', Some b = Some b' /\ bus_allows b' v /\ length (payload b') = length (payload b)) by eauto.
    destruct (try_to_single_value (bus_id b)) as [i|] eqn:Ei; [|exact D]. destruct (try_to_single_value (mult b)) as [k|] eqn:Ek; [|exact D].
    assert (bus_id v = i) by (eapply b_single; eauto). assert (mult v = k) by (eapply b_single; eauto). subst i k.
    destruct (is_zero (mult v)) eqn:Ez; [exact D|]. destruct Hl as [Hl|(t & Hin & Hacc)].
    { rewrite Hl in Ez. assert (is_zero (0%F : F p) = true) by now apply is_zero_eq. congruence. }
    rewrite (bus_type_of _ _ _ Hn Hin).
    assert (E : exists pl', (match t with
               | BExec | BPc => Some (payload b)
               | BBitwise => handle_bitwise (payload b)
               | BMemory => handle_memory (payload b) (mult v)
               | BVarRange => handle_var_range (payload b)
               | BTuple s0 s1 => handle_tuple s0 s1 (payload b)
               end) = Some pl' /\ Forall2 rc_allows pl' (payload v)).
    { destruct t; eauto using handle_memory_ok, handle_var_range_ok, handle_bitwise_ok.
      destruct (Hm _ _ Hin) as [_ Hs]. eapply handle_tuple_ok; eauto. }
    destruct E as (pl' & -> & Hpl'). eexists. split; [reflexivity|]. split.
    - unfold bus_allows, fields. cbn [bus_id mult payload]. auto.
    - cbn [payload]. now rewrite (Forall2_len _ _ _ Hpl'), (Forall2_len _ _ _ Ap).
  Qed.
  (** The number of fields never changes. *)
  Lemma ovm_handle_len m (b b' : busi rc) : ovm_handle m b = Some b' -> length (payload b') = length (payload b) /\ bus_id b' = bus_id b /\ mult b' = mult b.
  Proof.
    unfold ovm_handle. destruct (try_to_single_value (bus_id b)); [|intros [= <-]; auto]. destruct (try_to_single_value (mult b)); [|intros [= <-]; auto].
    destruct (is_zero _); [intros [= <-]; auto|]. destruct (bus_type m _) as [t|]; [|discriminate].
    destruct (match t with BExec => _ | _ => _ end) as [pl|] eqn:E; [|discriminate]. intros [= <-]. cbn [payload bus_id mult]. split; auto.
    destruct t; try (injection E as <-; auto; fail).
    - unfold handle_memory in E. destruct (split_memory (payload b)) as [[[[a q] d] ts]|] eqn:Es; [|discriminate].
      apply split_memory_eq in Es. destruct Es as [Es _]. destruct (negb _); [injection E as <-; auto|]. destruct (try_to_single_value a); [|injection E as <-; auto].
      destruct (2 ^ 32 <=? _); [discriminate|]. destruct (_ || _); injection E as <-; auto. rewrite Es. cbn. rewrite !app_length, map_length. reflexivity.
    - unfold handle_var_range in E. destruct (payload b) as [|? [|? [|]]]; try discriminate.
      destruct (try_to_single_value _); [destruct (_ <=? _)|]; injection E as <-; reflexivity.
    - unfold handle_tuple in E. destruct (payload b) as [|? [|? [|]]]; try discriminate. destruct (tuple_ranges s0 s1) as [[? ?]|]; [|discriminate]. injection E as <-; reflexivity.
    - unfold handle_bitwise in E. destruct (payload b) as [|x [|y [|z [|op [|]]]]]; try discriminate.
      destruct (try_to_single_value op) as [k|]; [|injection E as <-; reflexivity]. destruct (_ =? 0); [injection E as <-; reflexivity|].
      destruct (_ =? 1); [|discriminate]. destruct (try_to_single_value x); [|injection E as <-; reflexivity].
      destruct (try_to_single_value y); [|injection E as <-; reflexivity]. destruct (from_u64 _); [|discriminate]. injection E as <-; reflexivity.
  Qed.
  Lemma ovm_total_sound (m : busmap) : map_ok p m -> handler_sound (p:=p) (legal m) (ovm_total m).
  Proof.
    intros Hm b. unfold ovm_total. split.
    - destruct (ovm_handle m b) eqn:E; auto. now apply ovm_handle_len in E.
    - intros v Hv Hb. destruct (ovm_handle_ok m b v Hm Hv Hb) as (b' & -> & H & _). exact H.
  Qed.
End OvmFacts.
