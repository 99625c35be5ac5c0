(** C19-C22: the OpenVM bus interaction handler and the range constraint optimizer. *)
From Coq Require Import NArith ZArith Znumtheory Bool List Lia.
From Verif Require Import Field Primes RangeModel RangeFacts ExprModel ExprFacts ExprWf SolveModel SolveFacts SystemModel Spec Bridge InlinerModel
  BaseModel BaseFacts SolverSpec BaseSolve PropsBase OvmModel OvmSpec OvmFacts OvmBatch.
Import ListNotations.
Local Open Scope nat_scope.

(** C19: given range constraints [b] for the fields of a bus interaction, the handler never
    excludes a tuple [v] within [b] that the bus accepts: it does not panic, keeps the number of
    fields, and [v] is within the returned constraints. *)
Theorem C19_sound : forall (p : positive) m (b : busi (rc p)) (v : busi (F p)), (2 ^ 26 < N.pos p)%N -> map_ok p m ->
  legal m v -> bus_allows b v ->
  exists b', ovm_handle m b = Some b' /\ bus_allows b' v /\ length (payload b') = length (payload b).
Proof. intros p m b v Hbig. now apply ovm_handle_ok. Qed.
(** The handler meets the requirement of the solver theorems (C15, C16), for any bus map. *)
Theorem C19_for_solver : forall (p : positive) m, (2 ^ 26 < N.pos p)%N -> map_ok p m -> handler_sound (legal (p:=p) m) (ovm_total m).
Proof. intros p m Hbig. now apply ovm_total_sound. Qed.
(** With the OpenVM handler, all assignments found by the solver hold in every solution whose
    bus interactions are accepted, and an error means that there is none. *)
Theorem C19_solve : forall (p : positive) m fuel (c : csys p), prime (Z.pos p) -> (2 ^ 26 < N.pos p <= 2 ^ 64)%N -> map_ok p m ->
  Forall user_expr (algs c) -> Forall (fun b => Forall user_expr (fields b)) (buses c) ->
  match solve_system (ovm_total m) fuel c with
  | (l, Done _) => exists a, l = [Silent; Silent; Assignments a] /\
      forall s, sys_solves s c -> Forall (legal m) (bus_values s c) -> Forall (fun ve => s (fst ve) = eval s (snd ve)) a
  | (_, Contradiction) => forall s, sys_solves s c -> ~ Forall (legal m) (bus_values s c)
  | (_, Panicked) => False
  | (_, OutOfFuel) => True
  end.
Proof.
  intros p m fuel c Hp [H1 H2] Hm U1 U2. assert (B : (2 < N.pos p <= 2 ^ 64)%N).
  { split; auto. change (2 ^ 26)%N with 67108864%N in H1. lia. }
  pose proof (C15_solve_system p (legal m) (ovm_total m) fuel c Hp B (ovm_total_sound H1 m Hm) U1 U2) as T.
  destruct (solve_system (ovm_total m) fuel c) as [l [st| | |]]; auto. destruct T as (a & -> & T). exists a. split; auto.
  intros s Hs Hb. eapply Forall_impl; [|exact (T s Hs Hb)]. cbn. tauto.
Qed.
(** Where the constraints on the inputs determine what the bus accepts, the result is as strong as
    the bus: every tuple within the result is accepted. *)
Definition input_decides {p} (t : btype) (k : F p) (b : list (rc p)) : Prop :=
  match t with
  | BTuple _ _ => True
  | BVarRange => exists x bits n, b = [x; bits] /\ try_to_single_value bits = Some n /\ (val n <= 25)%N
  | BBitwise => exists x y z op n, b = [x; y; z; op] /\ try_to_single_value op = Some n /\
      (val n = 0%N \/ (val n = 1%N /\ exists a c, try_to_single_value x = Some a /\ try_to_single_value y = Some c /\ byte a /\ byte c))
  | BMemory => k = fopp fone /\ exists a ptr data ts n, b = a :: ptr :: data ++ [ts] /\ data <> [] /\ try_to_single_value a = Some n /\
      (val n = 2%N \/ (val n = 1%N /\ try_to_single_value ptr = Some fzero))
  | BExec | BPc => True
  end.
Theorem C19_exact : forall (p : positive) m (b b' : busi (rc p)) i k t, (2 ^ 26 < N.pos p)%N -> map_ok p m ->
  bus_id b = from_value i -> mult b = from_value k -> k <> fzero -> In (val i, t) m -> input_decides t k (payload b) ->
  ovm_handle m b = Some b' -> forall v, bus_allows b' v -> legal m v.
Proof.
  intros p m b b' i k t Hbig Hm Ei Ek Hk Hin Hdec H v Hv.
  assert (S1 : forall x : F p, try_to_single_value (from_value x) = Some x).
  { intros x. unfold try_to_single_value. cbn [rmin rmax mask from_value]. rewrite (proj2 (feqb_eq x x) eq_refl), N.land_diag, N.eqb_refl. reflexivity. }
  unfold ovm_handle in H. rewrite Ei, Ek, !S1 in H. destruct (is_zero k) eqn:Ez; [now apply is_zero_eq in Ez|].
  rewrite (bus_type_of _ _ _ (proj1 Hm) Hin) in H.
  destruct (match t with BExec => _ | _ => _ end) as [pl|] eqn:Ep in H; [|discriminate]. injection H as <-.
  unfold bus_allows, fields in Hv. cbn [bus_id mult payload] in Hv. inversion Hv as [|? ? ? ? A1 Hv1]; subst. inversion Hv1 as [|? ? ? ? A2 Hv2]; subst. clear Hv Hv1.
  rewrite allows_val in A1, A2. right. exists t. rewrite A1, A2. split; auto. destruct Hm as [Hn Hm]. specialize (Hm _ _ Hin).
  destruct t as [| | | |s0 s1|]; cbn [accepts]; auto.
  - destruct Hdec as (-> & a & ptr & d & ts & n & E & Hd & Ea & Hn'). unfold handle_memory in Ep.
    assert (Es : split_memory (payload b) = Some (a, ptr, d, ts)) by (apply split_memory_eq; auto). rewrite Es in Ep.
    rewrite (proj2 (feqb_eq _ _) eq_refl) in Ep. cbn [negb] in Ep. rewrite Ea in Ep.
    assert (Hn32 : (val n < 2 ^ 32)%N) by (change (2 ^ 32)%N with 4294967296%N; lia).
    destruct (N.leb_spec (2 ^ 32) (val n)) as [|_]; [lia|].
    assert (Hor : ((val n =? 1)%N || (val n =? 2)%N)%bool = true) by (rewrite orb_true_iff, !N.eqb_eq; lia). rewrite Hor in Ep. injection Ep as <-.
    inversion Hv2 as [|? va ? ? B1 Hv3]; subst. inversion Hv3 as [|? vq ? ? B2 Hv4]; subst.
    apply Forall2_app_inv_l in Hv4. destruct Hv4 as (vd & vt & B3 & B4 & Ev). inversion B4 as [|? vts ? ? B5 B6]; subst. inversion B6; subst.
    assert (va = n) by (eapply b_single; eauto). subst va.
    exists n, vq, vd, vts. split; [reflexivity|]. split; [intros ->; inversion B3 as [B7|]; destruct d; [congruence|discriminate]|]. split; auto. intros _.
    set (z := ((val n =? 1)%N && _)%bool) in *.
    assert (C0 : z = true -> Forall (fun x => val x = 0%N) vd).
    { intros Z. rewrite Z in B3. clear - B3. remember (map _ d) as l eqn:El. revert d El. induction B3; intros d El; constructor; destruct d; try discriminate; injection El as -> ->.
      - rewrite allows_val in H. subst. apply val_zero.
      - eapply IHB3; eauto. }
    assert (C1 : Forall byte vd).
    { clear - B3. remember (map _ d) as l eqn:El. revert d El. induction B3; intros d El; constructor; destruct d; try discriminate; injection El as -> ->.
      - destruct z; [rewrite allows_val in H; subst; unfold byte; rewrite val_zero; lia|now apply allows_byte].
      - eapply IHB3; eauto. }
    split; auto. intros Hv1 Hq. destruct Hn' as [Hn'|[_ Hn']]; [lia|]. apply C0. subst z. rewrite Hv1, Hn'. reflexivity.
  - destruct Hdec as (x & bits & n & E & En & Hb). rewrite E in Ep. cbn [handle_var_range] in Ep. rewrite En in Ep. unfold MAX_BITS in Ep.
    destruct (N.leb_spec (val n) 25); [|lia].
    assert (Ep' : pl = [from_mask (N.shiftl 1 (val n) - 1); bits]) by congruence. rewrite Ep' in Hv2. clear Ep Ep'.
    inversion Hv2 as [|? vx ? ? B1 Hv3]; subst. inversion Hv3 as [|? vb ? ? B2 Hv4]; subst. inversion Hv4; subst.
    assert (vb = n) by (eapply b_single; eauto). subst vb. apply (proj1 (allows_bits (val n) vx)) in B1. exists vx, n. auto.
  - destruct Hm as (Hi & Hs0 & Hs1). destruct (tuple_range_some Hbig s0 Hs0) as (r0 & E0 & R0 & _). destruct (tuple_range_some Hbig s1 Hs1) as (r1 & E1 & R1 & _).
    unfold handle_tuple, tuple_ranges in Ep. rewrite E0, E1 in Ep. destruct (payload b) as [|? [|? [|]]]; try discriminate. injection Ep as <-.
    inversion Hv2 as [|? vx ? ? B1 Hv3]; subst. inversion Hv3 as [|? vb ? ? B2 Hv4]; subst. inversion Hv4; subst. rewrite R0 in B1. rewrite R1 in B2. eauto.
  - destruct Hdec as (x & y & z & op & n & E & En & Hop). rewrite E in Ep. cbn [handle_bitwise] in Ep. rewrite En in Ep.
    destruct (N.eqb_spec (val n) 0) as [E0|E0].
    + injection Ep as <-. inversion Hv2 as [|? vx ? ? B1 Hv3]; subst. inversion Hv3 as [|? vy ? ? B2 Hv4]; subst. inversion Hv4 as [|? vz ? ? B3 Hv5]; subst.
      inversion Hv5 as [|? vop ? ? B4 Hv6]; subst. inversion Hv6; subst. rewrite allows_byte in B1, B2. rewrite allows_val in B3, B4. subst vz vop.
      exists vx, vy, fzero, fzero. rewrite val_zero. auto 7.
    + destruct Hop as [?|(E1 & a & c & Ea & Ec & Ha & Hc)]; [lia|]. rewrite E1 in Ep. cbn [N.eqb Pos.eqb] in Ep. rewrite Ea, Ec in Ep. unfold from_u64 in Ep.
      destruct (N.ltb_spec (N.lxor (val a) (val c)) (N.pos p)) as [Hlt|]; [|discriminate]. injection Ep as <-.
      inversion Hv2 as [|? vx ? ? B1 Hv3]; subst. inversion Hv3 as [|? vy ? ? B2 Hv4]; subst. inversion Hv4 as [|? vz ? ? B3 Hv5]; subst.
      inversion Hv5 as [|? vop ? ? B4 Hv6]; subst. inversion Hv6; subst. rewrite allows_val in B1, B2, B3, B4. subst vx vy vz vop.
      eexists a, c, _, _. split; [reflexivity|]. split; auto. split; auto. right. rewrite (val_one_ Hbig), val_of_N_small by auto. auto.
Qed.

(** C20: if a bus interaction with multiplicity one is reported to be a pure range check, then it
    is accepted exactly by the assignments within the reported ranges. *)
Theorem C20_exact : forall (p : positive) m (b : busi (gexp p)) rs, (2 ^ 26 < N.pos p)%N -> map_ok p m ->
  mult b = from_number fone -> bits_in_table m b -> ovm_pure m b = Some (Some rs) ->
  forall s, legal m (bmap (eval s) b) <-> Forall (in_range s) rs.
Proof. intros p m b rs Hbig Hm H1 Hb H. now apply (ovm_pure_ok Hbig m b rs). Qed.
(** Stateful interactions are never reported. *)
Theorem C20_stateless : forall (p : positive) m (b : busi (gexp p)) rs, map_ok p m -> ovm_pure m b = Some (Some rs) ->
  forall s, keeps_state m (bmap (eval s) b) = false.
Proof.
  intros p m b rs Hm. unfold ovm_pure. destruct (try_to_known (bus_id b)) as [i|] eqn:Ei; [|discriminate]. apply known_iff in Ei.
  destruct (bus_type m (val i)) as [t|] eqn:Et; [|discriminate]. intros H s. unfold keeps_state. apply not_true_iff_false. intros X.
  apply existsb_exists in X. destruct X as ([j u] & X1 & X2). cbn [fst snd bmap bus_id] in X2. rewrite Ei, eval_from_number, andb_true_iff, N.eqb_eq in X2. destruct X2 as [-> X2].
  apply (bus_type_of _ _ _ (proj1 Hm)) in X1. assert (u = t) by congruence. subst u. destruct t; discriminate.
Qed.
(** The bound on the number of bits is needed: a check of 26 bits is never accepted (the table ends
    at 25 bits), but reported as the range [0, 2^26 - 1]. *)
Theorem C20_wide_refuted : exists (b : busi (gexp babybear)) rs, mult b = from_number fone /\ ovm_pure default_openvm_bus_map b = Some (Some rs) /\
  exists s, Forall (in_range s) rs /\ ~ legal default_openvm_bus_map (bmap (eval s) b).
Proof.
  exists (mkBus (from_number (of_N 3)) (from_number fone) [from_var (Orig 0); from_number (of_N 26)]). eexists. split; [reflexivity|].
  split; [reflexivity|]. exists (fun _ => fzero). split.
  - constructor; [|constructor]. unfold in_range. apply rc_allows_iff. vm_compute. reflexivity.
  - intros [H|(t & H & A)]; [discriminate (f_equal val H)|]. cbn [bmap bus_id] in H.
    destruct H as [H|[H|[H|[H|[H|[H|[]]]]]]]; try discriminate (f_equal fst H). assert (t = BVarRange) by congruence. subst t.
    destruct A as (x & bits & E & Hb & _). cbn in E. injection E as <- <-. vm_compute in Hb. now apply Hb.
Qed.

(** C21: batching. All requested ranges are enforced by the returned interactions, always. *)
Theorem C21_enforced : forall (p : positive) m (l : list (gexp p * rc p)) bs, (2 ^ 26 < N.pos p)%N -> map_ok p m -> batch_make m l = Made bs ->
  forall s, Forall (legal m) (map (bmap (eval s)) bs) -> Forall (in_range s) l.
Proof. intros p m l bs Hbig Hm H s Hs. apply (proj1 (batch_ok Hbig m l bs Hm H) s). now rewrite Forall_map in Hs. Qed.
(** Nothing else is enforced, if the ranges end below 2^25. *)
Theorem C21_exact : forall (p : positive) m (l : list (gexp p * rc p)) bs, (2 ^ 26 < N.pos p)%N -> map_ok p m -> batch_make m l = Made bs ->
  Forall (fun er => rmin (snd er) = fzero /\ (val (rmax (snd er)) < 2 ^ 25)%N) l ->
  forall s, Forall (legal m) (map (bmap (eval s)) bs) <-> Forall (in_range s) l.
Proof.
  intros p m l bs Hbig Hm H Hl s. destruct (proj1 (batch_ok Hbig m l bs Hm H) s) as [A B]. rewrite Forall_map. split; auto.
Qed.
(** The returned interactions have multiplicity one and do not touch the execution or memory bus. *)
Theorem C21_shape : forall (p : positive) m (l : list (gexp p * rc p)) bs, (2 ^ 26 < N.pos p)%N -> map_ok p m -> batch_make m l = Made bs ->
  Forall (fun b => mult b = from_number fone /\ forall s, keeps_state m (bmap (eval s) b) = false) bs.
Proof. intros p m l bs Hbig Hm H. apply (batch_ok Hbig m l bs Hm H). Qed.
(** An error is only returned if some range is not a range of up to 29 bits. *)
Theorem C21_error : forall (p : positive) m (l : list (gexp p * rc p)), (2 ^ 26 < N.pos p)%N -> batch_make m l = MakeError ->
  Exists (fun er => forall k, (k < 30)%N -> snd er <> from_mask (2 ^ k - 1)) l.
Proof.
  intros p m l Hbig H. apply (batch_error Hbig) in H. eapply Exists_impl; [|exact H]. cbn beta. intros er Her k Hk. specialize (Her k Hk). now rewrite N.shiftl_1_l in Her.
Qed.
(** It never panics on a bus map with the three range check buses, a tuple range checker with a
    byte as first component. *)
Theorem C21_no_panic : forall (p : positive) m (l : list (gexp p * rc p)) s1, (2 ^ 26 < N.pos p)%N -> map_ok p m ->
  (forall a b i, In (i, BTuple a b) m -> (a, b) = (256, s1)%N) ->
  (exists i, In (i, BTuple 256 s1) m) -> (exists i, In (i, BVarRange) m) -> (exists i, In (i, BBitwise) m) -> batch_make m l <> MakePanic.
Proof.
  intros p m l s1 Hbig Hm Hu [i0 Hi0] [i1 Hi1] [i2 Hi2].
  assert (K : forall i t pl, In (i, t) m -> exists b, mk_check (p:=p) m t pl = Some b).
  { intros i t pl Hi. unfold mk_check.
    assert (G : exists j, get_bus_id m t = Some j).
    { clear - Hi. induction m as [|[j u] m IH]; [destruct Hi|]. cbn [get_bus_id]. destruct (btype_eqb u t) eqn:E; [eauto|]. destruct Hi as [Hi|Hi]; auto.
      injection Hi as -> ->. exfalso. destruct t; cbn in E; try discriminate. rewrite !N.eqb_refl in E. discriminate. }
    destruct G as [j G]. rewrite G. apply get_bus_id_in in G. destruct Hm as [_ Hm]. specialize (Hm _ _ G). unfold from_u64.
    destruct (N.ltb_spec j (N.pos p)); [eauto|]. lia. }
  assert (A : forall B (f : B -> option (busi (gexp p))) xs, (forall x, exists b, f x = Some b) -> exists bs, all_some (map f xs) = Some bs).
  { intros B f xs Hf. induction xs as [|x xs [bs IH]]; cbn [map all_some]; [eauto|]. destruct (Hf x) as [b ->]. rewrite IH. eauto. }
  assert (S : tuple_sizes m = Some (256, s1)%N).
  { clear - Hu Hi0. induction m as [|[j u] m IH]; [destruct Hi0|]. destruct Hi0 as [E|H].
    - injection E as -> ->. reflexivity.
    - cbn [tuple_sizes]. destruct u; try (apply IH; auto; intros; eapply Hu; right; eassumption). f_equal. eapply Hu. left. reflexivity. }
  unfold batch_make, filter_byte_constraints. rewrite S. pose proof (proj2 Hm _ _ Hi0) as (_ & _ & Hs1).
  destruct (tuple_range_some Hbig s1 Hs1) as (r1 & E1 & _).
  assert (H255 : (255 < N.pos p)%N) by (change (2 ^ 26)%N with 67108864%N in Hbig; lia).
  assert (E0 : tuple_range 256 = Some (from_mask (p:=p) 255)).
  { unfold tuple_range. change (256 =? 0)%N with false. cbv iota. change (256 - 1)%N with 255%N. unfold from_u64.
    destruct (N.ltb_spec 255 (N.pos p)); [|lia]. f_equal. unfold from_range, from_mask. rewrite val_of_N_small by auto. rewrite val_minus1.
    replace (N.min 255 (N.pos p - 1)) with 255%N by lia. f_equal. assert (X : fleb fzero (of_N (p:=p) 255) = true) by (unfold fleb; rewrite val_zero; apply N.leb_le; lia).
    rewrite X. reflexivity. }
  unfold tuple_ranges. rewrite E0, E1. rewrite (proj2 (rc_eqb_eq _ _) eq_refl). cbn [negb].
  set (bytes := exprs_unique _ _). set (rest := filter (fun er => negb (is_byte_rc (snd er))) l).
  set (second := firstn (length bytes) _). set (others := _ ++ skipn _ _).
  match goal with |- context [all_some (map ?f (combine ?x ?y))] => destruct (A _ f (combine x y)) as [b1 ->]; [intros; eapply K; eauto|] end.
  match goal with |- context [all_some (map ?f (byte_pairs ?x))] => destruct (A _ f (byte_pairs x)) as [b2 ->]; [intros; eapply K; eauto|] end.
  destruct (num_bits_list others) as [pls|]; [|discriminate].
  destruct (A _ (mk_check (p:=p) m BVarRange) pls) as [b3 ->]; [intros; eapply K; eauto|]. discriminate.
Qed.
(** Ranges of 26 to 29 bits are implemented by a check that no value passes, instead of an error. *)
Theorem C21_wide_refuted : exists (l : list (gexp babybear * rc babybear)) bs, batch_make default_openvm_bus_map l = Made bs /\
  (exists s, Forall (in_range s) l) /\ forall s, ~ Forall (legal default_openvm_bus_map) (map (bmap (eval s)) bs).
Proof.
  exists [(from_var (Orig 0), from_mask (2 ^ 26 - 1))]. eexists. split; [vm_compute; reflexivity|]. split.
  - exists (fun _ => fzero). constructor; [|constructor]. apply rc_allows_iff. vm_compute. reflexivity.
  - intros s H. inversion H as [|? ? X _]; subst. destruct X as [X|(t & X & A)]; [discriminate (f_equal val X)|]. cbn [bmap bus_id eval] in X.
    destruct X as [X|[X|[X|[X|[X|[X|[]]]]]]]; try discriminate (f_equal fst X). assert (t = BVarRange) by congruence. subst t.
    destruct A as (x & bits & E & Hb & _). cbn [map bmap payload] in E. injection E as <- <-. vm_compute in Hb. now apply Hb.
Qed.

(** C22: the range constraint optimizer. *)
Lemma solver_run_length {p} (h : busi (rc p) -> busi (rc p)) fuel os : forall st l st', solver_run h fuel os st = (l, Done st') -> length l = length os.
Proof.
  induction os as [|o os IH]; intros st l st'; cbn [solver_run]; [intros H; assert (l = []) by congruence; subst; reflexivity|].
  destruct (solver_do h fuel o st) as [[a st1]| | |]; try discriminate. destruct (solver_run h fuel os st1) as [l1 r] eqn:E. intros H.
  assert (E1 : l = a :: l1) by congruence. assert (E2 : r = Done st') by congruence. subst. cbn [length]. f_equal. eauto.
Qed.
Theorem C22_equivalent : forall (p : positive) m bound fuel (c c' : csys p), prime (Z.pos p) -> (2 ^ 26 < N.pos p <= 2 ^ 64)%N -> map_ok p m ->
  Forall user_expr (algs c) -> Forall (fun b => Forall user_expr (fields b)) (buses c) -> Forall (bits_in_table m) (buses c) ->
  optimize_range_constraints m bound fuel c = Some c' ->
  (forall s, sys_solves s c /\ Forall (legal m) (bus_values s c) <-> sys_solves s c' /\ Forall (legal m) (bus_values s c')) /\
  (forall s, state_events m s c' = state_events m s c) /\
  derived c' = derived c /\
  Forall (fun e => In e (algs c) \/ degree e <= db_identities bound) (algs c').
Proof.
  intros p m bound fuel c c' Hp [Hbig H64] Hm Ua Ub Hbits. assert (H2 : (2 < N.pos p <= 2 ^ 64)%N).
  { split; auto. change (2 ^ 26)%N with 67108864%N in Hbig. lia. }
  unfold optimize_range_constraints. destruct (collect_pure m (buses c) []) as [[kept l]|] eqn:Ec; [|discriminate].
  destruct (collect_pure_ok Hbig m (buses c) Hm Hbits [] kept l (Forall_nil _) Ec) as (Hlow & Heq & Hst & Hex & Hkept).
  set (c1 := mkCS (algs c) kept (derived c)). destruct (solver_ranges (ovm_total m) fuel c1 (map fst l)) as [curs|] eqn:Es; [|discriminate].
  set (l1 := map snd _). destruct (batch_make m (filter (fun er => negb (as_bit bound er)) l1)) as [bs| |] eqn:Eb; try discriminate. intros [= <-].
  assert (Ul : Forall user_expr (map fst l)).
  { apply Forall_forall. intros e He. destruct (Hex e He) as [[]|H]. apply in_flat_map in H. destruct H as (b & Hb & He').
    rewrite Forall_forall in Ub. specialize (Ub b Hb). rewrite Forall_forall in Ub. apply Ub. right. now right. }
  assert (Curs : length curs = length l /\ forall s, sys_solves s c -> Forall (legal m) (map (bmap (eval s)) kept) ->
     Forall2 (fun er cur => rc_allows cur (eval s (fst er))) l curs).
  { unfold solver_ranges in Es. cbn [algs buses c1] in Es. set (os := _ ++ map AskRange (map fst l)) in Es.
    destruct (solver_run (ovm_total m) fuel os base_new) as [ans [st| | |]] eqn:Er; try discriminate.
    assert (Ecurs : curs = map (fun a => match a with Range _ r => r | _ => unconstrained end) (skipn 3 ans)) by congruence. clear Es.
    pose proof (solver_run_length _ _ _ _ _ _ Er) as Len. unfold os in Len. rewrite app_length in Len. cbn [length] in Len. rewrite !map_length in Len.
    split; [rewrite Ecurs, map_length, skipn_length; lia|]. intros s Hs Hk.
    assert (Uo : Forall op_ok os).
    { unfold os. apply Forall_app. split.
      - constructor; [exact Ua|]. constructor; [|constructor; [exact I|constructor]]. cbn [op_ok]. apply Forall_forall. intros b Hb. rewrite Forall_forall in Ub. auto.
      - apply Forall_map. exact Ul. }
    assert (Ho : Forall (op_holds (legal m) s) os).
    { unfold os. apply Forall_app. split; [constructor; [exact Hs|constructor; [exact Hk|constructor; [exact I|constructor]]]|].
      apply Forall_map. apply Forall_forall. intros; exact I. }
    destruct (C15_answers_hold p (legal m) (ovm_total m) fuel os s Hp H2 (ovm_total_sound Hbig m Hm) Uo Ho) as [T _].
    rewrite Er in T. cbn [fst] in T. assert (Lo : length ans = length os) by (unfold os; rewrite app_length; cbn [length]; rewrite !map_length; lia).
    rewrite Lo, firstn_all in T. unfold os in T. rewrite Ecurs. clear - T. cbn [app] in T.
    inversion T as [|? ? ? a1 _ T1]; subst. inversion T1 as [|? ? ? a2 _ T2]; subst. inversion T2 as [|? ? ? a3 _ T3]; subst. cbn [skipn].
    clear - T3. revert a3 T3. induction l as [|[e r] l IH]; intros l0 T3; cbn [map fst] in T3; inversion T3 as [|? a ? ? A1 A2]; subst; cbn [map]; constructor; auto.
    cbn [answer_correct] in A1. destruct a; tauto. }
  destruct Curs as [Lc Curs].
  assert (Hlow1 : Forall (fun er => low (snd er)) l1).
  { apply Forall_forall. intros er Her. unfold l1 in Her. apply in_map_iff in Her. destruct Her as ([cu er'] & <- & Her). apply filter_In in Her. destruct Her as [Her _].
    apply in_combine_r in Her. rewrite Forall_forall in Hlow. cbn [snd]. auto. }
  destruct (batch_ok Hbig m _ bs Hm Eb) as [B1 B2].
  assert (Hbit : forall s, Forall (in_range s) (filter (as_bit bound) l1) <-> Forall (solves s) (map (fun er => assert_bool (fst er)) (filter (as_bit bound) l1))).
  { intros s. rewrite Forall_map, !Forall_forall. split; intros H er Her; specialize (H er Her); apply filter_In in Her; destruct Her as [_ Her]; now apply (as_bit_ok Hbig Hp s bound er). }
  assert (Hf : Forall (fun er => low (snd er)) (filter (fun er => negb (as_bit bound er)) l1)) by (apply (Forall_filter_split (as_bit bound) _ l1); auto).
  split; [|split; [|split]].
  - intros s. unfold sys_solves, bus_values. cbn [algs buses]. rewrite map_app, !Forall_app, <- Hbit.
    assert (X : Forall (legal m) (map (bmap (eval s)) bs) <-> Forall (in_range s) (filter (fun er => negb (as_bit bound er)) l1)).
    { rewrite Forall_map. split; [apply B1|]. now apply B1. }
    rewrite X. specialize (Heq s). pose proof (Forall_filter_split (as_bit bound) (in_range s) l1) as Y.
    assert (Z : sys_solves s c -> Forall (legal m) (map (bmap (eval s)) kept) -> (Forall (in_range s) l1 <-> Forall (in_range s) l)) by (intros; apply filter_implied; auto).
    unfold sys_solves in Z. assert (N0 : Forall (in_range s) []) by constructor. tauto.
  - intros s. unfold state_events, bus_values. cbn [buses]. rewrite map_app, filter_app, Hst.
    assert (E : filter (keeps_state m) (map (bmap (eval s)) bs) = []).
    { clear - B2. induction B2 as [|b bs [_ H] _ IH]; cbn [map filter]; auto. now rewrite H. }
    rewrite E. apply app_nil_r.
  - reflexivity.
  - cbn [algs]. apply Forall_app. split; [apply Forall_forall; auto|]. rewrite Forall_map. apply Forall_forall. intros er Her. apply filter_In in Her.
    destruct Her as [_ Her]. unfold as_bit in Her. apply andb_true_iff in Her. right. apply Nat.leb_le. tauto.
Qed.

(** The precondition on the number of bits is needed (see [C20_wide_refuted]): a system that has
    no accepted assignment becomes one that has. *)
Theorem C22_wide_refuted : exists (c c' : csys babybear) s, optimize_range_constraints default_openvm_bus_map (mkDB 3 3) 20 c = Some c' /\
  ~ (sys_solves s c /\ Forall (legal default_openvm_bus_map) (bus_values s c)) /\
  sys_solves s c' /\ Forall (legal default_openvm_bus_map) (bus_values s c').
Proof.
  exists (mkCS [] [mkBus (from_number (of_N 3)) (from_number fone) [from_var (Orig 0); from_number (of_N 26)];
                   mkBus (from_number (of_N 1)) (from_number (fopp fone)) [from_number (of_N 2); from_var (Orig 1); from_var (Orig 0); from_var (Orig 2)]] []).
  eexists. exists (fun _ => fzero). split; [vm_compute; reflexivity|]. split; [|split; [constructor|]].
  - intros [_ H]. inversion H as [|? ? X _]; subst. destruct X as [X|(t & X & A)]; [discriminate (f_equal val X)|]. cbn [bmap bus_id eval] in X.
    destruct X as [X|[X|[X|[X|[X|[X|[]]]]]]]; try discriminate (f_equal fst X). assert (t = BVarRange) by congruence. subst t.
    destruct A as (x & bits & E & Hb & _). cbn [map bmap payload] in E. injection E as <- <-. vm_compute in Hb. now apply Hb.
  - constructor; [|constructor]. right. exists BMemory. split; [right; left; reflexivity|]. eexists _, _, [fzero], _. split; [cbn [bmap payload map app]; repeat f_equal; apply F_ext; vm_compute; reflexivity|].
    split; [discriminate|]. split; [vm_compute; reflexivity|]. intros _. split; intros; (constructor; [vm_compute; reflexivity|constructor]).
Qed.

(** *** The hypotheses are met: the default bus map over BabyBear, and a system with a byte check,
    checks implied by other constraints, a bit check and two memory messages. *)
Definition bb := babybear.
Lemma bb_big : (2 ^ 26 < N.pos bb <= 2 ^ 64)%N.
Proof. vm_compute. split; [reflexivity|discriminate]. Qed.
Lemma default_map_ok : map_ok bb default_openvm_bus_map.
Proof.
  split; [repeat constructor; cbn; intuition discriminate|]. intros i t H. cbn [default_openvm_bus_map In] in H.
  repeat (destruct H as [H|H]; [injection H as <- <-; vm_compute; intuition discriminate|]). destruct H.
Qed.
Definition ex_v (n : N) : gexp bb := from_var (Orig n).
Definition ex_k (n : N) : gexp bb := from_number (of_N n).
Definition ex_sys : csys bb :=
  mkCS [gmul (ex_v 2) (gsub (ex_v 2) (ex_k 1))]
       [mkBus (ex_k 6) (from_number fone) [ex_v 0; ex_v 2; ex_k 0; ex_k 0];
        mkBus (ex_k 3) (from_number fone) [ex_v 1; ex_k 1];
        mkBus (ex_k 3) (from_number fone) [ex_v 5; ex_k 8];
        mkBus (ex_k 1) (from_number (fopp fone)) [ex_k 2; ex_v 3; ex_v 0; ex_v 4];
        mkBus (ex_k 1) (ex_k 1) [ex_k 2; ex_v 3; ex_v 2; ex_v 4]] [].
(** The checks of variables 0 (received from memory) and 2 are dropped, the bit check becomes
    polynomial; the memory messages and the byte check of variable 5 are left. *)
Example C22_example : exists c', optimize_range_constraints default_openvm_bus_map (mkDB 3 3) 20 ex_sys = Some c' /\
  map (fun e => degree e) (algs c') = [2; 2] /\ map (fun b => option_map val (try_to_known (bus_id b))) (buses c') = [Some 1; Some 1; Some 6]%N /\
  Forall user_expr (algs ex_sys) /\ Forall (fun b => Forall user_expr (fields b)) (buses ex_sys) /\ Forall (bits_in_table default_openvm_bus_map) (buses ex_sys).
Proof.
  eexists. split; [vm_compute; reflexivity|]. split; [reflexivity|]. split; [reflexivity|].
  assert (K : forall e : gexp bb, wf e -> forallb is_orig (vars e) = true -> user_expr e).
  { intros e A B. split; auto. rewrite forallb_forall in B. exact B. }
  split; [|split].
  - constructor; [|constructor]. apply K; [|vm_compute; reflexivity].
    repeat first [apply wf_gsub | apply wf_gadd | apply wf_gmul | apply wf_gscale | apply wf_from_var | apply wf_from_number | apply prime_babybear].
  - repeat (apply Forall_cons || apply Forall_nil); (apply K; [|vm_compute; reflexivity]);
    repeat first [apply wf_from_var | apply wf_from_number | apply prime_babybear].
  - repeat (apply Forall_cons || apply Forall_nil); intros i x bits _ E1 E2 E3; cbn [payload] in E3; try discriminate E3.
    + assert (E : bits = of_N 1) by (unfold ex_k, from_number in E3; congruence). rewrite E. vm_compute. congruence.
    + assert (E : bits = of_N 8) by (unfold ex_k, from_number in E3; congruence). rewrite E. vm_compute. congruence.
Qed.
(** The handler on the xor of a byte and an unconstrained value, and on a received word. *)
Example C19_example :
  (exists b', ovm_handle (p:=bb) default_openvm_bus_map (mkBus (from_value (of_N 6)) (from_value fone) [from_mask 3; from_mask 5; unconstrained; from_value fone]) = Some b' /\
    map (fun r => (val (rmin r), val (rmax r))) (payload b') = [(0, 255); (0, 255); (0, 7); (1, 1)]%N /\
    bus_allows (mkBus (from_value (of_N 6)) (from_value fone) [from_mask 3; from_mask 5; unconstrained; from_value fone])
               (mkBus (of_N (p:=bb) 6) fone [of_N 3; of_N 5; of_N 6; fone]) /\
    legal default_openvm_bus_map (mkBus (of_N (p:=bb) 6) fone [of_N 3; of_N 5; of_N 6; fone])) /\
  input_decides BMemory (fopp (fone (p:=bb))) [from_value (of_N 1); from_value fzero; unconstrained; unconstrained; unconstrained].
Proof.
  split.
  - eexists. split; [vm_compute; reflexivity|]. split; [vm_compute; reflexivity|]. split.
    + unfold bus_allows, fields. cbn [bus_id mult payload]. repeat (apply Forall2_cons || apply Forall2_nil); apply rc_allows_c; vm_compute; reflexivity.
    + right. exists BBitwise. split; [cbn; auto 8|]. eexists _, _, _, _. split; [reflexivity|]. split; [vm_compute; reflexivity|]. split; [vm_compute; reflexivity|].
      right. split; vm_compute; reflexivity.
  - split; [reflexivity|]. eexists _, _, [unconstrained; unconstrained], _, _. split; [reflexivity|]. split; [discriminate|]. split; [reflexivity|]. right. split; [vm_compute; reflexivity|].
    reflexivity.
Qed.
(** Batching two bytes, a check of the second tuple range and a three bit check. *)
Example C21_example : let l := [(ex_v 0, from_mask 255); (ex_v 1, from_mask 255); (ex_v 2, from_mask 2047); (ex_v 3, from_mask 7)] in
  (exists bs, batch_make default_openvm_bus_map l = Made bs /\ map (fun b => option_map val (try_to_known (bus_id b))) bs = [Some 7; Some 6; Some 3]%N) /\
  Forall (fun er => rmin (snd er) = fzero /\ (val (rmax (snd er)) < 2 ^ 25)%N) l.
Proof.
  split; [eexists; split; vm_compute; reflexivity|]. repeat (apply Forall_cons || apply Forall_nil); (split; [apply F_ext; vm_compute; reflexivity|vm_compute; reflexivity]).
Qed.
(** An error: a range that is not a number of bits. *)
Example C21_error_example : batch_make (p:=bb) default_openvm_bus_map [(ex_v 0, from_range fzero (of_N 5))] = MakeError.
Proof. vm_compute. reflexivity. Qed.
(** A pure check of 8 bits, and an interaction that is none (the number of bits is a variable). *)
Example C20_example :
  (exists rs, ovm_pure default_openvm_bus_map (mkBus (ex_k 3) (from_number fone) [ex_v 0; ex_k 8]) = Some (Some rs) /\ rs = [(ex_v 0, from_mask 255)]) /\
  ovm_pure default_openvm_bus_map (mkBus (ex_k 3) (from_number fone) [ex_v 0; ex_v 1]) = Some None.
Proof. split; [eexists; split|]; vm_compute; reflexivity. Qed.
Print Assumptions C19_sound. Print Assumptions C19_for_solver. Print Assumptions C19_solve. Print Assumptions C19_exact.
Print Assumptions C20_exact. Print Assumptions C20_stateless. Print Assumptions C20_wide_refuted.
Print Assumptions C21_enforced. Print Assumptions C21_exact. Print Assumptions C21_shape. Print Assumptions C21_error. Print Assumptions C21_no_panic. Print Assumptions C21_wide_refuted.
Print Assumptions C22_equivalent. Print Assumptions C22_wide_refuted.
