(** Lemmas about inventories and counters. *)
From Coq Require Import Arith NArith Bool List Lia.
From Verif Require Import NumModel AirModel CudaModel DummyModel DummySpec.
Import ListNotations.
Local Open Scope list_scope.

Lemma kind_eqb_eq a b : kind_eqb a b = true <-> a = b.
Proof. destruct a, b; cbn; split; congruence. Qed.
Lemma air_eqb_refl a : air_eqb a a = true.
Proof. destruct a as [[]|n]; cbn; auto. now destruct (list_eq_dec N.eq_dec n n). Qed.
Lemma find_agrees k inv : find_air k (map air_of inv) = is_some (find_chip k inv).
Proof.
  unfold find_air. induction inv as [|[k' l|n u] inv IH]; cbn [map air_of existsb find_chip air_eqb is_some]; [reflexivity| |exact IH].
  destruct (kind_eqb k k'); [reflexivity|exact IH].
Qed.
Lemma find_chip_app k a b : find_chip k (a ++ b) = match find_chip k a with Some l => Some l | None => find_chip k b end.
Proof. induction a as [|[k' l|n u] a IH]; cbn; auto. now destruct (kind_eqb k k'). Qed.
Lemma find_chip_in k inv l : find_chip k inv = Some l -> In (CPeriphery k l) inv.
Proof.
  induction inv as [|[k' l'|n u] inv IH]; cbn; [discriminate| |auto].
  destruct (kind_eqb k k') eqn:E; [|auto]. apply kind_eqb_eq in E. subst. intros [= ->]. auto.
Qed.

(** ** Circuits *)
Definition items (c : config) : extension :=
  if_some (c_rv32i c) ++ if_some (c_io c) ++ if_some (c_keccak c) ++ if_some (c_sha2 c) ++ if_some (c_rv32m c) ++ if_some (c_bigint c) ++
  if_some (c_modular c) ++ if_some (c_fp2 c) ++ if_some (c_pairing c) ++ if_some (c_ecc c) ++ if_some (c_deferral c).
Lemma extend_circuit_app airs x y : extend_circuit airs (x ++ y) = extend_circuit (extend_circuit airs x) y.
Proof. apply fold_left_app. Qed.
Lemma extend_circuit_prefix x : forall airs, exists r, extend_circuit airs x = airs ++ r.
Proof.
  induction x as [|i x IH]; intros airs; [exists []; now rewrite app_nil_r|]. cbn [extend_circuit fold_left].
  destruct (IH (extend_air airs i)) as (r & E). unfold extend_circuit in E. rewrite E. destruct i as [k|n]; cbn [extend_air].
  - destruct (find_air k airs); [now exists r|]. exists ([APeriphery k] ++ r). now rewrite app_assoc.
  - exists ([AOther n] ++ r). now rewrite app_assoc.
Qed.
Lemma extend_prover_app airs x : forall st y, extend_prover airs st (x ++ y) = and_then (extend_prover airs st x) (fun st => extend_prover airs st y).
Proof. induction x as [|i x IH]; intros st y; cbn [app extend_prover]; [reflexivity|]. destruct (extend_chip airs st i); cbn; auto. Qed.
Lemma create_dummy_airs_items b c s : create_dummy_airs b c s = and_then (periphery_airs b s (extend_circuit [] (system_items (c_system c)))) (fun airs => Ok (extend_circuit airs (items c))).
Proof. unfold create_dummy_airs, and_then. destruct (periphery_airs _ _ _); auto. unfold items. now rewrite !extend_circuit_app. Qed.
Lemma create_dummy_chips_items c airs s h : create_dummy_chips c airs s h =
  and_then (extend_prover airs ([], h) (system_items (c_system c))) (fun st => and_then (periphery_chips s (fst st)) (fun inv => extend_prover airs (inv, snd st) (items c))).
Proof.
  unfold create_dummy_chips. destruct (extend_prover airs ([], h) _) as [st| |]; cbn [and_then]; auto. destruct (periphery_chips s (fst st)) as [inv| |]; cbn [and_then]; auto.
  unfold items. rewrite extend_prover_app. destruct (extend_prover airs (inv, snd st) _) as [s1| |]; cbn [and_then]; auto.
  rewrite extend_prover_app. destruct (extend_prover airs s1 _) as [s2| |]; cbn [and_then]; auto.
  rewrite extend_prover_app. destruct (extend_prover airs s2 _) as [s3| |]; cbn [and_then]; auto.
  rewrite extend_prover_app. destruct (extend_prover airs s3 _) as [s4| |]; cbn [and_then]; auto.
  rewrite extend_prover_app. destruct (extend_prover airs s4 _) as [s5| |]; cbn [and_then]; auto.
  rewrite extend_prover_app. destruct (extend_prover airs s5 _) as [s6| |]; cbn [and_then]; auto.
  rewrite extend_prover_app. destruct (extend_prover airs s6 _) as [s7| |]; cbn [and_then]; auto.
  rewrite extend_prover_app. destruct (extend_prover airs s7 _) as [s8| |]; cbn [and_then]; auto.
  rewrite extend_prover_app. destruct (extend_prover airs s8 _) as [s9| |]; cbn [and_then]; auto.
  rewrite extend_prover_app. destruct (extend_prover airs s9 _) as [s10| |]; cbn [and_then]; auto.
Qed.

(** The location of a chip and those it uses are all of a set. *)
Definition chip_in (P : loc -> Prop) (c : chip) : Prop := match c with CPeriphery _ l => P l | COther _ uses => Forall (fun u => P (snd u)) uses end.
Lemma found_in (P : loc -> Prop) k inv : Forall (chip_in P) inv -> Forall (fun u : kind * loc => P (snd u)) (found k inv).
Proof.
  intros H. unfold found. destruct (find_chip k inv) eqn:E; [|constructor]. constructor; [|constructor]. apply find_chip_in in E. exact (proj1 (Forall_forall _ _) H _ E).
Qed.
(** Counters outside of the set stay. *)
Definition keeps (P : loc -> Prop) (h h' : heap) : Prop := h_next h <= h_next h' /\ forall l, ~ P l -> forall b, h_count h' l b = h_count h l b.
Lemma keeps_refl P h : keeps P h h.
Proof. split; [lia|auto]. Qed.
Lemma keeps_trans P a b c : keeps P a b -> keeps P b c -> keeps P a c.
Proof. intros [A A'] [B B']. split; [lia|]. intros l Hl x. now rewrite B', A'. Qed.
Lemma keeps_alloc (P : loc -> Prop) h : P (h_next h) -> keeps P h (snd (alloc h)).
Proof.
  intros Hp. split; cbn; [lia|]. intros l Hl b. destruct (Nat.eqb_spec l (h_next h)) as [-> |]; [now destruct Hl|reflexivity].
Qed.

Definition all_kinds (inv : list chip) : Prop := forall k, find_chip k inv <> None.
Lemma extend_prover_ok (P : loc -> Prop) airs x : forall inv h rest, (forall l, h_next h <= l -> P l) -> Forall (chip_in P) inv -> airs = extend_circuit (map air_of inv) x ++ rest ->
  exists more h', extend_prover airs (inv, h) x = Ok (inv ++ more, h') /\ map air_of (inv ++ more) = extend_circuit (map air_of inv) x /\ Forall (chip_in P) (inv ++ more) /\ keeps P h h' /\
    (all_kinds inv -> h' = h).
Proof.
  induction x as [|i x IH]; intros inv h rest Hf Hin Ha.
  - exists [], h. rewrite app_nil_r. cbn [extend_prover extend_circuit fold_left]. split; [reflexivity|]. split; [reflexivity|]. split; [exact Hin|]. split; [apply keeps_refl|]. reflexivity.
  - assert (Nx : forall a c, map air_of (inv ++ [c]) = map air_of inv ++ [a] -> extend_air (map air_of inv) i = map air_of inv ++ [a] -> add_checked airs inv a c = Ok (inv ++ [c])).
    { intros a c _ E. unfold add_checked. rewrite Ha. cbn [extend_circuit fold_left]. rewrite E. destruct (extend_circuit_prefix x (map air_of inv ++ [a])) as (r & Er). unfold extend_circuit in Er. rewrite Er.
      rewrite <- !app_assoc. rewrite nth_error_app2; rewrite map_length; [|lia]. rewrite Nat.sub_diag. cbn. now rewrite air_eqb_refl. }
    cbn [extend_prover]. cbn [extend_circuit fold_left] in *. destruct i as [k|n]; cbn [extend_chip extend_air] in *.
    + rewrite find_agrees in *. destruct (find_chip k inv) as [l|] eqn:Ek; cbn [is_some] in *.
      * exact (IH inv h rest Hf Hin Ha).
      * cbn [alloc]. rewrite (Nx (APeriphery k) (CPeriphery k (h_next h))) by (try rewrite map_app; reflexivity).
        set (c := CPeriphery k (h_next h)) in *. pose proof (keeps_alloc P h (Hf _ (le_n _))) as K1. cbn [alloc snd] in K1. set (h1 := mkHeap (S (h_next h)) _) in *.
        assert (A1 : forall l, h_next h1 <= l -> P l) by (intros l Hl; apply Hf; cbn in Hl; lia).
        assert (I1 : Forall (chip_in P) (inv ++ [c])) by (apply Forall_app; split; [exact Hin|constructor; [exact (Hf _ (le_n _))|constructor]]).
        assert (E1 : map air_of inv ++ [APeriphery k] = map air_of (inv ++ [c])) by now rewrite map_app.
        rewrite E1 in *. destruct (IH (inv ++ [c]) h1 rest A1 I1 Ha) as (more & h' & E & M & I & K & _).
        exists ([c] ++ more), h'. rewrite app_assoc. split; [exact E|]. split; [exact M|]. split; [exact I|]. split; [exact (keeps_trans _ _ _ _ K1 K)|]. intros X. now destruct (X k).
    + set (u := found KRange inv ++ found KBitwise inv ++ found KTuple inv). rewrite (Nx (AOther n) (COther n u)) by (try rewrite map_app; reflexivity).
      set (c := COther n u) in *.
      assert (I1 : Forall (chip_in P) (inv ++ [c])).
      { apply Forall_app. split; [exact Hin|]. constructor; [|constructor]. cbn. unfold u. rewrite !Forall_app. split; [|split]; now apply found_in. }
      assert (E1 : map air_of inv ++ [AOther n] = map air_of (inv ++ [c])) by now rewrite map_app.
      rewrite E1 in *. destruct (IH (inv ++ [c]) h rest Hf I1 Ha) as (more & h' & E & M & I & K & S).
      exists ([c] ++ more), h'. rewrite app_assoc. split; [exact E|]. split; [exact M|]. split; [exact I|]. split; [exact K|].
      intros X. apply S. intros k. rewrite find_chip_app. specialize (X k). destruct (find_chip k inv); congruence.
Qed.

(** The system has only a range checker. *)
Lemma system_airs others : extend_circuit [] (system_items others) = APeriphery KRange :: map AOther others.
Proof.
  assert (X : forall l, fold_left extend_air (map Adds others) l = l ++ map AOther others).
  { induction others as [|o r IH]; intros l; cbn; [now rewrite app_nil_r|]. rewrite IH, <- app_assoc. reflexivity. }
  exact (X [APeriphery KRange]).
Qed.
Lemma others_kind k others : existsb (air_eqb (APeriphery k)) (map AOther others) = false.
Proof. induction others; cbn; auto. Qed.
Lemma system_kind k others : find_air k (extend_circuit [] (system_items others)) = kind_eqb k KRange.
Proof. rewrite system_airs. unfold find_air. cbn [existsb air_eqb]. rewrite others_kind. now rewrite orb_false_r. Qed.
Lemma adds_alloc airs others : forall inv h st, extend_prover airs (inv, h) (map Adds others) = Ok st -> snd st = h.
Proof.
  induction others as [|o r IH]; intros inv h st; cbn; [intros [= <-]; reflexivity|]. destruct (add_checked _ _ _ _) as [inv'| |]; try discriminate. apply IH.
Qed.
Lemma system_alloc airs others h st : extend_prover airs ([], h) (system_items others) = Ok st -> h_next (snd st) = S (h_next h).
Proof.
  unfold system_items. cbn. destruct (add_checked _ _ _ _) as [inv'| |]; try discriminate. intros H. apply adds_alloc in H. now rewrite H.
Qed.
Lemma find_air_app k a b : find_air k (a ++ b) = find_air k a || find_air k b.
Proof. unfold find_air. apply existsb_app. Qed.
Lemma ranges_system others : filter (air_eqb (APeriphery KRange)) (extend_circuit [] (system_items others)) = [APeriphery KRange].
Proof. rewrite system_airs. cbn. f_equal. induction others; cbn; auto. Qed.
Definition shared_airs (s : periphery) : list DummyModel.air :=
  (if is_some (p_bitwise s) then [APeriphery KBitwise] else []) ++ (if is_some (p_tuple s) then [APeriphery KTuple] else []).
Definition shared_chips (s : periphery) : list chip :=
  (match p_bitwise s with Some l => [CPeriphery KBitwise l] | None => [] end) ++ (match p_tuple s with Some l => [CPeriphery KTuple l] | None => [] end).
Lemma shared_air_of s : map air_of (shared_chips s) = shared_airs s.
Proof. unfold shared_chips, shared_airs. destruct (p_bitwise s), (p_tuple s); reflexivity. Qed.
Lemma periphery_airs_ok b s others : periphery_airs b s (extend_circuit [] (system_items others)) = Ok (extend_circuit [] (system_items others) ++ shared_airs s).
Proof.
  unfold periphery_airs, shared_airs. pose proof (system_kind KBitwise others) as B. pose proof (system_kind KTuple others) as T. pose proof (system_kind KRange others) as G. pose proof (ranges_system others) as L.
  set (sys := extend_circuit [] (system_items others)) in *. clearbody sys. cbn in B, T, G. rewrite B, andb_false_r.
  destruct (p_bitwise s), (p_tuple s); cbn [is_some andb app]; rewrite ?find_air_app, ?filter_app, ?T, ?G, ?L; cbn; rewrite <- ?app_assoc, ?app_nil_r; destruct b; rewrite ?find_air_app, ?filter_app, ?T, ?G, ?L; cbn; rewrite ?find_air_app, ?filter_app, ?T, ?G, ?L; reflexivity.
Qed.
Lemma periphery_chips_ok s inv : find_chip KBitwise inv = None -> find_chip KTuple inv = None -> find_chip KRange inv <> None -> periphery_chips s inv = Ok (inv ++ shared_chips s).
Proof.
  intros B T G. unfold periphery_chips, shared_chips. rewrite B, andb_false_r. destruct (find_chip KRange inv) as [g|] eqn:Eg; [|now destruct G].
  destruct (p_bitwise s) as [lb|], (p_tuple s) as [lt|]; cbn [is_some andb app]; rewrite ?find_chip_app, ?T, ?Eg; cbn [find_chip kind_eqb is_some]; rewrite ?find_chip_app, ?T, ?Eg; cbn [find_chip kind_eqb is_some]; rewrite ?Eg; cbn [is_some]; rewrite <- ?app_assoc, ?app_nil_r; reflexivity.
Qed.
Lemma created (P : loc -> Prop) b c s h : (forall l, h_next h <= l -> P l) -> (forall l, p_bitwise s = Some l -> P l) -> (forall l, p_tuple s = Some l -> P l) ->
  exists airs inv h', create_dummy_airs b c s = Ok airs /\ create_dummy_chips c airs s h = Ok (inv, h') /\ map air_of inv = airs /\ Forall (chip_in P) inv /\ keeps P h h' /\
    (p_bitwise s <> None -> p_tuple s <> None -> h_next h' = S (h_next h)).
Proof.
  intros Pn Pb Pt. rewrite create_dummy_airs_items, periphery_airs_ok. cbn [and_then]. set (sys := extend_circuit [] (system_items (c_system c))).
  exists (extend_circuit (sys ++ shared_airs s) (items c)). destruct (extend_circuit_prefix (items c) (sys ++ shared_airs s)) as (r & Er).
  destruct (extend_prover_ok P (extend_circuit (sys ++ shared_airs s) (items c)) (system_items (c_system c)) [] h (shared_airs s ++ r) Pn) as (inv1 & h1 & E1 & M1 & I1 & K1 & _); [constructor|rewrite Er, <- app_assoc; reflexivity|].
  cbn [app] in E1, M1, I1. cbn [map] in M1.
  assert (FK : forall k, is_some (find_chip k inv1) = kind_eqb k KRange) by (intros k; rewrite <- find_agrees, M1; apply system_kind).
  assert (B : find_chip KBitwise inv1 = None) by (specialize (FK KBitwise); destruct (find_chip KBitwise inv1); [discriminate|reflexivity]).
  assert (T : find_chip KTuple inv1 = None) by (specialize (FK KTuple); destruct (find_chip KTuple inv1); [discriminate|reflexivity]).
  assert (G : find_chip KRange inv1 <> None) by (specialize (FK KRange); destruct (find_chip KRange inv1); [discriminate|discriminate FK]).
  assert (Pn1 : forall l, h_next h1 <= l -> P l) by (intros l Hl; apply Pn; destruct K1; lia).
  assert (I2 : Forall (chip_in P) (inv1 ++ shared_chips s)).
  { apply Forall_app. split; [exact I1|]. unfold shared_chips. apply Forall_app. split; [destruct (p_bitwise s) as [l|]|destruct (p_tuple s) as [l|]]; repeat constructor; cbn; auto. }
  assert (M2 : map air_of (inv1 ++ shared_chips s) = sys ++ shared_airs s) by (now rewrite map_app, M1, shared_air_of).
  destruct (extend_prover_ok P (extend_circuit (sys ++ shared_airs s) (items c)) (items c) (inv1 ++ shared_chips s) h1 [] Pn1 I2) as (more & h' & E & M & I & K & S); [rewrite M2; now rewrite app_nil_r|].
  exists ((inv1 ++ shared_chips s) ++ more), h'. split; [reflexivity|]. split.
  - rewrite create_dummy_chips_items, E1. cbn [and_then fst snd]. rewrite (periphery_chips_ok s inv1 B T G). cbn [and_then]. exact E.
  - split; [now rewrite M, M2|]. split; [exact I|]. split; [exact (keeps_trans _ _ _ _ K1 K)|].
    intros Nb Nt. rewrite S; [exact (system_alloc _ _ _ _ E1)|]. intros k. rewrite find_chip_app. unfold shared_chips. destruct k.
    + now destruct (find_chip KRange inv1).
    + rewrite B. destruct (p_bitwise s); [discriminate|now destruct Nb].
    + rewrite T. destruct (p_bitwise s), (p_tuple s); cbn; congruence.
Qed.

(** ** Running chips *)
Section Run.
  Context {R : Type}.
  Variable requests : text -> R -> list (kind * bin).
  Lemma keeps_up (P : loc -> Prop) l b h : P l -> keeps P h (count_up l b h).
  Proof.
    intros Hp. split; [cbn; lia|]. intros l' Hl b'. cbn. destruct (Nat.eqb_spec l' l) as [-> |]; [now destruct Hl|reflexivity].
  Qed.
  Lemma keeps_reset (P : loc -> Prop) l h : P l -> keeps P h (count_reset l h).
  Proof. intros Hp. split; [cbn; lia|]. intros l' Hl b'. cbn. destruct (Nat.eqb_spec l' l) as [-> |]; [now destruct Hl|reflexivity]. Qed.
  Lemma keeps_run (P : loc -> Prop) c r h : chip_in P c -> keeps P h (run_chip requests c r h).
  Proof.
    destruct c as [k l|n u]; cbn [run_chip chip_in]; intros Hc; [now apply keeps_reset|].
    generalize (requests n r). intros q. revert h. induction q as [|[k b] q IH]; intros h; [apply keeps_refl|]. cbn [fold_left fst snd]. eapply keeps_trans; [|apply IH].
    clear IH. induction Hc as [|[k' l] u Hl Hu IHu]; cbn; [apply keeps_refl|]. destruct (kind_eqb k k'); [now apply keeps_up|exact IHu].
  Qed.
  Lemma next_request u k b h : h_next (request u k b h) = h_next h.
  Proof. induction u as [|[k' l] u IH]; cbn; [reflexivity|]. now destruct (kind_eqb k k'). Qed.
  Lemma next_run c r h : h_next (run_chip requests c r h) = h_next h.
  Proof.
    destruct c as [k l|n u]; cbn [run_chip]; [reflexivity|]. generalize (requests n r). intros q. revert h. induction q as [|[k b] q IH]; intros h; [reflexivity|]. cbn [fold_left]. rewrite IH. apply next_request.
  Qed.
  Lemma take_arena_some name : forall arenas x rest, NoDup (map fst arenas) -> take_arena (R := R) name arenas = Some (x, rest) ->
    In (name, x) arenas /\ NoDup (map fst rest) /\ (forall n y, In (n, y) rest <-> In (n, y) arenas /\ n <> name).
  Proof.
    induction arenas as [|[n r] arenas IH]; intros x rest Nd; cbn; [discriminate|]. inversion Nd as [|? ? Hn Nd']; subst.
    destruct (list_eq_dec N.eq_dec n name) as [-> |Hne].
    - intros [= <- <-]. split; [now left|]. split; [exact Nd'|]. intros n y. split.
      + intros H. split; [now right|]. intros ->. apply Hn. apply in_map_iff. now exists (name, y).
      + intros [[[= -> ->]|H] Hx]; [now destruct Hx|exact H].
    - destruct (take_arena name arenas) as [[x' rest']|] eqn:E; [|discriminate]. intros [= <- <-]. destruct (IH _ _ Nd' eq_refl) as (A & B & C).
      split; [now right|]. split.
      + cbn. constructor; [|exact B]. intros H. apply in_map_iff in H. destruct H as ([n' y] & <- & H). apply C in H. apply Hn. apply in_map_iff. exists (n', y). tauto.
      + intros n' y. cbn. rewrite C. split; [intros [[= <- <-]|[H H']]; [split; [now left|exact Hne]|split; [now right|exact H']]|intros [[[= <- <-]|H] H']; [now left|right; tauto]].
  Qed.
  Lemma take_arena_none name : forall arenas, take_arena (R := R) name arenas = None -> forall x, ~ In (name, x) arenas.
  Proof.
    induction arenas as [|[n r] arenas IH]; cbn; [auto|]. destruct (list_eq_dec N.eq_dec n name) as [-> |Hne]; [discriminate|].
    destruct (take_arena name arenas) as [[]|]; [discriminate|]. intros _ x [[= -> _]|H]; [now destruct Hne|now apply (IH eq_refl x)].
  Qed.
  Lemma same_arena (arenas : list (text * R)) name x r : NoDup (map fst arenas) -> In (name, x) arenas -> In (name, r) arenas -> x = r.
  Proof.
    induction arenas as [|[n y] arenas IH]; intros Nd A H; [destruct A|]. inversion Nd as [|? ? Hn Nd']; subst. cbn in A, H.
    assert (Out : forall z, In (n, z) arenas -> False) by (intros z Hz; apply Hn; apply in_map_iff; now exists (n, z)).
    destruct A as [A|A]; destruct H as [H|H]; [congruence| | |now apply IH].
    - injection A as -> ->. now destruct (Out _ H).
    - injection H as -> ->. now destruct (Out _ A).
  Qed.
  Lemma last_named_snoc pre c name c' : last_named (pre ++ [c]) name c' <-> (air_name (air_of c) = name /\ c' = c) \/ (air_name (air_of c) <> name /\ last_named pre name c').
  Proof.
    split.
    - intros (before & after & E & Hn & Ha). destruct (list_eq_dec N.eq_dec (air_name (air_of c)) name) as [En|En].
      + left. split; [exact En|]. destruct after as [|x after] using rev_ind.
        * apply app_inj_tail in E. now destruct E.
        * clear IHafter. rewrite app_comm_cons, app_assoc in E. apply app_inj_tail in E. destruct E as [_ <-]. apply Forall_app in Ha. destruct Ha as [_ Ha]. inversion Ha; subst. contradiction.
      + right. split; [exact En|]. destruct after as [|x after] using rev_ind.
        * apply app_inj_tail in E. destruct E as [_ <-]. contradiction.
        * clear IHafter. rewrite app_comm_cons, app_assoc in E. apply app_inj_tail in E. destruct E as [-> _]. exists before, after. split; [reflexivity|]. split; [exact Hn|]. apply Forall_app in Ha. tauto.
    - intros [[En ->]|[En (before & after & -> & Hn & Ha)]].
      + exists pre, []. split; [reflexivity|]. split; [exact En|constructor].
      + exists before, (after ++ [c]). split; [now rewrite <- app_assoc|]. split; [exact Hn|]. apply Forall_app. split; [exact Ha|]. constructor; [exact En|constructor].
  Qed.
  Lemma run_dummies_ok (P : loc -> Prop) : forall pre suf arenas h, Forall (chip_in P) pre -> NoDup (map fst arenas) ->
    exists out h', run_dummies requests (map air_of (pre ++ suf)) (pre ++ suf) (rev (seq 0 (List.length pre))) arenas h = Some (out, h') /\ keeps P h h' /\ h_next h' = h_next h /\
      (forall name c r, In (name, (c, r)) out <-> In (name, r) arenas /\ last_named pre name c).
  Proof.
    induction pre as [|c pre IH] using rev_ind; intros suf arenas h Hc Nd.
    - exists [], h. split; [reflexivity|]. split; [apply keeps_refl|]. split; [reflexivity|]. intros name c r. split; [intros []|]. intros [_ (before & after & E & _)]. now destruct before.
    - apply Forall_app in Hc. destruct Hc as [Hp Hc]. inversion Hc as [|? ? Hc' _]; subst. rewrite app_length. cbn [List.length]. rewrite Nat.add_1_r, seq_S, rev_app_distr. cbn [rev app Nat.add run_dummies].
      assert (N1 : nth_error ((pre ++ [c]) ++ suf) (List.length pre) = Some c) by (rewrite <- app_assoc, nth_error_app2, Nat.sub_diag by lia; reflexivity).
      rewrite N1, (map_nth_error air_of _ _ N1). rewrite <- app_assoc. cbn [app].
      destruct (take_arena (air_name (air_of c)) arenas) as [[x rest]|] eqn:Et.
      + destruct (take_arena_some _ _ _ _ Nd Et) as (A & B & C). destruct (IH (c :: suf) rest (run_chip requests c x h) Hp B) as (out & h' & E & K & Nx & O).
        rewrite E. exists ((air_name (air_of c), (c, x)) :: out), h'. split; [reflexivity|]. split; [exact (keeps_trans _ _ _ _ (keeps_run P c x h Hc') K)|]. split; [now rewrite Nx, next_run|].
        intros name c' r. cbn [In]. rewrite O, C, last_named_snoc. split.
        * intros [[= <- <- <-]|[[H Hn] L]]; [split; [exact A|left; auto]|]. split; [exact H|]. right. split; [congruence|exact L].
        * intros [H [[<- ->]|[Hn L]]]; [|right; split; [split; [exact H|congruence]|exact L]]. left.
          assert (x = r); [|now subst]. exact (same_arena _ _ _ _ Nd A H).
      + destruct (IH (c :: suf) arenas h Hp Nd) as (out & h' & E & K & Nx & O). rewrite E. exists out, h'. split; [reflexivity|]. split; [exact K|]. split; [exact Nx|].
        intros name c' r. rewrite O, last_named_snoc. split.
        * intros [H L]. split; [exact H|]. right. split; [|exact L]. intros En. rewrite <- En in H. exact (take_arena_none _ _ Et _ H).
        * intros [H [[<- ->]|[_ L]]]; [|tauto]. exfalso. exact (take_arena_none _ _ Et _ H).
  Qed.
End Run.

(** ** Applying lookups *)
Definition real_loc (s : periphery) (k : kind) : option loc := match k with KRange => Some (p_range s) | KBitwise => p_bitwise s | KTuple => p_tuple s end.
Lemma apply_bin_real s h b : apply_bin s h b = option_map (fun l => count_up l b h) (real_loc s (kind_of b)).
Proof. now destruct b. Qed.
Definition goes (s : periphery) (b : bin) (l : loc) : bool := match real_loc s (kind_of b) with Some l' => l' =? l | None => false end.
Lemma apply_bins_count s : forall bins h h', apply_bins s h bins = Some h' -> h_next h' = h_next h /\
  forall l b, h_count h' l b = h_count h l b + if goes s b l then count_occ bin_eq_dec bins b else 0.
Proof.
  induction bins as [|x bins IH]; intros h h'; cbn [apply_bins]; [intros [= <-]; split; [reflexivity|]; intros l b; destruct (goes s b l); cbn; lia|].
  rewrite apply_bin_real. destruct (real_loc s (kind_of x)) as [lx|] eqn:Ex; cbn [option_map]; [|discriminate]. intros H. apply IH in H. destruct H as [Nx H]. split; [exact Nx|].
  intros l b. rewrite H. cbn [count_up h_count count_occ]. unfold goes. destruct (bin_eq_dec b x) as [-> |Hne].
  - rewrite Ex. destruct (bin_eq_dec x x) as [_|X]; [|now destruct X]. rewrite (Nat.eqb_sym l lx). destruct (lx =? l); cbn; lia.
  - destruct (bin_eq_dec x b) as [-> |_]; [now destruct Hne|]. rewrite andb_false_r. destruct (real_loc s (kind_of b)) as [lb|]; [destruct (lb =? l)|]; lia.
Qed.
Lemma count_occ_app' (a b : list bin) x : count_occ bin_eq_dec (a ++ b) x = count_occ bin_eq_dec a x + count_occ bin_eq_dec b x.
Proof. apply count_occ_app. Qed.
Lemma apply_all_count ch s : forall effects h h', apply_all ch s h effects = Some h' -> h_next h' = h_next h /\
  forall l b, h_count h' l b = h_count h l b + if goes s b l then count_occ bin_eq_dec (lookups ch effects) b else 0.
Proof.
  induction effects as [|[[id m] args] effects IH]; intros h h'; cbn [apply_all]; [intros [= <-]; split; [reflexivity|]; intros l b; destruct (goes s b l); cbn; lia|].
  destruct (apply_bus ch id m args) as [bins|] eqn:E; [|discriminate]. destruct (apply_bins s h bins) as [h1|] eqn:E1; [|discriminate]. intros H. apply IH in H. apply apply_bins_count in E1.
  destruct H as [N1 H], E1 as [N2 E1]. split; [congruence|]. intros l b. rewrite H, E1. unfold lookups. cbn [flat_map fst snd]. rewrite E, count_occ_app'. destruct (goes s b l); lia.
Qed.
