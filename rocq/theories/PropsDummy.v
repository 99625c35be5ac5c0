(** C66: generating the trace of a precompile changes the lookup counters of the VM by the lookups of its rows, and by nothing else. *)
From Coq Require Import Arith NArith Bool List Ascii String Lia.
From Verif Require Import NumModel JsonModel AirModel CudaModel DummyModel DummySpec DummyFacts.
Import ListNotations.
Local Open Scope list_scope.

(** The private locations: those of the dummy periphery and those that did not exist when it was created. *)
Definition private (pair : instances) (h1 : heap) (l : loc) : Prop := p_bitwise (i_dummy pair) = Some l \/ p_tuple (i_dummy pair) = Some l \/ h_next h1 <= l.
Lemma instances_made inv h pair h1 : prover_instances inv h = Some (pair, h1) ->
  h_next h <= h_next h1 /\ (forall k, real_loc (i_real pair) k = find_chip k inv) /\ (forall l, l < h_next h -> ~ private pair h1 l /\ forall b, h_count h1 l b = h_count h l b) /\
  (is_some (p_bitwise (i_dummy pair)) = is_some (find_chip KBitwise inv) /\ is_some (p_tuple (i_dummy pair)) = is_some (find_chip KTuple inv)).
Proof.
  unfold prover_instances. destruct (find_chip KRange inv) as [g|] eqn:G; [|discriminate]. unfold new_instances, new_like, private.
  destruct (find_chip KBitwise inv) as [bl|] eqn:B, (find_chip KTuple inv) as [tl|] eqn:T; cbn; intros [= <- <-]; cbn;
    (split; [lia|]; split; [intros []; cbn; congruence|]; split; [|tauto]; intros l Hl; split; [intros [X|[X|X]]; try (injection X as X); try discriminate; lia|intros b]).
  - destruct (Nat.eqb_spec l (S (h_next h))); [lia|]. destruct (Nat.eqb_spec l (h_next h)); [lia|reflexivity].
  - destruct (Nat.eqb_spec l (h_next h)); [lia|reflexivity].
  - destruct (Nat.eqb_spec l (h_next h)); [lia|reflexivity].
  - reflexivity.
Qed.

(** The dummy AIRs and chips can be created for every configuration, and correspond to each other one by one: no assertion
    fails, and the name that is read at the position of a chip is the name of its AIR. *)
Theorem C66_created : forall (b : backend) (c : config) (s : periphery) (h : heap),
  exists airs inv h', create_dummy_airs b c s = Ok airs /\ create_dummy_chips c airs s h = Ok (inv, h') /\ map air_of inv = airs.
Proof.
  intros b c s h. destruct (created (fun _ => True) b c s h) as (airs & inv & h' & A & C & M & _); auto. now exists airs, inv, h'.
Qed.
Print Assumptions C66_created.

(** One generation, relative to the heap in which the instances were created. *)
Lemma generate_one {R} (requests : text -> R -> list (kind * bin)) b c ch pair h1 arenas replayed h :
  h_next h1 <= h_next h -> NoDup (map fst arenas) ->
  exists airs inv h2 out h3, create_dummy_airs b c (i_dummy pair) = Ok airs /\ create_dummy_chips c airs (i_dummy pair) h = Ok (inv, h2) /\ map air_of inv = airs /\
    generate_witness requests b c ch pair arenas replayed h = match apply_all ch (i_real pair) h3 (replayed out) with Some h' => Some (out, h') | None => None end /\
    keeps (private pair h1) h h3 /\ h_next h3 = h_next h2 /\ (forall name x r, In (name, (x, r)) out <-> In (name, r) arenas /\ last_named inv name x) /\
    (p_bitwise (i_dummy pair) <> None -> p_tuple (i_dummy pair) <> None -> h_next h3 = S (h_next h)).
Proof.
  intros Hn Nd. destruct (created (private pair h1) b c (i_dummy pair) h) as (airs & inv & h2 & A & C & M & I & K & Sz).
  - intros l Hl. right. right. lia.
  - intros l Hl. now left.
  - intros l Hl. right. now left.
  - destruct (run_dummies_ok requests (private pair h1) inv [] arenas h2 I Nd) as (out & h3 & E & K3 & N3 & O). rewrite app_nil_r in E.
    exists airs, inv, h2, out, h3. split; [exact A|]. split; [exact C|]. split; [exact M|]. split.
    + unfold generate_witness. rewrite A, C, <- M, E. reflexivity.
    + split; [exact (keeps_trans _ _ _ _ K K3)|]. split; [exact N3|]. split; [exact O|]. intros X Y. rewrite N3. now apply Sz.
Qed.

(** The trace of every original AIR is generated by its chip (the last one of the name) from the records of its arena. *)
Theorem C66_traces : forall (R : Type) (requests : text -> R -> list (kind * bin)) b c ch pair arenas replayed h out h',
  generate_witness requests b c ch pair arenas replayed h = Some (out, h') -> NoDup (map fst arenas) ->
  exists airs inv h2, create_dummy_airs b c (i_dummy pair) = Ok airs /\ create_dummy_chips c airs (i_dummy pair) h = Ok (inv, h2) /\
    forall name x records, In (name, (x, records)) out <-> In (name, records) arenas /\ last_named inv name x.
Proof.
  intros R requests b c ch pair arenas replayed h out h' H Nd. destruct (generate_one requests b c ch pair h arenas replayed h (le_n _) Nd) as (airs & inv & h2 & out' & h3 & A & C & _ & E & _ & _ & O & _).
  rewrite E in H. destruct (apply_all _ _ _ _); [|discriminate]. injection H as <- _. now exists airs, inv, h2.
Qed.
Print Assumptions C66_traces.

(** Over all generations of all precompiles, a counter that existed before grows by the number of lookups of the rows of
    precompiles, if it belongs to the chip of the VM for these lookups, and does not change otherwise: whatever the dummy chips count. *)
Theorem C66_counts : forall (R : Type) (requests : text -> R -> list (kind * bin)) b c ch inv h pair h1 calls outs h',
  prover_instances inv h = Some (pair, h1) -> generate_all requests b c ch pair calls h1 = Some (outs, h') ->
  Forall (fun call => NoDup (map fst (fst call))) calls ->
  forall l x, l < h_next h ->
    (find_chip (kind_of x) inv = Some l -> h_count h' l x = h_count h l x + count_occ bin_eq_dec (flat_map (fun co => lookups ch (snd (fst co) (snd co))) (combine calls outs)) x) /\
    (find_chip (kind_of x) inv <> Some l -> h_count h' l x = h_count h l x).
Proof.
  intros R requests b c ch inv h pair h1 calls outs h' Hp Hg Hn l x Hl. destruct (instances_made _ _ _ _ Hp) as (_ & Real & Old & _). destruct (Old l Hl) as [NP C1].
  assert (G : forall g gouts, h_next h1 <= h_next g -> generate_all requests b c ch pair calls g = Some (gouts, h') ->
    h_count h' l x = h_count g l x + if goes (i_real pair) x l then count_occ bin_eq_dec (flat_map (fun co => lookups ch (snd (fst co) (snd co))) (combine calls gouts)) x else 0).
  { clear Hg C1 outs. induction Hn as [|[arenas replayed] calls Nd Hn IH]; intros g gouts Hgn; cbn [generate_all].
    - intros [= <- <-]. cbn. destruct (goes _ _ _); lia.
    - cbn [fst] in Nd. destruct (generate_one requests b c ch pair h1 arenas replayed g Hgn Nd) as (airs & dinv & h2 & out & h3 & _ & _ & _ & E & K & _ & _ & _). rewrite E.
      destruct (apply_all ch (i_real pair) h3 (replayed out)) as [h4|] eqn:E4; [|discriminate]. destruct (generate_all requests b c ch pair calls h4) as [[outs h5]|] eqn:E5; [|discriminate]. intros [= <- <-].
      apply apply_all_count in E4. destruct E4 as [N4 C4]. destruct K as [K1 K2].
      rewrite (IH h4 outs) by (try (rewrite N4; lia); exact E5). rewrite C4, (K2 l NP). cbn [combine flat_map fst snd]. rewrite count_occ_app. destruct (goes _ _ _); lia. }
  specialize (G h1 outs (le_n _) Hg). rewrite C1 in G. unfold goes in G. rewrite Real in G. split.
  - intros F. rewrite F, Nat.eqb_refl in G. exact G.
  - intros F. destruct (find_chip (kind_of x) inv) as [lx|]; [|lia]. destruct (Nat.eqb_spec lx l) as [E|]; [destruct F; now rewrite E|lia].
Qed.
Print Assumptions C66_counts.

(** A generation fails only if a lookup is not one of the chip of its bus. *)
Theorem C66_total : forall (R : Type) (requests : text -> R -> list (kind * bin)) b c ch inv h pair h1 arenas replayed g,
  prover_instances inv h = Some (pair, h1) -> buses_of ch inv -> NoDup (map fst arenas) ->
  (forall out id mult args, In (id, mult, args) (replayed out) -> apply_bus ch id mult args <> None) ->
  generate_witness requests b c ch pair arenas replayed g <> None.
Proof.
  intros R requests b c ch inv h pair h1 arenas replayed g Hp [Bb Bt] Nd Ok_. destruct (instances_made _ _ _ _ Hp) as (_ & Real & _ & _).
  destruct (generate_one requests b c ch pair g arenas replayed g (le_n _) Nd) as (airs & dinv & h2 & out & h3 & _ & _ & _ & E & _). rewrite E. clear E.
  enough (X : forall effects h3, (forall id mult args, In (id, mult, args) effects -> apply_bus ch id mult args <> None) -> apply_all ch (i_real pair) h3 effects <> None).
  { specialize (X (replayed out) h3 (Ok_ out)). destruct (apply_all _ _ _ _); [discriminate|now destruct X]. }
  assert (Kinds : forall id mult args bins x, apply_bus ch id mult args = Some bins -> In x bins -> find_chip (kind_of x) inv <> None).
  { assert (Rg : find_chip KRange inv <> None) by (unfold prover_instances in Hp; destruct (find_chip KRange inv); discriminate).
    intros id mult args bins x. unfold apply_bus, times. destruct (is_id (ch_bit ch) (id mod 2 ^ 16)) eqn:I1.
    - destruct args as [|a [|a0 [|a1 [|a2 args]]]]; try discriminate. destruct (mult =? 0)%N; [intros [= <-] []|].
      assert (Y : forall s, option_map (fun b => repeat b (N.to_nat mult)) (bit_bin ch s a a0) = Some bins -> In x bins -> find_chip (kind_of x) inv <> None).
      { intros s. unfold bit_bin. destruct (ch_operands ch a a0); cbn; [|discriminate]. intros [= <-] Hin. apply repeat_spec in Hin. subst x. cbn. apply Bb. destruct (ch_bit ch); [discriminate|discriminate I1]. }
      destruct (a2 =? 0)%N; [apply Y|]. destruct (a2 =? 1)%N; [|discriminate]. destruct (N.lxor a a0 =? a1)%N; [apply Y|discriminate].
    - destruct (ch_range ch =? id mod 2 ^ 16)%N.
      + destruct args as [|a [|a0 args]]; try discriminate. destruct (mult =? 0)%N; [intros [= <-] []|]. unfold range_bin. destruct ((a0 <? 64)%N && _); cbn; [|discriminate].
        intros [= <-] Hin. apply repeat_spec in Hin. subst x. exact Rg.
      + destruct (is_id (ch_tuple ch) (id mod 2 ^ 16)) eqn:I2.
        * destruct (mult =? 0)%N; [intros [= <-] []|]. unfold tuple_bin. destruct args as [|a [|a0 [|]]]; try discriminate. destruct (_ <? _)%N; cbn; [|discriminate].
          intros [= <-] Hin. apply repeat_spec in Hin. subst x. cbn. apply Bt. destruct (ch_tuple ch); [discriminate|discriminate I2].
        * destruct (_ <=? 2)%N; [|discriminate]. intros [= <-] []. }
  induction effects as [|[[id mult] args] effects IH]; intros h0 Ha; cbn [apply_all]; [discriminate|].
  destruct (apply_bus ch id mult args) as [bins|] eqn:Eb; [|now destruct (Ha id mult args (or_introl eq_refl))].
  assert (Ab : forall l h0, (forall x, In x l -> In x bins) -> exists h4, apply_bins (i_real pair) h0 l = Some h4).
  { induction l as [|y l IHl]; intros h4 Hin; cbn [apply_bins]; [now exists h4|]. rewrite apply_bin_real, Real.
    pose proof (Kinds _ _ _ _ y Eb (Hin y (or_introl eq_refl))) as Ky. destruct (find_chip (kind_of y) inv); [cbn [option_map]|now destruct Ky]. apply IHl. intros z Hz. apply Hin. now right. }
  destruct (Ab bins h0 (fun x H => H)) as (h4 & ->). apply IH. intros id' mult' args' Hin. apply (Ha id' mult' args'). now right.
Qed.
Print Assumptions C66_total.

(** If the VM has all chips of the periphery, a generation creates one chip of the periphery: the range checker of the system. *)
Theorem C66_footprint : forall (R : Type) (requests : text -> R -> list (kind * bin)) b c ch inv h pair h1 arenas replayed g out g',
  prover_instances inv h = Some (pair, h1) -> find_chip KBitwise inv <> None -> find_chip KTuple inv <> None -> NoDup (map fst arenas) ->
  generate_witness requests b c ch pair arenas replayed g = Some (out, g') -> h_next g' = S (h_next g).
Proof.
  intros R requests b c ch inv h pair h1 arenas replayed g out g' Hp Hb Ht Nd H. destruct (instances_made _ _ _ _ Hp) as (_ & _ & _ & Db & Dt).
  destruct (generate_one requests b c ch pair g arenas replayed g (le_n _) Nd) as (airs & dinv & h2 & out' & h3 & _ & _ & _ & E & _ & _ & _ & Sz). rewrite E in H.
  destruct (apply_all ch (i_real pair) h3 (replayed out')) as [h4|] eqn:E4; [|discriminate]. injection H as _ <-. apply apply_all_count in E4. destruct E4 as [-> _]. apply Sz.
  - destruct (p_bitwise (i_dummy pair)); [discriminate|]. destruct (find_chip KBitwise inv); [discriminate|]. now destruct Hb.
  - destruct (p_tuple (i_dummy pair)); [discriminate|]. destruct (find_chip KTuple inv); [discriminate|]. now destruct Ht.
Qed.
Print Assumptions C66_footprint.

(** The range checker among the dummies is not used: it is the one of the VM, and the dummy chips use that of the dummy system. *)
Theorem C66_range_checker_refuted : forall b c s h l airs inv h' name uses,
  l < h_next h -> p_bitwise s <> Some l -> p_tuple s <> Some l -> p_range s = l ->
  create_dummy_airs b c s = Ok airs -> create_dummy_chips c airs s h = Ok (inv, h') ->
  ~ In (CPeriphery KRange l) inv /\ (In (COther name uses) inv -> ~ In (KRange, l) uses).
Proof.
  intros b c s h l airs inv h' name uses Hl Nb Nt _ A C. destruct (created (fun x => x <> l) b c s h) as (airs' & inv' & h2 & A' & C' & _ & I & _).
  - intros x Hx. lia.
  - intros x Hx ->. contradiction.
  - intros x Hx ->. contradiction.
  - rewrite A in A'. injection A' as <-. rewrite C in C'. injection C' as <- <-. rewrite Forall_forall in I. split.
    + intros H. now apply (I _ H).
    + intros H Hu. apply I in H. cbn in H. rewrite Forall_forall in H. now apply (H _ Hu).
Qed.
Print Assumptions C66_range_checker_refuted.

(** ** Examples *)
Definition example_config : config :=
  mkConfig [txt "Poseidon2"] (Some [Needs KBitwise; Adds (txt "BaseAlu"); Adds (txt "LessThan")]) (Some [Adds (txt "HintStore")]) None None
    (Some [Needs KTuple; Adds (txt "Multiplication")]) None None None None None None.
(** A VM with all chips: locations 0, 1 and 2; two precompiles are generated, whose dummy chips count a lot. *)
Definition example_inventory : list chip := [CPeriphery KRange 0; CPeriphery KBitwise 1; COther (txt "BaseAlu") [(KRange, 0); (KBitwise, 1)]; CPeriphery KTuple 2].
Definition example_heap : heap := mkHeap 3 (fun l b => match b with BRange i => if (l =? 0) && (i =? 7)%N then 5 else 0 | _ => 0 end).
Definition example_chips : chips := mkChips 3 (Some 6%N) (Some 8%N) 1024 256 256 (fun x y => (x <? 256)%N && (y <? 256)%N).
Definition example_requests (name : text) (n : nat) : list (kind * bin) := repeat (KRange, BRange 7) n ++ repeat (KBitwise, BBit 0 1 2) n.
Definition example_calls : list (list (text * nat) * (list (text * (chip * nat)) -> list (N * N * list N))) :=
  [([(txt "BaseAlu", 10); (txt "LessThan", 3)], fun _ => [(3%N, 2%N, [0; 3]%N); (6%N, 1%N, [1; 2; 0; 0]%N); (1%N, 1%N, [])]);
   ([(txt "Multiplication", 4)], fun _ => [(3%N, 1%N, [0; 3]%N); (8%N, 1%N, [1; 2]%N)])].
Definition example_run := match prover_instances example_inventory example_heap with
  | Some (pr, h1) => match generate_all example_requests Cpu example_config example_chips pr example_calls h1 with Some (outs, h') => Some (pr, h1, outs, h') | None => None end
  | None => None end.
Definition example_checks (r : option (instances * heap * list (list (text * (chip * nat))) * heap)) : bool :=
  match r with
  | Some (pr, h1, outs, h') =>
    (h_count h' 0 (BRange 7) =? 8) && (h_count h' 1 (BBit 0 1 2) =? 1) && (h_count h' 2 (BTuple 258) =? 1) && (h_next h' =? 7) && (h_count h' 3 (BBit 0 1 2) =? 17) && (List.length (List.concat outs) =? 3)
  | None => false
  end.
Example C66_counts_example : example_checks example_run = true.
Proof. vm_compute. reflexivity. Qed.
Example C66_hypotheses_example : existing example_inventory example_heap /\ buses_of example_chips example_inventory /\ Forall (fun call => NoDup (map fst (fst call))) example_calls /\
  (forall call, In call example_calls -> forall out id mult args, In (id, mult, args) (snd call out) -> apply_bus example_chips id mult args <> None).
Proof.
  split; [|split; [|split]].
  - intros k l. cbn. intros [[= _ <-]|[[= _ <-]|[H|[[= _ <-]|[]]]]]; try lia. discriminate.
  - split; discriminate.
  - repeat constructor; cbn; intuition discriminate.
  - intros call [<-|[<-|[]]] out id mult args; cbn; intros H; repeat (destruct H as [[= <- <- <-]|H]; [vm_compute; discriminate|]); destruct H.
Qed.
