(** Theorems about empirical constraints: C38. *)
From Coq Require Import Arith NArith Bool List Lia ZifyBool ZifyNat ZifyN Permutation.
From Verif Require Import PartModel PartSpec PartFacts BlocksModel EmpModel EmpSpec EmpFacts.
Import ListNotations.

(** ** Combining *)
(** Combining never fails; rows and block executions consistent with what one side knows about
    them are consistent with the combination. *)
Theorem C38_combine_weakens : forall (ord : list (cell * nat) -> list (cell * nat)) (gord : list (list cell) -> list (list cell)),
  (forall l, Permutation (ord l) l) -> (forall l, Permutation (gord l) l) -> forall a b, emp_ok a -> emp_ok b ->
  exists e, combine_with ord gord a b = Some e /\ emp_ok e /\
    (forall pc row, same_widths a b -> (knows_row a pc /\ row_consistent a pc row) \/ (knows_row b pc /\ row_consistent b pc row) -> knows_row e pc /\ row_consistent e pc row) /\
    (forall pc val, (knows_block a pc /\ block_consistent a pc val) \/ (knows_block b pc /\ block_consistent b pc val) -> knows_block e pc /\ block_consistent e pc val).
Proof.
  intros ord gord Ho Hg a b Ha Hb. destruct (combine_with_ok ord gord Ho Hg a b Ha Hb) as (e & E & He & R & C & _). exists e. split; auto. split; auto. split.
  - intros pc row Hw H. unfold knows_row, row_consistent, same_widths in *. rewrite R. specialize (Hw pc).
    destruct (nm_get pc (column_ranges a)) as [ra|], (nm_get pc (column_ranges b)) as [rb|].
    + split; [congruence|]. intros rs [= <-] i lo hi v Hi Hv. rewrite widen_nth in Hi. specialize (Hw _ _ eq_refl eq_refl).
      destruct (nth_error ra i) as [[la ha]|] eqn:Ea, (nth_error rb i) as [[lb hb]|] eqn:Eb; try discriminate.
      * injection Hi as <- <-. destruct H as [[_ H]|[_ H]]; specialize (H _ eq_refl i _ _ v ltac:(eassumption) Hv); lia.
      * apply nth_error_None in Eb. assert (nth_error ra i <> None) by congruence. apply nth_error_Some in H0. lia.
    + split; [congruence|]. destruct H as [[_ H]|[H _]]; [exact H|congruence].
    + split; [congruence|]. destruct H as [[H _]|[_ H]]; [congruence|exact H].
    + destruct H as [[H _]|[H _]]; congruence.
  - intros pc val H. unfold knows_block, block_consistent in *. specialize (C pc).
    destruct (nm_get pc (block_classes a)) as [pa|], (nm_get pc (block_classes b)) as [pb|].
    + destruct C as (r & -> & C). split; [congruence|]. intros p [= <-] x y Hxy. destruct (cell_eqb x y) eqn:Exy; [apply cell_eqb_eq in Exy; congruence|]. assert (Hne : x <> y) by (intros X; apply cell_eqb_eq in X; congruence). apply C in Hxy; auto. destruct Hxy as [X Y].
      destruct H as [[_ H]|[_ H]]; eapply H; eauto.
    + rewrite C. split; [congruence|]. destruct H as [[_ H]|[H _]]; [exact H|congruence].
    + rewrite C. split; [congruence|]. destruct H as [[H _]|[_ H]]; [congruence|exact H].
    + destruct H as [[H _]|[H _]]; congruence.
Qed.
(** Exactly what the combination knows: the smallest ranges that contain both, the equalities that
    hold in both, and the sums of the execution counts; what only one side knows is kept. *)
Theorem C38_combine_exact : forall (ord : list (cell * nat) -> list (cell * nat)) (gord : list (list cell) -> list (list cell)),
  (forall l, Permutation (ord l) l) -> (forall l, Permutation (gord l) l) -> forall a b e, emp_ok a -> emp_ok b -> combine_with ord gord a b = Some e ->
  (forall pc, match nm_get pc (column_ranges a), nm_get pc (column_ranges b) with
    | Some ra, Some rb => exists rs, nm_get pc (column_ranges e) = Some rs /\ length rs = length ra /\
        forall i la ha lb hb, nth_error ra i = Some (la, ha) -> nth_error rb i = Some (lb, hb) -> nth_error rs i = Some (N.min la lb, N.max ha hb)
    | ra, rb => nm_get pc (column_ranges e) = match ra with Some r => Some r | None => rb end
    end) /\
  (forall pc, match nm_get pc (block_classes a), nm_get pc (block_classes b) with
    | Some p, Some q => exists r, nm_get pc (block_classes e) = Some r /\ forall x y, x <> y -> (together r x y <-> together p x y /\ together q x y)
    | p, q => nm_get pc (block_classes e) = match p with Some r => Some r | None => q end
    end) /\
  (forall pc, count_of (pc_counts e) pc = (count_of (pc_counts a) pc + count_of (pc_counts b) pc)%N).
Proof.
  intros ord gord Ho Hg a b e Ha Hb E. destruct (combine_with_ok ord gord Ho Hg a b Ha Hb) as (e' & E' & He & R & C & D). rewrite E in E'. injection E' as <-. split; [|split; [|exact D]].
  - intros pc. rewrite R. destruct (nm_get pc (column_ranges a)) as [ra|], (nm_get pc (column_ranges b)) as [rb|]; auto. eexists. split; [reflexivity|]. split.
    + clear. revert rb. induction ra as [|[x y] ra IH]; intros [|[z w] rb]; cbn; auto.
    + intros i la ha lb hb H1 H2. rewrite widen_nth, H1, H2. reflexivity.
  - intros pc. specialize (C pc). destruct (nm_get pc (block_classes a)), (nm_get pc (block_classes b)); auto.
Qed.
(** Without equal widths the first side's surplus columns keep their range: a row consistent with
    the second side is inconsistent with the combination. *)
Theorem C38_widths_refuted : exists a b e pc row,
  emp_ok a /\ emp_ok b /\ combine_with (fun l => l) (fun l => l) a b = Some e /\ knows_row b pc /\ row_consistent b pc row /\ ~ row_consistent e pc row.
Proof.
  exists (mkEmp [(4%N, [(1%N, 1%N); (2%N, 2%N)])] [] []), (mkEmp [(4%N, [(1%N, 3%N)])] [] []). eexists. exists 4%N, [3%N; 9%N].
  split; [repeat split; cbn; auto|]. split; [repeat split; cbn; auto|]. split; [vm_compute; reflexivity|]. split; [cbv; discriminate|]. split.
  - intros rs [= <-] [|[|i]] lo hi v; cbn; [intros [= <- <-] [= <-]; lia|discriminate|destruct i; discriminate].
  - intros H. specialize (H _ eq_refl 1 2%N 2%N 9%N eq_refl eq_refl). lia.
Qed.

(** ** Restricting to frequently executed pcs *)
Theorem C38_threshold : forall t e, emp_ok e -> let e' := apply_pc_threshold t e in
  emp_ok e' /\ pc_counts e' = pc_counts e /\
  (forall pc, nm_get pc (column_ranges e') = if (t <=? count_of (pc_counts e) pc)%N then nm_get pc (column_ranges e) else None) /\
  (forall pc, (pc < 2 ^ 32)%N -> nm_get pc (block_classes e') = if (t <=? count_of (pc_counts e) pc)%N then nm_get pc (block_classes e) else None).
Proof.
  intros t e (A & B & C & D). cbn zeta. unfold apply_pc_threshold, emp_ok. cbn [column_ranges block_classes pc_counts]. split; [|split; auto; split].
  - split; [now apply filter_sorted|]. split; [now apply filter_sorted|]. split; auto. rewrite Forall_forall in *. intros x Hx. apply filter_In in Hx. apply D. tauto.
  - intros pc. rewrite filter_get by auto. cbn [fst]. destruct (nm_get pc (column_ranges e)), (t <=? count_of (pc_counts e) pc)%N; auto.
  - intros pc Hpc. rewrite filter_get by auto. cbn [fst]. unfold as_u32. rewrite N.mod_small by auto. destruct (nm_get pc (block_classes e)), (t <=? count_of (pc_counts e) pc)%N; auto.
Qed.

(** ** The constraints of one block *)
(** For a sequence of basic blocks, each described by the equalities recorded at its start: exactly
    the equalities inside one basic block are kept, shifted to its place in the sequence, and
    exactly the ranges recorded for its pcs. *)
Theorem C38_for_block : forall (ord : list (cell * nat) -> list (cell * nat)), (forall l, Permutation (ord l) l) ->
  forall {I} (step : N) (e : emp) (bs : list (bblock I)), emp_ok e -> bs <> [] ->
  (forall b p c, In b bs -> nm_get (start_pc b) (block_classes e) = Some p -> together p c c -> fst c < length (instrs b)) ->
  (forall pc, In pc (flat_map (bb_pcs step) bs) -> (pc < 2 ^ 32)%N) ->
  exists be, for_block ord step e bs = Some be /\ part_ok (be_classes be) /\ be_pcs be = flat_map (bb_pcs step) bs /\
    (forall pc rs, nm_get pc (be_ranges be) = Some rs <-> In pc (flat_map (bb_pcs step) bs) /\ exists rs0, nm_get pc (column_ranges e) = Some rs0 /\ rs = enumerate rs0) /\
    (forall u v, together (be_classes be) u v <-> exists before b after p o, bs = before ++ b :: after /\ o = length (flat_map instrs before) /\ nm_get (start_pc b) (block_classes e) = Some p /\
       exists x y, together p x y /\ u = (o + fst x, snd x) /\ v = (o + fst y, snd y)).
Proof.
  intros ord Ho I step e bs He Hne Hin Hpc. destruct (for_block_ok ord Ho step e He bs Hne) as (be & E & P & Q & _ & R & T).
  { unfold cells_inside. apply Forall_forall. intros b Hb x Hx. unfold class_at in Hx. destruct (nm_get (start_pc b) (block_classes e)) as [p|] eqn:E0; [eapply Hin; eauto|]. destruct Hx as (i & [] & _). }
  exists be. split; auto. split; auto. split; auto. split.
  - intros pc rs. rewrite R. split; intros [H1 H2]; (split; [|exact H2]).
    + destruct H1 as (pc' & H1 & ->). unfold as_u32. rewrite N.mod_small; auto.
    + exists pc. split; auto. unfold as_u32. rewrite N.mod_small; auto.
  - intros u v. rewrite T. split.
    + intros (l & b & r & E0 & H1 & H2 & H3). unfold class_at in H3. destruct (nm_get (start_pc b) (block_classes e)) as [p|] eqn:E1; [|destruct H3 as (i & [] & _)]. exists l, b, r, p, (length (flat_map instrs l)). split; auto. split; auto. split; auto.
      eexists. eexists. split; [exact H3|]. cbn [fst snd]. destruct u as [u1 u2], v as [v1 v2]. cbn [fst snd] in *. split; f_equal; lia.
    + intros (l & b & r & p & o & E0 & -> & E1 & x & y & H & -> & ->). exists l, b, r. cbn [fst snd]. split; auto. split; [lia|]. split; [lia|]. unfold class_at. rewrite E1. replace (length (flat_map instrs l) + fst x - length (flat_map instrs l)) with (fst x) by lia. replace (length (flat_map instrs l) + fst y - length (flat_map instrs l)) with (fst y) by lia. destruct x, y. exact H.
Qed.
(** Filtering the constraints of a block, as made by [for_block]: a range is kept exactly if the
    predicate accepts its column at every place where the pc occurs; an equality of two cells is
    kept exactly if the predicate accepts both. *)
Theorem C38_filtered : forall (ord : list (cell * nat) -> list (cell * nat)), (forall l, Permutation (ord l) l) ->
  forall (pred : cell -> bool) (be : bemp), part_ok (be_classes be) ->
  (forall pc rs, nm_get pc (be_ranges be) = Some rs -> exists rs0, rs = enumerate rs0) ->
  exists be', filtered ord pred be = Some be' /\ part_ok (be_classes be') /\ be_pcs be' = be_pcs be /\
    (forall pc, nm_get pc (be_ranges be') = None <-> nm_get pc (be_ranges be) = None) /\
    (forall pc rs rs', nm_get pc (be_ranges be) = Some rs -> nm_get pc (be_ranges be') = Some rs' -> forall col r,
       In (col, r) rs' <-> In (col, r) rs /\ forall i, nth_error (be_pcs be) i = Some pc -> pred (i, col) = true) /\
    (forall x y, x <> y -> (together (be_classes be') x y <-> together (be_classes be) x y /\ pred x = true /\ pred y = true)).
Proof.
  intros ord Ho pred be Hp Hr. destruct (filtered_ok ord (fun l => l) Ho (fun l => Permutation_refl l) pred be Hp) as (be' & E & P & Q & R & T).
  assert (G : forall pc, nm_get pc (be_ranges be') = option_map (fun rs => snd (filter_ranges pred (be_pcs be) (pc, rs))) (nm_get pc (be_ranges be))).
  { intros pc. rewrite R. clear. induction (be_ranges be) as [|[k v] m IH]; cbn [map nm_get]; auto. unfold filter_ranges at 1. cbn [fst]. destruct (N.eqb_spec pc k) as [->|]; [reflexivity|]. exact IH. }
  exists be'. split; auto. split; auto. split; auto. split; [|split; auto].
  - intros pc. rewrite G. destruct (nm_get pc (be_ranges be)); cbn; split; congruence.
  - intros pc rs rs' H1 H2 col r. rewrite G, H1 in H2. cbn [option_map] in H2. injection H2 as <-. destruct (Hr _ _ H1) as [rs0 ->]. fold (filter_ranges pred (be_pcs be) (pc, enumerate rs0)). rewrite in_enumerate. apply filter_ranges_in.
Qed.
(** Filtering twice: the second filter looks at the wrong columns, because the ranges are counted
    instead of looked up. *)
Theorem C38_filtered_twice_refuted : exists (be be1 be2 : bemp) (p1 p2 : cell -> bool),
  part_ok (be_classes be) /\ (forall pc rs, nm_get pc (be_ranges be) = Some rs -> exists rs0, rs = enumerate rs0) /\
  filtered (fun l => l) p1 be = Some be1 /\ filtered (fun l => l) p2 be1 = Some be2 /\
  exists pc rs col r, nth_error (be_pcs be) 0 = Some pc /\ nm_get pc (be_ranges be2) = Some rs /\ In (col, r) rs /\ p2 (0, col) = false.
Proof.
  exists (mkBE [4%N] [(4%N, [(0, (7, 7)%N); (1, (8, 8)%N)])] (mkPart [] 0)). eexists. eexists. exists (fun c => Nat.eqb (snd c) 1), (fun c => Nat.eqb (snd c) 0).
  split; [split; cbn; [constructor|intros x i []|intros i Hi; lia]|]. split; [intros pc rs; cbn; destruct (pc =? 4)%N; [|discriminate]; intros [= <-]; now exists [(7, 7)%N; (8, 8)%N]|]. split; [vm_compute; reflexivity|]. split; [vm_compute; reflexivity|].
  exists 4%N. eexists. exists 1, (8, 8)%N. split; [reflexivity|]. split; [vm_compute; reflexivity|]. split; [now left|reflexivity].
Qed.

(** ** Equations *)
(** The generated equations hold for an assignment exactly if every cell with a single possible
    value has it and all cells that are always equal are equal. *)
Theorem C38_generate : forall (ord : list (cell * nat) -> list (cell * nat)), (forall l, Permutation (ord l) l) ->
  forall {R} (mapper : cell -> option R) (val : R -> N) pcs be, part_ok (be_classes be) ->
  (forall i pc rs col v, nth_error pcs i = Some pc -> nm_get (as_u32 pc) (be_ranges be) = Some rs -> In (col, (v, v)) rs -> mapper (i, col) <> None) ->
  (forall c, together (be_classes be) c c -> mapper c <> None) ->
  exists cs, generate_constraints ord mapper pcs be = Some cs /\
    (Forall (eqc_holds val) cs <->
     (forall i pc rs col v r, nth_error pcs i = Some pc -> nm_get (as_u32 pc) (be_ranges be) = Some rs -> In (col, (v, v)) rs -> mapper (i, col) = Some r -> val r = v) /\
     (forall x y r s, together (be_classes be) x y -> mapper x = Some r -> mapper y = Some s -> val r = val s)).
Proof.
  intros ord Ho R mapper val pcs be Hp H1 H2. destruct (generate_constraints ord mapper pcs be) as [cs|] eqn:E; [exists cs; split; auto; now apply (generate_ok ord Ho)|]. exfalso.
  unfold generate_constraints in E. destruct (range_constraints mapper pcs be) as [c1|] eqn:E1.
  - destruct (equivalence_constraints ord mapper be) as [c2|] eqn:E2; [discriminate|]. clear E E1. unfold equivalence_constraints in E2. destruct (to_classes_ok cell_eqb cell_eqb_eq ord Ho (be_classes be) Hp) as (cl & E3 & _ & N0 & L & S0). rewrite E3 in E2.
    destruct (all_some (map (class_constraints mapper) cl)) eqn:E4; [discriminate|]. apply all_some_none in E4. destruct E4 as (c & Hc & E4). assert (M : forall x, In x c -> mapper x <> None) by (intros x Hx; apply H2, S0; exists c; auto).
    destruct c as [|f c]; [|cbn [class_constraints] in E4; destruct (mapper f) as [rf|] eqn:Ef; [|apply (M f); [now left|auto]]].
    + (* classes are not empty *)
      rewrite Forall_forall in L. specialize (L _ Hc). cbn in L. lia.
    + apply all_some_none in E4. destruct E4 as (o & Ho' & E4). destruct (mapper o) eqn:Eo; [discriminate|]. apply (M o); [now right|auto].
  - unfold range_constraints in E1. destruct (all_some (map (range_constraints_of mapper be) (enumerate pcs))) eqn:E4; [discriminate|]. apply all_some_none in E4. destruct E4 as ([i pc] & Hi & E4). apply in_enumerate in Hi. unfold range_constraints_of in E4. cbn [fst snd] in E4.
    destruct (nm_get (as_u32 pc) (be_ranges be)) as [rs|] eqn:Er; [|discriminate]. destruct (all_some (map (range_constraint mapper i) rs)) eqn:E5; [discriminate|]. apply all_some_none in E5. destruct E5 as ([col [mn mx]] & Hr & E5). cbn in E5.
    destruct (N.eqb_spec mn mx) as [->|]; [|discriminate]. destruct (mapper (i, col)) eqn:Em; [discriminate|]. eapply H1; eauto.
Qed.

(** ** Detection *)
(** The equalities detected for a block are exactly those that hold in every recorded execution of
    it. *)
Theorem C38_detect_classes : forall (ord : list (cell * nat) -> list (cell * nat)) (gord : list (list cell) -> list (list cell)),
  (forall l, Permutation (ord l) l) -> (forall l, Permutation (gord l) l) -> forall instances, instances <> [] ->
  exists p, detect_classes ord gord instances = Some p /\ part_ok p /\
    forall x y, x <> y -> (together p x y <-> forall rows, In rows instances -> exists v, cell_value rows x = Some v /\ cell_value rows y = Some v).
Proof. intros ord gord Ho Hg. exact (detect_classes_ok ord gord Ho Hg). Qed.
(** The range detected for a column has recorded values as its bounds, at most one value in a
    hundred is below it and at most one in a hundred above, and neither bound can be moved inwards
    without losing one in a hundred. *)
Theorem C38_detect_ranges : forall rows n, rows <> [] -> (forall r, In r rows -> length r = n) ->
  exists rs, detect_column_ranges rows = Some rs /\ length rs = n /\
  forall col, col < n -> exists lo hi, nth_error rs col = Some (lo, hi) /\
    let column := map (fun r => nth col r 0%N) rows in let count f := length (filter f column) in
    In lo column /\ In hi column /\ (lo <= hi)%N /\
    100 * count (fun v => (v <? lo)%N) <= length rows < 100 * count (fun v => (v <=? lo)%N) /\
    100 * count (fun v => (hi <? v)%N) <= length rows <= 100 * count (fun v => (hi <=? v)%N).
Proof.
  intros rows n Hne Hn. unfold detect_column_ranges. destruct rows as [|r0 rows]; [congruence|]. rewrite (Hn r0 (or_introl eq_refl)). set (R := r0 :: rows) in *.
  assert (F : forallb (fun r => Nat.eqb (length r) n) R = true) by (apply forallb_forall; intros r Hr; apply Nat.eqb_eq; auto). rewrite F.
  set (f := fun col => percentile_range (map (fun r => nth col r 0%N) R)).
  assert (G : forall l, exists rs, all_some (map f l) = Some rs /\ length rs = length l /\ forall k c, nth_error l k = Some c -> exists q, nth_error rs k = Some q /\ f c = Some q).
  { induction l as [|c l IH]; cbn [map all_some]; [exists []; split; auto; split; auto; intros [|k] c; discriminate|]. destruct IH as (rs & -> & L & IH).
    assert (Hc : map (fun r => nth c r 0%N) R <> []) by (unfold R; discriminate). destruct (percentile_ok _ Hc) as (lo & hi & E & _). unfold f at 1. rewrite E. exists ((lo, hi) :: rs). split; auto. split; [cbn; lia|]. intros [|k] c'; cbn; [intros [= <-]; exists (lo, hi); auto|apply IH]. }
  destruct (G (seq 0 n)) as (rs & -> & L & H). rewrite seq_length in L. exists rs. split; auto. split; auto. intros col Hcol.
  destruct (H col col) as ([lo hi] & H1 & H2). { rewrite (nth_error_nth_d _ _ 0) by (rewrite seq_length; auto). now rewrite seq_nth. }
  exists lo, hi. split; auto. cbn zeta. assert (Hc : map (fun r => nth col r 0%N) R <> []) by (unfold R; discriminate). destruct (percentile_ok _ Hc) as (lo' & hi' & E & A & B & C & D & _ & E'). unfold f in H2. rewrite E in H2. injection H2 as <- <-. rewrite map_length in *. auto.
Qed.

(** ** Examples *)
Definition idl {A} (l : list A) : list A := l.
Definition classes2 (l : list (list cell)) : part cell := match from_iter cell_eqb l with Some p => p | None => mkPart [] 0 end.
(** Two runs of a program: pc 4 seen in both, pc 8 only in the second. *)
Definition run_a : emp := mkEmp [(4%N, [(1, 1); (5, 9)]%N)] [(4%N, classes2 [[(0, 0); (1, 1); (1, 2)]])] [(4%N, 3%N)].
Definition run_b : emp := mkEmp [(4%N, [(1, 1); (2, 6)]%N); (8%N, [(0, 0)]%N)] [(4%N, classes2 [[(0, 0); (1, 1)]; [(1, 2); (0, 1)]])] [(4%N, 2%N); (8%N, 1%N)].
Example run_combined : combine_with idl idl run_a run_b =
  Some (mkEmp [(4%N, [(1, 1); (2, 9)]%N); (8%N, [(0, 0)]%N)] [(4%N, classes2 [[(0, 0); (1, 1)]])] [(4%N, 5%N); (8%N, 1%N)]).
Proof. vm_compute. reflexivity. Qed.
Lemma classes2_ok l : NoDup (concat (big l)) -> part_ok (classes2 l).
Proof. intros H. unfold classes2. pose proof (from_iter_spec cell_eqb cell_eqb_eq idl idl (fun l => Permutation_refl l) (fun l => Permutation_refl l) l) as F. destruct (from_iter cell_eqb l); [apply F|now destruct F]. Qed.
Ltac nodup := repeat (apply NoDup_cons; [cbn; intuition congruence|]); apply NoDup_nil.
Example runs_ok : emp_ok run_a /\ emp_ok run_b /\ same_widths run_a run_b.
Proof.
  unfold emp_ok. cbn [run_a run_b column_ranges block_classes pc_counts]. split; [|split].
  - repeat (split; [cbn; repeat (split || constructor); cbn; lia|]). repeat (apply Forall_cons || apply Forall_nil); cbn [snd]; apply classes2_ok; unfold big; cbn; nodup.
  - repeat (split; [cbn; repeat (split || constructor); cbn; lia|]). repeat (apply Forall_cons || apply Forall_nil); cbn [snd]; apply classes2_ok; unfold big; cbn; nodup.
  - intros pc ra rb. cbn. destruct (pc =? 4)%N; [intros [= <-] [= <-]; reflexivity|discriminate].
Qed.
(** A superblock of two basic blocks of two instructions; equalities are recorded for both. *)
Definition run_c : emp := mkEmp [(4%N, [(1, 1); (5, 9)]%N); (8%N, [(7, 7)]%N)] [(4%N, classes2 [[(0, 0); (1, 1)]]); (20%N, classes2 [[(0, 2); (1, 0)]])] [].
Definition two_blocks : list (bblock unit) := [mkBB 4%N [tt; tt]; mkBB 20%N [tt; tt]].
Definition c_block : bemp := mkBE [4; 8; 20; 24]%N [(4%N, [(0, (1, 1)%N); (1, (5, 9)%N)]); (8%N, [(0, (7, 7)%N)])] (classes2 [[(0, 0); (1, 1)]; [(2, 2); (3, 0)]]).
Example run_c_block : for_block idl 4%N run_c two_blocks = Some c_block.
Proof. vm_compute. reflexivity. Qed.
Example run_c_cells : forall b p c, In b two_blocks -> nm_get (start_pc b) (block_classes run_c) = Some p -> together p c c -> fst c < length (instrs b).
Proof. intros b p c [<-|[<-|[]]]; cbn; intros [= <-] (i & H & _); cbn in H; destruct H as [[= <- _]|[[= <- _]|[]]]; cbn; lia. Qed.
Example run_c_ok : emp_ok run_c.
Proof. unfold emp_ok. cbn [run_c column_ranges block_classes pc_counts]. repeat (split; [cbn; repeat (split || constructor); cbn; lia|]). repeat (apply Forall_cons || apply Forall_nil); cbn [snd]; apply classes2_ok; unfold big; cbn; nodup. Qed.
(** Only columns 0 and 2 are requested. *)
Example run_c_filtered : filtered idl (fun c => Nat.even (snd c)) c_block =
  Some (mkBE [4; 8; 20; 24]%N [(4%N, [(0, (1, 1)%N)]); (8%N, [(0, (7, 7)%N)])] (classes2 [[(2, 2); (3, 0)]])).
Proof. vm_compute. reflexivity. Qed.
Example run_c_equations : generate_constraints idl (fun c => Some (10 * fst c + snd c)) [4; 8; 20; 24]%N c_block =
  Some [EqNum 0 1%N; EqNum 10 7%N; EqRef 0 11; EqRef 22 30].
Proof. vm_compute. reflexivity. Qed.
(** Three executions of a block of two instructions. *)
Example detected : detect_classes idl idl [[[3; 4]; [4; 3]]; [[5; 5]; [5; 5]]; [[1; 2]; [2; 1]]]%N = Some (classes2 [[(0, 0); (1, 1)]; [(0, 1); (1, 0)]]).
Proof. vm_compute. reflexivity. Qed.
(** A column with the values 0 to 199: the two smallest and the largest one are outside. *)
Example detected_range : detect_column_ranges (map (fun i => [N.of_nat (199 - i); 7%N]) (seq 0 200)) = Some [(2, 198); (7, 7)]%N.
Proof. vm_compute. reflexivity. Qed.
Example threshold_three : apply_pc_threshold 3%N run_b = mkEmp [] [] (pc_counts run_b) /\ apply_pc_threshold 2%N run_b = mkEmp [(4%N, [(1, 1); (2, 6)]%N)] (block_classes run_b) (pc_counts run_b).
Proof. vm_compute. split; reflexivity. Qed.

Print Assumptions C38_combine_weakens.
Print Assumptions C38_combine_exact.
Print Assumptions C38_widths_refuted.
Print Assumptions C38_threshold.
Print Assumptions C38_for_block.
Print Assumptions C38_filtered.
Print Assumptions C38_filtered_twice_refuted.
Print Assumptions C38_generate.
Print Assumptions C38_detect_classes.
Print Assumptions C38_detect_ranges.
