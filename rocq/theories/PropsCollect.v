(** Theorems about the collection of empirical constraints: C69. *)
From Coq Require Import Arith NArith Bool List Lia Permutation Sorted.
From Verif Require Import PartModel PartSpec PartFacts BlocksModel EmpModel EmpSpec EmpFacts PropsBlocks CollectModel CollectSpec CollectFacts.
Import ListNotations.

(** Hash maps are iterated in any order. *)
Definition any_order (ord : list (cell * nat) -> list (cell * nat)) (gord : list (list cell) -> list (list cell)) : Prop := (forall l, Permutation (ord l) l) /\ (forall l, Permutation (gord l) l).
(** C69: Let inputs be executed in runs of blocks, and let the executions be cut into segments anywhere, whose chips have rows in any order
    and with padding.  Then the detection never panics.  Each instruction is counted as often as it was executed.  The cells known to be
    equal in a block are exactly those that were equal in all its runs, also in those across the end of a segment.  At most one percent
    of the executions of an instruction are below the range of a column and at most one percent above it. *)
Theorem C69_detect : forall ord gord counts air width max_segments inputs runs, any_order ord gord -> 0 < max_segments ->
  Forall2 segmented inputs runs -> Forall (execution counts) runs -> Forall (laid_out air width) inputs -> Forall2 (begins counts max_segments) inputs runs ->
  exists e, detect ord gord counts max_segments inputs = Some e /\
    counts_exact e (concat runs) /\ classes_exact counts e (concat runs) /\ ranges_fit width e (concat runs).
Proof.
  intros ord gord counts air width max inputs runs [Ho Hg] Hm H X HL B. destruct (detect_ok ord gord Ho Hg counts air width max inputs runs Hm H X HL) as (e & E & [_ K1 K2 K3]).
  - clear -B. induction B as [|i bs inputs runs Hb _ IH]; constructor; auto. destruct Hb as [Hb|(r & b & bs' & c & rest & -> & Hr & -> & Hc)]; [left; auto|]. right. split; [cbn; unfold is_start; now destruct (counts (fst r))|auto].
  - exists e. auto.
Qed.
(** C69: the number of segments that are kept in memory, and where segments end, have no influence on the counts and the equalities. *)
Theorem C69_independent : forall ord gord counts air width m1 m2 inputs1 inputs2 runs e1 e2, any_order ord gord -> 0 < m1 -> 0 < m2 -> Forall (execution counts) runs ->
  Forall2 segmented inputs1 runs -> Forall (laid_out air width) inputs1 -> Forall2 (begins counts m1) inputs1 runs ->
  Forall2 segmented inputs2 runs -> Forall (laid_out air width) inputs2 -> Forall2 (begins counts m2) inputs2 runs ->
  detect ord gord counts m1 inputs1 = Some e1 -> detect ord gord counts m2 inputs2 = Some e2 ->
  forall pc, count_of (pc_counts e1) pc = count_of (pc_counts e2) pc /\
    (knows_row e1 pc <-> knows_row e2 pc) /\ (knows_block e1 pc <-> knows_block e2 pc) /\
    forall p1 p2 x y, nm_get pc (block_classes e1) = Some p1 -> nm_get pc (block_classes e2) = Some p2 -> x <> y -> (together p1 x y <-> together p2 x y).
Proof.
  intros ord gord counts air width m1 m2 i1 i2 runs e1 e2 Ho H1 H2 X A1 A2 A3 B1 B2 B3 E1 E2 pc.
  destruct (C69_detect ord gord counts air width m1 i1 runs Ho H1 A1 X A2 A3) as (e & E & C1 & D1 & R1). rewrite E1 in E. injection E as <-.
  destruct (C69_detect ord gord counts air width m2 i2 runs Ho H2 B1 X B2 B3) as (e & E & C2 & D2 & R2). rewrite E2 in E. injection E as <-.
  split; [now rewrite C1, C2|]. specialize (D1 pc). specialize (D2 pc). specialize (R1 pc). specialize (R2 pc). split; [|split].
  - unfold knows_row. destruct (nm_get pc (column_ranges e1)), (nm_get pc (column_ranges e2)); try tauto; split; congruence.
  - unfold knows_block. destruct (nm_get pc (block_classes e1)), (nm_get pc (block_classes e2)); try tauto; split; congruence.
  - intros p1 p2 x y G1 G2 Hxy. rewrite G1 in D1. rewrite G2 in D2. destruct D1 as [_ D1], D2 as [_ D2]. now rewrite D1, D2.
Qed.
(** C69: with 0 as the number of segments, which the environment variable allows, every detection panics. *)
Theorem C69_zero_panics : forall ord gord counts inputs, (exists segments, In segments inputs /\ segments <> []) -> detect ord gord counts 0 inputs = None.
Proof.
  intros ord gord counts inputs H. unfold detect. set (f := fun (d : option detector) i => match d with Some d => detect_from_input ord gord counts 0 i d | None => None end).
  assert (Z : forall l, fold_left f l None = None) by (induction l; auto).
  assert (G : forall d, fold_left f inputs d = None); [|now rewrite G]. induction inputs as [|i inputs IH]; intros d; destruct H as (s & Hs & Hn); [destruct Hs|]. cbn [fold_left]. destruct Hs as [->|Hs]; [|apply IH; eauto].
  replace (f d s) with (@None detector); [apply Z|]. destruct d as [d|]; auto. destruct s as [|c s]; [congruence|]. cbn [f]. unfold detect_from_input. cbn [segments_loop]. unfold segment_callback.
  match goal with |- context [fold_left (push_chip 0) c ?x] => destruct (fold_left (push_chip 0) c x) as [[rows airs]|] end; reflexivity.
Qed.

(** ** Examples *)
(** A block of two instructions at 8; the instruction at 0 is in no block.  The block runs twice; the second run is cut by the end of the
    first segment. *)
Definition ex_counts (pc : N) : option nat := if (pc =? 8)%N then Some 2 else None.
Definition ex_air (pc : N) : nat := if (pc =? 12)%N then 2 else 1.
Definition ex_width (pc : N) : nat := if (pc =? 12)%N then 1 else 2.
Definition ex_runs : list (list exec) := [[(8, [5; 7]); (12, [5])]; [(0, [1; 1])]; [(8, [5; 5]); (12, [5])]; [(8, [6; 4])]]%N.
Definition ex_segments : list (list chip) :=
  [[mkChip 1 true [mkCRow 1 8 17 [5; 5]; mkCRow 0 0 0 [0; 0]; mkCRow 1 8 3 [5; 7]; mkCRow 1 0 9 [1; 1]]%N; mkChip 2 true [mkCRow 1 12 6 [5]]%N; mkChip 3 false [mkCRow 1 8 1 [9; 9; 9]]%N];
   [mkChip 2 true [mkCRow 1 12 3 [5]]%N; mkChip 1 true [mkCRow 1 8 5 [6; 4]]%N]].
Lemma ex_execution : execution ex_counts ex_runs.
Proof.
  assert (R2 : forall a b, run_of ex_counts 2 [(8, a); (12, b)]%N).
  { intros a b. exists (8, a)%N, [(12, b)]%N. split; auto. split; auto. split; [|repeat constructor]. intros [|[|[|k]]] r; cbn; intros E; try discriminate; injection E as <-; reflexivity. }
  assert (R1 : forall a, run_of ex_counts 2 [(8, a)]%N).
  { intros a. exists (8, a)%N, []. split; auto. split; auto. split; [|repeat constructor]. intros [|[|k]] r; cbn; intros E; try discriminate; injection E as <-; reflexivity. }
  unfold ex_runs. constructor; [right; exists 2; auto|]. constructor; [left; eexists; split; reflexivity|]. constructor; [right; exists 2; auto|]. apply (execution_stop _ 2); auto.
Qed.
Example C69_example_hypotheses : Forall2 segmented [ex_segments] [ex_runs] /\ Forall (execution ex_counts) [ex_runs] /\ Forall (laid_out ex_air ex_width) [ex_segments] /\
  Forall2 (begins ex_counts 1) [ex_segments] [ex_runs] /\ Forall2 (begins ex_counts 7) [ex_segments] [ex_runs].
Proof.
  split; [|split; [|split; [|split]]].
  - constructor; [|constructor]. exists [[(8, [5; 7]); (12, [5]); (0, [1; 1]); (8, [5; 5])]; [(12, [5]); (8, [6; 4])]]%N. split; [|reflexivity]. constructor; [|constructor; [|constructor]].
    + exists [mkCRow 1 8 3 [5; 7]; mkCRow 1 12 6 [5]; mkCRow 1 0 9 [1; 1]; mkCRow 1 8 17 [5; 5]]%N. split; [|split; [|reflexivity]].
      * cbn. apply (perm_trans (l' := [mkCRow 1 8 3 [5; 7]; mkCRow 1 8 17 [5; 5]; mkCRow 1 0 9 [1; 1]; mkCRow 1 12 6 [5]]%N)); [apply perm_swap|]. constructor.
        apply (perm_trans (l' := [mkCRow 1 12 6 [5]; mkCRow 1 8 17 [5; 5]; mkCRow 1 0 9 [1; 1]]%N)); [apply Permutation_sym, (Permutation_cons_append [mkCRow 1 8 17 [5; 5]; mkCRow 1 0 9 [1; 1]]%N)|]. constructor. apply perm_swap.
      * repeat constructor; cbn; reflexivity.
    + exists [mkCRow 1 12 3 [5]; mkCRow 1 8 5 [6; 4]]%N. split; [reflexivity|]. split; [|reflexivity]. repeat constructor.
  - constructor; [apply ex_execution|constructor].
  - constructor; [|constructor]. intros chips c r [<-|[<-|[]]] Hc; cbn in Hc; intuition; subst; cbn in *; try discriminate; intuition; subst; cbn in *; try reflexivity; congruence.
  - constructor; [|constructor]. right. unfold ex_runs, ex_segments. do 5 eexists. split; [reflexivity|]. split; [discriminate|]. split; [reflexivity|discriminate].
  - constructor; [|constructor]. left. cbn. lia.
Qed.
(** After the first segment, only the complete runs are processed; the result is the same as if everything was processed at the end. *)
Definition ex_known (e : option emp) : bool :=
  match e with
  | Some e => (count_of (pc_counts e) 8 =? 3)%N && (count_of (pc_counts e) 12 =? 2)%N && (count_of (pc_counts e) 0 =? 1)%N &&
      match nm_get 8 (block_classes e) with Some p => Nat.eqb (num_classes p) 0 | None => false end &&
      match nm_get 8 (column_ranges e) with Some [(5, 6); (4, 7)] => true | _ => false end%N
  | None => false
  end.
Example C69_example : ex_known (detect (fun l => l) (fun l => l) ex_counts 1 [ex_segments]) = true /\ ex_known (detect (fun l => l) (fun l => l) ex_counts 7 [ex_segments]) = true.
Proof. split; vm_compute; reflexivity. Qed.
(** Without the incomplete run, the first cell of the block is known to be equal to the cell of its second instruction. *)
Definition ex_shorter : list (list chip) := firstn 1 ex_segments ++ [[mkChip 2 true [mkCRow 1 12 3 [5]]%N]].
Example C69_example_equal : option_map (fun e => option_map class_of (nm_get 8%N (block_classes e))) (detect (fun l => l) (fun l => l) ex_counts 1 [ex_shorter]) = Some (Some [((0, 0), 0); ((1, 0), 0)]).
Proof. vm_compute. reflexivity. Qed.

(** ** What does not hold *)
Definition one (ts v : N) : crow := mkCRow 1 8 ts [v].
Definition one_count (pc : N) : option nat := if (pc =? 8)%N then Some 1 else None.
Definition many : list N := map N.of_nat (seq 1 99).
(** The ranges depend on the number of segments that are kept in memory: a value that is rare in the whole execution is not in a part. *)
Theorem C69_ranges_refuted : exists segments runs e1 e2, segmented segments runs /\ execution one_count runs /\
  detect (fun l => l) (fun l => l) one_count 1 [segments] = Some e1 /\ detect (fun l => l) (fun l => l) one_count 10 [segments] = Some e2 /\
  nm_get 8 (column_ranges e1) = Some [(0, 5)]%N /\ nm_get 8 (column_ranges e2) = Some [(5, 5)]%N.
Proof.
  exists [[mkChip 1 true [one 1 0]]; [mkChip 1 true [one 1 5]]; [mkChip 1 true (map (fun t => one t 5) many)]]. exists (map (fun v => [(8, [v])]%N) (0 :: 5 :: map (fun _ => 5) many)%N).
  eexists. eexists. split; [|split; [|split; [|split; [|split]]]]; [| |vm_compute; reflexivity|vm_compute; reflexivity|reflexivity|reflexivity].
  - exists [[(8, [0])]; [(8, [5])]; map (fun t => (8, [5])) many]%N. split; [|vm_compute; reflexivity]. constructor; [|constructor; [|constructor; [|constructor]]].
    + exists [one 1 0]. split; [reflexivity|]. split; [repeat constructor|reflexivity].
    + exists [one 1 5]. split; [reflexivity|]. split; [repeat constructor|reflexivity].
    + exists (map (fun t => one t 5) many). split; [vm_compute; reflexivity|]. split; [|rewrite map_map; reflexivity].
      assert (G : forall n k, StronglySorted (fun a b => cr_ts a < cr_ts b)%N (map (fun t => one t 5) (map N.of_nat (seq k n)))); [|apply (G 99 1)].
      induction n as [|n IH]; intros k; cbn [seq map]; constructor; auto. apply Forall_forall. intros x Hx. apply in_map_iff in Hx. destruct Hx as (y & <- & Hy). apply in_map_iff in Hy. destruct Hy as (z & <- & Hz). apply in_seq in Hz. cbn. lia.
  - assert (G : forall l, execution one_count (map (fun v => [(8, [v])]%N) l)); [|apply G]. induction l as [|v l IH]; cbn [map]; constructor; auto. right. exists 1. split; auto. exists (8, [v])%N, []. split; auto. split; auto. split; [|constructor]. intros [|[|k]] r; cbn; intros E; try discriminate; injection E as <-; reflexivity.
Qed.
(** If no block begins in the segments that are processed first, the detection panics, although it works if more segments are kept. *)
Theorem C69_start_refuted : exists segments runs, segmented segments runs /\ execution ex_counts runs /\ laid_out ex_air ex_width segments /\
  detect (fun l => l) (fun l => l) ex_counts 1 [segments] = None /\ detect (fun l => l) (fun l => l) ex_counts 2 [segments] <> None.
Proof.
  exists [[mkChip 1 true [mkCRow 1 0 1 [1; 1]]]; [mkChip 1 true [mkCRow 1 8 1 [3; 4]]; mkChip 2 true [mkCRow 1 12 2 [3]]]]%N, [[(0, [1; 1])]; [(8, [3; 4]); (12, [3])]]%N. split; [|split; [|split; [|split]]].
  - exists [[(0, [1; 1])]; [(8, [3; 4]); (12, [3])]]%N. split; [|reflexivity]. constructor; [|constructor; [|constructor]].
    + exists [mkCRow 1 0 1 [1; 1]]%N. split; [reflexivity|]. split; [repeat constructor|reflexivity].
    + exists [mkCRow 1 8 1 [3; 4]; mkCRow 1 12 2 [3]]%N. split; [reflexivity|]. split; [repeat constructor|reflexivity].
  - constructor; [left; eexists; split; reflexivity|]. constructor; [|constructor]. right. exists 2. split; auto. exists (8, [3; 4])%N, [(12, [3])]%N. split; auto. split; auto. split; [|repeat constructor]. intros [|[|[|k]]] r; cbn; intros E; try discriminate; injection E as <-; reflexivity.
  - intros chips c r [<-|[<-|[]]] Hc; cbn in Hc; intuition; subst; cbn in *; intuition; subst; reflexivity.
  - vm_compute. reflexivity.
  - vm_compute. discriminate.
Qed.
Print Assumptions C69_detect.
Print Assumptions C69_independent.
Print Assumptions C69_zero_panics.
Print Assumptions C69_ranges_refuted.
Print Assumptions C69_start_refuted.

(** ** Programs *)
(** 85-88: the table of blocks of a program.  Beginnings of blocks are distinct. *)
Definition counts_of {I} (bs : list (bblock I)) (pc : N) : option nat := option_map (fun b => length (instrs b)) (find (fun b => (start_pc b =? pc)%N) bs).
(** C69: runs of the blocks of a program are executions as in [C69_detect]: no instruction inside of a block is the beginning of another
    one.  The last run may stop early.  Every execution begins with a block. *)
Theorem C69_program : forall I (is_branching is_allowed : I -> bool) jumpdest base prog runs last,
  let bs := collect_basic_blocks is_branching is_allowed jumpdest base 4 prog in
  Forall (fun run => exists b, In b bs /\ map fst run = bb_pcs 4 b) runs ->
  (last = [] \/ exists run b rest, last = [run] /\ run <> [] /\ In b bs /\ map fst run ++ rest = bb_pcs 4 b) ->
  execution (counts_of bs) (runs ++ last) /\ (runs ++ last <> [] -> exists r b bs', runs ++ last = (r :: b) :: bs' /\ counts_of bs (fst r) <> None).
Proof.
  intros I br al jd base prog runs last bs HR HL. destruct (C33_partition I br al jd base 4%N prog) as [_ PT]. fold bs in PT. cbn zeta in PT.
  assert (POS : forall l b r, bs = l ++ b :: r -> start_pc b = (base + N.of_nat (length (flat_map instrs l)) * 4)%N /\ instrs b <> []) by (intros l b r E; destruct (PT l b r E) as (A & B & _); auto).
  assert (INSIDE : forall b c j, In b bs -> In c bs -> j < length (instrs b) -> start_pc c = (start_pc b + N.of_nat j * 4)%N -> j = 0 /\ length (instrs c) = length (instrs b)).
  { intros b c j Hb Hc Hj E. destruct (in_split _ _ Hb) as (l & r & Eb). destruct (POS _ _ _ Eb) as [Sb Nb]. rewrite Eb in Hc. apply in_app_or in Hc. destruct Hc as [Hc|[<-|Hc]].
    - destruct (in_split _ _ Hc) as (l1 & l2 & ->). destruct (POS l1 c (l2 ++ b :: r)) as [Sc Nc]; [rewrite Eb, <- app_assoc; reflexivity|]. rewrite flat_map_app, app_length in Sb. cbn [flat_map] in Sb. rewrite app_length in Sb. destruct (instrs c); [congruence|]. cbn [length] in Sb. lia.
    - split; [lia|reflexivity].
    - destruct (in_split _ _ Hc) as (r1 & r2 & ->). destruct (POS (l ++ b :: r1) c r2) as [Sc Nc]; [rewrite Eb, <- app_assoc; reflexivity|]. rewrite flat_map_app, app_length in Sc. cbn [flat_map] in Sc. rewrite app_length in Sc. lia. }
  assert (RUN : forall (run : list exec) b rest, run <> [] -> In b bs -> map fst run ++ rest = bb_pcs 4 b -> run_of (counts_of bs) (length (instrs b)) run /\ length run + length rest = length (instrs b)).
  { intros run b rest Hn Hb E. assert (L : length run + length rest = length (instrs b)) by (apply (f_equal (@length N)) in E; unfold bb_pcs in E; rewrite app_length, !map_length, seq_length in E; exact E). split; auto.
    assert (NTH : forall k r, nth_error run k = Some r -> fst r = (start_pc b + N.of_nat k * 4)%N).
    { intros k r Hk. assert (Lk : k < length run) by (apply nth_error_Some; congruence). pose proof (map_nth_error fst _ _ Hk) as X. rewrite <- (nth_error_app1 _ rest) in X by (rewrite map_length; auto). rewrite E in X. unfold bb_pcs in X.
      assert (Y : nth_error (seq 0 (length (instrs b))) k = Some k) by (rewrite (nth_error_nth_d _ _ 0) by (rewrite seq_length; lia); now rewrite seq_nth by lia). rewrite (map_nth_error _ _ _ Y) in X. congruence. }
    destruct run as [|f run]; [congruence|]. pose proof (NTH 0 f eq_refl) as F0. exists f, run. split; auto. split; [|split].
    - unfold counts_of. destruct (find _ bs) as [c|] eqn:Ec.
      + apply find_some in Ec. destruct Ec as [Hc Ec]. apply N.eqb_eq in Ec. cbn [option_map]. f_equal. apply (INSIDE b c 0); auto; [cbn [length] in L; lia|lia].
      + exfalso. pose proof (find_none _ _ Ec b Hb) as X. cbv beta in X. apply N.eqb_neq in X. lia.
    - intros k r Hk. rewrite (NTH k r Hk), F0. lia.
    - apply Forall_forall. intros r Hr. destruct (In_nth_error _ _ Hr) as (k & Hk). assert (Lk : k < length run) by (apply nth_error_Some; intros Z; pose proof (eq_trans (eq_sym Hk) Z); discriminate). pose proof (NTH (S k) r Hk) as X. unfold counts_of. destruct (find _ bs) as [c|] eqn:Ec; auto. exfalso.
      apply find_some in Ec. destruct Ec as [Hc Ec]. apply N.eqb_eq in Ec. destruct (INSIDE b c (S k)) as [Z _]; [exact Hb|exact Hc|cbn [length] in L; lia|rewrite Ec; exact X|discriminate]. }
  assert (NE : forall (run : list exec) b, In b bs -> map fst run = bb_pcs 4 b -> run <> []).
  { intros run b Hb E Z. subst run. destruct (in_split _ _ Hb) as (l & r & Eb). destruct (POS _ _ _ Eb) as [_ Nb]. apply (f_equal (@length N)) in E. unfold bb_pcs in E. rewrite !map_length, seq_length in E. destruct (instrs b); [congruence|discriminate]. }
  assert (COMPLETE : forall (run : list exec) b, In b bs -> map fst run = bb_pcs 4 b -> complete_run (counts_of bs) run).
  { intros run b Hb E. right. exists (length (instrs b)). destruct (RUN run b [] (NE _ _ Hb E) Hb) as [A B]; [now rewrite app_nil_r|]. split; auto. cbn in B. lia. }
  split.
  - induction HR as [|run runs (b & Hb & E) HR IH]; cbn [app]; [|constructor; [eapply COMPLETE; eauto|exact IH]]. destruct HL as [->|(run & b & rest & -> & Hn & Hb & E)]; [constructor|]. destruct (RUN run b rest Hn Hb E) as [A B]. eapply execution_stop; [exact A|lia].
  - assert (FIRST : forall run n tail, run_of (counts_of bs) n run -> exists r b bs', run :: tail = (r :: b) :: bs' /\ counts_of bs (fst r) <> None) by (intros run n tail (f & r & -> & C & _); exists f, r, tail; split; auto; congruence).
    intros HN. destruct HR as [|run runs (b & Hb & E) HR]; cbn [app] in *.
    + destruct HL as [->|(run & b & rest & -> & Hn & Hb & E)].
      * congruence.
      * destruct (RUN run b rest Hn Hb E) as [A _]. eapply FIRST; eauto.
    + destruct (RUN run b [] (NE _ _ Hb E) Hb) as [A _]; [now rewrite app_nil_r|]. eapply FIRST; eauto.
Qed.
(** The block at 8 of a program of five instructions runs, then the one at 0 and a part of the one at 8. *)
Example C69_program_example : exists (runs last : list (list exec)), let bs := collect_basic_blocks (Nat.eqb 7) (fun x => negb (Nat.eqb 9 x)) (N.eqb 8) 0 4 [1; 2; 3; 4; 7] in
  map (fun b => (start_pc b, length (instrs b))) bs = [(0%N, 2); (8%N, 3)] /\ length runs = 2 /\
  Forall (fun run => exists b, In b bs /\ map fst run = bb_pcs 4 b) runs /\ exists run b rest, last = [run] /\ run <> [] /\ In b bs /\ map fst run ++ rest = bb_pcs 4 b.
Proof.
  exists [[(8, [1]); (12, [2]); (16, [3])]; [(0, [1]); (4, [2])]]%N, [[(8, [4]); (12, [2])]]%N. split; [vm_compute; reflexivity|]. split; [reflexivity|]. split.
  - constructor; [eexists; split; [vm_compute; right; left; reflexivity|reflexivity]|]. constructor; [|constructor]. eexists. split; [vm_compute; left; reflexivity|reflexivity].
  - do 3 eexists. split; [reflexivity|]. split; [discriminate|]. split; [vm_compute; right; left; reflexivity|vm_compute; reflexivity].
Qed.
Print Assumptions C69_program.
