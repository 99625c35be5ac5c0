(** C33, C34: basic blocks and superblocks. *)
From Coq Require Import Arith NArith Bool List Lia Sorted.
From Verif Require Import BlocksModel BlocksSpec BlocksFacts.
Import ListNotations.

(** C33: the blocks are the program cut into pieces: none is empty, each starts at the pc of its
    first instruction, a jump target is only ever a first instruction, a branching instruction
    only ever a last one, and an instruction that is not allowed is a block of its own. *)
Theorem C33_partition : forall I (is_branching is_allowed : I -> bool) jumpdest base step prog,
  let bs := collect_basic_blocks is_branching is_allowed jumpdest base step prog in
  flat_map instrs bs = prog /\
  forall l b r, bs = l ++ b :: r ->
    let k := length (flat_map instrs l) in
    instrs b <> [] /\ start_pc b = (base + N.of_nat k * step)%N /\
    forall j x, nth_error (instrs b) j = Some x ->
      nth_error prog (k + j) = Some x /\
      (jumpdest (base + N.of_nat (k + j) * step)%N = true -> j = 0) /\
      (is_branching x = true -> S j = length (instrs b)) /\
      (is_allowed x = false -> instrs b = [x]).
Proof.
  intros I br al jd base step prog bs. destruct (collect_ok br al jd base step prog 0 _ [] (cur_ok_nil br al jd base step 0)) as [A B].
  cbn [app length] in A, B. change (0 - 0) with 0 in B. fold (collect_basic_blocks br al jd base step prog) in A, B. fold bs in A, B. split; auto. intros l b r E k.
  assert (G : forall l n, bs = l ++ b :: r -> blocks_good br al jd base step n (l ++ b :: r) -> block_good br al jd base step (n + length (flat_map instrs l)) b).
  { clear. intros l n _. revert n. induction l as [|c l IH]; intros n H; cbn [app blocks_good flat_map] in H.
    - cbn. rewrite Nat.add_0_r. tauto.
    - destruct H as [_ H]. apply IH in H. cbn [flat_map]. rewrite app_length. now rewrite Nat.add_assoc. }
  rewrite E in B. specialize (G l 0 E B). cbn [Nat.add] in G. fold k in G. destruct G as (G1 & G2 & G3). split; auto. split; [exact G2|]. intros j x Hj. split; [|now apply G3].
  rewrite <- A, E, flat_map_app. cbn [flat_map]. rewrite nth_error_app2 by (subst k; lia). replace (k + j - length (flat_map instrs l)) with j by (subst k; lia).
  rewrite nth_error_app1; auto. apply nth_error_Some. congruence.
Qed.
(** The program is not cut anywhere else: between two adjacent blocks, the first one ends in an
    instruction that branches or is not allowed, or the second one starts with one that is not
    allowed or a jump target. *)
Theorem C33_maximal : forall I (is_branching is_allowed : I -> bool) jumpdest base step prog l b c r,
  collect_basic_blocks is_branching is_allowed jumpdest base step prog = l ++ b :: c :: r ->
  exists x y, (exists l1, instrs b = l1 ++ [x]) /\ (exists l2, instrs c = y :: l2) /\
    (is_allowed x = false \/ is_branching x = true \/ is_allowed y = false \/ jumpdest (start_pc c) = true).
Proof.
  intros I br al jd base step prog l b c r E. pose proof (cur_ok_nil br al jd base step 0) as H0. pose proof (collect_tight br al jd base step prog 0 _ [] H0) as T.
  destruct (collect_ok br al jd base step prog 0 _ [] H0) as [_ G]. change (0 - length (@nil I)) with 0 in G, T. unfold collect_basic_blocks in E. rewrite E in G, T. clear - G T.
  revert G T. generalize 0. induction l as [|d l IH]; intros n G T.
  - cbn [app tight] in T. destruct T as [(x & y & A & B & C) _]. exists x, y. split; auto. split; auto. cbn [app blocks_good] in G. destruct G as (_ & (_ & G & _) & _). rewrite G. exact C.
  - cbn [app blocks_good] in G. apply (IH (n + length (instrs d))); [tauto|]. cbn [app tight] in T. destruct (l ++ b :: c :: r) eqn:E; [destruct l; discriminate|]. tauto.
Qed.
(** A program of six instructions: 7 branches, 9 is not allowed, index 4 is a jump target. *)
Example C33_example :
  map (fun b => (start_pc b, instrs b)) (collect_basic_blocks (Nat.eqb 7) (fun x => negb (Nat.eqb 9 x)) (N.eqb 116) 100 4 [1; 7; 9; 2; 3; 4]) =
  [(100%N, [1; 7]); (108%N, [9]); (112%N, [2]); (116%N, [3; 4])].
Proof. reflexivity. Qed.

(** C34: the positions found are occurrences without overlap in ascending order; every
    occurrence starts within one that was found (so the leftmost ones are taken); and no set of
    occurrences without overlap is larger. *)
Theorem C34_find : forall hay needle, needle <> [] ->
  exists l, find_non_overlapping hay needle = Some l /\ disjoint_occurrences needle hay l /\
  (forall q, occurs_at needle hay q -> exists i, In i l /\ i <= q < i + length needle) /\
  (forall qs, disjoint_occurrences needle hay qs -> length qs <= length l).
Proof. exact find_ok. Qed.
(** On an empty pattern the search does not end, whatever the fuel. *)
Theorem C34_empty_pattern : forall hay fuel, find_loop fuel 0 hay [] = None.
Proof.
  intros hay fuel. assert (G : forall fuel pos, pos <= length hay -> find_loop fuel pos hay [] = None).
  { clear. induction fuel as [|fuel IH]; intros pos H; cbn [find_loop length]; rewrite Nat.add_0_r.
    - now rewrite (proj2 (Nat.leb_le _ _) H).
    - rewrite (proj2 (Nat.leb_le _ _) H). cbn [firstn pcs_eqb]. now rewrite IH. }
  apply G. lia.
Qed.
(** Counting: an execution through the blocks [trace] yields exactly the superblocks of at most
    [max] blocks that are contiguous in a run (a maximal stretch without single-instruction
    blocks), with the maximal number of times they can be executed as a unit, if this number
    reaches the cutoff and the instruction limit is kept; and exactly its runs with their number. *)
Theorem C34_detect : forall I (step : N) (bs : list (bblock I)) max cutoff max_instrs trace,
  NoDup (map start_pc bs) -> Forall (fun b => instrs b <> []) bs -> incl trace bs ->
  exists l runs, detect_superblocks max cutoff max_instrs (flat_map (bb_pcs step) trace) bs = Some (l, runs) /\
    (forall sb n, In (sb, n) l <->
       sb <> [] /\ length sb <= max /\ Exists (contiguous sb) (runs_of trace) /\ total_count sb trace n /\
       (cutoff <= n)%N /\ length (flat_map instrs sb) <= max_instrs) /\
    NoDup (map fst l) /\
    (forall run n, In (run, n) runs <->
       In run (map (map start_pc) (runs_of trace)) /\ n = N.of_nat (count_occ (list_eq_dec N.eq_dec) (map (map start_pc) (runs_of trace)) run)).
Proof. intros I step bs max cutoff maxi trace H1 H2 H3. now apply detect_ok. Qed.
(** An execution of five blocks with two runs: the pair of the blocks at 0 and 8 is counted twice. *)
Example C34_example :
  let a := mkBB 0 [1; 2] in let b := mkBB 8 [3; 4; 5] in let c := mkBB 20 [6] in
  let trace := [a; b; c; a; b] in
  (exists l, option_map (fun x => map (fun sn => (map start_pc (fst sn), snd sn)) (fst x)) (detect_superblocks 2 1%N 100 (flat_map (bb_pcs 4) trace) [a; b; c]) = Some l /\
     In ([0; 8]%N, 2%N) l /\ length l = 3) /\
  incl trace [a; b; c] /\ NoDup (map start_pc [a; b; c]) /\ Forall (fun b => instrs b <> []) [a; b; c].
Proof.
  cbv zeta. split; [|split; [|split]].
  - eexists. split; [reflexivity|]. split; [cbn; auto|reflexivity].
  - intros x [<-|[<-|[<-|[<-|[<-|[]]]]]]; cbn; auto.
  - repeat constructor; cbn; intuition discriminate.
  - repeat constructor; discriminate.
Qed.
Example C34_find_example : find_non_overlapping [1; 2; 1; 2; 1; 2; 1]%N [1; 2; 1]%N = Some [0; 4].
Proof. reflexivity. Qed.
Print Assumptions C33_partition. Print Assumptions C33_maximal. Print Assumptions C34_find. Print Assumptions C34_empty_pattern. Print Assumptions C34_detect.
