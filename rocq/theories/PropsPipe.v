(** C43: runs of the optimizer, pass by pass, and the optimizer as a whole. *)
From Coq Require Import Arith NArith ZArith Znumtheory Bool List Lia ZifyBool ZifyN ZifyNat Permutation.
From Verif Require Import Field RangeModel ExprModel ExprFacts ExprMore ExprWf SystemModel Spec BaseModel BaseFacts OvmModel OvmSpec OvmFacts InlinerModel PassModel PassSpec MemModel MemSpec LowOvm LowSpec RuleModel RuleSpec
  SymModel SymSpec SymFacts PropsMem PropsSym PipeModel PipeSpec PipeSolver PipeFacts PipeForward PipeBack PipeMachineSpec PipeMachine PipeRun Primes PropsOvm.
Import ListNotations.
Local Open Scope nat_scope.

Section Start.
  Context {p : positive} (Hp : prime (Z.pos p)).
  Hypothesis Hbig : (2 ^ 26 < N.pos p)%N.
  Hypothesis Hword : (2 * N.pos p <= 2 ^ 64)%N.
  Context (m : busmap) (Hm : map_ok p m) (program : list (F p) -> Prop).
  Lemma start_good c n (x : ostate p) s : start m c n x -> system_over n c -> execution m program s c -> computed s c -> good m program x s.
  Proof.
    intros (fuel & l & st & R & ->) O E C. pose proof O as (Oa & Ob & _). split; cbn [o_sys o_next o_solver]; auto. apply (informed_start Hp ltac:(split; [exact Hbig|lia]) m Hm fuel l st n c s R Oa Ob); [exact (proj1 (proj1 E))|].
    apply (execution_legal m program Hm); apply E.
  Qed.
  Lemma start_fields c n (x : ostate p) : start m c n x -> o_sys x = c /\ o_next x = n.
  Proof. intros (fuel & l & st & R & ->). auto. Qed.
End Start.

(** C43: for every sequence of passes, of any length and in any order, an execution of the input system gives one of the
    output system: the columns that exist keep their values, columns that were added get values, constraints and
    lookups hold, derived columns have the computed values, and the net effect on memory and on the execution bus is
    the same. *)
Theorem C43_forward : forall p m bound program (c : csys p) n x l y s, prime (Z.pos p) -> (2 ^ 26 < N.pos p)%N -> (2 * N.pos p <= 2 ^ 64)%N -> map_ok p m ->
  system_over n c -> start m c n x -> run m bound x l y -> (N.of_nat (o_next y) <= N.pos p)%N -> Forall (tests_right m bound) l ->
  execution m program s c -> computed s c ->
  exists s', agree n s s' /\ execution m program s' (o_sys y) /\ computed s' (o_sys y) /\ same_effect m s c s' (o_sys y) /\ system_over (o_next y) (o_sys y).
Proof.
  intros p m bound program c n x l y s Hp Hbig Hword Hm O St R Hn T E C. pose proof (start_good Hp Hbig Hword m Hm program c n x s St O E C) as G. destruct (start_fields m c n x St) as [E1 E2].
  destruct (run_forward Hp Hbig Hword m Hm bound program x l y s R Hn T G) as (s' & A & [G1 G2 G3 G4] & Ef). rewrite E1, E2 in *. exists s'. auto.
Qed.
(** C43: the other direction, for runs in which range constraints are optimized after memory accesses; of the passes that
    remove free variables, replace lookups by polynomials or work by rules, the run must only use what is sound
    ([reversible], see C27, C25 and C42), and the input system must have an execution (see C28). *)
Theorem C43_back_partial : forall p m bound program (c : csys p) n x l1 l2 y s0 s', prime (Z.pos p) -> (2 ^ 26 < N.pos p)%N -> (2 * N.pos p <= 2 ^ 64)%N -> map_ok p m ->
  system_over n c -> start m c n x -> run m bound x (l1 ++ l2) y -> ~ In KRange (kinds l1) -> ~ In KMem (kinds l2) ->
  (N.of_nat (o_next y) <= N.pos p)%N -> Forall (tests_right m bound) (l1 ++ l2) -> Forall (reversible m program) (l1 ++ l2) ->
  execution m program s0 c -> computed s0 c ->
  admissible (ovm_stateful m) (ovm_table m program) s' (o_sys y) -> Forall (legal m) (sends (ovm_stateful m) s' (o_sys y)) ->
  exists s, admissible (ovm_stateful m) (ovm_table m program) s c /\ same_effect m s c s' (o_sys y).
Proof.
  intros p m bound program c n x l1 l2 y s0 s' Hp Hbig Hword Hm O St R N1 N2 Hn T Rv E C A L. pose proof (start_good Hp Hbig Hword m Hm program c n x s0 St O E C) as G. destruct (start_fields m c n x St) as [E1 _].
  apply Forall_app in T, Rv. destruct T as [T1 T2], Rv as [R1 R2].
  assert (Sp : exists z, run m bound x l1 z /\ run m bound z l2 y).
  { clear - R. revert x R. induction l1 as [|[[k a] b] l1 IH]; intros x R; [exists x; split; [constructor|exact R]|]. cbn [app] in R. inversion R; subst. destruct (IH b H6) as (z & Z1 & Z2). exists z. split; auto. now constructor. }
  destruct Sp as (z & Ra & Rb). pose proof (run_next Hbig Hword m bound _ _ _ Rb) as Ln. destruct (run_forward Hp Hbig Hword m Hm bound program x l1 z s0 Ra ltac:(lia) T1 G) as (s1 & _ & G1 & _).
  destruct (run_back Hp Hbig Hword m Hm bound program z l2 y Rb s' s1 N2 R2 T2 Hn G1 A L) as (s2 & A2 & Es).
  destruct (run_back_memory Hp Hbig Hword m Hm bound program x l1 z Ra s2 s0 N1 R1 T1 ltac:(lia) G A2) as (s3 & A3 & Ef). rewrite E1 in *. exists s3. split; auto.
  apply (effect_trans m s3 s2 s' c (o_sys z) (o_sys y)); auto. apply sends_effect. now symmetry.
Qed.
(** The order in which the optimizer runs its passes is such an order. *)
Lemma order_splits l : pass_order l -> exists l1 l2, l = l1 ++ l2 /\ ~ In KRange l1 /\ ~ In KMem l2.
Proof.
  intros (n & ->). exists (concat (repeat loop_passes (S n))), last_passes. split; auto. split; [|cbn; intuition discriminate]. intros I. apply in_concat in I. destruct I as (l & I & J). apply repeat_spec in I. subst l. cbn in J. intuition discriminate.
Qed.

(** C43: the optimizer as a whole.  Each execution of a machine whose instructions follow each other gives an execution
    of the optimized machine. *)
Theorem C43_machine_forward : forall p m bound program (sm sm' : smach p) n l n' row, prime (Z.pos p) -> (2 ^ 26 < N.pos p)%N -> (2 * N.pos p <= 2 ^ 64)%N -> map_ok p m ->
  optimizes m bound sm n l sm' n' -> machine_over n sm -> (N.of_nat n' <= N.pos p)%N -> Forall (tests_right m bound) l ->
  machine_execution m program row sm -> machine_computed row sm -> chained m row sm ->
  exists row', agree n row row' /\ machine_execution m program row' sm' /\ machine_computed row' sm' /\ same_machine_effect m row sm row' sm' /\ machine_over n' sm'.
Proof.
  intros p m bound program sm sm' n l n' row Hp Hbig Hword Hm (sm1 & c & x & y & E1 & E2 & St & R & Or & Fc & E3 & ->) O Hn T X C Ch.
  assert (K : machine_execution m program row sm1 /\ same_machine_effect m row sm row sm1 /\ machine_over n sm1 /\ machine_computed row sm1).
  { destruct (get_bus_id m BExec) as [id|] eqn:Ei; [|injection E1 as <-; split; [exact X|]; split; [intros bus args; reflexivity|]; auto]. destruct (Ch id Ei) as (r & s & rest & On & H).
    destruct (C24_structure p sm sm1 id r s rest On E1) as (_ & _ & S3 & _). destruct (exec_execution Hbig m Hm program sm sm1 id r s rest Ei On E1) with (row := row) as [K1 K2]; auto.
    - apply (proj2 (proj1 (C30_to_system p sm1))). congruence.
    - split; auto. split; auto. split; [now apply (exec_over sm sm1 id r s rest On E1)|]. unfold machine_computed. now rewrite S3. }
  destruct K as (X1 & Ef & O1 & C1). apply (to_execution m program sm1 c row E2) in X1. apply (to_computed sm1 c row E2) in C1. apply (to_over Hp sm1 c n E2) in O1.
  destruct (C43_forward p m bound program c n x l y row Hp Hbig Hword Hm O1 St R Hn T X1 C1) as (row' & A & X' & C' & Ef' & O'). exists row'. split; auto. split; [now apply (from_execution m program sm' (o_sys y))|]. split; [now apply (from_computed sm' (o_sys y))|].
  split; [|now apply (from_over sm' (o_sys y))]. intros bus args. rewrite <- (from_sends m sm' (o_sys y) row' E3), Ef', (to_sends m sm1 c row E2). apply Ef.
Qed.
(** … and each row that the optimized machine accepts comes from a row of the machine, in which the instructions follow
    each other, under the conditions of [C43_back_partial]. *)
Theorem C43_machine_back_partial : forall p m bound program (sm sm' : smach p) n l n' row0 row', prime (Z.pos p) -> (2 ^ 26 < N.pos p)%N -> (2 * N.pos p <= 2 ^ 64)%N -> map_ok p m ->
  optimizes m bound sm n l sm' n' -> machine_over n sm -> (N.of_nat n' <= N.pos p)%N -> Forall (tests_right m bound) l -> Forall (reversible m program) l ->
  machine_execution m program row0 sm -> machine_computed row0 sm -> chained m row0 sm -> balanced m sm ->
  machine_admissible m program row' sm' -> Forall (legal m) (machine_sends m sm' row') ->
  exists row, machine_admissible m program row sm /\ chained m row sm /\ same_machine_effect m row sm row' sm'.
Proof.
  intros p m bound program sm sm' n l n' row0 row' Hp Hbig Hword Hm (sm1 & c & x & y & E1 & E2 & St & R & Or & Fc & E3 & ->) O Hn T Rv X C Ch Bl A L.
  assert (Hids : Forall (fun b => (sb_id b < N.pos p)%N) (sm_buses sm1)). { apply (proj2 (proj1 (C30_to_system p sm1))). congruence. }
  assert (K : machine_execution m program row0 sm1 /\ machine_over n sm1 /\ machine_computed row0 sm1).
  { destruct (get_bus_id m BExec) as [id|] eqn:Ei; [|injection E1 as <-; auto]. destruct (Ch id Ei) as (r & s & rest & On & H).
    destruct (C24_structure p sm sm1 id r s rest On E1) as (_ & _ & S3 & _). destruct (exec_execution Hbig m Hm program sm sm1 id r s rest Ei On E1) with (row := row0) as [K1 K2]; auto.
    split; auto. split; [now apply (exec_over sm sm1 id r s rest On E1)|]. unfold machine_computed. now rewrite S3. }
  destruct K as (X1 & O1 & C1). apply (to_execution m program sm1 c row0 E2) in X1. apply (to_computed sm1 c row0 E2) in C1. apply (to_over Hp sm1 c n E2) in O1.
  apply (from_admissible m program sm' (o_sys y) row' E3) in A. rewrite <- (from_sends m sm' (o_sys y) row' E3) in L.
  destruct (order_splits _ Or) as (k1 & k2 & Ek & N1 & N2). unfold kinds in Ek. apply map_eq_app in Ek. destruct Ek as (l1 & l2 & -> & <- & <-).
  destruct (C43_back_partial p m bound program c n x l1 l2 y row0 row' Hp Hbig Hword Hm O1 St R N1 N2 Hn T Rv X1 C1 A L) as (row & A' & Ef).
  apply (to_admissible m program sm1 c row E2) in A'. exists row. assert (Ef' : same_machine_effect m row sm1 row' sm'). { intros bus args. rewrite <- (from_sends m sm' (o_sys y) row' E3), Ef, (to_sends m sm1 c row E2). reflexivity. }
  destruct (get_bus_id m BExec) as [id|] eqn:Ei; [|injection E1 as <-; split; auto; split; auto; intros id Ei'; congruence]. destruct (Bl id Ei) as (r & s & rest & On & H). pose proof (exec_back m Hm program sm sm1 id r s rest Ei On E1 row A') as A0. split; auto. split.
  { intros id' Ei'. assert (id' = id) by congruence. subst id'. exists r, s, rest. split; auto. destruct (C24_structure p sm sm1 id r s rest On E1) as (_ & _ & _ & S4). destruct (proj1 (S4 row) (proj1 A')) as [_ H1]. specialize (H row (proj1 A0)). rewrite Forall_forall in *. auto. }
  intros bus args. rewrite Ef'. apply (exec_effect m Hm sm sm1 id r s rest Ei On E1 Hids row); [apply A'|]. apply H. apply A0.
Qed.
(** C43: all fields of the optimized machine are within the degree bound for constraints, and it looks up nothing in the
    program. *)
Theorem C43_result : forall p m bound (sm sm' : smach p) n l n', map_ok p m -> optimizes m bound sm n l sm' n' ->
  Forall (fun e => adegree e <= db_identities bound) (sm_cons sm') /\
  Forall (fun b => adegree (sb_mult b) <= db_identities bound /\ Forall (fun e => adegree e <= db_identities bound) (sb_args b)) (sm_buses sm') /\
  exists pc_bus, get_bus_id m BPc = Some pc_bus /\ on_bus pc_bus sm' = [].
Proof.
  intros p m bound sm sm' n l n' Hm (sm1 & c & x & y & _ & _ & _ & _ & _ & Fc & E3 & _). unfold final_checks in Fc. apply andb_true_iff in Fc. destruct Fc as [Fc F3]. apply andb_true_iff in Fc. destruct Fc as [F1 F2].
  unfold from_system in E3. destruct (all_opt _) as [bs|] eqn:E; [|discriminate]. injection E3 as <-. apply all_opt_some in E. cbn [sm_cons sm_buses]. rewrite forallb_forall in F1, F2.
  assert (Inb : forall b, In b bs -> exists g, In g (buses (o_sys y)) /\ from_bus g = Some b). { clear - E. intros b Hb. induction E as [|g b' l l' X E IH]; [destruct Hb|]. destruct Hb as [<-|Hb]; [exists g; split; auto; now left|]. destruct (IH Hb) as (g0 & G0 & G1). exists g0. split; auto. now right. }
  split; [|split].
  - rewrite Forall_map. apply Forall_forall. intros e He. specialize (F1 e He). rewrite <- to_alg_degree in F1. destruct (to_alg e); cbn [constraint_from adegree] in *; lia.
  - apply Forall_forall. intros b Hb. destruct (Inb b Hb) as (g & Hg & Eg). specialize (F2 g Hg). rewrite forallb_forall in F2. unfold from_bus in Eg. destruct (try_to_known (bus_id g)); [|discriminate]. injection Eg as <-. cbn [sb_mult sb_args]. unfold fields in F2. split.
    + specialize (F2 (mult g) ltac:(cbn; auto)). rewrite to_alg_degree. lia.
    + rewrite Forall_map. apply Forall_forall. intros e He. specialize (F2 e ltac:(cbn; auto)). rewrite to_alg_degree. lia.
  - destruct (get_bus_id m BPc) as [i|] eqn:Ei; [|discriminate]. exists i. split; auto. destruct (on_bus i _) as [|b t] eqn:Eb; auto. exfalso. assert (I : In b (on_bus i (mkSM (map (fun e => constraint_from (to_alg e)) (algs (o_sys y))) bs (map (fun d => (fst d, from_method (snd d))) (derived (o_sys y)))))) by (rewrite Eb; now left).
    apply filter_In in I. cbn [sm_buses] in I. destruct I as [I J]. destruct (Inb b I) as (g & Hg & Eg). unfold from_bus in Eg. destruct (try_to_known (bus_id g)) as [k|] eqn:Ek; [|discriminate]. injection Eg as <-. cbn [sb_id] in J. apply negb_true_iff in F3. apply Bool.not_true_iff_false in F3. apply F3. apply existsb_exists. exists g. split; auto.
    apply gexp_eqb_eq. apply OvmBatch.known_iff in Ek. rewrite Ek. f_equal. apply F_ext. apply N.eqb_eq in J. rewrite <- J. now rewrite of_N_val.
Qed.

(** ** Examples on BabyBear *)
(** Two instructions: the first copies the register at 4 to the register at 8, the second reads it.  Columns 0 and 8 are the
    program counters, 12 and 13 the opcodes, 1 and 9 the time stamps, 3, 5 and 11 the earlier ones, 2, 4, 7 and 10 the
    values, 6 is zero. *)
Definition sub_ (x y : aexpr babybear) : aexpr babybear := ABin x OSub y.
Definition add_ (x y : aexpr babybear) : aexpr babybear := ABin x OAdd y.
Definition copy_machine : smach babybear := mkSM
  [sub_ (w_ 0) (a_ 0); sub_ (w_ 12) (a_ 17); sub_ (w_ 8) (a_ 4); sub_ (w_ 13) (a_ 18); sub_ (w_ 7) (add_ (w_ 2) (w_ 6)); sub_ (w_ 6) (a_ 0)]
  [mkSB 0 (ANeg (a_ 1)) [w_ 0; w_ 1]; mkSB 2 (a_ 1) [w_ 0; w_ 12];
   mkSB 1 (ANeg (a_ 1)) [a_ 1; a_ 4; w_ 2; w_ 3]; mkSB 1 (a_ 1) [a_ 1; a_ 4; w_ 2; w_ 1];
   mkSB 3 (a_ 1) [sub_ (sub_ (w_ 1) (w_ 3)) (a_ 1); a_ 17];
   mkSB 1 (ANeg (a_ 1)) [a_ 1; a_ 8; w_ 4; w_ 5]; mkSB 1 (a_ 1) [a_ 1; a_ 8; w_ 7; add_ (w_ 1) (a_ 1)];
   mkSB 6 (a_ 1) [w_ 7; w_ 7; a_ 0; a_ 0];
   mkSB 0 (a_ 1) [add_ (w_ 0) (a_ 4); add_ (w_ 1) (a_ 2)];
   mkSB 0 (ANeg (a_ 1)) [w_ 8; w_ 9]; mkSB 2 (a_ 1) [w_ 8; w_ 13];
   mkSB 1 (ANeg (a_ 1)) [a_ 1; a_ 8; w_ 10; w_ 11]; mkSB 1 (a_ 1) [a_ 1; a_ 8; w_ 10; w_ 9];
   mkSB 3 (a_ 1) [sub_ (sub_ (w_ 9) (w_ 11)) (a_ 1); a_ 17];
   mkSB 0 (a_ 1) [add_ (w_ 8) (a_ 4); add_ (w_ 9) (a_ 1)]] [].
Definition copy_row (v : var) : F babybear :=
  match v with
  | Orig n => of_N (nth (N.to_nat n) [0; 100; 7; 50; 9; 60; 0; 7; 4; 102; 7; 101; 17; 18] 0)%N
  | _ => 0%F
  end.
Definition copy_program (l : list (F babybear)) : Prop := map val l = [0; 17]%N \/ map val l = [4; 18]%N.
Definition copy_bound : degree_bound := mkDB 3 2.
Definition columns (sm : smach babybear) : list var := dedup (sm_refs sm).
(** A decision procedure for messages, on values. *)
Definition byteb (x : F babybear) : bool := N.ltb (val x) 256.
Definition table_check (v : busi (F babybear)) : bool :=
  match bus_type default_openvm_bus_map (val (bus_id v)), payload v with
  | Some BPc, [x; y] => N.eqb (val x) 0 && N.eqb (val y) 17 || N.eqb (val x) 4 && N.eqb (val y) 18
  | Some BVarRange, [x; bits] => N.leb (val bits) 25 && N.ltb (val x) (2 ^ val bits)
  | Some BBitwise, [x; y; z; op] => byteb x && byteb y && N.eqb (val z) 0 && N.eqb (val op) 0
  | Some BExec, _ => true
  | Some BMemory, [a; ptr; x; ts] => N.eqb (val a) 1 && N.ltb 0 (val ptr) && byteb x
  | _, _ => false
  end.
Lemma table_check_ok v : table_check v = true -> acceptable (ovm_stateful default_openvm_bus_map) (ovm_table default_openvm_bus_map copy_program) v /\ legal default_openvm_bus_map v.
Proof.
  unfold table_check. destruct (bus_type default_openvm_bus_map (val (bus_id v))) as [t|] eqn:T; [|discriminate]. apply bus_type_in in T. pose proof (stateful_type default_openvm_bus_map default_map_ok (bus_id v) t T) as St. intros H.
  assert (K : (match t with BExec | BMemory => True | BPc => copy_program (payload v) | _ => OvmSpec.accepts t fone (payload v) end) /\ OvmSpec.accepts t (mult v) (payload v)).
  { destruct t; try discriminate.
    - split; exact Logic.I.
    - destruct (payload v) as [|a [|ptr [|x [|ts [|]]]]]; try discriminate. rewrite !andb_true_iff in H. destruct H as [[H1 H2] H3]. apply N.eqb_eq in H1. apply N.ltb_lt in H2, H3. split; [exact Logic.I|]. exists a, ptr, [x], ts. split; [reflexivity|]. split; [discriminate|]. split; [rewrite H1; reflexivity|]. intros _. split; [intros _; repeat constructor; exact H3|intros _ Z; lia].
    - destruct (payload v) as [|x [|y [|]]]; try discriminate. split; [|exact Logic.I]. unfold copy_program. cbn [map]. apply orb_true_iff in H. rewrite !andb_true_iff, !N.eqb_eq in H. destruct H as [[-> ->]|[-> ->]]; auto.
    - destruct (payload v) as [|x [|bits [|]]]; try discriminate. apply andb_true_iff in H. destruct H as [H1 H2]. apply N.leb_le in H1. apply N.ltb_lt in H2. split; exists x, bits; auto.
    - destruct (payload v) as [|x [|y [|z [|op [|]]]]]; try discriminate. rewrite !andb_true_iff, !N.eqb_eq in H. destruct H as [[[H1 H2] H3] H4]. apply N.ltb_lt in H1, H2. split; exists x, y, z, op; repeat split; auto. }
  destruct K as [K1 K2]. split.
  - intros Ns _. exists t. split; auto. assert (Ns' : match t with BExec | BMemory => true | _ => false end = false) by (transitivity (ovm_stateful default_openvm_bus_map (bus_id v)); [symmetry; exact St|exact Ns]). destruct t; auto; discriminate.
  - right. exists t. auto.
Qed.
Lemma copy_messages (sm : smach babybear) row : forallb table_check (machine_values sm row) = true ->
  Forall (acceptable (ovm_stateful default_openvm_bus_map) (ovm_table default_openvm_bus_map copy_program)) (machine_values sm row) /\ Forall (legal default_openvm_bus_map) (machine_sends default_openvm_bus_map sm row).
Proof.
  intros H. rewrite forallb_forall in H. split; apply Forall_forall; intros v I; [apply table_check_ok; auto|]. apply filter_In in I. apply table_check_ok. apply H. apply I.
Qed.
Lemma copy_accepts (sm : smach babybear) row : forallb (fun e => feqb (aeval row e) 0) (sm_cons sm) = true -> SymSpec.accepts sm row.
Proof. intros H. rewrite forallb_forall in H. apply Forall_forall. intros e I. apply feqb_eq. auto. Qed.
Lemma one_bb : fopp 1%F <> (1 : F babybear)%F.
Proof. intros E. apply (f_equal val) in E. vm_compute in E. discriminate. Qed.
(** The whole example, as a computation. *)
Definition copy_checks (r : option (list (step babybear) * smach babybear * nat)) : bool :=
  match r with
  | Some (l, sm', n') => forallb (step_checked default_openvm_bus_map) l && Nat.eqb n' 14 && Nat.eqb (length (columns sm')) 5 && Nat.eqb (length (sm_buses sm')) 7 && Nat.eqb (length (sm_cons sm')) 0 &&
      forallb table_check (machine_values sm' copy_row)
  | None => false
  end.
Lemma copy_checks_some r : copy_checks r = true -> exists l sm', r = Some (l, sm', 14) /\ forallb (step_checked default_openvm_bus_map) l = true /\ length (columns sm') = 5 /\ length (sm_buses sm') = 7 /\ length (sm_cons sm') = 0 /\
  forallb table_check (machine_values sm' copy_row) = true.
Proof.
  destruct r as [[[l sm'] n']|]; [|discriminate]. unfold copy_checks. rewrite !andb_true_iff, !Nat.eqb_eq. intros [[[[[C1 ->] C3] C4] C5] C6]. exists l, sm'. repeat (split; [first [reflexivity|assumption]|]). exact C6.
Qed.
(** The run of the optimizer with two rounds of the loop. *)
Lemma copy_checks_true : copy_checks (do_optimize default_openvm_bus_map copy_bound 100 1 copy_machine 14) = true.
Proof. vm_compute. reflexivity. Qed.
Lemma copy_run : exists l sm', optimizes default_openvm_bus_map copy_bound copy_machine 14 l sm' 14 /\ forallb (step_checked default_openvm_bus_map) l = true /\ length (columns sm') = 5 /\ length (sm_buses sm') = 7 /\ length (sm_cons sm') = 0 /\
  forallb table_check (machine_values sm' copy_row) = true.
Proof.
  destruct (copy_checks_some _ copy_checks_true) as (l & sm' & E & H). exists l, sm'. split; [exact (do_optimize_sound default_openvm_bus_map copy_bound 100 1 copy_machine 14 l sm' 14 E)|exact H].
Qed.
Lemma copy_over : machine_over 14 copy_machine.
Proof.
  assert (K : forall e : aexpr babybear, forallb (fun v => match v with Orig k => N.ltb k 14 | _ => false end) (arefs e) = true -> forall v, occurs v e -> issued 14 v).
  { intros e H v Hv. rewrite forallb_forall in H. assert (I : In v (arefs e)) by (clear H; induction e as [w|k|x IHx o y IHy|x IHx]; cbn [occurs arefs] in *; [now left|destruct Hv|apply in_app_iff; destruct Hv; auto|auto]).
    specialize (H v I). destruct v as [k| |]; try discriminate. apply N.ltb_lt in H. exists (N.to_nat k). split; [now rewrite N2Nat.id|lia]. }
  split; [|intros d []]. intros v [H|H]; apply Exists_exists in H; destruct H as (e & I & H).
  - apply (K e); auto. assert (X : forallb (fun e => forallb (fun v => match v with Orig k => N.ltb k 14 | _ => false end) (arefs e)) (sm_cons copy_machine) = true) by (vm_compute; reflexivity). rewrite forallb_forall in X. now apply X.
  - assert (X : forallb (fun b => forallb (fun e => forallb (fun v => match v with Orig k => N.ltb k 14 | _ => false end) (arefs e)) (sb_children b)) (sm_buses copy_machine) = true) by (vm_compute; reflexivity). rewrite forallb_forall in X. specialize (X e I). rewrite forallb_forall in X. destruct H as [H|H].
    + apply (K (sb_mult e)); auto. apply X. now left.
    + apply Exists_exists in H. destruct H as (x & Ix & H). apply (K x); auto. apply X. now right.
Qed.
Example C43_example : exists l sm', optimizes default_openvm_bus_map copy_bound copy_machine 14 l sm' 14 /\
  map_ok babybear default_openvm_bus_map /\ machine_over 14 copy_machine /\
  Forall (tests_right default_openvm_bus_map copy_bound) l /\ Forall (reversible default_openvm_bus_map copy_program) l /\
  machine_execution default_openvm_bus_map copy_program copy_row copy_machine /\ machine_computed copy_row copy_machine /\
  chained default_openvm_bus_map copy_row copy_machine /\ balanced default_openvm_bus_map copy_machine /\
  length (columns copy_machine) = 14 /\ length (columns sm') = 5 /\ length (sm_buses copy_machine) = 15 /\ length (sm_buses sm') = 7 /\ length (sm_cons sm') = 0 /\
  machine_admissible default_openvm_bus_map copy_program copy_row sm' /\ Forall (legal default_openvm_bus_map) (machine_sends default_openvm_bus_map sm' copy_row).
Proof.
  destruct copy_run as (l & sm' & O & C1 & C3 & C4 & C5 & C6). exists l, sm'. split; [exact O|]. split; [exact default_map_ok|]. split; [exact copy_over|].
  assert (R : Forall (tests_right default_openvm_bus_map copy_bound) l /\ Forall (reversible default_openvm_bus_map copy_program) l). { destruct O as (sm1 & c & x & y & _ & _ & _ & R & _). exact (checked_all _ _ copy_program x l y R C1). }
  destruct R as [R1 R2]. split; auto. split; auto. destruct (copy_messages copy_machine copy_row) as [M1 M2]; [vm_compute; reflexivity|]. split; [|split; [constructor|split; [|split]]].
  - split; [split; auto; apply copy_accepts; vm_compute; reflexivity|]. split; auto. intros id G. assert (id = 1%N) by (cbn in G; congruence). subst id. apply chronological_check; [exact one_bb|]. vm_compute. reflexivity.
  - intros id G. assert (id = 0%N) by (cbn in G; congruence). subst id. exists (mkSB 0 (ANeg (a_ 1)) [w_ 0; w_ 1]), (mkSB 0 (a_ 1) [add_ (w_ 0) (a_ 4); add_ (w_ 1) (a_ 2)]), [(mkSB 0 (ANeg (a_ 1)) [w_ 8; w_ 9], mkSB 0 (a_ 1) [add_ (w_ 8) (a_ 4); add_ (w_ 9) (a_ 1)])].
    split; [reflexivity|]. constructor; [|constructor]. cbn [fst snd sb_args sb_mult map]. split; [|apply F_ext; vm_compute; reflexivity]. apply (f_equal2 cons); [apply F_ext; vm_compute; reflexivity|]. apply (f_equal2 cons); [apply F_ext; vm_compute; reflexivity|reflexivity].
  - intros id G. assert (id = 0%N) by (cbn in G; congruence). subst id. exists (mkSB 0 (ANeg (a_ 1)) [w_ 0; w_ 1]), (mkSB 0 (a_ 1) [add_ (w_ 0) (a_ 4); add_ (w_ 1) (a_ 2)]), [(mkSB 0 (ANeg (a_ 1)) [w_ 8; w_ 9], mkSB 0 (a_ 1) [add_ (w_ 8) (a_ 4); add_ (w_ 9) (a_ 1)])].
    split; [reflexivity|]. intros row _. constructor; [|constructor]. apply F_ext; vm_compute; reflexivity.
  - split; [vm_compute; reflexivity|]. split; auto. split; [reflexivity|]. split; auto. split; auto. destruct (copy_messages sm' copy_row C6) as [M3 M4]. split; auto. split; auto. apply copy_accepts. apply length_zero_iff_nil in C5. now rewrite C5.
Qed.
Print Assumptions C43_forward. Print Assumptions C43_back_partial. Print Assumptions C43_machine_forward. Print Assumptions C43_machine_back_partial. Print Assumptions C43_result.
