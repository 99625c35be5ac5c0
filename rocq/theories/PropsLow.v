(** C25: replacement of lookups by low-degree constraints. *)
From Coq Require Import Arith NArith ZArith Znumtheory Bool List Lia.
From Verif Require Import Field Primes RangeModel ExprModel ExprFacts ExprWf SolveModel SystemModel Spec Bridge BusModel BaseModel BaseFacts SolverSpec BaseSolve OvmModel OvmSpec OvmFacts PropsOvm
  PassSpec LowModel LowSpec LowFacts LowSem LowOvm LowUnique PropsMem PropsPass.
Import ListNotations.
Local Open Scope nat_scope.

(** Every assignment that satisfies the constraints and the lookups, and for which the range constraints of the solver hold, satisfies the replacement
    and sends the same, for every handler that excludes no tuple of the tables. *)
Theorem C25_carries_over : forall p handler stateful legal make g rq bound (c c' : csys p) s, low_degree handler stateful make g rq bound c = Some c' ->
  lookup_sound stateful legal handler -> checks_ranges stateful legal make ->
  (forall b e, In b (buses c) -> In e (fields b) -> rc_allows (range_constraint g e) (eval s e) /\ rc_allows (rq e) (eval s e)) ->
  carries_over stateful legal c c' s.
Proof. intros p handler stateful legal make g rq bound c c' s H Hh Hm Hg. eapply low_forward; eauto. Qed.
(** Every assignment that satisfies the replacement satisfies the original and sends the same, whatever the range constraints of the solver are, if the
    handler knows the tables, constants are in their domain and no other field is known to have only one value. *)
Theorem C25_back : forall p handler stateful legal make dom g rq bound (c c' : csys p) s, low_degree handler stateful make g rq bound c = Some c' ->
  knows_tables stateful legal dom handler -> checks_ranges stateful legal make -> checks_domain dom make -> lookups_ok stateful dom g c ->
  admissible stateful legal s c' -> admissible stateful legal s c /\ sends stateful s c' = sends stateful s c.
Proof. intros p handler stateful legal make dom g rq bound c c' s H Hk Hm Hd Hok A. eapply low_backward; eauto. Qed.
(** New constraints are within the degree bound; nothing else changes apart from lookups. *)
Theorem C25_degree : forall p handler stateful make g rq bound (c c' : csys p), low_degree handler stateful make g rq bound c = Some c' ->
  derived c' = derived c /\ exists new, algs c' = algs c ++ new /\ Forall (fun e => degree e <= bound) new.
Proof. intros p handler stateful make g rq bound c c' H. eapply low_degree_ok; eauto. Qed.
(** It does not panic (there is never more than one hypothesis left) if every non-constant field may have at least two values. *)
Theorem C25_no_panic : forall p handler stateful make g rq bound (c : csys p), prime (Z.pos p) -> (2 ^ 17 < N.pos p)%N ->
  (forall x, length (payload (handler x)) = length (payload x)) -> (forall rs, make rs <> MakePanic) ->
  (forall b e, In b (buses c) -> In e (payload b) -> try_to_known e = None -> exists x y, x <> y /\ rc_allows (rq e) x /\ rc_allows (rq e) y) ->
  exists c', low_degree handler stateful make g rq bound c = Some c'.
Proof. intros p handler stateful make g rq bound c Hp Hb Hl Hm H2. apply (low_total Hp Hb); auto. Qed.

(** With the handler and the range checks of OpenVM, and the solver of this repository after any history of operations, and for every program table: assignments that satisfy
    these operations and the original satisfy the result, and all assignments that satisfy the result satisfy the original. *)
Theorem C25_openvm : forall (p : positive) m program fuel (os : list (sop p)) l st bound (c c' : csys p) s, prime (Z.pos p) -> (2 ^ 26 < N.pos p <= 2 ^ 64)%N -> map_ok p m ->
  Forall op_ok os -> solver_run (ovm_total m) fuel os base_new = (l, Done st) -> Forall (fun b => Forall user_expr (fields b)) (buses c) ->
  lookups_ok (ovm_stateful m) (ovm_domain m) (rcget st) c ->
  low_degree (ovm_total m) (ovm_stateful m) (batch_make m) (rcget st) (range_query st) bound c = Some c' ->
  (Forall (op_holds (legal m) s) os -> carries_over (ovm_stateful m) (ovm_table m program) c c' s) /\
  (admissible (ovm_stateful m) (ovm_table m program) s c' -> admissible (ovm_stateful m) (ovm_table m program) s c /\ sends (ovm_stateful m) s c' = sends (ovm_stateful m) s c).
Proof.
  intros p m program fuel os l st bound c c' s Hp [Hbig H64] Hm U E Uc Hok H. assert (HB : (2 < N.pos p <= 2 ^ 64)%N) by (split; auto; change (2 ^ 26)%N with 67108864%N in Hbig; lia). split.
  - intros Hs. destruct (solver_state p (legal m) (ovm_total m) fuel os l st Hp HB (ovm_total_sound Hbig m Hm) U E) as [W S]. destruct (S s Hs) as (s' & X & Sat).
    apply (C25_carries_over p _ _ (ovm_table m program) _ _ _ _ _ _ s H (ovm_lookup_sound Hbig m program Hm) (ovm_checks_ranges Hbig m program Hm)).
    intros b e Hb He. rewrite Forall_forall in Uc. specialize (Uc b Hb). rewrite Forall_forall in Uc. specialize (Uc e He). rewrite <- (user_eval s s' e X Uc). split; [|now apply (range_query_ok (legal m))].
    apply b_expr_rc. intros v _. now apply (rcget_allows (legal m)).
  - exact (C25_back p _ _ (ovm_table m program) _ (ovm_domain m) _ _ _ _ _ s H (ovm_knows_tables Hbig m program Hm) (ovm_checks_ranges Hbig m program Hm) (ovm_checks_domain Hbig m program Hm) Hok).
Qed.

(** *** Where it fails *)
(** An input with a single value makes several hypotheses agree: [v0 = 0], [v1] a bit, [v2 = v0 xor v1]. *)
Definition single_ranges (v : var) : rc babybear := match v with Orig 0 => from_value 0%F | Orig 1 => from_mask 1 | Orig _ => from_mask 255 | _ => unconstrained end.
Definition xor_bus (x y z : gexp babybear) : busi (gexp babybear) := mkBus (n_ 6) (n_ 1) [x; y; z; n_ 1].
Theorem C25_single_input_refuted : exists (c : csys babybear) s, low_degree (ovm_total default_openvm_bus_map) (ovm_stateful default_openvm_bus_map) (batch_make default_openvm_bus_map) single_ranges (range_constraint single_ranges) 3 c = None /\
  admissible (ovm_stateful default_openvm_bus_map) (ovm_table default_openvm_bus_map (fun _ => False)) s c /\ (forall v, In v (sys_vars c) -> rc_allows (single_ranges v) (s v)).
Proof.
  exists (mkCS [] [xor_bus (v_ 0) (v_ 1) (v_ 2)] []), (fun _ => 0%F). split; [vm_compute; reflexivity|]. split.
  - split; [constructor|]. constructor; [|constructor]. intros _ _. exists BBitwise. split; [cbn; tauto|]. eexists _, _, _, _. split; [reflexivity|]. split; [vm_compute; reflexivity|]. split; [vm_compute; reflexivity|]. right. split; vm_compute; reflexivity.
  - intros v Hv. apply rc_allows_iff. cbv in Hv. repeat (destruct Hv as [<-|Hv]; [vm_compute; reflexivity|]). destruct Hv.
Qed.
(** A lookup in a table that the handler knows nothing about is dropped if the solver has derived the values of its fields. *)
Definition zero_ranges (v : var) : rc babybear := match v with Orig _ => from_value 0%F | _ => unconstrained end.
Theorem C25_unknown_table_refuted : exists (c c' : csys babybear) s, low_degree (ovm_total default_openvm_bus_map) (ovm_stateful default_openvm_bus_map) (batch_make default_openvm_bus_map) zero_ranges (range_constraint zero_ranges) 3 c = Some c' /\
  let program pl := pl = [of_N 4; of_N 5] in
  admissible (ovm_stateful default_openvm_bus_map) (ovm_table default_openvm_bus_map program) s c' /\ ~ admissible (ovm_stateful default_openvm_bus_map) (ovm_table default_openvm_bus_map program) s c.
Proof.
  exists (mkCS [] [mkBus (n_ 2) (n_ 1) [v_ 0; v_ 1]] []). eexists. exists (fun _ => 0%F). split; [vm_compute; reflexivity|]. cbn zeta. split.
  - split; [apply sys_solves_dec; vm_compute; reflexivity|]. constructor; [|constructor]. intros _ _. exists BVarRange. split; [cbn; tauto|]. eexists _, _. split; [reflexivity|]. split; vm_compute; [discriminate|reflexivity].
  - intros [_ H]. inversion H as [|? ? X _]; subst. destruct X as (t & I & A); [vm_compute; reflexivity|discriminate|].
    assert (t = BPc) by (change (In (2%N, t) default_openvm_bus_map) in I; cbn in I; intuition congruence). subst t. discriminate (f_equal (map val) A).
Qed.
(** A constant operand that is not a byte: the lookup has no solution, the constraint that replaces it has. *)
Definition byte_ranges (v : var) : rc babybear := match v with Orig 0 => from_mask 255 | _ => unconstrained end.
Theorem C25_wide_constant_refuted : exists (c c' : csys babybear) s, low_degree (ovm_total default_openvm_bus_map) (ovm_stateful default_openvm_bus_map) (batch_make default_openvm_bus_map) byte_ranges (range_constraint byte_ranges) 3 c = Some c' /\
  let program pl := False in
  admissible (ovm_stateful default_openvm_bus_map) (ovm_table default_openvm_bus_map program) s c' /\ forall s', ~ admissible (ovm_stateful default_openvm_bus_map) (ovm_table default_openvm_bus_map program) s' c.
Proof.
  exists (mkCS [] [xor_bus (n_ 65535) (v_ 0) (v_ 1)] []). eexists. exists (fun v => match v with Orig 0 => 0%F | _ => of_N 65535 end). split; [vm_compute; reflexivity|]. cbn zeta. split.
  - split; [apply sys_solves_dec; vm_compute; reflexivity|]. constructor; [|constructor]. intros _ _. exists BBitwise. split; [cbn; tauto|]. eexists _, _, _, _. split; [reflexivity|]. split; [vm_compute; reflexivity|]. split; [vm_compute; reflexivity|]. left. split; vm_compute; reflexivity.
  - intros s' [_ H]. inversion H as [|? ? X _]; subst. destruct X as (t & I & A); [vm_compute; reflexivity|discriminate|].
    assert (t = BBitwise) by (change (In (6%N, t) default_openvm_bus_map) in I; cbn in I; intuition congruence). subst t. destruct A as (x & y & z & op & E & Bx & _). injection E as <- _ _ _. vm_compute in Bx. discriminate.
Qed.

(** *** The hypotheses are met: XOR of two bits. *)
Definition bit_ranges (v : var) : rc babybear := match v with Orig 0 | Orig 1 => from_mask 1 | Orig _ => from_mask 255 | _ => unconstrained end.
Definition low_sys : csys babybear := mkCS [] [xor_bus (v_ 0) (v_ 1) (v_ 2); xor_bus (n_ 255) (v_ 3) (v_ 4); mkBus (n_ 1) (n_ 1) [n_ 1; v_ 2; v_ 4; n_ 3]] [].
Definition low_s (v : var) : F babybear := match v with Orig 0 => of_N 1 | Orig 1 => of_N 0 | Orig 2 => of_N 1 | Orig 3 => of_N 5 | _ => of_N 250 end.
Example low_example : exists c', low_degree (ovm_total default_openvm_bus_map) (ovm_stateful default_openvm_bus_map) (batch_make default_openvm_bus_map) bit_ranges (range_constraint bit_ranges) 2 low_sys = Some c' /\
  algs c' = [gsub (v_ 2) (gsub (gadd (v_ 0) (v_ 1)) (gmul (n_ 2) (gmul (v_ 0) (v_ 1)))); gsub (v_ 4) (gsub (n_ 255) (v_ 3))] /\
  map payload (buses c') = [[v_ 0; n_ 1]; [v_ 1; n_ 1]; [v_ 3; n_ 0; n_ 0; n_ 0]; [n_ 1; v_ 2; v_ 4; n_ 3]] /\
  lookups_ok (ovm_stateful default_openvm_bus_map) (ovm_domain default_openvm_bus_map) bit_ranges low_sys /\
  (forall b e, In b (buses low_sys) -> In e (fields b) -> rc_allows (range_constraint bit_ranges e) (eval low_s e)) /\
  admissible (ovm_stateful default_openvm_bus_map) (ovm_table default_openvm_bus_map (fun _ => False)) low_s low_sys.
Proof.
  eexists. split; [vm_compute; reflexivity|]. split; [vm_compute; reflexivity|]. split; [vm_compute; reflexivity|]. split; [|split].
  - intros b i e Hb Hi Hs He. cbn in Hb. repeat (destruct Hb as [<-|Hb]; [cbn in He; repeat (destruct He as [<-|He]; [vm_compute; try reflexivity; intros _; reflexivity|]); destruct He|]). destruct Hb.
  - intros b e Hb He. apply rc_allows_iff. cbn in Hb. repeat (destruct Hb as [<-|Hb]; [cbn in He; repeat (destruct He as [<-|He]; [vm_compute; reflexivity|]); destruct He|]). destruct Hb.
  - split; [constructor|]. constructor; [|constructor; [|constructor; [|constructor]]].
    + intros _ _. exists BBitwise. split; [cbn; tauto|]. eexists _, _, _, _. split; [reflexivity|]. split; [vm_compute; reflexivity|]. split; [vm_compute; reflexivity|]. right. split; vm_compute; reflexivity.
    + intros _ _. exists BBitwise. split; [cbn; tauto|]. eexists _, _, _, _. split; [reflexivity|]. split; [vm_compute; reflexivity|]. split; [vm_compute; reflexivity|]. right. split; vm_compute; reflexivity.
    + intros X. vm_compute in X. discriminate.
Qed.
(** With the ranges of the solver, which derives them from range checks. *)
Definition low_ops : list (sop babybear) := [AddBuses [mkBus (n_ 3) (n_ 1) [v_ 0; n_ 1]; mkBus (n_ 3) (n_ 1) [v_ 1; n_ 1]]; AddBuses (buses low_sys); Solve].
Definition low_state : bsolver babybear := match solver_run (ovm_total default_openvm_bus_map) 20 low_ops base_new with (_, Done st) => st | _ => base_new end.
Example low_solver_example : exists l c', solver_run (ovm_total default_openvm_bus_map) 20 low_ops base_new = (l, Done low_state) /\
  low_degree (ovm_total default_openvm_bus_map) (ovm_stateful default_openvm_bus_map) (batch_make default_openvm_bus_map) (rcget low_state) (range_query low_state) 2 low_sys = Some c' /\
  length (algs c') = 2 /\ Forall op_ok low_ops /\ Forall (fun b => Forall user_expr (fields b)) (buses low_sys) /\
  lookups_ok (ovm_stateful default_openvm_bus_map) (ovm_domain default_openvm_bus_map) (rcget low_state) low_sys.
Proof.
  assert (K : forall e : gexp babybear, wf e -> forallb is_orig (vars e) = true -> user_expr e).
  { intros e A B. split; auto. rewrite forallb_forall in B. exact B. }
  eexists _, _. split; [vm_compute; reflexivity|]. split; [vm_compute; reflexivity|]. split; [vm_compute; reflexivity|]. split; [|split].
  - apply Forall_cons; [|apply Forall_cons; [|repeat constructor]]; repeat (apply Forall_cons || apply Forall_nil); (apply K; [first [apply wf_from_var | apply wf_from_number]; apply prime_babybear|vm_compute; reflexivity]).
  - repeat (apply Forall_cons || apply Forall_nil); (apply K; [first [apply wf_from_var | apply wf_from_number]; apply prime_babybear|vm_compute; reflexivity]).
  - intros b i e Hb Hi Hs He. cbn in Hb. repeat (destruct Hb as [<-|Hb]; [cbn in He; repeat (destruct He as [<-|He]; [vm_compute; try reflexivity; intros _; reflexivity|]); destruct He|]). destruct Hb.
Qed.
Print Assumptions C25_carries_over. Print Assumptions C25_back. Print Assumptions C25_degree. Print Assumptions C25_no_panic. Print Assumptions C25_openvm.
Print Assumptions C25_single_input_refuted. Print Assumptions C25_unknown_table_refuted. Print Assumptions C25_wide_constant_refuted.
