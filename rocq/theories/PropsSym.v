(** C30, C31, C32: expression conversion, guards, column allocation. *)
From Coq Require Import Arith NArith ZArith Znumtheory Bool List Lia ZifyBool ZifyNat ZifyN.
From Verif Require Import Field Primes ExprModel ExprFacts ExprWf ExprMore SystemModel Spec SymModel SymSpec SymFacts.
Import ListNotations.
Local Open Scope nat_scope.

(** C30: grouping an algebraic expression keeps its value in every row, and so does printing a grouped
    expression as an algebraic one. *)
Theorem C30_expression : forall p (row : var -> F p),
  (forall e, eval row (to_grouped e) = aeval row e) /\
  (forall g, aeval row (to_alg g) = eval row g) /\
  (forall e, aeval row (to_alg (to_grouped e)) = aeval row e).
Proof. intros p row. split; [apply to_grouped_eval|]. split; [apply to_alg_eval|]. intros e. now rewrite to_alg_eval, to_grouped_eval. Qed.
(** C30: no column appears and no degree grows; a grouped expression and its printed form have the same degree. *)
Theorem C30_shape : forall p,
  (forall (e : aexpr p) v, In v (vars (to_grouped e)) -> occurs v e) /\
  (forall (g : gexp p) v, occurs v (to_alg g) -> In v (vars g)) /\
  (forall e : aexpr p, degree (to_grouped e) <= adegree e) /\
  (forall g : gexp p, adegree (to_alg g) = degree g) /\
  (prime (Z.pos p) -> forall e : aexpr p, wf (to_grouped e)).
Proof.
  intros p. split; [intros e v; apply to_grouped_vars|]. split; [intros g v; apply to_alg_refs|]. split; [apply to_grouped_degree|]. split; [apply to_alg_degree|]. intros Hp e. now apply to_grouped_wf.
Qed.
(** C30: removing an outer negation keeps when a constraint is satisfied. *)
Theorem C30_constraint : forall p (row : var -> F p) e, aeval row (constraint_from e) = 0%F <-> aeval row e = 0%F.
Proof. intros. apply constraint_from_zero. Qed.
(** C30: a machine is turned into a constraint system with the same solutions, bus interactions and derived values … *)
Theorem C30_to_system : forall p (m : smach p),
  (Forall (fun b => (sb_id b < N.pos p)%N) (sm_buses m) <-> to_system m <> None) /\
  forall c, to_system m = Some c -> forall row,
    (sys_solves row c <-> accepts m row) /\
    bus_values row c = map (fun g => mkBus (of_N (fst (fst g))) (snd (fst g)) (snd g)) (messages m row) /\
    derived_values row c = derived_columns m row.
Proof.
  intros p m. split.
  - split.
    + intros H E. destruct (roundtrip_ok m H) as (c & m' & E' & _). congruence.
    + intros H. apply Forall_forall. intros b Hb. destruct (N.ltb_spec (sb_id b) (N.pos p)) as [L|L]; auto. exfalso. apply H. unfold to_system.
      assert (all_opt (map to_bus (sm_buses m)) = None) as ->; auto. clear H. induction (sm_buses m) as [|x l IH]; [destruct Hb|]. cbn [map all_opt]. destruct Hb as [->|Hb]; [unfold to_bus at 1; rewrite (proj2 (N.ltb_ge _ _)) by lia; reflexivity|]. rewrite IH by auto. now destruct (to_bus x).
  - intros c Hc row. destruct (to_system_ok m c Hc) as (A & B & C). auto.
Qed.
(** … and back; it panics only if a bus id is not a number. *)
Theorem C30_from_system : forall p (c : csys p) m, from_system c = Some m -> forall row,
  (accepts m row <-> sys_solves row c) /\
  bus_values row c = map (fun g => mkBus (of_N (fst (fst g))) (snd (fst g)) (snd g)) (messages m row) /\
  derived_columns m row = derived_values row c.
Proof. intros p c m H row. destruct (from_system_ok c m H) as (A & B & C). auto. Qed.
(** C30: there and back again, a machine accepts the same rows, sends the same messages and derives the same columns. *)
Theorem C30_machine_roundtrip : forall p (m : smach p), Forall (fun b => (sb_id b < N.pos p)%N) (sm_buses m) ->
  exists c m', to_system m = Some c /\ from_system c = Some m' /\ forall row,
    (accepts m' row <-> accepts m row) /\ messages m' row = messages m row /\ derived_columns m' row = derived_columns m row.
Proof. intros p m H. destruct (roundtrip_ok m H) as (c & m' & A & B & C). exists c, m'. auto. Qed.
(** C30: converting the numbers of a machine along an embedding of fields commutes with its meaning. *)
Theorem C30_field_conversion : forall p q (f : F p -> F q), f 0%F = 0%F ->
  (forall a b, f (a + b)%F = (f a + f b)%F) -> (forall a b, f (a - b)%F = (f a - f b)%F) -> (forall a b, f (a * b)%F = (f a * f b)%F) -> (forall a, f (fopp a) = fopp (f a)) ->
  (forall a b, f a = f b -> a = b) ->
  forall (m : smach p) row, let row' := fun v => f (row v) in
    (accepts (sm_conv f m) row' <-> accepts m row) /\
    messages (sm_conv f m) row' = map (fun g => (fst (fst g), f (snd (fst g)), map f (snd g))) (messages m row).
Proof. intros p q f f0 fa fs fm fo fi m row. split; [apply conv_accepts; auto|apply conv_messages; auto]. Qed.

(** C31: with the flag 1, the guarded machine accepts the same rows and sends the same messages; the flag is a
    new column of which the witness generator is told that it is 1. *)
Theorem C31_flag_one : forall p (m : smach p) next m' next', add_guards m next = Some (m', next') ->
  let flag := Orig next in
  next' = (next + 1)%N /\
  (forall row, row flag = 1%F -> (accepts m' row <-> accepts m row) /\ messages m' row = messages m row) /\
  (forall row, derived_columns m' row = derived_columns m row ++ [(flag, 1%F)]) /\
  (forall v, column_of m' v -> column_of m v \/ v = flag).
Proof. intros p m next m' next' H flag. destruct (add_guards_ok m next m' next' H) as (A & B & _ & _ & _ & C & D & _). auto. Qed.
(** C31: with the flag 0, no satisfying row sends a message. *)
Theorem C31_flag_zero : forall p (m : smach p) next m' next', add_guards m next = Some (m', next') ->
  forall row, row (Orig next) = 0%F -> accepts m' row -> Forall (fun g => snd (fst g) = 0%F) (messages m' row).
Proof. intros p m next m' next' H. apply (add_guards_ok m next m' next' H). Qed.
(** C31: the row of zeros is satisfying. *)
Theorem C31_zero_row : forall p (m : smach p) next m' next', add_guards m next = Some (m', next') -> accepts m' (fun _ => 0%F).
Proof. intros p m next m' next' H. apply (add_guards_ok m next m' next' H). Qed.
(** C31: the flag is 0 or 1 in every satisfying row. *)
Theorem C31_flag_boolean : forall p (m : smach p) next m' next', prime (Z.pos p) -> add_guards m next = Some (m', next') ->
  forall row, accepts m' row -> row (Orig next) = 0%F \/ row (Orig next) = 1%F.
Proof. intros p m next m' next' Hp H row. apply (add_guards_ok m next m' next' H); auto. Qed.
(** C31: if the flag is a new column, every row of the machine is a row of the guarded machine once the flag is
    set: guarding loses no execution. *)
Theorem C31_complete : forall p (m : smach p) next m' next', add_guards m next = Some (m', next') ->
  (forall n, column_of m (Orig n) -> (n < next)%N) ->
  forall row, let row' := fun v => if veqb v (Orig next) then 1%F else row v in
    (accepts m' row' <-> accepts m row) /\ messages m' row' = messages m row.
Proof.
  intros p m next m' next' H Hf row row'. destruct (add_guards_ok m next m' next' H) as (_ & B & _). destruct (B row') as [B1 B2]; [unfold row'; now rewrite veqb_refl|].
  assert (X : forall e, In e (sm_children m) -> aeval row' e = aeval row e).
  { intros e He. apply aeval_ext. intros v Hv. unfold row'. destruct (veqb v (Orig next)) eqn:E; auto. apply veqb_eq in E. subst v. exfalso. enough (next < next)%N by lia. apply Hf. apply column_children. eauto. }
  rewrite B1, B2. unfold sm_children in X. split.
  - unfold accepts. rewrite !Forall_forall. split; intros A e He; rewrite <- (A e He); [symmetry|]; apply X; apply in_or_app; auto.
  - unfold messages. apply map_ext_in. intros b Hb. unfold message. rewrite (X (sb_mult b)) by (apply in_or_app; right; apply in_flat_map; exists b; cbn; auto). f_equal. apply map_ext_in. intros e He. apply X. apply in_or_app. right. apply in_flat_map. exists b. cbn. auto.
Qed.
(** C31: guarding an optimized machine does not raise its degree if the multiplicities are below it. *)
Theorem C31_degree : forall p (c : csys p) m next m' next' d, from_system c = Some m -> Forall wf (algs c) ->
  add_guards m next = Some (m', next') -> 2 <= d -> sm_degree m <= d -> (forall b, In b (sm_buses m) -> adegree (sb_mult b) < d) -> sm_degree m' <= d.
Proof. intros p c m next m' next' d. apply add_guards_degree. Qed.
(** C31: guarding panics for a machine whose multiplicities have the degree of the machine: the constraint that
    ties a multiplicity to the flag is one degree higher. *)
Theorem C31_degree_refuted : exists m : smach babybear,
  (forall row, accepts m row) /\ sm_degree m = 1 /\ (forall n, column_of m (Orig n) -> (n < 1)%N) /\ add_guards m 1 = None.
Proof.
  exists (mkSM [] [mkSB 7 (ARef (Orig 0)) []] []). split; [constructor|]. split; [reflexivity|]. split; [|vm_compute; reflexivity].
  intros n [H|H]; inversion H as [? ? H1|? ? H1]; cbn in H1; [|inversion H1]. destruct H1 as [[= <-]|H1]; [lia|inversion H1].
Qed.

(** C32: the machine of every instruction of a block gets its own consecutive ids, after those of the
    instructions before; the allocator continues after the last one.  The new machine accepts a row exactly if
    the old one accepts the part of the row that starts at its first id (with the program row and the execution
    bus multiplicity fixed), and sends the same messages. *)
Theorem C32_block : forall p pc_bus exec_bus (instrs : list (smach p * list (F p))) ms a,
  Forall (fun i => forall v, column_of (fst i) v -> exists n, v = Orig n) instrs ->
  statements_to_machines pc_bus exec_bus instrs = Some (ms, a) ->
  length ms = length instrs /\ length (al_subs a) = length instrs /\
  exists start : nat -> N, start 0 = 0%N /\ al_next a = start (length instrs) /\
  forall i m row, nth_error instrs i = Some (m, row) -> exists width m', has_width m width /\ nth_error ms i = Some m' /\
    start (i + 1) = (start i + N.of_nat width)%N /\
    nth_error (al_subs a) i = Some (map (fun c => (start i + N.of_nat c)%N) (seq 0 width)) /\
    (forall v, column_of m' v <-> exists n, v = Orig n /\ (start i <= n)%N /\ (n < start (i + 1)%nat)%N) /\
    (forall r, accepts m' r <-> accepts_instruction pc_bus exec_bus (m, row) (columns_from (start i) r)) /\
    (forall r, messages m' r = messages m (columns_from (start i) r)).
Proof.
  intros p pc_bus exec_bus instrs ms a Ho. unfold statements_to_machines. destruct (block_machines pc_bus exec_bus 0 instrs) as [[[ms' ss] n]|] eqn:E; [|discriminate]. intros [= <- <-]. cbn [al_subs al_next]. apply block_laid_out in E; [|exact Ho]. clear Ho.
  assert (G : forall o, laid_out pc_bus exec_bus o instrs ms' ss n -> length ms' = length instrs /\ length ss = length instrs /\
    exists start : nat -> N, start 0 = o /\ n = start (length instrs) /\
    forall i m row, nth_error instrs i = Some (m, row) -> exists width m', has_width m width /\ nth_error ms' i = Some m' /\
    start (i + 1) = (start i + N.of_nat width)%N /\
    nth_error ss i = Some (map (fun c => (start i + N.of_nat c)%N) (seq 0 width)) /\
    (forall v, column_of m' v <-> exists n, v = Orig n /\ (start i <= n)%N /\ (n < start (i + 1)%nat)%N) /\
    (forall r, accepts m' r <-> accepts_instruction pc_bus exec_bus (m, row) (columns_from (start i) r)) /\
    (forall r, messages m' r = messages m (columns_from (start i) r))); [|now apply G].
  clear E. intros o H. induction H as [n|o w m row r m2 ms ss n H1 H2 H3 H4 H5 H6 H7 IH].
  - split; auto. split; auto. exists (fun _ => n). split; auto. split; auto. intros [|i] m row; discriminate.
  - destruct IH as (L1 & L2 & start & S0 & Sn & IH). split; [cbn; lia|]. split; [cbn; lia|]. exists (fun i => match i with 0 => o | Datatypes.S i => start i end). split; auto. split; [exact Sn|].
    intros [|i] m' row' Hi; cbn [nth_error] in Hi.
    + injection Hi as <- <-. exists w, m2. cbn [Nat.add]. rewrite S0. auto 10.
    + apply IH in Hi. exact Hi.
Qed.
(** C32: columns of different instructions are different, and all are below the next id. *)
Theorem C32_disjoint : forall p pc_bus exec_bus (instrs : list (smach p * list (F p))) ms a,
  Forall (fun i => forall v, column_of (fst i) v -> exists n, v = Orig n) instrs ->
  statements_to_machines pc_bus exec_bus instrs = Some (ms, a) ->
  (forall i j m1 m2 v, nth_error ms i = Some m1 -> nth_error ms j = Some m2 -> column_of m1 v -> column_of m2 v -> i = j) /\
  (forall i m v, nth_error ms i = Some m -> column_of m v -> exists n, v = Orig n /\ (n < al_next a)%N).
Proof.
  intros p pc_bus exec_bus instrs ms a Ho H. destruct (C32_block p pc_bus exec_bus instrs ms a Ho H) as (L1 & L2 & start & S0 & Sn & B).
  assert (K : forall i, i < length instrs -> (start i < start (i + 1)%nat)%N).
  { intros i Hi. destruct (nth_error instrs i) as [[m row]|] eqn:E; [|apply nth_error_None in E; lia]. destruct (B i m row E) as (w & m' & [W _] & _ & -> & _). lia. }
  assert (Mono : forall j i, i <= j -> j <= length instrs -> (start i <= start j)%N).
  { induction j as [|j IH]; intros i Hi Hj; [replace i with 0 by lia; lia|]. destruct (Nat.eq_dec i (Datatypes.S j)) as [->|Hne]; [lia|]. specialize (IH i ltac:(lia) ltac:(lia)). specialize (K j ltac:(lia)). rewrite Nat.add_1_r in K. lia. }
  assert (C : forall i m v, nth_error ms i = Some m -> column_of m v -> i < length instrs /\ exists n, v = Orig n /\ (start i <= n)%N /\ (n < start (i + 1)%nat)%N).
  { intros i m v Hi Hv. assert (Hl : i < length instrs) by (rewrite <- L1; apply nth_error_Some; congruence). split; auto. destruct (nth_error instrs i) as [[m0 row]|] eqn:E; [|apply nth_error_None in E; lia]. destruct (B i m0 row E) as (w & m' & _ & E' & _ & _ & C & _). apply C. congruence. }
  split.
  - intros i j m1 m2 v Hi Hj V1 V2. destruct (C _ _ _ Hi V1) as (Li & n & -> & Hn). destruct (C _ _ _ Hj V2) as (Lj & n' & [= <-] & Hn'). destruct (Nat.lt_trichotomy i j) as [Hlt|[He|Hgt]]; auto; exfalso.
    + pose proof (Mono j (i + 1) ltac:(lia) ltac:(lia)). lia.
    + pose proof (Mono i (j + 1) ltac:(lia) ltac:(lia)). lia.
  - intros i m v Hi Hv. destruct (C _ _ _ Hi Hv) as (Li & n & -> & Hn). exists n. split; auto. pose proof (Mono (length instrs) (i + 1) ltac:(lia) ltac:(lia)). rewrite Sn. lia.
Qed.
(** C32: the machine of the block accepts a row exactly if the machines of all its instructions accept their parts of
    it, and sends all their messages in order. *)
Theorem C32_concatenated : forall p pc_bus exec_bus (instrs : list (smach p * list (F p))) m a,
  statements_to_machine pc_bus exec_bus instrs = Some (m, a) ->
  exists ms, statements_to_machines pc_bus exec_bus instrs = Some (ms, a) /\
    (forall row, accepts m row <-> Forall (fun m => accepts m row) ms) /\ (forall row, messages m row = flat_map (fun m => messages m row) ms).
Proof.
  intros p pc_bus exec_bus instrs m a. unfold statements_to_machine. destruct (statements_to_machines pc_bus exec_bus instrs) as [[[|m0 ms] a']|]; try discriminate. intros [= <- <-]. exists (m0 :: ms). split; auto. split; intros row.
  - rewrite concat_accepts. split; [intros [H1 H2]; auto|intros H; inversion H; auto].
  - apply concat_messages.
Qed.
(** C32: stitching panics exactly if the block is not made of well-formed instruction machines (a panic is [None]). *)
Theorem C32_succeeds : forall p pc_bus exec_bus (instrs : list (smach p * list (F p))),
  Forall (fun i => forall v, column_of (fst i) v -> exists n, v = Orig n) instrs ->
  (statements_to_machines pc_bus exec_bus instrs <> None <-> Forall (well_formed_instruction pc_bus exec_bus) instrs).
Proof.
  intros p pc_bus exec_bus instrs Ho. unfold statements_to_machines. split.
  - intros H. destruct (block_machines pc_bus exec_bus 0 instrs) as [[[ms ss] n]|] eqn:E; [|congruence]. apply block_laid_out in E; [|exact Ho]. clear - E. induction E; constructor; auto.
  - intros H. destruct (block_succeeds pc_bus exec_bus instrs 0%N H) as [[[ms ss] n] ->]. discriminate.
Qed.
(** C32: the substitutions that are kept are those of the columns that the optimized machine still has. *)
Theorem C32_kept_columns : forall p (m : smach p) a i subs, (forall v, column_of m v -> exists n, v = Orig n) -> nth_error (al_subs a) i = Some subs ->
  exists kept, nth_error (apc_subs m a) i = Some kept /\ forall j id, In (j, id) kept <-> nth_error subs j = Some id /\ column_of m (Orig id).
Proof. intros p m a i subs. apply apc_subs_ok. Qed.
(** C32: new ids are not known before they are issued, and the ids of a machine are known to an allocator made from it. *)
Theorem C32_issue : forall p (a : allocator) (m : smach p),
  (is_known a (fst (issue a)) = false /\ is_known (snd (issue a)) (fst (issue a)) = true /\ (forall id, is_known a id = true -> is_known (snd (issue a)) id = true)) /\
  (forall n, column_of m (Orig n) -> is_known (alloc_from_machine m) n = true).
Proof.
  intros p a m. unfold is_known, issue, alloc_from_machine. cbn [fst snd al_next]. split; [repeat split; intros; lia|]. intros n Hn. apply column_refs in Hn. apply (in_map vid) in Hn. cbn [vid] in Hn. destruct (fold_max_in (map vid (sm_refs m)) 0%N) as (_ & _ & H). specialize (H n Hn). lia.
Qed.

(** ** Examples *)
Definition x0 : aexpr babybear := ARef (Orig 0).
Definition x1 : aexpr babybear := ARef (Orig 1).
Definition x2 : aexpr babybear := ARef (Orig 2).
Definition k_ (n : N) : aexpr babybear := ANum (of_N n).
(** A machine with a constraint that the zero row violates, a lookup with a constant multiplicity and a
    memory access whose multiplicity is a column. *)
Definition guarded_one : smach babybear :=
  mkSM [ABin (ABin x0 OMul x1) OSub (k_ 5); ANeg (ABin x1 OMul (ABin x2 OSub (k_ 1)))] [mkSB 2 (k_ 1) [x0; x1]; mkSB 3 x2 [ABin x0 OMul x0]] [].
Example guards_of_one : exists m', add_guards guarded_one 3 = Some (m', 4%N) /\ length (sm_cons m') = 4 /\ sm_degree m' = 2.
Proof. eexists. split; [vm_compute; reflexivity|]. split; vm_compute; reflexivity. Qed.
(** A row it accepts: 1 * 5 = 5, 5 * (1 - 1) = 0. *)
Example row_of_one : accepts guarded_one (fun v => match v with Orig 0 => fone | Orig 1 => of_N 5 | _ => fone end).
Proof. unfold accepts. repeat (apply Forall_cons || apply Forall_nil); vm_compute; reflexivity. Qed.
Example fresh_of_one : forall n, column_of guarded_one (Orig n) -> (n < 3)%N.
Proof. intros n H. apply column_refs in H. cbn in H. repeat (destruct H as [[= <-]|H]; [lia|]). destruct H. Qed.
(** Two instructions with two and three columns: pc lookup on bus 2, execution bus 0. *)
Definition instr_a : smach babybear :=
  mkSM [ABin x0 OMul (ABin x1 OSub (k_ 1))] [mkSB 0 (ANeg x1) [x0]; mkSB 0 x1 [ABin x0 OAdd (k_ 4)]; mkSB 2 (k_ 1) [x0; k_ 9]] [].
Definition instr_b : smach babybear :=
  mkSM [ABin x0 OSub (ABin x1 OMul x2)] [mkSB 2 (k_ 1) [x2; x1]; mkSB 0 (ANeg (k_ 1)) [x0]; mkSB 0 (k_ 1) [x2]] [].
Definition two_instructions : list (smach babybear * list (F babybear)) := [(instr_a, [of_N 100; of_N 9]); (instr_b, [of_N 104; of_N 7])].
Example two_stitched : exists ms m, statements_to_machines 2 0 two_instructions = Some (ms, mkAlloc [[0; 1]; [2; 3; 4]]%N 5) /\ map (fun m => length (sm_cons m)) ms = [4; 4] /\
  statements_to_machine 2 0 two_instructions = Some (m, mkAlloc [[0; 1]; [2; 3; 4]]%N 5) /\ apc_subs (mkSM [ABin x0 OMul (ARef (Orig 4))] [] []) (mkAlloc [[0; 1]; [2; 3; 4]]%N 5) = [[(0, 0%N)]; [(2, 4%N)]].
Proof. do 2 eexists. split; [vm_compute; reflexivity|]. split; [vm_compute; reflexivity|]. split; vm_compute; reflexivity. Qed.
Example two_original : Forall (fun i => forall v, column_of (fst i) v -> exists n, v = Orig n) two_instructions.
Proof. repeat (apply Forall_cons || apply Forall_nil); intros v Hv; apply column_refs in Hv; cbn in Hv; repeat (destruct Hv as [<-|Hv]; [eauto|]); destruct Hv. Qed.
Example printed : to_alg (to_grouped (ABin (ABin (k_ 2013265920) OMul x0) OMul (ABin x1 OSub x2)) : gexp babybear) = ANeg (ABin x0 OMul (ABin x1 OSub x2)).
Proof. vm_compute. reflexivity. Qed.

(** The hypotheses of the degree theorem: the machine after a round trip. *)
Example degree_of_one : exists c m m', to_system guarded_one = Some c /\ Forall wf (algs c) /\ from_system c = Some m /\ sm_degree m = 2 /\
  Forall (fun b => adegree (sb_mult b) < 2) (sm_buses m) /\ add_guards m 3 = Some (m', 4%N).
Proof.
  do 3 eexists. split; [reflexivity|]. split; [cbn [algs]; apply Forall_map, Forall_forall; intros e _; apply to_grouped_wf, prime_babybear|]. split; [vm_compute; reflexivity|]. split; [reflexivity|]. split; [|vm_compute; reflexivity].
  repeat (apply Forall_cons || apply Forall_nil); cbn; lia.
Qed.

Print Assumptions C30_expression.
Print Assumptions C30_shape.
Print Assumptions C30_constraint.
Print Assumptions C30_to_system.
Print Assumptions C30_from_system.
Print Assumptions C30_machine_roundtrip.
Print Assumptions C30_field_conversion.
Print Assumptions C31_flag_one.
Print Assumptions C31_flag_zero.
Print Assumptions C31_zero_row.
Print Assumptions C31_flag_boolean.
Print Assumptions C31_complete.
Print Assumptions C31_degree.
Print Assumptions C31_degree_refuted.
Print Assumptions C32_block.
Print Assumptions C32_disjoint.
Print Assumptions C32_concatenated.
Print Assumptions C32_succeeds.
Print Assumptions C32_kept_columns.
Print Assumptions C32_issue.
