(** C39: the trace of an autoprecompile holds the values of the original instructions. *)
From Coq Require Import Arith ZArith NArith Bool List Sorted Lia.
From Verif Require Import Field Primes Spec ExprModel SystemModel InlinerModel PassModel SymModel SymSpec SymFacts PropsSym TraceModel TraceSpec TraceFacts TraceMain TraceBlock.
Import ListNotations.
Local Open Scope nat_scope.

(** C39: for every call, the source of every instruction that has a column in the machine lies in the trace of
    its air and is the row that was recorded for this instruction in this call; different sources do not overlap. *)
Theorem C39_sources : forall p (P : apc p) widths padding calls traces td,
  Forall (fits (apc_airs P) widths) calls -> (forall a w, traces a = Some w -> w = widths a) ->
  generate_trace traces (length calls) P = Some td ->
  let trace := fun a => chip_trace (ar_real (fold_left (exec_call P) calls new_arenas) a) (padding a) in
  length (td_values td) = length calls /\
  (forall k call, nth_error calls k = Some call -> exists refs, nth_error (td_values td) k = Some refs /\
    map rr_air refs = used (apc_subs_by P) (apc_airs P) /\
    Forall2 (fun ref r => rr_start ref + rr_length ref <= length (trace (rr_air ref)) /\ firstn (rr_length ref) (skipn (rr_start ref) (trace (rr_air ref))) = r) refs (used (apc_subs_by P) call)) /\
  (forall k1 k2 refs1 refs2 j1 j2 x y, nth_error (td_values td) k1 = Some refs1 -> nth_error (td_values td) k2 = Some refs2 ->
    nth_error refs1 j1 = Some x -> nth_error refs2 j2 = Some y -> (k1, j1) <> (k2, j2) -> rr_air x = rr_air y ->
    rr_start x + rr_length x <= rr_start y \/ rr_start y + rr_length y <= rr_start x).
Proof.
  intros p P widths padding calls traces td Hfit Ht G trace. destruct (generate_inv _ _ _ _ G) as (LS & _ & _ & _ & TL & TV). split; auto.
  set (U := used (apc_subs_by P) (apc_airs P)) in *.
  assert (HL : forall call, In call calls -> length call = length (apc_airs P)).
  { intros c Hc. rewrite Forall_forall in Hfit. specialize (Hfit c Hc). apply forall2_nth in Hfit as [L _]. auto. }
  split.
  - intros k call Hk. assert (Lk : k < length calls) by (apply nth_error_Some; congruence). destruct (TV k Lk) as (refs & R1 & R2 & R3). exists refs. split; auto.
    assert (R : forall j ref, nth_error refs j = Some ref -> exists a, nth_error U j = Some a /\ ref = mkRef a ((k * count_air a U + count_air a (firstn j U)) * widths a) (widths a)).
    { intros j ref Hj. destruct (nth_error U j) as [a|] eqn:Ha; [|apply nth_error_None in Ha; assert (nth_error refs j <> None) as X by congruence; apply nth_error_Some in X; lia]. destruct (R3 j a Ha) as (w & W1 & W2). exists a. split; auto. rewrite <- (Ht a w W1). congruence. }
    split.
    + apply nth_error_ext_len; [now rewrite map_length|]. intros i x y Hx Hy. destruct (nth_error refs i) as [ref|] eqn:Hr; [|apply nth_error_None in Hr; rewrite <- (map_length rr_air) in Hr; apply nth_error_None in Hr; congruence].
      rewrite (map_nth_error _ _ _ Hr) in Hx. destruct (R i ref Hr) as (a & A1 & ->). cbn in Hx. congruence.
    + apply forall2_nth. split; [rewrite R2; apply used_length; symmetry; apply HL; eapply nth_error_In; eauto|]. intros j ref r Hj Hr. destruct (R j ref Hj) as (a & A1 & ->). cbn [rr_air rr_start rr_length].
      pose proof (source_ok P widths padding calls _ LS Hfit eq_refl k call j a r Hk A1 Hr) as S1. unfold slice in S1. cbv zeta in S1. fold U in S1. unfold trace. destruct (Nat.leb_spec ((k * count_air a U + count_air a (firstn j U)) * widths a + widths a) (length (chip_trace (ar_real (fold_left (exec_call P) calls new_arenas) a) (padding a)))) as [B|B]; [|discriminate]. injection S1 as S1. auto.
  - intros k1 k2 refs1 refs2 j1 j2 x y H1 H2 X1 X2 Hne E.
    assert (L1 : k1 < length calls) by (rewrite <- TL; apply nth_error_Some; congruence). assert (L2 : k2 < length calls) by (rewrite <- TL; apply nth_error_Some; congruence).
    assert (R : forall k refs j ref, nth_error (td_values td) k = Some refs -> k < length calls -> nth_error refs j = Some ref -> exists a, nth_error U j = Some a /\ ref = mkRef a ((k * count_air a U + count_air a (firstn j U)) * widths a) (widths a)).
    { intros k refs j ref Hk Lk Hj. destruct (TV k Lk) as (refs' & R1 & R2 & R3). assert (refs' = refs) as -> by congruence. destruct (nth_error U j) as [a|] eqn:Ha; [|apply nth_error_None in Ha; assert (nth_error refs j <> None) as X by congruence; apply nth_error_Some in X; lia]. destruct (R3 j a Ha) as (w & W1 & W2). exists a. split; auto. rewrite <- (Ht a w W1). congruence. }
    destruct (R k1 refs1 j1 x H1 L1 X1) as (a & A1 & ->). destruct (R k2 refs2 j2 y H2 L2 X2) as (b & B1 & ->). cbn [rr_air rr_start rr_length] in *. subst b.
    pose proof (count_lt U j1 a A1) as C1. pose proof (count_lt U j2 a B1) as C2. set (n := count_air a U) in *. set (c1 := count_air a (firstn j1 U)) in *. set (c2 := count_air a (firstn j2 U)) in *.
    assert (D : k1 * n + c1 <> k2 * n + c2).
    { intros E. assert (k1 = k2) by nia. subst k2. assert (c1 = c2) by lia. apply Hne. f_equal. eapply count_inj; eauto. }
    destruct (Nat.lt_ge_cases (k1 * n + c1) (k2 * n + c2)) as [H|H]; [left|right]; nia.
Qed.
(** C39: the trace has one row for every call, in order, and rows of zeros up to the next power of two.  In the
    row of a call, every column of the machine that belongs to a column of an original instruction has the value
    recorded for it, derived columns have the value that their method computes from the row (if none reads a
    later one), and other columns are zero; the replayed bus interactions are those of the row. *)
Theorem C39_rows : forall p airs (m : smach p) a widths padding calls rows effects,
  NoDup (concat (al_subs a)) -> length airs = length (al_subs a) -> Forall (fits airs widths) calls ->
  let P := mkApc airs (apc_subs m a) m in
  generate_witness P widths padding (fold_left (exec_call P) calls new_arenas) = Some (rows, effects) ->
  exists cols, lists_columns m cols /\ length rows = next_power_of_two_or_zero (length calls) /\ length effects = length calls /\
  (forall k r, length calls <= k -> nth_error rows k = Some r -> holds cols r (fun _ => 0%F)) /\
  (forall k call, nth_error calls k = Some call -> exists r row, nth_error rows k = Some r /\ holds cols r row /\
    nth_error effects k = Some (messages m row) /\
    (forall id, derived_id m id -> column_id m id) /\
    (forall j subs c v src, nth_error (al_subs a) j = Some subs -> nth_error subs c = Some (vid v) -> nth_error call j = Some src -> column_id m (vid v) -> ~ derived_id m (vid v) -> nth_error src c = Some (row v)) /\
    (in_order (sm_derived m) -> derived_columns m row = map (fun d => (fst d, row (fst d))) (sm_derived m)) /\
    (forall v, ~ In (vid v) (concat (al_subs a)) -> ~ derived_id m (vid v) -> row v = 0%F)).
Proof. intros p. apply witness_ok. Qed.
(** C39: filling does not panic if the rows are as wide as the airs, and the derived columns and the columns that
    they are computed from are columns of the machine. *)
Theorem C39_no_panic : forall p airs (m : smach p) a widths padding calls,
  Forall2 (fun air subs => length subs <= widths air) airs (al_subs a) -> Forall (fits airs widths) calls ->
  (exists id, column_id m id) ->
  (forall d, In d (sm_derived m) -> column_id m (vid (fst d)) /\ forall v, method_reads (snd d) v -> column_id m (vid v)) ->
  let P := mkApc airs (apc_subs m a) m in
  generate_witness P widths padding (fold_left (exec_call P) calls new_arenas) <> None.
Proof. intros p. apply witness_total. Qed.
(** C39: whatever the sequence of calls and trace generations, each trace is that of the calls since the last one. *)
Theorem C39_history : forall p (P : apc p) widths padding es,
  trace_run P widths padding None es =
  map (fun calls => match calls with [] => Some ([], []) | _ => generate_witness P widths padding (fold_left (exec_call P) calls new_arenas) end) (segments [] es).
Proof. intros. now apply run_ok. Qed.
(** C39: from a block to the trace.  If, in every call, every instruction's row is accepted by the instruction's
    machine, then all rows of the trace of the block's guarded machine are accepted, the replayed interactions are
    those of the instructions in order, and padding rows send nothing. *)
Theorem C39_block : forall p pc_bus exec_bus (instrs : list (smach p * list (F p))) airs widths padding m a m' next calls,
  Forall (fun i => forall v, column_of (fst i) v -> exists n, v = Orig n) instrs ->
  Forall (fun i => sm_derived (fst i) = []) instrs ->
  Forall2 (fun air i => has_width (fst i) (widths air)) airs instrs ->
  statements_to_machine pc_bus exec_bus instrs = Some (m, a) -> add_guards m (al_next a) = Some (m', next) ->
  Forall (fun call => Forall2 (fun air r => length r = widths air) airs call /\
                      Forall2 (fun i r => accepts_instruction pc_bus exec_bus i (fun v => nth (N.to_nat (vid v)) r 0%F)) instrs call) calls ->
  let P := mkApc airs (apc_subs m' a) m' in
  exists rows effects cols, generate_witness P widths padding (fold_left (exec_call P) calls new_arenas) = Some (rows, effects) /\ lists_columns m' cols /\
    length rows = next_power_of_two_or_zero (length calls) /\
    (forall r, In r rows -> exists row, holds cols r row /\ accepts m' row) /\
    (forall k r, length calls <= k -> nth_error rows k = Some r -> exists row, holds cols r row /\ Forall (fun g => snd (fst g) = 0%F) (messages m' row)) /\
    effects = map (fun call => concat (map (fun x => messages (fst (fst x)) (fun v => nth (N.to_nat (vid v)) (snd x) 0%F)) (combine instrs call))) calls.
Proof. intros p pc_bus exec_bus instrs airs widths padding m a m' next calls. apply block_trace. Qed.

(** ** Derived columns *)
Definition tv (n : N) : gexp babybear := from_var (Orig n).
Definition tn (n : N) : F babybear := of_N n.
(** Columns 0 (c) and 1 (x) come from an instruction, column 2 is derived as x / c; x is sent. *)
Definition t_sys : csys babybear :=
  mkCS [gsub (gmul (tv 2) (tv 0)) (tv 1)] [mkBus (from_number (tn 7)) (from_number 1%F) [tv 1; tv 0; tv 2]] [(Orig 2, CQuot (tv 1) (tv 0))].
Definition t_alloc : allocator := mkAlloc [[0; 1]%N] 3.
Definition t_calls : list (list (list (F babybear))) := [[[tn 5; tn 30]]; [[tn 3; tn 12]]; [[tn 1; tn 8]]].
Definition t_trace (m : smach babybear) :=
  let P := mkApc [4%N] (apc_subs m t_alloc) m in generate_witness P (fun _ => 2) (fun _ => []) (fold_left (exec_call P) t_calls new_arenas).
Example C39_example : option_map (fun m => option_map (fun t => (map (map val) (fst t), map (map (fun g => map val (snd g))) (snd t))) (t_trace m)) (from_system t_sys) =
  Some (Some ([[5; 30; 6]; [3; 12; 4]; [1; 8; 8]; [0; 0; 0]]%N, [[[30; 5; 6]]; [[12; 3; 4]]; [[8; 1; 8]]]%N)).
Proof. vm_compute. reflexivity. Qed.
(** Inlining replaces columns in the methods of derived columns.  After it replaces x by c * d in d's own method,
    the trace generator computes d from itself, and the trace sends 0 instead of x: *)
Theorem C39_circular_refuted : exists (c : csys babybear) c' defs m m' effects effects',
  inline (below_degree_bound (mkDB 3 2)) 5 (ics_from c) = Some (c', defs) /\ from_system c = Some m /\ from_system (isys c') = Some m' /\
  (exists rows, t_trace m = Some (rows, effects)) /\ in_order (sm_derived m) /\
  (exists rows, t_trace m' = Some (rows, effects')) /\
  map (map (fun g => map val (snd g))) effects = [[[30; 5; 6]]; [[12; 3; 4]]; [[8; 1; 8]]]%N /\
  map (map (fun g => map val (snd g))) effects' = [[[0; 5; 0]]; [[0; 3; 0]]; [[0; 1; 0]]]%N.
Proof.
  exists t_sys. destruct (inline (below_degree_bound (mkDB 3 2)) 5 (ics_from t_sys)) as [[c' defs]|] eqn:E; [|vm_compute in E; discriminate]. exists c', defs.
  destruct (from_system t_sys) as [m|] eqn:M; [|vm_compute in M; discriminate]. destruct (from_system (isys c')) as [m'|] eqn:M'; [|vm_compute in E; injection E as <- _; vm_compute in M'; discriminate].
  destruct (t_trace m) as [[rows effects]|] eqn:T; [|vm_compute in M; injection M as <-; vm_compute in T; discriminate].
  destruct (t_trace m') as [[rows' effects']|] eqn:T'; [|vm_compute in E; injection E as <- _; vm_compute in M'; injection M' as <-; vm_compute in T'; discriminate].
  exists m, m', effects, effects'. split; auto. split; auto. split; auto. split; [eauto|]. split.
  - vm_compute in M. injection M as <-. cbn. split; [intros ? []|]. split; [|exact Logic.I]. intros v Hv e [<-|[]]. cbn. destruct Hv as [<-|<-]; cbn; discriminate.
  - split; [eauto|]. split.
    + vm_compute in M. injection M as <-. vm_compute in T. injection T as _ <-. vm_compute. reflexivity.
    + vm_compute in E. injection E as <- _. vm_compute in M'. injection M' as <-. vm_compute in T'. injection T' as _ <-. vm_compute. reflexivity.
Qed.
(** A derived column that only other derived columns need is removed at the end of the optimization; the trace
    generator then panics (column 2 is derived as x / c, column 3 as column 2 / c, and only column 3 is used). *)
Definition u_sys : csys babybear :=
  mkCS [] [mkBus (from_number (tn 7)) (from_number 1%F) [tv 1; tv 0; tv 3]] [(Orig 2, CQuot (tv 1) (tv 0)); (Orig 3, CQuot (tv 2) (tv 0))].
Theorem C39_missing_refuted : exists (c : csys babybear) m, from_system (remove_unreferenced_derived_variables c) = Some m /\
  (forall s, sys_solves s (remove_unreferenced_derived_variables c) <-> sys_solves s c) /\
  Forall (fits [4%N] (fun _ => 2)) t_calls /\ t_trace m = None.
Proof.
  exists u_sys. destruct (from_system (remove_unreferenced_derived_variables u_sys)) as [m|] eqn:M; [|vm_compute in M; discriminate]. exists m. split; auto. split; [reflexivity|]. split; [repeat constructor|].
  vm_compute in M. injection M as <-. vm_compute. reflexivity.
Qed.
(** ** A block of three instructions, two of which share an air, called three times *)
Definition b_instrs : list (smach babybear * list (F babybear)) := [(instr_a, [tn 100; tn 9]); (instr_b, [tn 104; tn 7]); (instr_a, [tn 108; tn 9])].
Definition b_airs : list N := [10; 11; 10]%N.
Definition b_widths (a : N) : nat := if (a =? 10)%N then 2 else 3.
Definition b_calls : list (list (list (F babybear))) := repeat [[tn 100; 1%F]; [tn 728; tn 7; tn 104]; [tn 108; 1%F]] 3.
Lemma width_a : has_width instr_a 2.
Proof.
  split; [lia|]. intros v. rewrite column_refs. cbn. split.
  - intros H. repeat (destruct H as [<-|H]; [eexists; split; [reflexivity|lia]|]). destruct H.
  - intros (n & -> & Hn). assert (n = 0 \/ n = 1)%N as [->| ->] by lia; auto.
Qed.
Lemma width_b : has_width instr_b 3.
Proof.
  split; [lia|]. intros v. rewrite column_refs. cbn. split.
  - intros H. repeat (destruct H as [<-|H]; [eexists; split; [reflexivity|lia]|]). destruct H.
  - intros (n & -> & Hn). assert (n = 0 \/ n = 1 \/ n = 2)%N as [->|[->| ->]] by lia; auto.
Qed.
Example C39_block_example : exists m a m' next,
  Forall (fun i => forall v, column_of (fst i) v -> exists n, v = Orig n) b_instrs /\ Forall (fun i => sm_derived (fst i) = []) b_instrs /\
  Forall2 (fun air i => has_width (fst i) (b_widths air)) b_airs b_instrs /\
  statements_to_machine 2 0 b_instrs = Some (m, a) /\ add_guards m (al_next a) = Some (m', next) /\
  Forall (fun call => Forall2 (fun air r => length r = b_widths air) b_airs call /\
                      Forall2 (fun i r => accepts_instruction 2 0 i (fun v => nth (N.to_nat (vid v)) r 0%F)) b_instrs call) b_calls /\
  let P := mkApc b_airs (apc_subs m' a) m' in
  option_map (fun t => map (map val) (fst t)) (generate_witness P b_widths (fun _ => []) (fold_left (exec_call P) b_calls new_arenas)) =
  Some [[100; 1; 728; 7; 104; 108; 1; 1]; [100; 1; 728; 7; 104; 108; 1; 1]; [100; 1; 728; 7; 104; 108; 1; 1]; [0; 0; 0; 0; 0; 0; 0; 0]]%N.
Proof.
  do 4 eexists. split; [|split; [repeat constructor|split; [|split; [vm_compute; reflexivity|split; [vm_compute; reflexivity|split]]]]].
  - pose proof two_original as H. inversion H as [|? ? H1 H2]; subst. inversion H2 as [|? ? H3 H4]; subst. repeat constructor; auto.
  - unfold b_airs, b_instrs. constructor; [exact width_a|]. constructor; [exact width_b|]. constructor; [exact width_a|constructor].
  - repeat (apply Forall_cons || apply Forall_nil); (split; [repeat constructor|]).
    all: constructor; [|constructor; [|constructor; [|constructor]]].
    all: split; [unfold accepts; repeat (apply Forall_cons || apply Forall_nil); vm_compute; reflexivity|].
    all: split; [intros rcv snd0 E; vm_compute in E; injection E as <- <-; vm_compute; reflexivity|intros lk E; vm_compute in E; injection E as <-; vm_compute; reflexivity].
  - vm_compute. reflexivity.
Qed.
Print Assumptions C39_sources. Print Assumptions C39_rows. Print Assumptions C39_no_panic. Print Assumptions C39_history. Print Assumptions C39_block.
Print Assumptions C39_circular_refuted. Print Assumptions C39_missing_refuted.
