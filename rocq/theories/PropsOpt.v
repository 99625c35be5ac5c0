(** C45: conditions on an execution refer to the right columns. *)
From Coq Require Import Arith NArith ZArith Bool List Lia Permutation.
From Verif Require Import Field Primes ExprModel ExprFacts SystemModel SymModel SymSpec SymFacts MemSpec PartModel PartSpec BlocksModel EmpModel EmpSpec OptModel OptSpec OptFacts OptRestrict OptBlock OptMore.
Import ListNotations.

(** C45: if the memory bus arguments of all instructions but the last are no new columns and the optimized
    instructions access every address at most once, every recorded literal is for a column of the instruction it came
    from, and in every execution of the block its value is the value of that column. *)
Theorem C45_attribution : forall p optimize memory_bus pc_bus exec_bus (instrs : list (smach p * list (F p))) ms a lits, (2 < N.pos p)%N ->
  Forall (fun i => forall v, column_of (fst i) v -> exists n, v = Orig n) instrs ->
  statements_to_machines pc_bus exec_bus instrs = Some (ms, a) -> optimizes memory_bus optimize ->
  optimistic_literals optimize memory_bus pc_bus exec_bus instrs = Some lits ->
  (forall i m m' v, i + 1 < length ms -> nth_error ms i = Some m -> optimize m (alloc_from_machine m) = Some m' -> argument_of memory_bus m' v -> column_of m v) ->
  (forall i m m', nth_error ms i = Some m -> optimize m (alloc_from_machine m) = Some m' -> forall row', accepts m' row' -> settled memory_bus (messages m' row')) ->
  forall row before, execution memory_bus ms row before -> forall id lit, nm_get id lits = Some lit ->
  exists i m, nth_error ms i = Some m /\ column_of m (Orig id) /\ (rl_instr lit = i \/ rl_instr lit = i + 1) /\ limb_value before lit = Some (row (Orig id)).
Proof. intros. eapply attribution; eauto. Qed.

(** C45: literals are found, and every limb of an access of a constant address of which all limbs are columns has one if it is
    a column of the block. *)
Theorem C45_complete : forall p optimize memory_bus pc_bus exec_bus (instrs : list (smach p * list (F p))) ms a, (2 < N.pos p)%N -> (memory_bus < N.pos p)%N ->
  statements_to_machines pc_bus exec_bus instrs = Some (ms, a) ->
  (forall i m, nth_error ms i = Some m -> exists m', optimize m (alloc_from_machine m) = Some m' /\
     forall b, In b (sm_buses m') -> (sb_id b < N.pos p)%N /\ (sb_id b = memory_bus -> exists space pointer r, sb_args b = ANum space :: pointer :: r /\ r <> [])) ->
  exists lits, optimistic_literals optimize memory_bus pc_bus exec_bus instrs = Some lits /\
    forall i m m' b space pointer limbs time id, nth_error ms i = Some m -> optimize m (alloc_from_machine m) = Some m' -> In b (sm_buses m') -> sb_id b = memory_bus ->
      sb_mult b = ANum 1%F \/ sb_mult b = ANum (fopp 1%F) -> sb_args b = ANum space :: ANum pointer :: map ARef limbs ++ [time] ->
      In (Orig id) limbs -> (id < al_next a)%N -> nm_get id lits <> None.
Proof. intros p optimize memory_bus pc_bus exec_bus instrs ms a Hp Hb Hs H. unfold optimistic_literals. rewrite Hs. apply complete; auto. Qed.

(** C45: every cell of the block is mapped to the column with its id, and no other cell is mapped to anything. *)
Theorem C45_mapper : forall p pc_bus exec_bus (instrs : list (smach p * list (F p))) m a,
  Forall (fun i => forall v, column_of (fst i) v -> exists n, v = Orig n) instrs ->
  statements_to_machine pc_bus exec_bus instrs = Some (m, a) ->
  exists mp, mapper_new (al_subs a) (unique_ids m) = Some mp /\ forall c id, mapper_get mp c = Some id <-> at_cell (al_subs a) c = Some id.
Proof.
  intros p pc_bus exec_bus instrs m a Ho H. unfold statements_to_machine in H. destruct (statements_to_machines pc_bus exec_bus instrs) as [[ms a']|] eqn:E; [|discriminate]. assert (a' = a) by (destruct ms; [discriminate|congruence]). subst a'.
  eapply block_mapper; eauto. unfold statements_to_machine. now rewrite E.
Qed.

(** C45: restricting empirical constraints about cells of the block to those that can be checked during execution does
    not panic.  In an execution, all generated conditions are true exactly if all equations that are kept hold in the
    row, and those equations are what is recorded about the cells with literals: a column that always had one value
    (if there is a literal for that column of every instruction with the same pc), and equal columns. *)
Theorem C45_conditions : forall p optimize memory_bus pc_bus exec_bus (instrs : list (smach p * list (F p))) ms m a lits ord be, (2 < N.pos p)%N ->
  Forall (fun i => forall v, column_of (fst i) v -> exists n, v = Orig n) instrs ->
  statements_to_machines pc_bus exec_bus instrs = Some (ms, a) -> statements_to_machine pc_bus exec_bus instrs = Some (m, a) -> optimizes memory_bus optimize ->
  optimistic_literals optimize memory_bus pc_bus exec_bus instrs = Some lits ->
  (forall i m m' v, i + 1 < length ms -> nth_error ms i = Some m -> optimize m (alloc_from_machine m) = Some m' -> argument_of memory_bus m' v -> column_of m v) ->
  (forall i m m', nth_error ms i = Some m -> optimize m (alloc_from_machine m) = Some m' -> forall row', accepts m' row' -> settled memory_bus (messages m' row')) ->
  (forall l, Permutation (ord l) l) -> part_ok (be_classes be) -> keys_sorted (be_ranges be) ->
  (forall pc rs, nm_get pc (be_ranges be) = Some rs -> exists rs0, rs = enumerate rs0) ->
  (forall pc, In pc (be_pcs be) -> (pc < 2 ^ 32)%N) ->
  (forall i pc rs col r, nth_error (be_pcs be) i = Some pc -> nm_get pc (be_ranges be) = Some rs -> In (col, r) rs -> at_cell (al_subs a) (i, col) <> None) ->
  (forall c, together (be_classes be) c c -> at_cell (al_subs a) c <> None) ->
  (forall pc rs col v, nm_get pc (be_ranges be) = Some rs -> In (col, (v, v)) rs -> (v < N.pos p)%N /\ (v < 2 ^ 32)%N) ->
  exists mp cs xs, mapper_new (al_subs a) (unique_ids m) = Some mp /\ restricted ord mp lits (be_pcs be) be = Some (cs, xs) /\
    let literal c := exists id, at_cell (al_subs a) c = Some id /\ nm_get id lits <> None in
    (forall row before, execution memory_bus ms row before -> (Forall (condition_holds before) xs <-> Forall (equation_holds row) cs)) /\
    (forall row : var -> F p, Forall (equation_holds row) cs <->
      (forall pc rs col v, nm_get pc (be_ranges be) = Some rs -> In (col, (v, v)) rs -> (forall j, nth_error (be_pcs be) j = Some pc -> literal (j, col)) ->
         forall i r, nth_error (be_pcs be) i = Some pc -> at_cell (al_subs a) (i, col) = Some r -> row (Orig r) = of_N v) /\
      (forall x y r s, together (be_classes be) x y -> literal x -> literal y -> at_cell (al_subs a) x = Some r -> at_cell (al_subs a) y = Some s -> row (Orig r) = row (Orig s))).
Proof.
  intros p optimize memory_bus pc_bus exec_bus instrs ms m a lits ord be Hp Ho Hms Hm Hopt Hl Hnew Hset Hord Hpart Hsort Hall Hpcs Hrc Hcc Hrv.
  destruct (C45_mapper p pc_bus exec_bus instrs m a Ho Hm) as (mp & Emp & Hmp).
  assert (Some_iff : forall c, at_cell (al_subs a) c <> None -> mapper_get mp c <> None). { intros c Hc. destruct (at_cell (al_subs a) c) as [id|] eqn:E; [|congruence]. apply Hmp in E. congruence. }
  destruct (restricted_ok ord Hord mp lits be Hpart Hsort Hall Hpcs ltac:(intros; apply Some_iff; eapply Hrc; eauto) ltac:(intros; apply Some_iff; eapply Hcc; eauto) Hrv) as (cs & xs & E & Hcx & Heq).
  exists mp, cs, xs. split; auto. split; auto. cbn zeta.
  assert (HL : forall c, has_literal mp lits c <-> exists id, at_cell (al_subs a) c = Some id /\ nm_get id lits <> None).
  { intros c. unfold has_literal. split.
    - intros (id & lit & A & B). exists id. split; [now apply Hmp|congruence].
    - intros (id & A & B). destruct (nm_get id lits) as [lit|] eqn:El; [|congruence]. exists id, lit. split; auto. now apply Hmp. }
  split.
  - intros row before Hex. assert (HA : forall id lit, nm_get id lits = Some lit -> limb_value before lit = Some (row (Orig id))).
    { intros id lit Hid. destruct (C45_attribution p optimize memory_bus pc_bus exec_bus instrs ms a lits Hp Ho Hms Hopt Hl Hnew Hset row before Hex id lit Hid) as (_ & _ & _ & _ & _ & H). exact H. }
    pose proof (condition_ok lits row before HA) as HC. clear - Hcx HC. induction Hcx as [|c x cs xs H _ IH]; [split; constructor|]. split; intros X; inversion X; subst; constructor; try (now apply IH); now apply (HC c x H).
  - intros row. rewrite Heq. split; intros [A B]; split.
    + intros pc rs col v H1 H2 H3 i r H4 H5. eapply A; eauto; [intros j Hj; apply HL; auto|now apply Hmp].
    + intros x y r s H1 H2 H3 H4 H5. apply (B x y); auto; try (now apply HL); now apply Hmp.
    + intros pc rs col v H1 H2 H3 i r H4 H5. eapply A; eauto; [intros j Hj; apply HL; auto|now apply Hmp].
    + intros x y r s H1 H2 H3 H4 H5. apply (B x y); auto; try (now apply HL); now apply Hmp.
Qed.

(** ** Examples *)
Definition num (n : N) : aexpr babybear := ANum (of_N n).
Definition col (n : N) : aexpr babybear := ARef (Orig n).
Definition minus1 : aexpr babybear := ANum (fopp 1%F).
(** The program lookup on bus 2 and the execution bus 0. *)
Definition frame : list (sbus babybear) := [mkSB 0 minus1 [num 0]; mkSB 0 (num 1) [num 4]; mkSB 2 (num 1) [num 7]].
Definition prow : list (F babybear) := [of_N 7].
Definition reads (pointer limb : aexpr babybear) : sbus babybear := mkSB 1 minus1 [num 1; pointer; limb; num 0].
Definition writes (pointer limb : aexpr babybear) : sbus babybear := mkSB 1 (num 1) [num 1; pointer; limb; num 1].
Definition bb (n : N) : F babybear := of_N n.
(** Memory in which some registers have values. *)
Definition regs (l : list (N * N)) : memory (p := babybear) := fun a => match nm_get (match a with [s; q] => if feqb s 1%F then val q else 0%N | _ => 0%N end) l with Some v => [bb v] | None => [] end.

Lemma babybear_odd : (2 < N.pos babybear)%N. Proof. vm_compute. reflexivity. Qed.
Lemma keep_optimizes bus : optimizes (p := babybear) bus (fun m _ => Some m).
Proof. intros m a m' _ [= <-]. split; auto. intros row M M' H1 H2. exists row. auto. Qed.
Lemma elsewhere_effect (l : list (N * F babybear * list (F babybear))) g M M' : fst (fst g) <> 1%N -> effects 1%N l M M' -> effects 1%N (g :: l) M M'.
Proof. intros Hg H. exists M. split; auto. destruct g as [[b k] args]. constructor. exact Hg. Qed.

(** Two instructions that increment register 5. *)
Definition increment : smach babybear := mkSM [ABin (ABin (col 0) OAdd (num 1)) OSub (col 1)] (frame ++ [reads (num 5) (col 0); writes (num 5) (col 1)]) [].
Definition two_increments : list (smach babybear * list (F babybear)) := [(increment, prow); (increment, prow)].
Definition ten_eleven (v : var) : F babybear := match v with Orig 0 => bb 10 | Orig 1 => bb 11 | Orig 2 => bb 11 | Orig 3 => bb 12 | _ => bb 0 end.
Definition counting (n : nat) : memory := regs [(5%N, (10 + N.of_nat n)%N)].
Lemma counting_write n m x t : (10 + N.of_nat m)%N = x -> effect 1%N (1%N, 1%F, bb 1 :: bb 5 :: [bb x] ++ [t]) (counting n) (counting m).
Proof.
  intros <-. constructor; [reflexivity|]. intros b Hb. unfold counting, regs. cbn [nm_get]. destruct b as [|s [|q [|]]]; try reflexivity. destruct (feqb s 1%F) eqn:E; [|reflexivity]. destruct (N.eqb_spec (val q) 5) as [E2|]; [|reflexivity].
  exfalso. apply Hb. apply feqb_eq in E. subst s. f_equal. f_equal. apply F_ext. exact E2.
Qed.
(** Whether a list of messages is settled, by looking at all pairs. *)
Definition activeb (a : list (F babybear)) (g : N * F babybear * list (F babybear)) : bool := (fst (fst g) =? 1)%N && negb (is_zero (snd (fst g))) && (if list_eq_dec F_dec (firstn 2 (snd g)) a then true else false).
Fixpoint settledb (l : list (N * F babybear * list (F babybear))) : bool :=
  match l with
  | [] => true
  | g :: r => (negb (activeb (firstn 2 (snd g)) g) || (forallb (fun h => negb (activeb (firstn 2 (snd g)) h) || (feqb (snd (fst g)) (fopp 1%F) && feqb (snd (fst h)) 1%F)) r)) && settledb r
  end.
Lemma activeb_ok a g : active 1%N a g -> activeb a g = true.
Proof.
  intros (H1 & H2 & H3). unfold activeb. rewrite H1. cbn [N.eqb Pos.eqb andb]. destruct (list_eq_dec F_dec (firstn 2 (snd g)) a); [|congruence]. rewrite andb_true_r. apply negb_true_iff. destruct (is_zero (snd (fst g))) eqn:E; auto. apply is_zero_eq in E. congruence.
Qed.
Lemma settledb_ok l : settledb l = true -> settled 1%N l.
Proof.
  induction l as [|g l IH]; cbn [settledb]; intros H; [intros [|i] j gi gj a _ Hi; discriminate|]. apply andb_true_iff in H. destruct H as [H1 H2]. intros [|i] j gi gj a Hij Hi Hj Ai Aj.
  - cbn in Hi. injection Hi as <-. destruct j as [|j]; [lia|]. cbn in Hj. destruct Ai as (A1 & A2 & A3). assert (A : activeb a g = true) by (apply activeb_ok; repeat split; auto). rewrite A3, A in H1. cbn [negb orb] in H1. rewrite forallb_forall in H1. specialize (H1 gj (nth_error_In _ _ Hj)). rewrite (activeb_ok _ _ Aj) in H1. cbn [negb orb] in H1. apply andb_true_iff in H1. destruct H1 as [B1 B2]. apply feqb_eq in B1, B2. auto.
  - destruct j as [|j]; [lia|]. cbn in Hi, Hj. apply (IH H2 i j gi gj a); auto. lia.
Qed.

Example C45_example : exists ms a lits, statements_to_machines 2 0 two_increments = Some (ms, a) /\ optimizes (p := babybear) 1 (fun m _ => Some m) /\
  optimistic_literals (fun m _ => Some m) 1 2 0 two_increments = Some lits /\ map fst lits = [0; 1; 2; 3]%N /\
  (forall i m v, nth_error ms i = Some m -> argument_of 1 m v -> column_of m v) /\
  (forall i m, nth_error ms i = Some m -> forall row', accepts m row' -> settled 1 (messages m row')) /\
  execution 1 ms ten_eleven counting /\
  nm_get 2 lits = Some (mkRL 1 [bb 1; bb 5] 0).
Proof.
  eexists. eexists. eexists. split; [vm_compute; reflexivity|]. split; [apply keep_optimizes|]. split; [vm_compute; reflexivity|]. split; [reflexivity|]. split; [|split; [|split; [|reflexivity]]].
  - intros i m v _ (b & e & Hb & _ & He & Ho & _). right. apply Exists_exists. exists b. split; auto. right. apply Exists_exists. eauto.
  - intros i m Hi row' _. apply settledb_ok. destruct i as [|[|i]]; [injection Hi as <-|injection Hi as <-|destruct i; discriminate]; vm_compute; reflexivity.
  - intros i m Hi. destruct i as [|[|i]]; [injection Hi as <-|injection Hi as <-|destruct i; discriminate].
    + split; [repeat constructor; vm_compute; reflexivity|]. do 3 (apply elsewhere_effect; [discriminate|]). exists (counting 0). split; [apply (Reads 1%N (bb 1) (bb 5) [bb 10]); reflexivity|]. exists (counting 1). split; [|intros ?; reflexivity]. apply (counting_write 0 1 11). reflexivity.
    + split; [repeat constructor; vm_compute; reflexivity|]. do 3 (apply elsewhere_effect; [discriminate|]). exists (counting 1). split; [apply (Reads 1%N (bb 1) (bb 5) [bb 11]); reflexivity|]. exists (counting 2). split; [|intros ?; reflexivity]. apply (counting_write 1 2 12). reflexivity.
Qed.
Example C45_complete_example : exists ms a, statements_to_machines 2 0 two_increments = Some (ms, a) /\ al_next a = 4%N /\
  forall i m, nth_error ms i = Some m -> forall b, In b (sm_buses m) -> (sb_id b < N.pos babybear)%N /\ (sb_id b = 1%N -> exists space pointer limb time, sb_args b = [ANum space; ANum pointer; ARef limb; time]).
Proof.
  eexists. eexists. split; [vm_compute; reflexivity|]. split; [reflexivity|]. intros i m Hi b Hb. destruct i as [|[|i]]; [injection Hi as <-|injection Hi as <-|destruct i; discriminate]; cbn in Hb; decompose [or] Hb; subst; try contradiction; (split; [vm_compute; reflexivity|]); intros E; try (vm_compute in E; discriminate); repeat eexists.
Qed.
(** An empirical constraint on this block: register 5 has the value 10 before the first instruction, and what the first
    instruction writes is what the second one reads. *)
Definition seen : bemp := mkBE [0; 4]%N [(0%N, [(0, (10, 10)%N); (1, (11, 12)%N)])] (mkPart [((0, 1), 0); ((1, 0), 0)] 1).
Example C45_conditions_example : exists m a mp lits, statements_to_machine 2 0 two_increments = Some (m, a) /\ mapper_new (al_subs a) (unique_ids m) = Some mp /\
  optimistic_literals (fun m _ => Some m) 1 2 0 two_increments = Some lits /\
  restricted (fun l => l) mp lits (be_pcs seen) seen =
    Some ([EqNum 0%N 10%N; EqRef 1%N 2%N],
          [mkXC (XLit (mkRL 0 [bb 1; bb 5] 0)) (XNum 10); mkXC (XLit (mkRL 1 [bb 1; bb 5] 0)) (XLit (mkRL 1 [bb 1; bb 5] 0))]).
Proof. eexists. eexists. eexists. eexists. split; [vm_compute; reflexivity|]. split; [vm_compute; reflexivity|]. split; [vm_compute; reflexivity|]. vm_compute. reflexivity. Qed.

(** ** What goes wrong without the hypotheses *)
(** An optimizer that introduces a column for a sum of two columns that is an argument of a bus interaction. *)
Definition sum_of (e : aexpr babybear) : option (var * var) := match e with ABin (ARef x) OAdd (ARef y) => Some (x, y) | _ => None end.
Definition named (n x y : var) (e : aexpr babybear) : aexpr babybear :=
  match sum_of e with Some (x', y') => if veqb x x' && veqb y y' then ARef n else e | None => e end.
Definition name_sum (m : smach babybear) (a : allocator) : option (smach babybear) :=
  match flat_map (fun e => option_list (sum_of e)) (flat_map sb_args (sm_buses m)) with
  | [] => Some m
  | (x, y) :: _ => let n := Orig (al_next a) in
    Some (mkSM (sm_cons m ++ [ABin (ARef n) OSub (ABin (ARef x) OAdd (ARef y))]) (map (fun b => mkSB (sb_id b) (sb_mult b) (map (named n x y) (sb_args b))) (sm_buses m)) (sm_derived m))
  end.
Lemma sum_of_inv e x y : sum_of e = Some (x, y) -> e = ABin (ARef x) OAdd (ARef y).
Proof. unfold sum_of. destruct e as [v|k|l o r|e]; try discriminate. destruct l, o; try discriminate; destruct r; try discriminate. now intros [= -> ->]. Qed.
Lemma name_sum_optimizes bus : optimizes bus name_sum.
Proof.
  intros m a m' Hcol. unfold name_sum. destruct (flat_map (fun e => option_list (sum_of e)) _) as [|[x y] rest] eqn:E; intros H.
  { injection H as <-. split; auto. intros row M M' H1 H2. exists row. auto. }
  set (n := Orig (al_next a)) in *.
  assert (Hin : exists b, In b (sm_buses m) /\ In (ABin (ARef x) OAdd (ARef y)) (sb_args b)).
  { assert (I1 : In (x, y) (flat_map (fun e => option_list (sum_of e)) (flat_map sb_args (sm_buses m)))) by (rewrite E; now left). apply in_flat_map in I1. destruct I1 as (e & He & Hs). apply in_flat_map in He. destruct He as (b & Hb & He). exists b. split; auto. destruct (sum_of e) as [xy|] eqn:Es; cbn in Hs; [|contradiction]. destruct Hs as [->|[]]. apply sum_of_inv in Es. now subst e. }
  assert (Hxy : column_of m x /\ column_of m y). { destruct Hin as (b & Hb & He). split; right; apply Exists_exists; exists b; (split; [exact Hb|right; apply Exists_exists; eexists; split; [exact He|cbn; auto]]). }
  assert (Hn : forall v, column_of m v -> v <> n). { intros v Hv ->. specialize (Hcol _ Hv). lia. }
  assert (E' : m' = mkSM (sm_cons m ++ [ABin (ARef n) OSub (ABin (ARef x) OAdd (ARef y))]) (map (fun b => mkSB (sb_id b) (sb_mult b) (map (named n x y) (sb_args b))) (sm_buses m)) (sm_derived m)) by congruence. clear H. subst m'. split.
  - intros v [Hv|Hv]; cbn [sm_cons sm_buses] in Hv.
    + apply Exists_app in Hv. destruct Hv as [Hv|Hv]; [left; now left|]. inversion Hv as [? ? Hv'|? ? Hv']; subst; [|inversion Hv']. cbn in Hv'. destruct Hv' as [<-|[<-|<-]]; [right; exists (al_next a); split; [reflexivity|lia]|left; apply Hxy|left; apply Hxy].
    + apply Exists_exists in Hv. destruct Hv as (b' & Hb' & Hv). apply in_map_iff in Hb'. destruct Hb' as (b & <- & Hb). cbn [sb_mult sb_args] in Hv. destruct Hv as [Hv|Hv]; [left; right; apply Exists_exists; eauto|]. apply Exists_exists in Hv. destruct Hv as (e' & He' & Hv). apply in_map_iff in He'. destruct He' as (e & <- & He). unfold named in Hv.
      destruct (sum_of e) as [[x' y']|]; [destruct (veqb x x' && veqb y y')|]; try (left; right; apply Exists_exists; exists b; split; [exact Hb|right; apply Exists_exists; exists e; split; [exact He|exact Hv]]). cbn in Hv. right. exists (al_next a). split; [now symmetry|lia].
  - intros row M M' Ha He. set (row' := fun v => if veqb v n then (row x + row y)%F else row v). exists row'.
    assert (Hr : forall v, column_of m v -> row' v = row v). { intros v Hv. unfold row'. destruct (veqb v n) eqn:Ev; [|reflexivity]. apply veqb_eq in Ev. now apply Hn in Ev. }
    assert (Hnn : row' n = (row x + row y)%F). { unfold row'. assert (T : veqb n n = true) by (now apply veqb_eq). now rewrite T. }
    split; [exact Hr|]. split.
    + unfold accepts. cbn [sm_cons]. apply Forall_app. split.
      * unfold accepts in Ha. rewrite Forall_forall in Ha |- *. intros e Hi. rewrite (aeval_ext row' row); [auto|]. intros v Hv. apply Hr. left. apply Exists_exists. eauto.
      * constructor; [|constructor]. cbn [aeval]. rewrite Hnn, (Hr x), (Hr y) by apply Hxy. apply sub_eq_zero. reflexivity.
    + replace (messages _ row') with (messages m row); [exact He|]. unfold messages. cbn [sm_buses]. rewrite map_map. apply map_ext_in. intros b Hb. unfold message. cbn [sb_id sb_mult sb_args]. f_equal; [f_equal|].
      * symmetry. apply aeval_ext. intros v Hv. apply Hr. right. apply Exists_exists. eauto.
      * rewrite map_map. apply map_ext_in. intros e Hi. assert (Ee : aeval row' e = aeval row e). { apply aeval_ext. intros v Hv. apply Hr. right. apply Exists_exists. exists b. split; auto. right. apply Exists_exists. eauto. }
        unfold named. destruct (sum_of e) as [[x' y']|] eqn:Es; [|now symmetry]. destruct (veqb x x' && veqb y y') eqn:Ev; [|now symmetry]. apply andb_true_iff in Ev. destruct Ev as [E1 E2]. apply veqb_eq in E1, E2. subst x' y'. apply sum_of_inv in Es. subst e. cbn [aeval] in *. now rewrite Hnn.
Qed.

(** The first instruction keeps the sum of columns 0 and 1 in register 5; the second one has a column 2 that is
    always 99 and increments register 6. *)
Definition keep_sum : smach babybear := mkSM [] (frame ++ [reads (num 5) (ABin (col 0) OAdd (col 1)); writes (num 5) (ABin (col 0) OAdd (col 1))]) [].
Definition ninety_nine : smach babybear := mkSM [ABin (col 0) OSub (num 99); ABin (ABin (col 1) OAdd (num 1)) OSub (col 2)] (frame ++ [reads (num 6) (col 1); writes (num 6) (col 2)]) [].
Definition colliding : list (smach babybear * list (F babybear)) := [(keep_sum, prow); (ninety_nine, prow)].
Definition colliding_row (v : var) : F babybear := match v with Orig 0 => bb 1 | Orig 1 => bb 2 | Orig 2 => bb 99 | Orig 3 => bb 20 | Orig 4 => bb 21 | _ => bb 0 end.
Definition colliding_before (n : nat) : memory := regs [(5, 3); (6, if Nat.eqb n 2 then 21 else 20)]%N.

(** C45 without the hypothesis on new columns: the literal that is recorded for column 2 is register 5, which the
    first instruction accesses, although column 2 is a column of the second instruction with a different value. *)
Theorem C45_collision_refuted : exists optimize (instrs : list (smach babybear * list (F babybear))) ms a lits row before id lit,
  statements_to_machines 2 0 instrs = Some (ms, a) /\ optimizes 1 optimize /\ optimistic_literals optimize 1 2 0 instrs = Some lits /\
  (forall i m m', nth_error ms i = Some m -> optimize m (alloc_from_machine m) = Some m' -> forall row', accepts m' row' -> settled 1 (messages m' row')) /\
  execution 1 ms row before /\ nm_get id lits = Some lit /\ limb_value before lit <> Some (row (Orig id)).
Proof.
  exists name_sum, colliding. eexists. eexists. eexists. exists colliding_row, colliding_before, 2%N. eexists.
  split; [vm_compute; reflexivity|]. split; [apply name_sum_optimizes|]. split; [vm_compute; reflexivity|]. split; [|split; [|split; [vm_compute; reflexivity|vm_compute; discriminate]]].
  - intros i m m' Hi Hm row' _. apply settledb_ok. destruct i as [|[|i]]; [| |destruct i; discriminate]; cbn in Hi; injection Hi as <-; vm_compute in Hm; injection Hm as <-; vm_compute; reflexivity.
  - intros i m Hi. destruct i as [|[|i]]; [injection Hi as <-|injection Hi as <-|destruct i; discriminate].
    + split; [repeat constructor; vm_compute; reflexivity|]. do 3 (apply elsewhere_effect; [discriminate|]). exists (colliding_before 0). split; [apply (Reads 1%N (bb 1) (bb 5) [bb 3]); reflexivity|]. exists (colliding_before 0). split; [|intros ?; reflexivity]. apply (Writes 1%N (bb 1) (bb 5) [bb 3]); [reflexivity|auto].
    + split; [repeat constructor; vm_compute; reflexivity|]. do 3 (apply elsewhere_effect; [discriminate|]). exists (colliding_before 1). split; [apply (Reads 1%N (bb 1) (bb 6) [bb 20]); reflexivity|]. exists (colliding_before 2). split; [|intros ?; reflexivity]. apply (Writes 1%N (bb 1) (bb 6) [bb 21]); [reflexivity|].
      intros b Hb. unfold colliding_before, regs. cbn [nm_get]. destruct b as [|s [|q [|]]]; try reflexivity. destruct (feqb s 1%F) eqn:E; [|reflexivity]. destruct (val q =? 5)%N; [reflexivity|]. destruct (N.eqb_spec (val q) 6) as [E2|]; [|reflexivity].
      exfalso. apply Hb. apply feqb_eq in E. subst s. f_equal. f_equal. apply F_ext. exact E2.
Qed.

(** An instruction that accesses register 5, then the register column 1 points to, then register 5 again. *)
Definition aliasing : smach babybear :=
  mkSM [] (frame ++ [reads (num 5) (col 0); writes (num 5) (col 0); reads (col 1) (col 2); writes (col 1) (col 3); reads (num 5) (col 4); writes (num 5) (col 5)]) [].
Definition aliasing_row (v : var) : F babybear := match v with Orig 0 => bb 10 | Orig 1 => bb 5 | Orig 2 => bb 10 | Orig 3 => bb 30 | Orig 4 => bb 30 | Orig 5 => bb 31 | _ => bb 0 end.
Definition register5 (v : N) : memory := regs [(5%N, v)].
Lemma register5_write v w t : effect 1%N (1%N, 1%F, bb 1 :: bb 5 :: [bb w] ++ [t]) (register5 v) (register5 w).
Proof.
  constructor; [reflexivity|]. intros b Hb. unfold register5, regs. cbn [nm_get]. destruct b as [|s [|q [|]]]; try reflexivity. destruct (feqb s 1%F) eqn:E; [|reflexivity]. destruct (N.eqb_spec (val q) 5) as [E2|]; [|reflexivity].
  exfalso. apply Hb. apply feqb_eq in E. subst s. f_equal. f_equal. apply F_ext. exact E2.
Qed.
(** C45 without the hypothesis on repeated accesses: what the second access of register 5 reads is taken for the
    value before the instruction. *)
Theorem C45_unsettled_refuted : exists optimize (instrs : list (smach babybear * list (F babybear))) ms a lits row before id lit,
  statements_to_machines 2 0 instrs = Some (ms, a) /\ optimizes 1 optimize /\ optimistic_literals optimize 1 2 0 instrs = Some lits /\
  (forall i m m' v, nth_error ms i = Some m -> optimize m (alloc_from_machine m) = Some m' -> argument_of 1 m' v -> column_of m v) /\
  execution 1 ms row before /\ nm_get id lits = Some lit /\ limb_value before lit <> Some (row (Orig id)).
Proof.
  exists (fun m _ => Some m), [(aliasing, prow)]. eexists. eexists. eexists. exists aliasing_row, (fun n => match n with 0 => register5 10 | _ => register5 31 end), 4%N. eexists.
  split; [vm_compute; reflexivity|]. split; [apply keep_optimizes|]. split; [vm_compute; reflexivity|]. split; [|split; [|split; [vm_compute; reflexivity|vm_compute; discriminate]]].
  - intros i m m' v _ [= <-] (b & e & Hb & _ & He & Ho & _). right. apply Exists_exists. exists b. split; auto. right. apply Exists_exists. eauto.
  - intros i m Hi. destruct i as [|i]; [injection Hi as <-|destruct i; discriminate]. split; [repeat constructor; vm_compute; reflexivity|]. do 3 (apply elsewhere_effect; [discriminate|]).
    exists (register5 10). split; [apply (Reads 1%N (bb 1) (bb 5) [bb 10]); reflexivity|]. exists (register5 10). split; [apply register5_write|].
    exists (register5 10). split; [apply (Reads 1%N (bb 1) (bb 5) [bb 10]); reflexivity|]. exists (register5 30). split; [apply register5_write|].
    exists (register5 30). split; [apply (Reads 1%N (bb 1) (bb 5) [bb 30]); reflexivity|]. exists (register5 31). split; [apply register5_write|]. intros ?. reflexivity.
Qed.

Print Assumptions C45_attribution.
Print Assumptions C45_complete.
Print Assumptions C45_mapper.
Print Assumptions C45_conditions.
Print Assumptions C45_collision_refuted.
Print Assumptions C45_unsettled_refuted.
