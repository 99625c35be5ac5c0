(** C47: a precompile stands for the block it is built from. *)
From Coq Require Import Arith NArith ZArith Znumtheory Bool List Lia ZifyBool ZifyN ZifyNat.
From Verif Require Import Field ExprModel ExprFacts SystemModel Spec BaseModel OvmModel OvmSpec OvmFacts BlocksModel ExecModel ExecSpec ExecFacts InlinerModel PassSpec MemModel MemSpec LowOvm LowSpec RuleModel RuleSpec
  SymModel SymSpec SymFacts PropsMem PropsSym PropsExec PipeModel PipeSpec PipeSolver PipeFacts PipeForward PipeBack PipeMachineSpec PipeMachine PipeRun PropsPipe Primes PropsOvm BuildModel BuildSpec BuildFacts BuildStitch.
Import ListNotations.
Local Open Scope nat_scope.

Section Subs.
  Context {p : positive} (pc_bus exec_bus : N).
  Local Notation circuit := (smach p * list (F p))%type.
  Lemma Forall2_widths (is : list circuit) ws ws' : Forall2 (fun (i : circuit) w => has_width (fst i) w) is ws -> Forall2 (fun (i : circuit) w => has_width (fst i) w) is ws' -> ws = ws'.
  Proof.
    intros H. revert ws'. induction H as [|i w is ws H1 H2 IH]; intros ws' H'; inversion H' as [|? w' ? ws0 X1 X2]; subst; auto. f_equal; [eapply width_unique; eauto|now apply IH].
  Qed.
  Lemma laid_places o (is : list circuit) ms ss n : laid_out pc_bus exec_bus o is ms ss n -> exists widths, Forall2 (fun (i : circuit) w => has_width (fst i) w) is widths /\ length ss = length is /\
    forall k subs w j id, nth_error ss k = Some subs -> nth_error widths k = Some w -> (nth_error subs j = Some id <-> j < w /\ id = (o + N.of_nat (list_sum (firstn k widths) + j))%N).
  Proof.
    induction 1 as [n|o w m r is m2 ms ss n Hw Hf Ha Hm Hc Hd H IH]; [exists []; split; [constructor|]; split; auto; intros [|k]; discriminate|]. destruct IH as (ws & A & B & C). exists (w :: ws). split; [now constructor|]. split; [cbn [length]; now rewrite B|].
    intros [|k] subs w' j id; cbn [nth_error firstn].
    - intros [= <-] [= <-]. unfold nseq. rewrite nth_error_map. cbn [list_sum fold_right Nat.add]. destruct (nth_error (seq 0 w) j) as [x|] eqn:Ex; cbn [option_map].
      + assert (Lj : j < w). { assert (Ex' : nth_error (seq 0 w) j <> None) by congruence. apply nth_error_Some in Ex'. rewrite seq_length in Ex'. exact Ex'. }
        assert (x = j). { apply (nth_error_nth _ _ 0) in Ex. rewrite seq_nth in Ex by auto. lia. } subst x. split; [intros [= <-]; split; auto|intros [_ ->]; f_equal]; lia.
      + split; [discriminate|]. intros [Lj _]. apply nth_error_None in Ex. rewrite seq_length in Ex. lia.
    - intros E1 E2. rewrite (C k subs w' j id E1 E2). unfold list_sum. cbn [fold_right]. split; intros [H1 H2]; split; auto; lia.
  Qed.
End Subs.

Section Built.
  Context {p : positive} (Hp : prime (Z.pos p)).
  Hypothesis Hbig : (2 ^ 26 < N.pos p)%N.
  Hypothesis Hword : (2 * N.pos p <= 2 ^ 64)%N.
  Context (m : busmap) (Hm : map_ok p m) (bound : degree_bound) (program : list (F p) -> Prop) (pc_bus exec_bus : N).
  Hypothesis Hpc : get_bus_id m BPc = Some pc_bus.
  Hypothesis Hexec : get_bus_id m BExec = Some exec_bus.
  Lemma optimizes_next sm n l sm' n' : optimizes (p := p) m bound sm n l sm' n' -> n <= n'.
  Proof. intros (sm1 & c & x & y & _ & _ & St & R & _ & _ & _ & ->). apply start_fields in St. destruct St as [_ <-]. exact (run_next Hbig Hword m bound _ _ _ R). Qed.
  Lemma guard_derived (sm1 : smach p) next sm2 next' : add_guards sm1 next = Some (sm2, next') -> sm_derived sm2 = sm_derived sm1 ++ [(Orig next, AConst 1%F)].
  Proof. unfold add_guards. destruct (_ && _); [discriminate|]. intros [= <- _]. reflexivity. Qed.
  Lemma flag_unique (sm2 : smach p) l v w : sm_derived sm2 = l ++ [(v, AConst 1%F)] -> forall subs checks, flag_column (mkPre sm2 subs checks) w -> w = v.
  Proof. intros E subs checks (l' & E'). cbn [pre_machine] in E'. rewrite E in E'. apply app_inj_tail in E'. destruct E' as [_ E']. congruence. Qed.
  (** The block's own executions of its machine. *)
  Lemma stitch_execution (is : list (smach p * list (F p))) sm al extra rows s : Forall plain is -> statements_to_machine pc_bus exec_bus is = Some (sm, al) ->
    block_execution m program pc_bus exec_bus is rows -> side_by_side is rows s -> Forall (fun e => aeval s e = 0%F) extra ->
    machine_execution m program s (with_extra sm extra) /\ machine_computed s (with_extra sm extra) /\ chained m s (with_extra sm extra).
  Proof.
    intros Pl St ((A & B & C) & L & T) Sd Ex. apply matches_side in Sd. split; [split; [split|split]|split].
    - apply (stitch_accepts pc_bus exec_bus is sm al extra Pl St rows s Sd). auto.
    - now rewrite (stitch_values pc_bus exec_bus is sm al extra Pl St rows s Sd).
    - now rewrite (stitch_sends m pc_bus exec_bus is sm al extra Pl St rows s Sd).
    - now rewrite (stitch_sends m pc_bus exec_bus is sm al extra Pl St rows s Sd).
    - unfold machine_computed. rewrite (stitch_derived pc_bus exec_bus is sm al extra Pl St). constructor.
    - now apply (chained_iff m pc_bus exec_bus Hexec is sm al extra Pl St rows s Sd).
  Qed.
  Lemma extra_issued (is : list (smach p * list (F p))) sm al (extra : list (aexpr p)) : Forall plain is -> statements_to_machine pc_bus exec_bus is = Some (sm, al) ->
    Forall (fun e => forall v, occurs v e -> block_column is v) extra -> Forall (fun e => forall v, occurs v e -> issued (N.to_nat (al_next al)) v) extra.
  Proof.
    intros Pl St H. destruct (stitch_width pc_bus exec_bus is sm al Pl St) as (ws & A & ->). eapply Forall_impl; [|exact H]. intros e He v Hv. destruct (He v Hv) as (ws' & A' & I). now rewrite (Forall2_widths is ws ws' A A').
  Qed.
End Built.

(** C47: every execution of a block's instructions one by one that meets the assumptions of the optimistic constraints is
    an execution of the precompile: there is a real row, with the flag 1, that the precompile accepts, whose derived columns
    have the computed values, in which the columns that are kept have the values that they have in the rows of the
    instructions, and that has the same net effect on memory and on the execution bus. *)
Theorem C47_complete : forall p step fits m bound program pc_bus exec_bus bs extra l (a : precompile p) rows s,
  prime (Z.pos p) -> (2 ^ 26 < N.pos p)%N -> (2 * N.pos p <= 2 ^ 64)%N -> map_ok p m -> get_bus_id m BPc = Some pc_bus -> get_bus_id m BExec = Some exec_bus ->
  builds step fits m bound bs extra l a -> Forall plain (circuits step bs) -> Forall (fun e => forall v, occurs v e -> block_column (circuits step bs) v) extra ->
  Forall (tests_right m bound) l -> (forall flag, flag_column a (Orig flag) -> (flag <= N.pos p)%N) ->
  block_execution m program pc_bus exec_bus (circuits step bs) rows -> side_by_side (circuits step bs) rows s -> Forall (fun e => aeval s e = 0%F) extra ->
  exists row flag, flag_column a flag /\ row flag = 1%F /\ machine_execution m program row (pre_machine a) /\ machine_computed row (pre_machine a) /\
    (forall v, block_column (circuits step bs) v -> row v = s v) /\ takes_over a rows row /\ lists_used (circuits step bs) a /\
    forall bus args, net bus args (machine_sends m (pre_machine a) row) = net bus args (block_sends m (circuits step bs) rows).
Proof.
  intros p step fits m bound program pc_bus exec_bus bs extra l a rows s Hp Hbig Hword Hm Hpc Hexec B Pl Hex T Hfl X Sd Ex. destruct B as (pc' & exec' & sm & al & sm1 & n1 & sm2 & next & cs & Ep & Ee & St & Op & Gd & _ & ->).
  assert (pc' = pc_bus) by congruence. assert (exec' = exec_bus) by congruence. subst pc' exec'. clear Ep Ee. remember (circuits step bs) as is eqn:Eis. fold (with_extra sm extra) in Op.
  destruct (stitch_execution m program pc_bus exec_bus Hexec is sm al extra rows s Pl St X Sd Ex) as (Xs & Cs & Ch).
  pose proof (extra_issued pc_bus exec_bus is sm al extra Pl St Hex) as Hex'. pose proof (stitch_over pc_bus exec_bus is sm al extra Pl St Hex') as O.
  pose proof (guard_derived sm1 _ sm2 next Gd) as Ed. cbn [pre_machine pre_subs pre_checks] in *.
  assert (Hn1 : (N.of_nat n1 <= N.pos p)%N). { apply Hfl. exists (sm_derived sm1). exact Ed. }
  destruct (C43_machine_forward p m bound program _ sm1 _ l n1 s Hp Hbig Hword Hm Op O Hn1 T Xs Cs Ch) as (row & Ag & Xr & Cr & Ef & O1).
  pose proof (optimizes_next Hbig Hword m bound _ _ _ _ _ Op) as Ln.
  set (row' := fun v => if veqb v (Orig (N.of_nat n1)) then 1%F else row v).
  assert (Old : forall v, issued n1 v -> row' v = row v). { intros v (k & -> & Hk). unfold row'. destruct (veqb _ _) eqn:E; auto. apply veqb_eq in E. injection E as E. lia. }
  destruct (C31_complete p sm1 _ sm2 next Gd) with (row := row) as [Ac Ms]. { intros k Hk. apply (proj1 O1) in Hk. destruct Hk as (j & [= ->] & Hj). lia. }
  fold row' in Ac, Ms. destruct (C31_flag_one p sm1 _ sm2 next Gd) as (_ & _ & _ & Col).
  assert (Mv : machine_values sm2 row' = machine_values sm1 row) by (unfold machine_values; now rewrite Ms). assert (Sn : machine_sends m sm2 row' = machine_sends m sm1 row) by (unfold machine_sends; now rewrite Mv).
  assert (Bc : forall v, block_column is v -> issued (N.to_nat (al_next al)) v). { intros v (ws & A & I). destruct (stitch_width pc_bus exec_bus is sm al Pl St) as (ws' & A' & ->). now rewrite (Forall2_widths is ws' ws A' A). }
  assert (Rs : forall v, issued (N.to_nat (al_next al)) v -> row' v = s v). { intros v (k & -> & Hk). rewrite Old; [apply Ag|]; exists k; split; auto; lia. }
  assert (Oo : only_original sm2). { intros v Hv. destruct (Col v Hv) as [Hv1| ->]; [|eauto]. apply (proj1 O1) in Hv1. destruct Hv1 as (k & -> & _). eauto. }
  assert (Lu : lists_used is (mkPre sm2 (apc_subs sm2 (mkAlloc (al_subs al) next)) (from_constraints cs))).
  { destruct (stitched pc_bus exec_bus is sm al Pl St) as (m0 & ms & _ & Ld). destruct (laid_places pc_bus exec_bus _ _ _ _ _ Ld) as (ws & A & Ln2 & Pl2). exists ws. split; auto. cbn [pre_subs pre_machine]. split; [unfold apc_subs; now rewrite map_length|].
    intros k kept w j id Ek Ew. destruct (nth_error (al_subs al) k) as [subs|] eqn:Es; [|unfold apc_subs in Ek; rewrite nth_error_map in Ek; cbn [al_subs] in Ek; rewrite Es in Ek; discriminate].
    destruct (apc_subs_ok sm2 (mkAlloc (al_subs al) next) k subs Oo Es) as (kept' & Ek' & K). assert (kept' = kept) by congruence. subst kept'. rewrite (K j id), (Pl2 k subs w j id Es Ew). tauto. }
  exists row', (Orig (N.of_nat n1)). cbn [pre_machine pre_subs pre_checks]. split; [exists (sm_derived sm1); exact Ed|]. split; [unfold row'; now rewrite veqb_refl|]. split; [|split; [|split; [|split; [|split]]]].
  - split; [split|]; [apply Ac; apply Xr|rewrite Mv; apply Xr|rewrite Sn; apply Xr].
  - unfold machine_computed. rewrite Ed. apply Forall_app. split; [|constructor; [cbn [fst snd amethod_value]; unfold row'; now rewrite veqb_refl|constructor]].
    unfold machine_computed in Cr. rewrite Forall_forall in *. intros d Hd. destruct (proj2 O1 d Hd) as [I1 I2]. rewrite (Old _ I1), (Cr d Hd). symmetry. apply method_ext. intros v Hv. apply Old. now apply I2.
  - intros v Hv. apply Rs. now apply Bc.
  - destruct Lu as (ws & A & Ln2 & Lu). destruct Sd as (ws' & A' & Lr & Sd). rewrite <- (Forall2_widths is ws ws' A A') in Sd. intros k kept r j id Ek Er Hin. cbn [pre_subs] in *.
    destruct (nth_error ws k) as [w|] eqn:Ew.
    + destruct (proj1 (Lu k kept w j id Ek Ew) Hin) as (Hj & -> & _). rewrite <- (Sd k w r j Ew Er Hj). apply Rs. apply Bc. exists ws. split; auto. exists (list_sum (firstn k ws) + j). split; auto.
      clear - Ew Hj. revert k Ew. induction ws as [|x ws IH]; intros [|k]; cbn [nth_error firstn]; try discriminate; unfold list_sum in *; cbn [fold_right]; [intros [= ->]; lia|]. intros E. specialize (IH k E). lia.
    + exfalso. apply nth_error_None in Ew. assert (L : length is = length ws) by (clear - A; induction A; cbn; auto). assert (nth_error rows k <> None) by congruence. apply nth_error_Some in H. lia.
  - exact Lu.
  - intros bus args. rewrite Sn, Ef. now rewrite (stitch_sends m pc_bus exec_bus is sm al extra Pl St rows s (matches_side _ _ _ Sd)).
Qed.
(** C47: every real row that the precompile accepts, with legal messages on memory, comes from rows of the instructions that
    the circuits accept, in which the instructions follow each other and the optimistic assumptions hold, with the same net
    effect; under the conditions of C43 for this direction. *)
Theorem C47_sound_partial : forall p step fits m bound program pc_bus exec_bus bs extra l (a : precompile p) rows0 s0 row flag,
  prime (Z.pos p) -> (2 ^ 26 < N.pos p)%N -> (2 * N.pos p <= 2 ^ 64)%N -> map_ok p m -> get_bus_id m BPc = Some pc_bus -> get_bus_id m BExec = Some exec_bus ->
  builds step fits m bound bs extra l a -> Forall plain (circuits step bs) -> Forall (even_handed exec_bus) (circuits step bs) ->
  Forall (fun e => forall v, occurs v e -> block_column (circuits step bs) v) extra ->
  Forall (tests_right m bound) l -> Forall (reversible m program) l -> (forall flag, flag_column a (Orig flag) -> (flag <= N.pos p)%N) ->
  block_execution m program pc_bus exec_bus (circuits step bs) rows0 -> side_by_side (circuits step bs) rows0 s0 -> Forall (fun e => aeval s0 e = 0%F) extra ->
  flag_column a flag -> row flag = 1%F -> machine_admissible m program row (pre_machine a) -> Forall (legal m) (machine_sends m (pre_machine a) row) ->
  exists rows s, block_accepts m program pc_bus exec_bus (circuits step bs) rows /\ side_by_side (circuits step bs) rows s /\ Forall (fun e => aeval s e = 0%F) extra /\
    forall bus args, net bus args (machine_sends m (pre_machine a) row) = net bus args (block_sends m (circuits step bs) rows).
Proof.
  intros p step fits m bound program pc_bus exec_bus bs extra l a rows0 s0 row flag Hp Hbig Hword Hm Hpc Hexec B Pl Ev Hex T Rv Hfl X Sd Ex Fl Hone A Lg. destruct B as (pc' & exec' & sm & al & sm1 & n1 & sm2 & next & cs & Ep & Ee & St & Op & Gd & _ & ->).
  assert (pc' = pc_bus) by congruence. assert (exec' = exec_bus) by congruence. subst pc' exec'. clear Ep Ee. remember (circuits step bs) as is eqn:Eis. fold (with_extra sm extra) in Op.
  destruct (stitch_execution m program pc_bus exec_bus Hexec is sm al extra rows0 s0 Pl St X Sd Ex) as (Xs & Cs & Ch).
  pose proof (extra_issued pc_bus exec_bus is sm al extra Pl St Hex) as Hex'. pose proof (stitch_over pc_bus exec_bus is sm al extra Pl St Hex') as O.
  pose proof (guard_derived sm1 _ sm2 next Gd) as Ed. pose proof (flag_unique sm2 _ _ flag Ed _ _ Fl) as ->. cbn [pre_machine pre_subs pre_checks] in *.
  assert (Hn1 : (N.of_nat n1 <= N.pos p)%N). { apply Hfl. exists (sm_derived sm1). exact Ed. }
  destruct (C31_flag_one p sm1 _ sm2 next Gd) as (_ & G & _). destruct (G row Hone) as [Ac Ms].
  assert (Mv : machine_values sm2 row = machine_values sm1 row) by (unfold machine_values; now rewrite Ms). assert (Sn : machine_sends m sm2 row = machine_sends m sm1 row) by (unfold machine_sends; now rewrite Mv).
  assert (A1 : machine_admissible m program row sm1). { destruct A as [A1 A2]. split; [now apply Ac|]. now rewrite <- Mv. }
  rewrite Sn in Lg. pose proof (stitch_balanced m pc_bus exec_bus Hexec is sm al extra Pl St Ev) as Bl.
  destruct (C43_machine_back_partial p m bound program _ sm1 _ l n1 s0 row Hp Hbig Hword Hm Op O Hn1 T Rv Xs Cs Ch Bl A1 Lg) as (s & [As Av] & Chs & Ef).
  destruct (stitch_split pc_bus exec_bus is sm al Pl St s) as (rows & M). exists rows, s. apply (stitch_accepts pc_bus exec_bus is sm al extra Pl St rows s M) in As. destruct As as [As Ae].
  rewrite (stitch_values pc_bus exec_bus is sm al extra Pl St rows s M) in Av. apply (chained_iff m pc_bus exec_bus Hexec is sm al extra Pl St rows s M) in Chs.
  split; [split; [exact As|split; [exact Av|exact Chs]]|]. split; [now apply side_matches|]. split; auto.
  intros bus args. rewrite Sn, Ef. now rewrite (stitch_sends m pc_bus exec_bus is sm al extra Pl St rows s M).
Qed.
(** C47: in every row that the precompile accepts the flag is 0 or 1; rows with the flag 0 send nothing, and the row of zeros
    is one. *)
Theorem C47_padding : forall p step fits m bound bs extra l (a : precompile p) flag, prime (Z.pos p) -> builds step fits m bound bs extra l a -> flag_column a flag ->
  (forall row, SymSpec.accepts (pre_machine a) row -> row flag = 0%F \/ row flag = 1%F) /\
  (forall row, SymSpec.accepts (pre_machine a) row -> row flag = 0%F -> machine_sends m (pre_machine a) row = [] /\ Forall (fun v => mult v = 0%F) (machine_values (pre_machine a) row)) /\
  SymSpec.accepts (pre_machine a) (fun _ => 0%F).
Proof.
  intros p step fits m bound bs extra l a flag Hp (pc' & exec' & sm & al & sm1 & n1 & sm2 & next & cs & _ & _ & _ & _ & Gd & _ & ->) Fl. pose proof (guard_derived sm1 _ sm2 next Gd) as Ed. pose proof (flag_unique sm2 _ _ flag Ed _ _ Fl) as ->. cbn [pre_machine].
  split; [exact (C31_flag_boolean p sm1 _ sm2 next Hp Gd)|]. split; [|exact (C31_zero_row p sm1 _ sm2 next Gd)]. intros row A H0. pose proof (C31_flag_zero p sm1 _ sm2 next Gd row H0 A) as Z.
  assert (Zv : Forall (fun v => mult v = 0%F) (machine_values sm2 row)) by (unfold machine_values; rewrite Forall_map; exact Z). split; auto.
  unfold machine_sends. induction Zv as [|v t H1 H2 IH]; auto. cbn [filter]. rewrite H1, IH. assert (Z0 : is_zero (0 : F p)%F = true) by (apply is_zero_eq; reflexivity). rewrite Z0, andb_false_r. reflexivity.
Qed.

Section Checks.
  Context {p : positive} {E : Type} (reg : E -> N -> N) (pc : E -> N) (value_limb : N -> nat -> N) (step : N) (fits : N -> bool).
  Lemma start_pcs_in (bs : list (bblock (instruction p))) : forall idx i c, In (i, c) (start_pcs_from idx bs) <-> exists k b, nth_error bs k = Some b /\ i = idx + before bs k /\ c = start_pc b.
  Proof.
    induction bs as [|b bs IH]; intros idx i c; cbn [start_pcs_from].
    - split; [intros []|]. intros ([|k] & b & H & _); discriminate.
    - cbn [In]. rewrite IH. split.
      + intros [[= <- <-]|(k & b' & H1 & -> & ->)]; [exists 0, b; unfold before; cbn; auto|]. exists (S k), b'. cbn [nth_error]. split; auto. split; auto. unfold before, list_sum. cbn [firstn map fold_right]. lia.
      + intros ([|k] & b' & H1 & -> & ->); cbn [nth_error] in H1; [left; injection H1 as ->; unfold before; cbn [firstn map list_sum fold_right]; f_equal; lia|]. right. exists k, b'. split; auto. split; auto. unfold before, list_sum. cbn [firstn map fold_right]. lia.
  Qed.
  Lemma pc_holds bs cs (ss : list E) : pc_constraints fits bs = Some cs -> (forall c, In c cs -> due (length ss) c -> oc_holds reg pc value_limb ss c) <-> starts_right (p := p) pc bs ss.
  Proof.
    unfold pc_constraints. destruct (forallb _ _); [|discriminate]. intros [= <-]. split.
    - intros H k b s Eb Es. destruct (H (mkOC (OLit (mkLit (before bs k) LPc)) (ONum (start_pc b)))) as (v & V1 & V2).
      + apply in_map_iff. exists (before bs k, start_pc b). split; auto. apply start_pcs_in. exists k, b. auto.
      + assert (Ls : before bs k < length ss) by (apply nth_error_Some; congruence). split; [lia|]. intros l0 [<-|[]]. exact Ls.
      + cbn [oleft oright oexpr_value lit_value instr_idx lval] in V1, V2. unfold lit_value in V1. cbn [instr_idx lval] in V1. rewrite Es in V1. congruence.
    - intros H c Hc [D0 D]. apply in_map_iff in Hc. destruct Hc as ([i q] & <- & Hi). apply start_pcs_in in Hi. destruct Hi as (k & b & Eb & -> & ->). cbn [fst snd] in *. specialize (D _ (or_introl eq_refl)). cbn [instr_idx Nat.add] in D.
      destruct (nth_error ss (before bs k)) as [s|] eqn:Es; [|apply nth_error_None in Es; lia]. exists (start_pc b). unfold oexpr_value, lit_value. cbn [oleft oright instr_idx lval Nat.add]. rewrite Es, (H k b s Eb Es). auto.
  Qed.
End Checks.
Section Instrs.
  Context {p : positive} (step : N).
  Lemma enumerate_nth {A} (l : list A) k : nth_error (enumerate l) k = option_map (fun x => (k, x)) (nth_error l k).
  Proof.
    unfold enumerate. assert (G : forall l o k, nth_error (combine (seq o (length l)) l) k = option_map (fun x : A => (o + k, x)) (nth_error l k)).
    { clear. induction l as [|x l IH]; intros o [|k]; cbn [length seq combine nth_error option_map]; auto; [now rewrite Nat.add_0_r|]. rewrite IH. destruct (nth_error l k); cbn; auto. f_equal. f_equal. lia. }
    exact (G l 0 k).
  Qed.
  Lemma instructions_nth (bs : list (bblock (instruction p))) : forall n x, nth_error (block_instructions step bs) n = Some x <->
    exists k b i ins, nth_error bs k = Some b /\ nth_error (instrs b) i = Some ins /\ n = before bs k + i /\ x = ((start_pc b + N.of_nat i * step)%N, ins).
  Proof.
    unfold block_instructions. induction bs as [|b bs IH]; intros n x; cbn [flat_map].
    - split; [destruct n; discriminate|]. intros ([|k] & b & i & ins & H & _); discriminate.
    - assert (Lb : length (bb_instructions step b) = length (instrs b)). { unfold bb_instructions, enumerate. rewrite map_length, combine_length, seq_length. lia. }
      assert (Nb : forall i, nth_error (bb_instructions step b) i = option_map (fun ins => ((start_pc b + N.of_nat i * step)%N, ins)) (nth_error (instrs b) i)).
      { intros i. unfold bb_instructions. rewrite nth_error_map, enumerate_nth. destruct (nth_error (instrs b) i); auto. }
      destruct (Nat.lt_ge_cases n (length (instrs b))) as [L|L].
      + rewrite nth_error_app1 by lia. rewrite Nb. split.
        * destruct (nth_error (instrs b) n) as [ins|] eqn:Ei; [|discriminate]. intros [= <-]. exists 0, b, n, ins. unfold before. cbn. auto.
        * intros ([|k] & b' & i & ins & H1 & H2 & -> & ->); cbn [nth_error] in H1.
          -- injection H1 as ->. unfold before in *. cbn [firstn map list_sum fold_right Nat.add] in *. rewrite H2. reflexivity.
          -- exfalso. unfold before, list_sum in L. cbn [firstn map fold_right] in L. lia.
      + rewrite nth_error_app2 by lia. rewrite Lb, IH. split.
        * intros (k & b' & i & ins & H1 & H2 & H3 & ->). exists (S k), b', i, ins. cbn [nth_error]. repeat split; auto. unfold before, list_sum in *. cbn [firstn map fold_right]. lia.
        * intros ([|k] & b' & i & ins & H1 & H2 & -> & ->); cbn [nth_error] in H1.
          -- exfalso. injection H1 as ->. unfold before in L. cbn [firstn map list_sum fold_right Nat.add] in L. assert (nth_error (instrs b') i <> None) by congruence. apply nth_error_Some in H. lia.
          -- exists k, b', i, ins. repeat split; auto. unfold before, list_sum. cbn [firstn map fold_right]. lia.
  Qed.
End Instrs.
(** C47: the circuits of the block are those of its instructions in order; the instruction at place [i] of a basic block is
    looked up in the program at [i] steps after the start of the basic block. *)
Theorem C47_circuits : forall p step (bs : list (bblock (instruction p))),
  length (circuits step bs) = list_sum (map (fun b => length (instrs b)) bs) /\
  forall k b i ins, nth_error bs k = Some b -> nth_error (instrs b) i = Some ins ->
    nth_error (circuits step bs) (before bs k + i) = Some (i_machine ins, i_row ins (start_pc b + N.of_nat i * step)%N).
Proof.
  intros p step bs. split.
  - unfold circuits, block_instructions. rewrite map_length. induction bs as [|b bs IH]; auto. cbn [flat_map map]. rewrite app_length, IH. unfold list_sum. cbn [fold_right]. f_equal. unfold bb_instructions, enumerate. rewrite map_length, combine_length, seq_length. lia.
  - intros k b i ins Eb Ei. unfold circuits. rewrite nth_error_map. rewrite (proj2 (instructions_nth step bs (before bs k + i) ((start_pc b + N.of_nat i * step)%N, ins))); [reflexivity|]. exists k, b, i, ins. auto.
Qed.
(** C47: checking the conditions of a precompile along an execution never panics, and it passes if and only if the program
    counter is at the start of each basic block that has been reached; if the program counter proceeds by steps within basic
    blocks, this is the case if and only if each state that has been reached is at the instruction whose turn it is. *)
Theorem C47_checks : forall E (reg : E -> N -> N) (pc : E -> N) (value_limb : N -> nat -> N) p step fits m bound bs extra l (a : precompile p) states,
  builds step fits m bound bs extra l a ->
  ev_run reg pc value_limb (pre_checks a) states ev_new <> StepPanic /\
  ((exists ev, ev_run reg pc value_limb (pre_checks a) states ev_new = StepOk ev) <-> starts_right pc bs states) /\
  ((forall b, In b bs -> instrs b <> []) -> straight pc step bs states -> (starts_right pc bs states <-> on_track pc step bs states)).
Proof.
  intros E reg pc vl p step fits m bound bs extra l a states (pc' & exec' & sm & al & sm1 & n1 & sm2 & next & cs & _ & _ & _ & _ & _ & Ec & ->). cbn [pre_checks]. destruct (C36_run E reg pc vl cs states) as [NP Iff]. split; auto. split; [rewrite Iff; exact (pc_holds reg pc vl step fits bs cs states Ec)|].
  intros Ne Sg. split.
  - intros Sr n x s En Es. apply (instructions_nth step) in En. destruct En as (k & b & i & ins & Eb & Ei & -> & ->). cbn [fst]. revert s ins Ei Es. induction i as [|i IH]; intros s ins Ei Es.
    + rewrite Nat.add_0_r in Es. rewrite (Sr k b s Eb Es). lia.
    + assert (Li : S i < length (instrs b)) by (apply nth_error_Some; congruence). destruct (nth_error (instrs b) i) as [ins'|] eqn:Ei'; [|apply nth_error_None in Ei'; lia].
      assert (Ls : before bs k + S i < length states) by (apply nth_error_Some; congruence). destruct (nth_error states (before bs k + i)) as [t|] eqn:Et; [|apply nth_error_None in Et; lia].
      rewrite (Sg k b i t s Eb ltac:(lia) Et); [|now replace (before bs k + i + 1) with (before bs k + S i) by lia]. rewrite (IH t ins' eq_refl eq_refl). lia.
  - intros Ot k b s Eb Es. destruct (instrs b) as [|ins t] eqn:Ei; [exfalso; apply (Ne b); auto; eapply nth_error_In; eauto|].
    rewrite (Ot (before bs k) ((start_pc b + N.of_nat 0 * step)%N, ins) s); auto; [cbn [fst]; lia|]. apply (instructions_nth step). exists k, b, 0, ins. rewrite Ei. repeat split; auto.
Qed.

(** ** An example on BabyBear: the block of C43, made from its two instructions. *)
Section DoBuild.
  Context {p : positive} (step : N) (fits : N -> bool) (m : busmap) (bound : degree_bound) (fuel rounds : nat).
  Definition do_build (bs : list (bblock (instruction p))) (extra : list (aexpr p)) : option (list (PipeModel.step p) * precompile p) :=
    match get_bus_id m BPc, get_bus_id m BExec with
    | Some pc_bus, Some exec_bus =>
      match statements_to_machine pc_bus exec_bus (circuits step bs), pc_constraints fits bs with
      | Some (sm, al), Some cs =>
        match do_optimize m bound fuel rounds (with_extra sm extra) (N.to_nat (al_next al)) with
        | Some (l, sm1, n1) =>
          match add_guards sm1 (N.of_nat n1) with
          | Some (sm2, next) => Some (l, mkPre sm2 (apc_subs sm2 (mkAlloc (al_subs al) next)) (from_constraints cs))
          | None => None
          end
        | None => None
        end
      | _, _ => None
      end
    | _, _ => None
    end.
  Lemma do_build_sound bs extra l a : do_build bs extra = Some (l, a) -> builds step fits m bound bs extra l a.
  Proof.
    unfold do_build. destruct (get_bus_id m BPc) as [pc_bus|] eqn:E1; [|discriminate]. destruct (get_bus_id m BExec) as [exec_bus|] eqn:E2; [|discriminate]. destruct (statements_to_machine pc_bus exec_bus (circuits step bs)) as [[sm al]|] eqn:E3; [|discriminate].
    destruct (pc_constraints fits bs) as [cs|] eqn:E4; [|discriminate]. destruct (do_optimize _ _ _ _ _ _) as [[[l' sm1] n1]|] eqn:E5; [|discriminate]. destruct (add_guards sm1 (N.of_nat n1)) as [[sm2 next]|] eqn:E6; [|discriminate]. intros [= <- <-].
    exists pc_bus, exec_bus, sm, al, sm1, n1, sm2, next, cs. repeat (split; [first [reflexivity|assumption]|]). split; [exact (do_optimize_sound m bound fuel rounds _ _ _ _ _ E5)|]. split; auto.
  Qed.
End DoBuild.
Definition copy_instr : instruction babybear := mkI (mkSM
  [sub_ (w_ 7) (add_ (w_ 2) (w_ 6)); sub_ (w_ 6) (a_ 0)]
  [mkSB 0 (ANeg (a_ 1)) [w_ 0; w_ 1]; mkSB 2 (a_ 1) [w_ 0; w_ 8];
   mkSB 1 (ANeg (a_ 1)) [a_ 1; a_ 4; w_ 2; w_ 3]; mkSB 1 (a_ 1) [a_ 1; a_ 4; w_ 2; w_ 1];
   mkSB 3 (a_ 1) [sub_ (sub_ (w_ 1) (w_ 3)) (a_ 1); a_ 17];
   mkSB 1 (ANeg (a_ 1)) [a_ 1; a_ 8; w_ 4; w_ 5]; mkSB 1 (a_ 1) [a_ 1; a_ 8; w_ 7; add_ (w_ 1) (a_ 1)];
   mkSB 6 (a_ 1) [w_ 7; w_ 7; a_ 0; a_ 0];
   mkSB 0 (a_ 1) [add_ (w_ 0) (a_ 4); add_ (w_ 1) (a_ 2)]] []) (fun pc => [of_N pc; of_N 17]).
Definition read_instr : instruction babybear := mkI (mkSM []
  [mkSB 0 (ANeg (a_ 1)) [w_ 0; w_ 1]; mkSB 2 (a_ 1) [w_ 0; w_ 4];
   mkSB 1 (ANeg (a_ 1)) [a_ 1; a_ 8; w_ 2; w_ 3]; mkSB 1 (a_ 1) [a_ 1; a_ 8; w_ 2; w_ 1];
   mkSB 3 (a_ 1) [sub_ (sub_ (w_ 1) (w_ 3)) (a_ 1); a_ 17];
   mkSB 0 (a_ 1) [add_ (w_ 0) (a_ 4); add_ (w_ 1) (a_ 1)]] []) (fun pc => [of_N pc; of_N 18]).
Definition copy_block : list (bblock (instruction babybear)) := [mkBB 0 [copy_instr; read_instr]].
Definition row_of (l : list N) (v : var) : F babybear := match v with Orig n => of_N (nth (N.to_nat n) l 0%N) | _ => 0%F end.
Definition copy_rows : list (var -> F babybear) := [row_of [0; 100; 7; 50; 9; 60; 0; 7; 17]; row_of [4; 102; 7; 101; 18]]%N.
Definition width_check (sm : smach babybear) (w : nat) : bool :=
  Nat.ltb 0 w && forallb (fun v => match v with Orig n => N.ltb n (N.of_nat w) | _ => false end) (sm_refs sm) && forallb (fun k => existsb (fun v => veqb v (Orig (N.of_nat k))) (sm_refs sm)) (seq 0 w).
Lemma refs_columns (sm : smach babybear) v : In v (sm_refs sm) <-> column_of sm v.
Proof.
  assert (K : forall e : aexpr babybear, In v (arefs e) <-> occurs v e). { induction e as [w|k|x IHx o y IHy|x IHx]; cbn [occurs arefs In]; [tauto|tauto|rewrite in_app_iff; tauto|exact IHx]. }
  rewrite column_children. unfold sm_refs. rewrite in_flat_map. split; intros (e & H1 & H2); exists e; (split; [auto|now apply K]).
Qed.
Lemma width_check_ok sm w : width_check sm w = true -> has_width sm w.
Proof.
  unfold width_check. rewrite !andb_true_iff, !forallb_forall. intros [[H0 H1] H2]. split; [now apply Nat.ltb_lt|]. intros v. rewrite <- refs_columns. split.
  - intros I. specialize (H1 v I). destruct v as [n| |]; try discriminate. exists n. split; auto. now apply N.ltb_lt.
  - intros (n & -> & Hn). specialize (H2 (N.to_nat n)). rewrite in_seq in H2. specialize (H2 ltac:(lia)). apply existsb_exists in H2. destruct H2 as (v & I & E). apply veqb_eq in E. subst v. now rewrite N2Nat.id in I.
Qed.
Definition copy_circuits : list (smach babybear * list (F babybear)) := circuits 4 copy_block.
Lemma copy_widths : Forall2 (fun (i : smach babybear * list (F babybear)) w => has_width (fst i) w) copy_circuits [9; 5].
Proof. constructor; [|constructor; [|constructor]]; apply width_check_ok; vm_compute; reflexivity. Qed.
Lemma copy_plain : Forall plain copy_circuits.
Proof.
  constructor; [|constructor; [|constructor]]; (split; [|reflexivity]); cbn [fst snd]; intros v Hv.
  - assert (W : has_width (i_machine copy_instr) 9) by (apply width_check_ok; vm_compute; reflexivity). apply (proj2 W) in Hv. destruct Hv as (n & -> & _). eauto.
  - assert (W : has_width (i_machine read_instr) 5) by (apply width_check_ok; vm_compute; reflexivity). apply (proj2 W) in Hv. destruct Hv as (n & -> & _). eauto.
Qed.
(** The rows if the value is [v]. *)
Definition rows_with (v : N) : list (var -> F babybear) := [row_of [0; 100; v; 50; 9; 60; 0; v; 17]; row_of [4; 102; v; 101; 18]]%N.
Definition together (v : N) : var -> F babybear := row_of [0; 100; v; 50; 9; 60; 0; v; 17; 4; 102; v; 101; 18]%N.
Lemma together_side v : side_by_side copy_circuits (rows_with v) (together v).
Proof.
  exists [9; 5]. split; [exact copy_widths|]. split; [reflexivity|]. intros [|[|k]] w r j; cbn [nth_error rows_with].
  - intros [= <-] [= <-] Hj. do 9 (destruct j as [|j]; [reflexivity|]). lia.
  - intros [= <-] [= <-] Hj. do 5 (destruct j as [|j]; [reflexivity|]). lia.
  - destruct k; discriminate.
Qed.
Lemma copy_execution v : v = 7%N \/ v = 8%N -> block_execution default_openvm_bus_map copy_program 2 0 copy_circuits (rows_with v).
Proof.
  intros Hv. assert (T : forallb table_check (block_values copy_circuits (rows_with v)) = true) by (destruct Hv as [-> | ->]; vm_compute; reflexivity). rewrite forallb_forall in T. split; [split; [|split]|split].
  - constructor; [|constructor; [|constructor]]; (split; [|split]).
    + apply copy_accepts. destruct Hv as [-> | ->]; vm_compute; reflexivity.
    + intros rc sd E. assert (rc = mkSB 0 (ANeg (a_ 1)) [w_ 0; w_ 1]) by (cbn in E; congruence). subst rc. reflexivity.
    + intros lk E. assert (lk = mkSB 2 (a_ 1) [w_ 0; w_ 8]) by (cbn in E; congruence). subst lk. reflexivity.
    + constructor.
    + intros rc sd E. assert (rc = mkSB 0 (ANeg (a_ 1)) [w_ 0; w_ 1]) by (cbn in E; congruence). subst rc. reflexivity.
    + intros lk E. assert (lk = mkSB 2 (a_ 1) [w_ 0; w_ 4]) by (cbn in E; congruence). subst lk. reflexivity.
  - apply Forall_forall. intros x I. apply table_check_ok. auto.
  - intros [|[|[|k]]] i j ri rj r1 s1 r2 s2; cbn [nth_error copy_circuits circuits block_instructions bb_instructions flat_map map app]; try discriminate. intros [= <-] [= <-] [= <-] [= <-] E1 E2.
    assert (s1 = message (row_of [0; 100; v; 50; 9; 60; 0; v; 17]%N) (mkSB 0 (a_ 1) [add_ (w_ 0) (a_ 4); add_ (w_ 1) (a_ 2)])) by (cbn in E1; injection E1 as _ <-; reflexivity). assert (r2 = message (row_of [4; 102; v; 101; 18]%N) (mkSB 0 (ANeg (a_ 1)) [w_ 0; w_ 1])) by (cbn in E2; injection E2 as <- _; reflexivity). subst s1 r2.
    cbn [message fst snd sb_args sb_mult map]. split; [|apply F_ext; vm_compute; reflexivity]. apply (f_equal2 cons); [apply F_ext; vm_compute; reflexivity|]. apply (f_equal2 cons); [apply F_ext; vm_compute; reflexivity|reflexivity].
  - apply Forall_forall. intros x I. apply filter_In in I. apply table_check_ok. apply T. apply I.
  - intros id G. assert (id = 1%N) by (cbn in G; congruence). subst id. apply chronological_check; [exact one_bb|]. destruct Hv as [-> | ->]; vm_compute; reflexivity.
Qed.
Lemma copy_even : Forall (even_handed 0) copy_circuits.
Proof.
  constructor; [|constructor; [|constructor]]; intros r rc sd _ E; cbn in E; injection E as <- <-; cbn [fst snd]; apply F_ext; vm_compute; reflexivity.
Qed.
(** The empirical constraint: the value is always 7. *)
Definition always_seven : list (aexpr babybear) := [sub_ (w_ 2) (a_ 7)].
Lemma seven_columns : Forall (fun e => forall v, occurs v e -> block_column copy_circuits v) always_seven.
Proof. constructor; [|constructor]. intros v [H|[]]. cbn in H. subst v. exists [9; 5]. split; [exact copy_widths|]. exists 2. split; [reflexivity|]. cbn. lia. Qed.
(** No message of the machine has the given arguments, because of a literal. *)
Definition avoids (target : list (F babybear)) (sm : smach babybear) : bool :=
  forallb (fun b => existsb (fun ek => match fst ek with ANum k => negb (feqb k (snd ek)) | _ => false end) (combine (sb_args b) target)) (sm_buses sm).
Lemma avoids_net target sm bus row : avoids target sm = true -> net bus target (machine_sends default_openvm_bus_map sm row) = 0%F.
Proof.
  intros H. unfold avoids in H. rewrite forallb_forall in H. assert (K : forall g, In g (machine_sends default_openvm_bus_map sm row) -> payload g <> target).
  { intros g I. apply filter_In in I. destruct I as [I _]. unfold machine_values in I. apply in_map_iff in I. destruct I as (x & <- & I). unfold messages in I. apply in_map_iff in I. destruct I as (b & <- & I). cbn [payload fst snd message]. specialize (H b I). intros E. rewrite <- E in H. clear E I. induction (sb_args b) as [|e l IH]; [discriminate|]. cbn [map combine existsb fst snd] in H. apply orb_true_iff in H. destruct H as [H|H]; auto. destruct e; try discriminate. cbn [aeval] in H. rewrite (proj2 (feqb_eq _ _) eq_refl) in H. discriminate. }
  clear H. induction (machine_sends default_openvm_bus_map sm row) as [|g l IH]; [reflexivity|]. cbn [net]. rewrite IH by (intros x I; apply K; now right). destruct (message_dec bus target g) as [E|E]; [|apply F_ext; vm_compute; reflexivity]. exfalso. apply (K g (or_introl eq_refl)). apply E.
Qed.
Definition seven_row : var -> F babybear := row_of [0; 100; 0; 50; 9; 60; 0; 0; 0; 0; 0; 0; 0; 0; 1]%N.
Definition eight_message : list (F babybear) := map of_N [1; 4; 8; 50]%N.
Definition seven_checks (r : option (list (PipeModel.step babybear) * precompile babybear)) : bool :=
  match r with
  | Some (l, a) => forallb (step_checked default_openvm_bus_map) l && avoids eight_message (pre_machine a) && Nat.eqb (length (columns (pre_machine a))) 5 && Nat.eqb (length (sm_buses (pre_machine a))) 7 &&
      match sm_derived (pre_machine a) with [(Orig k, AConst c)] => N.eqb k 14 && feqb c 1%F | _ => false end &&
      forallb table_check (machine_values (pre_machine a) seven_row) && forallb (fun e => feqb (aeval seven_row e) 0) (sm_cons (pre_machine a)) &&
      Nat.eqb (length (concat (pre_subs a))) 4
  | None => false
  end.
Lemma seven_checks_true : seven_checks (do_build 4 (fun _ => true) default_openvm_bus_map copy_bound 100 1 copy_block always_seven) = true.
Proof. vm_compute. reflexivity. Qed.
Lemma seven_checks_some r : seven_checks r = true -> exists l a, r = Some (l, a) /\ forallb (step_checked default_openvm_bus_map) l = true /\ avoids eight_message (pre_machine a) = true /\
  length (columns (pre_machine a)) = 5 /\ length (sm_buses (pre_machine a)) = 7 /\ sm_derived (pre_machine a) = [(Orig 14, AConst 1%F)] /\
  forallb table_check (machine_values (pre_machine a) seven_row) = true /\ forallb (fun e => feqb (aeval seven_row e) 0) (sm_cons (pre_machine a)) = true /\ length (concat (pre_subs a)) = 4.
Proof.
  destruct r as [[l a]|]; [|discriminate]. unfold seven_checks. rewrite !andb_true_iff, !Nat.eqb_eq. intros [[[[[[[C1 C2] C3] C4] C5] C6] C7] C8]. exists l, a. repeat (split; [first [reflexivity|assumption]|]).
  split; [|split; [assumption|split; assumption]]. destruct (sm_derived (pre_machine a)) as [|[[k| |] [c|]] [|]]; try discriminate. apply andb_true_iff in C5. destruct C5 as [C5 C9]. apply N.eqb_eq in C5. apply feqb_eq in C9. now subst.
Qed.
Lemma seven_run : exists l a, builds 4 (fun _ => true) default_openvm_bus_map copy_bound copy_block always_seven l a /\
  forallb (step_checked default_openvm_bus_map) l = true /\ avoids eight_message (pre_machine a) = true /\
  length (columns (pre_machine a)) = 5 /\ length (sm_buses (pre_machine a)) = 7 /\ sm_derived (pre_machine a) = [(Orig 14, AConst 1%F)] /\
  forallb table_check (machine_values (pre_machine a) seven_row) = true /\ forallb (fun e => feqb (aeval seven_row e) 0) (sm_cons (pre_machine a)) = true /\ length (concat (pre_subs a)) = 4.
Proof.
  destruct (seven_checks_some _ seven_checks_true) as (l & a & E & H). exists l, a. split; [exact (do_build_sound 4 (fun _ => true) default_openvm_bus_map copy_bound 100 1 copy_block always_seven l a E)|exact H].
Qed.
Lemma copy_starts : starts_right (fun x => x) copy_block [0; 4]%N /\ straight (fun x => x) 4 copy_block [0; 4]%N.
Proof.
  split.
  - intros [|[|k]] b s; cbn [nth_error copy_block]; try discriminate. intros [= <-] [= <-]. reflexivity.
  - intros [|[|k]] b i s t; cbn [nth_error copy_block]; try discriminate. intros [= <-] Hi. cbn [instrs length] in Hi. assert (i = 0) by lia. subst i. intros [= <-] [= <-]. reflexivity.
Qed.
Example C47_example : exists l a, builds 4 (fun _ => true) default_openvm_bus_map copy_bound copy_block always_seven l a /\
  map_ok babybear default_openvm_bus_map /\ get_bus_id default_openvm_bus_map BPc = Some 2%N /\ get_bus_id default_openvm_bus_map BExec = Some 0%N /\
  Forall plain (circuits 4 copy_block) /\ Forall (even_handed 0) (circuits 4 copy_block) /\ Forall (fun e => forall v, occurs v e -> block_column (circuits 4 copy_block) v) always_seven /\
  Forall (tests_right default_openvm_bus_map copy_bound) l /\ Forall (reversible default_openvm_bus_map copy_program) l /\ (forall flag, flag_column a (Orig flag) -> (flag <= N.pos babybear)%N) /\
  block_execution default_openvm_bus_map copy_program 2 0 (circuits 4 copy_block) (rows_with 7) /\ side_by_side (circuits 4 copy_block) (rows_with 7) (together 7) /\ Forall (fun e => aeval (together 7) e = 0%F) always_seven /\
  flag_column a (Orig 14) /\ seven_row (Orig 14) = 1%F /\ machine_admissible default_openvm_bus_map copy_program seven_row (pre_machine a) /\ Forall (legal default_openvm_bus_map) (machine_sends default_openvm_bus_map (pre_machine a) seven_row) /\
  length (columns (pre_machine a)) = 5 /\ length (sm_buses (pre_machine a)) = 7 /\ length (concat (pre_subs a)) = 4 /\
  starts_right (fun x => x) copy_block [0; 4]%N /\ straight (fun x => x) 4 copy_block [0; 4]%N.
Proof.
  destruct seven_run as (l & a & B & C1 & C2 & C3 & C4 & C5 & C6 & C7 & C8). exists l, a. split; [exact B|]. split; [exact default_map_ok|]. split; [reflexivity|]. split; [reflexivity|]. split; [exact copy_plain|]. split; [exact copy_even|]. split; [exact seven_columns|].
  assert (R : Forall (tests_right default_openvm_bus_map copy_bound) l /\ Forall (reversible default_openvm_bus_map copy_program) l).
  { destruct B as (pc' & exec' & sm & al & sm1 & n1 & sm2 & next & cs & _ & _ & _ & O & _). destruct O as (sm3 & c & x & y & _ & _ & _ & R & _). exact (checked_all _ _ copy_program x l y R C1). }
  destruct R as [R1 R2]. split; [exact R1|]. split; [exact R2|]. split. { intros flag (l' & E). rewrite C5 in E. apply (app_inj_tail []) in E. destruct E as [_ E]. injection E as E. subst flag. vm_compute. discriminate. }
  split; [apply copy_execution; now left|]. split; [apply together_side|]. split; [constructor; [|constructor]; apply F_ext; vm_compute; reflexivity|]. split; [exists []; exact C5|]. split; [reflexivity|].
  destruct (copy_messages (pre_machine a) seven_row C6) as [M1 M2]. split; [split; [now apply copy_accepts|exact M1]|]. split; [exact M2|]. split; [exact C3|]. split; [exact C4|]. split; [exact C8|]. exact copy_starts.
Qed.
(** C47: the conditions that are checked during execution do not include the empirical constraints (a comment in [build]
    says so): an execution of the block can meet the conditions although no real row of the precompile has its effect. *)
Theorem C47_empirical_refuted : exists l (a : precompile babybear) rows s,
  builds 4 (fun _ => true) default_openvm_bus_map copy_bound copy_block always_seven l a /\
  block_execution default_openvm_bus_map copy_program 2 0 (circuits 4 copy_block) rows /\ side_by_side (circuits 4 copy_block) rows s /\
  (exists ev, ev_run (fun _ _ => 0%N) (fun x => x) (fun x _ => x) (pre_checks a) [0; 4]%N ev_new = StepOk ev) /\
  forall row, exists bus args, net bus args (machine_sends default_openvm_bus_map (pre_machine a) row) <> net bus args (block_sends default_openvm_bus_map (circuits 4 copy_block) rows).
Proof.
  destruct seven_run as (l & a & B & C1 & C2 & C). exists l, a, (rows_with 8), (together 8). split; [exact B|]. split; [apply copy_execution; now right|]. split; [apply together_side|]. split.
  - apply (proj1 (proj2 (C47_checks N (fun _ _ => 0%N) (fun x => x) (fun x _ => x) babybear 4 (fun _ => true) default_openvm_bus_map copy_bound copy_block always_seven l a [0; 4]%N B))). apply copy_starts.
  - intros row. exists (of_N 1), eight_message. rewrite (avoids_net _ _ _ _ C2). intros E. apply (f_equal val) in E. vm_compute in E. discriminate.
Qed.
Print Assumptions C47_complete. Print Assumptions C47_sound_partial. Print Assumptions C47_padding. Print Assumptions C47_checks. Print Assumptions C47_circuits. Print Assumptions C47_empirical_refuted.
