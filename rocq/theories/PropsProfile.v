(** C63: profiles count what was executed, and statistics of precompiles count what is in them. *)
From Coq Require Import Arith NArith Bool List Ascii String Lia Permutation Sorted.
From Verif Require Import Field ExprModel NumModel JsonModel SymModel SymSpec TraceModel TraceSpec TraceFacts AirModel ProfileModel ProfileSpec ProfileFacts.
Import ListNotations.
Local Open Scope list_scope.

(** ** Profiles *)
(** A profile has the pcs of the events in their order and the number of times each of them occurs. *)
Theorem C63_profile : forall (events : list event) (prof : profile), execution_profile events = Some prof ->
  recorded events (pc_list prof) /\ pc_list prof <> [] /\
  (forall pc, pc_execution_count prof pc = match occurrences pc (pc_list prof) with 0 => None | n => Some (N.of_nat n) end) /\
  NoDup (map fst (pc_count prof)) /\ list_sum (map (fun x => N.to_nat (snd x)) (pc_count prof)) = List.length (pc_list prof).
Proof.
  intros events prof H. unfold execution_profile in H. pose proof (collect_recorded events) as R. set (pcs := fold_left on_event events []) in *.
  pose proof (count_pcs_ok pcs [] [] (NoDup_nil _) (fun _ => eq_refl) eq_refl (fun k => iff_refl _)) as C. destruct (count_pcs [] pcs) as [[|c counts]|]; [discriminate| |discriminate]. injection H as <-. cbn [pc_list pc_count].
  destruct C as (C1 & C2 & C3 & C4 & _). cbn [app] in *. split; [exact R|]. split.
  - intros E. rewrite E in C4. destruct (proj1 (C4 (fst c))). now left.
  - split; [|split; [exact C1|exact C3]]. intros pc. unfold pc_execution_count. cbn [pc_count]. rewrite C2. now destruct (occurrences pc pcs).
Qed.
Print Assumptions C63_profile.

(** There is one unless nothing was executed or something was executed 2^32 times. *)
Theorem C63_profile_exists : forall (events : list event) (pcs : list N), recorded events pcs ->
  (execution_profile events = None <-> pcs = [] \/ exists pc, (2 ^ 32 <= N.of_nat (occurrences pc pcs))%N).
Proof.
  intros events pcs R. unfold execution_profile. rewrite (recorded_one _ _ (collect_recorded events) _ R).
  pose proof (count_pcs_ok pcs [] [] (NoDup_nil _) (fun _ => eq_refl) eq_refl (fun k => iff_refl _)) as C. destruct (count_pcs [] pcs) as [counts|].
  - destruct C as (_ & _ & _ & C4 & C5). cbn [app] in *. destruct counts as [|c counts].
    + split; [intros _; left|reflexivity]. destruct pcs as [|pc pcs]; [reflexivity|]. destruct (proj2 (C4 pc)). now left.
    + split; [discriminate|]. intros [E | (pc & Hp)].
      * rewrite E in C4. destruct (proj1 (C4 (fst c))). now left.
      * assert (Hi : In pc pcs). { apply (count_occ_In N.eq_dec). fold (occurrences pc pcs). destruct (occurrences pc pcs); [change (2 ^ 32)%N with 4294967296%N in Hp; lia|lia]. } specialize (C5 pc Hi). lia.
  - split; auto.
Qed.
Print Assumptions C63_profile_exists.

(** If the execution is a sequence of complete blocks, and no pc is in two places of blocks, then every pc of a block is
    counted as often as the block was executed. *)
Theorem C63_blocks : forall (events : list event) (prof : profile) (blocks : list (list N)) (executed : list nat),
  execution_profile events = Some prof -> NoDup (List.concat blocks) -> Forall (fun i => i < List.length blocks) executed ->
  pc_list prof = flat_map (fun i => nth i blocks []) executed ->
  forall i pc, In pc (nth i blocks []) -> pc_execution_count prof pc = match count_occ Nat.eq_dec executed i with 0 => None | n => Some (N.of_nat n) end.
Proof.
  intros events prof blocks executed H Hd He Hp i pc Hi. destruct (C63_profile events prof H) as (_ & _ & Hc & _). rewrite Hc, Hp. clear -Hd He Hi.
  assert (One : forall (bs : list (list N)), NoDup (List.concat bs) -> forall j k, j < List.length bs -> In pc (nth j bs []) -> occurrences pc (nth k bs []) = if Nat.eq_dec k j then 1 else 0).
  { clear. induction bs as [|b bs IH]; intros D j k L Hj; [cbn in L; lia|]. cbn [List.concat] in D. assert (D1 : NoDup b) by (clear -D; induction b as [|x b IHb]; [constructor|]; inversion D; subst; constructor; [rewrite in_app_iff in *; tauto|auto]).
    assert (D2 : NoDup (List.concat bs)) by (clear -D; induction b as [|x b IHb]; [exact D|inversion D; auto]).
    assert (D3 : forall x, In x b -> ~ In x (List.concat bs)) by (clear -D; induction b as [|y b IHb]; intros x Hx; [destruct Hx|]; inversion D; subst; destruct Hx as [-> | Hx]; [rewrite in_app_iff in *; tauto|auto]).
    destruct j as [|j], k as [|k]; cbn [nth] in *.
    - destruct (Nat.eq_dec 0 0); [|lia]. now apply NoDup_count_occ'.
    - destruct (Nat.eq_dec (S k) 0); [lia|]. apply count_occ_not_In. intros Hk. apply (D3 pc Hj). apply in_concat. destruct (le_lt_dec (List.length bs) k) as [Lk | Lk]; [rewrite nth_overflow in Hk by lia; destruct Hk|]. exists (nth k bs []). split; [now apply nth_In|exact Hk].
    - destruct (Nat.eq_dec 0 (S j)); [lia|]. apply count_occ_not_In. intros Hk. apply (D3 pc Hk). apply in_concat. cbn in L. exists (nth j bs []). split; [apply nth_In; lia|exact Hj].
    - rewrite (IH D2 j k) by (cbn in L; try lia; auto). destruct (Nat.eq_dec k j), (Nat.eq_dec (S k) (S j)); auto; lia. }
  assert (L : i < List.length blocks). { destruct (le_lt_dec (List.length blocks) i) as [L | L]; [rewrite nth_overflow in Hi by lia; destruct Hi|exact L]. }
  assert (E : occurrences pc (flat_map (fun j => nth j blocks []) executed) = count_occ Nat.eq_dec executed i).
  { clear He. induction executed as [|k r IH]; [reflexivity|]. cbn [flat_map]. unfold occurrences in *. rewrite count_occ_app, IH. cbn [count_occ]. specialize (One blocks Hd i k L Hi). unfold occurrences in One. rewrite One. destruct (Nat.eq_dec k i); reflexivity. }
  now rewrite E.
Qed.
Print Assumptions C63_blocks.

(** ** Statistics *)
(** An evaluation exists exactly if all instructions are known and the machine has a column.  Before: the sums over the
    instructions.  After: the different columns that occur, the constraints and the interactions.  The widths say the same, and
    there are no preprocessed columns after. *)
Theorem C63_evaluation : forall (p : positive) (o : original_airs p) (opcodes : list N) (m : smach p),
  ((exists r, evaluate_apc o opcodes m = Some r) <-> (forall op, In op opcodes -> get_instruction_metrics o op <> None) /\ exists id, column_id m id) /\
  forall wb wa before after, evaluate_apc o opcodes m = Some ((wb, wa), (before, after)) ->
    (forall f, (forall op, In op opcodes -> get_instruction_metrics o op = Some (f op)) ->
       s_main before = total (fun op => mt_main (f op)) opcodes /\ s_constraints before = total (fun op => mt_constraints (f op)) opcodes /\
       s_interactions before = total (fun op => mt_interactions (f op)) opcodes /\
       wb = (total (fun op => mt_preprocessed (f op)) opcodes, s_main before)) /\
    many (column_id m) (s_main after) /\ s_constraints after = List.length (sm_cons m) /\ s_interactions after = List.length (sm_buses m) /\ wa = (0, s_main after).
Proof.
  intros p o opcodes m. destruct (main_columns_ok m) as [Sd Hc]. split.
  - unfold evaluate_apc, apc_stats, apc_metrics, powdr_width. rewrite <- each_some_ok. destruct (each_some (get_instruction_metrics o) opcodes) as [ys|].
    + destruct (Nat.ltb_spec 0 (List.length (main_columns m))) as [L | L].
      * split; [intros _|eauto]. split; [eauto|]. destruct (main_columns m) as [|id r]; [cbn in L; lia|]. exists id. apply Hc. now left.
      * split; [intros (r & [=])|]. intros (_ & id & Hid). apply Hc in Hid. destruct (main_columns m); [destruct Hid|cbn in L; lia].
    + split; [intros (r & [=])|intros ((ys & [=]) & _)].
  - intros wb wa before after H. unfold evaluate_apc, apc_stats, apc_metrics, powdr_width in H. destruct (each_some (get_instruction_metrics o) opcodes) as [ys|] eqn:Ey; [|discriminate].
    destruct (Nat.ltb_spec 0 (List.length (main_columns m))) as [L | L]; [|discriminate]. injection H as <- <- <- <-. split.
    + intros f Hf. assert (E : ys = map f opcodes).
      { apply each_some_map in Ey. revert ys Ey Hf. induction opcodes as [|op r IH]; intros [|y ys] Ey Hf; try discriminate; [reflexivity|]. cbn in Ey. injection Ey as E1 E2. cbn [map]. rewrite (Hf op) in E1 by now left. injection E1 as ->. f_equal. apply IH; auto. intros q Hq. apply Hf. now right. }
      subst ys. rewrite stats_sum_ok, widths_sum_ok, !map_map. cbn. auto.
    + cbn. split; [exists (main_columns m); split; [now apply sorted_nodup|split; [exact Hc|reflexivity]]|auto].
Qed.
Print Assumptions C63_evaluation.

(** Statistics before do not depend on the order of instructions, and those of a superblock are the sums over its blocks. *)
Theorem C63_before : forall (p : positive) (o : original_airs p) (a b : list N) (m : smach p) w before after,
  evaluate_apc o (a ++ b) m = Some (w, (before, after)) ->
  (forall c, Permutation (a ++ b) c -> evaluate_apc o c m = Some (w, (before, after))) /\
  exists wa sa wb sb, evaluate_apc o a m = Some ((wa, snd w), (sa, after)) /\ evaluate_apc o b m = Some ((wb, snd w), (sb, after)) /\
    before = stats_add sa sb /\ fst w = widths_add wa wb.
Proof.
  intros p o a b m w before after H. unfold evaluate_apc, apc_stats in *. destruct (apc_metrics m) as [x|]; [|destruct (each_some _ _); discriminate]. split.
  - intros c P. destruct (each_some (get_instruction_metrics o) (a ++ b)) as [ys|] eqn:Ey; [|discriminate]. injection H as <- <- <-.
    assert (G : exists zs, each_some (get_instruction_metrics o) c = Some zs /\ Permutation ys zs).
    { clear -P Ey. revert ys Ey. induction P as [|u l l' P IH|u v l|l l' l'' P1 IH1 P2 IH2]; intros ys Ey.
      - injection Ey as <-. now exists [].
      - cbn in *. destruct (get_instruction_metrics o u) as [y|]; [|discriminate]. destruct (each_some _ l) as [ys'|]; [|discriminate]. injection Ey as <-. destruct (IH _ eq_refl) as (zs & -> & Pz). exists (y :: zs). auto.
      - cbn in *. destruct (get_instruction_metrics o v) as [y|]; [|discriminate]. destruct (get_instruction_metrics o u) as [z|]; [|discriminate]. destruct (each_some _ l) as [ys'|]; [|discriminate]. injection Ey as <-. exists (z :: y :: ys'). split; [reflexivity|constructor].
      - destruct (IH1 _ Ey) as (zs & Ez & Pz). destruct (IH2 _ Ez) as (zs' & Ez' & Pz'). exists zs'. split; [exact Ez'|]. now transitivity zs. }
    destruct G as (zs & -> & Pz). rewrite !stats_sum_ok, !widths_sum_ok, !map_map.
    assert (S : forall f : metrics -> nat, list_sum (map f zs) = list_sum (map f ys)).
    { intros f. clear -Pz. induction Pz; cbn; auto; unfold list_sum in *; cbn in *; lia. }
    now rewrite !S.
  - rewrite each_some_app in H. destruct (each_some (get_instruction_metrics o) a) as [xs|]; [|discriminate]. destruct (each_some (get_instruction_metrics o) b) as [ys|]; [|discriminate]. injection H as <- <- <-.
    eexists _, _, _, _. split; [reflexivity|]. split; [reflexivity|]. cbn [fst]. rewrite !stats_sum_ok, !widths_sum_ok. unfold stats_add, widths_add. cbn [s_main s_constraints s_interactions fst snd]. rewrite !map_app, !list_sum_app. auto.
Qed.
Print Assumptions C63_before.

Lemma starts_with_iff pre : forall s, starts_with pre s = true <-> exists rest, s = pre ++ rest.
Proof.
  induction pre as [|c pre IH]; intros [|d s]; cbn.
  - split; [now exists []|reflexivity].
  - split; [now exists (d :: s)|reflexivity].
  - split; [discriminate|intros (rest & E); discriminate].
  - rewrite andb_true_iff, N.eqb_eq, IH. split.
    + intros [-> (rest & ->)]. now exists rest.
    + intros (rest & [= -> ->]). split; [reflexivity|now exists rest].
Qed.

(** The statistics per AIR: if no original AIR is called like a precompile, every precompile is listed once, in order, with its
    own widths, and its number of columns is the one of its widths after. *)
Theorem C63_air_metrics : forall (p : positive) (original : list (text * metrics)) (name : text) (precompiles : list (smach p)) (o : original_airs p) (opcodes : list (list N)) airs ws,
  (forall n mt rest, In (n, mt) original -> n <> txt "PowdrAir" ++ rest) -> (exists rest, name = txt "PowdrAir" ++ rest) ->
  extend_circuit original name precompiles = Some airs -> List.length opcodes = List.length precompiles ->
  each_some (fun x => apc_stats o (fst x) (snd x)) (combine opcodes precompiles) = Some ws ->
  exists powdr, air_metrics airs ws = Some (powdr, map snd original) /\
    map (fun x => Some (fst x)) powdr = map apc_metrics precompiles /\ map (fun x => Some (snd x)) powdr = map (fun x => apc_stats o (fst x) (snd x)) (combine opcodes precompiles) /\
    Forall (fun x => snd (snd (snd x)) = mt_main (fst x) /\ 0 < mt_main (fst x)) powdr.
Proof.
  intros p original name precompiles o opcodes airs ws Ho' Hn' He Hl Hw.
  assert (Ho : forall n mt, In (n, mt) original -> starts_with (txt "PowdrAir") n = false).
  { intros n mt H. destruct (starts_with (txt "PowdrAir") n) eqn:E; [|reflexivity]. apply starts_with_iff in E. destruct E as (rest & E). now destruct (Ho' n mt rest H). }
  assert (Hn : starts_with (txt "PowdrAir") name = true) by (apply starts_with_iff; exact Hn'). clear Ho' Hn'. unfold extend_circuit in He. destruct (each_some apc_metrics precompiles) as [ms|] eqn:Em; [|discriminate]. injection He as <-.
  pose proof (each_some_map _ _ _ Em) as Mm. pose proof (each_some_map _ _ _ Hw) as Mw.
  assert (Main : exists powdr, air_metrics (map (pair name) ms) ws = Some (powdr, []) /\ map (fun x => Some (fst x)) powdr = map apc_metrics precompiles /\
    map (fun x => Some (snd x)) powdr = map (fun x => apc_stats o (fst x) (snd x)) (combine opcodes precompiles) /\ Forall (fun x => snd (snd (snd x)) = mt_main (fst x) /\ 0 < mt_main (fst x)) powdr).
  { clear Ho original Em Hw. revert opcodes ms ws Hl Mm Mw. induction precompiles as [|m r IH]; intros [|ops opcodes] [|mt ms] [|w ws] Hl Mm Mw; try discriminate; [exists []; cbn; auto|].
    cbn [map combine fst snd] in Mm, Mw. injection Mm as M1 Mm. injection Mw as W1 Mw. cbn in Hl. destruct (IH opcodes ms ws ltac:(lia) Mm Mw) as (powdr & A & B & C & E). exists ((mt, w) :: powdr).
    split; [cbn [map air_metrics]; rewrite Hn, A; reflexivity|]. split; [cbn [map fst]; now rewrite B, M1|]. split; [cbn [map combine fst snd]; now rewrite C, W1|]. constructor; [|exact E]. cbn [fst snd].
    unfold apc_stats in W1. rewrite M1 in W1. destruct (each_some _ ops); [|discriminate]. injection W1 as <-. split; [reflexivity|].
    unfold apc_metrics, powdr_width in M1. destruct (Nat.ltb_spec 0 (List.length (main_columns m))) as [L | L]; [|discriminate]. injection M1 as <-. exact L. }
  destruct Main as (powdr & A & B & C & E). exists powdr. split; [|auto]. clear -Ho A. induction original as [|[n mt] r IH]; [exact A|]. cbn [app air_metrics map snd]. rewrite (Ho n mt) by now left. rewrite IH; [reflexivity|]. intros n' mt' H. apply (Ho n' mt'). now right.
Qed.
Print Assumptions C63_air_metrics.

(** An original AIR that is called like a precompile takes the widths of the first precompile. *)
Theorem C63_names_refuted : exists (original : list (text * metrics)) (mt : metrics) (w : widths * widths),
  snd (snd w) = mt_main mt /\ air_metrics (original ++ [(txt "PowdrAir<BabyBear>", mt)]) [w] = None.
Proof. exists [(txt "PowdrAirOfSomeone", mkMetrics 0 1 0 0)], (mkMetrics 0 2 0 0), ((0, 5), (0, 2)). split; reflexivity. Qed.
Print Assumptions C63_names_refuted.

(** Saved columns are defined exactly if there are not more after than before; a machine can have more. *)
Theorem C63_saved : forall b a : widths,
  (forall w, widths_sub b a = Some w <-> fst a + fst w = fst b /\ snd a + snd w = snd b) /\
  (forall w, widths_sub b a = Some w -> widths_total w = widths_total b - widths_total a) /\
  widths_total a = fst a + snd a.
Proof.
  intros [b1 b2] [a1 a2]. assert (G : forall w, widths_sub (b1, b2) (a1, a2) = Some w <-> a1 + fst w = b1 /\ a2 + snd w = b2).
  { intros [w1 w2]. unfold widths_sub. cbn [fst snd]. destruct (Nat.leb_spec a1 b1), (Nat.leb_spec a2 b2); cbn [fst snd andb]; split; intros E; try discriminate; try (exfalso; lia).
    - injection E as <- <-. lia.
    - replace (b1 - a1) with w1 by lia. now replace (b2 - a2) with w2 by lia. }
  split; [exact G|]. split; [|reflexivity]. intros w H. apply G in H. unfold widths_total. cbn. lia.
Qed.
Print Assumptions C63_saved.

(** ** Examples *)
Definition step (pc : N) : event := [(txt "pc", U64 pc); (txt "opcode", Other)].
Example C63_profile_example : exists prof, execution_profile [step 4; [(txt "message", Other)]; step 8; step 4; step 8; step 12]%N = Some prof /\
  pc_list prof = [4; 8; 4; 8; 12]%N /\ pc_list prof = flat_map (fun i => nth i [[4; 8]; [12]]%N []) [0; 0; 1] /\ pc_execution_count prof 8 = Some 2%N /\ pc_execution_count prof 16 = None.
Proof. eexists. split; [vm_compute; reflexivity|]. repeat split. Qed.
Example C63_recorded_example : recorded [[(txt "pc", U64 1); (txt "pc", U64 2)]; [(txt "pc", Other)]]%N [2%N].
Proof. exact (collect_recorded [[(txt "pc", U64 1); (txt "pc", U64 2)]; [(txt "pc", Other)]]%N). Qed.
Definition example_machine : smach 7 := mkSM [ARef (Orig 3); ABin (ARef (Orig 5)) OMul (ARef (Orig 3))] [mkSB 1 (ARef (Orig 9)) [ARef (Orig 5)]] [].
Definition example_airs : original_airs 7 := mkOA [(512, 1); (513, 1); (600, 2)]%N [(1%N, (example_machine, mkMetrics 0 20 11 7)); (2%N, (example_machine, mkMetrics 1 30 5 6))].
Example C63_evaluation_example : evaluate_apc example_airs [512; 600; 513]%N example_machine = Some (((1, 70), (0, 3)), (mkStats 70 27 20, mkStats 3 2 1)).
Proof. reflexivity. Qed.
Example C63_air_metrics_example : exists airs ws, extend_circuit [(txt "Alu", mkMetrics 0 20 11 7)] (txt "PowdrAir<BabyBear>") [example_machine] = Some airs /\
  each_some (fun x => apc_stats example_airs (fst x) (snd x)) (combine [[512; 600]%N] [example_machine]) = Some ws /\
  air_metrics airs ws = Some ([(mkMetrics 0 3 2 1, ((1, 50), (0, 3)))], [mkMetrics 0 20 11 7]).
Proof. eexists _, _. repeat split. Qed.
