(** C52, C53: the selection of blocks and the installation of their precompiles. *)
From Coq Require Import Arith NArith Bool List Lia Permutation Sorted.
From Coq Require Import ZifyBool ZifyNat ZifyN.
From Verif Require Import BlocksModel BlocksSpec BlocksFacts SelModel SelSpec SelCount SelFacts SelCompile.
Import ListNotations.
Local Open Scope N_scope.

(** C52: the selection ends; it holds different candidates within the column budget and the limit; each
    is, among the candidates that fit and are still executed when the earlier ones have been taken out of
    the execution, one that saves the most per column; and it stops only at the limit or when no
    candidate that is still executed fits. *)
Theorem C52_greedy : forall pop cands exec budget limit,
  queue_ok pop -> in_range cands exec -> Forall (candidate_ok exec) cands ->
  exists l, select_blocks_greedy pop cands budget limit exec = Some l /\ selection_ok cands exec budget limit l.
Proof. intros pop cands exec budget limit H1 H2 H3. now apply select_ok. Qed.
(** The two steps of the count: occurrences are maximal in number, and what is left has no more of
    them. *)
Theorem C52_count : forall pcs exec, pcs <> [] -> executed exec < 2 ^ 32 ->
  exists n rest, count_and_update_execution pcs exec = Some (n, rest) /\ uses pcs exec n rest /\
    (forall n' rest', uses pcs exec n' rest' -> n' = n /\ rest' = rest).
Proof.
  intros pcs exec H1 H2. destruct (count_ok pcs exec H1 H2) as (n & rest & U & E). exists n, rest. split; auto. split; auto.
  intros n' rest' U'. exact (uses_fun _ _ _ _ U _ _ U').
Qed.
Theorem C52_monotone : forall c d exec n rest k exec' n' rest', c <> [] ->
  uses c exec n rest -> uses d exec k exec' -> uses c exec' n' rest' -> n' <= n.
Proof. exact uses_mono. Qed.

(** A priority queue as required exists. *)
Fixpoint pop_max (q : list (nat * density)) : option ((nat * density) * list (nat * density)) :=
  match q with
  | [] => None
  | x :: r =>
    match r with
    | [] => Some (x, [])
    | _ :: _ =>
      match pop_max r with
      | None => None
      | Some (y, r') =>
        match density_cmp (snd x) (snd y) with
        | Some Lt => Some (y, x :: r')
        | Some _ => Some (x, y :: r')
        | None => None
        end
      end
    end
  end.
Lemma cmp_ge a b : density_cmp a b <> None -> (density_cmp a b <> Some Lt <->
  d_value b * d_cost a < d_value a * d_cost b \/ (d_value b * d_cost a = d_value a * d_cost b /\ d_tie b <= d_tie a)).
Proof.
  unfold density_cmp, checked_mul64. destruct (d_value a * d_cost b <? 2 ^ 64); [|congruence]. destruct (d_value b * d_cost a <? 2 ^ 64); [|congruence]. intros _.
  destruct (N.compare_spec (d_value a * d_cost b) (d_value b * d_cost a)) as [E|E|E].
  - destruct (N.compare_spec (d_tie a) (d_tie b)) as [T|T|T]; split; intros H; try (right; split; lia); try congruence; try lia.
  - split; [congruence|lia].
  - split; [left; lia|congruence].
Qed.
Lemma ge_trans a b c : 0 < d_cost a -> 0 < d_cost b -> 0 < d_cost c ->
  (d_value b * d_cost a < d_value a * d_cost b \/ (d_value b * d_cost a = d_value a * d_cost b /\ d_tie b <= d_tie a)) ->
  (d_value c * d_cost b < d_value b * d_cost c \/ (d_value c * d_cost b = d_value b * d_cost c /\ d_tie c <= d_tie b)) ->
  (d_value c * d_cost a < d_value a * d_cost c \/ (d_value c * d_cost a = d_value a * d_cost c /\ d_tie c <= d_tie a)).
Proof.
  destruct a as [va ca ta], b as [vb cb tb], c as [vc cc tc]. cbn [d_value d_cost d_tie]. intros A B C [H|[H T]] [H'|[H' T']].
  - left. apply (N.mul_lt_mono_pos_r cb); auto. assert (vb * ca * cc < va * cb * cc) by (apply N.mul_lt_mono_pos_r; auto). assert (vc * cb * ca < vb * cc * ca) by (apply N.mul_lt_mono_pos_r; auto). nia.
  - left. apply (N.mul_lt_mono_pos_r cb); auto. assert (vb * ca * cc < va * cb * cc) by (apply N.mul_lt_mono_pos_r; auto). assert (vc * cb * ca = vb * cc * ca) by congruence. nia.
  - left. apply (N.mul_lt_mono_pos_r cb); auto. assert (vb * ca * cc = va * cb * cc) by congruence. assert (vc * cb * ca < vb * cc * ca) by (apply N.mul_lt_mono_pos_r; auto). nia.
  - right. split; [|lia]. apply (N.mul_cancel_r _ _ cb); [lia|]. assert (vb * ca * cc = va * cb * cc) by congruence. assert (vc * cb * ca = vb * cc * ca) by congruence. nia.
Qed.
Lemma C52_queue_exists : queue_ok pop_max.
Proof.
  intros q. induction q as [|x r IH]; intros Q D P; [congruence|]. cbn [pop_max]. destruct r as [|z r]; [exists x, []; split; auto; split; auto; intros y []|].
  destruct IH as (y & r' & E & Pm & M); [discriminate|intros; apply D; now right|intros; apply P; now right|]. rewrite E.
  assert (Hy : In y (x :: z :: r)) by (right; apply (Permutation_in _ (Permutation_sym Pm)); now left).
  assert (Hr : forall w, In w r' -> In w (x :: z :: r)) by (intros w Hw; right; apply (Permutation_in _ (Permutation_sym Pm)); now right).
  assert (Hx : In x (x :: z :: r)) by now left.
  destruct (density_cmp (snd x) (snd y)) as [[]|] eqn:C.
  - exists x, (y :: r'). split; auto. split; [now constructor|]. intros w [<-|Hw]; [congruence|]. specialize (M w Hw).
    apply (cmp_ge _ _ (D _ _ Hx (Hr w Hw))). apply (cmp_ge _ _ (D _ _ Hy (Hr w Hw))) in M. eapply (ge_trans _ (snd y)); eauto. apply (cmp_ge _ _ (D _ _ Hx Hy)). congruence.
  - exists y, (x :: r'). split; auto. split; [etransitivity; [apply perm_skip, Pm|apply perm_swap]|]. intros w [<-|Hw]; auto.
    apply (cmp_ge _ _ (D _ _ Hy Hx)). unfold density_cmp, checked_mul64 in C |- *. pose proof (D _ _ Hx Hy) as N0. unfold density_cmp, checked_mul64 in N0.
    destruct (d_value (snd x) * d_cost (snd y) <? 2 ^ 64); [|congruence]. destruct (d_value (snd y) * d_cost (snd x) <? 2 ^ 64); [|congruence]. injection C as C.
    destruct (N.compare_spec (d_value (snd x) * d_cost (snd y)) (d_value (snd y) * d_cost (snd x))); try discriminate; [|left; lia].
    destruct (N.compare_spec (d_tie (snd x)) (d_tie (snd y))); try discriminate. right. lia.
  - exists x, (y :: r'). split; auto. split; [now constructor|]. intros w [<-|Hw]; [congruence|]. specialize (M w Hw).
    apply (cmp_ge _ _ (D _ _ Hx (Hr w Hw))). apply (cmp_ge _ _ (D _ _ Hy (Hr w Hw))) in M. eapply (ge_trans _ (snd y)); eauto. apply (cmp_ge _ _ (D _ _ Hx Hy)). congruence.
  - exfalso. exact (D _ _ Hx Hy C).
Qed.

(** An execution of the runs 1 2 1 2 3 (ten times) and 2 3 (five times).  The pair 1 2 is chosen first
    (20 uses); the block 2 had 25 uses, of which 5 remain; the block 3 is better then. *)
Definition ex_exec : list (list N * N) := [([1; 2; 1; 2; 3], 10); ([2; 3], 5)].
Definition ex_cands : list cand := [mkCand [1; 2] 10 30 20; mkCand [2] 5 10 25; mkCand [3] 5 8 15].
Example C52_example : in_range ex_cands ex_exec /\ Forall (candidate_ok ex_exec) ex_cands /\
  select_blocks_greedy pop_max ex_cands 100 3 ex_exec = Some [0; 2; 1]%nat /\
  select_blocks_greedy pop_max ex_cands 15 3 ex_exec = Some [0; 2]%nat.
Proof.
  split; [|split; [|split; vm_compute; reflexivity]].
  - split; [vm_compute; reflexivity|]. split; [vm_compute; reflexivity|]. intros c d Hc Hd. cbn [In ex_cands] in Hc, Hd.
    destruct Hc as [<-|[<-|[<-|[]]]]; destruct Hd as [<-|[<-|[<-|[]]]]; vm_compute; reflexivity.
  - apply Forall_forall. intros c Hc. cbn [In ex_cands] in Hc. destruct Hc as [<-|[<-|[<-|[]]]]; (split; [discriminate|split; [reflexivity|]]; intros n rest U;
      apply uses_wsum in U; [|discriminate]; rewrite U; vm_compute; discriminate).
Qed.

(** The whole compilation in cell mode: from a profile (the blocks [trace] have been executed) to the
    chosen superblocks.  The precompiles fit into the columns the user allows besides the other
    columns of the machine. *)
Theorem C52_cell : forall I step (bs trace : list (bblock I)) widths pop apc skip max cutoff maxi max_total non_apc,
  queue_ok pop -> NoDup (map start_pc bs) -> Forall (fun b => instrs b <> []) bs -> incl trace bs -> apc <> 0%nat ->
  widths_ok widths (eligible trace max cutoff maxi) -> N.of_nat (length trace) < 2 ^ 32 ->
  (forall m, max_total = Some m -> non_apc <= m /\ m < 2 ^ 64) ->
  exists apcs all runs sel,
    compile_cell pop widths apc skip max cutoff maxi max_total non_apc (flat_map (bb_pcs step) trace) bs = Some apcs /\
    (forall sb c, In (sb, c) all <-> exists n w, eligible trace max cutoff maxi sb n /\ widths sb = Some w /\ c = mkCand (map start_pc sb) (snd w) (fst w - snd w) n) /\
    NoDup (map fst all) /\ runs_counted trace runs /\
    selection_ok (map snd all) runs (match max_total with Some m => m - non_apc | None => 2 ^ 64 - 1 end) (apc + skip) sel /\
    Forall2 (fun i sb => exists c, nth_error all i = Some (sb, c)) (skipn skip sel) apcs /\
    NoDup apcs /\ (length apcs <= apc)%nat /\ (forall m, max_total = Some m -> non_apc + total_width widths apcs <= m).
Proof. intros. eapply cell_ok; eauto. Qed.
(** Three blocks, the last with a single instruction; the execution a b a b c a. *)
Definition ex_a : bblock nat := mkBB 0 [1; 2]%nat.
Definition ex_b : bblock nat := mkBB 8 [3; 4; 5]%nat.
Definition ex_c : bblock nat := mkBB 20 [6]%nat.
Definition ex_widths (sb : list (bblock nat)) : option (N * N) := Some (10 * instr_count sb, 2 * instr_count sb + 6).
Example C52_cell_example :
  compile_cell pop_max ex_widths 2 0 2 1 100 (Some 1000) 100 (flat_map (bb_pcs 4) [ex_a; ex_b; ex_a; ex_b; ex_c; ex_a]) [ex_a; ex_b; ex_c] = Some [[ex_a; ex_b]; [ex_a]] /\
  compile_cell pop_max ex_widths 2 1 2 1 100 (Some 1000) 100 (flat_map (bb_pcs 4) [ex_a; ex_b; ex_a; ex_b; ex_c; ex_a]) [ex_a; ex_b; ex_c] = Some [[ex_a]] /\
  compile_cell pop_max ex_widths 2 0 1 1 100 (Some 120) 100 (flat_map (bb_pcs 4) [ex_a; ex_b; ex_a; ex_b; ex_c; ex_a]) [ex_a; ex_b; ex_c] = Some [[ex_b]].
Proof. split; [|split]; vm_compute; reflexivity. Qed.

(** If the user allows fewer columns than the machine has without precompiles, the difference wraps
    around and the limit is lost: ten columns are allowed, the machine has 100, and 12 more are added. *)
Theorem C52_budget_refuted : exists apcs,
  compile_cell pop_max ex_widths 1 0 1 1 100 (Some 10) 100 (flat_map (bb_pcs 4) [ex_a; ex_b; ex_a; ex_b; ex_c; ex_a]) [ex_a; ex_b; ex_c] = Some apcs /\
  10 < total_width ex_widths apcs + 100 /\ apcs <> [].
Proof. exists [[ex_b]]. split; [vm_compute; reflexivity|]. split; [vm_compute; reflexivity|discriminate]. Qed.
(** If one precompile is wider than its block, the value of a use wraps around and the compilation panics. *)
Theorem C52_wider_refuted : exists widths,
  (forall sb, exists w, widths sb = Some w) /\
  compile_cell pop_max widths 1 0 1 1 100 None 100 (flat_map (bb_pcs 4) [ex_a; ex_b; ex_a; ex_b; ex_c; ex_a]) [ex_a; ex_b; ex_c] = None.
Proof. exists (fun sb => Some (10 * instr_count sb, 10 * instr_count sb + 1)). split; [eauto|]. vm_compute. reflexivity. Qed.
(** Counts are 32-bit numbers: a block that is executed 2^32 times is found not to be executed. *)
Theorem C52_wrap_refuted : exists exec n rest, uses [1] exec n rest /\ n = 2 ^ 32 /\ count_and_update_execution [1] exec = Some (0, rest).
Proof.
  exists [([1; 1], 2 ^ 31)], (2 ^ 32), []. split; [|split; [reflexivity|vm_compute; reflexivity]].
  apply (uses_cons [1] [1; 1] (2 ^ 31) [] 2 [[]; []; []] 0 []); [|constructor].
  apply (carve_hit [1] [] [1] 1 [[]; []]); [intros; cbn; lia|]. apply (carve_hit [1] [] [] 0 [[]]); [intros; cbn; lia|]. apply carve_end.
  intros (a & b & E). destruct a; discriminate.
Qed.
(** The comparison of densities is only an order if the costs are positive: a free candidate that saves
    nothing is equal to every other one with the same start. *)
Theorem C52_zero_cost_refuted : exists a b c,
  density_cmp a b = Some Eq /\ density_cmp b c = Some Eq /\ density_cmp a c = Some Lt.
Proof. exists (mkDensity 1 1 0), (mkDensity 0 0 0), (mkDensity 2 1 0). repeat split. Qed.

(** The other modes: the blocks (in mode "instruction", those of the profile; in mode "none", those of
    more than one instruction) are sorted by their value, and those after the skipped ones are taken. *)
Theorem C52_instruction : forall I step (bs trace : list (bblock I)) widths apc skip cutoff maxi,
  NoDup (map start_pc bs) -> Forall (fun b => instrs b <> []) bs -> incl trace bs -> apc <> 0%nat ->
  (forall sb n, eligible trace 1 cutoff maxi sb n -> widths sb <> None /\ n * instr_count sb < 2 ^ 32 /\ instr_count sb < 2 ^ 32) ->
  exists order, compile_instruction widths apc skip 1 cutoff maxi (flat_map (bb_pcs step) trace) bs = Some (map fst (firstn apc (skipn skip order))) /\
    NoDup (map fst order) /\ (forall sb n, In (sb, n) order <-> eligible trace 1 cutoff maxi sb n) /\
    descending (fun b => snd b * instr_count (fst b)) order.
Proof.
  intros I step bs trace widths apc skip cutoff maxi H1 H2 H3 Ha W. destruct (detect_full step bs H1 H2 1 cutoff maxi trace H3) as (blocks & runs & Ed & Eb & Db & _).
  destruct (sort_ok instruction_key blocks) as [P S1]. exists (sort_desc instruction_key blocks).
  assert (In' : forall sb n, In (sb, n) (sort_desc instruction_key blocks) <-> eligible trace 1 cutoff maxi sb n).
  { intros sb n. rewrite <- Eb. split; apply Permutation_in; [apply Permutation_sym|]; auto. }
  split; [|split; [|split; auto]].
  - unfold compile_instruction. rewrite Ed. unfold instruction_create. destruct (Nat.eqb_spec apc 0); [congruence|].
    assert (X : forallb (fun b => is_basic (fst b)) blocks = true).
    { apply forallb_forall. intros [sb k] Hb. apply Eb in Hb. destruct Hb as (A & B & _). unfold is_basic. cbn [fst]. apply Nat.eqb_eq. destruct sb; [congruence|]. cbn [length] in *. lia. }
    rewrite X. unfold create_for_all. rewrite <- firstn_map, <- skipn_map. set (l := firstn apc (skipn skip (map fst (sort_desc instruction_key blocks)))). 
    assert (Y : forallb (fun sb => match widths sb with Some _ => true | None => false end) l = true); [|now rewrite Y].
    apply forallb_forall. intros sb Hs. assert (G : In sb (map fst (sort_desc instruction_key blocks))).
    { unfold l in Hs. rewrite <- (firstn_skipn skip). apply in_or_app. right. rewrite <- (firstn_skipn apc). apply in_or_app. now left. }
    apply in_map_iff in G. destruct G as ([sb' k] & <- & G). apply In' in G. destruct (W _ _ G) as [G1 _]. cbn [fst]. destruct (widths sb'); congruence.
  - apply (Permutation_NoDup (Permutation_map fst P)). exact Db.
  - eapply (sorted_descending _ instruction_key); [|exact S1]. intros [sb k] Hx. apply In' in Hx. destruct (W _ _ Hx) as (_ & G1 & G2). unfold instruction_key. cbn [fst snd].
    unfold num_instrs. fold (instr_count sb). rewrite (wrap32_small (instr_count sb)) by auto. now apply wrap32_small.
Qed.
Theorem C52_none : forall I (bs : list (bblock I)) widths apc skip,
  (forall b, In b bs -> widths [b] <> None /\ instr_count [b] < 2 ^ 32) ->
  exists order, compile_none widths apc skip bs = Some (firstn apc (skipn skip order)) /\
    Permutation order (map (fun b => [b]) (filter (fun b => Nat.ltb 1 (length (instrs b))) bs)) /\
    descending instr_count order.
Proof.
  intros I bs widths apc skip W. unfold compile_none. cbv zeta. set (blocks := filter (fun sb => 1 <? num_instrs sb) (map (fun b => [b]) bs)). destruct (sort_ok (fun sb => wrap32 (num_instrs sb)) blocks) as [P S1].
  set (order := sort_desc _ blocks) in *. exists order.
  assert (E : blocks = map (fun b => [b]) (filter (fun b => Nat.ltb 1 (length (instrs b))) bs)).
  { unfold blocks. clear. induction bs as [|b bs IH]; [reflexivity|]. cbn [map filter]. unfold num_instrs at 1. cbn [flat_map]. rewrite app_nil_r.
    replace (1 <? N.of_nat (length (instrs b))) with (Nat.ltb 1 (length (instrs b))) by (destruct (Nat.ltb_spec 1 (length (instrs b))); destruct (N.ltb_spec 1 (N.of_nat (length (instrs b)))); lia).
    destruct (Nat.ltb 1 (length (instrs b))); cbn [map]; now rewrite IH. }
  assert (In' : forall sb, In sb order -> exists b, sb = [b] /\ In b bs).
  { intros sb H. apply (Permutation_in _ (Permutation_sym P)) in H. rewrite E in H. apply in_map_iff in H. destruct H as (b & <- & H). apply filter_In in H. exists b. tauto. }
  split; [|split].
  - unfold create_for_all. assert (Y : forallb (fun sb => match widths sb with Some _ => true | None => false end) (firstn apc (skipn skip order)) = true); [|now rewrite Y].
    apply forallb_forall. intros sb Hs. destruct (In' sb) as (b & -> & Hb). { rewrite <- (firstn_skipn skip). apply in_or_app. right. rewrite <- (firstn_skipn apc (skipn skip order)). apply in_or_app. now left. }
    destruct (W b Hb) as [X _]. destruct (widths [b]); congruence.
  - rewrite <- E. now apply Permutation_sym.
  - eapply sorted_descending; [|exact S1]. intros sb Hs. destruct (In' sb Hs) as (b & -> & Hb). apply wrap32_small. apply (W b Hb).
Qed.
Example C52_modes_example :
  compile_instruction ex_widths 1 0 1 1 100 (flat_map (bb_pcs 4) [ex_a; ex_b; ex_a; ex_b; ex_c; ex_a]) [ex_a; ex_b; ex_c] = Some [[ex_a]] /\
  compile_instruction ex_widths 1 1 1 1 100 (flat_map (bb_pcs 4) [ex_a; ex_b; ex_a; ex_b; ex_c; ex_a]) [ex_a; ex_b; ex_c] = Some [[ex_b]] /\
  compile_none ex_widths 5 0 [ex_a; ex_b; ex_c] = Some [[ex_b]; [ex_a]].
Proof. split; [|split]; vm_compute; reflexivity. Qed.
(** In mode "instruction" the value is a product of 32-bit numbers: a block of two instructions that is
    executed 2^31 times comes after one of three instructions that is executed once. *)
Theorem C52_instruction_refuted :
  instruction_create ex_widths 1 0 [([ex_a], 2 ^ 31); ([ex_b], 1)] = Some [[ex_b]] /\
  1 * instr_count [ex_b] < 2 ^ 31 * instr_count [ex_a].
Proof. split; vm_compute; reflexivity. Qed.

Lemma starts_le I br al jd base step : forall (l : list (bblock I)) n, blocks_good br al jd base step n l -> forall b, In b l -> base + N.of_nat n * step <= start_pc b.
Proof.
  induction l as [|c l IH]; intros n H b Hb; [destruct Hb|]. cbn [blocks_good] in H. destruct H as [(_ & G & _) H]. destruct Hb as [<-|Hb].
  - rewrite G. unfold index_to_pc. lia.
  - specialize (IH _ H b Hb). nia.
Qed.
Lemma starts_nodup I br al jd base step : 0 < step -> forall (l : list (bblock I)) n, blocks_good br al jd base step n l -> NoDup (map start_pc l).
Proof.
  intros Hs. induction l as [|c l IH]; intros n H; cbn [map]; [constructor|]. cbn [blocks_good] in H. destruct H as [(G1 & G & _) H]. constructor; [|eapply IH; eauto].
  intros X. apply in_map_iff in X. destruct X as (d & E & Hd). pose proof (starts_le _ _ _ _ _ _ _ _ H d Hd) as K. rewrite E, G in K. unfold index_to_pc in K. assert (0 < length (instrs c))%nat by (destruct (instrs c); [congruence|cbn; lia]). nia.
Qed.

(** C53: precompile number [i] is installed at the slot of the first instruction of its block, and
    nowhere else; the instructions from there on are those of the block. *)
Theorem C53_setup : forall I (is_branching is_allowed : I -> bool) jumpdest base step prog apcs, 0 < step ->
  let bs := collect_basic_blocks is_branching is_allowed jumpdest base step prog in
  NoDup apcs -> (forall sb, In sb apcs -> exists b, sb = [b] /\ In b bs) ->
  exists marks, setup base step (map Some prog) apcs = Some marks /\ length marks = length prog /\
    forall k op, nth_error marks k = Some (Some op) <->
      exists i b, nth_error apcs i = Some [b] /\ op = (powdr_opcode + i)%nat /\ start_pc b = base + N.of_nat k * step /\
        firstn (length (instrs b)) (skipn k prog) = instrs b.
Proof.
  intros I br al jd base step prog apcs Hs bs Nd Hin.
  destruct (collect_ok br al jd base step prog 0 _ [] (cur_ok_nil br al jd base step 0)) as [A B]. cbn [app length] in A, B. change (0 - 0)%nat with 0%nat in B.
  fold (collect_basic_blocks br al jd base step prog) in A, B. fold bs in A, B.
  assert (At : forall b, In b bs -> exists k, start_pc b = base + N.of_nat k * step /\ (k < length prog)%nat /\ firstn (length (instrs b)) (skipn k prog) = instrs b).
  { intros b Hb. destruct (in_split b bs Hb) as (l & r & E). exists (length (flat_map instrs l)).
    assert (G : forall l n, blocks_good br al jd base step n (l ++ b :: r) -> block_good br al jd base step (n + length (flat_map instrs l)) b).
    { clear. induction l as [|c l IH]; intros n H; cbn [app blocks_good flat_map] in H.
      - cbn. rewrite Nat.add_0_r. tauto.
      - destruct H as [_ H]. apply IH in H. cbn [flat_map]. rewrite app_length. now rewrite Nat.add_assoc. }
    rewrite E in B. specialize (G l 0%nat B). cbn [Nat.add] in G. destruct G as (G1 & G2 & _). rewrite <- A, E, flat_map_app. cbn [flat_map]. split; [exact G2|]. split.
    - rewrite !app_length. destruct (instrs b); [congruence|]. cbn [length]. lia.
    - rewrite skipn_app, skipn_all, Nat.sub_diag. cbn [skipn app]. rewrite firstn_app, firstn_all, Nat.sub_diag. cbn [firstn]. apply app_nil_r. }
  assert (W : exists ws, Forall2 (fun sb k => exists b, sb = [b] /\ start_pc b = base + N.of_nat k * step /\ (k < length prog)%nat /\ firstn (length (instrs b)) (skipn k prog) = instrs b) apcs ws).
  { clear Nd. induction apcs as [|sb apcs IH]; [exists []; constructor|]. destruct IH as (ws & F); [intros s Hx; apply Hin; now right|]. destruct (Hin sb) as (b & -> & Hb); [now left|].
    destruct (At b Hb) as (k & K). exists (k :: ws). constructor; auto. exists b. split; auto. }
  destruct W as (ws & F).
  assert (Inj : forall b b' k, In b bs -> In b' bs -> start_pc b = base + N.of_nat k * step -> start_pc b' = base + N.of_nat k * step -> b = b').
  { assert (L : forall l n, blocks_good br al jd base step n l -> forall b, In b l -> base + N.of_nat n * step <= start_pc b).
    { clear - Hs. induction l as [|c l IH]; intros n H b [].
      - subst c. cbn [blocks_good] in H. destruct H as [(_ & G & _) _]. rewrite G. unfold index_to_pc. lia.
      - cbn [blocks_good] in H. destruct H as [_ H]. specialize (IH _ H b H0). nia. }
    assert (U : forall l n, blocks_good br al jd base step n l -> forall b b', In b l -> In b' l -> start_pc b = start_pc b' -> b = b').
    { clear - Hs L. induction l as [|c l IH]; intros n H b b' Hb Hb' E; [destruct Hb|]. cbn [blocks_good] in H. destruct H as [(G1 & G & _) H].
      assert (K : forall d, In d l -> start_pc c < start_pc d). { intros d Hd. specialize (L _ _ H d Hd). rewrite G. assert (0 < length (instrs c))%nat by (destruct (instrs c); [congruence|cbn; lia]). unfold index_to_pc. nia. }
      destruct Hb as [<-|Hb]; destruct Hb' as [<-|Hb']; auto.
      - specialize (K _ Hb'). lia.
      - specialize (K _ Hb). lia.
      - eapply IH; eauto. }
    intros b b' k Hb Hb' E E'. apply (U bs 0%nat B); auto. congruence. }
  assert (Dw : NoDup ws).
  { clear At A B. induction F as [|sb k apcs ws (b & -> & E & _) F IH]; [constructor|]. pose proof (proj1 (NoDup_cons_iff _ _) Nd) as [N1 N2]. constructor; [|apply IH; auto; intros s Hx; apply Hin; now right].
    intros X. apply N1. assert (G : exists b', In [b'] apcs /\ start_pc b' = base + N.of_nat k * step).
    { clear - F X. induction F as [|sb k' apcs ws (b & -> & E & _) F IH]; [destruct X|]. destruct X as [->|X]; [exists b; split; [now left|auto]|]. destruct (IH X) as (b' & Y & Z). exists b'. split; [now right|auto]. }
    destruct G as (b' & Hb' & E'). destruct (Hin [b]) as (b1 & Q1 & Hb1); [now left|]. injection Q1 as <-. destruct (Hin [b']) as (b2 & Q2 & Hb2); [now right|]. injection Q2 as <-.
    now rewrite (Inj b b' k). }
  assert (F1 : Forall2 (fun sb k => exists b, sb = [b] /\ start_pc b = base + N.of_nat k * step /\ (k < length (map (fun _ : option I => @None nat) (map Some prog)))%nat) apcs ws).
  { clear - F. induction F as [|sb k apcs ws (b & X & Y & Z & _) F IH]; constructor; auto. exists b. rewrite !map_length. auto. }
  destruct (setup_ok base step Hs apcs 0 _ ws F1 Dw) as (marks & Em & Lm & M1 & M2). exists marks. split; [exact Em|]. split; [rewrite Lm, !map_length; reflexivity|].
  assert (Get : forall j k, nth_error ws j = Some k -> exists b, nth_error apcs j = Some [b] /\ start_pc b = base + N.of_nat k * step /\ firstn (length (instrs b)) (skipn k prog) = instrs b).
  { clear - F. induction F as [|sb k apcs ws (b & -> & X & _ & Y) F IH]; intros [|j] k'; cbn [nth_error]; try discriminate; eauto. intros [= <-]. eauto. }
  intros k op. split.
  - intros E. destruct (in_dec Nat.eq_dec k ws) as [H|H].
    + destruct (In_nth_error _ _ H) as (j & Ej). rewrite (M1 _ _ Ej) in E. injection E as <-. destruct (Get _ _ Ej) as (b & X & Y & Z). exists j, b. auto.
    + rewrite (M2 k H) in E. exfalso. apply nth_error_In in E. apply in_map_iff in E. destruct E as (? & E & _). discriminate.
  - intros (i & b & E & -> & P & _). assert (Lw : (i < length ws)%nat).
    { assert (L : length ws = length apcs) by (clear - F; induction F; cbn; congruence). rewrite L. apply nth_error_Some. congruence. }
    destruct (nth_error ws i) as [k'|] eqn:Ek; [|apply nth_error_None in Ek; lia]. destruct (Get _ _ Ek) as (b' & X & Y & _). rewrite E in X. injection X as <-.
    assert (k' = k) by nia. subst k'. rewrite (M1 _ _ Ek). reflexivity.
Qed.
(** In particular for what the compilation in cell mode chooses among basic blocks. *)
Theorem C53_cell : forall I (is_branching is_allowed : I -> bool) jumpdest base step prog widths pop apc skip cutoff maxi max_total non_apc trace,
  0 < step -> let bs := collect_basic_blocks is_branching is_allowed jumpdest base step prog in
  queue_ok pop -> incl trace bs -> apc <> 0%nat ->
  widths_ok widths (eligible trace 1 cutoff maxi) -> N.of_nat (length trace) < 2 ^ 32 ->
  (forall m, max_total = Some m -> non_apc <= m /\ m < 2 ^ 64) ->
  exists apcs marks,
    compile_cell pop widths apc skip 1 cutoff maxi max_total non_apc (flat_map (bb_pcs step) trace) bs = Some apcs /\
    setup base step (map Some prog) apcs = Some marks /\
    forall k op, nth_error marks k = Some (Some op) <->
      exists i b, nth_error apcs i = Some [b] /\ op = (powdr_opcode + i)%nat /\ start_pc b = base + N.of_nat k * step /\
        firstn (length (instrs b)) (skipn k prog) = instrs b.
Proof.
  intros I br al jd base step prog widths pop apc skip cutoff maxi max_total non_apc trace Hs bs Hp Hi Ha W L Hm.
  assert (Hd : NoDup (map start_pc bs)).
  { destruct (collect_ok br al jd base step prog 0 _ [] (cur_ok_nil br al jd base step 0)) as [_ B]. change (0 - length (@nil I))%nat with 0%nat in B. fold (collect_basic_blocks br al jd base step prog) in B. fold bs in B.
    eapply starts_nodup; eauto. }
  assert (Hne : Forall (fun b => instrs b <> []) bs).
  { destruct (collect_ok br al jd base step prog 0 _ [] (cur_ok_nil br al jd base step 0)) as [_ B]. change (0 - length (@nil I))%nat with 0%nat in B. fold (collect_basic_blocks br al jd base step prog) in B. fold bs in B.
    clear - B. revert B. generalize 0%nat. induction bs as [|b bs IH]; intros n B; constructor; cbn [blocks_good] in B; [exact (proj1 (proj1 B))|]. eapply IH. exact (proj2 B). }
  destruct (cell_ok step bs widths pop Hp Hd Hne apc skip 1 cutoff maxi max_total non_apc trace Hi Ha W L Hm) as (apcs & all & runs & sel & E & Ia & _ & _ & _ & F & N & _ & _).
  destruct (C53_setup I br al jd base step prog apcs Hs N) as (marks & E1 & _ & E2).
  { intros sb H. assert (G : exists c, In (sb, c) all). { clear - F H. induction F as [|i sb' l r (c & X) F IH]; [destruct H|]. destruct H as [->|H]; auto. exists c. eapply nth_error_In; eauto. }
    destruct G as [c G]. apply Ia in G. destruct G as (n & w & (G1 & G2 & G3 & _) & _). destruct sb as [|b [|b' sb]]; [congruence| |cbn [length] in G2; lia]. exists b. split; auto.
    apply Exists_exists in G3. destruct G3 as (run & R1 & R2). apply Hi. apply (runs_incl trace run R1). apply (contiguous_incl [b] run R2). now left. }
  exists apcs, marks. split; auto.
Qed.
Example C53_example :
  collect_basic_blocks (Nat.eqb 7) (fun x => negb (Nat.eqb 9 x)) (N.eqb 116) 100 4 [1; 7; 9; 2; 3; 4]%nat = [mkBB 100 [1; 7]; mkBB 108 [9]; mkBB 112 [2]; mkBB 116 [3; 4]]%nat /\
  setup 100 4 (map Some [1; 7; 9; 2; 3; 4]%nat) [[mkBB 116 [3; 4]%nat]; [mkBB 100 [1; 7]%nat]] = Some [Some 4352; None; None; None; Some 4351; None]%nat.
Proof. split; vm_compute; reflexivity. Qed.
(** If the program has a gap, the blocks behind it are numbered as if it was not there: the precompile is
    installed at an address where its block does not start, and the profile of an execution does not find
    the block. *)
Theorem C53_gap_refuted :
  let slots := [Some 7; None; Some 1; Some 2]%nat in
  let bs := collect_basic_blocks (Nat.eqb 7) (fun _ => true) (fun _ => false) 0 4 (prog_instructions slots) in
  exists b, In b bs /\ instrs b = [1; 2]%nat /\ setup 0 4 slots [[b]] = Some [None; Some 4351; None; None]%nat /\ nth_error slots 2 = Some (Some 1%nat) /\
    detect_superblocks 1 1 100 [0; 8; 12] bs = None.
Proof. exists (mkBB 4 [1; 2]%nat). vm_compute. repeat split; auto. Qed.

Print Assumptions C52_greedy.
Print Assumptions C52_count.
Print Assumptions C52_monotone.
Print Assumptions C52_cell.
Print Assumptions C52_budget_refuted.
Print Assumptions C52_wider_refuted.
Print Assumptions C52_wrap_refuted.
Print Assumptions C52_zero_cost_refuted.
Print Assumptions C52_instruction.
Print Assumptions C52_none.
Print Assumptions C52_instruction_refuted.
Print Assumptions C53_setup.
Print Assumptions C53_cell.
Print Assumptions C53_gap_refuted.
