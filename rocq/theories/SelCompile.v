(** From a profile to the installed precompiles. *)
From Coq Require Import Arith NArith Bool List Lia Permutation Sorted.
From Coq Require Import ZifyBool ZifyNat ZifyN.
From Verif Require Import BlocksModel BlocksSpec BlocksFacts SelModel SelSpec SelCount SelFacts.
Import ListNotations.
Local Open Scope N_scope.

(** ** Counts *)
Lemma uses_wsum pcs exec n rest : pcs <> [] -> uses pcs exec n rest -> n = wsum (fun run => count_in run pcs) exec.
Proof.
  intros H. induction 1 as [|run k exec n gaps m exec' C U IH]; [reflexivity|]. unfold wsum. cbn [fold_right fst snd]. fold (wsum (fun run => count_in run pcs) exec). rewrite <- IH.
  destruct (count_in_ok run pcs H) as (q & M & ->). rewrite (max_disjoint_fun _ _ _ _ (carve_max _ _ _ _ H C) M). lia.
Qed.
Lemma executed_wsum exec : executed exec = wsum (fun run => N.of_nat (length run)) exec.
Proof. unfold executed, wsum. induction exec as [|[run k] exec IH]; cbn [map fold_right fst snd]; [reflexivity|]. rewrite IH. lia. Qed.

Section Detected.
  Context {I : Type} (step : N) (bs : list (bblock I)).
  Hypothesis Hnd : NoDup (map start_pc bs).
  Hypothesis Hne : Forall (fun b => instrs b <> []) bs.
  Lemma split_on_length (trace : list (bblock I)) : (list_sum (map (@length _) (split_on single_instr trace)) <= length trace)%nat.
  Proof.
    induction trace as [|b trace IH]; cbn [split_on]; [cbn; lia|]. destruct (single_instr b).
    - change (list_sum (map (length (A:=bblock I)) ([] :: split_on single_instr trace))) with (0 + list_sum (map (length (A:=bblock I)) (split_on single_instr trace)))%nat. cbn [length]. lia.
    - destruct (split_on single_instr trace) as [|s r]; [cbn; lia|]. change (list_sum (map (length (A:=bblock I)) ((b :: s) :: r))) with (S (length s) + list_sum (map (length (A:=bblock I)) r))%nat.
      change (list_sum (map (length (A:=bblock I)) (s :: r))) with (length s + list_sum (map (length (A:=bblock I)) r))%nat in IH. cbn [length]. lia.
  Qed.
  Lemma fsum_lengths (L : list (list (bblock I))) :
    fsum (fun run => N.of_nat (length run)) (map (map start_pc) (filter (fun s => negb (Nat.eqb (length s) 0)) L)) = N.of_nat (list_sum (map (@length _) L)).
  Proof.
    induction L as [|s L IH]; [reflexivity|]. change (list_sum (map (length (A:=bblock I)) (s :: L))) with (length s + list_sum (map (length (A:=bblock I)) L))%nat.
    cbn [filter]. destruct s as [|b s]; cbn [length Nat.eqb negb]; [rewrite IH; reflexivity|]. cbn [map fsum fold_right]. fold (fsum (fun run => N.of_nat (length run))). 
    unfold fsum in IH |- *. rewrite IH. cbn [length]. rewrite map_length. lia.
  Qed.
  Lemma detect_full max cutoff maxi trace : incl trace bs ->
    exists l runs, detect_superblocks max cutoff maxi (flat_map (bb_pcs step) trace) bs = Some (l, runs) /\
      (forall sb n, In (sb, n) l <-> eligible trace max cutoff maxi sb n) /\ NoDup (map fst l) /\ runs_counted trace runs /\
      (forall sb n, In (sb, n) l -> forall m rest, uses (map start_pc sb) runs m rest -> m = n) /\
      executed runs <= N.of_nat (length trace).
  Proof.
    intros Hi. destruct (detect_ok step bs Hnd Hne max cutoff maxi trace Hi) as (l & runs & E & A & B & C). exists l, runs.
    assert (D : (forall f, wsum f runs = fsum f (map (map start_pc) (runs_of trace))) /\ sorted runs).
    { unfold detect_superblocks, detect_runs in E. destruct (runs_loop_ok step bs Hnd Hne trace Hi (length (flat_map (bb_pcs step) trace)) [] [] (le_n _) (SSorted_nil _)) as (r & E1 & S1 & _ & W).
      rewrite E1 in E. destruct (select_blocks _ _ _ _); [|discriminate]. injection E as _ <-. split; auto. intros f. rewrite W, segs_runs. reflexivity. }
    destruct D as [D S1]. split; auto. split; [intros sb n; rewrite A; unfold eligible; tauto|]. split; auto. split; [split; [now apply sorted_nodup|exact C]|]. split.
    - intros sb n H m rest U. apply A in H. destruct H as (H1 & _ & _ & (ns & F & ->) & _). assert (Np : map start_pc sb <> []) by (destruct sb; [congruence|discriminate]). rewrite (uses_wsum _ _ _ _ Np U), D. clear Np.
      clear - F H1. induction F as [|run k L ns Z F IH]; [reflexivity|]. cbn [map fsum fold_right]. destruct (count_in_ok (map start_pc run) (map start_pc sb)) as (q & Z1 & Z2); [destruct sb; [congruence|discriminate]|].
      change (list_sum (k :: ns)) with (k + list_sum ns)%nat. unfold fsum in IH. rewrite IH, Z2, (max_disjoint_fun _ _ _ _ Z1 Z). lia.
    - rewrite executed_wsum, D. unfold runs_of, stretches. rewrite fsum_lengths. pose proof (split_on_length trace). lia.
  Qed.
End Detected.

(** ** Cell mode *)
Lemma nth_set_none {A} i j (l : list (option A)) x : i <> j -> nth_error l j = Some x -> nth_error (set_nth i None l) j = Some x.
Proof. intros H E. now rewrite set_nth_other. Qed.
Lemma take_all_ok {A} (xs : list A) : forall positions l, NoDup positions ->
  (forall i, In i positions -> exists x, nth_error xs i = Some x /\ nth_error l i = Some (Some x)) ->
  exists r, take_all l positions = Some r /\ Forall2 (fun i x => nth_error xs i = Some x) positions r.
Proof.
  induction positions as [|i positions IH]; intros l D H; cbn [take_all]; [exists []; split; [reflexivity|constructor]|].
  pose proof (proj1 (NoDup_cons_iff _ _) D) as [D1 D2]. destruct (H i) as (x & E1 & E2); [now left|]. rewrite E2. destruct (IH (set_nth i None l) D2) as (r & -> & F).
  - intros j Hj. destruct (H j) as (y & Y1 & Y2); [now right|]. exists y. split; auto. apply nth_set_none; auto. intros ->. tauto.
  - exists (x :: r). split; auto.
Qed.
Lemma sub64_le a b : b <= a -> a < 2 ^ 64 -> sub64 a b = a - b.
Proof.
  intros H L. unfold sub64, wrap64. change (2 ^ 64) with 18446744073709551616 in *. replace (a + 18446744073709551616 - b) with ((a - b) + 1 * 18446744073709551616) by lia. rewrite N.mod_add by discriminate. apply N.mod_small. lia.
Qed.

Section Cell.
  Context {I : Type} (widths : list (bblock I) -> option (N * N)).
  Lemma generate_in blocks sb c : In (sb, c) (generate widths blocks) <-> exists n w, In (sb, n) blocks /\ widths sb = Some w /\ c = candidate sb n w.
  Proof.
    induction blocks as [|[sb' n'] blocks IH]; cbn [generate].
    - split; [intros []|intros (? & ? & [] & _)].
    - destruct (widths sb') as [w'|] eqn:E; cbn [In]; rewrite IH; split.
      + intros [X|(n & w & A & B)]; [injection X as <- <-; exists n', w'; auto|exists n, w; auto].
      + intros (n & w & [X|X] & B & C); [injection X as <- <-; left; congruence|right; eauto].
      + intros (n & w & A & B). exists n, w. auto.
      + intros (n & w & [X|X] & B & C); [injection X as <- <-; congruence|eauto].
  Qed.
  Lemma generate_nodup blocks : NoDup (map fst blocks) -> NoDup (map fst (generate widths blocks)).
  Proof.
    induction blocks as [|[sb n] blocks IH]; intros D; cbn [generate]; [constructor|]. cbn [map fst] in D. pose proof (proj1 (NoDup_cons_iff _ _) D) as [D1 D2].
    destruct (widths sb); auto. cbn [map fst]. constructor; auto. intros X. apply in_map_iff in X. destruct X as ([sb' c] & <- & X). apply generate_in in X. destruct X as (m & w & X & _).
    apply D1. apply in_map_iff. exists (sb', m). auto.
  Qed.
  Lemma columns_width all l : (forall sb c, In (sb, c) all -> exists w, widths sb = Some w /\ c_cost c = snd w) ->
    forall blocks, Forall2 (fun i sb => exists c, nth_error all i = Some (sb, c)) l blocks -> columns (map snd all) l = total_width widths blocks.
  Proof.
    intros H blocks. induction 1 as [|i sb l blocks (c & E) F IH]; [reflexivity|]. unfold columns, total_width in *. cbn [map fold_right]. rewrite <- IH.
    rewrite (map_nth_error snd _ _ E). cbn [snd]. destruct (H sb c) as (w & W1 & W2); [eapply nth_error_In; eauto|]. unfold width_after. now rewrite W1, W2.
  Qed.
  Lemma nth_blocks (all : list (list (bblock I) * cand)) l : Forall (fun i => (i < length all)%nat) l -> exists blocks, Forall2 (fun i sb => exists c, nth_error all i = Some (sb, c)) l blocks.
  Proof.
    induction 1 as [|i l L F (blocks & IH)]; [exists []; constructor|]. destruct (nth_error all i) as [[sb c]|] eqn:E; [|apply nth_error_None in E; lia]. exists (sb :: blocks). constructor; eauto.
  Qed.
  Lemma blocks_nodup (all : list (list (bblock I) * cand)) l blocks : NoDup (map fst all) -> NoDup l ->
    Forall2 (fun i sb => exists c, nth_error all i = Some (sb, c)) l blocks -> NoDup blocks.
  Proof.
    intros D Dl F. induction F as [|i sb l blocks (c & E) F IH]; [constructor|]. pose proof (proj1 (NoDup_cons_iff _ _) Dl) as [D1 D2]. constructor; auto. intros X.
    assert (G : exists j c', In j l /\ nth_error all j = Some (sb, c')).
    { clear - F X. induction F as [|j sb' l blocks (c & E) F IH]; [destruct X|]. destruct X as [->|X]; [exists j, c; split; [now left|auto]|]. destruct (IH X) as (j' & c' & A & B). exists j', c'. split; [now right|auto]. }
    destruct G as (j & c' & Hj & Ej). assert (i = j); [|subst; tauto].
    apply (map_nth_error fst) in E. apply (map_nth_error fst) in Ej. cbn [fst] in E, Ej. apply (proj1 (NoDup_nth_error _) D); [apply nth_error_Some; congruence|congruence].
  Qed.
End Cell.

Section CellCompile.
  Context {I : Type} (step : N) (bs : list (bblock I)) (widths : list (bblock I) -> option (N * N)).
  Variable pop : list (nat * density) -> option ((nat * density) * list (nat * density)).
  Hypothesis Hpop : queue_ok pop.
  Hypothesis Hnd : NoDup (map start_pc bs).
  Hypothesis Hne : Forall (fun b => instrs b <> []) bs.
  Theorem cell_ok apc skip max cutoff maxi max_total non_apc trace : incl trace bs -> apc <> 0%nat ->
    widths_ok widths (eligible trace max cutoff maxi) -> N.of_nat (length trace) < 2 ^ 32 ->
    (forall m, max_total = Some m -> non_apc <= m /\ m < 2 ^ 64) ->
    exists apcs all runs sel,
      compile_cell pop widths apc skip max cutoff maxi max_total non_apc (flat_map (bb_pcs step) trace) bs = Some apcs /\
      (forall sb c, In (sb, c) all <-> exists n w, eligible trace max cutoff maxi sb n /\ widths sb = Some w /\ c = mkCand (map start_pc sb) (snd w) (fst w - snd w) n) /\
      NoDup (map fst all) /\ runs_counted trace runs /\
      selection_ok (map snd all) runs (match max_total with Some m => m - non_apc | None => 2 ^ 64 - 1 end) (apc + skip) sel /\
      Forall2 (fun i sb => exists c, nth_error all i = Some (sb, c)) (skipn skip sel) apcs /\
      NoDup apcs /\ (length apcs <= apc)%nat /\ (forall m, max_total = Some m -> non_apc + total_width widths apcs <= m).
  Proof.
    intros Hi Ha (W1 & W2 & W3) Lt Hm. destruct (detect_full step bs Hnd Hne max cutoff maxi trace Hi) as (blocks & runs & Ed & Eb & Db & Rc & Cn & Ex).
    set (all := generate widths blocks). assert (Da : NoDup (map fst all)) by now apply generate_nodup.
    assert (Ia : forall sb c, In (sb, c) all <-> exists n w, eligible trace max cutoff maxi sb n /\ widths sb = Some w /\ c = mkCand (map start_pc sb) (snd w) (fst w - snd w) n).
    { intros sb c. unfold all. rewrite generate_in. split.
      - intros (n & w & A & B & C). apply Eb in A. exists n, w. split; auto. split; auto. destruct (W1 _ _ _ A B) as (_ & X & Y). unfold candidate in C. rewrite sub64_le in C; auto.
      - intros (n & w & A & B & C). exists n, w. split; [now apply Eb|]. split; auto. destruct (W1 _ _ _ A B) as (_ & X & Y). unfold candidate. rewrite sub64_le; auto. }
    assert (Wa : forall sb c, In (sb, c) all -> exists w, widths sb = Some w /\ c_cost c = snd w).
    { intros sb c H. apply Ia in H. destruct H as (n & w & _ & A & ->). exists w. auto. }
    assert (Oc : exists sel, select_blocks_greedy pop (map snd all) (match apc_columns max_total non_apc with Some b => b | None => 2 ^ 64 - 1 end) (apc + skip) runs = Some sel /\
      selection_ok (map snd all) runs (match apc_columns max_total non_apc with Some b => b | None => 2 ^ 64 - 1 end) (apc + skip) sel).
    { apply select_ok; auto.
      - split; [lia|]. split.
        + destruct (nth_blocks all (seq 0 (length all))) as (bl & Fb); [apply Forall_forall; intros i H; apply in_seq in H; lia|]. rewrite map_length, (columns_width widths all _ Wa _ Fb). apply W3.
          * eapply blocks_nodup; eauto. apply seq_NoDup.
          * intros sb Hs. assert (G : exists c, In (sb, c) all). { clear - Fb Hs. induction Fb as [|i sb' l bl (c & E) F IH]; [destruct Hs|]. destruct Hs as [->|Hs]; auto. exists c. eapply nth_error_In; eauto. }
            destruct G as [c G]. apply Ia in G. destruct G as (n & w & G & _). eauto.
        + intros c d Hc Hd. apply in_map_iff in Hc. destruct Hc as ([sb c'] & <- & Hc). apply in_map_iff in Hd. destruct Hd as ([sb' d'] & <- & Hd).
          apply Ia in Hc. destruct Hc as (n & w & A1 & A2 & ->). apply Ia in Hd. destruct Hd as (n' & w' & B1 & B2 & ->). cbn [snd c_count c_value c_cost]. eapply W2; eauto.
      - apply Forall_forall. intros c Hc. apply in_map_iff in Hc. destruct Hc as ([sb c'] & <- & Hc). apply Ia in Hc. destruct Hc as (n & w & A1 & A2 & ->). cbn [snd]. split; cbn [c_pcs c_cost c_count].
        + destruct A1 as (X & _). destruct sb; [congruence|discriminate].
        + split; [apply (W1 _ _ _ A1 A2)|]. intros m rest U. rewrite (Cn sb n) with (m := m) (rest := rest); auto; [lia|]. now apply Eb. }
    destruct Oc as (sel & Es & Os).
    assert (Eb' : match apc_columns max_total non_apc with Some b => b | None => 2 ^ 64 - 1 end = match max_total with Some m => m - non_apc | None => 2 ^ 64 - 1 end).
    { destruct max_total as [m|]; cbn [apc_columns]; auto. destruct (Hm m eq_refl). now apply sub64_le. }
    rewrite Eb' in Os. assert (Os' := Os). destruct Os' as (O1 & O2 & O3 & O4 & _ & _). rewrite map_length in O2.
    assert (Sk : skipn (Nat.min skip (length sel)) sel = skipn skip sel).
    { destruct (Nat.le_ge_cases skip (length sel)); [now rewrite Nat.min_l|]. rewrite Nat.min_r, skipn_all, skipn_all2; auto. }
    assert (Dk : NoDup (skipn skip sel)). { rewrite <- (firstn_skipn skip sel) in O1. clear - O1. revert O1. generalize (skipn skip sel). induction (firstn skip sel) as [|x f IH]; cbn [app]; auto. intros l D. inversion D; auto. }
    assert (Fk : Forall (fun i => (i < length all)%nat) (skipn skip sel)). { rewrite <- (firstn_skipn skip sel) in O2. apply Forall_app in O2. tauto. }
    destruct (take_all_ok (map fst all) (skipn skip sel) (map (fun a => Some (fst a)) all)) as (apcs & Et & Ft); auto.
    { intros i H. rewrite Forall_forall in Fk. specialize (Fk i H). destruct (nth_error all i) as [a|] eqn:E; [|apply nth_error_None in E; lia]. exists (fst a).
      split; [exact (map_nth_error fst _ _ E)|exact (map_nth_error (fun a => Some (fst a)) _ _ E)]. }
    assert (Fa : Forall2 (fun i sb => exists c, nth_error all i = Some (sb, c)) (skipn skip sel) apcs).
    { clear - Ft. induction Ft as [|i sb l r E F IH]; constructor; auto. clear F IH. destruct (nth_error all i) as [[s c]|] eqn:X.
      - rewrite (map_nth_error fst _ _ X) in E. injection E as <-. eauto.
      - apply nth_error_None in X. assert (Y : (i < length (map fst all))%nat) by (apply nth_error_Some; congruence). rewrite map_length in Y. lia. }
    exists apcs, all, runs, sel. split.
    { unfold compile_cell. rewrite Ed. unfold cell_create. destruct (Nat.eqb_spec apc 0); [congruence|]. cbv zeta. fold all. rewrite Es, Sk. exact Et. }
    split; [exact Ia|]. split; auto. split; auto. split; auto. split; auto. split; [eapply blocks_nodup; eauto|]. split.
    - assert (X : length (skipn skip sel) = length apcs) by (clear - Fa; induction Fa; cbn; congruence). rewrite <- X, skipn_length. lia.
    - intros m ->. destruct (Hm m eq_refl). rewrite <- (columns_width widths all _ Wa _ Fa). rewrite <- (firstn_skipn skip sel), columns_app in O4. lia.
  Qed.
End CellCompile.

(** ** Sorting *)
Lemma insert_perm {A} (key : A -> N) x l : Permutation (x :: l) (insert_desc key x l).
Proof. induction l as [|y l IH]; cbn [insert_desc]; auto. destruct (key x <=? key y); auto. etransitivity; [apply perm_swap|]. now constructor. Qed.
Lemma insert_sorted {A} (key : A -> N) x l : StronglySorted (fun a b => key b <= key a) l -> StronglySorted (fun a b => key b <= key a) (insert_desc key x l).
Proof.
  induction 1 as [|y l S1 IH F]; cbn [insert_desc]; [repeat constructor|]. destruct (N.leb_spec (key x) (key y)).
  - constructor; auto. apply (Permutation_Forall (insert_perm key x l)). constructor; auto.
  - constructor; [constructor; auto|]. constructor; [lia|]. eapply Forall_impl; [|exact F]. cbn. intros; lia.
Qed.
Lemma sort_ok {A} (key : A -> N) l : Permutation l (sort_desc key l) /\ StronglySorted (fun a b => key b <= key a) (sort_desc key l).
Proof.
  unfold sort_desc. assert (G : forall m, StronglySorted (fun a b => key b <= key a) m -> Permutation (l ++ m) (fold_left (fun m x => insert_desc key x m) l m) /\ StronglySorted (fun a b => key b <= key a) (fold_left (fun m x => insert_desc key x m) l m)).
  { induction l as [|x l IH]; intros m S1; cbn [fold_left app]; [auto|]. destruct (IH (insert_desc key x m)) as [P S2]; [now apply insert_sorted|]. split; auto.
    etransitivity; [|exact P]. etransitivity; [apply Permutation_middle|]. apply Permutation_app_head, insert_perm. }
  destruct (G []) as [P S1]; [constructor|]. rewrite app_nil_r in P. auto.
Qed.
Lemma sorted_descending {A} (value key : A -> N) l : (forall x, In x l -> key x = value x) -> StronglySorted (fun a b => key b <= key a) l -> descending value l.
Proof.
  intros K S1 a x b y c ->. assert (Hx : In x (a ++ x :: b ++ y :: c)) by (apply in_or_app; right; now left).
  assert (Hy : In y (a ++ x :: b ++ y :: c)) by (apply in_or_app; right; right; apply in_or_app; right; now left). rewrite <- (K x Hx), <- (K y Hy). clear K Hx Hy.
  induction a as [|z a IH]; cbn [app] in S1; inversion S1 as [|? ? S2 F]; subst; auto. rewrite Forall_forall in F. apply F. apply in_or_app. right. now left.
Qed.

(** ** Installing *)
Section Setup.
  Context {I : Type} (base step : N).
  Hypothesis Hstep : 0 < step.
  Lemma setup_ok : forall (apcs : list (list (bblock I))) i marks (where_ : list nat),
    Forall2 (fun sb k => exists b, sb = [b] /\ start_pc b = base + N.of_nat k * step /\ (k < length marks)%nat) apcs where_ -> NoDup where_ ->
    exists marks', setup_from base step i apcs marks = Some marks' /\ length marks' = length marks /\
      (forall j k, nth_error where_ j = Some k -> nth_error marks' k = Some (Some (powdr_opcode + i + j)%nat)) /\
      (forall k, ~ In k where_ -> nth_error marks' k = nth_error marks k).
  Proof.
    intros apcs i marks where_ F. revert i marks F. induction apcs as [|sb apcs IH] in where_ |- *; intros i marks F D.
    - inversion F; subst. exists marks. split; auto. split; auto. split; auto. intros [|j] k; discriminate.
    - inversion F as [|? k ? ks (b & -> & Eb & Lk) F']; subst. pose proof (proj1 (NoDup_cons_iff _ _) D) as [D1 D2]. cbn [setup_from].
      destruct (N.ltb_spec (start_pc b) base); [lia|]. replace (N.to_nat ((start_pc b - base) / step)) with k; [|rewrite Eb; replace (base + N.of_nat k * step - base) with (N.of_nat k * step) by lia; rewrite N.div_mul by lia; lia].
      cbv zeta. rewrite (proj2 (Nat.ltb_lt _ _) Lk). destruct (IH ks (S i) (set_nth k (Some (powdr_opcode + i)%nat) marks)) as (m' & Em & Lm & A & B); auto.
      { clear - F'. induction F' as [|sb' k' l l' (b' & X & Y & Z) _ IHF]; constructor; auto. exists b'. rewrite set_nth_length. auto. }
      rewrite set_nth_length in Lm. exists m'. split; [exact Em|]. split; auto. split.
      + intros [|j] k' Hk; cbn [nth_error] in Hk.
        * injection Hk as <-. rewrite B by auto. rewrite Nat.add_0_r. destruct (nth_error marks k) eqn:E; [|apply nth_error_None in E; lia]. eapply set_nth_same; eauto.
        * rewrite (A j k' Hk). do 2 f_equal. lia.
      + intros k' Hk. rewrite B by (intros X; apply Hk; now right). apply set_nth_other. intros ->. apply Hk. now left.
  Qed.
End Setup.
