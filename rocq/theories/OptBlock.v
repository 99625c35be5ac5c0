(** The columns of a block and the literals for them. *)
From Coq Require Import Arith NArith ZArith Bool List Lia Permutation.
From Verif Require Import Field ExprModel SystemModel SymModel SymSpec SymFacts PropsSym PartModel PartSpec PartFacts BlocksModel EmpModel EmpSpec EmpFacts OptModel OptSpec OptFacts OptRestrict.
Import ListNotations.

Section OptBlock.
  Context {p : positive} (pc_bus exec_bus : N) (instrs : list (smach p * list (F p))) (ms : list (smach p)) (a : allocator).
  Hypothesis columns_orig : Forall (fun i => forall v, column_of (fst i) v -> exists n, v = Orig n) instrs.
  Hypothesis stitched : statements_to_machines pc_bus exec_bus instrs = Some (ms, a).
  Lemma layout : NoDup (concat (al_subs a)) /\
    (forall i m id, nth_error ms i = Some m -> (column_of m (Orig id) <-> exists c, at_cell (al_subs a) (i, c) = Some id)) /\
    (forall i m v, nth_error ms i = Some m -> column_of m v -> exists id, v = Orig id) /\
    length (al_subs a) = length ms /\
    (forall i m, nth_error ms i = Some m -> i + 1 = length ms -> (al_next a <= al_next (alloc_from_machine m))%N).
  Proof.
    destruct (C32_block p pc_bus exec_bus instrs ms a columns_orig stitched) as (L1 & L2 & start & S0 & Sn & HB).
    assert (K : forall i, i < length instrs -> exists w m, 0 < w /\ nth_error ms i = Some m /\ start (i + 1) = (start i + N.of_nat w)%N /\ nth_error (al_subs a) i = Some (map (fun c => (start i + N.of_nat c)%N) (seq 0 w)) /\
      (forall v, column_of m v <-> exists n, v = Orig n /\ (start i <= n)%N /\ (n < start (i + 1)%nat)%N)).
    { intros i Hi. destruct (nth_error instrs i) as [[m0 r0]|] eqn:E; [|apply nth_error_None in E; lia]. destruct (HB i m0 r0 E) as (w & m & [W _] & A & B & C & D & _). exists w, m. auto. }
    assert (NS : forall w k c, nth_error (map (fun c => (k + N.of_nat c)%N) (seq 0 w)) c = if Nat.ltb c w then Some (k + N.of_nat c)%N else None).
    { intros w k c. destruct (Nat.ltb_spec c w) as [H|H].
      - assert (X : nth_error (seq 0 w) c = Some c). { rewrite (nth_error_nth' _ 0) by (now rewrite seq_length). now rewrite seq_nth. } now rewrite (map_nth_error _ _ _ X).
      - apply nth_error_None. now rewrite map_length, seq_length. }
    split; [|split; [|split; [|split]]].
    - assert (G : forall l k, (forall j s, nth_error l j = Some s -> nth_error (al_subs a) (k + j) = Some s) -> NoDup (concat l) /\ forall x, In x (concat l) -> (start k <= x)%N).
      { induction l as [|s l IH]; intros k Hl; cbn [concat]; [split; [constructor|intros ? []]|]. pose proof (Hl 0 s eq_refl) as H0. rewrite Nat.add_0_r in H0. assert (Lk : k < length instrs) by (rewrite <- L2; apply nth_error_Some; congruence).
        destruct (K k Lk) as (w & m & W & _ & Es & Ek & _). assert (s = map (fun c => (start k + N.of_nat c)%N) (seq 0 w)) as -> by congruence. destruct (IH (k + 1)) as [N2 B2]. { intros j s' Hj. replace (k + 1 + j) with (k + Datatypes.S j) by lia. now apply Hl. }
        split.
        - apply nodup_app_inv. split; [|split; auto].
          + apply FinFun.Injective_map_NoDup; [intros x y H; lia|apply seq_NoDup].
          + intros x Hx Hy. apply in_map_iff in Hx. destruct Hx as (c & <- & Hc). apply in_seq in Hc. specialize (B2 _ Hy). lia.
        - intros x Hx. apply in_app_iff in Hx. destruct Hx as [Hx|Hx]; [apply in_map_iff in Hx; destruct Hx as (c & <- & _); lia|]. specialize (B2 _ Hx). lia. }
      apply (G (al_subs a) 0). auto.
    - intros i m id Hm. assert (Hi : i < length instrs) by (rewrite <- L1; apply nth_error_Some; congruence). destruct (K i Hi) as (w & m1 & W & Em & Es & Ek & HC). assert (m1 = m) by congruence. subst m1. unfold at_cell. cbn [fst snd]. rewrite Ek, HC. split.
      + intros (n & [= <-] & A & B). exists (N.to_nat (id - start i)). rewrite NS. replace (Nat.ltb (N.to_nat (id - start i)) w) with true by (symmetry; apply Nat.ltb_lt; lia). f_equal. lia.
      + intros (c & Hc). rewrite NS in Hc. destruct (Nat.ltb_spec c w); [|discriminate]. injection Hc as <-. eexists. split; [reflexivity|]. lia.
    - intros i m v Hm Hv. assert (Hi : i < length instrs) by (rewrite <- L1; apply nth_error_Some; congruence). destruct (K i Hi) as (w & m1 & W & Em & Es & Ek & HC). assert (m1 = m) by congruence. subst m1. apply HC in Hv. destruct Hv as (n & -> & _). eauto.
    - lia.
    - intros i m Hm Hlast. assert (Hi : i < length instrs) by (rewrite <- L1; apply nth_error_Some; congruence). destruct (K i Hi) as (w & m1 & W & Em & Es & Ek & HC). assert (m1 = m) by congruence. subst m1. rewrite Sn. replace (length instrs) with (i + 1) by lia.
      assert (X : column_of m (Orig (start (i + 1)%nat - 1)%N)) by (apply HC; eexists; split; [reflexivity|lia]). apply alloc_above in X. lia.
  Qed.
  Lemma column_concat (l : list (smach p)) x v : column_of (fold_left sm_concat l x) v <-> exists y, In y (x :: l) /\ column_of y v.
  Proof.
    assert (C2 : forall u w : smach p, column_of (sm_concat u w) v <-> column_of u v \/ column_of w v).
    { intros u w. unfold column_of, sm_concat. cbn [sm_cons sm_buses]. rewrite !Exists_app. tauto. }
    revert x. induction l as [|y l IH]; intros x; cbn [fold_left].
    - split; [intros H; exists x; cbn; auto|intros (y & [->|[]] & H); auto].
    - rewrite IH. split.
      + intros (z & [<-|Hz] & Hc); [|exists z; cbn; auto]. apply C2 in Hc. destruct Hc as [Hc|Hc]; [exists x|exists y]; cbn; auto.
      + intros (z & [<-|[<-|Hz]] & Hc); [exists (sm_concat x y)|exists (sm_concat x y)|exists z]; cbn [In]; auto; (split; [now left|]); apply C2; auto.
  Qed.
  Lemma unique_ids_in (m : smach p) id : In id (unique_ids m) <-> exists v, column_of m v /\ vid v = id.
  Proof.
    unfold unique_ids. rewrite nodup_In, in_map_iff. assert (A : forall e v, In v (arefs e) <-> occurs v (e : aexpr p)).
    { induction e as [w|k|l IHl o r IHr|e IH]; intros v; cbn; try tauto. rewrite in_app_iff, IHl, IHr. tauto. auto. }
    split; intros (v & H1 & H2); exists v; (split; auto).
    - apply column_children. unfold sm_refs in H2. apply in_flat_map in H2. destruct H2 as (e & He & Hv). exists e. split; auto. now apply A.
    - unfold sm_refs. apply in_flat_map. apply column_children in H1. destruct H1 as (e & He & Hv). exists e. split; auto. now apply A.
  Qed.
  Lemma block_mapper m : statements_to_machine pc_bus exec_bus instrs = Some (m, a) ->
    exists mp, mapper_new (al_subs a) (unique_ids m) = Some mp /\ forall c id, mapper_get mp c = Some id <-> at_cell (al_subs a) c = Some id.
  Proof.
    unfold statements_to_machine. rewrite stitched. destruct layout as (Hn & HC & HO & HL & _). destruct ms as [|m0 ms'] eqn:Ems; [discriminate|]. intros [= <-].
    assert (U : forall id, In id (unique_ids (fold_left sm_concat ms' m0)) <-> exists c, at_cell (al_subs a) c = Some id).
    { intros id. rewrite unique_ids_in. split.
      - intros (v & Hv & <-). apply column_concat in Hv. destruct Hv as (y & Hy & Hv). apply In_nth_error in Hy. destruct Hy as [i Hi]. destruct (HO i y v Hi Hv) as [id ->]. apply (HC i y id Hi) in Hv. destruct Hv as [c Hc]. exists (i, c). exact Hc.
      - intros ([i c] & Hc). pose proof Hc as Hc0. unfold at_cell in Hc0. cbn [fst snd] in Hc0. destruct (nth_error (al_subs a) i) as [s|] eqn:Es; [|discriminate]. assert (Hi : i < length (m0 :: ms')) by (rewrite <- HL; apply nth_error_Some; congruence).
        destruct (nth_error (m0 :: ms') i) as [y|] eqn:Ey; [|apply nth_error_None in Ey; lia]. exists (Orig id). split; [|reflexivity]. apply column_concat. exists y. split; [eapply nth_error_In; eauto|]. apply (HC i y id Ey). eauto. }
    destruct (mapper_ok (al_subs a) Hn (unique_ids (fold_left sm_concat ms' m0))) as [M1 M2]. destruct (mapper_new (al_subs a) (unique_ids (fold_left sm_concat ms' m0))) as [mp|] eqn:E.
    - exists mp. split; auto. intros c id. rewrite (M2 mp eq_refl). split; [tauto|]. intros H. split; auto. apply U. eauto.
    - exfalso. apply M1; auto. intros id Hid. apply U in Hid. destruct Hid as [c Hc]. unfold at_cell in Hc. destruct (nth_error (al_subs a) (fst c)) as [s|] eqn:Es; [|discriminate]. apply in_concat. exists s. split; eapply nth_error_In; eauto.
  Qed.
  Hypothesis p_odd : (2 < N.pos p)%N.
  Context (memory_bus : N) (optimize : smach p -> allocator -> option (smach p)) (lits : list (N * reglimb p)) (row : var -> F p) (before : nat -> memory (p := p)).
  Hypothesis optimizer_ok : optimizes memory_bus optimize.
  Hypothesis extracted : optimistic_literals optimize memory_bus pc_bus exec_bus instrs = Some lits.
  Hypothesis no_new : forall i m m' v, i + 1 < length ms -> nth_error ms i = Some m -> optimize m (alloc_from_machine m) = Some m' -> argument_of memory_bus m' v -> column_of m v.
  Hypothesis settled_all : forall i m m', nth_error ms i = Some m -> optimize m (alloc_from_machine m) = Some m' -> forall row', accepts m' row' -> settled memory_bus (messages m' row').
  Hypothesis executed : execution memory_bus ms row before.
  Lemma attribution id lit : nm_get id lits = Some lit ->
    exists i m, nth_error ms i = Some m /\ column_of m (Orig id) /\ (rl_instr lit = i \/ rl_instr lit = i + 1) /\ limb_value before lit = Some (row (Orig id)).
  Proof.
    intros Hid. unfold optimistic_literals in extracted. rewrite stitched in extracted. destruct (literal_value p_odd memory_bus optimize ms a lits id lit row before optimizer_ok extracted executed settled_all Hid) as (i & m & m' & v & Hm & Em & Hi & Hv & Hlt & Hc' & Harg & Hval).
    destruct layout as (_ & HC & HO & _ & Hlast). assert (Hc : column_of m v).
    { assert (Li : i < length ms) by (apply nth_error_Some; congruence). destruct (Nat.eq_dec (i + 1) (length ms)) as [E|E]; [|eapply no_new; eauto; lia].
      destruct (optimizer_ok m (alloc_from_machine m) m' (alloc_above m) Em) as [OC _]. destruct (OC v Hc') as [H|(n & -> & Hn)]; auto. exfalso. cbn [vid] in Hv. subst n. specialize (Hlast i m Hm E). lia. }
    destruct (HO i m v Hm Hc) as [n ->]. cbn [vid] in Hv. subst n. exists i, m. auto.
  Qed.
End OptBlock.
