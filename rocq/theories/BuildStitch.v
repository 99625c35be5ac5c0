(** The machine of a block with empirical constraints. *)
From Coq Require Import Arith NArith ZArith Znumtheory Bool List Lia ZifyBool ZifyN ZifyNat.
From Verif Require Import Field ExprModel SystemModel Spec OvmModel OvmSpec PassSpec MemModel MemSpec LowOvm SymModel SymSpec SymFacts PipeModel PipeSpec PipeMachineSpec BlocksModel BuildModel BuildSpec BuildFacts.
Import ListNotations.
Local Open Scope nat_scope.

Section Stitch.
  Context {p : positive} (m : busmap) (program : list (F p) -> Prop) (pc_bus exec_bus : N).
  Hypothesis Hexec : get_bus_id m BExec = Some exec_bus.
  Context (is : list (smach p * list (F p))) (sm : smach p) (al : allocator) (extra : list (aexpr p)).
  Hypothesis Hplain : Forall plain is.
  Hypothesis Hst : statements_to_machine pc_bus exec_bus is = Some (sm, al).
  Definition with_extra : smach p := mkSM (sm_cons sm ++ map constraint_from extra) (sm_buses sm) (sm_derived sm).

  Lemma stitched : exists m0 ms, sm = fold_left sm_concat ms m0 /\ laid_out pc_bus exec_bus 0 is (m0 :: ms) (al_subs al) (al_next al).
  Proof.
    unfold statements_to_machine, statements_to_machines in Hst. destruct (block_machines pc_bus exec_bus 0 is) as [[[ms ss] n]|] eqn:E; [|discriminate]. destruct ms as [|m0 ms]; [discriminate|]. injection Hst as <- <-. exists m0, ms. split; auto. cbn [al_subs al_next]. apply block_laid_out; auto.
    eapply Forall_impl; [|exact Hplain]. intros i [H _]. exact H.
  Qed.
  Lemma stitch_split s : exists rows, matches 0 is rows s.
  Proof. destruct stitched as (m0 & ms & _ & L). exact (laid_split pc_bus exec_bus L s). Qed.
  Lemma stitch_accepts rows s : matches 0 is rows s -> SymSpec.accepts with_extra s <-> Forall2 (accepts_instruction pc_bus exec_bus) is rows /\ Forall (fun e => aeval s e = 0%F) extra.
  Proof.
    intros M. destruct stitched as (m0 & ms & E & L). destruct (laid_accepts pc_bus exec_bus L rows s M) as [A _]. unfold SymSpec.accepts at 1. cbn [with_extra sm_cons]. rewrite Forall_app, Forall_map. fold (SymSpec.accepts sm s). rewrite E, concat_accepts.
    assert (X : Forall (fun e => aeval s (constraint_from e) = 0%F) extra <-> Forall (fun e => aeval s e = 0%F) extra) by (rewrite !Forall_forall; split; intros H e He; specialize (H e He); now apply constraint_from_zero). rewrite X, <- A. split; intros [H1 H2]; split; auto.
    - destruct H1. constructor; auto.
    - inversion H1. auto.
  Qed.
  Lemma stitch_values rows s : matches 0 is rows s -> machine_values with_extra s = block_values is rows.
  Proof.
    intros M. destruct stitched as (m0 & ms & E & L). destruct (laid_accepts pc_bus exec_bus L rows s M) as [_ A]. rewrite <- A. unfold machine_values at 1. unfold messages. cbn [with_extra sm_buses]. fold (messages sm s). rewrite E, concat_messages, map_app. cbn [flat_map]. f_equal.
    clear. induction ms as [|q ms IH]; auto. cbn [flat_map]. now rewrite map_app, IH.
  Qed.
  Lemma stitch_sends rows s : matches 0 is rows s -> machine_sends m with_extra s = block_sends m is rows.
  Proof. intros M. unfold machine_sends, block_sends. now rewrite (stitch_values rows s M). Qed.
  Lemma stitch_derived : sm_derived with_extra = [].
  Proof. destruct stitched as (m0 & ms & E & L). cbn [with_extra sm_derived]. rewrite E. apply concat_derived. exact (laid_derived pc_bus exec_bus L Hplain). Qed.
  Lemma stitch_width : exists widths, Forall2 (fun (i : smach p * list (F p)) w => has_width (fst i) w) is widths /\ N.to_nat (al_next al) = list_sum widths.
  Proof. destruct stitched as (m0 & ms & E & L). destruct (laid_width pc_bus exec_bus L) as (ws & A & B). exists ws. split; auto. lia. Qed.
  Lemma stitch_over : Forall (fun e => forall v, occurs v e -> issued (N.to_nat (al_next al)) v) extra -> machine_over (N.to_nat (al_next al)) with_extra.
  Proof.
    intros X. split; [|rewrite stitch_derived; intros d []]. destruct stitched as (m0 & ms & E & L).
    assert (K : forall v, column_of sm v -> issued (N.to_nat (al_next al)) v).
    { intros v Hv. rewrite E in Hv. apply concat_columns in Hv. destruct Hv as (q & Iq & Hv). destruct (laid_columns pc_bus exec_bus L q v Iq Hv) as (k & -> & Hk). exists (N.to_nat k). split; [now rewrite N2Nat.id|lia]. }
    intros v [Hv|Hv]; [|apply K; right; exact Hv]. cbn [with_extra sm_cons] in Hv. apply Exists_app in Hv. destruct Hv as [Hv|Hv]; [apply K; now left|]. apply Exists_exists in Hv. destruct Hv as (e & He & Hv). apply in_map_iff in He. destruct He as (e' & <- & He'). rewrite Forall_forall in X. apply (X e' He'). destruct e'; cbn [constraint_from occurs] in *; auto.
  Qed.
  Lemma stitch_subs rows s k subs r j id : matches 0 is rows s -> nth_error (al_subs al) k = Some subs -> nth_error rows k = Some r -> nth_error subs j = Some id ->
    s (Orig id) = r (Orig (N.of_nat j)) /\ (id < al_next al)%N.
  Proof. destruct stitched as (m0 & ms & E & L). exact (laid_subs pc_bus exec_bus L rows s k subs r j id). Qed.
  Lemma receives_inj (a b : list (sbus p * sbus p)) : receives_and_sends a = receives_and_sends b -> a = b.
  Proof. revert b. induction a as [|[r s] a IH]; intros [|[r' s'] b]; cbn; try discriminate; auto. intros [= -> -> H]. f_equal. now apply IH. Qed.
  (** The interactions on the execution bus; in a row that the block's rows make up they are the handshakes. *)
  Lemma stitch_pairs : exists r0 s0 rest, on_bus exec_bus with_extra = r0 :: s0 :: receives_and_sends rest /\
    forall rows s, matches 0 is rows s -> Forall2 (fun ir rs => handshake exec_bus (fst ir) (snd ir) = [message s (fst rs); message s (snd rs)]) (combine is rows) ((r0, s0) :: rest).
  Proof.
    destruct stitched as (m0 & ms & E & L). destruct (laid_pairs pc_bus exec_bus L) as (prs & P). destruct (concat_on_bus exec_bus ms m0 prs P) as (r0 & s0 & rest & -> & H). exists r0, s0, rest. split; [unfold on_bus; cbn [with_extra sm_buses]; fold (on_bus exec_bus sm); now rewrite E|]. intros rows s M. exact (laid_handshake pc_bus exec_bus L _ P rows s M).
  Qed.
  Lemma chained_iff rows s : matches 0 is rows s -> chained m s with_extra <-> consecutive exec_bus is rows.
  Proof.
    intros M. destruct stitch_pairs as (r0 & s0 & rest & On & H). specialize (H rows s M). split.
    - intros C. destruct (C exec_bus Hexec) as (r1 & s1 & rest1 & On1 & Hc). rewrite On in On1. assert (X : (r0, s0) :: rest = (r1, s1) :: rest1) by (now apply receives_inj). injection X as <- <- <-. rewrite (handovers_nth _ rest r0 s0) in Hc.
      intros k i j ri rj a1 b1 a2 b2 Ei Ej Eri Erj Hi Hj.
      destruct (Forall2_nth_l _ _ _ k (i, ri) H) as ([q1 t1] & N1 & K1); [now apply combine_nth|]. destruct (Forall2_nth_l _ _ _ (k + 1) (j, rj) H) as ([q2 t2] & N2 & K2); [now apply combine_nth|]. cbn [fst snd] in K1, K2. rewrite Hi in K1. rewrite Hj in K2. injection K1 as -> ->. injection K2 as -> ->.
      destruct (Hc k q1 t1 q2 t2 N1 N2) as [A B]. cbn [fst snd message] in *. split; [now symmetry|exact B].
    - intros C id Ei. assert (id = exec_bus) by congruence. subst id. exists r0, s0, rest. split; auto. apply (handovers_nth _ rest r0 s0). intros k q1 t1 q2 t2 N1 N2.
      destruct (Forall2_nth _ _ _ k (q1, t1) H N1) as ([i ri] & A1 & K1). destruct (Forall2_nth _ _ _ (k + 1) (q2, t2) H N2) as ([j rj] & A2 & K2). apply combine_nth in A1, A2. destruct A1 as [A1 B1], A2 as [A2 B2]. cbn [fst snd] in *.
      destruct (C k i j ri rj _ _ _ _ A1 A2 B1 B2 K1 K2) as [X Y]. cbn [message fst snd] in X, Y. split; [now symmetry|exact Y].
  Qed.
  Lemma opp_opp (a : F p) : fopp (fopp a) = a.
  Proof. assert (Add : (a + fopp a + fopp (fopp a) = a)%F). { transitivity (a + (fopp a + fopp (fopp a)))%F; [symmetry; apply F_ring_theory|]. rewrite (Ring_theory.Ropp_def (F_ring_theory (p := p))). rewrite (Ring_theory.Radd_comm (F_ring_theory (p := p))). apply F_ring_theory. } rewrite (Ring_theory.Ropp_def (F_ring_theory (p := p))) in Add. rewrite (Ring_theory.Radd_0_l (F_ring_theory (p := p))) in Add. exact Add. Qed.
  Lemma stitch_balanced : Forall (even_handed exec_bus) is -> balanced m with_extra.
  Proof.
    intros Ev id Ei. assert (id = exec_bus) by congruence. subst id. destruct stitch_pairs as (r0 & s0 & rest & On & H). exists r0, s0, rest. split; auto. intros s A. destruct (stitch_split s) as (rows & M). specialize (H rows s M). apply (stitch_accepts rows s M) in A. destruct A as [A _].
    apply (handovers_nth _ rest r0 s0). intros k q1 t1 q2 t2 N1 N2. destruct (Forall2_nth _ _ _ k (q1, t1) H N1) as ([i ri] & A1 & K1). destruct (Forall2_nth _ _ _ (k + 1) (q2, t2) H N2) as ([j rj] & A2 & K2). apply combine_nth in A1, A2. destruct A1 as [A1 B1], A2 as [A2 B2]. cbn [fst snd] in *.
    assert (U : forall k i ri q t, nth_error is k = Some i -> nth_error rows k = Some ri -> handshake exec_bus i ri = [message s q; message s t] -> aeval s (sb_mult q) = fopp 1%F /\ aeval s (sb_mult t) = 1%F).
    { clear - A Ev. intros k i ri q t N1 N2 K. destruct (Forall2_nth_l _ _ _ k i A N1) as (ri' & N2' & Ai). assert (ri' = ri) by congruence. subst ri'. rewrite Forall_forall in Ev. pose proof (Ev i (nth_error_In _ _ N1) ri _ _ (proj1 Ai) K) as E2. cbn [message fst snd] in E2.
      destruct Ai as (_ & B & _). pose proof (on_bus_messages exec_bus (fst i) ri) as X. fold (handshake exec_bus i ri) in X. rewrite K in X. destruct (on_bus exec_bus (fst i)) as [|a [|b [|]]] eqn:Eb; try discriminate. specialize (B a b eq_refl). cbn [map] in X.
      assert (X1 : message ri a = message s q) by congruence. unfold message in X1. assert (X2 : aeval ri (sb_mult a) = aeval s (sb_mult q)) by congruence. rewrite <- X2. split; auto. rewrite E2, <- X2, B. apply opp_opp. }
    destruct (U k i ri q1 t1 A1 B1 K1) as [_ U1]. destruct (U (k + 1) j rj q2 t2 A2 B2 K2) as [U2 _]. cbn [fst snd]. now rewrite U1, U2.
  Qed.
End Stitch.
