(** C70, for precompiles of superblocks: several basic blocks, one after the other. *)
From Coq Require Import Arith NArith Bool List Lia ZifyBool ZifyNat ZifyN.
From Verif Require Import BlocksModel BlocksSpec SelModel ExecModel ExecSpec SoftModel SoftSpec SoftFacts.
From Verif Require PropsBlocks PropsExec PropsSoft.
Import ListNotations.
Local Open Scope N_scope.

(** An instruction that may be part of a precompile does not end the execution. *)
Definition never_ends {St X} (halted : St -> bool) (pre_compute : X -> N -> ins -> res (St -> St)) (inv : list (nat * X)) (is_allowed : ins -> bool) : Prop :=
  forall e q i f s, is_allowed i = true -> get_executor inv (opcode i) = Some e -> pre_compute e q i = ROk f -> halted s = false -> halted (f s) = false.

Lemma block_place (is_branching is_allowed : ins -> bool) jumpdest base step (prog : list ins) b : In b (collect_basic_blocks is_branching is_allowed jumpdest base step prog) ->
  exists k, start_pc b = base + N.of_nat k * step /\ instrs b <> [] /\ in_block is_branching is_allowed prog k (instrs b).
Proof.
  intros Hb. destruct (in_split _ _ Hb) as (l & r & E). destruct (PropsBlocks.C33_partition _ is_branching is_allowed jumpdest base step prog) as [A B]. specialize (B _ _ _ E). cbv zeta in B. destruct B as (B1 & B2 & B3).
  exists (length (flat_map instrs l)). split; auto. split; auto. intros j x Hj. destruct (B3 j x Hj) as (C1 & _ & C2 & C3). split; auto. intros L. split.
  - destruct (is_branching x); auto. specialize (C2 eq_refl). lia.
  - destruct (is_allowed x); auto. specialize (C3 eq_refl). rewrite C3 in L. cbn in L. lia.
Qed.
Section Super.
  Context {St X : Type} (reg : St -> N -> N) (pc : St -> N) (value_limb : N -> nat -> N) (halted : St -> bool).
  Context (pre_compute : X -> N -> ins -> res (St -> St)) (metered_pre_compute : X -> nat -> N -> ins -> res (St -> St * log)).
  Context (chip : nat -> nat) (base step : N).
  Local Notation prepare_one := (prepare_one pre_compute).
  Local Notation runs := (runs reg pc value_limb halted pre_compute metered_pre_compute chip base step).
  Variables (is_branching is_allowed : ins -> bool) (prog : list ins) (inv : list (nat * X)) (m : mode).
  Hypothesis Hstep : 0 < step.
  Hypothesis Hseq : sequential pc halted pre_compute step inv is_branching is_allowed.
  Hypothesis Hend : never_ends halted pre_compute inv is_allowed.
  Hypothesis Hsame : same_effects pre_compute metered_pre_compute.
  Hypothesis Hfit : base + N.of_nat (length prog) * step <= 2 ^ 32.
  Local Notation plain := (plain_inventory (X := X) inv).

  (** Instructions of the program with their addresses. *)
  Definition placed (x : N * ins) : Prop := exists k, fst x = base + N.of_nat k * step /\ nth_error prog k = Some (snd x).
  (** A run that goes through given addresses. *)
  Lemma runs_through t : forall l fs s turns, Forall placed l -> map (prepare_one inv) l = map (fun f => ROk f) fs -> runs m inv plain prog s turns t -> map fst turns = map fst l ->
    t = last (after fs s) s /\ forall n x, nth_error l n = Some x -> exists st, nth_error (s :: after fs s) n = Some st /\ pc st = fst x.
  Proof.
    induction l as [|[q i] l IH]; intros fs s turns Hp Hf Hr Ht.
    - destruct fs; [|discriminate]. destruct turns; [|discriminate]. inversion Hr; subst. split; auto. intros [|n]; discriminate.
    - destruct fs as [|f fs]; [discriminate|]. cbn [map] in Hf. injection Hf as F1 F2. destruct turns as [|[q' lg] turns]; [discriminate|]. cbn [map fst] in Ht. injection Ht as -> T2.
      inversion Hp as [|? ? (k & K1 & K2) Hp']; subst. cbn [fst snd] in K1, K2. inversion Hr as [|s0 k' i' t0 lg' tr u Hh Hk Hn Ex Hr']; subst.
      assert (k' = k) by nia. subst k'. rewrite K2 in Hn. injection Hn as <-.
      destruct (base_one reg pc value_limb pre_compute metered_pre_compute chip base step (fun _ => false) prog inv m Hstep Hsame Hfit _ k _ _ _ Ex K2 Hk) as (f' & lg0 & P & R). rewrite Hk, F1 in P. injection P as <-. injection R as -> <-.
      destruct (IH fs (f s) turns Hp' F2 Hr' T2) as [A B]. split; [rewrite last_after; exact A|]. intros [|n] x Hx; cbn [nth_error] in Hx.
      + injection Hx as <-. exists s. split; auto.
      + destruct (B n x Hx) as (st & S1 & S2). exists st. split; auto.
  Qed.
  Lemma through_runs : forall l fs s, Forall placed l -> map (prepare_one inv) l = map (fun f => ROk f) fs ->
    (forall n x, nth_error l n = Some x -> exists st, nth_error (s :: after fs s) n = Some st /\ pc st = fst x /\ halted st = false) ->
    exists turns, runs m inv plain prog s turns (last (after fs s) s) /\ map fst turns = map fst l.
  Proof.
    induction l as [|[q i] l IH]; intros fs s Hp Hf Hs.
    - destruct fs; [|discriminate]. exists []. split; [constructor|reflexivity].
    - destruct fs as [|f fs]; [discriminate|]. cbn [map] in Hf. injection Hf as F1 F2. inversion Hp as [|? ? (k & K1 & K2) Hp']; subst. cbn [fst snd] in K1, K2.
      destruct (Hs 0%nat _ eq_refl) as (st & [= <-] & S2 & S3). cbn [fst] in S2.
      destruct (one_base reg pc value_limb pre_compute metered_pre_compute chip base step (fun _ => false) prog inv m Hstep Hsame Hfit _ k _ _ s F1 K2 K1) as (lg & Ex).
      destruct (IH fs (f s) Hp' F2) as (turns & T1 & T2).
      { intros n x Hx. destruct (Hs (S n) x Hx) as (st & A & B). exists st. split; auto. }
      exists ((q, lg) :: turns). rewrite last_after. split; [|cbn [map fst]; now f_equal]. rewrite <- S2 in *. eapply runs_step; eauto.
  Qed.
  (** One block, from its start. *)
  Lemma block_states : forall l q fs s, (forall j x, nth_error l j = Some x -> is_allowed x = true /\ ((S j < length l)%nat -> is_branching x = false)) -> q + N.of_nat (length l) * step <= 2 ^ 32 ->
    map (prepare_one inv) (from_pc step q l) = map (fun f => ROk f) fs -> pc s = q -> halted s = false ->
    halted (last (after fs s) s) = false /\ forall n x, nth_error (from_pc step q l) n = Some x -> exists st, nth_error (s :: after fs s) n = Some st /\ pc st = fst x /\ halted st = false.
  Proof.
    induction l as [|i l IH]; intros q fs s Hb Hq Hf Hp Hh; cbn [from_pc] in *.
    - destruct fs; [|discriminate]. split; auto. intros [|n]; discriminate.
    - destruct fs as [|f fs]; [discriminate|]. cbn [map] in Hf. injection Hf as F1 F2. rewrite last_after. destruct (Hb 0%nat i eq_refl) as [B1 B2].
      pose proof F1 as F0. unfold SoftModel.prepare_one in F1. cbn [fst snd] in F1. cbn [length] in Hq. rewrite N.mod_small in F1 by nia. destruct (get_executor inv (opcode i)) as [e|] eqn:Ge; [|discriminate].
      assert (Hf : halted (f s) = false) by (eapply Hend; eauto).
      assert (G : l = [] \/ pc (f s) = q + step). { destruct l as [|i2 l]; [now left|]. right. refine (proj2 (Hseq e q i f s _ B1 Ge F1 Hh Hp)). apply B2. cbn [length]. lia. }
      destruct G as [->|G].
      + destruct fs; [|discriminate]. cbn [after last]. split; auto. intros [|[|n]] x Hx; try discriminate. injection Hx as <-. exists s. auto.
      + destruct (IH (q + step) fs (f s)) as [A B]; auto; [|lia|].
        { intros j x Hj. destruct (Hb (S j) x Hj) as [C1 C2]. split; auto. intros L. apply C2. cbn [length]. lia. }
        split; auto. intros [|n] x Hx; cbn [nth_error] in Hx; [injection Hx as <-; exists s; auto|]. destruct (B n x Hx) as (st & S1 & S2). exists st. auto.
  Qed.
  Definition fits (b : bblock ins) : Prop := start_pc b + N.of_nat (length (instrs b)) * step <= 2 ^ 32 /\
    forall j x, nth_error (instrs b) j = Some x -> is_allowed x = true /\ ((S j < length (instrs b))%nat -> is_branching x = false).
  Lemma after_app : forall (a b : list (St -> St)) s, after (a ++ b) s = after a s ++ after b (last (after a s) s).
  Proof. induction a as [|f a IH]; intros b s; [reflexivity|]. cbn [app after]. rewrite IH. rewrite <- (last_after f a s). reflexivity. Qed.
  Lemma after_length : forall (a : list (St -> St)) s, length (after a s) = length a.
  Proof. induction a as [|f a IH]; intros s; cbn; auto. Qed.
  Lemma from_pc_length : forall l q, length (from_pc step q l) = length l.
  Proof. induction l as [|i l IH]; intros q; cbn; auto. Qed.
  Lemma last_last (A : Type) : forall (l1 l2 : list A) d, last (l1 ++ l2) d = last l2 (last l1 d).
  Proof.
    induction l1 as [|x l1 IH]; intros l2 d; [reflexivity|]. cbn [app]. destruct l1 as [|y l1].
    - cbn [app]. destruct l2 as [|z l2]; [reflexivity|]. change (last (x :: z :: l2) d) with (last (z :: l2) d). clear. revert z. induction l2 as [|w l2 IH2]; intros z; [reflexivity|]. change (last (w :: l2) d = last (w :: l2) x). apply IH2.
    - change (last ((x :: y :: l1) ++ l2) d) with (last ((y :: l1) ++ l2) d). change (last (x :: y :: l1) d) with (last (y :: l1) d). apply IH.
  Qed.
  (** The blocks, if each of them is entered at its start. *)
  Lemma super_states : forall sb fs s, Forall fits sb -> map (prepare_one inv) (block_pcs step sb) = map (fun f => ROk f) fs -> halted s = false ->
    (forall l1 b l2, sb = l1 ++ b :: l2 -> exists st, nth_error (s :: after fs s) (length (flat_map instrs l1)) = Some st /\ pc st = start_pc b) ->
    forall n x, nth_error (block_pcs step sb) n = Some x -> exists st, nth_error (s :: after fs s) n = Some st /\ pc st = fst x /\ halted st = false.
  Proof.
    induction sb as [|b sb IH]; intros fs s Hfi Hf Hh Hs n x Hx; [destruct n; discriminate|]. cbn [block_pcs flat_map] in *. inversion Hfi as [|? ? [Fi1 Fi2] Hfi']; subst.
    assert (Sp : exists f1 f2, fs = f1 ++ f2 /\ map (prepare_one inv) (from_pc step (start_pc b) (instrs b)) = map (fun f => ROk f) f1 /\ map (prepare_one inv) (block_pcs step sb) = map (fun f => ROk f) f2).
    { rewrite map_app in Hf. symmetry in Hf. apply map_eq_app in Hf. destruct Hf as (f1 & f2 & -> & E1 & E2). exists f1, f2. auto. }
    destruct Sp as (f1 & f2 & -> & E1 & E2). assert (L1 : length f1 = length (instrs b)) by (apply (f_equal (@length _)) in E1; rewrite !map_length, from_pc_length in E1; auto).
    destruct (Hs [] b sb eq_refl) as (st & [= <-] & Hp). destruct (block_states _ _ f1 s Fi2 Fi1 E1 Hp Hh) as [A B].
    rewrite after_app. change (s :: after f1 s ++ after f2 (last (after f1 s) s)) with ((s :: after f1 s) ++ after f2 (last (after f1 s) s)).
    assert (Sh : forall k, (length f1 <= k)%nat -> nth_error ((s :: after f1 s) ++ after f2 (last (after f1 s) s)) k = nth_error (last (after f1 s) s :: after f2 (last (after f1 s) s)) (k - length f1)).
    { intros k Hk. destruct (Nat.eq_dec k (length f1)) as [->|Nk].
      - rewrite Nat.sub_diag. rewrite nth_error_app1 by (cbn [length]; rewrite after_length; lia). cbn [nth_error]. clear. revert s. induction f1 as [|f f1 IH1]; intros s; [reflexivity|]. cbn [length nth_error]. rewrite last_after. cbn [after]. apply IH1.
      - rewrite nth_error_app2 by (cbn [length]; rewrite after_length; lia). cbn [length]. rewrite after_length. replace (k - length f1)%nat with (S (k - S (length f1))) by lia. reflexivity. }
    destruct (Nat.lt_ge_cases n (length (instrs b))) as [Ln|Ln].
    - rewrite nth_error_app1 in Hx by (now rewrite from_pc_length). destruct (B n x Hx) as (st & S1 & S2). exists st. split; auto. rewrite nth_error_app1; auto. apply nth_error_Some. congruence.
    - rewrite nth_error_app2 in Hx by (now rewrite from_pc_length). rewrite from_pc_length in Hx. rewrite Sh by lia. rewrite L1.
      apply (IH f2 (last (after f1 s) s) Hfi' E2 A); [|exact Hx]. intros l1 b' l2 El. destruct (Hs (b :: l1) b' l2) as (st & S1 & S2); [now rewrite El|]. exists st. split; auto. cbn [flat_map] in S1. rewrite app_length in S1.
      rewrite after_app in S1. change (s :: after f1 s ++ after f2 (last (after f1 s) s)) with ((s :: after f1 s) ++ after f2 (last (after f1 s) s)) in S1. rewrite Sh in S1 by lia. rewrite <- S1. f_equal. lia.
  Qed.
  (** The conditions of a superblock. *)
  Lemma start_checks_in c : forall sb idx, In c (start_checks idx sb) <-> exists l1 b l2, sb = l1 ++ b :: l2 /\ c = mkOC (OLit (mkLit (idx + length (flat_map instrs l1)) LPc)) (ONum (start_pc b)).
  Proof.
    induction sb as [|b sb IH]; intros idx; cbn [start_checks].
    - split; [intros []|]. intros ([|x l1] & b & l2 & E & _); discriminate.
    - split.
      + intros [<-|H]; [exists [], b, sb; split; auto; cbn; now rewrite Nat.add_0_r|]. apply IH in H. destruct H as (l1 & b' & l2 & -> & ->). exists (b :: l1), b', l2. split; auto. cbn [flat_map]. now rewrite app_length, Nat.add_assoc.
      + intros ([|x l1] & b' & l2 & E & ->); cbn [app] in E; injection E as -> ->.
        * left. cbn. now rewrite Nat.add_0_r.
        * right. apply IH. exists l1, b', l2. split; auto. cbn [flat_map]. now rewrite app_length, Nat.add_assoc.
  Qed.
  Lemma block_pcs_length : forall sb, length (block_pcs step sb) = length (flat_map instrs sb).
  Proof. induction sb as [|b sb IH]; auto. unfold block_pcs in *. cbn [flat_map]. now rewrite !app_length, IH, from_pc_length. Qed.
  Lemma block_pcs_app a b : block_pcs step (a ++ b) = block_pcs step a ++ block_pcs step b.
  Proof. unfold block_pcs. apply flat_map_app. Qed.
End Super.

(** C70: a call of a precompile for a superblock succeeds exactly if the program without precompiles goes from the same state through the
    addresses of the superblock, one after the other; it then comes to the same state.  The blocks are any non-empty basic blocks of the
    program that may be part of a precompile, in any order. *)
Theorem C70_superblock : forall St X (reg : St -> N -> N) (pc : St -> N) (value_limb : N -> nat -> N) (halted : St -> bool)
    (pre_compute : X -> N -> ins -> res (St -> St)) (metered_pre_compute : X -> nat -> N -> ins -> res (St -> St * log)) chip base step
    is_branching is_allowed jumpdest prog inv m sb ocs h q i d s t,
  0 < step -> base + N.of_nat (length prog) * step <= 2 ^ 32 ->
  sequential pc halted pre_compute step inv is_branching is_allowed -> never_ends halted pre_compute inv is_allowed -> same_effects pre_compute metered_pre_compute ->
  (forall b, In b sb -> In b (collect_basic_blocks is_branching is_allowed jumpdest base step prog) /\ forall x, In x (instrs b) -> is_allowed x = true) ->
  built_checks sb = Some ocs -> prepares pre_compute step inv (mkPE sb ocs h) q i (ROk d) -> halted s = false ->
  (execute_e12 reg pc value_limb d s = Some t <->
   exists turns, runs reg pc value_limb halted pre_compute metered_pre_compute chip base step m inv (plain_inventory inv) prog s turns t /\
                 map fst turns = map fst (block_pcs step sb)).
Proof.
  intros St X reg pc vl halted pre mpre chip base step br al jd prog inv m sb ocs h q i d s t Hstep Hfit Hseq Hend Hsame Hsb Hbu Hpr Hh.
  unfold built_checks in Hbu. destruct (forallb _ sb); [|discriminate]. assert (ocs = from_constraints (start_checks 0 sb)) by congruence. subst ocs. clear Hbu.
  unfold prepares in Hpr. destruct (forallb (N.eqb 0) (operands i)); [|discriminate]. destruct Hpr as (r & C & E). destruct r as [fs|]; [|discriminate]. cbn [pe_block pe_checks pe_height] in *. assert (d = mkPrep h fs (from_constraints (start_checks 0 sb))) by congruence. subst d. clear E.
  inversion C as [ys Hf|]; subst ys. clear C.
  assert (Lf : length fs = length (flat_map instrs sb)) by (apply (f_equal (@length _)) in Hf; rewrite !map_length, block_pcs_length in Hf; auto).
  assert (Bk : forall b, In b sb -> exists k, start_pc b = base + N.of_nat k * step /\ instrs b <> [] /\ in_block br al prog k (instrs b)).
  { intros b Hb. apply (block_place br al jd base step prog b). exact (proj1 (Hsb b Hb)). }
  assert (Pl : Forall (placed base step prog) (block_pcs step sb)).
  { apply Forall_forall. intros x Hx. unfold block_pcs in Hx. apply in_flat_map in Hx. destruct Hx as (b & Hb & Hx). destruct (Bk b Hb) as (k & K1 & _ & K2).
    assert (G : forall l q' k', q' = base + N.of_nat k' * step -> (forall j y, nth_error l j = Some y -> nth_error prog (k' + j) = Some y) -> In x (from_pc step q' l) -> placed base step prog x).
    { induction l as [|y l IH]; intros q' k' Eq Hl Hi; cbn [from_pc] in Hi; [destruct Hi|]. destruct Hi as [<-|Hi].
      - exists k'. cbn [fst snd]. split; auto. rewrite <- (Nat.add_0_r k'). now apply Hl.
      - apply (IH (q' + step) (S k')); auto; [lia|]. intros j z Hj. replace (S k' + j)%nat with (k' + S j)%nat by lia. now apply Hl. }
    apply (G (instrs b) (start_pc b) k K1); auto. intros j y Hj. exact (proj1 (K2 j y Hj)). }
  assert (Fi : Forall (fits step br al) sb).
  { apply Forall_forall. intros b Hb. destruct (Bk b Hb) as (k & K1 & K3 & K2). split.
    - assert (L : (k + length (instrs b) <= length prog)%nat).
      { destruct (instrs b) as [|y l] eqn:El; [congruence|]. destruct (nth_error (y :: l) (length l)) as [z|] eqn:Ez; [|apply nth_error_None in Ez; cbn [length] in Ez; lia].
        destruct (K2 _ _ Ez) as [A _]. assert ((k + length l < length prog)%nat) by (apply nth_error_Some; congruence). cbn [length]. lia. }
      rewrite K1. nia.
    - intros j x Hj. destruct (K2 j x Hj) as [_ A]. split; [apply (proj2 (Hsb b Hb)); eapply nth_error_In; eauto|]. intros L. now apply A. }
  destruct (PropsSoft.C70_call St reg pc vl h fs (start_checks 0 sb) s) as [Cl _]. rewrite Cl. clear Cl.
  assert (Due : forall c, In c (start_checks 0 sb) -> due (1 + length fs) c).
  { intros c Hc. apply start_checks_in in Hc. destruct Hc as (l1 & b & l2 & E & ->). split; [lia|]. intros l [<-|[]]. cbn [instr_idx]. rewrite Lf, E, flat_map_app, app_length. lia. }
  split.
  - intros (-> & H). eapply through_runs; eauto.
    eapply super_states; eauto. intros l1 b l2 E.
    destruct (H (mkOC (OLit (mkLit (length (flat_map instrs l1)) LPc)) (ONum (start_pc b)))) as (v & V1 & V2).
    + apply start_checks_in. exists l1, b, l2. auto.
    + apply Due. apply start_checks_in. exists l1, b, l2. auto.
    + cbn in V1, V2. unfold lit_value in V1. cbn [instr_idx lval] in V1. destruct (nth_error (s :: after fs s) (length (flat_map instrs l1))) as [st|]; [|discriminate]. exists st. split; auto. congruence.
  - intros (turns & R & T). assert (AB : t = last (after fs s) s /\ forall n x, nth_error (block_pcs step sb) n = Some x -> exists st, nth_error (s :: after fs s) n = Some st /\ pc st = fst x) by (eapply runs_through; eauto). destruct AB as [A B]. split; auto.
    intros c Hc _. apply start_checks_in in Hc. destruct Hc as (l1 & b & l2 & E & ->). cbn [Nat.add]. exists (start_pc b). split; [|reflexivity]. cbn. unfold lit_value. cbn [instr_idx lval].
    destruct (Bk b) as (k & _ & Ne & _); [rewrite E; apply in_app_iff; right; now left|]. destruct (instrs b) as [|y l] eqn:El; [congruence|].
    destruct (B (length (flat_map instrs l1)) (start_pc b, y)) as (st & S1 & S2); [|cbn [fst] in S2; rewrite S1; congruence].
    rewrite E, block_pcs_app, nth_error_app2 by (now rewrite block_pcs_length). rewrite block_pcs_length, Nat.sub_diag. unfold block_pcs. cbn [flat_map]. rewrite El. reflexivity.
Qed.
Print Assumptions C70_superblock.

(** A case: the loop of [PropsSoft.soft_prog] taken twice.  The call does what the program does if the branch goes back after the first
    turn, and fails if it does not. *)
Definition twice : list (bblock ins) := [PropsSoft.soft_block; PropsSoft.soft_block].
Definition turn : list (PropsSoft.soft_state -> PropsSoft.soft_state) :=
  [PropsSoft.soft_do PropsSoft.Add (mkIns 1 [1]); PropsSoft.soft_do PropsSoft.Add (mkIns 1 [2]); PropsSoft.soft_do PropsSoft.Branch (mkIns 2 [0; 6])].
Example C70_superblock_example : exists ocs d,
  sequential PropsSoft.soft_pc PropsSoft.soft_halted PropsSoft.soft_pre 4 PropsSoft.soft_inv PropsSoft.soft_branching PropsSoft.soft_allowed /\
  never_ends PropsSoft.soft_halted PropsSoft.soft_pre PropsSoft.soft_inv PropsSoft.soft_allowed /\
  same_effects PropsSoft.soft_pre PropsSoft.soft_metered /\
  (forall b, In b twice -> In b (collect_basic_blocks PropsSoft.soft_branching PropsSoft.soft_allowed PropsSoft.soft_jumpdest 0 4 PropsSoft.soft_prog) /\
                           forall x, In x (instrs b) -> PropsSoft.soft_allowed x = true) /\
  built_checks twice = Some ocs /\
  prepares PropsSoft.soft_pre 4 PropsSoft.soft_inv (mkPE twice ocs 1) 0 (mkIns 4351 (repeat 0 7)) (ROk d) /\
  map fst (block_pcs 4 twice) = [0; 4; 8; 0; 4; 8] /\
  execute_e12 PropsSoft.soft_reg PropsSoft.soft_pc PropsSoft.soft_limb d (0, 0, false) = Some (12, 6, false) /\
  execute_e12 PropsSoft.soft_reg PropsSoft.soft_pc PropsSoft.soft_limb d (0, 4, false) = None.
Proof.
  exists (from_constraints (start_checks 0 twice)), (mkPrep 1 (turn ++ turn) (from_constraints (start_checks 0 twice))).
  split; [exact PropsSoft.soft_sequential|]. split.
  { intros e q i f [[q' v] h] Ha Hg [= <-] Hh. unfold PropsSoft.soft_allowed, PropsSoft.soft_inv in *. cbn [get_executor] in Hg.
    destruct (opcode i) as [|[|[|[|n]]]]; cbn in Hg, Ha; try discriminate; injection Hg as <-; exact Hh. }
  split; [exact PropsSoft.soft_same|]. split.
  { intros b Hb. assert (b = PropsSoft.soft_block) as -> by (destruct Hb as [<-|[<-|[]]]; reflexivity). split; [vm_compute; now left|].
    intros x [<-|[<-|[<-|[]]]]; reflexivity. }
  split; [reflexivity|]. split.
  { unfold prepares. cbn [operands repeat forallb N.eqb andb]. exists (ROk (turn ++ turn)). split; [apply collects_ok; reflexivity|reflexivity]. }
  split; [reflexivity|]. split; vm_compute; reflexivity.
Qed.
