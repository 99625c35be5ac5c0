From Coq Require Import Arith NArith Bool List Lia ZifyBool ZifyNat ZifyN.
From Verif Require Import BlocksModel BlocksSpec ExecModel ExecSpec SelModel SoftModel SoftSpec.
From Verif Require PropsSel PropsBlocks PropsExec.
Import ListNotations.
Local Open Scope N_scope.

Lemma map_ROk_inj {A} : forall (a b : list A), map (fun x => ROk x) a = map (fun x => ROk x) b -> a = b.
Proof. induction a as [|x a IH]; intros [|y b] H; cbn in H; try discriminate; auto. injection H as -> H. f_equal. auto. Qed.

Section Tables.
  Context {X : Type}.
  Lemma get_app {Y} : forall (a b : list (nat * Y)) op, get_executor (a ++ b) op = match get_executor a op with Some v => Some v | None => get_executor b op end.
  Proof. induction a as [|[o v] a IH]; intros b op; cbn; auto. destruct (Nat.eqb o op); auto. Qed.
  Lemma get_none {Y} : forall (a : list (nat * Y)) op, existsb (fun x => Nat.eqb (fst x) op) a = false -> get_executor a op = None.
  Proof. induction a as [|[o v] a IH]; intros op; cbn; auto. destruct (Nat.eqb o op); cbn; [discriminate|]. apply IH. Qed.
  Lemma extend_from_ok : forall l i (inv ext : list (nat * (X + pexec))), extend_from i l inv = Some ext ->
    (forall op v, get_executor inv op = Some v -> get_executor ext op = Some v) /\
    (forall op e, get_executor ext op = Some (inl e) -> get_executor inv op = Some (inl e)) /\
    (forall j sb ocs, nth_error l j = Some (sb, ocs) -> get_executor ext (powdr_opcode + i + j) = Some (inr (mkPE sb ocs 1))).
  Proof.
    induction l as [|[sb ocs] l IH]; intros i inv ext H; cbn [extend_from] in H.
    - injection H as <-. split; auto. split; auto. intros [|j]; discriminate.
    - destruct (existsb _ inv) eqn:E; [discriminate|]. apply get_none in E. destruct (IH _ _ _ H) as (A & B & C). split; [|split].
      + intros op v G. apply A. rewrite get_app, G. reflexivity.
      + intros op e G. apply B in G. rewrite get_app in G. destruct (get_executor inv op); auto. cbn [get_executor] in G. destruct (Nat.eqb _ op); discriminate.
      + intros [|j] sb' ocs'; cbn [nth_error].
        * intros [= -> ->]. rewrite Nat.add_0_r. apply A. rewrite get_app, E. cbn [get_executor]. now rewrite Nat.eqb_refl.
        * intros G. apply C in G. rewrite <- G. f_equal. lia.
  Qed.
  Lemma get_plain : forall (inv : list (nat * X)) op, get_executor (plain_inventory inv) op = match get_executor inv op with Some e => Some (inl e) | None => None end.
  Proof. induction inv as [|[o v] a IH]; intros op; cbn; auto. destruct (Nat.eqb o op); auto. Qed.
End Tables.

Section Facts.
  Context {St X : Type} (reg : St -> N -> N) (pc : St -> N) (value_limb : N -> nat -> N) (halted : St -> bool).
  Context (pre_compute : X -> N -> ins -> res (St -> St)) (metered_pre_compute : X -> nat -> N -> ins -> res (St -> St * log)).
  Context (chip : nat -> nat) (base step : N).
  Local Notation prepare_one := (prepare_one pre_compute).
  Local Notation prepares := (prepares pre_compute step).
  Local Notation execute_e12 := (execute_e12 reg pc value_limb).
  Local Notation executes := (executes reg pc value_limb pre_compute metered_pre_compute chip step).
  Local Notation runs := (runs reg pc value_limb halted pre_compute metered_pre_compute chip base step).

  (** ** One call *)
  Lemma execute_from_run ocs : forall fs ev s, execute_from reg pc value_limb ocs fs ev s =
    match ev_run reg pc value_limb ocs (after fs s) ev with StepOk _ => Some (last (after fs s) s) | _ => None end.
  Proof.
    induction fs as [|f fs IH]; intros ev s; cbn [execute_from after ev_run last]; auto.
    destruct (try_next reg pc value_limb (f s) ocs ev) as [ev'| |]; auto. rewrite IH. destruct (ev_run _ _ _ _ _ _); auto.
    f_equal. destruct (after fs (f s)) eqn:E; auto. clear. revert s0. induction l as [|a l IHl]; intros b; auto. cbn [last] in *. destruct l; auto.
  Qed.
  Lemma execute_e12_run d s : execute_e12 d s =
    match ev_run reg pc value_limb (optimistic d) (s :: after (original_instructions d) s) ev_new with
    | StepOk _ => Some (last (after (original_instructions d) s) s) | _ => None end.
  Proof. unfold SoftModel.execute_e12. cbn [ev_run]. destruct (try_next _ _ _ _ _ _); auto. apply execute_from_run. Qed.
  Lemma built_holds b ocs fs h s : built_checks [b] = Some ocs -> pc s = start_pc b ->
    execute_e12 (mkPrep h fs ocs) s = Some (last (after fs s) s).
  Proof.
    intros E Hp. rewrite execute_e12_run. cbn [original_instructions optimistic]. unfold built_checks in E. destruct (forallb _ _); [|discriminate]. assert (ocs = from_constraints (start_checks 0 [b])) by congruence. subst ocs. clear E.
    destruct (PropsExec.C36_run _ reg pc value_limb (start_checks 0 [b]) (s :: after fs s)) as [_ [_ A]]. destruct A as [ev A]; [|now rewrite A].
    cbn [start_checks]. intros c [<-|[]] _. exists (start_pc b). cbn. now rewrite Hp.
  Qed.

  (** ** Blocks *)
  Lemma from_pc_fst : forall l q, map fst (from_pc step q l) = map (fun j => q + N.of_nat j * step) (seq 0 (length l)).
  Proof.
    induction l as [|i l IH]; intros q; cbn [from_pc map length seq fst]; auto. f_equal; [lia|]. rewrite IH, <- seq_shift, map_map. apply map_ext. intros j. lia.
  Qed.

  Section Program.
    Variables (is_branching is_allowed : ins -> bool) (jumpdest : N -> bool) (prog : list ins) (inv : list (nat * X)).
    Variable m : mode.
    Hypothesis Hstep : 0 < step.
    Hypothesis Hseq : sequential pc halted pre_compute step inv is_branching is_allowed.
    Hypothesis Hsame : same_effects pre_compute metered_pre_compute.
    Hypothesis Hfit : base + N.of_nat (length prog) * step <= 2 ^ 32.
    Local Notation plain := (plain_inventory (X := X) inv).

    (** An instruction that can be prepared, executed by the program without precompiles. *)
    Lemma one_base q k i f s : prepare_one inv (q, i) = ROk f -> nth_error prog k = Some i -> q = base + N.of_nat k * step ->
      exists l, executes m inv plain q i s (Some (f s, l)).
    Proof.
      intros H Hn ->. assert (L : (k < length prog)%nat) by (apply nth_error_Some; congruence). unfold SoftModel.prepare_one in H. cbn [fst snd] in H.
      rewrite N.mod_small in H by nia. destruct (get_executor inv (opcode i)) as [e|] eqn:E; [|discriminate].
      assert (G : get_executor plain (opcode i) = Some (inl e)) by (rewrite get_plain, E; auto).
      destruct m eqn:Em.
      - exists []. eapply executes_plain; eauto.
      - destruct (Hsame e (chip (opcode i)) (base + N.of_nat k * step) i) as [_ B]. destruct (B f H) as (g & Hg & Hs). exists (snd (g s)).
        replace (Some (f s, snd (g s))) with (Some (g s)); [eapply executes_metered; eauto|]. rewrite <- Hs. now destruct (g s).
    Qed.
    (** And conversely. *)
    Lemma base_one q k i s r : executes m inv plain q i s r -> nth_error prog k = Some i -> q = base + N.of_nat k * step ->
      exists f l, prepare_one inv (q, i) = ROk f /\ r = Some (f s, l).
    Proof.
      intros H Hn ->. assert (L : (k < length prog)%nat) by (apply nth_error_Some; congruence). unfold SoftModel.prepare_one. cbn [fst snd].
      rewrite N.mod_small by nia. inversion H as [e f Hm G P|e g Hm G P|a d Hm G P|a d Hm G P]; subst; rewrite get_plain in G; destruct (get_executor inv (opcode i)) as [e'|]; try discriminate.
      - injection G as ->. eauto.
      - injection G as ->. destruct (Hsame e (chip (opcode i)) (base + N.of_nat k * step) i) as [A _]. destruct (A g P) as (f & Hf & Hs). exists f, (snd (g s)). split; auto. rewrite <- Hs. now destruct (g s).
    Qed.

    Definition in_block (k : nat) (l : list ins) : Prop :=
      forall j x, nth_error l j = Some x -> nth_error prog (k + j) = Some x /\ ((S j < length l)%nat -> is_branching x = false /\ is_allowed x = true).
    Lemma in_block_tl k i l : in_block k (i :: l) -> in_block (S k) l.
    Proof. intros H j x Hj. destruct (H (S j) x Hj) as [A B]. split; [rewrite <- A; f_equal; lia|]. intros L. apply B. cbn [length]. lia. Qed.

    Lemma last_after (f : St -> St) fs s : last (after (f :: fs) s) s = last (after fs (f s)) (f s).
    Proof. cbn [after last]. destruct (after fs (f s)) eqn:E; auto. clear. revert s0. induction l as [|a l IHl]; intros b; auto. cbn [last] in *. destruct l; auto. Qed.

    (** A block, executed by the program without precompiles. *)
    Lemma block_base tr u : forall l k q fs s, l <> [] -> in_block k l -> map (prepare_one inv) (from_pc step q l) = map (fun f => ROk f) fs ->
      q = base + N.of_nat k * step -> halted s = false -> pc s = q ->
      runs m inv plain prog (last (after fs s) s) tr u ->
      exists turns, map fst turns = map fst (from_pc step q l) /\ runs m inv plain prog s (turns ++ tr) u.
    Proof.
      induction l as [|i l IH]; intros k q fs s Hl Hb Hp Hq Hh Hs Hr; [congruence|]. destruct fs as [|f fs]; [discriminate|]. cbn [from_pc map] in Hp. injection Hp as P1 P2.
      destruct (Hb 0%nat i eq_refl) as [N1 N2]. rewrite Nat.add_0_r in N1. destruct (one_base _ _ _ _ s P1 N1 Hq) as (lg & Ex). rewrite last_after in Hr.
      destruct l as [|i2 l].
      - destruct fs; [|discriminate]. cbn [after last] in Hr. exists [(q, lg)]. split; auto. cbn [app]. subst q. rewrite <- Hs in *. eapply runs_step; eauto.
      - destruct N2 as [N2 N3]; [cbn [length]; lia|]. pose proof P1 as P0. unfold SoftModel.prepare_one in P1. cbn [fst snd] in P1. destruct (get_executor inv (opcode i)) as [e|] eqn:Ge; [|discriminate].
        assert (L : (k < length prog)%nat) by (apply nth_error_Some; congruence). rewrite N.mod_small in P1 by nia.
        destruct (Hseq e q i f s N2 N3 Ge P1 Hh Hs) as [H1 H2].
        destruct (IH (S k) (q + step) fs (f s)) as (turns & T1 & T2); auto; [discriminate|eapply in_block_tl; eauto|lia|].
        exists ((q, lg) :: turns). cbn [from_pc map fst]. split; [f_equal; exact T1|]. cbn [app]. subst q. rewrite <- Hs in *. eapply runs_step; eauto.
    Qed.
    (** A finished run without precompiles that comes to a block goes through it. *)
    Lemma base_block u : halted u = true -> forall l k q s tr, l <> [] -> in_block k l -> q = base + N.of_nat k * step -> halted s = false -> pc s = q ->
      runs m inv plain prog s tr u ->
      exists fs turns tr', map (prepare_one inv) (from_pc step q l) = map (fun f => ROk f) fs /\ tr = turns ++ tr' /\
        map fst turns = map fst (from_pc step q l) /\ (length tr' < length tr)%nat /\ runs m inv plain prog (last (after fs s) s) tr' u.
    Proof.
      intros Hu. induction l as [|i l IH]; intros k q s tr Hl Hb Hq Hh Hs Hr; [congruence|]. inversion Hr as [|s0 k' i' t lg tr0 u0 _ Hk Hn Ex Hr']; subst s0; [congruence|]. subst u0 tr.
      assert (k' = k) by nia. subst k'. destruct (Hb 0%nat i eq_refl) as [N1 N2]. rewrite Nat.add_0_r in N1. rewrite Hn in N1. injection N1 as ->.
      destruct (base_one _ k _ _ _ Ex Hn Hk) as (f & lg' & P1 & R). injection R as -> <-. rewrite Hs in P1.
      destruct l as [|i2 l].
      - exists [f], [(pc s, lg)], tr0. cbn [from_pc map app after last length fst]. rewrite Hs, P1. repeat split; auto.
      - destruct N2 as [N2 N3]; [cbn [length]; lia|]. pose proof P1 as P0. unfold SoftModel.prepare_one in P1. cbn [fst snd] in P1. destruct (get_executor inv (opcode i)) as [e|] eqn:Ge; [|discriminate].
        assert (L : (k < length prog)%nat) by (apply nth_error_Some; congruence). rewrite N.mod_small in P1 by nia.
        destruct (Hseq e q i f s N2 N3 Ge P1 Hh Hs) as [H1 H2].
        destruct (IH (S k) (q + step) (f s) tr0) as (fs & turns & tr' & A & -> & C & D & E); auto; [discriminate|eapply in_block_tl; eauto|lia|].
        exists (f :: fs), ((pc s, lg) :: turns), tr'. rewrite last_after. change (from_pc step q (i :: i2 :: l)) with ((q, i) :: from_pc step (q + step) (i2 :: l)). cbn [map app fst length]. rewrite P0, A, C, Hs. split; [reflexivity|]. split; [reflexivity|]. split; [reflexivity|]. split; [|exact E].
        rewrite app_length in *. lia.
    Qed.

    (** ** The program with precompiles *)
    Variables (apcs : list (list (bblock ins) * oconstrs)) (marks : list (option nat)) (ext : list (nat * (X + pexec))).
    Hypothesis Hnd : NoDup (map fst apcs).
    Hypothesis Hin : forall sb, In sb (map fst apcs) -> exists b, sb = [b] /\ In b (collect_basic_blocks is_branching is_allowed jumpdest base step prog).
    Hypothesis Hbuilt : forall sb ocs, In (sb, ocs) apcs -> built_checks sb = Some ocs.
    Hypothesis Hsetup : setup base step (map Some prog) (map fst apcs) = Some marks.
    Hypothesis Hext : extend_execution inv apcs = Some ext.
    (** The program without precompiles has an executor for every instruction. *)
    Hypothesis Hknown : forall i, In i prog -> get_executor inv (opcode i) <> None.
    Local Notation code := (marked prog marks).

    Lemma block_at b : In b (collect_basic_blocks is_branching is_allowed jumpdest base step prog) ->
      exists k, start_pc b = base + N.of_nat k * step /\ instrs b <> [] /\ in_block k (instrs b) /\ firstn (length (instrs b)) (skipn k prog) = instrs b.
    Proof.
      intros Hb. destruct (in_split _ _ Hb) as (l & r & E). destruct (PropsBlocks.C33_partition _ is_branching is_allowed jumpdest base step prog) as [A B]. specialize (B _ _ _ E). cbv zeta in B. destruct B as (B1 & B2 & B3).
      exists (length (flat_map instrs l)). split; auto. split; auto. split.
      - intros j x Hj. destruct (B3 j x Hj) as (C1 & _ & C2 & C3). split; auto. intros L. split.
        + destruct (is_branching x); auto. specialize (C2 eq_refl). lia.
        + destruct (is_allowed x); auto. specialize (C3 eq_refl). rewrite C3 in L. cbn in L. lia.
      - rewrite <- A at 1. rewrite E, flat_map_app. cbn [flat_map]. rewrite skipn_app, skipn_all, Nat.sub_diag. cbn [skipn app]. rewrite firstn_app, firstn_all, Nat.sub_diag. cbn [firstn]. apply app_nil_r.
    Qed.
    Lemma marks_length : length marks = length prog.
    Proof. destruct (PropsSel.C53_setup _ is_branching is_allowed jumpdest base step prog (map fst apcs) Hstep Hnd Hin) as (mk & E & L & _). rewrite E in Hsetup. injection Hsetup as <-. exact L. Qed.
    Lemma marks_some k op : nth_error marks k = Some (Some op) ->
      exists i b ocs, nth_error apcs i = Some ([b], ocs) /\ op = (powdr_opcode + i)%nat /\ start_pc b = base + N.of_nat k * step /\ instrs b <> [] /\ in_block k (instrs b).
    Proof.
      destruct (PropsSel.C53_setup _ is_branching is_allowed jumpdest base step prog (map fst apcs) Hstep Hnd Hin) as (mk & E & _ & M). rewrite E in Hsetup. injection Hsetup as <-.
      intros H. apply M in H. destruct H as (i & b & Ei & -> & Es & _). rewrite nth_error_map in Ei. destruct (nth_error apcs i) as [[sb ocs]|] eqn:Ea; [|discriminate]. cbn in Ei. injection Ei as ->.
      exists i, b, ocs. split; auto. split; auto. split; auto. destruct (Hin [b]) as (b' & Eb & Hb); [apply in_map_iff; exists ([b], ocs); split; auto; eapply nth_error_In; eauto|]. injection Eb as <-.
      destruct (block_at b Hb) as (k' & K1 & K2 & K3 & _). assert (k' = k) by nia. subst k'. auto.
    Qed.
    Lemma marks_none k i b : nth_error (map fst apcs) i = Some [b] -> start_pc b = base + N.of_nat k * step -> nth_error marks k = Some (Some (powdr_opcode + i)%nat).
    Proof.
      destruct (PropsSel.C53_setup _ is_branching is_allowed jumpdest base step prog (map fst apcs) Hstep Hnd Hin) as (mk & E & _ & M). rewrite E in Hsetup. injection Hsetup as <-.
      intros Ei Es. apply M. exists i, b. split; auto. split; auto. split; auto. destruct (Hin [b]) as (b' & Eb & Hb); [eapply nth_error_In; eauto|]. injection Eb as <-.
      destruct (block_at b Hb) as (k' & K1 & _ & _ & K3). assert (k' = k) by nia. now subst k'.
    Qed.
    Lemma code_nth : forall k, nth_error code k = match nth_error prog k, nth_error marks k with
      | Some i, Some (Some op) => Some (mkIns op (repeat 0 7)) | Some i, Some None => Some i | _, _ => None end.
    Proof.
      unfold marked. generalize marks. clear. induction prog as [|i p IH]; intros [|o mk] [|k]; cbn [combine map nth_error fst snd]; auto.
      - now destruct (nth_error p k).
      - destruct o; auto.
    Qed.
    (** What is at a place of the code. *)
    Lemma code_cases k i : nth_error code k = Some i ->
      (nth_error prog k = Some i /\ nth_error marks k = Some None) \/
      (exists j b ocs, i = mkIns (powdr_opcode + j) (repeat 0 7) /\ nth_error apcs j = Some ([b], ocs) /\ start_pc b = base + N.of_nat k * step /\ instrs b <> [] /\ in_block k (instrs b)).
    Proof.
      rewrite code_nth. destruct (nth_error prog k) as [x|] eqn:Ex; [|discriminate]. destruct (nth_error marks k) as [[op|]|] eqn:Em; [| |discriminate].
      - intros [= <-]. right. destruct (marks_some k op Em) as (j & b & ocs & A & -> & B & C & D). eauto 10.
      - intros [= <-]. left. auto.
    Qed.
    Lemma ext_facts :
      (forall op e, get_executor ext op = Some (inl e) <-> get_executor inv op = Some e) /\
      (forall j sb ocs, nth_error apcs j = Some (sb, ocs) -> get_executor ext (powdr_opcode + j) = Some (inr (mkPE sb ocs 1))) /\
      (forall op, get_executor inv op <> None -> forall a, get_executor ext op <> Some (inr a)).
    Proof.
      unfold extend_execution in Hext. destruct (extend_from_ok _ _ _ _ Hext) as (A & B & C). split; [|split].
      - intros op e. split; intros H.
        + apply B in H. rewrite get_plain in H. destruct (get_executor inv op); [|discriminate]. congruence.
        + apply A. rewrite get_plain, H. reflexivity.
      - intros j sb ocs H. apply C in H. rewrite <- H. reflexivity.
      - intros op H a E. destruct (get_executor inv op) as [e|] eqn:Ei; [|congruence]. rewrite (A op (inl e)) in E; [discriminate|]. now rewrite get_plain, Ei.
    Qed.
    Lemma executes_base q i s r : In i prog -> executes m inv ext q i s r <-> executes m inv plain q i s r.
    Proof.
      intros Hi. destruct ext_facts as (A & _ & B). specialize (B _ (Hknown i Hi)).
      assert (P : forall e, get_executor plain (opcode i) = Some (inl e) <-> get_executor inv (opcode i) = Some e).
      { intros e. rewrite get_plain. destruct (get_executor inv (opcode i)); split; congruence. }
      assert (Q : forall a, get_executor plain (opcode i) <> Some (inr a)). { intros a. rewrite get_plain. destruct (get_executor inv (opcode i)); discriminate. }
      split; intros H; inversion H as [e f Hm G P1|e g Hm G P1|a d Hm G P1|a d Hm G P1]; subst r.
      - eapply executes_plain; eauto. apply P. now apply A.
      - eapply executes_metered; eauto. apply P. now apply A.
      - now destruct (B a).
      - now destruct (B a).
      - eapply executes_plain; eauto. apply A. now apply P.
      - eapply executes_metered; eauto. apply A. now apply P.
      - now destruct (Q a).
      - now destruct (Q a).
    Qed.
    Definition call_log (j : nat) : log := match m with Plain => [] | Metered => [(chip (powdr_opcode + j)%nat, 1)] end.
    (** A call: what it does, if its instructions can be prepared. *)
    Lemma executes_call q j b ocs s r : nth_error apcs j = Some ([b], ocs) -> pc s = start_pc b ->
      executes m inv ext q (mkIns (powdr_opcode + j) (repeat 0 7)) s r <->
      exists fs, map (prepare_one inv) (from_pc step (start_pc b) (instrs b)) = map (fun f => ROk f) fs /\ r = Some (last (after fs s) s, call_log j).
    Proof.
      intros Hj Hs. destruct ext_facts as (_ & A & _). specialize (A _ _ _ Hj). assert (Hb : built_checks [b] = Some ocs) by (apply Hbuilt; eapply nth_error_In; eauto).
      assert (Bl : block_pcs step [b] = from_pc step (start_pc b) (instrs b)) by (unfold block_pcs; cbn [flat_map]; apply app_nil_r).
      assert (Pr : forall d, prepares inv (mkPE [b] ocs 1) q (mkIns (powdr_opcode + j) (repeat 0 7)) (ROk d) <->
                     exists fs, map (prepare_one inv) (from_pc step (start_pc b) (instrs b)) = map (fun f => ROk f) fs /\ d = mkPrep 1 fs ocs).
      { intros d. unfold SoftModel.prepares. cbn [operands repeat forallb N.eqb andb pe_block pe_height pe_checks]. rewrite Bl. split.
        - intros (rs & C & E). destruct rs as [fs|]; [|discriminate]. injection E as ->. inversion C. eauto.
        - intros (fs & E & ->). exists (ROk fs). split; auto. now constructor. }
      split.
      - intros H. inversion H as [e f Hm G P1|e g Hm G P1|a d Hm G P1|a d Hm G P1]; subst r; cbn [opcode] in G; rewrite A in G; try discriminate; injection G as <-; apply Pr in P1; destruct P1 as (fs & E & ->); exists fs; (split; [exact E|]).
        + rewrite (built_holds b ocs fs 1 s Hb Hs). unfold call_log. now rewrite Hm.
        + unfold execute_e2. rewrite (built_holds b ocs fs 1 s Hb Hs). unfold call_log. rewrite Hm. reflexivity.
      - intros (fs & E & ->). unfold call_log. destruct m eqn:Em.
        + pose proof (executes_e1 reg pc value_limb pre_compute metered_pre_compute chip step Plain inv ext q (mkIns (powdr_opcode + j) (repeat 0 7)) s _ (mkPrep 1 fs ocs) eq_refl A) as K.
          rewrite (built_holds b ocs fs 1 s Hb Hs) in K. apply K. apply Pr. eauto.
        + pose proof (executes_e2 reg pc value_limb pre_compute metered_pre_compute chip step Metered inv ext q (mkIns (powdr_opcode + j) (repeat 0 7)) s _ (mkPrep 1 fs ocs) eq_refl A) as K.
          unfold execute_e2 in K. rewrite (built_holds b ocs fs 1 s Hb Hs) in K. apply K. apply Pr. eauto.
    Qed.

    Lemma sound s tr u : runs m inv ext code s tr u -> exists tr0, runs m inv plain prog s tr0 u /\ grouped chip step m (map fst apcs) tr tr0.
    Proof.
      induction 1 as [s|s k i t l tr u Hh Hk Hn Ex Hr IH]; [exists []; split; constructor|]. destruct IH as (tr0 & R & G).
      destruct (code_cases _ _ Hn) as [[Hp Hm]|(j & b & ocs & -> & Hj & Hst & Hne & Hb)].
      - exists ((pc s, l) :: tr0). split.
        + eapply runs_step; eauto. apply executes_base; auto. eapply nth_error_In; eauto.
        + apply grouped_same; auto. intros j b Hj E. rewrite Hk in E. rewrite (marks_none _ _ _ Hj E) in Hm. discriminate.
      - assert (Hs : pc s = start_pc b) by congruence. apply (executes_call _ _ _ _ _ _ Hj Hs) in Ex. destruct Ex as (fs & Hf & E). injection E as -> ->.
        destruct (block_base tr0 u _ _ _ _ s Hne Hb Hf Hst Hh Hs R) as (turns & T1 & T2). exists (turns ++ tr0). split; auto.
        rewrite Hs. apply grouped_call; auto.
        + rewrite nth_error_map, Hj. reflexivity.
        + rewrite T1. apply from_pc_fst.
    Qed.
    Lemma complete u : halted u = true -> forall n s tr0, (length tr0 <= n)%nat -> runs m inv plain prog s tr0 u -> exists tr, runs m inv ext code s tr u /\ grouped chip step m (map fst apcs) tr tr0.
    Proof.
      intros Hu. induction n as [|n IH]; intros s tr0 Hl Hr.
      - destruct tr0; [|cbn in Hl; lia]. inversion Hr; subst. exists []. split; constructor.
      - pose proof Hr as Hr0. inversion Hr as [|s0 k i t lg tr1 u0 Hh Hk Hn Ex Hr']; subst s0; [subst; exists []; split; constructor|]. subst u0 tr0.
        assert (Lm : (k < length marks)%nat) by (rewrite marks_length; apply nth_error_Some; congruence).
        destruct (nth_error marks k) as [[op|]|] eqn:Em; [| |apply nth_error_None in Em; lia].
        + destruct (marks_some _ _ Em) as (j & b & ocs & Hj & -> & Hst & Hne & Hb). assert (Hs : pc s = start_pc b) by congruence.
          destruct (base_block u Hu _ _ _ s _ Hne Hb Hst Hh Hs Hr0) as (fs & turns & tr' & A & B & C & D & E). rewrite B. cbn [length] in Hl, D.
          destruct (IH (last (after fs s) s) tr') as (tr & R & G); [lia|exact E|]. exists ((pc s, call_log j) :: tr). split.
          * eapply runs_step with (k := k); eauto; [rewrite code_nth, Hn, Em; reflexivity|]. apply (executes_call _ _ _ _ _ _ Hj Hs). eauto.
          * rewrite Hs. apply grouped_call; auto; [rewrite nth_error_map, Hj; reflexivity|]. rewrite C. apply from_pc_fst.
        + cbn [length] in Hl. destruct (IH t tr1) as (tr & R & G); auto; [lia|]. exists ((pc s, lg) :: tr). split.
          * eapply runs_step with (k := k); eauto; [rewrite code_nth, Hn, Em; reflexivity|]. apply executes_base; auto. eapply nth_error_In; eauto.
          * apply grouped_same; auto. intros j b Hj E. rewrite Hk in E. rewrite (marks_none _ _ _ Hj E) in Em. discriminate.
    Qed.
    Lemma no_panic s k i r : pc s = base + N.of_nat k * step -> nth_error code k = Some i -> executes m inv ext (pc s) i s r -> r <> None.
    Proof.
      intros Hk Hn Ex. destruct (code_cases _ _ Hn) as [[Hp Hm]|(j & b & ocs & -> & Hj & Hst & Hne & Hb)].
      - apply executes_base in Ex; [|eapply nth_error_In; eauto]. destruct (base_one _ _ _ _ _ Ex Hp Hk) as (f & l & _ & ->). discriminate.
      - apply (executes_call _ _ _ _ _ _ Hj) in Ex; [|congruence]. destruct Ex as (fs & _ & ->). discriminate.
    Qed.
    Lemma progress s k : (forall j i, nth_error prog j = Some i -> exists f, prepare_one inv (base + N.of_nat j * step, i) = ROk f) ->
      pc s = base + N.of_nat k * step -> (k < length prog)%nat -> exists i t l, nth_error code k = Some i /\ executes m inv ext (pc s) i s (Some (t, l)).
    Proof.
      intros All Hk L. assert (Lm := L). rewrite <- marks_length in Lm. destruct (nth_error prog k) as [i|] eqn:Ep; [|apply nth_error_None in Ep; lia].
      destruct (nth_error marks k) as [[op|]|] eqn:Em; [| |apply nth_error_None in Em; lia].
      - destruct (marks_some _ _ Em) as (j & b & ocs & Hj & -> & Hst & Hne & Hb). assert (Hs : pc s = start_pc b) by congruence.
        assert (F : forall l k', in_block k' l -> exists fs, map (prepare_one inv) (from_pc step (base + N.of_nat k' * step) l) = map (fun f => ROk f) fs).
        { induction l as [|x l IH]; intros k' H; [exists []; auto|]. destruct (H 0%nat x eq_refl) as [A _]. rewrite Nat.add_0_r in A. destruct (All _ _ A) as (f & Ef). destruct (IH (S k')) as (fs & E); [eapply in_block_tl; eauto|].
          exists (f :: fs). cbn [from_pc map]. rewrite Ef. f_equal. rewrite <- E. do 2 f_equal. lia. }
        destruct (F _ _ Hb) as (fs & E). rewrite <- Hst in E. exists (mkIns (powdr_opcode + j) (repeat 0 7)), (last (after fs s) s), (call_log j).
        split; [rewrite code_nth, Ep, Em; auto|]. apply (executes_call _ _ _ _ _ _ Hj Hs). eauto.
      - destruct (All _ _ Ep) as (f & Ef). destruct (one_base _ _ _ _ s Ef Ep eq_refl) as (l & Ex). exists i, (f s), l. split; [rewrite code_nth, Ep, Em; auto|]. rewrite Hk. apply executes_base; auto. eapply nth_error_In; eauto.
    Qed.
  End Program.
End Facts.
