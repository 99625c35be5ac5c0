(** The trace of the guarded machine of a block, without optimization. *)
From Coq Require Import Arith ZArith NArith Bool List Sorted Lia ZifyBool ZifyNat ZifyN.
From Verif Require Import Field ExprModel ExprFacts SystemModel SymModel SymSpec SymFacts PropsSym TraceModel TraceSpec TraceFacts TraceMain.
Import ListNotations.

Section TraceBlock.
  Context {p : positive}.
  Local Notation row := (list (F p)).
  (** The values in the row of an air: column [n] is at index [n]. *)
  Definition air_row (r : row) : var -> F p := fun v => nth (N.to_nat (vid v)) r 0%F.

  Lemma accepts_ext (m : smach p) s t : (forall v, column_of m v -> s v = t v) -> (accepts m s <-> accepts m t) /\ messages m s = messages m t.
  Proof.
    intros H. assert (X : forall e, In e (sm_children m) -> aeval s e = aeval t e) by (intros e He; apply aeval_ext; intros v Hv; apply H; apply column_children; eauto).
    unfold sm_children in X. split.
    - unfold accepts. rewrite !Forall_forall. split; intros A e He; rewrite <- (A e He); [symmetry|]; apply X; apply in_or_app; auto.
    - unfold messages. apply map_ext_in. intros b Hb. unfold message. rewrite (X (sb_mult b)) by (apply in_or_app; right; apply in_flat_map; exists b; cbn; auto). f_equal. apply map_ext_in. intros e He. apply X. apply in_or_app. right. apply in_flat_map. exists b. cbn. auto.
  Qed.
  Lemma on_bus_in bus (m : smach p) b : In b (on_bus bus m) -> In b (sm_buses m).
  Proof. intros H. apply filter_In in H. tauto. Qed.
  Lemma accepts_instruction_ext pc_bus exec_bus (i : smach p * row) s t : (forall v, column_of (fst i) v -> s v = t v) -> accepts_instruction pc_bus exec_bus i s -> accepts_instruction pc_bus exec_bus i t.
  Proof.
    intros H (A & B & C). assert (X : forall e, In e (sm_children (fst i)) -> aeval s e = aeval t e) by (intros e He; apply aeval_ext; intros v Hv; apply H; apply column_children; eauto).
    split; [now apply (accepts_ext (fst i) s t H)|]. split.
    - intros rcv snd0 E. rewrite <- (B rcv snd0 E). symmetry. apply X. apply in_or_app. right. apply in_flat_map. exists rcv. split; [apply (on_bus_in exec_bus); rewrite E; now left|now left].
    - intros lk E. rewrite <- (C lk E). symmetry. apply map_ext_in. intros e He. apply X. apply in_or_app. right. apply in_flat_map. exists lk. split; [apply (on_bus_in pc_bus); rewrite E; now left|now right].
  Qed.

  (** Where a column of the block is recorded: the instruction and the column of its air. *)
  Fixpoint locate (subs : list (list N)) (call : list row) (id : N) : F p :=
    match subs, call with
    | s :: subs, r :: call => match index_of id s with Some c => nth c r 0%F | None => locate subs call id end
    | _, _ => 0%F
    end.
  Lemma locate_ok subs : forall call j s c id r, NoDup (concat subs) -> nth_error subs j = Some s -> nth_error s c = Some id -> nth_error call j = Some r -> locate subs call id = nth c r 0%F.
  Proof.
    induction subs as [|s0 subs IH]; intros [|r0 call] [|j] s c id r Hn Hs Hc Hr; try discriminate; cbn in Hs, Hr |- *.
    - injection Hs as ->. injection Hr as ->. rewrite (nth_index id s c); auto. cbn in Hn. clear - Hn. induction s as [|x l IH]; [constructor|]; cbn in Hn; inversion Hn; subst; constructor; [rewrite in_app_iff in *; tauto|auto].
    - assert (index_of id s0 = None) as ->.
      { apply index_none. intros Hi. apply nth_error_In in Hs, Hc. cbn in Hn. clear - Hn Hi Hs Hc. induction s0 as [|x l IH]; [destruct Hi|]. cbn in Hn. inversion Hn as [|? ? Hx Hn']; subst. destruct Hi as [->|Hi]; [|auto]. apply Hx. rewrite in_app_iff. right. apply in_concat. eauto. }
      eapply IH; eauto. clear - Hn. cbn in Hn. induction s0 as [|x l IH]; cbn in Hn; [auto|]; inversion Hn; auto.
  Qed.

  Lemma derived_concat (ms : list (smach p)) : forall m, sm_derived (fold_left sm_concat ms m) = sm_derived m ++ flat_map sm_derived ms.
  Proof. induction ms as [|x ms IH]; intros m; cbn; [now rewrite app_nil_r|]. rewrite IH. cbn. now rewrite app_assoc. Qed.
  Lemma block_derived pc_bus exec_bus (instrs : list (smach p * row)) : forall next ms ss n, block_machines pc_bus exec_bus next instrs = Some (ms, ss, n) ->
    Forall (fun i => sm_derived (fst i) = []) instrs -> Forall (fun m => sm_derived m = []) ms.
  Proof.
    induction instrs as [|[m r] instrs IH]; intros next ms ss n; cbn [block_machines]; [intros [= <- <- <-]; constructor|].
    destruct (globalize m next) as [[[next' subs] m1]|] eqn:G; [|discriminate]. destruct (add_local_constraints pc_bus exec_bus r m1) as [m2|] eqn:A; [|discriminate].
    destruct (block_machines pc_bus exec_bus next' instrs) as [[[ms' ss'] n']|] eqn:B; [|discriminate]. intros [= <- <- <-] H. inversion H as [|? ? H1 H2]; subst. constructor; [|eapply IH; eauto].
    unfold globalize in G. destruct (unique_ids m); [discriminate|]. destruct (_ =? _)%N; [|discriminate]. injection G as <- <- <-. unfold add_local_constraints in A. destruct (pc_lookup _ _); [|discriminate]. destruct (exec_receive _ _); [|discriminate]. destruct (zip_eq _ _); [|discriminate]. injection A as <-. exact H1.
  Qed.

  Theorem block_trace pc_bus exec_bus (instrs : list (smach p * row)) airs widths padding m a m' next calls :
    Forall (fun i => forall v, column_of (fst i) v -> exists n, v = Orig n) instrs ->
    Forall (fun i => sm_derived (fst i) = []) instrs ->
    Forall2 (fun air i => has_width (fst i) (widths air)) airs instrs ->
    statements_to_machine pc_bus exec_bus instrs = Some (m, a) -> add_guards m (al_next a) = Some (m', next) ->
    Forall (fun call => Forall2 (fun air r => length r = widths air) airs call /\ Forall2 (fun i r => accepts_instruction pc_bus exec_bus i (air_row r)) instrs call) calls ->
    let P := mkApc airs (apc_subs m' a) m' in
    exists rows effects cols, generate_witness P widths padding (fold_left (exec_call P) calls new_arenas) = Some (rows, effects) /\ lists_columns m' cols /\
      length rows = next_power_of_two_or_zero (length calls) /\
      (forall r, In r rows -> exists row, holds cols r row /\ accepts m' row) /\
      (forall k r, length calls <= k -> nth_error rows k = Some r -> exists row, holds cols r row /\ Forall (fun g => snd (fst g) = 0%F) (messages m' row)) /\
      effects = map (fun call => concat (map (fun x => messages (fst (fst x)) (air_row (snd x))) (combine instrs call))) calls.
  Proof.
    intros Ho Hd Hw Hst Hg Hcalls P.
    destruct (C32_concatenated p pc_bus exec_bus instrs m a Hst) as (ms & Hms & CA & CM).
    destruct (C32_block p pc_bus exec_bus instrs ms a Ho Hms) as (L1 & L2 & start & S0 & Sn & HB).
    destruct (add_guards_ok m (al_next a) m' next Hg) as (_ & G1 & _ & _ & _ & Gd & Gc & _).
    pose proof (C31_complete p m (al_next a) m' next Hg) as GC.
    assert (Hder : sm_derived m' = [(Orig (al_next a), AConst 1%F)]).
    { unfold statements_to_machine in Hst. rewrite Hms in Hst. destruct ms as [|m0 ms0]; [discriminate|]. injection Hst as <-. unfold statements_to_machines in Hms. destruct (block_machines pc_bus exec_bus 0 instrs) as [[[ms1 ss1] n1]|] eqn:Bm; [|discriminate]. injection Hms as -> <-. apply block_derived in Bm; auto.
      unfold add_guards in Hg. destruct (_ && _ && _); [discriminate|]. injection Hg as <- _. cbn [sm_derived]. rewrite derived_concat. inversion Bm as [|? ? B1 B2]; subst. rewrite B1. cbn [app].
      enough (flat_map sm_derived ms0 = []) as -> by reflexivity. clear - B2. induction B2 as [|x l Hx _ IH]; cbn; auto. now rewrite Hx. }
    pose proof (proj1 (forall2_nth _ _ _) Hw) as [Lw Hw'].
    assert (Kn : forall i m0 r0, nth_error instrs i = Some (m0, r0) -> exists air, nth_error airs i = Some air /\ nth_error (al_subs a) i = Some (map (fun c => (start i + N.of_nat c)%N) (seq 0 (widths air))) /\ start (i + 1) = (start i + N.of_nat (widths air))%N /\
      (forall v, column_of m0 v <-> exists n, v = Orig n /\ (n < N.of_nat (widths air))%N)).
    { intros i m0 r0 Hi. destruct (HB i m0 r0 Hi) as (w & m1 & HW & M1 & Ss & Su & _). destruct (nth_error airs i) as [air|] eqn:Ha; [|apply nth_error_None in Ha; assert (nth_error instrs i <> None) as X by congruence; apply nth_error_Some in X; lia].
      exists air. pose proof (Hw' i air _ Ha Hi) as HW2. cbn [fst] in HW2. assert (w = widths air) as ->.
      { destruct HW as [P1 W1], HW2 as [P2 W2]. destruct (Nat.lt_trichotomy w (widths air)) as [H|[H|H]]; auto; exfalso.
        - destruct (proj1 (W1 (Orig (N.of_nat w)))) as (n & [= <-] & Hn); [apply W2; exists (N.of_nat w); split; auto; lia|lia].
        - destruct (proj1 (W2 (Orig (N.of_nat (widths air))))) as (n & [= <-] & Hn); [apply W1; exists (N.of_nat (widths air)); split; auto; lia|lia]. }
      destruct HW2 as [_ HW2]. auto. }
    assert (Mono : forall j i, i <= j -> j <= length instrs -> (start i <= start j)%N).
    { induction j as [|j IH]; intros i Hi Hj; [replace i with 0 by lia; lia|]. destruct (Nat.eq_dec i (S j)) as [->|Hne]; [lia|]. specialize (IH i ltac:(lia) ltac:(lia)).
      destruct (nth_error instrs j) as [[m0 r0]|] eqn:Ej; [|apply nth_error_None in Ej; lia]. destruct (Kn j m0 r0 Ej) as (air & _ & _ & K & _). rewrite Nat.add_1_r in K. lia. }
    assert (Sub : forall j s c id, nth_error (al_subs a) j = Some s -> nth_error s c = Some id -> id = (start j + N.of_nat c)%N /\ (start j <= id)%N /\ (id < start (j + 1)%nat)%N /\ (id < al_next a)%N).
    { intros j s c id Hs Hc. assert (Lj : j < length instrs) by (rewrite <- L2; apply nth_error_Some; congruence). destruct (nth_error instrs j) as [[m0 r0]|] eqn:Ej; [|apply nth_error_None in Ej; lia]. destruct (Kn j m0 r0 Ej) as (air & _ & K1 & K2 & _).
      assert (s = map (fun c => (start j + N.of_nat c)%N) (seq 0 (widths air))) as -> by congruence. assert (Lc : c < widths air) by (rewrite <- (seq_length (widths air) 0), <- (map_length (fun c => (start j + N.of_nat c)%N)); apply nth_error_Some; congruence).
      rewrite (map_nth_error _ _ _ (nth_seq _ _ Lc)) in Hc. injection Hc as <-. pose proof (Mono (length instrs) (j + 1) ltac:(lia) ltac:(lia)). rewrite Sn. split; [reflexivity|]. lia. }
    assert (Hn : NoDup (concat (al_subs a))).
    { assert (G : forall l k, (forall j s, nth_error l j = Some s -> nth_error (al_subs a) (k + j) = Some s) -> NoDup (concat l) /\ forall x, In x (concat l) -> (start k <= x)%N).
      { induction l as [|s l IH]; intros k Hl; cbn [concat]; [split; [constructor|intros ? []]|]. pose proof (Hl 0 s eq_refl) as H0. rewrite Nat.add_0_r in H0.
        destruct (IH (k + 1)) as [N2 B2]. { intros j s' Hj. replace (k + 1 + j) with (k + S j) by lia. now apply Hl. }
        assert (Lk : k < length instrs) by (rewrite <- L2; apply nth_error_Some; congruence).
        split; [apply nodup_app; auto|].
        - apply NoDup_nth_error. intros i j Hi E. destruct (nth_error s i) as [x|] eqn:E1; [|apply nth_error_None in E1; lia]. symmetry in E. destruct (Sub k s i x H0 E1) as (X1 & _). destruct (Sub k s j x H0 E) as (X2 & _). lia.
        - intros x Hx Hy. apply In_nth_error in Hx as [c Hc]. destruct (Sub k s c x H0 Hc) as (_ & _ & X & _). specialize (B2 x Hy). lia.
        - intros x Hx. apply in_app_iff in Hx as [Hx|Hx]; [apply In_nth_error in Hx as [c Hc]; apply (Sub k s c x H0 Hc)|]. pose proof (Mono (k + 1) k ltac:(lia) ltac:(lia)). specialize (B2 x Hx). lia. }
      apply (G (al_subs a) 0). auto. }
    assert (Hcol : forall v, column_of m v -> exists j s c id, v = Orig id /\ nth_error (al_subs a) j = Some s /\ nth_error s c = Some id).
    { intros v Hv. destruct (C32_disjoint p pc_bus exec_bus instrs ms a Ho Hms) as [_ _].
      assert (X : exists i m0, nth_error ms i = Some m0 /\ column_of m0 v).
      { unfold statements_to_machine in Hst. rewrite Hms in Hst. destruct ms as [|m0 ms0]; [discriminate|]. injection Hst as <-. clear - Hv.
        assert (G : forall (l : list (smach p)) (x : smach p), column_of (fold_left sm_concat l x) v -> exists y, In y (x :: l) /\ column_of y v).
        { induction l as [|y l IH]; intros x H; cbn in H; [exists x; cbn; auto|]. destruct (IH _ H) as (z & [<-|Hz] & Hc); [|exists z; cbn; auto].
          apply column_children in Hc as (e & He & Hoc). unfold sm_children, sm_concat in He. cbn in He. rewrite flat_map_app in He. rewrite !in_app_iff in He.
          destruct He as [[He|He]|[He|He]]; [exists x|exists y|exists x|exists y]; (split; [cbn; auto|]); apply column_children; exists e; (split; [|auto]); apply in_or_app; auto. }
        destruct (G ms0 m0 Hv) as (y & Hy & Hc). apply In_nth_error in Hy as [i Hi]. eauto. }
      destruct X as (i & m0 & Hi & Hc0). assert (Li : i < length instrs) by (rewrite <- L1; apply nth_error_Some; congruence). destruct (nth_error instrs i) as [[mi ri]|] eqn:Ei; [|apply nth_error_None in Ei; lia].
      destruct (HB i mi ri Ei) as (w & m1 & HW & M1 & Ss & Su & HC & _). assert (m1 = m0) as -> by congruence. apply HC in Hc0 as (n & -> & B1 & B2). exists i, (map (fun c => (start i + N.of_nat c)%N) (seq 0 w)), (N.to_nat (n - start i)), n. split; auto. split; auto.
      rewrite (map_nth_error _ _ _ (nth_seq w (N.to_nat (n - start i)) ltac:(lia))). f_equal. lia. }
    assert (Hlt : forall n, column_of m (Orig n) -> (n < al_next a)%N).
    { intros n Hc. destruct (Hcol _ Hc) as (j & s & c & id & [= <-] & Hs & Hc'). apply (Sub j s c n Hs Hc'). }
    specialize (GC Hlt).
    assert (Hnf : ~ In (al_next a) (concat (al_subs a))).
    { intros H. apply in_concat in H as (s & Hs & Hx). apply In_nth_error in Hs as [j Hj]. apply In_nth_error in Hx as [c Hc]. destruct (Sub j s c _ Hj Hc) as (_ & _ & _ & X). lia. }
    assert (Hflag : column_of m' (Orig (al_next a))).
    { unfold add_guards in Hg. destruct (_ && _ && _); [discriminate|]. injection Hg as <- _. left. cbn [sm_cons]. apply Exists_app. right. constructor. cbn. auto. }
    assert (Hfits : Forall (fits airs widths) calls) by (eapply Forall_impl; [|exact Hcalls]; intros c [H _]; exact H).
    assert (Hsubw : Forall2 (fun air subs => length subs <= widths air) airs (al_subs a)).
    { apply forall2_nth. split; [lia|]. intros i air s Hi Hs. assert (Li : i < length instrs) by (rewrite <- L2; apply nth_error_Some; congruence). destruct (nth_error instrs i) as [[mi ri]|] eqn:Ei; [|apply nth_error_None in Ei; lia]. destruct (Kn i mi ri Ei) as (air' & A1 & A2 & _). assert (air' = air) as -> by congruence. assert (E : s = map (fun c => (start i + N.of_nat c)%N) (seq 0 (widths air))) by congruence. rewrite E, map_length, seq_length. lia. }
    pose proof (witness_total airs m' a widths padding calls Hsubw Hfits) as Tot. specialize (Tot ltac:(exists (al_next a), (Orig (al_next a)); auto)).
    specialize (Tot ltac:(intros d Hdd; rewrite Hder in Hdd; destruct Hdd as [<-|[]]; cbn; split; [exists (Orig (al_next a)); auto|intros v []])).
    cbv zeta in Tot. fold P in Tot. destruct (generate_witness P widths padding _) as [[rows effects]|] eqn:GW; [|congruence].
    destruct (witness_ok airs m' a widths padding calls rows effects Hn ltac:(lia) Hfits GW) as (cols & HC & LR & LE & HZ & HK).
    exists rows, effects, cols. split; auto. split; auto. split; auto.
    (* the values of a call *)
    assert (Main : forall k call, nth_error calls k = Some call -> exists r row, nth_error rows k = Some r /\ holds cols r row /\ accepts m' row /\
      nth_error effects k = Some (concat (map (fun x => messages (fst (fst x)) (air_row (snd x))) (combine instrs call)))).
    { intros k call Hk. destruct (HK k call Hk) as (r & row & R1 & R2 & R3 & _ & R4 & R5 & _). exists r, row. split; auto. split; auto.
      rewrite Forall_forall in Hcalls. destruct (Hcalls call (nth_error_In _ _ Hk)) as [Hf Hacc]. pose proof (proj1 (forall2_nth _ _ _) Hf) as [Lf Hf']. pose proof (proj1 (forall2_nth _ _ _) Hacc) as [La Hacc'].
      set (full := fun v => locate (al_subs a) call (vid v)). set (full' := fun v => if veqb v (Orig (al_next a)) then 1%F else full v). destruct (GC full) as [GA GM]. fold full' in GA, GM.
      assert (Ag : forall v, column_of m' v -> row v = full' v).
      { intros v Hv. unfold full'. destruct (veqb v (Orig (al_next a))) eqn:E.
        - apply veqb_eq in E. subst v. rewrite Hder in R5. unfold derived_columns in R5. rewrite Hder in R5. cbn in R5. specialize (R5 ltac:(cbn; repeat split; auto; intros; contradiction)). injection R5 as R5. auto.
        - destruct (Gc v Hv) as [Hm| ->]; [|rewrite veqb_refl in E; discriminate]. destruct (Hcol v Hm) as (j & s & c & id & -> & Hs & Hc).
          assert (Lj : j < length call) by (rewrite <- La, <- L2; apply nth_error_Some; congruence). destruct (nth_error call j) as [src|] eqn:Hsrc; [|apply nth_error_None in Hsrc; lia].
          assert (Hnd : ~ derived_id m' id) by (intros (d & Hdd & Ed); rewrite Hder in Hdd; destruct Hdd as [<-|[]]; cbn in Ed; destruct (Sub j s c id Hs Hc) as (_ & _ & _ & X); lia).
          pose proof (R4 j s c (Orig id) src Hs Hc Hsrc ltac:(exists (Orig id); auto) Hnd) as X. unfold full. cbn [vid]. rewrite (locate_ok (al_subs a) call j s c id src Hn Hs Hc Hsrc). symmetry. now apply nth_error_nth. }
      assert (Fi : forall i mi ri src, nth_error instrs i = Some (mi, ri) -> nth_error call i = Some src -> forall v, column_of mi v -> columns_from (start i) full v = air_row src v).
      { intros i mi ri src Hi Hsrc v Hv. destruct (Kn i mi ri Hi) as (air & A1 & A2 & A3 & A4). destruct (proj1 (A4 v) Hv) as (n & -> & Hnw). unfold columns_from, full, air_row. cbn [vid].
        apply (locate_ok (al_subs a) call i _ (N.to_nat n) _ src Hn A2); auto. rewrite (map_nth_error _ _ _ (nth_seq (widths air) (N.to_nat n) ltac:(lia))). f_equal. lia. }
      destruct (accepts_ext m' row full' Ag) as [X1 X2]. split.
      - apply X1. apply GA. apply CA. apply Forall_forall. intros mi' Hmi. apply In_nth_error in Hmi as [i Hi]. assert (Li : i < length instrs) by (rewrite <- L1; apply nth_error_Some; congruence). destruct (nth_error instrs i) as [[mi ri]|] eqn:Ei; [|apply nth_error_None in Ei; lia].
        destruct (HB i mi ri Ei) as (w & m1 & _ & M1 & _ & _ & _ & HA & _). assert (m1 = mi') as -> by congruence. apply HA. destruct (nth_error call i) as [src|] eqn:Hsrc; [|apply nth_error_None in Hsrc; lia].
        eapply accepts_instruction_ext; [|exact (Hacc' i _ src Ei Hsrc)]. intros v Hv. symmetry. exact (Fi i mi ri src Ei Hsrc v Hv).
      - rewrite R3, X2, GM, CM, flat_map_concat_map. f_equal. f_equal. apply nth_error_ext_len; [rewrite !map_length, combine_length; lia|].
        intros i x y Hx Hy. assert (Li : i < length instrs) by (rewrite <- L1, <- (map_length (fun m => messages m full)); apply nth_error_Some; congruence).
        destruct (nth_error instrs i) as [[mi ri]|] eqn:Ei; [|apply nth_error_None in Ei; lia]. destruct (nth_error call i) as [src|] eqn:Hsrc; [|apply nth_error_None in Hsrc; lia].
        destruct (HB i mi ri Ei) as (w & m1 & _ & M1 & _ & _ & _ & _ & HM). rewrite (map_nth_error _ _ _ M1) in Hx. rewrite (map_nth_error _ _ _ (combine_nth _ _ _ _ _ Ei Hsrc)) in Hy. cbn [fst snd] in Hy. injection Hx as <-. injection Hy as <-.
        rewrite HM. apply (accepts_ext mi). intros v Hv. exact (Fi i mi ri src Ei Hsrc v Hv). }
    split; [|split].
    - intros r Hr. apply In_nth_error in Hr as [k Hk]. destruct (Nat.lt_ge_cases k (length calls)) as [Hlk|Hge].
      + destruct (nth_error calls k) as [call|] eqn:Ec; [|apply nth_error_None in Ec; lia]. destruct (Main k call Ec) as (r' & row & A1 & A2 & A3 & _). assert (r' = r) as -> by congruence. eauto.
      + exists (fun _ => 0%F). split; [eapply HZ; eauto|]. eapply C31_zero_row; eauto.
    - intros k r Hge Hk. exists (fun _ => 0%F). split; [eapply HZ; eauto|]. eapply C31_flag_zero; eauto. eapply C31_zero_row; eauto.
    - apply nth_error_ext_len; [rewrite map_length; lia|]. intros k x y Hx Hy. assert (Lk : k < length calls) by (rewrite <- LE; apply nth_error_Some; congruence). destruct (nth_error calls k) as [call|] eqn:Ec; [|apply nth_error_None in Ec; lia].
      destruct (Main k call Ec) as (_ & _ & _ & _ & _ & X). rewrite (map_nth_error _ _ _ Ec) in Hy. congruence.
  Qed.
End TraceBlock.
