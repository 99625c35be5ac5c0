(** From systems to machines. *)
From Coq Require Import Arith NArith ZArith Znumtheory Bool List Lia ZifyBool ZifyN ZifyNat Permutation.
From Verif Require Import Field ExprModel ExprFacts ExprMore ExprWf SystemModel Spec OvmModel OvmSpec OvmFacts PassSpec MemModel MemSpec MemFacts LowOvm SymModel SymSpec SymFacts PropsMem PropsSym PipeModel PipeSpec PipeMachineSpec PipeFacts.
Import ListNotations.
Local Open Scope nat_scope.

Section Machine.
  Context {p : positive} (Hp : prime (Z.pos p)).
  Hypothesis Hbig : (2 ^ 26 < N.pos p)%N.
  Context (m : busmap) (Hm : map_ok p m) (program : list (F p) -> Prop).
  Local Notation stateful := (ovm_stateful (p:=p) m).
  Local Notation table := (ovm_table m program).

  Lemma to_values (sm : smach p) c row : to_system sm = Some c -> bus_values row c = machine_values sm row.
  Proof. intros H. destruct (C30_to_system p sm) as [_ T]. now destruct (T c H row) as (_ & E & _). Qed.
  Lemma from_values (sm : smach p) c row : from_system c = Some sm -> bus_values row c = machine_values sm row.
  Proof. intros H. now destruct (C30_from_system p c sm H row) as (_ & E & _). Qed.
  Lemma to_admissible (sm : smach p) c row : to_system sm = Some c -> admissible stateful table row c <-> machine_admissible m program row sm.
  Proof. intros H. destruct (C30_to_system p sm) as [_ T]. destruct (T c H row) as (S1 & E & _). unfold admissible, machine_admissible, machine_values. rewrite E, S1. reflexivity. Qed.
  Lemma from_admissible (sm : smach p) c row : from_system c = Some sm -> admissible stateful table row c <-> machine_admissible m program row sm.
  Proof. intros H. destruct (C30_from_system p c sm H row) as (S1 & E & _). unfold admissible, machine_admissible, machine_values. rewrite E, S1. reflexivity. Qed.
  Lemma to_sends (sm : smach p) c row : to_system sm = Some c -> sends stateful row c = machine_sends m sm row.
  Proof. intros H. unfold sends, machine_sends. now rewrite (to_values sm c row H). Qed.
  Lemma from_sends (sm : smach p) c row : from_system c = Some sm -> sends stateful row c = machine_sends m sm row.
  Proof. intros H. unfold sends, machine_sends. now rewrite (from_values sm c row H). Qed.
  Lemma to_execution (sm : smach p) c row : to_system sm = Some c -> execution m program row c <-> machine_execution m program row sm.
  Proof. intros H. unfold execution, machine_execution. now rewrite (to_admissible sm c row H), (to_sends sm c row H). Qed.
  Lemma from_execution (sm : smach p) c row : from_system c = Some sm -> execution m program row c <-> machine_execution m program row sm.
  Proof. intros H. unfold execution, machine_execution. now rewrite (from_admissible sm c row H), (from_sends sm c row H). Qed.
  Lemma computed_list (f g : list (var * F p)) row : f = g -> (Forall (fun d => row (fst d) = snd d) f <-> Forall (fun d => row (fst d) = snd d) g).
  Proof. now intros ->. Qed.
  Lemma to_computed (sm : smach p) c row : to_system sm = Some c -> computed row c <-> machine_computed row sm.
  Proof.
    intros H. destruct (C30_to_system p sm) as [_ T]. destruct (T c H row) as (_ & _ & E). apply (computed_list _ _ row) in E. unfold derived_values, derived_columns in E. rewrite !Forall_map in E. exact E.
  Qed.
  Lemma from_computed (sm : smach p) c row : from_system c = Some sm -> computed row c <-> machine_computed row sm.
  Proof.
    intros H. destruct (C30_from_system p c sm H row) as (_ & _ & E). symmetry in E. apply (computed_list _ _ row) in E. unfold derived_values, derived_columns in E. rewrite !Forall_map in E. exact E.
  Qed.
  Lemma to_over (sm : smach p) c n : to_system sm = Some c -> machine_over n sm -> system_over n c.
  Proof.
    intros H [Oc Od]. unfold to_system in H. destruct (all_opt _) as [bs|] eqn:E; [|discriminate]. injection H as <-. apply all_opt_some in E. split; [|split]; cbn [algs buses derived].
    - rewrite Forall_map. apply Forall_forall. intros e He. split; [now apply to_grouped_wf|]. intros v Hv. apply Oc. left. apply Exists_exists. exists e. split; auto. now apply to_grouped_vars.
    - assert (K : forall b b', In b (sm_buses sm) -> to_bus b = Some b' -> Forall (over n) (fields b')).
      { intros b b' Hb Eb. unfold to_bus in Eb. destruct (_ <? _)%N; [|discriminate]. injection Eb as <-. unfold fields. cbn [bus_id mult payload]. constructor; [split; [now apply wf_from_number|intros v []]|]. constructor.
        - split; [now apply to_grouped_wf|]. intros v Hv. apply Oc. right. apply Exists_exists. exists b. split; auto. left. now apply to_grouped_vars.
        - rewrite Forall_map. apply Forall_forall. intros e He. split; [now apply to_grouped_wf|]. intros v Hv. apply Oc. right. apply Exists_exists. exists b. split; auto. right. apply Exists_exists. exists e. split; auto. now apply to_grouped_vars. }
      clear - E K. induction E as [|b b' l l' X E IH]; constructor; [apply (K b b'); auto; now left|]. apply IH. intros d d' Hd. apply K. now right.
    - rewrite Forall_map. apply Forall_forall. intros [x a] Hd. cbn [fst snd]. destruct (Od _ Hd) as [O1 O2]. split; auto. intros v Hv. apply O2. cbn [snd in_method]. destruct a as [k|a b]; cbn [to_method cm_vars] in Hv; [destruct Hv|]. apply in_app_iff in Hv. destruct Hv as [Hv|Hv]; apply to_grouped_vars in Hv; cbn [in_method]; auto.
  Qed.
  Lemma from_over (sm : smach p) c n : from_system c = Some sm -> system_over n c -> machine_over n sm.
  Proof.
    intros H (Oa & Ob & Od). unfold from_system in H. destruct (all_opt _) as [bs|] eqn:E; [|discriminate]. injection H as <-. apply all_opt_some in E. rewrite Forall_forall in Oa, Ob, Od. split; cbn [sm_cons sm_buses sm_derived].
    - intros v [Hv|Hv]; apply Exists_exists in Hv; destruct Hv as (e & He & Hv); cbn [sm_cons sm_buses] in He.
      + apply in_map_iff in He. destruct He as (g & <- & Hg). apply (proj2 (Oa g Hg)). apply to_alg_refs. destruct (to_alg g); auto.
      + assert (exists b, In b (buses c) /\ from_bus b = Some e) as (b & Hb & Eb). { clear - E He. induction E as [|b b' l l' X E IH]; [destruct He|]. destruct He as [<-|He]; [exists b; split; auto; now left|]. destruct (IH He) as (b0 & H0 & E0). exists b0. split; auto. now right. }
        specialize (Ob b Hb). rewrite Forall_forall in Ob. unfold from_bus in Eb. destruct (try_to_known (bus_id b)); [|discriminate]. injection Eb as <-. cbn [sb_mult sb_args] in Hv. destruct Hv as [Hv|Hv].
        * apply (proj2 (Ob (mult b) ltac:(unfold fields; cbn; auto))). now apply to_alg_refs.
        * apply Exists_exists in Hv. destruct Hv as (a & Ha & Hv). apply in_map_iff in Ha. destruct Ha as (g & <- & Hg). apply (proj2 (Ob g ltac:(unfold fields; cbn; auto))). now apply to_alg_refs.
    - intros d Hd. apply in_map_iff in Hd. destruct Hd as ([x a] & <- & Hd). destruct (Od _ Hd) as [O1 O2]. cbn [fst snd] in *. split; auto. intros v Hv. apply O2. destruct a as [k|a b]; cbn [from_method in_method cm_vars] in *; [destruct Hv|]. apply in_app_iff. destruct Hv as [Hv|Hv]; apply to_alg_refs in Hv; auto.
  Qed.

  Lemma time_values (sm : smach p) row : in_time m (machine_sends m sm row) <-> in_time m (machine_values sm row).
  Proof.
    split; intros H id G; specialize (H id G); [unfold machine_sends in H; apply (proj1 (chronological_filter id _ _ (fun b op addr ct _ => memory_kept m Hm Hbig id b op addr ct G)) H)|].
    unfold machine_sends. apply (proj2 (chronological_filter id _ _ (fun b op addr ct _ => memory_kept m Hm Hbig id b op addr ct G)) H).
  Qed.
  (** ** The execution bus *)
  Section Exec.
    Context (sm sm1 : smach p) (id : N) (r s : sbus p) (rest : list (sbus p * sbus p)).
    Hypothesis Hid : get_bus_id m BExec = Some id.
    Hypothesis Hon : on_bus id sm = r :: s :: receives_and_sends rest.
    Hypothesis Ho : optimize_exec_bus sm id = Some sm1.
    Let Hin : In (id, BExec) m. Proof. now apply get_bus_id_in. Qed.
    Let Lid : (id < N.pos p)%N. Proof. exact (proj1 (proj2 Hm _ _ Hin)). Qed.
    Lemma last_in : In (last_send s rest) (s :: receives_and_sends rest).
    Proof. clear Hon. revert s. induction rest as [|[r1 s1] l IH]; intros s0; [now left|]. cbn [last_send receives_and_sends flat_map fst snd app]. right. right. apply IH. Qed.
    Lemma exec_subset b : In b (sm_buses sm1) -> In b (sm_buses sm).
    Proof.
      destruct (C24_structure p sm sm1 id r s rest Hon Ho) as (S1 & S2 & _). intros Hb. destruct ((sb_id b =? id)%N) eqn:E.
      - assert (I : In b (on_bus id sm1)) by (apply filter_In; auto). rewrite S1 in I. assert (J : In b (on_bus id sm)). { rewrite Hon. destruct I as [<-|[<-|[]]]; [now left|right; apply last_in]. } now apply filter_In in J.
      - assert (I : In b (elsewhere id sm1)) by (apply filter_In; rewrite E; auto). rewrite S2 in I. now apply filter_In in I.
    Qed.
    Lemma exec_superset b : In b (sm_buses sm) -> In b (sm_buses sm1) \/ sb_id b = id.
    Proof.
      destruct (C24_structure p sm sm1 id r s rest Hon Ho) as (_ & S2 & _). intros Hb. destruct (N.eqb_spec (sb_id b) id) as [E|E]; auto. left. assert (I : In b (elsewhere id sm)). { apply filter_In. split; auto. apply N.eqb_neq in E. now rewrite E. } rewrite <- S2 in I. now apply filter_In in I.
    Qed.
    Let value (row : var -> F p) (b : sbus p) : busi (F p) := mkBus (of_N (sb_id b)) (aeval row (sb_mult b)) (map (aeval row) (sb_args b)).
    Lemma machine_values_eq (q : smach p) row : machine_values q row = map (value row) (sm_buses q).
    Proof. unfold machine_values, messages. rewrite map_map. reflexivity. Qed.
    Lemma exec_net (q q' : list (N * F p * list (F p))) : (forall bus args, net_messages bus args q = net_messages bus args q') ->
      Forall (fun g => fst (fst g) < N.pos p)%N q -> Forall (fun g => fst (fst g) < N.pos p)%N q' ->
      forall bus args, net bus args (map (fun g => mkBus (of_N (fst (fst g))) (snd (fst g)) (snd g)) q) = net bus args (map (fun g => mkBus (of_N (fst (fst g))) (snd (fst g)) (snd g)) q').
    Proof.
      intros H Hq Hq' bus args. assert (K : forall l, Forall (fun g : N * F p * list (F p) => fst (fst g) < N.pos p)%N l -> net bus args (map (fun g => mkBus (of_N (fst (fst g))) (snd (fst g)) (snd g)) l) = net_messages (val bus) args l).
      { induction 1 as [|[[i k] a] l X _ IH]; [reflexivity|]. cbn [map net net_messages fst snd bus_id mult payload] in *. rewrite IH.
        f_equal. destruct (message_dec bus args _) as [[E1 E2]|E]; cbn [bus_id payload] in *.
        - subst. rewrite val_of_N_small by auto. destruct (N.eq_dec i i); [|contradiction]. destruct (list_eq_dec F_dec args args); [reflexivity|contradiction].
        - destruct (N.eq_dec i (val bus)) as [E1|E1]; auto. destruct (list_eq_dec F_dec a args) as [E2|E2]; auto. exfalso. apply E. split; auto. cbn [bus_id]. apply F_ext. rewrite val_of_N_small; auto. }
      now rewrite !K.
    Qed.
    Hypothesis Hids : Forall (fun b => (sb_id b < N.pos p)%N) (sm_buses sm1).
    Lemma ids_before : Forall (fun b => (sb_id b < N.pos p)%N) (sm_buses sm).
    Proof. rewrite Forall_forall in *. intros b Hb. destruct (exec_superset b Hb) as [I| ->]; auto. Qed.
    Lemma exec_effect row : SymSpec.accepts sm1 row -> Forall (fun sr => aeval row (sb_mult (snd sr)) = fopp (aeval row (sb_mult (fst sr)))) (handovers s rest) -> same_machine_effect m row sm row sm1.
    Proof.
      intros A B bus args. unfold machine_sends. rewrite !net_sends. destruct (ovm_stateful m bus); auto. unfold machine_values. apply exec_net.
      - apply (C24_net p sm sm1 id r s rest row Hon Ho A B).
      - unfold messages. rewrite Forall_map. exact Hids.
      - unfold messages. rewrite Forall_map. exact ids_before.
    Qed.
    Lemma exec_time row : in_time m (machine_values sm1 row) <-> in_time m (machine_values sm row).
    Proof.
      destruct (C24_structure p sm sm1 id r s rest Hon Ho) as (_ & S2 & _).
      set (keep := fun b : busi (F p) => negb (val (bus_id b) =? id)%N).
      assert (K : forall q, filter keep (machine_values q row) = map (value row) (filter (fun b => keep (value row b)) (elsewhere id q))).
      { intros q. rewrite machine_values_eq. unfold elsewhere. induction (sm_buses q) as [|b l IH]; auto. cbn [map filter]. destruct (N.eqb_spec (sb_id b) id) as [E|E]; cbn [negb].
        - assert (Kb : keep (value row b) = false). { unfold keep, value. cbn [bus_id]. rewrite E, val_of_N_small, N.eqb_refl by auto. reflexivity. } rewrite Kb. exact IH.
        - cbn [filter]. destruct (keep (value row b)); cbn [map]; now rewrite IH. }
      assert (E : filter keep (machine_values sm1 row) = filter keep (machine_values sm row)) by (now rewrite !K, S2).
      assert (T : forall i b op addr ct, get_bus_id m BMemory = Some i -> access i b op addr ct -> keep b = true).
      { intros i b op addr ct G (E1 & _). apply get_bus_id_in in G. destruct (proj2 Hm _ _ G) as [Li _]. unfold keep. rewrite E1, val_of_N_small by auto. destruct (N.eqb_spec i id) as [->|]; auto. exfalso.
        pose proof (proj1 Hm) as Nd. apply (bus_type_of _ _ _ Nd) in G. pose proof Hin as G'. apply (bus_type_of _ _ _ Nd) in G'. congruence. }
      split; intros H i G; specialize (H i G); apply (proj1 (chronological_filter i keep _ (fun b op addr ct _ => T i b op addr ct G))); [rewrite <- E|rewrite E]; now apply (proj2 (chronological_filter i keep _ (fun b op addr ct _ => T i b op addr ct G))).
    Qed.
    Lemma exec_sends_in row b : In b (machine_sends m sm1 row) -> In b (machine_sends m sm row).
    Proof. unfold machine_sends. rewrite !filter_In, !machine_values_eq, !in_map_iff. intros [(x & E & I) K]. split; auto. exists x. split; auto. now apply exec_subset. Qed.
    Lemma exec_execution row : machine_execution m program row sm ->
      Forall (fun sr => map (aeval row) (sb_args (fst sr)) = map (aeval row) (sb_args (snd sr)) /\ aeval row (sb_mult (snd sr)) = fopp (aeval row (sb_mult (fst sr)))) (handovers s rest) ->
      machine_execution m program row sm1 /\ same_machine_effect m row sm row sm1.
    Proof.
      intros ([A Ac] & L & T) H. destruct (C24_structure p sm sm1 id r s rest Hon Ho) as (_ & _ & _ & S4). assert (A1 : SymSpec.accepts sm1 row). { apply S4. split; auto. eapply Forall_impl; [|exact H]. intros sr X. apply X. }
      split; [|apply exec_effect; auto; eapply Forall_impl; [|exact H]; intros sr X; apply X]. split; [split; auto|split].
      - rewrite Forall_forall in *. intros b Hb. apply Ac. rewrite machine_values_eq, in_map_iff in *. destruct Hb as (x & E & I). exists x. split; auto. now apply exec_subset.
      - rewrite Forall_forall in *. intros b Hb. apply L. now apply exec_sends_in.
      - apply (time_values sm1 row), exec_time, (time_values sm row). exact T.
    Qed.
    Lemma exec_back row : machine_admissible m program row sm1 -> machine_admissible m program row sm.
    Proof.
      intros [A Ac]. destruct (C24_structure p sm sm1 id r s rest Hon Ho) as (_ & _ & _ & S4). split; [exact (proj1 (proj1 (S4 row) A))|]. rewrite machine_values_eq, Forall_map, Forall_forall in *. intros b Hb. destruct (exec_superset b Hb) as [I|E]; auto. intros Ns. exfalso. unfold value in Ns. cbn [bus_id] in Ns. rewrite E in Ns.
      rewrite (stateful_type m Hm (of_N id) BExec) in Ns; [discriminate|]. rewrite val_of_N_small; auto.
    Qed.
    Lemma exec_loop_new (U : aexpr p -> Prop) : (forall x y, U x -> U y -> U (ABin x OSub y)) -> forall l x x', exec_loop id l x = Some x' ->
      Forall (fun b => Forall U (sb_args b)) l -> Forall U (es_new x) -> (forall b, es_send x = Some b -> Forall U (sb_args b)) -> Forall U (es_new x').
    Proof.
      intros HU. induction l as [|b l IH]; intros x x'; cbn [exec_loop]; [intros [= <-]; auto|]. destruct (exec_step id x b) as [x1|] eqn:E; [|discriminate]. intros El Hl Hn Hs. inversion_clear Hl as [|? ? Hb Hl']. revert E. unfold exec_step.
      destruct (negb (sb_id b =? id)%N); [intros [= <-]; apply (IH _ _ El); auto|]. destruct (negb (es_seen x)); [intros [= <-]; apply (IH _ _ El); auto|]. destruct (negb (es_receive x)); [intros [= <-]; apply (IH _ _ El); auto; cbn [es_send]; intros b0 [= <-]; exact Hb|].
      destruct (es_send x) as [s0|] eqn:Es; [|discriminate]. destruct (zip_eq (sb_args b) (sb_args s0)) as [z|] eqn:Ez; [|discriminate]. intros [= <-]. apply (IH _ _ El Hl'); cbn [es_new es_send]; [|intros b0 [= <-]; auto]. apply Forall_app. split; auto. rewrite Forall_map. apply Forall_forall. intros [u v] Huv.
      apply zip_eq_some in Ez. destruct Ez as [_ ->]. specialize (Hs s0 eq_refl). rewrite Forall_forall in Hb, Hs. cbn [fst snd constraint_from]. apply HU; [apply Hb; now apply in_combine_l in Huv|apply Hs; now apply in_combine_r in Huv].
    Qed.
    Lemma exec_over n : machine_over n sm -> machine_over n sm1.
    Proof.
      intros [Oc Od]. destruct (C24_structure p sm sm1 id r s rest Hon Ho) as (_ & _ & S3 & _). split; [|rewrite S3; exact Od]. intros v [Hv|Hv].
      - pose proof Ho as Ho'. unfold optimize_exec_bus in Ho'. destruct (exec_loop id (sm_buses sm) _) as [x|] eqn:El; [|discriminate]. destruct (es_send x); [|discriminate]. injection Ho' as E. rewrite <- E in Hv. cbn [sm_cons] in Hv. apply Exists_app in Hv. destruct Hv as [Hv|Hv]; [apply Oc; now left|].
        assert (N0 : Forall (fun e => forall v, occurs v e -> issued n v) (es_new x)).
        { apply (exec_loop_new (fun e => forall v, occurs v e -> issued n v)) with (2 := El); cbn [es_new es_send]; try discriminate; auto.
          - intros a b A B w [W|W]; auto.
          - apply Forall_forall. intros b Hb. apply Forall_forall. intros e He w Hw. apply Oc. right. apply Exists_exists. exists b. split; auto. right. apply Exists_exists. exists e. auto. }
        apply Exists_exists in Hv. destruct Hv as (e & He & Hv). rewrite Forall_forall in N0. now apply (N0 e He).
      - apply Exists_exists in Hv. destruct Hv as (b & Hb & Hv). apply Oc. right. apply Exists_exists. exists b. split; auto. now apply exec_subset.
    Qed.
  End Exec.
End Machine.
