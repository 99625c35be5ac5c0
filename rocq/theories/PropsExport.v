(** C62: exported files are numbered in order, do not overwrite each other, and are written only where and when asked for. *)
From Coq Require Import Arith NArith Bool List Ascii String Lia.
From Verif Require Import NumModel NumFacts JsonModel ExportModel ExportSpec ExportFacts.
Import ListNotations.
Local Open Scope list_scope.

(** With a path, every export succeeds.  The documents are those that the level asks for, in their order, in files with
    ascending numbers; every rendered machine is in the file of the same name as its document. *)
Theorem C62_files : forall (D : Type) (pcs : list N) (l : level) (es : list (export D)),
  exists o ws, run_exports (new_options true pcs l) es = Some (o, ws) /\
    flat_map document_of ws = named pcs 0 (flat_map (asked l) es) /\
    (forall name d, In (name, Rendered d) ws -> exists k i, name = name_of pcs k i (txt ".txt") /\ In (name_of pcs k i (txt ".json"), Document d) ws /\ In (EApc d i) es) /\
    (forall d i, In (EApc d i) es -> exists k, In (name_of pcs k i (txt ".txt"), Rendered d) ws).
Proof.
  intros D pcs l es. eexists _, _. split; [exact (run_all pcs l es 0%N [])|]. split; [apply written_documents|]. split; [apply written_rendered|].
  intros d i. generalize (@nil text). generalize 0%N. induction es as [|e es IH]; intros n subs; [intros []|]. cbn [all_written]. intros [-> | H].
  - exists n. apply in_app_iff. left. cbn. auto.
  - destruct (IH (n + N.of_nat (List.length (asked l e)))%N (subs ++ registered e) H) as (k & Hk). exists k. apply in_app_iff. now right.
Qed.
Print Assumptions C62_files.

(** No file is overwritten by another one of the same export, unless substitutions are exported twice. *)
Theorem C62_no_overwriting : forall (D : Type) (pcs : list N) (l : level) (es : list (export D)) o ws,
  run_exports (new_options true pcs l) es = Some (o, ws) -> List.length (filter is_subs es) <= 1 -> NoDup (map fst ws).
Proof.
  intros D pcs l es o ws H Hs. change (new_options true pcs l) with (at_ pcs l 0 []) in H. rewrite run_all in H. injection H as _ <-. now apply written_nodup.
Qed.
Print Assumptions C62_no_overwriting.

(** Exports for different pcs have no file in common. *)
Theorem C62_apart : forall (D : Type) (pcs pcs' : list N) (l l' : level) (es es' : list (export D)) o o' ws ws',
  pcs <> [] -> pcs' <> [] -> pcs <> pcs' -> (forall e t, In e (es ++ es') -> In t (info_of e) -> plain_info t) ->
  run_exports (new_options true pcs l) es = Some (o, ws) -> run_exports (new_options true pcs' l') es' = Some (o', ws') ->
  forall w w', In w ws -> In w' ws' -> fst w <> fst w'.
Proof.
  intros D pcs pcs' l l' es es' o o' ws ws' N1 N2 Df Hi H H' w w' Hw Hw'.
  change (new_options true pcs l) with (at_ pcs l 0 []) in H. change (new_options true pcs' l') with (at_ pcs' l' 0 []) in H'. rewrite run_all in H, H'. injection H as _ <-. injection H' as _ <-.
  exact (names_apart pcs pcs' w w' l l' es es' _ _ _ _ N1 N2 Df Hi Hw Hw').
Qed.
Print Assumptions C62_apart.

(** The infos matter: a number or the word of the other file could be taken for something else. *)
Theorem C62_infos_refuted : forall D : Type, forall d : D,
  (exists o o' n w w', run_exports (new_options true [1; 100]%N OnlyApc) [EApc d None] = Some (o, w) /\ run_exports (mkOptions (ex_path (new_options true [1%N] OnlyApc)) OnlyApc 100 []) [EApc d (Some (txt "000"))] = Some (o', w') /\
     In n (map fst w) /\ In n (map fst w')) /\
  ~ plain_info (txt "000").
Proof.
  intros D d. split.
  - eexists _, _, (txt "apc_candidate_1_100_000.json"), _, _. split; [vm_compute; reflexivity|]. split; [vm_compute; reflexivity|]. split; left; vm_compute; reflexivity.
  - intros [H _]. specialize (H 48%N (txt "00") eq_refl). apply H. unfold digit. lia.
Qed.
Print Assumptions C62_infos_refuted.

(** Without a path and with the default level nothing is written and nothing changes; with a higher level the program panics. *)
Theorem C62_no_path : forall (D : Type) (pcs : list N) (es : list (export D)), Forall (fun e => is_apc e = false) es ->
  run_exports (new_options false pcs OnlyApc) es = Some (new_options false pcs OnlyApc, []).
Proof.
  intros D pcs es. unfold new_options. induction 1 as [|e es He Hes IH]; [reflexivity|]. destruct e; try discriminate; cbn in IH |- *; rewrite IH; reflexivity.
Qed.
Print Assumptions C62_no_path.

Theorem C62_no_path_refuted : forall (D : Type) (pcs : list N) (t : text) (b : building D),
  t = txt "2" \/ t = txt "3" -> run_build (new_options false pcs (level_from (Some t))) b = None.
Proof. intros D pcs t b [-> | ->]; reflexivity. Qed.
Print Assumptions C62_no_path_refuted.

Local Ltac one_plain := intros t Ht; cbn [info_of In] in Ht; first [destruct Ht as [<- | []]; apply in_map; cbn [In]; tauto | destruct Ht].
Local Ltac all_plain := repeat (apply Forall_cons; [one_plain|]); try apply Forall_nil.
(** A build with a path: all infos are plain, so the theorems above apply; the machine before optimization is in file 0, the
    final one in the file with the greatest number; the number of documents is as the level says. *)
Theorem C62_build : forall (D : Type) (pcs : list N) (l : level) (b : building D),
  exists o ws, run_build (new_options true pcs l) b = Some (o, ws) /\ NoDup (map fst ws) /\
    (forall e t, In e (build_exports true b) -> In t (info_of e) -> plain_info t) /\
    (exists middle, flat_map document_of ws =
       (name_of pcs 0 (Some (txt "unopt")) (txt ".json"), b_unopt b) :: middle ++ [(name_of pcs (N.of_nat (S (List.length middle))) None (txt ".json"), b_final b)] /\
       let k := List.length (b_iterations b) in
       List.length middle = match l with OnlyApc => 0 | ApcAndLoop => 5 + k | ApcAndSteps => 6 + 11 * k end).
Proof.
  intros D pcs l b. change (new_options true pcs l) with (at_ pcs l 0 []). unfold run_build. cbn [requested ex_path at_].
  pose (names := map txt ["unopt"; "exec_bus"; "loop_iteration"; "solver"; "remove_trivial"; "remove_free"; "remove_disconnected"; "simplify_exhaustive"; "trivial_simp"; "rule_based"; "substitute_bus_interactio_fields"; "memory"; "low_degree_bus"; "inlining"; "range_constraints"]%string).
  assert (Infos : forall e t, In e (build_exports true b) -> In t (info_of e) -> In t names).
  { intros e t He. revert t. revert e He. apply (proj1 (Forall_forall (fun e : export D => forall t, In t (info_of e) -> In t names) _)). unfold build_exports, optimizer_exports. cbn [app].
    assert (I : forall i : iteration D, Forall (fun e => forall t, In t (info_of e) -> In t names) (iteration_exports i)).
    { intros i. unfold iteration_exports. all_plain. }
    apply Forall_cons; [one_plain|]. apply Forall_cons; [one_plain|]. rewrite <- app_assoc. apply Forall_app. split.
    - apply Forall_forall. intros e He. apply in_flat_map in He. destruct He as (i & _ & He). exact (proj1 (Forall_forall _ _) (I i) e He).
    - cbn [app]. all_plain. }
  assert (Subs : List.length (filter is_subs (build_exports true b)) <= 1).
  { unfold build_exports, optimizer_exports. cbn. rewrite !filter_app. cbn. assert (X : filter is_subs (flat_map iteration_exports (b_iterations b)) = []).
    { induction (b_iterations b) as [|i r IH]; [reflexivity|]. cbn [flat_map]. now rewrite filter_app, IH. }
    rewrite X. cbn. lia. }
  eexists _, _. split; [apply run_all|]. split; [now apply written_nodup|]. split.
  - intros e t He Ht. specialize (Infos e t He Ht). apply in_map_iff in Infos. destruct Infos as (s & <- & Hs). cbn [In] in Hs.
    repeat (destruct Hs as [<- | Hs]; [split; [intros c r [= <- _]; unfold digit; intros [A B]; now apply B|discriminate]|]). destruct Hs.
  - rewrite written_documents. unfold build_exports. rewrite !flat_map_app, !named_app. cbn [flat_map asked app List.length named].
    exists (named pcs (0 + N.of_nat 1) (flat_map (asked l) (optimizer_exports b))).
    assert (LN : forall (x : list (D * option text)) n, List.length (named pcs n x) = List.length x) by (induction x as [|[d i] x IH]; intros n; cbn; auto).
    split.
    + rewrite LN. f_equal. f_equal. f_equal. f_equal. f_equal. lia.
    + cbn zeta. rewrite LN. unfold optimizer_exports. cbn [flat_map]. rewrite !flat_map_app, !app_length.
      assert (K : forall c, (forall i : iteration D, List.length (flat_map (asked l) (iteration_exports i)) = c) -> List.length (flat_map (asked l) (flat_map iteration_exports (b_iterations b))) = c * List.length (b_iterations b)).
      { intros c Hc. induction (b_iterations b) as [|i r IH]; cbn [flat_map List.length]; [lia|]. rewrite flat_map_app, app_length, Hc, IH. lia. }
      destruct l.
      * rewrite (K 0) by reflexivity. reflexivity.
      * rewrite (K 1) by reflexivity. cbn. lia.
      * rewrite (K 11) by reflexivity. cbn [asked flat_map app List.length]. lia.
Qed.
Print Assumptions C62_build.

(** The documents of a build are exactly the states that the level promises, each under its own name. *)
Theorem C62_states : forall (D : Type) (pcs : list N) (l : level) (b : building D) o ws,
  run_build (new_options true pcs l) b = Some (o, ws) -> flat_map document_of ws = named pcs 0 (build_states l b).
Proof.
  intros D pcs l b o ws H. unfold run_build in H. change (new_options true pcs l) with (at_ pcs l 0 []) in H. cbn [requested ex_path at_] in H.
  assert (W : forall es, run_exports (at_ pcs l 0 []) es = Some (o, ws) -> flat_map document_of ws = named pcs 0 (flat_map (asked l) es)).
  { intros es E. rewrite run_all in E. injection E as _ <-. apply written_documents. }
  rewrite (W _ H). clear H W. f_equal. unfold build_exports, build_states, optimizer_exports. rewrite !flat_map_app.
  assert (I : forall i : iteration D, flat_map (asked l) (iteration_exports i) = iteration_states l i) by (intros i; destruct l; reflexivity).
  assert (F : flat_map (asked l) (flat_map iteration_exports (b_iterations b)) = flat_map (iteration_states l) (b_iterations b)).
  { induction (b_iterations b) as [|i r IH]; [reflexivity|]. cbn [flat_map]. now rewrite flat_map_app, I, IH. }
  cbn [flat_map]. rewrite flat_map_app, F. destruct l; cbn [asked loops steps flat_map app]; rewrite <- ?app_assoc; reflexivity.
Qed.
Print Assumptions C62_states.

(** The environment chooses the level: 2 and 3 are the higher ones, everything else is the lowest. *)
Theorem C62_levels : forall t : option text,
  (level_from t = ApcAndLoop <-> t = Some (txt "2")) /\ (level_from t = ApcAndSteps <-> t = Some (txt "3")) /\
  (level_from t = OnlyApc <-> t <> Some (txt "2") /\ t <> Some (txt "3")).
Proof.
  intros [t|]; unfold level_from.
  - destruct (list_eq_dec N.eq_dec t (txt "2")) as [-> | N2]; [|destruct (list_eq_dec N.eq_dec t (txt "3")) as [-> | N3]].
    + split; [|split]; (split; [try discriminate; try reflexivity|try discriminate; try reflexivity]). intros [X _]. now destruct X.
    + split; [|split]; (split; [try discriminate; try reflexivity|try discriminate; try reflexivity]). intros [_ X]. now destruct X.
    + split; [|split]; (split; [try discriminate; try congruence|try congruence; try reflexivity]). intros _. split; congruence.
  - split; [|split]; split; try discriminate; try reflexivity. intros _. split; discriminate.
Qed.
Print Assumptions C62_levels.

(** The file of substitutions has everything that was registered before it, in order ... *)
Theorem C62_substitutions : forall (D : Type) (pcs : list N) (l : level) (es : list (export D)) o ws,
  run_exports (new_options true pcs l) es = Some (o, ws) -> forall name t, In (name, Plain t) ws ->
  exists before after, es = before ++ ESubs :: after /\ name = substitutions_name pcs /\
    t = [91%N] ++ join_with 44 (flat_map registered before) ++ [93%N].
Proof.
  intros D pcs l es o ws H name t Hw. change (new_options true pcs l) with (at_ pcs l 0 []) in H. rewrite run_all in H. injection H as _ <-. exact (written_plain pcs l es _ _ _ _ Hw).
Qed.
Print Assumptions C62_substitutions.

(** ... but not all substitutions of a build: those of the last rule based pass are missing. *)
Theorem C62_build_substitutions : forall (D : Type) (pcs : list N) (l : level) (b : building D) o ws,
  run_build (new_options true pcs l) b = Some (o, ws) -> forall name t, In (name, Plain t) ws ->
  t = [91%N] ++ join_with 44 (flat_map (fun i => it_assignments i ++ it_rules i) (b_iterations b) ++ b_inlined b) ++ [93%N].
Proof.
  intros D pcs l b o ws H name t Hw. unfold run_build in H. cbn [requested ex_path new_options] in H. destruct (C62_substitutions D pcs l _ o ws H name t Hw) as (before & after & Es & _ & ->).
  f_equal. f_equal. f_equal. clear -Es.
  set (pre := [EApc (b_unopt b) (Some (txt "unopt")); EOuter (b_exec b) (txt "exec_bus")] ++ flat_map iteration_exports (b_iterations b) ++
    [ERegister (b_inlined b); EOuter (b_inlining b) (txt "inlining"); EInner (b_disconnected b) (txt "remove_disconnected");
     EOuter (b_rule_based b) (txt "rule_based"); EOuter (b_range b) (txt "range_constraints"); EOuter (b_simp b) (txt "trivial_simp")]).
  assert (E1 : build_exports true b = pre ++ [ESubs; EApc (b_final b) None]).
  { unfold build_exports, optimizer_exports, pre. cbn [app]. rewrite <- !app_assoc. reflexivity. }
  assert (NS : filter is_subs pre = []).
  { unfold pre. clear. rewrite !filter_app. cbn. rewrite app_nil_r. induction (b_iterations b) as [|i r IH]; [reflexivity|]. cbn [flat_map]. rewrite filter_app, IH. reflexivity. }
  assert (before = pre).
  { rewrite E1 in Es. revert Es NS. generalize pre. clear. intros pre. revert before. induction pre as [|e pre IH]; intros [|e' before] Es NS; cbn in Es.
    - reflexivity.
    - injection Es as <- Es. destruct before as [|e2 before]; cbn in Es; [discriminate|]. injection Es as <- Es. destruct before; discriminate.
    - injection Es as -> Es. cbn in NS. discriminate.
    - injection Es as -> Es. cbn in NS. destruct (is_subs e'); [discriminate|]. f_equal. now apply IH. }
  subst before. unfold pre. clear. rewrite !flat_map_app. cbn [flat_map registered app]. rewrite app_nil_r. f_equal.
  induction (b_iterations b) as [|i r IH]; [reflexivity|]. cbn [flat_map]. rewrite flat_map_app, IH. f_equal. cbn. now rewrite app_nil_r.
Qed.
Print Assumptions C62_build_substitutions.

Theorem C62_substitutions_refuted : exists (b : building unit) o ws s, In s (b_last_rules b) /\
  run_build (new_options true [8%N] OnlyApc) b = Some (o, ws) /\ In (substitutions_name [8%N], Plain (txt "[]")) ws /\ s <> [].
Proof.
  exists (mkBuilding tt tt [] [] tt tt [txt "x = 1"] tt tt tt tt). eexists _, _, (txt "x = 1"). split; [now left|]. split; [vm_compute; reflexivity|]. split; [|discriminate].
  vm_compute. tauto.
Qed.
Print Assumptions C62_substitutions_refuted.

(** ** Examples *)
Definition example_iteration : iteration nat := mkIteration 1 [txt "a"; txt "b"] 2 3 4 5 6 7 [txt "c"] 8 9 10 11.
Definition example_building : building nat := mkBuilding 0 1 [example_iteration; example_iteration] [txt "d"] 2 3 [] 4 5 6 7.
Example C62_build_example : exists o ws, run_build (new_options true [16; 2048]%N ApcAndLoop) example_building = Some (o, ws) /\
  map fst ws = map txt ["apc_candidate_16_2048_000_unopt.json"; "apc_candidate_16_2048_000_unopt.txt"; "apc_candidate_16_2048_001_exec_bus.json"; "apc_candidate_16_2048_002_loop_iteration.json";
    "apc_candidate_16_2048_003_loop_iteration.json"; "apc_candidate_16_2048_004_inlining.json"; "apc_candidate_16_2048_005_rule_based.json"; "apc_candidate_16_2048_006_range_constraints.json";
    "apc_candidate_16_2048_007_trivial_simp.json"; "apc_candidate_16_2048_substitutions.json"; "apc_candidate_16_2048_008.json"; "apc_candidate_16_2048_008.txt"]%string /\
  In (txt "apc_candidate_16_2048_substitutions.json", Plain (txt "[a,b,c,a,b,c,d]")) ws.
Proof. eexists _, _. split; [vm_compute; reflexivity|]. split; [reflexivity|]. vm_compute. tauto. Qed.
Example C62_apart_example : [16; 2048]%N <> [16%N] /\ (forall e t, In e (build_exports true example_building) -> In t (info_of e) -> plain_info t).
Proof. split; [discriminate|]. destruct (C62_build nat [16%N] ApcAndSteps example_building) as (o & ws & _ & _ & H & _). exact H. Qed.
