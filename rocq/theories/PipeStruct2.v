(** The memory, low-degree, range and inlining passes produce expressions over issued columns. *)
From Coq Require Import Arith NArith ZArith Znumtheory Bool List Permutation Lia.
From Verif Require Import Field RangeModel ExprModel ExprFacts ExprMore ExprWf SolveModel SolveFacts SystemModel IndexFacts Spec BaseModel InlinerModel InlinerFacts OvmModel OvmSpec OvmBatch PassModel PassSpec RuleModel RuleDrive SymModel MemModel MemFacts LowModel LowFacts PipeModel PipeSpec PipeSolver PipeStruct.
Import ListNotations.
Local Open Scope nat_scope.

Section Over.
  Context {p : positive} (Hp : prime (Z.pos p)).
  Local Notation gexp := (gexp p).
  Local Notation csys := (csys p).
  Context (n : nat).

  (** ** Memory *)
  Lemma mem_retain_incl {S} (diff : S -> gexp -> gexp -> option bool * S) a m : forall st m1 st', MemModel.retain diff st a m = Some (m1, st') -> incl m1 m.
  Proof.
    induction m as [|[b c] m IH]; intros st m1 st'; cbn [MemModel.retain]; [intros [= <- _]; apply incl_refl|]. destruct (zip_eq a b) as [l|]; [|discriminate]. destruct (any_diff diff st l) as [[keep|] st1]; [|discriminate].
    destruct (MemModel.retain diff st1 a m) as [[m2 st2]|] eqn:E; [|discriminate]. apply IH in E. intros H. destruct keep; injection H as <- _; intros x Hx; [destruct Hx as [<-|Hx]; [now left|right; auto]|right; auto].
  Qed.
  Lemma zip_over (l m : list gexp) z : Forall (over n) l -> Forall (over n) m -> zip_eq l m = Some z -> Forall (fun x => over n (fst x) /\ over n (snd x)) z.
  Proof.
    intros H. revert m z. induction H as [|a l Ha _ IH]; intros [|b m] z Hm; cbn [zip_eq]; try discriminate; [intros [= <-]; constructor|].
    destruct (zip_eq l m) as [r|] eqn:E; [|discriminate]. intros [= <-]. inversion_clear Hm. constructor; cbn; auto. now apply (IH m).
  Qed.
  Definition content_over (c : mcontent p) : Prop := Forall (over n) (mc_data c) /\ Forall (over n) (mc_ts c).
  Definition mstate_over {S} (x : mstate p S) : Prop := Forall (fun ac => content_over (snd ac)) (ms_mem x) /\ Forall (over n) (ms_new x).
  Lemma mem_step_over {S} (diff : S -> gexp -> gexp -> option bool * S) ord id x ib x' : (forall m, Permutation (ord m) m) -> Forall (over n) (payload (snd ib)) ->
    mstate_over x -> mem_step diff ord id x ib = Some x' -> mstate_over x'.
  Proof.
    intros Ho Hb [X Y]. unfold mem_step. destruct (try_from_bus id (snd ib)) as [| | |m] eqn:E; try discriminate; [intros [= <-]; now split|intros [= <-]; split; [constructor|exact Y]|].
    destruct (conv_access id (snd ib) m E) as (_ & (space & Ep & _) & _). rewrite Ep in Hb. inversion_clear Hb as [|? ? _ Hb1]. inversion_clear Hb1 as [|? ? Hl Hb2]. apply Forall_app in Hb2. destruct Hb2 as [Hd Ht].
    destruct (mi_op m).
    - destruct (mem_get (mi_addr m) (ms_mem x)) as [c|] eqn:G; [|intros [= <-]; now split]. unfold equate. destruct (zip_eq (mc_data c) (mi_data m)) as [d|] eqn:Ed; [|discriminate].
      destruct (zip_eq (mc_ts c) (mi_ts m)) as [t|] eqn:Et; [|discriminate]. intros [= <-]. apply mem_get_in in G. rewrite Forall_forall in X. destruct (X _ G) as [Cd Ct]. cbn [snd] in *.
      split; cbn [ms_mem ms_new]; [apply Forall_forall; intros ac H; apply filter_In in H; now apply X|]. apply Forall_app. split; auto. rewrite Forall_map.
      pose proof (zip_over _ _ _ Cd Hd Ed) as Zd. pose proof (zip_over _ _ _ Ct Ht Et) as Zt. eapply Forall_impl; [|apply Forall_app; split; [exact Zd|exact Zt]]. intros [a b] [A B]. now apply over_gsub.
    - destruct (MemModel.retain diff (ms_solver x) (mi_addr m) (ord (ms_mem x))) as [[mem st]|] eqn:R; [|discriminate]. intros [= <-]. split; cbn [ms_mem ms_new]; auto. constructor; [split; auto|].
      apply Forall_forall. intros ac H. apply filter_In in H. destruct H as [H _]. apply (mem_retain_incl diff _ _ _ _ _ R) in H. apply (Permutation_in _ (Ho _)) in H. rewrite Forall_forall in X. auto.
  Qed.
  Lemma mem_over {S} (diff : S -> gexp -> gexp -> option bool * S) ord (c : csys) st mb c' eqs st' : (forall m, Permutation (ord m) m) -> system_over n c ->
    optimize_memory diff ord c st mb = Some (c', eqs, st') -> system_over n c' /\ Forall (over n) eqs.
  Proof.
    intros Ho (X & Y & Z). unfold optimize_memory. destruct mb as [id|]; [|intros [= <- <- _]; repeat split; auto].
    destruct (mem_loop diff ord id (enumerate (buses c)) (mkMS [] [] [] st)) as [x|] eqn:E; [|discriminate]. intros [= <- <- _].
    assert (L : mstate_over x).
    { assert (B : Forall (fun ib => Forall (over n) (payload (snd ib))) (enumerate (buses c))).
      { apply Forall_forall. intros [i b] Hb. unfold enumerate in Hb. apply in_combine_r in Hb. rewrite Forall_forall in Y. specialize (Y b Hb). unfold fields in Y. inversion_clear Y as [|? ? _ Y1]. now inversion_clear Y1. }
      assert (I0 : mstate_over (mkMS (p:=p) [] [] [] st)) by (split; constructor). revert E I0. generalize (mkMS (p:=p) [] [] [] st). induction B as [|ib l Hb _ IH]; intros x0 E I0; cbn [mem_loop] in E; [now injection E as <-|].
      destruct (mem_step diff ord id x0 ib) as [x1|] eqn:E1; [|discriminate]. apply (IH x1 E). now apply (mem_step_over diff ord id x0 ib). }
    destruct L as [_ L]. split; auto. repeat split; cbn [algs buses derived]; auto; [now apply Forall_app|].
    apply Forall_forall. intros b Hb. apply in_map_iff in Hb. destruct Hb as ([i x0] & <- & Hb). apply filter_In in Hb. destruct Hb as [Hb _]. unfold enumerate in Hb. apply in_combine_r in Hb. rewrite Forall_forall in Y. now apply Y.
  Qed.

  (** ** Range checks *)
  Lemma mk_check_over m t (pl : list gexp) b : Forall (over n) pl -> mk_check m t pl = Some b -> Forall (over n) (fields b).
  Proof.
    intros H. unfold mk_check. destruct (get_bus_id m t) as [i|]; [|discriminate]. destruct (from_u64 i) as [k|]; [|discriminate]. intros [= <-]. unfold fields. cbn. constructor; [apply over_number|]. constructor; auto. apply over_number.
  Qed.
  Lemma checks_over {A} m t (f : A -> list gexp) l bs : Forall (fun x => Forall (over n) (f x)) l -> OvmModel.all_some (map (fun x => mk_check m t (f x)) l) = Some bs -> Forall (fun b => Forall (over n) (fields b)) bs.
  Proof. intros H E. apply all_some_F2 in E. induction E as [|x b l bs Hx _ IH]; constructor; inversion_clear H; auto. now apply (mk_check_over m t (f x)). Qed.
  Lemma batch_over m (l : list (gexp * rc p)) bs : Forall (fun er => over n (fst er)) l -> batch_make m l = Made bs -> Forall (fun b => Forall (over n) (fields b)) bs.
  Proof.
    intros O. unfold batch_make, filter_byte_constraints. set (bytes := exprs_unique _ _). set (rest := filter (fun er => negb (is_byte_rc (snd er))) l).
    assert (Ob : Forall (over n) bytes). { unfold bytes. apply Forall_unique. rewrite Forall_map. apply Forall_forall. intros er H. apply filter_In in H. rewrite Forall_forall in O. now apply O. }
    assert (Or : Forall (fun er => over n (fst er)) rest). { apply Forall_forall. intros er H. apply filter_In in H. rewrite Forall_forall in O. now apply O. }
    clearbody bytes rest. destruct (tuple_sizes m) as [[s0 s1]|]; [|discriminate]. destruct (tuple_ranges s0 s1) as [[r0 r1]|]; [|discriminate]. destruct (negb _); [discriminate|].
    set (sec := filter (fun er => rc_eqb (snd er) r1) rest). set (oth := filter (fun er => negb (rc_eqb (snd er) r1)) rest).
    assert (Os : Forall (fun er => over n (fst er)) sec). { apply Forall_forall. intros er H. apply filter_In in H. rewrite Forall_forall in Or. now apply Or. }
    assert (Oo : Forall (fun er => over n (fst er)) oth). { apply Forall_forall. intros er H. apply filter_In in H. rewrite Forall_forall in Or. now apply Or. }
    clearbody sec oth. set (k := length (firstn (length bytes) sec)).
    destruct (OvmModel.all_some (map (fun bs => mk_check m (BTuple s0 s1) [fst bs; fst (snd bs)]) (combine (firstn k bytes) (firstn (length bytes) sec)))) as [b1|] eqn:E1; [|discriminate].
    destruct (OvmModel.all_some (map (mk_check m BBitwise) (byte_pairs (skipn k bytes)))) as [b2|] eqn:E2; [|discriminate].
    destruct (num_bits_list (oth ++ skipn (length bytes) sec)) as [pls|] eqn:En; [|discriminate]. destruct (OvmModel.all_some (map (mk_check m BVarRange) pls)) as [b3|] eqn:E3; [|discriminate]. intros [= <-].
    rewrite Forall_forall in Ob, Os, Oo. apply Forall_app. split; [|apply Forall_app; split].
    - apply (checks_over m (BTuple s0 s1) (fun bs => [fst bs; fst (snd bs)])) in E1; auto. apply Forall_forall. intros [a [b r]] H. pose proof (in_combine_l _ _ _ _ H) as Ha. apply in_combine_r in H. cbn [fst snd].
      assert (Ia : In a bytes) by (rewrite <- (firstn_skipn k bytes); apply in_app_iff; auto). assert (Ib : In (b, r) sec) by (rewrite <- (firstn_skipn (length bytes) sec); apply in_app_iff; auto).
      constructor; [auto|constructor; [exact (Os _ Ib)|constructor]].
    - apply (checks_over m BBitwise (fun x => x)) in E2; auto. assert (Oy : Forall (over n) (skipn k bytes)). { apply Forall_forall. intros a H. apply Ob. rewrite <- (firstn_skipn k bytes). apply in_app_iff. auto. }
      revert Oy. generalize (skipn k bytes). clear. fix IH 1. intros [|x [|y l]] O; cbn [byte_pairs].
      + constructor.
      + inversion_clear O. constructor; [|constructor]. repeat (apply Forall_cons; [auto; apply over_number|]). constructor.
      + inversion_clear O as [|? ? O1 O2]. inversion_clear O2. constructor; [|now apply IH]. repeat (apply Forall_cons; [auto; apply over_number|]). constructor.
    - apply (checks_over m BVarRange (fun x => x)) in E3; auto. unfold num_bits_list in En. apply all_some_F2 in En. assert (Oy : Forall (fun er => over n (fst er)) (oth ++ skipn (length bytes) sec)).
      { apply Forall_app. split; [now apply Forall_forall|]. apply Forall_forall. intros er H. apply Os. rewrite <- (firstn_skipn (length bytes) sec). apply in_app_iff. auto. }
      clear E3. induction En as [|er pl l0 pls0 H _ IH]; constructor; inversion_clear Oy; auto. destruct (rc_to_num_bits (snd er)) as [j|]; [|discriminate]. injection H as <-. constructor; auto. constructor; [apply over_number|constructor].
  Qed.
  Lemma over_assert (e : gexp) : over n e -> over n (assert_bool e).
  Proof. intros O. apply (over_gmul Hp); auto. apply over_gsub; auto. apply over_number. Qed.
  Lemma pure_in m b (rs : list (gexp * rc p)) : ovm_pure m b = Some (Some rs) -> Forall (fun er => In (fst er) (payload b)) rs.
  Proof.
    unfold ovm_pure. destruct (try_to_known (bus_id b)) as [i|]; [|discriminate]. destruct (bus_type m (val i)) as [[]|]; try discriminate.
    - unfold var_range_pure. destruct (payload b) as [|x [|y [|? ?]]]; try discriminate. destruct (try_to_known y); [|discriminate]. destruct (_ <? _)%N; [|discriminate]. intros [= <-]. repeat (apply Forall_cons; [cbn; tauto|]); apply Forall_nil.
    - unfold tuple_pure. destruct (payload b) as [|x [|y [|? ?]]]; try discriminate. destruct (tuple_ranges _ _) as [[a c]|]; [|discriminate]. intros [= <-]. repeat (apply Forall_cons; [cbn; tauto|]); apply Forall_nil.
    - unfold bitwise_pure. destruct (payload b) as [|x [|y [|z [|o [|? ?]]]]]; try discriminate. destruct (match try_to_known o with Some k => is_zero k | None => false end); [intros [= <-]; repeat (apply Forall_cons; [cbn; tauto|]); apply Forall_nil|]. destruct (gexp_eqb x y); [|discriminate]. intros [= <-]. repeat (apply Forall_cons; [cbn; tauto|]); apply Forall_nil.
  Qed.
  Lemma merge_over (e : gexp) r l : over n e -> Forall (fun er => over n (fst er)) l -> Forall (fun er : gexp * rc p => over n (fst er)) (rc_merge e r l).
  Proof. intros O. induction 1 as [|[a b] l Ha Hl IH]; cbn [rc_merge]; [constructor; [exact O|constructor]|]. destruct (gexp_eqb e a); constructor; auto. Qed.
  Lemma collect_over m (bs : list (busi gexp)) : Forall (fun b => Forall (over n) (fields b)) bs -> forall l kept l', Forall (fun er => over n (fst er)) l -> collect_pure m bs l = Some (kept, l') -> incl kept bs /\ Forall (fun er => over n (fst er)) l'.
  Proof.
    induction 1 as [|b bs Hb _ IH]; intros l kept l' Hl; cbn [collect_pure]; [intros [= <- <-]; split; [apply incl_refl|auto]|].
    assert (K : match collect_pure m bs l with Some (k, l') => Some (b :: k, l') | None => None end = Some (kept, l') -> incl kept (b :: bs) /\ Forall (fun er => over n (fst er)) l').
    { destruct (collect_pure m bs l) as [[k l1]|] eqn:E; [|discriminate]. intros [= <- <-]. destruct (IH _ _ _ Hl E) as [A B]. split; auto. intros x [<-|Hx]; [now left|right; auto]. }
    destruct (negb _); [exact K|]. destruct (ovm_pure m b) as [[rs|]|] eqn:Ep; [|exact K|discriminate]. apply pure_in in Ep. intros E. apply IH in E.
    - destruct E as [A B]. split; auto. intros x Hx. right. auto.
    - clear - Ep Hl Hb. revert l Hl. induction Ep as [|[e r] rs He _ IHr]; intros l Hl; cbn [fold_left]; auto. apply IHr. apply merge_over; auto. cbn [fst] in *. rewrite Forall_forall in Hb. apply Hb. right. now right.
  Qed.
  Lemma range_over m bound fuel (c c' : csys) : system_over n c -> optimize_range_constraints m bound fuel c = Some c' -> system_over n c'.
  Proof.
    intros (X & Y & Z). unfold optimize_range_constraints. destruct (collect_pure m (buses c) []) as [[kept l]|] eqn:Ec; [|discriminate]. destruct (collect_over m _ Y _ _ _ (Forall_nil _) Ec) as [Hk Hl].
    destruct (solver_ranges _ _ _ _) as [curs|]; [|discriminate]. set (l1 := map snd _). assert (H1 : Forall (fun er => over n (fst er)) l1).
    { unfold l1. rewrite Forall_map. apply Forall_forall. intros [cu er] H. apply filter_In in H. destruct H as [H _]. apply in_combine_r in H. rewrite Forall_forall in Hl. now apply Hl. }
    clearbody l1. destruct (batch_make m _) as [bs| |] eqn:Eb; try discriminate. intros [= <-]. apply batch_over in Eb.
    - repeat split; cbn [algs buses derived]; auto.
      + apply Forall_app. split; auto. rewrite Forall_map. apply Forall_forall. intros er H. apply filter_In in H. apply over_assert. rewrite Forall_forall in H1. now apply H1.
      + apply Forall_app. split; auto. now apply incl_Forall with (2 := Y).
    - apply Forall_forall. intros er H. apply filter_In in H. rewrite Forall_forall in H1. now apply H1.
  Qed.

  (** ** Low-degree replacements *)
  Lemma hypotheses_over k (f : list gexp -> gexp) es : In f (hypotheses k) -> Forall (over n) es -> over n (f es).
  Proof.
    intros H O. assert (N : forall i, over n (nth i es gzero)). { intros i. destruct (nth_in_or_default i es gzero) as [I|E]; [rewrite Forall_forall in O; auto|rewrite E; apply (over_number n 0%F)]. }
    unfold hypotheses in H. destruct k as [|[|[|k]]]; cbn [In] in H; try tauto; repeat destruct H as [<-|H]; try destruct H; auto; repeat first [apply N | apply over_number | apply over_gsub | apply over_gadd | apply (over_gmul Hp)].
  Qed.
  Lemma low_first_over handler g rq bound (b : busi gexp) cands k rs : Forall (over n) (payload b) -> incl cands (candidates rq b) ->
    first_replacement handler g bound b cands = Replace k rs -> over n k /\ Forall (fun er => over n (fst er)) rs.
  Proof.
    intros O. induction cands as [|[ins o] cands IH]; intros Hc; cbn [first_replacement]; [discriminate|].
    assert (Ho : over n (sf_expr o) /\ Forall (fun f => over n (sf_expr f)) ins).
    { destruct (candidates_spec rq b ins o (Hc _ (or_introl eq_refl))) as (P & _). destruct (unknown_spec rq b) as [U _]. rewrite Forall_forall in O.
      assert (G : forall f, In f (ins ++ [o]) -> over n (sf_expr f)). { intros f Hf. apply (Permutation_in _ (Permutation_sym P)) in Hf. apply U in Hf. destruct Hf as [Hf _]. apply nth_error_In in Hf. auto. }
      split; [apply G, in_app_iff; right; now left|]. apply Forall_forall. intros f Hf. apply G, in_app_iff. auto. }
    destruct Ho as [Ho Hi]. assert (Hc' : incl cands (candidates rq b)) by (intros x Hx; apply Hc; now right).
    destruct (find_function handler g b ins o) as [f| |] eqn:E; try discriminate; [|now apply IH]. destruct (Nat.leb _ _); [|now apply IH]. intros [= <- <-]. split.
    - apply over_gsub; auto. unfold find_function in E. destruct (input_assignments ins) as [l|]; [|discriminate]. apply test_all_spec in E. destruct E as [E _]. apply (hypotheses_over (length ins)); auto. now rewrite Forall_map.
    - now rewrite Forall_map.
  Qed.
  Lemma low_over handler stateful m g rq bound (c c' : csys) : system_over n c -> low_degree handler stateful (batch_make m) g rq bound c = Some c' -> system_over n c'.
  Proof.
    intros (X & Y & Z). unfold low_degree. destruct (collect_all (map (replace_one handler stateful (batch_make m) g rq bound) (buses c))) as [l|] eqn:E; [|discriminate]. intros [= <-]. apply collect_all_spec in E.
    assert (G : Forall (fun kb => Forall (over n) (fst kb) /\ Forall (fun b => Forall (over n) (fields b)) (snd kb)) l).
    { revert l E. induction Y as [|b bs Hb _ IH]; intros [|[ks nb] l] E; cbn [map] in E; try discriminate; constructor; [|apply IH; congruence]. cbn [fst snd].
      assert (E1 : replace_one handler stateful (batch_make m) g rq bound b = Some (ks, nb)) by congruence. clear E IH. unfold replace_one in E1. destruct (try_replace handler stateful g rq bound b) as [k rs| |] eqn:Er; try discriminate.
      - assert (Hk : over n k /\ Forall (fun er => over n (fst er)) rs).
        { unfold try_replace in Er. destruct (try_to_known (bus_id b)) as [i|]; [|discriminate]. destruct (stateful i); [discriminate|]. apply (low_first_over handler g rq bound b (candidates rq b)); auto; [|apply incl_refl].
          unfold fields in Hb. inversion_clear Hb as [|? ? _ Hb1]. now inversion_clear Hb1. }
        destruct Hk as [Hk Hr]. assert (Hks : Forall (over n) (if is_redundant k then [] else [k])) by (destruct (is_redundant k); repeat constructor; apply Hk). clear Er.
        destruct (batch_make m rs) as [bs'| |] eqn:Eb; [|assert (ks = (if is_redundant k then [] else [k]) /\ nb = [b]) as [-> ->] by (split; congruence); split; [exact Hks|constructor; [exact Hb|constructor]]|discriminate]. assert (ks = (if is_redundant k then [] else [k]) /\ nb = bs') as [-> ->] by (split; congruence). split; auto. now apply (batch_over m rs).
      - assert (ks = [] /\ nb = [b]) as [-> ->] by (split; congruence). split; [constructor|constructor; [exact Hb|constructor]]. }
    rewrite Forall_forall in G. repeat split; cbn [algs buses derived]; auto.
    - apply Forall_app. split; auto. apply Forall_forall. intros e He. apply in_flat_map in He. destruct He as (kb & Hkb & He). destruct (G _ Hkb) as [G1 _]. rewrite Forall_forall in G1. auto.
    - apply Forall_forall. intros e He. apply in_flat_map in He. destruct He as (kb & Hkb & He). destruct (G _ Hkb) as [_ G1]. rewrite Forall_forall in G1. auto.
  Qed.

  (** ** Inlining *)
  Lemma inline_at_over should st i (c0 : csys) : inl_ok c0 st -> system_over n (isys (inl_sys st)) -> system_over n (isys (inl_sys (inline_at should st i))).
  Proof.
    intros Hok O. unfold inline_at. destruct (nth_error (algs (isys (inl_sys st))) i) as [e|] eqn:Ee; auto. destruct (find _ (find_inlinable e)) as [[v r]|] eqn:Ef; auto. cbn [inl_sys].
    apply find_some in Ef. destruct Ef as [Hin _]. apply find_inlinable_in in Hin. destruct Hin as [Hr _]. pose proof (try_solve_for_vars _ _ _ Hr) as [Hvr Hre].
    rewrite (subst_unknown_sys v r (inl_sys st) (io_index _ _ Hok) Hvr). apply nth_error_In in Ee. pose proof O as (X & _). rewrite Forall_forall in X. destruct (X e Ee) as [We Ve].
    assert (Or : over n r). { split; [now apply (try_solve_for_wf Hp v e r)|]. intros w Hw. apply Ve. now apply Hre. }
    exact (sys_subst_over Hp n v r (isys (inl_sys st)) Or O).
  Qed.
  Lemma inline_over should (c : csys) c' defs : system_over n c -> inline should (S (length (algs c))) (ics_from c) = Some (c', defs) -> system_over n (isys c').
  Proof.
    intros O. unfold inline. destruct (inline_loop _ _ _ _) as [st|] eqn:E; [|discriminate]. intros [= <- _]. cbn [isys ics_from] in E.
    assert (G : forall is st, inl_ok c st -> system_over n (isys (inl_sys st)) -> system_over n (isys (inl_sys (fold_left (inline_at should) is st)))).
    { induction is as [|i is IH]; intros st0 Hok H; cbn [fold_left]; auto. apply IH; [now apply inline_at_ok|]. now apply inline_at_over with (c0 := c). }
    assert (L : forall fuel st0 st, inl_ok c st0 -> system_over n (isys (inl_sys st0)) -> inline_loop should fuel (length (algs c)) st0 = Some st -> system_over n (isys (inl_sys st))).
    { induction fuel as [|fuel IH]; intros st0 st1 Hok H; cbn [inline_loop]; [discriminate|]. unfold inline_round. pose proof (G (rev (seq 0 (length (algs c)))) st0 Hok H) as H'. destruct (inline_fold_ok Hp should c (rev (seq 0 (length (algs c)))) st0 Hok) as [Hok' _].
      destruct (Nat.eqb _ _); [intros [= <-]; exact H'|now apply IH]. }
    apply L in E; [|apply (inl_init_ok (ics_from c)), ics_from_ok|exact O]. unfold remove_inlined. cbn [retain_algs_idx isys]. revert E. apply system_over_sub; cbn [algs buses derived]; try apply incl_refl.
    intros e. apply filter_idx_incl.
  Qed.
End Over.
