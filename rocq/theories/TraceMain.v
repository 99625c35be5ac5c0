(** The filled trace, and the trace of a block. *)
From Coq Require Import Arith NArith Bool List Sorted Lia ZifyBool ZifyNat ZifyN.
From Verif Require Import Field ExprModel SystemModel SymModel SymSpec SymFacts TraceModel TraceSpec TraceFacts.
Import ListNotations.

Section TraceMain.
  Context {p : positive}.
  Local Notation row := (list (F p)).

  Lemma used_nonempty {A B} (subs : list (list A)) : forall (l : list B) j s x, nth_error subs j = Some s -> s <> [] -> nth_error l j = Some x ->
    exists i, nth_error (filter (fun s => negb (is_empty s)) subs) i = Some s /\ nth_error (used subs l) i = Some x /\
      forall C (r : list C), length r = length l -> nth_error (used subs r) i = nth_error r j.
  Proof.
    induction subs as [|t subs IH]; intros [|y l] [|j] s x Hs Hne Hx; try discriminate; cbn in Hs, Hx.
    - injection Hs as ->. injection Hx as ->. exists 0. rewrite used_cons. cbn [filter]. destruct s as [|z s]; [congruence|]. cbn [is_empty negb nth_error]. split; auto. split; auto. intros C [|c r] L; [discriminate|]. rewrite used_cons. reflexivity.
    - destruct (IH l j s x Hs Hne Hx) as (i & A1 & A2 & A3). rewrite used_cons. cbn [filter]. destruct (is_empty t) eqn:T; cbn [negb].
      + exists i. split; auto. split; auto. intros C [|c r] L; [discriminate|]. rewrite used_cons, T. cbn. apply A3. cbn in L. lia.
      + exists (S i). split; auto. split; auto. intros C [|c r] L; [discriminate|]. rewrite used_cons, T. cbn. apply A3. cbn in L. lia.
  Qed.
  Lemma index_map_inv cols subs m : index_map cols subs = Some m -> map fst m = map fst subs /\
    (forall c id, In (c, id) subs -> exists i, index_of id cols = Some i /\ In (c, i) m) /\ (forall c i, In (c, i) m -> exists id, In (c, id) subs /\ index_of id cols = Some i).
  Proof.
    unfold index_map. rewrite all_opt_some. induction 1 as [|[c id] [c' i'] subs m H _ (IH1 & IH2 & IH3)]; cbn in *; [split; auto; split; intros ? ? []|].
    destruct (index_of id cols) as [i|] eqn:E; [|discriminate]. injection H as <- <-. split; [now rewrite IH1|]. split.
    - intros c2 id2 [[= <- <-]|H2]; [eauto|]. destruct (IH2 c2 id2 H2) as (j & A & B). eauto.
    - intros c2 j [[= <- <-]|H2]; [eauto|]. destruct (IH3 c2 j H2) as (id2 & A & B). eauto.
  Qed.
  Lemma nodup_app {A} (l r : list A) : NoDup l -> NoDup r -> (forall x, In x l -> ~ In x r) -> NoDup (l ++ r).
  Proof.
    induction 1 as [|x l Hx Hl IH]; intros Hr H; cbn; auto. constructor; [|apply IH; auto; intros y Hy; apply H; now right]. rewrite in_app_iff. intros [H1|H1]; [auto|]. apply (H x); cbn; auto.
  Qed.
  Lemma maps_targets cols (subs : list (list (nat * N))) maps : Forall2 (fun s m => index_map cols s = Some m) subs maps ->
    forall i, In i (map snd (concat maps)) <-> exists id, In id (map snd (concat subs)) /\ index_of id cols = Some i.
  Proof.
    induction 1 as [|s m subs maps H _ IH]; intros i; cbn [concat map]; [split; [intros []|intros (? & [] & _)]|]. rewrite map_app, in_app_iff, IH. apply index_map_inv in H as (_ & H2 & H3).
    split.
    - intros [H|(id & H & E)].
      + apply in_map_iff in H as ([c j] & <- & H). destruct (H3 c j H) as (id & Hid & E). exists id. rewrite map_app, in_app_iff. split; auto. left. apply in_map_iff. now exists (c, id).
      + exists id. rewrite map_app, in_app_iff. auto.
    - intros (id & H & E). rewrite map_app, in_app_iff in H. destruct H as [H|H]; [left|right; eauto]. apply in_map_iff in H as ([c id'] & <- & H). destruct (H2 c id' H) as (j & E' & Hj). cbn in E. assert (j = i) as -> by congruence. apply in_map_iff. now exists (c, i).
  Qed.
  Lemma maps_nodup cols (subs : list (list (nat * N))) maps : NoDup cols -> Forall2 (fun s m => index_map cols s = Some m) subs maps -> NoDup (map snd (concat subs)) -> NoDup (map snd (concat maps)).
  Proof.
    intros Hc H. induction H as [|s m subs maps H F2 IH]; intros Hn; cbn [concat map] in *; [constructor|]. rewrite map_app in *.
    assert (N2 : NoDup (map snd (concat subs))) by (clear - Hn; induction (map snd s) as [|x l IH]; cbn in Hn; [auto|]; inversion Hn; auto).
    assert (N1 : NoDup (map snd s)) by (clear - Hn; induction (map snd s) as [|x l IH]; [constructor|]; cbn in Hn; inversion Hn; subst; constructor; [rewrite in_app_iff in *; tauto|auto]).
    assert (D : forall x, In x (map snd s) -> ~ In x (map snd (concat subs))).
    { clear - Hn. induction (map snd s) as [|x l IH]; intros y Hy; [destruct Hy|]. cbn in Hn. inversion Hn as [|? ? Hx Hn']; subst. rewrite in_app_iff in Hx. destruct Hy as [<-|Hy]; [tauto|auto]. }
    apply nodup_app; auto.
    - clear - H N1. unfold index_map in H. apply all_opt_some in H. induction H as [|[c id] [c' i] s m E H IH]; cbn in *; [constructor|]. inversion N1 as [|? ? Hx Hn']; subst. destruct (index_of id cols) as [i'|] eqn:E'; [|discriminate]. injection E as <- <-.
      constructor; auto. intros Hi. apply in_map_iff in Hi as ([c2 j] & E2 & Hj). cbn in E2. subst j. assert (X : index_map cols s = Some m) by now apply all_opt_some. apply index_map_inv in X as (_ & _ & X). destruct (X c2 i' Hj) as (id2 & A & B).
      pose proof (index_inj _ _ _ _ E' B) as ->. apply Hx. apply in_map_iff. now exists (c2, id2).
    - intros i Hi Hj. apply (maps_targets cols subs maps F2) in Hj as (id & A & B). apply index_map_inv in H as (_ & _ & H3). apply in_map_iff in Hi as ([c i'] & E & Hi). cbn in E. subst i'. destruct (H3 c i Hi) as (id' & A' & B').
      pose proof (index_inj _ _ _ _ B B') as ->. apply (D id'); auto. apply in_map_iff. now exists (c, id').
  Qed.
  Lemma filter_concat (subs : list (list (nat * N))) : concat (filter (fun s => negb (is_empty s)) subs) = concat subs.
  Proof. induction subs as [|[|x s] subs IH]; cbn; auto. now rewrite IH. Qed.
  Lemma apc_subs_ids (m : smach p) a : forall id, In id (map snd (concat (apc_subs m a))) <-> In id (concat (al_subs a)) /\ column_id m id.
  Proof.
    intros id. rewrite in_map_iff. setoid_rewrite in_concat. split.
    - intros ([c id'] & E & s & Hs & Hin). cbn in E. subst id'. apply In_nth_error in Hs as [j Hj].
      assert (exists subs, nth_error (al_subs a) j = Some subs) as [subs Hsub].
      { destruct (nth_error (al_subs a) j) eqn:E; [eauto|]. apply nth_error_None in E. assert (nth_error (apc_subs m a) j <> None) as X by congruence. apply nth_error_Some in X. unfold apc_subs in X. rewrite map_length in X. lia. }
      destruct (apc_subs_nth m a j subs Hsub) as (s' & Hs' & HH). assert (s' = s) as -> by congruence. pose proof (proj1 (HH c id) Hin) as [H1 H2]. split; auto. exists subs. split; [now apply nth_error_In in Hsub|now apply nth_error_In in H1].
    - intros [(subs & Hs & Hin) Hc]. apply In_nth_error in Hs as [j Hj]. apply In_nth_error in Hin as [c Hcn]. destruct (apc_subs_nth m a j subs Hj) as (s' & Hs' & HH). exists (c, id). split; auto. exists s'. split; [now apply nth_error_In in Hs'|]. now apply HH.
  Qed.
  Lemma filter_map_nodup {A} (f : nat * A -> bool) (l : list (nat * A)) : NoDup (map snd l) -> NoDup (map snd (filter f l)).
  Proof.
    induction l as [|x l IH]; cbn; [constructor|]. intros H. inversion H as [|? ? Hx Hn]; subst. destruct (f x); cbn; [constructor|]; auto. intros Hi. apply Hx. apply in_map_iff in Hi as (y & E & Hy). apply in_map_iff. exists y. split; auto. now apply filter_In in Hy.
  Qed.
  Lemma enumerate_snd {A} (l : list A) : map snd (enumerate l) = l.
  Proof. unfold enumerate. generalize 0. induction l as [|x l IH]; intros k; cbn; auto. now rewrite IH. Qed.
  Lemma apc_subs_nodup (m : smach p) a : NoDup (concat (al_subs a)) -> NoDup (map snd (concat (apc_subs m a))).
  Proof.
    unfold apc_subs. set (f := fun x => existsb (N.eqb (snd x)) (unique_ids m)). rewrite <- (enumerate_snd (concat (al_subs a))) at 1. intros H. rewrite enumerate_snd in H.
    induction (al_subs a) as [|s ss IH]; cbn [map concat] in *; [constructor|]. rewrite map_app.
    assert (N2 : NoDup (concat ss)) by (clear - H; induction s as [|x l IH]; cbn in H; [auto|]; inversion H; auto).
    assert (N1 : NoDup s) by (clear - H; induction s as [|x l IH]; [constructor|]; cbn in H; inversion H; subst; constructor; [rewrite in_app_iff in *; tauto|auto]).
    assert (D : forall x, In x s -> ~ In x (concat ss)).
    { clear - H. induction s as [|x l IH]; intros y Hy; [destruct Hy|]. cbn in H. inversion H as [|? ? Hx Hn']; subst. rewrite in_app_iff in Hx. destruct Hy as [<-|Hy]; [tauto|auto]. }
    apply nodup_app; auto.
    - apply filter_map_nodup. now rewrite enumerate_snd.
    - intros x Hx Hy. apply in_map_iff in Hx as (y & <- & Hx). apply filter_In in Hx as [Hx _]. apply (D (snd y)); [rewrite <- (enumerate_snd s); now apply in_map|].
      clear - Hy. induction ss as [|s ss IH]; cbn in *; auto. rewrite map_app, in_app_iff in Hy. rewrite in_app_iff. destruct Hy as [Hy|Hy]; auto. left. apply in_map_iff in Hy as (z & <- & Hz). apply filter_In in Hz as [Hz _]. rewrite <- (enumerate_snd s). now apply in_map.
  Qed.

  Lemma repeat_nth (x : F p) n i : i < n -> nth_error (repeat x n) i = Some x.
  Proof. intros H. rewrite nth_error_nth' with (d := x) by (now rewrite repeat_length). now rewrite nth_repeat. Qed.
  Lemma pow_ge n : n <= next_power_of_two_or_zero n.
  Proof. destruct n as [|n]; [cbn; lia|]. unfold next_power_of_two_or_zero. destruct n as [|n]; [cbn; lia|]. pose proof (Nat.log2_log2_up_spec (S (S n)) ltac:(lia)) as H. lia. Qed.
  Lemma row_of_zero cols v : row_of cols (repeat (0%F : F p) (length cols)) v = 0%F.
  Proof. unfold row_of. destruct (index_of (vid v) cols) as [i|]; auto. apply nth_repeat. Qed.

  Theorem witness_ok airs (m : smach p) a widths padding calls rows effects :
    NoDup (concat (al_subs a)) -> length airs = length (al_subs a) -> Forall (fits airs widths) calls ->
    let P := mkApc airs (apc_subs m a) m in
    generate_witness P widths padding (fold_left (exec_call P) calls new_arenas) = Some (rows, effects) ->
    exists cols, lists_columns m cols /\ length rows = next_power_of_two_or_zero (length calls) /\ length effects = length calls /\
    (forall k r, length calls <= k -> nth_error rows k = Some r -> holds cols r (fun _ => 0%F)) /\
    (forall k call, nth_error calls k = Some call -> exists r row, nth_error rows k = Some r /\ holds cols r row /\
      nth_error effects k = Some (messages m row) /\
      (forall id, derived_id m id -> column_id m id) /\
      (forall j subs c v src, nth_error (al_subs a) j = Some subs -> nth_error subs c = Some (vid v) -> nth_error call j = Some src -> column_id m (vid v) -> ~ derived_id m (vid v) -> nth_error src c = Some (row v)) /\
      (in_order (sm_derived m) -> derived_columns m row = map (fun d => (fst d, row (fst d))) (sm_derived m)) /\
      (forall v, ~ In (vid v) (concat (al_subs a)) -> ~ derived_id m (vid v) -> row v = 0%F)).
  Proof.
    intros Hn La Hfit P. set (A := fold_left (exec_call P) calls new_arenas). unfold generate_witness.
    assert (LS : length airs = length (apc_subs m a)) by (unfold apc_subs; now rewrite map_length).
    assert (HL : Forall (fun c => length c = length airs) calls).
    { eapply Forall_impl; [|exact Hfit]. intros c Hc. symmetry. unfold fits in Hc. clear - Hc. induction Hc; cbn; auto. }
    assert (Ec : ar_calls A = length calls).
    { destruct (calls_real P calls new_arenas 0%N (eq_sym LS) HL) as [_ E]. exact E. }
    rewrite Ec. set (ws := fun a0 => if existsb (N.eqb a0) (apc_airs P) then Some (widths a0) else None).
    destruct (generate_trace ws (length calls) P) as [td|] eqn:G; [|discriminate]. destruct (generate_inv _ _ _ _ G) as (_ & Tc & Td & Tm & Tl & Tv). cbn [apc_airs apc_subs_by apc_machine P] in *.
    pose proof (main_columns_ok m) as Hcols. set (cols := main_columns m) in *. rewrite Tc. destruct (Nat.eqb_spec (length cols) 0) as [E0|E0]; [discriminate|].
    pose proof (pow_ge (length calls)) as Hp. rewrite firstn_all2 by lia.
    set (data := fun a0 => chip_trace (ar_real A a0) (padding a0)).
    destruct (all_opt (map (fill_row P data td) (td_values td))) as [filled|] eqn:Fl; [|discriminate]. intros [= <- <-]. apply all_opt_nth in Fl as [LF HF].
    destruct Hcols as [Hso Hin]. pose proof (sorted_nodup _ Hso) as Hnd. exists cols. split; [split; auto|].
    assert (Hpt : NoDup (map snd (concat (td_maps td)))).
    { eapply maps_nodup; [|exact Tm|]; [now rewrite Tc|]. rewrite filter_concat. now apply apc_subs_nodup. }
    split; [rewrite app_length, map_length, repeat_length; lia|]. split; [rewrite map_length; lia|].
    assert (HR : forall k call, nth_error calls k = Some call -> exists r r0 row effs refs, nth_error filled k = Some (r, effs) /\ nth_error (td_values td) k = Some refs /\
        copy_rows data refs (td_maps td) (repeat 0%F (length cols)) = Some r0 /\ compute_derived cols (sm_derived m) r0 = Some r /\ row = row_of cols r /\ effs = messages m row).
    { intros k call Hk. assert (Lk : k < length calls) by (apply nth_error_Some; congruence). destruct (Tv k Lk) as (refs & Hr & _). destruct (HF k refs Hr) as ([r effs] & H1 & H2).
      unfold fill_row in H2. rewrite Tc, Td in H2. destruct (copy_rows _ _ _ _) as [r0|] eqn:C; [|discriminate]. destruct (compute_derived cols (sm_derived m) r0) as [r1|] eqn:D; [|discriminate].
      destruct (all_opt _) as [es|] eqn:Es; [|discriminate]. injection H2 as <- <-. exists r1, r0, (row_of cols r1), es, refs. split; auto. split; auto. split; auto. split; auto. split; auto. unfold messages. eapply all_opt_map; [|exact Es]. intros x y Hxy. now apply replay_ok in Hxy. }
    split.
    - intros k r Hk Hr. rewrite nth_error_app2 in Hr by (rewrite map_length; lia). apply nth_error_In in Hr. apply repeat_spec in Hr. subst r. split; [now rewrite repeat_length|]. intros i v Hi. apply repeat_nth. apply nth_error_Some. congruence.
    - intros k call Hk. destruct (HR k call Hk) as (r & r0 & row & effs & refs & H1 & H2 & C & D & -> & ->). exists r, (row_of cols r).
      pose proof (copy_rows_inv _ _ _ _ _ C) as (CL & CN & CK & CV). rewrite repeat_length in CN. pose proof (compute_inv cols (sm_derived m) Hnd r0 r CN D) as (DL & DK & DV & DC).
      assert (Lk : k < length calls) by (apply nth_error_Some; congruence).
      split; [rewrite nth_error_app1 by (rewrite map_length; lia); now rewrite (map_nth_error fst k filled H1)|]. split; [now apply row_holds|]. split; [now rewrite (map_nth_error snd k filled H1)|].
      split; [intros id (d & Hd & <-); apply Hin; now apply DC|]. split; [|split].
      + intros j subs c v src Hj Hc Hsrc Hcol Hnder. destruct (apc_subs_nth m a j subs Hj) as (s & Hs & HS).
        rewrite DK by (intros d Hd E; apply Hnder; exists d; auto).
        assert (Hin1 : In (c, vid v) s) by (apply HS; auto).
        rewrite Forall_forall in HL. pose proof (HL call (nth_error_In _ _ Hk)) as Lc. cbn beta in Lc.
        destruct (nth_error airs j) as [air|] eqn:Hair; [|apply nth_error_None in Hair; assert (nth_error (al_subs a) j <> None) as X by congruence; apply nth_error_Some in X; lia].
        destruct (used_nonempty (apc_subs m a) airs j s air Hs ltac:(intros ->; contradiction) Hair) as (i & U1 & U2 & U3).
        pose proof (proj1 (forall2_nth _ _ _) Tm) as [TL TN].
        destruct (Tv k Lk) as (refs' & Hr' & Lr & Hrefs). assert (refs' = refs) as -> by congruence. destruct (Hrefs i air U2) as (w & Hw & Hri).
        assert (w = widths air) as -> by (unfold ws in Hw; destruct (existsb _ _); congruence).
        destruct (nth_error (td_maps td) i) as [mp|] eqn:Hmp; [|apply nth_error_None in Hmp; rewrite <- TL in Hmp; apply nth_error_None in Hmp; congruence].
        destruct (CV Hpt i _ mp Hri Hmp) as (src' & S1 & S2). cbn [rr_air rr_start rr_length] in S1.
        assert (Hus : nth_error (used (apc_subs m a) call) i = Some src) by (rewrite (U3 _ call Lc); exact Hsrc).
        pose proof (source_ok P widths padding calls A LS Hfit eq_refl k call i air src Hk U2 Hus) as S3. unfold data in S1. cbn [apc_subs_by apc_airs P] in S3. rewrite S1 in S3. injection S3 as ->.
        pose proof (TN i s mp U1 Hmp) as IM. rewrite Tc in IM. apply index_map_inv in IM as (_ & IM & _). destruct (IM c (vid v) Hin1) as (t & T1 & T2). rewrite <- (S2 c t T2). unfold row_of. rewrite T1. apply nth_error_nth'. rewrite CN. eapply index_lt; eauto.
      + intros Ho. unfold derived_columns. apply map_ext_in. intros d Hd. f_equal. symmetry. now apply DV.
      + intros v Hv Hd. rewrite DK by (intros d Hdi E; apply Hd; exists d; auto). unfold row_of. destruct (index_of (vid v) cols) as [i|] eqn:I1; auto. apply nth_error_nth. rewrite CK; [apply repeat_nth; eapply index_lt; eauto|].
        rewrite maps_targets by exact Tm. rewrite filter_concat. intros (id & X1 & X2). rewrite Tc in X2. pose proof (index_inj _ _ _ _ I1 X2) as <-. apply apc_subs_ids in X1 as [X1 _]. contradiction.
  Qed.

  (** ** No panics *)
  Theorem witness_total airs (m : smach p) a widths padding calls :
    Forall2 (fun air subs => length subs <= widths air) airs (al_subs a) -> Forall (fits airs widths) calls ->
    (exists id, column_id m id) ->
    (forall d, In d (sm_derived m) -> column_id m (vid (fst d)) /\ forall v, method_reads (snd d) v -> column_id m (vid v)) ->
    let P := mkApc airs (apc_subs m a) m in
    generate_witness P widths padding (fold_left (exec_call P) calls new_arenas) <> None.
  Proof.
    intros Hw Hfit Hcol Hder P. set (A := fold_left (exec_call P) calls new_arenas). unfold generate_witness.
    pose proof (proj1 (forall2_nth _ _ _) Hw) as [La Hw'].
    assert (LS : length airs = length (apc_subs m a)) by (unfold apc_subs; now rewrite map_length).
    assert (HL : Forall (fun c => length c = length airs) calls).
    { eapply Forall_impl; [|exact Hfit]. intros c Hc. symmetry. unfold fits in Hc. clear - Hc. induction Hc; cbn; auto. }
    assert (Ec : ar_calls A = length calls).
    { destruct (calls_real P calls new_arenas 0%N (eq_sym LS) HL) as [_ E]. exact E. }
    rewrite Ec. set (ws := fun a0 => if existsb (N.eqb a0) (apc_airs P) then Some (widths a0) else None).
    pose proof (main_columns_ok m) as [Hso Hin]. pose proof (sorted_nodup _ Hso) as Hnd. set (cols := main_columns m) in *.
    assert (G : exists td, generate_trace ws (length calls) P = Some td).
    { unfold generate_trace, with_subs. cbn [apc_airs apc_subs_by apc_machine P]. destruct (zip_eq airs (apc_subs m a)) as [z|] eqn:Z; [|assert (X : zip_eq airs (apc_subs m a) = Some (combine airs (apc_subs m a))) by (now apply zip_eq_some); congruence].
      apply zip_eq_some in Z as [_ ->]. cbn [option_map]. destruct (filter_used airs (apc_subs m a) LS) as [E1 E2]. set (is := filter _ _) in *. rewrite E1.
      destruct (all_opt_ok (fun x => index_map (main_columns m) (snd x)) is) as [maps ->].
      { intros [air s] Hx. cbn [snd]. apply all_opt_ok. intros [c id] Hc. cbn [fst snd]. assert (X : column_id m id).
        { apply (in_map snd) in Hx. rewrite E2 in Hx. apply filter_In in Hx as [Hx _]. cbn in Hx. apply (apc_subs_ids m a). apply in_map_iff. exists (c, id). split; auto. apply in_concat. eauto. }
        apply Hin in X. apply in_index in X. fold cols. destruct (index_of id cols); [cbn; eauto|congruence]. }
      destruct (all_opt_ok (fun k => all_opt (map (source_row ws (used (apc_subs m a) airs) k) (combine (used (apc_subs m a) airs) (offsets (fun _ => 0) (used (apc_subs m a) airs))))) (seq 0 (length calls))) as [values ->]; [|eauto].
      intros k _. apply all_opt_ok. intros [air o] Hx. unfold source_row. apply in_combine_l in Hx. assert (X : In air airs).
      { unfold used in Hx. apply in_map_iff in Hx as ([x y] & <- & Hx). apply filter_In in Hx as [Hx _]. apply in_combine_r in Hx. exact Hx. }
      unfold ws. cbn [apc_airs P]. assert (existsb (N.eqb air) airs = true) as -> by (apply existsb_exists; exists air; split; auto; apply N.eqb_refl). eauto. }
    destruct G as [td G]. rewrite G. destruct (generate_inv _ _ _ _ G) as (_ & Tc & Td & Tm & Tl & Tv). cbn [apc_airs apc_subs_by apc_machine P] in *. fold cols in Tc. rewrite Tc.
    destruct (Nat.eqb_spec (length cols) 0) as [E0|E0]; [destruct Hcol as [id Hid]; apply Hin in Hid; destruct cols; [contradiction|discriminate]|].
    pose proof (pow_ge (length calls)) as Hp. rewrite firstn_all2 by lia. set (data := fun a0 => chip_trace (ar_real A a0) (padding a0)).
    destruct (all_opt_ok (fill_row P data td) (td_values td)) as [filled ->]; [|discriminate]. intros refs Hrefs. apply In_nth_error in Hrefs as [k Hk].
    assert (Lk : k < length calls) by (rewrite <- Tl; apply nth_error_Some; congruence). destruct (nth_error calls k) as [call|] eqn:Hcall; [|apply nth_error_None in Hcall; lia].
    destruct (Tv k Lk) as (refs' & Hr' & Lr & HR). assert (refs' = refs) as -> by congruence. clear Hr'.
    pose proof (proj1 (forall2_nth _ _ _) Tm) as [TL TN]. unfold fill_row. rewrite Tc, Td. cbn [apc_machine P].
    assert (LU : length (used (apc_subs m a) airs) = length (filter (fun s => negb (is_empty s)) (apc_subs m a))).
    { destruct (filter_used airs (apc_subs m a) LS) as [E1 E2]. now rewrite <- E1, <- E2, !map_length. }
    rewrite Forall_forall in HL. pose proof (HL call (nth_error_In _ _ Hcall)) as Lc. cbn beta in Lc.
    destruct (copy_rows_ok data refs (td_maps td) (repeat 0%F (length cols))) as [r0 C]; [lia| |].
    { intros i ref mp Hi Hmp. assert (Li : i < length (used (apc_subs m a) airs)) by (rewrite <- Lr; apply nth_error_Some; congruence).
      destruct (nth_error (used (apc_subs m a) airs) i) as [air|] eqn:Hair; [|apply nth_error_None in Hair; lia]. destruct (HR i air Hair) as (w & Hwi & Hri). assert (E : ref = mkRef air ((k * count_air air (used (apc_subs m a) airs) + count_air air (firstn i (used (apc_subs m a) airs))) * w) w) by congruence. subst ref. cbn [rr_air rr_start rr_length].
      assert (w = widths air) as -> by (unfold ws in Hwi; destruct (existsb _ _); congruence).
      destruct (nth_error (used (apc_subs m a) call) i) as [src|] eqn:Hsrc; [|apply nth_error_None in Hsrc; rewrite (used_length (apc_subs m a) call airs) in Hsrc by auto; lia].
      exists src. split; [exact (source_ok P widths padding calls A LS Hfit eq_refl k call i air src Hcall Hair Hsrc)|].
      destruct (nth_error (filter (fun s => negb (is_empty s)) (apc_subs m a)) i) as [s|] eqn:Hs; [|apply nth_error_None in Hs; lia].
      pose proof (TN i s mp Hs Hmp) as IM. rewrite Tc in IM. apply index_map_inv in IM as (_ & _ & IM). intros from to Hft. destruct (IM from to Hft) as (id & I1 & I2). split; [|rewrite repeat_length; eapply index_lt; eauto].
      (* the source row is as wide as its air *)
      assert (Lsrc : length src = widths air).
      { rewrite Forall_forall in Hfit. pose proof (Hfit call (nth_error_In _ _ Hcall)) as Hf. apply used_forall2 with (subs := apc_subs m a) in Hf. apply (proj1 (forall2_nth _ _ _) Hf) with i; auto. }
      rewrite Lsrc. clear - Hs Hair I1 Hw LS. unfold apc_subs in *. set (f := fun subs : list N => filter (fun x : nat * N => existsb (N.eqb (snd x)) (unique_ids m)) (enumerate subs)) in *.
      revert i Hs Hair. clear LS. induction Hw as [|x y airs ss Hxy Hw IH]; intros i Hs Hair; [now destruct i|]. cbn [map] in *. rewrite used_cons in Hair. cbn [filter] in Hs. destruct (is_empty (f y)) eqn:Em; cbn [negb] in *; [eapply IH; eauto|].
      destruct i as [|i]; cbn in Hs, Hair; [|eapply IH; eauto]. injection Hs as <-. injection Hair as <-. unfold f in I1. apply filter_In in I1 as [I1 _]. apply in_enumerate in I1. assert (nth_error y from <> None) as X by congruence. apply nth_error_Some in X. lia. }
    rewrite C. apply copy_rows_inv in C as (_ & CN & _). rewrite repeat_length in CN.
    destruct (compute_ok cols (sm_derived m) Hnd) with (r := r0) as [r1 D]; auto.
    { intros d Hd. destruct (Hder d Hd) as [D1 D2]. split; [now apply Hin|]. intros v Hv. now apply Hin, D2. }
    rewrite D. pose proof (compute_inv cols _ Hnd r0 r1 CN D) as (DL & _).
    assert (EV : forall e, In e (sm_children m) -> exists x, eval_in cols r1 e = Some x).
    { intros e He. apply eval_in_some; auto. intros v Hv. apply Hin. exists v. split; auto. apply column_children. eauto. }
    destruct (all_opt_ok (replay cols r1) (sm_buses m)) as [es ->]; [|eauto]. intros b Hb. unfold replay.
    assert (Hch : forall e, In e (sb_children b) -> In e (sm_children m)) by (intros e He; apply in_or_app; right; apply in_flat_map; eauto).
    destruct (EV (sb_mult b)) as [x ->]; [apply Hch; now left|]. destruct (all_opt_ok (eval_in cols r1) (sb_args b)) as [ys ->]; [intros e He; apply EV, Hch; now right|]. eauto.
  Qed.

  (** ** Histories *)
  Lemma run_ok (P : apc p) widths padding es : forall pending st, st = (match pending with [] => None | _ => Some (fold_left (exec_call P) pending new_arenas) end) ->
    trace_run P widths padding st es = map (fun calls => match calls with [] => Some ([], []) | _ => generate_witness P widths padding (fold_left (exec_call P) calls new_arenas) end) (segments pending es).
  Proof.
    induction es as [|[rows|] es IH]; intros pending st ->; cbn [trace_run segments map]; auto.
    - cbn [trace_step]. apply IH. destruct pending as [|c cs]; cbn [app]; [reflexivity|]. now rewrite app_comm_cons, fold_left_app.
    - destruct pending as [|c cs]; cbn [trace_step]; f_equal; now apply IH.
  Qed.
End TraceMain.
