(** Facts about the recording of original instructions and the filling of an autoprecompile's trace. *)
From Coq Require Import Arith NArith Bool List Sorted Lia ZifyBool ZifyNat ZifyN.
From Verif Require Import Field ExprModel SystemModel SymModel SymSpec SymFacts TraceModel TraceSpec.
Import ListNotations.

Section TraceFacts.
  Context {p : positive}.
  Local Notation row := (list (F p)).
  Add Ring Fr : (F_ring_theory (p:=p)).

  (** ** Columns *)
  Lemma insert_in x l y : In y (insert_id x l) <-> y = x \/ In y l.
  Proof.
    induction l as [|z l IH]; cbn; [intuition|]. destruct (N.ltb_spec x z) as [H|H]; [cbn; intuition|].
    destruct (N.eqb_spec x z) as [->|Hn]; cbn; [intuition|]. rewrite IH. intuition.
  Qed.
  Lemma insert_sorted x l : StronglySorted N.lt l -> StronglySorted N.lt (insert_id x l).
  Proof.
    induction 1 as [|z l Hl IH Hz]; cbn; [repeat constructor|]. destruct (N.ltb_spec x z) as [H|H].
    - constructor; [constructor; auto|]. constructor; auto. eapply Forall_impl; [|exact Hz]. intros a Ha. lia.
    - destruct (N.eqb_spec x z) as [->|Hn]; constructor; auto. apply Forall_forall. intros y Hy. apply insert_in in Hy as [->|Hy]; [lia|]. rewrite Forall_forall in Hz. auto.
  Qed.
  Lemma main_columns_ok (m : smach p) : lists_columns m (main_columns m).
  Proof.
    unfold main_columns, lists_columns.
    assert (G : forall refs l, StronglySorted N.lt l -> StronglySorted N.lt (fold_left (fun l v => insert_id (vid v) l) refs l) /\
      forall id, In id (fold_left (fun l v => insert_id (vid v) l) refs l) <-> In id l \/ exists v, In v refs /\ vid v = id).
    { induction refs as [|v refs IH]; intros l Hl; cbn; [split; auto; intros id; firstorder|]. destruct (IH _ (insert_sorted (vid v) l Hl)) as [A B]. split; auto.
      intros id. rewrite B, insert_in. split; [intros [[->|H]|(w & H & E)]; eauto|intros [H|(w & [<-|H] & E)]; eauto]. }
    destruct (G (sm_refs m) [] ltac:(constructor)) as [A B]. split; auto. intros id. rewrite B. unfold column_id.
    split; [intros [[]|(v & Hv & E)]; exists v; now rewrite column_refs|intros (v & Hv & E); right; exists v; now rewrite column_refs in Hv].
  Qed.
  Lemma sorted_nodup l : StronglySorted N.lt l -> NoDup l.
  Proof. induction 1 as [|x l H IH Hx]; constructor; auto. intros Hi. rewrite Forall_forall in Hx. specialize (Hx x Hi). lia. Qed.
  Lemma index_nth id cols i : index_of id cols = Some i -> nth_error cols i = Some id.
  Proof.
    revert i. induction cols as [|c cols IH]; intros i; cbn; [discriminate|]. destruct (N.eqb_spec c id) as [->|H]; [intros [= <-]; reflexivity|].
    destruct (index_of id cols) as [j|]; [|discriminate]. intros [= <-]. cbn. auto.
  Qed.
  Lemma nth_index id cols i : NoDup cols -> nth_error cols i = Some id -> index_of id cols = Some i.
  Proof.
    revert i. induction cols as [|c cols IH]; intros i Hn Hi; [now destruct i|]. inversion Hn as [|? ? Hc Hn']; subst. cbn. destruct i as [|i]; cbn in Hi.
    - injection Hi as ->. now rewrite N.eqb_refl.
    - destruct (N.eqb_spec c id) as [->|H]; [apply nth_error_In in Hi; contradiction|]. now rewrite (IH i).
  Qed.
  Lemma in_index id cols : In id cols <-> index_of id cols <> None.
  Proof.
    induction cols as [|c cols IH]; cbn; [intuition|]. destruct (N.eqb_spec c id) as [->|H]; [split; [discriminate|auto]|].
    rewrite IH. destruct (index_of id cols); cbn; intuition congruence.
  Qed.
  Lemma index_none id cols : index_of id cols = None <-> ~ In id cols.
  Proof. rewrite in_index. destruct (index_of id cols); intuition congruence. Qed.
  Lemma index_lt id cols i : index_of id cols = Some i -> i < length cols.
  Proof. intros H. apply index_nth in H. apply nth_error_Some. congruence. Qed.
  Lemma index_inj id id' cols i : index_of id cols = Some i -> index_of id' cols = Some i -> id = id'.
  Proof. intros A B. apply index_nth in A, B. congruence. Qed.

  (** ** Arenas *)
  Lemma used_cons {A B} (s : list A) subs (r : B) rows : used (s :: subs) (r :: rows) = if is_empty s then used subs rows else r :: used subs rows.
  Proof. unfold used. cbn. now destruct s. Qed.
  Definition of_air (a : N) (U : list N) (R : list row) : list row := map snd (filter (fun x => N.eqb a (fst x)) (combine U R)).
  Lemma exec_real airs : forall subs rows (A : arenas p) a, length subs = length airs -> length rows = length airs ->
    ar_real (exec_instructions airs subs rows A) a = ar_real A a ++ of_air a (used subs airs) (used subs rows) /\
    ar_calls (exec_instructions airs subs rows A) = ar_calls A.
  Proof.
    induction airs as [|b airs IH]; intros [|s subs] [|r rows] A a L1 L2; try discriminate; cbn [exec_instructions].
    - split; auto. cbn. now rewrite app_nil_r.
    - cbn in L1, L2. rewrite !used_cons. destruct (is_empty s); cbn [negb].
      + match goal with |- context [exec_instructions airs subs rows ?A'] => destruct (IH subs rows A' a ltac:(lia) ltac:(lia)) as [E1 E2] end. now rewrite E1, E2.
      + match goal with |- context [exec_instructions airs subs rows ?A'] => destruct (IH subs rows A' a ltac:(lia) ltac:(lia)) as [E1 E2] end.
        rewrite E1, E2. split; auto. cbn [ar_real]. unfold push, of_air. cbn. destruct (N.eqb_spec a b) as [->|H]; cbn; auto. now rewrite <- app_assoc.
  Qed.
  Lemma calls_real (P : apc p) calls : forall A a, length (apc_subs_by P) = length (apc_airs P) -> Forall (fun c => length c = length (apc_airs P)) calls ->
    ar_real (fold_left (exec_call P) calls A) a = ar_real A a ++ flat_map (fun c => of_air a (used (apc_subs_by P) (apc_airs P)) (used (apc_subs_by P) c)) calls /\
    ar_calls (fold_left (exec_call P) calls A) = ar_calls A + length calls.
  Proof.
    induction calls as [|c calls IH]; intros A a L H; cbn [fold_left flat_map length]; [rewrite app_nil_r; split; auto|].
    inversion H as [|? ? Hc Hr]; subst. destruct (IH (exec_call P A c) a L Hr) as [E1 E2]. rewrite E1, E2. unfold exec_call. cbn [ar_real ar_calls].
    destruct (exec_real (apc_airs P) (apc_subs_by P) c A a L Hc) as [-> ->]. rewrite <- app_assoc. split; auto. lia.
  Qed.
  Lemma of_air_length a U : forall R, length U = length R -> length (of_air a U R) = count_air a U.
  Proof.
    induction U as [|b U IH]; intros [|r R] L; try discriminate; auto. unfold of_air, count_air in *. cbn. destruct (N.eqb a b); cbn; [f_equal|]; apply IH; cbn in L; lia.
  Qed.
  Lemma offsets_length c U : length (offsets c U) = length U.
  Proof. revert c. induction U as [|a U IH]; intros c; cbn; auto. Qed.
  Lemma offsets_nth U : forall c j a, nth_error U j = Some a -> nth_error (offsets c U) j = Some (c a + count_air a (firstn j U)).
  Proof.
    induction U as [|b U IH]; intros c [|j] a H; try discriminate; cbn in *.
    - injection H as ->. unfold count_air. cbn. f_equal. lia.
    - rewrite (IH _ _ _ H). unfold count_air. cbn. destruct (N.eqb_spec a b) as [->|Hn]; cbn; f_equal; lia.
  Qed.
  Lemma of_air_nth U : forall R j a, length U = length R -> nth_error U j = Some a -> nth_error (of_air a U R) (count_air a (firstn j U)) = nth_error R j.
  Proof.
    induction U as [|b U IH]; intros [|r R] [|j] a L H; try discriminate; cbn in *.
    - injection H as ->. unfold of_air, count_air. cbn. now rewrite N.eqb_refl.
    - unfold of_air, count_air in *. cbn. destruct (N.eqb a b); cbn; apply IH; auto.
  Qed.
  Lemma count_lt U : forall j a, nth_error U j = Some a -> count_air a (firstn j U) < count_air a U.
  Proof.
    induction U as [|b U IH]; intros [|j] a H; try discriminate; cbn in *; unfold count_air in *; cbn.
    - injection H as ->. rewrite N.eqb_refl. cbn. lia.
    - specialize (IH j a H). destruct (N.eqb a b); cbn; lia.
  Qed.
  Lemma count_inj U : forall i j a, nth_error U i = Some a -> nth_error U j = Some a -> count_air a (firstn i U) = count_air a (firstn j U) -> i = j.
  Proof.
    induction U as [|b U IH]; intros [|i] [|j] a Hi Hj E; try discriminate; auto; cbn in *; unfold count_air in *; cbn in *.
    - injection Hi as ->. rewrite N.eqb_refl in E. cbn in E. lia.
    - injection Hj as ->. rewrite N.eqb_refl in E. cbn in E. lia.
    - f_equal. apply (IH i j a); auto. destruct (N.eqb a b); cbn in E; lia.
  Qed.
  Lemma flat_map_nth {A B} (f : A -> list B) n l : (forall x, In x l -> length (f x) = n) -> forall k x o, nth_error l k = Some x -> o < n ->
    nth_error (flat_map f l) (k * n + o) = nth_error (f x) o.
  Proof.
    induction l as [|y l IH]; intros H k x o Hk Ho; [now destruct k|]. cbn [flat_map]. destruct k as [|k]; cbn in Hk.
    - injection Hk as ->. cbn. rewrite nth_error_app1; auto. rewrite H; cbn; auto.
    - rewrite nth_error_app2; rewrite (H y) by (cbn; auto); [|lia]. rewrite <- (IH (fun z Hz => H z (or_intror Hz)) k x o Hk Ho). f_equal. lia.
  Qed.
  Lemma concat_slice (rows : list row) w pad : Forall (fun r => length r = w) rows -> forall i r, nth_error rows i = Some r -> slice (concat rows ++ pad) (i * w) w = Some r.
  Proof.
    intros H i r Hi. unfold slice.
    assert (E : firstn w (skipn (i * w) (concat rows ++ pad)) = r /\ i * w + w <= length (concat rows ++ pad)).
    { revert i Hi. induction H as [|x rows Hx H IH]; intros [|i] Hi; try discriminate; cbn in Hi |- *.
      - injection Hi as ->. rewrite <- app_assoc, firstn_app, Hx, Nat.sub_diag, app_length. rewrite firstn_all2 by lia. rewrite firstn_O, app_nil_r. split; [auto|lia].
      - destruct (IH i Hi) as [A B]. rewrite <- app_assoc. rewrite skipn_app, Hx. rewrite (skipn_all2 x) by lia. cbn [app]. replace (w + i * w - w) with (i * w) by lia. split; auto. rewrite app_length, Hx. lia. }
    destruct E as [A B]. rewrite (proj2 (Nat.leb_le _ _) B). now rewrite A.
  Qed.

  (** ** Source rows *)
  Lemma filter_used {A B} (airs : list B) : forall (subs : list (list A)), length airs = length subs ->
    map fst (filter (fun x => negb (is_empty (snd x))) (combine airs subs)) = used subs airs /\
    map snd (filter (fun x => negb (is_empty (snd x))) (combine airs subs)) = filter (fun s => negb (is_empty s)) subs.
  Proof.
    induction airs as [|a airs IH]; intros [|s subs] L; try discriminate; auto. cbn in L. destruct (IH subs ltac:(lia)) as [E1 E2]. rewrite used_cons. cbn.
    destruct (is_empty s); cbn; [auto|]. rewrite E1, E2. auto.
  Qed.
  Lemma used_length {A B C} (subs : list (list A)) : forall (l : list B) (r : list C), length l = length r -> length (used subs l) = length (used subs r).
  Proof.
    induction subs as [|s subs IH]; intros [|x l] [|y r] L; try discriminate; auto. rewrite !used_cons. cbn in L. specialize (IH l r ltac:(lia)). destruct (is_empty s); cbn; auto.
  Qed.
  Lemma used_forall2 {A B C} (Q : B -> C -> Prop) (subs : list (list A)) l r : Forall2 Q l r -> Forall2 Q (used subs l) (used subs r).
  Proof.
    intros H. revert subs. induction H as [|x y l r Hxy H IH]; intros [|s subs]; try constructor. rewrite !used_cons. destruct (is_empty s); auto.
  Qed.
  Lemma forall2_nth {A B} (Q : A -> B -> Prop) l r : Forall2 Q l r <-> length l = length r /\ forall i a b, nth_error l i = Some a -> nth_error r i = Some b -> Q a b.
  Proof.
    split.
    - induction 1 as [|x y l r Hxy H [IH1 IH2]]; [split; auto; intros [|i]; discriminate|]. split; [cbn; auto|]. intros [|i] a b; cbn; [intros [= <-] [= <-]; auto|apply IH2].
    - revert r. induction l as [|x l IH]; intros [|y r] [L H]; try discriminate; constructor; [apply (H 0); auto|]. apply IH. split; [cbn in L; lia|]. intros i a b. apply (H (S i)).
  Qed.
  Lemma all_opt_nth {A B} (f : A -> option B) l l' : all_opt (map f l) = Some l' -> length l' = length l /\ forall i a, nth_error l i = Some a -> exists b, nth_error l' i = Some b /\ f a = Some b.
  Proof.
    rewrite all_opt_some. intros H. split; [symmetry; induction H; cbn; auto|]. induction H as [|x y l l' Hxy H IH]; intros [|i] a; cbn; try discriminate; [intros [= <-]; eauto|apply IH].
  Qed.
  Lemma nth_seq n k : k < n -> nth_error (seq 0 n) k = Some k.
  Proof.
    intros H. rewrite nth_error_nth' with (d := 0) by (now rewrite seq_length). now rewrite seq_nth.
  Qed.
  Lemma combine_nth {A B} (l : list A) (r : list B) j a b : nth_error l j = Some a -> nth_error r j = Some b -> nth_error (combine l r) j = Some (a, b).
  Proof. revert r j. induction l as [|x l IH]; intros [|y r] [|j]; cbn; try discriminate; [intros [= <-] [= <-]; auto|apply IH]. Qed.

  Lemma generate_inv widths calls (P : apc p) td : generate_trace widths calls P = Some td ->
    length (apc_airs P) = length (apc_subs_by P) /\
    td_columns td = main_columns (apc_machine P) /\ td_compute td = sm_derived (apc_machine P) /\
    Forall2 (fun s m => index_map (td_columns td) s = Some m) (filter (fun s => negb (is_empty s)) (apc_subs_by P)) (td_maps td) /\
    length (td_values td) = calls /\
    forall k, k < calls -> exists refs, nth_error (td_values td) k = Some refs /\ length refs = length (used (apc_subs_by P) (apc_airs P)) /\
      forall j a, nth_error (used (apc_subs_by P) (apc_airs P)) j = Some a -> exists w, widths a = Some w /\
        nth_error refs j = Some (mkRef a ((k * count_air a (used (apc_subs_by P) (apc_airs P)) + count_air a (firstn j (used (apc_subs_by P) (apc_airs P)))) * w) w).
  Proof.
    unfold generate_trace, with_subs. destruct (zip_eq (apc_airs P) (apc_subs_by P)) as [z|] eqn:Z; [|discriminate]. apply zip_eq_some in Z as [L ->]. cbn [option_map].
    destruct (filter_used (apc_airs P) (apc_subs_by P) L) as [E1 E2]. set (is := filter _ _) in *. rewrite E1. set (U := used (apc_subs_by P) (apc_airs P)) in *.
    destruct (all_opt (map (fun x => index_map _ (snd x)) is)) as [maps|] eqn:M; [|discriminate].
    destruct (all_opt (map _ (seq 0 calls))) as [values|] eqn:V; [|discriminate]. intros [= <-]. cbn [td_columns td_compute td_maps td_values].
    split; auto. split; auto. split; auto. split.
    { rewrite <- E2. apply all_opt_some in M. clear - M. induction M; cbn; constructor; auto. }
    apply all_opt_nth in V as [LV HV]. rewrite seq_length in LV. split; auto. intros k Hk. destruct (HV k k (nth_seq calls k Hk)) as (refs & R1 & R2). exists refs. split; auto.
    apply all_opt_nth in R2 as [LR HR]. rewrite combine_length, offsets_length, Nat.min_id in LR. split; auto. intros j a Hj.
    pose proof (offsets_nth U (fun _ => 0) j a Hj) as Ho. cbn [Nat.add] in Ho. destruct (HR j _ (combine_nth _ _ _ _ _ Hj Ho)) as (b & B1 & B2). unfold source_row in B2.
    destruct (widths a) as [w|]; [|discriminate]. injection B2 as <-. eauto.
  Qed.

  (** The source of every used instruction of every call: in bounds, and its own row. *)
  Lemma source_ok (P : apc p) widths padding calls A :
    length (apc_airs P) = length (apc_subs_by P) -> Forall (fits (apc_airs P) widths) calls ->
    A = fold_left (exec_call P) calls new_arenas ->
    let U := used (apc_subs_by P) (apc_airs P) in
    forall k call j a r, nth_error calls k = Some call -> nth_error U j = Some a -> nth_error (used (apc_subs_by P) call) j = Some r ->
      slice (chip_trace (ar_real A a) (padding a)) ((k * count_air a U + count_air a (firstn j U)) * widths a) (widths a) = Some r.
  Proof.
    intros L H -> U k call j a r Hk Hj Hr.
    assert (HL : Forall (fun c => length c = length (apc_airs P)) calls).
    { eapply Forall_impl; [|exact H]. intros c Hc. symmetry. unfold fits in Hc. clear - Hc. induction Hc; cbn; auto. }
    destruct (calls_real P calls new_arenas a (eq_sym L) HL) as [-> _]. cbn [new_arenas ar_real app]. fold U. unfold chip_trace. apply concat_slice.
    - apply Forall_forall. intros x Hx. apply in_flat_map in Hx as (c & Hc & Hx). rewrite Forall_forall in H. specialize (H c Hc).
      apply used_forall2 with (subs := apc_subs_by P) in H. fold U in H. unfold of_air in Hx. apply in_map_iff in Hx as ([b y] & <- & Hx). apply filter_In in Hx as [Hx E]. cbn in E |- *. apply N.eqb_eq in E. subst b.
      clear - H Hx. induction H as [|u v l l' Huv H IH]; [destruct Hx|]. cbn in Hx. destruct Hx as [[= -> ->]|Hx]; auto.
    - rewrite flat_map_nth with (n := count_air a U) (x := call); auto.
      + rewrite of_air_nth; auto. rewrite Forall_forall in HL. apply used_length. now rewrite HL; [|apply nth_error_In with k].
      + intros c Hc. apply of_air_length. rewrite Forall_forall in HL. apply used_length. now rewrite HL.
      + now apply count_lt.
  Qed.

  Lemma nth_error_ext_len {A} (l r : list A) : length l = length r -> (forall i x y, nth_error l i = Some x -> nth_error r i = Some y -> x = y) -> l = r.
  Proof.
    revert r. induction l as [|x l IH]; intros [|y r] L H; try discriminate; auto. f_equal; [apply (H 0); auto|]. apply IH; [cbn in L; lia|]. intros i. apply (H (S i)).
  Qed.

  (** ** Filling a row *)
  Lemma set_at_ok i (x : F p) r : i < length r -> exists r', set_at i x r = Some r'.
  Proof. revert i. induction r as [|y r IH]; intros [|i] H; cbn in H |- *; try lia; [eauto|]. destruct (IH i ltac:(lia)) as [r' ->]. cbn. eauto. Qed.
  Lemma set_at_inv i (x : F p) r r' : set_at i x r = Some r' -> length r' = length r /\ i < length r /\ forall j, nth_error r' j = if j =? i then Some x else nth_error r j.
  Proof.
    revert i r'. induction r as [|y r IH]; intros [|i] r'; cbn; try discriminate.
    - intros [= <-]. cbn. split; auto. split; [lia|]. intros [|j]; auto.
    - destruct (set_at i x r) as [r1|] eqn:E; [|discriminate]. intros [= <-]. destruct (IH i r1 E) as (A & B & C). cbn. split; [lia|]. split; [lia|]. intros [|j]; auto. cbn. apply C.
  Qed.
  Lemma copy_columns_inv (src : row) m : forall r r', copy_columns src m r = Some r' -> length r' = length r /\
    (forall i, ~ In i (map snd m) -> nth_error r' i = nth_error r i) /\
    (NoDup (map snd m) -> forall from to, In (from, to) m -> nth_error r' to = nth_error src from).
  Proof.
    induction m as [|[from to] m IH]; intros r r'; cbn [copy_columns].
    - intros [= <-]. split; auto. split; auto. intros _ ? ? [].
    - destruct (nth_error src from) as [x|] eqn:X; [|discriminate]. destruct (set_at to x r) as [r1|] eqn:S1; [|discriminate]. intros H.
      apply set_at_inv in S1 as (L1 & B1 & N1). destruct (IH r1 r' H) as (L & K & V). split; [lia|]. split.
      + intros i Hi. cbn in Hi. rewrite K by tauto. rewrite N1. destruct (Nat.eqb_spec i to); auto. subst. tauto.
      + intros Hn f t Hft. cbn in Hn. inversion Hn as [|? ? Hx Hn']; subst. destruct Hft as [[= <- <-]|Hft]; auto. rewrite K by auto. rewrite N1, Nat.eqb_refl. auto.
  Qed.
  Lemma copy_columns_ok (src : row) m : forall r : row, (forall from to, In (from, to) m -> from < length src /\ to < length r) -> exists r', copy_columns src m r = Some r'.
  Proof.
    induction m as [|[from to] m IH]; intros r H; cbn [copy_columns]; [eauto|]. destruct (H from to (or_introl eq_refl)) as [H1 H2].
    destruct (nth_error src from) as [x|] eqn:X; [|apply nth_error_None in X; lia]. destruct (set_at_ok to x r H2) as [r1 S1]. rewrite S1. apply set_at_inv in S1 as (L1 & _).
    apply IH. intros f t Hft. rewrite L1. apply H. now right.
  Qed.
  Lemma copy_rows_inv (data : N -> row) refs : forall maps r r', copy_rows data refs maps r = Some r' -> length refs = length maps /\ length r' = length r /\
    (forall i, ~ In i (map snd (concat maps)) -> nth_error r' i = nth_error r i) /\
    (NoDup (map snd (concat maps)) -> forall j ref m, nth_error refs j = Some ref -> nth_error maps j = Some m ->
      exists src, slice (data (rr_air ref)) (rr_start ref) (rr_length ref) = Some src /\ forall from to, In (from, to) m -> nth_error r' to = nth_error src from).
  Proof.
    induction refs as [|ref refs IH]; intros [|m maps] r r'; cbn [copy_rows]; try discriminate.
    - intros [= <-]. split; auto. split; auto. split; auto. intros _ [|j]; discriminate.
    - destruct (slice _ _ _) as [src|] eqn:X; [|discriminate]. destruct (copy_columns src m r) as [r1|] eqn:C; [|discriminate]. intros H.
      apply copy_columns_inv in C as (L1 & K1 & V1). destruct (IH maps r1 r' H) as (LL & L & K & V). cbn [concat length]. rewrite map_app. split; [lia|]. split; [lia|]. split.
      + intros i Hi. rewrite in_app_iff in Hi. rewrite K by tauto. apply K1. tauto.
      + intros Hn j ref' m' Hj Hm.
        assert (N1 : NoDup (map snd m)) by (clear - Hn; induction (map snd m) as [|x l IH]; [constructor|]; cbn in Hn; inversion Hn; subst; constructor; [rewrite in_app_iff in *; tauto|auto]).
        assert (N2 : NoDup (map snd (concat maps))) by (clear - Hn; induction (map snd m) as [|x l IH]; cbn in Hn; [auto|]; inversion Hn; auto).
        assert (D : forall x, In x (map snd m) -> ~ In x (map snd (concat maps))).
        { clear - Hn. induction (map snd m) as [|x l IH]; intros y Hy; [destruct Hy|]. cbn in Hn. inversion Hn as [|? ? Hx Hn']; subst. rewrite in_app_iff in Hx. destruct Hy as [<-|Hy]; [tauto|auto]. }
        destruct j as [|j]; cbn in Hj, Hm; [|apply (V N2 j); auto]. injection Hj as <-. injection Hm as <-. exists src. split; auto. intros f t Hft.
        rewrite K by (apply D; apply in_map_iff; now exists (f, t)). apply V1; auto.
  Qed.
  Lemma copy_rows_ok (data : N -> row) refs : forall maps (r : row), length refs = length maps ->
    (forall j ref m, nth_error refs j = Some ref -> nth_error maps j = Some m -> exists src, slice (data (rr_air ref)) (rr_start ref) (rr_length ref) = Some src /\
      forall from to, In (from, to) m -> from < length src /\ to < length r) -> exists r', copy_rows data refs maps r = Some r'.
  Proof.
    induction refs as [|ref refs IH]; intros [|m maps] r L H; try discriminate; cbn [copy_rows]; [eauto|]. destruct (H 0 ref m eq_refl eq_refl) as (src & -> & B).
    destruct (copy_columns_ok src m r B) as [r1 C]. rewrite C. apply copy_columns_inv in C as (L1 & _). apply IH; [cbn in L; lia|]. intros j ref' m' Hj Hm. rewrite L1. apply (H (S j)); auto.
  Qed.

  (** The values in a row, by column. *)
  Definition row_of (cols : list N) (r : row) : var -> F p := fun v => match index_of (vid v) cols with Some i => nth i r 0%F | None => 0%F end.
  Lemma row_holds cols r : NoDup cols -> length r = length cols -> holds cols r (row_of cols r).
  Proof.
    intros Hn L. split; auto. intros i v Hi. unfold row_of. rewrite (nth_index _ _ _ Hn Hi). apply nth_error_nth'. rewrite L. apply nth_error_Some. congruence.
  Qed.
  Lemma eval_in_ok cols (r : row) e x : eval_in cols r e = Some x -> x = aeval (row_of cols r) e.
  Proof.
    revert x. induction e as [v|k|a IHa o b IHb|a IHa]; intros x; cbn.
    - unfold row_of. destruct (index_of (vid v) cols) as [i|]; [|discriminate]. intros H. symmetry. now apply nth_error_nth.
    - now intros [= <-].
    - destruct (eval_in cols r a) as [y|]; [|discriminate]. destruct (eval_in cols r b) as [z|]; [|discriminate]. intros [= <-]. rewrite <- (IHa y), <- (IHb z) by auto. now destruct o.
    - destruct (eval_in cols r a) as [y|]; [|discriminate]. intros [= <-]. cbn. now rewrite <- (IHa y).
  Qed.
  Lemma eval_in_some cols (r : row) e : length r = length cols -> (forall v, occurs v e -> In (vid v) cols) -> exists x, eval_in cols r e = Some x.
  Proof.
    intros L. induction e as [v|k|a IHa o b IHb|a IHa]; cbn; intros H.
    - specialize (H v eq_refl). apply in_index in H. destruct (index_of (vid v) cols) as [i|] eqn:E; [|congruence]. apply index_lt in E. destruct (nth_error r i) eqn:X; [eauto|]. apply nth_error_None in X. lia.
    - eauto.
    - destruct IHa as [x ->]; [auto|]. destruct IHb as [y ->]; [auto|]. eauto.
    - destruct IHa as [x ->]; [auto|]. cbn. eauto.
  Qed.
  Lemma derived_value_ok cols (r : row) m x : derived_value cols r m = Some x -> x = amethod_value (row_of cols r) m.
  Proof.
    destruct m as [k|a b]; cbn; [now intros [= <-]|]. destruct (eval_in cols r b) as [d|] eqn:D; [|discriminate]. apply eval_in_ok in D. rewrite <- D. destruct (is_zero d); [now intros [= <-]|].
    destruct (eval_in cols r a) as [n|] eqn:E; [|discriminate]. apply eval_in_ok in E. rewrite <- E. intros [= <-]. unfold fdiv. ring.
  Qed.
  Lemma row_of_set cols (r : row) r' i id x : NoDup cols -> index_of id cols = Some i -> length r = length cols -> set_at i x r = Some r' ->
    forall v, row_of cols r' v = if (vid v =? id)%N then x else row_of cols r v.
  Proof.
    intros Hn Hi L H v. apply set_at_inv in H as (L' & B & N1). unfold row_of. destruct (N.eqb_spec (vid v) id) as [->|E].
    - rewrite Hi. apply nth_error_nth. now rewrite N1, Nat.eqb_refl.
    - destruct (index_of (vid v) cols) as [j|] eqn:J; auto. pose proof (N1 j) as Nj. destruct (Nat.eqb_spec j i) as [->|Hne].
      + exfalso. apply E. eapply index_inj; eauto.
      + assert (j < length r) by (rewrite L; eapply index_lt; eauto). rewrite (nth_error_nth' r 0%F) in Nj by auto. now apply nth_error_nth.
  Qed.
  Lemma method_value_ext s t (m : amethod p) : (forall v, method_reads m v -> s v = t v) -> amethod_value s m = amethod_value t m.
  Proof.
    destruct m as [k|a b]; cbn; auto. intros H. rewrite (aeval_ext s t a), (aeval_ext s t b); auto.
  Qed.
  Lemma compute_inv cols (ds : list (var * amethod p)) : NoDup cols -> forall r r', length r = length cols -> compute_derived cols ds r = Some r' -> length r' = length cols /\
    (forall v, (forall d, In d ds -> vid (fst d) <> vid v) -> row_of cols r' v = row_of cols r v) /\
    (in_order ds -> forall d, In d ds -> row_of cols r' (fst d) = amethod_value (row_of cols r') (snd d)) /\
    (forall d, In d ds -> In (vid (fst d)) cols).
  Proof.
    intros Hn. induction ds as [|[v m] ds IH]; intros r r' L; cbn [compute_derived].
    - intros [= <-]. split; auto. split; auto. split; intros; contradiction.
    - destruct (index_of (vid v) cols) as [i|] eqn:I1; [|discriminate]. destruct (derived_value cols r m) as [x|] eqn:D; [|discriminate]. destruct (set_at i x r) as [r1|] eqn:S1; [|discriminate].
      intros H. pose proof (row_of_set _ _ _ _ _ _ Hn I1 L S1) as R1. apply set_at_inv in S1 as (L1 & _). destruct (IH r1 r' ltac:(congruence) H) as (L' & K & V & C). split; auto. split; [|split].
      + intros w Hw. rewrite K by (intros d Hd; apply Hw; now right). rewrite R1. destruct (N.eqb_spec (vid w) (vid v)) as [E|E]; auto. exfalso. apply (Hw (v, m)); cbn; auto.
      + intros (O1 & O2 & O3) d [<-|Hd]; [|now apply V]. cbn [fst snd] in *. rewrite K by (intros e He; auto). rewrite R1, N.eqb_refl. rewrite (derived_value_ok _ _ _ _ D). apply method_value_ext. intros w Hw.
        symmetry. rewrite K by (intros e He; apply O2; auto; now right). rewrite R1. destruct (N.eqb_spec (vid w) (vid v)) as [E|E]; auto. exfalso. apply (O2 w Hw (v, m)); cbn; auto.
      + intros d [<-|Hd]; auto. cbn. apply in_index. congruence.
  Qed.
  Lemma compute_ok cols (ds : list (var * amethod p)) : NoDup cols -> (forall d, In d ds -> In (vid (fst d)) cols /\ forall v, method_reads (snd d) v -> In (vid v) cols) ->
    forall r, length r = length cols -> exists r', compute_derived cols ds r = Some r'.
  Proof.
    intros Hn. induction ds as [|[v m] ds IH]; intros H r L; cbn [compute_derived]; [eauto|]. destruct (H (v, m) (or_introl eq_refl)) as [H1 H2]. cbn in H1, H2.
    apply in_index in H1. destruct (index_of (vid v) cols) as [i|] eqn:I1; [|congruence].
    assert (D : exists x, derived_value cols r m = Some x).
    { destruct m as [k|a b]; cbn in *; [eauto|]. destruct (eval_in_some cols r b L ltac:(auto)) as [d ->]. destruct (is_zero d); [eauto|]. destruct (eval_in_some cols r a L ltac:(auto)) as [n ->]. eauto. }
    destruct D as [x ->]. apply index_lt in I1. destruct (set_at_ok i x r ltac:(lia)) as [r1 S1]. rewrite S1. apply set_at_inv in S1 as (L1 & _). apply IH; [intros d Hd; apply H; now right|congruence].
  Qed.
  Lemma all_opt_map {A B} (f : A -> option B) (g : A -> B) l l' : (forall x y, f x = Some y -> y = g x) -> all_opt (map f l) = Some l' -> l' = map g l.
  Proof. intros H. rewrite all_opt_some. induction 1 as [|x y l l' Hxy _ IH]; cbn; [auto|]. now rewrite IH, (H _ _ Hxy). Qed.
  Lemma all_opt_ok {A B} (f : A -> option B) l : (forall x, In x l -> exists y, f x = Some y) -> exists l', all_opt (map f l) = Some l'.
  Proof. induction l as [|x l IH]; intros H; cbn; [eauto|]. destruct (H x) as [y ->]; [now left|]. destruct IH as [l' ->]; [intros; apply H; now right|]. eauto. Qed.
  Lemma replay_ok cols (r : row) b g : replay cols r b = Some g -> g = message (row_of cols r) b.
  Proof.
    unfold replay, message. destruct (eval_in cols r (sb_mult b)) as [m|] eqn:M; [|discriminate]. destruct (all_opt _) as [args|] eqn:E; [|discriminate]. intros [= <-].
    apply eval_in_ok in M. rewrite <- M. f_equal. eapply all_opt_map; [|exact E]. intros x y. apply eval_in_ok.
  Qed.

  (** Substitutions of the autoprecompile: [Apc::new]. *)
  Lemma in_enumerate {A} (l : list A) i a : In (i, a) (enumerate l) <-> nth_error l i = Some a.
  Proof.
    unfold enumerate. assert (G : forall l k, In (i, a) (combine (seq k (length l)) l) <-> k <= i /\ nth_error l (i - k) = Some a).
    { clear l. induction l as [|x l IH]; intros k; cbn [length seq combine]; [cbn; split; [tauto|]; intros [_ H]; destruct (i - k); discriminate|]. cbn [In]. rewrite IH.
      split; [intros [[= -> ->]|[H1 H2]]; [now rewrite Nat.sub_diag|]|].
      - split; [lia|]. now replace (i - k) with (S (i - S k)) by lia.
      - intros [H1 H2]. destruct (Nat.eq_dec i k) as [->|Hne]; [rewrite Nat.sub_diag in H2; injection H2 as ->; now left|]. right. split; [lia|]. now replace (i - k) with (S (i - S k)) in H2 by lia. }
    rewrite G. rewrite Nat.sub_0_r. intuition lia.
  Qed.
  Lemma apc_subs_nth (m : smach p) a j subs : nth_error (al_subs a) j = Some subs ->
    exists s, nth_error (apc_subs m a) j = Some s /\ forall c id, In (c, id) s <-> nth_error subs c = Some id /\ column_id m id.
  Proof.
    intros H. unfold apc_subs. exists (filter (fun x => existsb (N.eqb (snd x)) (unique_ids m)) (enumerate subs)). split; [now rewrite (map_nth_error _ _ _ H)|]. intros c id. rewrite filter_In, in_enumerate. cbn [snd].
    rewrite existsb_exists. unfold column_id. split; intros [H1 H2]; split; auto.
    - destruct H2 as (x & Hx & E). apply N.eqb_eq in E. subst x. apply unique_in in Hx. apply in_map_iff in Hx as (v & <- & Hv). exists v. now rewrite column_refs.
    - destruct H2 as (v & Hv & <-). exists (vid v). rewrite N.eqb_refl. split; auto. apply unique_in. apply in_map. now rewrite <- column_refs.
  Qed.
End TraceFacts.
