From Coq Require Import Arith NArith Bool List Lia ZifyBool ZifyNat ZifyN Permutation Sorted.
From Verif Require Import PartModel PartSpec PartFacts BlocksModel EmpModel EmpSpec EmpFacts PropsEmp CollectModel CollectSpec.
Import ListNotations.

(** ** Order of rows *)
Lemma ts_lt_trans a b c : ts_lt a b = true -> ts_lt b c = true -> ts_lt a c = true.
Proof. unfold ts_lt. lia. Qed.
Lemma ts_lt_asym a b : ts_lt a b = true -> ts_lt b a = false.
Proof. unfold ts_lt. lia. Qed.
Lemma ts_lt_irr a : ts_lt a a = false.
Proof. unfold ts_lt. lia. Qed.
Definition time_sorted : list trow -> Prop := StronglySorted (fun a b => ts_lt (tr_time a) (tr_time b) = true).
Definition weakly_sorted : list trow -> Prop := StronglySorted (fun a b => ts_lt (tr_time b) (tr_time a) = false).
Lemma insert_row_perm r l : Permutation (insert_row r l) (r :: l).
Proof. induction l as [|s l IH]; cbn; auto. destruct (ts_lt _ _); auto. etransitivity; [constructor; exact IH|constructor]. Qed.
Lemma sort_rows_perm l : Permutation (rows_sorted_by_time l) l.
Proof. induction l as [|r l IH]; cbn; auto. rewrite insert_row_perm. auto. Qed.
Lemma insert_row_sorted r l : weakly_sorted l -> weakly_sorted (insert_row r l).
Proof.
  induction 1 as [|s l Hl IH H]; cbn; [repeat constructor|]. destruct (ts_lt (tr_time s) (tr_time r)) eqn:E.
  - constructor; auto. eapply Permutation_Forall; [symmetry; apply insert_row_perm|]. constructor; auto. now apply ts_lt_asym.
  - constructor; [constructor; auto|]. constructor; auto. eapply Forall_impl; [|exact H]. cbn. intros a Ha. unfold ts_lt in *. lia.
Qed.
Lemma sort_rows_sorted l : weakly_sorted (rows_sorted_by_time l).
Proof. induction l; cbn; [constructor|now apply insert_row_sorted]. Qed.
Lemma sorted_unique R : forall L, Permutation L R -> weakly_sorted L -> time_sorted R -> L = R.
Proof.
  induction R as [|r R IH]; intros L P W S; [now apply Permutation_nil, Permutation_sym|]. destruct L as [|a L]; [now apply Permutation_nil in P|].
  inversion W as [|? ? W1 W2]; subst. inversion S as [|? ? S1 S2]; subst. assert (a = r) as ->.
  { assert (Ia : In a (r :: R)) by (eapply Permutation_in; [exact P|now left]). assert (Ir : In r (a :: L)) by (eapply Permutation_in; [symmetry; exact P|now left]).
    destruct Ia as [Ia|Ia]; auto. destruct Ir as [Ir|Ir]; auto. rewrite Forall_forall in W2, S2. specialize (W2 _ Ir). specialize (S2 _ Ia). cbn in *. congruence. }
  f_equal. apply IH; auto. eapply Permutation_cons_inv; eauto.
Qed.
Lemma sort_rows l R : Permutation l R -> time_sorted R -> rows_sorted_by_time l = R.
Proof. intros P S. apply sorted_unique; auto; [|apply sort_rows_sorted]. etransitivity; [apply sort_rows_perm|exact P]. Qed.
Lemma sorted_app {A} (P : A -> A -> Prop) a b : StronglySorted P (a ++ b) <-> StronglySorted P a /\ StronglySorted P b /\ (forall x y, In x a -> In y b -> P x y).
Proof.
  induction a as [|x a IH]; cbn [app].
  - split; [intros H; split; [constructor|split; [auto|intros x y []]]|tauto].
  - split.
    + intros H. inversion H as [|? ? H1 H2]; subst. apply IH in H1. destruct H1 as (A1 & A2 & A3). apply Forall_app in H2. destruct H2 as [F1 F2]. split; [constructor; auto|]. split; auto. intros u v [<-|Hu] Hv; [rewrite Forall_forall in F2; auto|auto].
    + intros (H1 & H2 & H3). inversion H1 as [|? ? H4 H5]; subst. constructor; [apply IH; repeat split; auto; intros; apply H3; auto; now right|]. apply Forall_app. split; auto. apply Forall_forall. intros v Hv. apply H3; auto. now left.
Qed.
Lemma filter_all {A} (f : A -> bool) l : Forall (fun x => f x = true) l -> filter f l = l.
Proof. induction 1 as [|x l H _ IH]; cbn; auto. now rewrite H, IH. Qed.
Lemma filter_none {A} (f : A -> bool) l : Forall (fun x => f x = false) l -> filter f l = [].
Proof. induction 1 as [|x l H _ IH]; cbn; auto. now rewrite H, IH. Qed.

Section Facts.
  Context (ord : list (cell * nat) -> list (cell * nat)) (gord : list (list cell) -> list (list cell)).
  Hypothesis ord_perm : forall l, Permutation (ord l) l.
  Hypothesis gord_perm : forall l, Permutation (gord l) l.
  Context (counts : N -> option nat) (air width : N -> nat).

  (** ** Taking complete blocks *)
  Lemma latest_in ts : match latest ts with Some t => In t ts | None => ts = [] end.
  Proof.
    unfold latest. induction ts as [|t ts IH] using rev_ind; [reflexivity|]. rewrite fold_left_app. cbn [fold_left]. destruct (fold_left _ ts None) as [u|].
    - destruct (ts_lt t u); apply in_or_app; [now left|right; now left].
    - apply in_or_app. right. now left.
  Qed.
  Lemma take_ok rows R : Permutation rows R -> time_sorted R ->
    match take_complete_blocks counts rows with
    | Some (c, m) => exists R1 x R2, R = R1 ++ x :: R2 /\ is_start counts (tr_pc x) = true /\ Permutation c R1 /\ Permutation m (x :: R2)
    | None => Forall (fun r => is_start counts (tr_pc r) = false) R
    end.
  Proof.
    intros P S. unfold take_complete_blocks. pose proof (latest_in (map tr_time (filter (fun r => is_start counts (tr_pc r)) rows))) as L. destruct (latest _) as [t|].
    - apply in_map_iff in L. destruct L as (x & <- & Hx). apply filter_In in Hx. destruct Hx as [Hx Hs]. assert (HR : In x R) by (eapply Permutation_in; eauto). destruct (in_split _ _ HR) as (R1 & R2 & ->). exists R1, x, R2. split; auto. split; auto.
      apply sorted_app in S. destruct S as (S1 & S2 & S3). inversion S2 as [|? ? S4 S5]; subst.
      assert (F1 : Forall (fun r => ts_lt (tr_time r) (tr_time x) = true) R1) by (apply Forall_forall; intros r Hr; apply S3; auto; now left).
      assert (F2 : Forall (fun r => ts_lt (tr_time r) (tr_time x) = false) (x :: R2)) by (constructor; [apply ts_lt_irr|eapply Forall_impl; [|exact S5]; cbn; intros; now apply ts_lt_asym]).
      split.
      + rewrite (filter_perm _ _ _ P), filter_app, (filter_all _ R1 F1), (filter_none _ (x :: R2) F2), app_nil_r. reflexivity.
      + rewrite (filter_perm _ _ _ P), filter_app. rewrite (filter_none _ R1), (filter_all _ (x :: R2)); [reflexivity| |]; (eapply Forall_impl; [|eassumption]); cbn; intros a ->; reflexivity.
    - apply Forall_forall. intros r Hr. destruct (is_start counts (tr_pc r)) eqn:E; auto. exfalso. assert (In r (filter (fun r => is_start counts (tr_pc r)) rows)) as Hf by (apply filter_In; split; auto; eapply Permutation_in; [symmetry; exact P|auto]). apply (in_map tr_time) in Hf. rewrite L in Hf. destruct Hf.
  Qed.

  (** ** Runs *)
  Lemma run_nonempty n b : run_of counts n b -> b <> [].
  Proof. intros (f & r & -> & _). discriminate. Qed.
  Lemma complete_nonempty b : complete_run counts b -> b <> [].
  Proof. intros [(r & -> & _)|(n & H & _)]; [discriminate|eapply run_nonempty; eauto]. Qed.
  Lemma complete_inside a x l : complete_run counts (a ++ x :: l) -> a <> [] -> counts (fst x) = None.
  Proof.
    intros [(r & E & _)|(n & (f & r & E & _ & _ & H) & _)] Ha; destruct a as [|y a]; try congruence; cbn in E.
    - destruct a; discriminate.
    - injection E as -> <-. rewrite Forall_forall in H. apply H. apply in_or_app. right. now left.
  Qed.
  Lemma stop_inside n a x l : run_of counts n (a ++ x :: l) -> a <> [] -> counts (fst x) = None.
  Proof. intros (f & r & E & _ & _ & H) Ha. destruct a as [|y a]; try congruence. cbn in E. injection E as -> <-. rewrite Forall_forall in H. apply H. apply in_or_app. right. now left. Qed.
  Lemma cut_at bs : execution counts bs -> forall A x G, concat bs = A ++ x :: G -> counts (fst x) <> None ->
    exists bs1 bs2, bs = bs1 ++ bs2 /\ concat bs1 = A /\ concat bs2 = x :: G /\ execution counts bs1 /\ execution counts bs2.
  Proof.
    induction 1 as [|n b Hb Hl|b bs Hb Hbs IH]; intros A x G E Hx.
    - destruct A; discriminate.
    - cbn in E. rewrite app_nil_r in E. subst b. destruct A as [|a A].
      + exists [], [x :: G]. cbn. rewrite app_nil_r. repeat split; auto; [constructor|econstructor; eauto].
      + exfalso. apply Hx. eapply stop_inside; [exact Hb|discriminate].
    - destruct A as [|a A]; [exists [], (b :: bs); repeat split; auto; [constructor|constructor; auto]|]. cbn [concat] in E.
      assert (C : (exists l, a :: A = b ++ l /\ concat bs = l ++ x :: G) \/ (exists y l, b = (a :: A) ++ y :: l /\ y = x)).
      { pose proof (complete_nonempty b Hb) as Nb. clear -E Nb. revert E. generalize (a :: A) (concat bs). clear Nb. induction b as [|c b IH]; intros L M E; cbn in E; [left; exists L; auto|]. destruct L as [|d L]; cbn in E; injection E as -> E.
        - right. exists x, b. auto.
        - destruct (IH _ _ E) as [(l & -> & E')|(y & l & -> & ->)]; [left; exists l; auto|right; exists x, l; auto]. }
      destruct C as [(l & El & Ec)|(y & l & -> & ->)].
      + destruct (IH l x G Ec Hx) as (b1 & b2 & -> & C1 & C2 & E1 & E2). exists (b :: b1), b2. cbn [concat app]. rewrite C1. repeat split; auto. constructor; auto.
      + exfalso. apply Hx. eapply complete_inside; [exact Hb|discriminate].
  Qed.

  (** ** Blocks of a trace *)
  Definition known (b : list exec) : bool := match b with r :: _ => is_start counts (fst r) | [] => false end.
  Definition pc_of (b : list exec) : N := match b with r :: _ => fst r | [] => 0%N end.
  Lemma run_consecutive b : forall pc, (forall k r, nth_error b k = Some r -> fst r = (pc + 4 * N.of_nat (S k))%N) -> consecutive pc b = true.
  Proof.
    induction b as [|r b IH]; intros pc H; auto. cbn [consecutive]. pose proof (H 0 r eq_refl) as H0. rewrite H0. replace (pc + 4 * N.of_nat 1)%N with (pc + 4)%N by lia. rewrite N.eqb_refl. cbn [andb].
    apply IH. intros k q Hk. rewrite (H (S k) q Hk). lia.
  Qed.
  Lemma batches_ok bs : execution counts bs -> forall fuel, length (concat bs) <= fuel -> batches counts fuel (concat bs) = Some (map (fun b => (pc_of b, b)) (filter known bs)).
  Proof.
    assert (R : forall n b tail fuel, run_of counts n b -> (length b = n \/ length b <= n /\ tail = []) -> length (b ++ tail) <= fuel -> exists fuel', length tail <= fuel' /\
      batches counts fuel (b ++ tail) = option_map (cons (pc_of b, b)) (batches counts fuel' tail) /\ known b = true).
    { intros n b tail fuel (f & r & -> & Hc & Hp & Hr) Hl Hf. destruct fuel as [|fuel]; [cbn in Hf; lia|]. exists fuel. cbn in Hf. split; [rewrite app_length in Hf; lia|]. cbn [batches app]. rewrite Hc. destruct n as [|n]; [cbn in Hl; lia|].
      assert (F1 : firstn n (r ++ tail) = r /\ skipn n (r ++ tail) = tail).
      { destruct Hl as [Hl|[Hl ->]].
        - injection Hl as Hl. subst n. rewrite firstn_app, skipn_app, firstn_all, skipn_all, Nat.sub_diag. cbn. now rewrite app_nil_r.
        - cbn in Hl. rewrite app_nil_r. split; [apply firstn_all2; lia|apply skipn_all2; lia]. }
      destruct F1 as [-> ->]. rewrite run_consecutive; [|intros k q Hk; apply (Hp (S k) q); auto]. split; auto. cbn. unfold is_start. now rewrite Hc. }
    induction 1 as [|n b Hb Hl|b bs Hb Hbs IH]; intros fuel Hf.
    - destruct fuel; reflexivity.
    - cbn [concat] in *. destruct (R n b [] fuel Hb) as (f' & _ & E & K); auto. rewrite E. cbn [filter]. rewrite K. destruct f'; reflexivity.
    - cbn [concat] in *. destruct Hb as [(r & -> & Hr)|(n & Hb & Hl)].
      + destruct fuel as [|fuel]; [cbn in Hf; lia|]. cbn [app batches]. rewrite Hr. cbn [filter known]. unfold is_start. rewrite Hr. apply IH. cbn in Hf. lia.
      + destruct (R n b (concat bs) fuel Hb) as (f' & Hf' & E & K); auto. rewrite E. cbn [filter]. rewrite K, IH; auto.
  Qed.
  Lemma group_ok {B C} (k : B -> N) (v : B -> C) l : let m := fold_left (fun m b => nm_put (k b) (fun q => q ++ [v b]) [v b] m) l [] in
    keys_sorted m /\ forall pc, nm_get pc m = match map v (filter (fun b => (k b =? pc)%N) l) with [] => None | q => Some q end.
  Proof.
    cbn zeta. induction l as [|b l [IH1 IH2]] using rev_ind; [cbn; auto|]. rewrite fold_left_app. cbn [fold_left]. split; [now apply put_sorted|]. intros pc. rewrite get_put by auto. rewrite filter_app, map_app. cbn [filter]. rewrite (N.eqb_sym pc).
    destruct (N.eqb_spec (k b) pc) as [<-|Hk]; cbn [map].
    - rewrite IH2. destruct (map v (filter _ l)); reflexivity.
    - rewrite app_nil_r. apply IH2.
  Qed.
  Lemma with_key_ok {A B} (f : A -> option B) m : keys_sorted m -> (forall k a, nm_get k m = Some a -> f a <> None) ->
    exists m', all_some (map (with_key f) m) = Some m' /\ keys_sorted m' /\ forall k, nm_get k m' = match nm_get k m with Some a => f a | None => None end.
  Proof.
    induction m as [|[k a] m IH]; intros Hs Hf; cbn [map all_some]; [exists []; cbn; auto|]. destruct Hs as [H1 H2].
    destruct IH as (m' & E & K & G); auto. { intros k' a' Hk. apply (Hf k'). cbn. destruct (N.eqb_spec k' k) as [->|]; auto. rewrite (get_gt k m H1) in Hk. discriminate. }
    unfold with_key at 1. cbn [fst snd]. destruct (f a) as [b|] eqn:Eb; [|exfalso; apply (Hf k a); auto; cbn; now rewrite N.eqb_refl]. cbn [option_map]. rewrite E. exists ((k, b) :: m'). split; auto. split.
    - cbn. split; auto. apply Forall_forall. intros [k' b'] Hi. cbn. pose proof (in_get _ _ _ K Hi) as X. rewrite G in X. destruct (nm_get k' m) as [a'|] eqn:Ea; [|discriminate]. apply get_in in Ea. rewrite Forall_forall in H1. apply (H1 _ Ea).
    - intros k'. cbn [nm_get]. destruct (k' =? k)%N; auto.
  Qed.

  (** ** What is known *)
  Record knows (e : emp) (bs : list (list exec)) : Prop := {
    k_ok : emp_ok e;
    k_counts : counts_exact e bs;
    k_classes : classes_exact counts e bs;
    k_ranges : ranges_fit width e bs }.
  Lemma range_perm lo hi c c' : Permutation c c' -> range_fits lo hi c -> range_fits lo hi c'.
  Proof.
    intros P (H1 & H2 & H3 & H4 & H5). unfold range_fits. rewrite <- (Permutation_length P), <- (Permutation_length (filter_perm _ _ _ P)), <- (Permutation_length (filter_perm (fun v => (hi <? v)%N) _ _ P)).
    repeat split; auto; eapply Permutation_in; eauto.
  Qed.
  Lemma instances_known pc bs : instances_of counts pc bs = map (map snd) (map snd (filter (fun pb => (fst pb =? pc)%N) (map (fun b => (pc_of b, b)) (filter known bs)))).
  Proof.
    unfold instances_of. induction bs as [|b bs IH]; auto. cbn [filter]. destruct b as [|r b]; [exact IH|]. cbn [known]. unfold is_start. destruct (counts (fst r)) eqn:E.
    - cbn [map filter fst pc_of]. destruct (N.eqb_spec (fst r) pc) as [<-|]; cbn [andb]; [rewrite E in IH |- *; cbn [map snd]; now rewrite IH|exact IH].
    - destruct (N.eqb_spec (fst r) pc) as [<-|]; cbn [andb]; [rewrite E in IH |- *|]; exact IH.
  Qed.
  Lemma trace_ok rows R bs : Permutation rows R -> time_sorted R -> map tr_exec R = concat bs -> execution counts bs -> Forall (fun r => length (snd r) = width (fst r)) (concat bs) ->
    exists e, trace_constraints ord gord counts rows = Some e /\ knows e bs.
  Proof.
    intros P S E X W. unfold trace_constraints.
    destruct (group_ok tr_pc (fun r => r) rows) as [G1 G2]. fold (rows_by_pc rows) in G1, G2. cbn zeta in G1, G2.
    assert (PE : forall pc, Permutation (map tr_cells (filter (fun b => (tr_pc b =? pc)%N) rows)) (executions_at pc bs)).
    { intros pc. unfold executions_at. rewrite <- E. rewrite (filter_perm _ _ _ P). clear. induction R as [|r R IH]; cbn; auto. unfold tr_pc at 1. destruct (fst (tr_exec r) =? pc)%N; cbn; auto. }
    assert (GE : forall pc, match nm_get pc (rows_by_pc rows) with None => executions_at pc bs = [] | Some l => l <> [] /\ Permutation (map tr_cells l) (executions_at pc bs) end).
    { intros pc. rewrite G2, map_id. specialize (PE pc). destruct (filter _ rows) as [|r l]; [now apply Permutation_nil in PE|]. split; auto. discriminate. }
    assert (WE : forall pc row, In row (executions_at pc bs) -> length row = width pc).
    { intros pc row. unfold executions_at. intros Hr. apply in_map_iff in Hr. destruct Hr as (r & <- & Hr). apply filter_In in Hr. destruct Hr as [Hr Hp]. rewrite Forall_forall in W. rewrite (W r Hr). f_equal. lia. }
    unfold classes_by_block, get_blocks. cbn zeta. rewrite (sort_rows rows R P S), E, (batches_ok bs X _ (le_n _)). cbn [option_map].
    set (bl := map (fun b => (pc_of b, b)) (filter known bs)). destruct (group_ok (@fst N (list exec)) (@snd N (list exec)) bl) as [B1 B2].
    destruct (with_key_ok (fun instances => detect_classes ord gord (map (map snd) instances)) _ B1) as (cl & -> & C1 & C2).
    { intros k a Ha. destruct (detect_classes_ok ord gord ord_perm gord_perm (map (map snd) a)) as (q & -> & _); [|congruence]. rewrite B2 in Ha. destruct (map snd _); [discriminate|]. injection Ha as <-. discriminate. }
    assert (D : forall pc l, nm_get pc (rows_by_pc rows) = Some l -> exists rs, detect_column_ranges (map tr_cells l) = Some rs /\ length rs = width pc /\
      forall col lo hi, nth_error rs col = Some (lo, hi) -> range_fits lo hi (map (fun r => nth col r 0%N) (executions_at pc bs))).
    { intros pc l Hl. specialize (GE pc). rewrite Hl in GE. destruct GE as [Gn Gp].
      destruct (C38_detect_ranges (map tr_cells l) (width pc)) as (rs & -> & L & H); [destruct l; [congruence|discriminate]|intros r Hr; apply (WE pc); eapply Permutation_in; eauto|]. exists rs. split; auto. split; auto.
      intros col lo hi Hn. assert (Hc : col < width pc) by (rewrite <- L; apply nth_error_Some; congruence). destruct (H col Hc) as (lo' & hi' & Hn' & Q). rewrite Hn in Hn'. injection Hn' as <- <-. cbn zeta in Q. destruct Q as (Q1 & Q2 & Q3 & Q4 & Q5).
      apply (range_perm lo hi (map (fun r => nth col r 0%N) (map tr_cells l))); [now apply Permutation_map|]. unfold range_fits. rewrite (map_length (fun r => nth col r 0%N)). repeat split; auto; lia. }
    unfold ranges_by_pc. destruct (with_key_ok (fun l => detect_column_ranges (map tr_cells l)) _ G1) as (rg & -> & R1 & R2).
    { intros k a Ha. destruct (D k a Ha) as (rs & -> & _). discriminate. }
    eexists. split; [reflexivity|]. split.
    - split; [exact R1|]. split; [exact C1|]. cbn [pc_counts block_classes]. split.
      + clear -G1. induction (rows_by_pc rows) as [|[k l] m IH]; cbn [map]; auto. destruct G1 as [H1 H2]. split; auto. apply Forall_forall. intros x Hx. apply in_map_iff in Hx. destruct Hx as ([k' l'] & <- & Hi). rewrite Forall_forall in H1. apply (H1 _ Hi).
      + apply Forall_forall. intros [k q] Hi. cbn [snd]. pose proof (in_get _ _ _ C1 Hi) as Hq. rewrite C2, B2 in Hq. destruct (map snd (filter _ bl)) as [|b l]; [discriminate|].
        destruct (detect_classes_ok ord gord ord_perm gord_perm (map (map snd) (b :: l))) as (q' & Eq & Ok & _); [discriminate|]. rewrite Eq in Hq. injection Hq as <-. exact Ok.
    - intros pc. unfold count_of. cbn [pc_counts]. assert (M : forall m : list (N * list trow), nm_get pc (map (fun kv => (fst kv, N.of_nat (length (snd kv)))) m) = option_map (fun l => N.of_nat (length l)) (nm_get pc m)).
      { induction m as [|[k l] m IH]; cbn; auto. destruct (pc =? k)%N; auto. }
      rewrite M. specialize (GE pc). destruct (nm_get pc (rows_by_pc rows)) as [l|]; cbn [option_map]; [|now rewrite GE]. destruct GE as [_ GE]. apply Permutation_length in GE. rewrite map_length in GE. now rewrite GE.
    - intros pc. cbn [block_classes]. rewrite C2, B2, instances_known. fold bl. destruct (map snd (filter _ bl)) as [|b l]; [reflexivity|].
      destruct (detect_classes_ok ord gord ord_perm gord_perm (map (map snd) (b :: l))) as (q & -> & _ & H); [discriminate|]. split; [discriminate|exact H].
    - intros pc. cbn [column_ranges]. rewrite R2. specialize (GE pc). destruct (nm_get pc (rows_by_pc rows)) as [l|] eqn:El; [|exact GE]. destruct (D pc l El) as (rs & -> & L & H). destruct GE as [Gn Gp]. split; auto. intros Z. rewrite Z in Gp. apply Permutation_sym, Permutation_nil in Gp. destruct l; [congruence|discriminate].
  Qed.
  Lemma executions_app pc a b : executions_at pc (a ++ b) = executions_at pc a ++ executions_at pc b.
  Proof. unfold executions_at. now rewrite concat_app, filter_app, map_app. Qed.
  Lemma instances_app pc a b : instances_of counts pc (a ++ b) = instances_of counts pc a ++ instances_of counts pc b.
  Proof. unfold instances_of. now rewrite filter_app, map_app. Qed.
  Lemma filter_length_le {A} (f g : A -> bool) l : (forall x, f x = true -> g x = true) -> length (filter f l) <= length (filter g l).
  Proof. intros H. induction l as [|x l IH]; cbn; auto. destruct (f x) eqn:E; [rewrite (H x E); cbn; lia|destruct (g x); cbn; lia]. Qed.
  Lemma range_app la ha lb hb a b : range_fits la ha a -> range_fits lb hb b -> range_fits (N.min la lb) (N.max ha hb) (a ++ b).
  Proof.
    intros (A1 & A2 & A3 & A4 & A5) (B1 & B2 & B3 & B4 & B5). unfold range_fits. rewrite !filter_app, !app_length, !in_app_iff.
    split; [destruct (N.min_spec la lb) as [[_ ->]|[_ ->]]; auto|]. split; [destruct (N.max_spec ha hb) as [[_ ->]|[_ ->]]; auto|]. split; [lia|].
    assert (L : forall c l, length (filter (fun v => (v <? N.min la lb)%N) c) <= l -> 100 * length (filter (fun v => (v <? N.min la lb)%N) c) <= 100 * l) by (intros; lia).
    split.
    - pose proof (filter_length_le (fun v => (v <? N.min la lb)%N) (fun v => (v <? la)%N) a ltac:(intros u Hu; cbn beta in *; rewrite N.ltb_lt in *; lia)). pose proof (filter_length_le (fun v => (v <? N.min la lb)%N) (fun v => (v <? lb)%N) b ltac:(intros u Hu; cbn beta in *; rewrite N.ltb_lt in *; lia)). lia.
    - pose proof (filter_length_le (fun v => (N.max ha hb <? v)%N) (fun v => (ha <? v)%N) a ltac:(intros u Hu; cbn beta in *; rewrite N.ltb_lt in *; lia)). pose proof (filter_length_le (fun v => (N.max ha hb <? v)%N) (fun v => (hb <? v)%N) b ltac:(intros u Hu; cbn beta in *; rewrite N.ltb_lt in *; lia)). lia.
  Qed.
  Lemma combine_knows a b A B : knows a A -> knows b B -> exists e, combine_with ord gord a b = Some e /\ knows e (A ++ B).
  Proof.
    intros [A1 A2 A3 A4] [B1 B2 B3 B4]. destruct (combine_with_ok ord gord ord_perm gord_perm a b A1 B1) as (e & E & He & R & C & D). exists e. split; auto. split; auto.
    - intros pc. rewrite D, A2, B2, executions_app, app_length. lia.
    - intros pc. specialize (A3 pc). specialize (B3 pc). specialize (C pc). rewrite instances_app. destruct (nm_get pc (block_classes a)) as [pa|], (nm_get pc (block_classes b)) as [pb|].
      + destruct C as (r & -> & C). destruct A3 as [A3 A3'], B3 as [B3 B3']. split; [intros Z; apply app_eq_nil in Z; tauto|]. intros x y Hxy. rewrite C, A3', B3' by auto. split.
        * intros [H1 H2] rows Hr. apply in_app_or in Hr. destruct Hr; auto.
        * intros H. split; intros rows Hr; apply H; apply in_or_app; auto.
      + rewrite C, B3, app_nil_r. exact A3.
      + rewrite C, A3. exact B3.
      + rewrite C, A3, B3. reflexivity.
    - intros pc. specialize (A4 pc). specialize (B4 pc). rewrite R, executions_app. destruct (nm_get pc (column_ranges a)) as [ra|], (nm_get pc (column_ranges b)) as [rb|].
      + destruct A4 as (A4 & LA & A5), B4 as (B4 & LB & B5). split; [intros Z; apply app_eq_nil in Z; tauto|]. split.
        * rewrite <- LA. clear -LA LB. revert rb LB. revert LA. generalize (width pc). intros w. revert w. induction ra as [|[x y] ra IH]; intros w LA [|[z u] rb] LB; cbn in *; auto. destruct w; [discriminate|]. injection LA as LA. injection LB as LB. now rewrite (IH w LA rb LB).
        * intros col lo hi Hn. rewrite widen_nth in Hn. rewrite map_app. destruct (nth_error ra col) as [[la ha]|] eqn:Ea, (nth_error rb col) as [[lb hb]|] eqn:Eb; try discriminate.
          -- injection Hn as <- <-. apply range_app; eauto.
          -- apply nth_error_None in Eb. assert (col < length ra) by (apply nth_error_Some; congruence). lia.
      + rewrite B4, app_nil_r. exact A4.
      + rewrite A4. exact B4.
      + now rewrite A4, B4.
  Qed.

  (** ** AIRs of instructions *)
  Definition airs_ok (m : list (N * nat)) : Prop := keys_sorted m /\ forall pc a, nm_get pc m = Some a -> a = air pc.
  Lemma merge_entry_ok m pc : airs_ok m -> exists m', merge_entry (Some m) (pc, air pc) = Some m' /\ airs_ok m'.
  Proof.
    intros [H1 H2]. cbn. destruct (nm_get pc m) as [a|] eqn:E.
    - rewrite (H2 _ _ E), Nat.eqb_refl. exists m. split; auto. split; auto.
    - eexists. split; [reflexivity|]. split; [now apply put_sorted|]. intros k a. rewrite get_put by auto. destruct (N.eqb_spec k pc) as [->|]; [rewrite E; congruence|auto].
  Qed.
  Lemma merge_ok a b : airs_ok a -> airs_ok b -> exists m, merge_maps a b = Some m /\ airs_ok m.
  Proof.
    unfold merge_maps. intros Ha [Hs Hb]. assert (I : forall k v, In (k, v) b -> v = air k) by (intros k v Hi; apply Hb; now apply in_get). clear Hs Hb. revert a Ha. induction b as [|[k v] b IH]; intros a Ha; cbn [fold_left]; [exists a; auto|].
    rewrite (I k v (or_introl eq_refl)). destruct (merge_entry_ok a k Ha) as (m & -> & Hm). apply IH; auto. intros; apply I; now right.
  Qed.
  Lemma process_ok d rows airs R bs0 bs : knows (fst d) bs0 -> airs_ok (snd d) -> airs_ok airs -> Permutation rows R -> time_sorted R -> map tr_exec R = concat bs -> execution counts bs ->
    Forall (fun r => length (snd r) = width (fst r)) (concat bs) -> exists d', process_trace ord gord counts d rows airs = Some d' /\ knows (fst d') (bs0 ++ bs) /\ airs_ok (snd d').
  Proof.
    intros K Hd Ha P S E X W. unfold process_trace. destruct (trace_ok rows R bs P S E X W) as (e & -> & Ke). destruct (combine_knows _ _ _ _ K Ke) as (e' & -> & Ke'). destruct (merge_ok _ _ Hd Ha) as (m & -> & Hm). eexists. split; [reflexivity|]. auto.
  Qed.
  Definition to_row (seg : nat) (r : crow) : trow := mkRow (cr_pc r, cr_cells r) (seg, cr_ts r).
  Definition chips_ok (chips : list chip) : Prop := forall c r, In c chips -> ch_instruction c = true -> In r (ch_rows c) -> cr_mult r <> 0%N -> air (cr_pc r) = ch_air c /\ length (cr_cells r) = width (cr_pc r).
  Lemma push_rows_ok seg a l : forall rows airs, airs_ok airs -> (forall r, In r l -> cr_mult r <> 0%N -> air (cr_pc r) = a) ->
    exists airs', fold_left (push_row seg a) l (Some (rows, airs)) = Some (rows ++ map (to_row seg) (filter (fun r => negb (cr_mult r =? 0)%N) l), airs') /\ airs_ok airs'.
  Proof.
    induction l as [|r l IH]; intros rows airs Ha H; cbn [fold_left filter]; [exists airs; cbn; rewrite app_nil_r; auto|]. unfold push_row at 2. destruct (N.eqb_spec (cr_mult r) 0) as [E|E]; cbn [negb].
    - apply IH; auto. intros; apply H; auto. now right.
    - rewrite <- (H r (or_introl eq_refl) E). destruct (merge_entry_ok airs (cr_pc r) Ha) as (m & -> & Hm). cbn [option_map]. rewrite (H r (or_introl eq_refl) E). destruct (IH (rows ++ [to_row seg r]) m Hm) as (m' & Em & Hm'); [intros; apply H; auto; now right|]. exists m'. split; auto. unfold to_row in Em at 1. rewrite Em. cbn [map]. now rewrite <- app_assoc.
  Qed.
  Lemma push_chips_ok seg chips : forall rows airs, airs_ok airs -> chips_ok chips ->
    exists airs', fold_left (push_chip seg) chips (Some (rows, airs)) = Some (rows ++ map (to_row seg) (instruction_rows chips), airs') /\ airs_ok airs'.
  Proof.
    unfold instruction_rows. induction chips as [|c chips IH]; intros rows airs Ha H; cbn [fold_left flat_map]; [exists airs; cbn; rewrite app_nil_r; auto|]. assert (H' : chips_ok chips) by (intros c' r Hc; apply H; now right). unfold push_chip at 2. rewrite filter_app, map_app, app_assoc. destruct (ch_instruction c) eqn:E.
    - destruct (push_rows_ok seg (ch_air c) (ch_rows c) rows airs Ha) as (m & -> & Hm); [intros r Hr Hz; apply (H c r); auto; now left|]. apply IH; auto.
    - cbn [filter map]. rewrite app_nil_r. apply IH; auto.
  Qed.

  (** ** The segments *)
  Lemma recorded_rows seg chips steps rows R : recorded chips steps -> Permutation rows R -> time_sorted R -> Forall (fun r => fst (tr_time r) < seg) R ->
    exists R', Permutation (rows ++ map (to_row seg) (instruction_rows chips)) (R ++ R') /\ time_sorted (R ++ R') /\ map tr_exec R' = steps /\ Forall (fun r => fst (tr_time r) < S seg) (R ++ R') /\ length R' = length (instruction_rows chips).
  Proof.
    intros (q & P & S & <-) PR SR L. exists (map (to_row seg) q). split; [apply Permutation_app; auto; now apply Permutation_map|]. split.
    - apply sorted_app. split; auto. split.
      + clear -S. induction S as [|r q S IH F]; cbn; constructor; auto. apply Forall_forall. intros x Hx. apply in_map_iff in Hx. destruct Hx as (y & <- & Hy). rewrite Forall_forall in F. specialize (F y Hy). unfold ts_lt. cbn. lia.
      + intros x y Hx Hy. apply in_map_iff in Hy. destruct Hy as (z & <- & _). rewrite Forall_forall in L. specialize (L x Hx). cbv beta in L. unfold ts_lt. cbn [to_row tr_time fst snd]. apply Nat.ltb_lt in L. now rewrite L.
    - split; [rewrite map_map; reflexivity|]. split.
      + apply Forall_app. split; [eapply Forall_impl; [|exact L]; cbn; lia|]. apply Forall_forall. intros x Hx. apply in_map_iff in Hx. destruct Hx as (z & <- & _). cbn. lia.
      + rewrite map_length. symmetry. now apply Permutation_length.
  Qed.
  (** The next rows are not all rows of instructions in no block. *)
  Definition starts (max seg : nat) (R : list trow) (segments : list (list chip)) (bs : list (list exec)) : Prop :=
    seg + length segments < max \/ (match bs with b :: _ => known b = true | [] => False end /\ match segments with [] => True | c :: _ => R <> [] \/ instruction_rows c <> [] end).
  Lemma loop_ok max segments pieces : Forall2 recorded segments pieces -> 0 < max -> forall seg rows airs d R bs0 bs,
    Forall chips_ok segments -> Permutation rows R -> time_sorted R -> Forall (fun r => fst (tr_time r) < seg) R -> map tr_exec R ++ concat pieces = concat bs -> execution counts bs ->
    starts max seg R segments bs -> Forall (fun r => length (snd r) = width (fst r)) (concat bs) -> knows (fst d) bs0 -> airs_ok (snd d) -> airs_ok airs ->
    exists rows' airs' d' R' bs0' bs', segments_loop ord gord counts max seg segments (rows, airs) d = Some ((rows', airs'), d') /\ Permutation rows' R' /\ time_sorted R' /\ map tr_exec R' = concat bs' /\
      execution counts bs' /\ knows (fst d') bs0' /\ bs0' ++ bs' = bs0 ++ bs /\ airs_ok (snd d') /\ airs_ok airs' /\ Forall (fun r => length (snd r) = width (fst r)) (concat bs').
  Proof.
    intros H Hmax. induction H as [|chips piece segments pieces Hr Hrest IH]; intros seg rows airs d R bs0 bs HC P S L E X St W K Hd Ha.
    - cbn [concat] in E. rewrite app_nil_r in E. exists rows, airs, d, R, bs0, bs. cbn. repeat split; auto; apply K || apply Hd || apply Ha.
    - inversion HC as [|? ? HC1 HC2]; subst. cbn [segments_loop]. unfold segment_callback. destruct (push_chips_ok seg chips rows airs Ha HC1) as (airs1 & E0 & Ha1). unfold state in *. rewrite E0. clear E0. destruct max as [|max']; [lia|]. set (max := Datatypes.S max') in *. clearbody max.
      destruct (recorded_rows seg chips piece rows R Hr P S L) as (Rn & P1 & S1 & E1 & L1 & Len). cbn [concat] in E. rewrite app_assoc, <- E1, <- map_app in E.
      destruct (Nat.eqb_spec ((seg + 1) mod max) 0) as [M|M].
      + destruct St as [St|[St1 St2]]; [exfalso; cbn [length] in St; rewrite Nat.mod_small in M by (clear - St; lia); clear - M; lia|].
        assert (NE : R ++ Rn <> []) by (destruct St2 as [St2|St2]; intros Z; apply app_eq_nil in Z; destruct Z as [Z1 Z2]; [congruence|subst Rn; destruct (instruction_rows chips); [congruence|discriminate]]).
        pose proof (take_ok _ _ P1 S1) as T. destruct (take_complete_blocks counts _) as [[c m]|].
        * destruct T as (R1 & x & R2 & ER & Hx & Pc & Pm). rewrite ER in *. clear NE. rewrite map_app, <- app_assoc in E. cbn [map app] in E.
          destruct (cut_at bs X _ _ _ (eq_sym E)) as (b1 & b2 & -> & C1 & C2 & X1 & X2); [unfold is_start, tr_pc in Hx; destruct (counts _); [discriminate|discriminate]|].
          apply sorted_app in S1. destruct S1 as (S1 & S2 & _). rewrite concat_app in W. apply Forall_app in W. destruct W as [W1 W2].
          destruct (process_ok d c airs1 R1 bs0 b1 K Hd Ha1 Pc S1 (eq_sym C1) X1 W1) as (d' & -> & K' & Hd'). cbn [option_map].
          destruct (IH (Datatypes.S seg) m [] d' (x :: R2) (bs0 ++ b1) b2) as (rows' & airs' & d2 & R' & q0 & q & Q); auto.
          -- apply Forall_app in L1. apply L1.
          -- right. split; [|destruct segments; auto; left; discriminate]. destruct b2 as [|b b2]; [discriminate|]. cbn [concat] in C2. destruct b as [|y b]; [|cbn in C2; injection C2 as -> _; exact Hx]. exfalso. inversion X2 as [|n b' Hb Hl|b' bs' Hb Hbs]; subst; [now apply run_nonempty in Hb|now apply complete_nonempty in Hb].
          -- split; [exact I|intros pc a; discriminate].
          -- exists rows', airs', d2, R', q0, q. rewrite <- app_assoc in Q. exact Q.
        * exfalso. destruct bs as [|b bs]; [destruct St1|]. destruct b as [|y b]; [discriminate|]. cbn [concat app] in E. destruct (R ++ Rn) as [|z Z]; [congruence|]. cbn in E. injection E as Ez _. inversion T as [|? ? T1 _]; subst. unfold tr_pc in T1. cbn in St1. congruence.
      + apply (IH (Datatypes.S seg) _ _ d (R ++ Rn) bs0 bs); auto. destruct St as [St|[St1 St2]]; [left; cbn [length] in St; lia|]. right. split; auto. destruct segments; auto. left. destruct St2 as [St2|St2]; intros Z; apply app_eq_nil in Z; destruct Z as [Z1 Z2]; [congruence|subst Rn; destruct (instruction_rows chips); [congruence|discriminate]].
  Qed.
  Lemma input_ok max segments bs0 bs d : 0 < max -> segmented segments bs -> execution counts bs -> laid_out air width segments -> starts max 0 [] segments bs -> knows (fst d) bs0 -> airs_ok (snd d) ->
    exists d', detect_from_input ord gord counts max segments d = Some d' /\ knows (fst d') (bs0 ++ bs) /\ airs_ok (snd d').
  Proof.
    intros Hm (pieces & Hp & Hc) X HL St K Hd. unfold detect_from_input.
    assert (W : Forall (fun r : exec => length (snd r) = width (fst r)) (concat bs)).
    { rewrite <- Hc. clear -Hp HL. induction Hp as [|c q segments pieces (rows & P & _ & <-) Hr IH]; cbn [concat]; [constructor|]. apply Forall_app. split; [|apply IH; intros chips c' r Hi; apply (HL chips); now right].
      apply Forall_forall. intros x Hx. apply in_map_iff in Hx. destruct Hx as (r & <- & Hi). cbn. assert (Hi' : In r (instruction_rows c)) by (eapply Permutation_in; [symmetry; exact P|auto]). unfold instruction_rows in Hi'. apply filter_In in Hi'. destruct Hi' as [Hi' Hz].
      apply in_flat_map in Hi'. destruct Hi' as (ch & Hch & Hi'). destruct (ch_instruction ch) eqn:Ech; [|destruct Hi']. apply (HL c ch r); auto; [now left|lia]. }
    destruct (loop_ok max segments pieces Hp Hm 0 [] [] d [] bs0 bs) as (rows & airs & d' & R & b0 & b & -> & P & S & E & X' & K' & Q & A1 & A2 & W'); auto.
    - apply Forall_forall. intros chips Hi c r. apply (HL chips c r Hi).
    - constructor.
    - split; [exact I|intros pc a; discriminate].
    - rewrite <- Q. apply (process_ok d' rows airs R b0 b); auto.
  Qed.
  Lemma detect_ok max inputs runs : 0 < max -> Forall2 segmented inputs runs -> Forall (execution counts) runs -> Forall (laid_out air width) inputs -> Forall2 (starts max 0 []) inputs runs ->
    exists e, detect ord gord counts max inputs = Some e /\ knows e (concat runs).
  Proof.
    intros Hm H. unfold detect. assert (G : forall d bs0, knows (fst d) bs0 -> airs_ok (snd d) -> Forall (execution counts) runs -> Forall (laid_out air width) inputs -> Forall2 (starts max 0 []) inputs runs ->
      exists d', fold_left (fun d i => match d with Some d => detect_from_input ord gord counts max i d | None => None end) inputs (Some d) = Some d' /\ knows (fst d') (bs0 ++ concat runs)).
    { induction H as [|i bs inputs runs Hi Hr IH]; intros d bs0 K Hd X HL St; cbn [fold_left concat]; [exists d; rewrite app_nil_r; auto|]. inversion X; inversion HL; inversion St; subst.
      destruct (input_ok max i bs0 bs d Hm Hi) as (d' & -> & K' & Hd'); auto. rewrite app_assoc. apply IH; auto. }
    intros X HL St. destruct (G (emp_default, []) []) as (d' & -> & K'); auto.
    - split; try (intros pc; reflexivity). repeat split; constructor.
    - split; [exact I|intros pc a; discriminate].
    - exists (fst d'). auto.
  Qed.
End Facts.
