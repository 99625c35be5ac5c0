(** Facts about profiles and statistics. *)
From Coq Require Import Arith NArith Bool List Ascii String Lia Permutation.
From Verif Require Import NumModel JsonModel SymModel TraceModel TraceSpec AirModel ProfileModel ProfileSpec.
Import ListNotations.
Local Open Scope list_scope.

Lemma record_none e : forall pc, fold_left record_field e (Some pc) <> None.
Proof. induction e as [|f e IH]; intros pc; [discriminate|]. cbn [fold_left]. unfold record_field at 2. destruct (snd f); [|apply IH]. destruct (list_eq_dec N.eq_dec (fst f) (txt "pc")); apply IH. Qed.
Lemma record_last e f : fold_left record_field (e ++ [f]) None = record_field (fold_left record_field e None) f.
Proof. now rewrite fold_left_app. Qed.
Lemma record_ok e : match fold_left record_field e None with Some pc => event_pc e pc | None => forall pc, ~ event_pc e pc end.
Proof.
  induction e as [|f e IH] using rev_ind; [intros pc (a & b & H & _); now destruct a|]. rewrite record_last. revert IH. generalize (fold_left record_field e None). intros r.  unfold record_field. destruct f as [n [v|]]; cbn [fst snd].
  - destruct (list_eq_dec N.eq_dec n (txt "pc")) as [-> | Hn].
    + intros _. exists e, []. split; auto.
    + destruct r as [pc|]; intros IH.
      * destruct IH as (a & b & -> & Hb). exists a, (b ++ [(n, U64 v)]). split; [now rewrite <- app_assoc|]. intros w Hw. apply in_app_iff in Hw. destruct Hw as [Hw | Hw]; [now apply (Hb w)|]. destruct Hw as [Hw | Hw]; [congruence|destruct Hw].
      * intros pc (a & b & E & Hb). destruct (exists_last (l := (txt "pc", U64 pc) :: b)) as (b' & l & Eb); [discriminate|]. rewrite Eb, app_assoc in E. apply app_inj_tail in E. destruct E as [-> <-].
        apply (IH pc). destruct b' as [|x b']; [exfalso; exact (Hn (eq_sym (f_equal (fun l => fst (hd (n, U64 v) l)) Eb)))|]. cbn [app] in Eb. injection Eb as <- ->. exists a, b'. split; auto. intros w Hw. apply (Hb w). apply in_app_iff. now left.
  - destruct r as [pc|]; intros IH.
    + destruct IH as (a & b & -> & Hb). exists a, (b ++ [(n, Other)]). split; [now rewrite <- app_assoc|]. intros w Hw. apply in_app_iff in Hw. destruct Hw as [Hw | Hw]; [now apply (Hb w)|]. destruct Hw as [Hw | Hw]; [congruence|destruct Hw].
    + intros pc (a & b & E & Hb). destruct (exists_last (l := (txt "pc", U64 pc) :: b)) as (b' & l & Eb); [discriminate|]. rewrite Eb, app_assoc in E. apply app_inj_tail in E. destruct E as [-> <-].
      apply (IH pc). destruct b' as [|x b']; [discriminate (f_equal (fun l => snd (hd (n, Other) l)) Eb)|]. cbn [app] in Eb. injection Eb as <- ->. exists a, b'. split; auto. intros w Hw. apply (Hb w). apply in_app_iff. now left.
Qed.
Lemma event_pc_one e pc pc' : event_pc e pc -> event_pc e pc' -> pc = pc'.
Proof.
  intros (a & b & -> & Hb) (a' & b' & E & Hb'). revert a' E. induction a as [|x a IH]; intros [|y a'] E; cbn in E.
  - now injection E.
  - injection E as <- E. exfalso. apply (Hb pc'). rewrite E. apply in_app_iff. right. now left.
  - injection E as -> E. exfalso. apply (Hb' pc). rewrite <- E. apply in_app_iff. right. now left.
  - injection E as _ E. now apply (IH a').
Qed.
Lemma collect_from es : forall acc, fold_left on_event es acc = acc ++ fold_left on_event es [].
Proof.
  induction es as [|e es IH]; intros acc; cbn [fold_left]; [now rewrite app_nil_r|]. rewrite IH, (IH (on_event [] e)). unfold on_event. destruct (fold_left record_field e None); cbn [app]; [now rewrite <- app_assoc|reflexivity].
Qed.
Lemma collect_recorded es : recorded es (fold_left on_event es []).
Proof.
  induction es as [|e es IH]; [constructor|]. cbn [fold_left]. rewrite collect_from. pose proof (record_ok e) as H. unfold on_event at 1. destruct (fold_left record_field e None) as [pc|]; cbn [app]; now constructor.
Qed.
Lemma recorded_one es pcs : recorded es pcs -> forall pcs', recorded es pcs' -> pcs = pcs'.
Proof.
  induction 1 as [|e pc es pcs He H IH|e es pcs He H IH]; intros pcs' H'; inversion H'; subst; auto.
  - f_equal; eauto using event_pc_one.
  - exfalso. eapply H2; eauto.
  - exfalso. eapply He; eauto.
Qed.

(** ** Counts *)
Definition counted (counts : list (N * N)) (pcs : list N) : Prop :=
  NoDup (map fst counts) /\ (forall pc, find_key pc counts = match occurrences pc pcs with 0 => None | S n => Some (N.of_nat (S n)) end) /\
  (forall pc n, In (pc, n) counts -> In pc pcs).
Lemma find_key_in {A} k (l : list (N * A)) v : find_key k l = Some v -> In (k, v) l.
Proof. induction l as [|[k' v'] l IH]; cbn; [discriminate|]. destruct (N.eqb_spec k' k) as [-> | H]; [intros [= ->]; now left|auto]. Qed.
Lemma count_pc_ok pc : forall counts, match count_pc counts pc with
  | Some counts' => find_key pc counts' = Some (match find_key pc counts with Some n => n + 1 | None => 1 end)%N /\ (forall k, k <> pc -> find_key k counts' = find_key k counts) /\
      (forall k, In k (map fst counts') <-> k = pc \/ In k (map fst counts)) /\ (NoDup (map fst counts) -> NoDup (map fst counts')) /\ (forall n, find_key pc counts = Some n -> (n + 1 < 2 ^ 32)%N) /\
      list_sum (map (fun x => N.to_nat (snd x)) counts') = S (list_sum (map (fun x => N.to_nat (snd x)) counts))
  | None => exists n, find_key pc counts = Some n /\ (2 ^ 32 <= n + 1)%N
  end.
Proof.
  induction counts as [|[k n] r IH]; cbn [count_pc find_key].
  - cbn [find_key]. rewrite N.eqb_refl. split; [reflexivity|]. split; [intros k Hk; cbn; destruct (N.eqb_spec pc k); congruence|]. split; [intros k; cbn; intuition|]. split; [intros _; cbn; constructor; [intros []|constructor]|]. split; [discriminate|reflexivity].
  - destruct (N.eqb_spec k pc) as [-> | Hk].
    + destruct (N.ltb_spec (n + 1) (2 ^ 32)) as [Hn | Hn]; [|now exists n]. cbn [find_key]. rewrite N.eqb_refl. split; [reflexivity|]. split; [intros j Hj; destruct (N.eqb_spec pc j); [congruence|reflexivity]|].
      split; [intros j; cbn; intuition|]. split; [auto|]. split; [intros m [= <-]; exact Hn|]. cbn [map list_sum fold_right snd]. unfold list_sum. cbn. lia.
    + destruct (count_pc r pc) as [r'|]; [|exact IH]. destruct IH as (I1 & I2 & I3 & I4 & I5 & I6). cbn [find_key].
      destruct (N.eqb_spec k pc); [congruence|]. split; [exact I1|]. split; [intros j Hj; destruct (N.eqb_spec k j); auto|]. split; [intros j; cbn; rewrite I3; intuition|].
      split; [|split; [exact I5|unfold list_sum in *; cbn in *; lia]]. cbn. intros Hd. inversion Hd as [|? ? Hi Hd']; subst. constructor; [|auto]. rewrite I3. intros [-> | H]; [congruence|contradiction].
Qed.
Lemma count_pcs_ok pcs : forall counts done, NoDup (map fst counts) ->
  (forall pc, find_key pc counts = match occurrences pc done with 0 => None | S n => Some (N.of_nat (S n)) end) ->
  list_sum (map (fun x => N.to_nat (snd x)) counts) = List.length done ->
  (forall k, In k (map fst counts) <-> In k done) ->
  match count_pcs counts pcs with
  | Some counts' => NoDup (map fst counts') /\ (forall pc, find_key pc counts' = match occurrences pc (done ++ pcs) with 0 => None | S n => Some (N.of_nat (S n)) end) /\
      list_sum (map (fun x => N.to_nat (snd x)) counts') = List.length (done ++ pcs) /\ (forall k, In k (map fst counts') <-> In k (done ++ pcs)) /\
      (forall pc, In pc pcs -> (N.of_nat (occurrences pc (done ++ pcs)) < 2 ^ 32)%N)
  | None => exists pc, (2 ^ 32 <= N.of_nat (occurrences pc (done ++ pcs)))%N
  end.
Proof.
  induction pcs as [|pc pcs IH]; intros counts done Hd Hf Hs Hk; cbn [count_pcs].
  - rewrite app_nil_r. split; [exact Hd|]. split; [exact Hf|]. split; [exact Hs|]. split; [exact Hk|intros pc []].
  - pose proof (count_pc_ok pc counts) as H. destruct (count_pc counts pc) as [counts'|].
    + destruct H as (H1 & H2 & H3 & H4 & H5 & H6). replace (done ++ pc :: pcs) with ((done ++ [pc]) ++ pcs) by (now rewrite <- app_assoc).
      assert (Oc : forall k, occurrences k (done ++ [pc]) = occurrences k done + if N.eq_dec pc k then 1 else 0).
      { intros k. unfold occurrences. rewrite count_occ_app. f_equal. }
      assert (Step : forall k, find_key k counts' = match occurrences k (done ++ [pc]) with 0 => None | S n => Some (N.of_nat (S n)) end).
      { intros k. rewrite Oc. destruct (N.eq_dec pc k) as [<- | Hn].
        - rewrite H1, Hf. destruct (occurrences pc done) as [|n]; cbn [Nat.add]; [reflexivity|]. apply f_equal. lia.
        - rewrite H2 by congruence. rewrite Hf. now rewrite Nat.add_0_r. }
      specialize (IH counts' (done ++ [pc]) (H4 Hd) Step). rewrite !app_length, H6, Hs in IH. cbn [List.length] in IH. specialize (IH ltac:(lia)).
      assert (Hk' : forall k, In k (map fst counts') <-> In k (done ++ [pc])). { intros k. rewrite H3, Hk, in_app_iff. cbn. intuition. }
      specialize (IH Hk'). destruct (count_pcs counts' pcs) as [c|]; [|exact IH]. destruct IH as (I1 & I2 & I3 & I4 & I5). split; [exact I1|]. split; [exact I2|]. split; [rewrite !app_length; cbn [List.length]; lia|]. split; [exact I4|].
      intros k [<- | Hi]; [|auto]. destruct (in_dec N.eq_dec pc pcs) as [Hi | Hi]; [auto|]. unfold occurrences. rewrite count_occ_app. fold (occurrences pc (done ++ [pc])). rewrite (proj1 (count_occ_not_In N.eq_dec pcs pc) Hi), Nat.add_0_r, Oc.
      destruct (N.eq_dec pc pc); [|congruence]. specialize (Hf pc). destruct (occurrences pc done) as [|n]; [change (2 ^ 32)%N with 4294967296%N; lia|]. specialize (H5 _ Hf). lia.
    + destruct H as (n & Hn & Hb). exists pc. rewrite Hf in Hn. unfold occurrences. rewrite count_occ_app. fold (occurrences pc done). cbn. destruct (N.eq_dec pc pc); [|congruence].
      destruct (occurrences pc done) as [|j]; [discriminate|]. injection Hn as <-. lia.
Qed.

(** ** Sums *)
Lemma stats_sum_ok l : stats_sum l = mkStats (list_sum (map s_main l)) (list_sum (map s_constraints l)) (list_sum (map s_interactions l)).
Proof.
  unfold stats_sum. assert (G : forall l a, fold_left stats_add l a = stats_add a (mkStats (list_sum (map s_main l)) (list_sum (map s_constraints l)) (list_sum (map s_interactions l)))).
  { clear l. induction l as [|x l IH]; intros a; [destruct a; cbn; unfold stats_add; cbn; now rewrite !Nat.add_0_r|]. cbn [fold_left]. rewrite IH. unfold stats_add, list_sum. cbn. now rewrite !Nat.add_assoc. }
  now rewrite G.
Qed.
Lemma widths_sum_ok l : widths_sum l = (list_sum (map fst l), list_sum (map snd l)).
Proof.
  unfold widths_sum. assert (G : forall l a, fold_left widths_add l a = widths_add a (list_sum (map fst l), list_sum (map snd l))).
  { clear l. induction l as [|x l IH]; intros a; [destruct a; cbn; unfold widths_add; cbn; now rewrite !Nat.add_0_r|]. cbn [fold_left]. rewrite IH. unfold widths_add, list_sum. cbn. now rewrite !Nat.add_assoc. }
  now rewrite G.
Qed.
Lemma each_some_ok {A B} (f : A -> option B) l : (exists ys, each_some f l = Some ys) <-> (forall x, In x l -> f x <> None).
Proof.
  induction l as [|x l IH]; cbn; [split; [intros _ x []|eauto]|]. split.
  - intros (ys & H). destruct (f x) as [y|] eqn:E; [|discriminate]. destruct (each_some f l) as [ys'|]; [|discriminate]. intros z [<- | Hz]; [congruence|]. apply IH; eauto.
  - intros H. destruct (f x) as [y|] eqn:E; [|exfalso; apply (H x); auto]. destruct (proj2 IH) as (ys & ->); eauto.
Qed.
Lemma each_some_map {A B} (f : A -> option B) l ys : each_some f l = Some ys -> map f l = map Some ys.
Proof.
  revert ys. induction l as [|x l IH]; intros ys; cbn; [now intros [= <-]|]. destruct (f x) as [y|]; [|discriminate]. destruct (each_some f l) as [ys'|]; [|discriminate]. intros [= <-]. cbn. f_equal. auto.
Qed.
Lemma each_some_app {A B} (f : A -> option B) l m : each_some f (l ++ m) = match each_some f l, each_some f m with Some a, Some b => Some (a ++ b) | _, _ => None end.
Proof.
  induction l as [|x l IH]; cbn; [now destruct (each_some f m)|]. destruct (f x); [|reflexivity]. rewrite IH. destruct (each_some f l); [|reflexivity]. now destruct (each_some f m).
Qed.
