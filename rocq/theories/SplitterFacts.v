(** Facts about the constraint splitter. *)
From Coq Require Import NArith ZArith Znumtheory Bool List Lia Ring Field.
From Coq Require Import ZifyBool ZifyN ZifyNat.
From Verif Require Import Field RangeModel RangeFacts ExprModel ExprFacts ExprWf ExprMore SolveModel SolveFacts SplitterModel.
Import ListNotations.
Local Open Scope F_scope.

Section SplitterFacts.
  Context {p : positive}.
  Context (Hp : prime (Z.pos p)).
  Local Notation gexp := (gexp p).
  Local Notation rc := (rc p).
  Local Notation P := (N.pos p).
  Local Notation comp := (comp p).
  Add Ring Fring : (F_ring_theory (p:=p)).

  Definition cval (s : var -> F p) (c : comp) : F p := ccoeff c * eval s (cexpr c).
  Definition csum (s : var -> F p) (l : list comp) : F p := fold_right (fun c acc => cval s c + acc) 0 l.
  Lemma csum_cons s c l : csum s (c :: l) = cval s c + csum s l.
  Proof. reflexivity. Qed.

  Lemma normalize_val s c : cval s (normalize c) = cval s c.
  Proof. unfold normalize, cval. destruct is_in_lower_half; cbn [ccoeff cexpr]; auto. rewrite eval_gneg. ring. Qed.
  Lemma comp_is_zero_val s (c : comp) : comp_is_zero c = true -> cval s c = 0.
  Proof.
    unfold comp_is_zero, cval. rewrite orb_true_iff. intros [H|H].
    - apply is_zero_eq in H. rewrite H. ring.
    - rewrite (gis_zero_eval s _ H). ring.
  Qed.
  Lemma comp_insert_sum s c l : csum s (comp_insert c l) = cval s c + csum s l.
  Proof.
    induction l as [|d l IH]; cbn [comp_insert]; [reflexivity|].
    destruct (feqb (ccoeff d) (ccoeff c)) eqn:E.
    - apply feqb_eq in E. rewrite !csum_cons. unfold cval, comp_add; cbn [ccoeff cexpr]. rewrite eval_gadd, E. ring.
    - rewrite !csum_cons, IH. ring.
  Qed.
  Lemma sort_insert_sum s c l : csum s (sort_insert c l) = cval s c + csum s l.
  Proof.
    induction l as [|d l IH]; cbn [sort_insert]; [reflexivity|].
    destruct fleb; [reflexivity|]. rewrite !csum_cons, IH. ring.
  Qed.
  Lemma sort_sum s l : csum s (fold_right sort_insert [] l) = csum s l.
  Proof. induction l as [|c l IH]; cbn [fold_right]; [reflexivity|]. rewrite sort_insert_sum, IH. reflexivity. Qed.
  Lemma filter_zero_sum s l : csum s (filter (fun c => negb (comp_is_zero c)) l) = csum s l.
  Proof.
    induction l as [|c l IH]; cbn [filter]; [reflexivity|]. destruct (comp_is_zero c) eqn:E; cbn [negb].
    - rewrite IH, csum_cons, (comp_is_zero_val s c E). ring.
    - rewrite !csum_cons, IH. reflexivity.
  Qed.
  Lemma fold_insert_sum s l : forall acc,
    csum s (fold_left (fun acc c => comp_insert (normalize c) acc) l acc) = csum s acc + csum s l.
  Proof.
    induction l as [|c l IH]; intros acc; cbn [fold_left]; [cbn [csum fold_right]; ring|].
    rewrite IH, comp_insert_sum, normalize_val, csum_cons. ring.
  Qed.
  Lemma group_sum s l : csum s (group_components l) = csum s l.
  Proof. unfold group_components. rewrite sort_sum, filter_zero_sum, fold_insert_sum. cbn [csum fold_right]. ring. Qed.
  Lemma comp_of_sum s l : csum s (map comp_of l) = el_sum s l.
  Proof.
    induction l as [|c l IH]; cbn [map]; [reflexivity|]. rewrite csum_cons, el_sum_cons, IH.
    unfold cval, comp_of; cbn [ccoeff cexpr]. rewrite eval_from_var. reflexivity.
  Qed.
  Lemma gsum_comp s l : eval s (gsum (map comp_expr l)) = csum s l.
  Proof.
    rewrite eval_gsum. induction l as [|c l IH]; cbn [map fold_right]; [reflexivity|].
    rewrite IH, csum_cons. f_equal. unfold comp_expr, cval. rewrite eval_gscale. ring.
  Qed.

  (** A property of component expressions preserved by everything the splitter does. *)
  Definition good (Q : var -> Prop) (e : gexp) : Prop := wf e /\ quad e = [] /\ forall v, In v (vars e) -> Q v.
  Definition cgood Q (c : comp) : Prop := good Q (cexpr c).
  Lemma good_gadd Q a b : good Q a -> good Q b -> good Q (gadd a b).
  Proof.
    intros (W1 & A1 & V1) (W2 & A2 & V2). split; [now apply wf_gadd|]. split.
    - unfold gadd. cbn [quad]. rewrite A1, A2. reflexivity.
    - intros v Hv. destruct (vars_gadd a b v Hv); auto.
  Qed.
  Lemma good_gneg Q a : good Q a -> good Q (gneg a).
  Proof.
    intros (W1 & A1 & V1). split; [now apply wf_gneg|]. split.
    - destruct a as [q l c]. cbn in *. now rewrite A1.
    - intros v Hv. rewrite vars_gneg in Hv. auto.
  Qed.
  Lemma good_number Q k : good Q (from_number k).
  Proof. split; [apply wf_from_number|]. split; [reflexivity|]. intros v []. Qed.
  Lemma good_gsub Q a b : good Q a -> good Q b -> good Q (gsub a b).
  Proof. intros. apply good_gadd; auto. now apply good_gneg. Qed.
  Lemma good_gscale Q a k : good Q a -> good Q (gscale a k).
  Proof.
    intros (W1 & A1 & V1). split; [now apply wf_gscale|]. split.
    - unfold gscale. destruct is_zero; [reflexivity|]. destruct a as [q l c]. cbn in *. now rewrite A1.
    - intros v Hv. apply vars_gscale in Hv. auto.
  Qed.
  Lemma good_gsum Q es : Forall (good Q) es -> good Q (gsum es).
  Proof.
    unfold gsum. intros H. assert (G : good Q gzero) by apply (good_number Q 0). revert G. generalize (gzero (p:=p)).
    induction H as [|e es He Hes IH]; intros a Ha; cbn [fold_left]; auto. apply IH. now apply good_gadd.
  Qed.
  Lemma good_var (Q : var -> Prop) v : Q v -> good Q (from_var v).
  Proof. intros H. split; [now apply wf_from_var|]. split; [reflexivity|]. intros w [<-|[]]. exact H. Qed.
  Lemma cgood_normalize Q c : cgood Q c -> cgood Q (normalize c).
  Proof. unfold cgood, normalize. destruct is_in_lower_half; auto. intros. now apply good_gneg. Qed.
  Lemma cgood_insert Q c l : cgood Q c -> Forall (cgood Q) l -> Forall (cgood Q) (comp_insert c l).
  Proof.
    intros Hc. induction l as [|d l IH]; intros Hl; cbn [comp_insert]; [now constructor|].
    inversion_clear Hl. destruct feqb; constructor; auto. unfold cgood, comp_add; cbn. now apply good_gadd.
  Qed.
  Lemma sort_insert_in x c (l : list comp) : In x (sort_insert c l) <-> x = c \/ In x l.
  Proof.
    induction l as [|d l IH]; cbn [sort_insert]; [cbn; intuition congruence|]. destruct fleb; cbn [In]; [intuition congruence|].
    rewrite IH. intuition congruence.
  Qed.
  Lemma sort_in x l : In x (fold_right sort_insert [] l) <-> In x (l : list comp).
  Proof. induction l as [|c l IH]; cbn [fold_right]; [tauto|]. rewrite sort_insert_in, IH. cbn [In]. intuition congruence. Qed.
  Lemma group_good Q l : Forall (cgood Q) l -> Forall (cgood Q) (group_components l).
  Proof.
    intros H. apply Forall_forall. intros c Hc. unfold group_components in Hc. apply (proj1 (sort_in _ _)) in Hc. apply filter_In in Hc.
    destruct Hc as [Hc _]. revert c Hc. apply Forall_forall.
    assert (G : Forall (cgood Q) []) by constructor. revert G. generalize (@nil comp) as acc.
    induction H as [|c l Hc Hl IH]; intros acc Hacc; cbn [fold_left]; auto.
    apply IH. apply cgood_insert; auto. now apply cgood_normalize.
  Qed.
  Lemma group_nonzero l (c : comp) : In c (group_components l) -> comp_is_zero c = false.
  Proof.
    unfold group_components. intros Hc. apply (proj1 (sort_in _ _)) in Hc. apply filter_In in Hc. destruct Hc as [_ H].
    now apply negb_true_iff in H.
  Qed.

  (** ** [find_solution] *)
  Lemma allows_from_zero (r : rc) v : rmin r = 0 -> allows_value r v = true -> (val v <= val (rmax r))%N.
  Proof.
    intros Hm Ha. apply allows_iff in Ha. destruct Ha as [Ha _]. rewrite Hm in Ha.
    replace (v - 0) with v in Ha by ring. replace (rmax r - 0) with (rmax r) in Ha by ring. lia.
  Qed.
  Lemma find_solution_sound fuel g : forall (e : gexp) (k : F p) (rest : gexp) (c x : F p) (s : var -> F p),
    (forall v, In v (vars e) -> allows_value (g v) (s v) = true) ->
    (forall v, In v (vars rest) -> allows_value (g v) (s v) = true) ->
    find_solution fuel g e k rest c = FSome x ->
    eval s e + k * eval s rest + c = 0 -> eval s e = x.
  Proof.
    induction fuel as [|fuel IH]; intros e k rest c x s He Hr Hf Hs; cbn [find_solution] in Hf; [discriminate|].
    destruct (_ || _); [discriminate|].
    assert (Hsub : forall (e' : gexp) m v, In v (vars (gsub e' (from_number m))) -> In v (vars e')).
    { intros e' m v Hv. apply vars_gsub in Hv. destruct Hv as [|[]]; auto. }
    destruct (is_zero (rmin (range_constraint g e))) eqn:E1; cbn [negb] in Hf.
    2:{ destruct (find_solution fuel g (gsub e (from_number (rmin (range_constraint g e)))) _ _ _) eqn:E; try discriminate.
        injection Hf as <-. eapply (IH _ _ _ _ _ s) in E; eauto.
        - rewrite eval_gsub, eval_from_number in E. rewrite <- E. ring.
        - rewrite eval_gsub, eval_from_number. rewrite <- Hs. ring. }
    destruct (is_zero (rmin (range_constraint g rest))) eqn:E2; cbn [negb] in Hf.
    2:{ eapply (IH _ _ _ _ _ s) in Hf; eauto. rewrite eval_gsub, eval_from_number. rewrite <- Hs. ring. }
    apply is_zero_eq in E1, E2.
    destruct (N.leb_spec P (val (rmax (range_constraint g e)) + val k * val (rmax (range_constraint g rest)))); [discriminate|].
    destruct (2 ^ 64 <=? val k + val k)%N; [discriminate|].
    destruct (N.leb_spec (val k + val k) (val (rmax (range_constraint g e)))); [discriminate|].
    destruct (2 ^ 64 <=? val (- c)%F)%N; [discriminate|].
    pose proof (range_constraint_sound g s e He) as Ae. pose proof (range_constraint_sound g s rest Hr) as Ar.
    pose proof (allows_from_zero _ _ E1 Ae) as Be. pose proof (allows_from_zero _ _ E2 Ar) as Br.
    set (E := val (eval s e)) in *. set (R := val (eval s rest)) in *.
    assert (Hlt : (E + val k * R < P)%N) by nia.
    assert (Hc : val (- c)%F = (E + val k * R)%N).
    { assert (Hc : - c = eval s e + k * eval s rest).
      { transitivity (- (eval s e + k * eval s rest + c) + (eval s e + k * eval s rest)); [ring|]. rewrite Hs. ring. }
      transitivity (val (of_N (E + val k * R) : F p)); [|now apply val_of_N_small].
      rewrite Hc, of_N_add, of_N_mul. unfold E, R. now rewrite !of_N_val. }
    assert (Hk : (0 < val k)%N) by lia.
    rewrite Hc in Hf. rewrite N.add_comm, N.mul_comm, N.add_comm, N.mod_add in Hf by lia.
    assert (Hin : In (eval s e) (filter (allows_value (range_constraint g e))
                    [of_N (E mod val k) + of_N 0 * k; of_N (E mod val k) + of_N 1 * k])).
    { apply filter_In. split; auto. cbn [In].
      pose proof (N.div_mod E (val k) ltac:(lia)) as HD.
      assert (E / val k < 2)%N by (apply N.div_lt_upper_bound; lia).
      pose proof (N.mod_lt E (val k) ltac:(lia)).
      remember (E / val k)%N as q eqn:Eq. remember (E mod val k)%N as m eqn:Em. clear Eq.
      assert (q = 0 \/ q = 1)%N as [HQ|HQ] by (clear - H1; lia); rewrite HQ in HD.
      - left. transitivity (of_N E : F p); [|apply of_N_val]. replace (of_N 0 * k) with (0 : F p).
        + transitivity (of_N m : F p); [ring|]. f_equal. lia.
        + change (of_N 0 : F p) with (0 : F p). ring.
      - right; left. transitivity (of_N E : F p); [|apply of_N_val].
        replace (of_N 1 * k) with (of_N (1 * val k) : F p) by (rewrite of_N_mul, of_N_val; reflexivity). rewrite <- of_N_add. f_equal. lia. }
    destruct (filter _ _) as [|y [|z l]]; try discriminate. injection Hf as <-. destruct Hin as [Hin|[]]. auto.
  Qed.

  (** ** The recursion of [find_solution] ends. *)
  Lemma fold_sum_snoc (l : list rc) r x : fold_left combine_sum (l ++ [x]) r = combine_sum (fold_left combine_sum l r) x.
  Proof. now rewrite fold_left_app. Qed.
  Lemma from_value_width (c : F p) : range_width (from_value c : rc) = 1%N.
  Proof.
    unfold range_width, from_value; cbn [rmin rmax]. rewrite range_width_of_eq. replace (c - c) with (0 : F p) by ring.
    rewrite val_zero. reflexivity.
  Qed.
  Lemma range_width_rw (r : rc) : range_width r = (val (rmax r - rmin r)%F + 1)%N.
  Proof. unfold range_width. apply range_width_of_eq. Qed.
  Lemma combine_sum_value (a : rc) c :
    range_width (combine_sum a (from_value c)) <> P -> rmin (combine_sum a (from_value c)) = rmin a + c /\ (range_width a + 1 <= P)%N.
  Proof.
    unfold combine_sum. rewrite from_value_width, unconstrained_width.
    destruct (N.leb_spec (range_width a + 1) P).
    - cbn [rmin rmax from_value]. auto.
    - rewrite range_width_rw. cbn [rmin rmax]. intros H'. exfalso. apply H'.
      pose proof (unconstrained_width (p:=p)) as U. rewrite range_width_rw in U. exact U.
  Qed.
  Lemma combine_sum_value' (a : rc) c : (range_width a + 1 <= P)%N -> rmin (combine_sum a (from_value c)) = rmin a + c.
  Proof.
    unfold combine_sum. rewrite from_value_width, unconstrained_width. intros H.
    destruct (N.leb_spec (range_width a + 1) P); [reflexivity|lia].
  Qed.
  Lemma lretain_wf l : Forall (fun vk : var * F p => snd vk <> 0) l -> lretain_nonzero l = l.
  Proof.
    induction 1 as [|x l H Hl IH]; cbn [lretain_nonzero filter]; auto. apply is_zero_neq in H. rewrite H. cbn [negb].
    f_equal. exact IH.
  Qed.
  Lemma min_shift g e Q : good Q e -> range_width (range_constraint g e) <> P ->
    rmin (range_constraint g (gsub e (from_number (rmin (range_constraint g e))))) = 0.
  Proof.
    intros (W & A & _) Hw. destruct e as [q l c]. cbn in A. subst q. apply wf_GE in W. destruct W as [[_ Wl] _].
    assert (E : forall m, gsub (GE [] l c) (from_number m) = GE [] l (c - m)).
    { intros m. unfold gsub, gadd. cbn [gneg from_number quad lin cst map fold_left]. rewrite lretain_wf; [|exact Wl].
      replace (c - m) with (c + - m) by ring. reflexivity. }
    rewrite E. cbn [range_constraint map app] in *. set (rs := map _ l) in *.
    destruct rs as [|r rs]; cbn [app rc_sum] in *.
    - cbn [fold_left from_value rmin]. ring.
    - rewrite !fold_sum_snoc in *. destruct (combine_sum_value _ _ Hw) as [H1 H2].
      rewrite (combine_sum_value' _ _ H2). rewrite H1. ring.
  Qed.
  Lemma find_shallow1 fuel g (e : gexp) k rest c : rmin (range_constraint g e) = 0 -> rmin (range_constraint g rest) = 0 ->
    find_solution (S fuel) g e k rest c <> FDeep.
  Proof.
    intros E1 E2. cbn [find_solution]. apply is_zero_eq in E1, E2. rewrite E1, E2. cbn [negb].
    repeat match goal with |- context [if ?b then _ else _] => destruct b; try discriminate end.
    destruct (filter _ _) as [|y [|z l]]; discriminate.
  Qed.
  Lemma find_shallow2 fuel g (e : gexp) k rest c Q : good Q rest -> rmin (range_constraint g e) = 0 ->
    find_solution (S (S fuel)) g e k rest c <> FDeep.
  Proof.
    intros G E1. remember (S fuel) as fu eqn:Efu. cbn [find_solution]. subst fu.
    rewrite unconstrained_width.
    destruct (N.eqb_spec (range_width (range_constraint g e)) P); [discriminate|].
    destruct (N.eqb_spec (range_width (range_constraint g rest)) P); [discriminate|]. cbn [orb].
    pose proof E1 as E1'. apply is_zero_eq in E1. rewrite E1. cbn [negb].
    destruct (is_zero (rmin (range_constraint g rest))); cbn [negb].
    - repeat match goal with |- context [if ?b then _ else _] => destruct b; try discriminate end.
      destruct (filter _ _) as [|y [|z l]]; discriminate.
    - apply find_shallow1; auto. eapply min_shift; eauto.
  Qed.
  Lemma find_shallow fuel g (e : gexp) k rest c Q : good Q e -> good Q rest -> find_solution (S (S (S fuel))) g e k rest c <> FDeep.
  Proof.
    intros Ge Gr. remember (S (S fuel)) as fu eqn:Efu. cbn [find_solution]. subst fu.
    rewrite unconstrained_width.
    destruct (N.eqb_spec (range_width (range_constraint g e)) P); [discriminate|].
    destruct (N.eqb_spec (range_width (range_constraint g rest)) P); [discriminate|]. cbn [orb].
    destruct (is_zero (rmin (range_constraint g e))) eqn:E1; cbn [negb].
    - destruct (is_zero (rmin (range_constraint g rest))); cbn [negb].
      + repeat match goal with |- context [if ?b then _ else _] => destruct b; try discriminate end.
        destruct (filter _ _) as [|y [|z l]]; discriminate.
      + eapply find_shallow2; [|now apply is_zero_eq]. apply good_gsub; eauto. apply good_number.
    - pose proof (find_shallow2 fuel g (gsub e (from_number (rmin (range_constraint g e)))) k rest
                    (c + rmin (range_constraint g e)) Q Gr) as H.
      destruct (find_solution (S (S fuel)) g _ k rest _); try discriminate.
      exfalso. apply H; auto. eapply min_shift; eauto.
  Qed.
  Lemma lower_half_small (k : F p) : is_in_lower_half k = true -> (val k + val k < P)%N.
  Proof.
    unfold is_in_lower_half. rewrite N.leb_le. intros H. pose proof (N.div_mod (P - 1) 2 ltac:(lia)).
    pose proof (N.mod_lt (P - 1) 2 ltac:(lia)). lia.
  Qed.
  Lemma find_no_panic fuel g : (P <= 2 ^ 64)%N -> forall (e : gexp) k rest c, is_in_lower_half k = true ->
    find_solution fuel g e k rest c <> FPanic.
  Proof.
    intros H64. induction fuel as [|fuel IH]; intros e k rest c Hk; cbn [find_solution]; [discriminate|].
    destruct (_ || _); [discriminate|]. destruct (negb _).
    - destruct (find_solution fuel _ _ _ _ _) eqn:E; try discriminate. exfalso. eapply IH; eauto.
    - destruct (negb _); [now apply IH|]. destruct (_ <=? _)%N; [discriminate|].
      destruct (N.leb_spec (2 ^ 64) (val k + val k)); [pose proof (lower_half_small k Hk); lia|].
      destruct (_ <=? _)%N; [discriminate|]. destruct (N.leb_spec (2 ^ 64) (val (- c)%F)); [pose proof (val_lt (- c)); lia|].
      destruct (filter _ _) as [|y [|z l]]; discriminate.
  Qed.

  (** ** One step of the loop *)
  Lemma replace_nth_sum s i (l : list comp) : csum s (replace_nth i comp_zero l) = csum s l - cval s (nth i l comp_zero).
  Proof.
    assert (Z : cval s comp_zero = 0) by (unfold cval; cbn [ccoeff comp_zero]; ring).
    revert i. induction l as [|c l IH]; intros [|i]; cbn [replace_nth nth].
    - rewrite Z. ring.
    - rewrite Z. ring.
    - rewrite !csum_cons, Z. ring.
    - rewrite !csum_cons, IH. ring.
  Qed.
  Lemma scaled_val s c k : k <> 0 -> cval s (normalize (comp_div c k)) * k = cval s c.
  Proof.
    intros Hk. rewrite normalize_val. unfold cval, comp_div; cbn [ccoeff cexpr]. unfold fdiv.
    transitivity (ccoeff c * eval s (cexpr c) * (k * finv k)); [ring|]. rewrite (finv_r _ Hp Hk). ring.
  Qed.
  Local Notation restf k idx n l :=
    (map (fun ic => normalize (comp_div (snd ic) k))
         (filter (fun ic => negb (Nat.eqb (fst ic) idx) && negb (comp_is_zero (snd ic)))
            (combine (seq n (length l)) l))).
  Lemma rest_all s k idx (l : list comp) : k <> 0 -> forall n, (idx < n)%nat -> csum s (restf k idx n l) * k = csum s l.
  Proof.
    intros Hk. induction l as [|c l IH]; intros n Hn; cbn [length seq combine filter map]; [cbn [csum fold_right]; ring|].
    cbn [fst snd]. destruct (Nat.eqb_spec n idx); [lia|]. cbn [negb andb].
    destruct (comp_is_zero c) eqn:E; cbn [negb map].
    - rewrite IH by lia. rewrite csum_cons, (comp_is_zero_val s c E). ring.
    - cbn [snd]. rewrite !csum_cons. rewrite <- (IH (S n)) by lia. rewrite <- (scaled_val s c k Hk). ring.
  Qed.
  Lemma rest_sum s k (l : list comp) : k <> 0 -> forall n j, csum s (restf k (n + j)%nat n l) * k = csum s (replace_nth j comp_zero l).
  Proof.
    intros Hk. assert (Z : cval s comp_zero = 0) by (unfold cval; cbn [ccoeff comp_zero]; ring).
    induction l as [|c l IH]; intros n j; cbn [length seq combine filter map].
    - destruct j; cbn [replace_nth csum fold_right]; ring.
    - cbn [fst snd]. destruct j as [|j]; cbn [replace_nth].
      + rewrite Nat.add_0_r, Nat.eqb_refl. cbn [negb andb]. rewrite csum_cons, Z.
        rewrite (rest_all s k n l Hk (S n)) by lia. ring.
      + destruct (Nat.eqb_spec n (n + S j)); [lia|]. cbn [negb andb].
        replace (n + S j)%nat with (S n + j)%nat by lia.
        destruct (comp_is_zero c) eqn:E; cbn [negb map].
        * rewrite IH, csum_cons, (comp_is_zero_val s c E). ring.
        * cbn [snd]. rewrite !csum_cons, <- (IH (S n)), <- (scaled_val s c k Hk). ring.
  Qed.
  Lemma rest_in k idx n l (c : comp) : In c (restf k idx n l) -> exists d, In d l /\ comp_is_zero d = false /\ c = normalize (comp_div d k).
  Proof.
    rewrite in_map_iff. intros ([i d] & <- & H). apply filter_In in H. destruct H as [H1 H2].
    apply in_combine_r in H1. cbn [fst snd] in *. apply andb_true_iff in H2. destruct H2 as [_ H2].
    exists d. split; auto. split; auto. now apply negb_true_iff.
  Qed.
  Lemma min_coeff_in c0 cs : exists c, In c (c0 :: cs) /\ min_coeff c0 cs = ccoeff (p:=p) c.
  Proof.
    unfold min_coeff.
    assert (G : forall l m, (exists c, In c (c0 :: cs) /\ m = ccoeff c) -> incl l (c0 :: cs) ->
                exists c, In c (c0 :: cs) /\ fold_left (fun m d => fmin_ m (ccoeff (p:=p) d)) l m = ccoeff c).
    { induction l as [|d l IH]; intros m Hm Hl; cbn [fold_left]; auto. apply IH; [|intros x Hx; apply Hl; now right].
      unfold fmin_. destruct fleb; auto. exists d. split; auto. apply Hl. now left. }
    apply G; [exists c0; split; [now left|reflexivity]|]. intros x Hx. now right.
  Qed.

  (** The invariant of the loop at index [n]. *)
  Definition split_inv (Q : var -> Prop) (R : (var -> F p) -> Prop) (e : gexp) (n : nat) (st : split_state p) : Prop :=
    (forall s, R s -> (eval s e = 0 <-> csum s (scomps st) + sconst st = 0 /\ Forall (fun x => eval s x = 0) (sparts st))) /\
    Forall (cgood Q) (scomps st) /\ Forall (good Q) (sparts st) /\
    (forall i, (n <= i < length (scomps st))%nat -> comp_is_zero (nth i (scomps st) comp_zero) = false).

  Lemma replace_nth_length {A} i (x : A) l : length (replace_nth i x l) = length l.
  Proof. revert i. induction l; intros [|i]; cbn; auto. Qed.
  Lemma replace_nth_nth {A} i j (x d : A) l : i <> j -> nth j (replace_nth i x l) d = nth j l d.
  Proof.
    revert i j. induction l as [|a l IH]; intros [|i] [|j] H; cbn; auto; try congruence.
  Qed.
  Lemma replace_nth_forall {A} (Q : A -> Prop) i x l : Q x -> Forall Q l -> Forall Q (replace_nth i x l).
  Proof.
    intros Hx Hl. revert i. induction Hl as [|y l Hy Hl IH]; intros [|i]; cbn; constructor; auto.
  Qed.
  Lemma odd_prime : (2 < P)%N -> ((P - 1) mod 2 = 0)%N.
  Proof.
    intros H2. destruct (N.eq_dec ((P - 1) mod 2) 0) as [E|E]; auto. exfalso.
    pose proof (N.mod_lt (P - 1) 2 ltac:(lia)). assert (E1 : ((P - 1) mod 2 = 1)%N) by lia.
    pose proof (N.div_mod (P - 1) 2 ltac:(lia)) as HD. rewrite E1 in HD.
    assert (HZ : (2 | Z.pos p)%Z) by (exists (Z.of_N ((P - 1) / 2) + 1)%Z; lia).
    apply (prime_divisors _ Hp) in HZ. lia.
  Qed.
  Lemma normalize_lower (c : comp) : (2 < P)%N -> is_in_lower_half (ccoeff (normalize c)) = true.
  Proof.
    intros H2. unfold normalize. destruct (is_in_lower_half (ccoeff c)) eqn:E; auto. cbn [ccoeff].
    unfold is_in_lower_half in *. apply N.leb_gt in E. apply N.leb_le.
    pose proof (odd_prime H2). pose proof (N.div_mod (P - 1) 2 ltac:(lia)).
    destruct (val_opp (ccoeff c)); lia.
  Qed.

  Lemma split_step_ok (g : var -> rc) (Q : var -> Prop) (R : (var -> F p) -> Prop) e n st : (2 < P)%N -> (P <= 2 ^ 64)%N ->
    (forall s, R s -> forall v, Q v -> allows_value (g v) (s v) = true) ->
    split_inv Q R e n st -> (n < length (scomps st))%nat ->
    match split_step g st n with
    | Continue st' => split_inv Q R e (S n) st' /\ length (scomps st') = length (scomps st)
    | Break => True
    | StepPanic => False
    end.
  Proof.
    intros H2 H64 HR (Ie & Ic & Ip & Iz) Hn. unfold split_step, split_rest.
    set (cand := nth n (scomps st) comp_zero). pose proof (Iz n ltac:(lia)) as Hcz. fold cand in Hcz.
    assert (Hk0 : ccoeff cand <> 0).
    { unfold comp_is_zero in Hcz. apply orb_false_iff in Hcz. apply is_zero_neq, (proj1 Hcz). }
    assert (Hcg : cgood Q cand).
    { apply Forall_nth with (d := comp_zero) (i := n) in Ic; auto. }
    pose proof (fun s => rest_sum s (ccoeff cand) (scomps st) Hk0 0 n) as Hsum. cbn [Nat.add] in Hsum.
    pose proof (rest_in (ccoeff cand) n 0 (scomps st)) as Hrin.
    destruct (restf (ccoeff cand) n 0%nat (scomps st)) as [|c0 cs] eqn:Erest; [exact I|].
    destruct (min_coeff_in c0 cs) as (cm & Hcm & Ecm). set (k := min_coeff c0 cs) in *.
    assert (Hprop : forall c, In c (c0 :: cs) -> ccoeff c <> 0 /\ is_in_lower_half (ccoeff c) = true /\ cgood Q c).
    { intros c Hc. destruct (Hrin c Hc) as (d & Hd & Hdz & ->). split; [|split].
      - assert (Hd0 : ccoeff d <> 0) by (unfold comp_is_zero in Hdz; apply orb_false_iff in Hdz; apply is_zero_neq, (proj1 Hdz)).
        assert (Hq : ccoeff d / ccoeff cand <> 0).
        { unfold fdiv. intros Hm. apply (mul_eq_zero _ _ Hp) in Hm. destruct Hm as [Hm|Hm]; [auto|].
          exact (finv_neq_zero _ Hp Hk0 Hm). }
        unfold normalize. cbn [comp_div ccoeff]. destruct is_in_lower_half; cbn [ccoeff]; auto.
        intros Ho. apply Hq. now apply opp_eq_zero.
      - now apply normalize_lower.
      - apply cgood_normalize. rewrite Forall_forall in Ic. exact (Ic d Hd). }
    destruct (Hprop cm Hcm) as (Hk & Hlow & _). rewrite <- Ecm in Hk, Hlow.
    assert (E : is_zero (ccoeff cand) || is_zero k || negb (is_in_lower_half k) = false).
    { apply is_zero_neq in Hk0, Hk. now rewrite Hk0, Hk, Hlow. }
    rewrite E.
    set (rest := gsum (map (fun c => comp_expr (comp_div c k)) (c0 :: cs))).
    assert (Grest : good Q rest).
    { apply good_gsum. apply Forall_forall. intros x Hx. apply in_map_iff in Hx. destruct Hx as (c & <- & Hc).
      apply good_gscale. exact (proj2 (proj2 (Hprop c Hc))). }
    assert (Erst : forall s, k * eval s rest = csum s (c0 :: cs)).
    { intros s. unfold rest. rewrite eval_gsum. generalize (c0 :: cs). intros l.
      induction l as [|c l IH]; cbn [map fold_right]; [cbn [csum fold_right]; ring|].
      rewrite csum_cons, <- IH. unfold comp_expr, comp_div, cval; cbn [cexpr ccoeff]. rewrite eval_gscale. unfold fdiv.
      transitivity (ccoeff c * eval s (cexpr c) * (k * finv k)
        + k * fold_right (fun e acc => eval s e + acc) 0 (map (fun c1 => gscale (cexpr c1) (ccoeff c1 * finv k)) l)); [ring|].
      rewrite (finv_r _ Hp Hk). ring. }
    pose proof (find_shallow 0 g (cexpr cand) k rest (sconst st / ccoeff cand) Q Hcg Grest) as HD.
    pose proof (find_no_panic FIND_DEPTH g H64 (cexpr cand) k rest (sconst st / ccoeff cand) Hlow) as HN.
    unfold FIND_DEPTH in *.
    destruct (find_solution 3 g (cexpr cand) k rest (sconst st / ccoeff cand)) as [x| | |] eqn:Ef; try congruence.
    2:{ split; auto. split; [exact Ie|]. split; [exact Ic|]. split; [exact Ip|]. intros i Hi. apply Iz. lia. }
    split; [|cbn [scomps]; apply replace_nth_length].
    split; [|split; [|split]]; cbn [scomps sconst sparts].
    - intros s Rs. rewrite (Ie s Rs). rewrite Forall_app, replace_nth_sum. fold cand.
      assert (Hdec : csum s (scomps st) = cval s cand + csum s (c0 :: cs) * ccoeff cand).
      { rewrite (Hsum s), replace_nth_sum. fold cand. ring. }
      assert (Hfact : csum s (scomps st) + sconst st = 0 -> eval s (cexpr cand) = x).
      { intros Hs. eapply (find_solution_sound 3 g _ _ _ _ _ s); [| |exact Ef|].
        - intros v Hv. apply (HR s Rs). destruct Hcg as (_ & _ & Hq). auto.
        - intros v Hv. apply (HR s Rs). destruct Grest as (_ & _ & Hq). auto.
        - rewrite Erst. apply (f_equal (fun z => z * finv (ccoeff cand))) in Hs. rewrite Hdec in Hs.
          replace (0 * finv (ccoeff cand)) with (0 : F p) in Hs by ring. rewrite <- Hs. unfold cval, fdiv.
          transitivity ((ccoeff cand * finv (ccoeff cand)) * (eval s (cexpr cand) + csum s (c0 :: cs)) + sconst st * finv (ccoeff cand));
          [rewrite (finv_r _ Hp Hk0); ring|ring]. }
      split.
      + intros [Hs Hparts]. pose proof (Hfact Hs) as Hx. split; [|split; auto].
        * unfold cval. rewrite Hx, <- Hs. ring.
        * constructor; [|constructor]. unfold assert_eq. rewrite eval_gsub, eval_from_number, Hx. ring.
      + intros (Hs & Hparts & Hx). inversion_clear Hx as [|? ? Hx' _]. unfold assert_eq in Hx'.
        rewrite eval_gsub, eval_from_number in Hx'. apply (proj1 (sub_eq_zero _ _)) in Hx'. split; auto.
        rewrite <- Hs. unfold cval. rewrite Hx'. ring.
    - apply replace_nth_forall; auto. apply good_number.
    - apply Forall_app. split; auto. constructor; [|constructor]. apply good_gsub; [exact Hcg|apply good_number].
    - intros i Hi. rewrite replace_nth_length in Hi. rewrite replace_nth_nth by lia. apply Iz. lia.
  Qed.

  Lemma split_loop_ok (g : var -> rc) (Q : var -> Prop) (R : (var -> F p) -> Prop) e m : (2 < P)%N -> (P <= 2 ^ 64)%N ->
    (forall s, R s -> forall v, Q v -> allows_value (g v) (s v) = true) ->
    forall n st, split_inv Q R e n st -> length (scomps st) = (n + m)%nat ->
    exists st' n', split_loop g (seq n m) st = Some st' /\ split_inv Q R e n' st'.
  Proof.
    intros H2 H64 HR. induction m as [|m IH]; intros n st HI Hl; cbn [seq split_loop]; [eauto|].
    pose proof (split_step_ok g Q R e n st H2 H64 HR HI ltac:(lia)) as HS.
    destruct (split_step g st n); [|eauto|tauto]. destruct HS as [HI' Hl']. apply IH; auto. lia.
  Qed.

  Lemma recombine_eval s comps c : eval s (recombine comps c) = 0 <-> csum s comps + c = 0.
  Proof.
    unfold recombine. rewrite <- (filter_zero_sum s comps).
    assert (Hnz : Forall (fun x => comp_is_zero (p:=p) x = false) (filter (fun x => negb (comp_is_zero x)) comps)).
    { apply Forall_forall. intros x Hx. apply filter_In in Hx. now apply negb_true_iff. }
    destruct (filter (fun x => negb (comp_is_zero x)) comps) as [|x [|y l]].
    - rewrite eval_gadd, eval_from_number. cbn [map]. change (eval s (gsum [])) with (0 + 0 + 0 : F p).
      cbn [csum fold_right]. replace (0 + 0 + 0 + c) with (0 + c) by ring. tauto.
    - rewrite eval_gadd, eval_from_number. cbn [csum fold_right]. unfold cval.
      inversion_clear Hnz as [|? ? Hx _]. unfold comp_is_zero in Hx. apply orb_false_iff in Hx. destruct Hx as [Hx _].
      apply is_zero_neq in Hx. unfold fdiv.
      assert (E : ccoeff x * eval s (cexpr x) + 0 + c = ccoeff x * (eval s (cexpr x) + c * finv (ccoeff x))).
      { transitivity (ccoeff x * eval s (cexpr x) + c * (ccoeff x * finv (ccoeff x))); [rewrite (finv_r _ Hp Hx); ring|ring]. }
      rewrite E. rewrite (mul_eq_zero_iff _ _ Hp). tauto.
    - rewrite eval_gadd, eval_from_number, gsum_comp. tauto.
  Qed.
  Lemma recombine_good Q comps c : Forall (cgood Q) comps -> good Q (recombine comps c).
  Proof.
    intros H. unfold recombine.
    assert (Hf : Forall (cgood Q) (filter (fun x => negb (comp_is_zero x)) comps)).
    { apply Forall_forall. intros x Hx. apply filter_In in Hx. rewrite Forall_forall in H. apply H, Hx. }
    destruct (filter (fun x => negb (comp_is_zero x)) comps) as [|x [|y l]].
    - apply good_gadd; apply good_number.
    - apply good_gadd; [|apply good_number]. now inversion_clear Hf.
    - apply good_gadd; [|apply good_number]. apply good_gsum. apply Forall_forall. intros z Hz. apply in_map_iff in Hz.
      destruct Hz as (w & <- & Hw). apply good_gscale. rewrite Forall_forall in Hf. exact (Hf w Hw).
  Qed.

  Lemma try_split_ok (g : var -> rc) (e : gexp) : (2 < P)%N -> (P <= 2 ^ 64)%N -> wf e ->
    match try_split_constraint g e with
    | Parts l =>
      (forall s, (forall v, In v (vars e) -> allows_value (g v) (s v) = true) ->
                 (eval s e = 0 <-> Forall (fun x => eval s x = 0) l)) /\
      Forall (fun x => wf x /\ is_affine x = true /\ incl (vars x) (vars e)) l /\ (2 <= length l)%nat
    | NoSplit => True
    | SplitPanic => False
    end.
  Proof.
    intros H2 H64 Hw. unfold try_split_constraint. destruct (is_quadratic e) eqn:Eq; auto.
    destruct (existsb _ _); auto. set (comps := group_components _). destruct (Nat.ltb _ _); auto.
    set (Q := fun v => In v (vars e)).
    set (R := fun s => forall v, In v (vars e) -> allows_value (g v) (s v) = true).
    assert (HI : split_inv Q R e 0 (mkSplit comps (cst e) [])).
    { destruct e as [q l c]. unfold is_quadratic in Eq. cbn [quad] in Eq. destruct q; [|discriminate].
      split; [|split; [|split]]; cbn [scomps sconst sparts].
      - intros s _. unfold comps. rewrite group_sum, comp_of_sum. rewrite eval_GE, eq_sum_nil. cbn [lin cst].
        replace (0 + el_sum s l + c) with (el_sum s l + c) by ring. intuition.
      - apply group_good. apply Forall_forall. intros x Hx. apply in_map_iff in Hx. destruct Hx as (vc & <- & Hvc).
        cbn [lin] in Hvc. unfold cgood, comp_of; cbn [cexpr]. apply good_var. unfold Q. rewrite vars_GE. cbn [qvars flat_map app].
        now apply in_map.
      - constructor.
      - intros i Hi. eapply group_nonzero. apply nth_In. exact (proj2 Hi). }
    destruct (split_loop_ok g Q R e (length comps) H2 H64 (fun s Rs v Hv => Rs v Hv) 0 _ HI eq_refl) as (st & n & -> & HI').
    destruct HI' as (Ie & Ic & Ip & _).
    destruct (sparts st) as [|x0 xs] eqn:Ep; auto. split; [|split].
    - intros s Rs. rewrite (Ie s Rs), Forall_app. rewrite <- recombine_eval. split.
      + intros [A B]; split; auto.
      + intros [A B]. inversion_clear B. auto.
    - assert (G : Forall (good Q) ((x0 :: xs) ++ [recombine (scomps st) (sconst st)])).
      { apply Forall_app. split; auto. constructor; [|constructor]. now apply recombine_good. }
      eapply Forall_impl; [|exact G]. intros x (W & A & V). split; auto. split.
      + unfold is_affine, is_quadratic. now rewrite A.
      + exact V.
    - rewrite app_length. cbn. lia.
  Qed.
End SplitterFacts.
