(** Facts about the low-degree optimizer. *)
From Coq Require Import Arith NArith ZArith Znumtheory Bool List Permutation Lia ZifyBool ZifyNat.
From Verif Require Import Field RangeModel ExprModel ExprFacts SolveModel SystemModel Spec Bridge BusModel OvmModel OvmSpec PassSpec LowModel LowSpec.
Import ListNotations.
Local Open Scope nat_scope.
Set Default Proof Using "Type".

Section Lists.
  Context {A : Type}.
  Lemma picks_perm (l : list A) x r : In (x, r) (picks l) -> Permutation l (x :: r).
  Proof.
    revert x r. induction l as [|y l IH]; intros x r; cbn [picks]; [intros []|]. intros [H|H]; [injection H as <- <-; auto|].
    apply in_map_iff in H. destruct H as ([z t] & E & H). cbn [fst snd] in E. injection E as <- <-. apply IH in H. rewrite H. apply perm_swap.
  Qed.
  Lemma perms_perm n : forall (l l' : list A), length l = n -> In l' (perms n l) -> Permutation l l'.
  Proof.
    induction n as [|n IH]; intros l l' Hl; cbn [perms].
    - intros [<-|[]]. destruct l; [auto|discriminate].
    - intros H. apply in_flat_map in H. destruct H as ([x r] & H1 & H2). cbn [fst snd] in H2. apply in_map_iff in H2. destruct H2 as (t & <- & H2).
      apply picks_perm in H1. rewrite H1. constructor. apply IH; auto. apply Permutation_length in H1. cbn [length] in H1. lia.
  Qed.
  Lemma product_in (ls : list (list A)) : forall xs, In xs (product ls) <-> Forall2 (@In A) xs ls.
  Proof.
    induction ls as [|l ls IH]; intros xs; cbn [product].
    - split; [intros [<-|[]]; constructor|intros H; inversion H; cbn; auto].
    - split.
      + intros H. apply in_flat_map in H. destruct H as (x & Hx & H). apply in_map_iff in H. destruct H as (t & <- & H). constructor; auto. now apply IH.
      + intros H. inversion H as [|x ? t ? H1 H2]; subst. apply in_flat_map. exists x. split; auto. apply in_map_iff. exists t. split; auto. now apply IH.
  Qed.
  Lemma collect_all_spec (l : list (option A)) r : collect_all l = Some r <-> l = map Some r.
  Proof.
    revert r. induction l as [|[x|] l IH]; intros r; cbn [collect_all].
    - split; [intros [= <-]; reflexivity|]. destruct r; [auto|discriminate].
    - destruct (collect_all l) as [t|].
      + assert (E : l = map Some t) by now apply IH. split; [intros [= <-]; cbn; now rewrite E|]. destruct r as [|y r]; [discriminate|]. cbn [map]. intros [= <- H]. f_equal. f_equal. assert (Some t = Some r) by now apply IH. congruence.
      + split; [discriminate|]. destruct r as [|y r]; [discriminate|]. cbn [map]. intros [= <- H]. apply IH in H. discriminate.
    - split; [discriminate|]. destruct r; discriminate.
  Qed.
  Lemma set_nth_length i (x : A) l : length (set_nth i x l) = length l.
  Proof. revert i. induction l as [|y l IH]; intros [|i]; cbn [set_nth length]; auto. Qed.
  Lemma set_nth_same i (x : A) l : i < length l -> nth_error (set_nth i x l) i = Some x.
  Proof. revert i. induction l as [|y l IH]; intros [|i]; cbn [set_nth length nth_error]; intros H; try lia; auto. apply IH. lia. Qed.
  Lemma set_nth_other i j (x : A) l : i <> j -> nth_error (set_nth i x l) j = nth_error l j.
  Proof. revert i j. induction l as [|y l IH]; intros [|i] [|j]; cbn [set_nth nth_error]; intros H; auto; try congruence. Qed.
  Lemma Forall2_nth {B} (R : A -> B -> Prop) l l' : Forall2 R l l' <-> length l = length l' /\ forall i x y, nth_error l i = Some x -> nth_error l' i = Some y -> R x y.
  Proof.
    split.
    - induction 1 as [|a b l l' H1 H2 [IH1 IH2]]; split; auto; [intros [|i]; discriminate|cbn; lia|]. intros [|i] x y; cbn [nth_error]; [intros [= <-] [= <-]; auto|apply IH2].
    - revert l'. induction l as [|a l IH]; intros [|b l'] [H1 H2]; try discriminate; constructor; [apply (H2 0); reflexivity|]. apply IH. split; [cbn in H1; lia|]. intros i x y. apply (H2 (S i)).
  Qed.
End Lists.

Section LowFacts.
  Context {p : positive}.
  Local Notation gexp := (gexp p).
  Local Notation rc := (rc p).
  Local Notation sfield := (@sfield p).
  Add Ring Fr : (F_ring_theory (p:=p)).
  Variable handler : busi rc -> busi rc.
  Variable g : var -> rc.
  Variable rq : gexp -> rc.
  Variable bound : nat.

  Definition field_of (pl : list gexp) k (f : sfield) : Prop := nth_error pl (sf_index f - k) = Some (sf_expr f) /\ k <= sf_index f /\ try_to_known (sf_expr f) = None /\ sf_rc f = rq (sf_expr f).
  Lemma unknown_spec_gen pl : forall k, let l := flat_map (fun ie => match try_to_known (snd ie) with None => [mkSF (fst ie) (snd ie) (rq (snd ie))] | Some _ => [] end) (combine (seq k (length pl)) pl) in
    (forall f, In f l <-> field_of pl k f) /\ NoDup (map sf_index l) /\ Forall (fun f => k <= sf_index f) l.
  Proof.
    induction pl as [|e pl IH]; intros k; cbn [length seq combine flat_map].
    - split; [|split; constructor]. intros f. split; [intros []|]. intros (H & _). destruct (sf_index f - k); discriminate.
    - specialize (IH (S k)). cbn zeta in IH. destruct IH as (I1 & I2 & I3). cbn [fst snd].
      assert (T : forall f, field_of (e :: pl) k f <-> (sf_index f = k /\ sf_expr f = e /\ try_to_known e = None /\ sf_rc f = rq e) \/ field_of pl (S k) f).
      { intros f. unfold field_of. split.
        - intros (H1 & H2 & H3 & H4). destruct (Nat.eq_dec (sf_index f) k) as [E|E].
          + left. rewrite E, Nat.sub_diag in H1. cbn [nth_error] in H1. assert (X : e = sf_expr f) by congruence. rewrite X. repeat split; auto.
          + right. replace (sf_index f - k) with (S (sf_index f - S k)) in H1 by lia. cbn in H1. repeat split; auto. lia.
        - intros [(H1 & H2 & H3 & H4)|(H1 & H2 & H3 & H4)].
          + rewrite H1, Nat.sub_diag, H2. cbn [nth_error]. repeat split; auto.
          + replace (sf_index f - k) with (S (sf_index f - S k)) by lia. cbn [nth_error]. repeat split; auto. lia. }
      destruct (try_to_known e) as [v|] eqn:E; cbn [app].
      + split; [|split; auto]. { intros f. rewrite I1, T. split; auto. intros [(_ & _ & X & _)|X]; [discriminate|auto]. }
        eapply Forall_impl; [|exact I3]. cbn. lia.
      + split; [|split].
        * intros f. cbn [In]. rewrite I1, T. split; (intros [H|H]; [left|right; auto]).
          { subst f. cbn. auto. }
          { destruct H as (H1 & H2 & _ & H4). destruct f as [i x r]. cbn in *. subst. reflexivity. }
        * cbn [map sf_index]. constructor; auto. intros X. apply in_map_iff in X. destruct X as (f & X & Y). rewrite Forall_forall in I3. specialize (I3 f Y). lia.
        * constructor; [cbn; lia|]. eapply Forall_impl; [|exact I3]. cbn. lia.
  Qed.
  Lemma unknown_spec (b : busi gexp) : (forall f, In f (unknown_fields rq b) <-> nth_error (payload b) (sf_index f) = Some (sf_expr f) /\ try_to_known (sf_expr f) = None /\ sf_rc f = rq (sf_expr f)) /\
    NoDup (map sf_index (unknown_fields rq b)).
  Proof.
    destruct (unknown_spec_gen (payload b) 0) as (H1 & H2 & _). split; auto. intros f. unfold unknown_fields. rewrite (H1 f). unfold field_of. rewrite Nat.sub_0_r. split; [tauto|]. intros (X & Y & Z). repeat split; auto. lia.
  Qed.

  (** ** Counting *)
  Lemma value_count_spec r n : value_count r = Some n -> exists l, allowed_values (r : rc) = Some l /\ N.of_nat (length l) = n.
  Proof. unfold value_count. destruct (range_width r <? 2 ^ 16)%N; [|discriminate]. destruct (allowed_values r) as [l|]; [|discriminate]. intros [= <-]. eauto. Qed.
  Lemma few_all (rs : list rc) : few_values rs = true -> exists ls, Forall2 (fun r l => allowed_values r = Some l) rs ls /\ (fold_left (fun a l => a * N.of_nat (length l))%N ls 1%N <= 256)%N.
  Proof.
    unfold few_values.
    assert (G : forall rs a n, fold_left (fun acc (r : rc) => match acc, value_count r with Some a, Some n => if (a * n <? 2 ^ 64)%N then Some (a * n)%N else None | _, _ => None end) rs (Some a) = Some n ->
      exists ls, Forall2 (fun r l => allowed_values r = Some l) rs ls /\ fold_left (fun a l => a * N.of_nat (length l))%N ls a = n).
    { clear rs. induction rs as [|r rs IH]; intros a n; cbn [fold_left]; [intros [= <-]; exists []; split; [constructor|reflexivity]|].
      destruct (value_count r) as [m|] eqn:E.
      - destruct (a * m <? 2 ^ 64)%N; [|intros H; exfalso; clear - H; induction rs; cbn in H; [discriminate|auto]].
        intros H. apply IH in H. destruct H as (ls & H1 & H2). apply value_count_spec in E. destruct E as (l & E1 & <-). exists (l :: ls). split; [constructor; auto|exact H2].
      - intros H. exfalso. clear - H. induction rs; cbn in H; [discriminate|auto]. }
    destruct (fold_left _ rs (Some 1%N)) as [n|] eqn:E; [|discriminate]. intros H. apply G in E. destruct E as (ls & H1 & <-). exists ls. split; auto. lia.
  Qed.
  Lemma count_small {A} (ls : list (list A)) : forall a, (1 <= a)%N -> Forall (fun l => l <> []) ls -> (a <= fold_left (fun a l => a * N.of_nat (length l))%N ls a)%N /\
    Forall (fun l => (N.of_nat (length l) <= fold_left (fun a l => a * N.of_nat (length l))%N ls a)%N) ls.
  Proof.
    induction ls as [|l ls IH]; intros a Ha H; cbn [fold_left]; [split; [lia|constructor]|]. inversion H as [|? ? H1 H2]; subst.
    assert (L : (1 <= N.of_nat (length l))%N) by (destruct l; [congruence|cbn [length]; lia]).
    destruct (IH (a * N.of_nat (length l))%N) as [I1 I2]; auto; [nia|]. split; [nia|]. constructor; auto. nia.
  Qed.

  (** ** Candidates *)
  Lemma candidates_spec b ins o : In (ins, o) (candidates rq b) -> Permutation (unknown_fields rq b) (ins ++ [o]) /\ few_values (map sf_rc ins) = true /\ (length ins = 1 \/ length ins = 2).
  Proof.
    unfold candidates. destruct (Nat.eqb (length (unknown_fields rq b)) 2 || Nat.eqb (length (unknown_fields rq b)) 3) eqn:E; [|intros []]. intros H. apply filter_In in H. destruct H as [H1 H2]. cbn [fst] in H2.
    apply in_flat_map in H1. destruct H1 as (f & Hf & H1). apply perms_perm in Hf; auto. unfold split_output in H1. destruct (rev f) as [|o' r] eqn:Er; [destruct H1|]. destruct H1 as [H1|[]]. injection H1 as <- <-.
    assert (F : f = rev r ++ [o']) by (rewrite <- (rev_involutive f), Er; reflexivity). rewrite F in Hf. split; auto. split; auto. apply Permutation_length in Hf. rewrite app_length in Hf. cbn [length] in Hf. lia.
  Qed.

  (** ** Setting inputs *)
  Lemma set_spec a : forall (pl : list rc), NoDup (map fst a) -> let r := fold_left (fun pl iv => set_nth (fst iv) (from_value (snd iv)) pl) a pl in
    length r = length pl /\ (forall j v, In (j, v) a -> j < length pl -> nth_error r j = Some (from_value v)) /\ (forall j, ~ In j (map fst a) -> nth_error r j = nth_error pl j).
  Proof.
    induction a as [|[i v] a IH]; intros pl H; cbn [fold_left fst snd]; [cbn; split; auto; split; [intros ? ? []|auto]|].
    cbn [map fst] in H. inversion H as [|? ? H1 H2]; subst. specialize (IH (set_nth i (from_value v) pl) H2). cbn zeta in IH. destruct IH as (I1 & I2 & I3). rewrite set_nth_length in I1, I2. split; auto. split.
    - intros j w [E|Hj] L; [|auto]. injection E as <- <-. rewrite I3 by auto. now apply set_nth_same.
    - intros j Hj. cbn [map fst In] in Hj. rewrite I3 by tauto. apply set_nth_other. tauto.
  Qed.

  (** ** Hypotheses *)
  Lemma hypotheses_ext n f s s' (es es' : list gexp) : In f (hypotheses n) -> map (eval s) es = map (eval s') es' -> eval s (f es) = eval s' (f es').
  Proof.
    intros Hf E.
    assert (X : forall i, eval s (nth i es gzero) = eval s' (nth i es' gzero)).
    { intros i. rewrite <- (map_nth (eval s)), <- (map_nth (eval s')), E, !eval_gzero. reflexivity. }
    destruct n as [|[|[|n]]]; cbn [hypotheses In] in Hf; repeat (destruct Hf as [<-|Hf]); try contradiction; rewrite ?eval_gsub, ?eval_gadd, ?eval_gmul, ?eval_from_number, ?eval_gsub, ?eval_gadd, ?eval_gmul, ?eval_from_number, !X; reflexivity.
  Qed.
  Lemma retain_spec P hs : forall r, retain (p:=p) P hs = Some r -> (forall f, In f r -> In f hs /\ P f = Some true) /\ r = filter (fun f => match P f with Some b => b | None => false end) hs.
  Proof.
    induction hs as [|x hs IH]; intros r; cbn [retain]; [intros [= <-]; split; [intros f []|reflexivity]|].
    destruct (P x) as [b|] eqn:E; [|discriminate]. destruct (retain P hs) as [t|]; [|discriminate]. destruct (IH t eq_refl) as [I1 I2]. intros [= <-]. cbn [filter]. rewrite E, <- I2. split; [|destruct b; reflexivity].
    intros f. destruct b; cbn [In]; [intros [<-|H]|intros H]; auto; apply I1 in H; tauto.
  Qed.
  Lemma test_all_spec b o l : forall hs f, test_all handler b o l hs = Found f -> In f hs /\ forall a, In a l -> exists v, output_for handler b o a = BOk v /\ agrees_with a v f = Some true.
  Proof.
    induction l as [|a l IH]; intros hs f; cbn [test_all].
    - destruct hs as [|x [|? ?]]; try discriminate. intros [= <-]. split; [now left|intros a []].
    - destruct (output_for handler b o a) as [v| |] eqn:E; try discriminate. destruct (retain (agrees_with a v) hs) as [r|] eqn:R; [|discriminate].
      destruct r as [|x r]; [discriminate|]. intros H. apply IH in H. destruct H as [H1 H2]. apply retain_spec in R. destruct R as [R _]. destruct (R f H1) as [R1 R2]. split; auto.
      intros a' [<-|Ha]; eauto.
  Qed.
  Lemma first_spec b l k rs : first_replacement handler g bound b l = Replace k rs -> exists ins o f, In (ins, o) l /\ find_function handler g b ins o = Found f /\
    k = gsub (sf_expr o) (f (map sf_expr ins)) /\ degree k <= bound /\ rs = map (fun x => (sf_expr x, sf_rc x)) ins.
  Proof.
    clear rq. induction l as [|[ins o] l IH]; cbn [first_replacement]; [discriminate|]. destruct (find_function handler g b ins o) as [f| |] eqn:E; try discriminate.
    - destruct (Nat.leb_spec (degree (gsub (sf_expr o) (f (map sf_expr ins)))) bound).
      + intros [= <- <-]. exists ins, o, f. cbn [In]. auto.
      + intros X. destruct (IH X) as (i & o' & f' & X1 & X2). exists i, o', f'. cbn [In]. tauto.
    - intros X. destruct (IH X) as (i & o' & f' & X1 & X2). exists i, o', f'. cbn [In]. tauto.
  Qed.
End LowFacts.
