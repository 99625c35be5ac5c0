From Coq Require Import Arith NArith ZArith Znumtheory Bool List Permutation FinFun Lia ZifyBool ZifyNat ZifyN.
From Verif Require Import Field Primes ExprModel ExprFacts ExprWf ExprMore SystemModel Spec SymModel SymSpec.
Import ListNotations.
Local Open Scope nat_scope.

Section Conv.
  Context {p : positive}.
  Local Open Scope F_scope.
  Add Ring Fring : (F_ring_theory (p:=p)).
  Local Notation aexpr := (aexpr p).
  Lemma occurs_refs v (e : aexpr) : occurs v e <-> In v (arefs e).
  Proof. induction e as [w|k|l IHl o r IHr|e IH]; cbn; [intuition congruence|tauto|rewrite in_app_iff; tauto|auto]. Qed.
  Lemma aeval_ext s t (e : aexpr) : (forall v, occurs v e -> s v = t v) -> aeval s e = aeval t e.
  Proof. induction e as [w|k|l IHl o r IHr|e IH]; cbn; intros H; auto; [|f_equal; auto]. rewrite IHl, IHr by auto. reflexivity. Qed.
  Lemma to_grouped_eval s (e : aexpr) : eval s (to_grouped e) = aeval s e.
  Proof.
    induction e as [v|k|l IHl o r IHr|e IH]; cbn [to_grouped aeval]; [apply eval_from_var|apply eval_from_number| |rewrite eval_gneg, IH; auto].
    destruct o; [rewrite eval_gadd|rewrite eval_gsub|rewrite eval_gmul]; now rewrite IHl, IHr.
  Qed.
  Lemma to_grouped_wf (e : aexpr) : prime (Z.pos p) -> wf (to_grouped e).
  Proof.
    intros Hp. induction e as [v|k|l IHl o r IHr|e IH]; cbn [to_grouped]; [now apply wf_from_var|apply wf_from_number| |now apply wf_gneg].
    destruct o; [now apply wf_gadd|now apply wf_gsub|now apply wf_gmul].
  Qed.
  Lemma to_grouped_vars v (e : aexpr) : In v (vars (to_grouped e)) -> occurs v e.
  Proof.
    induction e as [w|k|l IHl o r IHr|e IH]; cbn [to_grouped occurs]; [cbn; intros [<-|[]]; auto|intros []| |rewrite vars_gneg; auto].
    destruct o; intros H; [apply vars_gadd in H|apply vars_gsub in H|apply vars_gmul in H]; tauto.
  Qed.
  (** Signed items. *)
  Definition signed (s : var -> F p) (x : aexpr * bool) : F p := if snd x then fopp (aeval s (fst x)) else aeval s (fst x).
  Lemma extract_eval s (e : aexpr) : signed s (extract_negation e) = aeval s e.
  Proof. destruct e; reflexivity. Qed.
  Lemma product_eval s (l r : aexpr) : aeval s (product_to_alg l r) = aeval s l * aeval s r.
  Proof.
    unfold product_to_alg. pose proof (extract_eval s l) as El. pose proof (extract_eval s r) as Er. destruct (extract_negation l) as [l' ln], (extract_negation r) as [r' rn]. rewrite <- El, <- Er. unfold signed. cbn [fst snd].
    destruct ln, rn; cbn [Bool.eqb aeval]; ring.
  Qed.
  Lemma reduce_add_fold s (l : list aexpr) : forall e, aeval s (fold_left (fun acc i => ABin acc OAdd i) l e) = aeval s e + fold_right (fun i acc => aeval s i + acc) 0 l.
  Proof. induction l as [|i l IH]; intros e; cbn [fold_left fold_right]; [ring|]. rewrite IH. cbn [aeval]. ring. Qed.
  Lemma reduce_add_eval s (l : list aexpr) : match reduce_add l with Some e => aeval s e | None => 0 end = fold_right (fun i acc => aeval s i + acc) 0 l.
  Proof. destruct l as [|e l]; cbn [reduce_add]; auto. rewrite reduce_add_fold. reflexivity. Qed.
  Lemma sum_eval s (l : list aexpr) : aeval s (sum_to_alg l) = fold_right (fun i acc => aeval s i + acc) 0 l.
  Proof.
    unfold sum_to_alg. pose proof (reduce_add_eval s (map fst (filter (fun x => negb (snd x)) (map extract_negation l)))) as A. pose proof (reduce_add_eval s (map fst (filter snd (map extract_negation l)))) as B.
    assert (G : fold_right (fun i acc => aeval s i + acc) 0 l = fold_right (fun i acc => aeval s i + acc) 0 (map fst (filter (fun x => negb (snd x)) (map extract_negation l))) - fold_right (fun i acc => aeval s i + acc) 0 (map fst (filter snd (map extract_negation l)))).
    { clear. induction l as [|e l IH]; cbn [map filter fold_right]; [ring|]. rewrite IH, <- (extract_eval s e). unfold signed. destruct (extract_negation e) as [e' b]. cbn [fst snd]. destruct b; cbn [negb map fold_right fst]; ring. }
    rewrite G, <- A, <- B. destruct (reduce_add (map fst (filter (fun x => negb (snd x)) _))), (reduce_add (map fst (filter snd _))); cbn [aeval]; ring.
  Qed.
  Lemma is_one_eq (a : F p) : is_one a = true -> a = 1.
  Proof. unfold is_one. now rewrite feqb_eq. Qed.
  Lemma linear_eval s (vc : var * F p) : aeval s (linear_to_alg vc) = snd vc * s (fst vc).
  Proof.
    destruct vc as [v c]. cbn [linear_to_alg fst snd]. destruct (is_one c) eqn:E1; [apply is_one_eq in E1; subst; cbn; ring|].
    destruct (is_one (fopp c)) eqn:E2; [apply is_one_eq in E2; cbn; transitivity (fopp (fopp c * s v)); [rewrite E2|]; ring|].
    destruct (is_in_lower_half c); cbn; ring.
  Qed.
  Lemma number_eval s (k : F p) : aeval s (number_to_alg k) = k.
  Proof. unfold number_to_alg. destruct (is_in_lower_half k); cbn; ring. Qed.
  Lemma fold_app_sum s (a b : list aexpr) : fold_right (fun i acc => aeval s i + acc) 0 (a ++ b) = fold_right (fun i acc => aeval s i + acc) 0 a + fold_right (fun i acc => aeval s i + acc) 0 b.
  Proof. induction a as [|i a IH]; cbn [app fold_right]; [ring|]. rewrite IH. ring. Qed.
  Lemma to_alg_eval s (e : gexp p) : aeval s (to_alg e) = eval s e.
  Proof.
    induction e as [q l c Hq] using gexp_ind'. cbn [to_alg]. rewrite sum_eval, !fold_app_sum, eval_GE.
    assert (A : fold_right (fun i acc => aeval s i + acc) 0 (map (fun lr => product_to_alg (to_alg (fst lr)) (to_alg (snd lr))) q) = eq_sum s q).
    { induction Hq as [|[a b] q [Ha Hb] Hq IH]; cbn [map fold_right]; [now rewrite eq_sum_nil|]. rewrite eq_sum_cons, <- IH, product_eval. cbn [fst snd] in *. now rewrite Ha, Hb. }
    assert (B : fold_right (fun i acc => aeval s i + acc) 0 (map linear_to_alg l) = el_sum s l).
    { clear. induction l as [|x l IH]; cbn [map fold_right]; [now rewrite el_sum_nil|]. now rewrite el_sum_cons, <- IH, linear_eval. }
    assert (C : fold_right (fun i acc => aeval s i + acc) 0 (if is_zero c then [] else [number_to_alg c]) = c).
    { destruct (is_zero c) eqn:E0; cbn [fold_right]; [symmetry; now apply is_zero_eq|]. rewrite number_eval. ring. }
    rewrite A, B, C. ring.
  Qed.
  Lemma neg_zero_iff (a : F p) : fopp a = 0 <-> a = 0.
  Proof. split; intros H; [transitivity (fopp (fopp a)); [ring|rewrite H; ring]|rewrite H; ring]. Qed.
  Lemma constraint_from_zero s (e : aexpr) : aeval s (constraint_from e) = 0 <-> aeval s e = 0.
  Proof. destruct e; cbn [constraint_from aeval]; try tauto. now rewrite neg_zero_iff. Qed.
  Lemma canonicalize_eval s (e : aexpr) : aeval s (canonicalize e) = aeval s e.
  Proof. unfold canonicalize. now rewrite to_alg_eval, to_grouped_eval. Qed.
  (** Columns of converted expressions. *)
  Lemma sum_to_alg_refs v (l : list aexpr) : occurs v (sum_to_alg l) -> exists e, In e l /\ occurs v e.
  Proof.
    assert (R : forall (l : list aexpr) e0, occurs v (fold_left (fun acc i => ABin acc OAdd i) l e0) -> occurs v e0 \/ exists e, In e l /\ occurs v e).
    { clear. induction l as [|i l IH]; intros e0; cbn [fold_left]; auto. intros H. apply IH in H. cbn in H. destruct H as [[H|H]|(e & H1 & H2)]; auto; right; [exists i|exists e]; cbn; auto. }
    assert (R' : forall (l : list aexpr) e, reduce_add l = Some e -> occurs v e -> exists i, In i l /\ occurs v i).
    { intros [|e0 l0] e; [discriminate|]. cbn [reduce_add]. intros [= <-] H. apply R in H. destruct H as [H|(i & H1 & H2)]; [exists e0; cbn; auto|exists i; cbn; auto]. }
    assert (X : forall f i, In i (map fst (filter f (map extract_negation l))) -> occurs v i -> exists e, In e l /\ occurs v e).
    { intros f i Hi Ho. apply in_map_iff in Hi. destruct Hi as ([i' b] & <- & Hi). apply filter_In in Hi. destruct Hi as [Hi _]. apply in_map_iff in Hi. destruct Hi as (e & E0 & Hi). exists e. split; auto. destruct e; cbn in E0; injection E0 as <- <-; auto. }
    unfold sum_to_alg. destruct (reduce_add (map fst (filter (fun x => negb (snd x)) _))) as [a|] eqn:Ea, (reduce_add (map fst (filter snd _))) as [b|] eqn:Eb; cbn [occurs].
    - intros [H|H]; [destruct (R' _ _ Ea H) as (i & A & B)|destruct (R' _ _ Eb H) as (i & A & B)]; eauto.
    - intros H. destruct (R' _ _ Ea H) as (i & A & B); eauto.
    - intros H. destruct (R' _ _ Eb H) as (i & A & B); eauto.
    - intros [].
  Qed.
  Lemma to_alg_refs v (e : gexp p) : occurs v (to_alg e) -> In v (vars e).
  Proof.
    induction e as [q l c Hq] using gexp_ind'. cbn [to_alg]. intros H. apply sum_to_alg_refs in H. destruct H as (e & He & Ho). rewrite vars_GE, in_app_iff. rewrite !in_app_iff in He. destruct He as [He|[He|He]].
    - left. apply in_map_iff in He. destruct He as (ab & <- & Hab). rewrite qvars_in. exists ab. split; auto. rewrite Forall_forall in Hq. destruct (Hq _ Hab) as [H1 H2].
      assert (X : occurs v (to_alg (fst ab)) \/ occurs v (to_alg (snd ab))); [|destruct X; auto]. clear - Ho. unfold product_to_alg in Ho. destruct (to_alg (fst ab)), (to_alg (snd ab)); cbn in *; tauto.
    - right. apply in_map_iff in He. destruct He as ([w k] & <- & Hw). apply in_map_iff. exists (w, k). split; auto. unfold linear_to_alg in Ho. destruct (is_one k), (is_one (fopp k)), (is_in_lower_half k); cbn in *; tauto.
    - exfalso. destruct (is_zero c); [destruct He|]. destruct He as [<-|[]]. unfold number_to_alg in Ho. destruct (is_in_lower_half c); cbn in Ho; auto.
  Qed.
  Lemma canonicalize_refs v (e : aexpr) : occurs v (canonicalize e) -> occurs v e.
  Proof. intros H. apply to_alg_refs in H. now apply to_grouped_vars. Qed.
  (** ** Degrees *)
  Local Open Scope nat_scope.
  Lemma sum_to_alg_degree (l : list aexpr) : adegree (sum_to_alg l) = fold_right (fun e d => Nat.max (adegree e) d) 0 l.
  Proof.
    assert (R : forall (l : list aexpr) e0, adegree (fold_left (fun acc i => ABin acc OAdd i) l e0) = Nat.max (adegree e0) (fold_right (fun e d => Nat.max (adegree e) d) 0 l)).
    { clear. induction l as [|i l IH]; intros e0; cbn [fold_left fold_right]; [lia|]. rewrite IH. cbn [adegree]. lia. }
    assert (R' : forall l : list aexpr, match reduce_add l with Some e => adegree e | None => 0 end = fold_right (fun e d => Nat.max (adegree e) d) 0 l).
    { intros [|e l0]; cbn [reduce_add]; auto. rewrite R. reflexivity. }
    assert (G : fold_right (fun e d => Nat.max (adegree e) d) 0 l = Nat.max (fold_right (fun e d => Nat.max (adegree e) d) 0 (map fst (filter (fun x => negb (snd x)) (map extract_negation l)))) (fold_right (fun e d => Nat.max (adegree e) d) 0 (map fst (filter snd (map extract_negation l))))).
    { clear. induction l as [|e l IH]; cbn [map filter fold_right]; auto. assert (E : adegree (fst (extract_negation e)) = adegree e) by (destruct e; reflexivity). rewrite IH. destruct (extract_negation e) as [e' b]. cbn [fst snd] in *. destruct b; cbn [negb map fold_right fst]; rewrite E; lia. }
    rewrite G, <- !R'. unfold sum_to_alg. destruct (reduce_add (map fst (filter (fun x => negb (snd x)) _))), (reduce_add (map fst (filter snd _))); cbn [adegree]; lia.
  Qed.
  Lemma extract_degree (e : aexpr) : adegree (fst (extract_negation e)) = adegree e.
  Proof. destruct e; reflexivity. Qed.
  Lemma product_degree (l r : aexpr) : adegree (product_to_alg l r) = adegree l + adegree r.
  Proof.
    unfold product_to_alg. pose proof (extract_degree l) as El. pose proof (extract_degree r) as Er. destruct (extract_negation l) as [l' ln], (extract_negation r) as [r' rn]. cbn [fst] in *. destruct (Bool.eqb ln rn); cbn [adegree]; lia.
  Qed.
  Lemma to_alg_degree (e : gexp p) : adegree (to_alg e) = degree e.
  Proof.
    induction e as [q l c Hq] using gexp_ind'. cbn [to_alg]. rewrite sum_to_alg_degree, !fold_right_app. 
    assert (C : forall d, fold_right (fun e d => Nat.max (adegree e) d) d (if is_zero c then [] else [number_to_alg c]) = d).
    { intros d. destruct (is_zero c); auto. cbn. unfold number_to_alg. destruct (is_in_lower_half c); cbn; lia. }
    rewrite C. assert (B : fold_right (fun e d => Nat.max (adegree e) d) 0 (map linear_to_alg l) = match l with [] => 0 | _ => 1 end).
    { clear. assert (D : forall x : var * F p, adegree (linear_to_alg x) = 1). { intros [v k]. unfold linear_to_alg. destruct (is_one k), (is_one (fopp k)), (is_in_lower_half k); reflexivity. } induction l as [|x l IH]; cbn [map fold_right]; auto. rewrite D, IH. destruct l; lia. }
    rewrite B. cbn [degree]. induction Hq as [|[a b] q [Ha Hb] Hq IH]; cbn [map fold_right]; [destruct l; cbn; lia|]. rewrite IH, product_degree. cbn [fst snd] in *. now rewrite Ha, Hb.
  Qed.
  Lemma degree_le q l (c : F p) d : degree (GE q l c) <= d <-> Forall (fun ab => degree (fst ab) + degree (snd ab) <= d) q /\ (l <> [] -> 1 <= d).
  Proof.
    cbn [degree]. induction q as [|ab q IH]; cbn [fold_right].
    - split; [intros H; split; [constructor|]; destruct l; [congruence|auto]|]. intros [_ H]. destruct l; [lia|apply H; discriminate].
    - split.
      + intros H. destruct (proj1 IH) as [A B]; [lia|]. split; auto. constructor; auto. lia.
      + intros [H1 H2]. inversion_clear H1. pose proof (proj2 IH (conj H0 H2)). lia.
  Qed.
  Lemma degree_le_dest (e : gexp p) d : degree e <= d <-> Forall (fun ab => degree (fst ab) + degree (snd ab) <= d) (quad e) /\ (lin e <> [] -> 1 <= d).
  Proof. destruct e as [q l c]. apply degree_le. Qed.
  Lemma degree_gneg (e : gexp p) : degree (gneg e) = degree e.
  Proof.
    induction e as [q l c Hq] using gexp_ind'. cbn [gneg degree]. induction Hq as [|[a b] q [Ha _] Hq IH]; cbn [map fold_right fst snd]; [destruct l; reflexivity|]. cbn [fst] in Ha. rewrite Ha. now rewrite IH.
  Qed.
  Lemma degree_gscale_nz k (e : gexp p) : degree (gscale_nz k e) = degree e.
  Proof.
    induction e as [q l c Hq] using gexp_ind'. cbn [gscale_nz degree]. induction Hq as [|[a b] q [Ha _] Hq IH]; cbn [map fold_right fst snd]; [destruct l; reflexivity|]. cbn [fst] in Ha. rewrite Ha. now rewrite IH.
  Qed.
  Lemma degree_gadd (a b : gexp p) : degree (gadd a b) <= Nat.max (degree a) (degree b).
  Proof.
    unfold gadd. apply degree_le. pose proof (proj1 (degree_le_dest a (Nat.max (degree a) (degree b))) ltac:(lia)) as [A1 A2]. pose proof (proj1 (degree_le_dest b (Nat.max (degree a) (degree b))) ltac:(lia)) as [B1 B2]. split; [now apply combine_removing_zeros_forall|].
    intros H. assert (X : lin a <> [] \/ lin b <> []); [|destruct X; auto].
    destruct (lin a) as [|x la], (lin b) as [|y lb]; try (left; discriminate); try (right; discriminate). exfalso. apply H. reflexivity.
  Qed.
  Lemma degree_gmul (a b : gexp p) : degree (gmul a b) <= degree a + degree b.
  Proof.
    unfold gmul, gscale. destruct (try_to_known b) as [k|]; [destruct (is_zero k); [cbn; lia|rewrite degree_gscale_nz; lia]|].
    destruct (try_to_known a) as [k|]; [destruct (is_zero k); [cbn; lia|rewrite degree_gscale_nz; lia]|]. cbn. lia.
  Qed.
  Lemma to_grouped_degree (e : aexpr) : degree (to_grouped e) <= adegree e.
  Proof.
    induction e as [v|k|l IHl o r IHr|e IH]; cbn [to_grouped adegree]; [cbn; lia|cbn; lia| |rewrite degree_gneg; auto].
    destruct o; [pose proof (degree_gadd (to_grouped l) (to_grouped r)); lia| |pose proof (degree_gmul (to_grouped l) (to_grouped r)); lia].
    pose proof (degree_gadd (to_grouped l) (gneg (to_grouped r))) as H. rewrite degree_gneg in H. unfold gsub. lia.
  Qed.
  Lemma canonicalize_degree (e : aexpr) : adegree (canonicalize e) <= adegree e.
  Proof. unfold canonicalize. rewrite to_alg_degree. apply to_grouped_degree. Qed.
End Conv.

Section Machines.
  Context {p : positive}.
  Local Notation aexpr := (aexpr p).
  Lemma all_opt_some {A B} (f : A -> option B) l l' : all_opt (map f l) = Some l' <-> Forall2 (fun a b => f a = Some b) l l'.
  Proof.
    revert l'. induction l as [|a l IH]; intros l'; cbn [map all_opt].
    - split; [intros [= <-]; constructor|inversion 1; auto].
    - destruct (f a) as [b|] eqn:E0; [destruct (all_opt (map f l)) as [l0|]|].
      + split; [intros [= <-]; constructor; auto; now apply IH|]. inversion 1; subst. f_equal. f_equal; [congruence|]. apply IH in H4. congruence.
      + split; [discriminate|]. inversion 1; subst. apply IH in H4. discriminate.
      + split; [discriminate|]. inversion 1; subst. congruence.
  Qed.
  (** To a constraint system: the same rows are accepted and the same messages are sent. *)
  Lemma to_system_ok (m : smach p) c : to_system m = Some c ->
    (forall s, sys_solves s c <-> accepts m s) /\
    (forall s, bus_values s c = map (fun g => mkBus (of_N (fst (fst g))) (snd (fst g)) (snd g)) (messages m s)) /\
    (forall s, derived_values s c = derived_columns m s).
  Proof.
    unfold to_system. destruct (all_opt (map to_bus (sm_buses m))) as [bs|] eqn:E0; [|discriminate]. intros [= <-]. apply all_opt_some in E0. split; [|split]; intros s.
    - unfold sys_solves, accepts, solves. cbn [algs]. rewrite Forall_map. split; apply Forall_impl; intros e; now rewrite to_grouped_eval.
    - unfold bus_values, messages. cbn [buses]. rewrite map_map. induction E0 as [|b b' l l' H _ IH]; cbn [map]; auto. rewrite IH. f_equal. unfold to_bus in H. destruct (sb_id b <? N.pos p)%N; [|discriminate]. injection H as <-.
      unfold bmap, message. cbn [bus_id mult payload fst snd]. rewrite eval_from_number, to_grouped_eval. f_equal. rewrite map_map. apply map_ext. intros e. apply to_grouped_eval.
    - unfold derived_values, derived_columns. cbn [derived]. rewrite map_map. apply map_ext. intros [v d]. cbn [fst snd]. f_equal. destruct d; cbn [to_method cm_value amethod_value]; auto. now rewrite !to_grouped_eval.
  Qed.
  Lemma from_system_ok (c : csys p) m : from_system c = Some m ->
    (forall s, accepts m s <-> sys_solves s c) /\
    (forall s, bus_values s c = map (fun g => mkBus (of_N (fst (fst g))) (snd (fst g)) (snd g)) (messages m s)) /\
    (forall s, derived_columns m s = derived_values s c).
  Proof.
    unfold from_system. destruct (all_opt (map from_bus (buses c))) as [bs|] eqn:E0; [|discriminate]. intros [= <-]. apply all_opt_some in E0. split; [|split]; intros s.
    - unfold sys_solves, accepts, solves. cbn [sm_cons]. rewrite Forall_map. split; apply Forall_impl; intros e; rewrite constraint_from_zero, to_alg_eval; auto.
    - unfold bus_values, messages. cbn [sm_buses]. rewrite map_map. induction E0 as [|b b' l l' H _ IH]; cbn [map]; auto. rewrite IH. f_equal. unfold from_bus in H. destruct (try_to_known (bus_id b)) as [k|] eqn:Ek; [|discriminate]. injection H as <-.
      unfold bmap, message. cbn [sb_id sb_mult sb_args fst snd]. rewrite (try_to_known_eval s _ _ Ek), to_alg_eval. f_equal; [symmetry; apply of_N_val|]. rewrite map_map. apply map_ext. intros e. symmetry. apply to_alg_eval.
    - unfold derived_values, derived_columns. cbn [sm_derived]. rewrite map_map. apply map_ext. intros [v d]. cbn [fst snd]. f_equal. destruct d; cbn [from_method cm_value amethod_value]; auto. now rewrite !to_alg_eval.
  Qed.
  Lemma roundtrip_ok (m : smach p) : Forall (fun b => (sb_id b < N.pos p)%N) (sm_buses m) -> exists c m', to_system m = Some c /\ from_system c = Some m' /\
    (forall s, (accepts m' s <-> accepts m s) /\ messages m' s = messages m s /\ derived_columns m' s = derived_columns m s).
  Proof.
    intros Hid. assert (exists bs, all_opt (map to_bus (sm_buses m)) = Some bs) as [bs E].
    { clear - Hid. induction Hid as [|b l H _ [bs IH]]; cbn [map all_opt]; [eauto|]. unfold to_bus at 1. apply N.ltb_lt in H. rewrite H, IH. eauto. }
    assert (exists c, to_system m = Some c /\ buses c = bs) as (c & Hc & Hb). { unfold to_system. rewrite E. eexists. split; reflexivity. }
    apply all_opt_some in E.
    assert (exists bs', all_opt (map from_bus bs) = Some bs' /\ forall s, map (message s) bs' = map (message s) (sm_buses m)) as (bs' & E' & M).
    { clear - E Hid. induction E as [|b b' l l' H E IH]; cbn [map all_opt]; [exists []; auto|]. inversion_clear Hid. destruct (IH H1) as (bs' & -> & M). unfold to_bus in H. destruct (sb_id b <? N.pos p)%N; [|discriminate]. injection H as <-. cbn [from_bus bus_id mult payload]. unfold from_bus at 1. cbn [bus_id mult payload from_number try_to_known].
      eexists. split; [reflexivity|]. intros s. cbn [map]. rewrite M. f_equal. unfold message. cbn [sb_id sb_mult sb_args]. rewrite to_alg_eval, to_grouped_eval. f_equal; [f_equal|].
      - now rewrite val_of_N, N.mod_small.
      - rewrite !map_map. apply map_ext. intros e. now rewrite to_alg_eval, to_grouped_eval. }
    rewrite <- Hb in E'. assert (exists m', from_system c = Some m' /\ sm_buses m' = bs') as (m' & Hm & Hm'). { unfold from_system. rewrite E'. eexists. split; reflexivity. }
    exists c, m'. split; auto. split; auto. intros s. destruct (to_system_ok m c Hc) as (A & _ & C). destruct (from_system_ok c m' Hm) as (A' & _ & C'). split; [now rewrite A', A|]. split; [unfold messages; now rewrite Hm'|]. now rewrite C', C.
  Qed.
  (** ** Guards *)
  Add Ring Fring2 : (F_ring_theory (p:=p)).
  Definition zrow : var -> F p := fun _ => 0%F.
  Lemma zeroed_known (e : aexpr) : to_grouped (make_refs_zero e) = from_number (aeval zrow e).
  Proof.
    induction e as [v|k|l IHl o r IHr|e IH]; cbn [make_refs_zero to_grouped aeval]; auto.
    - destruct o; rewrite IHl, IHr.
      + reflexivity.
      + unfold gsub, gadd, from_number. cbn. f_equal. ring.
      + unfold gmul, gscale, from_number, gzero. cbn [try_to_known quad lin]. cbn. destruct (is_zero (aeval zrow r)) eqn:E0; [|reflexivity]. apply is_zero_eq in E0. rewrite E0. f_equal. ring.
    - rewrite IH. reflexivity.
  Qed.
  Lemma zero_witness_iff (e : aexpr) : satisfies_zero_witness e = true <-> aeval zrow e = 0%F.
  Proof. unfold satisfies_zero_witness. rewrite zeroed_known. cbn. apply is_zero_eq. Qed.
  Lemma zero_witness_false (e : aexpr) : satisfies_zero_witness e = false <-> aeval zrow e <> 0%F.
  Proof. rewrite <- zero_witness_iff. destruct (satisfies_zero_witness e); intuition congruence. Qed.
  Lemma guard_valid s iv (e : aexpr) : aeval s iv = 1%F -> aeval s (guard_constraint iv e) = aeval s e.
  Proof.
    intros Hv. induction e as [v|k|l IHl o r IHr|e IH]; cbn [guard_constraint]; destruct (satisfies_zero_witness _); auto.
    - cbn [aeval]. rewrite Hv. ring.
    - destruct o; cbn [aeval]; now rewrite IHl, ?IHr.
    - cbn [aeval]. now rewrite IH.
  Qed.
  Lemma guard_zero iv (e : aexpr) : aeval zrow iv = 0%F -> aeval zrow (guard_constraint iv e) = 0%F.
  Proof.
    intros Hv. induction e as [v|k|l IHl o r IHr|e IH]; cbn [guard_constraint]; (destruct (satisfies_zero_witness _) eqn:E0; [now apply zero_witness_iff|]); cbn [aeval].
    - reflexivity.
    - rewrite Hv. ring.
    - destruct o; rewrite IHl, ?IHr; ring.
    - rewrite IH. ring.
  Qed.
  Lemma guard_refs v iv (e : aexpr) : occurs v (guard_constraint iv e) -> occurs v e \/ occurs v iv.
  Proof.
    induction e as [w|k|l IHl o r IHr|e IH]; cbn [guard_constraint]; destruct (satisfies_zero_witness _); auto; cbn [occurs]; try tauto. destruct o; tauto.
  Qed.
  (** Degrees of guarded constraints. *)
  Definition gb (iv e : aexpr) : Prop := adegree (guard_constraint iv e) <= Nat.max 1 (adegree e).
  Lemma gb_ref v w : gb (ARef v) (ARef w).
  Proof. unfold gb. cbn [guard_constraint]. destruct (satisfies_zero_witness _); cbn; lia. Qed.
  Lemma gb_num v k : gb (ARef v) (ANum k).
  Proof. unfold gb. cbn [guard_constraint]. destruct (satisfies_zero_witness _); cbn; lia. Qed.
  Lemma gb_add iv l o r : o <> OMul -> gb iv l -> gb iv r -> gb iv (ABin l o r).
  Proof. unfold gb. cbn [guard_constraint]. intros Ho Hl Hr. destruct (satisfies_zero_witness _); [lia|]. destruct o; cbn [adegree]; try lia. congruence. Qed.
  Lemma gb_neg iv e : gb iv e -> gb iv (ANeg e).
  Proof. unfold gb. cbn [guard_constraint]. intros He. destruct (satisfies_zero_witness _); cbn [adegree]; lia. Qed.
  Lemma gb_mul iv l r : gb iv l -> 1 <= adegree l -> gb iv (ABin l OMul r).
  Proof. unfold gb. cbn [guard_constraint]. intros Hl Hd. destruct (satisfies_zero_witness _); cbn [adegree]; lia. Qed.
  Lemma gb_zero iv e : aeval zrow e = 0%F -> gb iv e.
  Proof. intros H. apply zero_witness_iff in H. unfold gb. destruct e; cbn [guard_constraint]; rewrite H; lia. Qed.
  Lemma gb_extract iv e : gb iv e -> gb iv (fst (extract_negation e)).
  Proof.
    destruct e as [v|k|l o r|e]; cbn [extract_negation fst]; auto. unfold gb. cbn [guard_constraint]. destruct (satisfies_zero_witness (ANeg e)) eqn:E0; [|cbn [adegree]; auto]. intros _. apply gb_zero. apply zero_witness_iff in E0. cbn [aeval] in E0. now apply neg_zero_iff.
  Qed.
  Lemma gb_sum iv (l : list aexpr) : Forall (gb iv) l -> gb iv (sum_to_alg l).
  Proof.
    intros Hl. assert (R : forall (l : list aexpr) e0, gb iv e0 -> Forall (gb iv) l -> gb iv (fold_left (fun acc i => ABin acc OAdd i) l e0)).
    { clear. induction l as [|i l IH]; intros e0 H0 Hl; cbn [fold_left]; auto. inversion_clear Hl. apply IH; auto. apply gb_add; auto. discriminate. }
    assert (R' : forall (l : list aexpr) e, Forall (gb iv) l -> reduce_add l = Some e -> gb iv e). { intros [|e0 l0] e H; [discriminate|]. cbn [reduce_add]. intros [= <-]. inversion_clear H. auto. }
    assert (X : forall f, Forall (gb iv) (map fst (filter f (map extract_negation l)))).
    { intros f. apply Forall_forall. intros i Hi. apply in_map_iff in Hi. destruct Hi as (x & <- & Hi). apply filter_In in Hi. destruct Hi as [Hi _]. apply in_map_iff in Hi. destruct Hi as (e & <- & Hi). apply gb_extract. rewrite Forall_forall in Hl. auto. }
    unfold sum_to_alg. destruct (reduce_add (map fst (filter (fun x => negb (snd x)) _))) as [a|] eqn:Ea, (reduce_add (map fst (filter snd _))) as [b|] eqn:Eb.
    - apply gb_add; [discriminate|exact (R' _ _ (X _) Ea)|exact (R' _ _ (X _) Eb)].
    - exact (R' _ _ (X _) Ea).
    - apply gb_neg. exact (R' _ _ (X _) Eb).
    - apply gb_zero. reflexivity.
  Qed.
  Lemma degree_unknown (e : gexp p) : wf e -> try_to_known e = None -> 1 <= degree e.
  Proof.
    induction e as [q l c Hq] using gexp_ind'. intros Hw Hk. destruct q as [|[x y] q]; [destruct l; [discriminate|cbn; lia]|]. inversion_clear Hq. destruct H as [Hx Hy]. apply wf_GE in Hw. destruct Hw as [_ Hw]. inversion_clear Hw. cbn [fst snd] in *. cbn [degree fold_right fst snd]. assert (1 <= degree x) by (apply Hx; tauto). lia.
  Qed.
  Lemma to_alg_gb v (e : gexp p) : wf e -> gb (ARef v) (to_alg e).
  Proof.
    induction e as [q l c Hq] using gexp_ind'. intros Hw. apply wf_GE in Hw. destruct Hw as [_ Hw]. cbn [to_alg]. apply gb_sum. apply Forall_app. split; [|apply Forall_app; split].
    - apply Forall_map. apply Forall_forall. intros [a b] Hab. unfold quad_ok in Hw. rewrite Forall_forall in Hq, Hw. destruct (Hq _ Hab) as [Ha Hb]. specialize (Hw _ Hab). cbn [fst snd] in *. unfold product_to_alg.
      assert (Ga : gb (ARef v) (to_alg a)) by (apply Ha; tauto). pose proof (gb_extract _ _ Ga) as Ga'. assert (Da : 1 <= degree a) by (apply degree_unknown; tauto). rewrite <- to_alg_degree, <- extract_degree in Da.
      destruct (extract_negation (to_alg a)) as [l' ln], (extract_negation (to_alg b)) as [r' rn]. cbn [fst] in *. destruct (Bool.eqb ln rn); [|apply gb_neg]; now apply gb_mul.
    - apply Forall_map. apply Forall_forall. intros [w k] _. apply gb_zero. rewrite linear_eval. cbn. unfold zrow. ring.
    - destruct (is_zero c); constructor; auto. unfold number_to_alg. destruct (is_in_lower_half c); [|apply gb_neg]; apply gb_num.
  Qed.
  Lemma column_children (m : smach p) v : column_of m v <-> exists e, In e (sm_children m) /\ occurs v e.
  Proof.
    unfold column_of, sm_children. rewrite !Exists_exists. split.
    - intros [(e & H1 & H2)|(b & H1 & H2)]; [exists e; rewrite in_app_iff; auto|]. rewrite Exists_exists in H2. destruct H2 as [H2|(e & H2 & H3)]; [exists (sb_mult b)|exists e]; (split; auto); apply in_or_app; right; apply in_flat_map; exists b; cbn; auto.
    - intros (e & H1 & H2). apply in_app_iff in H1. destruct H1 as [H1|H1]; [left; eauto|]. apply in_flat_map in H1. destruct H1 as (b & H1 & H3). right. exists b. split; auto. rewrite Exists_exists. destruct H3 as [<-|H3]; eauto.
  Qed.
  Lemma column_refs (m : smach p) v : column_of m v <-> In v (sm_refs m).
  Proof. rewrite column_children. unfold sm_refs. rewrite in_flat_map. split; intros (e & H1 & H2); exists e; rewrite occurs_refs in *; auto. Qed.
  (** A row in which the flag has the value [x]. *)
  Lemma add_guards_ok (m : smach p) next m' next' : add_guards m next = Some (m', next') ->
    let flag := Orig next in
    next' = (next + 1)%N /\
    (forall row, row flag = 1%F -> (accepts m' row <-> accepts m row) /\ messages m' row = messages m row) /\
    (forall row, row flag = 0%F -> accepts m' row -> Forall (fun g => snd (fst g) = 0%F) (messages m' row)) /\
    accepts m' zrow /\
    (forall row, prime (Z.pos p) -> accepts m' row -> row flag = 0%F \/ row flag = 1%F) /\
    (forall row, derived_columns m' row = derived_columns m row ++ [(flag, 1%F)]) /\
    (forall v, column_of m' v -> column_of m v \/ v = flag) /\
    map (fun b => (sb_id b, sb_args b)) (sm_buses m') = map (fun b => (sb_id b, sb_args b)) (sm_buses m).
  Proof.
    unfold add_guards. set (iv := ARef (Orig next)). match goal with |- context [if ?c then None else _] => destruct c; [discriminate|] end. intros [= <- <-]. cbn zeta. split; auto.
    assert (B : forall row, aeval row (constraint_from (make_bool iv)) = (row (Orig next) * (row (Orig next) - 1))%F) by reflexivity.
    assert (Mu : forall row b, In b (sm_buses m) -> (forall e, In e (mult_constraints iv b) -> aeval row e = 0%F) <-> satisfies_zero_witness (sb_mult b) = false \/ ((1 - row (Orig next)) * aeval row (sb_mult b) = 0)%F).
    { intros row b _. unfold mult_constraints. destruct (satisfies_zero_witness (sb_mult b)) eqn:E0; cbn [negb].
      - split; [intros H; right; specialize (H _ (or_introl eq_refl)); rewrite constraint_from_zero, canonicalize_eval in H; exact H|]. intros [H|H] e [<-|[]]; [discriminate|]. rewrite constraint_from_zero, canonicalize_eval. exact H.
      - split; [auto|intros _ e []]. }
    assert (Acc : forall row m', sm_cons m' = (map (fun e => constraint_from (canonicalize (guard_constraint iv e))) (sm_cons m) ++ flat_map (mult_constraints iv) (sm_buses m)) ++ [constraint_from (make_bool iv)] ->
      accepts m' row <-> Forall (fun e => aeval row (guard_constraint iv e) = 0%F) (sm_cons m) /\ (forall b, In b (sm_buses m) -> satisfies_zero_witness (sb_mult b) = false \/ ((1 - row (Orig next)) * aeval row (sb_mult b) = 0)%F) /\ (row (Orig next) * (row (Orig next) - 1) = 0)%F).
    { intros row m' E. unfold accepts. rewrite E, !Forall_app, Forall_map. rewrite <- (B row). split.
      - intros [[H1 H2] H3]. split; [eapply Forall_impl; [|exact H1]; intros e; cbn beta; now rewrite constraint_from_zero, canonicalize_eval|]. split; [|now inversion H3]. intros b Hb. apply (Mu row b Hb). intros e He. rewrite Forall_forall in H2. apply H2. apply in_flat_map. eauto.
      - intros (H1 & H2 & H3). split; [split; [eapply Forall_impl; [|exact H1]; intros e; cbn beta; now rewrite constraint_from_zero, canonicalize_eval|]|auto]. apply Forall_forall. intros e He. apply in_flat_map in He. destruct He as (b & Hb & He). apply (proj2 (Mu row b Hb)); auto. }
    split; [|split; [|split; [|split; [|split; [|split]]]]].
    - intros row Hv. split.
      + rewrite Acc by reflexivity. unfold accepts. split.
        * intros [H _]. eapply Forall_impl; [|exact H]. intros e; cbn beta; now rewrite guard_valid by auto.
        * intros H. split; [eapply Forall_impl; [|exact H]; intros e; cbn beta; now rewrite guard_valid by auto|]. split; [intros b _; right|]; rewrite Hv; ring.
      + unfold messages. cbn [sm_buses]. rewrite map_map. apply map_ext. intros b. unfold guard_bus, message. destruct (satisfies_zero_witness (sb_mult b)); cbn [negb sb_id sb_mult sb_args]; auto. rewrite canonicalize_eval. cbn [aeval]. unfold iv. cbn [aeval]. rewrite Hv. f_equal. f_equal. ring.
    - intros row Hv Ha. rewrite Acc in Ha by reflexivity. destruct Ha as (_ & H & _). unfold messages. cbn [sm_buses]. rewrite map_map. apply Forall_map, Forall_forall. intros b Hb. specialize (H b Hb). unfold guard_bus, message. destruct (satisfies_zero_witness (sb_mult b)); cbn [negb sb_id sb_mult sb_args fst snd].
      + destruct H as [H|H]; [discriminate|]. rewrite Hv in H. rewrite <- H. ring.
      + rewrite canonicalize_eval. unfold iv. cbn [aeval]. rewrite Hv. ring.
    - rewrite Acc by reflexivity. split; [apply Forall_forall; intros e _; now apply guard_zero|]. split; [|unfold zrow; ring]. intros b _. destruct (satisfies_zero_witness (sb_mult b)) eqn:E0; auto. right. apply zero_witness_iff in E0. rewrite E0. ring.
    - intros row Hp Ha. rewrite Acc in Ha by reflexivity. destruct Ha as (_ & _ & H). apply mul_eq_zero in H; auto. destruct H as [H|H]; auto. right. transitivity (row (Orig next) - 1 + 1)%F; [ring|]. rewrite H. ring.
    - intros row. unfold derived_columns. cbn [sm_derived]. now rewrite map_app.
    - intros v. rewrite !column_children. unfold sm_children. cbn [sm_cons sm_buses]. intros (e & He & Ho). rewrite !in_app_iff in He. destruct He as [[[He|He]|He]|He].
      + apply in_map_iff in He. destruct He as (e0 & <- & He). assert (X : occurs v (canonicalize (guard_constraint iv e0))) by (destruct (canonicalize (guard_constraint iv e0)); exact Ho). apply canonicalize_refs, guard_refs in X. destruct X as [X|X]; [left; exists e0; rewrite in_app_iff; auto|right; symmetry; exact X].
      + apply in_flat_map in He. destruct He as (b & Hb & He). unfold mult_constraints in He. destruct (negb _); [destruct He|]. destruct He as [<-|[]]. assert (X : occurs v (canonicalize (ABin (ABin (ANum 1%F) OSub iv) OMul (sb_mult b)))) by (destruct (canonicalize _); exact Ho). apply canonicalize_refs in X. cbn in X. destruct X as [[[]|X]|X]; [right; symmetry; exact X|]. left. exists (sb_mult b). split; auto. apply in_or_app. right. apply in_flat_map. exists b. cbn. auto.
      + destruct He as [<-|[]]. cbn in Ho. right. symmetry. tauto.
      + apply in_flat_map in He. destruct He as (b' & Hb & He). apply in_map_iff in Hb. destruct Hb as (b & <- & Hb). assert (X : occurs v iv \/ exists e, In e (sb_children b) /\ occurs v e).
        { unfold guard_bus in He. destruct (negb _); [|right; eauto]. destruct He as [<-|He]; cbn [sb_mult sb_args] in *; [apply canonicalize_refs in Ho; cbn [occurs] in Ho; destruct Ho; auto; right; exists (sb_mult b); cbn; auto|right; exists e; cbn; auto]. }
        destruct X as [X|(e' & X & Y)]; [right; symmetry; exact X|]. left. exists e'. split; auto. apply in_or_app. right. apply in_flat_map. eauto.
    - cbn [sm_buses]. rewrite map_map. apply map_ext. intros b. unfold guard_bus. destruct (negb _); reflexivity.
  Qed.
  Lemma sm_degree_le (m : smach p) d : sm_degree m <= d <-> forall e, In e (sm_children m) -> adegree e <= d.
  Proof.
    unfold sm_degree. induction (sm_children m) as [|e l IH]; cbn [fold_right In]; [split; [intros _ e []|lia]|]. split.
    - intros H e' [<-|He]; [lia|]. apply IH; auto. lia.
    - intros H. pose proof (H e (or_introl eq_refl)). assert (fold_right (fun e d => Nat.max (adegree e) d) 0 l <= d) by (apply IH; auto). lia.
  Qed.
  Lemma constraint_from_degree (e : aexpr) : adegree (constraint_from e) = adegree e.
  Proof. destruct e; reflexivity. Qed.
  Lemma add_guards_degree (c : csys p) (m : smach p) next (m' : smach p) next' d : from_system c = Some m -> Forall wf (algs c) -> add_guards m next = Some (m', next') ->
    2 <= d -> sm_degree m <= d -> (forall b, In b (sm_buses m) -> adegree (sb_mult b) < d) -> sm_degree m' <= d.
  Proof.
    intros Hc Hw. unfold add_guards. set (iv := ARef (Orig next)). match goal with |- context [if ?c then None else _] => destruct c; [discriminate|] end. intros [= <- <-] Hd Hm Hb. rewrite sm_degree_le in *. unfold sm_children in *. cbn [sm_cons sm_buses] in *. intros e He. rewrite !in_app_iff in He. destruct He as [[[He|He]|He]|He].
    - apply in_map_iff in He. destruct He as (e0 & <- & He). rewrite constraint_from_degree. pose proof (canonicalize_degree (guard_constraint iv e0)) as X. assert (G : gb iv e0).
      { unfold from_system in Hc. destruct (all_opt _); [|discriminate]. injection Hc as <-. cbn [sm_cons] in He. apply in_map_iff in He. destruct He as (g & <- & Hg). rewrite Forall_forall in Hw. pose proof (to_alg_gb (Orig next) g (Hw _ Hg)) as Y. apply gb_extract in Y. destruct (to_alg g); exact Y. }
      unfold gb in G. pose proof (Hm e0 ltac:(apply in_or_app; auto)). lia.
    - apply in_flat_map in He. destruct He as (b & Hb' & He). unfold mult_constraints in He. destruct (negb _); [destruct He|]. destruct He as [<-|[]]. rewrite constraint_from_degree. pose proof (canonicalize_degree (ABin (ABin (ANum 1%F) OSub iv) OMul (sb_mult b))) as X. cbn [adegree] in X. unfold iv in X at 2. cbn [adegree] in X. specialize (Hb b Hb'). lia.
    - destruct He as [<-|[]]. cbn. lia.
    - apply in_flat_map in He. destruct He as (b' & Hb' & He). apply in_map_iff in Hb'. destruct Hb' as (b & <- & Hb'). unfold guard_bus in He. destruct (negb _).
      + destruct He as [<-|He]; cbn [sb_mult sb_args] in *; [|apply Hm; apply in_or_app; right; apply in_flat_map; exists b; cbn; auto]. pose proof (canonicalize_degree (ABin iv OMul (sb_mult b))) as X. cbn [adegree] in X. unfold iv in X at 2. cbn [adegree] in X. specialize (Hb b Hb'). lia.
      + apply Hm. apply in_or_app. right. apply in_flat_map. eauto.
  Qed.
  (** ** Renaming *)
  Lemma aoff_eval k (row : var -> F p) (e : aexpr) : aeval row (aoff k e) = aeval (columns_from k row) e.
  Proof. induction e as [v|c|l IHl o r IHr|e IH]; cbn [aoff aeval]; [destruct v; reflexivity|reflexivity|destruct o; now rewrite IHl, IHr|now rewrite IH]. Qed.
  Lemma aoff_occurs k v (e : aexpr) : occurs v (aoff k e) <-> exists w, occurs w e /\ v = voff k w.
  Proof.
    induction e as [w|c|l IHl o r IHr|e IH]; cbn [aoff occurs].
    - split; [intros <-; eauto|intros (w' & -> & ->); auto].
    - split; [tauto|intros (? & [] & _)].
    - rewrite IHl, IHr. split; [intros [(w & H & E)|(w & H & E)]; eauto|intros (w & [H|H] & E); eauto].
    - auto.
  Qed.
  Lemma off_accepts k (m : smach p) row : accepts (sm_off k m) row <-> accepts m (columns_from k row).
  Proof. unfold accepts, sm_off. cbn [sm_cons]. rewrite Forall_map. split; apply Forall_impl; intros e; now rewrite aoff_eval. Qed.
  Lemma off_message k (b : sbus p) row : message row (sb_off k b) = message (columns_from k row) b.
  Proof. unfold message, sb_off. cbn [sb_id sb_mult sb_args]. rewrite aoff_eval, map_map. f_equal. apply map_ext. intros e. apply aoff_eval. Qed.
  Lemma off_messages k (m : smach p) row : messages (sm_off k m) row = messages m (columns_from k row).
  Proof. unfold messages, sm_off. cbn [sm_buses]. rewrite map_map. apply map_ext. intros b. apply off_message. Qed.
  Lemma off_columns k (m : smach p) v : column_of (sm_off k m) v <-> exists w, column_of m w /\ v = voff k w.
  Proof.
    rewrite column_children. setoid_rewrite column_children.
    assert (E : sm_children (sm_off k m) = map (aoff k) (sm_children m)).
    { unfold sm_children, sm_off. cbn [sm_cons sm_buses]. rewrite map_app. f_equal. induction (sm_buses m) as [|b l IH]; cbn [map flat_map]; auto. rewrite map_app, IH. reflexivity. }
    rewrite E. split.
    - intros (e & He & Ho). apply in_map_iff in He. destruct He as (e0 & <- & He). apply aoff_occurs in Ho. destruct Ho as (w & Hw & ->). eauto.
    - intros (w & (e & He & Hw) & ->). exists (aoff k e). split; [now apply in_map|]. apply aoff_occurs. eauto.
  Qed.
  Lemma fold_max_in (l : list N) a : (fold_left N.max l a = a \/ In (fold_left N.max l a) l) /\ (a <= fold_left N.max l a)%N /\ forall x, In x l -> (x <= fold_left N.max l a)%N.
  Proof.
    revert a. induction l as [|y l IH]; intros a; cbn [fold_left In]; [repeat split; auto; [lia|intros x []]|]. destruct (IH (N.max a y)) as (H1 & H2 & H3). repeat split.
    - destruct H1 as [H1|H1]; auto. rewrite H1. destruct (N.max_spec a y) as [[_ ->]|[_ ->]]; auto.
    - lia.
    - intros x [<-|Hx]; [lia|auto].
  Qed.
  Definition original (v : var) : Prop := exists n, v = Orig n.
  (** The columns of the machine are 0 … n-1, in the sense of the code: [n] ids, the largest is n-1. *)
  Lemma ids_full (l : list N) n : NoDup l -> length l = n -> (forall x, In x l -> (x < N.of_nat n)%N) -> forall x, In x l <-> (x < N.of_nat n)%N.
  Proof.
    intros Hn Hl Hx x. split; auto. intros Hlt.
    assert (P : incl (map N.of_nat (seq 0 n)) l).
    { apply NoDup_length_incl; [exact Hn|rewrite map_length, seq_length; lia|]. intros y Hy. specialize (Hx y Hy). apply in_map_iff. exists (N.to_nat y). rewrite in_seq. lia. }
    apply P. apply in_map_iff. exists (N.to_nat x). rewrite in_seq. lia.
  Qed.
  Lemma unique_in (m : smach p) n : In n (unique_ids m) <-> In n (map vid (sm_refs m)).
  Proof. unfold unique_ids. apply nodup_In. Qed.
  Lemma globalize_ok (m : smach p) next : (forall v, column_of m v -> original v) ->
    forall width, 0 < width -> (forall v, column_of m v <-> exists n, v = Orig n /\ (n < N.of_nat width)%N) ->
    globalize m next = Some ((next + N.of_nat width)%N, nseq next width, sm_off next m).
  Proof.
    intros Ho width Hw Hc. unfold globalize.
    assert (U : forall n, In n (unique_ids m) <-> (n < N.of_nat width)%N).
    { intros n. rewrite unique_in, in_map_iff. setoid_rewrite <- column_refs. split.
      - intros (v & <- & Hv). apply Hc in Hv. destruct Hv as (k & -> & Hk). exact Hk.
      - intros Hn. exists (Orig n). split; [reflexivity|]. apply Hc. eauto. }
    assert (L : length (unique_ids m) = width).
    { assert (X : Permutation (unique_ids m) (map N.of_nat (seq 0 width))).
      { apply NoDup_Permutation; [apply NoDup_nodup| |].
        - apply FinFun.Injective_map_NoDup; [intros a b; apply Nnat.Nat2N.inj|apply seq_NoDup].
        - intros x. rewrite U, in_map_iff. split; [intros; exists (N.to_nat x); rewrite in_seq; lia|intros (k & <- & Hk); rewrite in_seq in Hk; lia]. }
      apply Permutation_length in X. now rewrite map_length, seq_length in X. }
    destruct (unique_ids m) as [|i r] eqn:E; [cbn in L; lia|]. rewrite L.
    destruct (fold_max_in r i) as (H1 & H2 & H3). set (mx := fold_left N.max r i) in *.
    assert (M1 : (mx < N.of_nat width)%N) by (apply U; destruct H1 as [->|H1]; cbn; auto).
    assert (M2 : (N.of_nat width - 1 <= mx)%N).
    { assert (In (N.of_nat width - 1)%N (i :: r)) as [X|X] by (apply U; lia); [lia|auto]. }
    replace (mx =? N.of_nat width - 1)%N with true; [reflexivity|]. symmetry. apply N.eqb_eq. lia.
  Qed.
  Lemma globalize_inv (m : smach p) next next' subs m1 : globalize m next = Some (next', subs, m1) ->
    exists width, 0 < width /\ next' = (next + N.of_nat width)%N /\ subs = nseq next width /\ m1 = sm_off next m /\ forall n, In n (map vid (sm_refs m)) <-> (n < N.of_nat width)%N.
  Proof.
    unfold globalize. destruct (unique_ids m) as [|i r] eqn:E; [discriminate|]. destruct (N.eqb_spec (fold_left N.max r i) (N.of_nat (length (i :: r)) - 1)) as [Hm|Hm]; [|discriminate]. intros [= <- <- <-]. exists (length (i :: r)). split; [cbn; lia|]. repeat (split; [reflexivity|]). intros n. rewrite <- unique_in, E. apply ids_full; auto.
    - rewrite <- E. apply NoDup_nodup.
    - intros x Hx. destruct (fold_max_in r i) as (H1 & H2 & H3). destruct Hx as [<-|Hx]; [|specialize (H3 x Hx)]; cbn [length] in *; lia.
  Qed.
  Lemma zip_eq_some {A B} (l : list A) (r : list B) z : zip_eq l r = Some z <-> length l = length r /\ z = combine l r.
  Proof.
    revert r z. induction l as [|a l IH]; intros [|b r] z; cbn [zip_eq combine length]; try (split; [discriminate|intros [H _]; discriminate]); [split; [intros [= <-]; auto|intros [_ ->]; auto]|]. destruct (zip_eq l r) as [z'|] eqn:E.
    - destruct (proj1 (IH _ _) E) as [H ->]. split; [intros [= <-]; auto|intros [_ ->]; auto].
    - split; [discriminate|]. intros [H _]. injection H as H. specialize (IH r (combine l r)). rewrite E in IH. discriminate (proj2 IH (conj H eq_refl)).
  Qed.
  (** Exactly one element of the list satisfies the test. *)
  Definition the_only {A} (f : A -> bool) (l : list A) (x : A) : Prop := exists a b, l = a ++ x :: b /\ f x = true /\ Forall (fun y => f y = false) (a ++ b).
  Lemma filter_none {A} (f : A -> bool) l : filter f l = [] <-> Forall (fun y => f y = false) l.
  Proof. induction l as [|a l IH]; cbn [filter]; [split; auto|]. destruct (f a) eqn:E; [split; [discriminate|intros H; inversion H; congruence]|]. rewrite IH. split; [auto|intros H; now inversion H]. Qed.
  Lemma filter_cons {A} (f : A -> bool) l x r : filter f l = x :: r <-> exists a b, l = a ++ x :: b /\ f x = true /\ Forall (fun y => f y = false) a /\ filter f b = r.
  Proof.
    induction l as [|y l IH]; cbn [filter]; [split; [discriminate|intros ([|? ?] & b & E & _); discriminate]|]. destruct (f y) eqn:E.
    - split; [intros [= -> <-]; exists [], l; auto|]. intros ([|a' a] & b & Hl & Hx & Ha & Hr); cbn in Hl; injection Hl as H1 H2; [subst; auto|]. subst. inversion Ha. congruence.
    - rewrite IH. split; [intros (a & b & -> & Hx & Ha & Hr); exists (y :: a), b; auto|]. intros ([|a' a] & b & Hl & Hx & Ha & Hr); cbn in Hl; injection Hl as H1 H2; [subst; congruence|]. subst. exists a, b. inversion Ha; auto.
  Qed.
  Lemma local_ok pc_bus exec_bus row (m m2 : smach p) : add_local_constraints pc_bus exec_bus row m = Some m2 ->
    exists lk rcv snd_, filter (fun b => (sb_id b =? pc_bus)%N) (sm_buses m) = [lk] /\ filter (fun b => (sb_id b =? exec_bus)%N) (sm_buses m) = [rcv; snd_] /\ length (sb_args lk) = length row /\
      sm_buses m2 = sm_buses m /\ sm_derived m2 = sm_derived m /\ (forall v, column_of m2 v <-> column_of m v) /\
      forall r, accepts m2 r <-> accepts m r /\ aeval r (sb_mult rcv) = fopp 1%F /\ map (aeval r) (sb_args lk) = row.
  Proof.
    unfold add_local_constraints, pc_lookup, exec_receive. destruct (filter (fun b => (sb_id b =? pc_bus)%N) (sm_buses m)) as [|lk [|? ?]] eqn:E1; try discriminate. destruct (filter (fun b => (sb_id b =? exec_bus)%N) (sm_buses m)) as [|rcv [|sd [|? ?]]] eqn:E2; try discriminate. destruct (zip_eq (sb_args lk) row) as [z|] eqn:Ez; [|discriminate]. intros [= <-]. apply zip_eq_some in Ez. destruct Ez as [Hl ->].
    exists lk, rcv, sd. do 5 (split; [auto|]). split.
    - intros v. rewrite !column_children. unfold sm_children. cbn [sm_cons sm_buses]. split.
      + intros (e & He & Ho). rewrite !in_app_iff in He. cbn [In] in He. assert (Hlk : In lk (sm_buses m)) by (apply (filter_In (fun b => (sb_id b =? pc_bus)%N)); rewrite E1; cbn; auto). assert (Hrc : In rcv (sm_buses m)) by (apply (filter_In (fun b => (sb_id b =? exec_bus)%N)); rewrite E2; cbn; auto). destruct He as [[He|[<-|He]]|He].
        * exists e. rewrite in_app_iff. auto.
        * cbn in Ho. destruct Ho as [Ho|[]]. exists (sb_mult rcv). split; auto. apply in_or_app. right. apply in_flat_map. exists rcv. cbn. auto.
        * apply in_map_iff in He. destruct He as ([a k] & <- & He). cbn in Ho. destruct Ho as [Ho|[]]. apply in_combine_l in He. exists a. split; auto. apply in_or_app. right. apply in_flat_map. exists lk. cbn. auto.
        * exists e. rewrite in_app_iff. auto.
      + intros (e & He & Ho). exists e. rewrite !in_app_iff in *. tauto.
    - intros r. unfold accepts. cbn [sm_cons]. rewrite Forall_app. assert (D : forall a b : F p, (a - b = 0)%F <-> a = b) by (intros a b; split; [intros H; transitivity (a - b + b)%F; [ring|rewrite H; ring]|intros ->; ring]).
      assert (Z : Forall (fun e => aeval r e = 0%F) (map (fun x => constraint_from (ABin (fst x) OSub (ANum (snd x)))) (combine (sb_args lk) row)) <-> map (aeval r) (sb_args lk) = row).
      { rewrite Forall_map. clear - Hl D. revert row Hl. induction (sb_args lk) as [|a l IH]; intros [|k row] Hl; cbn [length] in Hl; try discriminate; cbn [combine map]; [split; auto|]. injection Hl as Hl. specialize (IH row Hl). split.
        - intros H. inversion H as [|? ? H1 H2]. cbn in H1. apply (proj1 (D _ _)) in H1. apply (proj1 IH) in H2. congruence.
        - intros H. injection H as H1 H2. constructor; [cbn; now apply D|now apply IH]. }
      split.
      + intros [H1 H2]. inversion H2 as [|? ? H3 H4]. split; auto. split; [|now apply Z]. cbn in H3. transitivity (aeval r (sb_mult rcv) + 1 - 1)%F; [ring|rewrite H3; ring].
      + intros (H1 & H2 & H3). split; auto. constructor; [cbn; rewrite H2; ring|now apply Z].
  Qed.
  Lemma on_bus_off k bus (m : smach p) : on_bus bus (sm_off k m) = map (sb_off k) (on_bus bus m).
  Proof. unfold on_bus, sm_off. cbn [sm_buses]. induction (sm_buses m) as [|b l IH]; cbn [map filter]; auto. destruct (sb_id b =? bus)%N eqn:E; cbn [sb_off sb_id]; rewrite E; cbn [map]; now rewrite IH. Qed.
  (** One instruction at offset [o]. *)
  Lemma instruction_ok pc_bus exec_bus o (m : smach p) row m2 : add_local_constraints pc_bus exec_bus row (sm_off o m) = Some m2 ->
    (exists lk, on_bus pc_bus m = [lk] /\ length (sb_args lk) = length row) /\ (exists rcv sd, on_bus exec_bus m = [rcv; sd]) /\
    (forall r, accepts m2 r <-> accepts_instruction pc_bus exec_bus (m, row) (columns_from o r)) /\
    (forall r, messages m2 r = messages m (columns_from o r)) /\ (forall v, column_of m2 v <-> column_of (sm_off o m) v) /\ sm_derived m2 = sm_derived m.
  Proof.
    intros H. apply local_ok in H. destruct H as (lk & rcv & sd & H1 & H2 & H3 & H4 & H5 & H6 & H7).
    change (filter _ (sm_buses (sm_off o m))) with (on_bus pc_bus (sm_off o m)) in H1. change (filter _ (sm_buses (sm_off o m))) with (on_bus exec_bus (sm_off o m)) in H2. rewrite on_bus_off in H1, H2.
    destruct (on_bus pc_bus m) as [|lk0 [|? ?]] eqn:E1; try discriminate. destruct (on_bus exec_bus m) as [|rcv0 [|sd0 [|? ?]]] eqn:E2; try discriminate. cbn in H1, H2. injection H1 as <-. injection H2 as <- <-.
    split; [exists lk0; split; auto; cbn in H3; now rewrite map_length in H3|]. split; [eauto|]. split; [|split; [|split; auto]].
    - intros r. rewrite H7, off_accepts. unfold accepts_instruction. cbn [fst snd]. rewrite E1, E2. cbn [sb_off sb_mult sb_args]. rewrite aoff_eval, map_map. rewrite (map_ext _ _ (aoff_eval o r)). split.
      + intros (A & B & C). split; auto. split; [intros x y [= <- <-]; auto|intros x [= <-]; auto].
      + intros (A & B & C). split; auto. split; [apply (B _ _ eq_refl)|apply (C _ eq_refl)].
    - intros r. unfold messages. rewrite H4. apply off_messages.
  Qed.
  Definition only_original (m : smach p) : Prop := forall v, column_of m v -> exists n, v = Orig n.
  Lemma width_of (m : smach p) width : only_original m -> 0 < width -> (forall n, In n (map vid (sm_refs m)) <-> (n < N.of_nat width)%N) -> has_width m width.
  Proof.
    intros Ho Hw H. split; auto. intros v. rewrite column_refs. split.
    - intros Hv. destruct (Ho v) as [n ->]; [now apply column_refs|]. exists n. split; auto. apply H. apply (in_map vid _ _ Hv).
    - intros (n & -> & Hn). apply H in Hn. apply in_map_iff in Hn. destruct Hn as (v & E & Hv). destruct (Ho v) as [k ->]; [now apply column_refs|]. cbn in E. now subst.
  Qed.
  Inductive laid_out (pc_bus exec_bus : N) : N -> list (smach p * list (F p)) -> list (smach p) -> list (list N) -> N -> Prop :=
  | lo_nil n : laid_out pc_bus exec_bus n [] [] [] n
  | lo_cons o w m row r m2 ms ss n : has_width m w -> well_formed_instruction pc_bus exec_bus (m, row) ->
      (forall r, accepts m2 r <-> accepts_instruction pc_bus exec_bus (m, row) (columns_from o r)) ->
      (forall r, messages m2 r = messages m (columns_from o r)) ->
      (forall v, column_of m2 v <-> exists n, v = Orig n /\ (o <= n < o + N.of_nat w)%N) -> sm_derived m2 = sm_derived m ->
      laid_out pc_bus exec_bus (o + N.of_nat w)%N r ms ss n -> laid_out pc_bus exec_bus o ((m, row) :: r) (m2 :: ms) (nseq o w :: ss) n.
  Lemma block_laid_out pc_bus exec_bus instrs next ms ss n : Forall (fun i => only_original (fst i)) instrs ->
    block_machines pc_bus exec_bus next instrs = Some (ms, ss, n) -> laid_out pc_bus exec_bus next instrs ms ss n.
  Proof.
    intros Ho. revert next ms ss n. induction Ho as [|[m row] r Hm Hr IH]; intros next ms ss n; cbn [block_machines]; [intros [= <- <- <-]; constructor|].
    destruct (globalize m next) as [[[next' subs] m1]|] eqn:Eg; [|discriminate]. destruct (add_local_constraints pc_bus exec_bus row m1) as [m2|] eqn:El; [|discriminate]. destruct (block_machines pc_bus exec_bus next' r) as [[[ms' ss'] n']|] eqn:Eb; [|discriminate]. intros [= <- <- <-].
    apply globalize_inv in Eg. destruct Eg as (w & Hw & -> & -> & -> & Hids). apply instruction_ok in El. destruct El as (L1 & L2 & L3 & L4 & L5 & L6). pose proof (width_of m w Hm Hw Hids) as W. apply lo_cons; auto.
    - split; [|split]; eauto.
    - intros v. rewrite L5, off_columns. destruct W as [_ W]. split.
      + intros (x & Hx & ->). apply W in Hx. destruct Hx as (k & -> & Hk). exists (k + next)%N. split; [reflexivity|lia].
      + intros (k & -> & Hk). exists (Orig (k - next)%N). split; [apply W; exists (k - next)%N; split; [auto|lia]|]. cbn. f_equal. lia.
  Qed.
  Lemma block_succeeds pc_bus exec_bus (instrs : list (smach p * list (F p))) next : Forall (well_formed_instruction pc_bus exec_bus) instrs -> exists r, block_machines pc_bus exec_bus next instrs = Some r.
  Proof.
    intros H. revert next. induction H as [|[m row] r Hm Hr IH]; intros next; cbn [block_machines]; [eauto|]. destruct Hm as ((w & Hw) & (lk & Hlk & Hll) & rcv & sd & Hx). cbn [fst snd] in *.
    destruct Hw as [Hw Hc]. rewrite (globalize_ok m next) with (width := w); auto; [|intros v Hv; apply Hc in Hv; destruct Hv as (k & -> & _); exists k; auto].
    unfold add_local_constraints, pc_lookup, exec_receive. change (filter _ (sm_buses (sm_off next m))) with (on_bus pc_bus (sm_off next m)) at 1. change (filter (fun b => (sb_id b =? exec_bus)%N) (sm_buses (sm_off next m))) with (on_bus exec_bus (sm_off next m)). rewrite !on_bus_off, Hlk, Hx. cbn [map].
    destruct (zip_eq (sb_args (sb_off next lk)) row) as [z|] eqn:Ez.
    - destruct (IH (next + N.of_nat w)%N) as [[[a b] c] ->]. eauto.
    - exfalso. cbn [sb_off sb_args] in Ez. assert (X : zip_eq (map (aoff next) (sb_args lk)) row = Some (combine (map (aoff next) (sb_args lk)) row)) by (apply zip_eq_some; rewrite map_length; auto). congruence.
  Qed.
  Lemma concat_accepts (ms : list (smach p)) m row : accepts (fold_left sm_concat ms m) row <-> accepts m row /\ Forall (fun m => accepts m row) ms.
  Proof.
    revert m. induction ms as [|a ms IH]; intros m; cbn [fold_left]; [split; [auto|tauto]|]. rewrite IH. unfold accepts at 1. cbn [sm_concat sm_cons]. rewrite Forall_app. fold (accepts m row) (accepts a row). split; [intros [[H1 H2] H3]; auto|intros [H1 H2]; inversion H2; auto].
  Qed.
  Lemma concat_messages (ms : list (smach p)) m row : messages (fold_left sm_concat ms m) row = messages m row ++ flat_map (fun m => messages m row) ms.
  Proof.
    revert m. induction ms as [|a ms IH]; intros m; cbn [fold_left flat_map]; [now rewrite app_nil_r|]. rewrite IH. unfold messages at 1. cbn [sm_concat sm_buses]. rewrite map_app, <- app_assoc. reflexivity.
  Qed.
  Lemma in_nseq a n x : In x (nseq a n) <-> (a <= x < a + N.of_nat n)%N.
  Proof. unfold nseq. rewrite in_map_iff. split; [intros (i & <- & Hi); apply in_seq in Hi; lia|]. intros H. exists (N.to_nat (x - a)). rewrite in_seq. lia. Qed.
  Lemma apc_subs_ok (m : smach p) a i subs : only_original m -> nth_error (al_subs a) i = Some subs ->
    exists kept, nth_error (apc_subs m a) i = Some kept /\ forall j id, In (j, id) kept <-> nth_error subs j = Some id /\ column_of m (Orig id).
  Proof.
    intros Ho Hi. unfold apc_subs. rewrite nth_error_map, Hi. cbn [option_map]. eexists. split; [reflexivity|]. intros j id. rewrite filter_In. cbn [snd]. rewrite existsb_exists.
    assert (E : In (j, id) (enumerate subs) <-> nth_error subs j = Some id).
    { unfold enumerate. assert (G : forall (l : list N) k, In (j, id) (combine (seq k (length l)) l) <-> k <= j /\ nth_error l (j - k) = Some id).
      { induction l as [|x l IH]; intros k; cbn [length seq combine In]; [destruct (j - k); cbn; intuition discriminate|]. rewrite IH. split.
        - intros [[= <- <-]|[H1 H2]]; [rewrite Nat.sub_diag; auto|]. split; [lia|]. replace (j - k) with (Datatypes.S (j - Datatypes.S k)) by lia. exact H2.
        - intros [H1 H2]. destruct (Nat.eq_dec j k) as [->|Hne]; [left; rewrite Nat.sub_diag in H2; cbn in H2; congruence|]. right. split; [lia|]. replace (j - k) with (Datatypes.S (j - Datatypes.S k)) in H2 by lia. exact H2. }
      rewrite G, Nat.sub_0_r. intuition lia. }
    rewrite E. split; intros [H1 H2]; (split; [auto|]).
    - destruct H2 as (x & Hx & Hex). apply N.eqb_eq in Hex. subst x. apply unique_in, in_map_iff in Hx. destruct Hx as (v & Ev & Hv). apply column_refs in Hv. destruct (Ho v Hv) as [k ->]. cbn in Ev. now subst.
    - exists id. split; [|apply N.eqb_refl]. apply unique_in. apply column_refs in H2. apply (in_map vid _ _ H2).
  Qed.
End Machines.

Section Conversion.
  Context {p q : positive} (f : F p -> F q).
  Hypothesis f0 : f 0%F = 0%F.
  Hypothesis fadd' : forall a b, f (a + b)%F = (f a + f b)%F.
  Hypothesis fsub' : forall a b, f (a - b)%F = (f a - f b)%F.
  Hypothesis fmul' : forall a b, f (a * b)%F = (f a * f b)%F.
  Hypothesis fopp' : forall a, f (fopp a) = fopp (f a).
  Hypothesis finj : forall a b, f a = f b -> a = b.
  Lemma aconv_eval row (e : aexpr p) : aeval (fun v => f (row v)) (aconv f e) = f (aeval row e).
  Proof. induction e as [v|k|l IHl o r IHr|e IH]; cbn [aconv aeval]; auto; [destruct o; rewrite IHl, IHr; auto|rewrite IH; auto]. Qed.
  Lemma conv_accepts row (m : smach p) : accepts (sm_conv f m) (fun v => f (row v)) <-> accepts m row.
  Proof.
    unfold accepts, sm_conv. cbn [sm_cons]. rewrite Forall_map. split; apply Forall_impl; intros e; rewrite aconv_eval; [rewrite <- f0; apply finj|intros ->; apply f0].
  Qed.
  Lemma conv_messages row (m : smach p) : messages (sm_conv f m) (fun v => f (row v)) = map (fun g => (fst (fst g), f (snd (fst g)), map f (snd g))) (messages m row).
  Proof.
    unfold messages, sm_conv. cbn [sm_buses]. rewrite !map_map. apply map_ext. intros b. unfold message, sb_conv. cbn [sb_id sb_mult sb_args fst snd]. rewrite aconv_eval, !map_map. f_equal. apply map_ext. intros e. apply aconv_eval.
  Qed.
End Conversion.
