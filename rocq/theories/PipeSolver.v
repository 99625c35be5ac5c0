(** What the solver knows about an execution while the optimizer runs. *)
From Coq Require Import Arith NArith ZArith Znumtheory Bool List Lia ZifyBool ZifyN ZifyNat.
From Verif Require Import Field RangeModel ExprModel ExprFacts ExprMore ExprWf SystemModel Spec Bridge BaseModel BaseFacts BaseSolve SolveComplete SolverSpec OvmModel OvmSpec OvmFacts PassModel PassSem PropsPass PropsMem PipeModel PipeSpec.
Import ListNotations.
Local Open Scope nat_scope.

Section Issued.
  Context {p : positive}.
  Lemma issued_dec n v : {issued n v} + {~ issued n v}.
  Proof.
    destruct v as [k| |]; [|right; intros (j & H & _); discriminate..]. destruct (lt_dec (N.to_nat k) n) as [L|L]; [left|right].
    - exists (N.to_nat k). split; auto. f_equal. lia.
    - intros (j & [= ->] & Lj). lia.
  Qed.
  Lemma issued_orig n v : issued n v -> is_orig v = true.
  Proof. intros (k & -> & _). reflexivity. Qed.
  Lemma issued_le n n' v : n <= n' -> issued n v -> issued n' v.
  Proof. intros L (k & -> & Lk). exists k. split; auto. lia. Qed.
  Lemma issued_new n k : n <= k -> ~ issued n (new_column k).
  Proof. intros L (j & H & Lj). unfold new_column in H. injection H as H. lia. Qed.
  Lemma over_user n (e : gexp p) : over n e -> user_expr e.
  Proof. intros [W H]. split; auto. intros v Hv. apply (issued_orig n). auto. Qed.
  Lemma over_le n n' (e : gexp p) : n <= n' -> over n e -> over n' e.
  Proof. intros L [W H]. split; auto. intros v Hv. apply (issued_le n); auto. Qed.
  Lemma agree_refl n (s : var -> F p) : agree n s s. Proof. intros v _. reflexivity. Qed.
  Lemma agree_trans n n' (s t u : var -> F p) : n <= n' -> agree n s t -> agree n' t u -> agree n s u.
  Proof. intros L A B v I. rewrite B; [now apply A|]. now apply (issued_le n). Qed.
  Lemma over_eval n (s t : var -> F p) e : agree n s t -> over n e -> eval t e = eval s e.
  Proof. intros A [_ H]. apply eval_ext. intros v Hv. apply A. auto. Qed.
  Lemma over_bus n (s t : var -> F p) b : agree n s t -> Forall (over n) (fields b) -> bmap (eval t) b = bmap (eval s) b.
  Proof.
    intros A G. unfold fields in G. inversion G as [|? ? G1 G']; subst. inversion G' as [|? ? G2 G3]; subst. unfold bmap.
    rewrite (over_eval n s t _ A G1), (over_eval n s t _ A G2). f_equal. apply map_ext_in. intros e He. rewrite Forall_forall in G3. now apply (over_eval n s t); auto.
  Qed.
  Lemma agree_upd n (s : var -> F p) v x : ~ issued n v -> agree n s (upd s v x).
  Proof. intros N w I. apply BaseFacts.upd_other. intros ->. tauto. Qed.
End Issued.

Section Knows.
  Context {p : positive} (Hp : prime (Z.pos p)).
  Hypothesis Hbig : (2 ^ 26 < N.pos p <= 2 ^ 64)%N.
  Context (m : busmap) (Hm : map_ok p m).
  Local Notation sem := (legal (p:=p) m).
  Local Notation h := (ovm_total (p:=p) m).
  Add Ring Fk : (F_ring_theory (p:=p)).
  Let H2 : (2 < N.pos p)%N. Proof. destruct Hbig. change (2 ^ 26)%N with 67108864%N in *. lia. Qed.
  Let H64 : (N.pos p <= 2 ^ 64)%N := proj2 Hbig.
  Let Hsound : handler_sound sem h. Proof. apply ovm_total_sound; [exact (proj1 Hbig)|exact Hm]. Qed.
  (** Every assignment that agrees on the issued columns can be extended to the solver's own variables. *)
  Definition informed (n : nat) (st : bsolver p) (s : var -> F p) : Prop :=
    wfst st /\ forall t, agree n s t -> exists t', same_orig t t' /\ sat sem t' st.

  Lemma informed_later n n' st s s' : n <= n' -> agree n s s' -> informed n st s -> informed n' st s'.
  Proof. intros L A [W H]. split; auto. intros t T. apply H. now apply (agree_trans n n' s s' t). Qed.
  Lemma informed_wf n st s : informed n st s -> wfst st. Proof. intros [W _]. exact W. Qed.
  Lemma informed_do n fuel o st a st' s : op_ok o -> (forall t, agree n s t -> op_holds sem t o) -> solver_do h fuel o st = Done (a, st') -> informed n st s ->
    informed n st' s /\ answer_user a /\ forall t, agree n s t -> answer_true t a.
  Proof.
    intros U Ho E [W H]. pose proof (solver_do_ok Hp H2 H64 sem h Hsound fuel o st U W) as T. rewrite E in T. destruct T as (W' & Ua & T).
    assert (G : forall t, agree n s t -> exists t', same_orig t t' /\ sat sem t' st' /\ answer_true t' a).
    { intros t A. destruct (H t A) as (t1 & X1 & S1). destruct (T t1 S1) as (t2 & X2 & S2 & T2). { apply (op_holds_orig sem t t1); auto. }
      exists t2. split; [intros k; rewrite (X2 k); apply X1|auto]. }
    split; [split; auto; intros t A; destruct (G t A) as (t' & X & S & _); eauto|]. split; auto.
    intros t A. destruct (G t A) as (t' & X & S & Ta). now apply (answer_true_orig t t').
  Qed.
  Lemma informed_add n es st st' s : Forall (over n) es -> Forall (solves s) es -> add_to_solver es st st' -> informed n st s -> informed n st' s.
  Proof.
    intros O Hs E I. destruct (informed_do n 0 (AddAlgs es) st Silent st' s) as [R _]; auto.
    - cbn. eapply Forall_impl; [|exact O]. intros e. apply over_user.
    - intros t A. cbn. rewrite Forall_forall in *. intros e He. unfold solves. rewrite (over_eval n s t); auto. now apply Hs.
    - unfold add_to_solver in E. cbn [solver_do]. now rewrite E.
  Qed.
  Lemma informed_add_total n es st s : Forall (over n) es -> informed n st s -> exists st', add_to_solver es st st'.
  Proof.
    intros O I. destruct (add_algs_base_total Hp H2 H64 sem es st (informed_wf _ _ _ I)) as (st' & E & _); [|exists st'; exact E].
    eapply Forall_impl; [|exact O]. intros e He. apply user_gb. now apply (over_user n).
  Qed.
  Lemma informed_retain n keep st st' s : retain_base keep st = Some st' -> informed n st s -> informed n st' s.
  Proof. intros E [W H]. destruct (retain_ok sem keep st st' W E) as [W' R]. split; auto. intros t A. destruct (H t A) as (t' & X & S). exists t'. auto. Qed.
  Lemma informed_rc n st s v : informed n st s -> issued n v -> rc_allows (rcget st v) (s v).
  Proof. intros [W H] (k & -> & _). destruct (H s (agree_refl n s)) as (t & X & S). rewrite <- (X (N.of_nat k)). now apply (rcget_allows sem). Qed.
  Lemma informed_fresh n st s k x : informed n st s -> n <= k -> rc_allows (rcget st (new_column k)) x.
  Proof.
    intros [W H] L. destruct (H (upd s (new_column k) x) (agree_upd n s _ x (issued_new n k L))) as (t & X & S).
    pose proof (rcget_allows sem t st (new_column k) S) as R. unfold new_column in *. rewrite X, BaseFacts.upd_same in R. exact R.
  Qed.
  Lemma informed_range n st s e : informed n st s -> user_expr e -> rc_allows (range_query st e) (eval s e).
  Proof. intros [W H] U. destruct (H s (agree_refl n s)) as (t & X & S). rewrite <- (user_eval s t e X U). now apply (range_query_ok sem). Qed.
  Lemma informed_ranges n st s e : informed n st s -> user_expr e -> rc_allows (range_constraint (rcget st) e) (eval s e).
  Proof. intros [W H] U. destruct (H s (agree_refl n s)) as (t & X & S). rewrite <- (user_eval s t e X U). apply b_expr_rc. intros v _. now apply (rcget_allows sem). Qed.
  Lemma informed_single n st s e k : informed n st s -> user_expr e -> single_value_of st e = Some k -> eval s e = k.
  Proof. intros I U E. exact (proj1 (b_single _ _ _ E) (informed_range n st s e I U)). Qed.
  Lemma informed_const n st s e k : informed n st s -> user_expr e -> const_query st e = Some k -> eval s e = k.
  Proof. intros [W H] U E. destruct (H s (agree_refl n s)) as (t & X & S). rewrite <- (user_eval s t e X U). now apply (const_query_ok sem t st). Qed.
  (** The assignments are about issued columns only: other columns can have any value. *)
  Lemma informed_solve n fuel st a st' s : solver_solve h fuel st = Done (a, st') -> informed n st s ->
    informed n st' s /\ Forall (fun ve => s (fst ve) = eval s (snd ve) /\ issued n (fst ve) /\ over n (snd ve) /\ is_affine (snd ve) = true /\ ~ In (fst ve) (vars (snd ve))) a.
  Proof.
    intros E I. destruct (informed_do n fuel Solve st (Assignments a) st' s) as (I' & U & T); [exact Logic.I|intros t _; exact Logic.I|cbn [solver_do]; now rewrite E|exact I|].
    split; auto. cbn [answer_user answer_true] in U, T. rewrite Forall_forall in *. intros [v e] Hve. destruct (U _ Hve) as (Ov & [We Oe] & Ae & Nv). cbn [fst snd] in *.
    assert (T' : forall t, agree n s t -> t v = eval t e). { intros t A. specialize (T t A). rewrite Forall_forall in T. exact (T _ Hve). }
    assert (Iv : issued n v).
    { destruct (issued_dec n v) as [Iv|Iv]; auto. exfalso. pose proof (T' s (agree_refl n s)) as Q. pose proof (T' _ (agree_upd n s v (s v + 1)%F Iv)) as Q1.
      rewrite BaseFacts.upd_same, (eval_ext (upd s v (s v + 1)%F) s) in Q1 by (intros w Hw; apply BaseFacts.upd_other; congruence). rewrite <- Q in Q1.
      apply (one_neq_zero Hp). transitivity (s v + 1 - s v)%F; [ring|]. rewrite Q1. ring. }
    split; [apply T', agree_refl|]. split; auto. split; auto. split; auto. intros w Hw. destruct (issued_dec n w) as [Iw|Iw]; auto. exfalso.
    assert (Qe : quad e = []). { unfold is_affine, is_quadratic in Ae. destruct (quad e); auto. discriminate. }
    pose proof (proj1 (slope_vars w e Qe We) Hw) as Sl.
    destruct (moves s w e Qe Sl) as (x & Hx). apply Hx. rewrite <- (T' _ (agree_upd n s w x Iw)), <- (T' s (agree_refl n s)). apply BaseFacts.upd_other. intros ->. tauto.
  Qed.
  Lemma informed_start fuel l st n c s : solver_run h fuel [AddAlgs (algs c); AddBuses (buses c)] base_new = (l, Done st) ->
    Forall (over n) (algs c) -> Forall (fun b => Forall (over n) (fields b)) (buses c) -> sys_solves s c -> Forall sem (bus_values s c) -> informed n st s.
  Proof.
    intros E Oa Ob Hs Hb. assert (I0 : informed n base_new s). { split; [apply wfst_new|]. intros t _. exists t. split; [intros k; reflexivity|apply sat_new]. }
    cbn [solver_run] in E. destruct (solver_do h fuel (AddAlgs (algs c)) base_new) as [[a1 st1]| | |] eqn:E1; try discriminate.
    destruct (solver_do h fuel (AddBuses (buses c)) st1) as [[a2 st2]| | |] eqn:E2; try discriminate. injection E as _ <-.
    assert (Ua : Forall user_expr (algs c)). { eapply Forall_impl; [|exact Oa]. intros e. apply over_user. }
    assert (Ub : Forall (fun b => Forall user_expr (fields b)) (buses c)). { eapply Forall_impl; [|exact Ob]. intros b. apply Forall_impl. intros e. apply over_user. }
    destruct (informed_do n fuel (AddAlgs (algs c)) base_new a1 st1 s) as [I1 _]; auto.
    { intros t A. cbn. unfold sys_solves in Hs. rewrite Forall_forall in *. intros e He. unfold solves. rewrite (over_eval n s t); auto. now apply Hs. }
    destruct (informed_do n fuel (AddBuses (buses c)) st1 a2 st2 s) as [I2 _]; auto.
    intros t A. cbn. unfold bus_values in Hb. erewrite map_ext_in; [exact Hb|]. intros b Hb'. apply (over_bus n); auto. rewrite Forall_forall in Ob. auto.
  Qed.
  Lemma informed_different n st st' s a b d : user_expr a -> user_expr b -> ask_different st a b = (Some d, st') -> informed n st s ->
    informed n st' s /\ (d = true -> eval s a <> eval s b).
  Proof.
    intros Ua Ub E I. unfold ask_different in E. destruct (informed_do n 0 (AskDifferent a b) st (Different a b d) st' s) as (I1 & _ & T); auto.
    - now split.
    - intros t _. exact Logic.I.
    - cbn [solver_do]. now rewrite E.
    - split; auto. exact (T s (agree_refl n s)).
  Qed.
End Knows.
