(** C23, C24: removing memory and execution bus interactions. *)
From Coq Require Import Arith NArith ZArith Znumtheory Bool List Permutation Lia ZifyBool ZifyNat ZifyN.
From Verif Require Import Field Primes RangeModel ExprModel ExprFacts ExprWf ExprMore SystemModel Spec BusModel BaseModel BaseFacts SolverSpec BaseSolve PropsSearch PropsBase SymModel SymSpec SymFacts MemModel MemSpec MemFacts MemSem ExecBusFacts.
Import ListNotations.
Local Open Scope nat_scope.

(** The solver that is asked whether two expressions are known to be different is a function on its state;
    [Inv] is what it maintains, and for expressions that it may be asked about ([U]) it answers, and its answer "different"
    must be right for the assignment in question.
    [ord] is the order in which the hash map of memory contents is visited. *)
Definition right_about {p S} (diff : S -> gexp p -> gexp p -> option bool * S) (Inv : S -> Prop) (U : gexp p -> Prop) (s : var -> F p) : Prop :=
  forall st a b d st', Inv st -> U a -> U b -> diff st a b = (Some d, st') -> Inv st' /\ (d = true -> eval s a <> eval s b).
Definition always_answers {p S} (diff : S -> gexp p -> gexp p -> option bool * S) (Inv : S -> Prop) (U : gexp p -> Prop) : Prop :=
  forall st a b, Inv st -> U a -> U b -> exists d st', diff st a b = (Some d, st') /\ Inv st'.
Definition may_ask {p} (U : gexp p -> Prop) (c : csys p) : Prop :=
  (forall k, U (from_number k)) /\ forall b, In b (buses c) -> Forall U (payload b).

Lemma Forall_True {A} (l : list A) : Forall (fun _ => True) l.
Proof. apply Forall_forall. auto. Qed.
Lemma optimize_pairs p S (diff : S -> gexp p -> gexp p -> option bool * S) (Inv : S -> Prop) (U : gexp p -> Prop) (D : gexp p -> gexp p -> Prop) ord c st id c' eqs st' : (2 < N.pos p)%N -> may_ask U c ->
  (forall st a b d st', Inv st -> U a -> U b -> diff st a b = (Some d, st') -> Inv st' /\ (d = true -> D a b)) -> (forall m, Permutation (ord m) m) -> Inv st ->
  optimize_memory diff ord c st (Some id) = Some (c', eqs, st') ->
  exists rm pairs, Permutation rm (flat_map (fun ij => [fst ij; snd ij]) pairs) /\ NoDup rm /\ Forall (pair_ok D id (buses c)) pairs /\
    (forall s, Forall (solves s) eqs <-> Forall (pair_content id (buses c) s) pairs) /\ Inv st' /\
    algs c' = algs c ++ eqs /\ derived c' = derived c /\ buses c' = map snd (filter (fun ib => negb (existsb (Nat.eqb (fst ib)) rm)) (enumerate (buses c))).
Proof.
  intros Hp [HU1 HU2] Hd Ho Hi. unfold optimize_memory. destruct (mem_loop diff ord id (enumerate (buses c)) (mkMS [] [] [] st)) as [x|] eqn:E; [|discriminate]. intros [= <- <- <-]. cbn [algs buses derived].
  unfold enumerate in E. apply (loop_ok Hp diff ord Ho Inv U D HU1 Hd id (buses c) HU2 (buses c) 0) in E; auto.
  - destruct E as (Hi' & _ & _ & pairs & H1 & H2 & _ & H3 & _ & H4). exists (ms_remove x), pairs. auto 10.
  - split; auto. split; [constructor|]. split; [constructor|]. exists []. cbn. repeat split; auto; try constructor.
Qed.
(** C23: in every assignment in which the memory accesses are chronological, the new equations hold … *)
Theorem C23_equations : forall p S (diff : S -> gexp p -> gexp p -> option bool * S) Inv U ord c st id c' eqs st' s,
  (2 < N.pos p)%N -> (forall m, Permutation (ord m) m) -> may_ask U c -> right_about diff Inv U s -> Inv st ->
  optimize_memory diff ord c st (Some id) = Some (c', eqs, st') ->
  chronological id (bus_values s c) -> Forall (solves s) eqs /\ (sys_solves s c -> sys_solves s c').
Proof.
  intros p S diff Inv U ord c st id c' eqs st' s Hp Ho HU Hr Hi H Hc. destruct (optimize_pairs p S diff Inv U (fun a b => eval s a <> eval s b) ord c st id c' eqs st' Hp HU Hr Ho Hi H) as (rm & pairs & H1 & H2 & H3 & H4 & _ & H5 & _).
  assert (E : Forall (solves s) eqs). { apply H4. rewrite Forall_forall in *. intros ij Hij. apply pair_equations; auto. }
  split; auto. intros Hs. unfold sys_solves in *. rewrite H5. apply Forall_app. auto.
Qed.
(** … and the remaining accesses are chronological, so that the pass can be repeated. *)
Theorem C23_chronological : forall p S (diff : S -> gexp p -> gexp p -> option bool * S) Inv U ord c st id c' eqs st' s,
  (2 < N.pos p)%N -> (forall m, Permutation (ord m) m) -> may_ask U c -> right_about diff Inv U s -> Inv st ->
  optimize_memory diff ord c st (Some id) = Some (c', eqs, st') ->
  chronological id (bus_values s c) -> chronological id (bus_values s c').
Proof.
  intros p S diff Inv U ord c st id c' eqs st' s Hp Ho HU Hr Hi H Hc. destruct (optimize_pairs p S diff Inv U (fun a b => eval s a <> eval s b) ord c st id c' eqs st' Hp HU Hr Ho Hi H) as (rm & pairs & H1 & H2 & H3 & _ & _ & _ & _ & H4).
  unfold bus_values. rewrite H4. apply (still_chronological Hp id (buses c) s rm pairs); auto.
Qed.
(** C23: conversely, whenever the new equations hold, nothing changes in the net number of times that any message
    is sent on any bus: what was removed cancels.  No assumption on the solver or on the order of accesses. *)
Theorem C23_net : forall p S (diff : S -> gexp p -> gexp p -> option bool * S) ord c st id c' eqs st' s,
  (2 < N.pos p)%N -> (forall m, Permutation (ord m) m) -> optimize_memory diff ord c st (Some id) = Some (c', eqs, st') ->
  sys_solves s c' -> sys_solves s c /\ forall bus args, net bus args (bus_values s c') = net bus args (bus_values s c).
Proof.
  intros p S diff ord c st id c' eqs st' s Hp Ho H Hs. destruct (optimize_pairs p S diff (fun _ => True) (fun _ => True) (fun _ _ => True) ord c st id c' eqs st' Hp (conj (fun _ => I) (fun _ _ => Forall_True _)) (fun _ _ _ _ _ _ _ _ _ => conj I (fun _ => I)) Ho I H) as (rm & pairs & H1 & H2 & H3 & H4 & _ & H5 & _ & H6).
  unfold sys_solves in *. rewrite H5 in Hs. apply Forall_app in Hs. destruct Hs as [Hs He]. split; auto. intros bus args. apply H4 in He. unfold bus_values. rewrite H6. rewrite (net_removed bus args s rm (buses c) H2).
  - rewrite (total_perm _ _ _ H1), total_pairs.
    + symmetry. rewrite (Radd_comm (F_ring_theory (p:=p))). apply (Radd_0_l (F_ring_theory (p:=p))).
    + rewrite Forall_forall in *. intros ij Hij. apply (pair_cancels bus args s (fun _ _ => True) id); auto.
  - rewrite Forall_forall in *. intros i Hi. apply (Permutation_in _ H1) in Hi. apply in_flat_map in Hi. destruct Hi as (ij & Hij & Hi). destruct (H3 _ Hij) as (bi & mi & bj & mj & _ & N1 & N2 & _). cbn in Hi. apply nth_error_Some. destruct Hi as [<-|[<-|[]]]; congruence.
Qed.
(** C23: the interactions that remain are those of the original system in their order without some on the memory
    bus with multiplicity 1 or -1; constraints are only added; derived variables stay. *)
Theorem C23_structure : forall p S (diff : S -> gexp p -> gexp p -> option bool * S) ord c st id c' eqs st',
  (2 < N.pos p)%N -> (forall m, Permutation (ord m) m) -> optimize_memory diff ord c st (Some id) = Some (c', eqs, st') ->
  algs c' = algs c ++ eqs /\ derived c' = derived c /\
  exists removed : nat -> bool, buses c' = map snd (filter (fun ib => negb (removed (fst ib))) (enumerate (buses c))) /\
    forall i b, nth_error (buses c) i = Some b -> removed i = true -> forall s, bus_id (bmap (eval s) b) = of_N id /\ (mult (bmap (eval s) b) = 1%F \/ mult (bmap (eval s) b) = fopp 1%F).
Proof.
  intros p S diff ord c st id c' eqs st' Hp Ho H. destruct (optimize_pairs p S diff (fun _ => True) (fun _ => True) (fun _ _ => True) ord c st id c' eqs st' Hp (conj (fun _ => I) (fun _ _ => Forall_True _)) (fun _ _ _ _ _ _ _ _ _ => conj I (fun _ => I)) Ho I H) as (rm & pairs & H1 & H2 & H3 & H4 & _ & H5 & H6 & H7).
  split; auto. split; auto. exists (fun i => existsb (Nat.eqb i) rm). split; auto. intros i b Hb Hr s. apply existsb_exists in Hr. destruct Hr as (x & Hx & E). apply Nat.eqb_eq in E. subst x.
  apply (Permutation_in _ H1) in Hx. apply in_flat_map in Hx. destruct Hx as (ij & Hij & Hx). rewrite Forall_forall in H3. destruct (H3 _ Hij) as (bi & mi & bj & mj & _ & N1 & N2 & C1 & C2 & _).
  destruct (conv_access id bi mi C1) as [A1 _]. destruct (conv_access id bj mj C2) as [A2 _]. destruct (A1 s) as (B1 & B2 & _). destruct (A2 s) as (B3 & B4 & _). cbn in Hx. destruct Hx as [<-|[<-|[]]].
  - rewrite N1 in Hb. injection Hb as <-. split; auto. rewrite B2. destruct (mi_op mi); auto.
  - rewrite N2 in Hb. injection Hb as <-. split; auto. rewrite B4. destruct (mi_op mj); auto.
Qed.
(** C23: the pass does not panic if all accesses have the same number of fields, their address spaces are numbers
    and the solver answers. *)
Theorem C23_succeeds : forall p S (diff : S -> gexp p -> gexp p -> option bool * S) (Inv : S -> Prop) (U : gexp p -> Prop) ord c st id width,
  (forall m, Permutation (ord m) m) -> may_ask U c -> always_answers diff Inv U -> Inv st -> (id < N.pos p)%N ->
  (forall b, In b (buses c) -> exists k space local data ts, bus_id b = from_number k /\
    (k = of_N id -> payload b = from_number space :: local :: data ++ [ts] /\ length data = width)) ->
  optimize_memory diff ord c st (Some id) <> None.
Proof.
  intros p S diff Inv U ord c st id width Ho [HU1 HU2] Ha Hi Hid Hb. unfold optimize_memory.
  assert (L : mem_loop diff ord id (enumerate (buses c)) (mkMS [] [] [] st) <> None).
  { apply (loop_total diff ord Ho Inv U HU1 Ha id width); [|exact Hi|constructor]. apply Forall_forall. intros [i b] H. apply enumerate_in, nth_error_In in H. cbn [snd]. specialize (HU2 b H). destruct (Hb b H) as (k & space & local & data & ts & H1 & H2). unfold try_from_bus. rewrite H1. change (try_to_known (from_number k)) with (Some k). cbv iota beta. replace (id <? N.pos p)%N with true by lia. cbn [negb]. destruct (feqb k (of_N id)) eqn:Ek; cbn [negb]; auto. apply feqb_eq in Ek. destruct (H2 Ek) as [Hpl H3]. rewrite Hpl in *.
    assert (Sl : @split_last (gexp p) (data ++ [ts]) = Some (data, ts)) by (unfold split_last; rewrite rev_app_distr; cbn; now rewrite rev_involutive). rewrite Sl. change (try_to_known (from_number space)) with (Some space). destruct (try_to_known (mult b)) as [n|]; auto. destruct (is_one n); [split; [exact H3|]; inversion HU2 as [|? ? _ HU3]; now inversion HU3|]. destruct (feqb n (fopp 1)); auto. split; [exact H3|]; inversion HU2 as [|? ? _ HU3]; now inversion HU3. }
  destruct (mem_loop diff ord id (enumerate (buses c)) (mkMS [] [] [] st)); [discriminate|congruence].
Qed.

(** C23 with the solver of this repository: after any history of solver operations that an assignment satisfies, the pass adds only
    equations that the assignment satisfies if its memory accesses are chronological, and it does not panic. *)
Definition ask {p} (st : bsolver p) (a b : gexp p) : option bool * bsolver p := different_query a b st.
Lemma solver_state p sem h fuel (os : list (sop p)) l st : prime (Z.pos p) -> (2 < N.pos p <= 2 ^ 64)%N -> handler_sound sem h ->
  Forall op_ok os -> solver_run h fuel os base_new = (l, Done st) ->
  wfst st /\ forall s, Forall (op_holds sem s) os -> exists s', same_orig s s' /\ sat sem s' st.
Proof.
  intros Hp [H2 H64] Hh. assert (G : forall os st0 l, wfst st0 -> Forall op_ok os -> solver_run h fuel os st0 = (l, Done st) ->
    wfst st /\ forall s, sat sem s st0 -> Forall (op_holds sem s) os -> exists s', same_orig s s' /\ sat sem s' st).
  { clear os l. induction os as [|o os IH]; intros st0 l W U; cbn [solver_run].
    - intros [= <- <-]. split; auto. intros s Hs _. exists s. split; auto. intros n. reflexivity.
    - inversion_clear U as [|? ? Uo Uos]. pose proof (solver_do_ok Hp H2 H64 sem h Hh fuel o st0 Uo W) as T. destruct (solver_do h fuel o st0) as [[a st1]| | |]; try discriminate. destruct T as (W1 & _ & T). specialize (IH st1). destruct (solver_run h fuel os st1) as [l1 r1]. intros [= _ ->]. destruct (IH l1 W1 Uos eq_refl) as [W' H']. split; auto.
      intros s Hs Ho. inversion_clear Ho as [|? ? Ho1 Ho2]. destruct (T s Hs Ho1) as (s1 & X1 & S1 & _). destruct (H' s1 S1) as (s2 & X2 & S2); [|exists s2; split; auto; intros n; rewrite (X2 n); apply X1].
      rewrite Forall_forall in *. intros o' Ho'. eapply op_holds_orig; eauto. }
  intros U E. destruct (G os base_new l wfst_new U E) as [W H]. split; auto. intros s Ho. apply H; auto. apply sat_new.
Qed.
Lemma user_number {p} k : user_expr (p:=p) (from_number k).
Proof. split; [apply wf_from_number|intros v []]. Qed.
Theorem C23_with_solver : forall p sem h fuel (os : list (sop p)) l st ord c id, prime (Z.pos p) -> (2 < N.pos p <= 2 ^ 64)%N -> handler_sound sem h ->
  Forall op_ok os -> solver_run h fuel os base_new = (l, Done st) -> (forall m, Permutation (ord m) m) ->
  (forall b, In b (buses c) -> Forall user_expr (payload b)) ->
  (forall c' eqs st' s, optimize_memory ask ord c st (Some id) = Some (c', eqs, st') -> Forall (op_holds sem s) os -> chronological id (bus_values s c) ->
    Forall (solves s) eqs /\ chronological id (bus_values s c')) /\
  forall width, (id < N.pos p)%N ->
    (forall b, In b (buses c) -> exists k space local data ts, bus_id b = from_number k /\
      (k = of_N id -> payload b = from_number space :: local :: data ++ [ts] /\ length data = width)) ->
    optimize_memory ask ord c st (Some id) <> None.
Proof.
  intros p sem h fuel os l st ord c id Hp Hb Hh U E Ho Hu. destruct (solver_state p sem h fuel os l st Hp Hb Hh U E) as [W S].
  assert (HU : may_ask user_expr c) by (split; [intros k; apply user_number|exact Hu]). split.
  - intros c' eqs st' s Hc Hs Hch. destruct (S s Hs) as (s0 & X0 & S0). set (Inv := fun st : bsolver p => wfst st /\ exists s', same_orig s s' /\ sat sem s' st).
    assert (R : right_about ask Inv user_expr s).
    { intros st1 a b d st2 [W1 (s1 & X1 & S1)] Ua Ub Hd. unfold ask in Hd. destruct Hb as [H2 H64]. pose proof (different_ok Hp H2 H64 sem a b st1 W1 (user_gb _ _ _ Ua) (user_gb _ _ _ Ub)) as (d' & st3 & Hq & [T1 _ _ _ T5]). rewrite Hq in Hd. injection Hd as -> ->.
      destruct (T5 s1 S1 I) as (s2 & X2 & S2 & Hr). apply ext_orig in X2. assert (X : same_orig s s2) by (intros n; rewrite (X2 n); apply X1). split; [split; auto; exists s2; auto|]. intros Hd. rewrite <- (user_eval s s2 a X Ua), <- (user_eval s s2 b X Ub). auto. }
    assert (I0 : Inv st) by (split; auto; exists s0; auto). destruct Hb as [H2 _]. split; [eapply (C23_equations p _ ask Inv); eauto|eapply (C23_chronological p _ ask Inv); eauto].
  - intros width Hid Hsh. apply (C23_succeeds p _ ask wfst user_expr ord c st id width); auto. intros st1 a b W1 Ua Ub. destruct Hb as [H2 H64]. pose proof (different_ok Hp H2 H64 sem a b st1 W1 (user_gb _ _ _ Ua) (user_gb _ _ _ Ub)) as (d & st3 & Hq & [T1 _ _ _ _]). exists d, st3. auto.
Qed.

(** C24: [receives_and_sends] are the execution bus interactions of the instructions, in order.  The result has the
    first receive and the last send, all interactions on other buses in their order, and one more equation per argument for
    every hand-over from a send to the next receive. *)
Theorem C24_structure : forall p (m m' : smach p) id r s rest, on_bus id m = r :: s :: receives_and_sends rest ->
  optimize_exec_bus m id = Some m' ->
  on_bus id m' = [r; last_send s rest] /\ elsewhere id m' = elsewhere id m /\ sm_derived m' = sm_derived m /\
  forall row, accepts m' row <-> accepts m row /\ Forall (fun sr => map (aeval row) (sb_args (fst sr)) = map (aeval row) (sb_args (snd sr))) (handovers s rest).
Proof.
  intros p m m' id r s rest H. unfold optimize_exec_bus. destruct (exec_loop id (sm_buses m) (mkES false true None [] [])) as [x|] eqn:E; [|discriminate]. destruct (first_run id (sm_buses m) r s rest [] H) as [A _]. destruct (A x E) as ((a & b & O & K) & Hs & Hn & Hl). rewrite Hs. intros [= <-]. cbn [app] in K.
  assert (Hin : forall y, In y (r :: s :: receives_and_sends rest) -> sb_id y = id) by (intros y Hy; rewrite <- H in Hy; apply filter_In in Hy; lia).
  assert (Hlast : sb_id (last_send s rest) = id). { apply Hin. right. eapply Permutation_in; [apply Permutation_sym, handover_perm|]. apply in_or_app. right. now left. }
  assert (Hid : forall y, In y (a ++ b) -> (sb_id y =? id)%N = false) by (intros y Hy; rewrite <- O in Hy; apply filter_In in Hy; destruct Hy as [_ Hy]; now apply negb_true_iff in Hy).
  assert (F0 : forall q, (forall y, In y q -> (sb_id y =? id)%N = false) -> filter (fun y : sbus p => (sb_id y =? id)%N) q = [] /\ filter (fun y : sbus p => negb (sb_id y =? id)%N) q = q).
  { induction q as [|y q IH]; intros Hq; cbn [filter]; auto. rewrite (Hq y (or_introl eq_refl)). cbn [negb]. destruct IH as [I1 I2]; [intros; apply Hq; now right|]. rewrite I1, I2. auto. }
  destruct (F0 a) as [a1 a2]; [intros; apply Hid; apply in_or_app; auto|]. destruct (F0 b) as [b1 b2]; [intros; apply Hid; apply in_or_app; auto|].
  unfold on_bus, elsewhere. cbn [sm_buses sm_derived]. rewrite K, !filter_app. cbn [filter]. rewrite (Hin r (or_introl eq_refl)), Hlast, N.eqb_refl. cbn [negb]. rewrite a1, a2, b1, b2, app_nil_r. split; auto. split; [symmetry; exact O|]. split; auto.
  intros row. unfold accepts at 1. cbn [sm_cons]. rewrite Hn, Forall_app. fold (accepts m row).
  assert (Z : forall l, Forall same_length l -> Forall (fun e => aeval row e = 0%F) (flat_map handover_eqs l) <-> Forall (fun sr => map (aeval row) (sb_args (fst sr)) = map (aeval row) (sb_args (snd sr))) l).
  { clear. induction 1 as [|[x y] l Hl _ IH]; cbn [flat_map]; [split; constructor|]. rewrite Forall_app, IH. unfold handover_eqs. cbn [fst snd]. unfold same_length in Hl. cbn in Hl.
    assert (G : Forall (fun e => aeval row e = 0%F) (map (fun z => constraint_from (ABin (fst z) OSub (snd z))) (combine (sb_args y) (sb_args x))) <-> map (aeval row) (sb_args x) = map (aeval row) (sb_args y)).
    { revert Hl. generalize (sb_args x), (sb_args y). intros u v. revert v. induction u as [|e u IHu]; intros [|f v] Hl; try discriminate; cbn [combine map]; [split; auto|]. injection Hl as Hl. specialize (IHu v Hl). split.
      - intros F. inversion F as [|? ? F1 F2]. cbn in F1. apply (proj1 IHu) in F2. f_equal; auto. symmetry. now apply fsub_zero.
      - intros [= E1 E2]. constructor; [cbn; apply fsub_zero; auto|now apply IHu]. }
    rewrite G. split; [intros [G1 G2]; constructor; auto|intros F; inversion F; auto]. }
  rewrite (Z _ Hl). reflexivity.
Qed.
(** C24: if every hand-over has opposite multiplicities (as in a row of instructions, where they are 1 and -1), then in every row
    that satisfies the result no message is sent a different net number of times. *)
Theorem C24_net : forall p (m m' : smach p) id r s rest row, on_bus id m = r :: s :: receives_and_sends rest ->
  optimize_exec_bus m id = Some m' -> accepts m' row ->
  Forall (fun sr => aeval row (sb_mult (snd sr)) = fopp (aeval row (sb_mult (fst sr)))) (handovers s rest) ->
  forall bus args, net_messages bus args (messages m' row) = net_messages bus args (messages m row).
Proof.
  intros p m m' id r s rest row H Ho Ha Hm bus args. destruct (C24_structure p m m' id r s rest H Ho) as (S1 & S2 & _ & S4). apply S4 in Ha. destruct Ha as [_ Ha].
  unfold messages. rewrite (net_messages_perm bus args _ _ (Permutation_map (message row) (on_off_perm id (sm_buses m')))), (net_messages_perm bus args _ _ (Permutation_map (message row) (on_off_perm id (sm_buses m)))).
  unfold on_bus in S1, H. unfold elsewhere in S2. rewrite S1, S2, H. rewrite !map_app, !net_messages_app. f_equal. change (r :: s :: receives_and_sends rest) with ([r] ++ (s :: receives_and_sends rest)). change [r; last_send s rest] with ([r] ++ [last_send s rest]).
  rewrite !map_app, !net_messages_app. f_equal. rewrite (net_messages_perm bus args _ _ (Permutation_map (message row) (handover_perm s rest))). rewrite map_app, net_messages_app.
  assert (Z : net_messages bus args (map (message row) (flat_map (fun sr => [fst sr; snd sr]) (handovers s rest))) = 0%F).
  { assert (Hid : Forall (fun sr => sb_id (fst sr) = id /\ sb_id (snd sr) = id) (handovers s rest)).
    { apply Forall_forall. intros sr Hsr. assert (I1 : forall y, In y (flat_map (fun sr => [fst sr; snd sr]) (handovers s rest)) -> sb_id y = id). { intros y Hy. assert (In y (r :: s :: receives_and_sends rest)) as Hy'; [right; eapply Permutation_in; [apply Permutation_sym, handover_perm|apply in_or_app; auto]|]. rewrite <- H in Hy'. apply filter_In in Hy'. lia. }
      split; apply I1; apply in_flat_map; exists sr; cbn; auto. }
    revert Ha Hm Hid. generalize (handovers s rest). induction l as [|[x y] l IH]; intros Ha Hm Hid; cbn [flat_map app map net_messages]; auto. inversion_clear Ha. inversion_clear Hm. inversion_clear Hid. cbn [fst snd] in *. unfold message at 1 2. cbn [net_messages]. rewrite IH by auto. destruct H4 as [-> ->]. rewrite H0, H2. destruct (N.eq_dec id bus); [destruct (list_eq_dec F_dec (map (aeval row) (sb_args y)) args)|]; [apply fcancel|apply fzeros|apply fzeros]. }
  rewrite Z. symmetry. apply (Radd_0_l (F_ring_theory (p:=p))).
Qed.
(** C24: the pass panics exactly if a hand-over has arguments of different lengths. *)
Theorem C24_succeeds : forall p (m : smach p) id r s rest, on_bus id m = r :: s :: receives_and_sends rest ->
  (optimize_exec_bus m id <> None <-> Forall (fun sr => length (sb_args (fst sr)) = length (sb_args (snd sr))) (handovers s rest)).
Proof.
  intros p m id r s rest H. destruct (first_run id (sm_buses m) r s rest [] H) as [A B]. unfold optimize_exec_bus. split.
  - intros Hn. destruct (exec_loop id (sm_buses m) (mkES false true None [] [])) as [x|] eqn:E; [|congruence]. now destruct (A x eq_refl) as (_ & _ & _ & Hl).
  - intros Hl. specialize (B Hl). destruct (exec_loop id (sm_buses m) (mkES false true None [] [])) as [x|] eqn:E; [|congruence]. destruct (A x eq_refl) as (_ & -> & _). discriminate.
Qed.

(** ** Examples on BabyBear *)
Definition n_ (k : N) : gexp babybear := from_number (of_N k).
Definition v_ (k : N) : gexp babybear := from_var (Orig k).
(** Memory bus 1: store (v1, v2) at 8, store (v3, v4) at v0, load (v5, v6) from 8; v0 is 12 or 16. *)
Definition mem_ops : list (sop babybear) := [AddAlgs [gmul (gsub (v_ 0) (n_ 12)) (gsub (v_ 0) (n_ 16))]; Solve].
Definition mem_sys : csys babybear :=
  mkCS [gmul (gsub (v_ 0) (n_ 12)) (gsub (v_ 0) (n_ 16))]
       [mkBus (n_ 1) (n_ 1) [n_ 1; n_ 8; v_ 1; v_ 2]; mkBus (n_ 1) (n_ 1) [n_ 1; v_ 0; v_ 3; v_ 4]; mkBus (n_ 2) (v_ 7) [v_ 1];
        mkBus (n_ 1) (n_ 2013265920) [n_ 1; n_ 8; v_ 5; v_ 6]] [].
Definition mem_s (v : var) : F babybear :=
  match v with Orig 0 => of_N 16 | Orig 1 => of_N 5 | Orig 2 => of_N 6 | Orig 5 => of_N 5 | Orig 6 => of_N 6 | _ => of_N 3 end.
Example mem_example : exists l st c' eqs st',
  Forall op_ok mem_ops /\ Forall (op_holds double_sem mem_s) mem_ops /\ solver_run double_handler 100 mem_ops base_new = (l, Done st) /\
  (forall b, In b (buses mem_sys) -> Forall user_expr (payload b)) /\
  optimize_memory ask (fun m => m) mem_sys st (Some 1%N) = Some (c', eqs, st') /\ length eqs = 2 /\ length (buses c') = 2 /\
  chronological 1 (bus_values mem_s mem_sys) /\ sys_solves mem_s mem_sys /\
  (forall b, In b (buses mem_sys) -> exists k space local data ts, bus_id b = from_number k /\
      (k = of_N 1 -> payload b = from_number space :: local :: data ++ [ts] /\ length data = 1)).
Proof.
  assert (K : forall e : gexp babybear, wf e -> forallb is_orig (vars e) = true -> user_expr e).
  { intros e A B. split; auto. rewrite forallb_forall in B. exact B. }
  do 5 eexists. split; [|split; [|split; [vm_compute; reflexivity|split; [|split; [vm_compute; reflexivity|]]]]].
  - constructor; [|repeat constructor]. repeat (apply Forall_cons || apply Forall_nil). apply K; [|vm_compute; reflexivity]. repeat first [apply wf_gsub | apply wf_gmul | apply wf_from_var | apply wf_from_number | apply prime_babybear].
  - constructor; [|repeat constructor]. apply Forall_cons; [|apply Forall_nil]. apply F_ext; vm_compute; reflexivity.
  - intros b H. cbn in H. repeat (destruct H as [<-|H]; [repeat (apply Forall_cons || apply Forall_nil); (apply K; [first [apply wf_from_var | apply wf_from_number]; apply prime_babybear|vm_compute; reflexivity])|]). destruct H.
  - split; [reflexivity|]. split; [reflexivity|]. split; [|split; [apply Forall_cons; [|apply Forall_nil]; apply F_ext; vm_compute; reflexivity|]].
    + intros i j bi bj op addr ci cj Hlt Hi Hj (A1 & A2 & A3) (B1 & B2 & B3) _. destruct j as [|[|[|[|j]]]]; cbn in Hj; injection Hj as <- || (destruct j; discriminate).
      * lia.
      * exfalso. revert B2. cbn [mult bmap]. intros B2. vm_compute in B2. discriminate.
      * exfalso. revert B1. cbn [bus_id bmap]. intros B1. vm_compute in B1. discriminate.
      * cbn in B3. injection B3 as B3 B4 B5. destruct i as [|[|[|i]]]; cbn in Hi; injection Hi as <- || lia.
        -- cbn in A3. injection A3 as A3 A4 A5. split.
           ++ destruct op; auto. exfalso. vm_compute in A2. discriminate.
           ++ rewrite <- A5, <- B5. repeat f_equal; apply F_ext; vm_compute; reflexivity.
        -- exfalso. cbn in A3. injection A3 as _ A4 _. rewrite <- B4 in A4. vm_compute in A4. discriminate.
        -- exfalso. vm_compute in A1. discriminate.
    + intros b H. cbn in H. destruct H as [<-|[<-|[<-|[<-|[]]]]]; [exists (of_N 1), (of_N 1), (n_ 8), [v_ 1], (v_ 2)|exists (of_N 1), (of_N 1), (v_ 0), [v_ 3], (v_ 4)|exists (of_N 2), (of_N 1), (v_ 0), [v_ 0], (v_ 0)|exists (of_N 1), (of_N 1), (n_ 8), [v_ 5], (v_ 6)]; (split; [reflexivity|]); intros E; try (split; reflexivity). exfalso. vm_compute in E. discriminate.
Qed.
(** Three instructions on execution bus 0. *)
Definition a_ (k : N) : aexpr babybear := ANum (of_N k).
Definition w_ (k : N) : aexpr babybear := ARef (Orig k).
Definition exec_rest : list (sbus babybear * sbus babybear) :=
  [(mkSB 0 (ANeg (a_ 1)) [a_ 4; w_ 2], mkSB 0 (a_ 1) [a_ 8; ABin (w_ 2) OAdd (a_ 3)]); (mkSB 0 (ANeg (a_ 1)) [a_ 8; w_ 3], mkSB 0 (a_ 1) [w_ 4; ABin (w_ 3) OAdd (a_ 3)])].
Definition exec_machine : smach babybear :=
  mkSM [ABin (w_ 4) OSub (a_ 40)] ([mkSB 0 (ANeg (a_ 1)) [a_ 0; w_ 1]; mkSB 7 (w_ 1) [w_ 4]; mkSB 0 (a_ 1) [a_ 4; ABin (w_ 1) OAdd (a_ 3)]] ++ receives_and_sends exec_rest ++ [mkSB 7 (a_ 1) [w_ 1]]) [].
Definition exec_row (v : var) : F babybear := match v with Orig 1 => of_N 10 | Orig 2 => of_N 13 | Orig 3 => of_N 16 | _ => of_N 40 end.
Example exec_example : exists r s m', on_bus 0 exec_machine = r :: s :: receives_and_sends exec_rest /\ optimize_exec_bus exec_machine 0 = Some m' /\ accepts m' exec_row /\ length (sm_buses m') = 4 /\
  Forall (fun sr => aeval exec_row (sb_mult (snd sr)) = fopp (aeval exec_row (sb_mult (fst sr)))) (handovers s exec_rest).
Proof.
  do 3 eexists. split; [vm_compute; reflexivity|]. split; [vm_compute; reflexivity|]. split; [|split; [reflexivity|]].
  - unfold accepts. cbn [sm_cons]. repeat (apply Forall_cons || apply Forall_nil); apply F_ext; vm_compute; reflexivity.
  - repeat (apply Forall_cons || apply Forall_nil); apply F_ext; vm_compute; reflexivity.
Qed.
Print Assumptions C23_equations. Print Assumptions C23_chronological. Print Assumptions C23_net. Print Assumptions C23_structure. Print Assumptions C23_succeeds. Print Assumptions C23_with_solver.
Print Assumptions C24_structure. Print Assumptions C24_net. Print Assumptions C24_succeeds.
