(** Soundness of the solver, operation by operation. *)
From Coq Require Import NArith ZArith Znumtheory Bool List Lia Ring.
From Coq Require Import ZifyBool ZifyN ZifyNat.
From Verif Require Import Field RangeModel RangeFacts ExprModel ExprFacts ExprWf ExprMore SolveModel SolveFacts
  SystemModel IndexFacts Spec Bridge BusModel BusFacts SplitterModel SplitterFacts BoolLinModel BoolLinFacts
  SearchModel SearchFacts BaseModel.
Import ListNotations.
Local Open Scope F_scope.

Section Width.
  Context {p : positive}.
  Local Notation P := (N.pos p).
  Lemma width_of_le (a b : F p) : fleb a b = true -> range_width_of a b = (val b - val a + 1)%N.
  Proof.
    intros H. unfold fleb in H. apply N.leb_le in H. rewrite range_width_of_eq.
    pose proof (val_sub b a). pose proof (val_lt a). pose proof (val_lt b). pose proof (val_lt (b - a)). lia.
  Qed.
  Lemma width_of_gt (a b : F p) : fleb a b = false -> range_width_of a b = (val b + P - val a + 1)%N.
  Proof.
    intros H. unfold fleb in H. apply N.leb_gt in H. rewrite range_width_of_eq.
    pose proof (val_sub b a). pose proof (val_lt a). pose proof (val_lt b). pose proof (val_lt (b - a)). lia.
  Qed.
  Add Ring Fr : (F_ring_theory (p:=p)).
  Lemma width_of_shift (a b s : F p) : range_width_of (a + s) (b + s) = range_width_of a b.
  Proof. rewrite !range_width_of_eq. f_equal. f_equal. ring. Qed.
  Lemma val_fmin (a b : F p) : val (fmin_ a b) = N.min (val a) (val b).
  Proof. unfold fmin_, fleb. destruct (N.leb_spec (val a) (val b)); lia. Qed.
  Lemma val_fmax (a b : F p) : val (fmax_ a b) = N.max (val a) (val b).
  Proof. unfold fmax_, fleb. destruct (N.leb_spec (val a) (val b)); lia. Qed.
  Lemma intersection_width (a b : F p * F p) i : interval_intersection a b = Some i ->
    (range_width_of (fst i) (snd i) <= range_width_of (fst a) (snd a))%N /\ (range_width_of (fst i) (snd i) <= range_width_of (fst b) (snd b))%N.
  Proof.
    unfold interval_intersection.
    assert (G : forall s r, try_shift a b s = Some r -> exists a' b', r = (s, (a', b')) /\ fleb (fst a') (snd a') = true /\ fleb (fst b') (snd b') = true
       /\ range_width_of (fst a') (snd a') = range_width_of (fst a) (snd a) /\ range_width_of (fst b') (snd b') = range_width_of (fst b) (snd b)).
    { intros s r. unfold try_shift. destruct (fleb _ _ && fleb _ _) eqn:E; [|discriminate]. intros [= <-]. apply andb_true_iff in E.
      eexists _, _. split; [reflexivity|]. split; [tauto|]. split; [tauto|]. unfold shifted_interval. cbn [fst snd]. now rewrite !width_of_shift. }
    assert (K : forall s a' b', fleb (fst a') (snd a') = true -> fleb (fst b') (snd b') = true ->
       range_width_of (fst a') (snd a') = range_width_of (fst a) (snd a) -> range_width_of (fst b') (snd b') = range_width_of (fst b) (snd b) ->
       (if fleb (fmax_ (fst a') (fst b')) (fmin_ (snd a') (snd b')) then Some (shifted_interval (fmax_ (fst a') (fst b'), fmin_ (snd a') (snd b')) s) else None) = Some i ->
       (range_width_of (fst i) (snd i) <= range_width_of (fst a) (snd a))%N /\ (range_width_of (fst i) (snd i) <= range_width_of (fst b) (snd b))%N).
    { intros s a' b' A B C D. destruct (fleb (fmax_ _ _) _) eqn:E; [|discriminate]. intros [= <-]. unfold shifted_interval. cbn [fst snd].
      rewrite width_of_shift, (width_of_le _ _ E), <- C, <- D, (width_of_le _ _ A), (width_of_le _ _ B).
      unfold fleb in *. rewrite val_fmax, val_fmin in *. lia. }
    destruct (try_shift a b (fst a)) as [r|] eqn:E1.
    - destruct (G _ _ E1) as (a' & b' & -> & A & B & C & D). cbn [fst snd]. now apply K.
    - destruct (try_shift a b (fst b)) as [r|] eqn:E2.
      + destruct (G _ _ E2) as (a' & b' & -> & A & B & C & D). cbn [fst snd]. now apply K.
      + destruct (N.leb_spec (range_width_of (fst a) (snd a)) (range_width_of (fst b) (snd b))); intros [= <-]; lia.
  Qed.
  Lemma conjunction_width (a b : rc p) : (range_width (conjunction a b) <= range_width a)%N /\ (range_width (conjunction a b) <= range_width b)%N.
  Proof.
    unfold range_width. unfold conjunction.
    set (i := match interval_intersection _ _ with Some i => i | None => _ end).
    assert (H : (range_width_of (fst i) (snd i) <= range_width_of (rmin a) (rmax a))%N /\ (range_width_of (fst i) (snd i) <= range_width_of (rmin b) (rmax b))%N).
    { unfold i. destruct (interval_intersection _ _) as [j|] eqn:E.
      - exact (intersection_width _ _ _ E).
      - cbn [fst snd]. rewrite !range_width_of_eq. replace (0 - 0 : F p) with (0 : F p) by ring. cbn. lia. }
    clearbody i. destruct i as [mn mx]. cbn [fst snd] in H. set (m := N.land (mask a) (mask b)).
    assert (G : forall mn' mx', (if (m <? P)%N then if fleb mn mx then (fmin_ (of_N m) mn, fmin_ (of_N m) mx)
       else if (m <? val mn)%N then (0, fmin_ (of_N m) mx) else (mn, mx) else (mn, mx)) = (mn', mx') ->
       (range_width_of mn' mx' <= range_width_of mn mx)%N).
    { intros mn' mx'. destruct (N.ltb_spec m P); [|intros [= <- <-]; lia]. destruct (fleb mn mx) eqn:E.
      - intros [= <- <-]. assert (E' : fleb (fmin_ (of_N m) mn) (fmin_ (of_N m) mx) = true) by (unfold fleb in *; rewrite !val_fmin; lia).
        rewrite (width_of_le _ _ E), (width_of_le _ _ E'), !val_fmin, val_of_N_small by auto. lia.
      - destruct (N.ltb_spec m (val mn)); intros [= <- <-]; [|lia].
        assert (E' : fleb 0 (fmin_ (of_N m) mx) = true) by (unfold fleb; rewrite !val_fmin; cbn; lia).
        rewrite (width_of_gt _ _ E), (width_of_le _ _ E'), !val_fmin, val_of_N_small by auto. pose proof (val_lt mn). lia. }
    destruct (if (m <? P)%N then _ else _) as [mn' mx'] eqn:E. specialize (G _ _ eq_refl). cbn [rmin rmax]. lia.
  Qed.
End Width.
Lemma vm_get_insert {A} v w (a : A) m : vm_get w (vm_insert v a m) = if veqb w v then Some a else vm_get w m.
Proof.
  induction m as [|[u c] m IH]; cbn [vm_insert vm_get].
  - reflexivity.
  - destruct (veqb_spec v u) as [->|N1]; cbn [vm_get].
    + destruct (veqb w u); reflexivity.
    + destruct (vltb v u); cbn [vm_get]; [reflexivity|]. rewrite IH.
      destruct (veqb_spec w u) as [->|]; auto. destruct (veqb_spec u v); congruence.
Qed.

Section BaseFacts.
  Context {p : positive}.
  Context (Hp : prime (Z.pos p)) (H2 : (2 < N.pos p)%N) (H64 : (N.pos p <= 2 ^ 64)%N).
  Local Notation gexp := (gexp p).
  Local Notation rc := (rc p).
  Local Notation P := (N.pos p).
  Add Ring Fring : (F_ring_theory (p:=p)).
  Context (sem : busi (F p) -> Prop) (h : busi rc -> busi rc) (Hh : handler_sound sem h).
  Local Notation bsolver := (bsolver p).

  Definition gb nb nl (e : gexp) : Prop := wf e /\ bounded nb nl e.
  Lemma gb_mono nb nl nb' nl' e : (nb <= nb')%N -> (nl <= nl')%N -> gb nb nl e -> gb nb' nl' e.
  Proof. intros A B [C D]. split; auto. eapply bounded_mono; eauto. Qed.
  Lemma aff_gb nb nl e : aff nb nl e -> gb nb nl e.
  Proof. intros (A & _ & B). now split. Qed.

  Record wfst (st : bsolver) : Prop := {
    w_q : qcs_ok (bcs st);
    w_algs : Forall (gb (bnb st) (bnl st)) (algs (isys (qsys (bcs st))));
    w_buses : Forall (fun b => Forall (gb (bnb st) (bnl st)) (fields b)) (buses (isys (qsys (bcs st))));
    w_rc : Forall (fun vr => old (bnb st) (bnl st) (fst vr)) (brc st);
    w_pend : Forall (fun ve => old (bnb st) (bnl st) (fst ve) /\ aff (bnb st) (bnl st) (snd ve) /\ ~ In (fst ve) (vars (snd ve))) (bpend st);
    w_cache : Forall (fun kl => gb (bnb st) (bnl st) (fst kl) /\ Forall (gb (bnb st) (bnl st)) (snd kl)) (bcache st);
    w_lm : lm_ok (bnb st) (bnl st) (blm st) }.
  Record sat (s : var -> F p) (st : bsolver) : Prop := {
    s_algs : Forall (solves s) (algs (isys (qsys (bcs st))));
    s_buses : Forall (fun b => sem (bmap (eval s) b)) (buses (isys (qsys (bcs st))));
    s_rc : Forall (fun vr => rc_allows (snd vr) (s (fst vr))) (brc st);
    s_pend : Forall (fun ve => s (fst ve) = eval s (snd ve)) (bpend st);
    s_cache : Forall (fun kl => Forall (fun x => eval s (fst kl) = eval s x) (snd kl)) (bcache st);
    s_lm : lin_true s (blm st) }.
  Definition zeros (s : var -> F p) (es : list gexp) : Prop := Forall (solves s) es.

  Lemma zeros_ext nb nl s s' es : ext nb nl s s' -> Forall (gb nb nl) es -> zeros s es -> zeros s' es.
  Proof.
    intros E G Z. unfold zeros in *. rewrite Forall_forall in *. intros e He. unfold solves. rewrite (ext_eval nb nl s s' e E); [now apply Z|].
    now apply G.
  Qed.
  Lemma bmap_eval_ext nb nl s s' b : ext nb nl s s' -> Forall (gb nb nl) (fields b) -> bmap (eval s') b = bmap (eval s) b.
  Proof.
    intros E G. unfold fields in G. inversion G as [|? ? G1 G']; subst. inversion G' as [|? ? G2 G3]; subst. unfold bmap.
    rewrite (ext_eval nb nl s s' _ E (proj2 G1)), (ext_eval nb nl s s' _ E (proj2 G2)). f_equal. apply map_ext_in. intros e He.
    rewrite Forall_forall in G3. apply (ext_eval nb nl); auto. now apply G3.
  Qed.
  Lemma sat_ext s s' st : wfst st -> ext (bnb st) (bnl st) s s' -> sat s st -> sat s' st.
  Proof.
    intros W E S. constructor.
    - exact (zeros_ext _ _ _ _ _ E (w_algs _ W) (s_algs _ _ S)).
    - pose proof (s_buses _ _ S) as B. pose proof (w_buses _ W) as G. rewrite Forall_forall in *. intros b Hb.
      rewrite (bmap_eval_ext _ _ _ _ b E); auto.
    - pose proof (s_rc _ _ S) as B. pose proof (w_rc _ W) as G. rewrite Forall_forall in *. intros vr Hv. rewrite E; auto.
    - pose proof (s_pend _ _ S) as B. pose proof (w_pend _ W) as G. rewrite Forall_forall in *. intros ve Hv.
      destruct (G _ Hv) as (A1 & A2 & _). rewrite (E _ A1), (ext_eval _ _ _ _ _ E (proj2 (proj2 A2))). auto.
    - pose proof (s_cache _ _ S) as B. pose proof (w_cache _ W) as G. rewrite Forall_forall in *. intros kl Hk.
      destruct (G _ Hk) as (A1 & A2). specialize (B _ Hk). rewrite Forall_forall in *. intros x Hx.
      rewrite (ext_eval _ _ _ _ _ E (proj2 A1)), (ext_eval _ _ _ _ _ E (proj2 (A2 _ Hx))). auto.
    - exact (ext_lin_true _ _ _ _ _ E (w_lm _ W) (s_lm _ _ S)).
  Qed.
  Lemma rcget_allows s st v : sat s st -> rc_allows (rcget st v) (s v).
  Proof.
    intros S. unfold rcget. destruct (vm_get v (brc st)) as [r|] eqn:E.
    - pose proof (s_rc _ _ S) as B. rewrite Forall_forall in B. apply (B (v, r)). now apply vm_get_in.
    - apply rc_allows_iff, unconstrained_allows.
  Qed.
  Lemma cs_ext_eq st st' s : bcs st' = bcs st -> brc st' = brc st -> bpend st' = bpend st -> bcache st' = bcache st -> blm st' = blm st -> sat s st -> sat s st'.
  Proof. intros A B C D E S. destruct S. constructor; rewrite ?A, ?B, ?C, ?D, ?E; auto. Qed.
  Lemma wfst_grow st m n : wfst st -> (bnb st <= n)%N -> wfst (set_bool m n st).
  Proof.
    intros W L. constructor; cbn [set_bool bcs brc bpend bcache bnb bnl blm].
    - apply W.
    - eapply Forall_impl; [|apply W]. intros e. apply gb_mono; lia.
    - eapply Forall_impl; [|apply W]. intros b. apply Forall_impl. intros e. apply gb_mono; lia.
    - eapply Forall_impl; [|apply W]. intros b. apply old_mono; lia.
    - eapply Forall_impl; [|apply W]. intros ve (A & B & C). split; [|split]; auto; [eapply old_mono|eapply aff_mono]; eauto; lia.
    - eapply Forall_impl; [|apply W]. intros kl (A & B). split; [|eapply Forall_impl; [|exact B]; intros e]; eapply gb_mono; eauto; lia.
    - eapply lm_ok_mono; [| |apply W]; lia.
  Qed.
  Lemma wfst_set_lin st m n : wfst st -> (bnl st <= n)%N -> lm_ok (bnb st) n m -> wfst (set_lin m n st).
  Proof.
    intros W L M. constructor; cbn [set_lin bcs brc bpend bcache bnb bnl blm].
    - apply W.
    - eapply Forall_impl; [|apply W]. intros e. apply gb_mono; lia.
    - eapply Forall_impl; [|apply W]. intros b. apply Forall_impl. intros e. apply gb_mono; lia.
    - eapply Forall_impl; [|apply W]. intros b. apply old_mono; lia.
    - eapply Forall_impl; [|apply W]. intros ve (A & B & C). split; [|split]; auto; [eapply old_mono|eapply aff_mono]; eauto; lia.
    - eapply Forall_impl; [|apply W]. intros kl (A & B). split; [|eapply Forall_impl; [|exact B]; intros e]; eapply gb_mono; eauto; lia.
    - exact M.
  Qed.
  Lemma wfst_clear st : wfst st -> wfst (clear_cache st).
  Proof. intros W. destruct W. constructor; auto. constructor. Qed.
  Lemma sat_clear s st : sat s st -> sat s (clear_cache st).
  Proof. intros W. destruct W. constructor; auto. constructor. Qed.

  (** ** Steps *)
  Definition shrink (st st' : bsolver) : Prop := forall v, (range_width (rcget st' v) <= range_width (rcget st v))%N.
  Record step (Q R : (var -> F p) -> Prop) (st st' : bsolver) : Prop := {
    t_wf : wfst st';
    t_nb : (bnb st <= bnb st')%N;
    t_nl : (bnl st <= bnl st')%N;
    t_shrink : shrink st st';
    t_sat : forall s, sat s st -> Q s -> exists s', ext (bnb st) (bnl st) s s' /\ sat s' st' /\ R s' }.
  Definition anyway : (var -> F p) -> Prop := fun _ => True.
  Lemma shrink_refl st : shrink st st. Proof. intros v. lia. Qed.
  Lemma shrink_trans a b c : shrink a b -> shrink b c -> shrink a c.
  Proof. intros A B v. specialize (A v). specialize (B v). lia. Qed.
  Lemma shrink_eq a b : brc b = brc a -> shrink a b.
  Proof. intros E v. unfold rcget. rewrite E. lia. Qed.
  Lemma step_refl Q st : wfst st -> step Q Q st st.
  Proof. intros W. constructor; auto; try lia; [apply shrink_refl|]. intros s S HQ. exists s. split; [apply ext_refl|auto]. Qed.
  Lemma step_trans Q R S a b c : step Q R a b -> step R S b c -> step Q S a c.
  Proof.
    intros A B. destruct A as [A1 A2 A3 A4 A5], B as [B1 B2 B3 B4 B5]. constructor; auto; try lia; [eapply shrink_trans; eauto|].
    intros s Hs HQ. destruct (A5 s Hs HQ) as (s1 & E1 & S1 & R1). destruct (B5 s1 S1 R1) as (s2 & E2 & S2 & R2).
    exists s2. split; auto. eapply ext_trans; eauto.
  Qed.
  Lemma step_weaken (Q Q' R R' : (var -> F p) -> Prop) a b : (forall s, sat s a -> Q' s -> Q s) -> (forall s, R s -> R' s) -> step Q R a b -> step Q' R' a b.
  Proof.
    intros H1 H3 [A1 A2 A3 A4 A5]. constructor; auto. intros s Hs HQ. destruct (A5 s Hs (H1 s Hs HQ)) as (s1 & E1 & S1 & R1).
    exists s1. auto.
  Qed.
  (** A fact about old variables survives a step. *)
  Lemma step_frame (T : (var -> F p) -> Prop) Q R a b : (forall s s', ext (bnb a) (bnl a) s s' -> T s -> T s') -> step Q R a b ->
    step (fun s => Q s /\ T s) (fun s => R s /\ T s) a b.
  Proof.
    intros HT [A1 A2 A3 A4 A5]. constructor; auto. intros s Hs [HQ HTs]. destruct (A5 s Hs HQ) as (s1 & E1 & S1 & R1).
    exists s1. split; auto. split; auto. split; auto. eapply HT; eauto.
  Qed.
  Lemma zeros_frame nb nl es : Forall (gb nb nl) es -> forall s s', ext nb nl s s' -> zeros s es -> zeros s' es.
  Proof. intros G s s' E. now apply (zeros_ext nb nl). Qed.
  Lemma step_clear (Q : (var -> F p) -> Prop) st : wfst st -> step Q Q st (clear_cache st).
  Proof.
    intros W. constructor; try (cbn; lia); [now apply wfst_clear|now apply shrink_eq|]. intros s S HQ. exists s. split; [apply ext_refl|].
    split; auto. now apply sat_clear.
  Qed.

  Definition rec_ok (rec : upd_fun) : Prop := forall v r st b st', wfst st -> old (bnb st) (bnl st) v -> rec v r st = Some (b, st') ->
    step (fun s => rc_allows r (s v)) anyway st st'.
  Lemma add_rc_with_ok rec v r st st' : rec_ok rec -> wfst st -> old (bnb st) (bnl st) v -> add_rc_with rec v r st = Some st' ->
    step (fun s => rc_allows r (s v)) anyway st st'.
  Proof.
    intros HR W O. unfold add_rc_with. destruct (rec v r (clear_cache st)) as [[b st1]|] eqn:E; [|discriminate]. intros [= <-].
    eapply step_trans; [apply step_clear; auto|]. eapply HR; [| |exact E]; auto. now apply wfst_clear.
  Qed.
  Lemma upd_other (s : var -> F p) z b v : v <> z -> upd s z b v = s v.
  Proof. intros N. unfold upd. destruct (veqb_spec z v); congruence. Qed.
  Lemma upd_same (s : var -> F p) z b : upd s z b z = b.
  Proof. unfold upd. now rewrite veqb_refl. Qed.
  Lemma fresh_bool_ext nb nl (s : var -> F p) b : ext nb nl s (upd s (Boolv nb) b).
  Proof. intros v O. apply upd_other. intros ->. cbn in O. lia. Qed.
  Lemma bool_mask_allows (b : F p) : b = 0 \/ b = 1 -> rc_allows (from_mask 1) b.
  Proof.
    intros H. apply rc_allows_iff. assert (V : (val b < 2)%N).
    { destruct H as [-> | ->]; unfold fzero, fone; rewrite val_of_N_small; lia. }
    apply from_mask_allows. destruct (N.eq_dec (val b) 0) as [->|]; [reflexivity|]. replace (val b) with 1%N by lia. reflexivity.
  Qed.
  (** The extraction itself. *)
  Lemma extract_step m nb nl (e : gexp) c zo m' nb' : gb nb nl e -> try_extract_boolean m nb e = (Some (c, zo), (m', nb')) ->
    (nb <= nb')%N /\ gb nb' nl c /\ (forall z, zo = Some z -> z = Boolv nb /\ nb' = (nb + 1)%N) /\
    forall s, solves s e -> exists s', ext nb nl s s' /\ solves s' c /\ forall z, zo = Some z -> rc_allows (from_mask 1) (s' z).
  Proof.
    intros [W B] E. destruct (extract_ok Hp m nb e c zo m' nb' W E) as [Wc H]. destruct zo as [z|].
    - destruct H as (-> & -> & Hi & H). assert (Nz : ~ In (Boolv nb) (vars e)) by (intros Hz; apply B in Hz; cbn in Hz; lia).
      split; [lia|]. split; [split; auto|].
      { intros v Hv. apply Hi in Hv. destruct Hv as [<-|Hv]; [cbn; lia|]. apply B in Hv. eapply old_mono; [| |exact Hv]; lia. }
      split; [intros z [= <-]; auto|]. intros s Hs. apply (H s Nz) in Hs. destruct Hs as (b & Hb & Hc).
      exists (upd s (Boolv nb) b). split; [apply fresh_bool_ext|]. split; auto. intros z [= <-]. rewrite upd_same. now apply bool_mask_allows.
    - destruct H as (-> & Hi & H). split; [lia|]. split; [split; auto; intros v Hv; auto|]. split; [discriminate|].
      intros s Hs. exists s. split; [apply ext_refl|]. split; [now apply H|discriminate].
  Qed.
  Lemma extract_with_ok rec e st l st' : rec_ok rec -> wfst st -> gb (bnb st) (bnl st) e -> extract_with rec e st = Some (l, st') ->
    Forall (gb (bnb st') (bnl st')) l /\ step (fun s => solves s e) (fun s => zeros s l) st st'.
  Proof.
    intros HR W G. unfold extract_with. destruct (try_extract_boolean (bbm st) (bnb st) e) as [[[c zo]|] [m nb]] eqn:E.
    - destruct (extract_step _ _ _ _ _ _ _ _ G E) as (L & Gc & Hz & Hs). pose proof (wfst_grow st m nb W L) as W1.
      assert (S1 : step (fun s => solves s e) (fun s => (forall z, zo = Some z -> rc_allows (from_mask 1) (s z)) /\ zeros s [c]) st (set_bool m nb st)).
      { constructor; auto; try (cbn; lia); [now apply shrink_eq|]. intros s S He. destruct (Hs s He) as (s' & E1 & Ec & Er). exists s'.
        split; auto. split; [|split; auto; constructor; auto; constructor].
        pose proof (sat_ext s s' st W E1 S) as S'. eapply cs_ext_eq; [..|exact S']; reflexivity. }
      destruct zo as [z|].
      + destruct (add_rc_with rec z (from_mask 1) (set_bool m nb st)) as [st2|] eqn:E2; [|discriminate]. intros [= <- <-].
        destruct (Hz z eq_refl) as [-> ->].
        assert (O : old (bnb (set_bool m (bnb st + 1) st)) (bnl (set_bool m (bnb st + 1) st)) (Boolv (bnb st))) by (cbn; lia).
        pose proof (add_rc_with_ok rec _ _ _ _ HR W1 O E2) as S2. split.
        * constructor; [|constructor]. eapply gb_mono; [| |exact Gc]; [exact (t_nb _ _ _ _ S2)|exact (t_nl _ _ _ _ S2)].
        * eapply step_trans; [exact S1|]. eapply step_weaken; [| |apply (step_frame (fun s => zeros s [c]))]; [| | |exact S2].
          -- cbn beta. intros s _ [A B]. split; auto.
          -- cbn beta. tauto.
          -- apply zeros_frame. constructor; [exact Gc|constructor].
      + intros [= <- <-]. split; [constructor; [exact Gc|constructor]|]. eapply step_weaken; [| |exact S1]; cbn beta; tauto.
    - intros [= <- <-]. apply extract_none in E. destruct E as [-> ->]. split; [constructor|].
      constructor; try (cbn; lia); [apply wfst_grow; auto; lia|now apply shrink_eq|]. intros s S _. exists s. split; [apply ext_refl|].
      split; [|constructor]. eapply cs_ext_eq; [..|exact S]; reflexivity.
  Qed.
  Lemma extract_all_with_ok rec es : forall st l st', rec_ok rec -> wfst st -> Forall (gb (bnb st) (bnl st)) es -> extract_all_with rec es st = Some (l, st') ->
    Forall (gb (bnb st') (bnl st')) l /\ step (fun s => zeros s es) (fun s => zeros s l) st st'.
  Proof.
    induction es as [|e es IH]; intros st l st' HR W G; cbn [extract_all_with].
    - intros [= <- <-]. split; [constructor|now apply step_refl].
    - inversion G as [|? ? Ge Ges]; subst. destruct (extract_with rec e st) as [[l1 st1]|] eqn:E1; [|discriminate].
      destruct (extract_all_with rec es st1) as [[l2 st2]|] eqn:E2; [|discriminate]. intros [= <- <-].
      destruct (extract_with_ok _ _ _ _ _ HR W Ge E1) as [G1 S1]. pose proof (t_nb _ _ _ _ S1) as Lb. pose proof (t_nl _ _ _ _ S1) as Ll.
      assert (Ges' : Forall (gb (bnb st1) (bnl st1)) (e :: es)) by (eapply Forall_impl; [|exact G]; intros x; now apply gb_mono).
      destruct (IH st1 l2 st2 HR (t_wf _ _ _ _ S1) (Forall_inv_tail Ges') E2) as [G2 S2].
      pose proof (t_nb _ _ _ _ S2) as Lb2. pose proof (t_nl _ _ _ _ S2) as Ll2. split.
      + apply Forall_app. split; [eapply Forall_impl; [|exact G1]; intros x; now apply gb_mono|]. constructor; auto.
        eapply gb_mono; [| |exact (Forall_inv Ges')]; auto.
      + eapply step_trans.
        * eapply step_weaken; [| |apply (step_frame (fun s => zeros s (e :: es)) _ _ _ _ (zeros_frame _ _ _ G) S1)].
          -- cbn beta. intros s _ Z. split; [exact (Forall_inv Z)|exact Z].
          -- intros s H. exact H.
        * eapply step_weaken; [| |apply (step_frame (fun s => zeros s (e :: l1)) _ _ _ _ (zeros_frame _ _ (e :: l1) (Forall_cons _ (Forall_inv Ges') G1)) S2)]; cbn beta.
          -- intros s _ [A B]. split; [exact (Forall_inv_tail B)|]. constructor; auto. exact (Forall_inv B).
          -- intros s [A B]. apply Forall_app. split; [exact (Forall_inv_tail B)|]. constructor; auto. exact (Forall_inv B).
  Qed.
  (** ** Linearization *)
  Lemma linearize_constraint_ok e st l st' : wfst st -> gb (bnb st) (bnl st) e -> linearize_constraint e st = (l, st') ->
    Forall (gb (bnb st') (bnl st')) l /\ step (fun s => solves s e) (fun s => zeros s l) st st' /\ brc st' = brc st /\ bnb st' = bnb st.
  Proof.
    intros W G. unfold linearize_constraint. destruct (is_affine e).
    - intros [= <- <-]. split; [constructor; auto|]. split; auto. eapply step_weaken; [| |apply (step_refl (fun s => solves s e) _ W)]; auto.
      intros s H. constructor; [exact H|constructor].
    - destruct (linearize e (mkLS (blm st) (bnl st) [])) as [x ls] eqn:E. intros [= <- <-].
      destruct (linearize_ok Hp (bnb st) e (mkLS (blm st) (bnl st) []) x ls (w_lm _ W) (proj1 G) (proj2 G) E) as (new & L & A & V).
      pose proof (ls_le _ _ _ _ L) as Ll. cbn [lnext] in Ll. pose proof (ls_new _ _ _ _ L) as En. cbn [lconstrs app] in En.
      split; [|split; [|split; reflexivity]].
      + cbn [set_lin bnb bnl]. constructor; [eapply gb_mono; [| |exact G]; lia|]. apply Forall_app. split; [rewrite En; exact (ls_good _ _ _ _ L)|].
        constructor; [now apply aff_gb|constructor].
      + constructor; try (cbn; lia); [apply wfst_set_lin; auto; exact (ls_ok _ _ _ _ L)|now apply shrink_eq|].
        intros s S He. destruct (ls_ext _ _ _ _ L s (s_lm _ _ S)) as (s' & E1 & T). exists s'. cbn [lnext] in E1. split; auto.
        pose proof (sat_ext _ _ _ W E1 S) as S'. split; [destruct S'; constructor; auto|].
        pose proof (proj1 (ls_iff _ _ _ _ L s') T) as [_ Z]. pose proof (ext_eval _ _ _ _ _ E1 (proj2 G)) as Ee.
        constructor; [unfold solves; rewrite Ee; exact He|]. apply Forall_app. split; [rewrite En; exact Z|]. constructor; [|constructor].
        unfold solves. rewrite (V s' T), Ee. exact He.
  Qed.
  Lemma linearize_all_ok es : forall st l st', wfst st -> Forall (gb (bnb st) (bnl st)) es -> linearize_all es st = (l, st') ->
    Forall (gb (bnb st') (bnl st')) l /\ step (fun s => zeros s es) (fun s => zeros s l) st st' /\ brc st' = brc st /\ bnb st' = bnb st.
  Proof.
    induction es as [|e es IH]; intros st l st' W G; cbn [linearize_all].
    - intros [= <- <-]. split; [constructor|]. split; auto. now apply step_refl.
    - inversion G as [|? ? Ge Ges]; subst. destruct (linearize_constraint e st) as [l1 st1] eqn:E1.
      destruct (linearize_all es st1) as [l2 st2] eqn:E2. intros [= <- <-].
      destruct (linearize_constraint_ok _ _ _ _ W Ge E1) as (G1 & S1 & B1 & B1'). pose proof (t_nb _ _ _ _ S1) as Lb. pose proof (t_nl _ _ _ _ S1) as Ll.
      assert (Ges' : Forall (gb (bnb st1) (bnl st1)) es) by (eapply Forall_impl; [|exact Ges]; intros x; now apply gb_mono).
      destruct (IH st1 l2 st2 (t_wf _ _ _ _ S1) Ges' E2) as (G2 & S2 & B2 & B2'). pose proof (t_nb _ _ _ _ S2) as Lb2. pose proof (t_nl _ _ _ _ S2) as Ll2. split; [|split; [|split; congruence]].
      + apply Forall_app. split; auto. eapply Forall_impl; [|exact G1]. intros x. now apply gb_mono.
      + eapply step_trans.
        * eapply step_weaken; [| |apply (step_frame (fun s => zeros s es) _ _ _ _ (zeros_frame _ _ _ Ges) S1)].
          -- cbn beta. intros s _ Z. split; [exact (Forall_inv Z)|exact (Forall_inv_tail Z)].
          -- intros s H. exact H.
        * eapply step_weaken; [| |apply (step_frame (fun s => zeros s l1) _ _ _ _ (zeros_frame _ _ _ G1) S2)]; cbn beta.
          -- intros s _ [A B]. split; auto.
          -- intros s [A B]. apply Forall_app. split; auto.
  Qed.
  Lemma filter_Forall {A} (f : A -> bool) (T : A -> Prop) l : Forall T l -> Forall T (filter f l).
  Proof. rewrite !Forall_forall. intros H x Hx. apply filter_In in Hx. now apply H. Qed.
  Lemma isys_add_algs es (c : qcs p) : isys (qsys (qcs_add_algs es c)) = cs_extend (isys (qsys c)) (mkCS es [] []).
  Proof. reflexivity. Qed.
  Lemma isys_add_buses bs (c : qcs p) : isys (qsys (qcs_add_buses bs c)) = cs_extend (isys (qsys c)) (mkCS [] bs []).
  Proof. reflexivity. Qed.
  Lemma put_algs_ok es st : wfst st -> Forall (gb (bnb st) (bnl st)) es -> step (fun s => zeros s es) anyway st (set_cs (qcs_add_algs es (bcs st)) st).
  Proof.
    intros W G. constructor; try (cbn; lia); [|now apply shrink_eq|].
    - destruct W. constructor; cbn [set_cs bcs brc bpend bcache bnb bnl blm]; auto.
      + now apply qcs_add_algs_ok.
      + rewrite isys_add_algs. cbn [cs_extend algs]. apply Forall_app. auto.
      + rewrite isys_add_algs. cbn [cs_extend buses]. rewrite app_nil_r. auto.
    - intros s S Z. exists s. split; [apply ext_refl|]. split; [|exact I]. destruct S. constructor; cbn [set_cs bcs brc bpend bcache bnb bnl blm]; auto.
      + rewrite isys_add_algs. cbn [cs_extend algs]. apply Forall_app. auto.
      + rewrite isys_add_algs. cbn [cs_extend buses]. rewrite app_nil_r. auto.
  Qed.
  Lemma add_algs_with_ok rec es st st' : rec_ok rec -> wfst st -> Forall (gb (bnb st) (bnl st)) es -> add_algs_with rec es st = Some st' ->
    step (fun s => zeros s es) anyway st st'.
  Proof.
    intros HR W G. unfold add_algs_with. destruct (extract_all_with rec (filter not_redundant es) (clear_cache st)) as [[es1 st1]|] eqn:E1; [|discriminate].
    destruct (linearize_all es1 st1) as [es2 st2] eqn:E2. intros [= <-].
    destruct (extract_all_with_ok rec _ _ _ _ HR (wfst_clear _ W) (filter_Forall not_redundant _ _ G) E1) as [G1 S1].
    destruct (linearize_all_ok _ _ _ _ (t_wf _ _ _ _ S1) G1 E2) as (G2 & S2 & _).
    pose proof (put_algs_ok _ st2 (t_wf _ _ _ _ S2) (filter_Forall not_redundant _ _ G2)) as S3.
    eapply step_trans; [apply step_clear; auto|]. eapply step_trans; [|eapply step_trans; [exact S2|]].
    - eapply step_weaken; [| |exact S1]; [|intros s Hs; exact Hs]. cbn beta. intros s _ Z. now apply filter_Forall.
    - eapply step_weaken; [| |exact S3]; auto. cbn beta. intros s _ Z. now apply filter_Forall.
  Qed.

  (** ** Assignments *)
  Lemma extract_refs_ok rs : forall m nb nl cs zs m' nb', Forall (fun r => match r with RAlg e => gb nb nl e | RBus _ => True end) rs ->
    extract_refs rs m nb = (cs, zs, (m', nb')) ->
    (nb <= nb')%N /\ Forall (gb nb' nl) cs /\ Forall (fun z => exists n, z = Boolv n /\ (nb <= n < nb')%N) zs /\ NoDup zs /\
    forall s, Forall (fun r => match r with RAlg e => solves s e | RBus _ => True end) rs ->
      exists s', ext nb nl s s' /\ zeros s' cs /\ Forall (fun z => rc_allows (from_mask 1) (s' z)) zs.
  Proof.
    induction rs as [|[e|b] rs IH]; intros m nb nl cs zs m' nb' G; cbn [extract_refs].
    - intros [= <- <- <- <-]. split; [lia|]. split; [constructor|]. split; [constructor|]. split; [constructor|].
      intros s _. exists s. split; [apply ext_refl|]. split; constructor.
    - inversion G as [|? ? Ge Grs]; subst. destruct (try_extract_boolean m nb e) as [r [m1 nb1]] eqn:E.
      destruct (extract_refs rs m1 nb1) as [[cs1 zs1] [m2 nb2]] eqn:E1.
      assert (Lnb : (nb <= nb1)%N).
      { destruct r as [[c zo]|]; [apply (extract_step _ _ _ _ _ _ _ _ Ge E)|]. apply extract_none in E. lia. }
      assert (Grs' : Forall (fun r => match r with RAlg e => gb nb1 nl e | RBus _ => True end) rs).
      { eapply Forall_impl; [|exact Grs]. intros [x|]; auto. apply gb_mono; lia. }
      destruct (IH m1 nb1 nl cs1 zs1 m2 nb2 Grs' E1) as (L & Gc & Hz & ND & HS). destruct r as [[c zo]|].
      + intros [= <- <- <- <-]. destruct (extract_step _ _ _ _ _ _ _ _ Ge E) as (_ & Gc1 & Hz1 & HS1).
        split; [lia|]. split; [constructor; auto; eapply gb_mono; [| |exact Gc1]; lia|]. split; [|split].
        * apply Forall_app. split.
          -- destruct zo as [z|]; cbn [option_list]; constructor; [|constructor]. destruct (Hz1 z eq_refl) as [-> ->]. exists nb. split; auto. lia.
          -- eapply Forall_impl; [|exact Hz]. intros z (n & -> & Hn). exists n. split; auto. lia.
        * destruct zo as [z|]; cbn [option_list app]; auto. constructor; auto. destruct (Hz1 z eq_refl) as [-> ->]. intros Hin.
          rewrite Forall_forall in Hz. destruct (Hz _ Hin) as (n & [= <-] & Hn). lia.
        * intros s Hs. inversion Hs as [|? ? He Hrs]; subst. destruct (HS1 s He) as (s1 & X1 & Z1 & R1).
          assert (Hrs1 : Forall (fun r => match r with RAlg e => solves s1 e | RBus _ => True end) rs).
          { rewrite Forall_forall in *. intros [x|] Hx; auto. specialize (Grs _ Hx). specialize (Hrs _ Hx). cbn beta iota in *.
            unfold solves. rewrite (ext_eval nb nl s s1 x X1); auto. apply Grs. }
          destruct (HS s1 Hrs1) as (s2 & X2 & Z2 & R2). exists s2. split; [eapply ext_trans; [| |exact X1|exact X2]; lia|].
          split; [constructor; auto; unfold solves; rewrite (ext_eval nb1 nl s1 s2 c X2); [exact Z1|apply Gc1]|].
          apply Forall_app. split; auto. destruct zo as [z|]; cbn [option_list]; constructor; [|constructor].
          rewrite X2; [now apply R1|]. destruct (Hz1 z eq_refl) as [-> ->]. cbn. lia.
      + intros [= <- <- <- <-]. apply extract_none in E. destruct E as [-> ->]. split; [lia|]. split; auto. split; auto. split; auto.
        intros s Hs. inversion Hs; subst. auto.
    - inversion G; subst. intros E. destruct (IH m nb nl cs zs m' nb' ltac:(auto) E) as (L & Gc & Hz & ND & HS). split; auto. split; auto. split; auto. split; auto.
      intros s Hs. inversion Hs; subst. auto.
  Qed.
  Lemma add_bools_with_ok rec zs : forall st st', rec_ok rec -> wfst st -> Forall (old (bnb st) (bnl st)) zs -> add_bools_with rec zs st = Some st' ->
    step (fun s => Forall (fun z => rc_allows (from_mask 1) (s z)) zs) anyway st st'.
  Proof.
    induction zs as [|z zs IH]; intros st st' HR W O; cbn [add_bools_with].
    - intros [= <-]. eapply step_weaken; [| |apply (step_refl anyway _ W)]; unfold anyway; auto.
    - inversion O as [|? ? Oz Ozs]; subst. destruct (add_rc_with rec z (from_mask 1) st) as [st1|] eqn:E; [|discriminate]. intros E1.
      pose proof (add_rc_with_ok _ _ _ _ _ HR W Oz E) as S1. pose proof (t_nb _ _ _ _ S1) as Lb. pose proof (t_nl _ _ _ _ S1) as Ll.
      assert (Ozs' : Forall (old (bnb st1) (bnl st1)) zs) by (eapply Forall_impl; [|exact Ozs]; intros x; now apply old_mono).
      pose proof (IH st1 st' HR (t_wf _ _ _ _ S1) Ozs' E1) as S2. eapply step_trans; [|exact S2].
      eapply step_weaken; [| |eapply (step_frame (fun s => Forall (fun z => rc_allows (from_mask 1) (s z)) zs))]; [| | |exact S1]; cbn beta.
      + intros s _ H. inversion H; subst. auto.
      + tauto.
      + intros s s' X H. rewrite Forall_forall in *. intros x Hx. rewrite X; auto.
  Qed.
  Lemma isys_subst v e (c : qcs p) : qcs_ok c -> ~ In v (vars e) ->
    isys (qsys (qcs_subst_unknown v e c)) = cs_map (subst_unknown v e) (cm_subst_unknown v e) (isys (qsys c)).
  Proof. intros Q N. unfold qcs_subst_unknown, variable_updated. cbn [qsys]. apply subst_unknown_sys; auto. apply Q. Qed.
  Lemma eval_subst_same (s : var -> F p) v e x : s v = eval s e -> eval s (subst_unknown v e x) = eval s x.
  Proof.
    intros E. rewrite eval_subst_unknown. apply eval_ext. intros w _. unfold upd. destruct (veqb_spec v w) as [->|]; auto.
  Qed.
  Lemma gb_subst nb nl v e x : gb nb nl e -> gb nb nl x -> gb nb nl (subst_unknown v e x).
  Proof. intros [A B] [C D]. split; [now apply wf_subst_unknown|now apply bounded_subst]. Qed.
  Lemma subst_step v e st : wfst st -> gb (bnb st) (bnl st) e -> ~ In v (vars e) ->
    step (fun s => s v = eval s e) anyway st (set_cs (qcs_subst_unknown v e (bcs st)) st).
  Proof.
    intros W G Nv. pose proof (w_q _ W) as Q. constructor; try (cbn; lia); [|now apply shrink_eq|].
    - destruct W. constructor; cbn [set_cs bcs brc bpend bcache bnb bnl blm]; auto.
      + now apply qcs_subst_unknown_ok.
      + rewrite isys_subst by auto. cbn [cs_map algs]. rewrite Forall_map. eapply Forall_impl; [|exact w_algs0]. intros x. now apply gb_subst.
      + rewrite isys_subst by auto. cbn [cs_map buses]. rewrite Forall_map. eapply Forall_impl; [|exact w_buses0].
        intros b Hb. unfold fields, bmap in *. cbn [bus_id mult payload]. inversion Hb as [|? ? A Hb1]; subst. inversion Hb1; subst.
        constructor; [now apply gb_subst|]. constructor; [now apply gb_subst|]. rewrite Forall_map. eapply Forall_impl; [|eassumption].
        intros x. now apply gb_subst.
    - intros s S Ev. exists s. split; [apply ext_refl|]. split; [|exact I]. destruct S. constructor; cbn [set_cs bcs brc bpend bcache bnb bnl blm]; auto.
      + rewrite isys_subst by auto. cbn [cs_map algs]. rewrite Forall_map. eapply Forall_impl; [|exact s_algs0]. intros x Hx. unfold solves in *.
        now rewrite eval_subst_same.
      + rewrite isys_subst by auto. cbn [cs_map buses]. rewrite Forall_map. eapply Forall_impl; [|exact s_buses0]. intros b Hb. cbn beta in *.
        rewrite bmap_bmap. erewrite bmap_ext_in; [exact Hb|]. intros x _. cbn beta. now apply eval_subst_same.
  Qed.
  Lemma push_pend_ok v e st : wfst st -> old (bnb st) (bnl st) v -> aff (bnb st) (bnl st) e -> ~ In v (vars e) ->
    step (fun s => s v = eval s e) anyway st (set_pend (bpend st ++ [(v, e)]) st).
  Proof.
    intros W O A N. constructor; try (cbn; lia); [|now apply shrink_eq|].
    - destruct W. constructor; cbn [set_pend bcs brc bpend bcache bnb bnl blm]; auto. apply Forall_app. split; [assumption|]. constructor; [|constructor]. cbn [fst snd]. auto.
    - intros s S E. exists s. split; [apply ext_refl|]. split; [|exact I]. destruct S. constructor; cbn [set_pend bcs brc bpend bcache bnb bnl blm]; auto.
      apply Forall_app. split; [assumption|]. constructor; [exact E|constructor].
  Qed.
  Lemma eq_frame nb nl v (e : gexp) : old nb nl v -> gb nb nl e -> forall s s', ext nb nl s s' -> s v = eval s e -> s' v = eval s' e.
  Proof. intros O G s s' X E. rewrite (X v O), (ext_eval nb nl s s' e X (proj2 G)). exact E. Qed.
  Lemma apply_assignment_with_ok rec v e st st' : rec_ok rec -> wfst st -> old (bnb st) (bnl st) v -> aff (bnb st) (bnl st) e -> ~ In v (vars e) ->
    apply_assignment_with rec v e st = Some st' -> step (fun s => s v = eval s e) anyway st st'.
  Proof.
    intros HR W O A Nv. unfold apply_assignment_with. pose proof (subst_step v e st W (aff_gb _ _ _ A) Nv) as S1.
    set (st1 := set_cs (qcs_subst_unknown v e (bcs st)) st) in *. pose proof (t_wf _ _ _ _ S1) as W1.
    destruct (extract_refs (referencing (qsys (bcs st1)) [v]) (bbm st1) (bnb st1)) as [[cs zs] [m nb]] eqn:E1.
    assert (R1 : forall r, In r (referencing (qsys (bcs st1)) [v]) -> match r with RAlg x => In x (algs (isys (qsys (bcs st1)))) | RBus _ => True end).
    { intros r Hr. apply referencing_sound in Hr. destruct r; auto. }
    assert (Gr : Forall (fun r => match r with RAlg x => gb (bnb st1) (bnl st1) x | RBus _ => True end) (referencing (qsys (bcs st1)) [v])).
    { apply Forall_forall. intros r Hr. apply R1 in Hr. destruct r; auto. pose proof (w_algs _ W1) as G. rewrite Forall_forall in G. auto. }
    destruct (extract_refs_ok _ _ _ _ _ _ _ _ Gr E1) as (L & Gc & Hz & ND & HS).
    set (st2 := set_bool m nb st1) in *. pose proof (wfst_grow st1 m nb W1 L) as W2. fold st2 in W2.
    assert (S2 : step anyway (fun s => Forall (fun z => rc_allows (from_mask 1) (s z)) zs /\ zeros s cs) st1 st2).
    { constructor; auto; try (cbn; lia); [now apply shrink_eq|]. intros s S _.
      destruct (HS s) as (s' & X & Z & Rz).
      { apply Forall_forall. intros r Hr. apply R1 in Hr. destruct r; auto. pose proof (s_algs _ _ S) as T. rewrite Forall_forall in T. auto. }
      exists s'. split; auto. split; auto. pose proof (sat_ext _ _ _ W1 X S) as S'. eapply cs_ext_eq; [..|exact S']; reflexivity. }
    destruct (add_bools_with rec zs st2) as [st3|] eqn:E3; [|discriminate]. destruct (add_algs_with rec cs st3) as [st4|] eqn:E4; [|discriminate].
    intros [= <-].
    assert (Oz : Forall (old (bnb st2) (bnl st2)) zs).
    { eapply Forall_impl; [|exact Hz]. intros z (n & -> & Hn). cbn. lia. }
    pose proof (add_bools_with_ok rec zs st2 st3 HR W2 Oz E3) as S3. pose proof (t_nb _ _ _ _ S3) as Lb3. pose proof (t_nl _ _ _ _ S3) as Ll3.
    assert (Gc2 : Forall (gb (bnb st2) (bnl st2)) cs) by exact Gc.
    assert (Gc3 : Forall (gb (bnb st3) (bnl st3)) cs) by (eapply Forall_impl; [|exact Gc2]; intros x; now apply gb_mono).
    pose proof (add_algs_with_ok rec cs st3 st4 HR (t_wf _ _ _ _ S3) Gc3 E4) as S4. pose proof (t_nb _ _ _ _ S4) as Lb4. pose proof (t_nl _ _ _ _ S4) as Ll4.
    assert (Lb : (bnb st <= bnb st4)%N) by (change (bnb st1) with (bnb st) in *; cbn [st2 set_bool bnb] in *; lia).
    assert (Ll : (bnl st <= bnl st4)%N) by (change (bnl st2) with (bnl st) in *; lia).
    assert (S5 : step (fun s => s v = eval s e) anyway st4 (set_pend (bpend st4 ++ [(v, e)]) st4)).
    { apply push_pend_ok; auto; [apply S4|eapply old_mono; eauto|eapply aff_mono; eauto]. }
    assert (Sall : step (fun s => s v = eval s e) anyway st st4).
    { eapply step_trans; [exact S1|]. eapply step_trans; [exact S2|]. eapply step_trans; [|exact S4].
      eapply step_weaken; [| |apply (step_frame (fun s => zeros s cs) _ _ _ _ (zeros_frame _ _ _ Gc2) S3)]; cbn beta; [intros s _ H; exact H|tauto]. }
    eapply step_trans; [|exact S5]. eapply step_weaken; [| |apply (step_frame (fun s => s v = eval s e) _ _ _ _ (eq_frame _ _ v e O (aff_gb _ _ _ A)) Sall)]; cbn beta; tauto.
  Qed.
  Lemma set_rc_ok v r st : wfst st -> old (bnb st) (bnl st) v ->
    step (fun s => rc_allows r (s v)) (fun s => rc_allows (conjunction (rcget st v) r) (s v)) st (set_rcs (vm_insert v (conjunction (rcget st v) r) (brc st)) st).
  Proof.
    intros W O. constructor; try (cbn; lia).
    - destruct W. constructor; cbn [set_rcs bcs brc bpend bcache bnb bnl blm]; auto. apply Forall_forall. intros [w x] Hw.
      apply vm_insert_in in Hw. destruct Hw as [[-> ->]|Hw]; auto. rewrite Forall_forall in w_rc0. now apply (w_rc0 (w, x)).
    - intros w. unfold rcget at 1. cbn [set_rcs brc]. rewrite vm_get_insert. destruct (veqb_spec w v) as [->|]; [apply conjunction_width|].
      unfold rcget. lia.
    - intros s S Hr. assert (Hn : rc_allows (conjunction (rcget st v) r) (s v)) by (apply b_conjunction; auto; now apply rcget_allows).
      exists s. split; [apply ext_refl|]. split; auto. destruct S. constructor; cbn [set_rcs bcs brc bpend bcache bnb bnl blm]; auto. apply Forall_forall.
      intros [w x] Hw. apply vm_insert_in in Hw. destruct Hw as [[-> ->]|Hw]; auto. rewrite Forall_forall in s_rc0. now apply (s_rc0 (w, x)).
  Qed.
  Lemma updated_step Q v st : wfst st -> step Q anyway st (set_cs (variable_updated v (bcs st)) st).
  Proof.
    intros W. constructor; try (cbn; lia); [|now apply shrink_eq|].
    - destruct W. constructor; cbn [set_cs bcs brc bpend bcache bnb bnl blm]; auto. now apply variable_updated_ok.
    - intros s S _. exists s. split; [apply ext_refl|]. split; [|exact I]. destruct S. constructor; auto.
  Qed.
  Lemma apply_rc_update_ok fuel : rec_ok (apply_rc_update fuel).
  Proof.
    induction fuel as [|f IH]; intros v r st b st' W O; cbn [apply_rc_update]; [discriminate|].
    destruct (rc_eqb _ _).
    - intros [= <- <-]. eapply step_weaken; [| |apply (step_refl anyway _ W)]; unfold anyway; auto.
    - pose proof (set_rc_ok v r st W O) as S1. set (st1 := set_rcs _ _) in *.
      destruct (try_to_single_value (conjunction (rcget st v) r)) as [k|] eqn:E.
      + destruct (apply_assignment_with (apply_rc_update f) v (from_number k) st1) as [st2|] eqn:E2; [|discriminate]. intros [= <- <-].
        eapply step_trans; [exact S1|]. eapply step_weaken; [| |eapply (apply_assignment_with_ok _ v (from_number k) st1); [exact IH|apply S1|exact O|apply aff_number|intros []|exact E2]]; auto.
        cbn beta. intros s _ Hs. rewrite eval_from_number. now apply (b_single _ _ _ E).
      + intros E0. assert (E1 : st' = set_cs (variable_updated v (bcs st1)) st1) by congruence. rewrite E1.
        eapply step_trans; [exact S1|]. apply updated_step. apply S1.
  Qed.
  Lemma rc_update_ok : rec_ok rc_update. Proof. apply apply_rc_update_ok. Qed.
End BaseFacts.
