(** Facts about reachability, disconnected columns, splitting and the lookup of constraints. *)
From Coq Require Import Arith NArith ZArith Bool List Permutation Lia ZifyBool ZifyNat.
From Verif Require Import Field ExprModel ExprFacts SystemModel IndexFacts Spec PassModel PassSpec PassFacts PassSem.
Import ListNotations.
Local Open Scope nat_scope.

Section PassReach.
  Context {p : positive}.
  Local Notation gexp := (gexp p).
  Local Notation csys := (csys p).
  Context (lookup : csys -> list var -> list (cref p)).

  Lemma vadd_in s v w : In w (vadd s v) <-> w = v \/ In w s.
  Proof. unfold vadd. destruct (existsb (veqb v) s) eqn:E; [apply in_vars in E|cbn; intuition auto]. split; auto. intros [->|]; auto. Qed.
  Lemma vadd_nodup s v : NoDup s -> NoDup (vadd s v).
  Proof. unfold vadd. destruct (existsb (veqb v) s) eqn:E; auto. intros H. constructor; auto. intros X. apply in_vars in X. congruence. Qed.
  Lemma vadds_in l : forall s w, In w (fold_left vadd l s) <-> In w l \/ In w s.
  Proof. induction l as [|v l IH]; intros s w; cbn [fold_left]; [cbn; tauto|]. rewrite IH, vadd_in. cbn. intuition auto. Qed.
  Lemma vadds_nodup l : forall s, NoDup s -> NoDup (fold_left vadd l s).
  Proof. induction l as [|v l IH]; intros s H; cbn [fold_left]; auto. apply IH. now apply vadd_nodup. Qed.
  Lemma vadd_len s v : length s <= length (vadd s v) /\ (length (vadd s v) = length s -> vadd s v = s /\ In v s).
  Proof. unfold vadd. destruct (existsb (veqb v) s) eqn:E; [apply in_vars in E; auto|]. cbn [length]. lia. Qed.
  Lemma vadds_len l : forall s, length s <= length (fold_left vadd l s) /\ (length (fold_left vadd l s) = length s -> fold_left vadd l s = s /\ incl l s).
  Proof.
    induction l as [|v l IH]; intros s; cbn [fold_left]; [split; auto; intros _; split; auto; intros x []|]. destruct (vadd_len s v) as [L1 L2], (IH (vadd s v)) as [M1 M2]. split; [lia|]. intros E. destruct L2 as [E1 Hin]; [lia|]. rewrite E1 in *. destruct (M2 E) as [E2 I2]. split; auto. intros w [<-|Hw]; auto.
  Qed.
  Definition triggers (blocked reached : list var) (r : cref p) : bool := existsb (fun v => existsb (veqb v) reached && negb (existsb (veqb v) blocked)) (cref_vars r).
  Lemma triggers_iff blocked reached r : triggers blocked reached r = true <-> exists v, In v (cref_vars r) /\ In v reached /\ ~ In v blocked.
  Proof.
    unfold triggers. rewrite existsb_exists. split.
    - intros (v & Hv & H). apply andb_true_iff in H. destruct H as [H1 H2]. apply in_vars in H1. exists v. split; auto. split; auto. intros X. apply in_vars in X. rewrite X in H2. discriminate.
    - intros (v & Hv & H1 & H2). exists v. split; auto. apply andb_true_iff. split; [now apply in_vars|]. destruct (existsb (veqb v) blocked) eqn:E; auto. apply in_vars in E. tauto.
  Qed.
  Lemma steps_len blocked l : forall s, length s <= length (fold_left (reach_step blocked) l s) /\
    (length (fold_left (reach_step blocked) l s) = length s -> forall r, In r l -> triggers blocked s r = true -> incl (cref_vars r) s).
  Proof.
    induction l as [|r l IH]; intros s; cbn [fold_left]; [split; auto; intros _ r []|]. specialize (IH (reach_step blocked s r)). assert (Er : reach_step blocked s r = if triggers blocked s r then fold_left vadd (cref_vars r) s else s) by reflexivity. rewrite Er in *.
    destruct (triggers blocked s r) eqn:E.
    - destruct (vadds_len (cref_vars r) s) as [L1 L2], IH as [M1 M2]. split; [lia|]. intros El. destruct L2 as [E1 I1]; [lia|]. rewrite E1 in *. intros r' [<-|Hr']; auto.
    - destruct IH as [M1 M2]. split; auto. intros El r' [<-|Hr'] T; [congruence|auto].
  Qed.
  Lemma steps_inv blocked (Q : list var -> Prop) (l : list (cref p)) : (forall s r, In r l -> Q s -> Q (reach_step blocked s r)) -> forall s, Q s -> Q (fold_left (reach_step blocked) l s).
  Proof. induction l as [|r l IH]; intros H s Hs; cbn [fold_left]; auto. apply IH; [intros; apply H; auto; now right|]. apply H; auto. now left. Qed.

  Lemma cvars_crefs (c : csys) : constraint_vars c = map cref_vars (crefs c).
  Proof. unfold constraint_vars, crefs. rewrite map_app, !map_map. reflexivity. Qed.
  Lemma lookup_sub (c : csys) vs r : good_lookup lookup c -> In r (lookup c vs) -> In r (crefs c).
  Proof. intros G H. destruct (G vs) as (extra & P & I). apply (Permutation_in _ P) in H. apply in_app_iff in H. destruct H as [H|H]; [apply filter_In in H; tauto|auto]. Qed.
  Lemma lookup_has (c : csys) vs r v : good_lookup lookup c -> In r (crefs c) -> In v vs -> In v (cref_vars r) -> In r (lookup c vs).
  Proof. intros G Hr Hv Hvr. destruct (G vs) as (extra & P & _). apply (Permutation_in _ (Permutation_sym P)). apply in_app_iff. left. apply filter_In. split; auto. apply mentions_any_iff. eauto. Qed.
  Definition missing (c : csys) (s : list var) : list var := filter (fun v => negb (existsb (veqb v) s)) (vunique [] (sys_vars c)).
  Lemma vunique_nodup l : forall seen, NoDup (vunique seen l) /\ forall v, In v (vunique seen l) -> ~ In v seen.
  Proof.
    induction l as [|w l IH]; intros seen; cbn [vunique]; [split; [constructor|intros v []]|]. destruct (existsb (veqb w) seen) eqn:E; auto. destruct (IH (w :: seen)) as [N1 N2]. split.
    - constructor; auto. intros X. apply (N2 w X). now left.
    - intros v [<-|Hv]; [intros X; apply in_vars in X; congruence|]. intros X. apply (N2 v Hv). now right.
  Qed.
  Lemma vunique_len l : forall seen, length (vunique seen l) <= length l.
  Proof. induction l as [|w l IH]; intros seen; cbn [vunique length]; auto. destruct (existsb _ _); [specialize (IH seen); lia|cbn [length]; specialize (IH (w :: seen)); lia]. Qed.
  Lemma missing_less (c : csys) s s' : incl s s' -> (exists v, In v (sys_vars c) /\ In v s' /\ ~ In v s) -> length (missing c s') < length (missing c s).
  Proof.
    intros I (v & Hv & H1 & H2). unfold missing. assert (N : NoDup (v :: filter (fun w => negb (existsb (veqb w) s')) (vunique [] (sys_vars c)))).
    { constructor; [|apply NoDup_filter, vunique_nodup]. rewrite filter_In. intros [_ X]. apply in_vars in H1. rewrite H1 in X. discriminate. }
    apply (NoDup_incl_length N). intros w [<-|Hw]; apply filter_In.
    - split; [now apply vunique_iff|]. destruct (existsb (veqb v) s) eqn:E; auto. apply in_vars in E. tauto.
    - apply filter_In in Hw. destruct Hw as [Hw X]. split; auto. destruct (existsb (veqb w) s) eqn:E; auto. apply in_vars, I, in_vars in E. rewrite E in X. discriminate.
  Qed.
  Lemma reach_loop_ok n : forall (c : csys) blocked init s, good_lookup lookup c -> NoDup s -> (forall v, In v init -> In v s) -> (forall v, In v s -> connected (constraint_vars c) init blocked v) -> length (missing c s) < n ->
    exists r, reach_loop lookup n c blocked s = Some r /\ forall v, In v r <-> connected (constraint_vars c) init blocked v.
  Proof.
    induction n as [|n IH]; intros c blocked init s G N H1 H2 Hn; [lia|]. cbn [reach_loop]. set (s' := fold_left (reach_step blocked) (lookup c s) s). destruct (steps_len blocked (lookup c s) s) as [L1 L2]. fold s' in L1, L2. destruct (Nat.eqb_spec (length s') (length s)) as [E|E].
    - exists s. split; auto. intros v. split; auto. intros Hc. induction Hc as [v Hv|l v w Hl Hv Hc IHc Hb Hw]; auto. rewrite cvars_crefs in Hl. apply in_map_iff in Hl. destruct Hl as (r & <- & Hr). apply (L2 E r); auto; [eapply lookup_has; eauto|]. apply triggers_iff. eauto.
    - assert (Inv : incl s s' /\ NoDup s' /\ (forall v, In v s' -> connected (constraint_vars c) init blocked v) /\ forall v, In v s' -> In v s \/ In v (sys_vars c)).
      { unfold s'. apply (steps_inv blocked (fun t => incl s t /\ NoDup t /\ (forall v, In v t -> connected (constraint_vars c) init blocked v) /\ forall v, In v t -> In v s \/ In v (sys_vars c))); [|split; [apply incl_refl|auto]]. intros t r Hr (I1 & I2 & I3 & I4). unfold reach_step. fold (triggers blocked t r). destruct (triggers blocked t r) eqn:T; auto. apply triggers_iff in T. destruct T as (u & Hu & Ht & Hb). apply lookup_sub in Hr; auto. split; [intros v Hv; apply vadds_in; auto|]. split; [now apply vadds_nodup|]. split; intros v Hv; apply vadds_in in Hv; destruct Hv as [Hv|Hv]; auto; [|right; apply sys_vars_crefs; eauto]. apply (conn_step _ _ _ (cref_vars r) u v); auto. rewrite cvars_crefs. now apply in_map. }
      destruct Inv as (I1 & I2 & I3 & I4). apply IH; auto. assert (X : exists v, In v s' /\ ~ In v s).
      { destruct (forallb (fun v => existsb (veqb v) s) s') eqn:Ef.
        - exfalso. rewrite forallb_forall in Ef. assert (length s' <= length s) by (apply NoDup_incl_length; auto; intros v Hv; apply in_vars; auto). lia.
        - clear - Ef. induction s' as [|v l IH]; [discriminate|]. cbn [forallb] in Ef. apply andb_false_iff in Ef. destruct Ef as [Ef|Ef]; [exists v; split; [now left|intros X; apply in_vars in X; congruence]|]. destruct (IH Ef) as (w & Hw & N). exists w. split; auto. now right. }
      destruct X as (v & X1 & X2). pose proof (missing_less c s s' I1) as ML. enough (length (missing c s') < length (missing c s)) by lia. apply ML. exists v. split; auto. destruct (I4 v X1); tauto.
  Qed.
  Lemma reachable_ok (c : csys) init blocked : good_lookup lookup c -> exists r, reachable_variables_except_blocked lookup init blocked c = Some r /\ forall v, In v r <-> connected (constraint_vars c) init blocked v.
  Proof.
    intros G. unfold reachable_variables_except_blocked. apply reach_loop_ok; auto.
    - apply vadds_nodup. constructor.
    - intros v Hv. apply vadds_in. auto.
    - intros v Hv. apply vadds_in in Hv. destruct Hv as [Hv|[]]. now constructor.
    - unfold missing. rewrite Nat.lt_succ_r. etransitivity; [|apply (vunique_len (sys_vars c) [])]. generalize (vunique [] (sys_vars c)). intros l. induction l as [|w l IH]; cbn [filter length]; auto. destruct (negb _); cbn [length]; lia.
  Qed.

  (** ** Disconnected columns *)
  Context (stateful : F p -> bool) (legal : F p -> list (F p) -> Prop).
  Local Notation admissible := (admissible stateful legal).
  Local Notation sends := (sends stateful).
  Lemma disconnected_spec (c : csys) : good_lookup lookup c -> bus_ids_known c = true -> exists keep,
    remove_disconnected_columns stateful lookup c = Some (keep, mkCS (filter (fun e => existsb (fun v => existsb (veqb v) keep) (vars e)) (algs c)) (filter (fun b => is_stateful stateful b || existsb (fun v => existsb (veqb v) keep) (bus_vars b)) (buses c)) (derived c)) /\
    forall v, In v keep <-> connected (constraint_vars c) (stateful_variables stateful c) [] v.
  Proof.
    intros G K. unfold remove_disconnected_columns, reachable_variables. rewrite K. destruct (reachable_ok c (stateful_variables stateful c) [] G) as (r & -> & H). exists r. auto.
  Qed.
  Lemma connected_all (c : csys) init r v w : In r (crefs c) -> In v (cref_vars r) -> In w (cref_vars r) -> connected (constraint_vars c) init [] v -> connected (constraint_vars c) init [] w.
  Proof. intros Hr Hv Hw H. apply (conn_step _ _ _ (cref_vars r) v w); auto. rewrite cvars_crefs. now apply in_map. Qed.
  Lemma disconnected_extends (c c' : csys) keep s s0 : good_lookup lookup c -> remove_disconnected_columns stateful lookup c = Some (keep, c') -> admissible s0 c -> admissible s c' ->
    exists s', (forall v, connected (constraint_vars c) (stateful_variables stateful c) [] v -> s' v = s v) /\ (forall v, ~ connected (constraint_vars c) (stateful_variables stateful c) [] v -> s' v = s0 v) /\ admissible s' c /\ sends s' c = sends s c'.
  Proof.
    intros G H A0 A. assert (K : bus_ids_known c = true) by (unfold remove_disconnected_columns in H; destruct (bus_ids_known c); [auto|discriminate]). destruct (disconnected_spec c G K) as (k & E & Hk). rewrite E in H. injection H as -> <-.
    set (s' := fun v => if existsb (veqb v) keep then s v else s0 v). assert (S1 : forall v, In v keep -> s' v = s v) by (intros v Hv; unfold s'; apply in_vars in Hv; now rewrite Hv). assert (S0 : forall v, ~ In v keep -> s' v = s0 v) by (intros v Hv; unfold s'; destruct (existsb (veqb v) keep) eqn:Ev; auto; apply in_vars in Ev; tauto).
    exists s'. split; [intros v Hv; apply S1, Hk, Hv|]. split; [intros v Hv; apply S0; rewrite Hk; exact Hv|].
    assert (St : forall b v, In b (buses c) -> is_stateful stateful b = true -> In v (bus_vars b) -> In v keep).
    { intros b v Hb Hs Hv. apply Hk. constructor. unfold stateful_variables. apply in_flat_map. exists b. split; auto. apply filter_In. auto. }
    split.
    - apply admissible_holds. intros r Hr. destruct (existsb (fun v => existsb (veqb v) keep) (cref_vars r)) eqn:Ex.
      + apply existsb_exists in Ex. destruct Ex as (v & Hv & Ek). apply in_vars in Ek. apply (holds_ext stateful legal s).
        * intros w Hw. symmetry. apply S1, Hk. apply Hk in Ek. apply (connected_all c _ r v w); auto.
        * apply (proj1 (admissible_holds stateful legal s _) A). rewrite crefs_filter. apply filter_In. split; auto. assert (X : existsb (fun v => existsb (veqb v) keep) (cref_vars r) = true) by (apply existsb_exists; exists v; split; auto; now apply in_vars). destruct r; cbn [cref_vars] in X; rewrite X; auto using orb_true_r.
      + apply (holds_ext stateful legal s0); [|now apply (proj1 (admissible_holds stateful legal s0 c) A0)]. intros v Hv. symmetry. apply S0. intros Hin. apply in_vars in Hin. assert (X : existsb (fun v => existsb (veqb v) keep) (cref_vars r) = true) by (apply existsb_exists; eauto). congruence.
    - transitivity (sends s c); [apply sends_agree; auto; intros b v Hb Hs Hv; apply S1; eauto|]. symmetry. apply sends_known; auto. intros b _ Hs. now rewrite Hs.
  Qed.
  Lemma disconnected_forward (c c' : csys) keep s : good_lookup lookup c -> remove_disconnected_columns stateful lookup c = Some (keep, c') -> carries_over stateful legal c c' s.
  Proof.
    intros G H A. assert (K : bus_ids_known c = true) by (unfold remove_disconnected_columns in H; destruct (bus_ids_known c); [auto|discriminate]). destruct (disconnected_spec c G K) as (k & E & Hk). rewrite E in H. injection H as -> <-. split.
    - apply admissible_holds. intros r Hr. rewrite crefs_filter in Hr. apply filter_In in Hr. apply (proj1 (admissible_holds stateful legal s c) A). tauto.
    - apply sends_known; auto. intros b _ Hs. now rewrite Hs.
  Qed.

  (** ** Splitting *)
  Lemma connected_trans cs init init' v : connected cs init [] v -> (forall i, In i init -> connected cs init' [] i) -> connected cs init' [] v.
  Proof. intros H Hi. induction H as [v Hv|l v w Hl Hv Hc IH Hb Hw]; auto. apply (conn_step _ _ _ l v w); auto. Qed.
  Lemma connected_sym cs v w : connected cs [v] [] w -> connected cs [w] [] v.
  Proof.
    intros H. induction H as [w [->|[]]|l a b Hl Ha Hc IH Hb Hw]; [constructor; now left|]. eapply connected_trans; [exact IH|]. intros i [<-|[]]. apply (conn_step _ _ _ l b a); auto. constructor. now left.
  Qed.
  Lemma connected_mono cs cs' init v : incl cs cs' -> connected cs init [] v -> connected cs' init [] v.
  Proof. intros I H. induction H as [v Hv|l v w Hl Hv Hc IH Hb Hw]; [now constructor|]. apply (conn_step _ _ _ l v w); auto. Qed.
  Lemma filter_split {A} (f g h : A -> bool) l : (forall x, In x l -> f x = g x || h x) -> (forall x, In x l -> g x && h x = false) -> Permutation (filter f l) (filter g l ++ filter h l).
  Proof.
    induction l as [|x l IH]; intros H1 H2; cbn [filter]; auto. assert (I := IH (fun y Hy => H1 y (or_intror Hy)) (fun y Hy => H2 y (or_intror Hy))). specialize (H1 x (or_introl eq_refl)). specialize (H2 x (or_introl eq_refl)). rewrite H1. destruct (g x), (h x); try discriminate; cbn [orb app]; auto. apply Permutation_cons_app. exact I.
  Qed.
  Lemma crefs_parts (l : list (cref p)) d : Permutation (crefs (mkCS (algs_of l) (buses_of l) d)) l.
  Proof.
    unfold crefs, algs_of, buses_of. cbn [algs buses]. induction l as [|[e|b] l IH]; cbn [flat_map app map]; auto.
    apply Permutation_sym, Permutation_cons_app, Permutation_sym. exact IH.
  Qed.
  Lemma split_loop_ok (c : csys) n : exact_lookup lookup c -> forall remaining, length remaining <= n -> (forall v w, In v remaining -> connected (constraint_vars c) [v] [] w -> In w remaining) ->
    exists l, split_loop lookup n c remaining = Some l /\ Permutation (flat_map crefs l) (filter (mentions_any remaining) (crefs c)) /\
      (forall a v, In a l -> In v (sys_vars a) -> In v remaining) /\ ForallOrdPairs disjoint_vars l /\
      (forall a, In a l -> derived a = [] /\ forall v w, In v (sys_vars a) -> In w (sys_vars a) -> connected (constraint_vars c) [v] [] w).
  Proof.
    intros G. assert (Empty : exists l, Some [] = Some l /\ Permutation (flat_map crefs l) (filter (mentions_any []) (crefs c)) /\ (forall a v, In a l -> In v (sys_vars a) -> In v []) /\ ForallOrdPairs disjoint_vars l /\ (forall a : csys, In a l -> derived a = [] /\ forall v w, In v (sys_vars a) -> In w (sys_vars a) -> connected (constraint_vars c) [v] [] w)).
    { exists []. split; auto. split; [|split; [intros a v []|split; [constructor|intros a []]]]. cbn [flat_map]. assert (Z : filter (mentions_any []) (crefs c) = []); [|rewrite Z; constructor]. induction (crefs c) as [|r l IHl]; cbn [filter]; auto. destruct (mentions_any [] r) eqn:E; auto. apply mentions_any_iff in E. destruct E as (v & [] & _). }
    assert (GL : good_lookup lookup c) by (intros vs; exists []; rewrite app_nil_r; split; [apply G|intros x []]). induction n as [|n IH]; intros [|v rest] Hn Hc; cbn [split_loop]; try (cbn in Hn; lia).
    - exact Empty.
    - exact Empty.
    - unfold reachable_variables. destruct (reachable_ok c [v] [] GL) as (vs & -> & Hvs). set (rest' := filter (fun w => negb (existsb (veqb w) vs)) rest).
      assert (Hv : In v vs) by (apply Hvs; constructor; now left).
      assert (Hsub : forall w, In w vs -> In w (v :: rest)) by (intros w Hw; apply (Hc v w); [now left|now apply Hvs]).
      assert (Hr' : forall w, In w rest' <-> In w (v :: rest) /\ ~ In w vs).
      { intros w. unfold rest'. rewrite filter_In. split.
        - intros [H1 H2]. split; [now right|]. intros X. apply in_vars in X. rewrite X in H2. discriminate.
        - intros [[<-|H1] H2]; [tauto|]. split; auto. destruct (existsb (veqb w) vs) eqn:E; auto. apply in_vars in E. tauto. }
      assert (Same : forall a b, connected (constraint_vars c) [a] [] b -> In b vs -> In a vs).
      { intros a b Hab Hb. apply Hvs. apply Hvs in Hb. eapply connected_trans; [apply connected_sym; exact Hab|]. intros i [<-|[]]. exact Hb. }
      destruct (IH rest') as (l & -> & P & V & D & Cn).
      { cbn in Hn. unfold rest'. assert (X : length (filter (fun w => negb (existsb (veqb w) vs)) rest) <= length rest); [|lia]. clear. induction rest as [|x rest IH]; cbn [filter length]; auto. destruct (negb _); cbn [length]; lia. }
      { intros a b Ha Hab. apply Hr' in Ha. destruct Ha as [Ha Na]. apply Hr'. split; [eapply Hc; eauto|]. intros Hb. apply Na. eapply Same; eauto. }
      assert (In1 : forall r u w, In r (crefs c) -> In u (cref_vars r) -> In w (cref_vars r) -> In u vs -> In w vs).
      { intros r u w Hr Hu Hw Hin. apply Hvs. apply (connected_all c _ r u w); auto. now apply Hvs. }
      set (part := mkCS (algs_of (lookup c vs)) (buses_of (lookup c vs)) []). assert (Pp : Permutation (crefs part) (filter (mentions_any vs) (crefs c))) by (etransitivity; [apply crefs_parts|apply G]).
      assert (Pv : forall u, In u (sys_vars part) -> In u vs).
      { intros u Hu. apply sys_vars_crefs in Hu. destruct Hu as (r & Hr & Hu). apply (Permutation_in _ Pp) in Hr. apply filter_In in Hr. destruct Hr as [Hr Hm]. apply mentions_any_iff in Hm. destruct Hm as (w & Hw & Hwr). eapply In1; eauto. }
      exists (part :: l). split; [reflexivity|]. split; [|split; [|split]].
      + cbn [flat_map]. rewrite P, Pp. symmetry. apply filter_split.
        * intros r Hr. apply Bool.eq_iff_eq_true. rewrite orb_true_iff, !mentions_any_iff. split.
          -- intros (u & Hu & Hur). destruct (existsb (veqb u) vs) eqn:E; [left; apply in_vars in E; eauto|]. right. exists u. split; auto. apply Hr'. split; auto. intros X. apply in_vars in X. congruence.
          -- intros [(u & Hu & Hur)|(u & Hu & Hur)]; exists u; split; auto. apply Hr' in Hu. tauto.
        * intros r Hr. apply not_true_iff_false. rewrite andb_true_iff, !mentions_any_iff. intros [(u & Hu & Hur) (w & Hw & Hwr)]. apply Hr' in Hw. apply (proj2 Hw). eapply In1; eauto.
      + intros a u [<-|Ha] Hu; [apply Hsub, Pv, Hu|]. apply (V a u Ha) in Hu. apply Hr' in Hu. tauto.
      + constructor; auto. apply Forall_forall. intros a Ha u Hu Hua. apply (V a u Ha) in Hua. apply Hr' in Hua. apply (proj2 Hua), Pv, Hu.
      + intros a [<-|Ha]; auto. split; auto. intros u w Hu Hw. apply Pv, Hvs in Hu. apply Pv, Hvs in Hw. eapply connected_trans; [exact Hw|]. intros i [<-|[]]. now apply connected_sym.
  Qed.
  Definition split_input (c0 : csys) : csys := mkCS (filter (fun e => negb (SolveModel.is_redundant e)) (algs c0)) (buses c0) (derived c0).
  Lemma split_ok (sorted : list var -> list var) (c0 : csys) : (forall l v, In v (sorted l) <-> In v l) -> exact_lookup lookup (split_input c0) ->
    exists l, split_system lookup sorted c0 = Some l /\ Permutation (flat_map crefs l) (filter has_vars (crefs c0)) /\ ForallOrdPairs disjoint_vars l /\
      (forall a, In a l -> derived a = [] /\ forall v w, In v (sys_vars a) -> In w (sys_vars a) -> connected (constraint_vars c0) [v] [] w).
  Proof.
    intros Hs G. unfold split_system. fold (split_input c0). set (c := split_input c0) in *. set (remaining := sorted _).
    assert (Hall : forall v, In v (sys_vars c) -> In v remaining) by (intros v Hv; apply Hs, in_app_iff; auto).
    destruct (split_loop_ok c (length remaining) G remaining) as (l & E & P & _ & D & Cn); [auto| |].
    - intros v w Hv H. induction H as [w [<-|[]]|k a b Hk Ha Hc IH Hb Hw]; auto. rewrite cvars_crefs in Hk. apply in_map_iff in Hk. destruct Hk as (r & <- & Hr). apply Hall, sys_vars_crefs. eauto.
    - exists l. split; auto. split.
      + rewrite P. assert (X : filter (mentions_any remaining) (crefs c) = filter has_vars (crefs c)).
        { apply filter_ext_in. intros r Hr. unfold has_vars. apply Bool.eq_iff_eq_true. rewrite mentions_any_iff. destruct (cref_vars r) as [|v k] eqn:Ev; [split; [intros (v & _ & [])|discriminate]|]. split; auto. intros _. exists v. split; [|now left]. apply Hall, sys_vars_crefs. exists r. rewrite Ev. split; auto. now left. }
        rewrite X. unfold c, split_input, crefs. cbn [algs buses]. rewrite !filter_app. apply Permutation_app_tail. clear. induction (algs c0) as [|e k IH]; cbn [filter map]; auto. destruct (SolveModel.is_redundant e) eqn:Er; cbn [negb map filter].
        * unfold has_vars at 2. cbn [cref_vars]. assert (Ev : vars e = []); [|now rewrite Ev]. unfold SolveModel.is_redundant, gis_zero in Er. destruct e as [[|? ?] [|? ?] ?]; try discriminate. reflexivity.
        * destruct (has_vars (RAlg e)); auto.
      + split; auto. intros a Ha. destruct (Cn a Ha) as [C1 C2]. split; auto. intros v w Hv Hw. eapply connected_mono; [|apply (C2 v w Hv Hw)]. rewrite !cvars_crefs. apply incl_map. unfold c, split_input, crefs. cbn [algs buses]. apply incl_app; [apply incl_appl|apply incl_appr, incl_refl]. apply incl_map. intros x Hx. apply filter_In in Hx. tauto.
  Qed.
  Lemma sends_crefs s (c : csys) : sends s c = flat_map (fun r => match r with RAlg _ => [] | RBus b => filter (fun b => stateful (bus_id b) && negb (is_zero (mult b))) [bmap (eval s) b] end) (crefs c).
  Proof.
    unfold PassSpec.sends, bus_values, crefs. rewrite flat_map_app. replace (flat_map _ (map RAlg (algs c))) with (@nil (busi (F p))).
    - cbn [app]. induction (buses c) as [|b l IH]; cbn [map filter flat_map]; auto. rewrite IH. destruct (_ && _); reflexivity.
    - symmetry. induction (algs c) as [|e l IH]; cbn; auto.
  Qed.
  Lemma crefs_constants (c : csys) : crefs (constants_of c) = filter (fun r => negb (has_vars r)) (crefs c).
  Proof. unfold constants_of. rewrite crefs_filter. apply filter_ext. intros [e|b]; unfold has_vars; cbn [cref_vars]; [destruct (vars e)|destruct (bus_vars b)]; reflexivity. Qed.
  Lemma flat_map_perm {A B} (f : A -> list B) l l' : Permutation l l' -> Permutation (flat_map f l) (flat_map f l').
  Proof. induction 1; cbn [flat_map]; auto; [now apply Permutation_app_head|rewrite !app_assoc; apply Permutation_app_tail, Permutation_app_comm|etransitivity; eauto]. Qed.
  Lemma split_meaning (sorted : list var -> list var) (c0 : csys) l s : (forall l v, In v (sorted l) <-> In v l) -> exact_lookup lookup (split_input c0) -> split_system lookup sorted c0 = Some l ->
    (admissible s c0 <-> Forall (admissible s) l /\ admissible s (constants_of c0)) /\
    Permutation (sends s c0) (flat_map (sends s) l ++ sends s (constants_of c0)).
  Proof.
    intros Hs G E. destruct (split_ok sorted c0 Hs G) as (l' & E' & P & _ & _). assert (l' = l) by congruence. subst l'.
    assert (PC : Permutation (crefs c0) (flat_map crefs l ++ crefs (constants_of c0))).
    { rewrite crefs_constants, P. transitivity (filter (fun _ => true) (crefs c0)).
      - replace (filter (fun _ : cref p => true) (crefs c0)) with (crefs c0); auto. generalize (crefs c0). intros k. induction k as [|x k IH]; cbn; congruence.
      - apply filter_split; intros r _; destruct (has_vars r); reflexivity. }
    split.
    - rewrite (admissible_holds stateful legal s c0), (admissible_holds stateful legal s (constants_of c0)), Forall_forall. split.
      + intros H. split; [intros a Ha; apply admissible_holds; intros r Hr|intros r Hr]; apply H, (Permutation_in _ (Permutation_sym PC)), in_app_iff; [left; apply in_flat_map; eauto|auto].
      + intros [H1 H2] r Hr. apply (Permutation_in _ PC) in Hr. apply in_app_iff in Hr. destruct Hr as [Hr|Hr]; auto. apply in_flat_map in Hr. destruct Hr as (a & Ha & Hr). apply (proj1 (admissible_holds stateful legal s a) (H1 a Ha)); auto.
    - rewrite (sends_crefs s c0). etransitivity; [apply flat_map_perm; exact PC|]. rewrite flat_map_app, (sends_crefs s (constants_of c0)). apply Permutation_app_tail. clear. induction l as [|a l IH]; cbn [flat_map]; auto. rewrite flat_map_app, IH, sends_crefs. reflexivity.
  Qed.
End PassReach.

(** ** The lookup of an indexed constraint system *)
Section Lookup.
  Context {p : positive}.
  Lemma nodup_extract {A} (m : list A) : forall l, NoDup m -> incl m l -> exists extra, Permutation l (m ++ extra) /\ incl extra l.
  Proof.
    induction m as [|x m IH]; intros l N I; [exists l; split; auto; apply incl_refl|]. inversion_clear N as [|? ? Nx Nm]. assert (Hx : In x l) by (apply I; now left). apply in_split in Hx. destruct Hx as (a & b & ->).
    destruct (IH (a ++ b) Nm) as (extra & P & I2).
    - intros y Hy. assert (H : In y (a ++ x :: b)) by (apply I; now right). apply in_elt_inv in H. destruct H as [->|]; auto. tauto.
    - exists extra. split; [cbn; rewrite <- P; symmetry; apply Permutation_middle|]. intros y Hy. apply I2 in Hy. apply in_app_iff in Hy. apply in_app_iff. cbn. tauto.
  Qed.
  Definition all_items (c : csys p) : list item := map IAlg (seq 0 (length (algs c))) ++ map IBus (seq 0 (length (buses c))).
  Definition refs_of (c : csys p) (l : list item) : list (cref p) := flat_map (fun x => match to_ref c x with Some (Some r) => [r] | _ => [] end) l.
  Lemma refs_all (c : csys p) : refs_of c (all_items c) = crefs c.
  Proof.
    unfold refs_of, all_items, crefs. rewrite flat_map_app. f_equal.
    - assert (G : forall (l pre : list (gexp p)), algs c = pre ++ l -> flat_map (fun x => match to_ref c x with Some (Some r) => [r] | _ => [] end) (map IAlg (seq (length pre) (length l))) = map RAlg l).
      { induction l as [|e l IH]; intros pre E; cbn [length seq map flat_map]; auto. assert (Ee : nth_error (algs c) (length pre) = Some e) by (rewrite E, nth_error_app2, Nat.sub_diag by lia; reflexivity). cbn [to_ref]. rewrite Ee. cbn [app]. f_equal. specialize (IH (pre ++ [e])). rewrite app_length, Nat.add_1_r in IH. apply IH. now rewrite <- app_assoc. }
      exact (G (algs c) [] eq_refl).
    - assert (G : forall (l pre : list (busi (gexp p))), buses c = pre ++ l -> flat_map (fun x => match to_ref c x with Some (Some r) => [r] | _ => [] end) (map IBus (seq (length pre) (length l))) = map RBus l).
      { induction l as [|e l IH]; intros pre E; cbn [length seq map flat_map]; auto. assert (Ee : nth_error (buses c) (length pre) = Some e) by (rewrite E, nth_error_app2, Nat.sub_diag by lia; reflexivity). cbn [to_ref]. rewrite Ee. cbn [app]. f_equal. specialize (IH (pre ++ [e])). rewrite app_length, Nat.add_1_r in IH. apply IH. now rewrite <- app_assoc. }
      exact (G (buses c) [] eq_refl).
  Qed.
  Lemma nodup_app {A} (a b : list A) : NoDup a -> NoDup b -> (forall x, In x a -> ~ In x b) -> NoDup (a ++ b).
  Proof. induction 1 as [|x a Hx N IH]; intros Nb D; cbn [app]; auto. constructor; [|apply IH; auto; intros; apply D; now right]. rewrite in_app_iff. intros [H|H]; [auto|]. apply (D x); auto. now left. Qed.
  Lemma all_items_nodup (c : csys p) : NoDup (all_items c).
  Proof.
    apply nodup_app; [apply FinFun.Injective_map_NoDup; [intros a b; congruence|apply seq_NoDup]|apply FinFun.Injective_map_NoDup; [intros a b; congruence|apply seq_NoDup]|].
    intros x H1 H2. apply in_map_iff in H1. apply in_map_iff in H2. destruct H1 as (i & <- & _), H2 as (j & E & _). discriminate.
  Qed.
  Lemma refs_filter (c : csys p) (f : cref p -> bool) l : refs_of c (filter (fun x => match to_ref c x with Some (Some r) => f r | _ => false end) l) = filter f (refs_of c l).
  Proof.
    unfold refs_of. induction l as [|x l IH]; cbn [filter flat_map]; auto. rewrite filter_app, <- IH. destruct (to_ref c x) as [[r|]|] eqn:E; cbn [filter app]; auto. destruct (f r); cbn [flat_map]; [rewrite E; reflexivity|reflexivity].
  Qed.
  Lemma refs_sound (c : csys p) l : incl (refs_of c l) (crefs c).
  Proof.
    intros r Hr. unfold refs_of in Hr. apply in_flat_map in Hr. destruct Hr as (x & _ & Hr). unfold crefs. apply in_app_iff. destruct x as [i|i|i]; cbn [to_ref] in Hr; [|  |destruct Hr].
    - destruct (nth_error (algs c) i) eqn:E; [|destruct Hr]. destruct Hr as [<-|[]]. left. apply in_map. eapply nth_error_In; eauto.
    - destruct (nth_error (buses c) i) eqn:E; [|destruct Hr]. destruct Hr as [<-|[]]. right. apply in_map. eapply nth_error_In; eauto.
  Qed.
  Lemma lookup_positions (c : ics p) vs : index_ok c -> exists extra, Permutation (referencing c vs) (filter (mentions_any vs) (crefs (isys c)) ++ extra) /\ incl extra (crefs (isys c)).
  Proof.
    intros H. set (m := filter (fun x => match to_ref (isys c) x with Some (Some r) => mentions_any vs r | _ => false end) (all_items (isys c))).
    destruct (nodup_extract m (referencing_items c vs)) as (extra & P & _).
    - apply NoDup_filter, all_items_nodup.
    - intros x Hx. apply filter_In in Hx. destruct Hx as [_ Hx]. destruct (to_ref (isys c) x) as [[r|]|] eqn:E; try discriminate. apply mentions_any_iff in Hx. destruct Hx as (v & Hv & Hvr).
      apply referencing_items_in; auto. exists v. split; auto. destruct x as [i|i|i]; cbn [to_ref] in E; [destruct (nth_error (algs (isys c)) i) eqn:En; [|discriminate]|destruct (nth_error (buses (isys c)) i) eqn:En; [|discriminate]|discriminate]; injection E as <-; cbn; eauto.
    - exists (refs_of (isys c) extra). split; [|apply refs_sound]. unfold referencing. fold (refs_of (isys c) (referencing_items c vs)). rewrite <- refs_all, <- refs_filter. fold m. unfold refs_of at 1 2 3. rewrite <- flat_map_app. apply flat_map_perm. exact P.
  Qed.
  Lemma lookup_fresh (c : csys p) vs : Permutation (referencing (ics_from c) vs) (filter (mentions_any vs) (crefs c)).
  Proof.
    set (m := filter (fun x => match to_ref c x with Some (Some r) => mentions_any vs r | _ => false end) (all_items c)). rewrite <- refs_all, <- refs_filter. fold m.
    assert (D : refs_of c (referencing_items (ics_from c) vs) = refs_of c (filter (fun x => match x with IDer _ => false | _ => true end) (referencing_items (ics_from c) vs))).
    { generalize (referencing_items (ics_from c) vs). intros l. unfold refs_of. induction l as [|[i|i|i] l IH]; cbn [filter flat_map]; auto; now rewrite IH. }
    unfold referencing. fold (refs_of c (referencing_items (ics_from c) vs)). change (isys (ics_from c)) with c. fold (refs_of c (referencing_items (ics_from c) vs)). rewrite D. apply flat_map_perm. apply NoDup_Permutation; [apply NoDup_filter, iunique_nodup|apply NoDup_filter, all_items_nodup|].
    intros x. rewrite filter_In. unfold m. rewrite filter_In. unfold referencing_items. rewrite iunique_in, in_flat_map. cbn [ics_from iocc]. split.
    - intros [[(v & Hv & Hx) _] Hk]. apply variable_occurrences_in in Hx. unfold all_items. rewrite in_app_iff, !in_map_iff. destruct x as [i|i|i]; [| |discriminate]; cbn in Hx; destruct Hx as (e & En & Hve); cbn [to_ref]; rewrite En; (split; [|apply mentions_any_iff; eauto]).
      + left. exists i. split; auto. apply in_seq. assert (i < length (algs c)) by (apply (proj1 (nth_error_Some (algs c) i)); congruence). lia.
      + right. exists i. split; auto. apply in_seq. assert (i < length (buses c)) by (apply (proj1 (nth_error_Some (buses c) i)); congruence). lia.
    - intros [Ha Hx]. destruct (to_ref c x) as [[r|]|] eqn:E; try discriminate. apply mentions_any_iff in Hx. destruct Hx as (v & Hv & Hvr). destruct x as [i|i|i]; [| |discriminate]; (split; [split; [exists v; split; auto; apply variable_occurrences_in; cbn|intros []]|auto]); cbn [to_ref] in E.
      + destruct (nth_error (algs c) i) eqn:En; [|discriminate]. injection E as <-. eauto.
      + destruct (nth_error (buses c) i) eqn:En; [|discriminate]. injection E as <-. eauto.
  Qed.
End Lookup.
