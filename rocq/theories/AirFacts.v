(** Facts about the AIRs that become symbolic machines and the machines that become AIRs. *)
From Coq Require Import Arith NArith Bool List Sorted Lia ZifyBool ZifyNat ZifyN.
From Verif Require Import Field ExprModel SymModel SymSpec SymFacts TraceModel TraceSpec TraceFacts AirModel AirSpec.
Import ListNotations.

Section AirFacts.
  Context {p : positive}.

  Local Arguments Nat.ltb : simpl never.
  (** ** Extraction *)
  Lemma each_ok {A B} (f : A -> res B) l l' : each f l = Ok l' <-> Forall2 (fun x y => f x = Ok y) l l'.
  Proof.
    revert l'. induction l as [|x l IH]; intros l'; cbn.
    - split; [now intros [= <-]|now inversion 1].
    - split.
      + destruct (f x) as [y| |] eqn:E; cbn; try discriminate. destruct (each f l) as [ys| |]; cbn; try discriminate. intros [= <-]. constructor; auto. now apply IH.
      + inversion 1 as [|? y ? ys Hy Hys]; subst. rewrite Hy. cbn. apply IH in Hys. now rewrite Hys.
  Qed.
  Lemma each_exists {A B} (f : A -> res B) l : (exists l', each f l = Ok l') <-> Forall (fun x => exists y, f x = Ok y) l.
  Proof.
    induction l as [|x l IH]; cbn; [split; eauto|]. split.
    - intros [l' H]. destruct (f x) as [y| |] eqn:E; cbn in H; try discriminate. destruct (each f l) as [ys| |]; cbn in H; try discriminate. constructor; eauto. apply IH. eauto.
    - inversion 1 as [|? ? [y Hy] Hl]; subst. rewrite Hy. cbn. apply IH in Hl as [ys ->]. cbn. eauto.
  Qed.
  Lemma each_no_panic {A B} (f : A -> res B) l : Forall (fun x => f x <> Panic) l -> each f l <> Panic.
  Proof.
    induction 1 as [|x l Hx Hl IH]; cbn; [discriminate|]. destruct (f x) as [y| |]; cbn; try congruence. destruct (each f l); cbn; congruence.
  Qed.
  Lemma then_ok {A B} (r : res A) (f : A -> res B) b : then_ r f = Ok b <-> exists a, r = Ok a /\ f a = Ok b.
  Proof. destruct r; cbn; split; [eauto|intros (x & [= <-] & H); auto|discriminate|intros (x & H & _); discriminate|discriminate|intros (x & H & _); discriminate]. Qed.

  Lemma convert_ok n (e : xexpr p) : (exists e', convert n e = Ok e') <-> atoms (own_row n) e.
  Proof.
    unfold convert. induction e as [k|x IHx y IHy|x IHx y IHy|x IHx y IHy|x IHx|en i| | |]; cbn.
    - split; eauto.
    - destruct (symbolic_to_algebraic n x) as [x'| |]; cbn in *; [|split; [intros [? ?]; discriminate|intros [H _]; apply IHx in H as [? ?]; discriminate]..].
      destruct (symbolic_to_algebraic n y) as [y'| |]; cbn in *; [|split; [intros [? ?]; discriminate|intros [_ H]; apply IHy in H as [? ?]; discriminate]..].
      rewrite <- IHx, <- IHy. destruct (try_convert x') as [a| |]; cbn; [|split; [intros [? ?]; discriminate|intros [[? ?] _]; discriminate]..].
      destruct (try_convert y') as [b| |]; cbn; [split; eauto|split; [intros [? ?]; discriminate|intros [_ [? ?]]; discriminate]..].
    - destruct (symbolic_to_algebraic n x) as [x'| |]; cbn in *; [|split; [intros [? ?]; discriminate|intros [H _]; apply IHx in H as [? ?]; discriminate]..].
      destruct (symbolic_to_algebraic n y) as [y'| |]; cbn in *; [|split; [intros [? ?]; discriminate|intros [_ H]; apply IHy in H as [? ?]; discriminate]..].
      rewrite <- IHx, <- IHy. destruct (try_convert x') as [a| |]; cbn; [|split; [intros [? ?]; discriminate|intros [[? ?] _]; discriminate]..].
      destruct (try_convert y') as [b| |]; cbn; [split; eauto|split; [intros [? ?]; discriminate|intros [_ [? ?]]; discriminate]..].
    - destruct (symbolic_to_algebraic n x) as [x'| |]; cbn in *; [|split; [intros [? ?]; discriminate|intros [H _]; apply IHx in H as [? ?]; discriminate]..].
      destruct (symbolic_to_algebraic n y) as [y'| |]; cbn in *; [|split; [intros [? ?]; discriminate|intros [_ H]; apply IHy in H as [? ?]; discriminate]..].
      rewrite <- IHx, <- IHy. destruct (try_convert x') as [a| |]; cbn; [|split; [intros [? ?]; discriminate|intros [[? ?] _]; discriminate]..].
      destruct (try_convert y') as [b| |]; cbn; [split; eauto|split; [intros [? ?]; discriminate|intros [_ [? ?]]; discriminate]..].
    - rewrite <- IHx. destruct (symbolic_to_algebraic n x) as [x'| |]; cbn in *; [|split; intros [? ?]; discriminate..].
      destruct (try_convert x') as [a| |]; cbn; split; intros [? ?]; eauto; discriminate.
    - split.
      + destruct en as [[|part] [|[|off]]|k]; cbn; try (intros [? X]; discriminate X); destruct (Nat.ltb_spec i n); cbn; intros [? X]; try discriminate X. exists i. auto.
      + intros (j & [= -> ->] & Hj). cbn. apply Nat.ltb_lt in Hj. rewrite Hj. cbn. eauto.
    - split; [intros [? ?]; discriminate|intros (? & ? & _); discriminate].
    - split; [intros [? ?]; discriminate|intros (? & ? & _); discriminate].
    - split; [intros [? ?]; discriminate|intros (? & ? & _); discriminate].
  Qed.
  Lemma convert_value n (e : xexpr p) e' w row : convert n e = Ok e' -> same_row n w row -> aeval row e' = xvalue w e.
  Proof.
    unfold convert. intros H Hr. revert e' H. induction e as [k|x IHx y IHy|x IHx y IHy|x IHx y IHy|x IHx|en i| | |]; cbn; intros e' H; try discriminate H.
    - now injection H as <-.
    - destruct (symbolic_to_algebraic n x) as [x'| |]; cbn in *; try discriminate H. destruct (symbolic_to_algebraic n y) as [y'| |]; cbn in *; try discriminate H.
      destruct (try_convert x') as [a| |]; cbn in *; try discriminate H. destruct (try_convert y') as [b| |]; cbn in *; try discriminate H. injection H as <-. cbn. now rewrite (IHx a), (IHy b).
    - destruct (symbolic_to_algebraic n x) as [x'| |]; cbn in *; try discriminate H. destruct (symbolic_to_algebraic n y) as [y'| |]; cbn in *; try discriminate H.
      destruct (try_convert x') as [a| |]; cbn in *; try discriminate H. destruct (try_convert y') as [b| |]; cbn in *; try discriminate H. injection H as <-. cbn. now rewrite (IHx a), (IHy b).
    - destruct (symbolic_to_algebraic n x) as [x'| |]; cbn in *; try discriminate H. destruct (symbolic_to_algebraic n y) as [y'| |]; cbn in *; try discriminate H.
      destruct (try_convert x') as [a| |]; cbn in *; try discriminate H. destruct (try_convert y') as [b| |]; cbn in *; try discriminate H. injection H as <-. cbn. now rewrite (IHx a), (IHy b).
    - destruct (symbolic_to_algebraic n x) as [x'| |]; cbn in *; try discriminate H. destruct (try_convert x') as [a| |]; cbn in *; try discriminate H. injection H as <-. cbn. now rewrite (IHx a).
    - destruct en as [[|part] [|[|off]]|k]; cbn in H; try discriminate H; destruct (Nat.ltb_spec i n); cbn in H; try discriminate H. injection H as <-. cbn. auto.
  Qed.
  Lemma convert_occurs n (e : xexpr p) e' v : convert n e = Ok e' -> occurs v e' -> exists i, i < n /\ v = Orig (N.of_nat i).
  Proof.
    unfold convert. intros H. revert e' H. induction e as [k|x IHx y IHy|x IHx y IHy|x IHx y IHy|x IHx|en i| | |]; cbn; intros e' H; try discriminate H.
    - now injection H as <-.
    - destruct (symbolic_to_algebraic n x) as [x'| |]; cbn in *; try discriminate H. destruct (symbolic_to_algebraic n y) as [y'| |]; cbn in *; try discriminate H.
      destruct (try_convert x') as [a| |]; cbn in *; try discriminate H. destruct (try_convert y') as [b| |]; cbn in *; try discriminate H. injection H as <-. cbn. intros [O|O]; eauto.
    - destruct (symbolic_to_algebraic n x) as [x'| |]; cbn in *; try discriminate H. destruct (symbolic_to_algebraic n y) as [y'| |]; cbn in *; try discriminate H.
      destruct (try_convert x') as [a| |]; cbn in *; try discriminate H. destruct (try_convert y') as [b| |]; cbn in *; try discriminate H. injection H as <-. cbn. intros [O|O]; eauto.
    - destruct (symbolic_to_algebraic n x) as [x'| |]; cbn in *; try discriminate H. destruct (symbolic_to_algebraic n y) as [y'| |]; cbn in *; try discriminate H.
      destruct (try_convert x') as [a| |]; cbn in *; try discriminate H. destruct (try_convert y') as [b| |]; cbn in *; try discriminate H. injection H as <-. cbn. intros [O|O]; eauto.
    - destruct (symbolic_to_algebraic n x) as [x'| |]; cbn in *; try discriminate H. destruct (try_convert x') as [a| |]; cbn in *; try discriminate H. injection H as <-. cbn. eauto.
    - destruct en as [[|part] [|[|off]]|k]; cbn in H; try discriminate H; destruct (Nat.ltb_spec i n); cbn in H; try discriminate H. injection H as <-. cbn. intros <-. eauto.
  Qed.
  Lemma try_no_panic (e : gaexpr p) : try_convert e <> Panic.
  Proof.
    induction e as [[id []| | |]|k|l IHl o r IHr|e IH]; cbn; try discriminate.
    - destruct (try_convert l); cbn; try congruence. destruct (try_convert r); cbn; congruence.
    - destruct (try_convert e); cbn; congruence.
  Qed.
  Lemma convert_no_panic n (e : xexpr p) : atoms (two_rows n) e -> convert n e <> Panic.
  Proof.
    intros H. assert (G : exists g, symbolic_to_algebraic n e = Ok g); [|destruct G as [g G]; unfold convert; rewrite G; apply try_no_panic].
    induction e as [k|x IHx y IHy|x IHx y IHy|x IHx y IHy|x IHx|en i| | |]; cbn in *; eauto.
    - destruct H as [Hx Hy]. destruct (IHx Hx) as [? ->], (IHy Hy) as [? ->]. cbn. eauto.
    - destruct H as [Hx Hy]. destruct (IHx Hx) as [? ->], (IHy Hy) as [? ->]. cbn. eauto.
    - destruct H as [Hx Hy]. destruct (IHx Hx) as [? ->], (IHy Hy) as [? ->]. cbn. eauto.
    - destruct (IHx H) as [? ->]. cbn. eauto.
    - destruct H as [(off & j & [= -> ->] & Ho & Hj)|[H|[H|H]]]; try discriminate H. cbn. apply Nat.ltb_lt in Hj. rewrite Hj. destruct off as [|[|off]]; [eauto|eauto|lia].
  Qed.
  Lemma interaction_ok n (i : xint p) : (exists b, convert_interaction n i = Ok b) <-> atoms (own_row n) (xi_count i) /\ Forall (atoms (own_row n)) (xi_message i).
  Proof.
    unfold convert_interaction. rewrite <- convert_ok.
    assert (E : Forall (atoms (own_row n)) (xi_message i) <-> exists l, each (convert n) (xi_message i) = Ok l).
    { rewrite each_exists. split; apply Forall_impl; intros a; apply convert_ok. }
    rewrite E. split.
    - intros (b & H). apply then_ok in H as (m & Hm & H). apply then_ok in H as (l & Hl & _). eauto.
    - intros [[m ->] [l ->]]. cbn. eauto.
  Qed.
  Lemma columns_ok (a : air p) n : get_columns a = Ok n <-> names_columns a /\ n = a_width a.
  Proof.
    unfold get_columns, names_columns. destruct (a_columns a) as [k|].
    - destruct (Nat.eqb_spec k (a_width a)) as [->|Hn]; split.
      + intros [= <-]. split; auto. now intros ? [= <-].
      + now intros [_ ->].
      + discriminate.
      + intros [H _]. now specialize (H _ eq_refl).
    - split; [intros [= <-]; split; auto; discriminate|now intros [_ ->]].
  Qed.
  Lemma machine_inv (a : air p) r : machine_of a = Ok r <-> names_columns a /\ exists cons ints, Forall2 (fun x y => convert (a_width a) x = Ok y) (a_cons a) cons /\
    Forall2 (fun x y => convert_interaction (a_width a) x = Ok y) (a_ints a) ints /\ r = (mkSM (map constraint_from cons) ints [], get_air_metrics a).
  Proof.
    unfold machine_of. rewrite then_ok. split.
    - intros (n & Hn & H). apply columns_ok in Hn as [Hn ->]. split; auto. apply then_ok in H as (cons & Hc & H). apply then_ok in H as (ints & Hi & [= <-]).
      apply each_ok in Hc, Hi. exists cons, ints. auto.
    - intros (Hn & cons & ints & Hc & Hi & ->). exists (a_width a). split; [now apply columns_ok|]. apply each_ok in Hc, Hi. rewrite Hc. cbn. rewrite Hi. reflexivity.
  Qed.
  Lemma machine_ok (a : air p) : (exists r, machine_of a = Ok r) <-> names_columns a /\ air_atoms (own_row (a_width a)) a.
  Proof.
    unfold air_atoms. split.
    - intros (r & H). apply machine_inv in H as (Hn & cons & ints & Hc & Hi & _). repeat split; auto.
      + clear -Hc. induction Hc; constructor; auto. apply convert_ok. eauto.
      + clear -Hi. induction Hi; constructor; auto. apply interaction_ok. eauto.
    - intros (Hn & Hc & Hi).
      assert (C : Forall (fun x => exists y, convert (a_width a) x = Ok y) (a_cons a)) by (eapply Forall_impl; [|exact Hc]; intros x; apply convert_ok).
      assert (I : Forall (fun x => exists y, convert_interaction (a_width a) x = Ok y) (a_ints a)) by (eapply Forall_impl; [|exact Hi]; intros x; apply interaction_ok).
      apply each_exists in C as [cons C], I as [ints I]. apply each_ok in C, I. eexists. apply machine_inv. split; auto. exists cons, ints. auto.
  Qed.

  (** ** The map from opcodes to machines *)
  Lemma find_key_in {A} k (l : list (N * A)) a : find_key k l = Some a -> In (k, a) l.
  Proof. induction l as [|[x b] l IH]; cbn; [discriminate|]. destruct (N.eqb_spec x k) as [->|]; [intros [= ->]; auto|auto]. Qed.
  Lemma find_key_none {A} k (l : list (N * A)) : find_key k l = None <-> ~ In k (map fst l).
  Proof. induction l as [|[x b] l IH]; cbn; [tauto|]. destruct (N.eqb_spec x k) as [->|]; [split; [discriminate|tauto]|]. rewrite IH. tauto. Qed.

  Definition known (ops : list (N * air p)) (o : original_airs p) : Prop :=
    (forall op, In op (map fst (oa_opcodes o)) <-> In op (map fst ops)) /\ NoDup (map fst ops) /\
    (forall op name, find_key op (oa_opcodes o) = Some name -> exists a, In (op, a) ops /\ a_name a = name /\ find_key name (oa_machines o) <> None) /\
    (forall op a, In (op, a) ops -> find_key op (oa_opcodes o) = Some (a_name a)) /\
    (forall name r, find_key name (oa_machines o) = Some r -> exists op a, In (op, a) ops /\ a_name a = name /\ machine_of a = Ok r).
  Definition pairs (lookup : N -> option nat) (insertion : list nat) (ext : list (air p)) (allowed : list N) : list (N * air p) :=
    flat_map (fun op => match lookup op with Some ex => match nth_error insertion ex with Some k => match nth_error ext k with Some a => [(op, a)] | None => [] end | None => [] end | None => [] end) allowed.
  Lemma pairs_in lookup insertion ext allowed op a : In (op, a) (pairs lookup insertion ext allowed) <-> In op allowed /\ implements lookup insertion ext op a.
  Proof.
    unfold pairs. rewrite in_flat_map. unfold implements. split.
    - intros (x & Hx & H). destruct (lookup x) as [ex|] eqn:L; [|destruct H]. destruct (nth_error insertion ex) as [k|] eqn:K; [|destruct H]. destruct (nth_error ext k) as [b|] eqn:B; [|destruct H].
      destruct H as [[= -> ->]|[]]. split; eauto.
    - intros (Ho & ex & k & L & K & B). exists op. rewrite L, K, B. cbn. auto.
  Qed.
  Lemma known_insert ops o op a o' : known ops o -> insert_opcode o op (a_name a) (machine_of a) = Ok o' -> known (ops ++ [(op, a)]) o'.
  Proof.
    intros (K1 & K2 & K3 & K4 & K5) H. unfold insert_opcode in H. destruct (find_key op (oa_opcodes o)) eqn:F0; [discriminate|].
    assert (Nin : ~ In op (map fst ops)) by (rewrite <- K1; now apply find_key_none).
    assert (ND : NoDup (map fst (ops ++ [(op, a)]))).
    { rewrite map_app. cbn. apply NoDup_rev in K2. rewrite <- (rev_involutive (map fst ops ++ [op])). apply NoDup_rev. rewrite rev_app_distr. cbn. constructor; auto. now rewrite <- in_rev. }
    assert (OP : forall o1 : original_airs p, oa_opcodes o1 = (op, a_name a) :: oa_opcodes o -> (forall x, In x (map fst (oa_opcodes o1)) <-> In x (map fst (ops ++ [(op, a)]))) /\
      (forall x b, In (x, b) (ops ++ [(op, a)]) -> find_key x (oa_opcodes o1) = Some (a_name b))).
    { intros o1 ->. split.
      - intros x. rewrite map_app, in_app_iff. cbn. rewrite K1. tauto.
      - intros x b Hb. apply in_app_iff in Hb as [Hb|[[= <- <-]|[]]]; cbn; [|now rewrite N.eqb_refl]. destruct (N.eqb_spec op x) as [->|]; auto. exfalso. apply Nin. apply in_map_iff. exists (x, b). auto. }
    destruct (find_key (a_name a) (oa_machines o)) as [r|] eqn:M.
    - injection H as <-. destruct (OP (mkOA ((op, a_name a) :: oa_opcodes o) (oa_machines o)) eq_refl) as [P1 P2]. split; [exact P1|]. split; [exact ND|]. split; [|split; [exact P2|]].
      + cbn. intros x name. destruct (N.eqb_spec op x) as [<-|]; [intros [= <-]; exists a; rewrite in_app_iff; cbn; repeat split; auto; congruence|].
        intros Hx. destruct (K3 _ _ Hx) as (b & Hb & Hb'). exists b. rewrite in_app_iff. auto.
      + cbn. intros name r' Hr. destruct (K5 _ _ Hr) as (x & b & Hb & Hb'). exists x, b. rewrite in_app_iff. auto.
    - apply then_ok in H as (m & Hm & [= <-]). destruct (OP (mkOA ((op, a_name a) :: oa_opcodes o) ((a_name a, m) :: oa_machines o)) eq_refl) as [P1 P2]. split; [exact P1|]. split; [exact ND|]. split; [|split; [exact P2|]].
      + cbn. intros x name. destruct (N.eqb_spec op x) as [<-|]; [intros [= <-]; exists a; rewrite in_app_iff, N.eqb_refl; cbn; repeat split; auto; discriminate|].
        intros Hx. destruct (K3 _ _ Hx) as (b & Hb & Hb' & Hb''). exists b. rewrite in_app_iff. repeat split; auto. destruct (a_name a =? name)%N; [discriminate|auto].
      + cbn. intros name r. destruct (N.eqb_spec (a_name a) name) as [<-|].
        * intros [= <-]. exists op, a. rewrite in_app_iff. cbn. auto.
        * intros Hr. destruct (K5 _ _ Hr) as (x & b & Hb & Hb'). exists x, b. rewrite in_app_iff. auto.
  Qed.
  Lemma loop_known lookup insertion ext allowed : forall ops o o', known ops o -> airs_loop lookup insertion ext allowed o = Ok o' ->
    known (ops ++ pairs lookup insertion ext allowed) o' /\ forall op, In op allowed -> lookup op <> None -> exists a, implements lookup insertion ext op a.
  Proof.
    induction allowed as [|op allowed IH]; intros ops o o' K H; cbn in *.
    - injection H as <-. rewrite app_nil_r. split; auto. intros ? [].
    - unfold pairs. cbn. fold (pairs lookup insertion ext allowed). destruct (lookup op) as [ex|] eqn:L.
      + destruct (nth_error insertion ex) as [k|] eqn:I; [|discriminate]. destruct (nth_error ext k) as [a|] eqn:A; [|discriminate].
        apply then_ok in H as (o1 & H1 & H). apply known_insert with (1 := K) in H1 as K1. destruct (IH _ _ _ K1 H) as [K2 G]. rewrite <- app_assoc in K2. split; auto.
        intros x [<-|Hx] Hl; [|auto]. exists a, ex, k. auto.
      + destruct (IH _ _ _ K H) as [K2 G]. split; auto. intros x [<-|Hx] Hl; [congruence|auto].
  Qed.
  Lemma known_empty : known [] (mkOA [] []).
  Proof. repeat split; cbn; try tauto; try discriminate; try constructor; intros; try discriminate; tauto. Qed.
  Lemma airs_nodup lookup insertion (ext : list (air p)) allowed o : airs lookup insertion ext allowed = Ok o -> NoDup (allow_list o).
  Proof.
    unfold airs, allow_list. assert (G : forall o0 : original_airs p, NoDup (map fst (oa_opcodes o0)) -> airs_loop lookup insertion ext allowed o0 = Ok o -> NoDup (map fst (oa_opcodes o))); [|apply G; constructor].
    induction allowed as [|op allowed IH]; intros o0 N0 H; cbn in H; [now injection H as <-|]. destruct (lookup op) as [ex|]; [|eauto]. destruct (nth_error insertion ex) as [k|]; [|discriminate]. destruct (nth_error ext k) as [a|]; [|discriminate].
    apply then_ok in H as (o1 & H1 & H). apply (IH o1); auto. unfold insert_opcode in H1. destruct (find_key op (oa_opcodes o0)) eqn:E; [discriminate|]. apply find_key_none in E.
    destruct (find_key (a_name a) (oa_machines o0)); [injection H1 as <-; now constructor|]. apply then_ok in H1 as (m & _ & [= <-]). now constructor.
  Qed.
  Lemma airs_nodup_allowed lookup insertion (ext : list (air p)) allowed o : airs lookup insertion ext allowed = Ok o -> NoDup (filter (fun op => match lookup op with Some _ => true | None => false end) allowed).
  Proof.
    intros H. destruct (loop_known _ _ _ _ _ _ _ known_empty H) as [(_ & K & _) G]. cbn [app] in K.
    replace (filter _ allowed) with (map fst (pairs lookup insertion ext allowed)); auto. clear -G. induction allowed as [|op allowed IH]; auto. unfold pairs in *. cbn.
    rewrite map_app, IH by (intros x Hx; apply G; cbn; auto). destruct (lookup op) as [ex|] eqn:L; auto. destruct (G op (or_introl eq_refl)) as (a & ex' & k & L' & I & A); [congruence|]. rewrite L in L'. injection L' as <-. now rewrite I, A.
  Qed.
  Lemma Forall2_in_r {A B} (R : A -> B -> Prop) l r y : Forall2 R l r -> In y r -> exists x, In x l /\ R x y.
  Proof. induction 1 as [|a b l r H Hl IH]; [intros []|]. intros [<-|Hi]; [exists a; cbn; auto|]. destruct (IH Hi) as (x & Hx & Hr). exists x. cbn. auto. Qed.
  Lemma loop_ok lookup insertion ext allowed : distinct_names ext -> forall ops o, known ops o -> (forall op a, In (op, a) ops -> In a ext) ->
    NoDup (map fst ops ++ filter (fun op => match lookup op with Some _ => true | None => false end) allowed) ->
    (forall op, In op allowed -> lookup op <> None -> exists a, implements lookup insertion ext op a /\ exists r, machine_of a = Ok r) ->
    exists o', airs_loop lookup insertion ext allowed o = Ok o'.
  Proof.
    intros D. induction allowed as [|op allowed IH]; intros ops o K S ND G; cbn; [eauto|]. cbn in ND. destruct (lookup op) as [ex|] eqn:L; [|apply (IH ops); auto; intros x Hx; apply G; cbn; auto].
    destruct (G op (or_introl eq_refl)) as (a & (ex' & k & L' & I & A) & m & M); [congruence|]. rewrite L in L'. injection L' as <-. rewrite I, A.
    assert (Hi : exists o1, insert_opcode o op (a_name a) (machine_of a) = Ok o1).
    { unfold insert_opcode. destruct (find_key op (oa_opcodes o)) as [nm|] eqn:F0.
      - exfalso. apply find_key_in in F0. assert (In op (map fst ops)). { apply (proj1 K). apply in_map_iff. exists (op, nm). auto. }
        apply NoDup_remove_2 in ND. apply ND. apply in_app_iff. auto.
      - destruct (find_key (a_name a) (oa_machines o)); [eauto|]. rewrite M. cbn. eauto. }
    destruct Hi as [o1 Hi]. rewrite Hi. cbn. apply known_insert with (1 := K) in Hi as K1. apply (IH (ops ++ [(op, a)])); auto.
    - intros x b Hb. apply in_app_iff in Hb as [Hb|[[= <- <-]|[]]]; [eauto|]. eapply nth_error_In; eauto.
    - rewrite map_app, <- app_assoc. exact ND.
    - intros x Hx. apply G. cbn. auto.
  Qed.

  (** ** Evaluation of the installed AIR *)
  Lemma holds_row_of cols (r : list (F p)) env v : NoDup cols -> holds cols r env -> In (vid v) cols -> row_of cols r v = env v.
  Proof.
    intros Hn [L H] Hi. unfold row_of. apply in_index in Hi. destruct (index_of (vid v) cols) as [i|] eqn:E; [|congruence]. apply index_nth in E. apply H in E. now apply nth_error_nth.
  Qed.
  Lemma eval_in_value cols (r : list (F p)) env e : NoDup cols -> holds cols r env -> (forall v, occurs v e -> In (vid v) cols) -> eval_in cols r e = Some (aeval env e).
  Proof.
    intros Hn H Ho. destruct (eval_in_some cols r e) as [x Hx]; [apply H|auto|]. rewrite Hx. f_equal. apply eval_in_ok in Hx as ->. apply aeval_ext. intros v Hv. apply (holds_row_of cols r env v Hn H). auto.
  Qed.
  Lemma all_opt_values {A B} (f : A -> option B) (g : A -> B) l : (forall x, In x l -> f x = Some (g x)) -> all_opt (map f l) = Some (map g l).
  Proof. induction l as [|x l IH]; cbn; auto. intros H. rewrite (H x), IH; auto. Qed.
  Lemma powdr_eval_ok (m : smach p) row env : holds (main_columns m) row env ->
    powdr_eval m row = Some (map (aeval env) (sm_cons m), map (fun b => ((sb_id b mod 65536)%N, aeval env (sb_mult b), map (aeval env) (sb_args b), 1)) (sm_buses m)).
  Proof.
    intros H. destruct (main_columns_ok m) as [Sd Hc]. pose proof (sorted_nodup _ Sd) as Hn. unfold powdr_eval. destruct H as [L H]. rewrite <- L, Nat.eqb_refl.
    rewrite (all_opt_values _ (aeval env)).
    - rewrite (all_opt_values _ (fun b => ((sb_id b mod 65536)%N, aeval env (sb_mult b), map (aeval env) (sb_args b), 1))); auto.
      intros b Hb. rewrite (eval_in_value _ _ env _ Hn (conj L H)) by (intros v Hv; apply Hc; exists v; split; auto; right; apply Exists_exists; eauto).
      rewrite (all_opt_values _ (aeval env)); auto. intros e He. apply eval_in_value; auto; [now split|]. intros v Hv. apply Hc. exists v. split; auto. right. apply Exists_exists. exists b. split; auto. right. apply Exists_exists. eauto.
    - intros e He. apply eval_in_value; auto; [now split|]. intros v Hv. apply Hc. exists v. split; auto. left. apply Exists_exists. eauto.
  Qed.
End AirFacts.
