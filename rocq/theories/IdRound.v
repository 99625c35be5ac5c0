(** Facts about the creation of new variables at the end of a round of the rule based optimizer. *)
From Coq Require Import Arith NArith Bool List Sorted Permutation Lia.
From Verif Require Import Field ExprModel ExprFacts SystemModel IdModel IdSpec IdFacts.
Import ListNotations.

Lemma id_of_var n : id_of (id_var n) = n.
Proof. unfold id_of, id_var. cbn. apply Nat2N.id. Qed.
Lemma id_var_inj a b : id_var a = id_var b -> a = b.
Proof. intros H. rewrite <- (id_of_var a), <- (id_of_var b). now rewrite H. Qed.
Lemma id_var_lt a b : vltb (id_var a) (id_var b) = true <-> a < b.
Proof. unfold vltb, id_var. cbn. rewrite N.ltb_lt. lia. Qed.

Fixpoint position (t : nat) (l : list nat) : option nat :=
  match l with [] => None | u :: l' => if Nat.eqb t u then Some 0 else option_map S (position t l') end.
Lemma position_Some t l k : position t l = Some k -> nth_error l k = Some t.
Proof.
  revert k. induction l as [|u l IH]; intros k; cbn; [discriminate|]. destruct (Nat.eqb_spec t u) as [->|]; [intros [= <-]; reflexivity|].
  destruct (position t l) as [j|]; [|discriminate]. cbn. intros [= <-]. cbn. now apply IH.
Qed.
Lemma position_None t l : position t l = None <-> ~ In t l.
Proof.
  induction l as [|u l IH]; cbn; [tauto|]. destruct (Nat.eqb_spec t u) as [->|N]; [split; [discriminate|tauto]|]. destruct (position t l) as [j|]; cbn.
  - split; [discriminate|]. intros H. exfalso. assert (X : ~ In t l) by tauto. apply IH in X. discriminate.
  - split; [|reflexivity]. intros _ [X|X]; [congruence|]. now apply (proj1 IH eq_refl).
Qed.
Lemma position_app t l1 l2 : position t (l1 ++ l2) = match position t l1 with Some k => Some k | None => option_map (Nat.add (length l1)) (position t l2) end.
Proof.
  induction l1 as [|u l1 IH]; cbn; [destruct (position t l2); reflexivity|]. destruct (Nat.eqb t u); [reflexivity|]. rewrite IH. destruct (position t l1); [reflexivity|]. destruct (position t l2); reflexivity.
Qed.
Lemma position_nodup t l k : NoDup l -> nth_error l k = Some t -> position t l = Some k.
Proof.
  intros N. revert k. induction N as [|u l H N IH]; intros k E; [destruct k; discriminate|]. destruct k as [|k]; cbn in *.
  - injection E as ->. now rewrite Nat.eqb_refl.
  - destruct (Nat.eqb_spec t u) as [->|]; [exfalso; apply H; exact (nth_error_In _ _ E)|]. now rewrite (IH _ E).
Qed.

Lemma firsts_seen wanted l : forall s1 s2, (forall t, In t s1 <-> In t s2) -> firsts wanted s1 l = firsts wanted s2 l.
Proof.
  induction l as [|t l IH]; intros s1 s2 H; cbn; [reflexivity|].
  assert (E : existsb (Nat.eqb t) s1 = existsb (Nat.eqb t) s2).
  { apply eq_true_iff_eq. rewrite !existsb_exists. split; intros (x & I & Q); exists x; (split; [now apply H|exact Q]). }
  rewrite E. destruct (wanted t && negb (existsb (Nat.eqb t) s2)); [f_equal|]; apply IH; [|exact H]. intros u. cbn. now rewrite H.
Qed.
Lemma firsts_In wanted l : forall seen t, In t (firsts wanted seen l) <-> In t l /\ wanted t = true /\ ~ In t seen.
Proof.
  induction l as [|u l IH]; intros seen t; cbn; [tauto|]. destruct (wanted u && negb (existsb (Nat.eqb u) seen)) eqn:E.
  - apply andb_true_iff in E. destruct E as [W X]. apply negb_true_iff in X. cbn. rewrite IH. split.
    + intros [->|(I & W2 & N)]; [|cbn in N; tauto]. split; [auto|]. split; [exact W|]. intros I. assert (Y : existsb (Nat.eqb t) seen = true) by (apply existsb_exists; exists t; split; [exact I|apply Nat.eqb_refl]). congruence.
    + intros ([->|I] & W2 & N); [auto|]. destruct (Nat.eq_dec u t) as [->|D]; [auto|]. right. cbn. tauto.
  - rewrite IH. split; [tauto|]. intros ([->|I] & W & N); [|auto]. exfalso. rewrite W in E. cbn in E. apply negb_false_iff, existsb_exists in E. destruct E as (x & I & Q). apply Nat.eqb_eq in Q. subst x. contradiction.
Qed.
Lemma firsts_nodup wanted l : forall seen, NoDup (firsts wanted seen l).
Proof.
  induction l as [|u l IH]; intros seen; cbn; [constructor|]. destruct (wanted u && negb (existsb (Nat.eqb u) seen)); [|apply IH]. constructor; [|apply IH]. rewrite firsts_In. cbn. tauto.
Qed.

Section Recreate.
  Context {p : positive} {Prefix : Type}.
  Local Notation gexp := (gexp p).
  Variable new_var : nat -> Prefix -> var.
  Variables (d0 : item_db var) (reqs : list (nat * request p Prefix)) (derived0 : list (var * cmethod p)) (c0 : nat).
  Hypothesis O0 : db_ok veqb d0.
  Hypothesis RQ : forall t r, get_request t reqs = Some r -> next_free_id d0 <= t /\ rq_final r = None /\ forall v, In v (cm_vars (rq_method r)) -> id_of v < next_free_id d0.
  Hypothesis new_fresh : forall i x, c0 <= i -> ~ In (new_var i x) (db_items d0).
  Hypothesis new_inj : forall i j x y, c0 <= i -> c0 <= j -> new_var i x = new_var j y -> i = j.

  Definition requested (t : nat) : bool := match get_request t reqs with Some _ => true | None => false end.
  Definition name_of (k t : nat) : var := match get_request t reqs with Some r => new_var (c0 + k) (rq_prefix r) | None => id_var t end.
  Fixpoint names_from (k : nat) (ts : list nat) : list var := match ts with [] => [] | t :: ts' => name_of k t :: names_from (S k) ts' end.
  Definition known (v : var) : var := match nth_error (db_items d0) (id_of v) with Some x => x | None => v end.
  Definition final (ts : list nat) (v : var) : var := match position (id_of v) ts with Some k => name_of k (id_of v) | None => known v end.
  Definition method_map (h : var -> var) (m : cmethod p) : cmethod p := match m with CConst k => CConst k | CQuot a b => CQuot (gmap h a) (gmap h b) end.
  Definition derived_of (k t : nat) : var * cmethod p := (name_of k t, match get_request t reqs with Some r => method_map known (rq_method r) | None => CConst fzero end).
  Fixpoint derived_from (k : nat) (ts : list nat) : list (var * cmethod p) := match ts with [] => [] | t :: ts' => derived_of k t :: derived_from (S k) ts' end.
  Lemma names_app k ts t : names_from k (ts ++ [t]) = names_from k ts ++ [name_of (k + length ts) t].
  Proof. revert k. induction ts as [|u ts IH]; intros k; cbn; [now rewrite Nat.add_0_r|]. rewrite IH. cbn. now rewrite Nat.add_succ_r. Qed.
  Lemma derived_app k ts t : derived_from k (ts ++ [t]) = derived_from k ts ++ [derived_of (k + length ts) t].
  Proof. revert k. induction ts as [|u ts IH]; intros k; cbn; [now rewrite Nat.add_0_r|]. rewrite IH. cbn. now rewrite Nat.add_succ_r. Qed.
  Lemma names_length k ts : length (names_from k ts) = length ts.
  Proof. revert k. induction ts as [|u ts IH]; intros k; cbn; [reflexivity|]. now rewrite IH. Qed.
  Lemma derived_length k ts : length (derived_from k ts) = length ts.
  Proof. revert k. induction ts as [|u ts IH]; intros k; cbn; [reflexivity|]. now rewrite IH. Qed.
  Lemma names_nth k ts j t : nth_error ts j = Some t -> nth_error (names_from k ts) j = Some (name_of (k + j) t).
  Proof. revert k j. induction ts as [|u ts IH]; intros k [|j]; cbn; try discriminate; [intros [= ->]; now rewrite Nat.add_0_r|]. intros H. rewrite (IH _ _ H). now rewrite Nat.add_succ_r. Qed.
  Lemma derived_nth k ts j t : nth_error ts j = Some t -> nth_error (derived_from k ts) j = Some (derived_of (k + j) t).
  Proof. revert k j. induction ts as [|u ts IH]; intros k [|j]; cbn; try discriminate; [intros [= ->]; now rewrite Nat.add_0_r|]. intros H. rewrite (IH _ _ H). now rewrite Nat.add_succ_r. Qed.

  (** The state after the variables for [ts] have been created. *)
  Record after (ts : list nat) (s : restate p Prefix) : Prop := mkAfter {
    af_ok : db_ok veqb (re_db s);
    af_items : db_items (re_db s) = db_items d0 ++ names_from 0 ts;
    af_ids : forall x i, db_id veqb d0 x = Some i -> db_id veqb (re_db s) x = Some i;
    af_req : forall t, get_request t (re_requests s) = match get_request t reqs with None => None | Some r => Some (mkRequest (option_map (Nat.add (next_free_id d0)) (position t ts)) (rq_prefix r) (rq_method r)) end;
    af_derived : re_derived s = derived0 ++ derived_from 0 ts;
    af_calls : re_calls s = c0 + length ts }.

  Lemma after_start : after [] (mkRe d0 reqs derived0 c0).
  Proof.
    constructor; cbn; auto; try (now rewrite app_nil_r).
    intros t. destruct (get_request t reqs) as [r|] eqn:E; [|reflexivity]. destruct (RQ t r E) as (_ & N & _). destruct r as [fi pr m]. cbn in *. now subst fi.
  Qed.
  Lemma get_set_final t i u (l : list (nat * request p Prefix)) : get_request u (set_final t i l) =
    if Nat.eqb t u then option_map (fun r => mkRequest (Some i) (rq_prefix r) (rq_method r)) (get_request u l) else get_request u l.
  Proof.
    induction l as [|[w r] l IH]; cbn; [destruct (Nat.eqb t u); reflexivity|]. unfold set_final in IH. destruct (Nat.eqb_spec t w) as [->|N]; cbn.
    - destruct (Nat.eqb_spec u w) as [->|N2]; [rewrite Nat.eqb_refl; reflexivity|]. exact IH.
    - destruct (Nat.eqb_spec u w) as [->|N2]; [destruct (Nat.eqb_spec t w); [contradiction|reflexivity]|exact IH].
  Qed.
  (** Expressions over known identifiers are translated by the items, however many variables have been added. *)
  Lemma undo_known d more e : db_items d = db_items d0 ++ more -> (forall v, In v (vars e) -> id_of v < next_free_id d0) -> undo_variable_transform d e = Some (gmap (p := p) known e).
  Proof.
    intros E H. unfold undo_variable_transform. rewrite (transform_run (from_id d) known e tt tt); [reflexivity|].
    revert H. generalize (vars e). intros l. induction l as [|v l IH]; intros H; cbn [run map]; [reflexivity|]. unfold from_id at 1, db_index, known at 1. rewrite E. assert (L : id_of v < length (db_items d0)) by (apply H; now left). rewrite nth_error_app1 by exact L.
    destruct (nth_error (db_items d0) (id_of v)) as [x|] eqn:X; [|apply nth_error_None in X; lia]. cbn [option_map]. rewrite IH by (intros w Hw; apply H; now right). reflexivity.
  Qed.
  Lemma undo_method_known d more m : db_items d = db_items d0 ++ more -> (forall v, In v (cm_vars m) -> id_of v < next_free_id d0) -> undo_method d m = Some (method_map known m).
  Proof.
    intros E H. destruct m as [k|a b]; cbn; [reflexivity|]. rewrite (undo_known d more a E), (undo_known d more b E); [reflexivity| |]; intros v Hv; apply H; cbn; apply in_or_app; auto.
  Qed.
  (** The identifiers that may occur. *)
  Definition usable (v : var) : Prop := id_of v < next_free_id d0 \/ requested (id_of v) = true.
  Lemma known_not_requested v : id_of v < next_free_id d0 -> get_request (id_of v) reqs = None.
  Proof. intros L. destruct (get_request (id_of v) reqs) as [r|] eqn:E; [|reflexivity]. destruct (RQ _ _ E). lia. Qed.

  Lemma recreate_step ts s v : after ts s -> NoDup ts -> (forall t, In t ts -> requested t = true) -> usable v ->
    let ts' := if requested (id_of v) && negb (existsb (Nat.eqb (id_of v)) ts) then ts ++ [id_of v] else ts in
    exists s', recreate new_var s v = Some (final ts' v, s') /\ after ts' s'.
  Proof.
    intros A ND RT U. cbn zeta. unfold recreate. rewrite (af_req _ _ A). destruct (get_request (id_of v) reqs) as [r|] eqn:G.
    - assert (RB : requested (id_of v) = true) by (unfold requested; now rewrite G). rewrite RB. cbn [rq_final rq_prefix rq_method andb]. destruct (position (id_of v) ts) as [k|] eqn:P; cbn [option_map].
      + pose proof (position_Some _ _ _ P) as N. assert (X : existsb (Nat.eqb (id_of v)) ts = true) by (apply existsb_exists; exists (id_of v); split; [exact (nth_error_In _ _ N)|apply Nat.eqb_refl]).
        rewrite X. cbn [negb]. exists s. split; [|exact A]. unfold db_index. rewrite (af_items _ _ A). unfold next_free_id. rewrite nth_error_app2 by lia.
        replace (length (db_items d0) + k - length (db_items d0)) with k by lia. rewrite (names_nth 0 ts k _ N). cbn. unfold final. now rewrite P.
      + assert (NI : ~ In (id_of v) ts) by now apply position_None.
        assert (X : existsb (Nat.eqb (id_of v)) ts = false).
        { destruct (existsb (Nat.eqb (id_of v)) ts) eqn:X; [|reflexivity]. apply existsb_exists in X. destruct X as (x & I & Q). apply Nat.eqb_eq in Q. subst x. contradiction. }
        rewrite X. cbn [negb]. rewrite (af_calls _ _ A). set (x := new_var (c0 + length ts) (rq_prefix r)).
        assert (XN : name_of (length ts) (id_of v) = x) by (unfold name_of; now rewrite G).
        assert (NX : ~ In x (db_items (re_db s))).
        { rewrite (af_items _ _ A), in_app_iff. intros [I|I]; [revert I; apply new_fresh; lia|]. apply In_nth_error in I. destruct I as [j Hj].
          assert (L : j < length ts) by (rewrite <- (names_length 0 ts); apply nth_error_Some; congruence).
          destruct (nth_error ts j) as [u|] eqn:Eu; [|apply nth_error_None in Eu; lia]. rewrite (names_nth 0 ts j u Eu) in Hj. injection Hj as Hj.
          pose proof (RT u (nth_error_In _ _ Eu)) as Ru. unfold requested in Ru. unfold name_of in Hj. destruct (get_request u reqs) as [ru|]; [|discriminate].
          apply new_inj in Hj; lia. }
        pose proof (insert_ok veqb veqb_eq (re_db s) x (af_ok _ _ A)) as I. rewrite (insert_fresh veqb _ _ (af_ok _ _ A) NX) in *. destruct I as (Ok1 & _ & K1 & _).
        assert (EI : db_items (re_db s) ++ [x] = db_items d0 ++ names_from 0 (ts ++ [id_of v])) by (rewrite (af_items _ _ A), names_app; cbn [Nat.add]; rewrite XN; now rewrite app_assoc).
        rewrite (undo_method_known (mkDb (db_items (re_db s) ++ [x]) ((x, next_free_id (re_db s)) :: db_reverse (re_db s))) _ (rq_method r) EI) by (apply (RQ _ _ G)).
        unfold db_index at 1. cbn [db_items]. unfold next_free_id at 1. rewrite nth_error_app2 by apply Nat.le_refl. rewrite Nat.sub_diag. cbn [nth_error option_map].
        eexists. split.
        * f_equal. f_equal. unfold final. rewrite position_app, P. cbn [position]. rewrite Nat.eqb_refl. cbn [option_map]. rewrite Nat.add_0_r. symmetry. exact XN.
        * constructor; cbn [re_db re_requests re_derived re_calls].
          -- exact Ok1.
          -- exact EI.
          -- intros y i Hy. apply K1. now apply (af_ids _ _ A).
          -- intros t. rewrite get_set_final, (af_req _ _ A). destruct (Nat.eqb_spec (id_of v) t) as [<-|Nt].
             ++ rewrite G. cbn. rewrite position_app, P. cbn. rewrite Nat.eqb_refl. cbn. f_equal. f_equal. f_equal. unfold next_free_id. rewrite (af_items _ _ A), app_length, names_length. lia.
             ++ destruct (get_request t reqs) as [rt|]; [|reflexivity]. rewrite position_app. destruct (position t ts) as [k|]; [reflexivity|]. cbn. destruct (Nat.eqb_spec t (id_of v)); [congruence|reflexivity].
          -- rewrite (af_derived _ _ A), derived_app, app_assoc. cbn [Nat.add]. unfold derived_of. rewrite XN, G. reflexivity.
          -- rewrite app_length. cbn. lia.
    - assert (RB : requested (id_of v) = false) by (unfold requested; now rewrite G). rewrite RB. cbn [andb]. destruct U as [L|X]; [|unfold requested in X; rewrite G in X; discriminate]. exists s. split; [|exact A].
      unfold db_index. rewrite (af_items _ _ A). rewrite nth_error_app1 by exact L. unfold final, known.
      assert (P : position (id_of v) ts = None). { apply position_None. intros I. specialize (RT _ I). unfold requested in RT. rewrite G in RT. discriminate. }
      rewrite P. destruct (nth_error (db_items d0) (id_of v)) as [x|] eqn:Q; [reflexivity|]. apply nth_error_None in Q. unfold next_free_id in L. lia.
  Qed.

  Lemma final_more ts more v : (In (id_of v) ts \/ ~ In (id_of v) more) -> final (ts ++ more) v = final ts v.
  Proof.
    unfold final. rewrite position_app. destruct (position (id_of v) ts) as [k|] eqn:P; [reflexivity|]. apply position_None in P. intros [I|N]; [contradiction|]. apply position_None in N. now rewrite N.
  Qed.
  Lemma recreate_run vs : forall ts s, after ts s -> NoDup ts -> (forall t, In t ts -> requested t = true) -> Forall usable vs ->
    let ts' := ts ++ firsts requested ts (map id_of vs) in exists s', run (recreate new_var) vs s = Some (map (final ts') vs, s') /\ after ts' s'.
  Proof.
    induction vs as [|v vs IH]; intros ts s A ND RT U; cbn zeta; cbn [map firsts run].
    - rewrite app_nil_r. exists s. auto.
    - inversion U as [|? ? U1 U2]; subst. destruct (recreate_step ts s v A ND RT U1) as (s1 & E1 & A1). rewrite E1. revert A1. clear E1.
      destruct (requested (id_of v) && negb (existsb (Nat.eqb (id_of v)) ts)) eqn:C; intros A1.
      + apply andb_true_iff in C. destruct C as [C1 C2]. apply negb_true_iff in C2.
        assert (NI : ~ In (id_of v) ts). { intros I. assert (X : existsb (Nat.eqb (id_of v)) ts = true) by (apply existsb_exists; exists (id_of v); split; [exact I|apply Nat.eqb_refl]). congruence. }
        destruct (IH (ts ++ [id_of v]) s1 A1) as (s2 & E2 & A2).
        * apply (Permutation_NoDup (Permutation_cons_append ts (id_of v))). now constructor.
        * intros t I. apply in_app_iff in I. destruct I as [I|[<-|[]]]; [now apply RT|exact C1].
        * exact U2.
        * rewrite E2. rewrite (firsts_seen requested (map id_of vs) (id_of v :: ts) (ts ++ [id_of v])) by (intros t; rewrite in_app_iff; cbn; tauto).
          rewrite <- app_assoc in *. cbn [app] in *. exists s2. split; [|exact A2]. f_equal. f_equal. f_equal.
          change (ts ++ id_of v :: firsts requested (ts ++ [id_of v]) (map id_of vs)) with (ts ++ ([id_of v] ++ firsts requested (ts ++ [id_of v]) (map id_of vs))). rewrite app_assoc. symmetry. apply final_more. left. apply in_or_app. right. now left.
      + destruct (IH ts s1 A1 ND RT U2) as (s2 & E2 & A2). rewrite E2. exists s2. split; [|exact A2]. f_equal. f_equal. f_equal. symmetry. apply final_more.
        apply andb_false_iff in C. destruct C as [C|C].
        * right. rewrite firsts_In. intros (_ & X & _). congruence.
        * left. apply negb_false_iff, existsb_exists in C. destruct C as (x & I & Q). apply Nat.eqb_eq in Q. now subst x.
  Qed.
  Lemma recreate_all_ok es : Forall usable (flat_map vars es) ->
    let ts := firsts requested [] (map id_of (flat_map vars es)) in
    exists s, recreate_all new_var es (mkRe d0 reqs derived0 c0) = Some (map (gmap (final ts)) es, s) /\ after ts s.
  Proof.
    intros U. destruct (recreate_run (flat_map vars es) [] _ after_start (NoDup_nil _) (fun t I => match I with end) U) as (s & E & A). exists s. split; [|exact A].
    unfold recreate_all. exact (transform_list_run (recreate new_var) _ es _ _ E).
  Qed.
End Recreate.
