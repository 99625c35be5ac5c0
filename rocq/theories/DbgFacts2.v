(** Facts on lookups, source locations, statements and notes. *)
From Coq Require Import NArith ZArith Bool List Sorted Permutation Lia Arith.
From Coq Require Import ZifyBool ZifyNat ZifyN.
From Verif Require Import DbgModel DbgSpec DbgFacts.
Import ListNotations.
Local Open Scope N_scope.
Local Opaque hex8.

(** ** The table *)
Lemma insert_key_In : forall a l x, In x (insert_key a l) <-> x = a \/ In x l.
Proof.
  intros a. induction l as [|b l IH]; intros x; cbn [insert_key]; [cbn; intuition|].
  destruct (N.compare_spec a b) as [->|h|h]; cbn [In]; [intuition|intuition|]. rewrite IH. intuition.
Qed.
Lemma insert_key_sorted : forall a l, StronglySorted N.lt l -> StronglySorted N.lt (insert_key a l).
Proof.
  intros a l h. induction h as [|b l h IH H]; cbn [insert_key]; [repeat constructor|].
  destruct (N.compare_spec a b) as [->|k|k].
  - now constructor.
  - constructor; [now constructor|]. constructor; auto. eapply Forall_impl; [|exact H]. cbn. lia.
  - constructor; auto. apply Forall_forall. intros x hx. apply insert_key_In in hx. rewrite Forall_forall in H. destruct hx as [->|hx]; auto.
Qed.
Lemma keys_In : forall l a, In a (keys l) <-> exists n, In (n, a) l.
Proof.
  unfold keys. induction l as [|[m b] l IH]; intros a; cbn [map fold_right].
  - split; [intros []|intros [n []]].
  - rewrite insert_key_In, IH. cbn [In snd]. split.
    + intros [->|[n h]]; eauto.
    + intros [n [E|h]]; [left; congruence|right; eauto].
Qed.
Lemma keys_sorted : forall l, StronglySorted N.lt (keys l).
Proof. unfold keys. induction l as [|x l IH]; cbn; [constructor|]. now apply insert_key_sorted. Qed.
Lemma names_at_In : forall l a n, In n (names_at l a) <-> In (n, a) l.
Proof.
  intros l a n. unfold names_at. rewrite in_map_iff. split.
  - intros ([m b] & <- & h). apply filter_In in h. cbn in h. destruct h as [h E]. apply N.eqb_eq in E. now subst b.
  - intros h. exists (n, a). split; auto. apply filter_In. split; auto. apply N.eqb_refl.
Qed.
Lemma get_spec : forall l a, get (table_of l) a = match names_at l a with [] => None | ns => Some ns end.
Proof.
  intros l a. unfold get, table_of.
  assert (K : forall ks, find (fun e : N * list text => fst e =? a) (map (fun a => (a, names_at l a)) ks) = if existsb (N.eqb a) ks then Some (a, names_at l a) else None).
  { induction ks as [|k ks IH]; cbn [map find existsb fst]; auto. rewrite IH. rewrite (N.eqb_sym a k). destruct (N.eqb_spec k a) as [->|E]; reflexivity. }
  rewrite K. destruct (existsb (N.eqb a) (keys l)) eqn:E.
  - cbn [snd]. destruct (names_at l a) eqn:Q; auto. exfalso. apply existsb_exists in E. destruct E as (x & hx & E). apply N.eqb_eq in E. subst x.
    apply keys_In in hx. destruct hx as (n & hn). apply names_at_In in hn. rewrite Q in hn. destruct hn.
  - destruct (names_at l a) as [|n r] eqn:Q; auto. exfalso. assert (In n (names_at l a)) as h by (rewrite Q; now left).
    apply names_at_In in h. assert (In a (keys l)) as k by (apply keys_In; eauto). assert (existsb (N.eqb a) (keys l) = true) by (apply existsb_exists; exists a; split; auto; apply N.eqb_refl). congruence.
Qed.
Lemma get_all_spec : forall l a, get_all (table_of l) a = match names_at l a with [] => [default_label a] | ns => ns end.
Proof. intros l a. unfold get_all. rewrite get_spec. destruct (names_at l a); [reflexivity|]. apply app_nil_r. Qed.
Lemma try_get_one_spec : forall l a, try_get_one (table_of l) a = hd_error (names_at l a).
Proof. intros l a. unfold try_get_one. rewrite get_spec. destruct (names_at l a); reflexivity. Qed.
Lemma names_at_first : forall l a n r, StronglySorted text_lt (map fst l) -> names_at l a = n :: r -> forall m, In (m, a) l -> m = n \/ text_lt n m.
Proof.
  intros l a n r. unfold names_at. induction l as [|[k b] l IH]; cbn [filter map snd fst]; intros h E m hm; [discriminate|].
  apply StronglySorted_inv in h. destruct h as [h H]. destruct (N.eqb_spec b a) as [->|Q].
  - cbn [map fst] in E. injection E as -> _. destruct hm as [K|hm]; [left; congruence|]. right. rewrite Forall_forall in H. apply H. apply in_map_iff. exists (m, a). auto.
  - destruct hm as [K|hm]; [congruence|]. now apply IH.
Qed.
Lemma rev_filter_last : forall (ks : list N) a, StronglySorted N.lt ks ->
  match rev (filter (fun k => k <=? a) ks) with
  | [] => forall k, In k ks -> a < k
  | b :: _ => In b ks /\ b <= a /\ (forall k, In k ks -> k <= a -> k <= b)
  end.
Proof.
  intros ks a. induction ks as [|k ks IH]; intros h; cbn [filter]; [intros ? []|].
  apply StronglySorted_inv in h. destruct h as [h H]. specialize (IH h). rewrite Forall_forall in H.
  destruct (k <=? a) eqn:E; cbn [rev].
  - destruct (rev (filter (fun k => k <=? a) ks)) as [|b r]; cbn [app].
    + split; [now left|]. split; [lia|]. intros q [<-|hq] L; [lia|]. specialize (IH q hq). lia.
    + destruct IH as (I1 & I2 & I3). split; [now right|]. split; auto. intros q [<-|hq] L; [specialize (H b I1); lia|]. auto.
  - destruct (rev (filter (fun k => k <=? a) ks)) as [|b r].
    + intros q [<-|hq]; [lia|]. auto.
    + destruct IH as (I1 & I2 & I3). specialize (H b I1). lia.
Qed.
Lemma preceding_spec : forall l a, a < 2 ^ 32 ->
  match try_get_one_or_preceding (table_of l) a with
  | None => False
  | Some None => forall n b, In (n, b) l -> a < b
  | Some (Some (n, k)) => exists b, a = b + k /\ try_get_one (table_of l) b = Some n /\ (forall m c, In (m, c) l -> c <= a -> c <= b)
  end.
Proof.
  intros l a h. unfold try_get_one_or_preceding. rewrite (proj2 (N.ltb_lt _ _) h).
  assert (K : filter (fun e : N * list text => fst e <=? a) (table_of l) = map (fun a => (a, names_at l a)) (filter (fun k => k <=? a) (keys l))).
  { unfold table_of. induction (keys l) as [|k ks IH]; cbn [map filter fst]; auto. rewrite IH. destruct (k <=? a); reflexivity. }
  rewrite K, <- map_rev. pose proof (rev_filter_last (keys l) a (keys_sorted l)) as R.
  destruct (rev (filter (fun k => k <=? a) (keys l))) as [|b r]; cbn [map].
  - intros n b hb. apply R. apply keys_In. eauto.
  - destruct R as (R1 & R2 & R3). pose proof (try_get_one_spec l b) as T. destruct (names_at l b) as [|n ns] eqn:Q.
    + exfalso. apply keys_In in R1. destruct R1 as (n & hn). apply names_at_In in hn. rewrite Q in hn. destruct hn.
    + exists b. split; [lia|]. split; [exact T|]. intros m c hc L. apply R3; auto. apply keys_In. eauto.
Qed.
Lemma default_made_up : forall a, a < 2 ^ 32 -> made_up a (default_label a).
Proof. intros a h. exists (hex8 a). split; [reflexivity|now apply hex8_spells]. Qed.
Lemma default_inj : forall a b, a < 2 ^ 32 -> b < 2 ^ 32 -> default_label a = default_label b -> a = b.
Proof. intros a b ha hb E. apply app_inv_head in E. now apply hex8_inj. Qed.
Lemma names_fun : forall (l : list symbol) n a b, NoDup (map fst l) -> In (n, a) l -> In (n, b) l -> a = b.
Proof.
  induction l as [|[m c] l IH]; intros n a b D h k; [destruct h|]. cbn [map fst] in D. inversion D as [|? ? D1 D2]; subst.
  destruct h as [h|h]; destruct k as [k|k].
  - congruence.
  - injection h as -> ->. exfalso. apply D1. apply in_map_iff. exists (n, b). auto.
  - injection k as -> ->. exfalso. apply D1. apply in_map_iff. exists (n, a). auto.
  - eauto.
Qed.
Lemma sorted_text_NoDup : forall l, StronglySorted text_lt l -> NoDup l.
Proof. induction 1 as [|x l h IH H]; constructor; auto. intros K. rewrite Forall_forall in H. exact (text_lt_irrefl _ (H x K)). Qed.

(** ** Locations *)
Section Loc.
  Variable search : list location -> N -> nat + nat.
  Hypothesis Hsearch : searches search.
  Lemma walk_back_spec : forall l a k, StronglySorted by_address l -> (k <= length l)%nat ->
    Forall (fun x => address x <= a) (firstn k l) -> Forall (fun x => a <= address x) (skipn k l) ->
    let j := walk_back l a k in Forall (fun x => address x < a) (firstn j l) /\ Forall (fun x => a <= address x) (skipn j l) /\ (j <= length l)%nat.
  Proof.
    clear Hsearch. intros l a k Hs. induction k as [|k IH]; intros L B F; cbn [walk_back].
    - cbn. repeat split; [constructor|exact F|lia].
    - destruct (nth_error l k) as [x|] eqn:E; [|apply nth_error_None in E; lia].
      assert (Q : firstn (S k) l = firstn k l ++ [x]).
      { clear - E. revert k E. induction l as [|y l IH]; intros [|k] E; cbn in *; try discriminate; [congruence|]. f_equal. auto. }
      assert (Q' : skipn k l = x :: skipn (S k) l).
      { clear - E. revert k E. induction l as [|y l IH]; intros [|k] E; cbn in *; try discriminate; [congruence|]. rewrite (IH k E). reflexivity. }
      rewrite Q in B. apply Forall_app in B. destruct B as [B Bx]. apply Forall_inv in Bx.
      destruct (N.eqb_spec (address x) a) as [D|D].
      + apply IH; [lia|exact B|]. rewrite Q'. constructor; [lia|exact F].
      + cbv zeta. repeat split; [|exact F|lia]. rewrite Q.
        rewrite <- (firstn_skipn (S k) l), Q in Hs. apply sorted_app in Hs. destruct Hs as (Hs & _ & _). apply sorted_app in Hs. destruct Hs as (_ & _ & Hs).
        apply Forall_app. split; [|constructor; [lia|constructor]].
        apply Forall_forall. intros z hz. assert (address z <= address x) by (apply Hs; auto; now left). lia.
  Qed.
  Lemma find_first_split : forall l a, StronglySorted by_address l ->
    let k := find_first_idx search l a in
    Forall (fun x => address x < a) (firstn k l) /\ Forall (fun x => a <= address x) (skipn k l) /\ (k <= length l)%nat.
  Proof.
    intros l a Hs. unfold find_first_idx. pose proof (Hsearch l a Hs) as H. destruct (search l a) as [k|k].
    - destruct H as (x & E & A). apply walk_back_spec; auto.
      + apply Nat.lt_le_incl. apply nth_error_Some. congruence.
      + clear - Hs E A. revert k E. induction Hs as [|y l Hs IH H]; intros k E; [destruct k; discriminate|]. destruct k as [|k]; cbn in *; [constructor|].
        constructor; [|now apply IH]. apply nth_error_In in E. rewrite Forall_forall in H. specialize (H x E). unfold by_address in H. lia.
      + clear - Hs E A. revert k E. induction Hs as [|y l Hs IH H]; intros k E; [destruct k; discriminate|]. destruct k as [|k]; cbn in *.
        * injection E as ->. constructor; [lia|]. eapply Forall_impl; [|exact H]. unfold by_address. intros z. lia.
        * now apply IH.
    - destruct H as (L & H1 & H2). repeat split; auto. eapply Forall_impl; [|exact H2]. cbn. lia.
  Qed.

  (** What stays. *)
  Definition covers (s : segment) (x : location) : bool := (start s <=? address x) && (address x <? end_of s).
  Definition stays (m : list segment) (x : location) : bool := existsb (fun s => covers s x) m || forallb (fun s => end_of s <=? address x) m.
  Lemma filter_none : forall (A : Type) (f : A -> bool) l, Forall (fun x => f x = false) l -> filter f l = [].
  Proof. clear. intros A f l. induction 1 as [|x l h H IH]; cbn; auto. now rewrite h. Qed.
  Lemma filter_all : forall (A : Type) (f : A -> bool) l, Forall (fun x => f x = true) l -> filter f l = l.
  Proof. clear. intros A f l. induction 1 as [|x l h H IH]; cbn; auto. rewrite h. congruence. Qed.
  Lemma skipn_done : forall (A : Type) k (a b : list A), skipn (k + length a) (a ++ b) = skipn k b.
  Proof. clear. intros A k a b. rewrite skipn_app. rewrite (skipn_all2 a) by lia. cbn [app]. f_equal. lia. Qed.
  Lemma skipn_done0 : forall (A : Type) (a b : list A), skipn (length a) (a ++ b) = b.
  Proof. clear. intros A a b. exact (skipn_done A 0 a b). Qed.
  Lemma firstn_done : forall (A : Type) (a b : list A), firstn (length a) (a ++ b) = a.
  Proof. clear. intros A a b. rewrite firstn_app, firstn_all, Nat.sub_diag. apply app_nil_r. Qed.
  Lemma filter_segments_spec : forall m done rest,
    StronglySorted by_address rest -> in_order m -> Forall (fun s => memsz s < 2 ^ 32 /\ end_of s < 2 ^ 32) m ->
    filter_segments search (length done) (done ++ rest) m = Some (done ++ filter (stays m) rest).
  Proof.
    induction m as [|s m IH]; intros done rest Hr Ho Hm; cbn [filter_segments].
    - rewrite (filter_all _ (stays [])); [reflexivity|]. apply Forall_forall. reflexivity.
    - apply StronglySorted_inv in Ho. destruct Ho as [Ho Hs]. inversion Hm as [|? ? [M1 M2] Hm']; subst.
      rewrite skipn_done0.
      pose proof (find_first_split rest (start s) Hr) as F. cbv zeta in F. set (k := find_first_idx search rest (start s)) in *. clearbody k.
      destruct F as (F1 & F2 & F3).
      rewrite firstn_done, skipn_done.
      rewrite (N.mod_small _ _ M1). fold (end_of s). rewrite (proj2 (N.ltb_lt _ _) M2).
      rewrite skipn_done0.
      rewrite <- (firstn_skipn k rest) in Hr. apply sorted_app in Hr. destruct Hr as (_ & Hr & _).
      rewrite <- (firstn_skipn k rest) at 3. set (low := firstn k rest) in *. set (high := skipn k rest) in *. clearbody low high.
      pose proof (find_first_split high (end_of s) Hr) as G. cbv zeta in G. set (j := find_first_idx search high (end_of s)) in *. clearbody j.
      destruct G as (G1 & G2 & G3).
      rewrite <- (firstn_skipn j high) in Hr. apply sorted_app in Hr. destruct Hr as (_ & Hr & _).
      replace (length done + j)%nat with (length (done ++ firstn j high)) by (rewrite app_length, firstn_length; lia).
      rewrite <- (firstn_skipn j high) in F2. apply Forall_app in F2. destruct F2 as [F2 _].
      rewrite <- (firstn_skipn j high) at 2 3. set (mid := firstn j high) in *. set (top := skipn j high) in *. clearbody mid top.
      rewrite app_assoc, (IH (done ++ mid) top Hr Ho Hm'). rewrite <- app_assoc. do 2 f_equal.
      rewrite !filter_app. rewrite (filter_none _ (stays (s :: m)) low), (filter_all _ (stays (s :: m)) mid).
      + cbn [app]. f_equal. apply filter_ext_in. intros x hx. rewrite Forall_forall in G2. specialize (G2 x hx).
        unfold stays. cbn [existsb forallb]. assert (covers s x = false) as -> by (unfold covers; lia). assert (end_of s <=? address x = true) as -> by lia. reflexivity.
      + apply Forall_forall. intros x hx. rewrite Forall_forall in G1, F2. specialize (G1 x hx). specialize (F2 x hx). unfold stays. cbn [existsb].
        assert (covers s x = true) as -> by (unfold covers; lia). reflexivity.
      + apply Forall_forall. intros x hx. rewrite Forall_forall in F1, Hs. specialize (F1 x hx). unfold stays. cbn [existsb forallb].
        assert (covers s x = false) as -> by (unfold covers; lia). assert (end_of s <=? address x = false) as -> by (unfold end_of; lia).
        cbn [orb andb]. rewrite orb_false_r. apply not_true_is_false. intros K. apply existsb_exists in K. destruct K as (t & ht & K). specialize (Hs t ht). unfold covers in K. lia.
  Qed.
  Lemma filter_segments_overflow : forall m done l, Exists (fun s => 2 ^ 32 <= start s + memsz s mod 2 ^ 32) m -> filter_segments search done l m = None.
  Proof.
    clear Hsearch. induction m as [|s m IH]; intros done l h; cbn [filter_segments]; inversion h; subst.
    - rewrite (proj2 (N.ltb_ge _ _)) by assumption. reflexivity.
    - destruct (_ <? _); auto.
  Qed.
  Lemma stays_spec : forall m x, stays m x = true <-> (exists s, In s m /\ inside x s) \/ (forall s, In s m -> end_of s <= address x).
  Proof.
    clear. intros m x. unfold stays. rewrite orb_true_iff, existsb_exists, forallb_forall. unfold covers, inside. split.
    - intros [(s & h & E)|h]; [left; exists s; split; auto; lia|right]. intros s hs. specialize (h s hs). lia.
    - intros [(s & h & E)|h]; [left; exists s; split; auto; lia|right]. intros s hs. specialize (h s hs). lia.
  Qed.
  Lemma filter_perm_split : forall (f : location -> bool) l, Permutation l (filter f l ++ filter (fun x => negb (f x)) l).
  Proof.
    clear. intros f. induction l as [|x l IH]; cbn [filter]; auto. destruct (f x); cbn [negb app]; [now constructor|]. apply Permutation_cons_app. exact IH.
  Qed.
  Lemma filter_sorted : forall (f : location -> bool) l, StronglySorted by_address l -> StronglySorted by_address (filter f l).
  Proof.
    clear. intros f. induction 1 as [|x l h IH H]; cbn [filter]; [constructor|]. destruct (f x); auto. constructor; auto.
    apply Forall_forall. intros y hy. apply filter_In in hy. rewrite Forall_forall in H. now apply H.
  Qed.
End Loc.

(** ** Statements *)
Definition located (ls : list location) (is : list insn) : list (N * statement) :=
  flat_map (fun i => map (fun s => (at_ i, s)) (map SLoc (filter (belongs i) ls) ++ [SInsn i])) is ++ map (fun l => (0, SLoc l)) (filter (beyond is) ls).
Lemma merge_locations_nil : forall is, merge_locations is [] = Some (map (fun i => (at_ i, SInsn i)) is).
Proof. destruct is; reflexivity. Qed.
Lemma merge_locations_cons : forall i is l ls, merge_locations (i :: is) (l :: ls) =
  if address l <? at_ i then None
  else if address l <? at_ i + size i then match merge_locations (i :: is) ls with Some r => Some ((at_ i, SLoc l) :: r) | None => None end
  else match merge_locations is (l :: ls) with Some r => Some ((at_ i, SInsn i) :: r) | None => None end.
Proof. reflexivity. Qed.
Lemma belongs_later : forall i is j l, Forall (fun j => at_ i + size i <= at_ j) is -> In j is -> address l < at_ i + size i -> belongs j l = false.
Proof. intros i is j l H h L. rewrite Forall_forall in H. specialize (H j h). unfold belongs. lia. Qed.
Lemma merge_locations_ok : forall is, consecutive is -> forall ls, StronglySorted by_address ls -> Forall (location_fits is) ls ->
  merge_locations is ls = Some (located ls is).
Proof.
  induction is as [|i is IH]; intros [C1 C2] ls.
  - intros _ _. unfold located. cbn [flat_map app]. rewrite (filter_all _ (beyond [])) by (apply Forall_forall; reflexivity). destruct ls; reflexivity.
  - apply StronglySorted_inv in C1. destruct C1 as [C1 F]. inversion C2 as [|? ? Z C2']; subst.
    induction ls as [|l ls IHl]; intros Hs Hf.
    + rewrite merge_locations_nil. unfold located. cbn [filter map app]. f_equal. rewrite app_nil_r.
      assert (K : forall r, map (fun i => (at_ i, SInsn i)) r = flat_map (fun i => [(at_ i, SInsn i)]) r) by (clear; induction r as [|j r IHr]; cbn [map flat_map app]; [reflexivity|now rewrite IHr]). apply (K (i :: is)).
    + apply StronglySorted_inv in Hs. destruct Hs as [Hs G]. inversion Hf as [|? ? f Hf']; subst. rewrite merge_locations_cons.
      destruct (N.ltb_spec (address l) (at_ i)) as [A|A].
      * exfalso. destruct f as [(j & hj & b)|b].
        -- destruct hj as [<-|hj]; [unfold belongs in b; lia|]. rewrite (belongs_later i is j l) in b; auto; [discriminate|lia].
        -- unfold beyond in b. cbn [forallb] in b. lia.
      * destruct (N.ltb_spec (address l) (at_ i + size i)) as [B|B].
        -- rewrite (IHl Hs Hf'). f_equal. unfold located. cbn [flat_map filter].
           assert (belongs i l = true) as -> by (unfold belongs; lia).
           assert (beyond (i :: is) l = false) as -> by (unfold beyond; cbn [forallb]; lia).
           assert (K : forall js, (forall j, In j js -> belongs j l = false) ->
             flat_map (fun i => map (fun s => (at_ i, s)) (map SLoc (filter (belongs i) ls) ++ [SInsn i])) js
             = flat_map (fun i => map (fun s => (at_ i, s)) (map SLoc (if belongs i l then l :: filter (belongs i) ls else filter (belongs i) ls) ++ [SInsn i])) js).
           { clear. induction js as [|j js IH]; intros h; cbn [flat_map]; auto. rewrite IH by (intros; apply h; now right). rewrite (h j) by now left. reflexivity. }
           rewrite <- (K is) by (intros j hj; eapply belongs_later; eauto). reflexivity.
        -- rewrite (IH (conj C1 C2')) by (first [now constructor | constructor; auto; fail | idtac]; 
             try (apply Forall_forall; intros x hx; rewrite Forall_forall in Hf; specialize (Hf x hx);
               assert (at_ i + size i <= address x) by (destruct hx as [<-|hx]; [lia|]; rewrite Forall_forall in G; specialize (G x hx); unfold by_address in G; lia);
               destruct Hf as [(j & [<-|hj] & b)|b]; [unfold belongs in b; lia|left; eauto|right; unfold beyond in *; cbn [forallb] in b; apply andb_true_iff in b; apply b])).
           f_equal. unfold located. cbn [flat_map].
           assert (N1 : filter (belongs i) (l :: ls) = []).
           { apply filter_none. apply Forall_forall. intros x hx. assert (at_ i + size i <= address x) by (destruct hx as [<-|hx]; [lia|]; rewrite Forall_forall in G; specialize (G x hx); unfold by_address in G; lia). unfold belongs. lia. }
           rewrite N1. cbn [map app]. f_equal. f_equal. f_equal. apply filter_ext_in. intros x hx. 
           assert (at_ i + size i <= address x) by (destruct hx as [<-|hx]; [lia|]; rewrite Forall_forall in G; specialize (G x hx); unfold by_address in G; lia).
           unfold beyond. cbn [forallb]. assert (at_ i + size i <=? address x = true) as -> by lia. reflexivity.
Qed.
Lemma merge_locations_panics : forall is, consecutive is -> forall ls, StronglySorted by_address ls -> Exists (fun l => ~ location_fits is l) ls ->
  merge_locations is ls = None.
Proof.
  induction is as [|i is IH]; intros [C1 C2] ls.
  - intros _ h. exfalso. induction h as [l ls h|l ls h IHh]; auto. apply h. right. reflexivity.
  - apply StronglySorted_inv in C1. destruct C1 as [C1 F]. inversion C2 as [|? ? Z C2']; subst.
    induction ls as [|l ls IHl]; intros Hs Hf; [inversion Hf|].
    apply StronglySorted_inv in Hs. destruct Hs as [Hs G]. rewrite merge_locations_cons.
    destruct (N.ltb_spec (address l) (at_ i)) as [A|A]; [reflexivity|].
    destruct (N.ltb_spec (address l) (at_ i + size i)) as [B|B].
    + rewrite IHl; auto. inversion Hf; subst; auto. exfalso. apply H0. left. exists i. split; [now left|]. unfold belongs. lia.
    + rewrite (IH (conj C1 C2')); auto; [now constructor|].
      apply Exists_exists in Hf. destruct Hf as (x & hx & n). apply Exists_exists. exists x. split; auto. intros [(j & hj & b)|b]; apply n; [left; exists j; split; auto; now right|right].
      assert (at_ i + size i <= address x) by (destruct hx as [<-|hx]; [lia|]; rewrite Forall_forall in G; specialize (G x hx); unfold by_address in G; lia).
      unfold beyond in *. cbn [forallb]. rewrite b. lia.
Qed.

Definition texts (t : table) (labels : list N) : list statement := flat_map (fun a => map SLabel (get_all t a)) labels.
Definition before (xs : list statement) (o : option (list statement)) : option (list statement) := match o with Some r => Some (xs ++ r) | None => None end.
Lemma before_before : forall a b o, before a (before b o) = before (a ++ b) o.
Proof. intros a b [r|]; cbn; [now rewrite app_assoc|reflexivity]. Qed.
Lemma merge_labels_nil : forall t rs, merge_labels t rs [] = Some (map snd rs).
Proof. intros t [|]; reflexivity. Qed.
Lemma merge_labels_cons : forall t b s rs a labels, merge_labels t ((b, s) :: rs) (a :: labels) =
  match a ?= b with
  | Lt => None
  | Eq => before (map SLabel (get_all t a)) (merge_labels t ((b, s) :: rs) labels)
  | Gt => before [s] (merge_labels t rs (a :: labels))
  end.
Proof. reflexivity. Qed.
Lemma merge_labels_skip : forall t b xs rs labels, Forall (fun a => b < a) labels ->
  merge_labels t (map (fun s => (b, s)) xs ++ rs) labels = before xs (merge_labels t rs labels).
Proof.
  intros t b xs rs labels H. destruct labels as [|a labels].
  - rewrite !merge_labels_nil. cbn [before]. rewrite map_app, map_map. cbn [snd]. now rewrite map_id.
  - apply Forall_inv in H. induction xs as [|x xs IH]; cbn [map app].
    + destruct (merge_labels t rs (a :: labels)); reflexivity.
    + rewrite merge_labels_cons. rewrite (proj2 (N.compare_gt_iff a b) H). rewrite IH, before_before. reflexivity.
Qed.
Definition block (ls : list location) (i : insn) : list statement := map SLoc (filter (belongs i) ls) ++ [SInsn i].
Lemma block_not_nil : forall ls i, exists x xs, block ls i = x :: xs.
Proof. intros ls i. unfold block. destruct (map SLoc (filter (belongs i) ls)); cbn [app]; eauto. Qed.
Lemma merge_labels_step : forall t ls i rs labels, StronglySorted N.lt labels -> Forall (fun a => at_ i <= a) labels ->
  merge_labels t (map (fun s => (at_ i, s)) (block ls i) ++ rs) labels
  = before (texts t (filter (fun a => a =? at_ i) labels) ++ block ls i) (merge_labels t rs (filter (fun a => at_ i <? a) labels)).
Proof.
  intros t ls i rs labels Hs Hb. destruct labels as [|a labels].
  - cbn [filter texts flat_map app]. apply merge_labels_skip. constructor.
  - apply StronglySorted_inv in Hs. destruct Hs as [Hs G]. inversion Hb as [|? ? A Hb']; subst.
    destruct (N.eqb_spec a (at_ i)) as [E|E].
    + assert (K : Forall (fun x => at_ i < x) labels) by (rewrite <- E; exact G).
      destruct (block_not_nil ls i) as (x & xs & Q). rewrite Q at 1. cbn [map app]. rewrite E, merge_labels_cons, N.compare_refl.
      change ((at_ i, x) :: map (fun s => (at_ i, s)) xs ++ rs) with (map (fun s => (at_ i, s)) (x :: xs) ++ rs). rewrite <- Q.
      rewrite merge_labels_skip by exact K. rewrite before_before. cbn [filter]. rewrite N.eqb_refl, N.ltb_irrefl.
      rewrite (filter_none _ (fun a => a =? at_ i) labels) by (eapply Forall_impl; [|exact K]; cbn; lia).
      rewrite (filter_all _ (fun a => at_ i <? a) labels) by (eapply Forall_impl; [|exact K]; cbn; lia).
      cbn [texts flat_map]. rewrite app_nil_r. reflexivity.
    + assert (K : Forall (fun x => at_ i < x) (a :: labels)) by (constructor; [lia|]; eapply Forall_impl; [|exact G]; cbn; lia).
      rewrite merge_labels_skip by exact K.
      rewrite (filter_none _ (fun a => a =? at_ i) (a :: labels)) by (eapply Forall_impl; [|exact K]; cbn; lia).
      rewrite (filter_all _ (fun x => at_ i <? x) (a :: labels)) by (eapply Forall_impl; [|exact K]; cbn; lia).
      reflexivity.
Qed.
Lemma sorted_filter_N : forall (f : N -> bool) l, StronglySorted N.lt l -> StronglySorted N.lt (filter f l).
Proof.
  intros f. induction 1 as [|x l h IH H]; cbn [filter]; [constructor|]. destruct (f x); auto. constructor; auto.
  apply Forall_forall. intros y hy. apply filter_In in hy. rewrite Forall_forall in H. now apply H.
Qed.
Lemma merge_labels_ok : forall t ls tail is, consecutive is -> forall labels, StronglySorted N.lt labels -> Forall (label_fits is) labels ->
  (is <> [] \/ Forall (fun a => 0 < a) labels) ->
  merge_labels t (flat_map (fun i => map (fun s => (at_ i, s)) (block ls i)) is ++ map (fun s => (0, s)) tail) labels
  = Some (flat_map (fun i => texts t (filter (fun a => a =? at_ i) labels) ++ block ls i) is
          ++ tail ++ texts t (filter (fun a => forallb (fun i => at_ i <? a) is) labels)).
Proof.
  intros t ls tail. induction is as [|i is IH]; intros [C1 C2] labels Hs Hf Hz.
  - destruct Hz as [Hz|Hz]; [congruence|]. cbn [flat_map app]. rewrite <- (app_nil_r (map _ tail)). rewrite merge_labels_skip by exact Hz.
    rewrite (filter_all _ (fun a => forallb _ [])) by (apply Forall_forall; reflexivity). destruct labels; reflexivity.
  - apply StronglySorted_inv in C1. destruct C1 as [C1 F]. inversion C2 as [|? ? Z C2']; subst.
    assert (F' : Forall (fun j => at_ i < at_ j) is) by (eapply Forall_impl; [|exact F]; cbn; lia). rewrite Forall_forall in F'.
    cbn [flat_map]. rewrite <- app_assoc. rewrite merge_labels_step; auto.
    2:{ eapply Forall_impl; [|exact Hf]. intros a [(j & [<-|hj] & <-)|h]; [lia|specialize (F' j hj); lia|]. specialize (h i (or_introl eq_refl)). lia. }
    assert (Hin : forall a, In a (filter (fun a => at_ i <? a) labels) -> In a labels /\ at_ i < a) by (intros a h; apply filter_In in h; split; [apply h|lia]).
    rewrite IH.
    + cbn [before]. f_equal. rewrite <- !app_assoc. do 2 f_equal.
      assert (K : forall js, (forall j, In j js -> at_ i < at_ j) ->
        flat_map (fun j => texts t (filter (fun a => a =? at_ j) (filter (fun a => at_ i <? a) labels)) ++ block ls j) js
        = flat_map (fun j => texts t (filter (fun a => a =? at_ j) labels) ++ block ls j) js).
      { clear. induction js as [|j js IH]; intros h; cbn [flat_map]; auto. rewrite IH by (intros; apply h; now right). do 3 f_equal.
        specialize (h j (or_introl eq_refl)). clear - h. induction labels as [|a labels IH]; cbn [filter]; auto.
        destruct (N.ltb_spec (at_ i) a); cbn [filter]; rewrite IH; auto. destruct (N.eqb_spec a (at_ j)); auto. lia. }
      rewrite K by exact F'. f_equal. f_equal. f_equal. clear. induction labels as [|a labels IH]; cbn [filter forallb]; auto.
      destruct (at_ i <? a); cbn [filter andb]; rewrite IH; reflexivity.
    + split; auto.
    + now apply sorted_filter_N.
    + apply Forall_forall. intros a h. destruct (Hin a h) as [h1 h2]. rewrite Forall_forall in Hf. destruct (Hf a h1) as [(j & [<-|hj] & <-)|k]; [lia|left; eauto|right; intros j hj; apply k; now right].
    + right. apply Forall_forall. intros a h. destruct (Hin a h). lia.
Qed.
Lemma merge_labels_panics : forall t ls tail is, consecutive is -> forall labels, StronglySorted N.lt labels ->
  Exists (fun a => ~ label_fits is a) labels ->
  merge_labels t (flat_map (fun i => map (fun s => (at_ i, s)) (block ls i)) is ++ map (fun s => (0, s)) tail) labels = None.
Proof.
  intros t ls tail. induction is as [|i is IH]; intros [C1 C2] labels Hs Hf.
  - exfalso. apply Exists_exists in Hf. destruct Hf as (a & _ & n). apply n. right. intros j [].
  - apply StronglySorted_inv in C1. destruct C1 as [C1 F]. inversion C2 as [|? ? Z C2']; subst.
    assert (F' : Forall (fun j => at_ i < at_ j) is) by (eapply Forall_impl; [|exact F]; cbn; lia). rewrite Forall_forall in F'.
    cbn [flat_map]. rewrite <- app_assoc.
    assert (D : (exists a r, labels = a :: r /\ a < at_ i) \/ Forall (fun a => at_ i <= a) labels).
    { destruct labels as [|a r]; [right; constructor|]. destruct (N.ltb_spec a (at_ i)); [left; eauto|right]. constructor; auto.
      apply StronglySorted_inv in Hs. destruct Hs as [_ G]. eapply Forall_impl; [|exact G]. cbn. lia. }
    destruct D as [(a & r & -> & L)|D].
    + destruct (block_not_nil ls i) as (x & xs & ->). cbn [map app]. rewrite merge_labels_cons. rewrite (proj2 (N.compare_lt_iff _ _) L). reflexivity.
    + rewrite merge_labels_step by auto. rewrite IH; [reflexivity|now split|now apply sorted_filter_N|].
      apply Exists_exists in Hf. destruct Hf as (a & ha & n). apply Exists_exists. exists a.
      assert (at_ i < a). { rewrite Forall_forall in D. specialize (D a ha). destruct (N.eq_dec (at_ i) a) as [E|E]; [|lia]. exfalso. apply n. left. exists i. split; [now left|exact E]. }
      split; [apply filter_In; split; auto; lia|]. intros [(j & hj & E)|k]; apply n; [left; exists j; split; auto; now right|right].
      intros j [<-|hj]; auto.
Qed.
Lemma located_block : forall ls is, located ls is = flat_map (fun i => map (fun s => (at_ i, s)) (block ls i)) is ++ map (fun s => (0, s)) (map SLoc (filter (beyond is) ls)).
Proof. intros ls is. unfold located, block. now rewrite map_map. Qed.

(** ** Units *)
Section Unit.
  Variables (is_data jump_target : N -> bool) (file_delta : N).
  Definition visit (st : unit_state) (p : list (option text) * entry) : unit_state := read_entry is_data jump_target file_delta (fst p) (snd p) st.
  Definition fits (depth : nat) (path stack : list (option text)) (prev : Z) : Prop :=
    length path = depth /\ firstn depth stack = path /\ Z.of_nat (length stack) = (prev + 1)%Z /\ (Z.of_nat depth <= prev + 1)%Z.
  Lemma push_fits : forall depth path stack prev n, fits depth path stack prev ->
    push_name stack (Z.of_nat depth - prev) n = Some (path ++ [n]) /\ fits (S depth) (path ++ [n]) (path ++ [n]) (Z.of_nat depth).
  Proof.
    intros depth path stack prev n (f1 & f2 & f3 & f4). split.
    - unfold push_name. destruct (Z.ltb_spec 1 (Z.of_nat depth - prev)); [lia|]. destruct (Z.eqb_spec (Z.of_nat depth - prev) 1).
      + rewrite firstn_all2 in f2 by lia. now subst path.
      + replace (Z.of_nat (length stack) + (Z.of_nat depth - prev) - 1)%Z with (Z.of_nat depth) by lia.
        destruct (Z.ltb_spec (Z.of_nat depth) 0); [lia|]. rewrite Nat2Z.id, f2. reflexivity.
    - unfold fits. rewrite app_length. cbn [length]. rewrite f1. rewrite firstn_all2 by (rewrite app_length; cbn [length]; lia).
      repeat split; auto; lia.
  Qed.
  Fixpoint size_of (d : die) : nat := match d with Die _ cs => S (fold_right (fun c n => (size_of c + n)%nat) O cs) end.
  Lemma walk_read : forall k d depth path stack prev rest st, (size_of d <= k)%nat -> fits depth path stack prev ->
    exists stack' prev', fits depth path stack' prev' /\ (Z.of_nat depth <= prev')%Z
      /\ read_entries is_data jump_target file_delta stack (changes prev (walk (Z.of_nat depth) d ++ rest)) st
          = read_entries is_data jump_target file_delta stack' (changes prev' rest) (fold_left visit (paths path d) st).
  Proof.
    induction k as [|k IH]; intros [e cs] depth path stack prev rest st L H; [cbn in L; lia|].
    cbn [size_of] in L. cbn [walk changes read_entries app paths fold_left].
    destruct (push_fits depth path stack prev (entry_name e) H) as [-> H1].
    set (path1 := path ++ [entry_name e]) in *.
    replace (Z.of_nat depth + 1)%Z with (Z.of_nat (S depth)) by lia.
    assert (K : forall cs stack1 prev1 st1, (fold_right (fun c n => (size_of c + n)%nat) O cs <= k)%nat -> fits (S depth) path1 stack1 prev1 ->
      exists stack' prev', fits (S depth) path1 stack' prev' /\
        read_entries is_data jump_target file_delta stack1 (changes prev1 (flat_map (walk (Z.of_nat (S depth))) cs ++ rest)) st1
        = read_entries is_data jump_target file_delta stack' (changes prev' rest) (fold_left visit (flat_map (paths path1) cs) st1)).
    { clear L. induction cs0 as [|c cs0 IHc]; intros stack1 prev1 st1 L H2; cbn [flat_map fold_right fold_left app] in *; [eauto|].
      rewrite <- app_assoc. destruct (IH c (S depth) path1 stack1 prev1 (flat_map (walk (Z.of_nat (S depth))) cs0 ++ rest) st1) as (s2 & p2 & H3 & _ & ->); [lia|auto|].
      destruct (IHc s2 p2 (fold_left visit (paths path1 c) st1)) as (s3 & p3 & H4 & ->); [lia|auto|]. exists s3, p3. split; auto. now rewrite fold_left_app. }
    destruct (K cs path1 (Z.of_nat depth) (visit st (path1, e))) as (s2 & p2 & H3 & E); [lia|exact H1|].
    exists s2, p2. destruct H3 as (g1 & g2 & g3 & g4). destruct H as (f1 & f2 & f3 & f4).
    split; [|split; [lia|exact E]]. repeat split; auto; [|lia].
    assert (firstn depth (firstn (S depth) s2) = firstn depth path1) as Q by now rewrite g2.
    rewrite firstn_firstn in Q. rewrite Nat.min_l in Q by lia. rewrite Q. unfold path1. rewrite firstn_app, f1, Nat.sub_diag. cbn [firstn]. rewrite app_nil_r. rewrite <- f1. apply firstn_all.
  Qed.
  Lemma read_tree : forall d st, read_unit_symbols is_data jump_target file_delta (changes 0 (walk 0 d)) st = Some (fold_left visit (paths [] d) st).
  Proof.
    intros d st. unfold read_unit_symbols. destruct (walk_read (size_of d) d 0 [] [None] 0%Z [] st) as (s & p & _ & _ & E); auto.
    { repeat split; cbn; auto. lia. }
    rewrite app_nil_r in E. exact E.
  Qed.
  Definition entry_symbols (p : list (option text) * entry) : list symbol := symbols (visit (mkUnit [] []) p).
  Definition entry_notes (p : list (option text) * entry) : list (N * note) := notes (visit (mkUnit [] []) p).
  Lemma visit_split : forall st p, symbols (visit st p) = symbols st ++ entry_symbols p /\ notes (visit st p) = entry_notes p ++ notes st.
  Proof.
    intros st [stack [n k]]. unfold entry_symbols, entry_notes, visit, read_entry. cbn [fst snd kind].
    destruct k as [[l|] starts|[a|] l d|]; cbn [symbols notes app]; rewrite ?app_nil_r; auto.
    destruct (is_data a); cbn [symbols notes app]; rewrite ?app_nil_r; auto.
  Qed.
  Lemma fold_visit : forall ps st, symbols (fold_left visit ps st) = symbols st ++ flat_map entry_symbols ps
    /\ notes (fold_left visit ps st) = flat_map entry_notes (rev ps) ++ notes st.
  Proof.
    induction ps as [|p ps IH]; intros st; cbn [fold_left flat_map rev]; [rewrite app_nil_r; auto|].
    destruct (IH (visit st p)) as [-> ->]. destruct (visit_split st p) as [-> ->]. rewrite flat_map_app. cbn [flat_map]. rewrite app_nil_r, <- !app_assoc. auto.
  Qed.
  Lemma entry_symbols_In : forall p n a, In (n, a) (entry_symbols p) <-> gives_symbol is_data jump_target (snd p) n a.
  Proof.
    intros [stack [nm k]] n a. unfold entry_symbols, visit, read_entry, gives_symbol. cbn [fst snd kind].
    destruct k as [[l|] starts|[b|] l d|]; cbn [symbols app In].
    - rewrite in_map_iff. split.
      + intros (x & E & h). injection E as -> ->. apply filter_In in h. left. exists starts. tauto.
      + intros [(s & E & h1 & h2)|(d & E & _)]; [|discriminate]. injection E as -> ->. exists a. split; auto. apply filter_In. auto.
    - split; [intros []|]. intros [(s & E & _)|(d & E & _)]; discriminate.
    - destruct (is_data b) eqn:D; cbn [symbols app In].
      + split.
        * destruct l as [l|]; [|intros []]. intros [E|[]]. injection E as -> ->. right. eauto.
        * intros [(s & E & _)|(d' & E & _)]; [discriminate|]. injection E as -> -> ->. now left.
      + split; [intros []|]. intros [(s & E & _)|(d' & E & K)]; [discriminate|]. injection E as -> -> ->. congruence.
    - split; [intros []|]. intros [(s & E & _)|(d' & E & _)]; discriminate.
    - split; [intros []|]. intros [(s & E & _)|(d' & E & _)]; discriminate.
  Qed.
End Unit.
Lemma joined_full : forall p, p <> [] -> joined p (full_text p).
Proof.
  unfold full_text. induction p as [|o p IH]; intros h; [congruence|]. destruct p as [|q p].
  - destruct o; constructor.
  - specialize (IH ltac:(discriminate)). cbn [map] in *.
    destruct o as [n|]; [apply (j_more n (q :: p))|apply (j_more_none (q :: p))]; auto; discriminate.
Qed.
Lemma joined_fun : forall p t, joined p t -> forall u, joined p u -> t = u.
Proof.
  induction 1; intros u K; inversion K; subst; auto; try congruence; f_equal; f_equal; auto.
Qed.
Lemma entry_notes_In : forall is_data jump_target delta p a x, fst p <> [] ->
  (In (a, x) (entry_notes is_data jump_target delta p) <-> gives_note is_data delta p a x).
Proof.
  intros is_data jump_target delta [stack [nm k]] a [t pl] Hp. unfold entry_notes, visit, read_entry, gives_note. cbn [fst snd kind] in *.
  assert (Q : (0 <? length stack)%nat = true) by (destruct stack; [congruence|reflexivity]).
  destruct k as [[l|] starts|[b|] l d|]; cbn [notes app In];
    try (split; [intros []|]; intros (lk & dc & E & _); discriminate).
  destruct (is_data b) eqn:D; cbn [notes app In].
  - rewrite Q. cbn [app In]. split.
    + intros [E|[]]. injection E as <- <- <-. exists l, d. repeat split; auto. now apply joined_full.
    + intros (lk & dc & E & _ & J & ->). injection E as -> -> ->. left. rewrite (joined_fun _ _ J _ (joined_full stack Hp)). reflexivity.
  - split; [intros []|]. intros (lk & dc & E & K & _). injection E as -> -> ->. congruence.
Qed.
Lemma paths_not_nil : forall k d above p, (size_of d <= k)%nat -> In p (paths above d) -> fst p <> [].
Proof.
  induction k as [|k IH]; intros [e cs] above p L h; [cbn in L; lia|]. cbn [paths In size_of] in *. destruct h as [<-|h].
  - cbn. destruct above; discriminate.
  - apply in_flat_map in h. destruct h as (c & hc & h). eapply IH; [|exact h].
    assert (size_of c <= fold_right (fun c n => (size_of c + n)%nat) O cs)%nat.
    { clear - hc. induction cs as [|x cs IH]; [destruct hc|]. cbn [fold_right]. destruct hc as [<-|hc]; [lia|]. specialize (IH hc). lia. }
    lia.
Qed.
