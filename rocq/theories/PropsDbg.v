(** C60: names of addresses, source locations and notes of ELF files. *)
From Coq Require Import NArith ZArith Bool List Sorted Permutation Lia String Ascii.
From Coq Require Import ZifyBool ZifyNat ZifyN.
From Verif Require Import DbgModel DbgSpec DbgFacts DbgFacts2.
Import ListNotations.
Local Open Scope nat_scope.
Local Open Scope list_scope.
Local Open Scope N_scope.

(** Making names unique ends, for every list of symbols.  Afterwards no name occurs twice; every symbol is still there, with its
    address appended to its name any number of times, and there is nothing else.  A name stays as it is if no other symbol has it
    or can get it, and a name that several addresses have gets its address once if no other symbol can get that name. *)
Theorem C60_names : forall l : list symbol, Forall (fun s => snd s < 2 ^ 32) l ->
  exists r, (forall fuel, (List.length l < fuel)%nat -> dedup_names fuel l = Some r)
    /\ NoDup (map fst r) /\ StronglySorted text_lt (map fst r) /\ (List.length r <= List.length l)%nat
    /\ (forall n a, In (n, a) l -> exists m, In (m, a) r /\ extended a n m)
    /\ (forall m a, In (m, a) r -> exists n, In (n, a) l /\ extended a n m)
    /\ (forall n a, In (n, a) l -> (forall n' a', In (n', a') l -> extended a' n' n -> (n', a') = (n, a)) -> In (n, a) r)
    /\ (forall n a b t, In (n, a) l -> In (n, b) l -> b <> a -> spells a t ->
          (forall n' a', In (n', a') l -> extended a' n' (n ++ [95] ++ t) -> (n', a') = (n, a)) -> In (n ++ [95] ++ t, a) r).
Proof.
  intros l B. destruct (names_unique (S (List.length l)) l B) as (r & E & Hs & (D1 & D2 & D3) & L). { pose proof (unmarked_length l). lia. }
  exists r. split. { intros fuel h. eapply dedup_names_more; [exact E|]. lia. }
  split; [now apply sorted_text_NoDup|]. split; [exact Hs|]. split; [exact L|]. split; [exact D1|]. split; [exact D2|]. split; [exact D3|].
  exact (once _ l r B E).
Qed.
Print Assumptions C60_names.

(** Looking up an address: all its names, else the made up one; the single name is the first in alphabetic order. *)
Theorem C60_lookup : forall (l : list symbol) a, a < 2 ^ 32 ->
  let t := table_of l in
  (forall n, In n (get_all t a) <-> In (n, a) l \/ ((forall m, ~ In (m, a) l) /\ made_up a n))
  /\ (try_get_one t a = None <-> forall m, ~ In (m, a) l)
  /\ (forall n, try_get_one t a = Some n -> In (n, a) l)
  /\ (forall n, StronglySorted text_lt (map fst l) -> try_get_one t a = Some n -> forall m, In (m, a) l -> m = n \/ text_lt n m)
  /\ (forall n, try_get_one t a = Some n -> get_one t a = n)
  /\ (try_get_one t a = None -> made_up a (get_one t a))
  /\ (NoDup (map fst l) -> NoDup (get_all t a)).
Proof.
  intros l a h t. unfold t. rewrite get_all_spec, try_get_one_spec. unfold get_one. rewrite try_get_one_spec.
  pose proof (names_at_In l a) as M. pose proof (names_at_first l a) as G.
  assert (ND : NoDup (map fst l) -> NoDup (names_at l a)).
  { clear. unfold names_at. induction l as [|[n b] l IH]; cbn [map filter snd]; intros D; [constructor|]. inversion D as [|? ? D1 D2]; subst.
    destruct (b =? a); cbn [map]; auto. constructor; auto. intros k. apply D1. apply in_map_iff in k. destruct k as (x & e & k). apply filter_In in k. apply in_map_iff. exists x. tauto. }
  destruct (names_at l a) as [|n0 r]; cbn [hd_error].
  - assert (N0 : forall m, ~ In (m, a) l) by (intros m k; now apply M in k).
    split. { intros n. split.
      - intros [<-|[]]. right. split; auto. now apply default_made_up.
      - intros [k|[_ (t' & -> & k)]]; [now apply N0 in k|]. left. rewrite (spells_hex8 a t' h k). reflexivity. }
    split; [tauto|]. split; [discriminate|]. split; [discriminate|]. split; [discriminate|]. split; [intros _; now apply default_made_up|].
    intros _. constructor; [intros []|constructor].
  - assert (I0 : In (n0, a) l) by (apply M; now left).
    split. { intros n. split; [intros k; left; now apply M|]. intros [k|[k _]]; [now apply M in k|]. now apply k in I0. }
    split. { split; [discriminate|]. intros k. now apply k in I0. }
    split. { intros n E. injection E as <-. exact I0. }
    split. { intros n Hs E. injection E as <-. eapply G; eauto. }
    split. { intros n E. congruence. }
    split; [discriminate|exact ND].
Qed.
Print Assumptions C60_lookup.

(** Looking up an address or the one before it that has a name. *)
Theorem C60_preceding : forall (l : list symbol) a,
  (try_get_one_or_preceding (table_of l) a = None <-> 2 ^ 32 <= a)
  /\ (try_get_one_or_preceding (table_of l) a = Some None -> forall n b, In (n, b) l -> a < b)
  /\ (forall n k, try_get_one_or_preceding (table_of l) a = Some (Some (n, k)) ->
        exists b, a = b + k /\ In (n, b) l /\ (forall m c, In (m, c) l -> c <= a -> c <= b)).
Proof.
  intros l a. split; [|split].
  - unfold try_get_one_or_preceding. destruct (N.ltb_spec a (2 ^ 32)) as [h|h]; split; try discriminate; try tauto. intros k. apply N.le_ngt in k. contradiction.
  - intros E. assert (h : a < 2 ^ 32). { unfold try_get_one_or_preceding in E. destruct (N.ltb_spec a (2 ^ 32)); [assumption|discriminate]. }
    pose proof (preceding_spec l a h) as P. rewrite E in P. exact P.
  - intros n k E. assert (h : a < 2 ^ 32). { unfold try_get_one_or_preceding in E. destruct (N.ltb_spec a (2 ^ 32)); [assumption|discriminate]. }
    pose proof (preceding_spec l a h) as P. rewrite E in P. destruct P as (b & P1 & P2 & P3). exists b. split; auto. split; auto.
    rewrite try_get_one_spec in P2. apply names_at_In. destruct (names_at l b); [discriminate|]. injection P2 as ->. now left.
Qed.
Print Assumptions C60_preceding.

(** Labels of different addresses are different, if no symbol is named like a made up label. *)
Theorem C60_labels : forall (l : list symbol) a b n, NoDup (map fst l) -> a < 2 ^ 32 -> b < 2 ^ 32 ->
  (forall m c d, In (m, c) l -> ~ made_up d m) ->
  In n (get_all (table_of l) a) -> In n (get_all (table_of l) b) -> a = b.
Proof.
  intros l a b n D ha hb U h k. destruct (C60_lookup l a ha) as (A & _). destruct (C60_lookup l b hb) as (B & _).
  apply A in h. apply B in k. destruct h as [h|[_ h]]; destruct k as [k|[_ k]].
  - eapply names_fun; eauto.
  - exfalso. eapply U; eauto.
  - exfalso. eapply U; eauto.
  - destruct h as (t & -> & h). destruct k as (u & E & k). apply app_inv_head in E. subst u. destruct h as [_ h]. destruct k as [_ k]. eapply hex_value_fun; eauto.
Qed.
Print Assumptions C60_labels.

(** Without this condition two addresses can get the same label. *)
Theorem C60_labels_refuted : ~ forall (l : list symbol) a b, NoDup (map fst l) -> a < 2 ^ 32 -> b < 2 ^ 32 ->
  get_one (table_of l) a = get_one (table_of l) b -> a = b.
Proof.
  intros H. specialize (H [(default_label 8, 4)] 4 8). enough (4 = 8) by discriminate. apply H; try reflexivity.
  constructor; [intros []|constructor].
Qed.
Print Assumptions C60_labels_refuted.

(** The locations that stay are those in a loaded segment and those after the last one, sorted by address.
    Nothing else changes, whatever the sorting and searching functions do within their contracts. *)
Theorem C60_locations : forall search sort_locations l m, searches search -> sorts sort_locations -> in_order m ->
  Forall (fun s => memsz s < 2 ^ 32 /\ end_of s < 2 ^ 32) m ->
  exists r dropped, filter_locations_in_text search sort_locations l m = Some r /\ StronglySorted by_address r /\ Permutation l (r ++ dropped)
    /\ Forall (fun x => (exists s, In s m /\ inside x s) \/ (forall s, In s m -> end_of s <= address x)) r
    /\ Forall (fun x => ~ (exists s, In s m /\ inside x s) /\ (exists s, In s m /\ address x < end_of s)) dropped.
Proof.
  intros search sort_locations l m Hse Hso Ho Hm. destruct (Hso l) as [S1 S2].
  exists (filter (stays m) (sort_locations l)), (filter (fun x => negb (stays m x)) (sort_locations l)).
  split. { unfold filter_locations_in_text. exact (filter_segments_spec search Hse m [] (sort_locations l) S1 Ho Hm). }
  split; [now apply filter_sorted|]. split; [etransitivity; [exact S2|apply filter_perm_split]|]. split.
  - apply Forall_forall. intros x hx. apply filter_In in hx. now apply stays_spec.
  - apply Forall_forall. intros x hx. apply filter_In in hx. destruct hx as [_ hx]. apply negb_true_iff in hx. split.
    + intros h. assert (stays m x = true) by (apply stays_spec; now left). congruence.
    + unfold stays in hx. apply orb_false_iff in hx. destruct hx as [_ hx]. clear - hx. induction m as [|s m IH]; [discriminate|]. cbn [forallb] in hx.
      destruct (N.leb_spec (end_of s) (address x)) as [k|k].
      * destruct (IH hx) as (q & hq & L). exists q. split; [now right|exact L].
      * exists s. split; [now left|exact k].
Qed.
Print Assumptions C60_locations.

(** A segment that ends at or after the end of the address space makes the program panic. *)
Theorem C60_locations_panics : forall search sort_locations l m, Exists (fun s => memsz s < 2 ^ 32 /\ 2 ^ 32 <= end_of s) m ->
  filter_locations_in_text search sort_locations l m = None.
Proof.
  intros search sort_locations l m h. unfold filter_locations_in_text. apply filter_segments_overflow.
  apply Exists_exists in h. destruct h as (s & hs & h1 & h2). apply Exists_exists. exists s. split; auto. rewrite N.mod_small by exact h1. exact h2.
Qed.
Print Assumptions C60_locations_panics.

(** Functions that meet the contracts. *)
Fixpoint scan (l : list location) (a : N) : nat + nat :=
  match l with
  | [] => inr 0%nat
  | x :: l => match address x ?= a with Lt => match scan l a with inl k => inl (S k) | inr k => inr (S k) end | Eq => inl 0%nat | Gt => inr 0%nat end
  end.
Fixpoint insert_location (x : location) (l : list location) : list location := match l with [] => [x] | y :: r => if address x <=? address y then x :: l else y :: insert_location x r end.
Definition insertion (l : list location) : list location := fold_right insert_location [] l.
Lemma scan_searches : searches scan.
Proof.
  intros l a h. induction h as [|x l h IH H]; cbn [scan]; [cbn; repeat split; [auto|constructor|constructor]|].
  destruct (N.compare_spec (address x) a) as [E|L|L].
  - exists x. split; [reflexivity|exact E].
  - destruct (scan l a) as [k|k]; [exact IH|]. destruct IH as (I1 & I2 & I3). cbn [List.length firstn skipn]. repeat split; auto. lia.
  - cbn [firstn skipn]. split; [lia|]. split; [constructor|]. constructor; [exact L|]. eapply Forall_impl; [|exact H]. unfold by_address. intros y. lia.
Qed.
Lemma insertion_sorts : sorts insertion.
Proof.
  assert (P : forall x l, Permutation (x :: l) (insert_location x l)).
  { intros x. induction l as [|y l IH]; cbn [insert_location]; auto. destruct (address x <=? address y); auto. rewrite perm_swap. now constructor. }
  intros l. unfold insertion. induction l as [|x l [I1 I2]]; cbn [fold_right]; [split; [constructor|auto]|]. split; [|rewrite <- P; now constructor].
  clear I2. induction I1 as [|y r h IH H]; cbn [insert_location]; [repeat constructor|].
  destruct (N.leb_spec (address x) (address y)) as [L|L].
  - constructor; [now constructor|]. constructor; [exact L|]. eapply Forall_impl; [|exact H]. unfold by_address. intros z. lia.
  - constructor; auto. eapply Permutation_Forall; [apply P|]. constructor; [unfold by_address; lia|exact H].
Qed.

(** "Filter out source locations that are not in a text section" (debug_info.rs 400) does not hold: locations in segments that are not
    executable stay, and so do those after the last segment. *)
Theorem C60_text_refuted : exists search sort_locations l m r x y, searches search /\ sorts sort_locations /\ in_order m
  /\ filter_locations_in_text search sort_locations l m = Some r
  /\ In x r /\ (exists s, In s m /\ inside x s /\ executable s = false) /\ (forall s, In s m -> executable s = true -> ~ inside x s)
  /\ In y r /\ (forall s, In s m -> ~ inside y s).
Proof.
  exists scan, insertion, [mkLoc 40 1; mkLoc 4 2; mkLoc 12 3], [mkSeg 0 8 false; mkSeg 8 8 true].
  exists [mkLoc 4 2; mkLoc 12 3; mkLoc 40 1], (mkLoc 4 2), (mkLoc 40 1).
  split; [apply scan_searches|]. split; [apply insertion_sorts|]. split; [repeat constructor|]. split; [reflexivity|].
  unfold inside, end_of. split; [now left|]. split; [exists (mkSeg 0 8 false); cbn; repeat split; [now left|lia]|].
  split; [intros s [<-|[<-|[]]]; cbn; [discriminate|lia]|]. split; [cbn; tauto|]. intros s [<-|[<-|[]]]; cbn; lia.
Qed.
Print Assumptions C60_text_refuted.

(** The statements are the instructions in order, each after the labels of its address and the locations in it; then the locations and
    labels after all instructions. *)
Theorem C60_statements : forall t labels ls is, is <> [] -> consecutive is -> StronglySorted N.lt labels -> StronglySorted by_address ls ->
  Forall (label_fits is) labels -> Forall (location_fits is) ls ->
  executable_statements t labels ls is = Some (listing t labels ls is).
Proof.
  intros t labels ls is ne C Ha Hl Fa Fl. unfold executable_statements. rewrite (merge_locations_ok is C ls Hl Fl), located_block.
  rewrite (merge_labels_ok t ls _ is C labels Ha Fa) by now left. reflexivity.
Qed.
Print Assumptions C60_statements.

(** It panics for every other list of locations or labels. *)
Theorem C60_statements_panics : forall t labels ls is, consecutive is -> StronglySorted N.lt labels -> StronglySorted by_address ls ->
  Exists (fun a => ~ label_fits is a) labels \/ Exists (fun l => ~ location_fits is l) ls ->
  executable_statements t labels ls is = None.
Proof.
  intros t labels ls is C Ha Hl h. unfold executable_statements.
  assert (D : Forall (location_fits is) ls \/ Exists (fun l => ~ location_fits is l) ls).
  { assert (Dec : forall l, location_fits is l \/ ~ location_fits is l).
    { intros l. destruct (existsb (fun i => belongs i l) is || beyond is l) eqn:E.
      - left. apply orb_true_iff in E. destruct E as [E|E]; [left|now right]. apply existsb_exists in E. exact E.
      - right. apply orb_false_iff in E. destruct E as [E1 E2]. intros [(i & hi & b)|b]; [|congruence].
        assert (existsb (fun i => belongs i l) is = true) by (apply existsb_exists; eauto). congruence. }
    clear Hl h. induction ls as [|l ls IH]; [left; constructor|]. destruct (Dec l); [|right; now constructor]. destruct IH; [left; now constructor|right; now constructor 2]. }
  destruct D as [D|D].
  - rewrite (merge_locations_ok is C ls Hl D), located_block. destruct h as [h|h].
    + now apply merge_labels_panics.
    + exfalso. apply Exists_exists in h. destruct h as (x & hx & n). rewrite Forall_forall in D. exact (n (D x hx)).
  - now rewrite (merge_locations_panics is C ls Hl D).
Qed.
Print Assumptions C60_statements_panics.

(** So a location in a data segment in front of the code, which the filter keeps, makes the program panic. *)
Theorem C60_data_location_panics : exists search sort_locations l m r is, searches search /\ sorts sort_locations /\ in_order m /\ consecutive is
  /\ (forall i, In i is -> exists s, In s m /\ executable s = true /\ start s <= at_ i /\ at_ i + size i <= end_of s)
  /\ (forall x, In x l -> exists s, In s m /\ inside x s)
  /\ filter_locations_in_text search sort_locations l m = Some r /\ executable_statements [] [] r is = None.
Proof.
  exists scan, insertion, [mkLoc 12 3; mkLoc 4 2], [mkSeg 0 8 false; mkSeg 8 8 true], [mkLoc 4 2; mkLoc 12 3], [mkInsn 8 4 0; mkInsn 12 4 1].
  split; [apply scan_searches|]. split; [apply insertion_sorts|]. split; [repeat constructor|].
  split; [split; [constructor; [constructor; [constructor|constructor]|constructor; [cbn; lia|constructor]]|constructor; [cbn; lia|constructor; [cbn; lia|constructor]]]|].
  split. { intros i [<-|[<-|[]]]; exists (mkSeg 8 8 true); unfold end_of; cbn; repeat split; auto; lia. }
  split. { intros x [<-|[<-|[]]]; [exists (mkSeg 8 8 true)|exists (mkSeg 0 8 false)]; unfold inside, end_of; cbn; split; auto; lia. }
  split; reflexivity.
Qed.
Print Assumptions C60_data_location_panics.

(** The symbols and notes of a compilation unit: those of the entries of its tree, a note with the names from the root to the entry. *)
Theorem C60_notes : forall is_data jump_target delta d st,
  exists st', read_unit_symbols is_data jump_target delta (changes 0 (walk 0 d)) st = Some st'
    /\ (forall n a, In (n, a) (symbols st') <-> In (n, a) (symbols st) \/ exists p, In p (paths [] d) /\ gives_symbol is_data jump_target (snd p) n a)
    /\ (forall t ps p qs a x, paths [] d = ps ++ p :: qs -> gives_note is_data delta p a x ->
          (forall q y, In q qs -> ~ gives_note is_data delta q a y) -> data_label (notes st') t a = Some (inl x))
    /\ (forall t a, (forall p x, In p (paths [] d) -> ~ gives_note is_data delta p a x) -> data_label (notes st') t a = data_label (notes st) t a).
Proof.
  intros is_data jump_target delta d st. eexists. split; [apply read_tree|].
  set (en := entry_notes is_data jump_target delta).
  destruct (fold_visit is_data jump_target delta (paths [] d) st) as [Es En].
  set (st' := fold_left (visit is_data jump_target delta) (paths [] d) st) in *. clearbody st'.
  assert (Q : forall t a, data_label (notes st') t a = match find (fun e => fst e =? a) (flat_map en (rev (paths [] d))) with Some e => Some (inl (snd e)) | None => data_label (notes st) t a end).
  { intros t a. unfold data_label. rewrite En. fold en. generalize (flat_map en (rev (paths [] d))) as u. induction u as [|[b y] u IH]; cbn [app find fst snd]; [reflexivity|]. destruct (b =? a); auto. }
  assert (NN : forall p, In p (paths [] d) -> fst p <> []) by (intros p; exact (paths_not_nil (size_of d) d [] p (le_n _))).
  assert (none : forall qs a, (forall q, In q qs -> fst q <> []) -> (forall q y, In q qs -> ~ gives_note is_data delta q a y) -> find (fun e => fst e =? a) (flat_map en (rev qs)) = None).
  { intros qs a N0 h. destruct (find _ _) as [[b y]|] eqn:E; [|reflexivity]. exfalso. apply find_some in E. destruct E as [E1 E2]. cbn [fst] in E2. apply N.eqb_eq in E2. subst b.
    apply in_flat_map in E1. destruct E1 as (q & hq & E1). apply in_rev in hq. apply (h q y hq). apply (entry_notes_In is_data jump_target delta q a y); auto. }
  split; [|split].
  - intros n a. rewrite Es, in_app_iff, in_flat_map. split; (intros [h|(p & hp & h)]; [now left|right; exists p; split; auto; now apply (entry_symbols_In is_data jump_target delta p)]).
  - intros t ps p qs a x E g U. rewrite Q.
    assert (Hp : In p (paths [] d)) by (rewrite E; apply in_app_iff; right; now left).
    pose proof (proj2 (entry_notes_In is_data jump_target delta p a x (NN p Hp)) g) as I1. fold en in I1.
    assert (L1 : exists e, en p = [e]).
    { destruct g as (lk & dc & K & K1 & _). unfold en, entry_notes, visit, read_entry. destruct p as [stack [nm k]]. cbn [fst snd kind] in *. rewrite K, K1. cbn [notes].
      specialize (NN _ Hp). cbn [fst] in NN. destruct stack; [congruence|]. cbn [List.length Nat.ltb Nat.leb app]. eauto. }
    destruct L1 as (e & L1). rewrite L1 in I1. destruct I1 as [->|[]].
    rewrite E. rewrite rev_app_distr. cbn [rev]. rewrite !flat_map_app. cbn [flat_map]. rewrite L1.
    assert (NQ : forall q, In q qs -> fst q <> []) by (intros q hq; apply NN; rewrite E; apply in_app_iff; right; now right).
    pose proof (none qs a NQ U) as F. revert F. generalize (flat_map en (rev qs)) as u. clear. induction u as [|[b y] u IH]; cbn [app find fst snd].
    + intros _. rewrite N.eqb_refl. reflexivity.
    + destruct (b =? a); [discriminate|]. exact IH.
  - intros t a U. rewrite Q, (none _ a NN U). reflexivity.
Qed.
Print Assumptions C60_notes.

(** "The human readable name of the variable is available" (debug_info.rs 238) is not tested: a variable without a name also gets a
    note, which hides its symbol. *)
Theorem C60_nameless_refuted : exists is_data jump_target delta d e n a st' x,
  read_unit_symbols is_data jump_target delta (changes 0 (walk 0 d)) (mkUnit [] []) = Some st'
  /\ d = Die (mkEntry None OtherEntry) [Die e []] /\ entry_name e = None /\ kind e = Variable_ (Some a) (Some n) None
  /\ In (n, a) (symbols st') /\ data_label (notes st') (table_of (symbols st')) a = Some (inl x).
Proof.
  exists (fun _ => true), (fun _ => true), 0, (Die (mkEntry None OtherEntry) [Die (mkEntry None (Variable_ (Some 16) (Some [120]) None)) []]).
  do 5 eexists. split; [reflexivity|]. split; [reflexivity|]. split; [reflexivity|]. split; [reflexivity|]. split; [now left|]. reflexivity.
Qed.
Print Assumptions C60_nameless_refuted.

(** ** Examples *)
Definition tx (s : string) : text := map N_of_ascii (list_ascii_of_string s).
(** The second case of the unit test (debug_info.rs 605-625): renaming makes new equal names, which are renamed again. *)
Definition johns : list symbol :=
  [(tx "john", 66); (tx "john", 135); (tx "john", 426); (tx "john_000001aa", 426); (tx "john_00000042", 259); (tx "john_00000087", 259)].
Example C60_names_example : Forall (fun s => snd s < 2 ^ 32) johns /\
  dedup_names 7 johns = Some [(tx "john_00000042_00000042", 66); (tx "john_00000042_00000103", 259); (tx "john_00000087_00000087", 135);
                              (tx "john_00000087_00000103", 259); (tx "john_000001aa", 426)].
Proof. split; [repeat (constructor; [reflexivity|]); constructor|vm_compute; reflexivity]. Qed.
(** A name that stays, and one that gets its address once. *)
Example C60_once_example : dedup_names 4 [(tx "foo", 4096); (tx "doo", 66); (tx "foo", 8192)] = Some [(tx "doo", 66); (tx "foo_00001000", 4096); (tx "foo_00002000", 8192)].
Proof. vm_compute. reflexivity. Qed.
Definition sample_table : table := table_of [(tx "a", 16); (tx "b", 8); (tx "c", 16)].
Example C60_lookup_example :
  get_all sample_table 16 = [tx "a"; tx "c"] /\ get_one sample_table 16 = tx "a" /\ get_one sample_table 12 = tx "__.L0000000c" /\
  try_get_one_or_preceding sample_table 15 = Some (Some (tx "b", 7)) /\ try_get_one_or_preceding sample_table 16 = Some (Some (tx "a", 0)) /\
  try_get_one_or_preceding sample_table 7 = Some None.
Proof. vm_compute. repeat split; reflexivity. Qed.
Example C60_locations_example :
  filter_locations_in_text scan insertion [mkLoc 30 0; mkLoc 8 1; mkLoc 16 2; mkLoc 3 3; mkLoc 15 4; mkLoc 24 5; mkLoc 39 6] [mkSeg 8 8 true; mkSeg 24 16 true]
  = Some [mkLoc 8 1; mkLoc 15 4; mkLoc 24 5; mkLoc 30 0; mkLoc 39 6].
Proof. vm_compute. reflexivity. Qed.
Example C60_statements_example :
  let is := [mkInsn 8 4 0; mkInsn 12 4 1; mkInsn 24 4 2] in
  let labels := [12; 24] in
  let ls := [mkLoc 8 0; mkLoc 12 1; mkLoc 14 2; mkLoc 30 3] in
  is <> [] /\ consecutive is /\ Forall (label_fits is) labels /\ Forall (location_fits is) ls /\
  executable_statements sample_table labels ls is =
    Some [SLoc (mkLoc 8 0); SInsn (mkInsn 8 4 0); SLabel (tx "__.L0000000c"); SLoc (mkLoc 12 1); SLoc (mkLoc 14 2); SInsn (mkInsn 12 4 1);
          SLabel (tx "__.L00000018"); SInsn (mkInsn 24 4 2); SLoc (mkLoc 30 3)].
Proof.
  cbv zeta. split; [discriminate|]. split.
  { split; [repeat (constructor; [|repeat (constructor; [cbn; lia|]); constructor]); constructor|repeat (constructor; [cbn; lia|]); constructor]. }
  split.
  { repeat constructor; [exists (mkInsn 12 4 1)|exists (mkInsn 24 4 2)]; cbn; auto. }
  split; [|vm_compute; reflexivity].
  constructor; [left; exists (mkInsn 8 4 0); cbn; auto|]. constructor; [left; exists (mkInsn 12 4 1); cbn; auto|].
  constructor; [left; exists (mkInsn 12 4 1); cbn; auto|]. constructor; [right; reflexivity|constructor].
Qed.
(** A variable in a nested module and one next to the module: the stack of names goes back. *)
Definition sample_unit : die :=
  Die (mkEntry (Some (tx "lib.rs")) OtherEntry)
    [Die (mkEntry (Some (tx "m")) OtherEntry) [Die (mkEntry None OtherEntry) [Die (mkEntry (Some (tx "X")) (Variable_ (Some 100) (Some (tx "_X")) (Some (1, 7)))) []]];
     Die (mkEntry (Some (tx "Y")) (Variable_ (Some 104) None None)) [];
     Die (mkEntry (Some (tx "f")) (Subprogram (Some (tx "_f")) [8; 16])) []].
Example C60_notes_example :
  read_unit_symbols (fun a => 100 <=? a) (fun a => a =? 16) 5 (changes 0 (walk 0 sample_unit)) (mkUnit [] [])
  = Some (mkUnit [(tx "_X", 100); (tx "_f", 16)] [(104, (tx "lib.rs::Y", None)); (100, (tx "lib.rs::m::?::X", Some (6, 7)))]).
Proof. vm_compute. reflexivity. Qed.
