(** Proofs about exporting. *)
From Coq Require Import Arith NArith Bool List Ascii String Lia.
From Verif Require Import NumModel NumFacts JsonModel ExportModel ExportSpec.
Import ListNotations.
Local Open Scope list_scope.

(** ** Names *)
Lemma print_digits n : Forall digit (print 10 n).
Proof. apply print10_chars. constructor. Qed.
Lemma pad3_digits n : Forall digit (pad3 n).
Proof. unfold pad3. apply Forall_app. split; [|apply print_digits]. apply Forall_forall. intros c H. apply repeat_spec in H. subst. unfold digit. lia. Qed.
Lemma pad3_nonempty n : pad3 n <> [].
Proof. unfold pad3. intros H. apply app_eq_nil in H. destruct H as [_ H]. now apply print_nonempty in H. Qed.
Lemma read_zeros k s : read_digits 10 (repeat 48%N k ++ s) 0 = read_digits 10 s 0.
Proof. induction k as [|k IH]; cbn; auto. Qed.
Lemma read_pad3 n : read_digits 10 (pad3 n) 0 = Some n.
Proof.
  unfold pad3. rewrite read_zeros. pose proof (read_print 10 n ltac:(lia)) as H. unfold read in H. pose proof (print_nonempty 10 n). now destruct (print 10 n).
Qed.
Lemma pad3_inj n m : pad3 n = pad3 m -> n = m.
Proof. intros H. pose proof (read_pad3 n) as A. rewrite H, read_pad3 in A. congruence. Qed.
Lemma print_inj n m : print 10 n = print 10 m -> n = m.
Proof. intros H. pose proof (read_print 10 n ltac:(lia)) as A. rewrite H, read_print in A by lia. congruence. Qed.
Definition stops (r : text) : Prop := forall c s, r = c :: s -> ~ digit c.
Lemma digits_apart a b r s : Forall digit a -> Forall digit b -> stops r -> stops s -> a ++ r = b ++ s -> a = b /\ r = s.
Proof.
  intros Ha Hb Hr Hs. revert b Hb. induction Ha as [|x a Hx Ha IH]; intros [|y b] Hb H; cbn in H.
  - auto.
  - exfalso. inversion Hb; subst. eapply Hr; eauto.
  - exfalso. symmetry in H. eapply Hs; eauto.
  - inversion Hb; subst. injection H as <- H. destruct (IH b) as [-> ->]; auto.
Qed.
(** After numbers: no underscore with a digit. *)
Definition ends (r : text) : Prop := stops r /\ forall s, r = 95%N :: s -> stops s.
Lemma join_cons (x : text) l : l <> [] -> join_with 95 (x :: l) = x ++ 95%N :: join_with 95 l.
Proof. destruct l; [contradiction|reflexivity]. Qed.
Lemma stops_cons c s : ~ digit c -> stops (c :: s).
Proof. intros H c' s' [= <- _]. exact H. Qed.
Lemma groups_apart (g h : list text) r s : g <> [] -> h <> [] -> Forall (fun x : text => Forall digit x /\ x <> []) g -> Forall (fun x : text => Forall digit x /\ x <> []) h ->
  ends r -> ends s -> join_with 95 g ++ r = join_with 95 h ++ s -> g = h /\ r = s.
Proof.
  intros Ng Nh Hg Hh [Er Er'] [Es Es']. revert h Nh Hh. induction Hg as [|x g [Hx Nx] Hg IH]; [contradiction|]. intros [|y h] Nh Hh H; [contradiction|].
  inversion Hh as [|y0 h0 [Hy Ny] Hh']; subst.
  assert (U : ~ digit 95) by (unfold digit; lia).
  assert (Q : forall (l : list text) (t : text), l <> [] -> Forall (fun x : text => Forall digit x /\ x <> []) l -> exists c u, join_with 95 l ++ t = c :: u /\ digit c).
  { intros [|[|c z] l] t Nl Hl; [contradiction|inversion Hl as [|z0 l0 [_ X] _]; contradiction|]. inversion Hl as [|z0 l0 [X _] _]; subst. inversion X; subst.
    destruct l; cbn; eauto. }
  destruct g as [|x' g], h as [|y' h].
  - cbn in H. apply digits_apart in H; auto. destruct H as [-> ->]. auto.
  - rewrite (join_cons y (y' :: h)) in H by discriminate. change (join_with 95 [x]) with x in H. rewrite <- app_assoc, <- app_comm_cons in H. apply digits_apart in H; auto; [|now apply stops_cons].
    destruct H as [_ ->]. destruct (Q (y' :: h) s) as (c & u & Eq & Hc); auto; [discriminate|]. exfalso. eapply (Er' _ eq_refl); eauto.
  - rewrite (join_cons x (x' :: g)) in H by discriminate. change (join_with 95 [y]) with y in H. rewrite <- app_assoc, <- app_comm_cons in H. apply digits_apart in H; auto; [|now apply stops_cons].
    destruct H as [_ <-]. destruct (Q (x' :: g) r) as (c & u & Eq & Hc); auto; [discriminate|]. exfalso. eapply (Es' _ eq_refl); eauto.
  - rewrite (join_cons x (x' :: g)), (join_cons y (y' :: h)) in H by discriminate. rewrite <- !app_assoc, <- !app_comm_cons in H. apply digits_apart in H; auto; try now apply stops_cons.
    destruct H as [-> H]. apply (f_equal (@tl N)) in H. cbn [tl app] in H. destruct (IH ltac:(discriminate) (y' :: h)) as [E1 ->]; auto; [discriminate|]. now rewrite E1.
Qed.
Lemma join_snoc l (x : text) : l <> [] -> join_with 95 (l ++ [x]) = join_with 95 l ++ 95%N :: x.
Proof.
  induction l as [|a l IH]; [contradiction|]. intros _. destruct l as [|b l]; [reflexivity|]. change ((a :: b :: l) ++ [x]) with (a :: ((b :: l) ++ [x])).
  rewrite join_cons by discriminate. rewrite IH by discriminate. rewrite (join_cons a (b :: l)) by discriminate. now rewrite <- app_assoc.
Qed.
Lemma groups_ok (pcs : list N) : Forall (fun x : text => Forall digit x /\ x <> []) (map (print 10) pcs).
Proof. apply Forall_forall. intros x H. apply in_map_iff in H. destruct H as (n & <- & _). split; [apply print_digits|apply print_nonempty]. Qed.
Lemma map_print_inj (a b : list N) : map (print 10) a = map (print 10) b -> a = b.
Proof. revert b. induction a as [|x a IH]; intros [|y b] H; try discriminate; auto. injection H as H1 H2. f_equal; auto. now apply print_inj. Qed.

Definition numbered (pcs : list N) n (rest : text) : text := txt "apc_candidate_" ++ join_with 95 (map (print 10) pcs) ++ [95%N] ++ pad3 n ++ rest.
Lemma numbered_groups pcs n rest : pcs <> [] -> numbered pcs n rest = txt "apc_candidate_" ++ join_with 95 (map (print 10) pcs ++ [pad3 n]) ++ rest.
Proof. intros H. unfold numbered. rewrite join_snoc by (destruct pcs; [contradiction|discriminate]). now rewrite <- app_assoc. Qed.
Lemma numbered_apart pcs pcs' n n' r r' : pcs <> [] -> pcs' <> [] -> ends r -> ends r' -> numbered pcs n r = numbered pcs' n' r' -> pcs = pcs' /\ n = n' /\ r = r'.
Proof.
  intros Hp Hp' Hr Hr' H. rewrite !numbered_groups in H by auto. apply app_inv_head in H.
  assert (K : forall l k, Forall (fun x : text => Forall digit x /\ x <> []) (map (print 10) l ++ [pad3 k])).
  { intros l k. apply Forall_app. split; [apply groups_ok|]. constructor; [|constructor]. split; [apply pad3_digits|apply pad3_nonempty]. }
  apply groups_apart in H; auto; try (intros X; apply app_eq_nil in X; now destruct X). destruct H as [H ->]. apply app_inj_tail in H. destruct H as [H1 H2]. apply map_print_inj in H1. apply pad3_inj in H2. auto.
Qed.
Lemma numbered_number pcs n n' r r' : stops r -> stops r' -> numbered pcs n r = numbered pcs n' r' -> n = n' /\ r = r'.
Proof.
  intros Hr Hr' H. unfold numbered in H. apply app_inv_head in H. apply app_inv_head in H. cbn in H. injection H as H. apply digits_apart in H; auto; try apply pad3_digits.
  destruct H as [H ->]. apply pad3_inj in H. auto.
Qed.
Definition rest_of (i : option text) (ext : text) : text := match i with Some i => 95%N :: i | None => [] end ++ ext.
Lemma rest_stops i ext : stops ext -> stops (rest_of i ext).
Proof. intros H. destruct i as [i|]; [|exact H]. apply stops_cons. unfold digit. lia. Qed.
Definition dotted (ext : text) : Prop := exists s, ext = 46%N :: s.
Lemma dotted_stops ext : dotted ext -> stops ext.
Proof. intros (s & ->). apply stops_cons. unfold digit. lia. Qed.
Lemma rest_ends i ext : dotted ext -> (forall t, i = Some t -> plain_info t) -> ends (rest_of i ext).
Proof.
  intros Hd Hi. split; [apply rest_stops; now apply dotted_stops|]. intros s Es. destruct i as [t|]; cbn in Es.
  - injection Es as <-. destruct (Hi t eq_refl) as [P _]. destruct t as [|c t]; [now apply dotted_stops|]. intros c' s' [= <- _]. now apply (P c t).
  - destruct Hd as (u & ->). discriminate.
Qed.
Lemma json_dotted : dotted (txt ".json"). Proof. now eexists. Qed.
Lemma txt_dotted : dotted (txt ".txt"). Proof. now eexists. Qed.
Lemma rev_ends (a b : text) x y c d : a ++ x ++ [c] = b ++ y ++ [d] -> c = d.
Proof. rewrite !app_assoc. intros H. apply app_inj_tail in H. tauto. Qed.
Lemma rest_ext i i' : rest_of i (txt ".json") = rest_of i' (txt ".txt") -> False.
Proof.
  unfold rest_of. intros H. assert (X : 110%N = 116%N); [|discriminate]. eapply (rev_ends _ _ (txt ".jso") (txt ".tx")). exact H.
Qed.
Lemma subs_ends : ends (txt "_substitutions.json").
Proof. split; [apply stops_cons; unfold digit; intros [H1 H2]; apply H2; reflexivity|]. intros s [= <-]. apply stops_cons. unfold digit. intros [H1 H2]. apply H2. reflexivity. Qed.
Lemma stem_json (s : text) : s <> [] -> file_stem (s ++ txt ".json") = s.
Proof.
  intros H. unfold file_stem. rewrite rev_app_distr. cbn. destruct (rev s) as [|c r] eqn:Er.
  - exfalso. apply H. rewrite <- (rev_involutive s), Er. reflexivity.
  - now rewrite <- Er, rev_involutive.
Qed.

(** ** Runs *)
Section Runs.
  Context {D : Type}.
  Notation op := (export D).
  Definition stub (pcs : list N) : text := txt "apc_candidate_" ++ join_with 95 (map (print 10) pcs).
  Definition at_ (pcs : list N) (l : level) (n : N) (subs : list text) : options := mkOptions (Some (stub pcs)) l n subs.
  (** What one export writes. *)
  Definition written (pcs : list N) (l : level) (n : N) (subs : list text) (e : op) : list (text * content D) :=
    match e with
    | EApc d i => [(name_of pcs n i (txt ".json"), Document d); (name_of pcs n i (txt ".txt"), Rendered d)]
    | EOuter d i => match l with OnlyApc => [] | _ => [(name_of pcs n (Some i) (txt ".json"), Document d)] end
    | EInner d i => match l with ApcAndSteps => [(name_of pcs n (Some i) (txt ".json"), Document d)] | _ => [] end
    | ERegister _ => []
    | ESubs => [(substitutions_name pcs, Plain ([91%N] ++ join_with 44 subs ++ [93%N]))]
    end.
  Fixpoint all_written (pcs : list N) (l : level) (n : N) (subs : list text) (es : list op) : list (text * content D) :=
    match es with [] => [] | e :: r => written pcs l n subs e ++ all_written pcs l (n + N.of_nat (List.length (asked l e))) (subs ++ registered e) r end.
  Lemma name_eq pcs n i : file_name (stub pcs) n i = name_of pcs n i (txt ".json").
  Proof. unfold file_name, stub, name_of. now rewrite <- app_assoc. Qed.
  Lemma stem_name pcs n i : file_stem (name_of pcs n i (txt ".json")) ++ txt ".txt" = name_of pcs n i (txt ".txt").
  Proof.
    unfold name_of. set (a := txt "apc_candidate_"). set (b := join_with 95 _). set (c := match i with Some i => _ | None => _ end).
    replace (a ++ b ++ [95%N] ++ pad3 n ++ c ++ txt ".json") with ((a ++ b ++ [95%N] ++ pad3 n ++ c) ++ txt ".json") by now rewrite <- !app_assoc.
    rewrite stem_json by discriminate. now rewrite <- !app_assoc.
  Qed.
  Lemma run_one pcs l n subs (e : op) : run_export (at_ pcs l n subs) e =
    Some (at_ pcs l (n + N.of_nat (List.length (asked l e))) (subs ++ registered e), written pcs l n subs e).
  Proof.
    assert (Z : (n + N.of_nat 0)%N = n) by apply N.add_0_r.
    destruct e as [d i|d i|d i|vars|]; unfold run_export, write_to_next_file, next_path, at_; cbn [ex_path ex_seq ex_level ex_subs asked registered written].
    - rewrite name_eq. cbn [app]. rewrite stem_name, app_nil_r. reflexivity.
    - rewrite name_eq. destruct l; cbn [List.length]; rewrite app_nil_r, ?Z; reflexivity.
    - rewrite name_eq. destruct l; cbn [List.length]; rewrite app_nil_r, ?Z; reflexivity.
    - cbn [List.length]. rewrite Z. reflexivity.
    - cbn [List.length]. rewrite app_nil_r, Z. unfold stub, substitutions_name. rewrite <- app_assoc. reflexivity.
  Qed.
  Lemma run_all pcs l (es : list op) : forall n subs, run_exports (at_ pcs l n subs) es =
    Some (at_ pcs l (n + N.of_nat (List.length (flat_map (asked l) es))) (subs ++ flat_map registered es), all_written pcs l n subs es).
  Proof.
    induction es as [|e es IH]; intros n subs; cbn [run_exports flat_map all_written].
    - cbn. now rewrite N.add_0_r, app_nil_r.
    - rewrite run_one, IH. rewrite app_length, Nnat.Nat2N.inj_add, N.add_assoc, app_assoc. reflexivity.
  Qed.
  Lemma named_app pcs (a b : list (D * option text)) : forall n, named pcs n (a ++ b) = named pcs n a ++ named pcs (n + N.of_nat (List.length a)) b.
  Proof.
    induction a as [|[d i] a IH]; intros n; cbn [named app List.length]; [now rewrite N.add_0_r|]. rewrite IH. f_equal. f_equal. f_equal. lia.
  Qed.
  Lemma written_documents pcs l (es : list op) : forall n subs, flat_map document_of (all_written pcs l n subs es) = named pcs n (flat_map (asked l) es).
  Proof.
    induction es as [|e es IH]; intros n subs; cbn [all_written flat_map]; [reflexivity|]. rewrite flat_map_app, IH, named_app. f_equal.
    destruct e as [d i|d i|d i|vars|], l; reflexivity.
  Qed.
  Lemma in_written pcs l (es : list op) : forall n subs w, In w (all_written pcs l n subs es) ->
    (exists k i ext, (n <= k)%N /\ fst w = name_of pcs k i ext /\ (ext = txt ".json" \/ ext = txt ".txt") /\ (forall t, i = Some t -> exists e, In e es /\ In t (info_of e))) \/
    (fst w = substitutions_name pcs /\ exists e, In e es /\ is_subs e = true).
  Proof.
    induction es as [|e es IH]; intros n subs w; cbn [all_written]; [intros []|]. rewrite in_app_iff. intros [H|H].
    - destruct e as [d i|d i|d i|vars|]; cbn [written] in H.
      + left. exists n, i. destruct H as [<- | [<- | []]]; eexists; (split; [lia|]); (split; [reflexivity|]); (split; [auto|]); intros t ->; exists (EApc d (Some t)); cbn; auto.
      + left. destruct l; [destruct H| |]; destruct H as [<- | []]; exists n, (Some i); eexists; (split; [lia|]); (split; [reflexivity|]); (split; [auto|]); intros t [= ->]; exists (EOuter d t); cbn; auto.
      + left. destruct l; [destruct H|destruct H|]. destruct H as [<- | []]. exists n, (Some i). eexists. split; [lia|]. split; [reflexivity|]. split; [auto|]. intros t [= ->]. exists (EInner d t). cbn. auto.
      + destruct H.
      + destruct H as [<- | []]. right. split; [reflexivity|]. exists ESubs. cbn. auto.
    - destruct (IH _ _ _ H) as [(k & i & ext & Hk & Hn & He & Hi)|(Hn & e' & He & Hs)].
      + left. exists k, i, ext. split; [lia|]. split; [exact Hn|]. split; [exact He|]. intros t Ht. destruct (Hi t Ht) as (e' & H1 & H2). exists e'. split; [now right|auto].
      + right. split; [exact Hn|]. exists e'. split; [now right|auto].
  Qed.
  Lemma ext_dotted ext : ext = txt ".json" \/ ext = txt ".txt" -> dotted ext.
  Proof. intros [-> | ->]; [apply json_dotted|apply txt_dotted]. Qed.
  Lemma name_numbered pcs n i ext : name_of pcs n i ext = numbered pcs n (rest_of i ext).
  Proof. reflexivity. Qed.
  Lemma subs_not_numbered pcs n r : stops r -> substitutions_name pcs <> numbered pcs n r.
  Proof.
    intros Hr H. unfold substitutions_name, numbered in H. apply app_inv_head in H. apply app_inv_head in H. apply (f_equal (@tl N)) in H. cbn [tl app txt] in H.
    pose proof (pad3_digits n) as Hd. pose proof (pad3_nonempty n). destruct (pad3 n) as [|c s]; [contradiction|]. apply (f_equal (hd 0%N)) in H. cbn in H. subst c. inversion Hd as [|a b X Y]; subst. unfold digit in X. lia.
  Qed.
  Lemma written_nodup pcs l (es : list op) : List.length (filter is_subs es) <= 1 -> forall n subs, NoDup (map fst (all_written pcs l n subs es)).
  Proof.
    induction es as [|e es IH]; intros Hs n subs; cbn [all_written]; [constructor|].
    assert (Hs' : List.length (filter is_subs es) <= 1) by (cbn in Hs; destruct (is_subs e); cbn in Hs; lia).
    specialize (IH Hs'). rewrite map_app.
    assert (New : forall k i ext subs', (n < k)%N -> ext = txt ".json" \/ ext = txt ".txt" -> ~ In (name_of pcs n i ext) (map fst (all_written pcs l k subs' es))).
    { intros k i ext subs' Hk He H. apply in_map_iff in H. destruct H as (w & Hw & H). apply in_written in H. destruct H as [(k' & i' & ext' & Hk' & Hn & He' & _)|(Hn & _)].
      - rewrite Hn in Hw. rewrite !name_numbered in Hw. apply numbered_number in Hw; [lia| |]; apply rest_stops, dotted_stops, ext_dotted; auto.
      - rewrite Hn in Hw. rewrite name_numbered in Hw. eapply subs_not_numbered; [|exact Hw]. apply rest_stops, dotted_stops, ext_dotted; auto. }
    destruct e as [d i|d i|d i|vars|]; cbn [written map app].
    - constructor.
      + cbn [In fst]. intros [H|H].
        * rewrite !name_numbered in H. apply numbered_number in H; [|apply rest_stops, dotted_stops, txt_dotted|apply rest_stops, dotted_stops, json_dotted]. destruct H as [_ H]. symmetry in H. now apply rest_ext in H.
        * revert H. apply New; auto. cbn. lia.
      + constructor; [|apply IH]. cbn [fst]. apply New; auto. cbn. lia.
    - destruct l; cbn [map app]; [apply IH| |]; constructor; try apply IH; cbn [fst]; apply New; auto; cbn; lia.
    - destruct l; cbn [map app]; [apply IH|apply IH|]; constructor; try apply IH; cbn [fst]; apply New; auto; cbn; lia.
    - apply IH.
    - constructor; [|apply IH]. cbn [fst]. intros H. apply in_map_iff in H. destruct H as (w & Hw & H). apply in_written in H. destruct H as [(k' & i' & ext' & Hk' & Hn & He' & _)|(Hn & e' & He' & He2)].
      + rewrite Hn, name_numbered in Hw. symmetry in Hw. eapply subs_not_numbered; [|exact Hw]. apply rest_stops, dotted_stops, ext_dotted; auto.
      + cbn in Hs. assert (X : In e' (filter is_subs es)) by (apply filter_In; auto). destruct (filter is_subs es); [destruct X|cbn in Hs; lia].
  Qed.
  Lemma written_rendered pcs l (es : list op) : forall n subs name d, In (name, Rendered d) (all_written pcs l n subs es) ->
    exists k i, name = name_of pcs k i (txt ".txt") /\ In (name_of pcs k i (txt ".json"), Document d) (all_written pcs l n subs es) /\ In (EApc d i) es.
  Proof.
    induction es as [|e es IH]; intros n subs name d; cbn [all_written]; [intros []|]. rewrite in_app_iff. intros [H|H].
    - destruct e as [d' i|d' i|d' i|vars|]; cbn [written] in H.
      + destruct H as [H|[H|[]]]; [discriminate|]. injection H as <- <-. exists n, i. split; [reflexivity|]. split; [now left|now left].
      + destruct l; cbn in H; intuition discriminate.
      + destruct l; cbn in H; intuition discriminate.
      + destruct H.
      + destruct H as [H|[]]. discriminate.
    - destruct (IH _ _ _ _ H) as (k & i & H1 & H2 & H3). exists k, i. split; [exact H1|]. split; [apply in_app_iff; now right|now right].
  Qed.
  Lemma written_plain pcs l (es : list op) : forall n subs name t, In (name, Plain t) (all_written pcs l n subs es) ->
    exists before after, es = before ++ ESubs :: after /\ name = substitutions_name pcs /\ t = [91%N] ++ join_with 44 (subs ++ flat_map registered before) ++ [93%N].
  Proof.
    induction es as [|e es IH]; intros n subs name t; cbn [all_written]; [intros []|]. rewrite in_app_iff. intros [H|H].
    - destruct e as [d' i|d' i|d' i|vars|]; cbn [written] in H.
      + destruct H as [H|[H|[]]]; discriminate.
      + destruct l; cbn in H; intuition discriminate.
      + destruct l; cbn in H; intuition discriminate.
      + destruct H.
      + destruct H as [H|[]]. injection H as <- <-. exists [], es. cbn [app flat_map]. rewrite app_nil_r. auto.
    - destruct (IH _ _ _ _ H) as (b & a & H1 & H2 & H3). exists (e :: b), a. split; [now rewrite H1|]. split; [exact H2|]. rewrite H3. cbn [flat_map]. now rewrite <- app_assoc.
  Qed.
  Lemma names_apart pcs pcs' (w w' : text * content D) l l' (es es' : list op) n n' subs subs' : pcs <> [] -> pcs' <> [] -> pcs <> pcs' ->
    (forall e t, In e (es ++ es') -> In t (info_of e) -> plain_info t) ->
    In w (all_written pcs l n subs es) -> In w' (all_written pcs' l' n' subs' es') -> fst w <> fst w'.
  Proof.
    intros Np Np' D0 Hi H H' Eq. apply in_written in H, H'.
    assert (SN : forall a b k i ext, a <> [] -> b <> [] -> ext = txt ".json" \/ ext = txt ".txt" -> (forall t, i = Some t -> plain_info t) -> substitutions_name a = name_of b k i ext -> False).
    { intros a b k i ext Na Nb He Hp Eq'. rewrite name_numbered, numbered_groups in Eq' by auto. unfold substitutions_name in Eq'. apply app_inv_head in Eq'.
      apply groups_apart in Eq'; [|destruct a; [contradiction|discriminate]| | | | |].
      - destruct Eq' as [_ Er]. destruct i as [t|]; unfold rest_of in Er.
        + change (txt "_substitutions.json") with (95%N :: txt "substitutions" ++ txt ".json") in Er. cbn [app] in Er. injection Er as Er.
          destruct He as [-> | ->].
          * change (txt "substitutions" ++ txt ".json" = t ++ txt ".json") in Er. apply app_inv_tail in Er. destruct (Hp t eq_refl) as [_ X]. now apply X.
          * assert (X : 110%N = 116%N); [|discriminate]. eapply (rev_ends (txt "substitutions") t (txt ".jso") (txt ".tx")). exact Er.
        + destruct He as [-> | ->]; discriminate.
      - intros X. apply app_eq_nil in X. now destruct X.
      - apply groups_ok.
      - apply Forall_app. split; [apply groups_ok|]. constructor; [|constructor]. split; [apply pad3_digits|apply pad3_nonempty].
      - apply subs_ends.
      - apply rest_ends; auto. now apply ext_dotted. }
    destruct H as [(k & i & ext & _ & Hn & He & Hx)|(Hn & _)], H' as [(k' & i' & ext' & _ & Hn' & He' & Hx')|(Hn' & _)]; rewrite Hn, Hn' in Eq.
    - rewrite !name_numbered in Eq. apply numbered_apart in Eq; auto.
      + tauto.
      + apply rest_ends; [now apply ext_dotted|]. intros t Ht. destruct (Hx t Ht) as (e & H1 & H2). eapply Hi; [apply in_app_iff; left|]; eauto.
      + apply rest_ends; [now apply ext_dotted|]. intros t Ht. destruct (Hx' t Ht) as (e & H1 & H2). eapply Hi; [apply in_app_iff; right|]; eauto.
    - symmetry in Eq. eapply SN in Eq; auto. intros t Ht. destruct (Hx t Ht) as (e & H1 & H2). eapply Hi; [apply in_app_iff; left|]; eauto.
    - eapply SN in Eq; auto. intros t Ht. destruct (Hx' t Ht) as (e & H1 & H2). eapply Hi; [apply in_app_iff; right|]; eauto.
    - unfold substitutions_name in Eq. apply app_inv_head in Eq. apply groups_apart in Eq; try apply groups_ok; try apply subs_ends; try (destruct pcs; [contradiction|discriminate]); try (destruct pcs'; [contradiction|discriminate]).
      destruct Eq as [Eq _]. apply map_print_inj in Eq. auto.
  Qed.
End Runs.
