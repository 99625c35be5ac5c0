(** C76: the names of functions and variables are those of the debugging information. *)
From Coq Require Import NArith ZArith Bool List Lia ZifyBool ZifyNat ZifyN.
From Verif Require Import DbgModel AttrModel AttrSpec.
Import ListNotations.
Local Open Scope N_scope.

Lemma at_eqb_eq a b : at_eqb a b = true <-> a = b.
Proof. destruct a, b; cbn [at_eqb]; try (split; congruence). rewrite N.eqb_eq. split; congruence. Qed.
Lemma find_attr_first d a v : find_attr (attrs d) a = Some v <-> first d a v.
Proof.
  unfold first. generalize (attrs d) as l. induction l as [|[b w] r IH]; cbn [find_attr].
  - split; [discriminate|]. intros (x & y & E & _). destruct x; discriminate.
  - destruct (at_eqb b a) eqn:E.
    + apply at_eqb_eq in E. subst b. split.
      * intros [= ->]. exists [], r. split; auto.
      * intros (x & y & E & Nx). destruct x as [|p x]; cbn [app] in E; [congruence|]. injection E as <- ->. destruct (Nx w). now left.
    + assert (b <> a) by (intros ->; rewrite (proj2 (at_eqb_eq a a) eq_refl) in E; discriminate). rewrite IH. split.
      * intros (x & y & -> & Nx). exists ((b, w) :: x), y. split; auto. intros z [Hz|Hz]; [congruence|exact (Nx z Hz)].
      * intros (x & y & Ex & Nx). destruct x as [|p x]; cbn [app] in Ex; [congruence|]. injection Ex as <- ->. exists x, y. split; auto. intros z Hz. apply (Nx z). now right.
Qed.
Lemma string_attr_none d a : string_attr (attrs d) a = None <-> not_a_string d a.
Proof.
  unfold string_attr, not_a_string. split.
  - destruct (find_attr (attrs d) a) as [v|] eqn:E; [|discriminate]. apply find_attr_first in E. destruct v; try discriminate; intros _; eexists; (split; [exact E|discriminate]).
  - intros (v & H & Nv). apply find_attr_first in H. rewrite H. destruct v; auto. destruct (Nv s eq_refl).
Qed.
Lemma string_attr_some d a n : string_attr (attrs d) a = Some (Some n) <-> first d a (VString n).
Proof.
  rewrite <- find_attr_first. unfold string_attr. destruct (find_attr (attrs d) a) as [[]|]; split; try discriminate; congruence.
Qed.
Lemma static_iff d x : die_tag d = TagVariable -> (get_static_var_address (attrs d) = Some x <-> variable_at d x).
Proof.
  intros T. unfold variable_at, get_static_var_address. split.
  - destruct (find_attr (attrs d) AtLocation) as [v|] eqn:E; [|discriminate]. destruct v as [| | |ops| | |]; try discriminate. destruct ops as [|[y|] [|? ?]]; try discriminate.
    intros [= <-]. split; auto. exists y. split; auto. now apply find_attr_first.
  - intros (_ & y & -> & H). apply find_attr_first in H. now rewrite H.
Qed.
Lemma starts_iff d x : In x (get_function_start (attrs d)) <-> exists y, x = y mod 2 ^ 32 /\ (first d AtLowPc (VAddress y) \/ exists rs z, first d AtRanges (VRanges rs) /\ In (y, z) rs).
Proof.
  unfold get_function_start. rewrite in_app_iff. split.
  - intros [H|H].
    + destruct (find_attr (attrs d) AtLowPc) as [v|] eqn:E; [|destruct H]. destruct v; try contradiction. destruct H as [<-|[]]. exists a. split; auto. left. now apply find_attr_first.
    + destruct (find_attr (attrs d) AtRanges) as [v|] eqn:E; [|destruct H]. destruct v as [| |rs| | | |]; try contradiction. apply in_map_iff in H. destruct H as ([y z] & <- & H). exists y. split; auto. right. exists rs, z. split; auto. now apply find_attr_first.
  - intros (y & -> & [H|(rs & z & H & I)]); apply find_attr_first in H; rewrite H; [left; now left|right; apply in_map_iff; now exists (y, z)].
Qed.

Section Facts.
  Context (is_data jump_target : N -> bool) (file_delta : N).
  Lemma read_dies_in l : forall es, read_dies is_data l = Some es -> forall delta e, In (delta, e) es <-> exists d, In (delta, d) l /\ read_die is_data d = Some e.
  Proof.
    induction l as [|[k d] r IH]; cbn [read_dies]; intros es E delta e.
    - injection E as <-. split; [intros []|intros (x & [] & _)].
    - destruct (read_die is_data d) as [e0|] eqn:R; [|discriminate]. destruct (read_dies is_data r) as [es0|]; [|discriminate]. injection E as <-. cbn [In]. rewrite (IH es0 eq_refl delta e). split.
      + intros [[= <- <-]|(x & H & H')]; [exists d; auto|exists x; auto].
      + intros (x & [[= <- <-]|H] & H'); [left; congruence|right; exists x; auto].
  Qed.
  Lemma read_entries_symbols es : forall stack st st', read_entries is_data jump_target file_delta stack es st = Some st' -> forall n a,
    In (n, a) (symbols st') <-> In (n, a) (symbols st) \/ exists delta e, In (delta, e) es /\
      ((exists starts, kind e = Subprogram (Some n) starts /\ In a starts /\ jump_target a = true) \/ (exists decl, kind e = Variable_ (Some a) (Some n) decl /\ is_data a = true)).
  Proof.
    induction es as [|[k e] r IH]; cbn [read_entries]; intros stack st st' E n a.
    - injection E as <-. split; auto. intros [H|(x & y & [] & _)]; auto.
    - destruct (push_name stack k (entry_name e)) as [stack'|]; [|discriminate]. rewrite (IH _ _ _ E n a). clear IH E.
      assert (G : In (n, a) (symbols (read_entry is_data jump_target file_delta stack' e st)) <-> In (n, a) (symbols st) \/
        ((exists starts, kind e = Subprogram (Some n) starts /\ In a starts /\ jump_target a = true) \/ (exists decl, kind e = Variable_ (Some a) (Some n) decl /\ is_data a = true))).
      { unfold read_entry. destruct (kind e) as [[m|] starts|[x|] [m|] decl|] eqn:K; cbn [symbols].
        - rewrite in_app_iff, in_map_iff. split.
          + intros [H|(y & [= <- <-] & H)]; auto. apply filter_In in H. destruct H. right. left. eauto.
          + intros [H|[(s & [= <- <-] & H & J)|(dc & [=] & _)]]; auto. right. exists a. split; auto. apply filter_In. auto.
        - split; auto. intros [H|[(s & [=] & _)|(dc & [=] & _)]]; auto.
        - destruct (is_data x) eqn:D; cbn [symbols].
          + rewrite in_app_iff. cbn [In]. split.
            * intros [H|[[= <- <-]|[]]]; auto. right. right. eauto.
            * intros [H|[(s & [=] & _)|(dc & [= <- <- <-] & J)]]; auto.
          + split; auto. intros [H|[(s & [=] & _)|(dc & [= <- <- <-] & J)]]; auto. congruence.
        - destruct (is_data x) eqn:D; cbn [symbols]; [rewrite app_nil_r|]; (split; auto; intros [H|[(s & [=] & _)|(dc & [=] & _)]]; auto).
        - split; auto. intros [H|[(s & [=] & _)|(dc & [=] & _)]]; auto.
        - split; auto. intros [H|[(s & [=] & _)|(dc & [=] & _)]]; auto.
        - split; auto. intros [H|[(s & [=] & _)|(dc & [=] & _)]]; auto. }
      rewrite G. cbn [In]. split.
      + intros [[H|H]|(x & y & H & H')]; auto; right; [exists k, e|exists x, y]; auto.
      + intros [H|(x & y & [[= <- <-]|H] & H')]; auto. right. exists x, y. auto.
  Qed.
  Lemma read_die_function d e n x : read_die is_data d = Some e ->
    ((exists starts, kind e = Subprogram (Some n) starts /\ In x starts) <-> function_at d n x).
  Proof.
    unfold read_die, function_at. destruct (string_attr (attrs d) AtName) as [nm|]; [|discriminate]. destruct (die_tag d) eqn:T.
    - destruct (string_attr (attrs d) AtLinkageName) as [[m|]|] eqn:L; try discriminate; intros [= <-]; cbn [kind].
      + apply string_attr_some in L. split.
        * intros (s & [= <- <-] & H). split; auto. split; auto. now apply starts_iff.
        * intros (_ & H & H'). exists (get_function_start (attrs d)). split; [|now apply starts_iff]. apply find_attr_first in H, L. congruence.
      + split; [intros (s & [=] & _)|]. intros (_ & H & _). apply string_attr_some in H. congruence.
    - intros E. split; [|intros ([=] & _)]. intros (s & K & _). destruct (get_static_var_address (attrs d)) as [y|]; [destruct (is_data y); [destruct (string_attr (attrs d) AtLinkageName); [|discriminate]|]|]; injection E as <-; discriminate K.
    - intros [= <-]. split; [intros (s & [=] & _)|intros ([=] & _)].
  Qed.
  Lemma read_die_variable d e n x : read_die is_data d = Some e ->
    ((exists decl, kind e = Variable_ (Some x) (Some n) decl /\ is_data x = true) <-> variable_at d x /\ first d AtLinkageName (VString n) /\ is_data x = true).
  Proof.
    unfold read_die. destruct (string_attr (attrs d) AtName) as [nm|]; [|discriminate]. destruct (die_tag d) eqn:T.
    - intros E. split; [|intros ((K & _) & _); congruence]. intros (s & K & _). destruct (string_attr (attrs d) AtLinkageName) as [[m|]|]; try discriminate; injection E as <-; discriminate K.
    - destruct (get_static_var_address (attrs d)) as [y|] eqn:A.
      + destruct (is_data y) eqn:D.
        * destruct (string_attr (attrs d) AtLinkageName) as [m|] eqn:L; [|discriminate]. intros [= <-]. cbn [kind]. split.
          -- intros (s & [= <- -> <-] & _). split; [now apply static_iff|]. split; auto. now apply string_attr_some.
          -- intros (V & H & _). apply static_iff in V; auto. apply string_attr_some in H. assert (x = y) by congruence. subst x. assert (m = Some n) by congruence. subst m. eauto.
        * intros [= <-]. split; [intros (s & [=] & _)|]. intros (V & _ & H). apply static_iff in V; auto. congruence.
      + intros [= <-]. split; [intros (s & [=] & _)|]. intros (V & _). apply static_iff in V; auto. congruence.
    - intros [= <-]. split; [intros (s & [=] & _)|intros ((K & _) & _); congruence].
  Qed.
  Lemma read_die_none d : read_die is_data d = None <-> unreadable is_data d.
  Proof.
    unfold read_die, unreadable. rewrite <- !string_attr_none. destruct (string_attr (attrs d) AtName) as [nm|]; [|split; auto].
    destruct (die_tag d) eqn:T.
    - destruct (string_attr (attrs d) AtLinkageName) as [[m|]|]; split; try discriminate; auto; intros [[=]|[[=] _]].
    - destruct (get_static_var_address (attrs d)) as [y|] eqn:A.
      + pose proof (proj1 (static_iff d y T) A) as V. destruct (is_data y) eqn:D.
        * destruct (string_attr (attrs d) AtLinkageName) as [m|]; split; try discriminate; [intros [[=]|[[=] _]]|intros _; right; split; auto; right; eauto|auto].
        * split; [discriminate|]. intros [[=]|[_ [[=]|(x & W & H)]]]. apply static_iff in W; auto. congruence.
      + split; [discriminate|]. intros [[=]|[_ [[=]|(x & W & H)]]]. apply static_iff in W; auto. congruence.
    - split; [discriminate|]. intros [[=]|[_ [[=]|(x & W & H)]]]. destruct W. congruence.
  Qed.
End Facts.

(** The symbols of a compilation unit are exactly the starts of its functions that are jump targets, with their linkage names, and its
    variables at fixed data addresses, with theirs. *)
Theorem C76_symbols : forall is_data jump_target file_delta l st st', read_unit is_data jump_target file_delta l st = Some st' ->
  forall n a, In (n, a) (symbols st') <->
    In (n, a) (symbols st) \/
    exists delta d, In (delta, d) l /\ (function_at d n a /\ jump_target a = true \/ variable_at d a /\ first d AtLinkageName (VString n) /\ is_data a = true).
Proof.
  intros isd jt fd l st st' E n a. unfold read_unit in E. destruct (read_dies isd l) as [es|] eqn:R; [|discriminate]. pose proof (read_dies_in isd l es R) as I.
  unfold read_unit_symbols in E. rewrite (read_entries_symbols isd jt fd es _ _ _ E n a). split; (intros [H|H]; [now left|right]).
  - destruct H as (delta & e & He & K). apply I in He. destruct He as (d & Hd & Re). exists delta, d. split; auto. destruct K as [(s & K1 & K2 & K3)|K].
    + left. split; auto. apply (read_die_function isd d e n a Re). eauto.
    + right. now apply (read_die_variable isd d e n a Re).
  - destruct H as (delta & d & Hd & K). destruct (read_die isd d) as [e|] eqn:Re.
    + exists delta, e. split; [apply I; eauto|]. destruct K as [[K J]|K].
      * left. apply (read_die_function isd d e n a Re) in K. destruct K as (s & K1 & K2). eauto.
      * right. now apply (read_die_variable isd d e n a Re).
    + exfalso. clear - R Hd Re. revert es R. induction l as [|[k x] r IH]; intros es R; [destruct Hd|]. cbn [read_dies] in R. destruct Hd as [[= -> ->]|Hd].
      * rewrite Re in R. discriminate.
      * destruct (read_die isd x); [|discriminate]. destruct (read_dies isd r) as [es'|]; [|discriminate]. eapply IH; eauto.
Qed.
Print Assumptions C76_symbols.

Lemma declared_iff fd d p : match declared (attrs d) with Some (f, l) => Some (f + fd, l) | None => None end = p <-> declared_at fd d p.
Proof.
  unfold declared, declared_at. destruct p as [[f l]|].
  - split.
    + destruct (find_attr (attrs d) AtDeclFile) as [[]|] eqn:A; try discriminate. destruct (find_attr (attrs d) AtDeclLine) as [[]|] eqn:B; try discriminate. intros [= <- <-]. apply find_attr_first in A, B. eauto.
    + intros (g & -> & A & B). apply find_attr_first in A, B. now rewrite A, B.
  - split.
    + intros E g l [A B]. apply find_attr_first in A, B. rewrite A, B in E. discriminate.
    + intros H. destruct (find_attr (attrs d) AtDeclFile) as [[]|] eqn:A; auto. destruct (find_attr (attrs d) AtDeclLine) as [[]|] eqn:B; auto. apply find_attr_first in A, B. destruct (H n n0); auto.
Qed.
(** Exactly the variables at fixed data addresses get notes, with the place of their declaration. *)
Theorem C76_notes : forall is_data jump_target file_delta l st st', read_unit is_data jump_target file_delta l st = Some st' ->
  forall a p, (exists t, In (a, (t, p)) (notes st')) <->
    (exists t, In (a, (t, p)) (notes st)) \/ exists delta d, In (delta, d) l /\ variable_at d a /\ is_data a = true /\ declared_at file_delta d p.
Proof.
  intros isd jt fd l st st' E a p. unfold read_unit, read_unit_symbols in E. generalize [@None text] E. clear E. intros stack.
  destruct (read_dies isd l) as [es|] eqn:R; [|discriminate]. revert es R stack st. induction l as [|[k d] r IH]; intros es R stack st E.
  - injection R as <-. injection E as <-. split; auto. intros [H|(x & y & [] & _)]; auto.
  - cbn [read_dies] in R. destruct (read_die isd d) as [e|] eqn:D; [|discriminate]. destruct (read_dies isd r) as [es'|]; [|discriminate]. injection R as <-. cbn [read_entries] in E.
    destruct (push_name stack k (entry_name e)) as [stack'|] eqn:P; [|discriminate]. rewrite (IH es' eq_refl _ _ E).
    assert (Ls : (0 <? length stack')%nat = true).
    { unfold push_name in P. destruct (1 <? k)%Z; [discriminate|]. destruct (k =? 1)%Z; injection P as <-; rewrite app_length; cbn [length]; apply Nat.ltb_lt; lia. }
    assert (G : (exists t, In (a, (t, p)) (notes (read_entry isd jt fd stack' e st))) <-> (exists t, In (a, (t, p)) (notes st)) \/ variable_at d a /\ isd a = true /\ declared_at fd d p).
    { unfold read_die in D. destruct (string_attr (attrs d) AtName) as [nm|]; [|discriminate]. destruct (die_tag d) eqn:T.
      - assert (Nv : ~ variable_at d a) by (intros [K _]; congruence). destruct (string_attr (attrs d) AtLinkageName) as [[m|]|]; try discriminate; injection D as <-; unfold read_entry; cbn [kind notes]; tauto.
      - destruct (get_static_var_address (attrs d)) as [y|] eqn:A.
        + destruct (isd y) eqn:Dy.
          * destruct (string_attr (attrs d) AtLinkageName) as [m|]; [|discriminate]. injection D as <-. unfold read_entry. cbn [kind]. rewrite Dy, Ls. cbn [notes app In]. rewrite <- (declared_iff fd d p), <- (static_iff d a T), A. split.
            -- intros (t & [[= <- _ <-]|H]); [right; auto|left; eauto].
            -- intros [(t & H)|([= <-] & _ & <-)]; [exists t; auto|]. eexists. left. reflexivity.
          * injection D as <-. unfold read_entry. cbn [kind]. rewrite <- (static_iff d a T), A. split; auto. intros [H|([= <-] & K & _)]; auto. congruence.
        + injection D as <-. unfold read_entry. cbn [kind]. rewrite <- (static_iff d a T), A. split; auto. intros [H|([=] & K & _)]; auto.
      - assert (Nv : ~ variable_at d a) by (intros [K _]; congruence). injection D as <-. unfold read_entry. cbn [kind]. tauto. }
    rewrite G. cbn [In]. split.
    + intros [[H|H]|(x & y & H & H')]; auto; right; [exists k, d|exists x, y]; auto.
    + intros [H|(x & y & [[= <- <-]|H] & H')]; auto. right. exists x, y. auto.
Qed.
Print Assumptions C76_notes.

(** Reading fails exactly if an entry is more than one level below the one before it, or a name that is needed is not a string. *)
Theorem C76_fails : forall is_data jump_target file_delta l st,
  read_unit is_data jump_target file_delta l st = None <-> exists delta d, In (delta, d) l /\ ((1 < delta)%Z \/ unreadable is_data d).
Proof.
  intros isd jt fd l st. unfold read_unit.
  assert (A : read_dies isd l = None <-> exists delta d, In (delta, d) l /\ unreadable isd d).
  { induction l as [|[k x] r IH]; cbn [read_dies]; [split; [discriminate|intros (? & ? & [] & _)]|]. destruct (read_die isd x) as [e|] eqn:Re.
    - destruct (read_dies isd r) as [es|].
      + split; [discriminate|]. intros (delta & d & [[= <- <-]|H] & U); [apply read_die_none in U; congruence|]. assert (Some es = None) by (apply IH; eauto). discriminate.
      + split; auto. intros _. destruct (proj1 IH eq_refl) as (delta & d & H & U). exists delta, d. split; auto. now right.
    - split; auto. intros _. exists k, x. split; [now left|]. now apply read_die_none. }
  destruct (read_dies isd l) as [es|] eqn:R.
  - assert (B : forall stack s, read_entries isd jt fd stack es s = None <-> exists delta e, In (delta, e) es /\ (1 < delta)%Z).
    { clear. induction es as [|[k e] r IH]; intros stack s; cbn [read_entries]; [split; [discriminate|intros (? & ? & [] & _)]|]. unfold push_name. destruct (Z.ltb_spec 1 k) as [L|L].
      - split; auto. intros _. exists k, e. split; auto. now left.
      - assert (G : forall s' s0, read_entries isd jt fd s' r s0 = None <-> exists delta e0, In (delta, e0) ((k, e) :: r) /\ (1 < delta)%Z).
        { intros s' s0. rewrite IH. split; [intros (delta & e0 & H & H'); exists delta, e0; split; auto; now right|]. intros (delta & e0 & [[= <- <-]|H] & H'); [lia|eauto]. }
        destruct (k =? 1)%Z; apply G. }
    unfold read_unit_symbols. rewrite B. pose proof (read_dies_in isd l es R) as I. split.
    + intros (delta & e & H & L). apply I in H. destruct H as (d & H & _). eauto.
    + intros (delta & d & H & [L|U]).
      * destruct (read_die isd d) as [e|] eqn:Re; [exists delta, e; split; auto; apply I; eauto|]. apply read_die_none in Re. assert (Some es = None) by (apply A; eauto). discriminate.
      * assert (Some es = None) by (apply A; eauto). discriminate.
  - split; auto. intros _. destruct (proj1 A eq_refl) as (delta & d & H & U). eauto.
Qed.
Print Assumptions C76_fails.

Lemma text_eqb_iff a b : text_eqb a b = true <-> a = b.
Proof.
  unfold text_eqb. revert b. induction a as [|x a IH]; intros [|y b]; cbn [text_compare]; try (split; congruence).
  destruct (N.compare_spec x y) as [->|L|L]; [rewrite IH; split; congruence| |]; split; try discriminate; intros [= -> _]; lia.
Qed.
(** The bytes of a section are those of the last header with its name, which have to be in the file; a section without a header is empty. *)
Theorem C76_sections : forall file hs n b, section_bytes file hs n = Some b <->
  (forall h, In h hs -> h_name h <> Some n) /\ b = [] \/
  exists before h after, hs = before ++ h :: after /\ h_name h = Some n /\ (forall x, In x after -> h_name x <> Some n) /\
    exists front back, file = front ++ b ++ back /\ N.of_nat (length front) = h_offset h /\ N.of_nat (length b) = h_size h.
Proof.
  intros file hs n b.
  assert (A : forall h, last_named n hs = Some h <-> exists before after, hs = before ++ h :: after /\ h_name h = Some n /\ forall x, In x after -> h_name x <> Some n).
  { induction hs as [|g r IH]; intros h; cbn [last_named].
    - split; [discriminate|]. intros (x & y & E & _). destruct x; discriminate.
    - destruct (last_named n r) as [z|] eqn:L.
      + rewrite (IH h). split.
        * intros (x & y & -> & H). exists (g :: x), y. auto.
        * intros (x & y & E & H & H'). destruct x as [|g' x]; cbn [app] in E; injection E as <- ->.
          -- destruct (proj1 (IH z) eq_refl) as (p & q & E & K & _). destruct (H' z); auto. rewrite E. apply in_or_app. right. now left.
          -- exists x, y. auto.
      + assert (Nr : forall x, In x r -> h_name x <> Some n).
        { intros x Hx Hn. clear - L Hx Hn. induction r as [|y r IH]; [destruct Hx|]. cbn [last_named] in L. destruct (last_named n r) eqn:L'; [discriminate|]. destruct Hx as [<-|Hx]; auto. rewrite Hn, (proj2 (text_eqb_iff n n) eq_refl) in L. discriminate. }
        assert (C : h_name g = Some n \/ h_name g <> Some n) by (destruct (h_name g) as [m|]; [|right; discriminate]; destruct (text_eqb m n) eqn:Q; [left; apply text_eqb_iff in Q; congruence|right; intros [= ->]; rewrite (proj2 (text_eqb_iff n n) eq_refl) in Q; discriminate]).
        destruct C as [C|C].
        * rewrite C, (proj2 (text_eqb_iff n n) eq_refl). split.
          -- intros [= <-]. exists [], r. auto.
          -- intros (x & y & E & H & H'). destruct x as [|g' x]; cbn [app] in E; injection E as <- ->; auto. destruct (Nr h); auto. apply in_or_app. right. now left.
        * assert (Q : match h_name g with Some m => if text_eqb m n then Some g else None | None => None end = None) by (destruct (h_name g) as [m|]; auto; destruct (text_eqb m n) eqn:Q; auto; apply text_eqb_iff in Q; congruence).
          rewrite Q. split; [discriminate|]. intros (x & y & E & H & H'). destruct x as [|g' x]; cbn [app] in E; injection E as <- ->; [congruence|]. destruct (Nr h); auto. apply in_or_app. right. now left. }
  assert (B : last_named n hs = None <-> forall h, In h hs -> h_name h <> Some n).
  { split.
    - intros L h Hh Hn. clear A. induction hs as [|y r IH]; [destruct Hh|]. cbn [last_named] in L. destruct (last_named n r) eqn:L'; [discriminate|]. destruct Hh as [<-|Hx]; auto. rewrite Hn, (proj2 (text_eqb_iff n n) eq_refl) in L. discriminate.
    - intros H. destruct (last_named n hs) as [h|] eqn:L; auto. destruct (proj1 (A h) eq_refl) as (x & y & E & K & _). destruct (H h); auto. rewrite E. apply in_or_app. right. now left. }
  unfold section_bytes. destruct (last_named n hs) as [h|] eqn:L.
  - destruct (proj1 (A h) eq_refl) as (x & y & E & K & K').
    assert (G : (if h_offset h + h_size h <=? N.of_nat (length file) then Some (firstn (N.to_nat (h_size h)) (skipn (N.to_nat (h_offset h)) file)) else None) = Some b <->
                exists front back, file = front ++ b ++ back /\ N.of_nat (length front) = h_offset h /\ N.of_nat (length b) = h_size h).
    { split.
      - destruct (N.leb_spec (h_offset h + h_size h) (N.of_nat (length file))) as [Le|Le]; [|discriminate]. intros [= <-]. exists (firstn (N.to_nat (h_offset h)) file), (skipn (N.to_nat (h_size h)) (skipn (N.to_nat (h_offset h)) file)).
        rewrite firstn_skipn, firstn_skipn. split; auto. rewrite !firstn_length, skipn_length. split; lia.
      - intros (f & g & -> & F1 & F2). rewrite !app_length. destruct (N.leb_spec (h_offset h + h_size h) (N.of_nat (length f + (length b + length g)))) as [Le|Le]; [|lia].
        replace (N.to_nat (h_offset h)) with (length f) by lia. replace (N.to_nat (h_size h)) with (length b) by lia. rewrite skipn_app, skipn_all, Nat.sub_diag. cbn [skipn app]. rewrite firstn_app, firstn_all, Nat.sub_diag. cbn [firstn]. now rewrite app_nil_r. }
    rewrite G. split.
    + intros H. right. exists x, h, y. auto.
    + intros [[H _]|(x' & h' & y' & E' & H1 & H2 & H3)].
      * destruct (H h); auto. rewrite E. apply in_or_app. right. now left.
      * assert (Q : Some h = Some h') by (apply A; exists x', y'; auto). injection Q as <-. exact H3.
  - split.
    + intros [= <-]. left. split; auto. now apply B.
    + intros [[_ ->]|(x' & h' & y' & E' & H1 & H2 & _)]; auto. assert (None = Some h') by (apply A; exists x', y'; auto). discriminate.
Qed.
Print Assumptions C76_sections.

(** Missing debug information is reported exactly if no section has a name. *)
Theorem C76_missing : forall hs, no_debug_info hs = true <-> forall h, In h hs -> h_name h = None.
Proof.
  intros hs. unfold no_debug_info. rewrite forallb_forall. split; intros H h Hh; specialize (H h Hh); destruct (h_name h); congruence || reflexivity || discriminate.
Qed.
Print Assumptions C76_missing.
(** So it is not reported for a file that has sections, but none with debug information; the symbols are then those of the file alone. *)
Theorem C76_missing_refuted : exists file hs, no_debug_info hs = false /\ (forall h, In h hs -> exists r, h_name h = Some (46 :: 116 :: r)) /\
  section_bytes file hs [46; 100; 101; 98; 117; 103; 95; 105; 110; 102; 111] = Some [].
Proof. exists [1; 2; 3; 4], [mkHeader (Some [46; 116; 101; 120; 116]) 0 4]. split; [reflexivity|]. split; [intros h [<-|[]]; now eexists|reflexivity]. Qed.
Print Assumptions C76_missing_refuted.

(** A case: a function with a start and two ranges, one of them not a jump target; a variable at a fixed address, and one that is not. *)
Definition sample : list (Z * die) :=
  [(0%Z, mkDie TagOther [(AtName, VString [109])]);
   (1%Z, mkDie TagSubprogram [(AtLowPc, VAddress (2 ^ 32 + 16)); (AtLinkageName, VString [102]); (AtRanges, VRanges [(32, 40); (64, 80)])]);
   (0%Z, mkDie TagVariable [(AtName, VString [118]); (AtLinkageName, VString [119]); (AtLocation, VExprloc [OpAddress 128]); (AtDeclFile, VFileIndex 2); (AtDeclLine, VUdata 9)]);
   (0%Z, mkDie TagVariable [(AtLinkageName, VString [120]); (AtLocation, VExprloc [OpAddress 132; OpOther])])].
Example C76_example :
  read_unit (fun a => 100 <=? a) (fun a => a <? 50) 5 sample (mkUnit [] []) = Some (mkUnit [([102], 16); ([102], 32); ([119], 128)] [(128, ([109; 58; 58; 118], Some (7, 9)))]) /\
  read_unit (fun a => 100 <=? a) (fun a => a <? 50) 5 ((0%Z, mkDie TagOther [(AtName, VUdata 3)]) :: sample) (mkUnit [] []) = None /\
  section_bytes [1; 2; 3; 4] [mkHeader (Some [46; 97]) 0 4; mkHeader None 0 1; mkHeader (Some [46; 97]) 1 2] [46; 97] = Some [2; 3].
Proof. repeat split. Qed.
