(** Facts about building precompiles: rows of instructions side by side. *)
From Coq Require Import Arith NArith ZArith Znumtheory Bool List Lia ZifyBool ZifyN ZifyNat.
From Verif Require Import Field ExprModel SystemModel Spec OvmModel OvmSpec PassSpec MemModel MemSpec LowOvm SymModel SymSpec SymFacts PipeModel PipeSpec PipeMachineSpec BlocksModel BuildModel BuildSpec.
Import ListNotations.
Local Open Scope nat_scope.

Section Ext.
  Context {p : positive}.
  Lemma width_unique (sm : smach p) w w' : has_width sm w -> has_width sm w' -> w = w'.
  Proof.
    intros [H1 H2] [H3 H4]. assert (L : forall a b, (forall v, column_of sm v <-> exists n, v = Orig n /\ (n < N.of_nat a)%N) -> (forall v, column_of sm v <-> exists n, v = Orig n /\ (n < N.of_nat b)%N) -> 0 < a -> a <= b).
    { intros a b Ha Hb Pa. assert (C : column_of sm (Orig (N.of_nat (a - 1)))) by (apply Ha; exists (N.of_nat (a - 1)); split; auto; lia). apply Hb in C. destruct C as (n & [= E] & C). lia. }
    pose proof (L w w' H2 H4 H1). pose proof (L w' w H4 H2 H3). lia.
  Qed.
  Lemma message_ext (b : sbus p) s t : (forall v, occurs v (sb_mult b) \/ Exists (occurs v) (sb_args b) -> s v = t v) -> message s b = message t b.
  Proof.
    intros H. unfold message. f_equal; [f_equal; apply aeval_ext; intros v Hv; apply H; auto|]. apply map_ext_in. intros e He. apply aeval_ext. intros v Hv. apply H. right. apply Exists_exists. eauto.
  Qed.
  Lemma messages_ext (sm : smach p) s t : (forall v, column_of sm v -> s v = t v) -> messages sm s = messages sm t.
  Proof. intros H. unfold messages. apply map_ext_in. intros b Hb. apply message_ext. intros v Hv. apply H. right. apply Exists_exists. eauto. Qed.
  Lemma accepts_ext (sm : smach p) s t : (forall v, column_of sm v -> s v = t v) -> SymSpec.accepts sm s -> SymSpec.accepts sm t.
  Proof.
    intros H A. unfold SymSpec.accepts in *. rewrite Forall_forall in *. intros e He. rewrite <- (A e He). symmetry. apply aeval_ext. intros v Hv. apply H. left. apply Exists_exists. eauto.
  Qed.
  Lemma instruction_ext pc_bus exec_bus (i : smach p * list (F p)) s t : (forall v, column_of (fst i) v -> s v = t v) -> accepts_instruction pc_bus exec_bus i s -> accepts_instruction pc_bus exec_bus i t.
  Proof.
    intros H (A & B & C). assert (M : forall bus b, In b (on_bus bus (fst i)) -> message s b = message t b).
    { intros bus b Hb. apply filter_In in Hb. apply message_ext. intros v Hv. apply H. right. apply Exists_exists. exists b. split; auto. apply Hb. }
    split; [eapply accepts_ext; eauto|]. split.
    - intros rc sd E. rewrite <- (B rc sd E). assert (X : message s rc = message t rc) by (apply (M exec_bus); rewrite E; now left). unfold message in X. now injection X.
    - intros lk E. rewrite <- (C lk E). assert (X : message s lk = message t lk) by (apply (M pc_bus); rewrite E; now left). unfold message in X. now injection X.
  Qed.
  Lemma method_ext (a : amethod p) s t : (forall v, in_method v a -> s v = t v) -> amethod_value s a = amethod_value t a.
  Proof. destruct a as [k|x y]; cbn [in_method amethod_value]; auto. intros H. rewrite (aeval_ext s t x), (aeval_ext s t y); auto. Qed.
End Ext.

Section Rows.
  Context {p : positive} (pc_bus exec_bus : N).
  Local Notation circuit := (smach p * list (F p))%type.
  Local Notation row := (var -> F p).
  (** Rows side by side, from column [o] on. *)
  Inductive matches : N -> list circuit -> list row -> row -> Prop :=
  | m_nil o s : matches o [] [] s
  | m_cons o w i is r rows s : has_width (fst i) w -> (forall j, j < w -> s (Orig (o + N.of_nat j)%N) = r (Orig (N.of_nat j))) ->
      matches (o + N.of_nat w)%N is rows s -> matches o (i :: is) (r :: rows) s.
  Lemma matches_from o is widths rows (s : row) : Forall2 (fun (i : circuit) w => has_width (fst i) w) is widths -> length rows = length is ->
    (forall k w r j, nth_error widths k = Some w -> nth_error rows k = Some r -> j < w -> s (Orig (o + N.of_nat (list_sum (firstn k widths) + j))%N) = r (Orig (N.of_nat j))) -> matches o is rows s.
  Proof.
    intros H. revert o rows. induction H as [|i w is widths Hi H IH]; intros o [|r rows] L; try discriminate; intros E; [constructor|]. apply (m_cons o w); auto.
    - intros j Hj. specialize (E 0 w r j eq_refl eq_refl Hj). cbn [firstn list_sum fold_right] in E. exact E.
    - apply IH; [now injection L|]. intros k w' r' j Hw Hr Hj. specialize (E (S k) w' r' j Hw Hr Hj). cbn [firstn] in E. rewrite <- E. f_equal. f_equal. unfold list_sum. cbn [fold_right]. lia.
  Qed.
  Lemma matches_side is rows (s : row) : side_by_side is rows s -> matches 0 is rows s.
  Proof. intros (widths & H & L & E). apply (matches_from 0 is widths rows s H L). intros k w r j Hw Hr Hj. cbn [N.add]. now apply (E k w r j). Qed.
  Lemma side_matches is rows (s : row) : matches 0 is rows s -> side_by_side is rows s.
  Proof.
    assert (G : forall o is rows, matches o is rows s -> exists widths, Forall2 (fun (i : circuit) w => has_width (fst i) w) is widths /\ length rows = length is /\
      forall k w r j, nth_error widths k = Some w -> nth_error rows k = Some r -> j < w -> s (Orig (o + N.of_nat (list_sum (firstn k widths) + j))%N) = r (Orig (N.of_nat j))).
    { clear. intros o is rows H. induction H as [o s|o w i is r rows s Hw Hr H IH]; [exists []; repeat split; auto; intros [|]; discriminate|]. destruct IH as (ws & A & B & C). exists (w :: ws). split; [now constructor|]. split; [cbn; now rewrite B|].
      intros [|k] w' r' j; cbn [nth_error firstn]; [intros [= <-] [= <-] Hj; cbn [list_sum fold_right]; now apply Hr|]. intros E1 E2 Hj. rewrite <- (C k w' r' j E1 E2 Hj). f_equal. f_equal. unfold list_sum. cbn [fold_right]. lia. }
    intros H. destruct (G 0%N is rows H) as (ws & A & B & C). exists ws. split; [exact A|]. split; [exact B|]. intros k w r j E1 E2 Hj. specialize (C k w r j E1 E2 Hj). cbn [N.add] in C. exact C.
  Qed.
  Section Laid.
    Context {o n : N} {is : list circuit} {ms : list (smach p)} {ss : list (list N)}.
    Lemma laid_le o' (is' : list circuit) ms' ss' n' : laid_out pc_bus exec_bus o' is' ms' ss' n' -> (o' <= n')%N.
    Proof. induction 1; lia. Qed.
    (** Any row splits into rows of the instructions. *)
    Lemma laid_split : laid_out pc_bus exec_bus o is ms ss n -> forall s, exists rows, matches o is rows s.
    Proof.
      induction 1 as [n|o w m r is m2 ms ss n Hw Hf Ha Hm Hc Hd H IH]; intros s; [exists []; constructor|]. destruct (IH s) as [rows R]. exists (columns_from o s :: rows). apply (m_cons o w); auto. intros j Hj. cbn [columns_from]. f_equal. f_equal. lia.
    Qed.
    Lemma part_agrees o' w (i : circuit) r (s : row) : has_width (fst i) w -> (forall j, j < w -> s (Orig (o' + N.of_nat j)%N) = r (Orig (N.of_nat j))) -> forall v, column_of (fst i) v -> columns_from o' s v = r v.
    Proof. intros [_ Hw] Hr v Hv. apply Hw in Hv. destruct Hv as (k & -> & Hk). cbn [columns_from]. specialize (Hr (N.to_nat k) ltac:(lia)). rewrite N2Nat.id in Hr. rewrite <- Hr. f_equal. f_equal. lia. Qed.
    Lemma laid_accepts : laid_out pc_bus exec_bus o is ms ss n -> forall rows s, matches o is rows s ->
      (Forall (fun m => SymSpec.accepts m s) ms <-> Forall2 (accepts_instruction pc_bus exec_bus) is rows) /\ flat_map (fun m => machine_values m s) ms = block_values is rows.
    Proof.
      induction 1 as [n|o w m r is m2 ms ss n Hw Hf Ha Hm Hc Hd H IH]; intros rows s M; inversion M as [|? w' ? ? r' rows' ? Hw' Hr M']; subst; [split; [split; constructor|reflexivity]|].
      assert (w' = w) by (eapply width_unique; eauto). subst w'. pose proof (part_agrees o w (m, r) r' s Hw Hr) as Ag. destruct (IH rows' s M') as [I1 I2]. split.
      - split; intros X; [inversion X as [|? ? X1 X2]|inversion X as [|? ? ? ? X1 X2]]; subst.
        + constructor; [|now apply I1]. apply Ha in X1. eapply instruction_ext; [|exact X1]. exact Ag.
        + constructor; [|now apply I1]. apply Ha. apply (instruction_ext _ _ _ r' (columns_from o s)); auto. intros v Hv. symmetry. now apply Ag.
      - unfold block_values. cbn [flat_map combine fst snd]. f_equal; [|exact I2]. unfold machine_values. rewrite Hm. f_equal. apply messages_ext. exact Ag.
    Qed.
    Lemma laid_columns : laid_out pc_bus exec_bus o is ms ss n -> forall m v, In m ms -> column_of m v -> exists k, v = Orig k /\ (k < n)%N.
    Proof.
      induction 1 as [n|o w m r is m2 ms ss n Hw Hf Ha Hm Hc Hd H IH]; intros q v Hq Hv; [destruct Hq|]. destruct Hq as [<-|Hq]; [|now apply (IH q)]. apply Hc in Hv. destruct Hv as (k & -> & Hk). exists k. split; auto. apply laid_le in H. lia.
    Qed.
    Lemma laid_width : laid_out pc_bus exec_bus o is ms ss n -> exists widths, Forall2 (fun (i : circuit) w => has_width (fst i) w) is widths /\ n = (o + N.of_nat (list_sum widths))%N.
    Proof.
      induction 1 as [n|o w m r is m2 ms ss n Hw Hf Ha Hm Hc Hd H IH]; [exists []; split; [constructor|cbn; lia]|]. destruct IH as (ws & A & ->). exists (w :: ws). split; [now constructor|]. unfold list_sum. cbn [fold_right]. lia.
    Qed.
    Lemma laid_derived : laid_out pc_bus exec_bus o is ms ss n -> Forall plain is -> Forall (fun m => sm_derived m = []) ms.
    Proof. induction 1 as [n|o w m r is m2 ms ss n Hw Hf Ha Hm Hc Hd H IH]; intros P; [constructor|]. inversion_clear P as [|? ? [_ P1] P2]. constructor; auto. now rewrite Hd. Qed.
    Lemma laid_subs : laid_out pc_bus exec_bus o is ms ss n -> forall rows s k subs r j id, matches o is rows s -> nth_error ss k = Some subs -> nth_error rows k = Some r -> nth_error subs j = Some id ->
      s (Orig id) = r (Orig (N.of_nat j)) /\ (id < n)%N.
    Proof.
      induction 1 as [n|o w m r is m2 ms ss n Hw Hf Ha Hm Hc Hd H IH]; intros rows s k subs r0 j id M Es Er Ej; [destruct k; discriminate|]. inversion M as [|? w' ? ? r' rows' ? Hw' Hr M']; subst. assert (w' = w) by (eapply width_unique; eauto). subst w'.
      destruct k as [|k]; cbn [nth_error] in Es, Er; [|now apply (IH rows' s k subs r0 j id)]. injection Es as <-. injection Er as <-. unfold nseq in Ej. rewrite nth_error_map in Ej. destruct (nth_error (seq 0 w) j) as [x|] eqn:Ex; [|discriminate]. cbn in Ej. injection Ej as <-.
      assert (Lj : j < w). { assert (Ex' : nth_error (seq 0 w) j <> None) by congruence. apply nth_error_Some in Ex'. rewrite seq_length in Ex'. exact Ex'. }
      assert (x = j). { apply (nth_error_nth _ _ 0) in Ex. rewrite seq_nth in Ex by auto. lia. } subst x. split; [now apply Hr|]. apply laid_le in H. lia.
    Qed.
    (** The two interactions of each machine on the execution bus. *)
    Definition pair_of (m : smach p) (rs : sbus p * sbus p) : Prop := on_bus exec_bus m = [fst rs; snd rs].
    Lemma on_bus_messages (q : smach p) (s : row) : map (message s) (on_bus exec_bus q) = filter (fun g => (fst (fst g) =? exec_bus)%N) (messages q s).
    Proof. unfold on_bus, messages. induction (sm_buses q) as [|b l IH]; auto. cbn [map filter]. cbn [message fst]. destruct (sb_id b =? exec_bus)%N; cbn [map]; now rewrite IH. Qed.
    Lemma laid_pairs : laid_out pc_bus exec_bus o is ms ss n -> exists prs, Forall2 pair_of ms prs.
    Proof.
      induction 1 as [n|o w m r is m2 ms ss n Hw Hf Ha Hm Hc Hd H IH]; [exists []; constructor|]. destruct IH as [prs R]. destruct Hf as (_ & _ & rc & sd & E). cbn [fst] in E.
      pose proof (on_bus_messages m2 (fun _ => 0%F)) as X. rewrite Hm, <- on_bus_messages, E in X. destruct (on_bus exec_bus m2) as [|a [|b [|]]] eqn:E2; try discriminate. exists ((a, b) :: prs). constructor; auto.
    Qed.
    Lemma laid_handshake : laid_out pc_bus exec_bus o is ms ss n -> forall prs, Forall2 pair_of ms prs -> forall rows s, matches o is rows s ->
      Forall2 (fun ir rs => handshake exec_bus (fst ir) (snd ir) = [message s (fst rs); message s (snd rs)]) (combine is rows) prs.
    Proof.
      induction 1 as [n|o w m r is m2 ms ss n Hw Hf Ha Hm Hc Hd H IH]; intros prs P rows s M; inversion M as [|? w' ? ? r' rows' ? Hw' Hr M']; subst; inversion P as [|? rs ? prs' P1 P2]; subst; [constructor|].
      assert (w' = w) by (eapply width_unique; eauto). subst w'. cbn [combine]. constructor; [|now apply IH]. cbn [fst snd]. unfold handshake. cbn [fst]. rewrite <- (messages_ext m (columns_from o s) r'), <- Hm, <- on_bus_messages by exact (part_agrees o w (m, r) r' s Hw Hr). unfold pair_of in P1. rewrite P1. reflexivity.
    Qed.
  End Laid.
  (** Successive pairs. *)
  Lemma handovers_nth (P : sbus p * sbus p -> Prop) rest : forall r s, Forall P (handovers s rest) <->
    forall k r1 s1 r2 s2, nth_error ((r, s) :: rest) k = Some (r1, s1) -> nth_error ((r, s) :: rest) (k + 1) = Some (r2, s2) -> P (s1, r2).
  Proof.
    induction rest as [|[r' s'] rest IH]; intros r s; cbn [handovers].
    - split; [|constructor]. intros _ [|[|k]] r1 s1 r2 s2; discriminate.
    - split.
      + intros H. inversion_clear H as [|? ? H1 H2]. intros [|k] r1 s1 r2 s2; [cbn; intros [= <- <-] [= <- <-]; exact H1|]. cbn [nth_error Nat.add]. now apply (proj1 (IH r' s') H2).
      + intros H. constructor; [now apply (H 0 r s r' s')|]. apply (IH r' s'). intros k r1 s1 r2 s2 E1 E2. now apply (H (S k) r1 s1 r2 s2).
  Qed.
  Lemma concat_on_bus (ms : list (smach p)) m prs : Forall2 pair_of (m :: ms) prs -> exists r s rest, prs = (r, s) :: rest /\ on_bus exec_bus (fold_left sm_concat ms m) = r :: s :: receives_and_sends rest.
  Proof.
    intros H. inversion H as [|? [r s] ? rest H1 H2]; subst. exists r, s, rest. split; auto.
    assert (G : forall ms rest, Forall2 pair_of ms rest -> forall m, on_bus exec_bus (fold_left sm_concat ms m) = on_bus exec_bus m ++ receives_and_sends rest).
    { clear. induction 1 as [|m [r s] ms rest H1 H2 IH]; intros m0; cbn [fold_left receives_and_sends flat_map]; [now rewrite app_nil_r|]. rewrite IH. unfold on_bus at 1. cbn [sm_concat sm_buses]. rewrite filter_app. fold (on_bus exec_bus m0) (on_bus exec_bus m). unfold pair_of in H1. rewrite H1. cbn [fst snd]. now rewrite <- app_assoc. }
    rewrite (G ms rest H2 m). unfold pair_of in H1. now rewrite H1.
  Qed.
  Lemma concat_derived (ms : list (smach p)) m : Forall (fun m => sm_derived m = []) (m :: ms) -> sm_derived (fold_left sm_concat ms m) = [].
  Proof. revert m. induction ms as [|a ms IH]; intros m H; inversion_clear H as [|? ? H1 H2]; auto. cbn [fold_left]. apply IH. inversion_clear H2 as [|? ? H3 H4]. constructor; auto. cbn [sm_concat sm_derived]. now rewrite H1, H3. Qed.
  Lemma concat_columns (ms : list (smach p)) m v : column_of (fold_left sm_concat ms m) v -> exists q, In q (m :: ms) /\ column_of q v.
  Proof.
    revert m. induction ms as [|a ms IH]; intros m H; cbn [fold_left] in H; [exists m; split; auto; now left|]. destruct (IH _ H) as (q & [<-|I] & C); [|exists q; cbn; auto]. unfold column_of in C. cbn [sm_concat sm_cons sm_buses] in C. rewrite !Exists_app in C.
    destruct C as [[C|C]|[C|C]]; [exists m|exists a|exists m|exists a]; (split; [cbn; auto|]); unfold column_of; auto.
  Qed.
  Lemma combine_nth {A B} (l : list A) (l' : list B) k a b : nth_error (combine l l') k = Some (a, b) <-> nth_error l k = Some a /\ nth_error l' k = Some b.
  Proof.
    revert l' k. induction l as [|x l IH]; intros [|y l'] [|k]; cbn [combine nth_error]; try (split; [discriminate|intros []; discriminate]); [|apply IH]. split; [intros [= <- <-]; auto|intros [[= <-] [= <-]]; auto].
  Qed.
  Lemma Forall2_nth {A B} (R : A -> B -> Prop) l l' k b : Forall2 R l l' -> nth_error l' k = Some b -> exists a, nth_error l k = Some a /\ R a b.
  Proof. intros H. revert k. induction H as [|x y l l' H1 H2 IH]; intros [|k]; cbn [nth_error]; try discriminate; [intros [= <-]; eauto|apply IH]. Qed.
  Lemma Forall2_nth_l {A B} (R : A -> B -> Prop) l l' k a : Forall2 R l l' -> nth_error l k = Some a -> exists b, nth_error l' k = Some b /\ R a b.
  Proof. intros H. revert k. induction H as [|x y l l' H1 H2 IH]; intros [|k]; cbn [nth_error]; try discriminate; [intros [= <-]; eauto|apply IH]. Qed.
End Rows.
