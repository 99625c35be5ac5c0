(** Proofs about the cache of artifacts. *)
From Coq Require Import Arith NArith Bool List Ascii String Lia.
From Verif Require Import NumModel NumFacts JsonModel ExportModel ExportSpec ExportFacts CacheModel CacheSpec.
Import ListNotations.
Local Open Scope list_scope.

(** ** Texts *)
Definition apart {A} (show : A -> text) : Prop := forall a b r s, stops r -> stops s -> show a ++ r = show b ++ s -> a = b /\ r = s.
Lemma number_apart : apart show_number.
Proof. intros a b r s Hr Hs H. apply digits_apart in H; auto using print_digits. destruct H as [H ->]. split; auto. now apply print_inj. Qed.
Lemma bool_apart : apart show_bool.
Proof. intros [|] [|] r s _ _ H; cbn in H; try discriminate; injection H as ->; auto. Qed.
Lemma pgo_apart : apart show_pgo.
Proof. intros [| |] [| |] r s _ _ H; cbn in H; try discriminate; injection H as ->; auto. Qed.
Lemma stops_paren s : stops (txt ")" ++ s).
Proof. apply stops_cons. unfold digit. intros [X Y]. now apply X. Qed.
Lemma option_apart {A} (show : A -> text) : apart show -> apart (show_option show).
Proof.
  intros Ha [a|] [b|] r s _ _ H; unfold show_option in H.
  - rewrite <- !app_assoc in H. apply app_inv_head in H. apply Ha in H; try apply stops_paren. destruct H as [-> H]. apply app_inv_head in H. auto.
  - discriminate.
  - discriminate.
  - apply app_inv_head in H. auto.
Qed.
Section Escape.
  Variable escape : N -> text.
  Hypothesis Hesc : escaping_ok escape.
  Lemma chars_apart a : forall b r s, flat_map escape a ++ 34%N :: r = flat_map escape b ++ 34%N :: s -> a = b /\ r = s.
  Proof.
    destruct Hesc as [H1 H2]. induction a as [|c a IH]; intros [|d b] r s H; cbn [flat_map app] in H.
    - injection H as ->. auto.
    - rewrite <- app_assoc in H. symmetry in H. now apply H2 in H.
    - rewrite <- app_assoc in H. now apply H2 in H.
    - rewrite <- !app_assoc in H. apply H1 in H. destruct H as [-> H]. apply IH in H. destruct H as [-> ->]. auto.
  Qed.
  Lemma text_apart : apart (show_text escape).
  Proof. intros a b r s _ _ H. unfold show_text in H. rewrite <- !app_comm_cons, <- !app_assoc in H. apply (f_equal (@tl N)) in H. cbn [tl] in H. now apply chars_apart in H. Qed.
  Ltac stop := apply stops_cons; unfold digit; intros [X Y]; try apply X; try apply Y; try reflexivity.
  Ltac next L := let H := match goal with H : _ = _ |- _ => H end in
    apply app_inv_head in H; apply L in H; [destruct H as [? H]|try stop|try stop].
  Lemma profile_apart : apart (show_profile escape).
  Proof.
    intros [a1 a2] [b1 b2] r s Hr Hs H. unfold show_profile in H. cbn [guest profile_input] in H. rewrite <- !app_assoc in H.
    next text_apart. next (option_apart _ number_apart). apply app_inv_head in H. subst. auto.
  Qed.
  Lemma generate_apart : apart (show_generate escape).
  Proof.
    intros [a1 a2 a3 a4 a5 a6] [b1 b2 b3 b4 b5 b6] r s Hr Hs H. unfold show_generate in H.
    cbn [g_profile apc_candidates_dir apc_max_instructions apc_exec_count_cutoff optimistic_precompiles superblocks] in H. rewrite <- !app_assoc in H.
    next profile_apart. next (option_apart _ text_apart). next (option_apart _ number_apart). next (option_apart _ number_apart). next bool_apart. next number_apart.
    apply app_inv_head in H. subst. auto.
  Qed.
  Lemma select_apart : apart (show_select escape).
  Proof.
    intros [a1 a2 a3 a4 a5] [b1 b2 b3 b4 b5] r s Hr Hs H. unfold show_select in H.
    cbn [s_generate autoprecompiles skip pgo max_columns] in H. rewrite <- !app_assoc in H.
    next generate_apart. next number_apart. next number_apart. next pgo_apart. next (option_apart _ number_apart).
    apply app_inv_head in H. subst. auto.
  Qed.
  Lemma stops_nil : stops []. Proof. intros c s H. discriminate. Qed.
  Lemma select_text_inj a b : show_select escape a = show_select escape b -> a = b.
  Proof. intros H. apply (f_equal (fun t => t ++ [])) in H. apply select_apart in H; auto using stops_nil. now destruct H. Qed.
  Lemma setup_text_inj a b : show_setup escape a = show_setup escape b -> a = b.
  Proof.
    destruct a as [a], b as [b]. intros H. unfold show_setup in H. cbn [u_select] in H.
    next select_apart. now subst.
  Qed.
  Lemma stages_apart a b : show_select escape a = show_setup escape b -> False.
  Proof. intros H. discriminate. Qed.
End Escape.

(** *** [Debug] of texts *)
Fixpoint take_hex (s : text) (acc : N) : option (N * text) :=
  match s with
  | [] => None
  | c :: s => if (c =? 125)%N then Some (acc, s) else
      match digit_value c with Some d => if (d <? 16)%N then take_hex s (acc * 16 + d)%N else None | None => None end
  end.
Definition unescape (s : text) : option (N * text) :=
  match s with
  | [] => None
  | c :: s =>
      if (c =? 92)%N then
        match s with
        | [] => None
        | d :: s =>
            if (d =? 34)%N then Some (34%N, s) else if (d =? 92)%N then Some (92%N, s) else if (d =? 110)%N then Some (10%N, s)
            else if (d =? 114)%N then Some (13%N, s) else if (d =? 116)%N then Some (9%N, s) else if (d =? 48)%N then Some (0%N, s)
            else take_hex (tl s) 0
        end
      else Some (c, s)
  end.
Lemma take_hex_ok t : forall acc v r, read_digits 16 t acc = Some v -> take_hex (t ++ 125%N :: r) acc = Some (v, r).
Proof.
  induction t as [|c t IH]; intros acc v r H; cbn [read_digits take_hex app] in *.
  - injection H as ->. reflexivity.
  - destruct (N.eqb_spec c 125) as [->|]; [discriminate|]. destruct (digit_value c) as [d|]; [|discriminate]. destruct (d <? 16)%N; [|discriminate]. now apply IH.
Qed.
Lemma unescape_ok printable c r : unescape (escape_debug printable c ++ r) = Some (c, r).
Proof.
  unfold escape_debug.
  destruct (N.eqb_spec c 34) as [->|]; [reflexivity|]. destruct (N.eqb_spec c 92) as [->|Hc]; [reflexivity|]. destruct (N.eqb_spec c 10) as [->|]; [reflexivity|].
  destruct (N.eqb_spec c 13) as [->|]; [reflexivity|]. destruct (N.eqb_spec c 9) as [->|]; [reflexivity|]. destruct (N.eqb_spec c 0) as [->|]; [reflexivity|].
  destruct (printable c).
  - cbn [app unescape]. destruct (N.eqb_spec c 92); [congruence|reflexivity].
  - rewrite <- !app_assoc. change (unescape (txt "\u{" ++ print 16 c ++ txt "}" ++ r)) with (take_hex (print 16 c ++ 125%N :: r) 0).
    apply take_hex_ok. pose proof (read_print 16 c ltac:(lia)) as H. unfold read in H. pose proof (print_nonempty 16 c). now destruct (print 16 c).
Qed.
Lemma escape_debug_ok printable : escaping_ok (escape_debug printable).
Proof.
  split.
  - intros c d r s H. pose proof (unescape_ok printable c r) as A. rewrite H, unescape_ok in A. now injection A as -> ->.
  - intros c r s H. unfold escape_debug in H.
    repeat match type of H with context [if ?b then _ else _] => let E := fresh "E" in destruct b eqn:E; [try discriminate|] end; try discriminate.
    injection H as -> _. discriminate.
Qed.

(** *** Hashes *)
Lemma read_zeros16 k s : read_digits 16 (repeat 48%N k ++ s) 0 = read_digits 16 s 0.
Proof. induction k as [|k IH]; cbn; auto. Qed.
Lemma read_hex16 n : read_digits 16 (hex16 n) 0 = Some n.
Proof.
  unfold hex16. rewrite read_zeros16. pose proof (read_print 16 n ltac:(lia)) as H. unfold read in H. pose proof (print_nonempty 16 n). now destruct (print 16 n).
Qed.
Lemma hex16_inj n m : hex16 n = hex16 m -> n = m.
Proof. intros H. pose proof (read_hex16 n) as A. rewrite H, read_hex16 in A. congruence. Qed.

(** ** Files *)
Lemma put_same fs f c : put fs f c f = c.
Proof. unfold put. destruct (file_dec f f); congruence. Qed.
Lemma put_other fs f c g : f <> g -> put fs f c g = fs g.
Proof. unfold put. destruct (file_dec f g); congruence. Qed.
Lemma apply_app a b fs : apply (a ++ b) fs = apply b (apply a fs).
Proof. apply fold_left_app. Qed.
Lemma apply_appends f bs : forall fs l, fs f = Some l -> apply (map (Append f) bs) fs f = Some (l ++ bs).
Proof.
  induction bs as [|b bs IH]; intros fs l H; cbn [map]; [now rewrite app_nil_r|].
  unfold apply in *. cbn [fold_left]. rewrite (IH _ (l ++ [b])); [now rewrite <- app_assoc|]. cbn. rewrite H. apply put_same.
Qed.
Lemma apply_appends_other f bs g : f <> g -> forall fs, apply (map (Append f) bs) fs g = fs g.
Proof. intros H. induction bs as [|b bs IH]; intros fs; auto. unfold apply in *. cbn [map fold_left]. rewrite IH. cbn. now apply put_other. Qed.
Definition writes (f : file) (bs : list N) : list op := Create f :: map (Append f) bs.
Lemma firstn_writes k f bs : firstn k (writes f bs) = [] \/ exists j, firstn k (writes f bs) = writes f (firstn j bs).
Proof. destruct k as [|k]; auto. right. exists k. cbn. now rewrite firstn_map. Qed.
Lemma apply_writes f bs fs : apply (writes f bs) fs f = Some bs.
Proof. unfold apply, writes. cbn [fold_left]. change (fold_left apply1 (map (Append f) bs) (apply1 fs (Create f)) f) with (apply (map (Append f) bs) (apply1 fs (Create f)) f).
  rewrite (apply_appends _ _ _ []); auto. cbn. apply put_same. Qed.
Lemma apply_writes_other f bs fs g : f <> g -> apply (writes f bs) fs g = fs g.
Proof. intros H. unfold apply, writes. cbn [fold_left]. change (fold_left apply1 (map (Append f) bs) (apply1 fs (Create f)) g) with (apply (map (Append f) bs) (apply1 fs (Create f)) g).
  rewrite apply_appends_other; auto. cbn. now apply put_other. Qed.
Lemma stages_differ d h d' h' : ((d, txt "select", h) : file) <> (d', txt "setup", h').
Proof. intros E. assert (X : txt "select" = txt "setup") by congruence. discriminate. Qed.
Lemma stages_differ' d h d' h' : ((d, txt "setup", h) : file) <> (d', txt "select", h').
Proof. intros E. symmetry in E. now apply stages_differ in E. Qed.
Lemma firstn_app_cases {A} k (a b : list A) : (exists j, firstn k (a ++ b) = firstn j a) \/ exists j, firstn k (a ++ b) = a ++ firstn j b.
Proof.
  rewrite firstn_app. destruct (Nat.le_gt_cases k (List.length a)) as [H|H].
  - left. exists k. replace (k - List.length a)%nat with 0%nat by lia. now rewrite firstn_O, app_nil_r.
  - right. exists (k - List.length a)%nat. now rewrite (firstn_all2 a) by lia.
Qed.

Section Cache.
  Context {world apcs program : Type}.
  Variable escape : N -> text.
  Variable exe : world -> list N.
  Variable digest : list (list N) -> N.
  Variable encode_apcs : apcs -> list N.
  Variable decode_apcs : list N -> option apcs.
  Variable encode_program : program -> list N.
  Variable decode_program : list N -> option program.
  Variable selects : select_args -> world -> apcs -> Prop.
  Variable sets_up : world -> apcs -> program -> Prop.
  Notation happens := (happens escape exe digest encode_apcs decode_apcs encode_program decode_program selects sets_up).
  Notation history := (history escape exe digest encode_apcs decode_apcs encode_program decode_program selects sets_up).
  Notation run_select := (run_select escape exe digest encode_apcs decode_apcs selects).
  Notation run_setup := (run_setup escape exe digest encode_apcs decode_apcs encode_program decode_program selects sets_up).
  Notation run_command := (run_command escape exe digest encode_apcs decode_apcs encode_program decode_program selects sets_up).
  Notation interrupted := (interrupted escape exe digest encode_apcs decode_apcs encode_program decode_program selects sets_up).
  Notation could_answer := (could_answer selects sets_up).
  Notation hashed := (hashed escape exe digest).
  Notation stage_hash := (stage_hash exe digest).
  Hypothesis Hesc : escaping_ok escape.
  Hypothesis Hca : codec_ok encode_apcs decode_apcs.
  Hypothesis Hcp : codec_ok encode_program decode_program.

  (** *** What a command writes *)
  Definition select_file d (w : world) a : file := (d, txt "select", stage_hash (show_select escape a) w).
  Definition setup_file d (w : world) a : file := (d, txt "setup", stage_hash (show_setup escape a) w).
  (** A write is a beginning of one of the two files, with a possible content. *)
  Lemma save_none stage h b : save_cached None stage h b = []. Proof. reflexivity. Qed.
  Lemma save_some d stage h b : save_cached (Some d) stage h b = writes (d, stage, h) b. Proof. reflexivity. Qed.

  Section Invariant.
    Variable U : list (world * command).
    Definition good (fs : files) : Prop :=
      (forall d h b, fs (d, txt "select", h) = Some b ->
        exists w c r k, In (w, c) U /\ h = stage_hash (show_select escape (select_of c)) w /\ selects (select_of c) w r /\ b = firstn k (encode_apcs r)) /\
      (forall d h b, fs (d, txt "setup", h) = Some b ->
        exists w c a r p k, In (w, c) U /\ setup_of c = Some a /\ h = stage_hash (show_setup escape a) w /\ selects (u_select a) w r /\ sets_up w r p /\
          b = firstn k (encode_program p)).
    Hypothesis Hcol : no_collision digest (flat_map hashed U).
    Hypothesis Hdep : depends_on_exe exe selects sets_up (map fst U).
    Lemma hashed_in u x : In u U -> In x (hashed u) -> In x (flat_map hashed U).
    Proof. intros H1 H2. apply in_flat_map. eauto. Qed.
    Lemma same_exe w c w' c' : In (w, c) U -> In (w', c') U -> guest_hash exe digest w = guest_hash exe digest w' -> exe w = exe w'.
    Proof.
      intros H1 H2 H. apply hex16_inj in H. apply Hcol in H; [now injection H|apply (hashed_in _ _ H1)|apply (hashed_in _ _ H2)]; now left.
    Qed.
    Lemma same_select w c w' c' : In (w, c) U -> In (w', c') U ->
      stage_hash (show_select escape (select_of c)) w = stage_hash (show_select escape (select_of c')) w' -> select_of c = select_of c' /\ exe w = exe w'.
    Proof.
      intros H1 H2 H. apply hex16_inj in H. apply Hcol in H; [|apply (hashed_in _ _ H1); right; now left|apply (hashed_in _ _ H2); right; now left].
      assert (A := f_equal (hd []) H). assert (B := f_equal (fun l => hd [] (tl l)) H). cbn [hd tl] in A, B.
      apply (select_text_inj _ Hesc) in A. split; auto. eapply same_exe; eauto.
    Qed.
    Lemma same_setup w c a w' c' a' : In (w, c) U -> In (w', c') U -> setup_of c = Some a -> setup_of c' = Some a' ->
      stage_hash (show_setup escape a) w = stage_hash (show_setup escape a') w' -> a = a' /\ exe w = exe w'.
    Proof.
      intros H1 H2 S1 S2 H. apply hex16_inj in H.
      apply Hcol in H; [|apply (hashed_in _ _ H1); right; right; cbn [snd fst]; rewrite S1; now left|apply (hashed_in _ _ H2); right; right; cbn [snd fst]; rewrite S2; now left].
      assert (A := f_equal (hd []) H). assert (B := f_equal (fun l => hd [] (tl l)) H). cbn [hd tl] in A, B.
      apply (setup_text_inj _ Hesc) in A. split; auto. eapply same_exe; eauto.
    Qed.
    Lemma in_worlds w c : In (w, c) U -> In w (map fst U).
    Proof. intros H. apply in_map_iff. now exists (w, c). Qed.
    Lemma codec_prefix {T} (enc : T -> list N) dec (H : codec_ok enc dec) k x y : dec (firstn k (enc x)) = Some y -> x = y.
    Proof.
      destruct (H x) as [A B]. destruct (Nat.lt_ge_cases k (List.length (enc x))) as [C|C]; [now rewrite B|]. rewrite firstn_all2, A by lia. now intros [= ->].
    Qed.
    Lemma load_select fs dir w c r : good fs -> In (w, c) U ->
      load_cached decode_apcs fs dir (txt "select") (stage_hash (show_select escape (select_of c)) w) = Some r -> selects (select_of c) w r.
    Proof.
      intros [G _] Hin H. unfold load_cached in H. destruct dir as [d|]; [|discriminate].
      destruct (fs _) as [b|] eqn:E; [|discriminate]. apply G in E. destruct E as (w' & c' & r' & k & Hin' & E & S1 & ->).
      apply (codec_prefix _ _ Hca) in H. subst r'. apply (same_select _ _ _ _ Hin Hin') in E. destruct E as [-> E].
      apply (Hdep w w'); eauto using in_worlds.
    Qed.
    Lemma load_setup fs dir w c a p : good fs -> In (w, c) U -> setup_of c = Some a ->
      load_cached decode_program fs dir (txt "setup") (stage_hash (show_setup escape a) w) = Some p -> exists r, selects (u_select a) w r /\ sets_up w r p.
    Proof.
      intros [_ G] Hin Ha H. unfold load_cached in H. destruct dir as [d|]; [|discriminate].
      destruct (fs _) as [b|] eqn:E; [|discriminate]. apply G in E. destruct E as (w' & c' & a' & r' & p' & k & Hin' & Ha' & E & S1 & S2 & ->).
      apply (codec_prefix _ _ Hcp) in H. subst p'. apply (same_setup _ _ _ _ _ _ Hin Hin' Ha Ha') in E. destruct E as [-> E].
      destruct (Hdep w w') as [D1 D2]; eauto using in_worlds. exists r'. split; [now apply D1|now apply D2].
    Qed.
    Lemma good_select fs dir w c r k : good fs -> In (w, c) U -> selects (select_of c) w r ->
      good (apply (firstn k (save_cached dir (txt "select") (stage_hash (show_select escape (select_of c)) w) (encode_apcs r))) fs).
    Proof.
      intros [G1 G2] Hin S1. destruct dir as [d|]; [|destruct k; now split]. rewrite save_some.
      destruct (firstn_writes k (d, txt "select", stage_hash (show_select escape (select_of c)) w) (encode_apcs r)) as [->|(j & ->)]; [now split|]. split; intros d' h b H.
      - destruct (file_dec (d, txt "select", stage_hash (show_select escape (select_of c)) w) (d', txt "select", h)) as [E|E].
        + rewrite E, apply_writes in H. injection H as <-. injection E as <- <-. exists w, c, r, j. auto.
        + rewrite apply_writes_other in H by auto. now apply G1 in H.
      - rewrite apply_writes_other in H by apply stages_differ. now apply G2 in H.
    Qed.
    Lemma good_setup fs dir w c a r p k : good fs -> In (w, c) U -> setup_of c = Some a -> selects (u_select a) w r -> sets_up w r p ->
      good (apply (firstn k (save_cached dir (txt "setup") (stage_hash (show_setup escape a) w) (encode_program p))) fs).
    Proof.
      intros [G1 G2] Hin Ha S1 S2. destruct dir as [d|]; [|destruct k; now split]. rewrite save_some.
      destruct (firstn_writes k (d, txt "setup", stage_hash (show_setup escape a) w) (encode_program p)) as [->|(j & ->)]; [now split|]. split; intros d' h b H.
      - rewrite apply_writes_other in H by apply stages_differ'. now apply G1 in H.
      - destruct (file_dec (d, txt "setup", stage_hash (show_setup escape a) w) (d', txt "setup", h)) as [E|E].
        + rewrite E, apply_writes in H. injection H as <-. injection E as <- <-. exists w, c, a, r, p, j. auto 10.
        + rewrite apply_writes_other in H by auto. now apply G2 in H.
    Qed.
    Lemma setup_select c a : setup_of c = Some a -> select_of c = u_select a.
    Proof. destruct c; cbn; intros [= ->]; auto. Qed.
    Lemma run_select_good fs dir w c ops r k : good fs -> In (w, c) U -> run_select dir w fs (select_of c) ops r ->
      selects (select_of c) w r /\ good (apply (firstn k ops) fs).
    Proof.
      intros G Hin H. destruct H as [r H|r H Hs].
      - split; [now apply (load_select fs dir)|]. destruct k; auto.
      - split; auto. now apply good_select.
    Qed.
    Lemma run_setup_good fs dir w c a ops p k : good fs -> In (w, c) U -> setup_of c = Some a -> run_setup dir w fs a ops p ->
      (exists r, selects (u_select a) w r /\ sets_up w r p) /\ good (apply (firstn k ops) fs).
    Proof.
      intros G Hin Ha H. destruct H as [p H|ops r p H Hr Hs].
      - split; [now apply (load_setup fs dir w c)|]. destruct k; auto.
      - rewrite <- (setup_select _ _ Ha) in *. split.
        + exists r. split; auto. now apply (run_select_good fs dir w c ops r 0).
        + destruct (firstn_app_cases k ops (save_cached dir (txt "setup") (stage_hash (show_setup escape a) w) (encode_program p))) as [(j & ->)|(j & ->)].
          * now apply (run_select_good fs dir w c ops r j).
          * rewrite apply_app. destruct (run_select_good fs dir w c ops r (List.length ops) G Hin Hr) as [S1 G']. rewrite firstn_all in G'.
            apply good_setup with (r := r) (c := c); auto. now rewrite <- (setup_select _ _ Ha).
    Qed.
    Lemma run_command_good fs dir w c ops r k : good fs -> In (w, c) U -> run_command dir w fs c ops r ->
      could_answer w c r /\ good (apply (firstn k ops) fs).
    Proof.
      intros G Hin H. destruct H as [a ops r Hacc H|c a ops p Hacc Ha H].
      - apply (run_select_good fs dir w (SelectApcs a) ops r k G Hin) in H. destruct H as [S1 G']. split; auto. now constructor.
      - apply (run_setup_good fs dir w c a ops p k G Hin Ha) in H. destruct H as [(r & S1 & S2) G']. split; auto. now apply (could_setup _ _ _ _ a r).
    Qed.
    Lemma interrupted_good fs dir w c ops : good fs -> In (w, c) U -> interrupted dir w fs c ops -> good (apply ops fs).
    Proof.
      intros G Hin H. destruct H as [|ops r k Hl H|ops r k H].
      - exact G.
      - now apply (run_select_good fs dir w c ops r k).
      - now apply (run_command_good fs dir w c ops r k).
    Qed.
    Lemma damaged_good fs f k : good fs -> good (put fs f (match k, fs f with Some k, Some l => Some (firstn k l) | _, _ => None end)).
    Proof.
      intros [G1 G2]. split; intros d h b H.
      - unfold put in H. destruct (file_dec f (d, txt "select", h)) as [->|E]; [|now apply G1 in H].
        destruct k as [k|]; [|discriminate]. destruct (fs (d, txt "select", h)) as [l|] eqn:El; [|discriminate]. injection H as <-. apply G1 in El.
        destruct El as (w & c & r & j & A & B & C & ->). exists w, c, r, (Nat.min k j). rewrite firstn_firstn. auto.
      - unfold put in H. destruct (file_dec f (d, txt "setup", h)) as [->|E]; [|now apply G2 in H].
        destruct k as [k|]; [|discriminate]. destruct (fs (d, txt "setup", h)) as [l|] eqn:El; [|discriminate]. injection H as <-. apply G2 in El.
        destruct El as (w & c & a & r & p & j & A & B & C & S1 & S2 & ->). exists w, c, a, r, p, (Nat.min k j). rewrite firstn_firstn. auto 10.
    Qed.
    Lemma history_good fs l fs' : history fs l fs' -> incl (used l) U -> good fs ->
      good fs' /\ forall dir w c r, In (Finished dir w c r) l -> could_answer w c r.
    Proof.
      induction 1 as [fs|fs e fs1 l fs2 He Hl IH]; intros Hin G; [split; [auto|intros ? ? ? ? []]|].
      assert (H : good fs1 /\ forall dir w c r, e = Finished dir w c r -> could_answer w c r).
      { destruct He as [dir w c ops r H|dir w c ops H|f k].
        - assert (I : In (w, c) U) by (apply Hin; now left). destruct (run_command_good fs dir w c ops r (List.length ops) G I H) as [A B]. rewrite firstn_all in B.
          split; auto. now intros ? ? ? ? [= -> -> -> ->].
        - assert (I : In (w, c) U) by (apply Hin; now left). split; [now apply (interrupted_good fs dir w c ops)|discriminate].
        - split; [now apply damaged_good|discriminate]. }
      destruct H as [G1 H1]. destruct IH as [G2 H2]; auto.
      - intros u Hu. apply Hin. unfold used. cbn [flat_map]. apply in_or_app. now right.
      - split; auto. intros dir w c r [E|E]; [now apply (H1 dir)|now apply (H2 dir)].
    Qed.
  End Invariant.
  Lemma no_files_good U : good U no_files.
  Proof. split; intros; discriminate. Qed.

  (** *** Entries are kept *)
  Definition holds {T} (dec : list N -> option T) (fs : files) (f : file) (x : T) : Prop := exists b, fs f = Some b /\ dec b = Some x.
  Lemma holds_load {T} (dec : list N -> option T) fs d stage h x : holds dec fs (d, stage, h) x -> load_cached dec fs (Some d) stage h = Some x.
  Proof. intros (b & H1 & H2). unfold load_cached. now rewrite H1. Qed.
  Lemma load_holds {T} (dec : list N -> option T) fs d stage h x : load_cached dec fs (Some d) stage h = Some x -> holds dec fs (d, stage, h) x.
  Proof. unfold load_cached. destruct (fs _) as [b|] eqn:E; [|discriminate]. intros H. now exists b. Qed.
  Lemma save_keeps {T T'} (dec : list N -> option T) (dec' : list N -> option T') fs dir stage h k b f x : holds dec fs f x ->
    (forall d, dir = Some d -> f <> (d, stage, h)) -> holds dec (apply (firstn k (save_cached dir stage h b)) fs) f x.
  Proof.
    intros H Hne. destruct dir as [d|]; [|destruct k; exact H]. rewrite save_some.
    destruct (firstn_writes k (d, stage, h) b) as [->|(j & ->)]; [exact H|]. destruct H as (b' & H1 & H2). exists b'.
    rewrite apply_writes_other; auto. intros E. now apply (Hne d eq_refl).
  Qed.
  Lemma run_select_keeps fs dir w a ops r d h r' k : run_select dir w fs a ops r -> holds decode_apcs fs (d, txt "select", h) r' ->
    holds decode_apcs (apply (firstn k ops) fs) (d, txt "select", h) r'.
  Proof.
    intros H Hh. destruct H as [r H|r H Hs]; [destruct k; exact Hh|].
    apply (save_keeps decode_apcs decode_apcs); auto. intros d' -> E. injection E as -> ->. apply holds_load in Hh. congruence.
  Qed.
  Lemma run_select_keeps' fs dir w a ops r d h p k : run_select dir w fs a ops r -> holds decode_program fs (d, txt "setup", h) p ->
    holds decode_program (apply (firstn k ops) fs) (d, txt "setup", h) p.
  Proof.
    intros H Hh. destruct H as [r H|r H Hs]; [destruct k; exact Hh|].
    apply (save_keeps decode_program decode_apcs); auto. intros d' -> E. now apply stages_differ' in E.
  Qed.
  Lemma run_setup_keeps fs dir w a ops p d h r' k : run_setup dir w fs a ops p -> holds decode_apcs fs (d, txt "select", h) r' ->
    holds decode_apcs (apply (firstn k ops) fs) (d, txt "select", h) r'.
  Proof.
    intros H Hh. destruct H as [p H|ops r p H Hr Hs]; [destruct k; exact Hh|].
    destruct (firstn_app_cases k ops (save_cached dir (txt "setup") (stage_hash (show_setup escape a) w) (encode_program p))) as [(j & ->)|(j & ->)].
    - now apply (run_select_keeps fs dir w (u_select a) ops r).
    - rewrite apply_app. apply (run_select_keeps _ _ _ _ _ _ _ _ _ (List.length ops) Hr) in Hh. rewrite firstn_all in Hh.
      apply (save_keeps decode_apcs decode_apcs); auto. intros d' -> E. now apply stages_differ in E.
  Qed.
  Lemma run_setup_keeps' fs dir w a ops p d h p' k : run_setup dir w fs a ops p -> holds decode_program fs (d, txt "setup", h) p' ->
    holds decode_program (apply (firstn k ops) fs) (d, txt "setup", h) p'.
  Proof.
    intros H Hh. destruct H as [p H|ops r p H Hr Hs]; [destruct k; exact Hh|].
    destruct (firstn_app_cases k ops (save_cached dir (txt "setup") (stage_hash (show_setup escape a) w) (encode_program p))) as [(j & ->)|(j & ->)].
    - now apply (run_select_keeps' fs dir w (u_select a) ops r).
    - rewrite apply_app. assert (Hh' := Hh). apply (run_select_keeps' _ _ _ _ _ _ _ _ _ (List.length ops) Hr) in Hh. rewrite firstn_all in Hh.
      apply (save_keeps decode_program decode_apcs); auto. intros d' -> E. injection E as -> ->. apply holds_load in Hh'. congruence.
  Qed.
  (** The entry of a finished command. *)
  Definition entry (fs : files) (d : text) (w : world) (c : command) (r : answer) : Prop :=
    match r with
    | Selected r => setup_of c = None /\ holds decode_apcs fs (select_file d w (select_of c)) r
    | Ready p => exists a, setup_of c = Some a /\ holds decode_program fs (setup_file d w a) p
    end.
  Lemma run_command_keeps fs dir w c ops r d w' c' r' k : run_command dir w fs c ops r -> entry fs d w' c' r' -> entry (apply (firstn k ops) fs) d w' c' r'.
  Proof.
    intros H He. destruct H as [a ops r _ H|c a ops p _ Ha H]; destruct r' as [r'|p']; cbn [entry] in *.
    - destruct He as [E He]. split; auto. now apply (run_select_keeps fs dir w a ops r).
    - destruct He as (a' & E & He). exists a'. split; auto. now apply (run_select_keeps' fs dir w a ops r).
    - destruct He as [E He]. split; auto. now apply (run_setup_keeps fs dir w a ops p).
    - destruct He as (a' & E & He). exists a'. split; auto. now apply (run_setup_keeps' fs dir w a ops p).
  Qed.
  Lemma happens_keeps fs e fs' d w c r : happens fs e fs' -> (forall f k, e <> Damaged f k) -> entry fs d w c r -> entry fs' d w c r.
  Proof.
    intros H Hd He. destruct H as [dir w' c' ops r' H|dir w' c' ops H|f k].
    - rewrite <- (firstn_all ops). now apply (run_command_keeps fs dir w' c' ops r').
    - destruct H as [|ops r' k _ H|ops r' k H].
      + exact He.
      + destruct r as [r|p]; cbn [entry] in *.
        * destruct He as [E He]. split; auto. now apply (run_select_keeps fs dir w' (select_of c') ops r').
        * destruct He as (a' & E & He). exists a'. split; auto. now apply (run_select_keeps' fs dir w' (select_of c') ops r').
      + now apply (run_command_keeps fs dir w' c' ops r').
    - now destruct (Hd f k).
  Qed.
  Lemma history_keeps fs l fs' d w c r : history fs l fs' -> undamaged l -> entry fs d w c r -> entry fs' d w c r.
  Proof.
    induction 1 as [fs|fs e fs1 l fs2 He Hl IH]; intros Hd H; auto. apply IH.
    - intros f k Hin. apply (Hd f k). now right.
    - apply (happens_keeps _ _ _ _ _ _ _ He); auto. intros f k ->. apply (Hd f k). now left.
  Qed.
  Lemma save_holds {T} (enc : T -> list N) dec (H : codec_ok enc dec) fs d stage h x : holds dec (apply (save_cached (Some d) stage h (enc x)) fs) (d, stage, h) x.
  Proof. exists (enc x). rewrite save_some, apply_writes. split; auto. apply H. Qed.
  Lemma finished_entry fs d w c r fs' : happens fs (Finished (Some d) w c r) fs' -> entry fs' d w c r.
  Proof.
    intros H. inversion H as [dir w0 c0 ops r0 Hr E1 E2| |]; subst. destruct Hr as [a ops r _ Hr|c a ops p _ Ha Hr]; cbn [entry].
    - split; auto. destruct Hr as [r Hl|r Hl Hs]; [now apply load_holds|]. apply (save_holds _ _ Hca).
    - exists a. split; auto. destruct Hr as [p Hl|ops r p Hl Hr Hs]; [now apply load_holds|]. rewrite apply_app. apply (save_holds _ _ Hcp).
  Qed.
  Lemma guest_hash_exe w w' : exe w = exe w' -> guest_hash exe digest w = guest_hash exe digest w'.
  Proof. intros E. unfold guest_hash. now rewrite E. Qed.
  Lemma stage_hash_exe t w w' : exe w = exe w' -> stage_hash t w = stage_hash t w'.
  Proof. intros E. unfold CacheModel.stage_hash. now rewrite (guest_hash_exe _ _ E). Qed.
  Lemma entry_again fs d w c r w' c' r' fs' : entry fs d w c r -> same_stages c c' -> exe w = exe w' -> happens fs (Finished (Some d) w' c' r') fs' -> r' = r /\ fs' = fs.
  Proof.
    intros He [E1 E2] Hw H. inversion H as [dir w0 c0 ops r0 Hr X1 X2| |]; subst. destruct Hr as [a ops r' _ Hr|c' a ops p _ Ha Hr]; destruct r as [r|p']; cbn [entry] in He.
    - destruct He as [_ He]. unfold select_file in He. rewrite E2, (stage_hash_exe _ _ _ Hw) in He. apply holds_load in He. cbn [select_of] in He.
      destruct Hr as [r' Hl|r' Hl Hs]; [|congruence]. split; auto. congruence.
    - destruct He as (a' & Ea & _). rewrite E1 in Ea. discriminate.
    - destruct He as [Ea _]. congruence.
    - destruct He as (a' & Ea & He). assert (a' = a) by congruence. subst a'. unfold setup_file in He. rewrite (stage_hash_exe _ _ _ Hw) in He. apply holds_load in He.
      destruct Hr as [p Hl|ops r p Hl Hr Hs]; [|congruence]. split; auto. congruence.
  Qed.
  (** *** Without a directory *)
  Lemma run_select_quiet w fs a ops r : run_select None w fs a ops r -> ops = [] /\ selects a w r.
  Proof. intros H. destruct H as [r H|r H Hs]; [discriminate|auto]. Qed.
  Lemma run_command_quiet w fs c ops r : run_command None w fs c ops r -> ops = [] /\ could_answer w c r.
  Proof.
    intros H. destruct H as [a ops r _ H|c a ops p _ Ha H].
    - apply run_select_quiet in H. destruct H as [-> H]. split; auto. now constructor.
    - destruct H as [p H|ops r p _ H Hs]; [discriminate|]. apply run_select_quiet in H. destruct H as [-> H]. split; auto. now apply (could_setup _ _ _ _ a r).
  Qed.
  Lemma quiet fs w c r fs' : happens fs (Finished None w c r) fs' -> fs' = fs /\ could_answer w c r.
  Proof. intros H. inversion H as [dir w0 c0 ops r0 Hr E1 E2| |]; subst. apply run_command_quiet in Hr. destruct Hr as [-> Hr]. auto. Qed.
  Lemma quiet_interrupted fs w c fs' : happens fs (Interrupted None w c) fs' -> fs' = fs.
  Proof.
    intros H. inversion H as [|dir w0 c0 ops Hr E1 E2|]; subst. destruct Hr as [|ops r k _ Hr|ops r k Hr]; auto.
    - apply run_select_quiet in Hr. destruct Hr as [-> _]. now destruct k.
    - apply run_command_quiet in Hr. destruct Hr as [-> _]. now destruct k.
  Qed.
  (** *** Going on after anything *)
  Lemma command_runs fs dir w c : accepted c = true -> (forall a, exists r, selects a w r) ->
    (forall r, selects (select_of c) w r \/ load_cached decode_apcs fs dir (txt "select") (stage_hash (show_select escape (select_of c)) w) = Some r -> exists p, sets_up w r p) ->
    exists ops r, run_command dir w fs c ops r.
  Proof.
    intros Hc H1 H2. assert (R : exists ops r, run_select dir w fs (select_of c) ops r /\ exists p, sets_up w r p).
    { destruct (load_cached decode_apcs fs dir (txt "select") (stage_hash (show_select escape (select_of c)) w)) as [r|] eqn:E.
      - exists [], r. split; [now constructor|]. apply H2. auto.
      - destruct (H1 (select_of c)) as [r Hr]. eexists _, r. split; [now apply select_miss|]. apply H2. auto. }
    destruct R as (ops & r & Hr & p & Hp). destruct (setup_of c) as [a|] eqn:Ec.
    - destruct (load_cached decode_program fs dir (txt "setup") (stage_hash (show_setup escape a) w)) as [p'|] eqn:E.
      + exists [], (Ready p'). apply (run_others _ _ _ _ _ _ _ _ _ _ _ _ c a); auto. now constructor.
      + rewrite (setup_select _ _ Ec) in Hr. eexists _, (Ready p). apply (run_others _ _ _ _ _ _ _ _ _ _ _ _ c a); auto. eapply setup_miss; eauto.
    - destruct c as [a| | |]; try discriminate. exists ops, (Selected r). now constructor.
  Qed.
End Cache.
