(** C75: source locations name the files of their compilation units. *)
From Coq Require Import NArith Bool List Lia ZifyBool ZifyNat ZifyN.
From Verif Require Import LineModel LineSpec.
Import ListNotations.
Local Open Scope N_scope.

Lemma read_units_files us : forall files locs,
  fst (read_units us files locs) = files ++ flat_map (fun u => map (file_entry (or_empty (comp_dir u))) (unit_files u)) us.
Proof.
  induction us as [|u r IH]; intros files locs; cbn [read_units flat_map]; [now rewrite app_nil_r|]. unfold read_source_locations, unit_files at 1.
  destruct (line_program u) as [[names rows]|]; rewrite IH; [now rewrite <- app_assoc|]. reflexivity.
Qed.
Definition kept (u : unit_) : list row := filter (fun r => negb (skipped r)) (unit_rows u).
Definition count (us : list unit_) : N := N.of_nat (length (flat_map unit_files us)).
Lemma read_units_locs us : forall files locs x,
  In x (snd (read_units us files locs)) <-> In x locs \/ exists pre u post r, us = pre ++ u :: post /\ In r (kept u) /\ x = row_location (N.of_nat (length files) + count pre) r.
Proof.
  induction us as [|u r IH]; intros files locs x; cbn [read_units].
  - cbn [snd]. split; auto. intros [H|(pre & u & post & q & E & _)]; auto. destruct pre; discriminate.
  - assert (S : read_source_locations u files locs = (N.of_nat (length files), files ++ map (file_entry (or_empty (comp_dir u))) (unit_files u), locs ++ map (row_location (N.of_nat (length files))) (kept u))).
    { unfold read_source_locations, unit_files, kept, unit_rows. destruct (line_program u) as [[names rows]|]; auto. cbn [map filter]. now rewrite !app_nil_r. }
    rewrite S. rewrite IH. rewrite in_app_iff, in_map_iff. rewrite app_length, map_length. split.
    + intros [[H|(q & <- & Hq)]|(pre & v & post & q & -> & Hq & ->)]; auto.
      * right. exists [], u, r, q. split; auto. split; auto. f_equal. unfold count. cbn [flat_map length]. lia.
      * right. exists (u :: pre), v, post, q. split; auto. split; auto. f_equal. unfold count. cbn [flat_map]. rewrite app_length. lia.
    + intros [H|(pre & v & post & q & E & Hq & ->)]; auto. destruct pre as [|w pre]; cbn [app] in E; injection E as <- ->.
      * left. right. exists q. split; auto. f_equal. unfold count. cbn [flat_map length]. lia.
      * right. exists pre, v, post, q. split; auto. split; auto. f_equal. unfold count. cbn [flat_map]. rewrite app_length. lia.
Qed.
Lemma numbered_nth l : forall id k f, In (k, f) (number_files id l) <-> id < k /\ nth_error l (N.to_nat (k - id - 1)) = Some f.
Proof.
  induction l as [|x r IH]; intros id k f; cbn [number_files In].
  - split; [intros []|]. intros [_ H]. destruct (N.to_nat _); discriminate.
  - rewrite IH. split.
    + intros [[= <- <-]|[L H]]; [split; [lia|]; now replace (id + 1 - id - 1) with 0 by lia|]. split; [lia|]. replace (N.to_nat (k - id - 1)) with (S (N.to_nat (k - (id + 1) - 1))) by lia. exact H.
    + intros [L H]. destruct (N.eq_dec k (id + 1)) as [->|Ne].
      * left. replace (id + 1 - id - 1) with 0 in H by lia. cbn in H. congruence.
      * right. split; [lia|]. replace (N.to_nat (k - id - 1)) with (S (N.to_nat (k - (id + 1) - 1))) in H by lia. exact H.
Qed.

(** The files are those of the units in their order, numbered from one; every file keeps its name, and its directory is below that of its
    unit. *)
Theorem C75_files : forall us id f,
  numbered (source_files_info (fst (read_units us [] []))) id f <->
  0 < id /\ nth_error (flat_map (fun u => map (fun e => (path_join (or_empty (comp_dir u)) (or_empty (fst e)), snd e)) (unit_files u)) us) (N.to_nat (id - 1)) = Some f.
Proof. intros us id f. unfold numbered, source_files_info. rewrite numbered_nth, read_units_files. rewrite N.sub_0_r. reflexivity. Qed.
Print Assumptions C75_files.

(** Directories: an absolute one is kept; another one is put after that of the unit with one separator. *)
Theorem C75_directory : forall base dir,
  (absolute dir -> path_join base dir = dir) /\
  (~ absolute dir -> base = [] -> path_join base dir = dir) /\
  (~ absolute dir -> forall b, base = b ++ [47] -> path_join base dir = base ++ dir) /\
  (~ absolute dir -> forall b c, base = b ++ [c] -> c <> 47 -> path_join base dir = base ++ [47] ++ dir).
Proof.
  intros base dir. unfold path_join, slash. repeat split.
  - intros [r ->]. reflexivity.
  - intros Na ->. destruct dir as [|c r]; auto. destruct (N.eqb_spec c 47); auto.
  - intros Na b ->. rewrite rev_app_distr. cbn [rev app]. rewrite N.eqb_refl. destruct dir as [|c r]; [now rewrite app_nil_r|]. destruct (N.eqb_spec c 47) as [->|]; auto. destruct Na. now exists r.
  - intros Na b c -> Ne. rewrite rev_app_distr. cbn [rev app]. destruct (N.eqb_spec c 47); [congruence|]. destruct dir as [|d r]; auto. destruct (N.eqb_spec d 47) as [->|]; auto. destruct Na. now exists r.
Qed.
Print Assumptions C75_directory.

(** The locations are those of the rows that are neither the end of a prologue nor the end of a sequence; the number of the file is
    the one of the row, after the files of the units before. *)
Theorem C75_locations : forall us x,
  In x (snd (read_units us [] [])) <->
  exists pre u post r, us = pre ++ u :: post /\ In r (unit_rows u) /\ prologue_end r = false /\ end_sequence r = false /\
    x = mkLoc (address r mod 2 ^ 32) (N.of_nat (length (flat_map unit_files pre)) + file_index r)
              (match row_line r with Some l => l | None => 0 end) (match row_column r with Some c => c | None => 0 end).
Proof.
  intros us x. rewrite read_units_locs. cbn [In length]. unfold kept, skipped, row_location, count. split.
  - intros [[]|(pre & u & post & r & E & Hr & ->)]. apply filter_In in Hr. destruct Hr as [Hr K]. rewrite negb_orb, andb_true_iff, !negb_true_iff in K. destruct K as [K1 K2].
    exists pre, u, post, r. repeat split; auto. f_equal; try lia; destruct (row_line r), (row_column r); reflexivity.
  - intros (pre & u & post & r & E & Hr & K1 & K2 & ->). right. exists pre, u, post, r. split; auto. split; [apply filter_In; split; auto; now rewrite K1, K2|]. f_equal; try lia; destruct (row_line r), (row_column r); reflexivity.
Qed.
Print Assumptions C75_locations.

Lemma file_at pre u post k f : nth_error (unit_files u) k = Some f ->
  nth_error (flat_map (fun u => map (fun e => (path_join (or_empty (comp_dir u)) (or_empty (fst e)), snd e)) (unit_files u)) (pre ++ u :: post)) (length (flat_map unit_files pre) + k)
  = Some (path_join (or_empty (comp_dir u)) (or_empty (fst f)), snd f).
Proof.
  intros H. rewrite flat_map_app. cbn [flat_map].
  assert (L : length (flat_map (fun u => map (fun e => (path_join (or_empty (comp_dir u)) (or_empty (fst e)), snd e)) (unit_files u)) pre) = length (flat_map unit_files pre)).
  { induction pre as [|v r IH]; cbn [flat_map]; auto. rewrite !app_length, map_length. lia. }
  rewrite nth_error_app2 by lia. rewrite L. replace (length (flat_map unit_files pre) + k - length (flat_map unit_files pre))%nat with k by lia.
  rewrite nth_error_app1 by (rewrite map_length; apply nth_error_Some; congruence). now rewrite (map_nth_error _ k (unit_files u) H).
Qed.
(** Up to version 4 of DWARF, the file with the number of the location is the one the row means, and no other. *)
Theorem C75_resolved : forall version us pre u post r f, version <= 4 -> us = pre ++ u :: post -> In r (unit_rows u) ->
  means version u (file_index r) = Some f ->
  forall g, numbered (source_files_info (fst (read_units us [] []))) (N.of_nat (length (flat_map unit_files pre)) + file_index r) g <->
            g = (path_join (or_empty (comp_dir u)) (or_empty (fst f)), snd f).
Proof.
  intros version us pre u post r f Hv -> Hr M g. unfold means in M. destruct (N.leb_spec version 4); [|lia]. destruct (N.eqb_spec (file_index r) 0); [discriminate|].
  rewrite C75_files. pose proof (file_at pre u post _ _ M) as K.
  replace (N.to_nat (N.of_nat (length (flat_map unit_files pre)) + file_index r - 1)) with (length (flat_map unit_files pre) + N.to_nat (file_index r - 1))%nat by lia.
  rewrite K. split; [intros [_ [= <-]]; reflexivity|intros ->; split; [lia|reflexivity]].
Qed.
Print Assumptions C75_resolved.

(** In version 5 it is the file before the one the row means; for the first file of a unit it is the last file of the units before,
    or none if they have none. *)
Theorem C75_shifted : forall version us pre u post r, 5 <= version -> us = pre ++ u :: post -> In r (unit_rows u) ->
  (forall f, 0 < file_index r -> means version u (file_index r - 1) = Some f ->
     forall g, numbered (source_files_info (fst (read_units us [] []))) (N.of_nat (length (flat_map unit_files pre)) + file_index r) g <->
               g = (path_join (or_empty (comp_dir u)) (or_empty (fst f)), snd f)) /\
  (file_index r = 0 ->
     (forall g, numbered (source_files_info (fst (read_units us [] []))) (N.of_nat (length (flat_map unit_files pre)) + file_index r) g <->
                numbered (source_files_info (fst (read_units pre [] []))) (N.of_nat (length (flat_map unit_files pre))) g) /\
     (forall id g, numbered (source_files_info (fst (read_units pre [] []))) id g -> id <= N.of_nat (length (flat_map unit_files pre)))).
Proof.
  intros version us pre u post r Hv -> Hr. split.
  - intros f P M g. unfold means in M. destruct (N.leb_spec version 4); [lia|]. rewrite C75_files. pose proof (file_at pre u post _ _ M) as K.
    replace (N.to_nat (N.of_nat (length (flat_map unit_files pre)) + file_index r - 1)) with (length (flat_map unit_files pre) + N.to_nat (file_index r - 1))%nat by lia.
    rewrite K. split; [intros [_ [= <-]]; reflexivity|intros ->; split; [lia|reflexivity]].
  - intros Z. rewrite Z, N.add_0_r.
    assert (L : length (flat_map (fun u => map (fun e => (path_join (or_empty (comp_dir u)) (or_empty (fst e)), snd e)) (unit_files u)) pre) = length (flat_map unit_files pre)).
    { clear. induction pre as [|v r IH]; cbn [flat_map]; auto. rewrite !app_length, map_length. lia. }
    split.
    + intros g. rewrite !C75_files, flat_map_app. split; intros [P H]; split; auto; [rewrite nth_error_app1 in H by lia|rewrite nth_error_app1 by lia]; exact H.
    + intros id g H. apply C75_files in H. destruct H as [P H]. assert (N.to_nat (id - 1) < length (flat_map unit_files pre))%nat by (rewrite <- L; apply nth_error_Some; congruence). lia.
Qed.
Print Assumptions C75_shifted.

(** Cases.  Two units, in directories /a and /b: the second one has the files y.rs and z.rs in src. *)
Definition unit_a : unit_ := mkUnit (Some [47; 97]) (Some ([(Some [115], [120])], [mkRow 16 1 (Some 3) None false false; mkRow 20 1 None None false true])).
Definition unit_b : unit_ := mkUnit (Some [47; 98]) (Some ([(Some [115], [121]); (Some [47; 99], [122])],
  [mkRow 32 2 (Some 7) (Some 4) false false; mkRow 36 1 (Some 8) None true false; mkRow (2 ^ 32 + 40) 1 (Some 9) None false false])).
Example C75_example :
  source_files_info (fst (read_units [unit_a; unit_b] [] [])) = [(1, ([47; 97; 47; 115], [120])); (2, ([47; 98; 47; 115], [121])); (3, ([47; 99], [122]))] /\
  snd (read_units [unit_a; unit_b] [] []) = [mkLoc 16 1 3 0; mkLoc 32 3 7 4; mkLoc 40 2 9 0] /\
  means 4 unit_b 2 = Some (Some [47; 99], [122]) /\ means 5 unit_b 1 = Some (Some [47; 99], [122]).
Proof. repeat split. Qed.

(** With version 5 the location of a row of the second unit names a file of the first one. *)
Theorem C75_version_refuted : exists us pre u post r f g, us = pre ++ u :: post /\ In r (unit_rows u) /\ prologue_end r = false /\ end_sequence r = false /\
  means 5 u (file_index r) = Some f /\
  numbered (source_files_info (fst (read_units us [] []))) (N.of_nat (length (flat_map unit_files pre)) + file_index r) g /\ snd g <> snd f.
Proof.
  exists [unit_a; mkUnit (Some [47; 98]) (Some ([(Some [115], [121])], [mkRow 32 0 (Some 7) None false false]))], [unit_a],
    (mkUnit (Some [47; 98]) (Some ([(Some [115], [121])], [mkRow 32 0 (Some 7) None false false]))), [], (mkRow 32 0 (Some 7) None false false), (Some [115], [121]), ([47; 97; 47; 115], [120]).
  repeat split; auto; [now left|now left|discriminate].
Qed.
Print Assumptions C75_version_refuted.
(** A row at the end of a prologue is not the end of a sequence, but its address gets no location. *)
Theorem C75_prologue_refuted : exists us u r, In u us /\ In r (unit_rows u) /\ end_sequence r = false /\
  forall x, In x (snd (read_units us [] [])) -> loc_address x <> address r.
Proof.
  exists [unit_b], unit_b, (mkRow 36 1 (Some 8) None true false). split; [now left|]. split; [right; now left|]. split; auto.
  intros x [<-|[<-|[]]]; discriminate.
Qed.
Print Assumptions C75_prologue_refuted.
