(** The empirical equations that are kept and the conditions generated for them. *)
From Coq Require Import Arith NArith ZArith Bool List Lia Permutation.
From Verif Require Import Field ExprModel SystemModel SymModel SymSpec SymFacts PartModel PartSpec PartFacts BlocksModel EmpModel EmpSpec EmpFacts OptModel OptSpec OptFacts.
Import ListNotations.

(** ** Cells and columns *)
Section Mapper.
  Variables (subs : list (list N)).
  Hypothesis distinct : NoDup (concat subs).
  Lemma at_cell_inj c d id : at_cell subs c = Some id -> at_cell subs d = Some id -> c = d.
  Proof.
    destruct c as [i c], d as [j d]. unfold at_cell. cbn [fst snd]. revert i j distinct. induction subs as [|s l IH]; intros i j Hn; [destruct i; discriminate|]. cbn [concat] in Hn.
    assert (Hs : forall i s' c, nth_error l i = Some s' -> nth_error s' c = Some id -> In id (concat l)). { intros k s' e H1 H2. apply in_concat. exists s'. split; eapply nth_error_In; eauto. }
    apply nodup_app_inv in Hn. destruct Hn as (N1 & N2 & N3). destruct i as [|i], j as [|j]; cbn [nth_error].
    - intros H1 H2. f_equal. apply (proj1 (NoDup_nth_error s) N1); [apply nth_error_Some|]; congruence.
    - intros H1 H2. exfalso. destruct (nth_error l j) as [s'|] eqn:E; [|discriminate]. apply (N3 id); [eapply nth_error_In; eauto|eapply Hs; eauto].
    - intros H1 H2. exfalso. destruct (nth_error l i) as [s'|] eqn:E; [|discriminate]. apply (N3 id); [eapply nth_error_In; eauto|eapply Hs; eauto].
    - intros H1 H2. specialize (IH i j N2 H1 H2). congruence.
  Qed.
  Lemma cells_get id c : nm_get id (cells_by_id subs) = Some c <-> at_cell subs c = Some id.
  Proof.
    unfold cells_by_id. set (l := flat_map _ _). assert (Hl : forall id c, In (id, c) l <-> at_cell subs c = Some id).
    { intros k [i j]. unfold l, at_cell. cbn [fst snd]. rewrite in_flat_map. split.
      - intros ([i' s] & H1 & H2). apply in_map_iff in H2. destruct H2 as ([j' k'] & E & H2). cbn [fst snd] in *. injection E as -> -> ->. apply in_enumerate in H1, H2. now rewrite H1.
      - destruct (nth_error subs i) as [s|] eqn:E; [|discriminate]. intros H. exists (i, s). split; [now apply in_enumerate|]. apply in_map_iff. exists (j, k). split; auto. now apply in_enumerate. }
    rewrite <- Hl. apply collect_get. intros k v w Hv Hw. apply Hl in Hv, Hw. eapply at_cell_inj; eauto.
  Qed.
  Lemma cells_none id : nm_get id (cells_by_id subs) = None <-> ~ In id (concat subs).
  Proof.
    split.
    - intros H Hi. apply in_concat in Hi. destruct Hi as (s & H1 & H2). apply In_nth_error in H1, H2. destruct H1 as [i H1], H2 as [j H2]. assert (X : nm_get id (cells_by_id subs) = Some (i, j)) by (apply cells_get; unfold at_cell; cbn [fst snd]; now rewrite H1). congruence.
    - intros H. destruct (nm_get id (cells_by_id subs)) as [c|] eqn:E; auto. exfalso. apply H. apply cells_get in E. unfold at_cell in E. destruct (nth_error subs (fst c)) as [s|] eqn:Es; [|discriminate]. apply in_concat. exists s. split; eapply nth_error_In; eauto.
  Qed.
  Lemma mapper_ok columns : (mapper_new subs columns <> None <-> forall id, In id columns -> In id (concat subs)) /\
    forall mp, mapper_new subs columns = Some mp -> forall c id, mapper_get mp c = Some id <-> In id columns /\ at_cell subs c = Some id.
  Proof.
    unfold mapper_new. split.
    - split.
      + intros H id Hid. destruct (in_dec N.eq_dec id (concat subs)) as [|Hn]; auto. exfalso. apply H. clear H. induction columns as [|x l IH]; [destruct Hid|]. cbn [map all_opt]. destruct Hid as [->|Hid]; [now rewrite (proj2 (cells_none id) Hn)|]. rewrite (IH Hid). now destruct (option_map _ _).
      + intros H. induction columns as [|x l IH]; cbn [map all_opt]; [discriminate|]. destruct (nm_get x (cells_by_id subs)) as [c|] eqn:E; [|apply cells_none in E; exfalso; apply E, H; now left]. cbn [option_map]. destruct (all_opt _); [discriminate|]. apply IH. intros; apply H; now right.
    - intros mp H. apply all_opt_some in H. assert (Hin : forall c id, In (c, id) mp <-> In id columns /\ at_cell subs c = Some id).
      { intros c id. rewrite <- cells_get. induction H as [|x [c' y] l l' Hx _ IH]; cbn [In]; [tauto|]. destruct (nm_get x (cells_by_id subs)) as [c0|] eqn:E; [|discriminate]. cbn [option_map] in Hx. injection Hx as -> ->. rewrite IH. split.
        - intros [[= -> ->]|[A B]]; auto.
        - intros [[->|A] B]; [left; congruence|auto]. }
      intros c id. unfold mapper_get. rewrite <- Hin. assert (Hr : forall x, In x (rev mp) <-> In x mp) by (intros; symmetry; apply in_rev).
      assert (Hu : forall c a b, In (c, a) (rev mp) -> In (c, b) (rev mp) -> a = b). { intros d a b A B. apply Hr, Hin in A. apply Hr, Hin in B. destruct A as [_ A], B as [_ B]. congruence. }
      rewrite <- Hr. clear Hin H Hr. induction (rev mp) as [|[d y] l IH]; cbn [find]; [split; [discriminate|intros []]|]. cbn [fst]. destruct (cell_eqb d c) eqn:E.
      + apply cell_eqb_eq in E. subst d. cbn [option_map snd]. split; [intros [= ->]; now left|]. intros H. f_equal. apply (Hu c); auto. now left.
      + rewrite IH by (intros x a b A B; apply (Hu x); now right). split; [intros H; now right|]. intros [[= -> ->]|H]; auto. exfalso. assert (X : cell_eqb c c = true) by now apply cell_eqb_eq. congruence.
  Qed.
End Mapper.

Section Restrict.
  Context {p : positive} (ord : list (cell * nat) -> list (cell * nat)).
  Hypothesis ord_perm : forall l, Permutation (ord l) l.
  Definition eqc_refs {R} (c : eqc R) : list R := match c with EqNum r _ => [r] | EqRef r s => [r; s] end.
  (** The references in generated equations. *)
  Lemma generate_refs {R} (mapper : cell -> option R) pcs be cs : part_ok (be_classes be) -> generate_constraints ord mapper pcs be = Some cs ->
    forall c, In c cs ->
      (exists i pc rs col v r, nth_error pcs i = Some pc /\ nm_get (as_u32 pc) (be_ranges be) = Some rs /\ In (col, (v, v)) rs /\ mapper (i, col) = Some r /\ c = EqNum r v) \/
      (exists x y r s, together (be_classes be) x y /\ mapper x = Some r /\ mapper y = Some s /\ c = EqRef r s).
  Proof.
    intros Hp Hg c Hc. unfold generate_constraints in Hg. destruct (range_constraints mapper pcs be) as [c1|] eqn:E1; [|discriminate]. destruct (equivalence_constraints ord mapper be) as [c2|] eqn:E2; [|discriminate]. injection Hg as <-. apply in_app_or in Hc. destruct Hc as [Hc|Hc]; [left|right].
    - unfold range_constraints in E1. apply (concat_all _ _ _ E1) in Hc. destruct Hc as ([i pc] & bs & Hi & Hb & Hc). apply in_enumerate in Hi. unfold range_constraints_of in Hb. cbn [fst snd] in Hb. destruct (nm_get (as_u32 pc) (be_ranges be)) as [rs|] eqn:Er; [|injection Hb as <-; destruct Hc].
      apply (concat_all _ _ _ Hb) in Hc. destruct Hc as ([col [mn mx]] & bs' & Ha & Hb' & Hc). cbn in Hb'. destruct (N.eqb_spec mn mx) as [->|]; [|injection Hb' as <-; destruct Hc]. destruct (mapper (i, col)) as [r|] eqn:Em; [|discriminate]. injection Hb' as <-. destruct Hc as [<-|[]].
      exists i, pc, rs, col, mx, r. auto.
    - unfold equivalence_constraints in E2. destruct (to_classes_ok cell_eqb cell_eqb_eq ord ord_perm (be_classes be) Hp) as (cl & E3 & _ & N0 & _ & S0). rewrite E3 in E2. apply (concat_all _ _ _ E2) in Hc. destruct Hc as (cc & bs & Hcc & Hb & Hc).
      destruct cc as [|f cc]; [discriminate|]. cbn [class_constraints] in Hb. destruct (mapper f) as [rf|] eqn:Ef; [|discriminate]. apply (all_some_in _ _ _ Hb) in Hc. destruct Hc as (z & Hz & Hc). destruct (mapper z) as [t|] eqn:Et; [|discriminate]. injection Hc as <-.
      exists f, z, rf, t. split; auto. apply S0. exists (f :: cc). cbn. auto.
  Qed.
  Lemma together_other (q : part cell) x : part_ok q -> together q x x -> exists y, x <> y /\ together q x y.
  Proof.
    intros Hq (i & Hx & _). destruct (ok_two _ Hq i (ok_ids _ Hq x i Hx)) as (u & v & Huv & Hu & Hv). assert (D : {u = x} + {u <> x}) by (repeat decide equality). destruct D as [->|D]; [exists v|exists u]; (split; [auto|exists i; auto]).
  Qed.
  Variables (mp : list (cell * N)) (lits : list (N * reglimb p)) (be : bemp).
  Hypothesis classes_ok : part_ok (be_classes be).
  Hypothesis ranges_sorted : keys_sorted (be_ranges be).
  Hypothesis ranges_all : forall pc rs, nm_get pc (be_ranges be) = Some rs -> exists rs0, rs = enumerate rs0.
  Hypothesis pcs_small : forall pc, In pc (be_pcs be) -> (pc < 2 ^ 32)%N.
  Hypothesis range_cells : forall i pc rs col r, nth_error (be_pcs be) i = Some pc -> nm_get pc (be_ranges be) = Some rs -> In (col, r) rs -> mapper_get mp (i, col) <> None.
  Hypothesis class_cells : forall c, together (be_classes be) c c -> mapper_get mp c <> None.
  Hypothesis range_values : forall pc rs col v, nm_get pc (be_ranges be) = Some rs -> In (col, (v, v)) rs -> (v < N.pos p)%N /\ (v < 2 ^ 32)%N.
  Lemma all_true_answers {A} (f : A -> option bool) l : (forall x, In x l -> f x <> None) -> answers (all_true f l) = true.
  Proof. induction l as [|x l IH]; intros H; [reflexivity|]. cbn [all_true]. destruct (f x) as [[|]|] eqn:E; auto; [apply IH; intros; apply H; now right|exfalso; apply (H x); [now left|auto]]. Qed.
  Lemma enumerate_position {A} (rs0 : list A) k x : In (k, x) (enumerate (enumerate rs0)) -> exists r, x = (k, r) /\ In x (enumerate rs0).
  Proof.
    intros H. apply in_enumerate in H. pose proof (nth_error_In _ _ H) as Hi. unfold enumerate in H. assert (G : forall (l : list A) s j, nth_error (combine (seq s (length l)) l) j = Some x -> fst x = s + j).
    { induction l as [|a l IH]; intros s [|j]; cbn; try discriminate; [intros [= <-]; cbn; lia|]. intros X. apply IH in X. lia. }
    apply G in H. destruct x as [j r]. cbn in H. subst j. exists r. auto.
  Qed.
  Lemma checkable_some c : mapper_get mp c <> None -> checkable mp lits c <> None.
  Proof. unfold checkable. destruct (mapper_get mp c); cbn; congruence. Qed.
  Lemma answers_ok : filter_answers ord (checkable mp lits) be = true.
  Proof.
    unfold filter_answers. apply andb_true_iff. split.
    - apply forallb_forall. intros [pc rs] Hr. apply forallb_forall. intros [k x] Hk. cbn [fst snd] in *. apply in_get in Hr; auto. destruct (ranges_all _ _ Hr) as [rs0 ->]. destruct (enumerate_position _ _ _ Hk) as (r & -> & Hin). apply all_true_answers.
      intros idx Hidx. apply pc_indices_in in Hidx. apply checkable_some. eapply range_cells; eauto.
    - destruct (to_classes_ok cell_eqb cell_eqb_eq ord ord_perm (be_classes be) classes_ok) as (cl & -> & _ & _ & _ & S0). apply forallb_forall. intros c Hc. apply forallb_forall. intros x Hx. assert (X : checkable mp lits x <> None). { apply checkable_some, class_cells, S0. exists c. auto. }
      destruct (checkable mp lits x); [reflexivity|congruence].
  Qed.
  Definition has_literal (c : cell) : Prop := exists id lit, mapper_get mp c = Some id /\ nm_get id lits = Some lit.
  Lemma checkable_literal c : (match checkable mp lits c with Some b => b | None => false end) = true <-> has_literal c.
  Proof.
    unfold checkable, has_literal. destruct (mapper_get mp c) as [id|]; cbn [option_map]; [|split; [discriminate|intros (? & ? & [=] & _)]]. destruct (nm_get id lits) as [lit|] eqn:E; split; try discriminate; eauto. intros (id' & lit & [= <-] & H). congruence.
  Qed.
  Lemma restricted_ok : exists cs xs, restricted ord mp lits (be_pcs be) be = Some (cs, xs) /\
    Forall2 (fun c x => constraint_of lits c = Some x) cs xs /\
    forall row : var -> F p, Forall (equation_holds row) cs <->
      ((forall pc rs col v, nm_get pc (be_ranges be) = Some rs -> In (col, (v, v)) rs -> (forall j, nth_error (be_pcs be) j = Some pc -> has_literal (j, col)) ->
          forall i r, nth_error (be_pcs be) i = Some pc -> mapper_get mp (i, col) = Some r -> row (Orig r) = of_N v) /\
       (forall x y r s, together (be_classes be) x y -> has_literal x -> has_literal y -> mapper_get mp x = Some r -> mapper_get mp y = Some s -> row (Orig r) = row (Orig s))).
  Proof.
    unfold restricted, filtered_or_panic. rewrite answers_ok. set (pred := fun c => match checkable mp lits c with Some b => b | None => false end).
    destruct (filtered_ok ord (fun l => l) ord_perm (fun l => Permutation_refl l) pred be classes_ok) as (be' & -> & P1 & P2 & P3 & P4).
    assert (G : forall pc, nm_get pc (be_ranges be') = option_map (fun rs => snd (filter_ranges pred (be_pcs be) (pc, rs))) (nm_get pc (be_ranges be))).
    { intros pc. rewrite P3. clear. induction (be_ranges be) as [|[k v] m IH]; cbn [map nm_get]; auto. unfold filter_ranges at 1. cbn [fst]. destruct (N.eqb_spec pc k) as [->|]; [reflexivity|]. exact IH. }
    assert (R : forall i pc rs col v, nth_error (be_pcs be) i = Some pc -> nm_get (as_u32 pc) (be_ranges be') = Some rs -> In (col, (v, v)) rs ->
      exists rs0, nm_get pc (be_ranges be) = Some (enumerate rs0) /\ In (col, (v, v)) (enumerate rs0) /\ forall j, nth_error (be_pcs be) j = Some pc -> has_literal (j, col)).
    { intros i pc rs col v Hi Hr Hin. unfold as_u32 in Hr. rewrite N.mod_small in Hr by (apply pcs_small; eapply nth_error_In; eauto). rewrite G in Hr. destruct (nm_get pc (be_ranges be)) as [rs1|] eqn:E; [|discriminate]. destruct (ranges_all _ _ E) as [rs0 ->]. cbn [option_map] in Hr. injection Hr as <-.
      apply filter_ranges_in in Hin. destruct Hin as [H1 H2]. exists rs0. split; auto. split; [now apply in_enumerate|]. intros j Hj. now apply checkable_literal, H2. }
    assert (C : forall x, together (be_classes be') x x -> has_literal x).
    { intros x Hx. destruct (together_other _ x P1 Hx) as (y & Hxy & Hy). apply P4 in Hy; auto. now apply checkable_literal. }
    destruct (generate_constraints ord (mapper_get mp) (be_pcs be) be') as [cs|] eqn:Eg.
    2:{ exfalso. unfold generate_constraints in Eg. destruct (range_constraints (mapper_get mp) (be_pcs be) be') as [c1|] eqn:E1.
        - destruct (equivalence_constraints ord (mapper_get mp) be') as [c2|] eqn:E2; [discriminate|]. clear Eg E1. unfold equivalence_constraints in E2. destruct (to_classes_ok cell_eqb cell_eqb_eq ord ord_perm (be_classes be') P1) as (cl & E3 & _ & N0 & L & S0). rewrite E3 in E2.
          destruct (all_some (map (class_constraints (mapper_get mp)) cl)) eqn:E4; [discriminate|]. apply all_some_none in E4. destruct E4 as (c & Hc & E4). assert (M : forall x, In x c -> mapper_get mp x <> None) by (intros x Hx; destruct (C x) as (id & lit & H & _); [apply S0; exists c; auto|congruence]).
          destruct c as [|f c]; [rewrite Forall_forall in L; apply L in Hc; cbn in Hc; lia|]. cbn [class_constraints] in E4. destruct (mapper_get mp f) as [rf|] eqn:Ef; [|apply (M f); [now left|auto]]. apply all_some_none in E4. destruct E4 as (o & Ho & E4). destruct (mapper_get mp o) eqn:Eo; [discriminate|]. apply (M o); auto. now right.
        - clear Eg. unfold range_constraints in E1. destruct (all_some (map (range_constraints_of (mapper_get mp) be') (enumerate (be_pcs be)))) eqn:E2; [discriminate|]. apply all_some_none in E2. destruct E2 as ([i pc] & Hi & E2). apply in_enumerate in Hi. unfold range_constraints_of in E2. cbn [fst snd] in E2.
          destruct (nm_get (as_u32 pc) (be_ranges be')) as [rs|] eqn:Er; [|discriminate]. destruct (all_some (map (range_constraint (mapper_get mp) i) rs)) eqn:E3; [discriminate|]. apply all_some_none in E3. destruct E3 as ([col [mn mx]] & Hin & E3). cbn in E3. destruct (N.eqb_spec mn mx) as [->|]; [|discriminate].
          destruct (R i pc rs col mx Hi Er Hin) as (rs0 & _ & _ & HL). destruct (HL i Hi) as (id & lit & H & _). rewrite H in E3. discriminate. }
    assert (X : exists xs, execution_constraints cs lits = Some xs).
    { unfold execution_constraints. assert (Y : forall c, In c cs -> exists x, constraint_of lits c = Some x).
      { intros c Hc. destruct (generate_refs _ _ _ _ P1 Eg c Hc) as [(i & pc & rs & col & v & r & Hi & Hr & Hin & Hm & ->)|(x & y & r & s & Hxy & Hr & Hs & ->)]; cbn [constraint_of].
        - destruct (R i pc rs col v Hi Hr Hin) as (rs0 & H1 & H2 & H3). destruct (H3 i Hi) as (id & lit & H4 & H5). assert (id = r) by congruence. subst id. unfold reference_exp, number_exp. rewrite H5. destruct (range_values _ _ _ _ H1 H2) as [L1 L2]. apply N.ltb_lt in L1, L2. rewrite L1, L2. cbn. eauto.
        - assert (Hx : has_literal x) by (apply C; destruct Hxy as (k & A & B); exists k; auto). assert (Hy : has_literal y) by (apply C; destruct Hxy as (k & A & B); exists k; auto). destruct Hx as (i1 & l1 & A1 & A2), Hy as (i2 & l2 & B1 & B2).
          assert (i1 = r) by congruence. assert (i2 = s) by congruence. subst. unfold reference_exp. rewrite A2, B2. cbn. eauto. }
      clear - Y. induction cs as [|c cs IH]; cbn [map all_opt]; [eauto|]. destruct (Y c) as [x ->]; [now left|]. destruct IH as [xs ->]; [intros; apply Y; now right|]. eauto. }
    destruct X as [xs Ex]. rewrite Ex. cbn [option_map]. exists cs, xs. split; auto. split; [now apply all_opt_some|]. intros row.
    transitivity (Forall (eqc_holds (fun id => val (row (Orig id)))) cs).
    { rewrite !Forall_forall. split; intros H c Hc; specialize (H c Hc); (destruct (generate_refs _ _ _ _ P1 Eg c Hc) as [(i & pc & rs & col & v & r & Hi & Hr & Hin & Hm & ->)|(x & y & r & s & Hxy & Hr & Hs & ->)]; cbn [equation_holds eqc_holds] in *; [|try (now apply F_ext); congruence]);
      destruct (R i pc rs col v Hi Hr Hin) as (rs0 & A1 & A2 & A3); destruct (range_values _ _ _ _ A1 A2) as [L1 _].
      - now rewrite H, val_of_N_small.
      - rewrite <- H. symmetry. apply of_N_val. }
    rewrite (generate_ok ord ord_perm _ _ _ _ _ P1 Eg). split; intros [H1 H2]; split.
    - intros pc rs col v Hr Hin HL i r Hi Hm. destruct (ranges_all _ _ Hr) as [rs0 ->]. rewrite <- (of_N_val (row (Orig r))). f_equal. apply (H1 i pc (snd (filter_ranges pred (be_pcs be) (pc, enumerate rs0))) col v r Hi); auto.
      + unfold as_u32. rewrite N.mod_small by (apply pcs_small; eapply nth_error_In; eauto). rewrite G, Hr. reflexivity.
      + apply filter_ranges_in. split; [now apply in_enumerate|]. intros j Hj. now apply checkable_literal, HL.
    - intros x y r s Hxy Hx Hy Hr Hs. assert (D : {x = y} + {x <> y}) by (repeat decide equality). destruct D as [->|D]; [congruence|]. apply F_ext. apply (H2 x y); auto. apply P4; auto. split; auto. now split; apply checkable_literal.
    - intros i pc rs col v r Hi Hr Hin Hm. destruct (R i pc rs col v Hi Hr Hin) as (rs0 & A1 & A2 & A3). destruct (range_values _ _ _ _ A1 A2) as [L1 _]. rewrite (H1 _ _ _ _ A1 A2 A3 i r Hi Hm). now apply val_of_N_small.
    - intros x y r s Hxy Hr Hs. f_equal. assert (D : {x = y} + {x <> y}) by (repeat decide equality). destruct D as [->|D]; [congruence|]. apply P4 in Hxy; auto. destruct Hxy as (A & B1 & B2). apply (H2 x y); auto; now apply checkable_literal.
  Qed.
End Restrict.
