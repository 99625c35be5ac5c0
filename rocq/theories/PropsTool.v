(** C79: the listing of a 64-bit program shows its labels, symbols and jumps. *)
From Coq Require Import Arith NArith ZArith Bool List Lia Sorted Permutation.
From Verif Require DbgModel DbgSpec DbgFacts PropsElf.
From Verif Require Import ElfModel WideModel WideSpec PropsWide ToolModel.
Import ListNotations.
Local Open Scope N_scope.

Definition printed (decode64 : N -> option ins) (file : list N) (e : elf64) (l : listing) : Prop :=
  exists L, compute_jumpdests decode64 file e = Some L /\ print_elf_info_64 L = mkOutput (e_entry e) (pc_base L) (Some l).

Lemma sorted_nodup {A} (f : A -> N) l : StronglySorted (fun a b => f a < f b) l -> NoDup (map f l).
Proof.
  induction 1 as [|x l H IH Q]; cbn; constructor; auto. intros I. apply in_map_iff in I. destruct I as (y & E & I). rewrite Forall_forall in Q. specialize (Q y I). lia.
Qed.

(** Whenever the program is read, its listing is shown: the message that there are no labels never appears.  The rows are the labels
    and jump targets of the program in ascending order, each with the first symbol there of those with names, or with no text. *)
Theorem C79_rows : forall decode64 file e L, compute_jumpdests decode64 file e = Some L ->
  exists l, print_elf_info_64 L = mkOutput (e_entry e) (pc_base L) (Some l) /\
  StronglySorted (fun x y => fst x < fst y) (t_rows l) /\ t_total l = length (t_rows l) /\
  (forall t, In t (map fst (t_rows l)) <-> t = e_entry e \/ (exists s, text_symbol e t s) \/ exists ph j, In ph (e_phs e) /\ known_jump decode64 file ph j /\ j_target j = t) /\
  forall t n, In (t, n) (t_rows l) ->
    (exists l1 s l2, e_syms e = l1 ++ s :: l2 /\ text_symbol e t s /\ s_name s = Some n /\ forall s', In s' l1 -> text_symbol e t s' -> s_name s' = None) \/
    (n = [] /\ forall s, text_symbol e t s -> s_name s = None).
Proof.
  intros d file e L H. destruct (C71_labels _ _ _ _ H) as (E & So & A). destruct (C71_symbols _ _ _ _ H) as (keep & K & Sy).
  unfold print_elf_info_64. rewrite E. assert (I : In (e_entry e) (jumpdests L)) by (apply A; auto). destruct (jumpdests L) as [|x ds] eqn:Ej; [destruct I|]. clear I. cbv zeta.
  eexists. split; [reflexivity|]. cbn [t_rows t_total]. set (js := x :: ds) in *. clearbody js. split; [|split; [now rewrite map_length|split]].
  - clear - So. induction So as [|y l H IH Q]; cbn; constructor; auto. rewrite Forall_forall in *. intros z Z. apply in_map_iff in Z. destruct Z as (w & <- & W). cbn. auto.
  - intros t. rewrite map_map. cbn. rewrite map_id. apply A.
  - intros t n I. apply in_map_iff in I. destruct I as (y & Q & _). injection Q as -> Q. clear A So.
    assert (G : forall sl (sy : list (N * list N)), (forall s, In s sl -> (keep s = true <-> s_name s <> None /\ text_symbol e (s_value s) s)) ->
      map (fun x => (fst x, Some (snd x))) sy = map (fun s => (s_value s, s_name s)) (filter keep sl) ->
      (exists l1 s l2, sl = l1 ++ s :: l2 /\ text_symbol e t s /\ s_name s = Some (symbol_at sy t) /\ forall s', In s' l1 -> text_symbol e t s' -> s_name s' = None) \/
      (symbol_at sy t = [] /\ forall s, In s sl -> text_symbol e t s -> s_name s = None)).
    { clear. induction sl as [|s sl IH]; intros sy K M.
      - cbn in M. destruct sy; [|discriminate]. right. split; [reflexivity|intros s []].
      - cbn [filter] in M. destruct (keep s) eqn:Ks.
        + destruct sy as [|[a n] sy]; [discriminate|]. cbn [map fst snd] in M. injection M as M1 M2 M3. destruct (proj1 (K s (or_introl eq_refl)) Ks) as [_ Ts]. unfold symbol_at. cbn [find fst]. destruct (N.eqb_spec a t) as [->|Ne].
          * left. exists [], s, sl. cbn [snd app]. rewrite M1 in *. split; auto. split; [exact Ts|]. split; auto. intros s' [].
          * destruct (IH sy (fun s' I => K s' (or_intror I)) M3) as [(l1 & s' & l2 & -> & X1 & X2 & X3)|[X1 X2]].
            -- left. exists (s :: l1), s', l2. split; auto. split; auto. split; auto. intros s'' [<-|I] T; auto. destruct T as (_ & T & _). congruence.
            -- right. split; auto. intros s'' [<-|I] T; auto. destruct T as (_ & T & _). congruence.
        + assert (Ns : text_symbol e t s -> s_name s = None).
          { intros T. destruct (s_name s) eqn:Es; auto. exfalso. assert (keep s = true); [|congruence]. apply (K s (or_introl eq_refl)). rewrite Es. split; [discriminate|]. destruct T as (T1 & T2 & T3). rewrite T2. repeat split; auto; apply T3. }
          destruct (IH sy (fun s' I => K s' (or_intror I)) M) as [(l1 & s' & l2 & -> & X1 & X2 & X3)|[X1 X2]].
          * left. exists (s :: l1), s', l2. split; auto. split; auto. split; auto. intros s'' [<-|I] T; auto.
          * right. split; auto. intros s'' [<-|I] T; auto. }
    destruct (G (e_syms e) (symbols L) K Sy) as [(l1 & s & l2 & X1 & X2 & X3 & X4)|[X1 X2]].
    + left. exists l1, s, l2. rewrite <- Q. auto.
    + right. split; [congruence|]. intros s T. apply X2; auto. apply T.
Qed.
Print Assumptions C79_rows.

(** The jumps shown are exactly those with a known target at which there is no symbol; their targets ascend. *)
Theorem C79_jumps : forall decode64 file e l, printed decode64 file e l ->
  StronglySorted (fun x y => fst (fst x) <= fst (fst y)) (t_jumps l) /\
  forall t a i, In (t, a, i) (t_jumps l) <-> (exists ph, In ph (e_phs e) /\ known_jump decode64 file ph (mkJump t a i)) /\ forall s, ~ text_symbol e t s.
Proof.
  intros d file e l (L & H & P). destruct (C71_debug _ _ _ _ H) as (So & ls & B & C).
  assert (Q : t_jumps l = flat_map (fun e => map (fun j => (fst e, j_from j, j_text j)) (snd e)) (with_debug L)).
  { unfold print_elf_info_64 in P. destruct (jumpdests L) as [|x0 ds0]; [discriminate|]. cbv zeta in P. injection P as _ <-. reflexivity. }
  rewrite Q. split.
  - clear - So. induction So as [|[t js] r H IH F0]; cbn [flat_map fst snd]; [constructor|]. induction js as [|j js IJ]; cbn [map app]; auto. constructor; auto. apply Forall_forall. intros x X. apply in_app_or in X. destruct X as [X|X].
    + apply in_map_iff in X. destruct X as (j' & <- & _). cbn. lia.
    + apply in_flat_map in X. destruct X as (y & Y & X). rewrite Forall_forall in F0. specialize (F0 y Y). apply in_map_iff in X. destruct X as (j' & <- & _). cbn in *. lia.
  - assert (K : forall j, In j (concat ls) <-> exists ph, In ph (e_phs e) /\ known_jump d file ph j).
    { intros j. assert (Kx : forall ph, known_jump d file ph j -> ph_exec ph = true) by (intros ph X; inversion X as [k i z (Y & _)|k i z (Y & _)|k i i' h l0 (Y & _)]; auto).
      assert (G : In j (concat ls) <-> exists ph, In ph (filter ph_exec (e_phs e)) /\ known_jump d file ph j).
      { clear C. induction B as [|ph js phs ls [P1 _] B IH]; cbn [concat]; [split; [intros []|intros (x & [] & _)]|]. rewrite in_app_iff, IH, P1. split.
        - intros [X|(q & Y & X)]; [exists ph; split; [now left|auto]|exists q; split; [now right|auto]].
        - intros (q & [<-|Y] & X); auto. right. exists q. auto. }
      rewrite G. split; intros (ph & Y & X); exists ph; split; auto; [apply filter_In in Y; tauto|apply filter_In; split; eauto]. }
    intros t a i. rewrite in_flat_map. split.
    + intros ([t' js] & I & J). cbn [fst snd] in J. apply in_map_iff in J. destruct J as (j & Ej & J). injection Ej as -> <- <-. apply C in I. destruct I as (N0 & _ & ->). apply filter_In in J. destruct J as [J T]. apply N.eqb_eq in T. split; auto.
      apply K. destruct j as [t0 a0 i0]. cbn in *. now subst.
    + intros [X N0]. apply K in X. exists (t, filter (fun j => j_target j =? t) (concat ls)). assert (I : In (mkJump t a i) (filter (fun j => j_target j =? t) (concat ls))) by (apply filter_In; split; auto; apply N.eqb_refl).
      split; [apply C; repeat split; auto; intros E0; rewrite E0 in I; destruct I|]. cbn [fst snd]. apply in_map_iff. exists (mkJump t a i). auto.
Qed.
Print Assumptions C79_jumps.

Lemma insert_perm x l : Permutation (insert_name x l) (x :: l).
Proof.
  induction l as [|y l IH]; cbn [insert_name]; auto. destruct (DbgModel.text_compare (snd x) (snd y)); auto. rewrite IH. apply perm_swap.
Qed.
Definition name_le (x y : N * list N) : Prop := DbgModel.text_compare (snd x) (snd y) <> Gt.
Lemma le_trans x y z : name_le x y -> name_le y z -> name_le x z.
Proof.
  assert (K : forall a b, DbgModel.text_compare a b <> Gt <-> a = b \/ DbgSpec.text_lt a b).
  { intros a b. rewrite <- DbgFacts.text_compare_eq, <- DbgFacts.text_compare_lt. destruct (DbgModel.text_compare a b); intuition congruence. }
  unfold name_le. rewrite !K. intros [-> |A] [B|B]; auto; [rewrite <- B; auto|]. right. eapply DbgFacts.text_lt_trans; eauto.
Qed.
Lemma sort_ok l : Permutation (sort_names l) l /\ StronglySorted name_le (sort_names l) /\
  forall n : list N, filter (fun s : N * list N => DbgModel.text_eqb (snd s) n) (sort_names l) = filter (fun s : N * list N => DbgModel.text_eqb (snd s) n) l.
Proof.
  induction l as [|x l (P & So & F0)]; cbn [sort_names fold_right]; [split; [auto|split; [constructor|reflexivity]]|]. fold (sort_names l). split; [rewrite insert_perm; now constructor|].
  assert (I : forall m, StronglySorted name_le m -> StronglySorted name_le (insert_name x m) /\ forall n : list N, filter (fun s : N * list N => DbgModel.text_eqb (snd s) n) (insert_name x m) = filter (fun s : N * list N => DbgModel.text_eqb (snd s) n) (x :: m)).
  { clear. induction m as [|y m IH]; intros H; cbn [insert_name]; [split; [repeat constructor|reflexivity]|]. inversion_clear H as [|? ? H1 H2]. destruct (DbgModel.text_compare (snd x) (snd y)) eqn:E.
    - split; [|reflexivity]. assert (Q : name_le x y) by (unfold name_le; congruence). constructor; [constructor; auto|]. constructor; auto. rewrite Forall_forall in *. intros z Z. eapply le_trans; eauto.
    - split; [|reflexivity]. assert (Q : name_le x y) by (unfold name_le; congruence). constructor; [constructor; auto|]. constructor; auto. rewrite Forall_forall in *. intros z Z. eapply le_trans; eauto.
    - destruct (IH H1) as [I1 I2]. split.
      + constructor; auto. apply Forall_forall. intros z Z. apply (Permutation_in _ (insert_perm x m)) in Z. destruct Z as [<-|Z]; [|rewrite Forall_forall in H2; auto]. unfold name_le. rewrite DbgFacts.text_compare_antisym, E. discriminate.
      + intros n. cbn [filter]. rewrite I2. cbn [filter]. destruct (DbgModel.text_eqb (snd x) n) eqn:Ex, (DbgModel.text_eqb (snd y) n) eqn:Ey; auto. exfalso.
        unfold DbgModel.text_eqb in *. destruct (DbgModel.text_compare (snd x) n) eqn:Cx; try discriminate. destruct (DbgModel.text_compare (snd y) n) eqn:Cy; try discriminate. apply DbgFacts.text_compare_eq in Cx, Cy. rewrite Cx, Cy, (proj2 (DbgFacts.text_compare_eq n n) eq_refl) in E. discriminate. }
  destruct (I _ So) as [I1 I2]. split; auto. intros n. rewrite I2. cbn [filter]. now rewrite F0.
Qed.

(** The map of labels has the symbols of code with their names, in the order of the names, and those of one name in the order of the file;
    their number is shown, and that of those that look like functions (if there are any). *)
Theorem C79_map : forall decode64 file e l, printed decode64 file e l ->
  exists (named : list (N * list N)) (keep : sym64 -> bool),
  (forall s, In s (e_syms e) -> (keep s = true <-> s_name s <> None /\ text_symbol e (s_value s) s)) /\
  map (fun x => (fst x, Some (snd x))) named = map (fun s => (s_value s, s_name s)) (filter keep (e_syms e)) /\
  Permutation (t_map l) (map (fun s => (snd s, fst s)) named) /\
  StronglySorted (fun x y => DbgModel.text_compare (fst x) (fst y) <> Gt) (t_map l) /\
  (forall n, filter (fun s => DbgModel.text_eqb (fst s) n) (t_map l) = map (fun s => (snd s, fst s)) (filter (fun s : N * list N => DbgModel.text_eqb (snd s) n) named)) /\
  t_named l = length named /\
  match t_functions l with Some k => k | None => O end = length (filter (fun s => is_function (snd s)) named) /\ t_functions l <> Some O.
Proof.
  intros d file e l (L & H & P). destruct (C71_symbols _ _ _ _ H) as (keep & K & Sy). exists (symbols L), keep. split; auto. split; auto.
  unfold print_elf_info_64 in P. destruct (jumpdests L) as [|x0 ds0]; [discriminate|]. cbv zeta in P. injection P as _ <-. cbn [t_map t_named t_functions]. destruct (sort_ok (symbols L)) as (A & B & C).
  split; [now apply Permutation_map|]. split; [|split; [|split; [reflexivity|]]].
  - clear - B. induction B as [|x m H IH Q]; cbn; constructor; auto. rewrite Forall_forall in *. intros z Z. apply in_map_iff in Z. destruct Z as (w & <- & W). cbn. exact (Q w W).
  - intros n. rewrite <- C. clear. generalize (sort_names (symbols L)). clear. induction l as [|x m IH]; auto. cbn [map filter fst snd]. destruct (DbgModel.text_eqb (snd x) n); cbn [map]; now rewrite IH.
  - destruct (Nat.eqb_spec (length (filter (fun s => is_function (snd s)) (symbols L))) 0) as [E|E]; split; auto; try discriminate. congruence.
Qed.
Print Assumptions C79_map.

(** No symbol is at the entry point and no known jump goes there. *)
Definition lonely (decode64 : N -> option ins) (file : list N) (e : elf64) : Prop :=
  (forall s, ~ text_symbol e (e_entry e) s) /\ forall ph j, In ph (e_phs e) -> known_jump decode64 file ph j -> j_target j <> e_entry e.
(** The number of jump destinations without symbols leaves out an entry point without a symbol to which no known jump goes. *)
Theorem C79_without : forall decode64 file e l, printed decode64 file e l ->
  forall bare, NoDup bare -> (forall t, In t bare <-> In t (map fst (t_rows l)) /\ forall s, ~ text_symbol e t s) ->
  (length bare = t_without l /\ ~ lonely decode64 file e) \/ (length bare = S (t_without l) /\ lonely decode64 file e).
Proof.
  intros d file e l (L & H & P) bare N0 Hb. destruct (C71_labels _ _ _ _ H) as (E & So & A). destruct (C71_debug _ _ _ _ H) as (Sd & _). pose proof (C71_explained _ _ _ _ H) as X.
  destruct (C79_jumps d file e l (ex_intro _ L (conj H P))) as [_ J].
  assert (R : map fst (t_rows l) = jumpdests L /\ t_without l = length (with_debug L) /\ t_jumps l = flat_map (fun e => map (fun j => (fst e, j_from j, j_text j)) (snd e)) (with_debug L)).
  { unfold print_elf_info_64 in P. destruct (jumpdests L) eqn:Ej; [discriminate|]. cbv zeta in P. injection P as _ <-. cbn [t_rows t_without t_jumps]. split; [|auto]. cbn [map fst]. f_equal. rewrite map_map. cbn [fst]. apply map_id. }
  destruct R as (R1 & R2 & R3). rewrite R1 in Hb. rewrite R2.
  pose proof (sorted_nodup _ _ Sd) as Nd. set (ks := map fst (with_debug L)) in *.
  assert (Hk : forall t, In t ks <-> (exists ph j, In ph (e_phs e) /\ known_jump d file ph j /\ j_target j = t) /\ forall s, ~ text_symbol e t s).
  { intros t. split.
    - intros I. apply in_map_iff in I. destruct I as ([t' js] & <- & I). cbn [fst]. destruct (C71_debug _ _ _ _ H) as (_ & ls & _ & C). pose proof (proj1 (C t' js) I) as (C1 & C2 & C3).
      destruct js as [|j js]; [congruence|]. assert (Q : In (t', j_from j, j_text j) (t_jumps l)) by (rewrite R3; apply in_flat_map; exists (t', j :: js); split; auto; now left).
      apply J in Q. destruct Q as [(ph & Q1 & Q2) Q3]. split; auto. exists ph. eexists. split; [exact Q1|]. split; [exact Q2|reflexivity].
    - intros [(ph & [t' a i] & Q1 & Q2 & Q3) Q4]. cbn in Q3. subst t'. assert (Q : In (t, a, i) (t_jumps l)) by (apply J; split; eauto). rewrite R3 in Q. apply in_flat_map in Q. destruct Q as ([t' js] & I & Q). apply in_map_iff in Q.
      destruct Q as (j & Q & _). injection Q as -> _ _. apply in_map_iff. exists (t, js). auto. }
  assert (Lk : length ks = length (with_debug L)) by apply map_length. rewrite <- Lk.
  assert (Hb' : forall t, In t bare <-> (t = e_entry e /\ forall s, ~ text_symbol e t s) \/ In t ks).
  { intros t. rewrite Hb, A, Hk. split.
    - intros [[Y|[[s Y]|Y]] Z]; auto. exfalso. exact (Z s Y).
    - intros [[Y Z]|[Y Z]]; auto. }
  destruct (in_dec N.eq_dec (e_entry e) ks) as [I|I].
  - left. split; [|intros [_ Y]; apply Hk in I; destruct I as [(ph & j & I1 & I2 & I3) _]; exact (Y ph j I1 I2 I3)]. apply Nat.le_antisymm; apply NoDup_incl_length; auto; intros t T; [|apply Hb'; auto]. apply Hb' in T. destruct T as [[-> _]|T]; auto.
  - destruct (in_dec N.eq_dec (e_entry e) bare) as [I'|I'].
    + right. apply Hb' in I'. destruct I' as [[_ I']|I']; [|contradiction]. split; [|split; auto].
      * change (S (length ks)) with (length (e_entry e :: ks)). apply Nat.le_antisymm; apply NoDup_incl_length; [exact N0| |now constructor|].
        -- intros t T. apply Hb' in T. destruct T as [[-> _]|T]; [now left|now right].
        -- intros t [<-|T]; apply Hb'; auto.
      * intros ph j Q1 Q2 Q3. apply I. apply Hk. split; eauto.
    + left. split.
      * apply Nat.le_antisymm; apply NoDup_incl_length; auto; intros t T; [|apply Hb'; auto]. assert (T' := T). apply Hb' in T. destruct T as [[-> _]|T]; [contradiction|auto].
      * intros [Y _]. apply I'. apply Hb'. auto.
Qed.
Print Assumptions C79_without.

(** The listing of the example of C71 with one more symbol: an entry point with a jump to it. *)
Definition shown (e : elf64) : option output := match compute_jumpdests PropsElf.decode program e with Some L => Some (print_elf_info_64 L) | None => None end.
Example C79_example :
  shown (mkElf64 true true true 0x1000 [mkPh64 true 0x1000 20 2 20] [mkSym64 0x1008 (Some [103]); mkSym64 0x1004 (Some [36; 100]); mkSym64 0x1008 (Some [102])]) =
  Some (mkOutput 0x1000 0x1000 (Some (mkListing
    [(0x1000, []); (0x1004, [36; 100]); (0x1008, [103]); (0x1010, [])] 4 3 2 (Some 2%nat)
    [([36; 100], 0x1004); ([102], 0x1008); ([103], 0x1008)]
    [(0x1000, 0x1004, TBranch BEQ (Some 1) (Some 2)); (0x1010, 0x1008, TJal (Some 0))]))).
Proof. vm_compute. reflexivity. Qed.
(** A lonely entry point: it has a row without a symbol, but is not counted. *)
Theorem C79_without_refuted : exists e l, shown e = Some (mkOutput (e_entry e) 0x1000 (Some l)) /\ t_without l = 2%nat /\
  length (filter (fun r => match snd r with [] => true | _ => false end) (t_rows l)) = 3%nat.
Proof.
  exists (mkElf64 true true true 0x100c [mkPh64 true 0x1000 20 2 20] [mkSym64 0x1008 (Some [103])]). eexists. split; [vm_compute; reflexivity|]. split; vm_compute; reflexivity.
Qed.
Print Assumptions C79_without_refuted.

(** A name looks like a function if it does not start with a dollar and has no dot. *)
Theorem C79_functions : forall n, is_function n = true <-> (forall r, n <> 36 :: r) /\ ~ In 46 n.
Proof.
  intros n. unfold is_function. rewrite andb_true_iff, !negb_true_iff. split; intros [A B]; split.
  - intros r ->. discriminate A.
  - intros I. assert (existsb (N.eqb 46) n = true) by (apply existsb_exists; exists 46; split; auto). congruence.
  - destruct n as [|c r]; auto. apply N.eqb_neq. intros ->. now apply (A r).
  - destruct (existsb (N.eqb 46) n) eqn:E; auto. apply existsb_exists in E. destruct E as (x & X & Q). apply N.eqb_eq in Q. subst. contradiction.
Qed.
Print Assumptions C79_functions.
