(** Facts about literals for memory limbs, the mapping of cells to columns and conditions on an execution. *)
From Coq Require Import Arith NArith ZArith Bool List Lia Permutation Ring.
From Verif Require Import Field ExprModel ExprFacts SystemModel BoolLinFacts SymModel SymSpec SymFacts MemModel MemSpec MemFacts PartModel PartSpec BlocksModel EmpModel EmpSpec EmpFacts OptModel OptSpec.
Import ListNotations.

Lemma collect_in {V} k (v : V) l : nm_get k (nm_collect l) = Some v -> In (k, v) l.
Proof.
  unfold nm_collect. intros H. apply get_in in H. revert H. set (q := fold_left _ l []). enough (X : Forall (fun kv => In kv l) q) by (intros H; rewrite Forall_forall in X; exact (X _ H)).
  subst q. assert (G : forall l' m, (forall x, In x l' -> In x l) -> Forall (fun kv => In kv l) m -> Forall (fun kv => In kv l) (fold_left (fun m kv => nm_put (fst kv) (fun _ => snd kv) (snd kv) m) l' m)).
  { induction l' as [|[k0 v0] l' IH]; intros m Hl Hm; cbn [fold_left fst snd]; auto. apply IH; [intros x Hx; apply Hl; now right|]. apply put_forall; auto; intros; apply Hl; now left. }
  apply G; auto.
Qed.
Lemma collect_some {V} k (v : V) l : In (k, v) l -> nm_get k (nm_collect l) <> None.
Proof.
  unfold nm_collect. assert (G : forall l (m : list (N * V)), keys_sorted m -> (nm_get k m <> None \/ exists v, In (k, v) l) -> nm_get k (fold_left (fun m kv => nm_put (fst kv) (fun _ => snd kv) (snd kv) m) l m) <> None).
  { clear. induction l as [|[k0 v0] l IH]; intros m Hm H; cbn [fold_left fst snd]; [destruct H as [H|[v []]]; auto|]. apply IH; [now apply put_sorted|]. rewrite get_put by auto.
    destruct (N.eqb_spec k k0) as [->|Hk]; [left; discriminate|]. destruct H as [H|[v [H|H]]]; [auto|congruence|eauto]. }
  intros H. apply G; [exact I|eauto].
Qed.

Section OptFacts.
  Context {p : positive}.
  Hypothesis p_odd : (2 < N.pos p)%N.
  Lemma one_nonzero : (1 : F p)%F <> 0%F.
  Proof. intros H. apply (f_equal val) in H. revert H. unfold fone, fzero. rewrite !val_of_N, !N.mod_small by lia. lia. Qed.
  Lemma minus_nonzero : (fopp 1 : F p)%F <> 0%F.
  Proof. intros H. apply one_nonzero. apply (f_equal fopp) in H. revert H. apply (fun X => X). intros H. rewrite <- (of_N_val 1%F). revert H. unfold fopp, fone, fzero. rewrite !val_of_N, !(N.mod_small 1), (N.mod_small 0) by lia. rewrite (N.mod_small (_ - 1)) by lia.
    intros H. apply (f_equal val) in H. rewrite !val_of_N in H. replace (N.pos p - (N.pos p - 1))%N with 1%N in H by lia. rewrite N.sub_0_r, N.mod_same, N.mod_small in H by lia. lia. Qed.

  (** ** The memory *)
  Context (bus : N).
  Lemma effect_frame (g : N * F p * list (F p)) M M' a : effect bus g M M' -> ~ active bus a g -> M' a = M a.
  Proof.
    intros H Ha. destruct H as [s q l t M H|s q l t M M' H1 H2|args M|b k args M H]; auto. apply H2. intros ->. apply Ha. split; [reflexivity|]. split; [apply one_nonzero|reflexivity].
  Qed.
  Lemma effects_frame (l : list (N * F p * list (F p))) M M' a : effects bus l M M' -> (forall g, In g l -> ~ active bus a g) -> M' a = M a.
  Proof.
    revert M. induction l as [|g l IH]; cbn [effects]; intros M H Ha; auto. destruct H as (M1 & H1 & H2). rewrite (IH M1); auto; [|intros; apply Ha; now right]. apply (effect_frame g); auto. apply Ha. now left.
  Qed.
  Lemma effects_app (l l' : list (N * F p * list (F p))) M M' : effects bus (l ++ l') M M' -> exists M1, effects bus l M M1 /\ effects bus l' M1 M'.
  Proof.
    revert M. induction l as [|g l IH]; cbn [app effects]; intros M H; [exists M; auto|]. destruct H as (M1 & H1 & H2). destruct (IH _ H2) as (M2 & H3 & H4). eauto.
  Qed.
  Lemma effect_read s q (l : list (F p)) t M M' : effect bus (bus, fopp 1%F, s :: q :: l ++ [t]) M M' -> M [s; q] = l.
  Proof.
    intros H. remember (bus, fopp 1%F, s :: q :: l ++ [t]) as g eqn:Eg. destruct H as [s' q' l' t' M H1|s' q' l' t' M M' H1 H2|args M|b k args M H1];
      pose proof (f_equal snd Eg) as E1; pose proof (f_equal (fun g => snd (fst g)) Eg) as E2; pose proof (f_equal (fun g => fst (fst g)) Eg) as E3; cbn [fst snd] in E1, E2, E3; clear Eg.
    - pose proof (f_equal (skipn 2) E1) as E. cbn [skipn] in E. apply app_inj_tail in E. destruct E as [-> _]. now injection E1 as -> ->.
    - exfalso. now apply (one_not_minus p_odd).
    - exfalso. now apply minus_nonzero.
    - congruence.
  Qed.
  Lemma effect_write s q (l : list (F p)) t M M' : effect bus (bus, 1%F, s :: q :: l ++ [t]) M M' -> M' [s; q] = l.
  Proof.
    intros H. remember (bus, 1%F, s :: q :: l ++ [t]) as g eqn:Eg. destruct H as [s' q' l' t' M H1|s' q' l' t' M M' H1 H2|args M|b k args M H1];
      pose proof (f_equal snd Eg) as E1; pose proof (f_equal (fun g => snd (fst g)) Eg) as E2; pose proof (f_equal (fun g => fst (fst g)) Eg) as E3; cbn [fst snd] in E1, E2, E3; clear Eg.
    - exfalso. now apply (one_not_minus p_odd).
    - pose proof (f_equal (skipn 2) E1) as E. cbn [skipn] in E. apply app_inj_tail in E. destruct E as [-> _]. now injection E1 as -> ->.
    - exfalso. now apply one_nonzero.
    - congruence.
  Qed.
  Lemma settled_read l k s q (d : list (F p)) t M M' : effects bus l M M' -> settled bus l -> nth_error l k = Some (bus, fopp 1%F, s :: q :: d ++ [t]) -> M [s; q] = d.
  Proof.
    intros He Hs Hk. destruct (nth_error_split l k Hk) as (l1 & l2 & -> & Hl). destruct (effects_app _ _ _ _ He) as (M1 & H1 & H2). cbn [effects] in H2. destruct H2 as (M2 & H2 & _). apply effect_read in H2. rewrite <- H2. symmetry. apply (effects_frame l1); auto.
    intros g Hg Ha. apply In_nth_error in Hg. destruct Hg as [i Hi]. assert (i < length l1) by (apply nth_error_Some; congruence). destruct (Hs i k g (bus, fopp 1%F, s :: q :: d ++ [t]) [s; q]) as [_ X]; auto; [lia|rewrite nth_error_app1 by auto; auto| |cbn in X; symmetry in X; now apply (one_not_minus p_odd)].
    split; [reflexivity|]. split; [apply minus_nonzero|reflexivity].
  Qed.
  Lemma settled_write l k s q (d : list (F p)) t M M' : effects bus l M M' -> settled bus l -> nth_error l k = Some (bus, 1%F, s :: q :: d ++ [t]) -> M' [s; q] = d.
  Proof.
    intros He Hs Hk. destruct (nth_error_split l k Hk) as (l1 & l2 & -> & Hl). destruct (effects_app _ _ _ _ He) as (M1 & H1 & H2). cbn [effects] in H2. destruct H2 as (M2 & H2 & H3). apply effect_write in H2. rewrite <- H2. apply (effects_frame l2); auto.
    intros g Hg Ha. apply In_nth_error in Hg. destruct Hg as [i Hi]. destruct (Hs k (k + 1 + i) (bus, 1%F, s :: q :: d ++ [t]) g [s; q]) as [X _]; auto; [lia| | |cbn in X; now apply (one_not_minus p_odd)].
    - rewrite nth_error_app2 by lia. replace (k + 1 + i - length l1) with (Datatypes.S i) by lia. exact Hi.
    - split; [reflexivity|]. split; [apply one_nonzero|reflexivity].
  Qed.

  (** ** Extracted accesses *)
  Lemma try_extract_ok idx (b : sbus p) c : try_extract bus idx b = Some (Some c) ->
    exists op s q, ca_instr c = (match op with GetPrevious => idx | SetNew => idx + 1 end) /\ ca_addr c = [s; q] /\
      (forall row, exists t, message row b = (bus, (match op with GetPrevious => fopp 1%F | SetNew => 1%F end), s :: q :: map row (ca_limbs c) ++ [t])) /\
      (forall v, In v (ca_limbs c) -> exists e, In e (sb_args b) /\ occurs v e /\ forall row, aeval row e = row v).
  Proof.
    unfold try_extract, to_bus. destruct (N.ltb_spec (sb_id b) (N.pos p)) as [Hid|]; [|discriminate]. set (bi := mkBus _ _ _). destruct (try_from_bus bus bi) as [| | |m] eqn:Ec; try discriminate.
    destruct (all_opt (map try_to_known (mi_addr m))) as [addr|] eqn:Ea; [|discriminate]. destruct (all_opt (map try_to_simple_unknown (mi_data m))) as [limbs|] eqn:El; [|discriminate]. intros [= <-]. cbn [ca_instr ca_addr ca_limbs].
    pose proof Ec as Ec0. unfold try_from_bus in Ec0. destruct (try_to_known (bus_id bi)) as [kid|]; [|discriminate]. destruct (N.ltb_spec bus (N.pos p)) as [Hbus|]; [clear Ec0|discriminate].
    destruct (conv_access bus bi m Ec) as (Hacc & (space & Hp & Hsp) & Hts). unfold mi_addr in Ea. cbn [map all_opt] in Ea. destruct (try_to_known (from_number (mi_space m))) as [s|] eqn:Es; [|discriminate]. destruct (try_to_known (mi_local m)) as [q|] eqn:Eq; [|discriminate]. injection Ea as <-.
    apply all_opt_some in El. assert (Hd : forall row, map (eval row) (mi_data m) = map row limbs).
    { intros row. clear - El. induction El as [|e v l l' Hev _ IH]; cbn; [auto|]. rewrite IH. f_equal. now apply try_to_simple_unknown_eval. }
    exists (mi_op m), s, q. split; [reflexivity|]. split; [reflexivity|]. split.
    - intros row. destruct (Hacc row) as (A1 & A2 & A3). destruct (mi_ts m) as [|t [|]] eqn:Et; try discriminate. exists (eval row t). unfold message. subst bi. cbn [bmap bus_id mult payload fst snd] in A1, A2, A3. f_equal; [f_equal|].
      + rewrite (try_to_known_eval row (from_number (of_N (sb_id b))) (of_N (sb_id b)) eq_refl) in A1. apply (f_equal val) in A1. now rewrite !val_of_N_small in A1 by auto.
      + rewrite <- to_grouped_eval, A2. now destruct (mi_op m).
      + rewrite map_map, (map_ext _ (aeval row)) in A3 by (intros; apply to_grouped_eval). rewrite A3, map_app, Hd, (try_to_known_eval row _ _ Eq). cbn [map]. injection Es as <-. reflexivity.
    - intros v Hv. assert (X : exists e, In e (mi_data m) /\ e = from_var v).
      { clear - El Hv. induction El as [|e w l l' Hev _ IH]; [destruct Hv|]. destruct Hv as [->|Hv]; [exists e; split; [now left|now apply simple_unknown_inv]|]. destruct (IH Hv) as (e' & A & B). exists e'. split; [now right|auto]. }
      destruct X as (e & He & ->). assert (Hi : In (from_var v) (payload bi)) by (rewrite Hp; right; right; apply in_or_app; auto). subst bi. cbn [payload] in Hi. apply in_map_iff in Hi. destruct Hi as (x & Hx & Hi). exists x. split; auto. split; [apply to_grouped_vars; rewrite Hx; cbn; now left|]. intros row. rewrite <- to_grouped_eval, Hx. apply eval_from_var.
  Qed.
  Lemma alloc_above (m : smach p) n : column_of m (Orig n) -> (n < al_next (alloc_from_machine m))%N.
  Proof.
    clear p_odd. intros H. apply column_children in H. destruct H as (e & He & Ho). assert (X : In n (map vid (sm_refs m))).
    { apply in_map_iff. exists (Orig n). split; auto. apply in_flat_map. exists e. split; auto. clear He. revert Ho. induction e; cbn; auto; try tauto. intros [H|H]; apply in_or_app; auto. }
    cbn [alloc_from_machine al_next]. assert (G : forall l a, (a <= fold_left N.max l a)%N /\ forall x, In x l -> (x <= fold_left N.max l a)%N).
    { clear. induction l as [|y l IH]; intros a; cbn [fold_left]; [split; [lia|intros x []]|]. destruct (IH (N.max a y)) as [A B]. split; [lia|]. intros x [->|Hx]; [lia|auto]. }
    destruct (G (map vid (sm_refs m)) 0%N) as [_ B]. specialize (B n X). lia.
  Qed.
  Context (optimize : smach p -> allocator -> option (smach p)).
  Lemma enumerate_in' {A} (l : list A) i x : In (i, x) (enumerate l) <-> nth_error l i = Some x.
  Proof. apply in_enumerate. Qed.
  (** Where a literal comes from. *)
  Lemma literal_source ms a lits id lit : literals_of optimize bus ms a = Some lits -> nm_get id lits = Some lit ->
    exists i m m' b c v, nth_error ms i = Some m /\ optimize m (alloc_from_machine m) = Some m' /\ In b (sm_buses m') /\
      try_extract bus i b = Some (Some c) /\ nth_error (ca_limbs c) (rl_limb lit) = Some v /\ vid v = id /\ (id < al_next a)%N /\
      rl_instr lit = ca_instr c /\ rl_addr lit = ca_addr c.
  Proof.
    unfold literals_of. destruct (all_opt (map (extract_accesses optimize bus) (enumerate ms))) as [l|] eqn:El; [|discriminate]. intros [= <-] H. apply collect_in in H. apply in_flat_map in H. destruct H as (c & Hc & H).
    unfold limb_mapping in H. apply in_flat_map in H. destruct H as ([k v] & Hk & H). cbn [fst snd] in H. apply enumerate_in' in Hk. unfold is_known in H. destruct (N.ltb_spec (vid v) (al_next a)) as [L|]; [|destruct H]. destruct H as [[= <- <-]|[]]. cbn [rl_instr rl_addr rl_limb].
    apply in_concat in Hc. destruct Hc as (cs & H1 & H2). apply all_opt_some in El. assert (X : exists im, In im (enumerate ms) /\ extract_accesses optimize bus im = Some cs).
    { clear - El H1. induction El as [|x y q q' Hxy _ IH]; [destruct H1|]. destruct H1 as [->|H1]; [exists x; split; auto; now left|]. destruct (IH H1) as (im & A & B). exists im. split; auto. now right. }
    destruct X as ([i m] & Hi & Hx). apply enumerate_in' in Hi. unfold extract_accesses in Hx. cbn [fst snd] in Hx. destruct (optimize m (alloc_from_machine m)) as [m'|] eqn:Em; [|discriminate]. destruct (all_opt (map (try_extract bus i) (sm_buses m'))) as [os|] eqn:Eo; [|discriminate]. cbn [option_map] in Hx. injection Hx as <-.
    apply in_flat_map in H2. destruct H2 as (o & Ho & H2). destruct o as [c'|]; [|destruct H2]. destruct H2 as [->|[]]. apply all_opt_some in Eo. assert (X : exists b, In b (sm_buses m') /\ try_extract bus i b = Some (Some c)).
    { clear - Eo Ho. induction Eo as [|x y q q' Hxy _ IH]; [destruct Ho|]. destruct Ho as [->|Ho]; [exists x; split; auto; now left|]. destruct (IH Ho) as (im & A & B). exists im. split; auto. now right. }
    destruct X as (b & Hb & Hx). exists i, m, m', b, c, v. auto 12.
  Qed.
  (** A literal has the value of its column. *)
  Lemma literal_value ms a lits id lit row before : optimizes bus optimize -> literals_of optimize bus ms a = Some lits ->
    execution bus ms row before ->
    (forall i m m', nth_error ms i = Some m -> optimize m (alloc_from_machine m) = Some m' -> forall row', accepts m' row' -> settled bus (messages m' row')) ->
    nm_get id lits = Some lit ->
    exists i m m' v, nth_error ms i = Some m /\ optimize m (alloc_from_machine m) = Some m' /\ (rl_instr lit = i \/ rl_instr lit = i + 1) /\ vid v = id /\ (id < al_next a)%N /\
      column_of m' v /\ argument_of bus m' v /\ (column_of m v -> limb_value before lit = Some (row v)).
  Proof.
    intros Hopt Hl Hex Hset Hid. destruct (literal_source ms a lits id lit Hl Hid) as (i & m & m' & b & c & v & Hi & Em & Hb & Hx & Hv & Hvid & Hlt & Hin & Had).
    destruct (try_extract_ok i b c Hx) as (op & s & q & Hop & Hca & Hmsg & Hocc). exists i, m, m', v. split; auto. split; auto. split; [destruct op; lia|]. split; auto. split; auto. split.
    { right. apply Exists_exists. exists b. split; auto. right. apply Exists_exists. destruct (Hocc v) as (e & H1 & H2 & _); [eapply nth_error_In; eauto|]. eauto. }
    split.
    { destruct (Hocc v) as (e & H1 & H2 & H3); [eapply nth_error_In; eauto|]. exists b, e. split; auto. split; [|auto]. destruct (Hmsg row) as [t Ht]. exact (f_equal (fun g => fst (fst g)) Ht). }
    intros Hcol. destruct (Hex i m Hi) as [Hacc Heff]. destruct (Hopt m _ m' (alloc_above m) Em) as (_ & Hop2). destruct (Hop2 row _ _ Hacc Heff) as (row' & Hsame & Hacc' & Heff'). specialize (Hset i m m' Hi Em row' Hacc').
    apply In_nth_error in Hb. destruct Hb as [k Hk]. destruct (Hmsg row') as [t Ht]. assert (Hmk : nth_error (messages m' row') k = Some (message row' b)) by (unfold messages; now rewrite (map_nth_error _ _ _ Hk)). rewrite Ht in Hmk.
    assert (X : before (rl_instr lit) [s; q] = map row' (ca_limbs c)). { rewrite Hin, Hop. destruct op; [eapply settled_read|eapply settled_write]; eauto. }
    unfold limb_value. rewrite Had, Hca, X. rewrite (map_nth_error _ _ _ Hv). f_equal. now apply Hsame.
  Qed.

  (** ** Conditions *)
  Lemma condition_ok lits (row : var -> F p) before : (forall id lit, nm_get id lits = Some lit -> limb_value before lit = Some (row (Orig id))) ->
    forall c x, constraint_of lits c = Some x -> (condition_holds before x <-> equation_holds row c).
  Proof.
    intros Hl c x. unfold constraint_of, condition_holds, equation_holds, reference_exp, number_exp. destruct c as [r v|r s].
    - destruct (nm_get r lits) as [lr|] eqn:Er; [|discriminate]. cbn [option_map]. destruct (N.ltb_spec v (N.pos p)) as [L1|]; [|discriminate]. destruct (v <? 2 ^ 32)%N; [|discriminate]. cbn [andb]. intros [= <-]. cbn [xleft xright condition_value]. rewrite (Hl _ _ Er). cbn [option_map]. split.
      + intros (w & E1 & E2). assert (E3 : val (row (Orig r)) = v) by congruence. rewrite <- E3. symmetry. apply of_N_val.
      + intros ->. exists v. split; auto. now rewrite val_of_N_small.
    - destruct (nm_get r lits) as [lr|] eqn:Er; [|discriminate]. destruct (nm_get s lits) as [ls|] eqn:Es; [|discriminate]. cbn [option_map]. intros [= <-]. cbn [xleft xright condition_value]. rewrite (Hl _ _ Er), (Hl _ _ Es). cbn [option_map]. split.
      + intros (w & E1 & E2). apply F_ext. congruence.
      + intros ->. eauto.
  Qed.
End OptFacts.
