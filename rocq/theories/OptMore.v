(** Which limbs of memory accesses have literals. *)
From Coq Require Import Arith NArith ZArith Bool List Lia.
From Verif Require Import Field ExprModel ExprFacts SystemModel SymModel SymSpec SymFacts MemModel MemFacts EmpModel EmpFacts OptModel OptSpec OptFacts.
Import ListNotations.

Section OptMore.
  Context {p : positive} (bus : N).
  Hypothesis p_odd : (2 < N.pos p)%N.
  Hypothesis bus_small : (bus < N.pos p)%N.
  Lemma split_last_snoc {A} (l : list A) x : split_last (l ++ [x]) = Some (l, x).
  Proof. unfold split_last. rewrite rev_app_distr. cbn [rev app]. now rewrite rev_involutive. Qed.
  Lemma try_extract_some idx (b : sbus p) : (sb_id b < N.pos p)%N -> (sb_id b = bus -> exists s q r, sb_args b = ANum s :: q :: r /\ r <> []) -> exists o, try_extract bus idx b = Some o.
  Proof.
    intros Hid Hb. unfold try_extract, to_bus. destruct (N.ltb_spec (sb_id b) (N.pos p)); [|lia]. set (bi := mkBus _ _ _). destruct (try_from_bus bus bi) as [| | |m] eqn:E; eauto. exfalso. revert E.
    unfold try_from_bus, bi. cbn [bus_id mult payload]. change (try_to_known (from_number (of_N (sb_id b)))) with (Some (of_N (p := p) (sb_id b))). cbv beta iota. destruct (N.ltb_spec bus (N.pos p)); [|lia]. cbn [negb]. destruct (feqb (of_N (sb_id b)) (of_N bus)) eqn:Ef; cbn [negb]; [|discriminate]. apply feqb_eq in Ef. apply (f_equal val) in Ef. rewrite !val_of_N_small in Ef by auto.
    destruct (Hb Ef) as (s & q & r & -> & Hr). cbn [map to_grouped]. destruct (exists_last Hr) as (r' & t & ->). rewrite map_app. cbn [map]. rewrite split_last_snoc. change (try_to_known (from_number s)) with (Some s). cbv beta iota zeta.
    destruct (try_to_known (to_grouped (sb_mult b))) as [k|]; [|discriminate]. destruct (is_one k); [discriminate|]. destruct (feqb k (fopp 1%F)); discriminate.
  Qed.
  Lemma simple_unknown_var v : try_to_simple_unknown (from_var (p := p) v) = Some v.
  Proof. unfold try_to_simple_unknown, from_var. cbn. unfold is_one. assert (T : feqb (1 : F p)%F 1%F = true) by (now apply feqb_eq). try rewrite T. reflexivity. Qed.
  Lemma simple_unknowns l : all_opt (map try_to_simple_unknown (map (from_var (p := p)) l)) = Some l.
  Proof. induction l as [|v l IH]; cbn [map all_opt]; [reflexivity|]. now rewrite simple_unknown_var, IH. Qed.
  Lemma try_extract_limbs idx (b : sbus p) s q limbs t : sb_id b = bus -> sb_mult b = ANum 1%F \/ sb_mult b = ANum (fopp 1%F) -> sb_args b = ANum s :: ANum q :: map ARef limbs ++ [t] ->
    exists c, try_extract bus idx b = Some (Some c) /\ ca_limbs c = limbs.
  Proof.
    intros Hid Hm Ha. unfold try_extract, to_bus. destruct (N.ltb_spec (sb_id b) (N.pos p)); [|lia]. unfold try_from_bus. cbn [bus_id mult payload]. change (try_to_known (from_number (of_N (sb_id b)))) with (Some (of_N (p := p) (sb_id b))). cbv beta iota. destruct (N.ltb_spec bus (N.pos p)); [|lia]. cbn [negb]. rewrite Hid. assert (T : feqb (of_N (p := p) bus) (of_N bus) = true) by (now apply feqb_eq). rewrite T. cbn [negb].
    rewrite Ha. cbn [map to_grouped]. rewrite map_app. cbn [map]. rewrite split_last_snoc. change (try_to_known (from_number s)) with (Some s). cbv beta iota zeta. rewrite map_map.
    change (map (fun x => to_grouped (ARef x)) limbs) with (map (from_var (p := p)) limbs). pose proof (simple_unknowns limbs) as L2.
    assert (O1 : is_one (1 : F p)%F = true) by (unfold is_one; now apply feqb_eq). assert (O2 : is_one (fopp 1 : F p)%F = false). { destruct (is_one (fopp 1 : F p)%F) eqn:E; auto. apply is_one_eq in E. exfalso. symmetry in E. now apply (one_not_minus p_odd). }
    assert (O3 : feqb (fopp 1 : F p)%F (fopp 1)%F = true) by (now apply feqb_eq).
    destruct Hm as [Hm|Hm]; rewrite Hm; cbn [to_grouped].
    - change (try_to_known (from_number (1 : F p)%F)) with (Some (1 : F p)%F). cbv beta iota. rewrite O1. unfold mi_addr. cbn [mi_space mi_local mi_data mi_op map]. change (try_to_known (from_number s)) with (Some s). change (try_to_known (from_number q)) with (Some q). cbn [all_opt]. rewrite L2. eexists. split; reflexivity.
    - change (try_to_known (from_number (fopp 1 : F p)%F)) with (Some (fopp 1 : F p)%F). cbv beta iota. rewrite O2, O3. unfold mi_addr. cbn [mi_space mi_local mi_data mi_op map]. change (try_to_known (from_number s)) with (Some s). change (try_to_known (from_number q)) with (Some q). cbn [all_opt]. rewrite L2. eexists. split; reflexivity.
  Qed.
  Lemma all_opt_map {A B} (f : A -> option B) l : (forall x, In x l -> exists y, f x = Some y) -> exists l', all_opt (map f l) = Some l' /\ forall x y, In x l -> f x = Some y -> In y l'.
  Proof.
    induction l as [|x l IH]; intros H; cbn [map all_opt]; [exists []; split; [reflexivity|intros ? ? []]|]. destruct (H x) as [y Hy]; [now left|]. destruct IH as (l' & E & HI); [intros; apply H; now right|]. rewrite Hy, E. exists (y :: l'). split; [reflexivity|].
    intros x0 y0 [->|Hx] Hf; [left; congruence|right; eauto].
  Qed.
  Lemma complete optimize (ms : list (smach p)) a :
    (forall i m, nth_error ms i = Some m -> exists m', optimize m (alloc_from_machine m) = Some m' /\
       forall b, In b (sm_buses m') -> (sb_id b < N.pos p)%N /\ (sb_id b = bus -> exists s q r, sb_args b = ANum s :: q :: r /\ r <> [])) ->
    exists lits, literals_of optimize bus ms a = Some lits /\
      forall i m m' b s q limbs t id, nth_error ms i = Some m -> optimize m (alloc_from_machine m) = Some m' -> In b (sm_buses m') -> sb_id b = bus -> sb_mult b = ANum 1%F \/ sb_mult b = ANum (fopp 1%F) ->
        sb_args b = ANum s :: ANum q :: map ARef limbs ++ [t] -> In (Orig id) limbs -> (id < al_next a)%N -> nm_get id lits <> None.
  Proof.
    intros H. unfold literals_of.
    assert (X : forall i m, nth_error ms i = Some m -> exists cs, extract_accesses optimize bus (i, m) = Some cs /\ forall m' b c, optimize m (alloc_from_machine m) = Some m' -> In b (sm_buses m') -> try_extract bus i b = Some (Some c) -> In c cs).
    { intros i m Hi. destruct (H i m Hi) as (m' & Em & Hb). unfold extract_accesses. cbn [fst snd]. rewrite Em. destruct (all_opt_map (try_extract bus i) (sm_buses m')) as (os & Eo & HI). { intros b I0. destruct (Hb b I0). now apply try_extract_some. }
      rewrite Eo. cbn [option_map]. eexists. split; [reflexivity|]. intros m'' b c Em' Ib Ec. assert (m'' = m') by congruence. subst m''. apply in_flat_map. exists (Some c). split; [eauto|now left]. }
    destruct (all_opt_map (extract_accesses optimize bus) (enumerate ms)) as (l & El & HI). { intros [i m] Him. apply in_enumerate in Him. destruct (X i m Him) as (cs & E & _). eauto. }
    rewrite El. cbn [option_map]. eexists. split; [reflexivity|]. intros i m m' b s q limbs t id Hi Em Ib Hid Hm Ha Hl Hlt. destruct (try_extract_limbs i b s q limbs t Hid Hm Ha) as (c & Ec & Hc). destruct (X i m Hi) as (cs & Ecs & Hcs). specialize (Hcs m' b c Em Ib Ec).
    rewrite <- Hc in Hl. apply In_nth_error in Hl. destruct Hl as [k Hk]. eapply (collect_some _ (mkRL (ca_instr c) (ca_addr c) k)). apply in_flat_map. exists c. split; [apply in_concat; exists cs; split; [apply (HI (i, m)); [now apply in_enumerate|auto]|auto]|].
    unfold limb_mapping. apply in_flat_map. exists (k, Orig id). split; [now apply in_enumerate|]. cbn [fst snd vid]. unfold is_known. destruct (N.ltb_spec id (al_next a)); [now left|lia].
  Qed.
End OptMore.
