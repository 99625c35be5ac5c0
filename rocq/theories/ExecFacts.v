From Coq Require Import Arith NArith Bool List Lia ZifyBool ZifyNat.
From Verif Require Import ExecModel ExecSpec.
Import ListNotations.

Section EvalFacts.
  Context {E : Type} (reg : E -> N -> N) (pc : E -> N) (value_limb : N -> nat -> N).
  Local Notation holds := (oc_holds reg pc value_limb).
  Local Notation run := (ev_run reg pc value_limb).
  Lemma lfetch_eqb_eq a b : lfetch_eqb a b = true <-> a = b.
  Proof. destruct a, b; cbn; try rewrite N.eqb_eq; split; congruence. Qed.
  Lemma at_step_in {A} i (l : list (nat * A)) x : In x (at_step i l) <-> In (i, x) l.
  Proof.
    unfold at_step. rewrite in_map_iff. split.
    - intros ([j y] & <- & H). apply filter_In in H. cbn in *. rewrite Nat.eqb_eq in H. destruct H as [H ->]. auto.
    - intros H. exists (i, x). split; auto. apply filter_In. cbn. now rewrite Nat.eqb_refl.
  Qed.
  Lemma first_step_le c l : In l (refs c) -> instr_idx l <= first_evaluable_step c.
  Proof.
    unfold first_evaluable_step. induction (refs c) as [|r rs IH]; intros []; cbn [map fold_right].
    - subst. lia.
    - specialize (IH H). lia.
  Qed.
  Lemma first_step_lt n c : due n c <-> first_evaluable_step c < n.
  Proof.
    unfold due, first_evaluable_step. split.
    - intros [H0 H]. induction (refs c) as [|r rs IH]; cbn [map fold_right]; auto. assert (instr_idx r < n) by (apply H; now left).
      assert (fold_right Nat.max 0 (map instr_idx rs) < n) by (apply IH; intros; apply H; now right). lia.
    - intros H. split; [lia|]. intros l Hl. pose proof (first_step_le c l Hl). unfold first_evaluable_step in *. lia.
  Qed.
  Section Run.
    Variable cs : list oconstr.
    Let ocs := from_constraints cs.
    (** The evaluator after the states [h]. *)
    Record ev_inv (h : list E) (ev : evaluator) : Prop := {
      inv_idx : instruction_index ev = length h;
      inv_sound : forall i f v, mem_get (memory ev) i f = Some v -> exists s, nth_error h i = Some s /\ v = fetch_get reg pc f s;
      inv_complete : forall c l, In c cs -> In l (refs c) -> instr_idx l < first_evaluable_step c -> instr_idx l < length h ->
         mem_get (memory ev) (instr_idx l) (to_fetch (lval l)) <> None }.
    Lemma lit_ok h ev s c l : ev_inv h ev -> In c cs -> In l (refs c) -> first_evaluable_step c = length h ->
      eval_literal reg pc value_limb (length h) s (memory ev) l = lit_value reg pc value_limb (h ++ [s]) l /\ lit_value reg pc value_limb (h ++ [s]) l <> None.
    Proof.
      intros [H1 H2 H3] Hc Hl Hs. pose proof (first_step_le c l Hl) as L. unfold eval_literal, lit_value, step_fetch. destruct (Nat.leb_spec (instr_idx l) (length h)); [|lia].
      destruct (Nat.eqb_spec (instr_idx l) (length h)) as [E1|E1].
      - rewrite E1, nth_error_app2, Nat.sub_diag by lia. cbn [nth_error]. split; [|discriminate]. destruct (lval l); reflexivity.
      - rewrite nth_error_app1 by lia. destruct (mem_get (memory ev) (instr_idx l) (to_fetch (lval l))) as [v|] eqn:Em.
        + destruct (H2 _ _ _ Em) as (s' & -> & ->). split; [|discriminate]. destruct (lval l); reflexivity.
        + exfalso. apply (H3 c l Hc Hl); auto; lia.
    Qed.
    Lemma oexpr_ok h ev s c e : ev_inv h ev -> In c cs -> incl (oexpr_refs e) (refs c) -> first_evaluable_step c = length h ->
      exists v, eval_oexpr reg pc value_limb (length h) s (memory ev) e = Some v /\ oexpr_value reg pc value_limb (h ++ [s]) e = Some v.
    Proof.
      intros Hi Hc He Hs. destruct e as [v|l]; cbn [eval_oexpr oexpr_value]; [eauto|]. destruct (lit_ok h ev s c l Hi Hc) as [A B]; auto; [apply He; now left|].
      rewrite A. destruct (lit_value _ _ _ _ l); [eauto|congruence].
    Qed.
    Lemma oconstr_ok h ev s c : ev_inv h ev -> In c cs -> first_evaluable_step c = length h ->
      exists b, eval_oconstr reg pc value_limb (length h) s (memory ev) c = Some b /\ (b = true <-> holds (h ++ [s]) c).
    Proof.
      intros Hi Hc Hs. destruct (oexpr_ok h ev s c (oleft c) Hi Hc) as (a & A1 & A2); auto; [intros x Hx; apply in_or_app; now left|].
      destruct (oexpr_ok h ev s c (oright c) Hi Hc) as (b & B1 & B2); auto; [intros x Hx; apply in_or_app; now right|].
      unfold eval_oconstr. rewrite A1, B1. eexists. split; [reflexivity|]. rewrite N.eqb_eq. split.
      - intros ->. exists b. auto.
      - intros (v & X & Y). congruence.
    Qed.
    Lemma all_hold_ok h ev s l : ev_inv h ev -> (forall c, In c l -> In c cs /\ first_evaluable_step c = length h) ->
      exists b, all_hold reg pc value_limb (length h) s (memory ev) l = Some b /\ (b = true <-> forall c, In c l -> holds (h ++ [s]) c).
    Proof.
      intros Hi. induction l as [|c l IH]; intros H; cbn [all_hold].
      - exists true. split; auto. split; auto. intros _ c [].
      - destruct (oconstr_ok h ev s c Hi) as (b & -> & B); [apply H; now left|apply H; now left|]. destruct b.
        + destruct IH as (b & -> & C); [intros; apply H; now right|]. exists b. split; auto. rewrite C. split.
          * intros X c' [<-|Hc']; auto. now apply B.
          * intros X c' Hc'. apply X. now right.
        + exists false. split; auto. split; [discriminate|]. intros X. apply B. apply X. now left.
    Qed.
    Lemma mem_fold (n : nat) s fs m i f : mem_get (fold_left (fun m f => (n, f, fetch_get reg pc f s) :: m) fs m) i f =
      if Nat.eqb i n && existsb (lfetch_eqb f) fs then Some (fetch_get reg pc f s) else mem_get m i f.
    Proof.
      revert m. induction fs as [|g fs IH]; intros m; cbn [fold_left existsb]; [now rewrite andb_false_r|]. rewrite IH. cbn [mem_get].
      destruct (Nat.eqb i n); cbn [andb]; auto. destruct (existsb (lfetch_eqb f) fs); [now rewrite orb_true_r|]. rewrite orb_false_r.
      destruct (lfetch_eqb f g) eqn:E0; auto. apply lfetch_eqb_eq in E0. now subst.
    Qed.
    Lemma try_next_ok h ev s : ev_inv h ev ->
      match try_next reg pc value_limb s ocs ev with
      | StepOk ev' => ev_inv (h ++ [s]) ev' /\ forall c, In c cs -> first_evaluable_step c = length h -> holds (h ++ [s]) c
      | StepFailed => exists c, In c cs /\ first_evaluable_step c = length h /\ ~ holds (h ++ [s]) c
      | StepPanic => False
      end.
    Proof.
      intros Hi. unfold try_next. rewrite (inv_idx _ _ Hi). set (l := at_step (length h) (checks_by_step ocs)).
      assert (Hl : forall c, In c l <-> In c cs /\ first_evaluable_step c = length h).
      { intros c. unfold l. rewrite at_step_in. cbn [checks_by_step ocs from_constraints]. rewrite in_map_iff. split.
        - intros (c' & X & Y). injection X as X ->. auto.
        - intros [X Y]. exists c. rewrite Y. auto. }
      destruct (all_hold_ok h ev s l Hi) as (b & -> & B); [intros c Hc; now apply Hl|]. destruct b.
      - split; [|intros c H1 H2; apply (proj1 B eq_refl); now apply Hl]. split; cbn [instruction_index memory].
        + rewrite app_length. cbn. lia.
        + intros i f v. rewrite mem_fold. destruct (Nat.eqb_spec i (length h)) as [->|N0]; cbn [andb].
          * destruct (existsb _ _); [intros [= <-]; exists s; split; auto; rewrite nth_error_app2, Nat.sub_diag by lia; reflexivity|].
            intros X. destruct (inv_sound _ _ Hi _ _ _ X) as (s' & Y & ->). exists s'. split; auto. rewrite nth_error_app1; auto. apply nth_error_Some. congruence.
          * intros X. destruct (inv_sound _ _ Hi _ _ _ X) as (s' & Y & ->). exists s'. split; auto. rewrite nth_error_app1; auto. apply nth_error_Some. congruence.
        + intros c r Hc Hr H1 H2. rewrite app_length in H2. cbn [length] in H2. rewrite mem_fold. destruct (Nat.eqb_spec (instr_idx r) (length h)) as [E1|N0]; cbn [andb].
          * assert (X : existsb (lfetch_eqb (to_fetch (lval r))) (at_step (length h) (fetches_by_step ocs)) = true); [|rewrite X; discriminate].
            apply existsb_exists. exists (to_fetch (lval r)). split; [|now apply lfetch_eqb_eq]. apply at_step_in. cbn [fetches_by_step ocs from_constraints].
            apply in_flat_map. exists c. split; auto. apply in_map_iff. exists r. split; [now rewrite E1|]. apply filter_In. split; auto. now apply Nat.ltb_lt.
          * apply (inv_complete _ _ Hi c r); auto. lia.
      - destruct (Forall_Exists_dec (fun c => holds (h ++ [s]) c)) with (l := l) as [F|F].
        + intros c. unfold oc_holds. destruct (oexpr_value reg pc value_limb (h ++ [s]) (oleft c)) as [x|]; [|right; intros (v & X & _); discriminate].
          destruct (oexpr_value reg pc value_limb (h ++ [s]) (oright c)) as [y|]; [|right; intros (v & _ & X); discriminate].
          destruct (N.eq_dec x y) as [->|]; [left; eauto|right; intros (v & X & Y); congruence].
        + rewrite Forall_forall in F. apply B in F. discriminate.
        + apply Exists_exists in F. destruct F as (c & F1 & F2). apply Hl in F1. exists c. tauto.
    Qed.
    Lemma nth_error_ext {A} (h t : list A) i : i < length h -> nth_error (h ++ t) i = nth_error h i.
    Proof. apply nth_error_app1. Qed.
    Lemma holds_ext h t c : due (length h) c -> (holds (h ++ t) c <-> holds h c).
    Proof.
      intros [_ Hd]. assert (X : forall e, incl (oexpr_refs e) (refs c) -> oexpr_value reg pc value_limb (h ++ t) e = oexpr_value reg pc value_limb h e).
      { intros [v|l] He; cbn; auto. unfold lit_value. rewrite nth_error_app1; auto. apply Hd. apply He. now left. }
      unfold oc_holds. rewrite !X; [tauto| |]; intros x Hx; apply in_or_app; [now right|now left].
    Qed.
    Lemma ev_run_ok ss : forall h ev, ev_inv h ev ->
      match run ocs ss ev with
      | StepOk ev' => ev_inv (h ++ ss) ev' /\ forall c, In c cs -> length h <= first_evaluable_step c < length (h ++ ss) -> holds (h ++ ss) c
      | StepFailed => exists c, In c cs /\ length h <= first_evaluable_step c < length (h ++ ss) /\ ~ holds (h ++ ss) c
      | StepPanic => False
      end.
    Proof.
      induction ss as [|s ss IH]; intros h ev Hi; cbn [ev_run].
      - rewrite app_nil_r. split; auto. intros; lia.
      - pose proof (try_next_ok h ev s Hi) as T. destruct (try_next reg pc value_limb s ocs ev) as [ev'| |]; auto.
        + destruct T as [T1 T2]. specialize (IH _ _ T1). rewrite <- app_assoc in IH. cbn [app] in IH. rewrite app_length in IH. cbn [length] in IH.
          destruct (run ocs ss ev') as [ev''| |]; auto.
          * destruct IH as [I1 I2]. split; auto. intros c Hc L. destruct (Nat.eq_dec (first_evaluable_step c) (length h)) as [E1|N0]; [|apply I2; auto; lia].
            replace (h ++ s :: ss) with ((h ++ [s]) ++ ss) by (now rewrite <- app_assoc). apply holds_ext; [apply first_step_lt; rewrite app_length; cbn; lia|auto].
          * destruct IH as (c & X & Y & Z). exists c. split; auto. split; auto. lia.
        + destruct T as (c & X & Y & Z). exists c. split; auto. split; [rewrite app_length; cbn; lia|]. replace (h ++ s :: ss) with ((h ++ [s]) ++ ss) by (now rewrite <- app_assoc).
          rewrite holds_ext; auto. apply first_step_lt. rewrite app_length. cbn. lia.
    Qed.
    Lemma ev_inv_new : ev_inv [] ev_new.
    Proof. split; [reflexivity|discriminate|intros; cbn in *; lia]. Qed.
  End Run.
End EvalFacts.
