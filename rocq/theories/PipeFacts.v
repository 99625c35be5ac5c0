(** Executions and what is sent: facts for the composition of passes. *)
From Coq Require Import Arith NArith ZArith Znumtheory Bool List Lia ZifyBool ZifyN ZifyNat Permutation.
From Verif Require Import Field RangeModel ExprModel ExprFacts ExprMore ExprWf SystemModel Spec Bridge BusModel BaseModel OvmModel OvmSpec OvmFacts OvmBatch PassModel PassSpec MemModel MemSpec MemFacts MemSem LowModel LowOvm PipeModel PipeSpec.
Import ListNotations.
Local Open Scope nat_scope.

Section Lists.
  Context {A : Type} (keep : A -> bool).
  (** Positions in a list and in a filtered list. *)
  Lemma filter_nth (l : list A) i x : nth_error l i = Some x -> keep x = true -> nth_error (filter keep l) (length (filter keep (firstn i l))) = Some x.
  Proof.
    revert l. induction i as [|i IH]; intros [|y l]; cbn [nth_error firstn]; try discriminate.
    - intros [= ->] K. cbn [filter length]. rewrite K. reflexivity.
    - intros E K. cbn [filter]. destruct (keep y); cbn [length nth_error]; auto.
  Qed.
  Lemma filter_nth_inv (l : list A) j x : nth_error (filter keep l) j = Some x -> exists i, nth_error l i = Some x /\ keep x = true /\ length (filter keep (firstn i l)) = j.
  Proof.
    revert j. induction l as [|y l IH]; intros j; cbn [filter]; [destruct j; discriminate|]. destruct (keep y) eqn:K.
    - destruct j as [|j]; cbn [nth_error].
      + intros [= ->]. exists 0. cbn. auto.
      + intros E. destruct (IH j E) as (i & E1 & E2 & E3). exists (S i). cbn [nth_error firstn filter]. rewrite K. cbn [length]. auto.
    - intros E. destruct (IH j E) as (i & E1 & E2 & E3). exists (S i). cbn [nth_error firstn filter]. rewrite K. auto.
  Qed.
  Lemma count_mono (l : list A) i j : i <= j -> length (filter keep (firstn i l)) <= length (filter keep (firstn j l)).
  Proof.
    revert i j. induction l as [|y l IH]; intros [|i] [|j] L; cbn [firstn filter length]; try lia. specialize (IH i j ltac:(lia)). destruct (keep y); cbn [length]; lia.
  Qed.
  Lemma count_strict (l : list A) i j x : i < j -> nth_error l i = Some x -> keep x = true -> length (filter keep (firstn i l)) < length (filter keep (firstn j l)).
  Proof.
    revert i j. induction l as [|y l IH]; intros [|i] [|j] L; cbn [nth_error firstn filter length]; try lia; try discriminate.
    - intros [= ->] K. rewrite K. cbn [length]. lia.
    - intros E K. specialize (IH i j ltac:(lia) E K). destruct (keep y); cbn [length]; lia.
  Qed.
End Lists.

Section Messages.
  Context {p : positive}.
  Add Ring Fm : (F_ring_theory (p:=p)).
  (** Messages that are no memory accesses do not matter for the chronological order. *)
  Lemma chronological_filter id (keep : busi (F p) -> bool) l : (forall b op addr ct, In b l -> access id b op addr ct -> keep b = true) ->
    chronological id (filter keep l) <-> chronological id l.
  Proof.
    intros K. split; intros H i j bi bj op addr ci cj L Ei Ej Ai Aj B.
    - pose proof (K _ _ _ _ (nth_error_In _ _ Ei) Ai) as Ki. pose proof (K _ _ _ _ (nth_error_In _ _ Ej) Aj) as Kj.
      apply (H _ _ bi bj op addr ci cj (count_strict keep l i j bi L Ei Ki) (filter_nth keep l i bi Ei Ki) (filter_nth keep l j bj Ej Kj) Ai Aj).
      intros k bk opk ck Lk Ek Ak. destruct (filter_nth_inv keep l k bk Ek) as (q & Eq & Kq & <-). apply (B q bk opk ck); auto. split.
      + destruct (Nat.lt_ge_cases i q) as [|G]; auto. pose proof (count_mono keep l q i G). lia.
      + destruct (Nat.lt_ge_cases q j) as [|G]; auto. pose proof (count_mono keep l j q G). lia.
    - destruct (filter_nth_inv keep l i bi Ei) as (q & Eq & Kq & <-). destruct (filter_nth_inv keep l j bj Ej) as (r & Er & Kr & <-).
      assert (Lq : q < r). { destruct (Nat.lt_ge_cases q r) as [|G]; auto. pose proof (count_mono keep l r q G). lia. }
      apply (H q r bi bj op addr ci cj Lq Eq Er Ai Aj). intros k bk opk ck Lk Ek Ak. pose proof (K _ _ _ _ (nth_error_In _ _ Ek) Ak) as Kk.
      apply (B (length (filter keep (firstn k l))) bk opk ck); auto; [|now apply filter_nth]. split; [now apply (count_strict keep l q k bi)|now apply (count_strict keep l k r bk)].
  Qed.

  Lemma net_none bus args (l : list (busi (F p))) : (forall b, In b l -> bus_id b <> bus) -> net bus args l = 0%F.
  Proof.
    induction l as [|b l IH]; cbn [net]; intros H; [reflexivity|]. rewrite IH by (intros; apply H; now right). destruct (message_dec bus args b) as [[E _]|_]; [exfalso; apply (H b); [now left|exact E]|ring].
  Qed.
End Messages.

Section Executions.
  Context {p : positive}.
  Add Ring Fe : (F_ring_theory (p:=p)).
  Context (m : busmap) (program : list (F p) -> Prop) (Hm : map_ok p m).
  Hypothesis Hbig : (2 ^ 26 < N.pos p)%N.
  Local Notation stateful := (ovm_stateful (p:=p) m).
  Local Notation table := (ovm_table m program).
  Local Notation csys := (csys p).

  (** What is sent in total on a stateful bus does not depend on messages of multiplicity zero. *)
  Lemma net_sends bus args (l : list (busi (F p))) :
    net bus args (filter (fun b => stateful (bus_id b) && negb (is_zero (mult b))) l) = if stateful bus then net bus args l else 0%F.
  Proof.
    induction l as [|b l IH]; cbn [filter]; [destruct (stateful bus); reflexivity|]. cbn [net]. destruct (message_dec bus args b) as [[E1 E2]|N].
    - rewrite E1. destruct (stateful bus) eqn:Sb; cbn [andb]; [|exact IH]. destruct (is_zero (mult b)) eqn:Z; cbn [negb].
      + apply is_zero_eq in Z. rewrite IH, Z. ring.
      + cbn [net]. rewrite IH. destruct (message_dec bus args b) as [_|N]; [reflexivity|exfalso; apply N; now split].
    - destruct (stateful (bus_id b) && negb (is_zero (mult b))); [cbn [net]; destruct (message_dec bus args b) as [X|_]; [contradiction|]|]; rewrite IH; destruct (stateful bus); ring.
  Qed.
  Lemma net_effect (s s' : var -> F p) (c c' : csys) : (forall bus args, net bus args (bus_values s' c') = net bus args (bus_values s c)) -> same_effect m s c s' c'.
  Proof. intros H bus args. unfold sends. rewrite !net_sends, H. reflexivity. Qed.
  Lemma sends_effect (s s' : var -> F p) (c c' : csys) : sends stateful s' c' = sends stateful s c -> same_effect m s c s' c'.
  Proof. intros H bus args. now rewrite H. Qed.
  Lemma effect_trans (s t u : var -> F p) (c d e : csys) : same_effect m s c t d -> same_effect m t d u e -> same_effect m s c u e.
  Proof. intros A B bus args. rewrite B. apply A. Qed.

  (** In an execution all messages are legal. *)
  Lemma execution_legal s (c : csys) : admissible stateful table s c -> Forall (legal m) (sends stateful s c) -> Forall (legal m) (bus_values s c).
  Proof.
    intros [_ A] L. rewrite Forall_forall in *. intros b Hb. destruct (stateful (bus_id b)) eqn:St.
    - destruct (F_dec (mult b) 0%F) as [Z|Z]; [now left|]. apply L. unfold sends. apply filter_In. split; auto. rewrite St. cbn [andb]. destruct (is_zero (mult b)) eqn:E; auto. apply is_zero_eq in E. contradiction.
    - apply (acceptable_legal m program Hm); auto.
  Qed.
  (** Memory accesses are sent to a stateful bus. *)
  Lemma memory_kept id (b : busi (F p)) op addr ct : get_bus_id m BMemory = Some id -> access id b op addr ct -> stateful (bus_id b) && negb (is_zero (mult b)) = true.
  Proof.
    intros G (E1 & E2 & _). apply get_bus_id_in in G. destruct (proj2 Hm _ _ G) as [Lid _].
    assert (St : stateful (bus_id b) = true). { rewrite E1. rewrite (stateful_type m Hm (of_N id) BMemory); auto. rewrite val_of_N_small; auto. }
    rewrite St. cbn [andb]. assert (N1 : (1 : F p)%F <> 0%F). { intros E. apply (f_equal val) in E. rewrite val_zero, (val_one_ Hbig) in E. discriminate. }
    destruct (is_zero (mult b)) eqn:Z; auto. apply is_zero_eq in Z. exfalso. rewrite E2 in Z. destruct op; [|now apply N1]. apply N1. transitivity (fopp (fopp 1%F) : F p); [ring|]. rewrite Z. ring.
  Qed.
  Lemma in_time_values s (c : csys) : in_time m (sends stateful s c) <-> in_time m (bus_values s c).
  Proof.
    split; intros H id G; specialize (H id G); [unfold sends in H; apply (proj1 (chronological_filter id _ _ (fun b op addr ct _ => memory_kept id b op addr ct G)) H)|].
    unfold sends. apply (proj2 (chronological_filter id _ _ (fun b op addr ct _ => memory_kept id b op addr ct G)) H).
  Qed.
  (** If an assignment carries over and sends the same, so does an execution. *)
  Lemma execution_same (s s' : var -> F p) (c c' : csys) : admissible stateful table s' c' -> sends stateful s' c' = sends stateful s c -> execution m program s c ->
    execution m program s' c' /\ same_effect m s c s' c'.
  Proof. intros A E (_ & L & T). split; [|now apply sends_effect]. split; auto. rewrite E. auto. Qed.
  Lemma execution_carries s (c c' : csys) : carries_over stateful table c c' s -> execution m program s c -> execution m program s c' /\ same_effect m s c s c'.
  Proof. intros C X. destruct (C (proj1 X)) as [A E]. now apply execution_same. Qed.
  (** Which buses keep state. *)
  Lemma keeps_stateful (v : busi (F p)) : keeps_state m v = stateful (bus_id v).
  Proof.
    unfold keeps_state. apply eq_true_iff_eq. rewrite existsb_exists. split.
    - intros ([i t] & I & E). cbn [fst snd] in E. apply andb_true_iff in E. destruct E as [E T]. apply N.eqb_eq in E. subst i. rewrite (stateful_type m Hm _ _ I). exact T.
    - unfold ovm_stateful, OvmModel.is_stateful. intros E. destruct (bus_type m (val (bus_id v))) as [t|] eqn:B; [|discriminate]. exists (val (bus_id v), t). split; [now apply bus_type_in|]. cbn [fst snd]. rewrite N.eqb_refl. cbn. destruct t; auto; discriminate.
  Qed.
  Lemma events_sends s s' (c c' : csys) : state_events m s' c' = state_events m s c -> sends stateful s' c' = sends stateful s c.
  Proof.
    assert (G : forall l : list (busi (F p)), filter (fun b => stateful (bus_id b) && negb (is_zero (mult b))) l = filter (fun b => negb (is_zero (mult b))) (filter (keeps_state m) l)).
    { induction l as [|b l IH]; auto. cbn [filter]. rewrite keeps_stateful. destruct (stateful (bus_id b)); cbn [andb filter]; [destruct (negb _)|]; now rewrite IH. }
    unfold state_events, sends. intros E. now rewrite !G, E.
  Qed.
End Executions.

(** ** The interactions of the range constraint optimizer *)
Section Ranges.
  Context {p : positive}.
  Hypothesis Hbig : (2 ^ 26 < N.pos p)%N.
  Local Notation gexp := (gexp p).
  Context (m : busmap) (program : list (F p) -> Prop) (Hm : map_ok p m).
  Local Notation stateful := (ovm_stateful (p:=p) m).
  Local Notation table := (ovm_table m program).
  Definition check_bus (b : busi gexp) : Prop :=
    mult b = from_number 1%F /\ exists i t, bus_id b = from_number i /\ In (val i, t) m /\ match t with BExec | BMemory | BPc => False | _ => True end.
  Lemma mk_check_bus t pl (b : busi gexp) : match t with BExec | BMemory | BPc => False | _ => True end -> mk_check m t pl = Some b -> check_bus b.
  Proof.
    intros Ht. unfold mk_check. destruct (get_bus_id m t) as [i|] eqn:Ei; [|discriminate]. apply get_bus_id_in in Ei. unfold from_u64. destruct (N.ltb_spec i (N.pos p)) as [Hi|]; [|discriminate].
    intros [= <-]. split; [reflexivity|]. cbn [bus_id]. exists (of_N i), t. split; auto. now rewrite val_of_N_small.
  Qed.
  Lemma mk_checks_bus A (f : A -> list gexp) t xs ys : match t with BExec | BMemory | BPc => False | _ => True end -> OvmModel.all_some (map (fun x => mk_check m t (f x)) xs) = Some ys -> Forall check_bus ys.
  Proof. intros Ht H. apply all_some_F2 in H. induction H as [|x y xs ys X1 X2 IH]; constructor; auto. now apply (mk_check_bus t (f x)). Qed.
  Lemma batch_types l bs : batch_make m l = Made bs -> Forall check_bus bs.
  Proof.
    unfold batch_make, filter_byte_constraints. destruct (tuple_sizes m) as [[s0 s1]|]; [|discriminate]. destruct (tuple_ranges s0 s1) as [[r0 r1]|]; [|discriminate]. destruct (negb (rc_eqb r0 (from_mask 255))); [discriminate|].
    destruct (OvmModel.all_some (map (fun bs => mk_check m (BTuple s0 s1) _) _)) as [b1|] eqn:F1; [|discriminate]. destruct (OvmModel.all_some (map (mk_check m BBitwise) _)) as [b2|] eqn:F2; [|discriminate].
    destruct (num_bits_list _) as [pls|]; [|discriminate]. destruct (OvmModel.all_some (map (mk_check m BVarRange) pls)) as [b3|] eqn:F4; [|discriminate]. intros [= <-].
    apply Forall_app. split; [|apply Forall_app; split].
    - apply (mk_checks_bus _ (fun bs : gexp * (gexp * rc p) => [fst bs; fst (snd bs)]) (BTuple s0 s1) _ _ Logic.I F1).
    - apply (mk_checks_bus _ (fun x => x) BBitwise _ _ Logic.I F2).
    - apply (mk_checks_bus _ (fun x => x) BVarRange _ _ Logic.I F4).
  Qed.
  (** For range checks it makes no difference whether a message is legal or in its table. *)
  Lemma check_acceptable s (b : busi gexp) : check_bus b -> legal m (bmap (eval s) b) -> acceptable stateful table (bmap (eval s) b).
  Proof.
    intros (E1 & i & t & E & I & Ht) [Z|(t' & I' & A)] _ Hz; [contradiction|]. exists t'. split; auto. cbn [bmap bus_id payload mult] in *. rewrite E, eval_from_number in I'.
    assert (t' = t). { apply (bus_type_of _ _ _ (proj1 Hm)) in I, I'. congruence. } subst t'. rewrite E1, eval_from_number in A. destruct t; auto; destruct Ht.
  Qed.
  Lemma check_not_state s (b : busi gexp) : check_bus b -> stateful (bus_id (bmap (eval s) b)) = false.
  Proof. intros (_ & i & t & E & I & Ht). cbn [bmap bus_id]. rewrite E, eval_from_number, (stateful_type m Hm _ _ I). destruct t; auto; destruct Ht. Qed.
  (** What is removed are range checks, what is added are range checks. *)
  Lemma pure_check (b : busi gexp) rs : gexp_eqb (mult b) (from_number 1%F) = true -> ovm_pure m b = Some (Some rs) -> check_bus b.
  Proof.
    intros E1. apply gexp_eqb_eq in E1. unfold ovm_pure. destruct (try_to_known (bus_id b)) as [i|] eqn:Ei; [|discriminate]. apply known_iff in Ei. destruct (bus_type m (val i)) as [t|] eqn:T; [|discriminate]. apply bus_type_in in T.
    intros H. split; auto. exists i, t. split; auto. split; auto. destruct t; try discriminate; exact Logic.I.
  Qed.
  Lemma collect_checks (bs : list (busi gexp)) : forall l kept l', collect_pure m bs l = Some (kept, l') -> incl kept bs /\ forall b, In b bs -> In b kept \/ check_bus b.
  Proof.
    induction bs as [|b bs IH]; intros l kept l'; cbn [collect_pure]; [intros [= <- <-]; split; [apply incl_refl|intros b []]|].
    assert (K : match collect_pure m bs l with Some (k, l') => Some (b :: k, l') | None => None end = Some (kept, l') -> incl kept (b :: bs) /\ forall b', In b' (b :: bs) -> In b' kept \/ check_bus b').
    { destruct (collect_pure m bs l) as [[k l1]|] eqn:E; [|discriminate]. intros [= <- <-]. destruct (IH _ _ _ E) as [A B]. split; [intros x [<-|Hx]; [now left|right; auto]|]. intros b' [<-|Hb]; [left; now left|]. destruct (B b' Hb); auto. left. now right. }
    destruct (negb _) eqn:E1; [exact K|]. destruct (ovm_pure m b) as [[rs|]|] eqn:Ep; [|exact K|discriminate]. apply negb_false_iff in E1. pose proof (pure_check b rs E1 Ep) as C. intros E. apply IH in E. destruct E as [A B].
    split; [intros x Hx; right; auto|]. intros b' [<-|Hb]; auto.
  Qed.
  Lemma range_buses bound fuel (c c' : csys p) : optimize_range_constraints m bound fuel c = Some c' ->
    (forall b, In b (buses c') -> In b (buses c) \/ check_bus b) /\ (forall b, In b (buses c) -> In b (buses c') \/ check_bus b).
  Proof.
    unfold optimize_range_constraints. destruct (collect_pure m (buses c) []) as [[kept l]|] eqn:Ec; [|discriminate]. apply collect_checks in Ec. destruct Ec as [K1 K2]. destruct (solver_ranges _ _ _ _) as [curs|]; [|discriminate].
    destruct (batch_make m _) as [bs| |] eqn:Eb; try discriminate. apply batch_types in Eb. intros [= <-]. cbn [buses]. rewrite Forall_forall in Eb. split; intros b Hb; [apply in_app_iff in Hb; destruct Hb; auto|]. destruct (K2 b Hb); auto. left. apply in_app_iff. auto.
  Qed.
  (** The executions of the system before satisfy its assumption on bit counts. *)
  Lemma legal_bits s (b : busi gexp) : legal m (bmap (eval s) b) -> bits_in_table m b.
  Proof.
    intros L i x bits E1 Ei I Ep. destruct L as [Z|(t & T & A)]; cbn [bmap bus_id mult payload] in *; [rewrite E1, eval_from_number in Z; apply (f_equal val) in Z; rewrite val_zero, (val_one_ Hbig) in Z; discriminate|].
    rewrite Ei, eval_from_number in T. assert (t = BVarRange). { apply (bus_type_of _ _ _ (proj1 Hm)) in I, T. congruence. } subst t. destruct A as (x' & b' & E & L & _). rewrite Ep in E. cbn [map] in E. rewrite eval_from_number in E.
    assert (Eb : bits = b') by congruence. now rewrite Eb.
  Qed.
End Ranges.
