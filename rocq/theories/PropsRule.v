(** C42: the rule-based optimizer. *)
From Coq Require Import Arith NArith ZArith Znumtheory Bool List Lia Permutation.
From Verif Require Import Field Primes RangeModel RangeFacts ExprModel ExprFacts ExprWf SolveModel SystemModel Spec Bridge BusModel BusFacts OvmModel OvmSpec OvmFacts PropsOvm
  PassModel PassSpec LowOvm PropsMem PropsPass RuleModel RuleSpec RuleFacts RuleReplace RuleDrive RuleBack RuleDegree.
Import ListNotations.
Local Open Scope nat_scope.

(** ** Single rules *)
(** Everything the rules derive about variables (range constraints, constants, equal variables) is true of every assignment of which their input is true. *)
Theorem C42_actions : forall (p : positive) (E : renv p) s a, prime (Z.pos p) -> (2 * N.pos p <= 2 ^ 64)%N ->
  Forall wf (r_algs E) -> (forall e r, In (e, r) (r_init E) -> wf e) -> (forall e, In e (r_algs E) -> (N.of_nat (length (lin e)) <= N.pos p)%N) ->
  env_true E s -> action_rule E a -> action_true s a.
Proof. intros p E s a Hp Hw Ha Hi Hc [Hs Hr] H. now apply (action_rule_true Hp E Ha Hi s Hr Hs Hw Hc). Qed.
(** Two ways to replace constraints: two variables that occur only once by one new variable, and two products with a common factor by one.
    All assignments that satisfy the old constraints satisfy the new ones, if the new variable is computed as requested. *)
Theorem C42_replacements : forall (p : positive) (E : renv p) s a, prime (Z.pos p) -> Forall wf (r_algs E) -> (forall e r, In (e, r) (r_init E) -> wf e) ->
  (forall v e, In v (r_single E) -> In e (r_algs E) -> count_var v (vars e) <= 1) ->
  env_true E s -> free_rule E a \/ combine_rule E a -> repl_true E s a.
Proof. intros p E s a Hp Ha Hi Hsg [Hs Hr] [H|H]; [now apply (free_forward Hp E Ha Hi Hsg s)|now apply (combine_forward Hp E s)]. Qed.
(** Conversely, two variables can be chosen such that the old constraint holds. *)
Theorem C42_free_back : forall (p : positive) (E : renv p) s old num den new v, prime (Z.pos p) -> Forall wf (r_algs E) -> (forall e r, In (e, r) (r_init E) -> wf e) ->
  (forall v e, In v (r_single E) -> In e (r_algs E) -> count_var v (vars e) <= 1) -> free_rule E (WithVar old num den new) -> Forall (solves s) (new v) ->
  exists v1 v2 a1 a2, In v1 (r_single E) /\ In v2 (r_single E) /\ Forall (solves (upd (upd s v1 a1) v2 a2)) old.
Proof.
  intros p E s old num den new v Hp Ha Hi Hsg H Hn. destruct (free_back Hp E Ha Hi Hsg s _ old num den new v H eq_refl Hn) as (e & v1 & v2 & a1 & a2 & -> & S1 & S2 & _ & _ & S). exists v1, v2, a1, a2. auto.
Qed.
Theorem C42_combine_back : forall (p : positive) (E : renv p) s old new, prime (Z.pos p) -> Forall wf (r_algs E) -> (forall e r, In (e, r) (r_init E) -> wf e) ->
  ranges_true E s -> combine_rule E (Plain old new) -> Forall (solves s) new -> Forall (solves s) old.
Proof. intros p E s old new Hp Ha Hi Hr H. now apply (combine_back Hp E Ha Hi s _ old new Hr H). Qed.
(** The third way, a test for zero.  Missing: the rule does not test that the marked difference is positive and that the markers
    in different constraints are the same; here this is assumed. *)
Theorem C42_zero_partial : forall (p : positive) (E : renv p) s cs res a m ls ds rs, prime (Z.pos p) -> (4 < N.pos p)%N -> Forall wf (r_algs E) -> (forall e r, In (e, r) (r_init E) -> wf e) ->
  env_true E s -> zero_check E cs res a m ls ds rs -> markers_ok s m ls ds rs -> repl_true E s (zero_replacement cs res a).
Proof. intros p E s cs res a m ls ds rs Hp H4 Ha Hi [Hs Hr] Z M. now apply (zero_forward Hp E Ha Hi H4 s cs res a m ls ds rs). Qed.
(** Conversely, the markers and the difference can be chosen such that the old constraints hold.  Missing: that they occur nowhere else, which the rule does not test. *)
Theorem C42_zero_back_partial : forall (p : positive) (E : renv p) s cs res a m ls ds rs v, prime (Z.pos p) -> Forall wf (r_algs E) -> (forall e r, In (e, r) (r_init E) -> wf e) ->
  ranges_true E s -> zero_check E cs res a m ls ds rs ->
  (forall t, exists m0 m1 m2 m3, m = [m0; m1; m2; m3] /\
    map (eval t) ls = [1 - t m3; 1 - t m3 - t m2; 1 - t m3 - t m2 - t m1; 1 - t m3 - t m2 - t m1 - t m0; 1 - t m3 - t m2 - t m1 - t m0]%F) ->
  Forall (solves s) (match zero_replacement cs res a with WithVar _ _ _ new => new v | Plain _ new => new end) ->
  exists diff, (NoDup (diff :: m) -> (forall w, In w (res :: a) -> ~ In w (diff :: m)) ->
    exists s', (forall w, ~ In w (diff :: m) -> s' w = s w) /\ (forall w, In w m -> s' w = 0%F \/ s' w = 1%F) /\ Forall (solves s') cs) /\
    (forall t d, In d ds -> exists q, q <> 0%F /\ eval t d = (q * t diff)%F).
Proof. intros p E s cs res a m ls ds rs v Hp Ha Hi. apply (zero_back Hp E Ha Hi). Qed.

(** ** Runs *)
(** Every run of the optimizer, in any number of rounds, any order of rules and any choice among their output: every assignment that satisfies the system
    and for which the range constraints of the solver hold can be extended to the new variables such that it satisfies the result, sends the same,
    has the values that the optimizer claims to have found and the values of all derived variables, old and new. *)
Theorem C42_run : forall (p : positive) handler (g : var -> rc p) fresh bound sem (c c' : csys p) next next' asg s, prime (Z.pos p) ->
  handler_sound sem handler -> (4 < N.pos p)%N -> (2 * N.pos p <= 2 ^ 64)%N -> (forall i j, fresh i = fresh j -> i = j) -> (forall k x, next <= k -> rc_allows (g (fresh k)) x) ->
  (forall k, next <= k -> ~ In (fresh k) (sys_vars c) /\ forall x m, In (x, m) (derived c) -> ~ In (fresh k) (cm_vars m)) ->
  Forall wf (algs c) -> (forall b e, In b (buses c) -> In e (fields b) -> wf e) ->
  (N.of_nat (length (dedup (sys_vars c)) + (next' - next)) <= N.pos p)%N ->
  rule_based handler g fresh bound c next c' asg next' ->
  sys_solves s c -> Forall sem (bus_values s c) -> (forall v, In v (sys_vars c) -> rc_allows (g v) (s v)) ->
  (* whatever looks like a zero test in a state of the run is one *)
  (forall d s1, rounds handler g fresh bound (initial_state g c next) d -> agree_below fresh next s s1 -> sys_solves s1 (d_sys d) ->
    (forall v r, In (v, r) (d_rc d) -> rc_allows r (s1 v)) -> forall elt vlt cs res a m ls ds rs, zero_check (env_of handler g elt vlt d) cs res a m ls ds rs -> markers_ok s1 m ls ds rs) ->
  exists s', agree_below fresh next s s' /\ sys_solves s' c' /\ bus_values s' c' = bus_values s c /\ (forall v e, In (v, e) asg -> s' v = eval s' e) /\
    exists extra, derived_values s' c' = derived_values s c ++ extra /\ map fst extra = map fresh (seq next (next' - next)) /\ Forall (fun vx => s' (fst vx) = snd vx) extra.
Proof.
  intros p handler g fresh bound sem c c' next next' asg s Hp Hh H4 Hw Hf Hg Hn Ha Hb Hc R Hs Hsem Hr Hm.
  apply (rule_based_forward Hp handler g fresh bound sem c c' next next' asg s); auto. intros d s1 A B C D _ _. exact (Hm d s1 A B C D).
Qed.
(** There are no zero tests in systems of degree two, so the last assumption is not needed there. *)
Theorem C42_run_quadratic : forall (p : positive) handler (g : var -> rc p) fresh bound sem (c c' : csys p) next next' asg s, prime (Z.pos p) ->
  handler_sound sem handler -> (4 < N.pos p)%N -> (2 * N.pos p <= 2 ^ 64)%N -> (forall i j, fresh i = fresh j -> i = j) -> (forall k x, next <= k -> rc_allows (g (fresh k)) x) ->
  (forall k, next <= k -> ~ In (fresh k) (sys_vars c) /\ forall x m, In (x, m) (derived c) -> ~ In (fresh k) (cm_vars m)) ->
  Forall wf (algs c) -> (forall b e, In b (buses c) -> In e (fields b) -> wf e) ->
  (N.of_nat (length (dedup (sys_vars c)) + (next' - next)) <= N.pos p)%N -> (forall n, bound = Some n -> n <= 2) -> (forall e, In e (algs c) -> degree e <= 2) ->
  rule_based handler g fresh bound c next c' asg next' ->
  sys_solves s c -> Forall sem (bus_values s c) -> (forall v, In v (sys_vars c) -> rc_allows (g v) (s v)) ->
  exists s', agree_below fresh next s s' /\ sys_solves s' c' /\ bus_values s' c' = bus_values s c /\ (forall v e, In (v, e) asg -> s' v = eval s' e) /\
    exists extra, derived_values s' c' = derived_values s c ++ extra /\ map fst extra = map fresh (seq next (next' - next)) /\ Forall (fun vx => s' (fst vx) = snd vx) extra.
Proof.
  intros p handler g fresh bound sem c c' next next' asg s Hp Hh H4 Hw Hf Hg Hn Ha Hb Hc H2 Hd R Hs Hsem Hr.
  exact (run_quadratic Hp handler g fresh bound sem c c' next next' asg s Hh H4 Hw Hf Hg Hn Ha Hb Hc H2 Hd R Hs Hsem Hr).
Qed.
(** Degrees stay within the bound (without a bound, below the largest one); those of bus interactions do not grow. *)
Theorem C42_degree : forall (p : positive) handler (g : var -> rc p) fresh bound k kb (c c' : csys p) next next' asg, prime (Z.pos p) ->
  (forall n, bound = Some n -> n <= k) -> rule_based handler g fresh bound c next c' asg next' ->
  (forall e, In e (algs c) -> degree e <= k) -> (forall b e, In b (buses c) -> In e (fields b) -> degree e <= kb) ->
  (forall e, In e (algs c') -> degree e <= k) /\ (forall b e, In b (buses c') -> In e (fields b) -> degree e <= kb).
Proof. intros p handler g fresh bound k kb c c' next next' asg Hp Hb R A B. exact (rule_based_degree Hp handler g fresh bound k kb Hb c c' next next' asg R (conj A B)). Qed.
(** Conversely, one round: every assignment that satisfies the result, and of which the range constraints are true, comes from one that satisfies the system before the round,
    sends the same and differs only in variables that occurred once.  Missing: the zero test (see above), and more than one round, where the
    range constraints may have been derived from constraints that were replaced later (see below). *)
Theorem C42_round_back_partial : forall (p : positive) handler (g : var -> rc p) fresh bound sem (d d' : dstate) new s, prime (Z.pos p) -> handler_sound sem handler ->
  Forall wf (algs (d_sys d)) -> (forall b e, In b (buses (d_sys d)) -> In e (fields b) -> wf e) ->
  round_of handler g fresh bound (fun E a => free_rule E a \/ combine_rule E a) d d' -> d_asg d' = d_asg d ++ new ->
  sys_solves s (d_sys d') -> Forall sem (bus_values s (d_sys d')) -> asg_true s new ->
  (forall b v, In b (buses (d_sys d)) -> In v (bus_vars b) -> rc_allows (g v) (s v)) -> (forall v r, In (v, r) (d_rc d) -> rc_allows r (s v)) ->
  exists s0, (forall v, ~ In v (single_occurrence (d_sys d)) -> s0 v = s v) /\ asg_true s0 new /\ sys_solves s0 (d_sys d) /\ bus_values s0 (d_sys d) = bus_values s (d_sys d').
Proof. intros p handler g fresh bound sem d d' new s Hp. exact (round_back Hp handler g fresh bound sem d d' new s). Qed.

(** ** Derivations on literals *)
Section Derive.
  Context {p : positive}.
  Fixpoint subexprs (n : nat) (e : gexp p) : list (gexp p) :=
    e :: match n with
         | O => []
         | S n => match try_as_single_product e with Some (l, r) => subexprs n l ++ subexprs n r | None => [] end ++
                  match try_split_head_tail e with Some (h, t) => if gexp_eqb h e then [t] else subexprs n h ++ subexprs n t | None => [] end
         end.
  Lemma subexprs_expression E n : forall e x, expression E e -> In x (subexprs n e) -> expression E x.
  Proof.
    induction n as [|n IH]; intros e x He; cbn [subexprs]; intros [<-|I]; auto; [destruct I|]. apply in_app_iff in I. destruct I as [I|I].
    - destruct (try_as_single_product e) as [[l r]|] eqn:Q; [|destruct I]. apply in_app_iff in I. destruct I as [I|I]; (eapply IH; [|exact I]); [eapply ex_left|eapply ex_right]; eauto.
    - destruct (try_split_head_tail e) as [[h t]|] eqn:Q; [|destruct I]. destruct (gexp_eqb h e); [destruct I as [<-|[]]; eapply ex_tail; eauto|]. apply in_app_iff in I. destruct I as [I|I]; (eapply IH; [|exact I]); [eapply ex_head|eapply ex_tail]; eauto.
  Qed.
  Lemma derive_expression (E : renv p) n x : existsb (fun e => member x (subexprs n e)) (r_algs E ++ map fst (r_init E)) = true -> expression E x.
  Proof.
    intros H. apply existsb_exists in H. destruct H as (e & I & M). apply member_in in M. apply (subexprs_expression E n e); auto. apply in_app_iff in I. destruct I as [I|I]; [now apply ex_alg|].
    apply in_map_iff in I. destruct I as ([e0 r] & <- & I). now apply (ex_range E _ r).
  Qed.
  Lemma derive_in (e : gexp p) l : member e l = true -> In e l.
  Proof. apply member_in. Qed.
End Derive.
Ltac dexp := apply (derive_expression _ 12); vm_compute; reflexivity.
Ltac daff := split; [dexp|vm_compute; reflexivity].
Ltac dprod := first [apply pr_split; [dexp|vm_compute; reflexivity] | apply pr_swap, pr_split; [dexp|vm_compute; reflexivity]].
Ltac din := vm_compute; repeat (first [left; reflexivity | right]).
Ltac dwf := repeat first [apply Forall_nil | apply Forall_cons | apply wf_gmul | apply wf_gadd | apply wf_gsub | apply wf_gneg | apply wf_gscale | apply wf_gsum | apply wf_from_var | apply wf_from_number | exact prime_babybear].
Ltac dpc := split; [apply derive_in; vm_compute; reflexivity|dprod].

(** ** Findings *)
Local Notation bh := (ovm_total default_openvm_bus_map).
Local Notation bstate := (ovm_stateful default_openvm_bus_map).
Local Notation btable := (ovm_table (p:=babybear) default_openvm_bus_map (fun _ => False)).
Definition rule_fresh (k : nat) : var := Orig (1000 + N.of_nat k).
Definition any_elt (a b : gexp babybear) : Prop := True.
Definition by_id (a b : var) : Prop := vltb a b = true.

(** Constraints are combined because of range constraints that follow from the constraints that are replaced: [v * (v - 1)] and [w * (v - 1)] with a range check of [w].
    The result accepts values of [v] that are sent to memory and were impossible before. *)
Definition circ_sys : csys babybear := mkCS [gmul (v_ 0) (gsub (v_ 0) gone); gmul (v_ 1) (gsub (v_ 0) gone)] [mkBus (n_ 3) (n_ 1) [v_ 1; n_ 8]; mkBus (n_ 1) (n_ 1) [n_ 1; v_ 0; v_ 1; n_ 3]] [].
Definition circ_g (v : var) : rc babybear := match v with Orig 0 => from_mask 1 | _ => unconstrained end.
Definition circ_new : csys babybear := mkCS [gmul (gsub (v_ 0) gone) (gadd (v_ 0) (v_ 1))] (buses circ_sys) [].
Definition circ_s (v : var) : F babybear := match v with Orig 0 => fopp (of_N 5) | _ => of_N 5 end.
Lemma circ_range : admissible bstate btable circ_s circ_new.
Proof.
  split; [apply sys_solves_dec; vm_compute; reflexivity|]. constructor; [|constructor; [|constructor]].
  - intros _ _. exists BVarRange. split; [cbn; tauto|]. eexists _, _. split; [reflexivity|]. split; vm_compute; [discriminate|reflexivity].
  - intros X. vm_compute in X. discriminate.
Qed.
Theorem C42_circular_refuted : exists (c c' : csys babybear) g s, rule_based bh g rule_fresh (Some 2) c 0 c' [] 0 /\
  (forall t, admissible bstate btable t c -> forall v, rc_allows (g v) (t v)) /\
  admissible bstate btable s c' /\ forall t, admissible bstate btable t c -> sends bstate t c <> sends bstate s c'.
Proof.
  exists circ_sys, circ_new, circ_g, circ_s. split; [|split; [|split; [exact circ_range|]]].
  - set (E := env_of bh circ_g any_elt by_id (initial_state circ_g circ_sys 0)). exists (mkD circ_new (d_rc (initial_state circ_g circ_sys 0)) [] 0). split; [|repeat split].
    eapply rs_step; [|apply rs_done].
    exists any_elt, by_id, [], [Plain (algs circ_sys) (algs circ_new)], [(algs circ_sys, algs circ_new)], [(algs circ_sys, algs circ_new)], (initial_state circ_g circ_sys 0).
    split; [constructor|]. split; [|split; [reflexivity|split; [apply Permutation_refl|]]].
    + constructor; [|constructor]. right. left. exists (gmul (v_ 0) (gsub (v_ 0) gone)), (gmul (v_ 1) (gsub (v_ 0) gone)), (gsub (v_ 0) gone), (v_ 0), (v_ 1).
      eexists _, _. split; [dpc|]. split; [dpc|]. split; [exact Logic.I|]. split; [|split; [|split; [|split; [|split]]]].
      * eapply ro_linear; [daff|]. left. reflexivity.
      * eapply ro_init. din.
      * vm_compute. reflexivity.
      * vm_compute. reflexivity.
      * vm_compute. reflexivity.
      * reflexivity.
    + vm_compute. reflexivity.
  - intros t [Hs _] v. unfold circ_g. destruct v as [[|n]|n|n]; try (apply rc_allows_iff, unconstrained_allows).
    inversion_clear Hs as [|? ? S _]. unfold solves in S. rewrite eval_gmul, eval_gsub in S. apply (mul_eq_zero _ _ prime_babybear) in S. unfold v_ in S. rewrite eval_from_var in S.
    apply rc_allows_iff. destruct S as [->|S]; [vm_compute; reflexivity|]. apply (proj1 (sub_eq_zero _ _)) in S. rewrite S. vm_compute. reflexivity.
  - intros t [Hs _] Q. inversion_clear Hs as [|? ? S _]. unfold solves in S. rewrite eval_gmul, eval_gsub in S. apply (mul_eq_zero _ _ prime_babybear) in S. unfold v_ in S. rewrite eval_from_var in S.
    assert (T : t (Orig 0) = fopp (of_N 5)).
    { unfold sends in Q. cbn [bus_values circ_sys circ_new buses map] in Q. unfold bmap in Q. cbn [bus_id mult payload map] in Q. unfold n_, v_ in Q. rewrite !eval_from_number, !eval_from_var in Q. cbn in Q. congruence. }
    rewrite T in S. destruct S as [S|S]; [|apply (proj1 (sub_eq_zero _ _)) in S]; apply (f_equal val) in S; vm_compute in S; discriminate.
Qed.

(** The test that a sum of non-negative values does not wrap around adds 64-bit words without a test for overflow.  For the Goldilocks field the sum can overflow (a panic, or
    in a build without overflow checks a small number), and the summands are wrongly taken to be zero. *)
Definition goldilocks : positive := 18446744069414584321.
Definition wrap_env : renv goldilocks :=
  let r := from_range 0%F (of_N 18446744069414584319) in
  mkEnv [gadd (from_var (Orig 0)) (from_var (Orig 1))] [] [(Orig 0, r); (Orig 1, r)] [] (fun _ _ => True) (fun _ _ => True).
Definition wrap_s (v : var) : F goldilocks := match v with Orig 0 => of_N 2 | _ => of_N 18446744069414584319 end.
Theorem C42_wrap_refuted : exists (E : renv goldilocks) s a, Forall wf (r_algs E) /\ env_true E s /\ action_rule E a /\ ~ action_true s a.
Proof.
  exists wrap_env, wrap_s, (SetConst (Orig 0) 0%F). split; [|split; [|split]].
  - constructor; [|constructor]. split; vm_compute; repeat constructor; discriminate.
  - split; [constructor; [vm_compute; reflexivity|constructor]|]. split; [intros e r []|]. intros v r H. apply rc_allows_iff. cbn in H. destruct H as [[= <- <-]|[[= <- <-]|[]]]; vm_compute; reflexivity.
  - apply ac_const. eapply (as_zero _ (from_var (Orig 0))); [|eexists _, _; split; [daff|vm_compute; reflexivity]].
    eapply (ez_head _ (gadd (from_var (Orig 0)) (from_var (Orig 1)))); [apply ez_alg; left; reflexivity|daff|eapply ro_linear; [daff|din]|eapply ro_linear; [daff|din]|vm_compute; reflexivity..].
  - vm_compute. discriminate.
Qed.

(** The test whether four bytes, of which the first one is compared to one, are all zero (the comparison of OpenVM with the constant one). *)
Local Notation mx k := (gneg (v_ k)).
Definition z_two : gexp babybear := gsub (gscale (v_ 8) (of_N 2)) gone.
Definition z_l0 := gsub gone (v_ 7).
Definition z_l1 := gsub z_l0 (v_ 6).
Definition z_l2 := gsub z_l1 (v_ 5).
Definition z_l3 := gsub z_l2 (v_ 4).
Definition z_sum := gsum [v_ 4; v_ 5; v_ 6; v_ 7].
Definition z_diff (m : N) (e : gexp babybear) := gmul (v_ m) (gadd (gmul e z_two) (v_ 9)).
Definition z_cs : list (gexp babybear) := [gmul z_l0 (gmul (mx 3) z_two); gmul z_l1 (gmul (mx 2) z_two); gmul z_l2 (gmul (mx 1) z_two); gmul z_l3 (v_ 8); gmul z_l3 (gmul (gsub gone (v_ 0)) z_two);
  z_diff 4 (gsub (v_ 0) gone); z_diff 5 (v_ 1); z_diff 6 (v_ 2); z_diff 7 (v_ 3); gmul (gsub z_sum gone) z_sum].
Definition z_g (v : var) : rc babybear := match v with Orig n => if (n <? 4)%N then from_mask 255 else if (n <? 9)%N then from_mask 1 else unconstrained | _ => unconstrained end.
Definition z_sys : csys babybear := mkCS (z_cs ++ map (fun k => gmul (v_ k) (gsub (v_ k) gone)) [4; 5; 6; 7; 8]%N)
  (map (fun k => mkBus (n_ 3) (n_ 1) [v_ k; n_ 8]) [0; 1; 2; 3]%N ++ [mkBus (n_ 1) (n_ 1) [n_ 1; v_ 8; v_ 0; n_ 3]]) [].
Definition z_env : renv babybear := env_of bh z_g any_elt by_id (initial_state z_g z_sys 0).
Definition z_vars : list var := [Orig 0; Orig 1; Orig 2; Orig 3].
Definition z_marks : list var := [Orig 4; Orig 5; Orig 6; Orig 7].
Lemma z_check : zero_check z_env z_cs (Orig 8) z_vars z_marks [z_l0; z_l1; z_l2; z_l3; z_l3] [v_ 9; v_ 9; v_ 9; v_ 9] [from_mask 255; from_mask 255; from_mask 255; from_mask 255].
Proof.
  assert (PM : forall e e1, product z_env e e1 z_two -> plus_minus z_env e e1 (Orig 8)). { intros e e1 H. exists z_two. split; auto. daff. }
  assert (N0 : negated z_env (gmul z_l0 (gmul (mx 3) z_two)) (Orig 7) z_l0 (Orig 3) (Orig 8) 0). { eapply ng_base; [dpc|daff|apply PM; dprod|daff]. }
  assert (N1 : negated z_env (gmul z_l1 (gmul (mx 2) z_two)) (Orig 6) z_l1 (Orig 2) (Orig 8) 1). { eapply ng_step; [dpc|exact N0|apply db_head; daff|daff|apply PM; dprod|daff]. }
  assert (N2 : negated z_env (gmul z_l2 (gmul (mx 1) z_two)) (Orig 5) z_l2 (Orig 1) (Orig 8) 2). { eapply ng_step; [dpc|exact N1|apply db_head; daff|daff|apply PM; dprod|daff]. }
  assert (D : forall m e, In (z_diff m e) z_cs -> expression z_env (v_ m) -> product z_env (z_diff m e) (v_ m) (gadd (gmul e z_two) (v_ 9)) -> head_tail z_env (gadd (gmul e z_two) (v_ 9)) (gmul e z_two) (v_ 9) ->
    product z_env (gmul e z_two) e z_two -> diff_marker z_env (z_diff m e) (Orig m) e (Orig 8) (Orig 9) (v_ 9)).
  { intros m e Ic He Hpr Hht Hp2. exists (v_ m), (gadd (gmul e z_two) (v_ 9)), (gmul e z_two), fone, fone. split; [split; [apply in_app_iff; now left|auto]|]. split; [split; [auto|reflexivity]|]. split; [auto|]. split; [now apply PM|daff]. }
  assert (F3 : negated_final z_env (gmul z_l3 (v_ 8)) (Orig 4) z_l3 (Orig 8) 3).
  { exists (v_ 8), (gmul z_l2 (gmul (mx 1) z_two)), (Orig 5), z_l2, (Orig 1), (mx 4), 2. split; [reflexivity|]. split; [dpc|]. split; [exact N2|]. split; [apply db_head; daff|]. split; daff. }
  assert (G3 : negated_final_negated z_env (gmul z_l3 (gmul (gsub gone (v_ 0)) z_two)) (Orig 4) z_l3 (Orig 0) (Orig 8) 3).
  { exists (gmul (gsub gone (v_ 0)) z_two), (gsub gone (v_ 0)), (gmul z_l2 (gmul (mx 1) z_two)), (Orig 5), z_l2, (Orig 1), (mx 4), 2. split; [reflexivity|]. split; [dpc|]. split; [exact N2|]. split; [apply db_head; daff|]. split; [daff|]. split; [apply PM; dprod|daff]. }
  assert (D0 : diff_marker z_env (z_diff 4 (gsub (v_ 0) gone)) (Orig 4) (gsub (v_ 0) gone) (Orig 8) (Orig 9) (v_ 9)) by (apply D; [apply derive_in; vm_compute; reflexivity|dexp|dprod|daff|dprod]).
  assert (D1 : diff_marker z_env (z_diff 5 (v_ 1)) (Orig 5) (v_ 1) (Orig 8) (Orig 9) (v_ 9)) by (apply D; [apply derive_in; vm_compute; reflexivity|dexp|dprod|daff|dprod]).
  assert (D2 : diff_marker z_env (z_diff 6 (v_ 2)) (Orig 6) (v_ 2) (Orig 8) (Orig 9) (v_ 9)) by (apply D; [apply derive_in; vm_compute; reflexivity|dexp|dprod|daff|dprod]).
  assert (D3 : diff_marker z_env (z_diff 7 (v_ 3)) (Orig 7) (v_ 3) (Orig 8) (Orig 9) (v_ 9)) by (apply D; [apply derive_in; vm_compute; reflexivity|dexp|dprod|daff|dprod]).
  assert (A1 : affinely_related z_env (gsub z_sum gone) fone z_sum (fopp fone)).
  { do 3 (eapply ar_step; [|daff|daff|daff|daff]). replace fone with (fdiv (p:=babybear) fone fone) by (vm_compute; reflexivity). replace (fopp (fdiv (p:=babybear) fone fone)) with (fsub (fopp fone) (fmul 0%F (fdiv (p:=babybear) fone fone))) by (vm_compute; reflexivity). eapply ar_base; daff. }
  assert (A2 : affinely_related z_env z_sum (fopp fone) z_l3 fone).
  { assert (B : affinely_related z_env (v_ 7) (fopp fone) z_l0 fone).
    { replace (fopp fone) with (fdiv (p:=babybear) fone (fopp fone)) by (vm_compute; reflexivity). replace (fone (p:=babybear)) with (fsub 0%F (fmul fone (fdiv (p:=babybear) fone (fopp fone)))) at 3 by (vm_compute; reflexivity). eapply ar_base; daff. }
    do 3 (eapply ar_step; [|daff|daff|daff|daff]). exact B. }
  exists (nth 0 z_cs gzero), (nth 1 z_cs gzero), (nth 2 z_cs gzero), (nth 3 z_cs gzero), (nth 4 z_cs gzero), (nth 5 z_cs gzero), (nth 6 z_cs gzero), (nth 7 z_cs gzero), (nth 8 z_cs gzero), (nth 9 z_cs gzero).
  exists (Orig 4), (Orig 5), (Orig 6), (Orig 7), (Orig 0), (Orig 1), (Orig 2), (Orig 3), z_l0, z_l1, z_l2, z_l3, z_l3, (Orig 9), (v_ 9), (v_ 9), (v_ 9), (v_ 9), (gsub (v_ 0) gone), (v_ 1), (v_ 2), (v_ 3).
  exists (from_mask 255), (from_mask 255), (from_mask 255), (from_mask 255), z_sum.
  do 6 (split; [reflexivity|]). split; [exact N0|]. split; [exact N1|]. split; [exact N2|]. split; [exact F3|]. split; [exact G3|]. split; [exact D0|]. split; [daff|]. split; [exact D1|]. split; [daff|]. split; [exact D2|]. split; [daff|]. split; [exact D3|]. split; [daff|].
  do 9 (split; [din|]). do 5 (split; [vm_compute; reflexivity|]). split; [|exact A2]. exists (gsub z_sum gone), fone, (fopp fone). split; [dpc|]. split; [exact A1|reflexivity].
Qed.
Lemma z_g_true t : admissible bstate btable t z_sys -> forall v, rc_allows (z_g v) (t v).
Proof.
  intros [Hs Hb] v. unfold sys_solves in Hs. rewrite Forall_forall in Hs. rewrite Forall_forall in Hb.
  assert (Bit : forall k, In k [4; 5; 6; 7; 8]%N -> rc_allows (from_mask 1) (t (Orig k))).
  { intros k Ik. assert (S : solves t (gmul (v_ k) (gsub (v_ k) gone))) by (apply Hs; cbn [algs z_sys]; apply in_app_iff; right; apply (in_map (fun k => gmul (v_ k) (gsub (v_ k) gone)) _ _ Ik)).
    unfold solves in S. rewrite eval_gmul, eval_gsub in S. apply (mul_eq_zero _ _ prime_babybear) in S. unfold v_ in S. rewrite eval_from_var in S.
    apply rc_allows_iff. destruct S as [->|S]; [vm_compute; reflexivity|]. apply (proj1 (sub_eq_zero _ _)) in S. rewrite S. vm_compute. reflexivity. }
  assert (Byte : forall k, In k [0; 1; 2; 3]%N -> rc_allows (from_mask 255) (t (Orig k))).
  { intros k Ik. assert (S : acceptable bstate btable (bmap (eval t) (mkBus (n_ 3) (n_ 1) [v_ k; n_ 8]))).
    { apply Hb. unfold bus_values. apply in_map. cbn [buses z_sys]. apply in_app_iff. left. apply (in_map (fun k => mkBus (n_ 3) (n_ 1) [v_ k; n_ 8]) _ _ Ik). }
    destruct S as (ty & Iy & A); [vm_compute; reflexivity|discriminate|]. assert (ty = BVarRange) by (change (In (3%N, ty) default_openvm_bus_map) in Iy; cbn in Iy; intuition congruence). subst ty.
    destruct A as (x & b & Q & L & Bd). cbn [payload bmap map] in Q. unfold v_, n_ in Q. rewrite eval_from_var, eval_from_number in Q. assert (Qx : x = t (Orig k)) by congruence. assert (Qb : b = of_N 8) by congruence. subst x b.
    change 255%N with (N.shiftl 1 8 - 1)%N. apply allows_bits. exact Bd. }
  unfold z_g. destruct v as [n|n|n]; try (apply rc_allows_iff, unconstrained_allows).
  destruct (n <? 4)%N eqn:A; [apply N.ltb_lt in A; apply Byte; cbn; lia|]. destruct (n <? 9)%N eqn:B; [apply N.ltb_lt in B; apply N.ltb_ge in A; apply Bit; cbn; lia|]. apply rc_allows_iff, unconstrained_allows.
Qed.
(** The rule does not test the range of the difference, which decides whether the markers are right: the run makes the accepted result one for a non-zero value impossible. *)
Definition z_s (v : var) : F babybear := match v with Orig 3 => of_N 5 | Orig 7 => of_N 1 | Orig 8 => of_N 1 | Orig 9 => fopp (of_N 5) | _ => 0%F end.
Definition z_after : dstate := Eval vm_compute in
  let '(xs, d1) := instantiate_all rule_fresh (initial_state z_g z_sys 0) [zero_replacement z_cs (Orig 8) z_vars] in mkD (batch_replace (Some 3) (d_sys d1) xs) (d_rc d1) (d_asg d1) (d_next d1).
Definition z_new : csys babybear := d_sys z_after.
Lemma z_run : rule_based bh z_g rule_fresh (Some 3) z_sys 0 z_new [] 1.
Proof.
  exists z_after. split; [|repeat split; vm_compute; reflexivity]. eapply rs_step; [|apply rs_done].
  exists any_elt, by_id, [], [zero_replacement z_cs (Orig 8) z_vars]. eexists _, _, _. split; [constructor|]. split; [|split; [reflexivity|split; [apply Permutation_refl|vm_compute; reflexivity]]].
  constructor; [|constructor]. right. right. exists z_cs, (Orig 8), z_vars, z_marks. eexists _, _, _. split; [exact z_check|reflexivity].
Qed.
Theorem C42_zero_unchecked_refuted : exists (c c' : csys babybear) g s next', rule_based bh g rule_fresh (Some 3) c 0 c' [] next' /\
  (forall t, admissible bstate btable t c -> forall v, rc_allows (g v) (t v)) /\
  admissible bstate btable s c /\ forall t, (forall v, In v (sys_vars c') -> In v (sys_vars c) -> t v = s v) -> ~ admissible bstate btable t c'.
Proof.
  exists z_sys, z_new, z_g, z_s, 1. split; [exact z_run|]. split; [exact z_g_true|]. split.
  - split; [apply sys_solves_dec; vm_compute; reflexivity|]. repeat (apply Forall_cons || apply Forall_nil); try (intros X; vm_compute in X; discriminate).
    all: intros _ _; exists BVarRange; split; [cbn; tauto|]; eexists _, _; split; [reflexivity|]; split; vm_compute; [discriminate|reflexivity].
  - intros t Ht [Hs _]. unfold sys_solves in Hs. rewrite Forall_forall in Hs.
    assert (S : solves t (gmul (v_ 8) (gsum (map from_var z_vars)))) by (apply Hs; apply derive_in; vm_compute; reflexivity).
    unfold solves in S. rewrite eval_gmul in S.
    assert (Q : eval t (gsum (map from_var z_vars)) = eval z_s (gsum (map from_var z_vars))).
    { apply eval_ext. intros v Iv. apply Ht; vm_compute in Iv; destruct Iv as [<-|[<-|[<-|[<-|[]]]]]; vm_compute; tauto. }
    rewrite Q in S. unfold v_ in S. rewrite eval_from_var, (Ht (Orig 8)) in S by (vm_compute; tauto). apply (f_equal val) in S. vm_compute in S. discriminate.
Qed.

(** ** The hypotheses are met *)
(** A zero test with a correct difference. *)
Definition z_good (v : var) : F babybear := match v with Orig 2 => of_N 7 | Orig 6 => of_N 1 | Orig 8 => 0%F | Orig 9 => of_N 7 | _ => 0%F end.
Example zero_example : env_true z_env z_good /\ Forall wf (r_algs z_env) /\ (forall e r, In (e, r) (r_init z_env) -> wf e) /\
  markers_ok z_good z_marks [z_l0; z_l1; z_l2; z_l3; z_l3] [v_ 9; v_ 9; v_ 9; v_ 9] [from_mask 255; from_mask 255; from_mask 255; from_mask 255] /\
  (forall t, exists m0 m1 m2 m3, z_marks = [m0; m1; m2; m3] /\
    map (eval t) [z_l0; z_l1; z_l2; z_l3; z_l3] = [1 - t m3; 1 - t m3 - t m2; 1 - t m3 - t m2 - t m1; 1 - t m3 - t m2 - t m1 - t m0; 1 - t m3 - t m2 - t m1 - t m0]%F).
Proof.
  assert (W : Forall wf (r_algs z_env)).
  { cbn [r_algs z_env env_of initial_state d_sys z_sys algs]. change (Forall wf (algs z_sys)); unfold z_sys, z_cs, z_l3, z_l2, z_l1, z_l0, z_diff, z_two, z_sum; cbn [algs app map];
    dwf. }
  split; [|split; [exact W|split; [|split]]].
  - split; [apply sys_solves_dec; vm_compute; reflexivity|]. split.
    + intros e r H. apply rc_allows_iff. vm_compute in H. repeat (destruct H as [[= <- <-]|H]; [vm_compute; reflexivity|]). destruct H.
    + intros v r H. apply rc_allows_iff. vm_compute in H. repeat (destruct H as [[= <- <-]|H]; [vm_compute; reflexivity|]). destruct H.
  - intros e r H. apply bus_ranges_src in H. destruct H as (b & Hb & He). cbn in Hb. repeat (destruct Hb as [<-|Hb]; [cbn in He; repeat (destruct He as [<-|He]; [first [apply wf_from_var | apply wf_from_number]; apply prime_babybear|]); destruct He|]). destruct Hb.
  - exists (Orig 4), (Orig 5), (Orig 6), (Orig 7). split; [reflexivity|]. split; [vm_compute; reflexivity|]. repeat (apply Forall2_cons || apply Forall2_nil); cbn [fst snd]; intros H; first [apply (f_equal val) in H; vm_compute in H; discriminate H | split; vm_compute; [discriminate|reflexivity]].
  - intros t. exists (Orig 4), (Orig 5), (Orig 6), (Orig 7). split; [reflexivity|]. cbn [map]. unfold z_l3, z_l2, z_l1, z_l0, v_. now rewrite !eval_gsub, !eval_from_var.
Qed.

(** Two free variables are combined into one. *)
Definition f_e : gexp babybear := gadd (gadd (gmul (v_ 2) (v_ 3)) (gmul (v_ 4) (v_ 5))) (gsub (v_ 0) gone).
Definition f_sys : csys babybear := mkCS [f_e] [mkBus (n_ 3) (n_ 1) [v_ 3; n_ 8]; mkBus (n_ 3) (n_ 1) [v_ 5; n_ 8]; mkBus (n_ 1) (n_ 1) [n_ 1; v_ 0; v_ 3; v_ 5]] [].
Definition f_g (v : var) : rc babybear := unconstrained.
Definition f_env : renv babybear := env_of bh f_g any_elt by_id (initial_state f_g f_sys 0).
Definition f_rest : gexp babybear := without (Orig 2) (Orig 4) f_e.
Definition f_sum : gexp babybear := gadd (gscale (v_ 3) fone) (gscale (v_ 5) fone).
Definition f_repl : repl babybear := WithVar [f_e] (gneg f_rest) f_sum (fun v => [gadd f_rest (gmul (from_var v) f_sum)]).
Lemma f_rule : free_rule f_env f_repl.
Proof.
  assert (S2 : single_in f_env f_e (Orig 2)) by (split; [din|split; [split; [dexp|din]|apply derive_in; vm_compute; reflexivity]]).
  assert (S4 : single_in f_env f_e (Orig 4)) by (split; [din|split; [split; [dexp|din]|apply derive_in; vm_compute; reflexivity]]).
  exists f_e, fone, (Orig 2), (v_ 3), (from_mask 255), fone, (Orig 4), (v_ 5), (from_mask 255). split; [|split; [eapply ro_init; din|split; [eapply ro_init; din|reflexivity]]].
  split; [|split; [apply derive_in; vm_compute; reflexivity|]].
  - split; [exact S2|]. split; [exact S4|]. split; [vm_compute; reflexivity|]. split; [discriminate|]. intros v Iv _. vm_compute in Iv. repeat (destruct Iv as [<-|Iv]; [tauto|]). destruct Iv.
  - exists (v_ 2), (v_ 4). split; [eexists; split; [eapply hs_head; daff|dprod]|]. split; [daff|]. split; [eexists; split; [eapply hs_tail; [daff|eapply hs_head; daff]|dprod]|]. split; [discriminate|]. split; [discriminate|daff].
Qed.
Definition f_after : dstate := Eval vm_compute in
  let '(xs, d1) := instantiate_all rule_fresh (initial_state f_g f_sys 0) [f_repl] in mkD (batch_replace (Some 2) (d_sys d1) xs) (d_rc d1) (d_asg d1) (d_next d1).
Definition f_s (v : var) : F babybear := match v with Orig 0 => of_N 0 | Orig 2 => of_N 1 | Orig 3 => 0%F | Orig 5 => of_N 4 | Orig 4 => (fone / of_N 4)%F | _ => 0%F end.
Example run_example : rule_based bh f_g rule_fresh (Some 2) f_sys 0 (d_sys f_after) [] 1 /\
  algs (d_sys f_after) = [gadd (gmul (from_var (rule_fresh 0)) (gadd (v_ 3) (v_ 5))) (gsub (v_ 0) gone)] /\
  round_of bh f_g rule_fresh (Some 2) (fun E a => free_rule E a \/ combine_rule E a) (initial_state f_g f_sys 0) f_after /\
  handler_sound (legal default_openvm_bus_map) (ovm_total (p:=babybear) default_openvm_bus_map) /\
  (forall i j, rule_fresh i = rule_fresh j -> i = j) /\ (forall k x, rc_allows (f_g (rule_fresh k)) x) /\
  (forall k, 0 <= k -> ~ In (rule_fresh k) (sys_vars f_sys) /\ forall x m, In (x, m) (derived f_sys) -> ~ In (rule_fresh k) (cm_vars m)) /\
  Forall wf (algs f_sys) /\ (forall b e, In b (buses f_sys) -> In e (fields b) -> wf e) /\ (forall e, In e (algs f_sys) -> degree e <= 2) /\
  sys_solves f_s f_sys /\ Forall (legal default_openvm_bus_map) (bus_values f_s f_sys).
Proof.
  assert (R : round_of bh f_g rule_fresh (Some 2) (fun E a => free_rule E a \/ combine_rule E a) (initial_state f_g f_sys 0) f_after).
  { exists any_elt, by_id, [], [f_repl]. eexists _, _, _. split; [constructor|]. split; [|split; [reflexivity|split; [apply Permutation_refl|vm_compute; reflexivity]]]. constructor; [|constructor]. left. exact f_rule. }
  split; [|split; [vm_compute; reflexivity|split; [exact R|split; [|split; [|split; [|split; [|split; [|split; [|split; [|split]]]]]]]]]].
  - exists f_after. split; [|repeat split; vm_compute; reflexivity]. eapply rs_step; [|apply rs_done]. destruct R as (elt & vlt & acts & reps & xs & rs & d1 & A & B & C & D & Q). exists elt, vlt, acts, reps, xs, rs, d1.
    split; auto. split; auto. eapply Forall_impl; [|exact B]. unfold replace_rule. cbn beta. tauto.
  - apply ovm_total_sound; [vm_compute; reflexivity|]. split; [cbn; repeat constructor; cbn; intuition discriminate|]. intros i t Hi. cbn in Hi. repeat (destruct Hi as [[= <- <-]|Hi]; [split; [vm_compute; reflexivity|]; try exact Logic.I; split; split; vm_compute; discriminate|]). destruct Hi.
  - unfold rule_fresh. intros i j H. assert (1000 + N.of_nat i = 1000 + N.of_nat j)%N by congruence. lia.
  - intros k x. apply rc_allows_iff, unconstrained_allows.
  - intros k _. split; [|intros x m []]. assert (G : forall v, In v (sys_vars f_sys) -> exists n, v = Orig n /\ (n < 1000)%N). { intros v H. vm_compute in H. repeat (destruct H as [<-|H]; [eexists; split; [reflexivity|vm_compute; reflexivity]|]). destruct H. }
    intros H. apply G in H. destruct H as (n & Q & L). unfold rule_fresh in Q. assert (1000 + N.of_nat k = n)%N by congruence. lia.
  - constructor; [|constructor]. dwf.
  - intros b e Hb He. cbn in Hb. repeat (destruct Hb as [<-|Hb]; [cbn in He; repeat (destruct He as [<-|He]; [first [apply wf_from_var | apply wf_from_number]; apply prime_babybear|]); destruct He|]). destruct Hb.
  - intros e [<-|[]]. vm_compute. lia.
  - apply sys_solves_dec; vm_compute; reflexivity.
  - repeat (apply Forall_cons || apply Forall_nil); right.
    + exists BVarRange. split; [cbn; tauto|]. eexists _, _. split; [reflexivity|]. split; vm_compute; [discriminate|reflexivity].
    + exists BVarRange. split; [cbn; tauto|]. eexists _, _. split; [reflexivity|]. split; vm_compute; [discriminate|reflexivity].
    + exists BMemory. split; [cbn; tauto|]. eexists _, _, [_], _. split; [reflexivity|]. split; [discriminate|]. split; [vm_compute; reflexivity|]. intros X. apply (f_equal val) in X. vm_compute in X. discriminate.
Qed.
(** The new variable is computed even if the replacement is dropped because of the degree bound. *)
Theorem C42_unused_refuted : exists (c c' : csys babybear) g k, rule_based bh g rule_fresh (Some 1) c 0 c' [] (S k) /\ algs c' = algs c /\ buses c' = buses c /\ derived c' <> derived c.
Proof.
  exists f_sys, (mkCS (algs f_sys) (buses f_sys) [(rule_fresh 0, CQuot (gneg f_rest) f_sum)]), f_g, 0. split; [|repeat split; discriminate].
  exists (mkD (mkCS (algs f_sys) (buses f_sys) [(rule_fresh 0, CQuot (gneg f_rest) f_sum)]) (d_rc (initial_state f_g f_sys 0)) [] 1). split; [|repeat split]. eapply rs_step; [|apply rs_done].
  exists any_elt, by_id, [], [f_repl]. eexists _, _, _. split; [constructor|]. split; [|split; [reflexivity|split; [apply Permutation_refl|vm_compute; reflexivity]]]. constructor; [|constructor]. left. exact f_rule.
Qed.
(** An action: a variable is one of two numbers, hence equal to another one. *)
Example action_example : exists (E : renv babybear) s, Forall wf (r_algs E) /\ env_true E s /\ action_rule E (UpdateRange (Orig 0) (disjunction (from_value fone) (from_value 0%F))).
Proof.
  exists (env_of bh f_g any_elt by_id (initial_state f_g circ_sys 0)), (fun _ => fone). split; [|split].
  - cbn [r_algs env_of initial_state d_sys circ_sys algs]. constructor; [|constructor; [|constructor]]; dwf.
  - split; [apply sys_solves_dec; vm_compute; reflexivity|]. split; intros e r H; apply rc_allows_iff; vm_compute in H; repeat (destruct H as [[= <- <-]|H]; [vm_compute; reflexivity|]); destruct H.
  - apply ac_range. eapply (ur_two _ (gmul (v_ 0) (gsub (v_ 0) gone)) (gsub (v_ 0) gone) (v_ 0)); [dpc|exact Logic.I|eexists _, _; split; [daff|vm_compute; reflexivity]|eexists _, _; split; [daff|vm_compute; reflexivity]].
Qed.
Print Assumptions C42_actions. Print Assumptions C42_replacements. Print Assumptions C42_free_back. Print Assumptions C42_combine_back. Print Assumptions C42_zero_partial. Print Assumptions C42_zero_back_partial.
Print Assumptions C42_run. Print Assumptions C42_run_quadratic. Print Assumptions C42_degree. Print Assumptions C42_round_back_partial.
Print Assumptions C42_circular_refuted. Print Assumptions C42_wrap_refuted. Print Assumptions C42_zero_unchecked_refuted. Print Assumptions C42_unused_refuted.
