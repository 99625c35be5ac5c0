(** Counting a candidate and taking it out of an execution. *)
From Coq Require Import Arith NArith Bool List Lia Sorted.
From Coq Require Import ZifyBool ZifyNat ZifyN.
From Verif Require Import BlocksModel BlocksSpec BlocksFacts SelModel SelSpec.
Import ListNotations.

(** ** One run *)
Lemma skipn_len {A} (a b : list A) k : k = length a -> skipn k (a ++ b) = b.
Proof. intros ->. rewrite skipn_app, skipn_all, Nat.sub_diag. reflexivity. Qed.
Lemma firstn_len {A} (a b : list A) k : k = length a -> firstn k (a ++ b) = a.
Proof. intros ->. rewrite firstn_app, firstn_all, Nat.sub_diag. cbn [firstn]. apply app_nil_r. Qed.
Lemma skipn_skipn {A} (x y : nat) (l : list A) : skipn x (skipn y l) = skipn (x + y) l.
Proof.
  revert l. induction y as [|y IH]; intros l; [now rewrite Nat.add_0_r|]. destruct l as [|a l]; [now rewrite !skipn_nil|].
  replace (x + S y) with (S (x + y)) by lia. cbn [skipn]. apply IH.
Qed.
Lemma occurs_skip {A} (needle hay : list A) s i : s <= length hay -> occurs_at needle (skipn s hay) i -> occurs_at needle hay (s + i).
Proof.
  intros L (a & b & E & <-). exists (firstn s hay ++ a), b. split.
  - rewrite <- app_assoc, <- E. symmetry. apply firstn_skipn.
  - rewrite app_length, firstn_length. lia.
Qed.
Lemma carve_find hay needle : needle <> [] -> forall fuel pos s l,
  s <= pos -> s <= length hay -> (forall i, s <= i < pos -> ~ occurs_at needle hay i) ->
  find_loop fuel pos hay needle = Some l ->
  exists gaps, carve needle (skipn s hay) (length l) gaps /\
    slices hay (tuples (s :: flat_map (fun i => [i; i + length needle]) l ++ [length hay])) = Some (filter nonempty gaps).
Proof.
  intros Hn. assert (L0 : 0 < length needle) by (destruct needle; [congruence|cbn; lia]).
  assert (Last : forall s, s <= length hay -> (forall i, s <= i -> ~ occurs_at needle hay i) ->
    exists gaps, carve needle (skipn s hay) 0 gaps /\ slices hay (tuples (s :: [] ++ [length hay])) = Some (filter nonempty gaps)).
  { intros s L N0. exists [skipn s hay]. split.
    - apply carve_end. intros (a & b & E). apply (N0 (s + length a)); [lia|]. apply occurs_skip; auto. now exists a, b.
    - cbn [app tuples slices]. destruct (Nat.eqb_spec s (length hay)) as [->|X].
      + now rewrite skipn_all.
      + unfold slice. rewrite (proj2 (Nat.leb_le _ _)), Nat.leb_refl by lia. cbn [andb]. rewrite firstn_all2 by (rewrite skipn_length; lia).
        cbn [filter]. assert (Y : nonempty (skipn s hay) = true); [|now rewrite Y]. assert (Z := skipn_length s hay). destruct (skipn s hay); [cbn in Z; lia|reflexivity]. }
  induction fuel as [|fuel IH]; intros pos s l Hs Hl N0 E; cbn [find_loop] in E.
  - destruct (Nat.leb_spec (pos + length needle) (length hay)); [discriminate|]. injection E as <-. apply Last; auto.
    intros i Hi Ho. pose proof (occurs_at_bound _ _ _ Ho). destruct (Nat.lt_ge_cases i pos); [apply (N0 i); auto|lia].
  - destruct (Nat.leb_spec (pos + length needle) (length hay)) as [L|L].
    + destruct (pcs_eqb (firstn (length needle) (skipn pos hay)) needle) eqn:Eq.
      * apply pcs_eqb_eq in Eq. pose proof (proj2 (occurs_at_slice needle hay pos L) Eq) as Oc.
        destruct (find_loop fuel (pos + length needle) hay needle) as [l'|] eqn:E'; [|discriminate]. injection E as <-.
        destruct (IH (pos + length needle) (pos + length needle) l') as (gaps & C & S1); auto; [lia|].
        exists (firstn (pos - s) (skipn s hay) :: gaps). split.
        -- assert (X : skipn s hay = firstn (pos - s) (skipn s hay) ++ needle ++ skipn (pos + length needle) hay).
           { rewrite <- (firstn_skipn (pos - s) (skipn s hay)) at 1. f_equal. rewrite skipn_skipn. replace (pos - s + s) with pos by lia.
             rewrite <- (firstn_skipn (length needle) (skipn pos hay)), Eq, skipn_skipn. now replace (length needle + pos) with (pos + length needle) by lia. }
           rewrite X at 1. cbn [length]. apply carve_hit; auto. intros i Hi. rewrite <- X in Hi. apply occurs_skip in Hi; auto.
           rewrite firstn_length, skipn_length. destruct (Nat.lt_ge_cases (s + i) pos); [|lia]. exfalso. apply (N0 (s + i)); auto. lia.
        -- cbn [flat_map app tuples slices]. cbn [app tuples] in S1. rewrite S1.
           destruct (Nat.eqb_spec s pos) as [->|X].
           ++ now rewrite Nat.sub_diag.
           ++ unfold slice. rewrite !(proj2 (Nat.leb_le _ _)) by lia. cbn [andb filter].
              assert (Y : nonempty (firstn (pos - s) (skipn s hay)) = true); [|now rewrite Y].
              assert (Z := firstn_length (pos - s) (skipn s hay)). rewrite skipn_length in Z. destruct (firstn (pos - s) (skipn s hay)); [cbn in Z; lia|reflexivity].
      * apply (IH (pos + 1) s l); auto; [lia|]. intros i Hi Ho. destruct (Nat.eq_dec i pos) as [->|]; [|apply (N0 i); auto; lia].
        apply (occurs_at_slice needle hay pos L) in Ho. apply pcs_eqb_eq in Ho. congruence.
    + injection E as <-. apply Last; auto.
      intros i Hi Ho. pose proof (occurs_at_bound _ _ _ Ho). destruct (Nat.lt_ge_cases i pos); [apply (N0 i); auto|lia].
Qed.
Lemma run_ok pcs run : pcs <> [] -> exists n gaps, carve pcs run n gaps /\ count_and_update_run pcs run = Some (wrap32 (N.of_nat n), filter nonempty gaps).
Proof.
  intros H. destruct (find_ok run pcs H) as (l & E & _). unfold find_non_overlapping in E.
  edestruct (carve_find run pcs H) with (4 := E) (s := 0) as (gaps & C & S1); [lia|lia|intros i Hi; lia|].
  exists (length l), gaps. cbn [skipn] in C. split; auto. unfold count_and_update_run, find_non_overlapping. now rewrite E, S1.
Qed.
Lemma carve_fun needle run n gaps : carve needle run n gaps -> forall n' gaps', carve needle run n' gaps' -> n' = n /\ gaps' = gaps.
Proof.
  induction 1 as [run H|a b n gaps H _ IH]; intros n' gaps' C.
  - inversion C as [|a b ? ? ? ?]; subst; auto. exfalso. apply H. now exists a, b.
  - inversion C as [? X|a' b' k g X C' E]; subst.
    + exfalso. apply X. now exists a, b.
    + assert (Z : length a' = length a).
      { assert (length a' <= length a) by (apply X; exists a, b; auto). assert (length a <= length a') by (apply H; exists a', b'; auto). lia. }
      pose proof (f_equal (firstn (length a)) E) as E1. rewrite !firstn_len in E1 by auto. subst a'.
      apply app_inv_head in E. apply app_inv_head in E. subst b'. apply IH in C'. destruct C' as [-> ->]. auto.
Qed.
Lemma carve_total needle run : needle <> [] -> exists n gaps, carve needle run n gaps.
Proof. intros H. destruct (run_ok needle run H) as (n & g & C & _). eauto. Qed.

(** ** The number of occurrences *)
Lemma disjoint_glue (c a x b : list N) l1 l2 :
  disjoint_occurrences c a l1 -> disjoint_occurrences c b l2 ->
  disjoint_occurrences c (a ++ x ++ b) (l1 ++ map (fun i => length a + length x + i) l2).
Proof.
  intros [S1 F1] [S2 F2]. split.
  - induction S1 as [|i l1 S1 IH H]; cbn [app].
    + clear F1 F2. induction S2 as [|i l S2 IH H]; cbn [map]; constructor; auto. apply Forall_map. eapply Forall_impl; [|exact H]. cbn. intros; lia.
    + inversion F1; subst. constructor; auto. apply Forall_app. split; auto. apply Forall_map. apply Forall_forall. intros j _. apply occurs_at_bound in H2. cbn. lia.
  - apply Forall_app. split.
    + eapply Forall_impl; [|exact F1]. intros i (u & v & -> & <-). exists u, (v ++ x ++ b). split; auto. now rewrite <- !app_assoc.
    + apply Forall_map. eapply Forall_impl; [|exact F2]. intros i (u & v & -> & <-). exists (a ++ x ++ u), v. split; [now rewrite <- !app_assoc|]. rewrite !app_length. lia.
Qed.
Lemma carve_disjoint needle run n gaps : carve needle run n gaps -> exists l, disjoint_occurrences needle run l /\ length l = n.
Proof.
  induction 1 as [run H|a b n gaps H _ (l & D & E)].
  - exists []. repeat split; constructor.
  - exists (length a :: map (fun i => length a + length needle + i) l). split; [|cbn; now rewrite map_length, E].
    destruct (disjoint_glue needle a needle b [] l) as [S1 F1]; [split; constructor|auto|]. cbn [app] in S1, F1. split; constructor; auto.
    + apply Forall_map. apply Forall_forall. intros; cbn; lia.
    + now exists a, b.
Qed.
Lemma carve_max needle run n gaps : needle <> [] -> carve needle run n gaps -> max_disjoint needle run n.
Proof.
  intros H C. destruct (find_ok run needle H) as (l & E & D & _ & M).
  unfold find_non_overlapping in E. edestruct (carve_find run needle H) with (4 := E) (s := 0) as (g & C' & _); [lia|lia|intros i Hi; lia|].
  cbn [skipn] in C'. destruct (carve_fun _ _ _ _ C _ _ C') as [<- _]. split; eauto.
Qed.
Lemma carve_length needle run n gaps : carve needle run n gaps -> length (concat gaps) + n * length needle = length run.
Proof. induction 1 as [run H|a b n gaps H _ IH]; cbn [concat]; rewrite ?app_nil_r, ?app_length; lia. Qed.
Lemma carve_bound needle run n gaps : needle <> [] -> carve needle run n gaps -> n <= length run.
Proof. intros H C. apply carve_length in C. destruct needle; [congruence|]. cbn [length] in C. nia. Qed.
(** The pieces hold no more occurrences than the whole. *)
Lemma carve_pieces c d run k gaps ns : carve d run k gaps -> Forall2 (fun g n => exists p, carve c g n p) gaps ns ->
  exists l, disjoint_occurrences c run l /\ length l = list_sum ns.
Proof.
  intros C. revert ns. induction C as [run H|a b n gaps H _ IH]; intros ns F.
  - inversion F as [|? ? ? ? (p & C) F']; subst. inversion F'; subst. apply carve_disjoint in C. cbn. rewrite Nat.add_0_r. exact C.
  - inversion F as [|? m ? ms (p & C) F']; subst. apply carve_disjoint in C. destruct C as (l1 & D1 & <-). destruct (IH _ F') as (l2 & D2 & E2).
    exists (l1 ++ map (fun i => length a + length d + i) l2). split; [now apply disjoint_glue|]. rewrite app_length, map_length, E2. reflexivity.
Qed.

(** ** An execution *)
Lemma uses_fun needle exec n rest : uses needle exec n rest -> forall n' rest', uses needle exec n' rest' -> n' = n /\ rest' = rest.
Proof.
  induction 1 as [|run k exec n gaps m exec' C U IH]; intros n' rest' U'.
  - inversion U'; auto.
  - inversion U' as [|? ? ? n2 gaps2 m2 exec2 C2 U2]; subst. destruct (carve_fun _ _ _ _ C _ _ C2) as [-> ->]. destruct (IH _ _ U2) as [-> ->]. auto.
Qed.
Lemma uses_total needle exec : needle <> [] -> exists n rest, uses needle exec n rest.
Proof.
  intros H. induction exec as [|[run k] exec (n & rest & IH)]; [eexists; eexists; constructor|].
  destruct (carve_total needle run H) as (q & g & C). eexists. eexists. econstructor; eauto.
Qed.
Lemma uses_app needle A B n rest : uses needle (A ++ B) n rest ->
  exists n1 n2 r1 r2, uses needle A n1 r1 /\ uses needle B n2 r2 /\ (n = n1 + n2)%N /\ rest = r1 ++ r2.
Proof.
  revert n rest. induction A as [|[run k] A IH]; intros n rest U; cbn [app] in U.
  - exists 0%N, n, [], rest. repeat split; auto. constructor.
  - inversion U as [|? ? ? m gaps q exec' C U']; subst. destruct (IH _ _ U') as (n1 & n2 & r1 & r2 & U1 & U2 & -> & ->).
    eexists. exists n2. eexists. exists r2. split; [econstructor; eauto|]. split; auto. split; [lia|]. now rewrite app_assoc.
Qed.
Lemma uses_bound needle exec n rest : needle <> [] -> uses needle exec n rest -> (n <= executed exec)%N.
Proof.
  intros H. induction 1 as [|run k exec n gaps m exec' C U IH]; unfold executed in *; cbn [map fold_right fst snd]; [lia|].
  apply carve_bound in C; auto. nia.
Qed.
Lemma executed_app A B : executed (A ++ B) = (executed A + executed B)%N.
Proof. unfold executed. induction A as [|x A IH]; cbn [app map fold_right]; [reflexivity|]. rewrite IH. lia. Qed.
Lemma executed_gaps k gaps : executed (map (fun g => (g, k)) (filter nonempty gaps)) = (N.of_nat (length (concat gaps)) * k)%N.
Proof.
  unfold executed. induction gaps as [|g gaps IH]; [reflexivity|]. cbn [filter concat]. rewrite app_length. destruct g as [|x g]; cbn [nonempty].
  - cbn [length Nat.add]. exact IH.
  - cbn [map fold_right fst snd]. rewrite IH. lia.
Qed.
Lemma uses_shrinks needle exec n rest : uses needle exec n rest -> (executed rest <= executed exec)%N.
Proof.
  induction 1 as [|run k exec n gaps m exec' C U IH]; [reflexivity|]. rewrite executed_app, executed_gaps. apply carve_length in C.
  unfold executed at 2. cbn [map fold_right fst snd]. fold (executed exec). nia.
Qed.
Lemma uses_gaps c k gaps n rest : c <> [] -> uses c (map (fun g => (g, k)) (filter nonempty gaps)) n rest ->
  exists ns, Forall2 (fun g n => exists p, carve c g n p) gaps ns /\ (n = N.of_nat (list_sum ns) * k)%N.
Proof.
  intros H. revert n rest. induction gaps as [|g gaps IH]; intros n rest U.
  - cbn in U. inversion U; subst. exists []. split; [constructor|reflexivity].
  - cbn [filter] in U. destruct (nonempty g) eqn:E.
    + cbn [map] in U. inversion U as [|? ? ? m p q exec' C U']; subst. apply IH in U'. destruct U' as (ns & F & ->). exists (m :: ns). split; [constructor; eauto|]. cbn [list_sum]. change (list_sum (m :: ns)) with (m + list_sum ns). lia.
    + destruct g; [|discriminate]. apply IH in U. destruct U as (ns & F & ->). exists (0 :: ns). split; [|reflexivity]. constructor; auto. exists [[]]. apply carve_end.
      intros (a & b & X). destruct a; [|discriminate]. destruct c; [congruence|discriminate].
Qed.
(** Taking a candidate out never lets another one run more often. *)
Lemma uses_mono c d exec n rest k exec' n' rest' : c <> [] ->
  uses c exec n rest -> uses d exec k exec' -> uses c exec' n' rest' -> (n' <= n)%N.
Proof.
  intros H U. revert k exec' n' rest'. induction U as [|run q exec n gaps m rest C U IH]; intros k exec' n' rest' D U'.
  - inversion D; subst. inversion U'; subst. lia.
  - inversion D as [|? ? ? j dgaps p e' Cd D']; subst. apply uses_app in U'. destruct U' as (n1 & n2 & r1 & r2 & U1 & U2 & -> & ->).
    specialize (IH _ _ _ _ D' U2). apply uses_gaps in U1; auto. destruct U1 as (ns & F & ->).
    destruct (carve_pieces _ _ _ _ _ _ Cd F) as (l & Dl & El). destruct (carve_max _ _ _ _ H C) as [_ M]. specialize (M _ Dl). nia.
Qed.

Lemma wrap32_small a : (a < 2 ^ 32)%N -> wrap32 a = a.
Proof. apply N.mod_small. Qed.
Lemma count_from pcs exec : pcs <> [] -> forall t, (t + executed exec < 2 ^ 32)%N ->
  exists n rest, uses pcs exec n rest /\ count_and_update_from t pcs exec = Some ((t + n)%N, rest).
Proof.
  intros H. induction exec as [|[run k] exec IH]; intros t L; cbn [count_and_update_from].
  - exists 0%N, []. split; [constructor|]. now rewrite N.add_0_r.
  - destruct (run_ok pcs run H) as (n & gaps & C & E). rewrite E. pose proof (carve_bound _ _ _ _ H C) as B.
    unfold executed in L. cbn [map fold_right fst snd] in L. fold (executed exec) in L.
    assert (X : (N.of_nat n * k <= N.of_nat (length run) * k)%N) by nia.
    assert (Y : wrap32 (wrap32 (N.of_nat n) * k) = (N.of_nat n * k)%N).
    { unfold wrap32 at 1 2. rewrite N.mul_mod_idemp_l by discriminate. apply N.mod_small. lia. }
    rewrite Y, wrap32_small by lia. destruct (IH (t + N.of_nat n * k)%N) as (m & rest & U & ->); [lia|].
    eexists. eexists. split; [econstructor; eauto|]. now rewrite N.add_assoc.
Qed.
Lemma count_ok pcs exec : pcs <> [] -> (executed exec < 2 ^ 32)%N ->
  exists n rest, uses pcs exec n rest /\ count_and_update_execution pcs exec = Some (n, rest).
Proof. intros H L. exact (count_from pcs exec H 0%N L). Qed.
