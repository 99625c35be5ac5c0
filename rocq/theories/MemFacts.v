From Coq Require Import Arith NArith ZArith Bool List Permutation FinFun Lia ZifyBool ZifyNat ZifyN.
From Verif Require Import Field ExprModel ExprFacts ExprMore SystemModel Spec SymModel SymSpec SymFacts MemModel MemSpec.
Import ListNotations.
Local Open Scope nat_scope.

Section Lists.
  Lemma combine_seq_nth {A} (l : list A) k i x : In (i, x) (combine (seq k (length l)) l) <-> k <= i /\ nth_error l (i - k) = Some x.
  Proof.
    revert k. induction l as [|y l IH]; intros k; cbn [length seq combine In]; [split; [tauto|intros [_ H]; destruct (i - k); discriminate]|]. rewrite IH. split.
    - intros [[= <- <-]|[H1 H2]]; [rewrite Nat.sub_diag; auto|]. split; [lia|]. replace (i - k) with (Datatypes.S (i - Datatypes.S k)) by lia. exact H2.
    - intros [H1 H2]. destruct (Nat.eq_dec i k) as [->|Hne]; [left; rewrite Nat.sub_diag in H2; cbn in H2; congruence|]. right. split; [lia|]. replace (i - k) with (Datatypes.S (i - Datatypes.S k)) in H2 by lia. exact H2.
  Qed.
  Lemma enumerate_in {A} (l : list A) i x : In (i, x) (enumerate l) <-> nth_error l i = Some x.
  Proof. unfold enumerate. rewrite combine_seq_nth, Nat.sub_0_r. intuition lia. Qed.
  Lemma split_last_some {A} (l : list A) r x : split_last l = Some (r, x) -> l = r ++ [x].
  Proof. unfold split_last. destruct (rev l) as [|y q] eqn:E; [discriminate|]. intros [= <- <-]. rewrite <- (rev_involutive l), E. reflexivity. Qed.
  Lemma app_inj_length {A} (a b c d : list A) : length a = length c -> a ++ b = c ++ d -> a = c /\ b = d.
  Proof. revert c. induction a as [|x a IH]; intros [|y c] H E; cbn in *; try discriminate; auto. injection H as H. injection E as -> E. destruct (IH c H E) as [-> ->]. auto. Qed.
End Lists.

Section MemFacts.
  Context {p : positive}.
  Add Ring Fr : (F_ring_theory (p:=p)).
  Local Notation gexp := (gexp p).
  Lemma addr_eqb_eq (a b : list gexp) : addr_eqb a b = true <-> a = b.
  Proof.
    revert b. induction a as [|x a IH]; intros [|y b]; cbn [addr_eqb]; try (split; congruence). rewrite andb_true_iff, gexp_eqb_eq, IH. split; [intros [-> ->]; auto|intros [= -> ->]; auto].
  Qed.
  (** What a converted interaction looks like in an assignment. *)
  Lemma conv_access id (b : busi gexp) m : try_from_bus id b = Access m ->
    (forall s, access id (bmap (eval s) b) (mi_op m) (mi_space m, eval s (mi_local m)) (map (eval s) (mi_data m ++ mi_ts m))) /\
    (exists space, payload b = space :: mi_local m :: mi_data m ++ mi_ts m /\ try_to_known space = Some (mi_space m)) /\ length (mi_ts m) = 1.
  Proof.
    unfold try_from_bus. destruct (try_to_known (bus_id b)) as [k|] eqn:Ek; [|discriminate]. destruct (id <? N.pos p)%N eqn:Eid; [|discriminate]. cbn [negb]. destruct (feqb k (of_N id)) eqn:Ef; [|discriminate]. cbn [negb]. apply feqb_eq in Ef.
    destruct (try_to_known (mult b)) as [n|] eqn:En; [|discriminate].
    assert (G : forall op, n = (match op with SetNew => 1%F | GetPrevious => fopp 1%F end) -> (match payload b with
      | space :: local :: r => match split_last r with None => Panics | Some (data, ts) => match try_to_known space with Some sp => Access (mkMI op sp local data [ts]) | None => Panics end end
      | _ => Panics end) = Access m -> (forall s, access id (bmap (eval s) b) (mi_op m) (mi_space m, eval s (mi_local m)) (map (eval s) (mi_data m ++ mi_ts m))) /\
    (exists space, payload b = space :: mi_local m :: mi_data m ++ mi_ts m /\ try_to_known space = Some (mi_space m)) /\ length (mi_ts m) = 1).
    { intros op Hop. destruct (payload b) as [|space [|local r]] eqn:Ep; try discriminate. destruct (split_last r) as [[data ts]|] eqn:El; [|discriminate]. apply split_last_some in El. destruct (try_to_known space) as [sp|] eqn:Es; [|discriminate]. intros [= <-]. cbn [mi_op mi_space mi_local mi_data mi_ts]. subst r. split; [|split; [exists space; auto|reflexivity]].
      intros s. unfold access, bmap. cbn [bus_id mult payload fst snd]. split; [rewrite (try_to_known_eval s _ _ Ek); exact Ef|]. split; [rewrite (try_to_known_eval s _ _ En); exact Hop|]. rewrite Ep. cbn [map]. now rewrite (try_to_known_eval s _ _ Es). }
    destruct (is_one n) eqn:E1; [apply G; now apply feqb_eq in E1|]. destruct (feqb n (fopp 1)) eqn:E2; [|discriminate]. apply G. now apply feqb_eq in E2.
  Qed.
  Hypothesis p_odd : (2 < N.pos p)%N.
  Lemma one_not_minus : (1 : F p)%F <> fopp 1%F.
  Proof.
    intros H. assert (X : (1 + 1 : F p)%F = 0%F) by (rewrite H at 1; ring). apply (f_equal val) in X. revert X. unfold fadd, fone, fzero. rewrite !val_of_N. replace (1 mod N.pos p)%N with 1%N by (symmetry; apply N.mod_small; lia). rewrite N.mod_small by lia. rewrite N.mod_small by lia. lia.
  Qed.
  Lemma access_op id (b : busi (F p)) op op' a a' c c' : access id b op a c -> access id b op' a' c' -> op = op' /\ a = a' /\ c = c'.
  Proof.
    intros (_ & H1 & H2) (_ & H3 & H4). rewrite H2 in H4. injection H4 as E1 E2 E3. destruct a, a'. cbn in *. subst. split; auto. destruct op, op'; auto; exfalso; apply one_not_minus; congruence.
  Qed.
  (** An interaction that is not an access for the optimizer and not unclear is not an access. *)
  Lemma conv_not id (b : busi gexp) s op a c : try_from_bus id b = NotMemory -> ~ access id (bmap (eval s) b) op a c.
  Proof.
    unfold try_from_bus. intros H (H1 & _). destruct (try_to_known (bus_id b)) as [k|] eqn:Ek; [|discriminate]. destruct (id <? N.pos p)%N; [|discriminate]. cbn [negb] in H. destruct (feqb k (of_N id)) eqn:Ef.
    - cbn [negb] in H. destruct (try_to_known (mult b)) as [n|]; [|discriminate]. revert H. repeat match goal with |- context [match ?x with _ => _ end] => destruct x end; discriminate.
    - cbn [bmap bus_id] in H1. rewrite (try_to_known_eval s _ _ Ek) in H1. apply feqb_eq in H1. congruence.
  Qed.
  Context {S : Type} (diff : S -> gexp -> gexp -> option bool * S) (ord : contents p -> contents p).
  Hypothesis ord_perm : forall m, Permutation (ord m) m.
  (** What the solver's positive answers are worth. *)
  Context (Inv : S -> Prop) (U : gexp -> Prop) (D : gexp -> gexp -> Prop).
  Hypothesis U_number : forall k, U (from_number k).
  Hypothesis diff_inv : forall st a b d st', Inv st -> U a -> U b -> diff st a b = (Some d, st') -> Inv st' /\ (d = true -> D a b).
  Definition addr_differ (a b : list gexp) : Prop := exists k x y, nth_error a k = Some x /\ nth_error b k = Some y /\ D x y.
  Lemma any_diff_ok l st d st' : Inv st -> Forall (fun ab => U (fst ab) /\ U (snd ab)) l -> any_diff diff st l = (Some d, st') -> Inv st' /\ (d = true -> exists x y, In (x, y) l /\ D x y).
  Proof.
    revert st. induction l as [|[a b] l IH]; intros st Hi HU; cbn [any_diff]; [intros [= <- <-]; split; auto; discriminate|]. assert (Hab : U a /\ U b) by (inversion HU; auto). assert (Hl : Forall (fun ab => U (fst ab) /\ U (snd ab)) l) by (inversion HU; auto). destruct (diff st a b) as [[[]|] st1] eqn:E; try discriminate; apply diff_inv in E; try tauto; destruct E as [E1 E2].
    - intros [= <- <-]. split; auto. intros _. exists a, b. cbn. auto.
    - intros H. destruct (IH _ E1 Hl H) as [H1 H2]. split; auto. intros Hd. destruct (H2 Hd) as (x & y & X & Y). exists x, y. cbn. auto.
  Qed.
  Lemma retain_ok a m : Forall U a -> Forall (fun bc => Forall U (fst bc)) m -> forall st m1 st', Inv st -> retain diff st a m = Some (m1, st') -> Inv st' /\ (forall b c, In (b, c) m1 -> In (b, c) m /\ addr_differ a b) /\ (NoDup (map (fun bc => mc_index (snd bc)) m) -> NoDup (map (fun bc => mc_index (snd bc)) m1)) /\ (forall i, In i (map (fun bc => mc_index (snd bc)) m1) -> In i (map (fun bc => mc_index (snd bc)) m)).
  Proof.
    intros Ua Um. induction m as [|[b c] m IH]; intros st m1 st' Hi; cbn [retain]; [intros [= <- <-]; repeat split; auto; destruct H|]. destruct (zip_eq a b) as [l|] eqn:Ez; [|discriminate]. destruct (any_diff diff st l) as [[keep|] st1] eqn:Ea; [|discriminate]. destruct (retain diff st1 a m) as [[m2 st2]|] eqn:Er; [|discriminate]. intros [= E].
    assert (Ub : Forall U b) by (inversion Um; auto). assert (Um' : Forall (fun bc => Forall U (fst bc)) m) by (inversion Um; auto). specialize (IH Um').
    apply any_diff_ok in Ea; auto; [|apply zip_eq_some in Ez; destruct Ez as [_ ->]; apply Forall_forall; intros [x y] Hxy; split; [apply in_combine_l in Hxy; rewrite Forall_forall in Ua; auto|apply in_combine_r in Hxy; rewrite Forall_forall in Ub; auto]]. destruct Ea as [I1 Hk]. destruct (IH _ _ _ I1 Er) as (I2 & H2 & H3 & H4). destruct keep; injection E as <- <-.
    - split; auto. split; [|split].
      + intros b' c' [[= <- <-]|H]; [|destruct (H2 _ _ H); split; [now right|auto]]. split; [now left|]. destruct (Hk eq_refl) as (x & y & Hin & Hd). apply zip_eq_some in Ez. destruct Ez as [_ ->]. clear - Hin Hd. revert b Hin. induction a as [|x' a IH]; intros [|y' b]; cbn [combine]; intros Hin; try destruct Hin as [].
        * injection H as -> ->. exists 0, x, y. auto.
        * destruct (IH b H) as (k & x1 & y1 & A & B & C). exists (Datatypes.S k), x1, y1. auto.
      + cbn [map]. intros Hn. inversion Hn as [|? ? N1 N2]. constructor; auto.
      + cbn [map]. intros i [<-|H]; [now left|right; auto].
    - split; auto. split; [intros b' c' H; destruct (H2 _ _ H); split; [now right|auto]|]. split; [intros Hn; inversion Hn; auto|intros i H; right; auto].
  Qed.
  Context (id : N) (l : list (busi gexp)).
  Hypothesis U_payload : forall b, In b l -> Forall U (payload b).
  Lemma U_addr n b m : nth_error l n = Some b -> try_from_bus id b = Access m -> Forall U (mi_addr m).
  Proof. intros H E. apply nth_error_In, U_payload in H. destruct (conv_access id b m E) as (_ & (sp & Hp & _) & _). rewrite Hp in H. inversion H as [|? ? _ H']. inversion H'. repeat constructor; auto. Qed.
  (** [i] stores at an address and no interaction between [i] and [n] may change that address. *)
  Definition undisturbed (i n : nat) (addr : list gexp) : Prop :=
    forall q bq, i < q < n -> nth_error l q = Some bq ->
      match try_from_bus id bq with Unclear | Panics => False | NotMemory => True | Access m => mi_op m = SetNew -> addr_differ (mi_addr m) addr end.
  Definition entry_ok (n : nat) (bc : list gexp * mcontent p) : Prop :=
    exists b m, mc_index (snd bc) < n /\ nth_error l (mc_index (snd bc)) = Some b /\ try_from_bus id b = Access m /\ mi_op m = SetNew /\ mi_addr m = fst bc /\
      mi_data m = mc_data (snd bc) /\ mi_ts m = mc_ts (snd bc) /\ undisturbed (mc_index (snd bc)) n (fst bc).
  (** [i] and [j] are a pair that is removed. *)
  Definition pair_ok (ij : nat * nat) : Prop :=
    exists bi mi bj mj, fst ij < snd ij /\ nth_error l (fst ij) = Some bi /\ nth_error l (snd ij) = Some bj /\ try_from_bus id bi = Access mi /\ try_from_bus id bj = Access mj /\
      mi_op mi = SetNew /\ mi_op mj = GetPrevious /\ mi_addr mi = mi_addr mj /\ length (mi_data mi ++ mi_ts mi) = length (mi_data mj ++ mi_ts mj) /\ undisturbed (fst ij) (snd ij) (mi_addr mi).
  (** The equations of a pair. *)
  Definition pair_content (s : var -> F p) (ij : nat * nat) : Prop :=
    forall bi bj mi mj, nth_error l (fst ij) = Some bi -> nth_error l (snd ij) = Some bj -> try_from_bus id bi = Access mi -> try_from_bus id bj = Access mj ->
      map (eval s) (mi_data mi ++ mi_ts mi) = map (eval s) (mi_data mj ++ mi_ts mj).
  Definition state_ok (n : nat) (x : mstate p S) : Prop :=
    Inv (ms_solver x) /\ Forall (entry_ok n) (ms_mem x) /\ NoDup (map (fun bc => mc_index (snd bc)) (ms_mem x)) /\
    exists pairs, Permutation (ms_remove x) (flat_map (fun ij => [fst ij; snd ij]) pairs) /\ Forall pair_ok pairs /\ Forall (fun ij => snd ij < n) pairs /\ NoDup (ms_remove x) /\
      (forall i, In i (map (fun bc => mc_index (snd bc)) (ms_mem x)) -> ~ In i (ms_remove x)) /\
      (forall s, Forall (solves s) (ms_new x) <-> Forall (pair_content s) pairs).
  Lemma undisturbed_S i n a bq : undisturbed i n a -> nth_error l n = Some bq ->
    match try_from_bus id bq with Unclear | Panics => False | NotMemory => True | Access m => mi_op m = SetNew -> addr_differ (mi_addr m) a end -> undisturbed i (Datatypes.S n) a.
  Proof. intros H Hn Hq q b Hlt Hb. destruct (Nat.eq_dec q n) as [->|Hne]; [rewrite Hn in Hb; injection Hb as <-; exact Hq|]. apply (H q b); auto. lia. Qed.
  Lemma entries_S n m bq : Forall (entry_ok n) m -> nth_error l n = Some bq ->
    (forall bc, In bc m -> match try_from_bus id bq with Unclear | Panics => False | NotMemory => True | Access m => mi_op m = SetNew -> addr_differ (mi_addr m) (fst bc) end) -> Forall (entry_ok (Datatypes.S n)) m.
  Proof.
    intros H Hn Hq. rewrite Forall_forall in *. intros bc Hbc. destruct (H _ Hbc) as (b & m0 & A1 & A2 & A3 & A4 & A5 & A6 & A7 & A8). exists b, m0. repeat (split; [auto; lia|]). exact (undisturbed_S _ _ _ bq A8 Hn (Hq _ Hbc)).
  Qed.
  Lemma pairs_S n (l' : list (nat * nat)) : Forall (fun ij => snd ij < n) l' -> Forall (fun ij => snd ij < Datatypes.S n) l'.
  Proof. apply Forall_impl. intros; lia. Qed.
  Lemma mem_get_in a (m : contents p) c : mem_get a m = Some c -> In (a, c) m.
  Proof. induction m as [|[b c'] m IH]; cbn [mem_get]; [discriminate|]. destruct (addr_eqb a b) eqn:E; [|intros H; right; auto]. intros [= ->]. apply addr_eqb_eq in E. subst. now left. Qed.
  Lemma NoDup_map_filter {A B} (f : A -> B) (g : A -> bool) (m : list A) : NoDup (map f m) -> NoDup (map f (filter g m)).
  Proof.
    induction m as [|a m IH]; cbn [map filter]; intros H; [auto|]. inversion H as [|? ? H1 H2]. destruct (g a); [|auto]. cbn [map]. constructor; [|auto]. rewrite in_map_iff in *. intros (y & E & Hy). apply H1. exists y. split; auto. now apply filter_In in Hy.
  Qed.
  Lemma solves_zip s (a b : list gexp) z : zip_eq a b = Some z -> Forall (solves s) (map (fun x => gsub (fst x) (snd x)) z) <-> map (eval s) a = map (eval s) b.
  Proof.
    intros H. apply zip_eq_some in H. destruct H as [H ->]. revert b H. induction a as [|x a IH]; intros [|y b] H; try discriminate; cbn [combine map]; [split; auto|]. cbn in H. injection H as H. specialize (IH b H). unfold solves in *. split.
    - intros F. inversion F as [|? ? F1 F2]. cbn [fst snd] in F1. rewrite eval_gsub in F1. apply IH in F2. f_equal; auto. transitivity (eval s x - eval s y + eval s y)%F; [ring|rewrite F1; ring].
    - intros [= E1 E2]. constructor; [cbn [fst snd]; rewrite eval_gsub, E1; ring|now apply IH].
  Qed.
  Lemma step_ok n x b x' : nth_error l n = Some b -> state_ok n x -> mem_step diff ord id x (n, b) = Some x' -> state_ok (Datatypes.S n) x'.
  Proof.
    intros Hb (Hi & He & Hn & pairs & Hp & Ho & Hlt & Hr & Hd & Hs). unfold mem_step. cbn [fst snd]. destruct (try_from_bus id b) as [| | |m] eqn:Ec; [| |discriminate|].
    - intros [= <-]. split; auto. split; [eapply entries_S; eauto; intros; now rewrite Ec|]. split; auto. exists pairs. split; auto. split; auto. split; [now apply pairs_S|auto].
    - intros [= <-]. split; auto. cbn [ms_mem ms_remove ms_new]. split; [constructor|]. split; [constructor|]. exists pairs. split; auto. split; auto. split; [now apply pairs_S|]. split; auto.
    - destruct (mi_op m) eqn:Eo.
      + destruct (mem_get (mi_addr m) (ms_mem x)) as [c|] eqn:Eg.
        * destruct (equate c m) as [eqs|] eqn:Eq; [|discriminate]. intros [= <-]. cbn [ms_mem ms_remove ms_new ms_solver]. apply mem_get_in in Eg. pose proof Eg as Eg'. rewrite Forall_forall in He. apply He in Eg'. destruct Eg' as (bi & mi & A1 & A2 & A3 & A4 & A5 & A6 & A7 & A8). cbn [fst snd] in *.
          unfold state_ok. cbn [ms_mem ms_remove ms_new ms_solver]. split; auto. split; [|split].
          -- eapply entries_S; eauto; [apply Forall_forall; intros bc Hbc; apply filter_In in Hbc; apply He; tauto|]. intros bc _. rewrite Ec, Eo. discriminate.
          -- now apply NoDup_map_filter.
          -- exists (pairs ++ [(mc_index c, n)]). rewrite flat_map_app. cbn [flat_map fst snd app]. assert (Hc : ~ In (mc_index c) (ms_remove x)) by (apply Hd; apply in_map_iff; exists (mi_addr m, c); auto).
             assert (Hnn : ~ In n (ms_remove x)). { intros H. apply (Permutation_in _ Hp) in H. apply in_flat_map in H. destruct H as (ij & Hij & H). rewrite Forall_forall in Ho, Hlt. specialize (Hlt _ Hij). destruct (Ho _ Hij) as (? & ? & ? & ? & L & _). cbn in H. destruct H as [<-|[<-|[]]]; lia. }
             split; [apply Permutation_app; auto; apply perm_swap|]. unfold equate in Eq. destruct (zip_eq (mc_data c) (mi_data m)) as [z1|] eqn:Z1; [|discriminate]. destruct (zip_eq (mc_ts c) (mi_ts m)) as [z2|] eqn:Z2; [|discriminate]. injection Eq as <-.
             split; [apply Forall_app; split; auto; constructor; [|constructor]; exists bi, mi, b, m; cbn [fst snd]|].
             { split; [lia|]. repeat (split; [auto; congruence|]). split; [|rewrite A5; auto]. apply zip_eq_some in Z1, Z2. rewrite !app_length, A6, A7. destruct Z1 as [-> _], Z2 as [-> _]. reflexivity. }
             split; [apply Forall_app; split; [now apply pairs_S|constructor; [cbn; lia|constructor]]|]. split; [|split].
             ++ eapply Permutation_NoDup; [apply Permutation_app_comm|]. cbn. constructor; [cbn; intros [H|H]; [lia|auto]|]. constructor; auto.
             ++ intros i Hin. apply in_map_iff in Hin. destruct Hin as ([a' c'] & <- & Hin). cbn [snd]. unfold mem_remove in Hin. apply filter_In in Hin. destruct Hin as [Hin Hne]. cbn [fst] in Hne. rewrite in_app_iff. intros [H|[H|[H|[]]]].
                ** revert H. apply Hd. apply in_map_iff. exists (a', c'). auto.
                ** destruct (He _ Hin) as (? & ? & L & _). cbn [snd] in L. lia.
                ** assert (E : (a', c') = (mi_addr m, c)). { clear - Hn Hin Eg H. revert Hin Eg. induction (ms_mem x) as [|[a0 c0] mm IH]; intros Hin Eg; [destruct Hin|]. cbn [map] in Hn. inversion Hn as [|? ? N1 N2]. destruct Hin as [E1|Hin], Eg as [E2|Eg]; try congruence; auto.
                     - injection E1 as -> ->. exfalso. apply N1. apply in_map_iff. exists (mi_addr m, c). auto.
                     - injection E2 as -> ->. exfalso. apply N1. apply in_map_iff. exists (a', c'). auto. }
                   injection E as -> ->. rewrite (proj2 (addr_eqb_eq _ _) eq_refl) in Hne. discriminate.
             ++ intros s. rewrite !Forall_app, Hs. rewrite map_app, Forall_app. rewrite (solves_zip s _ _ _ Z1), (solves_zip s _ _ _ Z2). split.
                ** intros [H1 [H2 H3]]. split; auto. constructor; [|constructor]. intros bi' bj' mi' mj' B1 B2 B3 B4. cbn [fst snd] in *. rewrite A2 in B1. injection B1 as <-. rewrite Hb in B2. injection B2 as <-. rewrite A3 in B3. injection B3 as <-. rewrite Ec in B4. injection B4 as <-. rewrite !map_app, A6, A7. congruence.
                ** intros [H1 H2]. split; auto. inversion H2 as [|? ? H3 _]. specialize (H3 bi b mi m A2 Hb A3 Ec). rewrite !map_app, A6, A7 in H3. apply zip_eq_some in Z1. destruct Z1 as [Z1 _]. apply app_inj_length in H3; [tauto|]. rewrite !map_length. auto.
        * intros [= <-]. split; auto. split; [eapply entries_S; eauto; intros; rewrite Ec, Eo; discriminate|]. split; auto. exists pairs. split; auto. split; auto. split; [now apply pairs_S|auto].
      + destruct (retain diff (ms_solver x) (mi_addr m) (ord (ms_mem x))) as [[mem st]|] eqn:Er; [|discriminate]. intros [= <-]. cbn [ms_mem ms_remove ms_new ms_solver]. apply retain_ok in Er; auto; [|eapply U_addr; eauto|eapply Permutation_Forall; [apply Permutation_sym, ord_perm|]; eapply Forall_impl; [|exact He]; intros bc (b' & m' & _ & X1 & X2 & _ & X3 & _); cbn beta; rewrite <- X3; eapply U_addr; eauto]. destruct Er as (I' & R1 & R2 & R3).
        assert (Pm : Permutation (map (fun bc : list gexp * mcontent p => mc_index (snd bc)) (ord (ms_mem x))) (map (fun bc => mc_index (snd bc)) (ms_mem x))) by (apply Permutation_map, ord_perm).
        unfold state_ok. cbn [ms_mem ms_remove ms_new ms_solver]. split; auto. assert (Hin : forall bc, In bc (mem_remove (mi_addr m) mem) -> In bc (ms_mem x) /\ addr_differ (mi_addr m) (fst bc)).
        { intros [a c] H. unfold mem_remove in H. apply filter_In in H. destruct H as [H _]. destruct (R1 _ _ H) as [H1 H2]. split; auto. eapply Permutation_in; [apply ord_perm|exact H1]. }
        split; [constructor|split; [|]].
        * exists b, m. cbn [fst snd mc_index mc_data mc_ts]. repeat (split; [auto; lia|]). intros q bq Hq. lia.
        * eapply entries_S; eauto; [apply Forall_forall; intros bc Hbc; rewrite Forall_forall in He; apply He; now apply Hin|]. intros bc Hbc. rewrite Ec. intros _. now apply Hin.
        * cbn [map snd mc_index]. constructor; [|apply NoDup_map_filter; apply R2; eapply Permutation_NoDup; [apply Permutation_sym; exact Pm|exact Hn]]. intros H. apply in_map_iff in H. destruct H as (bc & E & Hbc). apply Hin in Hbc. destruct Hbc as [Hbc _]. rewrite Forall_forall in He. destruct (He _ Hbc) as (? & ? & L & _). destruct bc. cbn [snd] in *. lia.
        * exists pairs. split; auto. split; auto. split; [now apply pairs_S|]. split; auto. split; auto. intros i Hi'. cbn [map snd mc_index] in Hi'. destruct Hi' as [<-|Hi'].
          -- intros H. apply (Permutation_in _ Hp) in H. apply in_flat_map in H. destruct H as (ij & Hij & H). rewrite Forall_forall in Ho, Hlt. specialize (Hlt _ Hij). destruct (Ho _ Hij) as (? & ? & ? & ? & L & _). cbn in H. destruct H as [<-|[<-|[]]]; lia.
          -- apply Hd. apply in_map_iff in Hi'. destruct Hi' as (bc & <- & Hbc). apply in_map_iff. exists bc. split; auto. now apply Hin.
  Qed.
  Lemma loop_ok : forall r n x x', (forall i b, nth_error r i = Some b -> nth_error l (n + i) = Some (b : busi gexp)) -> state_ok n x -> mem_loop diff ord id (combine (seq n (length r)) r) x = Some x' -> state_ok (n + length r) x'.
  Proof.
    induction r as [|b r IH]; intros n x x' Hr Hx; cbn [length seq combine mem_loop]; [intros [= <-]; now rewrite Nat.add_0_r|]. destruct (mem_step diff ord id x (n, b)) as [x1|] eqn:E; [|discriminate]. intros H. rewrite <- Nat.add_succ_comm. apply (IH (Datatypes.S n) x1); auto.
    - intros i b' Hi. rewrite Nat.add_succ_comm. apply Hr. exact Hi.
    - apply (step_ok n x b); auto. specialize (Hr 0 b eq_refl). now rewrite Nat.add_0_r in Hr.
  Qed.
End MemFacts.
