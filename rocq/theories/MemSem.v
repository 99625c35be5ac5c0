From Coq Require Import Arith NArith ZArith Bool List Permutation FinFun Lia ZifyBool ZifyNat ZifyN.
From Verif Require Import Field ExprModel ExprFacts ExprMore SystemModel Spec SymModel SymSpec SymFacts MemModel MemSpec MemFacts.
Import ListNotations.
Local Open Scope nat_scope.

Section Filtered.
  Context {A : Type} (keep : nat * A -> bool).
  Lemma filtered_index (r : list A) n i a x : nth_error (filter keep (combine (seq n (length r)) r)) i = Some (a, x) -> n <= a /\ nth_error r (a - n) = Some x /\ keep (a, x) = true.
  Proof. intros H. apply nth_error_In in H. apply filter_In in H. destruct H as [H K]. apply combine_seq_nth in H. tauto. Qed.
  Lemma filtered_sorted (r : list A) n i j a b x y : i < j -> nth_error (filter keep (combine (seq n (length r)) r)) i = Some (a, x) -> nth_error (filter keep (combine (seq n (length r)) r)) j = Some (b, y) -> a < b.
  Proof.
    revert n i j. induction r as [|z r IH]; intros n i j Hij; cbn [length seq combine filter]; [destruct i; discriminate|]. destruct (keep (n, z)); [|apply IH; auto].
    destruct i as [|i], j as [|j]; try lia; cbn [nth_error].
    - intros [= <- <-] H. apply filtered_index in H. lia.
    - apply IH. lia.
  Qed.
  Lemma filtered_between (l : list A) i j a b x y q z : nth_error (filter keep (enumerate l)) i = Some (a, x) -> nth_error (filter keep (enumerate l)) j = Some (b, y) ->
    a < q < b -> nth_error l q = Some z -> keep (q, z) = true -> exists k, i < k < j /\ nth_error (filter keep (enumerate l)) k = Some (q, z).
  Proof.
    intros Hi Hj Hq Hz Hk. assert (In (q, z) (filter keep (enumerate l))) as Hin by (apply filter_In; split; auto; now apply enumerate_in). apply In_nth_error in Hin. destruct Hin as [k Hkk]. exists k. split; auto. unfold enumerate in *. split.
    - destruct (Nat.lt_trichotomy i k) as [H|[<-|H]]; auto; [rewrite Hi in Hkk; injection Hkk as -> ->; lia|]. pose proof (filtered_sorted l 0 k i _ _ _ _ H Hkk Hi). lia.
    - destruct (Nat.lt_trichotomy k j) as [H|[->|H]]; auto; [rewrite Hj in Hkk; injection Hkk as -> ->; lia|]. pose proof (filtered_sorted l 0 j k _ _ _ _ H Hj Hkk). lia.
  Qed.
End Filtered.

Section MemSem.
  Context {p : positive}.
  Add Ring Fr2 : (F_ring_theory (p:=p)).
  Local Notation gexp := (gexp p).
  Hypothesis p_odd : (2 < N.pos p)%N.
  Lemma access_dec (id : N) (b : busi (F p)) (A : F p * F p) : {exists op c, access id b op A c} + {~ exists op c, access id b op A c}.
  Proof.
    unfold access. destruct (F_dec (bus_id b) (of_N id)) as [H1|H1]; [|right; intros (? & ? & ? & _); auto].
    destruct (payload b) as [|x [|y c]] eqn:Ep; [right; intros (? & ? & _ & _ & H); discriminate|right; intros (? & ? & _ & _ & H); discriminate|].
    destruct (F_dec x (fst A)) as [H2|H2]; [|right; intros (? & ? & _ & _ & H); congruence]. destruct (F_dec y (snd A)) as [H3|H3]; [|right; intros (? & ? & _ & _ & H); congruence].
    destruct (F_dec (mult b) 1%F) as [H4|H4]; [left; exists SetNew, c; subst; auto|]. destruct (F_dec (mult b) (fopp 1%F)) as [H5|H5]; [left; exists GetPrevious, c; subst; auto|].
    right. intros ([] & ? & _ & H & _); auto.
  Qed.
  (** The last access to an address before a position. *)
  Lemma last_access (id : N) (l : list (busi (F p))) A i n bi op0 c0 : nth_error l i = Some bi -> access id bi op0 A c0 -> i < n -> n <= length l ->
    exists q bq op c, i <= q < n /\ nth_error l q = Some bq /\ access id bq op A c /\ forall k bk opk ck, q < k < n -> nth_error l k = Some bk -> ~ access id bk opk A ck.
  Proof.
    intros Hi Ha. induction n as [|n IH]; intros Hlt Hn; [lia|]. destruct (nth_error l n) as [bn|] eqn:En; [|apply nth_error_None in En; lia]. destruct (access_dec id bn A) as [(op & c & Y)|No].
    - exists n, bn, op, c. split; [lia|]. repeat (split; auto). intros; lia.
    - destruct (Nat.eq_dec i n) as [->|Hne]; [exfalso; rewrite Hi in En; injection En as <-; apply No; eauto|]. destruct IH as (q & bq & op & c & H1 & H2 & H3 & H4); [lia|lia|]. exists q, bq, op, c. split; [lia|]. split; auto. split; auto.
      intros k bk opk ck Hk Hbk Hac. destruct (Nat.eq_dec k n) as [->|Hk']; [rewrite En in Hbk; injection Hbk as <-; apply No; eauto|]. apply (H4 k bk opk ck); auto. lia.
  Qed.
  Context (id : N) (l : list (busi gexp)) (s : var -> F p).
  Let vals := map (bmap (eval s)) l.
  Let D (a b : gexp) := eval s a <> eval s b.
  Lemma vals_nth i : nth_error vals i = option_map (bmap (eval s)) (nth_error l i).
  Proof. unfold vals. apply nth_error_map. Qed.
  Lemma addr_value (m m' : memint p) : mi_addr m = mi_addr m' -> (mi_space m, eval s (mi_local m)) = (mi_space m', eval s (mi_local m')).
  Proof. unfold mi_addr. intros [= H1 H2]. congruence. Qed.
  Lemma addr_differ_value (m m' : memint p) : addr_differ D (mi_addr m) (mi_addr m') -> (mi_space m, eval s (mi_local m)) <> (mi_space m', eval s (mi_local m')).
  Proof.
    intros (k & x & y & H1 & H2 & H3) [= E1 E2]. unfold D in H3. destruct k as [|[|k]]; cbn in H1, H2.
    - injection H1 as <-. injection H2 as <-. rewrite !eval_from_number in H3. auto.
    - injection H1 as <-. injection H2 as <-. auto.
    - destruct k; discriminate.
  Qed.
  (** No store to the address strictly between the two positions. *)
  Lemma undisturbed_value i j m q bq c : undisturbed D id l i j (mi_addr m) -> i < q < j -> nth_error vals q = Some bq -> ~ access id bq SetNew (mi_space m, eval s (mi_local m)) c.
  Proof.
    intros H Hq Hb Ha. rewrite vals_nth in Hb. destruct (nth_error l q) as [b|] eqn:Eb; [|discriminate]. cbn in Hb. injection Hb as <-. specialize (H q b Hq Eb). destruct (try_from_bus id b) as [| | |mq] eqn:Ec; [|destruct H|destruct H|].
    - eapply conv_not; eauto.
    - destruct (conv_access id b mq Ec) as [X _]. destruct (access_op p_odd _ _ _ _ _ _ _ _ (X s) Ha) as (E1 & E2 & _). specialize (H E1). apply addr_differ_value in H. auto.
  Qed.
  Lemma pair_equations ij : pair_ok D id l ij -> chronological id vals -> pair_content id l s ij.
  Proof.
    destruct ij as [i j]. intros (bi & mi & bj & mj & L & Hi & Hj & Ci & Cj & Oi & Oj & Ha & _ & Hu) Hc bi' bj' mi' mj' Hi' Hj' Ci' Cj'. cbn [fst snd] in *.
    rewrite Hi in Hi'. injection Hi' as <-. rewrite Hj in Hj'. injection Hj' as <-. rewrite Ci in Ci'. injection Ci' as <-. rewrite Cj in Cj'. injection Cj' as <-.
    destruct (conv_access id bi mi Ci) as [Ai _]. destruct (conv_access id bj mj Cj) as [Aj _]. specialize (Ai s). specialize (Aj s). rewrite Oi in Ai. rewrite Oj, <- (addr_value _ _ Ha) in Aj.
    assert (Vi : nth_error vals i = Some (bmap (eval s) bi)) by (rewrite vals_nth, Hi; reflexivity). assert (Vj : nth_error vals j = Some (bmap (eval s) bj)) by (rewrite vals_nth, Hj; reflexivity).
    destruct (last_access id vals _ i j _ _ _ Vi Ai L) as (q & bq & op & c & Hq & Vq & Aq & Hl); [apply Nat.lt_le_incl, nth_error_Some; congruence|].
    destruct (Hc q j bq _ op _ c _ ltac:(lia) Vq Vj Aq Aj Hl) as [-> <-]. destruct (Nat.eq_dec q i) as [->|Hne].
    - rewrite Vi in Vq. injection Vq as <-. now destruct (access_op p_odd _ _ _ _ _ _ _ _ Ai Aq).
    - exfalso. apply (undisturbed_value i j mi q bq c Hu); auto. lia.
  Qed.
  Context (rm : list nat) (pairs : list (nat * nat)).
  Hypothesis Hrm : Permutation rm (flat_map (fun ij => [fst ij; snd ij]) pairs).
  Hypothesis Hnd : NoDup rm.
  Hypothesis Hpairs : Forall (pair_ok D id l) pairs.
  Let keep := fun ib : nat * busi gexp => negb (existsb (Nat.eqb (fst ib)) rm).
  Lemma keep_spec q b : keep (q, b) = true <-> ~ In q rm.
  Proof. unfold keep. cbn [fst]. rewrite negb_true_iff, <- not_true_iff_false, existsb_exists. split; intros H H'; apply H; [exists q; split; auto; apply Nat.eqb_refl|]. destruct H' as (x & Hx & E). apply Nat.eqb_eq in E. now subst. Qed.
  Lemma rm_pair q : In q rm -> exists ij, In ij pairs /\ (q = fst ij \/ q = snd ij).
  Proof. intros H. apply (Permutation_in _ Hrm) in H. apply in_flat_map in H. destruct H as (ij & Hij & H). exists ij. cbn in H. intuition. Qed.
  Lemma still_chronological : chronological id vals -> chronological id (map (bmap (eval s)) (map snd (filter keep (enumerate l)))).
  Proof.
    intros Hc i j bi bj op A ci cj Hij Hi Hj Ai Aj Hb. rewrite !nth_error_map in Hi, Hj. destruct (nth_error (filter keep (enumerate l)) i) as [[oi gi]|] eqn:Ei; [|discriminate]. destruct (nth_error (filter keep (enumerate l)) j) as [[oj gj]|] eqn:Ej; [|discriminate]. cbn in Hi, Hj. injection Hi as <-. injection Hj as <-.
    pose proof (filtered_index keep l 0 i oi gi Ei) as (_ & Li & Ki). pose proof (filtered_index keep l 0 j oj gj Ej) as (_ & Lj & Kj). rewrite Nat.sub_0_r in *. pose proof (filtered_sorted keep l 0 i j _ _ _ _ Hij Ei Ej) as Hlt.
    assert (Vi : nth_error vals oi = Some (bmap (eval s) gi)) by (rewrite vals_nth, Li; reflexivity). assert (Vj : nth_error vals oj = Some (bmap (eval s) gj)) by (rewrite vals_nth, Lj; reflexivity).
    destruct (last_access id vals A oi oj _ _ _ Vi Ai Hlt) as (q & bq & opq & cq & Hq & Vq & Aq & Hl); [apply Nat.lt_le_incl, nth_error_Some; congruence|].
    destruct (Hc q oj _ _ _ _ _ _ ltac:(lia) Vq Vj Aq Aj Hl) as [-> ->]. destruct (Nat.eq_dec q oi) as [->|Hne].
    - rewrite Vi in Vq. injection Vq as <-. destruct (access_op p_odd _ _ _ _ _ _ _ _ Ai Aq) as (-> & _ & ->). auto.
    - exfalso. pose proof Vq as Vq0. rewrite vals_nth in Vq. destruct (nth_error l q) as [gq|] eqn:Lq; [|discriminate]. cbn in Vq. injection Vq as <-.
      destruct (keep (q, gq)) eqn:Kq.
      + destruct (filtered_between keep l i j oi oj gi gj q gq Ei Ej ltac:(lia) Lq Kq) as (k & Hk & Ek). apply (Hb k (bmap (eval s) gq) SetNew cj Hk); auto. rewrite !nth_error_map, Ek. reflexivity.
      + assert (Iq : In q rm) by (destruct (in_dec Nat.eq_dec q rm) as [Y|Y]; auto; apply (keep_spec q gq) in Y; congruence). apply rm_pair in Iq. destruct Iq as ([i' k'] & Hin & Hor). rewrite Forall_forall in Hpairs. pose proof (Hpairs _ Hin) as (b1 & m1 & b2 & m2 & L1 & N1 & N2 & C1 & C2 & O1 & O2 & Ha & _ & Hu). cbn [fst snd] in *.
        destruct (conv_access id b1 m1 C1) as [A1 _]. destruct (conv_access id b2 m2 C2) as [A2 _]. specialize (A1 s). specialize (A2 s). rewrite O1 in A1. rewrite O2, <- (addr_value _ _ Ha) in A2.
        destruct Hor as [-> | ->].
        * rewrite N1 in Lq. injection Lq as ->. destruct (access_op p_odd _ _ _ _ _ _ _ _ A1 Aq) as (_ & EA & _).
          assert (V2 : nth_error vals k' = Some (bmap (eval s) b2)) by (rewrite vals_nth, N2; reflexivity). rewrite EA in A2.
          assert (Hk' : k' <> oj). { intros ->. apply (keep_spec oj gj) in Kj. apply Kj. apply (Permutation_in _ (Permutation_sym Hrm)). apply in_flat_map. exists (i', oj). cbn. auto. }
          destruct (Nat.lt_trichotomy k' oj) as [H|[H|H]]; [|auto|].
          -- apply (Hl k' _ GetPrevious _ ltac:(lia) V2 A2).
          -- destruct (last_access id vals A oj k' _ _ _ Vj Aj H) as (q2 & bq2 & op2 & c2 & Hq2 & Vq2 & Aq2 & Hl2); [apply Nat.lt_le_incl, nth_error_Some; congruence|].
             destruct (Hc q2 k' _ _ _ _ _ _ ltac:(lia) Vq2 V2 Aq2 A2 Hl2) as [-> _]. destruct (Nat.eq_dec q2 oj) as [->|Hne2].
             ++ rewrite Vj in Vq2. injection Vq2 as <-. destruct (access_op p_odd _ _ _ _ _ _ _ _ Aj Aq2) as (E & _). discriminate.
             ++ rewrite <- EA in Aq2. eapply (undisturbed_value i' k' m1 q2); eauto. lia.
        * rewrite N2 in Lq. injection Lq as ->. destruct (access_op p_odd _ _ _ _ _ _ _ _ A2 Aq) as (E & _). discriminate.
  Qed.
End MemSem.

Section Net.
  Context {p : positive}.
  Add Ring Fr3 : (F_ring_theory (p:=p)).
  Local Notation gexp := (gexp p).
  Fixpoint total (f : nat -> F p) (l : list nat) : F p := match l with [] => 0%F | i :: r => (f i + total f r)%F end.
  Lemma total_app f a b : total f (a ++ b) = (total f a + total f b)%F.
  Proof. induction a as [|i a IH]; cbn [app total]; [ring|]. rewrite IH. ring. Qed.
  Lemma total_perm f a b : Permutation a b -> total f a = total f b.
  Proof. induction 1; cbn [total]; [auto|now rewrite IHPermutation|ring|congruence]. Qed.
  Lemma net_app bus args (a b : list (busi (F p))) : net bus args (a ++ b) = (net bus args a + net bus args b)%F.
  Proof. induction a as [|x a IH]; cbn [app net]; [ring|]. rewrite IH. ring. Qed.
  Context (bus : F p) (args : list (F p)) (s : var -> F p).
  Definition contribution (l : list (busi gexp)) (i : nat) : F p :=
    match nth_error l i with Some b => if message_dec bus args (bmap (eval s) b) then mult (bmap (eval s) b) else 0%F | None => 0%F end.
  Lemma net_filter (keep : nat * busi gexp -> bool) l : net bus args (map (bmap (eval s)) (map snd (filter keep (enumerate l)))) = total (contribution l) (map fst (filter keep (enumerate l))).
  Proof.
    assert (G : forall r, (forall i b, In (i, b) r -> nth_error l i = Some b) -> net bus args (map (bmap (eval s)) (map snd r)) = total (contribution l) (map fst r)).
    { induction r as [|[i b] r IH]; intros H; cbn [map net total fst snd]; auto. rewrite IH by (intros; apply H; now right). unfold contribution at 2. now rewrite (H i b (or_introl eq_refl)). }
    apply G. intros i b H. apply filter_In in H. now apply enumerate_in.
  Qed.
  Lemma map_fst_enum {A} (l : list A) : map fst (enumerate l) = seq 0 (length l).
  Proof. unfold enumerate. generalize 0. induction l as [|a l IH]; intros n; cbn [length seq combine map fst]; auto. now rewrite IH. Qed.
  Lemma net_removed (rm : list nat) l : NoDup rm -> Forall (fun i => i < length l) rm ->
    net bus args (map (bmap (eval s)) l) = (net bus args (map (bmap (eval s)) (map snd (filter (fun ib => negb (existsb (Nat.eqb (fst ib)) rm)) (enumerate l)))) + total (contribution l) rm)%F.
  Proof.
    intros Hn Hb. rewrite net_filter.
    assert (E : net bus args (map (bmap (eval s)) l) = total (contribution l) (seq 0 (length l))).
    { rewrite <- map_fst_enum. pose proof (net_filter (fun _ => true) l) as X. assert (Y : forall A (r : list A), filter (fun _ => true) r = r) by (induction r; cbn; congruence). rewrite !Y in X. rewrite <- X. f_equal. f_equal. unfold enumerate. generalize 0. clear. induction l as [|a l IH]; intros n; cbn [length seq combine map snd]; auto. now rewrite <- IH. }
    rewrite E, <- total_app. apply total_perm. apply NoDup_Permutation.
    - apply seq_NoDup.
    - assert (N1 : NoDup (map fst (filter (fun ib => negb (existsb (Nat.eqb (fst ib)) rm)) (enumerate l)))) by (apply NoDup_map_filter; rewrite map_fst_enum; apply seq_NoDup).
      revert N1. assert (Dj : forall i, In i (map fst (filter (fun ib : nat * busi gexp => negb (existsb (Nat.eqb (fst ib)) rm)) (enumerate l))) -> ~ In i rm).
      { intros i Hi. apply in_map_iff in Hi. destruct Hi as ([i' b] & <- & Hi). apply filter_In in Hi. destruct Hi as [_ Hi]. now apply keep_spec in Hi. }
      revert Dj. generalize (map fst (filter (fun ib : nat * busi gexp => negb (existsb (Nat.eqb (fst ib)) rm)) (enumerate l))). intros L Dj NL. induction NL as [|i L H1 H2 IH]; cbn [app]; auto. constructor; [|apply IH; intros; apply Dj; now right]. rewrite in_app_iff. intros [H|H]; auto. apply (Dj i); auto. now left.
    - intros i. rewrite in_app_iff, in_seq. split.
      + intros Hi. destruct (in_dec Nat.eq_dec i rm) as [Y|Y]; auto. left. destruct (nth_error l i) as [b|] eqn:Eb; [|apply nth_error_None in Eb; lia]. apply in_map_iff. exists (i, b). split; auto. apply filter_In. split; [now apply enumerate_in|]. now apply keep_spec.
      + intros [Hi|Hi]; [|rewrite Forall_forall in Hb; specialize (Hb _ Hi); lia]. apply in_map_iff in Hi. destruct Hi as ([i' b] & <- & Hi). apply filter_In in Hi. destruct Hi as [Hi _]. apply enumerate_in in Hi. cbn. split; [lia|]. apply nth_error_Some. congruence.
  Qed.
  Lemma total_pairs f pairs : Forall (fun ij => (f (fst ij) + f (snd ij) = 0)%F) pairs -> total f (flat_map (fun ij => [fst ij; snd ij]) pairs) = 0%F.
  Proof. induction 1 as [|ij pairs H _ IH]; cbn [flat_map app total]; auto. rewrite IH. transitivity (f (fst ij) + f (snd ij))%F; [ring|exact H]. Qed.
  Lemma pair_cancels D id l ij : pair_ok D id l ij -> pair_content id l s ij -> (contribution l (fst ij) + contribution l (snd ij) = 0)%F.
  Proof.
    intros (bi & mi & bj & mj & L & Hi & Hj & Ci & Cj & Oi & Oj & Ha & _) Hc. specialize (Hc bi bj mi mj Hi Hj Ci Cj).
    destruct (conv_access id bi mi Ci) as [Ai _]. destruct (conv_access id bj mj Cj) as [Aj _]. specialize (Ai s). specialize (Aj s). rewrite Oi in Ai. rewrite Oj, <- (addr_value s _ _ Ha), <- Hc in Aj.
    unfold contribution. rewrite Hi, Hj. destruct Ai as (A1 & A2 & A3). destruct Aj as (B1 & B2 & B3). 
    destruct (message_dec bus args (bmap (eval s) bi)) as [M|M], (message_dec bus args (bmap (eval s) bj)) as [M'|M']; unfold is_message in *.
    - rewrite A2, B2. ring.
    - exfalso. apply M'. rewrite B1, B3, <- A1, <- A3. auto.
    - exfalso. apply M. rewrite A1, A3, <- B1, <- B3. auto.
    - ring.
  Qed.
End Net.

Section Success.
  Context {p : positive} {S : Type} (diff : S -> gexp p -> gexp p -> option bool * S) (ord : contents p -> contents p).
  Hypothesis ord_perm : forall m, Permutation (ord m) m.
  Context (Inv : S -> Prop) (U : gexp p -> Prop).
  Hypothesis U_number : forall k, U (from_number k).
  Hypothesis answers : forall st a b, Inv st -> U a -> U b -> exists d st', diff st a b = (Some d, st') /\ Inv st'.
  Context (id : N) (width : nat).
  (** Every content has [width] data fields and one time stamp; every address two components. *)
  Definition shaped (x : contents p) : Prop := Forall (fun bc => (length (fst bc) = 2 /\ Forall U (fst bc)) /\ length (mc_data (snd bc)) = width /\ length (mc_ts (snd bc)) = 1) x.
  Lemma any_diff_total l st : Inv st -> Forall (fun ab => U (fst ab) /\ U (snd ab)) l -> exists d st', any_diff diff st l = (Some d, st') /\ Inv st'.
  Proof. intros Hi H. revert st Hi. induction H as [|[a b] l [Ha Hb] Hl IH]; intros st Hi; cbn [any_diff]; eauto. destruct (answers st a b Hi Ha Hb) as ([] & st' & -> & H'); eauto. Qed.
  Lemma retain_total a m : length a = 2 -> Forall U a -> Forall (fun bc => (length (fst bc) = 2 /\ Forall U (fst bc)) /\ length (mc_data (snd bc)) = width /\ length (mc_ts (snd bc)) = 1) m -> forall st, Inv st -> exists m1 st', retain diff st a m = Some (m1, st') /\ shaped m1 /\ Inv st'.
  Proof.
    intros Ha Ua. induction 1 as [|[b c] m Hb Hm IH]; intros st Hi; cbn [retain]; [exists [], st; split; auto; split; [constructor|auto]|]. cbn [fst snd] in Hb. destruct (zip_eq a b) as [l|] eqn:Ez.
    - destruct (any_diff_total l st Hi) as (d & st1 & -> & Hi1).
      { apply zip_eq_some in Ez. destruct Ez as [_ ->]. destruct Hb as [[_ Ub] _]. rewrite Forall_forall in *. intros [x y] Hxy. split; [apply in_combine_l in Hxy; auto|apply in_combine_r in Hxy; auto]. }
      destruct (IH st1 Hi1) as (m1 & st2 & -> & H & H'). destruct d; do 2 eexists; (split; [reflexivity|]); auto. split; auto. constructor; auto.
    - exfalso. assert (X : zip_eq a b = Some (combine a b)) by (apply zip_eq_some; split; auto; lia). congruence.
  Qed.
  Lemma loop_total (l : list (nat * busi (gexp p))) : Forall (fun ib => match try_from_bus id (snd ib) with Panics => False | Access m => length (mi_data m) = width /\ U (mi_local m) | _ => True end) l ->
    forall x, Inv (ms_solver x) -> shaped (ms_mem x) -> mem_loop diff ord id l x <> None.
  Proof.
    induction 1 as [|[i b] l Hb Hl IH]; intros x Hi Hx; cbn [mem_loop]; [discriminate|]. unfold mem_step. cbn [fst snd] in *. destruct (try_from_bus id b) as [| | |m] eqn:Ec; [apply IH; auto|apply IH; auto; constructor|destruct Hb|]. destruct Hb as [Hb Hloc]. assert (HA : Forall U (mi_addr m)) by (repeat constructor; auto). destruct (conv_access id b m Ec) as (_ & _ & Ht). destruct (mi_op m).
    - destruct (mem_get (mi_addr m) (ms_mem x)) as [c|] eqn:Eg; [|apply IH; auto]. apply mem_get_in in Eg. unfold shaped in Hx. pose proof Hx as Hx'. rewrite Forall_forall in Hx'. destruct (Hx' _ Eg) as (_ & H1 & H2). cbn [snd] in *. unfold equate.
      rewrite (proj2 (zip_eq_some (mc_data c) (mi_data m) _) (conj (eq_trans H1 (eq_sym Hb)) eq_refl)). rewrite (proj2 (zip_eq_some (mc_ts c) (mi_ts m) _) (conj (eq_trans H2 (eq_sym Ht)) eq_refl)). apply IH; auto. cbn [ms_mem]. unfold shaped, mem_remove. apply Forall_forall. intros bc Hbc. apply filter_In in Hbc. apply Hx'. tauto.
    - destruct (retain_total (mi_addr m) (ord (ms_mem x)) eq_refl HA) with (st := ms_solver x) as (m1 & st1 & -> & H1 & H2); [eapply Permutation_Forall; [apply Permutation_sym, ord_perm|exact Hx]|auto|]. apply IH; auto. cbn [ms_mem]. constructor; [cbn; auto|]. unfold shaped, mem_remove. apply Forall_forall. intros bc Hbc. apply filter_In in Hbc. unfold shaped in H1. rewrite Forall_forall in H1. apply H1. tauto.
  Qed.
End Success.
