From Coq Require Import Arith NArith Bool List Lia ZifyBool ZifyNat Sorted.
From Verif Require Import ExecModel ExecSpec ExecFacts CandFacts.
Import ListNotations.

Section Hist.
  Context {E S : Type} (reg : E -> N -> N) (pc : E -> N) (clk : E -> nat) (value_limb : N -> nat -> N).
  (** The constraints, number of cycles and priority of each APC. *)
  Variable specs : list (list oconstr * nat * nat).
  Local Notation mk_apcs := (mk_apcs specs).
  Local Notation cycles_of := (cycles_of specs).
  Local Notation constraints_of := (constraints_of specs).
  Local Notation cop := (cop E S).
  Local Notation cand := (cand S).
  Local Notation holds := (oc_holds reg pc value_limb).
  Local Notation genuine := (genuine reg pc clk value_limb cycles_of constraints_of).
  Local Notation clks os := (flat_map (op_clk clk (S:=S)) os).

  Lemma ascending_app l k : ascending (l ++ [k]) -> ascending l /\ forall x, In x l -> x <= k.
  Proof.
    induction l as [|x l IH]; intros H; [split; [exact I|intros x []]|]. destruct l as [|y l].
    - cbn in H. split; [exact I|]. intros z [<-|[]]. tauto.
    - cbn [app ascending] in H. destruct H as [H1 H2]. destruct (IH H2) as [A B]. split; [split; auto|]. intros z [<-|Hz]; auto. specialize (B y (or_introl eq_refl)). lia.
  Qed.
  Lemma ascending_le a b c : ascending (a ++ b) -> In c a -> forall d, In d b -> c <= d.
  Proof.
    revert a c. induction b as [|x b IH] using rev_ind; intros a c H Hc d Hd; [destruct Hd|]. rewrite app_assoc in H. apply ascending_app in H. destruct H as [H1 H2].
    apply in_app_or in Hd. destruct Hd as [Hd|[<-|[]]]; [eapply IH; eauto|]. apply H2. apply in_or_app. now left.
  Qed.
  Lemma clock_prefix (a b : list cop) : clock_ok clk (a ++ b) -> clock_ok clk a.
  Proof.
    unfold clock_ok. rewrite flat_map_app. generalize (clks b). intros l. induction l as [|x l IH] using rev_ind; [now rewrite app_nil_r|].
    rewrite app_assoc. intros H. apply ascending_app in H. tauto.
  Qed.
  Lemma genuine_ext (os more : list cop) c ab : genuine os c ab -> genuine (os ++ more) c ab.
  Proof.
    intros (b & s0 & m & sn & a & -> & H). exists b, s0, m, sn, (a ++ more). split; auto. rewrite <- app_assoc. cbn [app]. rewrite <- app_assoc. reflexivity.
  Qed.
  Lemma genuine_clk (os : list cop) c ab : clock_ok clk os -> genuine os c ab -> fst ab <= snd ab /\ In (snd ab) (clks os).
  Proof.
    intros Hc (b & s0 & m & sn & a & -> & _ & _ & _ & ->). cbn [fst snd]. unfold clock_ok in Hc. split.
    - replace (b ++ Insert s0 (call_apc c) (call_from c) :: m ++ Check sn (call_to c) :: a) with ((b ++ [Insert s0 (call_apc c) (call_from c)]) ++ m ++ Check sn (call_to c) :: a) in Hc by (rewrite <- app_assoc; reflexivity).
      rewrite flat_map_app in Hc. eapply ascending_le; [exact Hc| |].
      + rewrite flat_map_app. apply in_or_app. right. now left.
      + rewrite flat_map_app. apply in_or_app. right. now left.
    - rewrite flat_map_app. apply in_or_app. right. cbn [flat_map]. apply in_or_app. right. rewrite flat_map_app. apply in_or_app. right. now left.
  Qed.
  (** What is known about a candidate after the operations [os]. *)
  Definition cand_ok (os : list cop) (c : cand) : Prop :=
    apc_id c < length specs /\ In (from_clk c) (clks os) /\ total_check_count c = cycles_of (apc_id c) + 1 /\
    match status c with
    | InProgress ev => exists before s0 middle, os = before ++ Insert s0 (apc_id c) (from_snap c) :: middle /\ ~ In Abort middle /\ from_clk c = clk s0 /\
        ev_inv reg pc (constraints_of (apc_id c)) (s0 :: checks_of middle) ev /\
        (forall oc, In oc (constraints_of (apc_id c)) -> first_evaluable_step oc < 1 + length (checks_of middle) -> holds (s0 :: checks_of middle) oc)
    | DoneAt e t => genuine os (mkCall (apc_id c) (from_snap c) t) (from_clk c, e)
    end.
  Lemma nth_apcs id a : nth_error mk_apcs id = Some a -> a = mkApc (from_constraints (constraints_of id)) (cycles_of id) (apc_priority a).
  Proof. unfold ExecSpec.mk_apcs, ExecSpec.constraints_of, ExecSpec.cycles_of. rewrite nth_error_map. destruct (nth_error specs id) as [x|]; [|discriminate]. intros [= <-]. reflexivity. Qed.
  Lemma nth_apcs_some id : id < length specs -> exists a, nth_error mk_apcs id = Some a.
  Proof. intros H. destruct (nth_error mk_apcs id) as [a|] eqn:E0; [eauto|]. apply nth_error_None in E0. unfold ExecSpec.mk_apcs in E0. rewrite map_length in E0. lia. Qed.
  Lemma cand_ok_other os o c : cand_ok os c -> o <> Abort -> (forall s t, o <> Check s t) -> cand_ok (os ++ [o]) c.
  Proof.
    intros (H1 & H2 & H3 & H4) Ha Hc. split; auto. split; [rewrite flat_map_app; apply in_or_app; now left|]. split; auto. destruct (status c) as [ev|e t]; [|now apply genuine_ext].
    destruct H4 as (b & s0 & m & -> & A1 & A2 & A3 & A4). exists b, s0, (m ++ [o]). split; [now rewrite <- app_assoc|].
    split; [intros X; apply in_app_or in X; destruct X as [X|[X|[]]]; auto|]. split; auto.
    assert (X : checks_of (m ++ [o]) = checks_of m). { unfold checks_of. rewrite flat_map_app. destruct o; cbn; rewrite ?app_nil_r; auto. now destruct (Hc s t). }
    rewrite X. auto.
  Qed.
  Lemma check_one_ok os s t c : cand_ok os c -> exists l, check_one reg pc clk value_limb mk_apcs s t c = Some l /\
    Forall (cand_ok (os ++ [Check s t])) l /\ Forall (fun c' => from_clk c' = from_clk c) l.
  Proof.
    intros H. assert (H' := H). destruct H as (H1 & H2 & H3 & H4). unfold check_one. destruct (status c) as [ev|e u] eqn:Es.
    - destruct (nth_apcs_some _ H1) as [a Ea]. rewrite Ea. apply nth_apcs in Ea. rewrite Ea. cbn [apc_constraints].
      destruct H4 as (b & s0 & m & -> & A1 & A2 & A3 & A4). pose proof (try_next_ok reg pc value_limb (constraints_of (apc_id c)) _ _ s A3) as T.
      assert (Ck : checks_of (m ++ [Check s t]) = checks_of m ++ [s]) by (unfold checks_of; rewrite flat_map_app; reflexivity).
      destruct (try_next reg pc value_limb s (from_constraints (constraints_of (apc_id c))) ev) as [ev'| |]; [|exists []; repeat split; constructor|destruct T].
      destruct T as [T1 T2]. eexists. split; [reflexivity|]. split; [|constructor; [reflexivity|constructor]]. constructor; [|constructor].
      assert (Hh : forall oc, In oc (constraints_of (apc_id c)) -> first_evaluable_step oc < 1 + length (checks_of (m ++ [Check s t])) -> holds (s0 :: checks_of (m ++ [Check s t])) oc).
      { intros oc Ho L. rewrite Ck in *. rewrite app_length in L. cbn [length] in L. destruct (Nat.eq_dec (first_evaluable_step oc) (length (s0 :: checks_of m))) as [E1|N0].
        - apply (T2 oc Ho E1).
        - cbn [length] in N0. change (s0 :: checks_of m ++ [s]) with ((s0 :: checks_of m) ++ [s]). apply holds_ext; [apply (first_step_lt value_limb); cbn [length]; lia|]. apply A4; auto. lia. }
      split; [exact H1|]. cbn [from_clk apc_id from_snap total_check_count status]. split; [rewrite flat_map_app; apply in_or_app; now left|]. split; auto.
      rewrite H3. pose proof (inv_idx _ _ _ _ _ T1) as Ti. rewrite app_length in Ti. cbn [length] in Ti. rewrite Ti.
      destruct (Nat.eqb_spec (cycles_of (apc_id c) + 1) (Datatypes.S (length (checks_of m)) + 1)) as [Ec|Ec].
      + exists b, s0, m, s, []. cbn [call_apc call_from call_to]. split; [now rewrite <- app_assoc|]. split; auto. split; [rewrite Ck, app_length; cbn; lia|]. split; [|now rewrite A2].
        intros oc Ho Hd. apply Hh; auto. apply (first_step_lt value_limb) in Hd. rewrite Ck, app_length. cbn [length]. lia.
      + exists b, s0, (m ++ [Check s t]). split; [now rewrite <- app_assoc|]. split; [intros X; apply in_app_or in X; destruct X as [X|[X|[]]]; [auto|discriminate]|].
        split; auto. split; [rewrite Ck; exact T1|exact Hh].
    - exists [c]. split; auto. split; [|repeat constructor]. constructor; [|constructor]. unfold cand_ok. rewrite Es. split; auto. split; [rewrite flat_map_app; apply in_or_app; now left|]. split; auto. now apply genuine_ext.
  Qed.
  Lemma check_all_ok os s t cs : Forall (cand_ok os) cs -> exists cs', check_conditions reg pc clk value_limb mk_apcs s t cs = Some cs' /\
    Forall (cand_ok (os ++ [Check s t])) cs' /\ (forall x, Forall (fun c => x <= from_clk c) cs -> Forall (fun c => x <= from_clk c) cs').
  Proof.
    induction 1 as [|c cs H Hr (cs' & IH1 & IH2 & IH3)]; cbn [check_conditions]; [exists []; repeat split; auto|].
    destruct (check_one_ok os s t c H) as (l & -> & A & B). rewrite IH1. eexists. split; [reflexivity|]. split; [now apply Forall_app|]. intros x Hx. inversion Hx as [|? ? X1 X2]; subst. apply Forall_app. split; auto.
    eapply Forall_impl; [|exact B]. cbn. intros c' ->. auto.
  Qed.
  (** The invariant of a history: candidates, and the calls returned so far. *)
  Record hinv (os : list cop) (cs : list cand) (calls : list (call S)) : Prop := {
    h_cands : Forall (cand_ok os) cs;
    h_calls : exists ws, Forall2 (genuine os) calls ws /\ ForallOrdPairs disjoint ws /\ Forall (fun w => Forall (fun c => snd w <= from_clk c) cs) ws }.
  Lemma genuine_all (os more : list cop) calls ws : Forall2 (genuine os) calls ws -> Forall2 (genuine (os ++ more)) calls ws.
  Proof. induction 1; constructor; auto. now apply genuine_ext. Qed.
  Lemma ordpairs_app {A} (P : A -> A -> Prop) l1 l2 : ForallOrdPairs P l1 -> ForallOrdPairs P l2 -> (forall a b, In a l1 -> In b l2 -> P a b) -> ForallOrdPairs P (l1 ++ l2).
  Proof.
    intros H1 H2 H. induction H1 as [|x l1 Q B IH]; cbn [app]; auto. constructor; [apply Forall_app; split; auto; apply Forall_forall; intros b Hb; apply H; auto; now left|].
    apply IH. intros a b Ha Hb. apply H; auto. now right.
  Qed.
  Lemma cstep_ok os o cs calls : clock_ok clk (os ++ [o]) -> ids_ok mk_apcs [o] -> hinv os cs calls ->
    exists cs' out, cstep reg pc clk value_limb mk_apcs o cs = Some (cs', out) /\ hinv (os ++ [o]) cs' (calls ++ calls_of [out]).
  Proof.
    intros Hck Hid [H1 (ws & W1 & W2 & W3)]. destruct o as [s id f|s t| |]; cbn [cstep].
    - inversion Hid as [|? ? Hlt _]; subst. cbn in Hlt. unfold ExecSpec.mk_apcs in Hlt. rewrite map_length in Hlt. unfold try_insert. destruct (nth_apcs_some _ Hlt) as [a Ea]. rewrite Ea. apply nth_apcs in Ea. rewrite Ea. cbn [apc_constraints cycle_count].
      pose proof (try_next_ok reg pc value_limb (constraints_of id) [] _ s (ev_inv_new reg pc _)) as T.
      assert (Old : Forall (cand_ok (os ++ [Insert s id f])) cs) by (eapply Forall_impl; [|exact H1]; intros c Hc; apply cand_ok_other; auto; discriminate).
      destruct (try_next reg pc value_limb s (from_constraints (constraints_of id)) ev_new) as [ev| |]; [| |destruct T].
      + destruct T as [T1 T2]. eexists _, _. split; [reflexivity|]. cbn [calls_of flat_map app]. rewrite app_nil_r. split.
        * apply Forall_app. split; auto. constructor; [|constructor]. split; [exact Hlt|]. cbn [from_clk apc_id from_snap total_check_count status].
          split; [rewrite flat_map_app; apply in_or_app; right; now left|]. split; auto. exists os, s, []. split; auto. split; [intros []|]. split; auto. split; [exact T1|].
          cbn [checks_of flat_map length]. intros oc Ho L. apply (T2 oc Ho). cbn. lia.
        * exists ws. split; [now apply genuine_all|]. split; auto. apply Forall_forall. intros w Hw. rewrite Forall_forall in W3. apply Forall_app. split; [auto|]. constructor; [|constructor]. cbn [from_clk].
          assert (X : exists c, genuine os c w).
          { clear - W1 Hw. induction W1 as [|c w' cs' ws' A B IH]; [destruct Hw|]. destruct Hw as [->|Hw]; eauto. }
          destruct X as [c X]. apply genuine_clk in X; [|now apply clock_prefix in Hck]. unfold clock_ok in Hck. rewrite flat_map_app in Hck. eapply ascending_le; [exact Hck|apply X|]. now left.
      + eexists _, _. split; [reflexivity|]. cbn [calls_of flat_map app]. rewrite app_nil_r. split; auto. exists ws. split; [now apply genuine_all|auto].
    - destruct (check_all_ok os s t cs H1) as (cs' & -> & A & B). eexists _, _. split; [reflexivity|]. cbn [calls_of flat_map app]. rewrite app_nil_r. split; auto.
      exists ws. split; [now apply genuine_all|]. split; auto. eapply Forall_impl; [|exact W3]. auto.
    - unfold abort_in_progress. eexists _, _. split; [reflexivity|]. cbn [calls_of flat_map app]. rewrite app_nil_r. split.
      + apply Forall_forall. intros c Hc. apply filter_In in Hc. destruct Hc as [Hc Hp]. rewrite Forall_forall in H1. destruct (H1 c Hc) as (A1 & A2 & A3 & A4). split; auto.
        split; [rewrite flat_map_app; apply in_or_app; now left|]. split; auto. unfold in_progress in Hp. destruct (status c); [discriminate|]. now apply genuine_ext.
      + exists ws. split; [now apply genuine_all|]. split; auto. eapply Forall_impl; [|exact W3]. cbn. intros w Hw. rewrite Forall_forall in *. intros c Hc. apply filter_In in Hc. apply Hw. tauto.
    - destruct (existsb in_progress cs) eqn:Ep.
      + unfold extract_calls. rewrite Ep. eexists _, _. split; [reflexivity|]. cbn [calls_of flat_map app]. rewrite app_nil_r. split.
        * eapply Forall_impl; [|exact H1]. intros c Hc. apply cand_ok_other; auto; discriminate.
        * exists ws. split; [now apply genuine_all|auto].
      + assert (Hco : clock_ok clk os) by (now apply clock_prefix in Hck).
        assert (Hd : forall c, In c cs -> exists e t, status c = DoneAt e t /\ genuine os (mkCall (apc_id c) (from_snap c) t) (from_clk c, e)).
        { intros c Hc. rewrite Forall_forall in H1. destruct (H1 c Hc) as (_ & _ & _ & A). destruct (status c) as [ev|e t] eqn:Es; [|eauto]. exfalso.
          assert (X : existsb in_progress cs = true); [|congruence]. apply existsb_exists. exists c. split; auto. unfold in_progress. now rewrite Es. }
        assert (Hg : Forall (cand_good mk_apcs) cs).
        { apply Forall_forall. intros c Hc. destruct (Hd c Hc) as (e & t & Es & G). unfold cand_good, in_progress, cand_end. rewrite Es. split; auto. rewrite Forall_forall in H1. destruct (H1 c Hc) as (A & _).
          split; [unfold ExecSpec.mk_apcs; now rewrite map_length|]. apply genuine_clk in G; auto. apply G. }
        destruct (extract_ok mk_apcs cs Hg) as (l & ks & -> & A1 & A2 & A3 & _). eexists _, _. split; [reflexivity|]. cbn [calls_of flat_map]. rewrite app_nil_r. split; [constructor|].
        exists (ws ++ map (range_at cs) ks).
        assert (K : forall k, In k ks -> exists c, nth_error cs k = Some c /\ In c cs).
        { intros k Hk. clear - A2 Hk. induction A2 as [|i c ks l (c0 & t & X & _) B IH]; [destruct Hk|]. destruct Hk as [->|Hk]; auto. exists c0. split; auto. now apply nth_error_In in X. }
        split; [|split].
        * apply Forall2_app; [now apply genuine_all|]. clear - A2 Hd. induction A2 as [|i k ks l (c & t & X & Y & Z) B IH]; cbn [map]; constructor; auto. subst k.
          destruct (Hd c (nth_error_In _ _ X)) as (e & t' & Es & G). rewrite Es in Y. injection Y as Y ->. unfold range_at, cand_range. rewrite X, <- Y. now apply genuine_ext.
        * apply ordpairs_app; auto.
          -- clear - A1 A3. induction A1 as [|k ks A1 IH B]; cbn [map]; constructor.
             ++ apply Forall_forall. intros r Hr. apply in_map_iff in Hr. destruct Hr as (k' & <- & Hk'). rewrite Forall_forall in B. specialize (B k' Hk'). apply A3; [now left|now right|lia].
             ++ apply IH. intros i j Hi Hj. apply A3; now right.
          -- intros a b Ha Hb. apply in_map_iff in Hb. destruct Hb as (k & <- & Hk). destruct (K k Hk) as (c & X & Hc). left. unfold range_at, cand_range. rewrite X. cbn [fst].
             rewrite Forall_forall in W3. specialize (W3 a Ha). rewrite Forall_forall in W3. auto.
        * apply Forall_forall. constructor.
  Qed.
  Lemma crun_ok os' : forall os cs calls, clock_ok clk (os ++ os') -> ids_ok mk_apcs os' -> hinv os cs calls ->
    exists cs' outs, crun reg pc clk value_limb mk_apcs os' cs = Some (cs', outs) /\ hinv (os ++ os') cs' (calls ++ calls_of outs).
  Proof.
    induction os' as [|o os' IH]; intros os cs calls Hc Hi H; cbn [crun].
    - eexists _, _. split; [reflexivity|]. cbn. now rewrite !app_nil_r.
    - assert (Hc1 : clock_ok clk (os ++ [o])). { apply (clock_prefix (os ++ [o]) os'). now rewrite <- app_assoc. }
      inversion Hi as [|? ? Hi1 Hi2]; subst. destruct (cstep_ok os o cs calls Hc1 (Forall_cons _ Hi1 (Forall_nil _)) H) as (cs1 & out & -> & H').
      destruct (IH (os ++ [o]) cs1 (calls ++ calls_of [out])) as (cs2 & outs & -> & H''); auto; [now rewrite <- app_assoc|].
      eexists _, _. split; [reflexivity|]. rewrite <- app_assoc in H''. cbn [app] in H''. rewrite <- app_assoc in H''.
      replace (calls_of (out :: outs)) with (calls_of [out] ++ calls_of outs); auto. unfold calls_of. cbn [flat_map]. now rewrite app_nil_r.
  Qed.
  Lemma hinv_init : hinv [] [] [].
  Proof. split; [constructor|]. exists []. split; [constructor|]. split; constructor. Qed.
  Lemma holds_prefix h more oc : first_evaluable_step oc < length h -> holds (h ++ more) oc -> holds h oc.
  Proof. intros L. apply holds_ext. now apply (first_step_lt value_limb). Qed.
  (** An attempt in progress is not lost while its constraints hold and no abort comes. *)
  Lemma check_one_keeps id (c : cand) ev s t h : status c = InProgress ev -> apc_id c = id -> id < length specs -> ev_inv reg pc (constraints_of id) h ev ->
    (forall oc, In oc (constraints_of id) -> first_evaluable_step oc = length h -> holds (h ++ [s]) oc) ->
    exists ev', check_one reg pc clk value_limb mk_apcs s t c =
        Some [mkCand (total_check_count c) id (from_clk c) (from_snap c) (if Nat.eqb (total_check_count c) (length h + 1) then DoneAt (clk s) t else InProgress ev')] /\
      ev_inv reg pc (constraints_of id) (h ++ [s]) ev'.
  Proof.
    intros Es Ei Hlt Hev Hh. unfold check_one. rewrite Es, Ei. destruct (nth_apcs_some _ Hlt) as [a Ea]. rewrite Ea. apply nth_apcs in Ea. rewrite Ea. cbn [apc_constraints].
    pose proof (try_next_ok reg pc value_limb (constraints_of id) _ _ s Hev) as T. destruct (try_next reg pc value_limb s (from_constraints (constraints_of id)) ev) as [ev'| |].
    - destruct T as [T1 _]. exists ev'. pose proof (inv_idx _ _ _ _ _ T1) as Ti. rewrite app_length in Ti. cbn [length] in Ti. now rewrite Ti.
    - exfalso. destruct T as (oc & A & B & C). apply C. auto.
    - destruct T.
  Qed.
  Lemma check_conditions_in s t (c : cand) l cs : check_one reg pc clk value_limb mk_apcs s t c = Some l -> forall cs', check_conditions reg pc clk value_limb mk_apcs s t cs = Some cs' -> In c cs -> incl l cs'.
  Proof.
    intros Hl. induction cs as [|d cs IH]; intros cs' H Hc; [destruct Hc|]. cbn [check_conditions] in H. destruct (check_one reg pc clk value_limb mk_apcs s t d) as [l1|] eqn:E1; [|discriminate].
    destruct (check_conditions reg pc clk value_limb mk_apcs s t cs) as [l2|]; [|discriminate]. injection H as <-. intros x Hx. apply in_or_app. destruct Hc as [->|Hc]; [left; congruence|right]. eapply IH; eauto.
  Qed.
  Lemma attempt_kept id f k n (middle : list cop) : id < length specs -> forall h ev cs cs' outs,
    crun reg pc clk value_limb mk_apcs middle cs = Some (cs', outs) -> ~ In Abort middle ->
    In (mkCand n id k f (InProgress ev)) cs -> ev_inv reg pc (constraints_of id) h ev -> length h + length (checks_of middle) < n ->
    (forall oc, In oc (constraints_of id) -> length h <= first_evaluable_step oc < length h + length (checks_of middle) -> holds (h ++ checks_of middle) oc) ->
    exists ev', In (mkCand n id k f (InProgress ev')) cs' /\ ev_inv reg pc (constraints_of id) (h ++ checks_of middle) ev'.
  Proof.
    intros Hlt. induction middle as [|o m IH]; intros h ev cs cs' outs Hr Hna Hin Hev Hlen Hh; cbn [crun] in Hr.
    - injection Hr as <- <-. exists ev. split; auto. cbn. now rewrite app_nil_r.
    - destruct (cstep reg pc clk value_limb mk_apcs o cs) as [[cs1 out]|] eqn:E1; [|discriminate]. destruct (crun reg pc clk value_limb mk_apcs m cs1) as [[cs2 outs2]|] eqn:E2; [|discriminate]. injection Hr as <- <-.
      destruct o as [s i g|s t| |]; cbn [cstep] in E1.
      + destruct (try_insert reg pc clk value_limb mk_apcs s i g cs) as [[cs3 ok]|] eqn:E3; [|discriminate]. injection E1 as <- <-. eapply IH; eauto; [intros X; apply Hna; now right|].
        unfold try_insert in E3. destruct (nth_error mk_apcs i); [|discriminate]. destruct (try_next reg pc value_limb s (apc_constraints a) ev_new); [|congruence|discriminate]. injection E3 as <- <-. apply in_or_app. now left.
      + destruct (check_conditions reg pc clk value_limb mk_apcs s t cs) as [cs3|] eqn:E3; [|discriminate]. injection E1 as <- <-. cbn [checks_of flat_map app] in Hlen, Hh |- *. fold (checks_of m) in Hlen, Hh |- *. cbn [length] in Hlen, Hh.
        destruct (check_one_keeps id (mkCand n id k f (InProgress ev)) ev s t h eq_refl eq_refl Hlt Hev) as (ev' & C1 & C2).
        { intros oc Ho L. specialize (Hh oc Ho). replace (h ++ s :: checks_of m) with ((h ++ [s]) ++ checks_of m) in Hh by (now rewrite <- app_assoc).
          eapply holds_prefix; [rewrite app_length; cbn [length]; lia|]. apply Hh. lia. }
        cbn [total_check_count from_clk from_snap] in C1. destruct (Nat.eqb_spec n (length h + 1)) as [E0|_]; [lia|].
        pose proof (check_conditions_in s t _ _ cs C1 _ E3 Hin) as Hi. specialize (Hi _ (or_introl eq_refl)).
        destruct (IH (h ++ [s]) ev' cs3 cs2 outs2 E2) as (ev2 & R1 & R2); auto.
        * intros X. apply Hna. now right.
        * rewrite app_length. cbn. lia.
        * intros oc Ho L. rewrite <- app_assoc. cbn [app]. apply Hh; auto. rewrite app_length in L. cbn [length] in L. lia.
        * exists ev2. split; auto. now rewrite <- app_assoc in R2.
      + exfalso. apply Hna. now left.
      + unfold extract_calls in E1. assert (X : existsb in_progress cs = true) by (apply existsb_exists; eexists; split; [exact Hin|reflexivity]). rewrite X in E1. injection E1 as <- <-.
        eapply IH; eauto. intros Y. apply Hna. now right.
  Qed.
  Lemma crun_app (o1 o2 : list cop) : forall cs, crun reg pc clk value_limb mk_apcs (o1 ++ o2) cs =
    match crun reg pc clk value_limb mk_apcs o1 cs with
    | None => None
    | Some (cs', outs) => match crun reg pc clk value_limb mk_apcs o2 cs' with None => None | Some (cs'', outs') => Some (cs'', outs ++ outs') end
    end.
  Proof.
    induction o1 as [|o o1 IH]; intros cs; cbn [app crun].
    - destruct (crun reg pc clk value_limb mk_apcs o2 cs) as [[? ?]|]; reflexivity.
    - destruct (cstep reg pc clk value_limb mk_apcs o cs) as [[cs1 out]|]; auto. rewrite IH. destruct (crun reg pc clk value_limb mk_apcs o1 cs1) as [[cs2 outs]|]; auto.
      destruct (crun reg pc clk value_limb mk_apcs o2 cs2) as [[cs3 outs']|]; auto.
  Qed.
  Lemma attempt_completes s0 id f (middle : list cop) sn t cs cs' outs : id < length specs ->
    crun reg pc clk value_limb mk_apcs (Insert s0 id f :: middle ++ [Check sn t]) cs = Some (cs', outs) -> ~ In Abort middle ->
    length (checks_of (middle ++ [Check sn t])) = cycles_of id ->
    (forall oc, In oc (constraints_of id) -> due (1 + cycles_of id) oc -> holds (s0 :: checks_of (middle ++ [Check sn t])) oc) ->
    In (mkCand (cycles_of id + 1) id (clk s0) f (DoneAt (clk sn) t)) cs'.
  Proof.
    intros Hlt Hr Hna Hlen Hh. cbn [crun cstep] in Hr. unfold try_insert in Hr. destruct (nth_apcs_some _ Hlt) as [a Ea]. rewrite Ea in Hr. apply nth_apcs in Ea. rewrite Ea in Hr. cbn [apc_constraints cycle_count] in Hr.
    assert (Ck : checks_of (middle ++ [Check sn t]) = checks_of middle ++ [sn]) by (unfold checks_of; rewrite flat_map_app; reflexivity).
    rewrite Ck, app_length in Hlen. cbn [length] in Hlen.
    assert (Hh' : forall oc, In oc (constraints_of id) -> first_evaluable_step oc < 1 + cycles_of id -> holds (s0 :: checks_of middle ++ [sn]) oc).
    { intros oc Ho L. rewrite <- Ck. apply Hh; auto. now apply (first_step_lt value_limb). }
    pose proof (try_next_ok reg pc value_limb (constraints_of id) [] _ s0 (ev_inv_new reg pc _)) as T.
    destruct (try_next reg pc value_limb s0 (from_constraints (constraints_of id)) ev_new) as [ev| |].
    - destruct T as [T1 _]. cbn [app] in T1. rewrite crun_app in Hr.
      destruct (crun reg pc clk value_limb mk_apcs middle (cs ++ [mkCand (cycles_of id + 1) id (clk s0) f (InProgress ev)])) as [[cs1 o1]|] eqn:E1; [|discriminate].
      destruct (attempt_kept id f (clk s0) (cycles_of id + 1) middle Hlt [s0] ev _ _ _ E1 Hna) as (ev1 & K1 & K2); auto.
      + apply in_or_app. right. now left.
      + cbn [length]. lia.
      + intros oc Ho L. cbn [length app] in L |- *. apply (holds_prefix (s0 :: checks_of middle) [sn]); [cbn [length]; lia|]. apply Hh'; auto. lia.
      + cbn [app] in K2. cbn [crun cstep] in Hr. destruct (check_conditions reg pc clk value_limb mk_apcs sn t cs1) as [cs2|] eqn:E2; [|discriminate]. injection Hr as <- <-.
        destruct (check_one_keeps id (mkCand (cycles_of id + 1) id (clk s0) f (InProgress ev1)) ev1 sn t (s0 :: checks_of middle) eq_refl eq_refl Hlt K2) as (ev' & C1 & C2).
        * intros oc Ho L. cbn [length] in L. apply Hh'; auto. lia.
        * cbn [total_check_count from_clk from_snap length] in C1. replace (Datatypes.S (length (checks_of middle)) + 1) with (cycles_of id + 1) in C1 by lia. rewrite Nat.eqb_refl in C1.
          apply (check_conditions_in sn t _ _ cs1 C1 _ E2 K1). now left.
    - exfalso. destruct T as (oc & A & B & C). apply C. cbn [app]. cbn [length] in B. apply (holds_prefix [s0] (checks_of middle ++ [sn])); [cbn [length]; lia|]. apply Hh'; auto. lia.
    - destruct T.
  Qed.
End Hist.
