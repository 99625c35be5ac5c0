(** Derived columns and lookups on the GPU. *)
From Coq Require Import Arith ZArith NArith Bool List Lia.
From Verif Require Import Field ExprModel SystemModel SymModel SymSpec TraceModel TraceSpec TraceFacts TraceMain CudaModel CudaSpec CudaSched CudaFacts.
Import ListNotations.

Lemma update_update {A} (l : list A) i x y : update (update l i x) i y = update l i y.
Proof. revert i. induction l as [|z l IH]; intros [|i]; cbn; auto. now rewrite IH. Qed.
Lemma update_at {A} (l : list A) i x y : nth_error l i = Some x -> nth_error (update l i y) i = Some y.
Proof. intros H. rewrite nth_update, Nat.eqb_refl. destruct (Nat.ltb_spec i (length l)) as [|G]; auto. apply nth_error_None in G. congruence. Qed.

Section Compile.
  Context {p : positive}.
  Add Ring FpCudaC : (F_ring_theory (p:=p)).
  Local Notation row := (list (F p)).
  Variables (W H : nat) (cols : list N).
  Hypothesis HW : length cols = W.
  Hypothesis Hsz : (nn W * nn H <= 2 ^ 32)%N.
  Hypothesis HH : 0 < H.
  Hypothesis Hnd : NoDup cols.

  Lemma span_ok (bc c : list N) : (nn (length bc + length c) < 2 ^ 32)%N -> span_of bc (bc ++ c) = mkSpan (nn (length bc)) (nn (length c)).
  Proof.
    intros Hb. unfold span_of, blen. rewrite app_length. rewrite !(u32_id (nn _)) by (unfold nn in *; lia). f_equal.
    unfold u32. replace (nn (length bc + length c) + 2 ^ 32 - nn (length bc))%N with (nn (length c) + 1 * 2 ^ 32)%N by (unfold nn; lia).
    rewrite N.mod_add by discriminate. apply N.mod_small. unfold nn in *. lia.
  Qed.

  (** ** Derived columns *)
  Definition mcode (m : amethod p) : list N :=
    match m with AConst c => [1%N; val c] | AQuot a b => code cols (nn H) b ++ [6%N] ++ code cols (nn H) a ++ [4%N] end.
  Lemma mcode_length m : length (mcode m) = method_words m.
  Proof. destruct m as [c|a b]; cbn [mcode method_words]; auto. rewrite !app_length, !code_length. cbn [length]. lia. Qed.
  Definition spec_ok (bc : list N) (d : var * amethod p) (s : dspec) : Prop :=
    (exists i, index_of (vid (fst d)) cols = Some i /\ ds_base s = (nn i * nn H)%N) /\
    stored bc (sp_off (ds_span s)) (mcode (snd d)) /\ sp_len (ds_span s) = nn (method_words (snd d)).
  Lemma compile_derived_ok ds : forall bc, (nn (length bc + list_sum (map (fun d => method_words (snd d)) ds)) < 2 ^ 32)%N ->
    (forall d, In d ds -> In (vid (fst d)) cols /\ forall v, method_reads (snd d) v -> In (vid v) cols) ->
    exists specs rest, compile_derived cols (nn H) ds bc = Some (specs, bc ++ rest) /\ forall post, Forall2 (spec_ok (bc ++ rest ++ post)) ds specs.
  Proof.
    induction ds as [|[v m] ds IH]; intros bc Hb Hc; cbn [compile_derived map list_sum fold_right fst snd] in *.
    - exists [], []. rewrite app_nil_r. split; auto.
    - destruct (Hc (v, m) (or_introl eq_refl)) as [Hv Hr]. cbn [fst snd] in Hv, Hr. destruct (index_of (vid v) cols) as [i|] eqn:Ei; [|exfalso; now apply index_none in Ei].
      assert (Hi : i < W) by (rewrite <- HW; eapply index_lt; eauto).
      assert (E : match m with AConst c => Some (bc ++ [1%N; val c]) | AQuot e1 e2 => let? bc := emit_expr cols (nn H) e2 bc in let? bc := emit_expr cols (nn H) e1 (bc ++ [6%N]) in Some (bc ++ [4%N]) end = Some (bc ++ mcode m)).
      { destruct m as [c|a b]; cbn [mcode]; auto. rewrite emit_code by (intros u Hu; apply Hr; cbn; auto). rewrite emit_code by (intros u Hu; apply Hr; cbn; auto). now rewrite !app_assoc. }
      rewrite E. fold (list_sum (map (fun d : var * amethod p => method_words (snd d)) ds)) in Hb.
      destruct (IH (bc ++ mcode m)) as (specs & rest & E2 & F2).
      { rewrite app_length, mcode_length. unfold nn in *. lia. }
      { intros d Hd. apply Hc. now right. }
      rewrite E2. exists (mkSpec (u64 (nn i * nn H)) (span_of bc (bc ++ mcode m)) :: specs), (mcode m ++ rest). split; [now rewrite app_assoc|].
      intros post. constructor.
      + split; [exists i; split; auto; cbn [ds_base]; apply u64_id; unfold nn in *; change (2 ^ 32)%N with 4294967296%N in *; change (2 ^ 64)%N with 18446744073709551616%N; nia|].
        cbn [ds_span snd]. rewrite span_ok by (rewrite mcode_length; unfold nn in *; lia). cbn [sp_off sp_len]. rewrite mcode_length. split; auto. rewrite <- app_assoc. apply stored_at.
      + specialize (F2 post). rewrite <- app_assoc in F2. now rewrite <- app_assoc.
  Qed.
  Lemma method_runs (X : list row) (x : row) r m v bc s k M' ev n : dims W H X -> nth_error X r = Some x ->
    derived_value cols x m = Some v -> (forall u, method_reads m u -> In (vid u) cols) -> stored bc (sp_off s) (mcode m) -> sp_len s = nn (method_words m) -> method_need m <= 16 ->
    runs (k v) (column_major W X) M' ev n -> exists n', runs (eval_arg s bc (nn r) k) (column_major W X) M' ev n'.
  Proof.
    intros HX Hx Hv Hr Hs Hl Hn Hk. assert (Lx : length x = W) by (destruct HX as [_ HX]; apply HX; eapply nth_error_In; eauto). unfold eval_arg.
    destruct m as [c|a b]; cbn [mcode method_words method_need derived_value] in *.
    - injection Hv as <-. apply stored_two in Hs as [S1 S2]. rewrite Hl. change (N.to_nat (nn 2)) with 2%nat. cbn [eval_loop]. change (0 <? nn 2)%N with true. change (0 + 2 <? nn 2)%N with false. cbn match. rewrite !N.add_0_r, S1, S2. unfold stack_push. cbn [length]. change (0 <? stack_capacity) with true. cbn match. rewrite of_N_val. eauto.
    - destruct (eval_in cols x b) as [d|] eqn:Eb; [|discriminate].
      destruct (eval_in_some cols x a) as [num Ea]; [congruence|intros u Hu; apply Hr; cbn; auto|].
      assert (Ev : v = ((if is_zero d then 0 else finv d) * num)%F).
      { destruct (is_zero d) eqn:Z; [injection Hv as <-|rewrite Ea in Hv; congruence]. ring. }
      clear Hv. subst v. apply stored_app in Hs as [S1 Hs]. apply stored_app in Hs as [S2 Hs]. apply stored_app in Hs as [S3 S4]. rewrite !code_length in *. cbn [length] in *. apply stored_one in S2. apply stored_one in S4.
      assert (Lx' : length cols = W) by auto.
      eapply (eval_code W H r X x cols HX Hx Lx' Hsz HH b d bc (sp_off s) (sp_len s) 0 [] k M' ev); auto; try (cbn [length]; lia).
      + now rewrite N.add_0_r.
      + rewrite Hl. unfold nn. lia.
      + intros fuel Hf. destruct (eval_step fuel (sp_len s) (0 + nn (words b))) as [f ->]; [rewrite Hl; unfold nn; lia|auto|]. cbn [eval_loop]. destruct (N.ltb_spec (0 + nn (words b)) (sp_len s)); [|rewrite Hl in *; unfold nn in *; lia].
        rewrite N.add_0_l. rewrite S2. unfold stack_push at 1. cbn [length]. cbv [stack_capacity]. cbn [Nat.ltb Nat.leb].
        eapply (eval_code W H r X x cols HX Hx Lx' Hsz HH a num bc (sp_off s) (sp_len s) (nn (words b) + 1) [_] k M' ev); auto; try (cbn [length]; lia).
        * intros j w Hj. specialize (S3 j w Hj). replace (sp_off s + (nn (words b) + 1) + nn j)%N with (sp_off s + nn (words b) + nn 1 + nn j)%N by (unfold nn; lia). auto.
        * rewrite Hl. unfold nn. lia.
        * intros fuel' Hf'. destruct (eval_step fuel' (sp_len s) (nn (words b) + 1 + nn (words a))) as [f' ->]; [rewrite Hl; unfold nn; lia|auto|]. cbn [eval_loop]. destruct (N.ltb_spec (nn (words b) + 1 + nn (words a)) (sp_len s)); [|rewrite Hl in *; unfold nn in *; lia].
          replace (sp_off s + (nn (words b) + 1 + nn (words a)))%N with (sp_off s + nn (words b) + nn 1 + nn (words a))%N by (unfold nn; lia). rewrite S4. unfold stack_push. cbn [length]. cbn [Nat.ltb Nat.leb].
          assert (Hend : forall f, eval_loop f bc (sp_off s) (sp_len s) (nn (words b) + 1 + nn (words a) + 1) [((if is_zero d then 0 else finv d) * num)%F] (nn r) k = k ((if is_zero d then 0 else finv d) * num)%F).
          { intros f0. destruct f0; cbn [eval_loop]; (destruct (N.ltb_spec (nn (words b) + 1 + nn (words a) + 1) (sp_len s)) as [B|B]; [rewrite Hl in B; unfold nn in B; lia|auto]). }
          rewrite Hend. eauto.
        * rewrite Hl in *. unfold nn in *. lia.
      + rewrite Hl. unfold nn. lia.
  Qed.
  Lemma method_within r (m : amethod p) (S : N -> Prop) bc s (k : F p -> prog p) : r < H -> (forall a, cell W H r a -> S a) -> (forall u, method_reads m u -> In (vid u) cols) ->
    stored bc (sp_off s) (mcode m) -> sp_len s = nn (method_words m) -> (forall v, within S (k v)) -> within S (eval_arg s bc (nn r) k).
  Proof.
    intros Hr HS Hm Hs Hl Hk. unfold eval_arg. destruct m as [c|a b]; cbn [mcode method_words] in *.
    - apply stored_two in Hs as [S1 S2]. rewrite Hl. change (N.to_nat (nn 2)) with 2%nat. cbn [eval_loop]. change (0 <? nn 2)%N with true. change (0 + 2 <? nn 2)%N with false. cbn match. rewrite !N.add_0_r, S1, S2. unfold stack_push. cbn [length]. change (0 <? stack_capacity) with true. cbn match. auto.
    - apply stored_app in Hs as [S1 Hs]. apply stored_app in Hs as [S2 Hs]. apply stored_app in Hs as [S3 S4]. rewrite !code_length in *. cbn [length] in *. apply stored_one in S2. apply stored_one in S4.
      eapply (eval_within W H r cols HW Hsz HH b S HS); [intros u Hu; apply Hm; cbn; auto| | | |].
      + now rewrite N.add_0_r.
      + rewrite Hl. unfold nn. lia.
      + intros v fuel Hf. destruct (eval_step fuel (sp_len s) (0 + nn (words b))) as [f ->]; [rewrite Hl; unfold nn; lia|auto|]. cbn [eval_loop]. destruct (N.ltb_spec (0 + nn (words b)) (sp_len s)); [|rewrite Hl in *; unfold nn in *; lia].
        rewrite N.add_0_l. rewrite S2. unfold stack_push at 1. cbn [length]. cbv [stack_capacity]. cbn [Nat.ltb Nat.leb].
        eapply (eval_within W H r cols HW Hsz HH a S HS); [intros u Hu; apply Hm; cbn; auto| | | |].
        * intros j w Hj. specialize (S3 j w Hj). replace (sp_off s + (nn (words b) + 1) + nn j)%N with (sp_off s + nn (words b) + nn 1 + nn j)%N by (unfold nn; lia). auto.
        * rewrite Hl. unfold nn. lia.
        * intros v' fuel' Hf'. destruct (eval_step fuel' (sp_len s) (nn (words b) + 1 + nn (words a))) as [f' ->]; [rewrite Hl; unfold nn; lia|auto|]. cbn [eval_loop]. destruct (N.ltb_spec (nn (words b) + 1 + nn (words a)) (sp_len s)); [|rewrite Hl in *; unfold nn in *; lia].
          replace (sp_off s + (nn (words b) + 1 + nn (words a)))%N with (sp_off s + nn (words b) + nn 1 + nn (words a))%N by (unfold nn; lia). rewrite S4. unfold stack_push. cbn [length]. cbn [Nat.ltb Nat.leb].
          cbv [stack_capacity]. match goal with |- within S (eval_loop ?f ?b0 ?o ?l ?i [?v0] ?r0 ?k0) => assert (Hend : eval_loop f b0 o l i [v0] r0 k0 = k0 v0) end.
          { destruct f'; cbn [eval_loop]; (match goal with |- context [(?i <? ?l)%N] => destruct (N.ltb_spec i l) as [B|B]; [rewrite Hl in B; unfold nn in B; lia|auto] end). }
          rewrite Hend. auto.
        * rewrite Hl in *. unfold nn in *. lia.
      + rewrite Hl. unfold nn. lia.
  Qed.
  Section Derived.
    Variables (calls r : nat) (bc : list N).
    Hypothesis Hcalls : (nn calls < 2 ^ 31)%N.
    Hypothesis Hr : r < H.
    Lemma base_small i : i < W -> u64 (nn i * nn H + nn r) = (nn i * nn H + nn r)%N.
    Proof. intros Hi. apply u64_id. unfold nn in *. change (2 ^ 32)%N with 4294967296%N in *. change (2 ^ 64)%N with 18446744073709551616%N. nia. Qed.
    Lemma derived_within ds specs (S : N -> Prop) (k : prog p) : Forall2 (spec_ok bc) ds specs -> (forall d, In d ds -> forall v, method_reads (snd d) v -> In (vid v) cols) ->
      (forall a, cell W H r a -> S a) -> within S k -> within S (derived_row specs bc (i32 (nn calls)) (nn r) k).
    Proof.
      intros HF Hd HS. induction HF as [|d s ds specs ((i & Hi & Hb) & Hs & Hl) HF IH]; intros Hk; cbn [derived_row]; auto.
      assert (Li : i < W) by (rewrite <- HW; eapply index_lt; eauto).
      assert (IHk : within S (derived_row specs bc (i32 (nn calls)) (nn r) k)) by (apply IH; auto; intros d' Hd'; apply Hd; now right).
      rewrite Hb, base_small by auto. rewrite size_i32 by auto. destruct (nn r <? nn calls)%N.
      - eapply method_within; eauto; [apply Hd; now left|]. intros v. split; auto. apply HS. exists i. auto.
      - split; auto. apply HS. exists i. auto.
    Qed.
    Lemma derived_runs ds specs : Forall2 (spec_ok bc) ds specs -> (forall d, In d ds -> (forall v, method_reads (snd d) v -> In (vid v) cols) /\ method_need (snd d) <= 16) -> r < calls ->
      forall X x y k M' e n, dims W H X -> nth_error X r = Some x -> compute_derived cols ds x = Some y ->
      runs k (column_major W (update X r y)) M' e n -> exists n', runs (derived_row specs bc (i32 (nn calls)) (nn r) k) (column_major W X) M' e n'.
    Proof.
      intros HF Hd Hrc. induction HF as [|d s ds specs ((i & Hi & Hb) & Hs & Hl) HF IH]; intros X x y k M' e n HX Hx Hc Hk; cbn [derived_row].
      - cbn in Hc. injection Hc as <-. rewrite update_same in Hk by auto. eauto.
      - destruct d as [v m]. cbn [compute_derived fst snd] in *. rewrite Hi in Hc. destruct (derived_value cols x m) as [val|] eqn:Ev; [|discriminate]. destruct (set_at i val x) as [x1|] eqn:Es; [|discriminate].
        assert (Li : i < W) by (rewrite <- HW; eapply index_lt; eauto).
        assert (Lx : length x = W) by (destruct HX as [_ HX]; apply HX; eapply nth_error_In; eauto).
        assert (L1 : length x1 = W) by (apply set_at_inv in Es as (L & _); lia).
        rewrite Hb, base_small by auto. rewrite size_i32 by auto. destruct (N.ltb_spec (nn r) (nn calls)); [|unfold nn in *; lia].
        destruct (IH ltac:(intros d' Hd'; apply Hd; now right) (update X r x1) x1 y k M' e n) as (n1 & H1).
        { apply dims_update; auto. } { eapply update_at; eauto. } { auto. } { now rewrite update_update. }
        destruct (Hd (v, m) (or_introl eq_refl)) as [Hd1 Hd2]. eapply (method_runs X x r m val bc (ds_span s)); eauto. cbn beta. eapply runs_write; [|exact H1].
        apply cm_set with (x := x); auto.
    Qed.
    (** Rows after the last call stay zero. *)
    Lemma derived_zero ds specs : Forall2 (spec_ok bc) ds specs -> calls <= r ->
      forall (X : list row) k M' e n, dims W H X -> nth_error X r = Some (repeat 0%F W) ->
      runs k (column_major W X) M' e n -> exists n', runs (derived_row specs bc (i32 (nn calls)) (nn r) k) (column_major W X) M' e n'.
    Proof.
      intros HF Hrc. induction HF as [|d s ds specs ((i & Hi & Hb) & Hs & Hl) HF IH]; intros X k M' e n HX Hx Hk; cbn [derived_row]; [eauto|].
      assert (Li : i < W) by (rewrite <- HW; eapply index_lt; eauto).
      rewrite Hb, base_small by auto. rewrite size_i32 by auto. destruct (N.ltb_spec (nn r) (nn calls)); [unfold nn in *; lia|].
      destruct (IH X k M' e n HX Hx Hk) as (n1 & H1). exists (S n1). eapply runs_write; [|exact H1].
      destruct (set_at_ok i 0%F (repeat (0%F : F p) W)) as [x' E]; [now rewrite repeat_length|]. assert (x' = repeat 0%F W) as ->.
      { apply set_at_inv in E as (L1 & _ & L3). apply nth_error_ext_len; auto. intros j a b Ha Hb'. rewrite L3 in Ha. apply nth_error_In in Hb'. apply repeat_spec in Hb'. destruct (j =? i); [congruence|]. apply nth_error_In in Ha. apply repeat_spec in Ha. congruence. }
      rewrite (cm_set W H X i r _ 0%F _ HX Hx E). now rewrite update_same.
    Qed.
  End Derived.

  (** ** Lookups *)
  Definition span_for (bc : list N) (s : span) (e : aexpr p) : Prop := stored bc (sp_off s) (code cols (nn H) e) /\ sp_len s = nn (words e).
  Definition known (e : aexpr p) : Prop := forall v, occurs v e -> In (vid v) cols.
  Lemma compile_spans_ok es : forall bc, (nn (length bc + list_sum (map words es)) < 2 ^ 32)%N -> (forall e, In e es -> known e) ->
    exists ss rest, compile_spans cols (nn H) es bc = Some (ss, bc ++ rest) /\ length rest = list_sum (map words es) /\ forall post, Forall2 (span_for (bc ++ rest ++ post)) ss es.
  Proof.
    induction es as [|e es IH]; intros bc Hb Hc; cbn [compile_spans map].
    - exists [], []. rewrite app_nil_r. repeat split; auto.
    - cbn [map list_sum fold_right] in Hb. fold (list_sum (map words es)) in Hb. unfold emit_expr_span. rewrite emit_code by (apply Hc; now left).
      destruct (IH (bc ++ code cols (nn H) e)) as (ss & rest & E2 & L2 & F2).
      { rewrite app_length, code_length. unfold nn in *. lia. } { intros e' He'. apply Hc. now right. }
      rewrite E2. exists (span_of bc (bc ++ code cols (nn H) e) :: ss), (code cols (nn H) e ++ rest). split; [now rewrite app_assoc|]. split; [rewrite app_length, code_length, L2; reflexivity|]. intros post. constructor.
      + rewrite span_ok by (rewrite code_length; unfold nn in *; lia). split; cbn [sp_off sp_len]; [|now rewrite code_length]. rewrite <- app_assoc. apply stored_at.
      + specialize (F2 post). rewrite <- app_assoc in F2. now rewrite <- app_assoc.
  Qed.
  Definition inter_ok (bc : list N) (spans : list span) (b : sbus p) (i : interaction) : Prop :=
    in_bus i = u32 (sb_id b) /\ (in_off i + nn (1 + length (sb_args b)) < 2 ^ 32)%N /\
    forall j e, nth_error (sb_mult b :: sb_args b) j = Some e -> exists s, load spans (in_off i + nn j) = Some s /\ span_for bc s e.
  Lemma compile_bus_ok bs : forall spans bc, (nn (length bc + list_sum (map bus_words bs)) < 2 ^ 32)%N -> (nn (length spans + list_sum (map (fun b : sbus p => (1 + length (sb_args b))%nat) bs)) < 2 ^ 32)%N ->
    (forall b e, In b bs -> In e (sb_mult b :: sb_args b) -> known e) ->
    exists is ss rest, compile_bus cols (nn H) bs spans bc = Some (is, spans ++ ss, bc ++ rest) /\
      (forall sp post, Forall2 (inter_ok (bc ++ rest ++ post) (spans ++ ss ++ sp)) bs is) /\
      (forall post, Forall (fun s => exists e, span_for (bc ++ rest ++ post) s e /\ known e) ss).
  Proof.
    induction bs as [|b bs IH]; intros spans bc Hb Hs Hc; cbn [compile_bus].
    - exists [], [], []. rewrite !app_nil_r. split; auto.
    - cbn [map list_sum fold_right] in Hb, Hs. fold (list_sum (map bus_words bs)) in Hb. fold (list_sum (map (fun b : sbus p => (1 + length (sb_args b))%nat) bs)) in Hs.
      destruct (compile_spans_ok (sb_mult b :: sb_args b) bc) as (ss & rest & E1 & L1 & F1); [unfold bus_words in Hb; unfold nn in *; lia|intros e He; eapply Hc; eauto; now left|]. rewrite E1.
      assert (L2 : length ss = 1 + length (sb_args b)). { specialize (F1 []). apply forall2_nth in F1 as [L _]. rewrite L. reflexivity. }
      destruct (IH (spans ++ ss) (bc ++ rest)) as (is & ss2 & rest2 & E3 & F3 & F4).
      { rewrite app_length, L1. unfold bus_words at 1 in Hb. unfold nn in *. lia. }
      { rewrite app_length, L2. unfold nn in *. lia. }
      { intros b' e Hb' He. eapply Hc; eauto. now right. }
      rewrite E3. exists (mkInter (u32 (sb_id b)) (blen spans) :: is), (ss ++ ss2), (rest ++ rest2). split; [now rewrite !app_assoc|]. split.
      + intros sp post. specialize (F3 sp post). rewrite <- !app_assoc in F3. rewrite <- !app_assoc. constructor; auto.
        assert (Eb : blen spans = nn (length spans)) by (unfold blen; apply u32_id; unfold nn in *; lia).
        unfold inter_ok. cbn [in_bus in_off]. split; auto. rewrite Eb. split; [unfold nn in *; lia|]. intros j e He. specialize (F1 (rest2 ++ post)). apply forall2_nth in F1 as [LF F1].
        destruct (nth_error ss j) as [s|] eqn:Ej; [|apply nth_error_None in Ej; assert (X : nth_error (sb_mult b :: sb_args b) j <> None) by congruence; apply nth_error_Some in X; lia].
        exists s. split; [|apply (F1 j s e Ej He)]. unfold load, nn. rewrite <- Nat2N.inj_add, Nat2N.id, nth_error_app2 by lia. replace (length spans + j - length spans) with j by lia. rewrite nth_error_app1; auto. apply nth_error_Some. congruence.
      + intros post. specialize (F4 post). rewrite <- !app_assoc in F4. rewrite <- !app_assoc. apply Forall_app. split; auto. specialize (F1 (rest2 ++ post)).
        assert (Hk : forall e, In e (sb_mult b :: sb_args b) -> known e) by (intros e He; eapply Hc; eauto; now left). clear - F1 Hk. induction F1 as [|s e ss es H1 F1 IH]; constructor; [exists e; split; auto; apply Hk; now left|]. apply IH. intros e' He'. apply Hk. now right.
  Qed.
  Section Bus.
    Variables (ch : chips) (bit tuple : N) (r : nat) (bc : list N) (spans : list span).
    Hypothesis Hr : r < H.
    Hypothesis Hspans : Forall (fun s => exists e, span_for bc s e /\ known e) spans.
    Hypothesis Hbit : ch_bit ch = Some bit.
    Hypothesis Htuple : ch_tuple ch = Some tuple.
    Hypothesis Hids : NoDup [bit; tuple; ch_range ch].
    Hypothesis Hbins : (ch_bins ch < 2 ^ 32)%N.
    Hypothesis Hsizes : (ch_size0 ch * ch_size1 ch < 2 ^ 32)%N.
    Lemma repeat_within (S : N -> Prop) n b (k : prog p) : within S k -> within S (repeat_count n b k).
    Proof. intros Hk. induction n; cbn; auto. Qed.
    Lemma repeat_runs n b (k : prog p) M M' e m : runs k M M' e m -> exists m', runs (repeat_count n b k) M M' (repeat b n ++ e) m'.
    Proof. intros Hk. induction n as [|n [m' IH]]; cbn; [eauto|]. exists (S m'). now constructor. Qed.
    Lemma load_within (S : N -> Prop) a (k : F p -> prog p) : (forall c, cell W H r c -> S c) -> (forall v, within S (k v)) -> within S (match load spans a with Some s => eval_arg s bc (nn r) k | None => Fault end).
    Proof.
      intros HS Hk. destruct (load spans a) as [s|] eqn:E; [|exact Logic.I]. rewrite Forall_forall in Hspans. destruct (Hspans s) as (e & [H1 H2] & H3); [eapply nth_error_In; exact E|].
      apply (arg_within W H r cols HW Hsz HH e); auto.
    Qed.
    Lemma bus_within (S : N -> Prop) is (k : prog p) : (forall a, cell W H r a -> S a) -> within S k -> within S (bus_row ch bit tuple is spans bc (nn r) k).
    Proof.
      intros HS Hk. induction is as [|i is IH]; cbn [bus_row]; auto.
      apply load_within; auto. intros m. destruct (val m =? 0)%N; auto. destruct (in_bus i =? ch_range ch)%N.
      - apply load_within; auto. intros v. apply load_within; auto. intros b. destruct (val b <? 32)%N; [|exact Logic.I]. unfold hist_count. destruct (_ <? _)%N; [|exact Logic.I]. now apply repeat_within.
      - destruct (in_bus i =? tuple)%N.
        + apply load_within; auto. intros v. apply load_within; auto. intros b. unfold hist_count. destruct (_ <? _)%N; [|exact Logic.I]. now apply repeat_within.
        + destruct (in_bus i =? bit)%N; auto. apply load_within; auto. intros x. apply load_within; auto. intros y. apply load_within; auto. intros s. destruct (val s <=? 1)%N; [|exact Logic.I]. destruct (ch_operands ch (val x) (val y)); [|exact Logic.I]. now apply repeat_within.
    Qed.
    Variables (X : list row) (x : row).
    Hypothesis HX : dims W H X.
    Hypothesis Hx : nth_error X r = Some x.
    Lemma arg_at b i j e v k M' ev n : inter_ok bc spans b i -> nth_error (sb_mult b :: sb_args b) j = Some e -> eval_in cols x e = Some v -> stack_need e <= 16 -> runs (k v) (column_major W X) M' ev n ->
      exists n', runs (match load spans (u32 (in_off i + nn j)) with Some s => eval_arg s bc (nn r) k | None => Fault end) (column_major W X) M' ev n'.
    Proof.
      intros (_ & Hb & Hi) He Hv Hn Hk. destruct (Hi j e He) as (s & Hs & H1 & H2). assert (Lj : j < 1 + length (sb_args b)) by (change (1 + length (sb_args b)) with (length (sb_mult b :: sb_args b)); apply nth_error_Some; congruence).
      rewrite u32_id by (unfold nn in *; lia). rewrite Hs. eapply (arg_runs W H r X x cols HX Hx HW Hsz HH e); eauto.
    Qed.
    Lemma bus_one_runs b i g bins k M' ev n : inter_ok bc spans b i -> (sb_id b < 2 ^ 16)%N -> (forall e, In e (sb_mult b :: sb_args b) -> stack_need e <= 16) ->
      replay cols x b = Some g -> apply_bus ch (fst (fst g)) (val (snd (fst g))) (map val (snd g)) = Some bins ->
      runs k (column_major W X) M' ev n ->
      exists n', runs (bus_row ch bit tuple [i] spans bc (nn r) k) (column_major W X) M' (bins ++ ev) n'.
    Proof.
      intros Hi Hid Hn Hg Ha Hk. unfold replay in Hg. destruct (eval_in cols x (sb_mult b)) as [m|] eqn:Em; [|discriminate]. destruct (all_opt (map (eval_in cols x) (sb_args b))) as [args|] eqn:Ea; [|discriminate]. injection Hg as <-. cbn [fst snd] in Ha.
      apply all_opt_nth in Ea as [La Ea].
      assert (Harg : forall j v, nth_error args j = Some v -> exists e, nth_error (sb_mult b :: sb_args b) (S j) = Some e /\ eval_in cols x e = Some v /\ stack_need e <= 16).
      { intros j v Hj. destruct (nth_error (sb_args b) j) as [e|] eqn:Ej; [|apply nth_error_None in Ej; assert (Y : nth_error args j <> None) by congruence; apply nth_error_Some in Y; lia]. destruct (Ea j e Ej) as (v' & V1 & V2). exists e. split; auto. split; [congruence|]. apply Hn. right. eapply nth_error_In; eauto. }
      assert (Hbus : in_bus i = sb_id b). { destruct Hi as (-> & _). apply u32_id. change (2 ^ 32)%N with 4294967296%N. change (2 ^ 16)%N with 65536%N in Hid. lia. }
      unfold apply_bus in Ha. rewrite (N.mod_small (sb_id b)) in Ha by auto. cbn [bus_row]. rewrite Hbus.
      change (in_off i + 0)%N with (in_off i + nn 0)%N.
      assert (Hm : nth_error (sb_mult b :: sb_args b) 0 = Some (sb_mult b)) by reflexivity.
      pose proof (proj1 (NoDup_cons_iff _ _) Hids) as [I1 I2]. pose proof (proj1 (NoDup_cons_iff _ _) I2) as [I3 _]. cbn in I1, I3.
      rewrite Hbit, Htuple in Ha. unfold is_id in Ha.
      assert (Hzero : (val m =? 0)%N = true -> bins = []).
      { intros Z. unfold times in Ha. rewrite Z in Ha. destruct (bit =? sb_id b)%N; [destruct (map val args) as [|? [|? [|? [|? ?]]]]; congruence|]. destruct (ch_range ch =? sb_id b)%N; [destruct (map val args) as [|? [|? ?]]; congruence|].
        destruct (tuple =? sb_id b)%N; [congruence|]. destruct (sb_id b <=? 2)%N; congruence. }
      destruct (val m =? 0)%N eqn:Z.
      { rewrite (Hzero eq_refl). cbn [app]. eapply arg_at; eauto; [apply Hn; now left|]. cbn beta. rewrite Z. exact Hk. }
      unfold times in Ha. rewrite Z in Ha.
      destruct (N.eqb_spec bit (sb_id b)) as [Eb|Nb].
      - (* bitwise *)
        destruct args as [|vx [|vy [|vxy [|vs args]]]]; cbn [map] in Ha; try discriminate.
        assert (Hsel : (val vs <= 1)%N /\ ch_operands ch (val vx) (val vy) = true /\ bins = repeat (BBit (val vs) (val vx) (val vy)) (N.to_nat (val m))).
        { unfold bit_bin in Ha. destruct (N.eqb_spec (val vs) 0) as [E0|N0].
          - destruct (ch_operands ch (val vx) (val vy)); [|discriminate]. injection Ha as <-. rewrite E0. split; [lia|auto].
          - destruct (N.eqb_spec (val vs) 1) as [E1|N1]; [|discriminate]. destruct (_ =? _)%N; [|discriminate]. destruct (ch_operands ch (val vx) (val vy)); [|discriminate]. injection Ha as <-. rewrite E1. split; [lia|auto]. }
        destruct Hsel as (Hs1 & Hs2 & ->). destruct (repeat_runs (N.to_nat (val m)) (BBit (val vs) (val vx) (val vy)) k _ _ _ _ Hk) as (n1 & R1).
        destruct (Harg 0 vx eq_refl) as (e0 & A0 & B0 & C0). destruct (Harg 1 vy eq_refl) as (e1 & A1 & B1 & C1). destruct (Harg 3 vs eq_refl) as (e3 & A3 & B3 & C3).
        assert (R2 : exists n2, runs (match load spans (u32 (in_off i + 4)) with Some s => eval_arg s bc (nn r) (fun selector => if (val selector <=? 1)%N then if ch_operands ch (val vx) (val vy) then repeat_count (N.to_nat (val m)) (BBit (val selector) (val vx) (val vy)) k else Fault else Fault) | None => Fault end) (column_major W X) M' (repeat (BBit (val vs) (val vx) (val vy)) (N.to_nat (val m)) ++ ev) n2).
        { change 4%N with (nn 4). eapply arg_at; eauto. cbn beta. destruct (N.leb_spec (val vs) 1); [|lia]. rewrite Hs2. exact R1. }
        destruct R2 as (n2 & R2).
        edestruct (arg_at b i 2 e1 vy (fun y => match load spans (u32 (in_off i + 4)) with Some s => eval_arg s bc (nn r) (fun selector => if (val selector <=? 1)%N then if ch_operands ch (val vx) (val y) then repeat_count (N.to_nat (val m)) (BBit (val selector) (val vx) (val y)) k else Fault else Fault) | None => Fault end)) as (n3 & R3); eauto.
        edestruct (arg_at b i 1 e0 vx (fun x0 => match load spans (u32 (in_off i + nn 2)) with Some s0 => eval_arg s0 bc (nn r) (fun y => match load spans (u32 (in_off i + 4)) with Some s => eval_arg s bc (nn r) (fun selector => if (val selector <=? 1)%N then if ch_operands ch (val x0) (val y) then repeat_count (N.to_nat (val m)) (BBit (val selector) (val x0) (val y)) k else Fault else Fault) | None => Fault end) | None => Fault end)) as (n4 & R4); eauto.
        eapply arg_at; eauto; [apply Hn; now left|]. cbn beta. rewrite Z. destruct (N.eqb_spec (sb_id b) (ch_range ch)) as [E|_]; [exfalso; apply I1; rewrite Eb, E; auto|]. destruct (N.eqb_spec (sb_id b) tuple) as [E|_]; [exfalso; apply I1; left; congruence|]. destruct (N.eqb_spec (sb_id b) bit) as [_|]; [|congruence]. exact R4.
      - destruct (N.eqb_spec (ch_range ch) (sb_id b)) as [Er|Nr].
        + (* range check *)
          destruct args as [|vv [|vb args]]; cbn [map] in Ha; try discriminate. unfold range_bin in Ha. destruct (N.ltb_spec (val vb) 64) as [Lb|]; cbn [andb] in Ha; [|discriminate].
          destruct (N.ltb_spec (2 ^ val vb + val vv - 1) (ch_bins ch)) as [Li|]; [|discriminate]. cbn [option_map] in Ha. injection Ha as <-.
          assert (Hpos : (1 <= 2 ^ val vb)%N) by (apply N.lt_pred_le; apply N.neq_0_lt_0; apply N.pow_nonzero; discriminate).
          assert (Lb' : (val vb < 32)%N). { destruct (N.lt_ge_cases (val vb) 32) as [|G]; auto. exfalso. assert (2 ^ 32 <= 2 ^ val vb)%N by (apply N.pow_le_mono_r; [discriminate|auto]). change (2 ^ 32)%N with 4294967296%N in *. lia. }
          assert (Ei : u32 (u32 (2 ^ val vb) + val vv + 2 ^ 32 - 1) = (2 ^ val vb + val vv - 1)%N).
          { rewrite (u32_id (2 ^ val vb)) by (apply N.pow_lt_mono_r; auto; reflexivity). unfold u32. replace (2 ^ val vb + val vv + 2 ^ 32 - 1)%N with ((2 ^ val vb + val vv - 1) + 1 * 2 ^ 32)%N by (change (2 ^ 32)%N with 4294967296%N in *; lia). rewrite N.mod_add by discriminate. apply N.mod_small. change (2 ^ 32)%N with 4294967296%N in *. lia. }
          destruct (repeat_runs (N.to_nat (val m)) (BRange (2 ^ val vb + val vv - 1)) k _ _ _ _ Hk) as (n1 & R1).
          destruct (Harg 0 vv eq_refl) as (e0 & A0 & B0 & C0). destruct (Harg 1 vb eq_refl) as (e1 & A1 & B1 & C1).
          edestruct (arg_at b i 2 e1 vb (fun b0 => if (val b0 <? 32)%N then hist_count (val m) (u32 (ch_bins ch)) (u32 (u32 (2 ^ val b0) + val vv + 2 ^ 32 - 1)) BRange k else Fault)) as (n2 & R2); eauto.
          { cbn beta. destruct (N.ltb_spec (val vb) 32); [|lia]. unfold hist_count. rewrite Ei, (u32_id (ch_bins ch)) by auto. destruct (N.ltb_spec (2 ^ val vb + val vv - 1) (ch_bins ch)); [exact R1|lia]. }
          edestruct (arg_at b i 1 e0 vv (fun v => match load spans (u32 (in_off i + nn 2)) with Some s => eval_arg s bc (nn r) (fun b0 => if (val b0 <? 32)%N then hist_count (val m) (u32 (ch_bins ch)) (u32 (u32 (2 ^ val b0) + val v + 2 ^ 32 - 1)) BRange k else Fault) | None => Fault end)) as (n3 & R3); eauto.
          eapply arg_at; eauto; [apply Hn; now left|]. cbn beta. rewrite Z. destruct (N.eqb_spec (sb_id b) (ch_range ch)) as [_|]; [|congruence]. exact R3.
        + destruct (N.eqb_spec tuple (sb_id b)) as [Et|Nt].
          * (* tuple range check *)
            destruct args as [|v0 [|v1 [|v2 args]]]; cbn [map tuple_bin option_map] in Ha; try discriminate.
            destruct (N.ltb_spec (u32 (val v0 * ch_size1 ch + val v1)) (ch_size0 ch * ch_size1 ch)) as [Li|]; [|discriminate]. cbn [option_map] in Ha. injection Ha as <-.
            destruct (repeat_runs (N.to_nat (val m)) (BTuple (u32 (val v0 * ch_size1 ch + val v1))) k _ _ _ _ Hk) as (n1 & R1).
            destruct (Harg 0 v0 eq_refl) as (e0 & A0 & B0 & C0). destruct (Harg 1 v1 eq_refl) as (e1 & A1 & B1 & C1).
            edestruct (arg_at b i 2 e1 v1 (fun w => hist_count (val m) (u32 (ch_size0 ch * ch_size1 ch)) (u32 (val v0 * ch_size1 ch + val w)) BTuple k)) as (n2 & R2); eauto.
            { cbn beta. unfold hist_count. rewrite (u32_id (ch_size0 ch * ch_size1 ch)) by auto. destruct (N.ltb_spec (u32 (val v0 * ch_size1 ch + val v1)) (ch_size0 ch * ch_size1 ch)); [exact R1|lia]. }
            edestruct (arg_at b i 1 e0 v0 (fun v => match load spans (u32 (in_off i + nn 2)) with Some s => eval_arg s bc (nn r) (fun w => hist_count (val m) (u32 (ch_size0 ch * ch_size1 ch)) (u32 (val v * ch_size1 ch + val w)) BTuple k) | None => Fault end)) as (n3 & R3); eauto.
            eapply arg_at; eauto; [apply Hn; now left|]. cbn beta. rewrite Z. destruct (N.eqb_spec (sb_id b) (ch_range ch)) as [|_]; [congruence|]. destruct (N.eqb_spec (sb_id b) tuple) as [_|]; [|congruence]. exact R3.
          * destruct (sb_id b <=? 2)%N; [|discriminate]. injection Ha as <-. cbn [app].
            eapply arg_at; eauto; [apply Hn; now left|]. cbn beta. rewrite Z. destruct (N.eqb_spec (sb_id b) (ch_range ch)) as [|_]; [congruence|]. destruct (N.eqb_spec (sb_id b) tuple) as [|_]; [congruence|]. destruct (N.eqb_spec (sb_id b) bit) as [|_]; [congruence|]. exact Hk.
    Qed.
    Lemma bus_runs bs is : Forall2 (inter_ok bc spans) bs is -> (forall b, In b bs -> (sb_id b < 2 ^ 16)%N /\ forall e, In e (sb_mult b :: sb_args b) -> stack_need e <= 16) ->
      forall gs bins k M' ev n, all_opt (map (replay cols x) bs) = Some gs ->
      all_opt (map (fun e : N * F p * list (F p) => apply_bus ch (fst (fst e)) (val (snd (fst e))) (map val (snd e))) gs) = Some bins ->
      runs k (column_major W X) M' ev n ->
      exists n', runs (bus_row ch bit tuple is spans bc (nn r) k) (column_major W X) M' (concat bins ++ ev) n'.
    Proof.
      intros HF Hb. induction HF as [|b i bs is H1 HF IH]; intros gs bins k M' ev n Hg Ha Hk; cbn [map all_opt] in Hg.
      - injection Hg as <-. cbn in Ha. injection Ha as <-. cbn. eauto.
      - destruct (replay cols x b) as [g|] eqn:Eg; [|discriminate]. destruct (all_opt (map (replay cols x) bs)) as [gs'|] eqn:Egs; [|discriminate]. injection Hg as <-. cbn [map all_opt] in Ha.
        destruct (apply_bus ch (fst (fst g)) (val (snd (fst g))) (map val (snd g))) as [b1|] eqn:E1; [|discriminate]. destruct (all_opt (map _ gs')) as [bins'|] eqn:E2; [|discriminate]. injection Ha as <-.
        destruct (IH ltac:(intros b' Hb'; apply Hb; now right) gs' bins' k M' ev n eq_refl E2 Hk) as (n1 & R1).
        destruct (Hb b (or_introl eq_refl)) as [Hb1 Hb2]. cbn [concat]. rewrite <- app_assoc. exact (bus_one_runs b i g b1 _ M' _ n1 H1 Hb1 Hb2 Eg E1 R1).
    Qed.
  End Bus.
End Compile.
