(** The kernels of the GPU trace generator, row by row. *)
From Coq Require Import Arith ZArith NArith Bool List Lia.
From Verif Require Import Field ExprModel SystemModel SymModel SymSpec TraceModel TraceSpec TraceFacts TraceMain CudaModel CudaSpec CudaSched.
Import ListNotations.

(** ** Words *)
Lemma u32_id n : (n < 2 ^ 32)%N -> u32 n = n. Proof. intros H. unfold u32. now apply N.mod_small. Qed.
Lemma u64_id n : (n < 2 ^ 64)%N -> u64 n = n. Proof. intros H. unfold u64. now apply N.mod_small. Qed.
Lemma size_i32 n : (n < 2 ^ 31)%N -> size_t (i32 n) = n.
Proof.
  intros H. unfold size_t, i32. change (2 ^ 31)%N with 2147483648%N in *. rewrite u32_id by (change (2 ^ 32)%N with 4294967296%N; lia).
  destruct (N.ltb_spec n 2147483648); [|lia]. rewrite Z.mod_small; [apply N2Z.id|]. change (2 ^ 64)%Z with 18446744073709551616%Z. lia.
Qed.
Lemma i32_pos n : (n < 2 ^ 31)%N -> i32 n = Z.of_N n.
Proof.
  intros H. unfold i32. change (2 ^ 31)%N with 2147483648%N in *. rewrite u32_id by (change (2 ^ 32)%N with 4294967296%N; lia). destruct (N.ltb_spec n 2147483648); [auto|lia].
Qed.
Lemma nn_inj a b : nn a = nn b -> a = b. Proof. unfold nn. lia. Qed.

Section Columns.
  Context {p : positive}.
  Local Notation row := (list (F p)).
  Definition dims (W H : nat) (X : list row) : Prop := length X = H /\ forall x, In x X -> length x = W.
  Lemma cm_length W (X : list row) : length (column_major W X) = W * length X.
  Proof.
    unfold column_major. rewrite <- (seq_length W 0) at 2. generalize (seq 0 W). induction l as [|c l IH]; cbn; auto. rewrite app_length, map_length, IH. lia.
  Qed.
  Lemma cm_nth W H (X : list row) c r : dims W H X -> c < W -> r < H -> nth_error (column_major W X) (c * H + r) = match nth_error X r with Some x => nth_error x c | None => None end.
  Proof.
    intros [L D] Hc Hr. unfold column_major. rewrite <- flat_map_concat_map. rewrite flat_map_nth with (n := H) (x := c); auto.
    - destruct (nth_error X r) as [x|] eqn:E.
      + rewrite (map_nth_error _ _ _ E). symmetry. apply nth_error_nth'. rewrite (D x); auto. eapply nth_error_In; eauto.
      + apply nth_error_None in E. lia.
    - intros x _. rewrite map_length. auto.
    - now apply nth_seq.
  Qed.
  Lemma split_cell W H a : a < W * H -> exists c r, c < W /\ r < H /\ a = c * H + r.
  Proof.
    intros Ha. assert (H <> 0) by lia. exists (a / H), (a mod H). split; [apply Nat.div_lt_upper_bound; lia|]. split; [apply Nat.mod_upper_bound; auto|]. pose proof (Nat.div_mod a H). lia.
  Qed.
  Lemma cell_inj H c r c' r' : r < H -> r' < H -> c * H + r = c' * H + r' -> c = c' /\ r = r'.
  Proof. intros. assert (c = c') by nia. subst. lia. Qed.
  Lemma dims_update W H (X : list row) r y : dims W H X -> length y = W -> dims W H (update X r y).
  Proof.
    intros [L D] Ly. split; [now rewrite update_length|]. intros x Hx. apply In_nth_error in Hx as [i Hi]. rewrite nth_update in Hi.
    destruct ((i =? r) && (r <? length X)); [congruence|]. apply D. eapply nth_error_In; eauto.
  Qed.
  Lemma cm_load W H (X : list row) c r x : dims W H X -> c < W -> nth_error X r = Some x -> load (column_major W X) (nn c * nn H + nn r) = nth_error x c.
  Proof.
    intros D Hc Hx. assert (r < H) by (destruct D as [<- _]; apply nth_error_Some; congruence). unfold load, nn. rewrite <- Nat2N.inj_mul, <- Nat2N.inj_add, Nat2N.id, (cm_nth W H) by auto. now rewrite Hx.
  Qed.
  Lemma cm_set W H (X : list row) c r x v x' : dims W H X -> nth_error X r = Some x -> set_at c v x = Some x' ->
    set_at (N.to_nat (nn c * nn H + nn r)) v (column_major W X) = Some (column_major W (update X r x')).
  Proof.
    intros D Hx Hs. destruct (set_at_inv _ _ _ _ Hs) as (L1 & L2 & L3). assert (Hr : r < H) by (destruct D as [<- _]; apply nth_error_Some; congruence).
    assert (Lx : length x = W) by (destruct D as [_ D]; apply D; eapply nth_error_In; eauto).
    unfold nn. rewrite <- Nat2N.inj_mul, <- Nat2N.inj_add, Nat2N.id.
    assert (Hb : c * H + r < length (column_major W X)). { rewrite cm_length. destruct D as [-> _]. nia. }
    destruct (set_at_ok _ v _ Hb) as [M E]. rewrite E. f_equal. apply set_at_inv in E as (E1 & _ & E3).
    assert (D' : dims W H (update X r x')) by (apply dims_update; auto; lia).
    apply nth_error_ext_len; [rewrite E1, !cm_length, update_length; auto|]. intros i a b Ha Hb'.
    assert (Hi : i < W * H). { assert (i < length M) by (apply nth_error_Some; congruence). rewrite E1, cm_length in *. destruct D as [<- _]. auto. }
    destruct (split_cell W H i Hi) as (c' & r' & Hc' & Hr' & ->). rewrite (cm_nth W H) in Hb' by auto. rewrite E3 in Ha. rewrite nth_update in Hb'.
    destruct (Nat.eqb_spec (c' * H + r') (c * H + r)) as [Eq|Ne].
    - apply cell_inj in Eq as [-> ->]; auto. rewrite Nat.eqb_refl in Hb'. destruct D as [LX _]. rewrite LX in Hb'. destruct (Nat.ltb_spec r H); [|lia]. cbn in Hb'. rewrite L3, Nat.eqb_refl in Hb'. congruence.
    - rewrite (cm_nth W H) in Ha by auto. destruct (Nat.eqb_spec r' r) as [->|Nr]; [|cbn [andb] in Hb'; congruence].
      destruct D as [LX _]. rewrite LX in Hb'. destruct (Nat.ltb_spec r H); [|lia]. cbn [andb] in Hb'. rewrite Hx in Ha. rewrite L3 in Hb'. destruct (Nat.eqb_spec c' c) as [->|]; [lia|congruence].
  Qed.
  (** The cells of a row. *)
  Definition cell (W H r : nat) (a : N) : Prop := exists c, c < W /\ a = (nn c * nn H + nn r)%N.
  Lemma cell_row W H r r' a : r < H -> r' < H -> cell W H r a -> cell W H r' a -> r = r'.
  Proof. intros Hr Hr' (c & Hc & ->) (c' & Hc' & E). unfold nn in E. apply (cell_inj H c r c' r'); auto. lia. Qed.

  (** ** Kernels over the rows of a trace *)
  Definition row_body (W H : nat) (body : N -> prog p -> prog p) (r : nat) (x y : row) (ev : list bin) : Prop :=
    (forall (S : N -> Prop) k, (forall a, cell W H r a -> S a) -> within S k -> within S (body (nn r) k)) /\
    forall X k M' e n, dims W H X -> nth_error X r = Some x -> runs k (column_major W (update X r y)) M' e n ->
      exists n', runs (body (nn r) k) (column_major W X) M' (ev ++ e) n'.
  Lemma rows_loop_runs W H body (X0 Y : list row) total : total > 0 -> dims W H X0 -> dims W H Y ->
    (forall r x y, nth_error X0 r = Some x -> nth_error Y r = Some y -> row_body W H body r x y []) ->
    forall fuel r X, H <= r + fuel -> dims W H X -> (forall j, r <= j -> nth_error X j = nth_error X0 j) ->
    exists X' n, dims W H X' /\ runs (rows_loop fuel (nn H) (nn total) (nn r) body) (column_major W X) (column_major W X') [] n /\
      (forall k, k < H -> (exists q, k = r + q * total) -> nth_error X' k = nth_error Y k) /\
      (forall k, k < r -> nth_error X' k = nth_error X k).
  Proof.
    intros Ht D0 DY HB. induction fuel as [|fuel IH]; intros r X Hf DX HX; cbn [rows_loop].
    - destruct (N.ltb_spec (nn r) (nn H)) as [Hlt|Hge]; [unfold nn in Hlt; lia|]. exists X, 0. split; auto. split; [constructor|]. split; auto. intros k Hk (q & ->). unfold nn in Hge. nia.
    - destruct (N.ltb_spec (nn r) (nn H)) as [Hlt|Hge].
      2:{ exists X, 0. split; auto. split; [constructor|]. split; auto. intros k Hk (q & ->). unfold nn in Hge. nia. }
      assert (Hr : r < H) by (unfold nn in Hlt; lia).
      destruct (nth_error X0 r) as [x|] eqn:Ex; [|apply nth_error_None in Ex; destruct D0; lia].
      destruct (nth_error Y r) as [y|] eqn:Ey; [|apply nth_error_None in Ey; destruct DY; lia].
      assert (Ly : length y = W) by (destruct DY as [_ DY]; apply DY; eapply nth_error_In; eauto).
      assert (DX' : dims W H (update X r y)) by (apply dims_update; auto).
      destruct (IH (r + total) (update X r y)) as (X' & n & D' & R' & F' & K'); auto; [lia| |].
      { intros j Hj. rewrite nth_update. destruct (Nat.eqb_spec j r); [lia|]. cbn. apply HX. lia. }
      replace (nn r + nn total)%N with (nn (r + total)) by (unfold nn; lia).
      destruct (HB r x y Ex Ey) as [_ HB2]. destruct (HB2 X _ _ [] n DX ltac:(rewrite HX; auto) R') as (n' & Hn').
      exists X', n'. split; auto. split; [exact Hn'|].
      assert (At : nth_error (update X r y) r = Some y). { rewrite nth_update, Nat.eqb_refl. destruct DX as [LX _]. rewrite LX. destruct (Nat.ltb_spec r H); [auto|lia]. }
      split.
      + intros k Hk (q & ->). destruct q as [|q]; [|apply F'; auto; exists q; lia]. rewrite K' by lia. replace (r + 0 * total) with r by lia. congruence.
      + intros k Hk. rewrite K' by lia. rewrite nth_update. destruct (Nat.eqb_spec k r); [lia|]. auto.
  Qed.
  Lemma rows_loop_within W H (body : N -> prog p -> prog p) total (S : N -> Prop) : (forall r (T : N -> Prop) k, r < H -> (forall a, cell W H r a -> T a) -> within T k -> within T (body (nn r) k)) ->
    forall fuel r, (forall k a, k < H -> (exists q, k = r + q * total) -> cell W H k a -> S a) -> within S (rows_loop fuel (nn H) (nn total) (nn r) body).
  Proof.
    intros HB. induction fuel as [|fuel IH]; intros r HS; cbn [rows_loop]; destruct (N.ltb_spec (nn r) (nn H)) as [Hlt|Hge]; cbn; auto.
    apply HB; [unfold nn in Hlt; lia| |].
    - intros a Ha. apply (HS r); [unfold nn in Hlt; lia|exists 0; lia|auto].
    - replace (nn r + nn total)%N with (nn (r + total)) by (unfold nn; lia). apply IH. intros k a Hk (q & ->) Ha. apply (HS (r + total + q * total)); auto. exists (1 + q). lia.
  Qed.
  Definition grid (H : nat) : nat := N.to_nat (grid256 (nn H)).
  Lemma grid_pos H : grid H > 0.
  Proof. unfold grid, grid256. destruct (N.eqb_spec (u32 ((nn H + 255) / 256)) 0); lia. Qed.
  Theorem launch256_completes W H body (X Y : list row) C : dims W H X -> dims W H Y ->
    (forall r x y, nth_error X r = Some x -> nth_error Y r = Some y -> row_body W H body r x y []) ->
    completes (launch256 (nn H) body) (column_major W X) C (column_major W Y) C.
  Proof.
    intros DX DY HB. pose proof (grid_pos H) as Hg.
    assert (HB1 : forall r (T : N -> Prop) k, r < H -> (forall a, cell W H r a -> T a) -> within T k -> within T (body (nn r) k)).
    { intros r T k Hr Ha Hw. destruct (nth_error X r) as [x|] eqn:Ex; [|apply nth_error_None in Ex; destruct DX; lia].
      destruct (nth_error Y r) as [y|] eqn:Ey; [|apply nth_error_None in Ey; destruct DY; lia]. now apply (HB r x y Ex Ey). }
    set (S := fun i a => exists k, k < H /\ (exists q, k = i + q * grid H) /\ cell W H k a /\ i < grid H).
    assert (EC : forall b, C b = (C b + requests b (concat (map (fun _ : nat => @nil bin) (seq 0 (grid H)))))%N).
    { intros b. replace (concat (map (fun _ : nat => @nil bin) (seq 0 (grid H)))) with (@nil bin); [unfold requests; cbn; lia|]. induction (seq 0 (grid H)); auto. }
    assert (Hc : completes (launch256 (nn H) body) (column_major W X) C (column_major W Y) (fun b => C b + requests b (concat (map (fun _ : nat => @nil bin) (seq 0 (grid H)))))%N).
    { apply (disjoint_completes S).
      - intros i j a (k & Hk & (q & Hq) & Ha & Hi) (k' & Hk' & (q' & Hq') & Ha' & Hj). assert (E : k = k') by (eapply cell_row; eauto). rewrite Hq, Hq' in E.
        assert (q = q') by nia. subst q'. lia.
      - rewrite !cm_length. destruct DX as [-> _], DY as [-> _]. auto.
      - unfold launch256. now rewrite !map_length, !seq_length.
      - intros i t Ht. unfold launch256 in Ht. fold (grid H) in Ht.
        assert (Hi : i < grid H). { assert (Y1 : i < length (map (fun tid => rows_loop (N.to_nat (nn H)) (nn H) (grid256 (nn H)) (nn tid) body) (seq 0 (grid H)))) by (apply nth_error_Some; congruence). now rewrite map_length, seq_length in Y1. }
        rewrite (map_nth_error _ _ _ (nth_seq _ _ Hi)) in Ht. injection Ht as <-. replace (N.to_nat (nn H)) with H by (unfold nn; lia). replace (grid256 (nn H)) with (nn (grid H)) by (unfold grid, nn; lia). split.
        + apply rows_loop_within with (W := W); auto. intros k a Hk Hq Ha. exists k. auto.
        + destruct (rows_loop_runs W H body X Y (grid H) Hg DX DY HB H i X) as (X' & n & D' & R' & F' & _); auto; [lia|].
          exists (column_major W X'), [], n. split; [exact (map_nth_error (fun _ : nat => @nil bin) _ _ (nth_seq _ _ Hi))|]. split; auto.
          intros a (k & Hk & Hq & (c & Hc & ->) & _). destruct (nth_error X' k) as [x'|] eqn:E'; [|apply nth_error_None in E'; destruct D'; lia]. rewrite (F' k Hk Hq) in E'.
          rewrite (cm_load W H Y c k x') by auto. rewrite <- (F' k Hk Hq) in E'. now rewrite (cm_load W H X' c k x').
      - intros a Ha. destruct (N.ltb_spec a (nn (W * H))) as [Hlt|Hge].
        + exfalso. destruct (split_cell W H (N.to_nat a)) as (c & r & Hc & Hr & E); [unfold nn in Hlt; lia|].
          apply (Ha (r mod grid H)).
          * unfold launch256. rewrite map_length, seq_length. fold (grid H). apply Nat.mod_upper_bound. lia.
          * exists r. split; auto. split; [exists (r / grid H); pose proof (Nat.div_mod r (grid H)); lia|]. split; [|apply Nat.mod_upper_bound; lia]. exists c. split; auto. unfold nn. lia.
        + unfold load. assert (length (column_major W X) = W * H /\ length (column_major W Y) = W * H) as [L1 L2] by (rewrite !cm_length; destruct DX as [-> _], DY as [-> _]; auto).
          rewrite (proj2 (nth_error_None (column_major W X) (N.to_nat a))), (proj2 (nth_error_None (column_major W Y) (N.to_nat a))); auto; rewrite ?L1, ?L2; unfold nn in Hge; lia. }
    destruct Hc as (bound & Hc). exists bound. intros n M1 C1 ts1 Hs. destruct (Hc n M1 C1 ts1 Hs) as (A1 & A2 & A3). split; auto. split; auto. intros Hst. destruct (A3 Hst) as (B1 & B2 & B3). split; auto. split; auto. intros b. now rewrite B3, <- EC.
  Qed.
  (** The kernel for the lookups: one thread for every call; the trace does not change. *)
  Theorem launch128_completes W H body (X : list row) (evs : list (list bin)) C : dims W H X -> length evs <= H ->
    (forall r x ev, nth_error X r = Some x -> nth_error evs r = Some ev -> row_body W H body r x x ev) ->
    completes (launch128 (nn (length evs)) body) (column_major W X) C (column_major W X) (fun b => C b + requests b (concat evs))%N.
  Proof.
    intros DX HL HB. set (calls := length evs) in *. set (T := N.to_nat ((nn calls + 127) / 128 * 128)).
    assert (HT : calls <= T). { unfold T. pose proof (N.div_mod (nn calls + 127) 128). pose proof (N.mod_lt (nn calls + 127) 128). unfold nn in *. lia. }
    set (es := evs ++ repeat [] (T - calls)).
    assert (Ee : concat es = concat evs). { unfold es. rewrite concat_app. replace (concat (repeat (@nil bin) (T - calls))) with (@nil bin); [now rewrite app_nil_r|]. induction (T - calls); auto. }
    rewrite <- Ee. apply (disjoint_completes (fun i a => i < H /\ cell W H i a)).
    - intros i j a [Hi Ha] [Hj Hb]. eapply cell_row; eauto.
    - auto.
    - unfold launch128, es. fold T. rewrite map_length, seq_length, app_length, repeat_length. fold calls. lia.
    - intros i t Ht. unfold launch128 in Ht. fold T in Ht. assert (Hi : i < T). { match type of Ht with nth_error ?l _ = _ => assert (Y1 : i < length l) by (apply nth_error_Some; congruence) end. now rewrite map_length, seq_length in Y1. }
      rewrite (map_nth_error _ _ _ (nth_seq _ _ Hi)) in Ht. injection Ht as <-. destruct (N.ltb_spec (nn i) (nn calls)) as [Hlt|Hge].
      + assert (Hi' : i < calls) by (unfold nn in Hlt; lia). destruct (nth_error evs i) as [ev|] eqn:Ev; [|apply nth_error_None in Ev; fold calls in Ev; lia].
        destruct (nth_error X i) as [x|] eqn:Ex; [|apply nth_error_None in Ex; destruct DX; lia]. destruct (HB i x ev Ex Ev) as [B1 B2]. split; [apply B1; cbn; auto; intros a Ha; split; [lia|auto]|].
        destruct (B2 X Done (column_major W X) [] 0 DX Ex) as (n' & Hn'); [rewrite update_same by auto; constructor|]. rewrite app_nil_r in Hn'. exists (column_major W X), ev, n'.
        split; [unfold es; rewrite nth_error_app1 by (fold calls; lia); auto|]. split; auto.
      + split; [cbn; auto|]. exists (column_major W X), [], 0. split; [|split; [constructor|auto]]. unfold es. rewrite nth_error_app2 by (fold calls; unfold nn in Hge; lia). fold calls.
        rewrite nth_error_nth' with (d := []) by (rewrite repeat_length; unfold nn in Hge; lia). now rewrite nth_repeat.
    - auto.
  Qed.
End Columns.

(** ** Bytecode *)
Section Bytecode.
  Context {p : positive}.
  Local Notation row := (list (F p)).
  Fixpoint code (cols : list N) (H : N) (e : aexpr p) : list N :=
    match e with
    | ANum c => [1%N; val c]
    | ARef v => [0%N; match index_of (vid v) cols with Some i => u32 (nn i * H) | None => 0%N end]
    | ANeg a => code cols H a ++ [5%N]
    | ABin a o b => code cols H a ++ code cols H b ++ [match o with OAdd => 2 | OSub => 3 | OMul => 4 end]%N
    end.
  Lemma emit_code cols H (e : aexpr p) : forall bc, (forall v, occurs v e -> In (vid v) cols) -> emit_expr cols H e bc = Some (bc ++ code cols H e).
  Proof.
    induction e as [v|c|a IHa o b IHb|a IHa]; intros bc Hv; cbn [emit_expr code].
    - destruct (index_of (vid v) cols) as [i|] eqn:E; auto. exfalso. apply index_none in E. apply E, Hv. cbn. auto.
    - auto.
    - rewrite IHa by (intros v X; apply Hv; cbn; auto). rewrite IHb by (intros v X; apply Hv; cbn; auto). now rewrite !app_assoc.
    - rewrite IHa by (intros v X; apply Hv; cbn; auto). now rewrite app_assoc.
  Qed.
  Lemma code_length cols H (e : aexpr p) : length (code cols H e) = words e.
  Proof. induction e; cbn [code words]; auto; rewrite ?app_length; cbn [length]; lia. Qed.
  Lemma need_pos (e : aexpr p) : 0 < stack_need e.
  Proof. induction e; cbn [stack_need]; lia. Qed.
  (** The words of [c] start at address [a] of [bc]. *)
  Definition stored (bc : list N) (a : N) (c : list N) : Prop := forall j w, nth_error c j = Some w -> load bc (a + nn j) = Some w.
  Lemma stored_app bc a c d : stored bc a (c ++ d) <-> stored bc a c /\ stored bc (a + nn (length c)) d.
  Proof.
    split.
    - intros H. split; intros j w Hj.
      + apply H. rewrite nth_error_app1; auto. apply nth_error_Some. congruence.
      + replace (a + nn (length c) + nn j)%N with (a + nn (length c + j))%N by (unfold nn; lia). apply H. rewrite nth_error_app2 by lia. replace (length c + j - length c) with j by lia. auto.
    - intros [H1 H2] j w Hj. destruct (Nat.lt_ge_cases j (length c)).
      + rewrite nth_error_app1 in Hj by auto. auto.
      + rewrite nth_error_app2 in Hj by auto. apply H2 in Hj. replace (a + nn j)%N with (a + nn (length c) + nn (j - length c))%N by (unfold nn; lia). auto.
  Qed.
  Lemma stored_one bc a w : stored bc a [w] -> load bc a = Some w.
  Proof. intros H. specialize (H 0 w eq_refl). unfold nn in H. now rewrite N.add_0_r in H. Qed.
  Lemma stored_two bc a w x : stored bc a [w; x] -> load bc a = Some w /\ load bc (a + 1)%N = Some x.
  Proof. intros H. split; [specialize (H 0 w eq_refl)|specialize (H 1 x eq_refl)]; unfold nn in H; cbn in H; [now rewrite N.add_0_r in H|auto]. Qed.
  Lemma stored_at (pre c post : list N) : stored (pre ++ c ++ post) (nn (length pre)) c.
  Proof.
    intros j w Hj. unfold load, nn. rewrite <- Nat2N.inj_add, Nat2N.id, nth_error_app2 by lia. replace (length pre + j - length pre) with j by lia. rewrite nth_error_app1; auto. apply nth_error_Some. congruence.
  Qed.

  (** The loop, up to the end of the code of an expression. *)
  Definition from (bc : list N) (off len : N) (r : nat) (k : F p -> prog p) (ip : N) (stack : row) (Q : prog p -> Prop) : Prop :=
    forall fuel, (len <= ip + nn fuel)%N -> Q (eval_loop fuel bc off len ip stack (nn r) k).
  Lemma eval_step fuel (len ip : N) : (ip < len)%N -> (len <= ip + nn fuel)%N ->
    exists fuel', fuel = S fuel'.
  Proof. intros H1 H2. destruct fuel as [|f]; [unfold nn in H2; lia|eauto]. Qed.
  Section Eval.
    Variables (W H r : nat) (X : list row) (x : row) (cols : list N).
    Hypothesis HX : dims W H X.
    Hypothesis Hx : nth_error X r = Some x.
    Hypothesis HW : length cols = W.
    Hypothesis Hsz : (nn W * nn H <= 2 ^ 32)%N.
    Hypothesis HH : 0 < H.
    Lemma col_small i : i < W -> u32 (nn i * nn H) = (nn i * nn H)%N.
    Proof. intros Hi. apply u32_id. unfold nn in *. nia. Qed.
    Lemma eval_code (e : aexpr p) : forall v bc off len ip stack k M' ev,
      eval_in cols x e = Some v -> stored bc (off + ip) (code cols (nn H) e) -> (ip + nn (words e) <= len)%N -> length stack + stack_need e <= 16 ->
      from bc off len r k (ip + nn (words e)) (v :: stack) (fun q => exists n, runs q (column_major W X) M' ev n) ->
      from bc off len r k ip stack (fun q => exists n, runs q (column_major W X) M' ev n).
    Proof.
      induction e as [u|c|a IHa o b IHb|a IHa]; intros v bc off len ip stack k M' ev He Hs Hl Hn Hk fuel Hf.
      - cbn [code words stack_need eval_in] in *. destruct (index_of (vid u) cols) as [i|] eqn:Ei; [|discriminate]. apply stored_two in Hs as [S1 S2].
        destruct (eval_step fuel len ip) as [f ->]; [unfold nn in *; lia|auto|]. cbn [eval_loop]. destruct (N.ltb_spec ip len); [|unfold nn in Hl; lia]. rewrite S1, S2.
        assert (Hi : i < W) by (rewrite <- HW; eapply index_lt; eauto). rewrite col_small by auto.
        destruct (Hk f) as [n Hn']; [unfold nn in *; lia|]. exists (S n). apply runs_read with (v := v).
        + rewrite (cm_load W H X i r x); auto.
        + unfold stack_push. destruct (Nat.ltb_spec (length stack) stack_capacity); [|unfold stack_capacity in *; lia]. replace (ip + 2)%N with (ip + nn 2)%N by reflexivity. exact Hn'.
      - cbn [code words stack_need eval_in] in *. injection He as <-. apply stored_two in Hs as [S1 S2].
        destruct (eval_step fuel len ip) as [f ->]; [unfold nn in *; lia|auto|]. cbn [eval_loop]. destruct (N.ltb_spec ip len); [|unfold nn in Hl; lia]. rewrite S1, S2.
        unfold stack_push. destruct (Nat.ltb_spec (length stack) stack_capacity); [|unfold stack_capacity in *; lia]. rewrite of_N_val. apply Hk. unfold nn in *; lia.
      - cbn [code words stack_need eval_in] in *. destruct (eval_in cols x a) as [va|] eqn:Ea; [|discriminate]. destruct (eval_in cols x b) as [vb|] eqn:Eb; [|discriminate]. injection He as <-.
        apply stored_app in Hs as [S1 Hs]. apply stored_app in Hs as [S2 S3]. rewrite !code_length in *. apply stored_one in S3.
        apply (IHa va bc off len ip stack k M' ev eq_refl S1); auto; [unfold nn in *; lia|lia|]. clear Hf fuel.
        replace (off + ip + nn (words a))%N with (off + (ip + nn (words a)))%N in * by lia.
        apply (IHb vb bc off len _ (va :: stack) k M' ev eq_refl S2); [unfold nn in *; lia|cbn [length]; lia|].
        intros fuel Hf. replace (off + (ip + nn (words a)) + nn (words b))%N with (off + (ip + nn (words a) + nn (words b)))%N in S3 by lia.
        destruct (eval_step fuel len (ip + nn (words a) + nn (words b))) as [f ->]; [unfold nn in *; lia|auto|]. cbn [eval_loop]. destruct (N.ltb_spec (ip + nn (words a) + nn (words b)) len); [|unfold nn in *; lia]. rewrite S3.
        assert (Hp : forall w, w = (match o with OAdd => va + vb | OSub => va - vb | OMul => va * vb end)%F -> exists n, runs (stack_push stack w (fun st => eval_loop f bc off len (ip + nn (words a) + nn (words b) + 1) st (nn r) k)) (column_major W X) M' ev n).
        { intros w ->. unfold stack_push. destruct (Nat.ltb_spec (length stack) stack_capacity); [|unfold stack_capacity in *; lia].
          replace (ip + nn (words a) + nn (words b) + 1)%N with (ip + nn (words a + words b + 1))%N by (unfold nn; lia). apply Hk. unfold nn in *; lia. }
        destruct o; cbn iota; apply Hp; auto.
      - cbn [code words stack_need eval_in] in *. destruct (eval_in cols x a) as [va|] eqn:Ea; [|discriminate]. injection He as <-.
        apply stored_app in Hs as [S1 S3]. rewrite !code_length in *. apply stored_one in S3.
        apply (IHa va bc off len ip stack k M' ev eq_refl S1); auto; [unfold nn in *; lia|]. clear Hf fuel. intros fuel Hf.
        replace (off + ip + nn (words a))%N with (off + (ip + nn (words a)))%N in * by lia.
        destruct (eval_step fuel len (ip + nn (words a))) as [f ->]; [unfold nn in *; lia|auto|]. cbn [eval_loop]. destruct (N.ltb_spec (ip + nn (words a)) len); [|unfold nn in *; lia]. rewrite S3.
        unfold stack_push. destruct (Nat.ltb_spec (length stack) stack_capacity); [|pose proof (need_pos a); unfold stack_capacity in *; lia].
        replace (ip + nn (words a) + 1)%N with (ip + nn (words a + 1))%N by (unfold nn; lia). apply Hk. unfold nn in *; lia.
    Qed.
    Lemma eval_within (e : aexpr p) (S : N -> Prop) : (forall a, cell W H r a -> S a) -> (forall v, occurs v e -> In (vid v) cols) -> forall bc off len ip stack k,
      stored bc (off + ip) (code cols (nn H) e) -> (ip + nn (words e) <= len)%N ->
      (forall v, from bc off len r k (ip + nn (words e)) (v :: stack) (within S)) -> from bc off len r k ip stack (within S).
    Proof.
      intros HS. induction e as [u|c|a IHa o b IHb|a IHa]; intros Hv bc off len ip stack k Hs Hl Hk fuel Hf.
      - cbn [code words] in *. destruct (index_of (vid u) cols) as [i|] eqn:Ei; [|exfalso; apply index_none in Ei; apply Ei, Hv; cbn; auto]. apply stored_two in Hs as [S1 S2].
        destruct (eval_step fuel len ip) as [f ->]; [unfold nn in *; lia|auto|]. cbn [eval_loop]. destruct (N.ltb_spec ip len); [|unfold nn in Hl; lia]. rewrite S1, S2.
        assert (Hi : i < W) by (rewrite <- HW; eapply index_lt; eauto). rewrite col_small by auto. cbn [within]. split; [apply HS; exists i; auto|].
        intros v. unfold stack_push. destruct (length stack <? stack_capacity); [|exact Logic.I]. replace (ip + 2)%N with (ip + nn 2)%N by reflexivity. apply Hk. unfold nn in *; lia.
      - cbn [code words] in *. apply stored_two in Hs as [S1 S2].
        destruct (eval_step fuel len ip) as [f ->]; [unfold nn in *; lia|auto|]. cbn [eval_loop]. destruct (N.ltb_spec ip len); [|unfold nn in Hl; lia]. rewrite S1, S2.
        unfold stack_push. destruct (length stack <? stack_capacity); [|exact Logic.I]. apply Hk. unfold nn in *; lia.
      - cbn [code words] in *. apply stored_app in Hs as [S1 Hs]. apply stored_app in Hs as [S2 S3]. rewrite !code_length in *. apply stored_one in S3.
        apply (IHa ltac:(intros v Y; apply Hv; cbn; auto) bc off len ip stack k S1); auto; [unfold nn in *; lia|]. clear Hf fuel. intros va.
        replace (off + ip + nn (words a))%N with (off + (ip + nn (words a)))%N in * by lia.
        apply (IHb ltac:(intros v Y; apply Hv; cbn; auto) bc off len _ (va :: stack) k S2); [unfold nn in *; lia|]. intros vb.
        intros fuel Hf. replace (off + (ip + nn (words a)) + nn (words b))%N with (off + (ip + nn (words a) + nn (words b)))%N in S3 by lia.
        destruct (eval_step fuel len (ip + nn (words a) + nn (words b))) as [f ->]; [unfold nn in *; lia|auto|]. cbn [eval_loop]. destruct (N.ltb_spec (ip + nn (words a) + nn (words b)) len); [|unfold nn in *; lia]. rewrite S3.
        assert (Hp : forall w, within S (stack_push stack w (fun st => eval_loop f bc off len (ip + nn (words a) + nn (words b) + 1) st (nn r) k))).
        { intros w. unfold stack_push. destruct (length stack <? stack_capacity); [|exact Logic.I].
          replace (ip + nn (words a) + nn (words b) + 1)%N with (ip + nn (words a + words b + 1))%N by (unfold nn; lia). apply Hk. unfold nn in *; lia. }
        destruct o; cbn iota; apply Hp.
      - cbn [code words] in *. apply stored_app in Hs as [S1 S3]. rewrite !code_length in *. apply stored_one in S3.
        apply (IHa ltac:(intros v Y; apply Hv; cbn; auto) bc off len ip stack k S1); auto; [unfold nn in *; lia|]. clear Hf fuel. intros va fuel Hf.
        replace (off + ip + nn (words a))%N with (off + (ip + nn (words a)))%N in * by lia.
        destruct (eval_step fuel len (ip + nn (words a))) as [f ->]; [unfold nn in *; lia|auto|]. cbn [eval_loop]. destruct (N.ltb_spec (ip + nn (words a)) len); [|unfold nn in *; lia]. rewrite S3.
        unfold stack_push. destruct (length stack <? stack_capacity); [|exact Logic.I].
        replace (ip + nn (words a) + 1)%N with (ip + nn (words a + 1))%N by (unfold nn; lia). apply Hk. unfold nn in *; lia.
    Qed.
    (** A span that holds the code of one expression. *)
    Lemma arg_runs (e : aexpr p) v bc s k M' ev n : eval_in cols x e = Some v -> stored bc (sp_off s) (code cols (nn H) e) -> sp_len s = nn (words e) -> stack_need e <= 16 ->
      runs (k v) (column_major W X) M' ev n -> exists n', runs (eval_arg s bc (nn r) k) (column_major W X) M' ev n'.
    Proof.
      intros He Hs Hl Hn Hk. unfold eval_arg. eapply (eval_code e v bc (sp_off s) (sp_len s) 0 [] k M' ev); auto.
      - now rewrite N.add_0_r.
      - rewrite Hl. unfold nn. lia.
      - intros fuel Hf. assert (Hend : forall f, eval_loop f bc (sp_off s) (sp_len s) (0 + nn (words e)) [v] (nn r) k = k v).
        { intros [|f]; cbn [eval_loop]; (destruct (N.ltb_spec (0 + nn (words e)) (sp_len s)); [lia|auto]). }
        rewrite Hend. eauto.
      - rewrite Hl. unfold nn. lia.
    Qed.
    Lemma arg_within (e : aexpr p) (S : N -> Prop) bc s (k : F p -> prog p) : (forall a, cell W H r a -> S a) -> (forall v, occurs v e -> In (vid v) cols) ->
      stored bc (sp_off s) (code cols (nn H) e) -> sp_len s = nn (words e) -> (forall v, within S (k v)) -> within S (eval_arg s bc (nn r) k).
    Proof.
      intros HS Hv Hs Hl Hk. unfold eval_arg. eapply (eval_within e S HS Hv bc (sp_off s) (sp_len s) 0 [] k); auto.
      - now rewrite N.add_0_r.
      - rewrite Hl. unfold nn. lia.
      - intros v fuel Hf. assert (Hend : forall f, eval_loop f bc (sp_off s) (sp_len s) (0 + nn (words e)) [v] (nn r) k = k v).
        { intros [|f]; cbn [eval_loop]; (destruct (N.ltb_spec (0 + nn (words e)) (sp_len s)); [lia|auto]). }
        rewrite Hend. auto.
      - rewrite Hl. unfold nn. lia.
    Qed.
  End Eval.
End Bytecode.
