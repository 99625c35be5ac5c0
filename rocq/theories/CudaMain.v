(** The GPU computes the trace and the lookups of the CPU. *)
From Coq Require Import Arith ZArith NArith Bool List Lia.
From Verif Require Import Field ExprModel SystemModel SymModel SymSpec TraceModel TraceSpec SymFacts TraceFacts TraceMain CudaModel CudaSpec CudaSched CudaFacts CudaCompile.
Import ListNotations.

Section Tracegen.
  Context {p : positive}.
  Local Notation row := (list (F p)).
  Section Row.
    Variables (W H calls r : nat) (airs : list (dair p)).
    Hypothesis Hsz : (nn W * nn H <= 2 ^ 32)%N.
    Hypothesis HW : (nn W <= 2 ^ 31)%N.
    Hypothesis Hcalls : (nn calls < 2 ^ 31)%N.
    Hypothesis Hr : r < H.
    Definition source (s : dsub) : option (F p) :=
      match load airs (size_t (su_air s)) with
      | Some air => load (da_buffer air) (u64 (u64 (size_t (su_col s) * size_t (da_height air)) + u64 (size_t (su_row s) + nn r * size_t (da_block air))))
      | None => None
      end.
    Definition writes (s : dsub) (i : nat) (v : F p) : Prop := su_apc s = i32 (nn i) /\ i < W /\ (r < calls -> source s = Some v) /\ (calls <= r -> v = 0%F).
    Lemma dst_small i : i < W -> u64 (u64 (size_t (i32 (nn i)) * nn H) + nn r) = (nn i * nn H + nn r)%N.
    Proof.
      intros Hi. rewrite size_i32 by (unfold nn in *; lia). assert (nn i * nn H + nn r < 2 ^ 64)%N by (unfold nn in *; change (2 ^ 32)%N with 4294967296%N in *; change (2 ^ 64)%N with 18446744073709551616%N; nia).
      rewrite (u64_id (nn i * nn H)) by lia. now apply u64_id.
    Qed.
    Lemma tracegen_within (S : N -> Prop) subs (k : prog p) : (forall s, In s subs -> exists i, su_apc s = i32 (nn i) /\ i < W) -> (forall a, cell W H r a -> S a) -> within S k ->
      within S (tracegen_row (nn H) airs subs (i32 (nn calls)) (nn r) k).
    Proof.
      intros Hs HS Hk. induction subs as [|s subs IH]; cbn [tracegen_row]; auto. destruct (Hs s (or_introl eq_refl)) as (i & E & Hi). rewrite E, dst_small by auto.
      assert (IHk : within S (tracegen_row (nn H) airs subs (i32 (nn calls)) (nn r) k)) by (apply IH; intros s' Hs'; apply Hs; now right).
      assert (Hc : S (nn i * nn H + nn r)%N) by (apply HS; exists i; auto).
      destruct (nn r <? _)%N; [|split; auto]. destruct (load airs _) as [air|]; [|exact Logic.I]. destruct (load (da_buffer air) _); [|exact Logic.I]. split; auto.
    Qed.
    Lemma writes_inj s i v i' v' : writes s i v -> writes s i' v' -> i = i'.
    Proof. intros (E & L & _) (E' & L' & _). apply nn_inj. rewrite <- (size_i32 (nn i)), <- (size_i32 (nn i')) by (unfold nn in *; lia). congruence. Qed.
    Lemma tracegen_runs (y : row) : length y = W -> forall subs X x (k : prog p) M' e n, dims W H X -> nth_error X r = Some x ->
      (forall s, In s subs -> exists i v, writes s i v /\ nth_error y i = Some v) ->
      (forall i, nth_error x i <> nth_error y i -> exists s v, In s subs /\ writes s i v) ->
      runs k (column_major W (update X r y)) M' e n -> exists n', runs (tracegen_row (nn H) airs subs (i32 (nn calls)) (nn r) k) (column_major W X) M' e n'.
    Proof.
      intros Ly. induction subs as [|s subs IH]; intros X x k M' e n HX Hx Hs Hd Hk; cbn [tracegen_row].
      - assert (x = y) as ->.
        { apply nth_error_ext_len; [destruct HX as [_ HX]; rewrite (HX x) by (eapply nth_error_In; eauto); auto|]. intros i a b Ha Hb. destruct (feqb a b) eqn:E; [now apply feqb_eq in E|]. apply feqb_neq in E. destruct (Hd i) as (s & _ & [] & _). rewrite Ha, Hb. congruence. }
        rewrite update_same in Hk by auto. eauto.
      - destruct (Hs s (or_introl eq_refl)) as (i & v & Hw & Hy). pose proof Hw as (E & Hi & H1 & H2). rewrite E, dst_small by auto. rewrite size_i32 by auto.
        assert (Lx : length x = W) by (destruct HX as [_ HX]; apply HX; eapply nth_error_In; eauto).
        destruct (set_at_ok i v x) as [x1 E1]; [lia|]. pose proof (set_at_inv _ _ _ _ E1) as (L1 & _ & N1).
        destruct (IH (update X r x1) x1 k M' e n) as (n1 & R1).
        { apply dims_update; auto. lia. } { eapply update_at; eauto. } { intros s' Hs'. apply Hs. now right. }
        { intros j Hj. rewrite N1 in Hj. destruct (Nat.eqb_spec j i) as [Eji|D]; [rewrite Eji in Hj; congruence|]. destruct (Hd j Hj) as (s' & v' & [<-|Hin] & Hw'); [|eauto]. exfalso. apply D. eapply writes_inj; eauto. }
        { now rewrite update_update. }
        assert (G : exists n', runs (Write (nn i * nn H + nn r)%N v (tracegen_row (nn H) airs subs (i32 (nn calls)) (nn r) k)) (column_major W X) M' e n').
        { exists (S n1). eapply runs_write; [|exact R1]. apply cm_set with (x := x); auto. }
        destruct (N.ltb_spec (nn r) (nn calls)) as [L|L].
        + specialize (H1 ltac:(unfold nn in L; lia)). unfold source in H1. destruct (load airs _) as [air|]; [|discriminate]. rewrite H1. exact G.
        + rewrite (H2 ltac:(unfold nn in L; lia)) in G. exact G.
    Qed.
  End Row.

  (** ** The tables for the kernel *)
  Definition sub_at (cols : list N) (g c o : nat) (id : N) (s : dsub) : Prop := exists i, index_of id cols = Some i /\ s = mkSub (i32 (nn g)) (i32 (nn c)) (i32 (nn o)) (i32 (nn i)).
  Lemma in_numbered {A} (l : list (list A)) : forall k o x, In (o, x) (flat_map (fun y : nat * list A => map (pair (fst y)) (snd y)) (combine (seq k (length l)) l)) <-> exists o' sl, o = k + o' /\ nth_error l o' = Some sl /\ In x sl.
  Proof.
    induction l as [|z l IH]; intros k o x; cbn.
    - split; [intros []|intros (o' & sl & _ & H & _); now destruct o'].
    - rewrite in_app_iff, IH. split.
      + intros [H|(o' & sl & -> & H1 & H2)]; [apply in_map_iff in H as (x' & [= <- <-] & H); exists 0, z; repeat split; auto|exists (S o'), sl; repeat split; auto; lia].
      + intros ([|o'] & sl & -> & H1 & H2); cbn in H1; [left; injection H1 as ->; apply in_map_iff; exists x; split; auto; f_equal; lia|right; exists o', sl; repeat split; auto; lia].
  Qed.
  Lemma group_subs_ok cols k g : (forall sl c id, In sl g -> In (c, id) sl -> In id cols) ->
    exists subs, group_subs cols k g = Some subs /\ forall s, In s subs <-> exists o sl c id, nth_error g o = Some sl /\ In (c, id) sl /\ sub_at cols k c o id s.
  Proof.
    intros Hg. unfold group_subs. set (l := flat_map _ _). set (f := fun x : nat * (nat * N) => _).
    assert (Hl : forall o c id, In (o, (c, id)) l <-> exists sl, nth_error g o = Some sl /\ In (c, id) sl).
    { intros o c id. unfold l. rewrite in_numbered. split; [intros (o' & sl & -> & H1 & H2); cbn; eauto|intros (sl & H1 & H2); exists o, sl; auto]. }
    destruct (all_opt_ok f l) as [subs E].
    { intros [o [c id]] Hx. apply Hl in Hx as (sl & H1 & H2). unfold f. cbn [fst snd]. pose proof (Hg sl c id (nth_error_In _ _ H1) H2) as Hc. destruct (index_of id cols) as [i|] eqn:Ei; [eauto|]. now apply index_none in Ei. }
    exists subs. split; auto. apply all_opt_nth in E as [LE NE]. intros s. split.
    - intros Hs. apply In_nth_error in Hs as [n Hn]. destruct (nth_error l n) as [[o [c id]]|] eqn:En; [|apply nth_error_None in En; assert (X : nth_error subs n <> None) by congruence; apply nth_error_Some in X; lia].
      destruct (NE n _ En) as (s' & S1 & S2). assert (s' = s) as -> by congruence. unfold f in S2. cbn [fst snd] in S2. destruct (index_of id cols) as [i|] eqn:Ei; [|discriminate]. injection S2 as <-.
      apply nth_error_In in En. apply Hl in En as (sl & H1 & H2). exists o, sl, c, id. split; auto. split; auto. exists i. auto.
    - intros (o & sl & c & id & H1 & H2 & i & Ei & ->). assert (Hin : In (o, (c, id)) l) by (apply Hl; eauto). apply In_nth_error in Hin as [n Hn]. destruct (NE n _ Hn) as (s' & S1 & S2). unfold f in S2. cbn [fst snd] in S2. rewrite Ei in S2. injection S2 as <-. eapply nth_error_In; eauto.
  Qed.
  Lemma host_ok cols (traces : N -> option (nat * list row)) instrs wd rws : forall order k,
    (forall a, In a order -> traces a = Some (wd a, rws a) /\ forall sl c id, In sl (group instrs a) -> In (c, id) sl -> In id cols) ->
    exists airs subs, host_airs cols traces instrs k order = Some (airs, subs) /\
      Forall2 (fun a d => d = mkAir (i32 (nn (length (rws a)))) (column_major (wd a) (rws a)) (i32 (nn (length (group instrs a))))) order airs /\
      forall s, In s subs <-> exists g a o sl c id, nth_error order g = Some a /\ nth_error (group instrs a) o = Some sl /\ In (c, id) sl /\ sub_at cols (k + g) c o id s.
  Proof.
    induction order as [|a order IH]; intros k Ho; cbn [host_airs].
    - exists [], []. split; auto. split; [constructor|]. intros s. split; [intros []|intros (g & a & o & sl & c & id & H & _); now destruct g].
    - destruct (Ho a (or_introl eq_refl)) as [Ht Hg]. destruct (group_subs_ok cols k (group instrs a)) as (subs & -> & Hs); auto. rewrite Ht.
      destruct (IH (S k)) as (airs & subs' & -> & HF & Hs'); [intros b Hb; apply Ho; now right|]. eexists _, _. split; [reflexivity|]. split; [constructor; auto|].
      intros s. rewrite in_app_iff, Hs, Hs'. split.
      + intros [(o & sl & c & id & H1 & H2 & H3)|(g & b & o & sl & c & id & H0 & H1 & H2 & H3)].
        * exists 0, a, o, sl, c, id. rewrite Nat.add_0_r. auto.
        * exists (S g), b, o, sl, c, id. replace (k + S g) with (S k + g) by lia. auto.
      + intros ([|g] & b & o & sl & c & id & H0 & H1 & H2 & H3); cbn in H0.
        * injection H0 as <-. left. rewrite Nat.add_0_r in H3. exists o, sl, c, id. auto.
        * right. exists g, b, o, sl, c, id. replace (S k + g) with (k + S g) by lia. auto.
  Qed.
  Lemma group_nth (instrs : list (N * list (nat * N))) a : forall o sl, nth_error (group instrs a) o = Some sl <-> exists j, nth_error instrs j = Some (a, sl) /\ o = count_air a (firstn j (map fst instrs)).
  Proof.
    induction instrs as [|[b s] instrs IH]; intros o sl.
    - unfold group. cbn. split; [now destruct o|]. intros (j & H & _). now destruct j.
    - unfold group in *. cbn [filter fst]. destruct (N.eqb_spec b a) as [->|D].
      + cbn [map]. destruct o as [|o]; cbn [nth_error].
        * split; [intros [= <-]; exists 0; auto|]. intros ([|j] & H & E); cbn in H; [injection H as ->; auto|]. cbn in E. unfold count_air in E. cbn in E. rewrite N.eqb_refl in E. discriminate.
        * rewrite IH. split; intros (j & H & E).
          -- exists (S j). split; auto. cbn [map firstn]. unfold count_air in *. cbn [filter fst]. rewrite N.eqb_refl. cbn [length]. now rewrite E.
          -- destruct j as [|j]; [cbn in E; discriminate|]. exists j. split; auto. cbn [map firstn] in E. unfold count_air in *. cbn [filter fst] in E. rewrite N.eqb_refl in E. cbn [length] in E. lia.
      + rewrite IH. split; intros (j & H & E).
        * exists (S j). split; auto. cbn [map firstn]. unfold count_air in *. cbn [filter fst]. destruct (N.eqb_spec a b); [congruence|auto].
        * destruct j as [|j]; [cbn in H; congruence|]. exists j. split; auto. cbn [map firstn] in E. unfold count_air in *. cbn [filter fst] in E. destruct (N.eqb_spec a b); [congruence|auto].
  Qed.
  Lemma group_length (instrs : list (N * list (nat * N))) a : length (group instrs a) = count_air a (map fst instrs).
  Proof. unfold group, count_air. rewrite map_length. induction instrs as [|[b s] instrs IH]; auto. cbn. rewrite (N.eqb_sym a b). destruct (b =? a)%N; cbn; auto. Qed.
  Lemma real_nth (P : apc p) widths calls : length (apc_airs P) = length (apc_subs_by P) -> Forall (fits (apc_airs P) widths) calls ->
    let U := used (apc_subs_by P) (apc_airs P) in
    forall k call j a r, nth_error calls k = Some call -> nth_error U j = Some a -> nth_error (used (apc_subs_by P) call) j = Some r ->
      nth_error (ar_real (fold_left (exec_call P) calls new_arenas) a) (k * count_air a U + count_air a (firstn j U)) = Some r.
  Proof.
    intros L H U k call j a r Hk Hj Hr.
    assert (HL : Forall (fun c => length c = length (apc_airs P)) calls). { eapply Forall_impl; [|exact H]. intros c Hc. symmetry. unfold fits in Hc. clear - Hc. induction Hc; cbn; auto. }
    destruct (calls_real P calls new_arenas a (eq_sym L) HL) as [-> _]. cbn [new_arenas ar_real app]. rewrite Forall_forall in HL.
    rewrite flat_map_nth with (n := count_air a U) (x := call); auto.
    - rewrite of_air_nth; auto. apply used_length. now rewrite HL; [|apply nth_error_In with k].
    - intros c Hc. apply of_air_length. apply used_length. now rewrite HL.
    - now apply count_lt.
  Qed.
  Lemma real_width (P : apc p) widths calls : length (apc_airs P) = length (apc_subs_by P) -> Forall (fits (apc_airs P) widths) calls ->
    forall a x, In x (ar_real (fold_left (exec_call P) calls new_arenas) a) -> length x = widths a.
  Proof.
    intros L H a x Hx.
    assert (HL : Forall (fun c => length c = length (apc_airs P)) calls). { eapply Forall_impl; [|exact H]. intros c Hc. symmetry. unfold fits in Hc. clear - Hc. induction Hc; cbn; auto. }
    destruct (calls_real P calls new_arenas a (eq_sym L) HL) as [E _]. rewrite E in Hx. cbn [new_arenas ar_real app] in Hx. apply in_flat_map in Hx as (c & Hc & Hx). rewrite Forall_forall in H. pose proof (H c Hc) as Hf. unfold fits in Hf.
    apply used_forall2 with (subs := apc_subs_by P) in Hf. set (U := used (apc_subs_by P) (apc_airs P)) in *. unfold of_air in Hx. apply in_map_iff in Hx as ([b y] & <- & Hx). apply filter_In in Hx as [Hx Eb]. cbn in Eb |- *. apply N.eqb_eq in Eb. subst b.
    clear - Hf Hx. induction Hf as [|u v l l' Huv Hf IH]; [destruct Hx|]. cbn in Hx. destruct Hx as [[= -> ->]|Hx]; auto.
  Qed.
End Tracegen.

Section Main.
  Context {p : positive}.
  Local Notation row := (list (F p)).
  Lemma repeat_row {A} (x : A) n : forall i, i < n -> nth_error (repeat x n) i = Some x.
  Proof. induction n as [|n IH]; intros [|i] L; cbn; auto; try lia. apply IH. lia. Qed.
  Lemma zeros_major W H : column_major W (repeat (repeat (0%F : F p) W) H) = repeat 0%F (W * H).
  Proof.
    apply nth_error_ext_len; [rewrite cm_length, !repeat_length; auto|]. intros i a b Ha Hb. apply nth_error_In in Ha, Hb. apply repeat_spec in Hb. subst b.
    unfold column_major in Ha. apply in_concat in Ha as (l & Hl & Ha). apply in_map_iff in Hl as (c & <- & _). apply in_map_iff in Ha as (x & <- & Hx). apply repeat_spec in Hx. subst x.
    destruct (nth_in_or_default c (repeat (0%F : F p) W) 0%F) as [Hi| ->]; auto. now apply repeat_spec in Hi.
  Qed.
  Lemma zeros_dims W H : dims W H (repeat (repeat (0%F : F p) W) H).
  Proof. split; [now rewrite repeat_length|]. intros x Hx. apply repeat_spec in Hx. subst x. apply repeat_length. Qed.
  Lemma all_opt_concat {A B} (f : A -> option B) : forall ll ls, all_opt (map f (concat ll)) = Some ls ->
    exists lss, length lss = length ll /\ ls = concat lss /\ forall k l bs, nth_error ll k = Some l -> nth_error lss k = Some bs -> all_opt (map f l) = Some bs.
  Proof.
    induction ll as [|l ll IH]; intros ls Hl; cbn [concat map] in Hl.
    - injection Hl as <-. exists []. repeat split; auto. intros [|k]; discriminate.
    - rewrite map_app in Hl. assert (G : forall (a b : list (option B)) c, all_opt (a ++ b) = Some c -> exists x y, all_opt a = Some x /\ all_opt b = Some y /\ c = x ++ y).
      { clear. induction a as [|[v|] a IH]; intros b c Hc; cbn in *; [exists [], c; auto| |discriminate]. destruct (all_opt (a ++ b)) as [c'|] eqn:E; [|discriminate]. injection Hc as <-. destruct (IH b c' E) as (x & y & E1 & E2 & ->). rewrite E1. exists (v :: x), y. auto. }
      apply G in Hl as (x & y & E1 & E2 & ->). destruct (IH y E2) as (lss & L & -> & Hk). exists (x :: lss). cbn. split; auto. split; auto. intros [|k] l' bs H1 H2; cbn in *; [congruence|eauto].
  Qed.
  Lemma concat_concat {A} (l : list (list (list A))) : concat (map (@concat A) l) = concat (concat l).
  Proof. induction l as [|x l IH]; cbn; auto. now rewrite concat_app, IH. Qed.
  Lemma used_in {A B} (subs : list (list A)) (l : list B) x : In x (used subs l) -> In x l.
  Proof. unfold used. intros Hx. apply in_map_iff in Hx as ([s y] & <- & Hx). apply filter_In in Hx as [Hx _]. now apply in_combine_r in Hx. Qed.
  Lemma count_le a (l : list N) : count_air a l <= length l.
  Proof. unfold count_air. induction l; cbn; auto. destruct (_ =? _)%N; cbn; lia. Qed.
  Lemma used_le {A B} (subs : list (list A)) (l : list B) : length (used subs l) <= length l.
  Proof. revert l. induction subs as [|s subs IH]; intros [|x l]; try (cbn; lia). rewrite used_cons. specialize (IH l). destruct (is_empty s); cbn; lia. Qed.
  Theorem device_same (P : apc p) ch widths padding order calls rows effects bins :
    let A := fold_left (exec_call P) calls new_arenas in
    let W := length (main_columns (apc_machine P)) in
    calls <> [] -> Forall (fits (apc_airs P) widths) calls -> (forall a x, In x (padding a) -> length x = widths a) ->
    NoDup (map snd (concat (apc_subs_by P))) ->
    (forall d v, In d (sm_derived (apc_machine P)) -> method_reads (snd d) v -> column_id (apc_machine P) (vid v)) ->
    lists_airs P order -> all_chips ch -> device_fits P ch (fun a => ar_real A a ++ padding a) (length calls) ->
    generate_witness P widths (fun a => concat (padding a)) A = Some (rows, effects) -> apply_all ch effects = Some bins ->
    exists la M1, try_generate_witness P ch order (device_traces P widths padding A) (length calls) = Some la /\
      la_height la = length rows /\ la_width la = W /\
      forall C, completes (la_trace la) (repeat 0%F (W * length rows)) C M1 C /\
        completes (la_derived la) M1 C (column_major W rows) C /\
        completes (la_bus la) (column_major W rows) C (column_major W rows) (fun b => C b + requests b bins)%N.
  Proof.
    intros A W Hne Hfit Hpad Hnd Hreads [Hord Hin] (bit & tuple & Hbit & Htuple & Hids) HF HG HB.
    unfold generate_witness in HG.
    set (ws := fun a => if existsb (N.eqb a) (apc_airs P) then Some (widths a) else None) in HG.
    destruct (generate_trace ws (ar_calls A) P) as [td|] eqn:G; [|discriminate]. destruct (generate_inv _ _ _ _ G) as (LS & Tc & Td & Tm & Tl & Tv).
    assert (HL : Forall (fun c => length c = length (apc_airs P)) calls).
    { eapply Forall_impl; [|exact Hfit]. intros c Hc. symmetry. unfold fits in Hc. clear - Hc. induction Hc; cbn; auto. }
    assert (Ec : ar_calls A = length calls) by (destruct (calls_real P calls new_arenas 0%N (eq_sym LS) HL) as [_ E]; exact E).
    rewrite Ec in *. pose proof (main_columns_ok (apc_machine P)) as [Hso Hcol]. set (cols := main_columns (apc_machine P)) in *. pose proof (sorted_nodup _ Hso) as Hcn. rewrite Tc in HG.
    destruct (Nat.eqb_spec (length cols) 0) as [E0|E0]; [discriminate|]. pose proof (pow_ge (length calls)) as Hp. rewrite firstn_all2 in HG by lia.
    set (data := fun a => chip_trace (ar_real A a) (concat (padding a))) in HG.
    destruct (all_opt (map (fill_row P data td) (td_values td))) as [filled|] eqn:Fl; [|discriminate]. injection HG as <- <-. apply all_opt_nth in Fl as [LF HFl].
    set (H := next_power_of_two_or_zero (length calls)) in *.
    assert (LR : length (map fst filled ++ repeat (repeat 0%F (length cols)) (H - length filled)) = H) by (rewrite app_length, map_length, repeat_length; lia). rewrite LR.
    assert (Hcp : 0 < length calls) by (destruct calls; [congruence|cbn; lia]).
    destruct HF as [Fcalls Ftrace Fcolumns Fairs Forig Frows Fderived Fbus Fspans Fsd Fsb Fids [Fb1 Fb2]]. fold cols in Ftrace, Fcolumns. fold H in Ftrace.
    fold (nn (length calls)) in Fcalls. fold (nn (length cols)) in Ftrace, Fcolumns. fold (nn H) in Ftrace. fold (nn (length (apc_airs P))) in Fairs.
    assert (HH : 0 < H) by lia. assert (HWs : (nn (length cols) * nn H <= 2 ^ 32)%N) by exact Ftrace.
    (* rows between the kernels *)
    set (zero := repeat (0%F : F p) (length cols)) in *.
    set (X1 := map (fun refs => match copy_rows data refs (td_maps td) zero with Some r0 => r0 | None => zero end) (td_values td) ++ repeat zero (H - length filled)).
    set (X2 := map fst filled ++ repeat zero (H - length filled)) in *.
    assert (HR : forall k, k < length calls -> exists refs r0 r effs, nth_error (td_values td) k = Some refs /\ nth_error filled k = Some (r, effs) /\ copy_rows data refs (td_maps td) zero = Some r0 /\
      compute_derived cols (sm_derived (apc_machine P)) r0 = Some r /\ all_opt (map (replay cols r) (sm_buses (apc_machine P))) = Some effs /\ nth_error X1 k = Some r0 /\ nth_error X2 k = Some r /\ length r0 = length cols /\ length r = length cols).
    { intros k Hk. destruct (Tv k Hk) as (refs & Hr & _). destruct (HFl k refs Hr) as ([r effs] & H1 & H2). unfold fill_row in H2. rewrite Tc, Td in H2. fold zero in H2. destruct (copy_rows _ _ _ _) as [r0|] eqn:Cp; [|discriminate]. destruct (compute_derived _ _ r0) as [r1|] eqn:D; [|discriminate].
      destruct (all_opt (map (replay cols r1) _)) as [es|] eqn:Es; [|discriminate]. injection H2 as <- <-. exists refs, r0, r1, es.
      pose proof (copy_rows_inv _ _ _ _ _ Cp) as (_ & CN & _ & _). unfold zero in CN at 1. rewrite repeat_length in CN. pose proof (compute_inv cols _ Hcn r0 r1 CN D) as (DL & _).
      repeat split; auto.
      - unfold X1. rewrite nth_error_app1 by (rewrite map_length; lia). rewrite (map_nth_error _ _ _ Hr). now rewrite Cp.
      - unfold X2. rewrite nth_error_app1 by (rewrite map_length; lia). exact (map_nth_error fst k filled H1). }
    assert (HZ : forall k, length calls <= k -> k < H -> nth_error X1 k = Some zero /\ nth_error X2 k = Some zero).
    { intros k Hk Hk2. unfold X1, X2. rewrite !nth_error_app2 by (rewrite map_length; lia). rewrite !map_length. split; apply repeat_row; lia. }
    assert (L1 : length X1 = H) by (unfold X1; rewrite app_length, map_length, repeat_length; lia).
    assert (D1 : dims (length cols) H X1).
    { split; auto. intros x Hx. apply In_nth_error in Hx as [k Hx]. assert (Lk : k < H) by (rewrite <- L1; apply nth_error_Some; congruence). destruct (Nat.lt_ge_cases k (length calls)) as [Lc|Lc].
      - destruct (HR k Lc) as (refs & r0 & r & effs & _ & _ & _ & _ & _ & E1 & _ & E2 & _). congruence.
      - destruct (HZ k Lc Lk) as [E1 _]. assert (x = zero) as -> by congruence. apply repeat_length. }
    assert (D2 : dims (length cols) H X2).
    { split; auto. intros x Hx. apply In_nth_error in Hx as [k Hx]. assert (Lk : k < H) by (rewrite <- LR; apply nth_error_Some; congruence). destruct (Nat.lt_ge_cases k (length calls)) as [Lc|Lc].
      - destruct (HR k Lc) as (refs & r0 & r & effs & _ & _ & _ & _ & _ & _ & E1 & _ & E2). congruence.
      - destruct (HZ k Lc Lk) as [_ E1]. assert (x = zero) as -> by congruence. apply repeat_length. }
    (* host *)
    unfold try_generate_witness, with_subs. fold cols. fold H.
    assert (Zq : zip_eq (apc_airs P) (apc_subs_by P) = Some (combine (apc_airs P) (apc_subs_by P))) by (apply zip_eq_some; auto). rewrite Zq. cbn [option_map].
    destruct (filter_used (apc_airs P) (apc_subs_by P) LS) as [E1 E2]. set (instrs := filter _ (combine (apc_airs P) (apc_subs_by P))) in *. set (U := used (apc_subs_by P) (apc_airs P)) in *.
    set (rws := fun a => ar_real A a ++ padding a).
    assert (Hinstr : forall a o sl, nth_error (group instrs a) o = Some sl -> exists j, nth_error U j = Some a /\ o = count_air a (firstn j U) /\ nth_error (filter (fun s => negb (is_empty s)) (apc_subs_by P)) j = Some sl).
    { intros a o sl Ho. apply group_nth in Ho as (j & Hj & ->). exists j. rewrite E1. split; [rewrite <- E1; exact (map_nth_error fst j instrs Hj)|]. split; auto. rewrite <- E2. exact (map_nth_error snd j instrs Hj). }
    assert (Hmaps : forall j sl, nth_error (filter (fun s => negb (is_empty s)) (apc_subs_by P)) j = Some sl -> exists m, nth_error (td_maps td) j = Some m /\ index_map cols sl = Some m).
    { intros j sl Hj. rewrite Tc in Tm. apply forall2_nth in Tm as [LM TM]. destruct (nth_error (td_maps td) j) as [m|] eqn:Em; [|apply nth_error_None in Em; assert (X : nth_error (filter (fun s => negb (is_empty s)) (apc_subs_by P)) j <> None) by congruence; apply nth_error_Some in X; lia]. exists m. split; auto. eapply TM; eauto. }
    destruct (host_ok cols (device_traces P widths padding A) instrs widths rws order 0) as (airs & subs & -> & HA & Hsubs).
    { intros a Ha. split.
      - apply Hin in Ha. fold U in Ha. apply In_nth_error in Ha as [j Hj]. destruct (nth_error calls 0) as [c0|] eqn:Hc0; [|apply nth_error_None in Hc0; lia].
        assert (Lc0 : length c0 = length (apc_airs P)) by (rewrite Forall_forall in HL; apply HL; eapply nth_error_In; eauto).
        destruct (nth_error (used (apc_subs_by P) c0) j) as [src|] eqn:Hsrc; [|apply nth_error_None in Hsrc; rewrite (used_length (apc_subs_by P) c0 (apc_airs P)) in Hsrc by auto; fold U in Hsrc; assert (X : nth_error U j <> None) by congruence; apply nth_error_Some in X; lia].
        pose proof (real_nth P widths calls LS Hfit 0 c0 j a src Hc0 Hj Hsrc) as Hreal. fold A in Hreal.
        unfold device_traces. fold rws. assert (Hex : existsb (N.eqb a) (apc_airs P) = true) by (apply existsb_exists; exists a; split; [eapply used_in; eapply nth_error_In; exact Hj|apply N.eqb_refl]).
        rewrite Hex. unfold rws. apply nth_error_In in Hreal. change (In src (ar_real A a)) in Hreal. destruct (ar_real A a) as [|x l]; [destruct Hreal|]. reflexivity.
      - intros sl c id Hsl Hc. apply In_nth_error in Hsl as [o Ho]. apply Hinstr in Ho as (j & _ & _ & Hj). destruct (Hmaps j sl Hj) as (m & _ & Hm). apply index_map_inv in Hm as (_ & Hm & _). destruct (Hm c id Hc) as (i & Hi & _). apply index_nth in Hi. eapply nth_error_In; eauto. }
    assert (Hdc : forall d, In d (sm_derived (apc_machine P)) -> In (vid (fst d)) cols).
    { destruct (HR 0 Hcp) as (refs & r0 & r & effs & _ & _ & _ & D & _ & _ & _ & N0 & _). pose proof (compute_inv cols _ Hcn r0 r N0 D) as (_ & _ & _ & DC). exact DC. }
    destruct (compile_derived_ok (length cols) H cols eq_refl HWs HH (sm_derived (apc_machine P)) []) as (specs & dcode & -> & Hspecs).
    { exact Fderived. }
    { intros d Hd. split; [auto|]. intros v Hv. apply Hcol. eapply Hreads; eauto. }
    destruct (compile_bus_ok (length cols) H cols eq_refl HWs HH (sm_buses (apc_machine P)) [] []) as (is & spans & bcode & -> & Hinter & Hspans).
    { exact Fbus. } { exact Fspans. }
    { intros b e Hb He v Hv. apply Hcol. exists v. split; auto. right. apply Exists_exists. exists b. split; auto. destruct He as [<-|He]; [now left|right]. apply Exists_exists. exists e. split; auto. }
    cbn [app] in *. rewrite Hbit, Htuple. eexists _, (column_major (length cols) X1). split; [reflexivity|]. cbn [la_height la_width la_trace la_derived la_bus].
    split; auto. split; auto. intros C. split; [|split].
    - (* copied columns *)
      unfold W. fold cols. rewrite <- zeros_major. apply launch256_completes; [apply zeros_dims|auto|]. intros r x y Hx Hy.
      assert (Lr : r < H) by (rewrite <- L1; apply nth_error_Some; congruence).
      assert (Ly : length y = length cols) by (destruct D1 as [_ D1]; apply D1; eapply nth_error_In; eauto).
      assert (x = zero) as -> by (apply nth_error_In in Hx; now apply repeat_spec in Hx). clear Hx.
      assert (Lo : length order <= length (apc_airs P)).
      { eapply Nat.le_trans; [|apply (used_le (apc_subs_by P) (apc_airs P))]. apply NoDup_incl_length; auto. intros a Ha. now apply Hin. }
      assert (Hw : forall s, In s subs -> exists i v, writes (length cols) (length calls) r airs s i v /\ nth_error y i = Some v).
      { intros s Hs. apply Hsubs in Hs as (g & a & o & sl & c & id & Hg & Ho & Hc & i & Hi & ->). pose proof (index_lt _ _ _ Hi) as Li.
        destruct (nth_error y i) as [v|] eqn:Ev; [|apply nth_error_None in Ev; lia]. exists i, v. split; auto. split; [reflexivity|]. split; auto. split.
        - intros Hrc. destruct (Hinstr a o sl Ho) as (j & Uj & -> & Fj). destruct (Hmaps j sl Fj) as (m & Mj & Im). apply index_map_inv in Im as (_ & Im & _). destruct (Im c id Hc) as (i' & Hi' & Hm). assert (i' = i) as -> by congruence.
          destruct (HR r Hrc) as (refs & r0 & r1 & effs & Vr & _ & Cp & _ & _ & X1r & _ & Lr0 & _). assert (y = r0) as -> by congruence.
          pose proof (copy_rows_inv _ _ _ _ _ Cp) as (_ & _ & _ & CV).
          assert (Hpt : NoDup (map snd (concat (td_maps td)))) by (eapply maps_nodup; [|exact Tm|]; [now rewrite Tc|now rewrite filter_concat]).
          destruct (Tv r Hrc) as (refs' & Vr' & Lrefs & Href). assert (refs' = refs) as -> by congruence. fold U in Lrefs, Href. destruct (Href j a Uj) as (w & Hwa & Hrj). unfold ws in Hwa. destruct (existsb _ _) eqn:Hex in Hwa; [|discriminate]. injection Hwa as <-.
          destruct (CV Hpt j _ m Hrj Mj) as (src & Hsl & Hval). cbn [rr_air rr_start rr_length] in Hsl. specialize (Hval c i Hm). rewrite Ev in Hval.
          destruct (nth_error calls r) as [call|] eqn:Hcall; [|apply nth_error_None in Hcall; lia].
          assert (Lcall : length call = length (apc_airs P)) by (rewrite Forall_forall in HL; apply HL; eapply nth_error_In; eauto).
          destruct (nth_error (used (apc_subs_by P) call) j) as [src'|] eqn:Hsrc; [|apply nth_error_None in Hsrc; rewrite (used_length (apc_subs_by P) call (apc_airs P)) in Hsrc by auto; fold U in Hsrc; assert (X : nth_error U j <> None) by congruence; apply nth_error_Some in X; lia].
          pose proof (source_ok P widths (fun a => concat (padding a)) calls A LS Hfit eq_refl r call j a src' Hcall Uj Hsrc) as Hso'. fold U data in Hso'. assert (src' = src) as -> by (unfold data in Hsl; congruence).
          pose proof (real_nth P widths calls LS Hfit r call j a src Hcall Uj Hsrc) as Hreal. fold A U in Hreal.
          assert (Hrow : nth_error (rws a) (r * count_air a U + count_air a (firstn j U)) = Some src) by (unfold rws; rewrite nth_error_app1; auto; apply nth_error_Some; congruence).
          assert (Dm : dims (widths a) (length (rws a)) (rws a)). { split; auto. intros x Hx. unfold rws in Hx. apply in_app_iff in Hx as [Hx|Hx]; [eapply real_width; eauto|eauto]. }
          assert (Lsrc : length src = widths a) by (destruct Dm as [_ Dm]; apply Dm; eapply nth_error_In; eauto).
          assert (Lc : c < widths a) by (rewrite <- Lsrc; apply nth_error_Some; congruence).
          assert (Lrow : r * count_air a U + count_air a (firstn j U) < length (rws a)) by (apply nth_error_Some; congruence).
          assert (Ina : In a (apc_airs P)) by (eapply used_in; eapply nth_error_In; exact Uj).
          pose proof (Frows a Ina) as Fra. fold (nn (length (ar_real A a ++ padding a))) in Fra. fold (rws a) in Fra.
          assert (Lg : g < length order) by (apply nth_error_Some; congruence).
          assert (Lcu : count_air a U <= length (apc_airs P)) by (eapply Nat.le_trans; [apply count_le|]; apply used_le).
          assert (Fc : (nn c < 2 ^ 31)%N). { apply nth_error_In in Fj. apply filter_In in Fj as [Fj _]. exact (Forig sl (c, id) Fj Hc). }
          apply forall2_nth in HA as [LA HA]. destruct (nth_error airs g) as [air|] eqn:Ea; [|apply nth_error_None in Ea; lia]. pose proof (HA g a air Hg Ea) as ->.
          unfold source. cbn [su_air su_col su_row]. rewrite Nat.add_0_l. rewrite size_i32 by (unfold nn in *; lia). unfold load at 1, nn at 1. rewrite Nat2N.id, Ea. cbn [da_height da_buffer da_block].
          rewrite group_length, E1. fold U. rewrite !size_i32 by (unfold nn in *; try lia; pose proof (count_lt U j a Uj); lia).
          assert (Eaddr : (nn (count_air a (firstn j U)) + nn r * nn (count_air a U))%N = nn (r * count_air a U + count_air a (firstn j U))) by (unfold nn; lia). rewrite Eaddr.
          rewrite (u64_id (nn (r * _ + _))) by (unfold nn in *; change (2 ^ 31)%N with 2147483648%N in *; change (2 ^ 64)%N with 18446744073709551616%N; lia).
          assert (Hm1 : (nn c * nn (length (rws a)) < 2 ^ 63)%N) by (unfold nn in *; change (2 ^ 31)%N with 2147483648%N in *; change (2 ^ 63)%N with 9223372036854775808%N; nia).
          rewrite (u64_id (nn c * _)) by (change (2 ^ 63)%N with 9223372036854775808%N in *; change (2 ^ 64)%N with 18446744073709551616%N; lia).
          rewrite u64_id by (unfold nn in *; change (2 ^ 31)%N with 2147483648%N in *; change (2 ^ 63)%N with 9223372036854775808%N in *; change (2 ^ 64)%N with 18446744073709551616%N; lia).
          rewrite (cm_load (widths a) (length (rws a)) (rws a) c _ src Dm Lc Hrow). congruence.
        - intros Hrc. destruct (HZ r Hrc Lr) as [Ez _]. assert (y = zero) as -> by congruence. apply nth_error_In in Ev. now apply repeat_spec in Ev. }
      split.
      + intros S k HS Hk. apply (tracegen_within (length cols) H (length calls) r airs); auto. intros s Hs. destruct (Hw s Hs) as (i & v & (Ei & Li & _) & _). eauto.
      + intros X k M' e n HX Hx Hk. cbn [app]. eapply (tracegen_runs (length cols) H (length calls) r airs HWs Fcolumns Fcalls Lr y Ly); eauto.
        intros i Hi. destruct (Nat.lt_ge_cases i (length cols)) as [Li|Li]; [|exfalso; apply Hi; rewrite (proj2 (nth_error_None _ _)), (proj2 (nth_error_None _ _)); auto; unfold zero; rewrite ?repeat_length; lia].
        destruct (Nat.lt_ge_cases r (length calls)) as [Hrc|Hrc]; [|exfalso; destruct (HZ r Hrc Lr) as [Ez _]; apply Hi; congruence].
        destruct (HR r Hrc) as (refs & r0 & r1 & effs & Vr & _ & Cp & _ & _ & X1r & _). assert (y = r0) as -> by congruence. pose proof (copy_rows_inv _ _ _ _ _ Cp) as (_ & _ & CK & _).
        destruct (in_dec Nat.eq_dec i (map snd (concat (td_maps td)))) as [Hi'|Hi']; [|exfalso; apply Hi; now rewrite CK].
        apply in_map_iff in Hi' as ([c i'] & Ei & Hi'). cbn in Ei. subst i'. apply in_concat in Hi' as (m & Hm & Hcm). apply In_nth_error in Hm as [j Hj].
        apply forall2_nth in Tm as [LM TM]. destruct (nth_error (filter (fun s => negb (is_empty s)) (apc_subs_by P)) j) as [sl|] eqn:Fj; [|apply nth_error_None in Fj; assert (Y : nth_error (td_maps td) j <> None) by congruence; apply nth_error_Some in Y; lia].
        pose proof (TM j sl m Fj Hj) as Im. rewrite Tc in Im. apply index_map_inv in Im as (_ & _ & Im). destruct (Im c i Hcm) as (id & Hid & Hii).
        assert (Hins : exists a, nth_error instrs j = Some (a, sl)).
        { rewrite <- E2 in Fj. destruct (nth_error instrs j) as [[a s]|] eqn:Ej; [|apply nth_error_None in Ej; assert (Y : nth_error (map snd instrs) j <> None) by congruence; apply nth_error_Some in Y; rewrite map_length in Y; lia]. rewrite (map_nth_error snd j instrs Ej) in Fj. injection Fj as <-. eauto. }
        destruct Hins as (a & Hja). assert (Hg : nth_error (group instrs a) (count_air a (firstn j U)) = Some sl) by (apply group_nth; exists j; rewrite E1; auto).
        assert (Ina : In a order). { apply Hin. fold U. rewrite <- E1. apply in_map_iff. exists (a, sl). split; auto. eapply nth_error_In; eauto. }
        apply In_nth_error in Ina as [g Hga]. set (s := mkSub (i32 (nn (0 + g))) (i32 (nn c)) (i32 (nn (count_air a (firstn j U)))) (i32 (nn i))).
        assert (Hs : In s subs) by (apply Hsubs; exists g, a, (count_air a (firstn j U)), sl, c, id; repeat split; auto; exists i; auto).
        destruct (Hw s Hs) as (i0 & v & Hw0 & Hv). assert (i0 = i) as ->. { destruct Hw0 as (Ei & Li0 & _). cbn in Ei. apply nn_inj. rewrite <- (size_i32 (nn i)), <- (size_i32 (nn i0)) by (unfold nn in *; lia). congruence. }
        exists s, v. auto.
    - (* derived columns *)
      specialize (Hspecs []). rewrite app_nil_r in Hspecs. unfold W. fold cols.
      assert (Hempty : specs = [] -> X1 = X2).
      { intros ->. inversion Hspecs as [Hds|]. apply nth_error_ext_len; [destruct D2; lia|]. intros k a b Ha Hb. assert (Lk : k < H) by (rewrite <- L1; apply nth_error_Some; congruence). destruct (Nat.lt_ge_cases k (length calls)) as [Lc|Lc].
        - destruct (HR k Lc) as (refs & r0 & r & effs & _ & _ & _ & D & _ & E3 & E4 & _). rewrite <- Hds in D. cbn in D. congruence.
        - destruct (HZ k Lc Lk). congruence. }
      assert (Gd : completes (launch256 (nn H) (derived_row specs dcode (i32 (nn (length calls))))) (column_major (length cols) X1) C (column_major (length cols) X2) C).
      { apply launch256_completes; auto. intros r x y Hx Hy. assert (Lr : r < H) by (rewrite <- L1; apply nth_error_Some; congruence). split.
        - intros S k HS Hk. apply (derived_within (length cols) H cols eq_refl HWs HH (length calls) r dcode Fcalls Lr (sm_derived (apc_machine P))); auto. intros d Hd v Hv. apply Hcol. eapply Hreads; eauto.
        - intros X k M' e n HX Hx' Hk. cbn [app]. destruct (Nat.lt_ge_cases r (length calls)) as [Lc|Lc].
          + destruct (HR r Lc) as (refs & r0 & r1 & effs & _ & _ & _ & D & _ & E3 & E4 & _). assert (x = r0) as -> by congruence. assert (y = r1) as -> by congruence.
            eapply (derived_runs (length cols) H cols eq_refl HWs HH (length calls) r dcode Fcalls Lr (sm_derived (apc_machine P))); eauto. intros d Hd. split; [|auto]. intros v Hv. apply Hcol. eapply Hreads; eauto.
          + destruct (HZ r Lc Lr) as [E3 E4]. assert (x = zero) as -> by congruence. assert (y = zero) as -> by congruence. rewrite update_same in Hk by auto.
            eapply (derived_zero (length cols) H cols eq_refl HWs HH (length calls) r dcode Fcalls Lr (sm_derived (apc_machine P))); eauto. }
      destruct (is_empty specs) eqn:Ee; auto. destruct specs; [|discriminate]. rewrite (Hempty eq_refl). exists 0. intros n M1 C1 ts1 Hst. inversion Hst as [|? ? ? ? Hs1]; subst.
      + repeat split; auto.
      + inversion Hs1 as [? ? ? i ? ? ? ? Hnil]; subst. now destruct i.
    - (* lookups *)
      unfold W. fold cols. unfold apply_all in HB. destruct (all_opt (map _ (concat (map snd filled)))) as [ls|] eqn:Els; [|discriminate]. injection HB as <-.
      apply all_opt_concat in Els as (lss & Ll & -> & Hlss). rewrite map_length in Ll. set (evs := map (@concat bin) lss).
      assert (Lev : length evs = length calls) by (unfold evs; rewrite map_length; lia). rewrite <- concat_concat. fold evs.
      rewrite size_i32, i32_pos by auto. destruct (Z.leb_spec (Z.of_N (nn (length calls))) 0); [unfold nn in *; lia|]. rewrite <- Lev.
      apply (launch128_completes (length cols) H); auto; [lia|]. intros r x ev Hx Hev. assert (Lr : r < H) by (rewrite <- LR; apply nth_error_Some; congruence).
      assert (Lc : r < length calls) by (rewrite <- Lev; apply nth_error_Some; congruence).
      destruct (HR r Lc) as (refs & r0 & r1 & effs & _ & Hf & _ & _ & Hrep & _ & E4 & _). assert (x = r1) as -> by congruence.
      destruct (nth_error lss r) as [bs|] eqn:Ebs; [|apply nth_error_None in Ebs; lia]. unfold evs in Hev. rewrite (map_nth_error _ _ _ Ebs) in Hev. injection Hev as <-.
      pose proof (Hlss r effs bs (map_nth_error snd r filled Hf) Ebs) as Hbs.
      specialize (Hinter [] []). specialize (Hspans []). rewrite !app_nil_r in Hinter. rewrite app_nil_r in Hspans. split.
      + intros S k HS Hk. apply (bus_within (length cols) H cols eq_refl HWs HH ch bit tuple r bcode spans Hspans); auto.
      + intros X k M' e n HX Hx' Hk. rewrite update_same in Hk by auto. eapply (bus_runs (length cols) H cols eq_refl HWs HH ch bit tuple r bcode spans Lr Hbit Htuple Hids Fb1 Fb2 X r1 HX Hx' (sm_buses (apc_machine P)) is Hinter); eauto.
  Qed.
End Main.

(** ** The lookups that are counted *)
Section Counts.
  Context {p : positive}.
  Local Notation effect := (N * F p * list (F p))%type.
  Lemma bin_eqb_eq a b : bin_eqb a b = true <-> a = b.
  Proof.
    destruct a, b; cbn; rewrite ?andb_true_iff, ?N.eqb_eq; split; intros H; try discriminate; try (injection H; intros; subst; auto); try (now subst).
    destruct H as [[-> ->] ->]. auto.
  Qed.
  Lemma requests_repeat b c n : requests b (repeat c n) = if bin_eqb b c then N.of_nat n else 0%N.
  Proof. unfold requests. induction n as [|n IH]; cbn; [destruct (bin_eqb b c); auto|]. destruct (bin_eqb b c); cbn [length]; [|auto]. lia. Qed.
  Definition bins_of (ch : chips) (e : effect) : option (list bin) := apply_bus ch (fst (fst e)) (val (snd (fst e))) (map val (snd e)).
  Lemma requests_sum ch b (w : effect -> bool) effects ls : all_opt (map (bins_of ch) effects) = Some ls ->
    (forall e l, In e effects -> bins_of ch e = Some l -> requests b l = if w e then val (snd (fst e)) else 0%N) ->
    requests b (concat ls) = fold_right N.add 0%N (map (fun e => val (snd (fst e))) (filter w effects)).
  Proof.
    revert ls. induction effects as [|e effects IH]; intros ls Hl Hw; cbn [map all_opt] in Hl; [injection Hl as <-; reflexivity|].
    destruct (bins_of ch e) as [l|] eqn:El; [|discriminate]. destruct (all_opt (map _ effects)) as [ls'|] eqn:E; [|discriminate]. injection Hl as <-. cbn [concat]. rewrite requests_app, (Hw e l) by (auto; now left). rewrite (IH ls') by (auto; intros e' l' He'; apply Hw; now right).
    cbn [filter]. destruct (w e); cbn [map fold_right]; auto.
  Qed.
  Lemma times_requests m o l b : times m o = Some l -> requests b l = match o with Some c => if bin_eqb b c then m else 0%N | None => 0%N end.
  Proof.
    unfold times. destruct (N.eqb_spec m 0) as [->|Hm].
    - intros [= <-]. cbn. destruct o as [c|]; auto. now destruct (bin_eqb b c).
    - destruct o as [c|]; [|discriminate]. intros [= <-]. rewrite requests_repeat, N2Nat.id. auto.
  Qed.
  Lemma range_inj v b v' b' : (v < 2 ^ b -> v' < 2 ^ b' -> 2 ^ b + v - 1 = 2 ^ b' + v' - 1 -> v = v' /\ b = b')%N.
  Proof.
    intros H H' E. assert (P1 : (1 <= 2 ^ b)%N) by (apply N.lt_pred_le, N.neq_0_lt_0, N.pow_nonzero; discriminate). assert (P2 : (1 <= 2 ^ b')%N) by (apply N.lt_pred_le, N.neq_0_lt_0, N.pow_nonzero; discriminate).
    assert (E' : (2 ^ b + v = 2 ^ b' + v')%N) by lia. clear E.
    assert (L1 : N.log2 (2 ^ b + v) = b) by (apply N.log2_unique; [lia|]; rewrite N.pow_succ_r'; lia). assert (L2 : N.log2 (2 ^ b' + v') = b') by (apply N.log2_unique; [lia|]; rewrite N.pow_succ_r'; lia).
    assert (b = b') as <- by congruence. split; auto. lia.
  Qed.
  Variables (ch : chips) (bit tuple : N).
  Hypothesis Hbit : ch_bit ch = Some bit.
  Hypothesis Htuple : ch_tuple ch = Some tuple.
  Hypothesis Hids : NoDup [bit; tuple; ch_range ch].
  Lemma ids3 : bit <> tuple /\ bit <> ch_range ch /\ tuple <> ch_range ch.
  Proof. pose proof (proj1 (NoDup_cons_iff _ _) Hids) as [I1 I2]. pose proof (proj1 (NoDup_cons_iff _ _) I2) as [I3 _]. cbn in I1, I3. split; [intros E; apply I1; now left|]. split; [intros E; apply I1; right; now left|intros E; apply I3; now left]. Qed.
  (** What a request does, by bus. *)
  Lemma bins_cases e l : (fst (fst e) < 2 ^ 16)%N -> bins_of ch e = Some l ->
    (fst (fst e) = bit /\ exists x y z s t, map val (snd e) = x :: y :: z :: s :: t /\ (val (snd (fst e)) <> 0 -> s = 0 \/ s = 1 /\ N.lxor x y = z)%N /\ forall b, requests b l = if bin_eqb b (BBit s x y) then val (snd (fst e)) else 0%N) \/
    (fst (fst e) = ch_range ch /\ exists v m t, map val (snd e) = v :: m :: t /\ forall b, requests b l = if bin_eqb b (BRange (2 ^ m + v - 1)) then val (snd (fst e)) else 0%N) \/
    (fst (fst e) = tuple /\ (val (snd (fst e)) = 0%N /\ l = [] \/ exists v w, map val (snd e) = [v; w] /\ forall b, requests b l = if bin_eqb b (BTuple (u32 (v * ch_size1 ch + w))) then val (snd (fst e)) else 0%N)) \/
    (fst (fst e) <> bit /\ fst (fst e) <> ch_range ch /\ fst (fst e) <> tuple /\ l = []).
  Proof.
    destruct e as [[id m] args]. cbn [fst snd]. intros Hid. unfold bins_of, apply_bus. cbn [fst snd]. rewrite N.mod_small by auto. rewrite Hbit, Htuple. unfold is_id.
    destruct (N.eqb_spec bit id) as [->|D1]; [|destruct (N.eqb_spec (ch_range ch) id) as [E|D2]; [|destruct (N.eqb_spec tuple id) as [->|D3]]].
    - intros Hl. left. split; auto. destruct (map val args) as [|x [|y [|z [|s t]]]]; try discriminate. exists x, y, z, s, t. split; auto.
      assert (Z : val m = 0%N -> l = []) by (intros Z; unfold times in Hl; rewrite Z in Hl; cbn in Hl; congruence).
      destruct (N.eq_dec (val m) 0) as [Zm|Zm].
      { split; [congruence|]. intros b. rewrite (Z Zm), Zm. unfold requests. cbn. now destruct (bin_eqb b _). }
      split.
      + intros _. unfold times in Hl. destruct (N.eqb_spec (val m) 0); [congruence|]. destruct (N.eqb_spec s 0) as [->|S0]; auto. destruct (N.eqb_spec s 1) as [->|S1]; [|discriminate]. destruct (N.eqb_spec (N.lxor x y) z); [auto|discriminate].
      + intros b. rewrite (times_requests _ _ _ b Hl). unfold times in Hl. destruct (N.eqb_spec (val m) 0); [congruence|]. unfold bit_bin in *. destruct (N.eqb_spec s 0) as [->|S0]; [destruct (ch_operands ch x y); [auto|discriminate]|].
        destruct (N.eqb_spec s 1) as [->|S1]; [|discriminate]. destruct (_ =? _)%N; [|discriminate]. destruct (ch_operands ch x y); [auto|discriminate].
    - intros Hl. right. left. split; auto. destruct (map val args) as [|v [|k t]]; try discriminate. exists v, k, t. split; auto. intros b. rewrite (times_requests _ _ _ b Hl). unfold times in Hl. unfold range_bin in *. destruct (_ && _); [auto|]. destruct (N.eqb_spec (val m) 0) as [->|]; [|discriminate]. now destruct (bin_eqb b _).
    - intros Hl. right. right. left. split; auto. unfold times in Hl. destruct (N.eqb_spec (val m) 0) as [Z|Z]; [left; split; congruence|]. right. unfold tuple_bin in Hl. destruct (map val args) as [|v [|w [|? ?]]]; try discriminate. exists v, w. split; auto. intros b.
      destruct (_ <? _)%N; [|discriminate]. injection Hl as <-. rewrite requests_repeat, N2Nat.id. auto.
    - intros Hl. right. right. right. repeat split; auto. destruct (id <=? 2)%N; congruence.
  Qed.
  Definition matches (id : N) (args : list N) (e : effect) : bool := (fst (fst e) =? id)%N && if list_eq_dec N.eq_dec (map val (snd e)) args then true else false.
  Lemma matches_iff id args e : matches id args e = true <-> fst (fst e) = id /\ map val (snd e) = args.
  Proof. unfold matches. rewrite andb_true_iff, N.eqb_eq. destruct (list_eq_dec _ _ _); split; intros [H1 H2]; auto; try discriminate; contradiction. Qed.
  Lemma cond_eq (b c : bool) (m : N) : (m <> 0%N -> b = c) -> (if b then m else 0%N) = (if c then m else 0%N).
  Proof. intros H. destruct (N.eq_dec m 0) as [->|D]; [now destruct b, c|]. now rewrite H. Qed.
  Variables (effects : list (list effect)) (bins : list bin).
  Hypothesis Hsmall : forall e, In e (concat effects) -> (fst (fst e) < 2 ^ 16)%N.
  Hypothesis Hbins : apply_all ch effects = Some bins.
  Lemma count_by b id args : (forall e l, In e (concat effects) -> bins_of ch e = Some l -> requests b l = if matches id args e then val (snd (fst e)) else 0%N) -> requests b bins = sent id args (concat effects).
  Proof.
    intros H. unfold apply_all in Hbins. destruct (all_opt _) as [ls|] eqn:E in Hbins; [|discriminate]. injection Hbins as <-. exact (requests_sum ch b (matches id args) (concat effects) ls E H).
  Qed.
  Lemma count_range v m : (forall e, In e (concat effects) -> fst (fst e) = ch_range ch -> val (snd (fst e)) <> 0%N -> exists v m, map val (snd e) = [v; m] /\ (v < 2 ^ m)%N) ->
    (v < 2 ^ m)%N -> requests (BRange (2 ^ m + v - 1)) bins = sent (ch_range ch) [v; m] (concat effects).
  Proof.
    intros Hv Lv. destruct ids3 as (I1 & I2 & I3). apply count_by. intros e l He Hl. destruct (bins_cases e l (Hsmall e He) Hl) as [(Ei & x & y & z & s & t & _ & _ & R)|[(Ei & v' & m' & t & Ea & R)|[(Ei & [[Z ->]|(v' & w' & _ & R)])|(N1 & N2 & N3 & ->)]]].
    - rewrite R. cbn [bin_eqb]. destruct (matches _ _ e) eqn:M; auto. apply matches_iff in M as [M _]. congruence.
    - rewrite R. apply cond_eq. intros Hm. destruct (Hv e He Ei Hm) as (v1 & m1 & Ea1 & Lv1). rewrite Ea in Ea1. injection Ea1 as -> -> ->. apply eq_iff_eq_true. rewrite bin_eqb_eq, matches_iff, Ea. split.
      + intros [= E]. destruct (range_inj v m v1 m1 Lv Lv1 E) as [-> ->]. auto.
      + intros [_ [= -> ->]]. auto.
    - cbn. rewrite Z. now destruct (matches _ _ e).
    - rewrite R. cbn [bin_eqb]. destruct (matches _ _ e) eqn:M; auto. apply matches_iff in M as [M _]. congruence.
    - destruct (matches _ _ e) eqn:M; auto. apply matches_iff in M as [M _]. congruence.
  Qed.
  Lemma count_tuple v w : (ch_size0 ch * ch_size1 ch < 2 ^ 32)%N -> (forall e, In e (concat effects) -> fst (fst e) = tuple -> val (snd (fst e)) <> 0%N -> exists v w, map val (snd e) = [v; w] /\ (v < ch_size0 ch /\ w < ch_size1 ch)%N) ->
    (v < ch_size0 ch /\ w < ch_size1 ch)%N -> requests (BTuple (v * ch_size1 ch + w)) bins = sent tuple [v; w] (concat effects).
  Proof.
    intros Hs Hv Lv. destruct ids3 as (I1 & I2 & I3). apply count_by. intros e l He Hl.
    assert (Small : forall v w, (v < ch_size0 ch /\ w < ch_size1 ch)%N -> u32 (v * ch_size1 ch + w) = (v * ch_size1 ch + w)%N) by (intros a b Hab; apply u32_id; nia).
    destruct (bins_cases e l (Hsmall e He) Hl) as [(Ei & x & y & z & s & t & _ & _ & R)|[(Ei & v' & m' & t & Ea & R)|[(Ei & [[Z ->]|(v' & w' & Ea & R)])|(N1 & N2 & N3 & ->)]]].
    - rewrite R. cbn [bin_eqb]. destruct (matches _ _ e) eqn:M; auto. apply matches_iff in M as [M _]. congruence.
    - rewrite R. cbn [bin_eqb]. destruct (matches _ _ e) eqn:M; auto. apply matches_iff in M as [M _]. congruence.
    - cbn. rewrite Z. now destruct (matches _ _ e).
    - rewrite R. apply cond_eq. intros Hm. destruct (Hv e He Ei Hm) as (v1 & w1 & Ea1 & L1 & L2). rewrite Ea in Ea1. injection Ea1 as -> ->. rewrite Small by auto. apply eq_iff_eq_true. rewrite bin_eqb_eq, matches_iff, Ea. split.
      + intros [= E]. assert (v = v1 /\ w = w1) as [-> ->] by (apply (N.div_mod_unique (ch_size1 ch)); [tauto|auto|lia]). auto.
      + intros [_ [= -> ->]]. auto.
    - destruct (matches _ _ e) eqn:M; auto. apply matches_iff in M as [M _]. congruence.
  Qed.
  Lemma count_bit x y z s : (forall e, In e (concat effects) -> fst (fst e) = bit -> val (snd (fst e)) <> 0%N -> exists x y z s, map val (snd e) = [x; y; z; s] /\ (s = 0 -> z = 0)%N) ->
    (s = 0 /\ z = 0 \/ s = 1 /\ z = N.lxor x y)%N -> requests (BBit s x y) bins = sent bit [x; y; z; s] (concat effects).
  Proof.
    intros Hv Hz. destruct ids3 as (I1 & I2 & I3). apply count_by. intros e l He Hl.
    destruct (bins_cases e l (Hsmall e He) Hl) as [(Ei & x' & y' & z' & s' & t & Ea & Hs & R)|[(Ei & v' & m' & t & Ea & R)|[(Ei & [[Z ->]|(v' & w' & Ea & R)])|(N1 & N2 & N3 & ->)]]].
    - rewrite R. apply cond_eq. intros Hm. destruct (Hv e He Ei Hm) as (x1 & y1 & z1 & s1 & Ea1 & L1). rewrite Ea in Ea1. injection Ea1 as -> -> -> -> ->. apply eq_iff_eq_true. rewrite bin_eqb_eq, matches_iff, Ea. specialize (Hs Hm). split.
      + intros [= -> -> ->]. split; auto. assert (z = z1) as ->; auto. destruct Hz as [[E1 ->]|[E1 ->]]; [symmetry; auto|]. destruct Hs as [E|[_ E]]; [congruence|auto].
      + intros [_ [= -> -> -> ->]]. auto.
    - rewrite R. cbn [bin_eqb]. destruct (matches _ _ e) eqn:M; auto. apply matches_iff in M as [M _]. congruence.
    - cbn. rewrite Z. now destruct (matches _ _ e).
    - rewrite R. cbn [bin_eqb]. destruct (matches _ _ e) eqn:M; auto. apply matches_iff in M as [M _]. congruence.
    - destruct (matches _ _ e) eqn:M; auto. apply matches_iff in M as [M _]. congruence.
  Qed.
End Counts.

(** Running one thread, for examples. *)
Section Drive.
  Context {p : positive}.
  Definition drive1 (i : nat) (s : state p) : state p :=
    let '(M, C, ts) := s in
    match nth_error ts i with Some q => match access M C q with Some (M', C', q') => (M', C', update ts i q') | None => s end | None => s end.
  Fixpoint drive (n i : nat) (s : state p) : state p := match n with 0 => s | S n => drive n i (drive1 i s) end.
  Lemma drive_steps n i : forall s, exists m, steps m s (drive n i s).
  Proof.
    induction n as [|n IH]; intros s; cbn [drive]; [exists 0; constructor|]. destruct (IH (drive1 i s)) as [m Hm]. destruct s as [[M C] ts]. unfold drive1 in *.
    destruct (nth_error ts i) as [q|] eqn:E; [|eauto]. destruct (access M C q) as [[[M' C'] q']|] eqn:A; [|eauto]. exists (S m). econstructor; [|exact Hm]. econstructor; eauto.
  Qed.
End Drive.
