(** C57: original AIRs become symbolic machines, and symbolic machines become AIRs. *)
From Coq Require Import Arith NArith Bool List Sorted Lia ZifyBool ZifyNat ZifyN.
From Verif Require Import Field ExprModel SymModel SymSpec SymFacts TraceModel TraceSpec TraceFacts AirModel AirSpec AirFacts ArenaFacts.
Import ListNotations.

Section PropsAir.
  Context {p : positive}.
  Lemma machine_meaning (a : air p) m mt w row : machine_of a = Ok (m, mt) -> same_row (a_width a) w row -> (accepts m row <-> air_accepts a w) /\ messages m row = air_messages a w.
  Proof.
    intros H Hr. apply machine_inv in H as (_ & cons & ints & Hc & Hi & [= -> ->]). unfold accepts, air_accepts, messages, air_messages. cbn [sm_cons sm_buses]. split.
    - rewrite Forall_map. induction Hc as [|x y l l' Hx Hl IH]; [split; constructor|]. split; inversion 1; subst; constructor; try (now apply IH).
      + rewrite <- (convert_value _ _ _ w row Hx Hr). now apply constraint_from_zero.
      + apply constraint_from_zero. now rewrite (convert_value _ _ _ w row Hx Hr).
    - clear Hc. induction Hi as [|x b l l' Hx Hl IH]; cbn; auto. f_equal; auto. unfold convert_interaction in Hx. apply then_ok in Hx as (mu & Hm & Hx). apply then_ok in Hx as (args & Ha & [= <-]).
      unfold message. cbn. f_equal; [f_equal; now apply (convert_value _ _ _ w row Hm)|]. apply each_ok in Ha. clear -Ha Hr. induction Ha as [|e e' l l' He Hl IH]; cbn; auto. f_equal; auto. now apply (convert_value _ _ _ w row He).
  Qed.
  Lemma machine_columns (a : air p) m mt v : machine_of a = Ok (m, mt) -> column_of m v -> exists i, i < a_width a /\ v = Orig (N.of_nat i).
  Proof.
    intros H. apply machine_inv in H as (_ & cons & ints & Hc & Hi & [= -> ->]). unfold column_of. cbn [sm_cons sm_buses]. intros [O|O]; apply Exists_exists in O as (e & He & O).
    - apply in_map_iff in He as (e0 & <- & He). destruct (Forall2_in_r _ _ _ _ Hc He) as (x & _ & Hx). apply (convert_occurs _ _ _ v Hx). now destruct e0.
    - destruct (Forall2_in_r _ _ _ _ Hi He) as (x & _ & Hx). unfold convert_interaction in Hx. apply then_ok in Hx as (mu & Hm & Hx). apply then_ok in Hx as (args & Ha & [= <-]). cbn in O.
      destruct O as [O|O]; [exact (convert_occurs _ _ _ v Hm O)|]. apply Exists_exists in O as (y & Hy & O). apply each_ok in Ha. destruct (Forall2_in_r _ _ _ _ Ha Hy) as (z & _ & Hz). exact (convert_occurs _ _ _ v Hz O).
  Qed.
  Lemma sorted_unique (l : list N) : forall r, StronglySorted N.lt l -> StronglySorted N.lt r -> (forall x, In x l <-> In x r) -> l = r.
  Proof.
    induction l as [|a l IH]; intros r Sl Sr H.
    - destruct r as [|b r]; auto. destruct (proj2 (H b) (or_introl eq_refl)).
    - destruct r as [|b r]; [destruct (proj1 (H a) (or_introl eq_refl))|]. inversion Sl as [|? ? Sl' Ha]; subst. inversion Sr as [|? ? Sr' Hb]; subst. rewrite Forall_forall in Ha, Hb.
      assert (a = b). { destruct (proj1 (H a) (or_introl eq_refl)) as [E|E]; auto. destruct (proj2 (H b) (or_introl eq_refl)) as [E'|E']; auto. specialize (Ha _ E'). specialize (Hb _ E). lia. }
      subst b. f_equal. apply IH; auto. intros x. split; intros Hx.
      + destruct (proj1 (H x) (or_intror Hx)) as [<-|]; auto. specialize (Ha _ Hx). lia.
      + destruct (proj2 (H x) (or_intror Hx)) as [<-|]; auto. specialize (Hb _ Hx). lia.
  Qed.
  Lemma seq_sorted k n : StronglySorted N.lt (map N.of_nat (seq k n)).
  Proof.
    revert k. induction n as [|n IH]; intros k; cbn; constructor; auto. apply Forall_forall. intros x Hx. apply in_map_iff in Hx as (j & <- & Hj). apply in_seq in Hj. lia.
  Qed.
  Lemma width_columns (m : smach p) n : has_width m n -> main_columns m = map N.of_nat (seq 0 n).
  Proof.
    intros [_ H]. destruct (main_columns_ok m) as [Sd Hc]. apply sorted_unique; auto using seq_sorted. intros x. rewrite Hc, in_map_iff. unfold column_id. split.
    - intros (v & Hv & <-). apply H in Hv as (k & -> & Hk). cbn. exists (N.to_nat k). rewrite in_seq. split; lia.
    - intros (j & <- & Hj). apply in_seq in Hj. exists (Orig (N.of_nat j)). split; auto. apply H. exists (N.of_nat j). split; auto. lia.
  Qed.
End PropsAir.

(** An AIR becomes a machine exactly if its columns have as many names as it has columns and its constraints and
    interactions only refer to columns of the current row.  The machine accepts the same rows and sends the
    same messages, only has the AIR's columns, and the metrics count what is there.  The next row and the
    selectors lead to an error, not a panic. *)
Theorem C57_extract : forall (p : positive) (a : air p),
  ((exists r, machine_of a = Ok r) <-> names_columns a /\ air_atoms (own_row (a_width a)) a) /\
  (names_columns a -> air_atoms (two_rows (a_width a)) a -> machine_of a <> Panic) /\
  forall m mt, machine_of a = Ok (m, mt) ->
    (forall w row, same_row (a_width a) w row -> (accepts m row <-> air_accepts a w) /\ messages m row = air_messages a w) /\
    (forall v, column_of m v -> exists i, i < a_width a /\ v = Orig (N.of_nat i)) /\
    sm_derived m = [] /\ mt_main mt = a_width a /\ mt_constraints mt = length (sm_cons m) /\ mt_interactions mt = length (sm_buses m) /\
    (forall n, a_preprocessed a = Some n -> mt_preprocessed mt = n) /\ (a_preprocessed a = None -> mt_preprocessed mt = 0).
Proof.
  intros p a. split; [apply machine_ok|]. split.
  - intros Hn [Hc Hi]. unfold machine_of. rewrite (proj2 (columns_ok a (a_width a)) (conj Hn eq_refl)). cbn [then_].
    destruct (each (convert (a_width a)) (a_cons a)) as [cons| |] eqn:E; cbn [then_]; try discriminate.
    + destruct (each (convert_interaction (a_width a)) (a_ints a)) as [ints| |] eqn:E'; cbn [then_]; try discriminate. exfalso. revert E'. apply each_no_panic. eapply Forall_impl; [|exact Hi].
      intros i [Hm Ha]. unfold convert_interaction. pose proof (convert_no_panic _ _ Hm) as Pm. destruct (convert (a_width a) (xi_count i)); cbn [then_]; try congruence.
      assert (Pa : each (convert (a_width a)) (xi_message i) <> Panic) by (apply each_no_panic; eapply Forall_impl; [|exact Ha]; intros e; apply convert_no_panic).
      destruct (each (convert (a_width a)) (xi_message i)); cbn [then_]; congruence.
    + exfalso. revert E. apply each_no_panic. eapply Forall_impl; [|exact Hc]. intros e. apply convert_no_panic.
  - intros m mt H. split; [intros w row; now apply (machine_meaning a m mt)|]. split; [intros v; now apply (machine_columns a m mt)|].
    apply machine_inv in H as (_ & cons & ints & Hc & Hi & [= -> ->]). cbn. rewrite map_length.
    assert (Lc : length (a_cons a) = length cons) by (clear -Hc; induction Hc; cbn; auto).
    assert (Li : length (a_ints a) = length ints) by (clear -Hi; induction Hi; cbn; auto).
    repeat split; auto; intros; now destruct (a_preprocessed a); congruence.
Qed.
Print Assumptions C57_extract.

(** The machines of the opcodes: exactly the allowed opcodes with an executor are known; if AIRs have distinct
    names, every such opcode has the machine and the metrics of the AIR that executes it.  The call succeeds
    exactly if no such opcode is listed twice, each is executed by an AIR, and these AIRs become machines. *)
Theorem C57_opcodes : forall (p : positive) lookup insertion (ext : list (air p)) allowed,
  (forall o, airs lookup insertion ext allowed = Ok o ->
    (forall op, In op (allow_list o) <-> In op allowed /\ lookup op <> None) /\ NoDup (allow_list o) /\
    (forall op, ~ In op (allow_list o) -> get_instruction_air_and_id o op = None /\ get_instruction_metrics o op = None) /\
    (forall op, In op (allow_list o) -> exists a, implements lookup insertion ext op a /\
      exists m, get_instruction_air_and_id o op = Some (a_name a, m) /\
      (distinct_names ext -> exists mt, machine_of a = Ok (m, mt) /\ get_instruction_metrics o op = Some mt))) /\
  (distinct_names ext ->
    (exists o, airs lookup insertion ext allowed = Ok o) <->
    NoDup (filter (fun op => match lookup op with Some _ => true | None => false end) allowed) /\
    forall op, In op allowed -> lookup op <> None -> exists a, implements lookup insertion ext op a /\ exists r, machine_of a = Ok r).
Proof.
  intros p lookup insertion ext allowed. split.
  - intros o H. destruct (loop_known _ _ _ _ _ _ _ known_empty H) as [K G]. cbn [app] in K. destruct K as (K1 & K2 & K3 & K4 & K5).
    assert (I : forall op, In op (allow_list o) <-> In op allowed /\ lookup op <> None).
    { intros op. unfold allow_list. rewrite K1, in_map_iff. split.
      - intros ([x a] & <- & Hi). apply pairs_in in Hi as (Hx & ex & k & L & _). cbn. split; auto. congruence.
      - intros [Ha Hl]. destruct (G op Ha Hl) as [a Hi]. exists (op, a). split; auto. now apply pairs_in. }
    split; [exact I|]. split; [now apply (airs_nodup lookup insertion ext allowed)|]. split.
    + intros op Hn. unfold get_instruction_air_and_id, get_instruction_metrics. unfold allow_list in Hn. apply find_key_none in Hn. now rewrite Hn.
    + intros op Ho. apply I in Ho as [Ho Hl]. destruct (G op Ho Hl) as [a Hi]. exists a. split; auto.
      assert (Hp : In (op, a) (pairs lookup insertion ext allowed)) by now apply pairs_in. pose proof (K4 _ _ Hp) as Fa. destruct (K3 _ _ Fa) as (_ & _ & _ & Hm).
      destruct (find_key (a_name a) (oa_machines o)) as [[m mt]|] eqn:M; [|congruence]. exists m. unfold get_instruction_air_and_id, get_instruction_metrics. rewrite Fa, M. split; auto.
      intros D. exists mt. split; auto. destruct (K5 _ _ M) as (op' & b & Hb & Hn & Hb'). apply pairs_in in Hb as (_ & ex & k & _ & _ & Hb). destruct Hi as (ex' & k' & _ & _ & Ha).
      rewrite <- Hb'. f_equal. apply D; [eapply nth_error_In; eauto..|auto].
  - intros D. split.
    + intros [o H]. split; [now apply (airs_nodup_allowed lookup insertion ext allowed o)|].
      destruct (loop_known _ _ _ _ _ _ _ known_empty H) as [K G]. cbn [app] in K. destruct K as (K1 & K2 & K3 & K4 & K5). intros op Ho Hl. destruct (G op Ho Hl) as [a Hi]. exists a. split; auto.
      assert (Hp : In (op, a) (pairs lookup insertion ext allowed)) by now apply pairs_in. pose proof (K4 _ _ Hp) as Fa. destruct (K3 _ _ Fa) as (_ & _ & _ & Hm).
      destruct (find_key (a_name a) (oa_machines o)) as [[m mt]|] eqn:M; [|congruence]. destruct (K5 _ _ M) as (op' & b & Hb & Hn & Hb'). apply pairs_in in Hb as (_ & ex & k & _ & _ & Hb). destruct Hi as (ex' & k' & _ & _ & Ha).
      exists (m, mt). rewrite <- Hb'. f_equal. apply D; [eapply nth_error_In; eauto..|auto].
    + intros [ND G]. apply (loop_ok lookup insertion ext allowed D [] (mkOA [] []) known_empty); auto. intros ? ? [].
Qed.
Print Assumptions C57_opcodes.

(** A machine becomes an AIR of as many columns as the machine has (it must have one).  On a row with the values of
    the columns, in the order of their ids, the constraints have the same values and the messages are the
    same, if buses are numbered below 2^16. *)
Theorem C57_installed : forall (p : positive) (m : smach p),
  (forall cols, lists_columns m cols ->
    (forall n, powdr_width m = Some n <-> 0 < n /\ n = length cols) /\
    (forall row, powdr_eval m row <> None <-> length row = length cols) /\
    forall row env, holds cols row env -> exists cs is, powdr_eval m row = Some (cs, is) /\
      (Forall (fun c => c = 0%F) cs <-> accepts m env) /\
      (Forall (fun b => (sb_id b < 65536)%N) (sm_buses m) -> is = map (fun x => (x, 1)) (messages m env))) /\
  exists cols, lists_columns m cols.
Proof.
  intros p m. split; [|exists (main_columns m); apply main_columns_ok]. intros cols Hc. assert (E : main_columns m = cols).
  { destruct (main_columns_ok m) as [Sd H], Hc as [Sd' H']. apply sorted_unique; auto. intros x. now rewrite H, H'. }
  subst cols. split; [|split].
  - intros n. unfold powdr_width. destruct (Nat.ltb_spec 0 (length (main_columns m))); split; try discriminate; [now intros [= <-]|now intros [_ ->]|lia].
  - intros row. split.
    + unfold powdr_eval. destruct (Nat.eqb_spec (length (main_columns m)) (length row)); auto. congruence.
    + intros L. rewrite (powdr_eval_ok m row (row_of (main_columns m) row)); [discriminate|]. apply row_holds; auto. apply sorted_nodup. apply Hc.
  - intros row env H. rewrite (powdr_eval_ok m row env H). eexists _, _. split; [reflexivity|]. split; [unfold accepts; now rewrite Forall_map|].
    intros Hb. unfold messages. rewrite map_map. apply map_ext_in. intros b Hi. rewrite Forall_forall in Hb. unfold message. now rewrite N.mod_small by auto.
Qed.
Print Assumptions C57_installed.

(** Installing an extracted machine gives the AIR it was extracted from, if that uses all its columns. *)
Theorem C57_roundtrip : forall (p : positive) (a : air p) m mt w, machine_of a = Ok (m, mt) -> has_width m (a_width a) -> Forall (fun i => (xi_bus i < 65536)%N) (a_ints a) ->
  powdr_width m = Some (a_width a) /\
  exists cs is, powdr_eval m (map (w_main w 0 0) (seq 0 (a_width a))) = Some (cs, is) /\ (Forall (fun c => c = 0%F) cs <-> air_accepts a w) /\ is = map (fun x => (x, 1)) (air_messages a w).
Proof.
  intros p a m mt w H Hw Hb. pose proof (width_columns m _ Hw) as Hc. split.
  - unfold powdr_width. rewrite Hc, map_length, seq_length. destruct Hw as [Hw _]. apply Nat.ltb_lt in Hw. now rewrite Hw.
  - assert (Hh : holds (main_columns m) (map (w_main w 0 0) (seq 0 (a_width a))) (fun v => w_main w 0 0 (N.to_nat (vid v)))).
    { rewrite Hc. split; [now rewrite !map_length|]. intros i v Hi. rewrite nth_error_map in Hi. destruct (nth_error (seq 0 (a_width a)) i) as [j|] eqn:E; [|discriminate]. injection Hi as Hi. rewrite <- Hi, nth_error_map, E. cbn. f_equal. f_equal. lia. }
    assert (Hs' : same_row (a_width a) w (fun v => w_main w 0 0 (N.to_nat (vid v)))) by (intros i Hi; cbn; f_equal; lia).
    destruct (machine_meaning a m mt w _ H Hs') as [A M]. rewrite (powdr_eval_ok _ _ _ Hh). eexists _, _. split; [reflexivity|]. split; [rewrite <- A; unfold accepts; now rewrite Forall_map|].
    rewrite <- M. unfold messages. rewrite map_map. apply map_ext_in. intros b Hi. unfold message. rewrite N.mod_small; auto.
    apply machine_inv in H as (_ & cons & ints & _ & Hi' & [= -> ->]). cbn in Hi. destruct (Forall2_in_r _ _ _ _ Hi' Hi) as (x & Hx & Hx'). unfold convert_interaction in Hx'. apply then_ok in Hx' as (mu & _ & Hx'). apply then_ok in Hx' as (args & _ & [= <-]). cbn. rewrite Forall_forall in Hb. auto.
Qed.
Print Assumptions C57_roundtrip.

(** The record arenas of an autoprecompile: one pair per AIR that executes an instruction of the block, with room for
    the AIR's instructions of one call times the estimate; an instruction's rows go to the arena of its AIR,
    to the real one exactly if it has substitutions.  While there are at most as many calls as estimated, no
    arena overflows, at no point in a call, and after that many calls all are full. *)
Theorem C57_arenas : forall (p : positive) (o : original_airs p) opcodes subs,
  (executor_meta o opcodes subs <> None <-> length opcodes = length subs /\ Forall (fun op => get_instruction_air_and_id o op <> None) opcodes) /\
  forall meta, executor_meta o opcodes subs = Some meta -> exists d, arena_dims o opcodes subs = Some d /\
  NoDup (map fst d) /\
  (forall n r width u, In (n, (r, width, u)) d <-> 0 < r + u /\
    r = number (fun i => executed_by o n (fst i) && match snd i with [] => false | _ => true end) (combine opcodes subs) /\
    u = number (fun i => executed_by o n (fst i) && match snd i with [] => true | _ => false end) (combine opcodes subs) /\
    exists m mt, find_key n (oa_machines o) = Some (m, mt) /\ width = mt_main mt) /\
  (length meta = length opcodes /\ forall i op sub, nth_error opcodes i = Some op -> nth_error subs i = Some sub -> exists k real n x m,
    nth_error meta i = Some (k, real) /\ (real = true <-> sub <> []) /\ nth_error d k = Some (n, x) /\ get_instruction_air_and_id o op = Some (n, m)) /\
  (forall calls, use_calls calls meta (map (fun _ => (0, 0)) d) = Some (capacities d calls)) /\
  (forall calls estimate before after, calls < estimate -> meta = before ++ after -> exists used, use_rows before (capacities d calls) = Some used /\ Forall2 at_most used (capacities d estimate)).
Proof.
  intros p o opcodes subs.
  assert (Some_known : executor_meta o opcodes subs <> None -> length opcodes = length subs /\ Forall (fun op => get_instruction_air_and_id o op <> None) opcodes).
  { unfold executor_meta, arena_dims. destruct (zip_eq opcodes subs) as [instrs|] eqn:Z; [|congruence]. assert (L : length opcodes = length subs) by (apply zip_eq_combine; congruence).
    rewrite (proj1 (zip_eq_combine opcodes subs) L) in Z. injection Z as <-. destruct (arena_dims_loop o (combine opcodes subs) []) as [d|] eqn:D; [|congruence]. intros _. split; auto.
    apply dims_loop_known in D. clear -D L. revert subs D L. induction opcodes as [|x l IH]; intros [|y r] D L; try discriminate; constructor; cbn in D; inversion D; subst; auto. apply (IH r); auto. }
  assert (Known_some : length opcodes = length subs -> Forall (fun op => get_instruction_air_and_id o op <> None) opcodes ->
    exists d meta, arena_dims o opcodes subs = Some d /\ executor_meta o opcodes subs = Some meta /\ StronglySorted N.lt (map fst d) /\
      (forall n, find_key n d = if reals o n (combine opcodes subs) + dummies o n (combine opcodes subs) =? 0 then None else Some (reals o n (combine opcodes subs), width_of o n, dummies o n (combine opcodes subs))) /\
      all_opt (map (instruction_meta o d) (combine opcodes subs)) = Some meta).
  { intros L H. assert (Hc : Forall (fun i => get_instruction_air_and_id o (fst i) <> None) (combine opcodes subs)).
    { apply Forall_forall. intros [x y] Hi. apply in_combine_l in Hi. rewrite Forall_forall in H. cbn. auto. }
    destruct (dims_loop_ok o (combine opcodes subs) []) as (d & D & Sd & Fd); [constructor|exact Hc|]. exists d.
    assert (M : exists meta, all_opt (map (instruction_meta o d) (combine opcodes subs)) = Some meta).
    { apply all_opt_ok. intros [op sub] Hi. unfold instruction_meta. cbn [fst snd]. rewrite Forall_forall in Hc. pose proof (Hc _ Hi) as Hk. cbn in Hk. destruct (get_instruction_air_and_id o op) as [[n m]|] eqn:G; [|congruence]. cbn [fst].
      assert (In n (map fst d)).
      { destruct (in_dec N.eq_dec n (map fst d)) as [|Hn]; auto. exfalso. apply find_key_none in Hn. rewrite Fd in Hn. cbn in Hn.
        assert (0 < reals o n (combine opcodes subs) + dummies o n (combine opcodes subs)).
        { clear -Hi G. unfold reals, dummies. induction (combine opcodes subs) as [|i l IH]; [destruct Hi|]. destruct Hi as [->|Hi]; cbn [number].
          - cbn [fst snd]. unfold executed_by at 1 3. rewrite G, N.eqb_refl. destruct (is_empty sub); cbn; lia.
          - specialize (IH Hi). lia. }
        destruct (reals o n (combine opcodes subs) + dummies o n (combine opcodes subs) =? 0) eqn:E; [lia|discriminate]. }
      apply in_index in H0. destruct (index_of n (map fst d)); [eauto|congruence]. }
    destruct M as [meta M]. exists meta. unfold executor_meta, arena_dims. rewrite (proj1 (zip_eq_combine opcodes subs) L), D. auto. }
  split; [split; [exact Some_known|]; intros [L H]; destruct (Known_some L H) as (d & meta & _ & E & _); congruence|].
  intros meta Hm. destruct Some_known as [L H]; [congruence|]. destruct (Known_some L H) as (d & meta' & D & M & Sd & Fd & A). rewrite Hm in M. injection M as <-. clear Known_some.
  pose proof (sorted_nodup _ Sd) as ND. exists d. split; [exact D|]. split; [exact ND|].
  assert (Rn : forall n l, reals o n l = number (fun i => executed_by o n (fst i) && match snd i with [] => false | _ => true end) l) by (intros n l; unfold reals; induction l as [|[x [|y ys]] l IH]; cbn; now rewrite <- ?IH).
  assert (Un : forall n l, dummies o n l = number (fun i => executed_by o n (fst i) && match snd i with [] => true | _ => false end) l) by (intros n l; unfold dummies; induction l as [|[x [|y ys]] l IH]; cbn; now rewrite <- ?IH).
  assert (W : forall n, 0 < reals o n (combine opcodes subs) + dummies o n (combine opcodes subs) -> exists m mt, find_key n (oa_machines o) = Some (m, mt)).
  { intros n. unfold reals, dummies. clear. induction (combine opcodes subs) as [|[op sub] l IH]; cbn [number]; [lia|]. cbn [fst snd]. unfold executed_by at 1 3. destruct (get_instruction_air_and_id o op) as [[x mm]|] eqn:G; [|exact IH].
    destruct (N.eqb_spec x n) as [->|]; [|exact IH]. intros _. unfold get_instruction_air_and_id in G. destruct (find_key op (oa_opcodes o)) as [y|]; [|discriminate]. destruct (find_key y (oa_machines o)) as [[m mt]|] eqn:M; [|discriminate]. injection G as -> _. eauto. }
  assert (Full : forall calls k x, nth_error d k = Some x -> nth_error (capacities d calls) k = Some (calls * fst (rows_of k meta), calls * snd (rows_of k meta))).
  { intros calls k [n [[r w] u]] Hk. unfold capacities. rewrite nth_error_map, Hk. cbn [option_map snd]. assert (Hf : find_key n d = Some (r, w, u)) by (apply (in_find d n (r, w, u) ND); eapply nth_error_In; eauto).
    assert (Hk' : nth_error (map fst d) k = Some n) by now rewrite nth_error_map, Hk. rewrite (metas_counts o d _ _ Sd A k n Hk'). cbn [fst snd]. rewrite Fd in Hf. destruct (_ =? 0) in Hf; [discriminate|]. injection Hf as <- _ <-. f_equal. f_equal; lia. }
  apply all_opt_none_in in A.
  assert (B : Forall (fun m => fst m < length (map (fun _ : N * (nat * nat * nat) => (0, 0)) d)) meta).
  { rewrite map_length. clear -A. induction A as [|[op sub] [k real] l l' Hx Hl IH]; constructor; auto. unfold instruction_meta in Hx. cbn [fst snd] in *. destruct (get_instruction_air_and_id o op); [|discriminate]. destruct (index_of _ _) as [j|] eqn:J; [|discriminate]. injection Hx as <- _. apply index_lt in J. now rewrite map_length in J. }
  assert (C : forall calls, use_calls calls meta (map (fun _ => (0, 0)) d) = Some (capacities d calls)).
  { intros calls. destruct (use_calls_ok calls meta _ B) as (used & -> & Lu & Nu). f_equal. apply nth_error_ext_len; [unfold capacities; now rewrite Lu, !map_length|].
    intros i x y Hx Hy. rewrite Nu, nth_error_map in Hx. destruct (nth_error d i) as [z|] eqn:Hz; [|discriminate]. rewrite (Full calls i z Hz) in Hy. cbn [option_map] in Hx. unfold plus2 in Hx. cbn [fst snd plus] in Hx. congruence. }
  split; [|split; [|split; [exact C|]]].
  - intros n r width u. rewrite (in_find d n _ ND), Fd. rewrite <- Rn, <- Un. specialize (W n). destruct (Nat.eqb_spec (reals o n (combine opcodes subs) + dummies o n (combine opcodes subs)) 0) as [E|E].
    + split; [discriminate|]. intros (H0 & -> & -> & _). lia.
    + destruct W as (m & mt & W); [lia|]. unfold width_of. rewrite W. cbn [snd]. split.
      * intros [= <- <- <-]. repeat split; eauto. lia.
      * intros (_ & -> & -> & m' & mt' & E' & ->). injection E' as <- <-. reflexivity.
  - assert (Lm : length meta = length (combine opcodes subs)) by (clear -A; induction A; cbn; auto). split; [rewrite Lm, combine_length; lia|].
    intros i op sub Ho Hs. assert (Hi : nth_error (combine opcodes subs) i = Some (op, sub)) by now apply TraceFacts.combine_nth. destruct (nth_error meta i) as [[k real]|] eqn:E; [|apply nth_error_None in E; assert (i < length (combine opcodes subs)) by (apply nth_error_Some; congruence); lia].
    assert (X : instruction_meta o d (op, sub) = Some (k, real)) by exact (proj2 (proj1 (forall2_nth _ _ _) A) i _ _ Hi E).
    unfold instruction_meta in X. cbn [fst snd] in X. destruct (get_instruction_air_and_id o op) as [[n m]|]; [|discriminate]. cbn [fst] in X. destruct (index_of n (map fst d)) as [j|] eqn:J; [|discriminate]. injection X as <- <-.
    apply index_nth in J. rewrite nth_error_map in J. destruct (nth_error d j) as [[n' x]|] eqn:Dj; [|discriminate]. injection J as ->. exists j, (negb (is_empty sub)), n, x, m. repeat split; auto; destruct sub; cbn; congruence.
  - intros calls estimate before after Hc ->. apply Forall_app in B as [B _]. rewrite map_length in B. destruct (use_rows_ok before (capacities d calls)) as (used & -> & Lu & Nu); [unfold capacities; now rewrite map_length|].
    exists used. split; auto. apply forall2_nth. split; [rewrite Lu; unfold capacities; now rewrite !map_length|]. intros i x y Hx Hy. destruct (nth_error d i) as [z|] eqn:Hz.
    + rewrite (Full estimate i z Hz) in Hy. rewrite Nu, (Full calls i z Hz) in Hx. cbn in Hx. injection Hx as <-. injection Hy as <-. unfold at_most, plus2, rows_of. cbn. rewrite !number_app. split; nia.
    + unfold capacities in Hy. rewrite nth_error_map, Hz in Hy. discriminate.
Qed.
Print Assumptions C57_arenas.

(** ** Examples *)
(** An adder of three columns (a - b is a bit, c = a + b) that looks up [c] on bus 3, and a counter that compares two rows. *)
Definition xv (i : nat) : xexpr 7 := XVar (EMain 0 0) i.
Definition adder : air 7 :=
  mkAir 20 (Some 3) 3 None [XMul (XSub (xv 0) (xv 1)) (XSub (XSub (xv 0) (xv 1)) (XConst 1%F)); XNeg (XSub (XAdd (xv 0) (xv 1)) (xv 2))] [mkXI 3 [xv 2; XConst (of_N 5)] (XConst 1%F)].
Definition copier : air 7 := mkAir 10 None 2 (Some 4) [XSub (xv 0) (xv 1)] [mkXI 3 [xv 0] (xv 1); mkXI 70000 [] (XNeg (xv 1))].
Definition counter : air 7 := mkAir 30 None 1 None [XMul XTransition (XSub (XVar (EMain 0 1) 0) (XAdd (xv 0) (XConst 1%F)))] [].
Definition broken : air 7 := mkAir 40 (Some 2) 3 None [xv 0] [].
Definition adder_machine : smach 7 := match machine_of adder with Ok (m, _) => m | _ => mkSM [] [] [] end.
Example C57_extract_example :
  machine_of adder = Ok (adder_machine, mkMetrics 0 3 2 1) /\ machine_of counter = Err /\ machine_of broken = Panic /\
  sm_cons adder_machine = [ABin (ABin (ARef (Orig 0)) OSub (ARef (Orig 1))) OMul (ABin (ABin (ARef (Orig 0)) OSub (ARef (Orig 1))) OSub (ANum 1%F)); ABin (ABin (ARef (Orig 0)) OAdd (ARef (Orig 1))) OSub (ARef (Orig 2))] /\
  sm_buses adder_machine = [mkSB 3 (ANum 1%F) [ARef (Orig 2); ANum (of_N 5)]] /\
  air_atoms (own_row 3) adder /\ air_atoms (two_rows 1) counter /\ has_width adder_machine 3.
Proof.
  assert (O : forall i, i < 3 -> own_row 3 (xv i)) by (intros i Hi; now exists i).
  split; [now vm_compute|]. split; [now vm_compute|]. split; [now vm_compute|]. split; [now vm_compute|]. split; [now vm_compute|]. split; [|split].
  - split; repeat (constructor; cbn; auto 10 with arith).
  - split; [|constructor]. constructor; [|constructor]. cbn. unfold two_rows. split; [auto|]. split; [|split; auto]; left; [exists 1, 0|exists 0, 0]; auto.
  - split; [auto|]. intros v. unfold column_of.
    assert (C : sm_cons adder_machine = [ABin (ABin (ARef (Orig 0)) OSub (ARef (Orig 1))) OMul (ABin (ABin (ARef (Orig 0)) OSub (ARef (Orig 1))) OSub (ANum 1%F)); ABin (ABin (ARef (Orig 0)) OAdd (ARef (Orig 1))) OSub (ARef (Orig 2))]) by now vm_compute.
    assert (B : sm_buses adder_machine = [mkSB 3 (ANum 1%F) [ARef (Orig 2); ANum (of_N 5)]]) by now vm_compute.
    rewrite C, B. rewrite !Exists_cons, !Exists_nil. cbn [occurs sb_mult sb_args]. rewrite !Exists_cons, !Exists_nil. cbn [occurs]. split.
    + intros H. assert (E : Orig 0 = v \/ Orig 1 = v \/ Orig 2 = v) by tauto. destruct E as [<-|[<-|<-]]; [exists 0%N|exists 1%N|exists 2%N]; split; auto; lia.
    + intros (n & -> & Hn). assert (E : n = 0%N \/ n = 1%N \/ n = 2%N) by lia. destruct E as [->|[->| ->]]; tauto.
Qed.
(** Opcodes 1 and 3 run on the adder, 2 on the copier; 4 has no executor. *)
Definition lookup4 (op : N) : option nat := match op with 1%N | 3%N => Some 1 | 2%N => Some 0 | _ => None end.
Definition four : res (original_airs 7) := airs lookup4 [1; 0] [adder; copier] [3; 4; 2; 1]%N.
Definition four_airs : original_airs 7 := match four with Ok o => o | _ => mkOA [] [] end.
Example C57_opcodes_example : four = Ok four_airs /\ distinct_names [adder; copier] /\ allow_list four_airs = [1; 2; 3]%N /\
  get_instruction_air_and_id four_airs 3 = Some (20%N, adder_machine) /\ get_instruction_metrics four_airs 2 = Some (mkMetrics 4 2 1 2) /\ get_instruction_air_and_id four_airs 4 = None /\
  airs lookup4 [1; 0] [adder; copier] [3; 2; 3]%N = Panic /\ airs lookup4 [1; 0] [counter; copier] [2; 3]%N = Err.
Proof.
  repeat split; try now vm_compute. intros a b [<-|[<-|[]]] [<-|[<-|[]]]; auto; discriminate.
Qed.
(** AIRs are only told apart by their names: if two have the same name, the machine of the first is used for both. *)
Theorem C57_same_name_refuted : exists (p : positive) lookup insertion (ext : list (air p)) allowed o op a m row w,
  airs lookup insertion ext allowed = Ok o /\ In op (allow_list o) /\ implements lookup insertion ext op a /\ get_instruction_air_and_id o op = Some (a_name a, m) /\
  same_row (a_width a) w row /\ accepts m row /\ ~ air_accepts a w.
Proof.
  exists 7%positive, lookup4, [1; 0], [adder; mkAir 20 None 3 None [xv 0] []], [2; 1]%N, (mkOA [(1, 20); (2, 20)]%N [(20%N, (mkSM [ARef (Orig 0)] [] [], mkMetrics 0 3 1 0))]), 1%N, adder, (mkSM [ARef (Orig 0)] [] []).
  exists (fun v => match v with Orig 1 => of_N 3 | _ => 0%F end), (mkView (fun _ _ i => match i with 1 => of_N 3 | _ => 0%F end) (fun _ _ => 0%F) 0%F 0%F 0%F).
  split; [now vm_compute|]. split; [cbn; auto|]. split; [exists 1, 0; auto|]. split; [reflexivity|]. split; [intros [|[|[|i]]] Hi; auto; cbn in Hi; lia|]. split; [repeat constructor|].
  intros H. unfold air_accepts in H. apply Forall_inv in H. revert H. vm_compute. discriminate.
Qed.
Print Assumptions C57_same_name_refuted.
(** The installed adder on a row that satisfies it and one that does not. *)
Example C57_installed_example :
  powdr_width adder_machine = Some 3 /\
  powdr_eval adder_machine [of_N 3; of_N 2; of_N 5] = Some ([0%F; 0%F], [(3%N, 1%F, [of_N 5; of_N 5], 1)]) /\
  option_map (fun x => map val (fst x)) (powdr_eval adder_machine [of_N 3; of_N 2; of_N 6]) = Some [0; 6]%N /\
  powdr_eval adder_machine [of_N 3; of_N 2] = None /\ powdr_width (mkSM [ANum 1%F] [] [] : smach 7) = None /\
  main_columns adder_machine = [0; 1; 2]%N /\ air_accepts adder (mkView (fun _ _ i => nth i [of_N 3; of_N 2; of_N 5] 0%F) (fun _ _ => 0%F) 0%F 0%F 0%F).
Proof. repeat split; try now vm_compute. repeat constructor; now vm_compute. Qed.
(** Three instructions on the adder, one of them without substitutions, and one on the copier. *)
Example C57_arenas_example :
  arena_dims four_airs [3; 2; 1; 3]%N [[(0, 5%N)]; []; [(1, 6%N); (2, 7%N)]; []] = Some [(10%N, (0, 2, 1)); (20%N, (2, 3, 1))] /\
  executor_meta four_airs [3; 2; 1; 3]%N [[(0, 5%N)]; []; [(1, 6%N); (2, 7%N)]; []] = Some [(1, true); (0, false); (1, true); (1, false)] /\
  use_calls 5 [(1, true); (0, false); (1, true); (1, false)] [(0, 0); (0, 0)] = Some [(0, 5); (10, 5)] /\ capacities [(10%N, (0, 2, 1)); (20%N, (2, 3, 1))] 5 = [(0, 5); (10, 5)] /\
  executor_meta four_airs [4]%N [[]] = None.
Proof. repeat split; now vm_compute. Qed.
