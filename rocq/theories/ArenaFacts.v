(** Facts about the record arenas of an autoprecompile. *)
From Coq Require Import Arith NArith Bool List Sorted Lia ZifyBool ZifyNat ZifyN.
From Verif Require Import Field ExprModel SymModel SymSpec SymFacts TraceModel TraceSpec TraceFacts AirModel AirSpec AirFacts.
Import ListNotations.

Section ArenaFacts.
  Context {p : positive}.
  Variable o : original_airs p.
  Definition reals (n : N) (l : list (N * list (nat * N))) : nat := number (fun i => executed_by o n (fst i) && negb (is_empty (snd i))) l.
  Definition dummies (n : N) (l : list (N * list (nat * N))) : nat := number (fun i => executed_by o n (fst i) && is_empty (snd i)) l.

  Ltac triple := match goal with |- Some (?a, _, ?c) = Some (?x, _, ?z) => replace x with a by lia; replace z with c by lia; reflexivity end.
  Ltac pair := match goal with |- Some (?a, ?c) = Some (?x, ?z) => replace x with a by lia; replace z with c by lia; reflexivity
    | |- (?a, ?c) = (?x, ?z) => replace x with a by lia; replace z with c by lia; reflexivity end.
  Definition bump (w : nat) (dummy : bool) (old : option (nat * nat * nat)) : nat * nat * nat :=
    match old with None => if dummy then (0, w, 1) else (1, w, 0) | Some (r, w, u) => if dummy then (r, w, u + 1) else (r + 1, w, u) end.
  Lemma find_key_sorted_lt {A} k (l : list (N * A)) : StronglySorted N.lt (map fst l) -> Forall (N.lt k) (map fst l) -> find_key k l = None.
  Proof. intros _ H. apply find_key_none. intros Hi. rewrite Forall_forall in H. specialize (H _ Hi). lia. Qed.
  Lemma count_instr_in name w b d x : In x (map fst (count_instr name w b d)) <-> x = name \/ In x (map fst d).
  Proof.
    induction d as [|[n [[r v] u]] d IH]; cbn; [intuition|]. destruct (N.ltb_spec name n); cbn; [intuition|]. destruct (N.eqb_spec name n) as [->|]; cbn; [intuition|]. rewrite IH. intuition.
  Qed.
  Lemma count_instr_ok name w b d : StronglySorted N.lt (map fst d) -> StronglySorted N.lt (map fst (count_instr name w b d)) /\
    forall n, find_key n (count_instr name w b d) = if (name =? n)%N then Some (bump w b (find_key name d)) else find_key n d.
  Proof.
    induction d as [|[n [[r v] u]] d IH]; intros Sd; cbn [count_instr].
    - split; [repeat constructor|]. intros n. cbn. now destruct (name =? n)%N.
    - inversion Sd as [|? ? Sd' Hn E]; subst. cbn in Hn, Sd'. destruct (N.ltb_spec name n) as [H|H].
      + split.
        * cbn. constructor; [auto|]. constructor; auto. eapply Forall_impl; [|exact Hn]. intros a Ha. lia.
        * intros n'. assert (E : find_key name ((n, (r, v, u)) :: d) = None). { apply find_key_none. cbn. intros [->|Hi]; [lia|]. rewrite Forall_forall in Hn. specialize (Hn _ Hi). lia. }
          rewrite E. cbn. now destruct (name =? n')%N.
      + destruct (N.eqb_spec name n) as [->|Ne].
        * split; [cbn; constructor; auto|]. intros n'. cbn. rewrite N.eqb_refl. destruct (n =? n')%N; cbn; now destruct b.
        * destruct (IH Sd') as [S1 F1]. split.
          -- cbn. constructor; auto. apply Forall_forall. intros x Hx. apply count_instr_in in Hx as [->|Hx]; [lia|]. rewrite Forall_forall in Hn. auto.
          -- intros n'. cbn. rewrite F1. destruct (N.eqb_spec n n') as [->|]; [|destruct (N.eqb_spec n name); [congruence|reflexivity]]. destruct (N.eqb_spec name n') as [->|]; [congruence|auto].
  Qed.
  Lemma known_air op : get_instruction_air_and_id o op <> None <-> exists name m, find_key op (oa_opcodes o) = Some name /\ find_key name (oa_machines o) = Some m.
  Proof.
    unfold get_instruction_air_and_id. destruct (find_key op (oa_opcodes o)) as [name|] eqn:F0; [|split; [congruence|intros (? & ? & ? & _); discriminate]].
    destruct (find_key name (oa_machines o)) as [m|] eqn:M; split; try congruence; eauto. intros (? & ? & [= <-] & X). congruence.
  Qed.
  Lemma known_name op name m : find_key op (oa_opcodes o) = Some name -> find_key name (oa_machines o) = Some m -> get_instruction_air_and_id o op = Some (name, fst m).
  Proof. intros F0 M. unfold get_instruction_air_and_id. now rewrite F0, M. Qed.
  Definition width_of (n : N) : nat := match find_key n (oa_machines o) with Some m => mt_main (snd m) | None => 0 end.
  Lemma dims_loop_ok instrs : forall d, StronglySorted N.lt (map fst d) -> Forall (fun i => get_instruction_air_and_id o (fst i) <> None) instrs ->
    exists d', arena_dims_loop o instrs d = Some d' /\ StronglySorted N.lt (map fst d') /\
    forall n, find_key n d' = match find_key n d with Some (r, w, u) => Some (r + reals n instrs, w, u + dummies n instrs)
      | None => if reals n instrs + dummies n instrs =? 0 then None else Some (reals n instrs, width_of n, dummies n instrs) end.
  Proof.
    induction instrs as [|[op sub] instrs IH]; intros d Sd H; cbn [arena_dims_loop].
    - exists d. repeat split; auto. intros n. cbn. destruct (find_key n d) as [[[r w] u]|]; auto. now rewrite !Nat.add_0_r.
    - inversion H as [|? ? Hk Hl]; subst. cbn in Hk. apply known_air in Hk as (name & m & F0 & M). rewrite F0, M.
      destruct (count_instr_ok name (mt_main (snd m)) (is_empty sub) d Sd) as [S1 F1]. destruct (IH _ S1 Hl) as (d' & E & S2 & F2). exists d'. split; [exact E|]. split; [exact S2|].
      intros n. rewrite F2, F1. clear F1 F2.
      assert (R : reals n ((op, sub) :: instrs) = (if (name =? n)%N && negb (is_empty sub) then 1 else 0) + reals n instrs). { unfold reals. cbn [number fst snd]. unfold executed_by. now rewrite (known_name _ _ _ F0 M). }
      assert (U : dummies n ((op, sub) :: instrs) = (if (name =? n)%N && is_empty sub then 1 else 0) + dummies n instrs). { unfold dummies. cbn [number fst snd]. unfold executed_by. now rewrite (known_name _ _ _ F0 M). }
      rewrite R, U. destruct (N.eqb_spec name n) as [->|Ne]; cbn [andb].
      + unfold width_of. rewrite M. destruct (find_key n d) as [[[r w] u]|]; cbn [bump].
        * destruct (is_empty sub); cbn [negb]; triple.
        * destruct (is_empty sub); cbn [negb]; match goal with |- _ = if ?b then _ else _ => destruct b eqn:E0 end; try lia; triple.
      + cbn [plus]. reflexivity.
  Qed.
  Lemma dims_loop_known instrs : forall d d', arena_dims_loop o instrs d = Some d' -> Forall (fun i => get_instruction_air_and_id o (fst i) <> None) instrs.
  Proof.
    induction instrs as [|[op sub] instrs IH]; intros d d' H; constructor; cbn in H.
    - cbn. destruct (find_key op (oa_opcodes o)) as [n|] eqn:F0; [|discriminate]. destruct (find_key n (oa_machines o)) as [m|] eqn:M; [|discriminate]. apply known_air. eauto.
    - destruct (find_key op (oa_opcodes o)) as [n|] eqn:F0; [|discriminate]. destruct (find_key n (oa_machines o)) as [m|] eqn:M; [|discriminate]. eauto.
  Qed.
  Lemma in_find {A} (l : list (N * A)) n x : NoDup (map fst l) -> In (n, x) l <-> find_key n l = Some x.
  Proof.
    intros H. split; [|apply find_key_in]. induction l as [|[k y] l IH]; [intros []|]. cbn in H. inversion H as [|? ? Hk Hl]; subst. cbn. intros [[= -> ->]|Hi]; [now rewrite N.eqb_refl|].
    destruct (N.eqb_spec k n) as [->|]; auto. exfalso. apply Hk. apply in_map_iff. exists (n, x). auto.
  Qed.

  (** ** Rows in use *)
  Definition plus2 (x y : nat * nat) : nat * nat := (fst x + fst y, snd x + snd y).
  Definition rows_of (k : nat) (meta : list (nat * bool)) : nat * nat := (number (fun m => (fst m =? k) && snd m) meta, number (fun m => (fst m =? k) && negb (snd m)) meta).
  Lemma use_row_ok k real used : k < length used -> exists used', use_row k real used = Some used' /\ length used' = length used /\
    forall j, nth_error used' j = option_map (fun x => plus2 x (rows_of j [(k, real)])) (nth_error used j).
  Proof.
    revert k. induction used as [|[r u] used IH]; intros k Hk; [cbn in Hk; lia|]. destruct k as [|k]; cbn [use_row].
    - eexists. split; [reflexivity|]. split; [reflexivity|]. intros [|j]; cbn [nth_error option_map]; unfold rows_of, plus2; cbn; [destruct real; cbn; pair|]. destruct (nth_error used j) as [[a b]|]; cbn; auto. pair.
    - destruct (IH k) as (used' & -> & L & N1); [cbn in Hk; lia|]. eexists. split; [reflexivity|]. cbn [length]. split; [lia|]. intros [|j]; cbn [nth_error option_map]; [unfold rows_of, plus2; cbn; pair|].
      rewrite N1. unfold rows_of. cbn. reflexivity.
  Qed.
  Lemma rows_of_cons k x meta : rows_of k (x :: meta) = plus2 (rows_of k [x]) (rows_of k meta).
  Proof. unfold rows_of, plus2. cbn. pair. Qed.
  Lemma plus2_assoc x y z : plus2 (plus2 x y) z = plus2 x (plus2 y z).
  Proof. unfold plus2. cbn. pair. Qed.
  Lemma use_rows_ok meta : forall used, Forall (fun m => fst m < length used) meta -> exists used', use_rows meta used = Some used' /\ length used' = length used /\
    forall j, nth_error used' j = option_map (fun x => plus2 x (rows_of j meta)) (nth_error used j).
  Proof.
    induction meta as [|[k real] meta IH]; intros used H; cbn [use_rows].
    - exists used. repeat split; auto. intros j. unfold rows_of, plus2. cbn. destruct (nth_error used j) as [[a b]|]; cbn; auto. pair.
    - inversion H as [|? ? Hk Hl]; subst. destruct (use_row_ok k real used Hk) as (u1 & -> & L1 & N1). destruct (IH u1) as (u2 & -> & L2 & N2); [now rewrite L1|].
      exists u2. split; auto. split; [lia|]. intros j. rewrite N2, N1. destruct (nth_error used j) as [x|]; cbn [option_map]; auto. rewrite plus2_assoc. now rewrite <- rows_of_cons.
  Qed.
  Lemma use_calls_ok n meta : forall used, Forall (fun m => fst m < length used) meta -> exists used', use_calls n meta used = Some used' /\ length used' = length used /\
    forall j, nth_error used' j = option_map (fun x => plus2 x (n * fst (rows_of j meta), n * snd (rows_of j meta))) (nth_error used j).
  Proof.
    induction n as [|n IH]; intros used H; cbn [use_calls].
    - exists used. repeat split; auto. intros j. unfold plus2. cbn. destruct (nth_error used j) as [[a b]|]; cbn; auto. pair.
    - destruct (use_rows_ok meta used H) as (u1 & -> & L1 & N1). destruct (IH u1) as (u2 & -> & L2 & N2); [now rewrite L1|]. exists u2. split; auto. split; [lia|].
      intros j. rewrite N2, N1. destruct (nth_error used j) as [x|]; cbn [option_map]; auto. unfold plus2. cbn. pair.
  Qed.
  Lemma number_app {A} (f : A -> bool) l r : number f (l ++ r) = number f l + number f r.
  Proof. induction l as [|x l IH]; cbn; auto. rewrite IH. lia. Qed.

  (** ** The layout *)
  Lemma zip_eq_combine {A B} (l : list A) : forall r : list B, (length l = length r -> zip_eq l r = Some (combine l r)) /\ (zip_eq l r <> None -> length l = length r).
  Proof.
    induction l as [|x l IH]; intros [|y r]; cbn; split; try discriminate; try congruence; auto.
    - intros [= L]. now rewrite (proj1 (IH r) L).
    - destruct (zip_eq l r) eqn:E; [|congruence]. intros _. f_equal. apply IH. congruence.
  Qed.
  Lemma metas_counts d instrs meta : StronglySorted N.lt (map fst d) -> all_opt (map (instruction_meta o d) instrs) = Some meta ->
    forall k n, nth_error (map fst d) k = Some n -> rows_of k meta = (reals n instrs, dummies n instrs).
  Proof.
    intros Sd H k n Hk. pose proof (sorted_nodup _ Sd) as ND. revert meta H. induction instrs as [|[op sub] instrs IH]; intros meta H; cbn in H.
    - injection H as <-. reflexivity.
    - destruct (instruction_meta o d (op, sub)) as [[j real]|] eqn:M; [|discriminate]. destruct (all_opt (map (instruction_meta o d) instrs)) as [meta'|]; [|discriminate]. injection H as <-.
      rewrite rows_of_cons, (IH _ eq_refl). unfold instruction_meta in M. cbn [fst snd] in M. destruct (get_instruction_air_and_id o op) as [[name mm]|] eqn:G; [|discriminate]. cbn [fst] in M.
      destruct (index_of name (map fst d)) as [j'|] eqn:I; [|discriminate]. injection M as <- <-.
      assert (E : (j' =? k) = (name =? n)%N).
      { destruct (N.eqb_spec name n) as [->|Ne].
        - rewrite (nth_index _ _ _ ND Hk) in I. injection I as <-. apply Nat.eqb_refl.
        - apply Nat.eqb_neq. intros ->. apply index_nth in I. congruence. }
      unfold reals, dummies, rows_of, plus2. cbn [number fst snd]. assert (Rn : executed_by o n op = (name =? n)%N) by (unfold executed_by; now rewrite G). rewrite Rn, E. rewrite !Nat.add_0_r, Bool.negb_involutive. reflexivity.
  Qed.
  Lemma all_opt_none_in {A B} (f : A -> option B) l l' : all_opt (map f l) = Some l' -> Forall2 (fun x y => f x = Some y) l l'.
  Proof.
    revert l'. induction l as [|x l IH]; cbn; intros l'; [intros [= <-]; constructor|]. destruct (f x) as [y|] eqn:E; [|discriminate]. destruct (all_opt (map f l)) as [ys|]; [|discriminate]. intros [= <-]. constructor; auto.
  Qed.
End ArenaFacts.
