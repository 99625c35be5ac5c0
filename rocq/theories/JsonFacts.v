(** Proofs about saving and loading. *)
From Coq Require Import Arith NArith Bool List String Lia Ring.
From Coq Require Import ZifyBool ZifyNat ZifyN.
From Verif Require Import Field ExprModel ExprFacts ExprMore SystemModel Spec SymModel SymFacts NumModel NumFacts JsonModel JsonSpec.
Import ListNotations.
Local Open Scope string_scope. Local Open Scope list_scope. Local Open Scope F_scope.

Section Json.
  Context {p : positive}.
  Add Ring Fring : (F_ring_theory (p:=p)).
  Variable word : N.
  Hypothesis Hword : (N.pos p <= word)%N.

  Lemma de_ser_number (k : F p) : de_number word (ser_number k) = Some k.
  Proof. unfold de_number, ser_number. pose proof (val_lt k). replace (val k <? word)%N with true by lia. now rewrite of_N_val. Qed.
  Lemma split_last_none (s : text) : Forall (fun c => c <> 64%N) s -> split_last_at s = None.
  Proof. induction 1 as [|c s H _ IH]; cbn; auto. rewrite IH. now replace (c =? 64)%N with false by lia. Qed.
  Lemma split_last (name s : text) : Forall (fun c => c <> 64%N) s -> split_last_at (name ++ [64%N] ++ s) = Some (name, s).
  Proof. intros H. induction name as [|c name IH]; cbn [app split_last_at]. - rewrite split_last_none; auto. - cbn [app] in IH. now rewrite IH. Qed.
  Lemma print_digits n : Forall (fun c => 48 <= c <= 57)%N (print 10 n).
  Proof. apply print10_chars. constructor. Qed.
  Lemma parse_print n : (n < 2 ^ 64)%N -> parse_u64 (print 10 n) = Some n.
  Proof.
    intros H. unfold parse_u64. pose proof (print_digits n) as D. pose proof (read_print 10 n ltac:(lia)) as R.
    assert (E : match print 10 n with c :: t => if (c =? 43)%N then t else print 10 n | [] => print 10 n end = print 10 n).
    { destruct D as [|c s H0 _]; auto. now replace (c =? 43)%N with false by lia. }
    rewrite E, R. now replace (n <? 2 ^ 64)%N with true by lia.
  Qed.
  Lemma de_ser_ref name id : (id < 2 ^ 64)%N -> de_ref (ser_ref name id) = Some (name, id).
  Proof.
    intros H. unfold de_ref, ser_ref. rewrite split_last, parse_print; auto.
    eapply Forall_impl; [|apply print_digits]. cbn. lia.
  Qed.
  Lemma de_ser_op o : de_op (ser_op o) = Some o.
  Proof. destruct o; reflexivity. Qed.
  Lemma de_ser_expr (e : nexpr p) : ids_fit e -> de_expr word (ser_expr e) = Some e.
  Proof.
    induction e as [name id|k|l IHl o r IHr|e IH]; cbn [ids_fit]; intros H.
    - change (match de_ref (ser_ref name id) with Some (n, i) => Some (NRef (p:=p) n i) | None => None end = Some (NRef name id)). now rewrite de_ser_ref.
    - change (match de_number word (ser_number k) with Some k => Some (NNum k) | None => None end = Some (NNum k)). now rewrite de_ser_number.
    - destruct H as [H1 H2]. cbn [ser_expr de_expr]. rewrite IHl, IHr, de_ser_op; auto.
    - cbn [ser_expr de_expr]. rewrite IH; auto.
  Qed.
  Lemma all_opt_map {A B} (f : A -> B) (g : B -> option A) (l : list A) : Forall (fun a => g (f a) = Some a) l -> all_opt (map g (map f l)) = Some l.
  Proof. induction 1 as [|a l H _ IH]; cbn [map all_opt]; auto. now rewrite H, IH. Qed.
  Lemma de_list_map {A} (f : A -> json) (g : json -> option A) (l : list A) : Forall (fun a => g (f a) = Some a) l -> de_list g (JArr (map f l)) = Some l.
  Proof. apply all_opt_map. Qed.
  Lemma de_ser_bus (b : nbus p) : bus_fits b -> de_bus word (ser_bus b) = Some b.
  Proof.
    intros (H1 & H2 & H3). unfold de_bus, ser_bus.
    change (read_struct _ _) with (Some [JNum (nb_id b); ser_expr (nb_mult b); JArr (map ser_expr (nb_args b))]). cbv iota.
    cbn [de_u64]. replace (nb_id b <? 2 ^ 64)%N with true by lia. rewrite de_ser_expr by auto. rewrite (de_list_map ser_expr (de_expr word)).
    - now destruct b.
    - eapply Forall_impl; [|exact H3]. intros e. apply de_ser_expr.
  Qed.
  Lemma de_ser_method (m : nmethod p) : method_fits m -> de_method word (ser_method m) = Some m.
  Proof.
    destruct m as [k|a b]; cbn [method_fits]; intros H; unfold ser_method, de_method.
    - change (text_eqb (txt "Constant") (txt "Constant")) with true. cbv iota. now rewrite de_ser_number.
    - change (text_eqb (txt "QuotientOrZero") (txt "Constant")) with false. change (text_eqb (txt "QuotientOrZero") (txt "QuotientOrZero")) with true. cbv iota.
      destruct H. now rewrite !de_ser_expr.
  Qed.
  Lemma de_ser_derived (d : text * N * nmethod p) : (snd (fst d) < 2 ^ 64)%N -> method_fits (snd d) -> de_derived word (ser_derived d) = Some d.
  Proof. destruct d as [[name id] m]. cbn [fst snd]. intros H1 H2. unfold ser_derived, de_derived. now rewrite de_ser_ref, de_ser_method. Qed.
  Lemma de_ser_machine (m : nmach p) : machine_fits m -> de_machine word (ser_machine m) = Some m.
  Proof.
    intros (H1 & H2 & H3). unfold de_machine, ser_machine.
    change (read_struct _ _) with (Some [JArr (map ser_expr (nm_cons m)); JArr (map ser_bus (nm_buses m)); JArr (map ser_derived (nm_derived m))]). cbv iota.
    rewrite (de_list_map ser_expr (de_expr word)), (de_list_map ser_bus (de_bus word)), (de_list_map ser_derived (de_derived word)).
    - now destruct m.
    - eapply Forall_impl; [|exact H3]. intros d [A B]. now apply de_ser_derived.
    - eapply Forall_impl; [|exact H2]. intros b. apply de_ser_bus.
    - eapply Forall_impl; [|exact H1]. intros b. apply de_ser_expr.
  Qed.

  (** ** Nesting *)
  Lemma depth_ser_expr (e : nexpr p) : depth (ser_expr e) = height e.
  Proof. clear Hword word. induction e as [name id|k|l IHl o r IHr|e IH]; cbn [ser_expr depth height map fold_right]; auto; [rewrite IHl, IHr|rewrite IH]; [destruct o|]; cbn [ser_op depth]; lia. Qed.

  (** ** Constraint systems *)
  Variable name_of : var -> text.
  Definition loads (env : N -> F p) (j : json) (x : F p) : Prop := exists e, de_expr word j = Some e /\ nvalue env e = x.
  Lemma loads_number env k : loads env (ser_number k) k.
  Proof. exists (NNum k). split; [|reflexivity]. change (match de_number word (ser_number k) with Some k => Some (NNum k) | None => None end = Some (NNum k)). now rewrite de_ser_number. Qed.
  Lemma loads_ref env v : (vid v < 2 ^ 64)%N -> loads env (ser_ref (name_of v) (vid v)) (env (vid v)).
  Proof. intros H. exists (NRef (name_of v) (vid v)). split; [|reflexivity]. change (match de_ref (ser_ref (name_of v) (vid v)) with Some (n, i) => Some (NRef (p:=p) n i) | None => None end = Some (NRef (name_of v) (vid v))). now rewrite de_ser_ref. Qed.
  Lemma loads_times env a b x y : loads env a x -> loads env b y -> loads env (JArr [a; JStr (txt "*"); b]) (x * y).
  Proof. intros (e & H & <-) (f & H' & <-). exists (NBin e OMul f). split; [|reflexivity]. cbn [de_expr]. now rewrite H, H'. Qed.
  Lemma loads_plus env a b x y : loads env a x -> loads env b y -> loads env (JArr [a; JStr (txt "+"); b]) (x + y).
  Proof. intros (e & H & <-) (f & H' & <-). exists (NBin e OAdd f). split; [|reflexivity]. cbn [de_expr]. now rewrite H, H'. Qed.
  Lemma loads_fold env l xs : Forall2 (loads env) l xs -> forall a x, loads env a x ->
    loads env (fold_left (fun a y => JArr [a; JStr (txt "+"); y]) l a) (x + fold_right fadd 0 xs).
  Proof.
    induction 1 as [|j y l xs H _ IH]; intros a x Ha; cbn [fold_left fold_right].
    - now replace (x + 0) with x by ring.
    - replace (x + (y + fold_right fadd 0 xs)) with (x + y + fold_right fadd 0 xs) by ring. apply IH. now apply loads_plus.
  Qed.
  Lemma loads_sum env l xs : Forall2 (loads env) l xs ->
    loads env (match ser_sum l with Some j => j | None => ser_number (0 : F p) end) (fold_right fadd 0 xs).
  Proof. intros H. destruct H as [|j x l xs H0 H]; cbn [ser_sum fold_right]; [apply loads_number|]. now apply loads_fold. Qed.
  Lemma sum_app (a b : list (F p)) : fold_right fadd 0 (a ++ b) = fold_right fadd 0 a + fold_right fadd 0 b.
  Proof. induction a as [|x a IH]; cbn [app fold_right]; [ring|]. rewrite IH. ring. Qed.
  Lemma loads_grouped env (e : gexp p) : (forall v, In v (vars e) -> (vid v < 2 ^ 64)%N) -> loads env (ser_grouped name_of e) (eval (fun v => env (vid v)) e).
  Proof.
    induction e as [q l c Hq] using gexp_ind'. intros Hv. rewrite vars_GE in Hv. cbn [ser_grouped]. set (s := fun v => env (vid v)).
    rewrite eval_GE.
    assert (Vq : forall v, In v (qvars q) -> (vid v < 2 ^ 64)%N) by (intros v H; apply Hv, in_app_iff; auto).
    assert (Vl : forall v, In v (map fst l) -> (vid v < 2 ^ 64)%N) by (intros v H; apply Hv, in_app_iff; auto). clear Hv.
    assert (A : exists xs, Forall2 (loads env) (map (fun lr => JArr [ser_grouped name_of (fst lr); JStr (txt "*"); ser_grouped name_of (snd lr)]) q) xs /\ fold_right fadd 0 xs = eq_sum s q).
    { clear Vl. induction Hq as [|[a b] q [Ha Hb] Hq IH]; cbn [map]; [exists []; split; [constructor|now rewrite eq_sum_nil]|]. destruct IH as (xs & I1 & I2).
      { intros v H. apply Vq. apply qvars_in in H. apply qvars_in. destruct H as (x & H & H'). exists x. cbn; auto. }
      { exists (eval s a * eval s b :: xs). split; [constructor; auto|rewrite eq_sum_cons, <- I2; reflexivity].
           apply loads_times; [apply Ha|apply Hb]; intros v H; apply Vq, qvars_in; exists (a, b); cbn; auto. } }
    assert (B : exists xs, Forall2 (loads env) (map (ser_linear name_of) l) xs /\ fold_right fadd 0 xs = el_sum s l).
    { clear - Hword Vl. induction l as [|[v k] l IH]; cbn [map]; [exists []; split; [constructor|now rewrite el_sum_nil]|].
      cbn [map fst In] in Vl. destruct IH as (xs & I1 & I2); [auto|].
      exists (k * s v :: xs). split; [constructor; auto|rewrite el_sum_cons, <- I2; cbn [fst snd fold_right]; ring].
      unfold ser_linear. cbn [fst snd]. destruct (is_one k) eqn:E0.
      - apply is_one_eq in E0. subst k. replace (1 * s v) with (s v) by ring. apply loads_ref; auto.
      - apply loads_times; [apply loads_number|apply loads_ref; auto]. }
    assert (C : exists xs, Forall2 (loads env) (if is_zero c then [] else [ser_number c]) xs /\ fold_right fadd 0 xs = c).
    { destruct (is_zero c) eqn:E0.
      - exists []. split; [constructor|]. symmetry. now apply is_zero_eq.
      - exists [c]. split; [constructor; [apply loads_number|constructor]|]. cbn [fold_right]. ring. }
    destruct A as (xa & A1 & A2), B as (xb & B1 & B2), C as (xc & C1 & C2).
    replace (eq_sum s q + el_sum s l + c) with (fold_right fadd 0 (xa ++ xb ++ xc)).
    - apply loads_sum. apply Forall2_app; auto. now apply Forall2_app.
    - rewrite !sum_app, A2, B2, C2. ring.
  Qed.
  Lemma grouped_loaded (e : gexp p) : (forall v, In v (vars e) -> (vid v < 2 ^ 64)%N) ->
    exists e', de_expr word (ser_grouped name_of e) = Some e' /\ forall env, nvalue env e' = eval (fun v => env (vid v)) e.
  Proof.
    intros H. destruct (loads_grouped (fun _ => 0) e H) as (e' & H1 & _). exists e'. split; auto.
    intros env. destruct (loads_grouped env e H) as (e'' & H2 & H3). congruence.
  Qed.
  Hypothesis Hsmall : (word <= 2 ^ 64)%N.
  Lemma fold_not_num l : forall j, de_u64 j = None \/ l <> [] -> de_u64 (fold_left (fun a y => JArr [a; JStr (txt "+"); y]) l j) = None.
  Proof. induction l as [|x l IH]; intros j H; cbn [fold_left]; [destruct H; congruence|]. apply IH. left. reflexivity. Qed.
  Lemma bus_id_loaded (e : gexp p) : de_u64 (ser_grouped name_of e) = option_map val (try_to_known e).
  Proof.
    destruct e as [q l c]. cbn [ser_grouped]. destruct q as [|[a b] q].
    - destruct l as [|[v k] l].
      + cbn [try_to_known option_map map app]. pose proof (val_lt c). pose proof (val_lt (0 : F p)).
        destruct (is_zero c) eqn:E0; cbn [ser_sum fold_left]; unfold ser_number, de_u64.
        * apply is_zero_eq in E0. subst c. now replace (val 0 <? 2 ^ 64)%N with true by lia.
        * now replace (val c <? 2 ^ 64)%N with true by lia.
      + cbn [try_to_known option_map map app ser_sum]. apply fold_not_num. left. unfold ser_linear. destruct (is_one _); reflexivity.
    - cbn [try_to_known option_map map app ser_sum]. apply fold_not_num. left. reflexivity.
  Qed.
  Lemma expr_loaded (e : gexp p) : vars_fit e -> exists e', de_expr word (ser_grouped name_of e) = Some e' /\ same_values e e'.
  Proof. apply grouped_loaded. Qed.
  Lemma list_loaded {A B} (f : A -> json) (g : json -> option B) (Q : A -> B -> Prop) (l : list A) :
    Forall (fun a => exists b, g (f a) = Some b /\ Q a b) l -> exists l', de_list g (JArr (map f l)) = Some l' /\ Forall2 Q l l'.
  Proof.
    induction 1 as [|a l (b & H1 & H2) _ (l' & I1 & I2)]; [exists []; auto|]. exists (b :: l'). split; [|constructor; auto].
    cbn [de_list map all_opt] in *. now rewrite H1, I1.
  Qed.
  Lemma exprs_loaded (l : list (gexp p)) : Forall vars_fit l -> exists l', de_list (de_expr word) (JArr (map (ser_grouped name_of) l)) = Some l' /\ Forall2 same_values l l'.
  Proof. intros H. apply list_loaded. eapply Forall_impl; [|exact H]. intros e. apply expr_loaded. Qed.
  Definition ser_busi (b : busi (gexp p)) : json := JObj [(txt "id", ser_grouped name_of (bus_id b)); (txt "mult", ser_grouped name_of (mult b)); (txt "args", JArr (map (ser_grouped name_of) (payload b)))].
  Lemma bus_loaded (b : busi (gexp p)) : fixed_bus b -> vars_fit (mult b) -> Forall vars_fit (payload b) ->
    exists b', de_bus word (ser_busi b) = Some b' /\ same_bus b b'.
  Proof.
    intros (k & Hk) H1 H2. destruct (expr_loaded _ H1) as (m & M1 & M2). destruct (exprs_loaded _ H2) as (a & A1 & A2).
    exists (mkNB (val k) m a). split.
    - unfold de_bus, ser_busi. change (read_struct _ _) with (Some [ser_grouped name_of (bus_id b); ser_grouped name_of (mult b); JArr (map (ser_grouped name_of) (payload b))]). cbv iota.
      now rewrite bus_id_loaded, Hk, M1, A1.
    - split; cbn [nb_id nb_mult nb_args]; auto. split; [apply val_lt|]. intros env. rewrite Hk, of_N_val, eval_GE, eq_sum_nil, el_sum_nil. ring.
  Qed.
  Lemma bus_loaded_fixed (b : busi (gexp p)) (b' : nbus p) : de_bus word (ser_busi b) = Some b' -> fixed_bus b.
  Proof.
    unfold de_bus, ser_busi. change (read_struct _ _) with (Some [ser_grouped name_of (bus_id b); ser_grouped name_of (mult b); JArr (map (ser_grouped name_of) (payload b))]). cbv iota.
    rewrite bus_id_loaded. unfold fixed_bus. destruct (bus_id b) as [[|] [|] c]; cbn [try_to_known option_map]; try discriminate. eauto.
  Qed.
  Lemma derived_loaded (d : var * cmethod p) : (vid (fst d) < 2 ^ 64)%N -> match snd d with CConst _ => True | CQuot a b => vars_fit a /\ vars_fit b end ->
    exists d', de_derived word (JArr [ser_ref (name_of (fst d)) (vid (fst d)); ser_cmethod name_of (snd d)]) = Some d' /\ same_derived name_of d d'.
  Proof.
    destruct d as [v m]. cbn [fst snd]. intros Hv Hm. unfold de_derived. rewrite de_ser_ref by auto. unfold ser_cmethod, de_method. destruct m as [k|a b].
    - change (text_eqb (txt "Constant") (txt "Constant")) with true. cbv iota. rewrite de_ser_number. eexists. split; [reflexivity|]. split; reflexivity.
    - change (text_eqb (txt "QuotientOrZero") (txt "Constant")) with false. change (text_eqb (txt "QuotientOrZero") (txt "QuotientOrZero")) with true. cbv iota.
      destruct Hm as [Ha Hb]. destruct (expr_loaded _ Ha) as (a' & A1 & A2), (expr_loaded _ Hb) as (b' & B1 & B2). rewrite A1, B1. eexists. split; [reflexivity|]. split; [reflexivity|].
      intros env. cbn [snd method_value cm_value]. unfold quotient_or_zero. rewrite A2, B2.
      destruct (is_zero (eval (row_of env) b)) eqn:E0; [apply is_zero_eq in E0; apply feqb_eq in E0|apply is_zero_neq in E0; apply feqb_neq in E0]; rewrite E0, ?B2; reflexivity.
  Qed.
  Lemma system_loaded (c : csys p) : system_fits c -> Forall fixed_bus (buses c) -> exists m, de_machine word (ser_system name_of c) = Some m /\ same_system name_of c m.
  Proof.
    intros [H1 H2 H3] Hb. destruct (exprs_loaded _ H1) as (cs & C1 & C2).
    destruct (list_loaded ser_busi (de_bus word) same_bus (buses c)) as (bs & B1 & B2).
    { rewrite Forall_forall in *. intros b Hin. destruct (H2 b Hin). apply bus_loaded; auto. }
    destruct (list_loaded (fun d => JArr [ser_ref (name_of (fst d)) (vid (fst d)); ser_cmethod name_of (snd d)]) (de_derived word) (same_derived name_of) (derived c)) as (ds & D1 & D2).
    { rewrite Forall_forall in *. intros d Hin. destruct (H3 d Hin). now apply derived_loaded. }
    exists (mkNM cs bs ds). split; [|split; auto].
    unfold de_machine, ser_system. change (read_struct _ _) with (Some [JArr (map (ser_grouped name_of) (algs c)); JArr (map ser_busi (buses c)); JArr (map (fun d => JArr [ser_ref (name_of (fst d)) (vid (fst d)); ser_cmethod name_of (snd d)]) (derived c))]). cbv iota.
    now rewrite C1, B1, D1.
  Qed.
  Lemma system_loaded_fixed (c : csys p) (m : nmach p) : de_machine word (ser_system name_of c) = Some m -> Forall fixed_bus (buses c).
  Proof.
    unfold de_machine, ser_system. change (read_struct _ _) with (Some [JArr (map (ser_grouped name_of) (algs c)); JArr (map ser_busi (buses c)); JArr (map (fun d => JArr [ser_ref (name_of (fst d)) (vid (fst d)); ser_cmethod name_of (snd d)]) (derived c))]). cbv iota.
    destruct (de_list (de_expr word) _); [|discriminate]. destruct (de_list (de_bus word) _) as [bs|] eqn:E0; [|discriminate]. intros _.
    cbn [de_list] in E0. rewrite map_map in E0. apply all_opt_some in E0. induction E0 as [|b b' bl bl' H _ IH]; constructor; auto. eapply bus_loaded_fixed. exact H.
  Qed.

  (** ** Long sums *)
  Lemma fold_depth l : forall j, Forall (fun x => depth x = 0%nat) l -> depth (fold_left (fun a y => JArr [a; JStr (txt "+"); y]) l j) = (depth j + List.length l)%nat.
  Proof. clear word Hword Hsmall.
    induction l as [|x l IH]; intros j H; cbn [fold_left List.length]; [lia|]. inversion_clear H. rewrite IH by auto. cbn [depth map fold_right]. lia.
  Qed.
  Definition long_sum (n : nat) : gexp p := GE [] (map (fun i => (Orig (N.of_nat i), 1)) (seq 0 (S n))) 0.
  Lemma long_sum_depth n : is_one (1 : F p) = true -> depth (ser_grouped name_of (long_sum n)) = n.
  Proof. clear word Hword Hsmall.
    intros H1. unfold long_sum. cbn [ser_grouped map app]. rewrite (proj2 (is_zero_eq 0) eq_refl). rewrite app_nil_r. cbn [seq map ser_sum].
    rewrite fold_depth.
    - rewrite !map_length, seq_length. unfold ser_linear. cbn [fst snd]. rewrite H1. reflexivity.
    - apply Forall_forall. intros x H. apply in_map_iff in H. destruct H as ([v k] & <- & H). apply in_map_iff in H. destruct H as (i & [= <- <-] & _).
      unfold ser_linear. cbn [fst snd]. rewrite H1. reflexivity.
  Qed.
  Lemma long_sum_fits n : (N.of_nat n < 2 ^ 64)%N -> vars_fit (long_sum n).
  Proof. clear word Hword Hsmall.
    intros H v Hv. unfold long_sum in Hv. rewrite vars_GE in Hv. apply in_app_iff in Hv. destruct Hv as [[]|Hv]. rewrite map_map in Hv. apply in_map_iff in Hv.
    destruct Hv as (i & <- & Hi). apply in_seq in Hi. cbn [fst vid]. lia.
  Qed.
End Json.
