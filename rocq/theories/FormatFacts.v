(** Proofs about the printed form of instructions. *)
From Coq Require Import Arith NArith ZArith Bool List Ascii String Lia.
From Verif Require Import NumModel NumFacts JsonModel ElfModel ExportModel ExportSpec ExportFacts FormatModel FormatSpec.
Import ListNotations.
Local Open Scope list_scope.
Local Open Scope N_scope.

(** ** Names *)
Lemma split_space (x y r s : text) : ~ In 32 x -> ~ In 32 y -> x ++ 32 :: r = y ++ 32 :: s -> x = y /\ r = s.
Proof.
  revert y. induction x as [|c x IH]; intros [|d y] Hx Hy H; cbn in *.
  - injection H as ->. auto.
  - injection H as E _. exfalso. auto.
  - injection H as E _. exfalso. auto.
  - injection H as -> H. apply IH in H; auto. destruct H as [-> ->]. auto.
Qed.
Definition named (o : N) (t : text) : Prop := find (fun x => fst x =? o) opcode_names = Some (o, t).
Lemma name_cases o : (exists t, named o t /\ opcode_name o = t) \/
  (~ In o (map fst opcode_names) /\ opcode_name o = txt "<opcode " ++ print 10 o ++ txt ">").
Proof.
  unfold opcode_name, named. destruct (find (fun x => fst x =? o) opcode_names) as [[k t]|] eqn:E.
  - left. exists t. assert (k = o); [|now subst]. apply find_some in E. destruct E as [_ E]. now apply N.eqb_eq in E.
  - right. split; auto. intros H. apply in_map_iff in H. destruct H as (x & <- & Hx). apply (find_none _ _ E) in Hx. now rewrite N.eqb_refl in Hx.
Qed.
Lemma named_in o t : named o t -> In (o, t) opcode_names.
Proof. intros H. now apply find_some in H. Qed.
Definition plain_b (t : text) : bool := forallb (fun c => negb (c =? 32)) t && match t with c :: _ => negb (c =? 60) | [] => false end.
Lemma names_plain : forallb (fun x => plain_b (snd x)) opcode_names = true.
Proof. vm_compute. reflexivity. Qed.
Definition text_eq (a b : text) : bool := if list_eq_dec N.eq_dec a b then true else false.
Lemma names_different : forallb (fun x => forallb (fun y => negb (text_eq (snd x) (snd y)) || (fst x =? fst y)) opcode_names) opcode_names = true.
Proof. vm_compute. reflexivity. Qed.
Lemma named_plain o t : named o t -> ~ In 32 t /\ exists c r, t = c :: r /\ c <> 60.
Proof.
  intros H. apply named_in in H. pose proof names_plain as P. rewrite forallb_forall in P. apply P in H. cbn [snd] in H. unfold plain_b in H. apply andb_true_iff in H. destruct H as [H1 H2]. split.
  - intros Hin. rewrite forallb_forall in H1. apply H1 in Hin. discriminate.
  - destruct t as [|c r]; [discriminate|]. exists c, r. split; auto. intros ->. discriminate.
Qed.
Lemma named_inj o o' t : named o t -> named o' t -> o = o'.
Proof.
  intros H H'. apply named_in in H. apply named_in in H'. pose proof names_different as P. rewrite forallb_forall in P. apply P in H. rewrite forallb_forall in H. apply H in H'.
  cbn [fst snd] in H'. unfold text_eq in H'. destruct (list_eq_dec N.eq_dec t t); [|congruence]. now apply N.eqb_eq in H'.
Qed.
Lemma stops_char c s : (c < 48 \/ 57 < c) -> stops (c :: s).
Proof. intros H. apply stops_cons. unfold digit. lia. Qed.
Lemma name_apart o o' r s : opcode_name o ++ 32 :: r = opcode_name o' ++ 32 :: s -> o = o' /\ r = s.
Proof.
  intros H. destruct (name_cases o) as [(t & Ht & Et)|(Hn & Et)], (name_cases o') as [(t' & Ht' & Et')|(Hn' & Et')]; rewrite Et, Et' in H.
  - apply split_space in H; [|now apply (named_plain o)|now apply (named_plain o')]. destruct H as [-> ->]. split; auto. now apply (named_inj _ _ t').
  - exfalso. destruct (named_plain _ _ Ht) as (_ & c & x & -> & Hc). apply (f_equal (hd 0)) in H. cbn in H. congruence.
  - exfalso. destruct (named_plain _ _ Ht') as (_ & c & x & -> & Hc). apply (f_equal (hd 0)) in H. cbn in H. congruence.
  - rewrite <- !app_assoc in H. apply app_inv_head in H. apply digits_apart in H; auto using print_digits.
    + destruct H as [H1 H2]. apply print_inj in H1. apply app_inv_head in H2. injection H2 as ->. auto.
    + apply (stops_char 62). lia.
    + apply (stops_char 62). lia.
Qed.

(** ** Values *)
Definition value (t : text) : Prop := (Forall digit t /\ t <> []) \/ exists s, t = 45 :: s /\ Forall digit s.
Lemma value_number n : value (print 10 n).
Proof. left. split; [apply print_digits|apply print_nonempty]. Qed.
Lemma value_fe p v : value (format_fe p v).
Proof. unfold format_fe. destruct (v <? p / 2); [apply value_number|]. right. eexists. split; [reflexivity|apply print_digits]. Qed.
Lemma value_apart a b r s : value a -> value b -> stops r -> stops s -> a ++ r = b ++ s -> a = b /\ r = s.
Proof.
  intros Ha Hb Hr Hs H. destruct Ha as [[Ha Na]|(a' & -> & Ha)], Hb as [[Hb Nb]|(b' & -> & Hb)].
  - now apply digits_apart.
  - exfalso. destruct a as [|c a]; [congruence|]. injection H as -> _. inversion Ha; subst. unfold digit in *. lia.
  - exfalso. destruct b as [|c b]; [congruence|]. injection H as E _. subst c. inversion Hb; subst. unfold digit in *. lia.
  - injection H as H. apply digits_apart in H; auto. destruct H as [-> ->]. auto.
Qed.
Definition separator (t : text) : Prop := exists c s, t = c :: s /\ (c < 48 \/ 57 < c).
Lemma fields_stops l : Forall (fun x => separator (fst x)) l -> stops (fields l).
Proof. intros H. destruct H as [|[u v] l (c & s & E & Hc) _]; [intros ? ? X; discriminate|]. cbn [fst] in E. subst u. change (fields ((c :: s, v) :: l)) with (c :: (s ++ v) ++ fields l). now apply stops_char. Qed.
Lemma fields_apart l : forall l', map fst l = map fst l' -> Forall (fun x => separator (fst x)) l -> Forall (fun x => value (snd x)) l -> Forall (fun x => value (snd x)) l' ->
  fields l = fields l' -> l = l'.
Proof.
  induction l as [|[s v] l IH]; intros [|[s' v'] l'] E Hs Hv Hv' H; try discriminate; auto.
  injection E as <- E. inversion Hs; inversion Hv; inversion Hv'; subst. cbn [fst snd] in *.
  change (fields ((s, v) :: l)) with ((s ++ v) ++ fields l) in H. change (fields ((s, v') :: l')) with ((s ++ v') ++ fields l') in H.
  rewrite <- !app_assoc in H. apply app_inv_head in H. apply value_apart in H; auto.
  - destruct H as [-> H]. f_equal. apply IH; auto.
  - now apply fields_stops.
  - apply fields_stops. apply (proj1 (Forall_map fst separator l')). rewrite <- E. now apply (proj2 (Forall_map fst separator l)).
Qed.
Lemma fe_inj p v w : v < p -> w < p -> format_fe p v = format_fe p w -> v = w.
Proof.
  intros Hv Hw H. unfold format_fe in H. destruct (v <? p / 2), (w <? p / 2).
  - now apply print_inj.
  - exfalso. pose proof (print_digits v) as X. rewrite H in X. inversion X; subst. unfold digit in *. lia.
  - exfalso. pose proof (print_digits w) as X. rewrite <- H in X. inversion X; subst. unfold digit in *. lia.
  - injection H as H. apply print_inj in H. lia.
Qed.

(** ** Kinds *)
Lemma is_alu_ok o : is_alu o = true <-> alu o.
Proof. unfold is_alu, alu. rewrite andb_true_iff, !N.leb_le. tauto. Qed.
Lemma is_ls_ok o : is_load_store o = true <-> load_store o.
Proof. unfold is_load_store, load_store. rewrite andb_true_iff, !N.leb_le. tauto. Qed.
Lemma mem_addr_ok o l : mem_addr o l = true <-> In o l.
Proof.
  unfold mem_addr. rewrite existsb_exists. split.
  - intros (x & H & E). apply N.eqb_eq in E. now subst.
  - intros H. exists o. split; auto. apply N.eqb_refl.
Qed.
Lemma listed_names o : is_listed o = true <-> In o (map fst opcode_names).
Proof. unfold is_listed. rewrite mem_addr_ok. reflexivity. Qed.

(** ** Lines *)
Lemma total p i : (exists t, format_instruction p i = Some t) <->
  (alu (opcode i) -> op_d i = 1 /\ op_f i = 0 /\ op_g i = 0) /\ (load_store (opcode i) -> op_d i = 1).
Proof.
  destruct i as [o a b c d e f g]. cbn [opcode op_a op_b op_c op_d op_e op_f op_g]. unfold format_instruction.
  rewrite <- is_alu_ok, <- is_ls_ok. destruct (is_alu o) eqn:Ea.
  - assert (El : is_load_store o = false).
    { destruct (is_load_store o) eqn:El; auto. apply is_alu_ok in Ea. apply is_ls_ok in El. unfold alu, load_store in *. lia. }
    rewrite El. destruct (N.eqb_spec d 1); destruct (N.eqb_spec f 0); destruct (N.eqb_spec g 0); cbn [andb]; split; intros H;
      try (destruct H as [t H]; discriminate); try (destruct H as [H _]; destruct (H eq_refl) as (? & ? & ?); congruence); try (eexists; reflexivity); split; auto; discriminate.
  - destruct (is_load_store o).
    + destruct (N.eqb_spec d 1) as [E|E]; split.
      * intros _. split; [discriminate|auto].
      * intros _. eexists. reflexivity.
      * intros [t H]. discriminate.
      * intros [_ H]. exfalso. apply E. now apply H.
    + split; [split; discriminate|]. intros _. destruct (is_branch o); [eexists; reflexivity|]. destruct (is_listed o); eexists; reflexivity.
Qed.
Lemma Some_inj {A} (x y : A) : Some x = Some y -> x = y.
Proof. now intros [= ->]. Qed.
Lemma fields_cons n l : fields (([], n) :: l) = n ++ fields l.
Proof. reflexivity. Qed.
Lemma fields_space (s : text) v l : fields ((32 :: s, v) :: l) = 32 :: (s ++ v) ++ fields l.
Proof. reflexivity. Qed.
Ltac sep := repeat (apply Forall_cons; [eexists _, _; split; [reflexivity|left; reflexivity]|]); apply Forall_nil.
Ltac vals := repeat (apply Forall_cons; [first [apply value_number|apply value_fe]|]); apply Forall_nil.
Lemma line_head p i t : format_instruction p i = Some t -> exists r, t = opcode_name (opcode i) ++ 32 :: r.
Proof.
  destruct i as [o a b c d e f g]. unfold format_instruction. cbn [opcode].
  destruct (is_alu o); [destruct ((d =? 1) && (f =? 0) && (g =? 0)); [|discriminate]|destruct (is_load_store o); [destruct (d =? 1); [|discriminate]|
    destruct (is_branch o); [|destruct (is_listed o)]]]; intros H; apply Some_inj in H; subst t; rewrite fields_cons; eexists; reflexivity.
Qed.
Lemma line_inj p i j t : canonical p i -> canonical p j -> format_instruction p i = Some t -> format_instruction p j = Some t ->
  (prints_all (opcode i) \/ (op_f i = op_f j /\ op_g i = op_g j)) -> i = j.
Proof.
  intros (_ & _ & Ci & _) (_ & _ & Cj & _) Hi Hj Hfg.
  assert (Eo : opcode i = opcode j).
  { destruct (line_head _ _ _ Hi) as [r ->]. destruct (line_head _ _ _ Hj) as [s E]. now apply name_apart in E. }
  destruct i as [o a b c d e f g], j as [o' a' b' c' d' e' f' g']. cbn [opcode op_a op_b op_c op_d op_e op_f op_g] in *. subst o'.
  unfold format_instruction in Hi, Hj. destruct (is_alu o) eqn:Ea.
  - destruct ((d =? 1) && (f =? 0) && (g =? 0)) eqn:E1; [|discriminate]. destruct ((d' =? 1) && (f' =? 0) && (g' =? 0)) eqn:E2; [|discriminate].
    apply andb_true_iff in E1. destruct E1 as [E1 E3]. apply andb_true_iff in E1. destruct E1 as [E1 E4].
    apply andb_true_iff in E2. destruct E2 as [E2 E5]. apply andb_true_iff in E2. destruct E2 as [E2 E6].
    apply N.eqb_eq in E1, E2, E3, E4, E5, E6. subst.
    rewrite <- Hj in Hi. apply Some_inj in Hi. rewrite !fields_cons in Hi. apply app_inv_head in Hi.
    apply fields_apart in Hi; [|reflexivity|sep|vals|vals]. injection Hi as H1 H2 H3 H4. f_equal; now apply print_inj.
  - destruct (is_load_store o) eqn:El.
    + destruct (N.eqb_spec d 1) as [->|]; [|discriminate]. destruct (N.eqb_spec d' 1) as [->|]; [|discriminate].
      rewrite <- Hj in Hi. apply Some_inj in Hi. rewrite !fields_cons in Hi. apply app_inv_head in Hi.
      apply fields_apart in Hi; [|reflexivity|sep|vals|vals]. injection Hi as H1 H2 H3 H4 H5 H6. f_equal; now apply print_inj.
    + destruct (is_branch o) eqn:Eb.
      * rewrite <- Hj in Hi. apply Some_inj in Hi. rewrite !fields_cons in Hi. apply app_inv_head in Hi.
        apply fields_apart in Hi; [|reflexivity|sep|vals|vals]. injection Hi as H1 H2 H3 H4 H5.
        destruct Hfg as [[Hl|Hn]|[-> ->]].
        -- apply is_ls_ok in Hl. congruence.
        -- exfalso. apply Hn. apply listed_names. unfold is_branch in Eb. apply mem_addr_ok in Eb. unfold is_listed. apply mem_addr_ok. apply (proj1 (mem_addr_ok _ _)). clear - Eb. cbn in Eb. destruct Eb as [<-|[<-|[<-|[<-|[<-|[<-|[]]]]]]]; reflexivity.
        -- f_equal; try now apply print_inj. now apply (fe_inj p).
      * destruct (is_listed o) eqn:Els.
        -- rewrite <- Hj in Hi. apply Some_inj in Hi. rewrite !fields_cons in Hi. apply app_inv_head in Hi.
           apply fields_apart in Hi; [|reflexivity|sep|vals|vals]. injection Hi as H1 H2 H3 H4 H5.
           destruct Hfg as [[Hl|Hn]|[-> ->]].
           ++ apply is_ls_ok in Hl. congruence.
           ++ exfalso. apply Hn. now apply listed_names.
           ++ f_equal; now apply print_inj.
        -- rewrite <- Hj in Hi. apply Some_inj in Hi. rewrite !fields_cons in Hi. apply app_inv_head in Hi.
           apply fields_apart in Hi; [|reflexivity|sep|vals|vals]. injection Hi as H1 H2 H3 H4 H5 H6 H7. f_equal; now apply print_inj.
Qed.

(** ** Branches *)
Lemma branch_kind o : In o branch_codes -> is_alu o = false /\ is_load_store o = false /\ is_branch o = true.
Proof. cbn. intros [<-|[<-|[<-|[<-|[<-|[<-|[]]]]]]]; repeat split. Qed.
Lemma fe_signed p z : (2 < p) -> N.odd p = true -> (- (Z.of_N p + 1) <= 2 * z < Z.of_N p - 1)%Z ->
  format_fe p (if (0 <=? z)%Z then from_u32 p (Z.to_N z) else fneg p (from_u32 p (Z.to_N (- z)))) = signed z.
Proof.
  intros Hp Ho Hz. unfold format_fe, from_u32, fneg. assert (Hh : p = 2 * (p / 2) + 1).
  { rewrite <- N.div2_div. rewrite <- N.bit0_odd in Ho. pose proof (N.div2_odd p) as X. rewrite <- N.bit0_odd, Ho in X. cbn in X. exact X. }
  set (h := p / 2) in *. destruct (Z.leb_spec 0 z) as [H|H].
  - rewrite N.mod_small by lia. destruct (N.ltb_spec (Z.to_N z) h); [|lia]. destruct z; [reflexivity|reflexivity|lia].
  - destruct z as [| |n]; try lia. cbn [Z.opp Z.to_N]. rewrite (N.mod_small (Npos n)) by lia. rewrite (N.mod_small (p - Npos n)) by lia.
    destruct (N.ltb_spec (p - Npos n) h); [lia|]. unfold signed. do 2 f_equal. lia.
Qed.
