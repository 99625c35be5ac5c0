(** Facts about the conversions of the number crate. *)
From Coq Require Import NArith ZArith Znumtheory Bool List Lia Arith.
From Coq Require Import ZifyBool ZifyN ZifyNat.
From Verif Require Import GoldModel GoldFacts NumModel.
Import ListNotations.
Local Open Scope N_scope.

(** ** Conversions *)

Lemma as_u64_neg n : (- 2 ^ 63 <= n < 0)%Z -> as_u64 n = Z.to_N (n + 2 ^ 64).
Proof.
  intros H. unfold as_u64. f_equal. rewrite <- (Z.mod_add n 1) by lia. rewrite Z.mul_1_l.
  apply Z.mod_small. lia.
Qed.
Lemma as_u64_nonneg n : (0 <= n < 2 ^ 63)%Z -> as_u64 n = Z.to_N n.
Proof. intros H. unfold as_u64. f_equal. apply Z.mod_small. lia. Qed.

Lemma gl_from_i64_spec n : (- 2 ^ 63 <= n < 2 ^ 63)%Z ->
  gl_from_i64 n = Some (Z.to_N (n mod Z.of_N ORDER)).
Proof.
  intros H. unfold gl_from_i64, from_canonical_u64.
  destruct (Z.ltb_spec n 0) as [L|L].
  - rewrite as_u64_neg by lia. unfold wrapping_add.
    assert (E : (ORDER + Z.to_N (n + 2 ^ 64)) mod W64 = Z.to_N (n + Z.of_N ORDER)).
    { replace (ORDER + Z.to_N (n + 2 ^ 64)) with (Z.to_N (n + Z.of_N ORDER) + 1 * W64) by (consts; lia).
      rewrite N.mod_add by discriminate. apply N.mod_small. consts; lia. }
    rewrite E. destruct (N.ltb_spec (Z.to_N (n + Z.of_N ORDER)) ORDER) as [B|B]; [|consts; lia].
    cbn [check]. do 2 f_equal. rewrite <- (Z.mod_add n 1) by (consts; lia). rewrite Z.mul_1_l. symmetry. apply Z.mod_small. consts; lia.
  - rewrite as_u64_nonneg by lia. destruct (N.ltb_spec (Z.to_N n) ORDER) as [B|B]; [|consts; lia].
    cbn [check]. do 2 f_equal. symmetry. apply Z.mod_small. consts; lia.
Qed.

Section Small.
  Variable p : N.
  Hypothesis Hp : 0 < p.
  Hypothesis Hp31 : p < 2 ^ 31.

  Lemma sm_from_i64_spec n : (- 2 ^ 63 <= n < 2 ^ 63)%Z ->
    sm_from_i64 p n = if ((- Z.of_N p <=? n) && (n <? Z.of_N p))%Z then Some (Z.to_N (n mod Z.of_N p)) else None.
  Proof.
    intros H. unfold sm_from_i64, sm_from, p3_from_canonical_checked.
    destruct (Z.ltb_spec n 0) as [L|L].
    - rewrite as_u64_neg by lia. unfold wrapping_add.
      destruct (Z.leb_spec (- Z.of_N p) n) as [M|M]; cbn [andb].
      + assert (E : (p + Z.to_N (n + 2 ^ 64)) mod W64 = Z.to_N (n + Z.of_N p)).
        { replace (p + Z.to_N (n + 2 ^ 64)) with (Z.to_N (n + Z.of_N p) + 1 * W64) by (consts; lia).
          rewrite N.mod_add by discriminate. apply N.mod_small. consts; lia. }
        rewrite E. destruct (Z.ltb_spec n (Z.of_N p)); [|lia].
        destruct (N.ltb_spec (Z.to_N (n + Z.of_N p)) p) as [B|B]; [|lia].
        do 2 f_equal. rewrite <- (Z.mod_add n 1) by lia. rewrite Z.mul_1_l. symmetry. apply Z.mod_small. lia.
      + rewrite N.mod_small by (consts; lia).
        destruct (N.ltb_spec (p + Z.to_N (n + 2 ^ 64)) p) as [B|B]; [lia|reflexivity].
    - rewrite as_u64_nonneg by lia. destruct (Z.leb_spec (- Z.of_N p) n); [|lia]. cbn [andb].
      destruct (N.ltb_spec (Z.to_N n) p) as [B|B]; destruct (Z.ltb_spec n (Z.of_N p)); try lia; [|reflexivity].
      do 2 f_equal. symmetry. apply Z.mod_small. lia.
  Qed.

  Lemma sm_from_big_spec n : sm_from_big p n = if n <? p then Some n else None.
  Proof.
    unfold sm_from_big, sm_from, p3_from_canonical_checked. destruct (N.ltb_spec n W64) as [L|L]; [reflexivity|].
    destruct (N.ltb_spec n p); [consts; lia|reflexivity].
  Qed.
  Lemma sm_from_str_spec n : sm_from_str p n = Some (if n <? p then Some n else None).
  Proof.
    unfold sm_from_str. rewrite sm_from_big_spec. destruct (N.leb_spec p n), (N.ltb_spec n p); try lia; reflexivity.
  Qed.
  Lemma sm_checked_from_spec n : sm_checked_from p n = Some (if n <? p then Some n else None).
  Proof.
    unfold sm_checked_from, sm_from, p3_from_canonical_checked. destruct (N.ltb_spec n p) as [L|L]; [|reflexivity].
    destruct (N.ltb_spec n (2 ^ 32)) as [M|M]; [|lia]. destruct (N.ltb_spec n p); [reflexivity|lia].
  Qed.
  Lemma sm_from_str_radix_spec n :
    sm_from_str_radix p n = if n <? p then Some (Some n) else if n <? 2 ^ 32 then None else Some None.
  Proof.
    unfold sm_from_str_radix, sm_from, p3_from_canonical_checked.
    destruct (N.ltb_spec n (2 ^ 32)) as [L|L], (N.ltb_spec n p); cbn [negb]; try reflexivity; lia.
  Qed.
End Small.

Lemma gl_from_big_spec n : gl_from_big n = if n <? W64 then Some (n mod ORDER) else None.
Proof.
  unfold gl_from_big, gl_from_u64. destruct (N.ltb_spec n W64) as [L|L]; [now apply wrap_spec|reflexivity].
Qed.
Lemma gl_checked_from_spec n : gl_checked_from n = Some (if n <? ORDER then Some n else None).
Proof.
  unfold gl_checked_from. destruct (N.ltb_spec n ORDER) as [L|L]; [|reflexivity]. rewrite gl_from_big_spec.
  destruct (N.ltb_spec n W64); [|consts; lia]. now rewrite N.mod_small.
Qed.
Lemma gl_from_str_radix_spec n : gl_from_str_radix n = Some (if n <? ORDER then Some n else None).
Proof.
  unfold gl_from_str_radix, from_canonical_u64. destruct (N.ltb_spec n W64) as [L|L], (N.ltb_spec n ORDER); cbn [negb check]; try reflexivity; consts; lia.
Qed.
Lemma gl_from_str_spec n : gl_from_str n = Some (if n <? ORDER then Some n else None).
Proof.
  unfold gl_from_str. rewrite gl_from_big_spec.
  destruct (N.leb_spec ORDER n), (N.ltb_spec n ORDER); try lia; [reflexivity|].
  destruct (N.ltb_spec n W64); [|consts; lia]. now rewrite N.mod_small.
Qed.

(** The symmetric representative, for an odd modulus. *)
Lemma signed_spec (m x : N) (low : N -> bool) :
  N.odd m = true -> x < m -> (forall y, low y = (y <=? (m - 1) / 2)) ->
  let z := to_signed_integer m low x in
  let h := Z.of_N ((m - 1) / 2) in
  (- h <= z <= h)%Z /\ (z mod Z.of_N m)%Z = Z.of_N x /\
  forall z', (- h <= z' <= h)%Z -> (z' mod Z.of_N m)%Z = Z.of_N x -> z' = z.
Proof.
  intros O B L z h. apply N.odd_spec in O. destruct O as [k ->].
  assert (Hh : (2 * k + 1 - 1) / 2 = k). { replace (2 * k + 1 - 1) with (k * 2) by lia. now apply N.div_mul. }
  unfold h, z, to_signed_integer. rewrite L, Hh. clear L.
  assert (U : forall a b : Z, (- Z.of_N k <= a <= Z.of_N k)%Z -> (- Z.of_N k <= b <= Z.of_N k)%Z ->
              (a mod Z.of_N (2 * k + 1))%Z = (b mod Z.of_N (2 * k + 1))%Z -> a = b).
  { intros a b A C E. pose proof (Z.div_mod a (Z.of_N (2 * k + 1)) ltac:(lia)) as Da.
    pose proof (Z.div_mod b (Z.of_N (2 * k + 1)) ltac:(lia)) as Db.
    rewrite E in Da. revert Da Db. generalize (a / Z.of_N (2 * k + 1))%Z (b / Z.of_N (2 * k + 1))%Z
      (b mod Z.of_N (2 * k + 1))%Z. intros qa qb r Da Db.
    assert (X : (a - b = Z.of_N (2 * k + 1) * (qa - qb))%Z) by lia.
    assert (qa - qb = 0)%Z; [|lia]. destruct (Z.lt_trichotomy (qa - qb) 0) as [Y|[Y|Y]]; [nia|exact Y|nia]. }
  assert (M : forall w, ((w = Z.of_N x) \/ (w = Z.of_N x - Z.of_N (2 * k + 1)))%Z ->
              (w mod Z.of_N (2 * k + 1))%Z = Z.of_N x).
  { intros w [->| ->].
    - apply Z.mod_small. lia.
    - rewrite <- (Z.mod_add _ 1) by lia. replace (Z.of_N x - Z.of_N (2 * k + 1) + 1 * Z.of_N (2 * k + 1))%Z with (Z.of_N x) by lia.
      apply Z.mod_small. lia. }
  assert (W : let w := if x <=? k then Z.of_N x else (Z.of_N x - Z.of_N (2 * k + 1))%Z in
              (- Z.of_N k <= w <= Z.of_N k)%Z /\ (w mod Z.of_N (2 * k + 1))%Z = Z.of_N x).
  { cbv zeta. destruct (N.leb_spec x k); (split; [lia|]); apply M; auto. }
  cbv zeta in W. destruct W as [W1 W2]. split; [exact W1|]. split; [exact W2|].
  intros z' B' E. apply U; auto. now rewrite E, W2.
Qed.

(** ** [log2_exact] *)
Lemma tz_spec n : exists m, N.pos n = 2 ^ trailing_zeros_pos n * (2 * m + 1).
Proof.
  induction n as [n IH|n IH|]; cbn [trailing_zeros_pos].
  - exists (N.pos n). rewrite N.mul_1_l. reflexivity.
  - destruct IH as [m E]. exists m. rewrite N.pow_succ_r'. change (N.pos n~0) with (2 * N.pos n). rewrite E. apply N.mul_assoc.
  - exists 0. reflexivity.
Qed.
Lemma pow2_odd a b m : 2 ^ a = 2 ^ b * (2 * m + 1) -> a = b /\ m = 0.
Proof.
  intros E. assert (m = 0).
  { destruct (N.lt_ge_cases a b) as [L|L].
    - assert (2 ^ a < 2 ^ b) by (apply N.pow_lt_mono_r; lia). nia.
    - replace a with (b + (a - b)) in E by lia. rewrite N.pow_add_r in E.
      assert (2 ^ b <> 0) by (apply N.pow_nonzero; lia). apply N.mul_cancel_l in E; [|assumption].
      destruct (N.eq_dec (a - b) 0) as [Z|Z].
      + rewrite Z in E. rewrite N.pow_0_r in E. lia.
      + replace (a - b) with (N.succ (a - b - 1)) in E by lia. rewrite N.pow_succ_r' in E. lia. }
  subst m. split; [|reflexivity]. rewrite N.mul_1_r in E. apply N.pow_inj_r in E; [assumption|lia].
Qed.
Lemma log2_exact_spec n i : log2_exact n = Some i <-> n = 2 ^ i.
Proof.
  unfold log2_exact. destruct n as [|n]; cbn [trailing_zeros].
  - split; [discriminate|]. intros E. exfalso. symmetry in E. revert E. apply N.pow_nonzero. lia.
  - rewrite N.shiftl_1_l. destruct (tz_spec n) as [m E].
    destruct (N.eqb_spec (N.pos n) (2 ^ trailing_zeros_pos n)) as [Q|Q].
    + split; [intros [= <-]; exact Q|]. intros R. f_equal. rewrite R in E. now apply pow2_odd in E.
    + split; [discriminate|]. intros R. exfalso. apply Q. rewrite R in E. apply pow2_odd in E.
      rewrite R. f_equal. apply E.
Qed.

(** ** Numerals *)
Lemma read_app base s1 : forall acc s2,
  read_digits base (s1 ++ s2) acc =
  match read_digits base s1 acc with Some a => read_digits base s2 a | None => None end.
Proof.
  induction s1 as [|c s1 IH]; intros acc s2; [reflexivity|]. cbn [app read_digits].
  destruct (digit_value c) as [d|]; [|reflexivity]. destruct (d <? base); [apply IH|reflexivity].
Qed.

Definition digit_char (d : N) : N := if d <? 10 then 48 + d else 87 + d.
Lemma digit_value_char d : d < 16 -> digit_value (digit_char d) = Some d.
Proof.
  intros H. unfold digit_char, digit_value. destruct (N.ltb_spec d 10).
  - replace ((48 <=? 48 + d) && (48 + d <=? 57)) with true by lia. f_equal. lia.
  - replace ((48 <=? 87 + d) && (87 + d <=? 57)) with false by lia.
    replace ((97 <=? 87 + d) && (87 + d <=? 122)) with true by lia. f_equal. lia.
Qed.

Lemma digits_of_app base fuel : forall n acc, digits_of base fuel n acc = digits_of base fuel n [] ++ acc.
Proof.
  induction fuel as [|fuel IH]; intros n acc; [reflexivity|]. cbn [digits_of].
  destruct (n / base =? 0); [reflexivity|]. rewrite IH. symmetry. rewrite IH, <- app_assoc. reflexivity.
Qed.

Lemma read_digits_of base fuel : 2 <= base <= 16 -> forall n, n < 2 ^ N.of_nat fuel ->
  read_digits base (digits_of base fuel n []) 0 = Some n.
Proof.
  intros B. induction fuel as [|fuel IH]; intros n H.
  - cbn in H. replace n with 0 by lia. reflexivity.
  - cbn [digits_of]. fold (digit_char (n mod base)).
    pose proof (N.mod_lt n base ltac:(lia)) as M. pose proof (N.div_mod n base ltac:(lia)) as DM.
    destruct (N.eqb_spec (n / base) 0) as [Z|Z].
    + cbn [read_digits]. rewrite digit_value_char by lia. destruct (N.ltb_spec (n mod base) base); [|lia].
      f_equal. rewrite Z in DM. lia.
    + rewrite digits_of_app, read_app, IH.
      * cbn [read_digits]. rewrite digit_value_char by lia. destruct (N.ltb_spec (n mod base) base); [|lia].
        f_equal. lia.
      * apply N.div_lt_upper_bound; [lia|]. rewrite Nat2N.inj_succ, N.pow_succ_r' in H.
        assert (0 < 2 ^ N.of_nat fuel) by lia. nia.
Qed.

Lemma digits_nonempty base fuel n : digits_of base (S fuel) n [] <> [].
Proof.
  cbn [digits_of]. destruct (n / base =? 0); [discriminate|]. rewrite digits_of_app.
  intros E. apply app_eq_nil in E. now destruct E.
Qed.

Lemma print_nonempty base n : print base n <> [].
Proof. apply digits_nonempty. Qed.

Lemma read_print base n : 2 <= base <= 16 -> read base (print base n) = Some n.
Proof.
  intros B. pose proof (print_nonempty base n) as NE. unfold read, print in *.
  destruct (digits_of base (S (N.size_nat n)) n []) as [|c s] eqn:E; [contradiction|]. rewrite <- E.
  apply read_digits_of; [assumption|]. pose proof (N.size_gt n). rewrite Nat2N.inj_succ.
  replace (N.of_nat (N.size_nat n)) with (N.size n).
  2:{ destruct n as [|q]; [reflexivity|]. cbn. clear. induction q; cbn [Pos.size Pos.size_nat]; lia. }
  rewrite N.pow_succ_r'. lia.
Qed.

(** The characters of a decimal numeral. *)
Lemma print10_chars fuel : forall n acc, Forall (fun c => 48 <= c <= 57) acc ->
  Forall (fun c => 48 <= c <= 57) (digits_of 10 fuel n acc).
Proof.
  induction fuel as [|fuel IH]; intros n acc H; [exact H|]. cbn [digits_of].
  pose proof (N.mod_lt n 10 ltac:(discriminate)).
  assert (C : 48 <= (if n mod 10 <? 10 then 48 + n mod 10 else 87 + n mod 10) <= 57).
  { destruct (N.ltb_spec (n mod 10) 10); lia. }
  destruct (n / 10 =? 0); [now constructor|]. apply IH. now constructor.
Qed.

(** ** CSV files *)
Section Csv.
  Variables from_str_radix16 from_str : N -> option (option N).
  Variable neg : N -> option N.
  Variable p : N.
  Hypothesis Hradix : forall n, n < p -> from_str_radix16 n = Some (Some n).
  Hypothesis Hstr : forall n, n < p -> from_str n = Some (Some n).
  Notation rcell := (read_cell from_str_radix16 from_str neg).
  Notation rrec := (read_record from_str_radix16 from_str neg).
  Notation rrecs := (read_records from_str_radix16 from_str neg).

  Lemma read_decimal n : n < p -> rcell (print 10 n) = Some (Some n).
  Proof.
    intros H. pose proof (print_nonempty 10 n) as NE. pose proof (read_print 10 n ltac:(lia)) as R.
    assert (C : Forall (fun c => 48 <= c <= 57) (print 10 n)) by (apply print10_chars; constructor).
    destruct (print 10 n) as [|c s]; [contradiction|]. unfold read_cell.
    assert (S1 : strip_prefix [48; 120] (c :: s) = None).
    { cbn [strip_prefix]. destruct (48 =? c); [|reflexivity]. destruct s as [|d s]; [reflexivity|].
      inversion_clear C. inversion_clear H1. cbn [strip_prefix]. destruct (N.eqb_spec 120 d); [lia|reflexivity]. }
    assert (S2 : strip_prefix [45] (c :: s) = None).
    { inversion_clear C. cbn [strip_prefix]. destruct (N.eqb_spec 45 c); [lia|reflexivity]. }
    rewrite S1, S2, R, Hstr by assumption. reflexivity.
  Qed.

  Lemma read_render mode n : n < p -> rcell (render mode n) = Some (Some n).
  Proof.
    intros H. destruct mode; cbn [render]; [now apply read_decimal|now apply read_decimal|].
    unfold read_cell. cbn [strip_prefix]. change (48 =? 48) with true. change (120 =? 120) with true. cbv iota.
    change (45 =? 48) with false. cbv iota. rewrite read_print by lia. now rewrite Hradix.
  Qed.

  (** After the first [i] rows every column has been read up to [i]. *)
  Definition upto (i : nat) (c : text * list N) : text * list N := (fst c, firstn i (snd c)).

  Lemma firstn_more {A} (l : list A) i :
    firstn (S i) l = match nth_error l i with Some v => firstn i l ++ [v] | None => firstn i l end.
  Proof.
    revert i. induction l as [|a l IH]; intros [|i]; try reflexivity.
    cbn [firstn nth_error]. specialize (IH i). cbn [firstn] in IH. rewrite IH. destruct (nth_error l i); reflexivity.
  Qed.

  Lemma read_cells mode i : forall polys, Forall (fun c => Forall (fun v => v < p) (snd c)) polys ->
    rrec (map (upto i) polys)
      (map (fun c => match nth_error (snd c) i with Some v => render mode v | None => [] end) polys)
    = Some (map (upto (S i)) polys).
  Proof.
    induction polys as [|[name l] polys IH]; intros H; [reflexivity|]. inversion_clear H.
    cbn [map]. change (upto i (name, l)) with (name, firstn i l). change (upto (S i) (name, l)) with (name, firstn (S i) l).
    cbn [snd read_record]. cbn [snd] in H0. rewrite (firstn_more l i).
    destruct (nth_error l i) as [v|] eqn:E.
    - rewrite read_render; [|apply (proj1 (Forall_forall _ _) H0); eapply nth_error_In; exact E]. now rewrite IH.
    - cbn [read_cell]. now rewrite IH.
  Qed.

  Lemma read_rows mode polys : Forall (fun c => Forall (fun v => v < p) (snd c)) polys ->
    forall n start rows, N.of_nat (start + n) <= p ->
    rrecs ((ROW_NAME, rows) :: map (upto start) polys) (map (write_row mode polys) (seq start n))
    = Some ((ROW_NAME, rows ++ map N.of_nat (seq start n)) :: map (upto (start + n)) polys).
  Proof.
    intros H. induction n as [|n IH]; intros start rows B.
    - cbn [seq map read_records]. now rewrite app_nil_r, Nat.add_0_r.
    - cbn [seq map read_records]. unfold write_row at 1. cbn [read_record].
      rewrite read_decimal by lia. rewrite read_cells by assumption. rewrite IH by lia.
      rewrite <- app_assoc. cbn [app]. now rewrite Nat.add_succ_comm.
  Qed.

  Lemma max_len_bound polys n : max_len polys = Some n ->
    forall c, In c polys -> (length (snd c) <= n)%nat.
  Proof.
    unfold max_len. intros E.
    assert (X : fold_right (fun c m => Nat.max (length (snd c)) m) O polys = n) by (destruct polys; [discriminate|congruence]).
    rewrite <- X. clear E X. generalize polys as l. induction l as [|a l IH]; intros c I; [destruct I|].
    cbn [fold_right]. destruct I as [<-|I]; [apply Nat.le_max_l|]. specialize (IH c I).
    eapply Nat.le_trans; [exact IH|apply Nat.le_max_r].
  Qed.

  Lemma max_len_attained polys n : max_len polys = Some n ->
    n = O \/ exists c, In c polys /\ length (snd c) = n.
  Proof.
    unfold max_len. intros E.
    assert (X : fold_right (fun c m => Nat.max (length (snd c)) m) O polys = n) by (destruct polys; [discriminate|congruence]).
    rewrite <- X. clear E X. generalize polys as l. induction l as [|a l IH]; cbn [fold_right]; [now left|].
    destruct (Nat.max_spec (length (snd a)) (fold_right (fun c m => Nat.max (length (snd c)) m) O l)) as [[_ X]|[_ X]].
    - destruct IH as [Z|(c & I & C)]; [left; lia|]. right. exists c. split; [now right|lia].
    - right. exists a. split; [now left|lia].
  Qed.

  Theorem csv_round_trip mode polys file :
    Forall (fun c => Forall (fun v => v < p) (snd c)) polys ->
    (forall c, In c polys -> N.of_nat (length (snd c)) <= p) ->
    write_csv mode polys = Some file ->
    read_csv from_str_radix16 from_str neg file = Some polys.
  Proof.
    intros H L W. unfold write_csv in W. destruct (forallb _ polys) eqn:NR; [|discriminate].
    destruct (max_len polys) as [n|] eqn:M; [|discriminate]. injection W as <-.
    assert (B : N.of_nat (0 + n) <= p).
    { destruct (max_len_attained polys n M) as [E|(c & I & E)].
      - subst n. cbn. lia.
      - cbn [Nat.add]. rewrite <- E. now apply L. }
    cbn [map read_csv]. rewrite map_map. cbn [fst].
    assert (E0 : map (fun x : text * list N => (fst x, @nil N)) polys = map (upto 0) polys) by reflexivity.
    rewrite E0, read_rows by assumption. cbn [filter fst].
    assert (RR : text_eqb ROW_NAME ROW_NAME = true) by reflexivity. rewrite RR. cbn [negb].
    f_equal.
    assert (En : map (upto (0 + n)) polys = polys).
    { pose proof (max_len_bound polys n M) as MB. clear - MB. induction polys as [|[a l] polys IH]; [reflexivity|].
      cbn [map]. rewrite IH by (intros c I; apply MB; now right). f_equal. unfold upto. cbn [fst snd].
      rewrite firstn_all2; [reflexivity|]. apply (MB (a, l)). now left. }
    rewrite En. clear - NR. induction polys as [|c polys IH]; [reflexivity|]. cbn [forallb filter] in *.
    apply andb_true_iff in NR. destruct NR as [-> NR]. now rewrite IH.
  Qed.
End Csv.
