(** C41: conversions between field elements and integers; C46: columns written to a
    CSV file are read back unchanged.

    Elements are canonical values: numbers below [ORDER] for Goldilocks
    ([gl_...]), below the modulus [p] for the 31-bit fields ([sm_... p]). [None] is a
    panic; for the functions that report errors the inner [None] is the error. *)
From Coq Require Import NArith ZArith Znumtheory Bool List Lia.
From Coq Require Import ZifyBool ZifyN ZifyNat.
From Verif Require Import Field Primes Fermat GoldModel GoldFacts NumModel NumFacts.
Import ListNotations.
Local Open Scope N_scope.

(** ** To an integer and back *)
Theorem C41_round_trip_goldilocks (x : N) : x < ORDER ->
  gl_from_u64 (gl_to_integer x) = Some x /\
  gl_from_big (gl_to_integer x) = Some x /\
  gl_checked_from (gl_to_integer x) = Some (Some x) /\
  gl_from_bytes_le (gl_to_bytes_le x) = Some x /\
  gl_from_i64 (to_signed_integer ORDER gl_is_in_lower_half x) = Some x /\
  gl_deserialize (gl_serialize x) = Some x.
Proof.
  intros H. unfold gl_to_integer, gl_serialize, gl_deserialize.
  assert (B : x < W64) by (consts; lia).
  split. { unfold gl_from_u64. rewrite wrap_spec by assumption. now rewrite N.mod_small. }
  split. { rewrite gl_from_big_spec. destruct (N.ltb_spec x W64); [|lia]. now rewrite N.mod_small. }
  split. { rewrite gl_checked_from_spec. destruct (N.ltb_spec x ORDER); [reflexivity|lia]. }
  split.
  { unfold gl_from_bytes_le, gl_to_bytes_le. rewrite from_to_le_bytes by exact B. cbv zeta.
    destruct (N.ltb_spec x W64); [|lia]. rewrite wrap_spec by assumption. rewrite N.mod_small by assumption.
    unfold gl_from_u64. rewrite wrap_spec by assumption. now rewrite N.mod_small. }
  split.
  { destruct (signed_spec ORDER x gl_is_in_lower_half eq_refl H (fun _ => eq_refl)) as (R & M & _).
    rewrite gl_from_i64_spec.
    - rewrite M. now rewrite N2Z.id.
    - replace ((ORDER - 1) / 2) with 9223372034707292160 in R by reflexivity. lia. }
  destruct (N.ltb_spec x W64); [reflexivity|lia].
Qed.

Theorem C41_round_trip_small (p x : N) : p < 2 ^ 31 -> N.odd p = true -> x < p ->
  sm_from p (sm_to_integer x) = Some x /\
  sm_from_big p (sm_to_integer x) = Some x /\
  sm_checked_from p (sm_to_integer x) = Some (Some x) /\
  sm_from_bytes_le p (sm_to_bytes_le x) = Some x /\
  sm_from_i64 p (to_signed_integer p (sm_is_in_lower_half p) x) = Some x /\
  sm_deserialize p (sm_serialize x) = Some x.
Proof.
  intros P O H. unfold sm_to_integer, sm_serialize, sm_deserialize, sm_from, p3_from_canonical_checked.
  split. { destruct (N.ltb_spec x p); [reflexivity|lia]. }
  split. { rewrite sm_from_big_spec by lia. destruct (N.ltb_spec x p); [reflexivity|lia]. }
  split. { rewrite sm_checked_from_spec by lia. destruct (N.ltb_spec x p); [reflexivity|lia]. }
  split.
  { unfold sm_from_bytes_le, sm_to_bytes_le, sm_from, p3_from_canonical_checked.
    rewrite from_to_le_bytes by (cbn [N.of_nat]; change (8 * N.of_nat 4) with 32; lia).
    cbn [to_le_bytes length Nat.eqb]. destruct (N.ltb_spec x p); [reflexivity|lia]. }
  split.
  { destruct (signed_spec p x (sm_is_in_lower_half p) O H (fun _ => eq_refl)) as (R & M & _).
    assert (Hh : (p - 1) / 2 < p).
    { apply N.div_lt_upper_bound; lia. }
    rewrite sm_from_i64_spec by lia. rewrite M, N2Z.id.
    destruct (Z.leb_spec (- Z.of_N p) (to_signed_integer p (sm_is_in_lower_half p) x)); [|lia].
    destruct (Z.ltb_spec (to_signed_integer p (sm_is_in_lower_half p) x) (Z.of_N p)); [reflexivity|lia]. }
  destruct (N.ltb_spec x (2 ^ 32)); [|lia]. destruct (N.ltb_spec x p); [reflexivity|lia].
Qed.

(** ** The signed integer is the unique representative in the symmetric range *)
Definition symmetric_representative (m x : N) (z : Z) : Prop :=
  (- Z.of_N ((m - 1) / 2) <= z <= Z.of_N ((m - 1) / 2))%Z /\ (z mod Z.of_N m)%Z = Z.of_N x.

Theorem C41_signed_goldilocks (x : N) (z : Z) : x < ORDER ->
  symmetric_representative ORDER x z <-> z = to_signed_integer ORDER gl_is_in_lower_half x.
Proof.
  intros H. destruct (signed_spec ORDER x gl_is_in_lower_half eq_refl H (fun _ => eq_refl)) as (R & M & U).
  split; [intros [A B]; now apply U|]. intros ->. now split.
Qed.

Theorem C41_signed_small (p x : N) (z : Z) : N.odd p = true -> x < p ->
  symmetric_representative p x z <-> z = to_signed_integer p (sm_is_in_lower_half p) x.
Proof.
  intros O H. destruct (signed_spec p x (sm_is_in_lower_half p) O H (fun _ => eq_refl)) as (R & M & U).
  split; [intros [A B]; now apply U|]. intros ->. now split.
Qed.

(** ** Conversions of arbitrary integers *)

(** Goldilocks reduces every word and every signed word, and panics above the word. *)
Theorem C41_from_goldilocks :
  (forall n, n < 2 ^ 64 -> gl_from_u64 n = Some (n mod ORDER)) /\
  (forall n, n < 2 ^ 32 -> gl_from_u32 n = Some (n mod ORDER)) /\
  (forall n, (- 2 ^ 63 <= n < 2 ^ 63)%Z -> gl_from_i64 n = Some (Z.to_N (n mod Z.of_N ORDER))) /\
  (forall n, gl_from_big n = if n <? 2 ^ 64 then Some (n mod ORDER) else None) /\
  (forall l, Forall (fun b => b < 256) l -> (length l <= 8)%nat ->
     gl_from_bytes_le l = Some (from_le_bytes l mod ORDER)).
Proof.
  split; [exact wrap_spec|].
  split. { intros n H. unfold gl_from_u32, from_canonical_u64. destruct (N.ltb_spec n ORDER) as [L|L]; [|consts; lia].
           cbn [check]. now rewrite N.mod_small. }
  split; [exact gl_from_i64_spec|]. split; [exact gl_from_big_spec|].
  intros l B L. unfold gl_from_bytes_le. cbv zeta.
  assert (X : from_le_bytes l < W64).
  { eapply N.lt_le_trans; [now apply from_le_bytes_bound|]. unfold W64. apply N.pow_le_mono_r; lia. }
  destruct (N.ltb_spec (from_le_bytes l) W64); [|lia]. rewrite wrap_spec by assumption.
  unfold gl_from_u64. rewrite wrap_spec by apply res_word. now rewrite N.mod_mod by discriminate.
Qed.

(** Checked conversions and numerals accept exactly the numbers below the modulus. *)
Theorem C41_checked_goldilocks (n : N) :
  let r := Some (if n <? ORDER then Some n else None) in
  gl_checked_from n = r /\ gl_from_str_radix n = r /\ gl_from_str n = r.
Proof. split; [apply gl_checked_from_spec|]. split; [apply gl_from_str_radix_spec|apply gl_from_str_spec]. Qed.

(** The 31-bit fields accept the numbers below the modulus, and signed ones down to
    minus the modulus, for which they agree with reduction, and panic on all others. *)
Theorem C41_from_small (p : N) : 0 < p -> p < 2 ^ 31 ->
  (forall n, sm_from p n = if n <? p then Some (n mod p) else None) /\
  (forall n, sm_from_big p n = if n <? p then Some (n mod p) else None) /\
  (forall n, (- 2 ^ 63 <= n < 2 ^ 63)%Z ->
     sm_from_i64 p n =
     if ((- Z.of_N p <=? n) && (n <? Z.of_N p))%Z then Some (Z.to_N (n mod Z.of_N p)) else None).
Proof.
  intros H P. split; [|split].
  - intros n. unfold sm_from, p3_from_canonical_checked. destruct (N.ltb_spec n p); [|reflexivity]. now rewrite N.mod_small.
  - intros n. rewrite sm_from_big_spec by lia. destruct (N.ltb_spec n p); [|reflexivity]. now rewrite N.mod_small.
  - intros n B. now apply sm_from_i64_spec.
Qed.

Theorem C41_checked_small (p n : N) : 0 < p -> p < 2 ^ 31 ->
  sm_checked_from p n = Some (if n <? p then Some n else None) /\
  sm_from_str p n = Some (if n <? p then Some n else None) /\
  sm_from_str_radix p n = if n <? p then Some (Some n) else if n <? 2 ^ 32 then None else Some None.
Proof.
  intros H P. split; [now apply sm_checked_from_spec|]. split; [now apply sm_from_str_spec|now apply sm_from_str_radix_spec].
Qed.

(** ** Exact logarithms *)
Theorem C41_log2_exact (n i : N) : log2_exact n = Some i <-> n = 2 ^ i.
Proof. apply log2_exact_spec. Qed.

(** ** Findings

    The conversion of a signed 32-bit integer, whose comment promises a canonical
    result, panics for some of them in each of the 31-bit fields: above, at
    [2^31 - 1], and below. Goldilocks converts all of them. *)
Theorem C41_small_signed_refuted :
  Forall (fun p => exists n, (- 2 ^ 31 <= n < 2 ^ 31)%Z /\ sm_from_i64 p n = None)
    [N.pos babybear; N.pos koalabear; N.pos mersenne31] /\
  Forall (fun p => exists n, (- 2 ^ 31 <= n < 0)%Z /\ sm_from_i64 p n = None)
    [N.pos babybear; N.pos koalabear; N.pos mersenne31].
Proof.
  split.
  - repeat apply Forall_cons; [..|apply Forall_nil]; exists (2 ^ 31 - 1)%Z; (split; [lia|vm_compute; reflexivity]).
  - repeat apply Forall_cons; [..|apply Forall_nil]; exists (- 2 ^ 31)%Z; (split; [lia|vm_compute; reflexivity]).
Qed.

(** A numeral between the modulus and [2^32] is an error for Goldilocks' parser above
    its modulus but a panic for the 31-bit fields, although the function returns a
    [Result]; a larger one is an error again. So is deserialisation. *)
Theorem C41_small_numeral_refuted :
  Forall (fun p => sm_from_str_radix p p = None /\ sm_from_str_radix p (2 ^ 32) = Some None /\
                   sm_deserialize p p = None)
    [N.pos babybear; N.pos koalabear; N.pos mersenne31] /\
  gl_from_str_radix ORDER = Some None.
Proof.
  split; [|vm_compute; reflexivity].
  repeat apply Forall_cons; [..|apply Forall_nil]; (split; [|split]); vm_compute; reflexivity.
Qed.

(** The conversion of a word to the 31-bit fields' integer type drops the high half,
    so going through it is not the identity on words. *)
Theorem C41_large_int_refuted : exists n, n < 2 ^ 64 /\ bb_large_from_u64 n <> n.
Proof. exists (2 ^ 32). split; [reflexivity|]. vm_compute. discriminate. Qed.

(** ** C46: CSV files *)

(** Columns whose names are not "Row", each of at most as many rows as the field has
    elements, come back as they were, in every rendering mode. The writer fails only
    on the name "Row" and on an empty list of columns. *)
Definition columns_ok (p : N) (polys : list (text * list N)) : Prop :=
  polys <> [] /\
  Forall (fun c => fst c <> ROW_NAME /\ Forall (fun v => v < p) (snd c) /\ N.of_nat (length (snd c)) <= p) polys.

Lemma write_ok mode polys p : columns_ok p polys -> exists file, write_csv mode polys = Some file.
Proof.
  intros [NE H]. unfold write_csv.
  assert (E : forallb (fun c => negb (text_eqb (fst c) ROW_NAME)) polys = true).
  { apply forallb_forall. intros c I. rewrite Forall_forall in H. destruct (H c I) as [N _].
    unfold text_eqb. destruct (list_eq_dec N.eq_dec (fst c) ROW_NAME); [contradiction|reflexivity]. }
  rewrite E. destruct polys as [|c polys]; [contradiction|]. cbn [max_len]. eexists. reflexivity.
Qed.

Lemma columns_values p polys : columns_ok p polys -> Forall (fun c => Forall (fun v => v < p) (snd c)) polys.
Proof. intros [_ H]. eapply Forall_impl; [|exact H]. intros c (_ & A & _). exact A. Qed.
Lemma columns_lengths p polys : columns_ok p polys -> forall c, In c polys -> N.of_nat (length (snd c)) <= p.
Proof. intros [_ H] c I. rewrite Forall_forall in H. apply (H c I). Qed.

Theorem C46_csv_goldilocks (mode : render_mode) (polys : list (text * list N)) :
  columns_ok ORDER polys ->
  exists file, write_csv mode polys = Some file /\ read_csv_goldilocks file = Some polys.
Proof.
  intros H. destruct (write_ok mode polys _ H) as [file W]. exists file. split; [exact W|].
  refine (csv_round_trip gl_from_str_radix gl_from_str gl_neg ORDER _ _ mode polys file
            (columns_values _ _ H) (columns_lengths _ _ H) W).
  - intros n L. rewrite gl_from_str_radix_spec. destruct (N.ltb_spec n ORDER); [reflexivity|lia].
  - intros n L. rewrite gl_from_str_spec. destruct (N.ltb_spec n ORDER); [reflexivity|lia].
Qed.

Theorem C46_csv_small (p : N) (mode : render_mode) (polys : list (text * list N)) :
  0 < p -> p < 2 ^ 31 -> columns_ok p polys ->
  exists file, write_csv mode polys = Some file /\ read_csv_small p file = Some polys.
Proof.
  intros P0 P H. destruct (write_ok mode polys _ H) as [file W]. exists file. split; [exact W|].
  refine (csv_round_trip (sm_from_str_radix p) (sm_from_str p) (sm_neg p) p _ _ mode polys file
            (columns_values _ _ H) (columns_lengths _ _ H) W).
  - intros n L. rewrite sm_from_str_radix_spec by lia. destruct (N.ltb_spec n p); [reflexivity|lia].
  - intros n L. rewrite sm_from_str_spec by lia. destruct (N.ltb_spec n p); [reflexivity|lia].
Qed.

(** Numerals are unambiguous: equal renderings are equal values. *)
Theorem C46_render_injective (mode : render_mode) (a b : N) : render mode a = render mode b -> a = b.
Proof.
  destruct mode; cbn [render]; intros E;
    [pose proof (read_print 10 a ltac:(lia)) as A; rewrite E, read_print in A by lia; congruence..|].
  injection E as E. pose proof (read_print 16 a ltac:(lia)) as A. rewrite E, read_print in A by lia. congruence.
Qed.

(** Finding: the mode for signed numbers renders no sign. *)
Theorem C46_signed_mode_refuted : exists x, x < ORDER /\
  (to_signed_integer ORDER gl_is_in_lower_half x < 0)%Z /\
  render SignedBase10 x = render UnsignedBase10 x /\ ~ In 45 (render SignedBase10 x).
Proof.
  exists (ORDER - 1). split; [reflexivity|]. split; [reflexivity|]. split; [reflexivity|].
  vm_compute. intros H. repeat (destruct H as [H|H]; [discriminate H|]). exact H.
Qed.

(** ** Concrete cases *)
Example signed_bb : to_signed_integer (N.pos babybear) (sm_is_in_lower_half (N.pos babybear)) 1006632960 = 1006632960%Z /\
  to_signed_integer (N.pos babybear) (sm_is_in_lower_half (N.pos babybear)) 1006632961 = (-1006632960)%Z.
Proof. split; reflexivity. Qed.
Example small_fields : Forall (fun p => 0 < p /\ p < 2 ^ 31 /\ N.odd p = true)
  [N.pos babybear; N.pos koalabear; N.pos mersenne31].
Proof. repeat apply Forall_cons; [..|apply Forall_nil]; repeat split; reflexivity. Qed.
Example csv_example :
  let polys := [([97], [0; 10; ORDER - 1]); ([98], [255])] in
  columns_ok ORDER polys /\
  match write_csv Hex polys with
  | Some file => nth_error file 2 = Some [[49]; [48; 120; 97]; []] /\ read_csv_goldilocks file = Some polys
  | None => False
  end.
Proof.
  split.
  - split; [discriminate|]. repeat apply Forall_cons; [..|apply Forall_nil];
      (split; [discriminate|]); (split; [|discriminate]);
      repeat apply Forall_cons; try reflexivity; apply Forall_nil.
  - vm_compute. split; reflexivity.
Qed.

Print Assumptions C41_round_trip_goldilocks.
Print Assumptions C41_round_trip_small.
Print Assumptions C41_signed_goldilocks.
Print Assumptions C41_signed_small.
Print Assumptions C41_from_goldilocks.
Print Assumptions C41_checked_goldilocks.
Print Assumptions C41_from_small.
Print Assumptions C41_checked_small.
Print Assumptions C41_log2_exact.
Print Assumptions C41_small_signed_refuted.
Print Assumptions C41_small_numeral_refuted.
Print Assumptions C41_large_int_refuted.
Print Assumptions C46_csv_goldilocks.
Print Assumptions C46_csv_small.
Print Assumptions C46_render_injective.
Print Assumptions C46_signed_mode_refuted.
