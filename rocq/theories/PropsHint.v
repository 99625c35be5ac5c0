(** C72: hint instructions are transpiled, dispatched and answered. *)
From Coq Require Import Arith NArith ZArith Bool List Lia ZifyBool ZifyNat ZifyN.
From Verif Require Import K256Model K256Spec K256Norm K256Ops K256Pow K256Bytes HintModel HintSpec HintFacts PropsK256.
Import ListNotations.
Local Open Scope N_scope.

(** Exactly the words of the format R with the opcode, funct3 and a funct7 of the hints are taken, whatever follows; the result names the
    hint and the register of the pointer. *)
Theorem C72_transpile : forall w rest i, w < 2 ^ 32 ->
  (process_custom (w :: rest) = Some i <->
   exists f rd rs1 rs2, rd < 32 /\ rs1 < 32 /\ rs2 < 32 /\ w = encode_r 0x5b rd 0 rs1 rs2 (funct7_repr f) /\ i = phantom_instruction (0x60 + funct7_repr f) (4 * rs1) 0 0).
Proof.
  intros w rest i H. rewrite process_fields. unfold OPCODE, HINTS_FUNCT3. split.
  - destruct (N.eqb_spec (w mod 2 ^ 7) 0x5b) as [E1|]; [|discriminate]. destruct (N.eqb_spec (w / 2 ^ 12 mod 2 ^ 3) 0) as [E2|]; [|discriminate].
    destruct (funct7_from_repr (w / 2 ^ 25 mod 2 ^ 7)) as [f|] eqn:E3; [|discriminate]. intros [= <-]. apply from_repr in E3.
    exists f, (w / 2 ^ 7 mod 2 ^ 5), (w / 2 ^ 15 mod 2 ^ 5), (w / 2 ^ 20 mod 2 ^ 5). change 32 with (2 ^ 5) at 1 2 3. split; [now apply N.mod_lt|]. split; [now apply N.mod_lt|]. split; [now apply N.mod_lt|].
    split; [|destruct f; reflexivity]. rewrite (split_word w H) at 1. now rewrite E1, E2, E3.
  - intros (f & rd & rs1 & rs2 & H1 & H2 & H3 & -> & ->). assert (Hf : funct7_repr f < 128) by (destruct f; reflexivity).
    destruct (encode_fields 0x5b rd 0 rs1 rs2 (funct7_repr f)) as (A & B & C & D); auto; try reflexivity. rewrite A, B, C, D, repr_from. cbn [N.eqb Pos.eqb]. destruct f; reflexivity.
Qed.

(** Installing fails exactly if a discriminant is taken; afterwards every hint finds its own executor, and all others are found as before. *)
Theorem C72_install : forall table,
  (extend_execution table = None <-> exists f x, In x table /\ fst x = 0x60 + funct7_repr f) /\
  forall table', extend_execution table = Some table' ->
    (forall f, find (fun x => fst x =? 0x60 + funct7_repr f) table' = Some (0x60 + funct7_repr f, f)) /\
    forall d, (forall f, d <> 0x60 + funct7_repr f) -> find (fun x => fst x =? d) table' = find (fun x => fst x =? d) table.
Proof.
  intros table.
  assert (X : forall d, existsb (fun x => fst x =? d) table = true <-> exists x : N * funct7, In x table /\ fst x = d).
  { intros d. rewrite existsb_exists. split; intros (x & Hx & E); exists x; (split; [exact Hx|]); now apply N.eqb_eq. }
  unfold extend_execution, add_sub_executor, bind, discriminant.
  assert (S1 : forall (t : list (N * funct7)) x d, existsb (fun y => fst y =? d) (t ++ [x]) = existsb (fun y => fst y =? d) t || (fst x =? d)) by (intros t x d; rewrite existsb_app; cbn; now rewrite orb_false_r).
  assert (Fd : forall d (t : list (N * funct7)) r, find (fun y => fst y =? d) (t ++ r) = match find (fun y => fst y =? d) t with Some y => Some y | None => find (fun y => fst y =? d) r end).
  { intros d. induction t as [|y t IH]; intros r; cbn [app find]; auto. destruct (fst y =? d); auto. }
  assert (Fn : forall d, existsb (fun x => fst x =? d) table = false -> find (fun y => fst y =? d) table = None).
  { intros d. clear. induction table as [|y t IH]; cbn; auto. destruct (fst y =? d); [discriminate|auto]. }
  destruct (existsb (fun x => fst x =? 0x60) table) eqn:E0.
  { split; [|discriminate]. split; auto. intros _. apply X in E0. destruct E0 as (x & A & B). exists ReverseBytes, x. auto. }
  rewrite S1. cbn [fst]. change (96 =? 97) with false. rewrite orb_false_r. destruct (existsb (fun x => fst x =? 0x61) table) eqn:E1.
  { split; [|discriminate]. split; auto. intros _. apply X in E1. destruct E1 as (x & A & B). exists K256InverseField, x. auto. }
  rewrite !S1. cbn [fst]. change (96 =? 98) with false. change (97 =? 98) with false. rewrite !orb_false_r. destruct (existsb (fun x => fst x =? 0x62) table) eqn:E2.
  { split; [|discriminate]. split; auto. intros _. apply X in E2. destruct E2 as (x & A & B). exists K256InverseField10x26, x. auto. }
  rewrite !S1. cbn [fst]. change (96 =? 99) with false. change (97 =? 99) with false. change (98 =? 99) with false. rewrite !orb_false_r. destruct (existsb (fun x => fst x =? 0x63) table) eqn:E3.
  { split; [|discriminate]. split; auto. intros _. apply X in E3. destruct E3 as (x & A & B). exists K256SqrtField10x26, x. auto. }
  split.
  - split; [discriminate|]. intros (f & x & A & B). exfalso. assert (Y : existsb (fun x => fst x =? 0x60 + funct7_repr f) table = true) by (apply X; eauto). destruct f; cbn in Y; congruence.
  - intros t' [= <-]. split.
    + intros f. rewrite !Fd. rewrite Fn by (destruct f; assumption). destruct f; reflexivity.
    + intros d Hd. rewrite !Fd. destruct (find (fun x => fst x =? d) table); auto. cbn [find fst].
      pose proof (Hd ReverseBytes) as D0. pose proof (Hd K256InverseField) as D1. pose proof (Hd K256InverseField10x26) as D2. pose proof (Hd K256SqrtField10x26) as D3. cbn in D0, D1, D2, D3.
      destruct (N.eqb_spec 96 d); [congruence|]. destruct (N.eqb_spec 97 d); [congruence|]. destruct (N.eqb_spec 98 d); [congruence|]. destruct (N.eqb_spec 99 d); [congruence|]. reflexivity.
Qed.

(** A call leaves what its executor makes of the bytes at the pointer. *)
Theorem C72_call : forall table f r p s l h, installed table -> passes s r p l -> length l = input_bytes f -> hint_for f l = Some h -> answers table f r s h.
Proof.
  intros table f r p s l h [t0 Ht] (Hr & Hp & Rg & Mm) Hl Hh. exists (phantom_instruction (0x60 + funct7_repr f) (4 * r) 0 0). split.
  - intros rest. apply C72_transpile.
    + unfold guest_insn, encode_r, OPCODE, HINTS_FUNCT3. change (2 ^ 7) with 128. change (2 ^ 12) with 4096. change (2 ^ 15) with 32768. change (2 ^ 20) with 1048576. change (2 ^ 25) with 33554432. change (2 ^ 32) with 4294967296. assert (funct7_repr f < 4) by (destruct f; reflexivity). lia.
    + exists f, 0, r, 0. repeat split; auto.
  - unfold run_phantom, phantom_instruction. cbn [ph_c ph_a]. rewrite N.mul_0_r, N.add_0_r. assert (Hd : 0x60 + funct7_repr f < 2 ^ 16) by (destruct f; reflexivity). rewrite N.mod_small, N.div_small by exact Hd.
    rewrite (proj1 (proj2 (C72_install t0) table Ht) f). unfold phantom_execute. cbn [N.eqb]. cbv zeta.
    assert (Er : read_register s (4 * r) = p).
    { unfold read_register. rewrite <- (word_value p Hp). pose proof (Rg 0%nat _ eq_refl) as R0. pose proof (Rg 1%nat _ eq_refl) as R1. pose proof (Rg 2%nat _ eq_refl) as R2. pose proof (Rg 3%nat _ eq_refl) as R3.
      cbn [N.of_nat Pos.of_succ_nat Pos.succ] in R0, R1, R2, R3. rewrite N.add_0_r in R0. now rewrite R0, R1, R2, R3. }
    rewrite Er, <- Hl, (read_holds _ _ _ Mm), Hh. reflexivity.
Qed.

(** Reversed bytes. *)
Theorem C72_reverse : forall table r p s v, installed table -> v < 2 ^ 32 -> passes s r p (word_bytes v) ->
  exists h, answers table ReverseBytes r s h /\ read_word h = Some (host_reverse_bytes v, []).
Proof.
  intros table r p s v Ht Hv Hp. exists (rev (word_bytes v)). split; [now apply (C72_call _ _ _ p _ (word_bytes v))|].
  destruct (C49_reverse_bytes v Hv) as [E _]. unfold guest_reverse_bytes, exec_reverse_bytes in E. unfold word_bytes in *. cbn [rev app read_word bind ok] in *. unfold ok in E. injection E as ->. reflexivity.
Qed.

(** The inverse of an element in the encoding of 32 bytes, the highest first: for every number, also above the modulus, the answer is 32 bytes
    of a number below the modulus, its inverse or zero, and the guest gets just these. *)
Theorem C72_inverse_sec1 : forall table r p s l, installed table -> are_bytes l -> length l = 32%nat -> passes s r p l ->
  exists h, answers table K256InverseField r s h /\ guest_inverse_sec1 l = Some h /\ length h = 32%nat /\ are_bytes h /\ be_value h < K256 /\
    (~ eqm (be_value l) 0 -> eqm (be_value h * be_value l) 1) /\ (eqm (be_value l) 0 -> be_value h = 0).
Proof.
  intros table r p s l Ht Hb Hl Hp.
  assert (G : exists h, exec_inverse_sec1 l = Some h /\ length h = 32%nat /\ are_bytes h /\ be_value h < K256 /\ (~ eqm (be_value l) 0 -> eqm (be_value h * be_value l) 1) /\ (eqm (be_value l) 0 -> be_value h = 0)).
  { unfold exec_inverse_sec1. cbv zeta. destruct (N.eqb_spec (be_value l mod K256) 0) as [Z|Z].
    - exists (be_bytes 32 0). destruct (be_bytes_ok 32 0) as (A & B & C); [reflexivity|]. split; auto. split; auto. split; auto. rewrite C. split; [reflexivity|]. split; auto. intros X. apply eqm_zero in Z. contradiction.
    - rewrite <- eqm_zero in Z. destruct (inv_mod_ok _ Z) as (i & -> & Li & Ei). destruct (be_bytes_ok 32 i) as (A & B & C); [eapply N.lt_trans; [exact Li|exact K256_bytes]|].
      exists (be_bytes 32 i). split; auto. split; auto. split; auto. rewrite C. split; auto. split; auto. intros X. contradiction. }
  destruct G as (h & E & A & B & C & D & Z). exists h. split; [apply (C72_call _ _ _ p _ l); auto|]. split; [|auto 6].
  unfold guest_inverse_sec1. rewrite E. cbn [bind]. unfold read_buffer. rewrite A. cbn [Nat.mul Nat.add Nat.leb bind]. f_equal. change 32%nat with (0 + 32)%nat. rewrite firstn_all2; auto. rewrite A. lia.
Qed.

(** The inverse of an element of ten limbs. *)
Theorem C72_inverse : forall table r p s x, installed table -> magnitude 8 x -> passes s r p (fe_bytes x) ->
  exists y, answers table K256InverseField10x26 r s (fe_bytes y) /\ guest_inverse x = Some y /\ canonical y /\ (~ eqm (value x) 0 -> eqm (value y * value x) 1).
Proof.
  intros table r p s x Ht Hx Hp. destruct (C49_inverse_hint x Hx) as (y & E & G & C & I). exists y. split; [|auto]. now apply (C72_call _ _ _ p _ (fe_bytes x)).
Qed.

(** The square root of an element of ten limbs. *)
Theorem C72_sqrt : forall table r p s x, installed table -> magnitude 8 x -> passes s r p (fe_bytes x) ->
  exists flag root, answers table K256SqrtField10x26 r s (word_bytes flag ++ fe_bytes root) /\ magnitude 1 root /\
    ((flag = 1 /\ is_square (value x) /\ eqm (value root * value root) (value x)) \/ (flag = 0 /\ ~ is_square (value x) /\ eqm (value root * value root) (3 * value x))).
Proof.
  intros table r p s x Ht Hx Hp. destruct (C49_sqrt_hint x Hx) as (flag & root & E & M & R). exists flag, root. split; [|auto]. now apply (C72_call _ _ _ p _ (fe_bytes x)).
Qed.

(** The two inverse hints agree: the encoding of the inverse is the inverse of the encoding. *)
Theorem C72_agree : forall x, canonical x -> value x <> 0 -> exists y, guest_inverse x = Some y /\ guest_inverse_sec1 (to_bytes x) = Some (to_bytes y).
Proof.
  intros x Cx Nz. assert (Mx : magnitude 8 x) by (eapply magnitude_mono; [|apply weakly_normal_magnitude, Cx]; discriminate).
  destruct (C49_inverse_hint x Mx) as (y & _ & G & Cy & I). exists y. split; auto.
  destruct (C48_to_bytes x (proj1 Cx)) as (L & B & V). destruct (C48_to_bytes y (proj1 Cy)) as (L' & B' & V').
  assert (Zx : ~ eqm (value x) 0) by (rewrite eqm_zero, N.mod_small by apply Cx; exact Nz).
  assert (T : exists t, extend_execution [] = Some t) by (eexists; reflexivity). destruct T as [t Ht].
  assert (Pass : exists s, passes s 1 0 (to_bytes x)).
  { exists (mkVm (fun _ => 0) (fun k => nth (N.to_nat k) (to_bytes x) 0) []). split; [reflexivity|]. split; [reflexivity|]. split.
    - intros [|[|[|[|k]]]] b; cbn; try (intros [= <-]; reflexivity). destruct k; discriminate.
    - intros k b Hk. cbn [memory]. rewrite N.add_0_l, Nat2N.id. now apply nth_error_nth. }
  destruct Pass as [s Ps]. destruct (C72_inverse_sec1 t 1 0 s (to_bytes x) (ex_intro _ [] Ht) B L Ps) as (h & _ & Gh & Lh & Bh & Vh & Ih & _). rewrite Gh. f_equal. apply be_value_inj; auto; [congruence|]. rewrite V'. rewrite V in Ih.
  specialize (I Zx). specialize (Ih Zx). assert (E : eqm (be_value h) (value y)).
  { apply eqm_trans with (be_value h * (value y * value x)); [|apply eqm_trans with (value y * (be_value h * value x))].
    - apply eqm_sym. eapply eqm_trans; [apply eqm_mul; [apply eqm_refl|exact I]|]. rewrite N.mul_1_r. apply eqm_refl.
    - replace (be_value h * (value y * value x)) with (value y * (be_value h * value x)) by lia. apply eqm_refl.
    - eapply eqm_trans; [apply eqm_mul; [apply eqm_refl|exact Ih]|]. rewrite N.mul_1_r. apply eqm_refl. }
  unfold eqm in E. rewrite !N.mod_small in E; auto. apply Cy.
Qed.

(** A machine with the element 5 at address 0x2000, in both encodings, and pointers in two registers. *)
Definition put (m : N -> N) (p : N) (l : list N) : N -> N := fun a => if (p <=? a) && (a <? p + N.of_nat (length l)) then nth (N.to_nat (a - p)) l 0 else m a.
Definition five : fe := FE 5 0 0 0 0 0 0 0 0 0.
Definition machine : vm := mkVm (put (put (fun _ => 0) (4 * 10) (word_bytes 0x2000)) (4 * 11) (word_bytes 0x3000)) (put (put (fun _ => 0) 0x2000 (fe_bytes five)) 0x3000 (to_bytes five)) [7].
Lemma holds_check m p l : read m p (length l) = l -> holds m p l.
Proof.
  intros H k b Hk. rewrite <- H in Hk. unfold read in Hk. rewrite nth_error_map in Hk. destruct (nth_error (seq 0 (length l)) k) as [x|] eqn:E; [|discriminate]. cbn in Hk.
  assert (L : (k < length (seq 0 (length l)))%nat) by (apply nth_error_Some; congruence). rewrite seq_length in L. rewrite (nth_error_nth' _ 0%nat) in E by (now rewrite seq_length). rewrite seq_nth in E by exact L. cbn in E. congruence.
Qed.
Definition table : list (N * funct7) := [(0x60, ReverseBytes); (0x61, K256InverseField); (0x62, K256InverseField10x26); (0x63, K256SqrtField10x26)].
Example C72_example : installed table /\ passes machine 10 0x2000 (fe_bytes five) /\ passes machine 11 0x3000 (to_bytes five) /\ magnitude 8 five /\ canonical five /\
  answers table ReverseBytes 10 machine [0; 0; 0; 5] /\
  answers table K256InverseField 11 machine [153; 153; 153; 153; 153; 153; 153; 153; 153; 153; 153; 153; 153; 153; 153; 153; 153; 153; 153; 153; 153; 153; 153; 153; 153; 153; 153; 152; 255; 255; 253; 182] /\
  answers table K256InverseField10x26 10 machine [182; 253; 255; 3; 63; 102; 102; 2; 153; 153; 153; 1; 102; 102; 102; 2; 153; 153; 153; 1; 102; 102; 102; 2; 153; 153; 153; 1; 102; 102; 102; 2; 153; 153; 153; 1; 102; 102; 38; 0] /\
  answers table K256SqrtField10x26 10 machine [0; 0; 0; 0; 209; 168; 71; 0; 42; 126; 30; 0; 238; 58; 94; 2; 16; 105; 111; 1; 160; 179; 189; 3; 197; 64; 104; 1; 143; 114; 86; 2; 130; 125; 216; 3; 69; 77; 216; 0; 6; 65; 38; 0].
Proof.
  assert (T : installed table) by (exists []; reflexivity).
  assert (P1 : passes machine 10 0x2000 (fe_bytes five)) by (split; [reflexivity|]; split; [reflexivity|]; split; apply holds_check; vm_compute; reflexivity).
  assert (P2 : passes machine 11 0x3000 (to_bytes five)) by (split; [reflexivity|]; split; [reflexivity|]; split; apply holds_check; vm_compute; reflexivity).
  assert (P0 : passes machine 10 0x2000 [5; 0; 0; 0]) by (split; [reflexivity|]; split; [reflexivity|]; split; apply holds_check; vm_compute; reflexivity).
  split; [exact T|]. split; [exact P1|]. split; [exact P2|]. split; [repeat split; vm_compute; discriminate|]. split; [repeat split; vm_compute; reflexivity|].
  split; [eapply C72_call; [exact T|exact P0|reflexivity|vm_compute; reflexivity]|]. split; [eapply C72_call; [exact T|exact P2|reflexivity|vm_compute; reflexivity]|].
  split; eapply C72_call; [exact T|exact P1|reflexivity|vm_compute; reflexivity|exact T|exact P1|reflexivity|vm_compute; reflexivity].
Qed.
(** Other words are left to other extensions; an executor whose number is taken is refused. *)
Example C72_others : process_custom [0x00000013] = None /\ process_custom [guest_insn ReverseBytes 10 + 2 ^ 12] = None /\ process_custom [encode_r 0x5b 0 0 10 0 4] = None /\ process_custom [] = None /\
  extend_execution [(0x62, ReverseBytes)] = None.
Proof. repeat split; vm_compute; reflexivity. Qed.

Print Assumptions C72_transpile.
Print Assumptions C72_install.
Print Assumptions C72_call.
Print Assumptions C72_reverse.
Print Assumptions C72_inverse_sec1.
Print Assumptions C72_inverse.
Print Assumptions C72_sqrt.
Print Assumptions C72_agree.
