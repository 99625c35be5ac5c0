(** C54, C55: jump destinations and executions. *)
From Coq Require Import Arith NArith ZArith Bool List Lia Sorted.
From Coq Require Import ZifyBool ZifyNat ZifyN.
From Verif Require Import BlocksModel BlocksSpec BlocksFacts PropsBlocks PropsSel ElfModel ElfSpec ElfFacts ElfLoad.
Import ListNotations.
Local Open Scope N_scope.

(** ** C54: labels *)
(** The labels of a loaded program are exactly the addresses it refers to. *)
Theorem C54_labels : forall decode32 decode16 e p,
  segments_ok (e_segs e) -> words_ok (e_segs e) -> e_entry e < 2 ^ 32 ->
  load_elf decode32 decode16 e = Some p ->
  forall t, In t (p_labels p) <-> referenced decode32 decode16 e t.
Proof. intros d32 d16 e p H1 H2 H3 H4. now apply labels_ok. Qed.

Lemma two_one d32 d16 base bs a m1 n1 m2 n2 : lies_two d32 d16 base bs a m1 n1 m2 n2 ->
  lies_at d32 d16 base bs a m1 n1 /\ lies_at d32 d16 base bs (w32 (a + N.of_nat n1)) m2 n2.
Proof.
  induction 1 as [base data m1 n1 m2 n2 H1 H2|base data m' n' a m1 n1 m2 n2 H1 H2 [I1 I2]].
  - split; [now constructor|]. eapply lies_later; eauto. now constructor.
  - split; eapply lies_later; eauto.
Qed.
Lemma code_two d32 d16 e a i1 n1 i2 n2 : code2 d32 d16 e a i1 n1 i2 n2 -> code d32 d16 e a i1 n1 /\ code d32 d16 e (plus a (Z.of_nat n1)) i2 n2.
Proof. intros (s & b & H1 & H2 & H3 & H4). apply two_one in H4. destruct H4 as [H4 H5]. rewrite plus_w32. split; exists s, b; auto. Qed.

(** Each step of an execution goes to the next instruction or to a label, or is an indirect jump. *)
Theorem C54_flow : forall decode32 decode16 e p,
  segments_ok (e_segs e) -> words_ok (e_segs e) -> e_entry e < 2 ^ 32 ->
  load_elf decode32 decode16 e = Some p ->
  forall s s', machine_step decode32 decode16 e s s' ->
  exists i n, code decode32 decode16 e (pc s) i n /\
    (pc s' = plus (pc s) (Z.of_nat n) \/ In (pc s') (p_labels p) \/ i_op i = JALR).
Proof.
  intros d32 d16 e p H1 H2 H3 H4 s s' H. assert (L := labels_ok d32 d16 e H1 p H2 H3 H4).
  destruct H as [s s' i n z C O M P _|s s' i n z C O M P _|s s' i n rs1 z C O _ _ _ _|s s' i n rd z C O _ _ P _ _|s s' i n C _ _ _ P _]; exists i, n; split; auto.
  - right. left. apply L. rewrite P. eapply ref_jump; eauto. now rewrite O.
  - destruct P as [P|P]; auto. right. left. apply L. rewrite P. eapply ref_jump; eauto. now destruct (i_op i).
Qed.
Lemma exec_scan d32 d16 e p s : segments_ok (e_segs e) -> load_elf d32 d16 e = Some p -> In s (e_segs e) -> s_exec s = true ->
  exists bytes is hs refs rl, s_data s = Some bytes /\ instructions d32 d16 (s_vaddr s) bytes = Some is /\ map_two_by_two rl (address_map (e_segs e)) None is = Some (hs, refs).
Proof.
  intros Hs H I E. unfold load_elf in H. destruct (negb (e_riscv32 e)); [discriminate|]. destruct (negb (e_dyn e || e_has_relocs e)); [discriminate|]. cbv zeta in H.
  destruct (scan _ _ _ _ _ _ _) as [[m refs]|] eqn:Sc; [|discriminate]. destruct (scan_ok _ _ _ _ _ _ _ _ _ Sc) as (_ & S2 & _).
  destruct (S2 (s_vaddr s) s) as (b & is & [hs r] & X1 & X2 & X3); [apply amap_in; auto|auto|]. exists b, is, hs, r. eauto.
Qed.
(** An indirect jump adds nothing to the register, or follows the instruction AUIPC. *)
Theorem C54_indirect : forall decode32 decode16 e p,
  segments_ok (e_segs e) -> load_elf decode32 decode16 e = Some p ->
  forall a i n, code decode32 decode16 e a i n -> i_op i = JALR ->
  i_imm i = Some 0%Z \/ exists b j n1 n2, code2 decode32 decode16 e b j n1 i n2 /\ i_op j = AUIPC.
Proof.
  intros d32 d16 e p Hs Hl a i n (s & bytes & H1 & H2 & H3 & H4) O. destruct (exec_scan d32 d16 e p s Hs Hl H1 H2) as (b' & is & hs & refs & rl & E1 & E2 & E3).
  assert (b' = bytes) by congruence. subst b'. destruct (iterate_ok _ _ _ _ _ _ E2) as (K1 & K2 & _). destruct (pass_calls _ _ _ _ _ _ (le_n _) E3) as [_ P].
  assert (In (a, Ins i) is) as I by (apply K1; eauto). apply in_split in I. destruct I as (l1 & l2 & El). destruct (P _ _ _ _ El O) as [X|(p' & b & j & -> & J)]; auto. right.
  destruct (proj1 (K2 b (Ins j) (Ins i))) as (n1 & n2 & L). { exists a, p', l2. rewrite El, <- app_assoc. reflexivity. }
  exists b, j, n1, n2. split; auto. exists s, bytes. auto.
Qed.
(** If it does (and the instructions at the two addresses are not ambiguous), the two steps together go to a
    label, except for its lowest bit. *)
Theorem C54_call : forall decode32 decode16 e p,
  segments_ok (e_segs e) -> words_ok (e_segs e) -> e_entry e < 2 ^ 32 ->
  load_elf decode32 decode16 e = Some p ->
  (forall a i n i' n', code decode32 decode16 e a i n -> code decode32 decode16 e a i' n' -> i = i' /\ n = n') ->
  forall s s1 s2 i1 n1 i2 n2 rd hi, code2 decode32 decode16 e (pc s) i1 n1 i2 n2 -> i_op i1 = AUIPC -> i_op i2 = JALR -> i_rd i1 = Some rd -> rd <> 0 -> i_imm i1 = Some hi ->
  machine_step decode32 decode16 e s s1 -> machine_step decode32 decode16 e s1 s2 ->
  exists t, In t (p_labels p) /\ pc s2 = even t.
Proof.
  intros d32 d16 e p Hs Hw He Hl U s s1 s2 i1 n1 i2 n2 rd hi C O1 O2 R1 N1 M1 St1 St2. assert (L := labels_ok d32 d16 e Hs p Hw He Hl).
  assert (C2 := C). destruct (code_two _ _ _ _ _ _ _ _ C) as [Ca Cb]. destruct C as (sg & bytes & H1 & H2 & H3 & H4).
  destruct (exec_scan d32 d16 e p sg Hs Hl H1 H2) as (b' & is & hs & refs & rl & E1 & E2 & E3). assert (b' = bytes) by congruence. subst b'.
  destruct (iterate_ok _ _ _ _ _ _ E2) as (_ & K2 & _). destruct (pass_calls _ _ _ _ _ _ (le_n _) E3) as [P _].
  destruct (proj2 (K2 (pc s) (Ins i1) (Ins i2))) as (a2 & Ad); [eauto|]. destruct (P _ _ _ _ _ _ Ad O1 R1 M1 O2) as (rd2 & lo & R2 & S2 & M2 & _).
  exists (plus (pc s) (hi + lo)). split; [apply L; eapply ref_call; eauto|].
  assert (A : pc s1 = plus (pc s) (Z.of_nat n1) /\ rget s1 rd = plus (pc s) hi).
  { destruct St1 as [s s' i n z K O|s s' i n z K O|s s' i n rs1 z K O|s s' i n rd' z K O Rd M Pc _ G|s s' i n K J1 J2 J3]; destruct (U _ _ _ _ _ K Ca) as [-> ->]; try congruence.
    - exfalso. rewrite O1 in O. discriminate.
    - assert (rd' = rd) by congruence. assert (z = hi) by congruence. subst. auto. }
  destruct A as [A1 A2]. rewrite <- A1 in Cb.
  destruct St2 as [s1 s' i n z K O|s1 s' i n z K O|s1 s' i n rs1 z K O Rs M Pc _|s1 s' i n rd' z K O Rd M Pc _ G|s1 s' i n K J1 J2 J3]; destruct (U _ _ _ _ _ K Cb) as [-> ->]; try congruence.
  - exfalso. rewrite O2 in O. discriminate.
  - assert (rs1 = rd) by congruence. assert (z = lo) by congruence. subst. rewrite Pc, A2, plus_plus. reflexivity.
Qed.

(** Compressed instructions are expanded to instructions that do the same. *)
Theorem C54_compressed : forall c pc get a, (forall x, get x < 2 ^ 32) -> get 0 = 0 -> exec16 pc get c = Some a ->
  exists i, to_32bit_equivalent c = Some i /\ exec32 pc get i = Some a.
Proof.
  intros c pc get a B Z H.
  assert (P0 : forall x, plus (get x) 0 = get x) by (intros x; specialize (B x); rewrite plus_small by lia; lia).
  assert (W0 : forall x, w32 (0 + get x) = get x) by (intros x; rewrite N.add_0_l; apply w32_small, B).
  assert (Bo : forall r, both c = Some r -> i_rd c = Some r /\ i_rs1 c = Some r).
  { intros r. unfold both. destruct (i_rd c) as [x|], (i_rs1 c) as [y|]; try discriminate. destruct (N.eqb_spec x y); [|discriminate]. intros [= <-]. subst. auto. }
  unfold exec16 in H. unfold to_32bit_equivalent. destruct (i_op c) eqn:O; try discriminate H; (eexists; split; [reflexivity|]); unfold exec32; cbn [i_op i_rd i_rs1 i_rs2 i_imm on1 on2 on3];
    try (destruct (both c) as [r|]; [destruct (Bo r eq_refl) as [-> ->]|discriminate H]); cbn [on1 on2 on3];
    unfold on3, on2, on1 in *; rewrite ?Z; 
    repeat match type of H with match ?x with _ => _ end = _ => destruct x; [|discriminate H] end; rewrite ?P0, ?W0; exact H.
Qed.
Example C54_compressed_example :
  exec16 100 (fun x => if x =? 5 then 0 else 7) (mkIns C_BEQZ None (Some 5) None (Some (-4)%Z) ExtC) = Some (Goto 96 0).
Proof. vm_compute. reflexivity. Qed.

(** ** C55: blocks *)
Lemma flat_len {A B} (f : A -> list B) l b r : length (flat_map f (l ++ b :: r)) = (length (flat_map f l) + length (f b) + length (flat_map f r))%nat.
Proof. rewrite flat_map_app, app_length. cbn [flat_map]. rewrite app_length. lia. Qed.
Lemma locate {I} (bs : list (bblock I)) k : (k < length (flat_map instrs bs))%nat ->
  exists l b r j, bs = l ++ b :: r /\ (length (flat_map instrs l) + j)%nat = k /\ (j < length (instrs b))%nat.
Proof.
  induction bs as [|b bs IH] in k |- *; cbn [flat_map]; intros H; [cbn in H; lia|]. rewrite app_length in H. destruct (le_lt_dec (length (instrs b)) k) as [L|L].
  - destruct (IH (k - length (instrs b))%nat) as (l & c & r & j & -> & E & J); [lia|]. exists (b :: l), c, r, j. split; [reflexivity|]. cbn [flat_map]. rewrite app_length. split; auto. lia.
  - exists [], b, bs, k. split; [reflexivity|]. cbn. lia.
Qed.

Lemma opcodes : (0x420 = 1056 /\ 0x421 = 1057 /\ 0x425 = 1061 /\ 0x426 = 1062 /\ 0x427 = 1063 /\ 0x428 = 1064) /\
  (0x220 = 544 /\ 0x221 = 545 /\ 0x225 = 549 /\ 0x226 = 550 /\ 0x227 = 551 /\ 0x228 = 552 /\ 0x230 = 560 /\ 0x235 = 565).
Proof. repeat split. Qed.
Lemma jumps_ok x : ovm_branching x = true <-> jumps x.
Proof.
  unfold ovm_branching, jumps, conditional, is_jal, is_jalr, bigint_conditional. rewrite mem_addr_in. unfold branch_opcodes_set, branch_opcodes, branch_opcodes_bigint. cbn [app In].
  split; intros H; decompose [or] H; subst; repeat match goal with E : _ = o_opcode x |- _ => rewrite <- E | E : o_opcode x = _ |- _ => rewrite E end; try contradiction; auto 20.
Qed.
Lemma bigint_ok x : mem_addr (o_opcode x) branch_opcodes_bigint = true <-> bigint_conditional x.
Proof. unfold bigint_conditional. rewrite mem_addr_in. unfold branch_opcodes_bigint. reflexivity. Qed.
Definition flows0 (dynamic : N -> Prop) (a : N) (x : ovm_ins) (b : N) : Prop :=
  if ovm_branching x then
    if o_opcode x =? 565 then dynamic b
    else if o_opcode x =? 560 then b = field_add a (o_c x)
    else b = field_add a (o_c x) \/ b = a + 4
  else b = a + 4.
Lemma conditional_op x : conditional x -> o_opcode x <> 565 /\ o_opcode x <> 560.
Proof. unfold conditional, bigint_conditional. cbn [In]. intros H. split; intros E; rewrite E in H; intuition discriminate. Qed.
Lemma flows_ok dynamic a x b : flows dynamic a x b -> flows0 dynamic a x b.
Proof.
  unfold flows0. intros [[J D]|[[J D]|[[J D]|[J D]]]].
  - rewrite (proj2 (jumps_ok x)) by (unfold jumps; auto). unfold is_jalr in J. rewrite J. exact D.
  - rewrite (proj2 (jumps_ok x)) by (unfold jumps; auto). unfold is_jal in J. rewrite J. exact D.
  - rewrite (proj2 (jumps_ok x)) by (unfold jumps; auto). destruct (conditional_op x J) as [H1 H2]. apply N.eqb_neq in H1, H2. now rewrite H1, H2.
  - destruct (ovm_branching x) eqn:E; [|exact D]. apply jumps_ok in E. now destruct J.
Qed.

Section Blocks.
  Variable prog : list ovm_ins.
  Variable base : N.
  Variable dests : list N.
  Let bs := collect_basic_blocks ovm_branching ovm_allowed (fun a => mem_addr a dests) base 4 prog.
  (** A block begins at index [k]. *)
  Definition begins (k : nat) : Prop := exists l b r, bs = l ++ b :: r /\ length (flat_map instrs l) = k.

  Lemma part l b r : bs = l ++ b :: r -> let k := length (flat_map instrs l) in
    instrs b <> [] /\ start_pc b = base + N.of_nat k * 4 /\
    forall j x, nth_error (instrs b) j = Some x -> nth_error prog (k + j) = Some x /\
      (mem_addr (base + N.of_nat (k + j) * 4) dests = true -> j = 0%nat) /\ (ovm_branching x = true -> S j = length (instrs b)) /\ (ovm_allowed x = false -> instrs b = [x]).
  Proof. intros E. exact (proj2 (C33_partition _ ovm_branching ovm_allowed (fun a => mem_addr a dests) base 4 prog) l b r E). Qed.
  Lemma total : flat_map instrs bs = prog.
  Proof. exact (proj1 (C33_partition _ ovm_branching ovm_allowed (fun a => mem_addr a dests) base 4 prog)). Qed.
  Lemma block_at k : (k < length prog)%nat -> exists l b r j, bs = l ++ b :: r /\ (length (flat_map instrs l) + j)%nat = k /\ (j < length (instrs b))%nat.
  Proof. intros H. apply locate. now rewrite total. Qed.
  Lemma begins_dest k : (k < length prog)%nat -> In (base + N.of_nat k * 4) dests -> begins k.
  Proof.
    intros H D. destruct (block_at k H) as (l & b & r & j & E & K & J). destruct (part l b r E) as (_ & _ & P). destruct (nth_error (instrs b) j) as [x|] eqn:X; [|apply nth_error_None in X; lia].
    destruct (P j x X) as (_ & P2 & _). rewrite K in P2. apply mem_addr_in in D. specialize (P2 D). subst j. exists l, b, r. split; auto. lia.
  Qed.
  Lemma begins_end k l b r : bs = l ++ b :: r -> k = (length (flat_map instrs l) + length (instrs b))%nat -> (k < length prog)%nat -> begins k.
  Proof.
    intros E -> H. rewrite <- total, E, flat_len in H. destruct r as [|c r]; [cbn in H; lia|]. exists (l ++ [b]), c, r. split; [now rewrite <- app_assoc|]. rewrite flat_map_app, app_length. cbn [flat_map]. rewrite app_nil_r. reflexivity.
  Qed.
  Lemma begins_branch k x : nth_error prog k = Some x -> ovm_branching x = true -> (S k < length prog)%nat -> begins (S k).
  Proof.
    intros X B H. destruct (block_at k) as (l & b & r & j & E & K & J); [lia|]. destruct (part l b r E) as (_ & _ & P). destruct (nth_error (instrs b) j) as [y|] eqn:Y; [|apply nth_error_None in Y; lia].
    destruct (P j y Y) as (P1 & _ & P3 & _). rewrite K in P1. assert (y = x) by congruence. subst y. specialize (P3 B). eapply begins_end; eauto. lia.
  Qed.
  Lemma pcs_cons (b : bblock ovm_ins) j : (j < length (instrs b))%nat -> skipn j (bb_pcs 4 b) = (start_pc b + N.of_nat j * 4) :: skipn (S j) (bb_pcs 4 b).
  Proof.
    intros H. unfold bb_pcs. set (f := fun i : nat => start_pc b + N.of_nat i * 4). change (start_pc b + N.of_nat j * 4) with (f j). revert H. generalize (length (instrs b)). clear. intros n H.
    assert (G : forall m s i, (i < m)%nat -> skipn i (map f (seq s m)) = f (s + i)%nat :: skipn (S i) (map f (seq s m))).
    { induction m as [|m IH]; intros s i L; [lia|]. cbn [seq map]. destruct i; [cbn; now rewrite Nat.add_0_r|]. rewrite !skipn_cons. rewrite (IH (S s) i) by lia. f_equal. f_equal. lia. }
    apply (G n 0%nat j H).
  Qed.
  Lemma pcs_len (b : bblock ovm_ins) : length (bb_pcs 4 b) = length (instrs b).
  Proof. unfold bb_pcs. now rewrite map_length, seq_length. Qed.

  Variable dynamic : N -> Prop.
  (** Where the execution leaves a block. *)
  Hypothesis leave : forall k k' x, nth_error prog k = Some x -> ovm_branching x = true -> flows dynamic (base + 4 * N.of_nat k) x (base + 4 * N.of_nat k') -> (k' < length prog)%nat -> begins k'.

  Definition broken (pcs : list N) : Prop := exists b pre rest, In b bs /\ bb_pcs 4 b = pre ++ rest /\ pre <> [] /\ rest <> [] /\ pcs = pre.
  Lemma walk : forall pcs, execution base prog dynamic pcs -> forall l b r j, bs = l ++ b :: r -> (j < length (instrs b))%nat -> hd 0 pcs = start_pc b + N.of_nat j * 4 ->
    (exists trace pre, incl trace bs /\ (pre = [] \/ broken pre) /\ pcs = skipn j (bb_pcs 4 b) ++ flat_map (bb_pcs 4) trace ++ pre) \/
    (exists rest, rest <> [] /\ skipn j (bb_pcs 4 b) = pcs ++ rest).
  Proof.
    induction 1 as [a x Sl|a x b' pcs Sl Fl Ex IH]; intros l b r j E J A; cbn [hd] in A; destruct (part l b r E) as (Nb & Sb & P).
    - subst a. rewrite (pcs_cons b j J). destruct (le_lt_dec (length (instrs b)) (S j)) as [L|L].
      + left. exists [], []. split; [intros ? []|]. split; auto. rewrite (skipn_all2 (n := S j)) by (rewrite pcs_len; lia). reflexivity.
      + right. exists (skipn (S j) (bb_pcs 4 b)). split; [|reflexivity]. rewrite (pcs_cons b (S j) L). discriminate.
    - destruct (nth_error (instrs b) j) as [y|] eqn:Y; [|apply nth_error_None in Y; lia]. destruct (P j y Y) as (P1 & _ & P3 & _). set (k0 := length (flat_map instrs l)) in *.
      destruct Sl as (k & Xk & Ak). assert (k = (k0 + j)%nat) by lia. subst k. assert (y = x) by congruence. subst y.
      assert (exists k' x', nth_error prog k' = Some x' /\ b' = base + 4 * N.of_nat k') as (k' & x' & Xk' & ->) by (inversion Ex as [? ? S0|? ? ? ? S0]; destruct S0 as (k' & ? & ?); eauto).
      assert (Hk' : (k' < length prog)%nat) by (apply nth_error_Some; congruence).
      assert (Bg : begins k' -> exists l' c r', bs = l' ++ c :: r' /\ (0 < length (instrs c))%nat /\ base + 4 * N.of_nat k' = start_pc c + N.of_nat 0 * 4).
      { intros (l' & c & r' & E' & K'). exists l', c, r'. split; auto. destruct (part l' c r' E') as (Nc & Sc & _). split; [destruct (instrs c); [congruence|cbn; lia]|]. rewrite Sc, K'. lia. }
      assert (New : begins k' -> S j = length (instrs b) -> exists trace pre, incl trace bs /\ (pre = [] \/ broken pre) /\ a :: (base + 4 * N.of_nat k') :: pcs = skipn j (bb_pcs 4 b) ++ flat_map (bb_pcs 4) trace ++ pre).
      { intros Hb Ej. destruct (Bg Hb) as (l' & c & r' & E' & J' & A'). assert (Ic : In c bs) by (rewrite E'; apply in_elt). rewrite (pcs_cons b j J), <- A. rewrite (skipn_all2 (n := S j)) by (rewrite pcs_len; lia).
        destruct (IH l' c r' 0%nat E' J' A') as [(trace & pre & T1 & T2 & T3)|(rest & R1 & R2)]; cbn [skipn] in *.
        - exists (c :: trace), pre. split; [intros z [<-|Hz]; auto|]. split; auto. cbn [flat_map app]. rewrite <- app_assoc. cbn [app]. now rewrite T3.
        - exists [], ((base + 4 * N.of_nat k') :: pcs). split; [intros ? []|]. split; [|reflexivity]. right. exists c, ((base + 4 * N.of_nat k') :: pcs), rest. split; auto. split; auto. split; [discriminate|]. auto. }
      destruct (ovm_branching x) eqn:Br.
      + left. apply New; [|auto]. apply (leave (k0 + j)%nat k' x); auto. rewrite <- Ak. exact Fl.
      + apply flows_ok in Fl. unfold flows0 in Fl. rewrite Br in Fl. assert (k' = S (k0 + j)) by lia. subst k'. destruct (le_lt_dec (length (instrs b)) (S j)) as [L|L].
        * left. apply New; [|lia]. eapply begins_end; eauto. unfold k0 in *. lia.
        * rewrite (pcs_cons b j J), <- A. destruct (IH l b r (S j) E L) as [(trace & pre & T1 & T2 & T3)|(rest & R1 & R2)]; [cbn [hd]; lia| |].
          -- left. exists trace, pre. split; auto. split; auto. cbn [app]. now rewrite T3.
          -- right. exists rest. split; auto. cbn [app]. now rewrite R2.
  Qed.
End Blocks.

Lemma extra_in base : forall slots i l, extra_targets base 4 i (map Some slots) = Some l ->
  forall k x, nth_error slots k = Some x -> mem_addr (o_opcode x) branch_opcodes_bigint = true -> In (w32 (w32 (base + w32 (N.of_nat (i + k) * 4)) + o_c x)) l.
Proof.
  induction slots as [|y slots IH]; intros i l H k x K B; [destruct k; discriminate|]. cbn [map extra_targets] in H. destruct (extra_targets base 4 (S i) (map Some slots)) as [l'|] eqn:E; [|discriminate]. cbv zeta in H.
  match type of H with Some ?r = Some _ => assert (X : r = l) by congruence end. clear H. subst l.
  destruct k as [|k]; cbn [nth_error] in K.
  - injection K as ->. rewrite B, Nat.add_0_r. now left.
  - specialize (IH _ _ E k x K B). replace (i + S k)%nat with (S i + k)%nat by lia. destruct (mem_addr (o_opcode y) branch_opcodes_bigint); [now right|auto].
Qed.
Lemma branch_cases x : jumps x -> o_opcode x <> 565 -> bigint_conditional x \/ (conditional x /\ ~ bigint_conditional x) \/ is_jal x.
Proof.
  intros [[H|H]|[H|H]] N0; auto; [right; left|now destruct N0]. split; [now left|]. unfold bigint_conditional. cbn [In] in *. intros X. decompose [or] H; decompose [or] X; congruence.
Qed.

(** C55: an execution of the program (loaded at [base], at most 2^30 bytes) that begins at a label is a sequence of complete
    blocks, and possibly the beginning of one more that it has not left. *)
Theorem C55_blocks : forall decode32 decode16 e p base prog dests (dynamic : N -> Prop),
  segments_ok (e_segs e) -> words_ok (e_segs e) -> e_entry e < 2 ^ 32 ->
  load_elf decode32 decode16 e = Some p ->
  translated decode32 decode16 e base prog ->
  base + 4 * N.of_nat (length prog) <= 2 ^ 30 ->
  (forall a x, slot_at base prog a x -> bigint_conditional x -> a + o_c x < baby_bear) ->
  (forall b, dynamic b -> In b (p_labels p) \/ exists a x, slot_at base prog a x /\ jumps x /\ b = a + 4) ->
  jump_destinations base (map Some prog) (p_labels p) = Some dests ->
  forall a pcs, In a (p_labels p) -> execution base prog dynamic (a :: pcs) ->
  let bs := collect_basic_blocks ovm_branching ovm_allowed (fun a => mem_addr a dests) base 4 prog in
  exists trace, incl trace bs /\
    (a :: pcs = flat_map (bb_pcs 4) trace \/
     exists b pre rest, In b bs /\ bb_pcs 4 b = pre ++ rest /\ pre <> [] /\ rest <> [] /\ a :: pcs = flat_map (bb_pcs 4) trace ++ pre).
Proof.
  intros d32 d16 e p base prog dests dynamic Hs Hw He Hl Tr Hlen Hbig Hdyn Hd a pcs Ha Ex bs.
  assert (L := labels_ok d32 d16 e Hs p Hw He Hl). unfold jump_destinations in Hd. destruct (extra_targets base 4 0 (map Some prog)) as [l|] eqn:El; [|discriminate]. injection Hd as <-.
  set (dests := p_labels p ++ l) in *.
  assert (leave : forall k k' x, nth_error prog k = Some x -> ovm_branching x = true -> flows dynamic (base + 4 * N.of_nat k) x (base + 4 * N.of_nat k') -> (k' < length prog)%nat -> begins prog base dests k').
  { intros k k' x K B Fl K'. assert (Hk : (k < length prog)%nat) by (apply nth_error_Some; congruence).
    assert (Dst : In (base + 4 * N.of_nat k') dests -> begins prog base dests k') by (intros X; apply begins_dest; auto; rewrite N.mul_comm; exact X).
    assert (Nx : base + 4 * N.of_nat k' = base + 4 * N.of_nat k + 4 -> begins prog base dests k') by (intros X; assert (k' = S k) by lia; subst k'; eapply begins_branch; eauto).
    assert (Sl : slot_at base prog (base + 4 * N.of_nat k) x) by (exists k; auto).
    assert (Go : o_opcode x <> 565 -> base + 4 * N.of_nat k' = field_add (base + 4 * N.of_nat k) (o_c x) -> begins prog base dests k').
    { intros N565 X. apply Dst. unfold dests. apply in_or_app. destruct (branch_cases _ (proj1 (jumps_ok x) B) N565) as [Bg|Bs].
      - right. pose proof (extra_in base prog 0 l El k x K (proj2 (bigint_ok x) Bg)) as Y. specialize (Hbig _ _ Sl Bg). unfold field_add in X. rewrite N.mod_small in X by exact Hbig. unfold baby_bear in Hbig.
        rewrite X. replace (base + 4 * N.of_nat k + o_c x) with (w32 (w32 (base + w32 (N.of_nat (0 + k) * 4)) + o_c x)); auto. cbn [Nat.add]. rewrite (w32_small (N.of_nat k * 4)) by lia. rewrite (w32_small (base + N.of_nat k * 4)) by lia. rewrite w32_small by lia. lia.
      - left. apply L. destruct (Tr _ _ Sl Bs) as (i & n & z & C & J & M & Z & Cx). replace (base + 4 * N.of_nat k') with (plus (base + 4 * N.of_nat k) z); [eapply ref_jump; eauto|].
        rewrite X. unfold field_add. rewrite Cx. clear - Z Hlen Hk K' X Cx. change (2 ^ 21)%Z with 2097152%Z in Z. unfold field_add, baby_bear in *. rewrite Cx in X. set (q := base + 4 * N.of_nat k) in *. assert (Hq : q < 2 ^ 30) by lia. assert (Hq' : base + 4 * N.of_nat k' < 2 ^ 30) by lia.
        destruct (Z_lt_le_dec (Z.of_N q + z) 0) as [Ng|Ps].
        + exfalso. assert (E1 : (z mod Z.of_N 2013265921 = z + 2013265921)%Z) by (symmetry; apply Z.mod_unique with (-1)%Z; lia). rewrite E1 in X. rewrite N.mod_small in X by lia. lia.
        + rewrite plus_small by lia. destruct (Z_lt_le_dec z 0) as [Nz|Pz].
          * assert (E1 : (z mod Z.of_N 2013265921 = z + 2013265921)%Z) by (symmetry; apply Z.mod_unique with (-1)%Z; lia). rewrite E1. apply N.mod_unique with 1; lia.
          * rewrite Z.mod_small by lia. rewrite N.mod_small; lia. }
    apply flows_ok in Fl. unfold flows0 in Fl. rewrite B in Fl. destruct (N.eqb_spec (o_opcode x) 565) as [E5|E5].
    - destruct (Hdyn _ Fl) as [X|(a' & x' & (k0 & K0 & ->) & B' & X)]; [apply Dst; apply in_or_app; auto|]. assert (k' = S k0) by lia. subst k'. eapply begins_branch; eauto. now apply jumps_ok.
    - destruct (o_opcode x =? 560); [auto|]. destruct Fl as [Fl|Fl]; auto. }
  assert (Sa : exists k, (k < length prog)%nat /\ a = base + N.of_nat k * 4).
  { inversion Ex as [? ? (k & K & E)|? ? ? ? (k & K & E)]; exists k; (split; [apply nth_error_Some; congruence|lia]). }
  destruct Sa as (k & Hk & ->). destruct (begins_dest prog base dests k Hk) as (l0 & b & r & E & K0); [apply in_or_app; auto|].
  destruct (part prog base dests l0 b r E) as (Nb & Sb & _). assert (J : (0 < length (instrs b))%nat) by (destruct (instrs b); [congruence|cbn; lia]).
  assert (Ib : In b bs) by (unfold bs; rewrite E; apply in_elt).
  destruct (walk prog base dests dynamic leave _ Ex l0 b r 0%nat E J) as [(trace & pre & T1 & T2 & T3)|(rest & R1 & R2)]; [cbn [hd]; rewrite Sb, K0; lia| |]; cbn [skipn] in *.
  - exists (b :: trace). split; [intros z [<-|Hz]; auto|]. cbn [flat_map]. destruct T2 as [->|(c & pre' & rest & I & Eb & N1 & N2 & ->)].
    + left. now rewrite app_nil_r in T3.
    + right. exists c, pre', rest. rewrite <- app_assoc. auto 8.
  - exists []. split; [intros ? []|]. right. exists b, (base + N.of_nat k * 4 :: pcs), rest. split; auto. split; auto. split; [discriminate|]. auto.
Qed.
(** If the execution ends with an instruction that branches or is not allowed in blocks, its blocks are complete: the
    program counters are those of a sequence of blocks, as C34 and C52 assume. *)
Theorem C55_complete : forall decode32 decode16 e p base prog dests (dynamic : N -> Prop),
  segments_ok (e_segs e) -> words_ok (e_segs e) -> e_entry e < 2 ^ 32 ->
  load_elf decode32 decode16 e = Some p ->
  translated decode32 decode16 e base prog ->
  base + 4 * N.of_nat (length prog) <= 2 ^ 30 ->
  (forall a x, slot_at base prog a x -> bigint_conditional x -> a + o_c x < baby_bear) ->
  (forall b, dynamic b -> In b (p_labels p) \/ exists a x, slot_at base prog a x /\ jumps x /\ b = a + 4) ->
  jump_destinations base (map Some prog) (p_labels p) = Some dests ->
  forall a pcs b x, In a (p_labels p) -> execution base prog dynamic (a :: pcs) ->
  (exists l, a :: pcs = l ++ [b]) -> slot_at base prog b x -> jumps x \/ ovm_allowed x = false ->
  let bs := collect_basic_blocks ovm_branching ovm_allowed (fun a => mem_addr a dests) base 4 prog in
  exists trace, incl trace bs /\ a :: pcs = flat_map (bb_pcs 4) trace /\ NoDup (map start_pc bs) /\ Forall (fun b => instrs b <> []) bs.
Proof.
  intros d32 d16 e p base prog dests dynamic Hs Hw He Hl Tr Hlen Hbig Hdyn Hd a pcs b x Ha Ex (l & El) Sx Bx bs.
  destruct (C55_blocks d32 d16 e p base prog dests dynamic Hs Hw He Hl Tr Hlen Hbig Hdyn Hd a pcs Ha Ex) as (trace & T1 & T2). fold bs in T1, T2. exists trace. split; auto.
  assert (Good : NoDup (map start_pc bs) /\ Forall (fun b => instrs b <> []) bs).
  { destruct (collect_ok ovm_branching ovm_allowed (fun a => mem_addr a dests) base 4 prog 0 _ [] (cur_ok_nil ovm_branching ovm_allowed (fun a => mem_addr a dests) base 4 0)) as [_ B]. change (0 - length (@nil ovm_ins))%nat with 0%nat in B.
    fold (collect_basic_blocks ovm_branching ovm_allowed (fun a => mem_addr a dests) base 4 prog) in B. fold bs in B. split; [eapply starts_nodup; [|exact B]; lia|].
    clear - B. revert B. generalize 0%nat. induction bs as [|b bs IH]; intros n B; constructor; cbn [blocks_good] in B; [exact (proj1 (proj1 B))|]. eapply IH. exact (proj2 B). }
  split; [|exact Good]. destruct T2 as [T2|(c & pre & rest & I & Ec & N1 & N2 & T2)]; auto. exfalso.
  destruct (exists_last N1) as (pre' & y & ->). assert (y = b). { rewrite El, app_assoc in T2. apply app_inj_tail in T2. now symmetry. } subst y.
  apply in_split in I. destruct I as (l1 & l2 & E). destruct (part prog base dests l1 c l2 E) as (_ & Sc & P). set (j := length pre').
  assert (Lj : (S j < length (instrs c))%nat). { rewrite <- pcs_len, Ec, !app_length. cbn. destruct rest; [congruence|cbn; lia]. }
  assert (Bj : b = start_pc c + N.of_nat j * 4).
  { pose proof (pcs_cons c j ltac:(lia)) as X. rewrite Ec, <- app_assoc in X. unfold j in X at 1. rewrite skipn_app, skipn_all, Nat.sub_diag in X. cbn in X. congruence. }
  destruct (nth_error (instrs c) j) as [z|] eqn:Z; [|apply nth_error_None in Z; lia]. destruct (P j z Z) as (P1 & _ & P3 & P4). destruct Sx as (k & Kx & Ek).
  assert (k = (length (flat_map instrs l1) + j)%nat) by lia. subst k. assert (z = x) by congruence. subst z. destruct Bx as [Bx|Bx]; [apply jumps_ok in Bx; specialize (P3 Bx); lia|]. specialize (P4 Bx). rewrite P4 in Lj. cbn in Lj. lia.
Qed.

(** ** A file *)
Definition sext (bits w : N) : Z := if w <? 2 ^ (bits - 1) then Z.of_N w else (Z.of_N w - 2 ^ Z.of_N bits)%Z.
Definition field (lo n w : N) : N := N.land (N.shiftr w lo) (2 ^ n - 1).
(** A decoder of a few instructions. *)
Definition decode (w : N) : option ins :=
  let rd := Some (field 7 5 w) in let rs1 := Some (field 15 5 w) in let rs2 := Some (field 20 5 w) in
  let upper := Some (sext 32 (field 12 20 w * 2 ^ 12)) in
  match field 0 7 w with
  | 0x37 => Some (mkIns LUI rd None None upper ExtX)
  | 0x17 => Some (mkIns AUIPC rd None None upper ExtX)
  | 0x6f => Some (mkIns JAL rd None None (Some (sext 21 (2 * (field 21 10 w + 2 ^ 10 * field 20 1 w + 2 ^ 11 * field 12 8 w + 2 ^ 19 * field 31 1 w)))) ExtX)
  | 0x67 => Some (mkIns JALR rd rs1 None (Some (sext 12 (field 20 12 w))) ExtX)
  | 0x63 => Some (mkIns BEQ None rs1 rs2 (Some (sext 13 (2 * (field 8 4 w + 2 ^ 4 * field 25 6 w + 2 ^ 10 * field 7 1 w + 2 ^ 11 * field 31 1 w)))) ExtX)
  | 0x13 => Some (mkIns ADDI rd rs1 None (Some (sext 12 (field 20 12 w))) ExtX)
  | _ => None
  end.
Definition no16 (w : N) : decoded16 := Err16.
Definition bytes_of (w : N) : list N := [field 0 8 w; field 8 8 w; field 16 8 w; field 24 8 w].
Definition text0 : list N := flat_map bytes_of
  [0x00000097; (* 1000 auipc ra, 0 *)
   0x010080e7; (* 1004 jalr ra, 16(ra) *)
   0xfe000ce3; (* 1008 beq zero, zero, -8 *)
   0x0000006f; (* 100c jal zero, 0 *)
   0x00100293; (* 1010 addi t0, zero, 1 *)
   0x00000517; (* 1014 auipc a0, 0 *)
   0x00c50513; (* 1018 addi a0, a0, 12 *)
   0x00008067; (* 101c jalr zero, 0(ra) *)
   0x0000006f  (* 1020 jal zero, 0 *)].
Definition data0 : list N := bytes_of 0x1014.
Definition file (text : list N) (relocs : list reloc) : elf :=
  mkElf true false true 0x1000 [mkSeg 0x1000 (N.of_nat (length text)) true (Some text); mkSeg 0x2000 4 false (Some data0)] relocs [] 0.
Definition file0 : elf := file text0 [mkReloc 0x2000 R_RISCV_32 None].
Definition labels (e : elf) : option (list N) := match load_elf decode no16 e with Some p => Some (p_labels p) | None => None end.
Definition lifted (e : elf) : option (list hins) := match load_elf decode no16 e with Some p => Some (p_instructions p) | None => None end.
Example C54_file : labels file0 = Some [0x1014; 0x1010; 0x1000; 0x100c; 0x1020; 0x1020; 0x1000].
Proof. vm_compute. reflexivity. Qed.
Lemma file_ok text relocs : N.of_nat (length text) < 0x1000 -> segments_ok (e_segs (file text relocs)) /\ words_ok (e_segs (file text relocs)) /\ e_entry (file text relocs) < 2 ^ 32.
Proof.
  intros L. split; [|split; [|cbn; lia]].
  - split; [cbn; repeat constructor; cbn; intuition discriminate|]. cbn [e_segs file]. repeat constructor; cbn [s_vaddr s_memsz]; lia.
  - cbn [e_segs file]. split.
    + intros s bs [<-|[<-|[]]] E D; [discriminate|]. injection D as <-. cbn. lia.
    + intros s s' bs bs' k k' [<-|[<-|[]]] E; [discriminate|]. intros _ _ [<-|[<-|[]]] E'; [discriminate|reflexivity].
Qed.
Example C54_example : exists p, load_elf decode no16 file0 = Some p /\ segments_ok (e_segs file0) /\ words_ok (e_segs file0) /\ e_entry file0 < 2 ^ 32 /\
  referenced decode no16 file0 0x1014 /\ referenced decode no16 file0 0x1010 /\ ~ referenced decode no16 file0 0x1004.
Proof.
  pose proof C54_file as H. unfold labels in H. destruct (load_elf decode no16 file0) as [p|] eqn:E; [|discriminate]. injection H as H.
  destruct (file_ok text0 [mkReloc 0x2000 R_RISCV_32 None]) as (H1 & H2 & H3); [vm_compute; reflexivity|]. exists p. split; auto. split; [exact H1|]. split; [exact H2|]. split; [exact H3|].
  assert (L := C54_labels decode no16 file0 p H1 H2 H3 E). rewrite <- !L, H. cbn [In]. intuition discriminate.
Qed.

(** Its translation, and an execution: the call, the function, the return, and the branch. *)
Definition prog0 : list ovm_ins :=
  [mkOvm 576 0; mkOvm 565 16; mkOvm 544 (baby_bear - 8); mkOvm 560 0; mkOvm 512 1; mkOvm 576 0; mkOvm 512 12; mkOvm 565 0; mkOvm 560 0].
Lemma flows_next dynamic a x : ovm_branching x = false -> forall b, b = a + 4 -> flows dynamic a x b.
Proof. intros H b ->. right. right. right. split; auto. intros J. apply jumps_ok in J. congruence. Qed.
Definition dynamic0 (b : N) : Prop := b = 0x1010 \/ b = 0x1008.
Lemma file0_code a i : In (a, Ins i) (match instructions decode no16 0x1000 text0 with Some l => l | None => [] end) -> exists n, code decode no16 file0 a i n.
Proof.
  destruct (instructions decode no16 0x1000 text0) as [l|] eqn:E; [|intros []]. intros H. apply (proj1 (iterate_ok _ _ _ _ _ _ E)) in H. destruct H as (n & H). exists n. exists (mkSeg 0x1000 (N.of_nat (length text0)) true (Some text0)), text0. split; [now left|]. auto.
Qed.
Lemma translated0 : translated decode no16 file0 0x1000 prog0.
Proof.
  intros a x (k & K & ->) O.
  do 9 (destruct k as [|k]; [injection K as <-;
    try (exfalso; unfold conditional, is_jal, bigint_conditional in O; cbn in O; intuition discriminate);
    match goal with |- exists i n z, code _ _ _ ?a _ _ /\ _ =>
      let l := eval vm_compute in (match instructions decode no16 0x1000 text0 with Some l => l | None => [] end) in
      let a' := eval vm_compute in a in
      match l with context [(a', Ins ?i)] =>
        let z := eval vm_compute in (match i_imm i with Some z => z | None => 0%Z end) in
        destruct (file0_code a' i) as (n & C); [vm_compute; intuition reflexivity|]; exists i, n, z; split; [exact C|]; split; [reflexivity|]; split; [reflexivity|]; split; [lia|vm_compute; reflexivity]
      end
    end|]).
  cbn in K. destruct k; discriminate.
Qed.
Example C55_example :
  let pcs := [0x1000; 0x1004; 0x1010; 0x1014; 0x1018; 0x101c; 0x1008] in
  exists p dests, load_elf decode no16 file0 = Some p /\ In 0x1000 (p_labels p) /\ translated decode no16 file0 0x1000 prog0 /\
    0x1000 + 4 * N.of_nat (length prog0) <= 2 ^ 30 /\
    (forall a x, slot_at 0x1000 prog0 a x -> bigint_conditional x -> a + o_c x < baby_bear) /\
    (forall b, dynamic0 b -> In b (p_labels p) \/ exists a x, slot_at 0x1000 prog0 a x /\ jumps x /\ b = a + 4) /\
    jump_destinations 0x1000 (map Some prog0) (p_labels p) = Some dests /\
    execution 0x1000 prog0 dynamic0 pcs /\ slot_at 0x1000 prog0 0x1008 (mkOvm 544 (baby_bear - 8)) /\
    map (bb_pcs 4) (collect_basic_blocks ovm_branching ovm_allowed (fun a => mem_addr a dests) 0x1000 4 prog0) =
      [[0x1000; 0x1004]; [0x1008]; [0x100c]; [0x1010]; [0x1014; 0x1018; 0x101c]; [0x1020]].
Proof.
  intros pcs. pose proof C54_file as H. unfold labels in H. destruct (load_elf decode no16 file0) as [p|] eqn:E; [|discriminate]. injection H as H.
  exists p, (p_labels p). split; auto. split; [rewrite H; cbn; auto 10|]. split; [apply translated0|]. split; [vm_compute; discriminate|]. split.
  { intros a x (k & K & ->) O. exfalso. do 9 (destruct k as [|k]; [injection K as <-; apply bigint_ok in O; discriminate O|]). destruct k; discriminate. }
  split. { intros b [->| ->]; [left; rewrite H; cbn; auto|]. right. exists 0x1004, (mkOvm 565 16). split; [exists 1%nat; split; reflexivity|]. split; [apply jumps_ok|]; reflexivity. }
  split. { unfold jump_destinations. replace (extra_targets 0x1000 4 0 (map Some prog0)) with (Some (@nil N)) by (vm_compute; reflexivity). now rewrite app_nil_r. }
  split; [|split; [exists 2%nat; split; reflexivity|rewrite H; vm_compute; reflexivity]].
  apply exec_step with (mkOvm 576 0); [exists 0%nat; split; reflexivity|apply flows_next; reflexivity|].
  apply exec_step with (mkOvm 565 16); [exists 1%nat; split; reflexivity|left; split; [reflexivity|left; reflexivity]|].
  apply exec_step with (mkOvm 512 1); [exists 4%nat; split; reflexivity|apply flows_next; reflexivity|].
  apply exec_step with (mkOvm 576 0); [exists 5%nat; split; reflexivity|apply flows_next; reflexivity|].
  apply exec_step with (mkOvm 512 12); [exists 6%nat; split; reflexivity|apply flows_next; reflexivity|].
  apply exec_step with (mkOvm 565 0); [exists 7%nat; split; reflexivity|left; split; [reflexivity|right; reflexivity]|].
  apply exec_one with (mkOvm 544 (baby_bear - 8)). exists 2%nat. split; reflexivity.
Qed.

(** ** Findings *)
(** A pair that loads the address of code is lifted to one instruction even if its destinations differ: [auipc a0, 0; addi a1, a0, 8]
    becomes [la a0, ...], and [a1] is not written. *)
Theorem C54_destination_refuted : exists e p i1 i2 n1 n2 h, load_elf decode no16 e = Some p /\ code2 decode no16 e 0x1000 i1 n1 i2 n2 /\
  i_op i1 = AUIPC /\ i_op i2 = ADDI /\ i_rd i2 = Some 11 /\
  In h (p_instructions p) /\ h_addr h = 0x1000 /\ h_size h = 8 /\ h_op h = HLa /\ h_rd h = Some 10.
Proof.
  pose (text := flat_map bytes_of [0x00000517; 0x00850593; 0x0000006f]). pose (e := file text []).
  assert (H : lifted e = Some [mkH 0x1000 8 HLa (Some 10) None None (HLabel 0x1008); mkH 0x1008 4 (HOp JAL) (Some 0) None None (HLabel 0x1008)]) by (vm_compute; reflexivity).
  unfold lifted in H. destruct (load_elf decode no16 e) as [p|] eqn:E; [|discriminate]. injection H as H.
  exists e, p, (mkIns AUIPC (Some 10) None None (Some 0%Z) ExtX), (mkIns ADDI (Some 11) (Some 10) None (Some 8%Z) ExtX), 4%nat, 4%nat, (mkH 0x1000 8 HLa (Some 10) None None (HLabel 0x1008)).
  split; auto. split; [|do 3 (split; [reflexivity|]); split; [rewrite H; now left|repeat split]].
  exists (mkSeg 0x1000 12 true (Some text)), text. split; [now left|]. split; [reflexivity|]. split; [reflexivity|]. apply two_here; apply first_ok; vm_compute; reflexivity.
Qed.
(** Such a pair is also joined if the program jumps to its second instruction: no lifted instruction is at the label. *)
Theorem C54_entered_refuted : exists e p t, load_elf decode no16 e = Some p /\ In t (p_labels p) /\ (exists i n, code decode no16 e t i n) /\
  forall h, In h (p_instructions p) -> h_addr h <> t.
Proof.
  pose (text := flat_map bytes_of [0x00000517; 0x00850513; 0xffdff06f]). pose (e := file text []).
  assert (H : lifted e = Some [mkH 0x1000 8 HLa (Some 10) None None (HLabel 0x1008); mkH 0x1008 4 (HOp JAL) (Some 0) None None (HLabel 0x1004)]) by (vm_compute; reflexivity).
  assert (H' : labels e = Some [0x1008; 0x1004; 0x1000]) by (vm_compute; reflexivity).
  unfold lifted in H. unfold labels in H'. destruct (load_elf decode no16 e) as [p|] eqn:E; [|discriminate]. injection H as H. injection H' as H'.
  exists e, p, 0x1004. split; auto. split; [rewrite H'; cbn; auto|]. split.
  - exists (mkIns ADDI (Some 10) (Some 10) None (Some 8%Z) ExtX), 4%nat. exists (mkSeg 0x1000 12 true (Some text)), text. split; [now left|]. split; [reflexivity|]. split; [reflexivity|].
    eapply lies_later; [apply first_ok; vm_compute; reflexivity|]. replace (w32 (0x1000 + N.of_nat 4)) with 0x1004 by reflexivity. apply lies_here. apply first_ok. vm_compute. reflexivity.
  - rewrite H. intros h [<-|[<-|[]]]; discriminate.
Qed.
(** The address after the end of the code counts as code: loading it into a register makes it a label. *)
Theorem C54_end_refuted : exists e p t, load_elf decode no16 e = Some p /\ In t (p_labels p) /\
  forall s, In s (e_segs e) -> ~ s_vaddr s <= t < s_vaddr s + s_memsz s.
Proof.
  pose (e := file (flat_map bytes_of [0x00000517; 0x00850513]) []).
  assert (H' : labels e = Some [0x1008; 0x1000]) by (vm_compute; reflexivity).
  unfold labels in H'. destruct (load_elf decode no16 e) as [p|] eqn:E; [|discriminate]. injection H' as H'. exists e, p, 0x1008. split; auto. split; [rewrite H'; now left|].
  intros s [<-|[<-|[]]]; cbn; lia.
Qed.
(** The two halves of an absolute address must be next to each other: with an instruction between them, the address is not a label, and
    an indirect jump to it goes into the middle of a block. *)
Theorem C54_apart_refuted : exists e p i1 n1 i2 n2 rd hi lo, load_elf decode no16 e = Some p /\
  code decode no16 e 0x1000 i1 n1 /\ i_op i1 = LUI /\ i_rd i1 = Some rd /\ i_imm i1 = Some hi /\ In (mkReloc 0x1000 R_RISCV_HI20 None) (e_relocs e) /\
  code decode no16 e 0x1008 i2 n2 /\ i_op i2 = ADDI /\ i_rd i2 = Some rd /\ i_rs1 i2 = Some rd /\ i_imm i2 = Some lo /\
  (exists i n, code decode no16 e (plus 0 (hi + lo)) i n) /\ text_address (e_segs e) (plus 0 (hi + lo)) /\ ~ In (plus 0 (hi + lo)) (p_labels p).
Proof.
  pose (text := flat_map bytes_of [0x00001537; 0x00100293; 0x00c50513; 0x00050067]). pose (e := file text [mkReloc 0x1000 R_RISCV_HI20 None]).
  assert (H' : labels e = Some [0x1000]) by (vm_compute; reflexivity).
  unfold labels in H'. destruct (load_elf decode no16 e) as [p|] eqn:E; [|discriminate]. injection H' as H'.
  assert (C : forall a i, In (a, Ins i) (match instructions decode no16 0x1000 text with Some l => l | None => [] end) -> exists n, code decode no16 e a i n).
  { intros a i H. destruct (instructions decode no16 0x1000 text) as [l|] eqn:El; [|destruct H]. apply (proj1 (iterate_ok _ _ _ _ _ _ El)) in H. destruct H as (n & H). exists n. exists (mkSeg 0x1000 (N.of_nat (length text)) true (Some text)), text. split; [now left|]. auto. }
  destruct (C 0x1000 (mkIns LUI (Some 10) None None (Some 0x1000%Z) ExtX)) as (n1 & C1); [vm_compute; auto|].
  destruct (C 0x1008 (mkIns ADDI (Some 10) (Some 10) None (Some 12%Z) ExtX)) as (n2 & C2); [vm_compute; auto|].
  destruct (C 0x100c (mkIns JALR (Some 0) (Some 10) None (Some 0%Z) ExtX)) as (n3 & C3); [vm_compute; auto 10|].
  exists e, p, (mkIns LUI (Some 10) None None (Some 0x1000%Z) ExtX), n1, (mkIns ADDI (Some 10) (Some 10) None (Some 12%Z) ExtX), n2, 10, 0x1000%Z, 12%Z.
  replace (plus 0 (0x1000 + 12)) with 0x100c by reflexivity.
  split; auto. split; auto. do 3 (split; [reflexivity|]). split; [now left|]. split; auto. do 4 (split; [reflexivity|]). split; [eauto|]. split; [|rewrite H'; cbn; intuition discriminate].
  exists (mkSeg 0x1000 (N.of_nat (length text)) true (Some text)). split; [|reflexivity]. split; [now left|]. split; [vm_compute; split; discriminate|]. intros s [<-|[<-|[]]]; cbn; lia.
Qed.
(** The target of a bigint branch is computed without the reduction in the field: if it goes back, it is not a jump destination,
    and it may be inside of a block. *)
Theorem C55_backward_refuted : exists base prog dests dynamic b, jump_destinations base (map Some prog) [base] = Some dests /\
  execution base prog dynamic [base; base + 4; base + 8; base + 4] /\
  In b (collect_basic_blocks ovm_branching ovm_allowed (fun a => mem_addr a dests) base 4 prog) /\ start_pc b = base /\ In (base + 4) (bb_pcs 4 b).
Proof.
  exists 0x1000, [mkOvm 512 0; mkOvm 512 0; mkOvm 1056 (baby_bear - 4)], [0x1000; 0x1008 + (baby_bear - 4)], (fun _ => False), (mkBB 0x1000 [mkOvm 512 0; mkOvm 512 0]).
  split; [vm_compute; reflexivity|]. split.
  - apply exec_step with (mkOvm 512 0); [exists 0%nat; split; reflexivity|apply flows_next; reflexivity|].
    apply exec_step with (mkOvm 512 0); [exists 1%nat; split; reflexivity|apply flows_next; reflexivity|].
    apply exec_step with (mkOvm 1056 (baby_bear - 4)); [exists 2%nat; split; reflexivity|right; right; left; split; [right; now left|left; vm_compute; reflexivity]|].
    apply exec_one with (mkOvm 512 0). exists 1%nat. split; reflexivity.
  - split; [vm_compute; auto|]. split; [reflexivity|]. vm_compute. auto.
Qed.
(** A program with a gap cannot be compiled. *)
Theorem C55_gap_refuted : forall base a b labels, jump_destinations base (map Some a ++ None :: b) labels = None.
Proof.
  intros base a b labels. unfold jump_destinations. enough (G : forall i, extra_targets base 4 i (map Some a ++ None :: b) = None) by now rewrite G.
  induction a as [|x a IH]; intros i; [reflexivity|]. cbn [map app extra_targets]. now rewrite IH.
Qed.
(** The scan of 64-bit programs finds the jumps and branches with a fixed target and no others: AUIPC has no source register, which is what it
    compares, so calls by AUIPC and JALR are never found. *)
Theorem C54_wide : forall base is, (forall i, In i is -> i_op i = AUIPC -> i_rs1 i = None) -> (forall i, In i is -> i_op i = JALR -> i_rd i <> None) ->
  forall t, In t (scan64 base 0 None is) <-> exists k i z, nth_error is k = Some i /\ is_jump (i_op i) = true /\ i_imm i = Some z /\ t = to_u64 (Z.of_N (base + N.of_nat (k * 4)) + z).
Proof.
  intros base is H1 H2 t.
  assert (G : forall is k prev, (forall i, In i is -> i_op i = AUIPC -> i_rs1 i = None) -> (forall i, In i is -> i_op i = JALR -> i_rd i <> None) ->
    match prev with Some (Some _, _) => False | _ => True end ->
    (In t (scan64 base k prev is) <-> exists j i z, nth_error is j = Some i /\ is_jump (i_op i) = true /\ i_imm i = Some z /\ t = to_u64 (Z.of_N (base + N.of_nat ((k + j) * 4)) + z))).
  { clear. induction is as [|i is IH]; intros k prev H1 H2 Hp; [split; [intros []|intros ([|j] & i & z & E & _); discriminate]|]. cbn [scan64]. cbv zeta. rewrite in_app_iff.
    rewrite IH; [|intros; apply H1; auto; now right|intros; apply H2; auto; now right|specialize (H1 i (or_introl eq_refl)); destruct (i_op i); auto; now rewrite H1].
    assert (Hd : In t (match i_op i with
       | JAL | BEQ | BNE | BLT | BGE | BLTU | BGEU => match i_imm i with Some imm => [to_u64 (Z.of_N (base + N.of_nat (k * 4)) + imm)] | None => [] end
       | JALR => match prev with
         | Some (rs1, imm) => if match i_rd i, rs1 with Some a, Some b => a =? b | None, None => true | _, _ => false end then
           match imm, i_imm i with Some h, Some l => [to_u64 (Z.of_N (base + N.of_nat (k * 4)) + h + l)] | _, _ => [] end else []
         | None => [] end
       | _ => [] end) <-> is_jump (i_op i) = true /\ exists z, i_imm i = Some z /\ t = to_u64 (Z.of_N (base + N.of_nat (k * 4)) + z)).
    { specialize (H2 i (or_introl eq_refl)). destruct (i_op i) eqn:O; cbn [is_jump]; try (split; [intros []|intros [X _]; discriminate]);
        try (destruct (i_imm i) as [z|]; [split; [intros [<-|[]]; eauto|intros [_ (z' & [= <-] & ->)]; now left]|split; [intros []|intros [_ (z & X & _)]; discriminate]]).
      split; [|intros [X _]; discriminate]. destruct prev as [[[rs|] imm]|]; [destruct Hp| |intros []]. destruct (i_rd i); [intros []|]. now destruct H2. }
    rewrite Hd. split.
    - intros [[J (z & M & E)]|(j & i' & z & N0 & X)]; [exists 0%nat, i, z; rewrite Nat.add_0_r; auto|]. exists (S j), i', z. now rewrite <- Nat.add_succ_comm.
    - intros ([|j] & i' & z & N0 & J & M & E); [injection N0 as <-; rewrite Nat.add_0_r in E; left; eauto|]. right. exists j, i', z. rewrite Nat.add_succ_comm. auto. }
  apply (G is 0%nat None); auto.
Qed.
Theorem C54_wide_refuted : exists is, nth_error is 0 = decode 0x00000097 /\ nth_error is 1 = decode 0x010080e7 /\ scan64 0x1000 0 None is = [].
Proof.
  exists [mkIns AUIPC (Some 1) None None (Some 0%Z) ExtX; mkIns JALR (Some 1) (Some 1) None (Some 16%Z) ExtX]. split; [vm_compute; reflexivity|]. split; vm_compute; reflexivity.
Qed.

Print Assumptions C54_labels.
Print Assumptions C54_flow.
Print Assumptions C54_indirect.
Print Assumptions C54_call.
Print Assumptions C54_compressed.
Print Assumptions C54_destination_refuted.
Print Assumptions C54_entered_refuted.
Print Assumptions C54_end_refuted.
Print Assumptions C54_apart_refuted.
Print Assumptions C54_wide.
Print Assumptions C54_wide_refuted.
Print Assumptions C55_blocks.
Print Assumptions C55_complete.
Print Assumptions C55_backward_refuted.
Print Assumptions C55_gap_refuted.
