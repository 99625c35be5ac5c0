(** C71: labels and jump destinations of 64-bit programs. *)
From Coq Require Import Arith NArith ZArith Bool List Lia Sorted.
From Verif Require Import ElfModel ElfSpec WideModel WideSpec WideFacts.
From Verif Require PropsElf.
Import ListNotations.
Local Open Scope N_scope.

(** The destinations, without duplicates and in ascending order, are exactly the entry point, the symbols of executable segments, and the
    targets of the known jumps of executable segments. *)
Theorem C71_labels : forall decode64 file e L, compute_jumpdests decode64 file e = Some L ->
  entry_point L = e_entry e /\ StronglySorted N.lt (jumpdests L) /\
  forall t, In t (jumpdests L) <-> t = e_entry e \/ (exists s, text_symbol e t s) \/ exists ph j, In ph (e_phs e) /\ known_jump decode64 file ph j /\ j_target j = t.
Proof.
  intros decode64 file e L. unfold compute_jumpdests. fold (used e). destruct (is_class64 e && is_little e && is_riscv e); [|discriminate]. cbv zeta.
  destruct (insert_all (map s_value (used e)) (set_insert (e_entry e) [])) as [S1 S2]; [repeat constructor|].
  destruct (fold_left _ (e_phs e) _) as [[dests debug]|] eqn:E; [|discriminate]. intros [= <-]. cbn [entry_point jumpdests]. split; auto.
  destruct (segments_all decode64 file (map s_value (used e)) (e_phs e) (_, []) S1 (conj (SSorted_nil _) (Forall_nil _))) as [_ X]. destruct (X _ E) as (A & _ & C & _). cbn [fst] in *. split; auto.
  intros t. rewrite C, S2, used_in. cbn. intuition.
Qed.

(** The jumps recorded with the destinations: those destinations that are no symbols, in ascending order, each with all the jumps there,
    in the order of the segments and of the addresses.  [lists]: the known jumps of each executable segment, by address. *)
Theorem C71_debug : forall decode64 file e L, compute_jumpdests decode64 file e = Some L ->
  StronglySorted (fun a b => fst a < fst b) (with_debug L) /\
  exists lists, Forall2 (fun ph js => (forall j, In j js <-> known_jump decode64 file ph j) /\ StronglySorted (fun a b => j_from a < j_from b) js) (filter ph_exec (e_phs e)) lists /\
    forall t js, In (t, js) (with_debug L) <-> (forall s, ~ text_symbol e t s) /\ js <> [] /\ js = filter (fun j => j_target j =? t) (concat lists).
Proof.
  intros decode64 file e L. unfold compute_jumpdests. fold (used e). destruct (is_class64 e && is_little e && is_riscv e); [|discriminate]. cbv zeta.
  destruct (insert_all (map s_value (used e)) (set_insert (e_entry e) [])) as [S1 S2]; [repeat constructor|].
  destruct (fold_left _ (e_phs e) _) as [[dests debug]|] eqn:E; [|discriminate]. intros [= <-]. cbn [with_debug].
  destruct (segments_all decode64 file (map s_value (used e)) (e_phs e) (_, []) S1 (conj (SSorted_nil _) (Forall_nil _))) as [_ X]. destruct (X _ E) as (_ & B & _ & _). cbn [snd] in B.
  split; [exact (proj1 B)|].
  destruct (segments_lists decode64 file (map s_value (used e)) (e_phs e) (_, []) S1 (conj (SSorted_nil _) (Forall_nil _)) _ E) as (ls & F1 & F2). exists ls. split; auto.
  intros t js. rewrite (at_key_entry _ _ _ B). cbn [snd] in F2. rewrite F2. cbn [at_key flat_map app]. destruct (mem t (map s_value (used e))) eqn:M.
  - apply mem_in, used_in in M. destruct M as [s M]. split; [intros [X1 X2]; now destruct X1|]. intros [X1 _]. destruct (X1 s M).
  - assert (Ns : forall s, ~ text_symbol e t s) by (intros s X1; assert (Y : exists s, text_symbol e t s) by eauto; apply used_in, mem_in in Y; congruence). tauto.
Qed.

(** Every destination is explained: it is the entry point, a symbol, or recorded with a jump. *)
Theorem C71_explained : forall decode64 file e L, compute_jumpdests decode64 file e = Some L ->
  forall t, In t (jumpdests L) <-> t = e_entry e \/ (exists s, text_symbol e t s) \/ exists js, In (t, js) (with_debug L).
Proof.
  intros decode64 file e L H t. destruct (C71_labels _ _ _ _ H) as (_ & _ & A). destruct (C71_debug _ _ _ _ H) as (_ & ls & B & C). rewrite A. clear A.
  assert (K : forall j, In j (concat ls) <-> exists ph, In ph (e_phs e) /\ known_jump decode64 file ph j).
  { intros j. assert (Kx : forall ph, known_jump decode64 file ph j -> ph_exec ph = true) by (intros ph X; inversion X as [k i z (Y & _)|k i z (Y & _)|k i i' h l (Y & _)]; auto).
    assert (G : In j (concat ls) <-> exists ph, In ph (filter ph_exec (e_phs e)) /\ known_jump decode64 file ph j).
    { clear C. induction B as [|ph js phs ls [P1 _] B IH]; cbn [concat]; [split; [intros []|intros (x & [] & _)]|]. rewrite in_app_iff, IH, P1. split.
      - intros [X|(q & Q & X)]; [exists ph; split; [now left|auto]|exists q; split; [now right|auto]].
      - intros (q & [<-|Q] & X); eauto. }
    rewrite G. split; intros (ph & P & X); exists ph; (split; [|exact X]); [now apply filter_In in P|apply filter_In; auto]. }
  destruct (mem t (map s_value (used e))) eqn:M.
  - apply mem_in, used_in in M. tauto.
  - assert (Ns : forall s, ~ text_symbol e t s) by (intros s X1; assert (Y : exists s, text_symbol e t s) by eauto; apply used_in, mem_in in Y; congruence). split.
    + intros [X|[X|(ph & j & P & X & T)]]; auto. right. right. exists (filter (fun j => j_target j =? t) (concat ls)). apply C. split; auto. split; auto.
      assert (I : In j (filter (fun j => j_target j =? t) (concat ls))) by (apply filter_In; split; [apply K; eauto|now apply N.eqb_eq]). intros Z. rewrite Z in I. destruct I.
    + intros [X|[X|(js & X)]]; auto. right. right. apply C in X. destruct X as (_ & X1 & ->). destruct (filter _ (concat ls)) as [|j r] eqn:Fl; [now destruct X1|].
      assert (I : In j (filter (fun j => j_target j =? t) (concat ls))) by (rewrite Fl; now left). apply filter_In in I. destruct I as [I T]. apply N.eqb_eq in T. apply K in I. destruct I as (ph & P & I). eauto.
Qed.

(** The symbols: those with a name at a non-zero address of an executable segment, in the order of the table. *)
Theorem C71_symbols : forall decode64 file e L, compute_jumpdests decode64 file e = Some L ->
  exists keep : sym64 -> bool, (forall s, In s (e_syms e) -> (keep s = true <-> s_name s <> None /\ text_symbol e (s_value s) s)) /\
    map (fun x => (fst x, Some (snd x))) (symbols L) = map (fun s => (s_value s, s_name s)) (filter keep (e_syms e)).
Proof.
  intros decode64 file e L. unfold compute_jumpdests. fold (used e). destruct (is_class64 e && is_little e && is_riscv e); [|discriminate]. cbv zeta.
  destruct (fold_left _ (e_phs e) _) as [[dests debug]|] eqn:E; [|discriminate]. intros [= <-]. cbn [symbols].
  exists (fun s => match s_name s with Some _ => true | None => false end && (negb (s_value s =? 0) && in_text (e_phs e) (s_value s))). split.
  - intros s Hs. unfold text_symbol. rewrite !andb_true_iff, negb_true_iff, N.eqb_neq, in_text_iff. destruct (s_name s); split; intros H; try tauto; [|destruct H as [H _]; discriminate]. split; [discriminate|tauto].
  - unfold used. clear E. induction (e_syms e) as [|s l IH]; auto. cbn [filter]. destruct (negb (s_value s =? 0) && in_text (e_phs e) (s_value s)).
    + cbn [flat_map]. rewrite map_app, IH. destruct (s_name s) eqn:Es; cbn [andb map app]; [now rewrite Es|reflexivity].
    + rewrite andb_false_r. exact IH.
Qed.

(** The base: the lowest address of an executable segment, zero if there is none. *)
Theorem C71_base : forall decode64 file e L, compute_jumpdests decode64 file e = Some L ->
  ((forall ph, In ph (e_phs e) -> ph_exec ph = false) -> pc_base L = 0) /\
  (forall ph, In ph (e_phs e) -> ph_exec ph = true -> pc_base L <= ph_vaddr ph /\ exists ph', In ph' (e_phs e) /\ ph_exec ph' = true /\ pc_base L = ph_vaddr ph').
Proof.
  intros decode64 file e L. unfold compute_jumpdests. destruct (is_class64 e && is_little e && is_riscv e); [|discriminate]. cbv zeta.
  destruct (fold_left _ (e_phs e) _) as [[dests debug]|] eqn:E; [|discriminate]. intros [= <-]. cbn [pc_base]. clear E. unfold lowest. split.
  - intros H. replace (filter ph_exec (e_phs e)) with (@nil phdr64); auto. induction (e_phs e) as [|ph l IH]; auto. cbn [filter]. rewrite (H ph (or_introl eq_refl)). apply IH. intros q Q. apply H. now right.
  - intros ph P X. assert (I : In (ph_vaddr ph) (map ph_vaddr (filter ph_exec (e_phs e)))) by (apply in_map, filter_In; auto).
    destruct (map ph_vaddr (filter ph_exec (e_phs e))) as [|x r] eqn:M; [destruct I|]. destruct (fold_min r x) as [A B]. split; [exact (proj1 (Forall_forall _ _) B _ I)|].
    rewrite <- M in A. apply in_map_iff in A. destruct A as (q & Q & A). apply filter_In in A. exists q. split; [tauto|]. split; [tauto|]. now symmetry.
Qed.

(** It panics exactly if the header is of another kind of program, or an executable segment cannot be read. *)
Theorem C71_panics : forall decode64 file e, compute_jumpdests decode64 file e = None <->
  ~ (is_class64 e = true /\ is_little e = true /\ is_riscv e = true) \/ exists ph, In ph (e_phs e) /\ ph_exec ph = true /\ ~ readable decode64 file ph.
Proof.
  intros decode64 file e. unfold compute_jumpdests. fold (used e). destruct (is_class64 e && is_little e && is_riscv e) eqn:Hd.
  - cbv zeta. destruct (insert_all (map s_value (used e)) (set_insert (e_entry e) [])) as [S1 S2]; [repeat constructor|].
    destruct (segments_all decode64 file (map s_value (used e)) (e_phs e) (_, []) S1 (conj (SSorted_nil _) (Forall_nil _))) as [X _]. rewrite !andb_true_iff in Hd.
    destruct (fold_left _ (e_phs e) _) as [[dests debug]|].
    + split; [discriminate|]. intros [Y|Y]; [tauto|]. apply X in Y. discriminate.
    + split; auto. intros _. right. now apply X.
  - split; auto. intros _. left. intros (A & B & C). rewrite A, B, C in Hd. discriminate.
Qed.

(** With the decoder's convention (AUIPC has no source register, JALR writes one) no jump through AUIPC and JALR is ever found. *)
Theorem C71_pairs : forall decode64, (forall w i, decode64 w = Some i -> i_op i = AUIPC -> i_rs1 i = None) -> (forall w i, decode64 w = Some i -> i_op i = JALR -> i_rd i <> None) ->
  forall file ph j, known_jump decode64 file ph j -> j_text j <> TPair.
Proof.
  intros decode64 D1 D2 file ph j H. inversion H as [| |k i i' h l (_ & _ & w & _ & W) O (_ & _ & w' & _ & W') O' R]; subst; try discriminate. pose proof (D1 _ _ W O). pose proof (D2 _ _ W' O'). congruence.
Qed.

(** A program: at 0x1000 [jal x1, 8]; [beq x1, x2, -4]; [jal x0, 8]; [auipc x1, 0]; [jalr x1, 16(x1)]. *)
Definition bytes (w : N) : list N := [w mod 256; w / 256 mod 256; w / 256 ^ 2 mod 256; w / 256 ^ 3].
Definition program : list N := [7; 7] ++ flat_map bytes [0x008000ef; 0xfe208ee3; 0x0080006f; 0x00000097; 0x010080e7].
Definition program_elf : elf64 :=
  mkElf64 true true true 0x1000 [mkPh64 false 0 100 0 100; mkPh64 true 0x1000 20 2 20]
    [mkSym64 0 (Some [1]); mkSym64 0x1008 (Some [2]); mkSym64 0x1004 None; mkSym64 0x9000 (Some [3])].
Example C71_example : compute_jumpdests PropsElf.decode program program_elf =
  Some (mkLabels [0x1000; 0x1004; 0x1008; 0x1010] 0x1000 [(0x1008, [2])]
          [(0x1000, [mkJump 0x1000 0x1004 (TBranch BEQ (Some 1) (Some 2))]); (0x1010, [mkJump 0x1010 0x1008 (TJal (Some 0))])] 0x1000).
Proof. reflexivity. Qed.
(** A segment longer than the file, and one that is no sequence of words. *)
Example C71_panic_example : compute_jumpdests PropsElf.decode program (mkElf64 true true true 0 [mkPh64 true 0x1000 20 2 24] []) = None /\
  compute_jumpdests PropsElf.decode program (mkElf64 true true true 0 [mkPh64 true 0x1000 20 2 18] []) = None /\
  compute_jumpdests PropsElf.decode program (mkElf64 false true true 0 [] []) = None.
Proof. repeat split; reflexivity. Qed.
(** The decoder of the example meets the hypotheses of [C71_pairs]. *)
Example C71_pairs_example : (forall w i, PropsElf.decode w = Some i -> i_op i = AUIPC -> i_rs1 i = None) /\ (forall w i, PropsElf.decode w = Some i -> i_op i = JALR -> i_rd i <> None).
Proof.
  assert (G : forall (n : N) rd rs1 rs2 u1 u2 u3 u4 u5 u6 i,
    match n with
    | 0x37 => Some (mkIns LUI rd None None u1 ExtX) | 0x17 => Some (mkIns AUIPC rd None None u2 ExtX) | 0x6f => Some (mkIns JAL rd None None u3 ExtX)
    | 0x67 => Some (mkIns JALR rd rs1 None u4 ExtX) | 0x63 => Some (mkIns BEQ None rs1 rs2 u5 ExtX) | 0x13 => Some (mkIns ADDI rd rs1 None u6 ExtX) | _ => None
    end = Some i -> (i_op i = AUIPC -> i_rs1 i = None) /\ (i_op i = JALR -> i_rd i = rd)).
  { intros n rd rs1 rs2 u1 u2 u3 u4 u5 u6 i. repeat (match goal with |- (match ?x with _ => _ end) = _ -> _ => destruct x end); intros [= <-]; cbn [i_op i_rs1 i_rd]; split; intros; auto; discriminate. }
  split; intros w i E O; [exact (proj1 (G _ _ _ _ _ _ _ _ _ _ _ E) O)|]. rewrite (proj2 (G _ _ _ _ _ _ _ _ _ _ _ E) O). discriminate.
Qed.

Print Assumptions C71_labels.
Print Assumptions C71_debug.
Print Assumptions C71_explained.
Print Assumptions C71_symbols.
Print Assumptions C71_base.
Print Assumptions C71_panics.
Print Assumptions C71_pairs.
