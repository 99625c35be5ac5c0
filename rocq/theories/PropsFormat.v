(** C65: the printed form of an instruction says which instruction it is. *)
From Coq Require Import Arith NArith ZArith Bool List Ascii String Lia.
From Verif Require Import NumModel JsonModel ElfModel FormatModel FormatSpec FormatFacts.
Import ListNotations.
Local Open Scope list_scope.
Local Open Scope N_scope.

(** When an instruction can be printed. *)
Theorem C65_total : forall p i, (exists t, format_instruction p i = Some t) <->
  (alu (opcode i) -> op_d i = 1 /\ op_f i = 0 /\ op_g i = 0) /\ (load_store (opcode i) -> op_d i = 1).
Proof. exact total. Qed.
(** Different opcodes have different names. *)
Theorem C65_names : forall o o', opcode_name o = opcode_name o' -> o = o'.
Proof. intros o o' H. apply (f_equal (fun t => t ++ [32])) in H. now apply name_apart in H. Qed.
(** Instructions with the same line are the same, as far as their last two operands are printed or equal. *)
Theorem C65_line : forall p i j t, canonical p i -> canonical p j ->
  format_instruction p i = Some t -> format_instruction p j = Some t ->
  prints_all (opcode i) \/ (op_f i = op_f j /\ op_g i = op_g j) -> i = j.
Proof. exact line_inj. Qed.
(** For the other opcodes they are not printed. *)
Theorem C65_line_refuted : exists i j t, canonical 2013265921 i /\ canonical 2013265921 j /\ i <> j /\
  format_instruction 2013265921 i = Some t /\ format_instruction 2013265921 j = Some t.
Proof.
  exists (mkInstr 560 4 0 8 1 0 1 0), (mkInstr 560 4 0 8 1 0 0 0), (txt "JAL 4 0 8 1 0"). unfold canonical. cbn [op_a op_b op_c op_d op_e op_f op_g].
  repeat split; try lia; try discriminate; vm_compute; reflexivity.
Qed.
Example C65_line_example : canonical 2013265921 (mkInstr 531 8 4 65532 1 2 1 1) /\ prints_all 531 /\
  format_instruction 2013265921 (mkInstr 531 8 4 65532 1 2 1 1) = Some (txt "STOREW rd_rs2_ptr = 8, rs1_ptr = 4, imm = 65532, mem_as = 2, needs_write = 1, imm_sign = 1") /\
  prints_all 700 /\ format_instruction 2013265921 (mkInstr 700 1 2 3 4 5 6 7) = Some (txt "<opcode 700> 1 2 3 4 5 6 7") /\
  format_instruction 2013265921 (mkInstr 512 8 4 1 0 0 0 0) = None.
Proof.
  split; [unfold canonical; cbn; lia|]. split; [left; unfold load_store; lia|]. split; [vm_compute; reflexivity|]. split; [|split; vm_compute; reflexivity].
  right. intros H. cbn in H. repeat (destruct H as [H|H]; [discriminate|]). exact H.
Qed.

(** What is printed for the instructions that are built from numbers below the modulus: these numbers. *)
Lemma small_from p x l : small p l -> In x l -> from_u32 p x = x.
Proof. intros H Hin. unfold small in H. rewrite Forall_forall in H. apply N.mod_small. now apply H. Qed.
Theorem C65_alu : forall p code rd rs1 rs2 rs2_as, In code alu_codes -> small p [rd; rs1; rs2; rs2_as] ->
  format_instruction p (alu_op p code rd rs1 rs2 rs2_as) =
    Some (opcode_name code ++ txt " rd_ptr = " ++ print 10 rd ++ txt ", rs1_ptr = " ++ print 10 rs1 ++ txt ", rs2 = " ++ print 10 rs2 ++ txt ", rs2_as = " ++ print 10 rs2_as).
Proof.
  intros p code rd rs1 rs2 rs2_as Hc Hs. unfold alu_op. rewrite (small_from p rd _ Hs), (small_from p rs1 _ Hs), (small_from p rs2 _ Hs), (small_from p rs2_as _ Hs) by (cbn; auto).
  unfold format_instruction. replace (is_alu code) with true by (cbn in Hc; repeat (destruct Hc as [<-|Hc]; [reflexivity|]); destruct Hc).
  change ((1 =? 1) && (0 =? 0) && (0 =? 0)) with true. cbv iota. unfold fields. cbn [flat_map fst snd app]. rewrite app_nil_r. rewrite <- !app_assoc. reflexivity.
Qed.
Theorem C65_load_store : forall p code r rs1 imm mem_as needs_write imm_sign, In code ls_codes -> small p [r; rs1; imm; mem_as; needs_write; imm_sign] ->
  format_instruction p (ls_op p code r rs1 imm mem_as needs_write imm_sign) =
    Some (opcode_name code ++ txt " rd_rs2_ptr = " ++ print 10 r ++ txt ", rs1_ptr = " ++ print 10 rs1 ++ txt ", imm = " ++ print 10 imm ++
      txt ", mem_as = " ++ print 10 mem_as ++ txt ", needs_write = " ++ print 10 needs_write ++ txt ", imm_sign = " ++ print 10 imm_sign).
Proof.
  intros p code r rs1 imm mem_as needs_write imm_sign Hc Hs. unfold ls_op.
  rewrite (small_from p r _ Hs), (small_from p rs1 _ Hs), (small_from p imm _ Hs), (small_from p mem_as _ Hs), (small_from p needs_write _ Hs), (small_from p imm_sign _ Hs) by (cbn; auto 10).
  unfold format_instruction. replace (is_alu code) with false by (cbn in Hc; repeat (destruct Hc as [<-|Hc]; [reflexivity|]); destruct Hc).
  replace (is_load_store code) with true by (cbn in Hc; repeat (destruct Hc as [<-|Hc]; [reflexivity|]); destruct Hc).
  change (1 =? 1) with true. cbv iota. unfold fields. cbn [flat_map fst snd app]. rewrite app_nil_r. rewrite <- !app_assoc. reflexivity.
Qed.
Theorem C65_others : forall p code a b c d e, In code instr5_codes -> small p [a; b; c; d; e] ->
  format_instruction p (build_instr5 p code a b c d e) =
    Some (opcode_name code ++ txt " " ++ print 10 a ++ txt " " ++ print 10 b ++ txt " " ++ print 10 c ++ txt " " ++ print 10 d ++ txt " " ++ print 10 e).
Proof.
  intros p code a b c d e Hc Hs. unfold build_instr5.
  rewrite (small_from p a _ Hs), (small_from p b _ Hs), (small_from p c _ Hs), (small_from p d _ Hs), (small_from p e _ Hs) by (cbn; auto 10).
  unfold format_instruction. replace (is_alu code) with false by (cbn in Hc; repeat (destruct Hc as [<-|Hc]; [reflexivity|]); destruct Hc).
  replace (is_load_store code) with false by (cbn in Hc; repeat (destruct Hc as [<-|Hc]; [reflexivity|]); destruct Hc).
  replace (is_branch code) with false by (cbn in Hc; repeat (destruct Hc as [<-|Hc]; [reflexivity|]); destruct Hc).
  replace (is_listed code) with true by (cbn in Hc; repeat (destruct Hc as [<-|Hc]; [reflexivity|]); destruct Hc).
  cbv iota. unfold fields. cbn [flat_map fst snd app]. rewrite app_nil_r. rewrite <- !app_assoc. reflexivity.
Qed.
(** Of branches, the signed immediate is printed, for immediates in the half range around zero. *)
Theorem C65_branch : forall p code rs1 rs2 imm, 2 < p -> N.odd p = true -> In code branch_codes -> small p [rs1; rs2] ->
  (- (Z.of_N p + 1) <= 2 * imm < Z.of_N p - 1)%Z -> (- 2 ^ 31 < imm)%Z ->
  exists i, branch_op p code rs1 rs2 imm = Some i /\
    format_instruction p i = Some (opcode_name code ++ txt " " ++ print 10 rs1 ++ txt " " ++ print 10 rs2 ++ txt " " ++ signed imm ++ txt " 1 1").
Proof.
  intros p code rs1 rs2 imm Hp Ho Hc Hs Hz Hm. unfold branch_op. destruct (Z.eqb_spec imm (- 2 ^ 31)) as [E|_]; [lia|]. eexists. split; [reflexivity|].
  unfold format_instruction. destruct (branch_kind _ Hc) as (-> & -> & ->). cbv iota. rewrite (fe_signed p imm Hp Ho Hz).
  rewrite (small_from p rs1 _ Hs), (small_from p rs2 _ Hs) by (cbn; auto). f_equal.
Qed.
Example C65_branch_example : exists i, branch_op 2013265921 549 8 4 (-36) = Some i /\ format_instruction 2013265921 i = Some (txt "BLT 8 4 -36 1 1") /\
  (2 < 2013265921) /\ N.odd 2013265921 = true /\ In 549 branch_codes /\ small 2013265921 [8; 4] /\ (- (2013265921 + 1) <= 2 * -36 < 2013265921 - 1)%Z.
Proof. eexists. split; [reflexivity|]. split; [vm_compute; reflexivity|]. split; [lia|]. split; [reflexivity|]. split; [cbn; auto|]. split; [repeat constructor|lia]. Qed.
(** Other immediates of type i32 are printed as other numbers, and the least one cannot be built. *)
Theorem C65_branch_refuted :
  (exists i, branch_op 2013265921 544 8 4 2013265920 = Some i /\ format_instruction 2013265921 i = Some (txt "BEQ 8 4 -1 1 1")) /\
  (exists i, branch_op 2013265921 544 8 4 1006632960 = Some i /\ format_instruction 2013265921 i = Some (txt "BEQ 8 4 -1006632961 1 1")) /\
  branch_op 2013265921 544 8 4 (- 2 ^ 31) = None.
Proof. split; [eexists; split; [reflexivity|vm_compute; reflexivity]|]. split; [eexists; split; [reflexivity|vm_compute; reflexivity]|reflexivity]. Qed.
Example C65_built_example : In 513 alu_codes /\ small 2013265921 [8; 4; 16; 0] /\ In 534 ls_codes /\ small 2013265921 [8; 4; 65532; 2; 1; 1] /\ In 576 instr5_codes /\
  format_instruction 2013265921 (alu_op 2013265921 513 8 4 16 0) = Some (txt "SUB rd_ptr = 8, rs1_ptr = 4, rs2 = 16, rs2_as = 0") /\
  format_instruction 2013265921 (build_instr5 2013265921 576 8 0 4096 1 0) = Some (txt "AUIPC 8 0 4096 1 0").
Proof. split; [cbn; auto|]. split; [repeat constructor|]. split; [cbn; auto 10|]. split; [repeat constructor|]. split; [cbn; auto 10|]. split; vm_compute; reflexivity. Qed.

Print Assumptions C65_total.
Print Assumptions C65_names.
Print Assumptions C65_line.
Print Assumptions C65_line_refuted.
Print Assumptions C65_alu.
Print Assumptions C65_load_store.
Print Assumptions C65_others.
Print Assumptions C65_branch.
Print Assumptions C65_branch_refuted.
