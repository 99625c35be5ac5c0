(** C50: the GPU generates the trace of the CPU.  C51: every lookup is counted once. *)
From Coq Require Import Arith ZArith NArith Bool List Lia.
From Verif Require Import Field Primes ExprModel SystemModel SymModel SymSpec TraceModel TraceSpec TraceFacts CudaModel CudaSpec CudaMain.
Import ListNotations.
Local Open Scope nat_scope.

(** C50: suppose that the CPU generates a trace and counts its lookups without panicking, that the VM has all
    lookup chips, that every column that a derived column reads is a column of the machine, that no column of the
    machine stands for two columns of the instructions and that all sizes fit the device.  Then the host code of
    the GPU does not panic; and whatever the order in which the groups of instructions are iterated and in which
    the accesses of the threads of each kernel interleave, no thread faults, all threads end, the buffer that was
    cleared before holds the rows of the CPU at the end, and every counter has grown by as much as on the CPU. *)
Theorem C50_same : forall p (P : apc p) ch widths padding order calls rows effects bins,
  let A := fold_left (exec_call P) calls new_arenas in
  let W := length (main_columns (apc_machine P)) in
  calls <> [] -> Forall (fits (apc_airs P) widths) calls -> (forall a x, In x (padding a) -> length x = widths a) ->
  NoDup (map snd (concat (apc_subs_by P))) ->
  (forall d v, In d (sm_derived (apc_machine P)) -> method_reads (snd d) v -> column_id (apc_machine P) (vid v)) ->
  lists_airs P order -> all_chips ch -> device_fits P ch (fun a => ar_real A a ++ padding a) (length calls) ->
  generate_witness P widths (fun a => concat (padding a)) A = Some (rows, effects) -> apply_all ch effects = Some bins ->
  exists la M1, try_generate_witness P ch order (device_traces P widths padding A) (length calls) = Some la /\
    la_height la = length rows /\ la_width la = W /\
    forall C, completes (la_trace la) (repeat 0%F (W * length rows)) C M1 C /\
      completes (la_derived la) M1 C (column_major W rows) C /\
      completes (la_bus la) (column_major W rows) C (column_major W rows) (fun b => C b + requests b bins)%N.
Proof. intros. eapply device_same; eauto. Qed.
Print Assumptions C50_same.

(** C51: if the requests on a lookup bus are requests for entries of the table, the counter of every entry is the
    sum of the multiplicities with which the rows of the trace send it; requests on other buses do not count. *)
Theorem C51_counts : forall p ch (effects : list (list (N * F p * list (F p)))) bins,
  all_chips ch -> (forall e, In e (concat effects) -> (fst (fst e) < 2 ^ 16)%N) -> apply_all ch effects = Some bins ->
  (forall v m, (forall e, In e (concat effects) -> fst (fst e) = ch_range ch -> val (snd (fst e)) <> 0%N -> exists v m, map val (snd e) = [v; m] /\ (v < 2 ^ m)%N) ->
    (v < 2 ^ m)%N -> requests (BRange (2 ^ m + v - 1)) bins = sent (ch_range ch) [v; m] (concat effects)) /\
  (forall tuple v w, ch_tuple ch = Some tuple -> (ch_size0 ch * ch_size1 ch < 2 ^ 32)%N ->
    (forall e, In e (concat effects) -> fst (fst e) = tuple -> val (snd (fst e)) <> 0%N -> exists v w, map val (snd e) = [v; w] /\ (v < ch_size0 ch /\ w < ch_size1 ch)%N) ->
    (v < ch_size0 ch /\ w < ch_size1 ch)%N -> requests (BTuple (v * ch_size1 ch + w)) bins = sent tuple [v; w] (concat effects)) /\
  (forall bit x y z s, ch_bit ch = Some bit ->
    (forall e, In e (concat effects) -> fst (fst e) = bit -> val (snd (fst e)) <> 0%N -> exists x y z s, map val (snd e) = [x; y; z; s] /\ (s = 0 -> z = 0)%N) ->
    (s = 0 /\ z = 0 \/ s = 1 /\ z = N.lxor x y)%N -> requests (BBit s x y) bins = sent bit [x; y; z; s] (concat effects)).
Proof.
  intros p ch effects bins (bit & tuple & Hbit & Htuple & Hids) Hs Hb. split; [|split].
  - intros v m Hv Lv. eapply count_range; eauto.
  - intros tuple' v w E Hsz Hv Lv. assert (tuple' = tuple) as -> by congruence. eapply count_tuple; eauto.
  - intros bit' x y z s E Hv Hz. assert (bit' = bit) as -> by congruence. eapply count_bit; eauto.
Qed.
Print Assumptions C51_counts.

(** A selector other than 0 and 1, or a claimed XOR that is wrong, is an error on the CPU. *)
Theorem C51_xor_checked : forall p ch bit (e : N * F p * list (F p)) l x y z s t,
  ch_bit ch = Some bit -> fst (fst e) = bit -> (bit < 2 ^ 16)%N -> map val (snd e) = x :: y :: z :: s :: t -> val (snd (fst e)) <> 0%N ->
  apply_bus ch (fst (fst e)) (val (snd (fst e))) (map val (snd e)) = Some l -> (s = 0 \/ s = 1 /\ z = N.lxor x y)%N.
Proof.
  intros p ch bit [[id m] args] l x y z s t Hb E Hs Ea Hm. cbn [fst snd] in *. subst id. rewrite Ea. unfold apply_bus. rewrite N.mod_small by auto. rewrite Hb. unfold is_id. rewrite N.eqb_refl. unfold times. destruct (N.eqb_spec (val m) 0); [congruence|].
  destruct (N.eqb_spec s 0); auto. destruct (N.eqb_spec s 1); [|discriminate]. destruct (N.eqb_spec (N.lxor x y) z); [auto|discriminate].
Qed.
Print Assumptions C51_xor_checked.

(** ** An example: three instructions on two airs, a derived column and all three lookups. *)
Definition cv (n : N) : aexpr babybear := ARef (Orig n).
Definition cn (n : N) : aexpr babybear := ANum (of_N n).
Definition ff (n : N) : F babybear := of_N n.
Definition c_machine : smach babybear :=
  mkSM [ABin (cv 0) OMul (ABin (cv 0) OSub (cn 1)); ABin (cv 4) OMul (cv 1)]
    [mkSB 3 (cv 0) [cv 1; cn 8]; mkSB 6 (cn 1) [cv 2; cv 3; cn 0; cn 0]; mkSB 6 (cv 0) [cv 2; cv 3; ABin (cv 2) OAdd (cv 3); cn 1]; mkSB 7 (cn 2) [cv 2; ABin (cv 1) OAdd (cv 2)]; mkSB 0 (cv 0) [cv 4]]
    [(Orig 4, AQuot (cv 2) (ABin (cv 1) OSub (cn 9)))].
Definition c_apc : apc babybear := mkApc [10; 11; 10; 12]%N [[(0, 0%N); (1, 1%N)]; [(2, 2%N)]; [(1, 3%N)]; []] c_machine.
Definition c_widths (a : N) : nat := if (a =? 11)%N then 3 else 2.
Definition c_padding (a : N) : list (list (F babybear)) := if (a =? 11)%N then [[ff 7; ff 7; ff 7]] else [].
Definition c_calls : list (list (list (F babybear))) :=
  [[[ff 1; ff 30]; [ff 0; ff 5; ff 4]; [ff 9; ff 3]; [ff 1; ff 1]]; [[ff 1; ff 9]; [ff 2; ff 3; ff 2]; [ff 4; ff 1]; [ff 2; ff 2]]; [[ff 0; ff 8]; [ff 0; ff 0; ff 1]; [ff 0; ff 0]; [ff 3; ff 3]]].
Definition c_chips : chips := mkChips 3 (Some 6%N) (Some 7%N) (2 ^ 18) 256 2048 (fun x y => (x <? 256)%N && (y <? 256)%N).
Definition c_arenas : arenas babybear := fold_left (exec_call c_apc) c_calls new_arenas.
Definition c_order : list N := [11; 10]%N.
Definition c_cpu := generate_witness c_apc c_widths (fun a => concat (c_padding a)) c_arenas.
Definition c_bins := match c_cpu with Some (_, effects) => apply_all c_chips effects | None => None end.
Example C50_cpu_result : option_map (fun t => map (map val) (fst t)) c_cpu = Some [[1; 30; 4; 3; 479349029]; [1; 9; 2; 1; 0]; [0; 8; 1; 0; 2013265920]; [0; 0; 0; 0; 0]]%N.
Proof. vm_compute. reflexivity. Qed.
Example C50_example : exists rows effects bins, c_cpu = Some (rows, effects) /\ apply_all c_chips effects = Some bins /\ requests (BRange (2 ^ 8 + 30 - 1)) bins = 1%N /\ requests (BTuple (4 * 2048 + 34)) bins = 2%N /\ requests (BBit 0 4 3) bins = 1%N /\
  c_calls <> [] /\ Forall (fits (apc_airs c_apc) c_widths) c_calls /\ (forall a x, In x (c_padding a) -> length x = c_widths a) /\ NoDup (map snd (concat (apc_subs_by c_apc))) /\
  (forall d v, In d (sm_derived (apc_machine c_apc)) -> method_reads (snd d) v -> column_id (apc_machine c_apc) (vid v)) /\ lists_airs c_apc c_order /\ all_chips c_chips /\
  device_fits c_apc c_chips (fun a => ar_real c_arenas a ++ c_padding a) (length c_calls).
Proof.
  destruct c_cpu as [[rows effects]|] eqn:E; [|vm_compute in E; discriminate]. destruct (apply_all c_chips effects) as [bins|] eqn:B.
  2: { exfalso. assert (X : c_bins = None) by (unfold c_bins; rewrite E; exact B). vm_compute in X. discriminate. }
  exists rows, effects, bins. split; auto. split; auto.
  assert (X : c_bins = Some bins) by (unfold c_bins; rewrite E; exact B).
  assert (Y : forall b n, option_map (requests b) c_bins = Some n -> requests b bins = n) by (intros b n H; rewrite X in H; cbn in H; congruence).
  split; [apply Y; vm_compute; reflexivity|]. split; [apply Y; vm_compute; reflexivity|]. split; [apply Y; vm_compute; reflexivity|]. clear.
  split; [discriminate|]. split.
  { repeat (apply Forall_cons; [unfold fits; cbn [apc_airs c_apc]; repeat (apply Forall2_cons; [reflexivity|]); apply Forall2_nil|]). apply Forall_nil. }
  split. { intros a x. unfold c_padding, c_widths. destruct (a =? 11)%N; [intros [<-|[]]; reflexivity|intros []]. }
  split. { cbn. repeat (apply NoDup_cons; [cbn; lia|]). apply NoDup_nil. }
  split.
  { intros d v [<-|[]]. cbn. intros [H|[H|H]]; [subst v| |destruct H]; (eexists; split; [|reflexivity]).
    - right. apply Exists_cons_tl, Exists_cons_hd. right. apply Exists_cons_hd. reflexivity.
    - subst v. right. apply Exists_cons_hd. right. apply Exists_cons_hd. reflexivity. }
  split. { split; [repeat (apply NoDup_cons; [cbn; lia|]); apply NoDup_nil|]. intros a. cbn. tauto. }
  split. { exists 6%N, 7%N. split; auto. split; auto. cbn. repeat (apply NoDup_cons; [cbn; lia|]). apply NoDup_nil. }
  constructor.
  - vm_compute. reflexivity.
  - vm_compute. discriminate.
  - vm_compute. discriminate.
  - vm_compute. reflexivity.
  - cbn. intros subs s [<-|[<-|[<-|[<-|[]]]]]; cbn; intros H; repeat (destruct H as [<-|H]; [reflexivity|]); destruct H.
  - cbn [apc_airs c_apc]. intros a [<-|[<-|[<-|[<-|[]]]]]; vm_compute; reflexivity.
  - vm_compute. reflexivity.
  - vm_compute. reflexivity.
  - vm_compute. reflexivity.
  - cbn. intros d [<-|[]]. cbn. lia.
  - cbn. intros b e [<-|[<-|[<-|[<-|[<-|[]]]]]] H; cbn in H; repeat (destruct H as [<-|H]; [cbn; lia|]); destruct H.
  - cbn. intros b [<-|[<-|[<-|[<-|[<-|[]]]]]]; vm_compute; reflexivity.
  - split; vm_compute; reflexivity.
Qed.

Definition c_effects : list (list (N * F babybear * list (F babybear))) :=
  [[(3%N, ff 1, [ff 30; ff 8]); (6%N, ff 2, [ff 4; ff 3; ff 7; ff 1]); (0%N, ff 1, [ff 30; ff 8])]; [(3%N, ff 5, [ff 30; ff 8]); (7%N, ff 1, [ff 2; ff 7]); (6%N, ff 1, [ff 4; ff 3; ff 0; ff 0])]].
Example C51_example : exists bins, apply_all c_chips c_effects = Some bins /\ all_chips c_chips /\ (forall e, In e (concat c_effects) -> (fst (fst e) < 2 ^ 16)%N) /\
  (forall e, In e (concat c_effects) -> fst (fst e) = ch_range c_chips -> val (snd (fst e)) <> 0%N -> exists v m, map val (snd e) = [v; m] /\ (v < 2 ^ m)%N) /\
  (forall e, In e (concat c_effects) -> fst (fst e) = 7%N -> val (snd (fst e)) <> 0%N -> exists v w, map val (snd e) = [v; w] /\ (v < ch_size0 c_chips /\ w < ch_size1 c_chips)%N) /\
  (forall e, In e (concat c_effects) -> fst (fst e) = 6%N -> val (snd (fst e)) <> 0%N -> exists x y z s, map val (snd e) = [x; y; z; s] /\ (s = 0 -> z = 0)%N) /\
  sent 3 [30; 8]%N (concat c_effects) = 6%N /\ sent 6 [4; 3; 7; 1]%N (concat c_effects) = 2%N /\ sent 7 [2; 7]%N (concat c_effects) = 1%N.
Proof.
  destruct (apply_all c_chips c_effects) as [bins|] eqn:B; [|vm_compute in B; discriminate]. exists bins. split; auto. clear. split.
  { exists 6%N, 7%N. split; auto. split; auto. cbn. repeat (apply NoDup_cons; [cbn; lia|]). apply NoDup_nil. }
  split; [|split; [|split; [|split; [|repeat split; vm_compute; reflexivity]]]]; cbn [concat app c_effects]; intros e H; repeat (destruct H as [<-|H]; [try (cbn; lia); intros Hid; try (vm_compute in Hid; discriminate); intros _|]); try destruct H.
  - exists 30%N, 8%N. split; vm_compute; reflexivity.
  - exists 30%N, 8%N. split; vm_compute; reflexivity.
  - exists 2%N, 7%N. split; [vm_compute; reflexivity|split; vm_compute; reflexivity].
  - exists 4%N, 3%N, 7%N, 1%N. split; [vm_compute; reflexivity|discriminate].
  - exists 4%N, 3%N, 0%N, 0%N. split; [vm_compute; reflexivity|auto].
Qed.

(** ** What the GPU does not do like the CPU *)
(** Nothing bounds the depth of expressions when they are compiled, and the stack holds 16 values: the CPU
    generates the trace, but the kernel of the GPU faults. *)
Fixpoint deep (n : nat) : aexpr babybear := match n with 0 => cv 0 | S n => ABin (cv 0) OAdd (deep n) end.
Definition d_apc : apc babybear := mkApc [10%N] [[(0, 0%N)]] (mkSM [] [mkSB 3 (cn 1) [deep 16; cn 8]] []).
Definition d_arenas : arenas babybear := exec_call d_apc new_arenas [[ff 2]].
Definition d_cpu := generate_witness d_apc (fun _ => 1) (fun _ => []) d_arenas.
Definition d_gpu := try_generate_witness d_apc c_chips [10%N] (device_traces d_apc (fun _ => 1) (fun _ => []) d_arenas) 1.
Theorem C50_stack_refuted : exists rows effects bins la n M C ts,
  d_cpu = Some (rows, effects) /\ apply_all c_chips effects = Some bins /\ d_gpu = Some la /\
  steps n (column_major 1 rows, fun _ => 0%N, la_bus la) (M, C, ts) /\ In Fault ts.
Proof.
  assert (G : match d_gpu with Some la => match d_cpu with Some (rows, effects) => (is_empty (filter (fun q => match q with Fault => true | _ => false end) (snd (drive 40 0 (column_major 1 rows, fun _ => 0%N, la_bus la))))) = false /\ apply_all c_chips effects <> None | None => False end | None => False end) by (vm_compute; split; [reflexivity|discriminate]).
  destruct d_gpu as [la|]; [|destruct G]. destruct d_cpu as [[rows effects]|]; [|destruct G]. destruct G as [G1 G2]. destruct (apply_all c_chips effects) as [bins|] eqn:B; [|congruence].
  destruct (drive_steps 40 0 (column_major 1 rows, fun _ : bin => 0%N, la_bus la)) as [n Hn]. destruct (drive 40 0 _) as [[M C] ts]. exists rows, effects, bins, la, n, M, C, ts. repeat (split; auto). cbn [snd] in G1.
  destruct (filter _ ts) as [|q l] eqn:Fq; [discriminate|]. assert (Hq : In q (filter (fun q : prog babybear => match q with Fault => true | _ => false end) ts)) by (rewrite Fq; now left). apply filter_In in Hq as [Hq Eq]. destruct q; try discriminate. auto.
Qed.
Print Assumptions C50_stack_refuted.

(** The offset of a column is cut to 32 bits: in a trace with 2^20 rows, column 4096 is read as column 0. *)
Theorem C50_wide_refuted : exists cols a b i j code, NoDup cols /\ a <> b /\ index_of a cols = Some i /\ index_of b cols = Some j /\ i <> j /\
  emit_expr cols (2 ^ 20) (ARef (Orig a) : aexpr babybear) [] = Some code /\ emit_expr cols (2 ^ 20) (ARef (Orig b) : aexpr babybear) [] = Some code.
Proof.
  assert (Hnd : NoDup (map N.of_nat (seq 0 4097))) by (apply FinFun.Injective_map_NoDup; [intros x y; apply Nat2N.inj|apply seq_NoDup]).
  exists (map N.of_nat (seq 0 4097)), 0%N, 4096%N, 0, (N.to_nat 4096), [0; 0]%N. split; auto. split; [discriminate|]. split; [reflexivity|]. split; [vm_compute; reflexivity|]. split; [vm_compute; discriminate|]. split; vm_compute; reflexivity.
Qed.
Print Assumptions C50_wide_refuted.

(** The CPU needs only the chips that the machine uses; the GPU needs all of them. *)
Definition n_chips : chips := mkChips 3 None None (2 ^ 18) 0 0 (fun _ _ => false).
Definition e_apc : apc babybear := mkApc [10%N] [[(0, 0%N)]] (mkSM [] [mkSB 3 (cn 1) [cv 0; cn 8]] []).
Theorem C50_chips_refuted : exists rows effects bins, generate_witness e_apc (fun _ => 1) (fun _ => []) (exec_call e_apc new_arenas [[ff 2]]) = Some (rows, effects) /\ apply_all n_chips effects = Some bins /\
  try_generate_witness e_apc n_chips [10%N] (device_traces e_apc (fun _ => 1) (fun _ => []) (exec_call e_apc new_arenas [[ff 2]])) 1 = None.
Proof. do 3 eexists. split; [vm_compute; reflexivity|]. split; vm_compute; reflexivity. Qed.
Print Assumptions C50_chips_refuted.

(** The CPU does not evaluate the numerator of a derived column if the divisor is zero; the GPU always compiles it. *)
Definition f_apc : apc babybear := mkApc [10%N] [[(0, 0%N)]] (mkSM [ABin (cv 0) OMul (cv 1)] [] [(Orig 1, AQuot (cv 7) (cv 0))]).
Theorem C50_numerator_refuted : exists rows effects, generate_witness f_apc (fun _ => 1) (fun _ => []) (exec_call f_apc new_arenas [[ff 0]]) = Some (rows, effects) /\
  try_generate_witness f_apc c_chips [10%N] (device_traces f_apc (fun _ => 1) (fun _ => []) (exec_call f_apc new_arenas [[ff 0]])) 1 = None.
Proof. do 2 eexists. split; [vm_compute; reflexivity|]. vm_compute. reflexivity. Qed.
Print Assumptions C50_numerator_refuted.

(** A lookup on a bus without a chip is an error on the CPU and is ignored on the GPU. *)
Definition g_apc : apc babybear := mkApc [10%N] [[(0, 0%N)]] (mkSM [] [mkSB 9 (cn 1) [cv 0; cn 8]] []).
Theorem C50_unknown_bus_refuted : exists rows effects la n M C, generate_witness g_apc (fun _ => 1) (fun _ => []) (exec_call g_apc new_arenas [[ff 2]]) = Some (rows, effects) /\ apply_all c_chips effects = None /\
  try_generate_witness g_apc c_chips [10%N] (device_traces g_apc (fun _ => 1) (fun _ => []) (exec_call g_apc new_arenas [[ff 2]])) 1 = Some la /\
  steps n (column_major 1 rows, fun _ => 0%N, la_bus la) (M, C, repeat Done (length (la_bus la))).
Proof.
  do 3 eexists. exists 0. do 2 eexists. split; [vm_compute; reflexivity|]. split; [vm_compute; reflexivity|]. split; [vm_compute; reflexivity|]. cbn [la_bus]. apply no_step.
Qed.
Print Assumptions C50_unknown_bus_refuted.
