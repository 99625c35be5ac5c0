(** C70: the execution of precompiles in software. *)
From Coq Require Import Arith NArith Bool List Lia.
From Verif Require Import BlocksModel BlocksSpec BlocksFacts SelModel SelSpec SelCount SelFacts SelCompile ExecModel ExecSpec SoftModel SoftSpec SoftFacts.
From Verif Require PropsExec PropsSel PropsBlocks.
Import ListNotations.
Local Open Scope N_scope.

(** C70: preparing a precompile.  There is always a result.  It is a success exactly if all operands are zero and every instruction of
    the block has an executor that prepares it at its own program counter; what is prepared are these instructions in order.  An error
    names the operands or an instruction of the block that cannot be prepared. *)
Theorem C70_prepare : forall St X (pre_compute : X -> N -> ins -> res (St -> St)) step inv e q i,
  (exists r, prepares pre_compute step inv e q i r) /\
  (forall d, prepares pre_compute step inv e q i (ROk d) <->
     (forall x, In x (operands i) -> x = 0) /\ height_change d = pe_height e /\ optimistic d = pe_checks e /\
     Forall2 (fun x f => exists ex, get_executor inv (opcode (snd x)) = Some ex /\ pre_compute ex (fst x mod 2 ^ 32) (snd x) = ROk f)
             (block_pcs step (pe_block e)) (original_instructions d)) /\
  (forall x, prepares pre_compute step inv e q i (RErr x) ->
     (x = InvalidInstruction q /\ exists y, In y (operands i) /\ y <> 0) \/
     exists y, In y (block_pcs step (pe_block e)) /\
       match get_executor inv (opcode (snd y)) with
       | None => x = ExecutorNotFound (opcode (snd y))
       | Some ex => pre_compute ex (fst y mod 2 ^ 32) (snd y) = RErr x
       end).
Proof.
  intros St X pre step inv e q i. unfold prepares. destruct (forallb (N.eqb 0) (operands i)) eqn:Z.
  - assert (Z' : forall x, In x (operands i) -> x = 0) by (intros x Hx; eapply forallb_forall in Z; eauto; apply N.eqb_eq in Z; auto).
    split; [|split].
    + assert (C : exists r, collects (prepare_one pre inv) (block_pcs step (pe_block e)) r).
      { generalize (block_pcs step (pe_block e)). induction l as [|x l [r IH]]; [exists (ROk []); now constructor|]. destruct (prepare_one pre inv x) as [f|er] eqn:E.
        - destruct r as [fs|er].
          + exists (ROk (f :: fs)). constructor. cbn [map]. rewrite E. inversion IH. congruence.
          + exists (RErr er). inversion IH; subst. eapply collects_err; eauto. now right.
        - exists (RErr er). eapply collects_err; eauto. now left. }
      destruct C as [r C]. eauto.
    + intros [h fs oc]. cbn [height_change original_instructions optimistic]. assert (Fa : forall l fs, map (prepare_one pre inv) l = map (fun f => ROk f) fs <->
        Forall2 (fun x f => exists ex, get_executor inv (opcode (snd x)) = Some ex /\ pre ex (fst x mod 2 ^ 32) (snd x) = ROk f) l fs).
      { clear. induction l as [|x l IH]; intros [|f fs]; cbn [map]; split; intros H; try discriminate; try inversion H; auto.
        - constructor; [|now apply IH]. unfold prepare_one in H1. destruct (get_executor inv (opcode (snd x))); [eauto|discriminate].
        - subst. destruct H3 as (ex & E1 & E2). f_equal; [|now apply IH]. unfold prepare_one. now rewrite E1. }
      split.
      * intros (r & C & E). destruct r as [l|]; [|discriminate]. injection E as -> -> ->. inversion C. split; auto. split; auto. split; auto. now apply Fa.
      * intros (_ & -> & -> & H). apply Fa in H. exists (ROk fs). split; auto. now constructor.
    + intros x (r & C & E). destruct r as [|er]; [discriminate|]. injection E as ->. inversion C as [|y e0 Hy Ey]; subst. right. exists y. split; auto. unfold prepare_one in Ey. destruct (get_executor inv (opcode (snd y))); [auto|congruence].
  - assert (Z' : exists y, In y (operands i) /\ y <> 0).
    { clear - Z. induction (operands i) as [|y l IH]; [discriminate|]. cbn [forallb] in Z. destruct (N.eqb_spec 0 y) as [<-|Ny]; [|exists y; split; [now left|auto]]. destruct (IH Z) as (w & A & B). exists w. split; [now right|auto]. }
    destruct Z' as (y & Hy & Ny). split; [eauto|]. split.
    + intros d. split; [discriminate|]. intros (H & _). now apply H in Hy.
    + intros x [= ->]. left. eauto.
Qed.

(** C70: a call executes the instructions of the block one after the other.  It fails exactly if a condition of the precompile does not
    hold on the states that they go through.  If the execution is metered, the call reports its own rows, and only these. *)
Theorem C70_call : forall St (reg : St -> N -> N) (pc : St -> N) (value_limb : N -> nat -> N) h fs cs s,
  let d := mkPrep h fs (from_constraints cs) in
  (forall t, execute_e12 reg pc value_limb d s = Some t <->
     t = last (after fs s) s /\ forall c, In c cs -> due (1 + length fs) c -> oc_holds reg pc value_limb (s :: after fs s) c) /\
  (forall chip t l, execute_e2 reg pc value_limb chip d s = Some (t, l) <-> execute_e12 reg pc value_limb d s = Some t /\ l = [(chip, h)]).
Proof.
  intros St reg pc vl h fs cs s d. split.
  - intros t. rewrite execute_e12_run. subst d. cbn [original_instructions optimistic].
    destruct (PropsExec.C36_run _ reg pc vl cs (s :: after fs s)) as [_ A].
    assert (L : length (s :: after fs s) = (1 + length fs)%nat). { cbn [length Nat.add]. f_equal. clear. revert s. induction fs; intros s; cbn [after length]; auto. }
    rewrite L in A. destruct (ev_run reg pc vl (from_constraints cs) (s :: after fs s) ev_new) as [ev| |].
    + split; [intros [= <-]; split; auto; apply A; eauto|]. intros (-> & _). reflexivity.
    + split; [discriminate|]. intros (_ & H). apply A in H. destruct H as [? H]. discriminate.
    + split; [discriminate|]. intros (_ & H). apply A in H. destruct H as [? H]. discriminate.
  - intros c t l. unfold execute_e2. destruct (execute_e12 reg pc vl d s) as [t'|]; cbn [height_change]; subst d; cbn [height_change].
    + split; [intros [= <- <-]; auto|]. intros ([= ->] & ->). reflexivity.
    + split; [discriminate|]. intros (H & _). discriminate.
Qed.

(** C70: with its precompiles installed, a program does what it does without them, in both modes.  Whatever a run with precompiles
    comes to, a run without them comes to, and the turns of the first are the turns of the second with the blocks of the calls taken
    together.  A finished run without precompiles has such a run with them. *)
Theorem C70_program : forall St X (reg : St -> N -> N) (pc : St -> N) (value_limb : N -> nat -> N) (halted : St -> bool)
    (pre_compute : X -> N -> ins -> res (St -> St)) (metered_pre_compute : X -> nat -> N -> ins -> res (St -> St * log)) chip base step
    is_branching is_allowed jumpdest prog inv apcs marks ext m s,
  sequential pc halted pre_compute step inv is_branching is_allowed -> same_effects pre_compute metered_pre_compute ->
  installed step base is_branching is_allowed jumpdest prog inv apcs marks ext ->
  let without := runs reg pc value_limb halted pre_compute metered_pre_compute chip base step m inv (plain_inventory inv) prog in
  let with_apcs := runs reg pc value_limb halted pre_compute metered_pre_compute chip base step m inv ext (marked prog marks) in
  (forall tr t, with_apcs s tr t -> exists tr0, without s tr0 t /\ grouped chip step m (map fst apcs) tr tr0) /\
  (forall tr0 t, without s tr0 t -> halted t = true -> exists tr, with_apcs s tr t /\ grouped chip step m (map fst apcs) tr tr0).
Proof.
  intros St X reg pc vl halted pre mpre chip base step br al jd prog inv apcs marks ext m s Hq Hsm (H1 & H2 & H3 & H4 & H5 & H6 & H7 & H8). cbv zeta. split.
  - intros tr t R. eapply sound; eauto.
  - intros tr0 t R Hh. eapply complete; eauto.
Qed.
(** C70: and it never gets stuck where the other does not: if the instructions of the program can be prepared, there is a next state
    at every address of the program, and no call fails. *)
Theorem C70_progress : forall St X (reg : St -> N -> N) (pc : St -> N) (value_limb : N -> nat -> N) (halted : St -> bool)
    (pre_compute : X -> N -> ins -> res (St -> St)) (metered_pre_compute : X -> nat -> N -> ins -> res (St -> St * log)) chip base step
    is_branching is_allowed jumpdest prog inv apcs marks ext m s k,
  sequential pc halted pre_compute step inv is_branching is_allowed -> same_effects pre_compute metered_pre_compute ->
  installed step base is_branching is_allowed jumpdest prog inv apcs marks ext ->
  pc s = base + N.of_nat k * step ->
  let executes := executes reg pc value_limb pre_compute metered_pre_compute chip step m inv ext (pc s) in
  (forall i r, nth_error (marked prog marks) k = Some i -> executes i s r -> r <> None) /\
  ((forall j i, nth_error prog j = Some i -> exists e f, get_executor inv (opcode i) = Some e /\ pre_compute e (base + N.of_nat j * step) i = ROk f) ->
   (k < length prog)%nat -> exists i t l, nth_error (marked prog marks) k = Some i /\ executes i s (Some (t, l))).
Proof.
  intros St X reg pc vl halted pre mpre chip base step br al jd prog inv apcs marks ext m s k Hq Hsm (H1 & H2 & H3 & H4 & H5 & H6 & H7 & H8) Hk. cbv zeta. split.
  - intros i r Hn Ex. eapply no_panic; eauto.
  - intros All L. eapply progress; eauto. intros j i Hj. destruct (All j i Hj) as (e & f & E1 & E2). exists f. unfold prepare_one. cbn [fst snd]. rewrite E1.
    assert (Lj : (j < length prog)%nat) by (apply nth_error_Some; congruence). rewrite N.mod_small by nia. exact E2.
Qed.

(** C70: in particular for what the compilation in cell mode chooses, for any program with addresses of 32 bits whose opcodes have
    executors, all of them below the opcodes of precompiles: it can be installed, so that [C70_program] and [C70_progress] apply. *)
Lemma extend_some X : forall l i (inv : list (nat * (X + pexec))), (forall x, In x inv -> (fst x < powdr_opcode + i)%nat) -> exists ext, extend_from i l inv = Some ext.
Proof.
  induction l as [|[sb ocs] l IH]; intros i inv H; cbn [extend_from]; [eauto|]. destruct (existsb _ inv) eqn:E.
  - apply existsb_exists in E. destruct E as (x & Hx & E). apply Nat.eqb_eq in E. specialize (H x Hx). lia.
  - apply IH. intros x Hx. apply in_app_iff in Hx. destruct Hx as [Hx|[<-|[]]]; [specialize (H x Hx); lia|]. cbn [fst]. lia.
Qed.
Theorem C70_compiled : forall X (is_branching is_allowed : ins -> bool) jumpdest base step prog (inv : list (nat * X)) widths pop apc skip cutoff maxi max_total non_apc trace,
  0 < step -> let bs := collect_basic_blocks is_branching is_allowed jumpdest base step prog in
  base + N.of_nat (length prog) * step <= 2 ^ 32 ->
  (forall i, In i prog -> get_executor inv (opcode i) <> None) -> (forall x, In x inv -> (fst x < powdr_opcode)%nat) ->
  queue_ok pop -> incl trace bs -> apc <> 0%nat ->
  widths_ok widths (eligible trace 1 cutoff maxi) -> N.of_nat (length trace) < 2 ^ 32 ->
  (forall m, max_total = Some m -> non_apc <= m /\ m < 2 ^ 64) ->
  exists apcs marks ext,
    compile_cell pop widths apc skip 1 cutoff maxi max_total non_apc (flat_map (bb_pcs step) trace) bs = Some (map fst apcs) /\
    installed step base is_branching is_allowed jumpdest prog inv apcs marks ext.
Proof.
  intros X br al jd base step prog inv widths pop apc skip cutoff maxi max_total non_apc trace Hs bs Hfit Hkn Hlow Hp Hi Ha W L Hm.
  assert (Bg : blocks_good br al jd base step 0 bs /\ flat_map instrs bs = prog).
  { destruct (collect_ok br al jd base step prog 0 _ [] (cur_ok_nil br al jd base step 0)) as [A B]. change (0 - length (@nil ins))%nat with 0%nat in B. split; [exact B|exact A]. }
  destruct Bg as [B A]. assert (Hd : NoDup (map start_pc bs)) by (eapply PropsSel.starts_nodup; eauto).
  assert (Hne : Forall (fun b => instrs b <> []) bs).
  { clear - B. revert B. generalize 0%nat. induction bs as [|b l IH]; intros n B; constructor; cbn [blocks_good] in B; [exact (proj1 (proj1 B))|]. eapply IH. exact (proj2 B). }
  destruct (cell_ok step bs widths pop Hp Hd Hne apc skip 1 cutoff maxi max_total non_apc trace Hi Ha W L Hm) as (apcs & all & runs & sel & E & Ia & _ & _ & _ & F & N & _ & _).
  assert (Hin : forall sb, In sb apcs -> exists b, sb = [b] /\ In b bs).
  { intros sb H. assert (G : exists c, In (sb, c) all). { clear - F H. induction F as [|i sb' l r (c & Y) F IH]; [destruct H|]. destruct H as [->|H]; auto. exists c. eapply nth_error_In; eauto. }
    destruct G as [c G]. apply Ia in G. destruct G as (n & w & (G1 & G2 & G3 & _) & _). destruct sb as [|b [|b' sb]]; [congruence| |cbn [length] in G2; lia]. exists b. split; auto.
    apply Exists_exists in G3. destruct G3 as (run & R1 & R2). apply Hi. apply (runs_incl trace run R1). apply (contiguous_incl [b] run R2). now left. }
  destruct (PropsSel.C53_setup _ br al jd base step prog apcs Hs N Hin) as (marks & E1 & _ & _).
  set (l := map (fun sb => (sb, from_constraints (start_checks 0 sb))) apcs).
  assert (Hl : map fst l = apcs) by (subst l; rewrite map_map; apply map_id).
  destruct (extend_some X l 0 (plain_inventory inv)) as (ext & E2).
  { intros x Hx. unfold plain_inventory in Hx. apply in_map_iff in Hx. destruct Hx as (y & <- & Hy). cbn [fst]. specialize (Hlow y Hy). lia. }
  exists l, marks, ext. rewrite Hl. split; [exact E|]. split; [exact Hs|]. split; [exact Hfit|]. split; [exact Hkn|]. rewrite Hl. split; [exact N|]. split; [exact Hin|]. split; [|split; [exact E1|exact E2]].
  intros sb ocs H. subst l. apply in_map_iff in H. destruct H as (sb' & [= -> <-] & H). destruct (Hin sb H) as (b & -> & Hb). unfold built_checks. cbn [forallb]. rewrite andb_true_r.
  destruct (N.ltb_spec (start_pc b) (2 ^ 32)) as [_|Hge]; [reflexivity|]. exfalso.
  destruct (in_split _ _ Hb) as (l1 & l2 & El). destruct (PropsBlocks.C33_partition _ br al jd base step prog) as [_ P]. specialize (P _ _ _ El). cbv zeta in P. destruct P as (P1 & P2 & _).
  assert (K : (length (flat_map instrs l1) < length prog)%nat). { rewrite <- A, El, flat_map_app, app_length. cbn [flat_map]. rewrite app_length. destruct (instrs b); [congruence|]. cbn [length]. lia. }
  nia.
Qed.

(** ** Examples *)
(** A state: program counter, a number, and whether the execution has ended. *)
Definition soft_state : Type := N * N * bool.
Definition soft_pc (s : soft_state) : N := fst (fst s).
Definition soft_reg (s : soft_state) (a : N) : N := snd (fst s).
Definition soft_halted (s : soft_state) : bool := snd s.
Definition soft_limb (v : N) (k : nat) : N := (v / 256 ^ N.of_nat k) mod 256.
(** Four executors: add an operand; go to an operand if the number is less than the other; end; end if the number is odd. *)
Inductive soft_exec := Add | Branch | End | Trap.
Definition soft_do (e : soft_exec) (i : ins) (s : soft_state) : soft_state :=
  let '(q, v, h) := s in
  match e with
  | Add => (q + 4, v + nth 0 (operands i) 0, h)
  | Branch => (if v <? nth 1 (operands i) 0 then nth 0 (operands i) 0 else q + 4, v, h)
  | End => (q, v, true)
  | Trap => (q + 4, v, N.odd v)
  end.
Definition soft_pre (e : soft_exec) (q : N) (i : ins) : res (soft_state -> soft_state) := ROk (soft_do e i).
Definition soft_metered (e : soft_exec) (c : nat) (q : N) (i : ins) : res (soft_state -> soft_state * log) := ROk (fun s => (soft_do e i s, [(c, 1)])).
Definition soft_inv : list (nat * soft_exec) := [(1%nat, Add); (2%nat, Branch); (3%nat, End)].
(** A loop: add 1, add 2, and again while the number is less than 6; then end. *)
Definition soft_prog : list ins := [mkIns 1 [1]; mkIns 1 [2]; mkIns 2 [0; 6]; mkIns 3 []].
Definition soft_branching (i : ins) : bool := Nat.eqb (opcode i) 2.
Definition soft_allowed (i : ins) : bool := Nat.ltb (opcode i) 3.
Definition soft_jumpdest (q : N) : bool := q =? 0.
Definition soft_block : bblock ins := mkBB 0 [mkIns 1 [1]; mkIns 1 [2]; mkIns 2 [0; 6]].
Definition soft_checks : oconstrs := from_constraints [mkOC (OLit (mkLit 0 LPc)) (ONum 0)].
Definition soft_marks : list (option nat) := [Some 4351%nat; None; None; None].
Definition soft_ext : list (nat * (soft_exec + pexec)) := plain_inventory soft_inv ++ [(4351%nat, inr (mkPE [soft_block] soft_checks 1))].
Lemma soft_installed : installed 4 0 soft_branching soft_allowed soft_jumpdest soft_prog soft_inv [([soft_block], soft_checks)] soft_marks soft_ext.
Proof.
  split; [lia|]. split; [vm_compute; discriminate|]. split; [intros i [<-|[<-|[<-|[<-|[]]]]]; discriminate|]. split; [constructor; [intros []|constructor]|].
  split; [intros sb [<-|[]]; exists soft_block; split; [reflexivity|vm_compute; now left]|]. split; [intros sb ocs [[= <- <-]|[]]; reflexivity|]. split; reflexivity.
Qed.
Lemma soft_sequential : sequential soft_pc soft_halted soft_pre 4 soft_inv soft_branching soft_allowed.
Proof.
  intros e q i f [[q' v] h] Hb Ha Hg [= <-] Hh Hq. unfold soft_branching, soft_allowed in *. unfold soft_inv in Hg. cbn [get_executor] in Hg.
  destruct (opcode i) as [|[|[|[|n]]]]; cbn in Hg, Hb, Ha; try discriminate. injection Hg as <-. cbn in Hq, Hh |- *. subst. auto.
Qed.
Lemma soft_same : same_effects soft_pre soft_metered.
Proof. intros e c q i. split; intros g [= <-]; eexists; split; reflexivity || auto. Qed.
Local Notation soft_runs := (runs soft_reg soft_pc soft_limb soft_halted soft_pre soft_metered (fun op => op) 0 4).
(** The loop is taken twice.  Without precompiles this takes seven turns; with the precompile two calls and one turn. *)
Example C70_example :
  soft_runs Metered soft_inv (plain_inventory soft_inv) soft_prog (0, 0, false)
    [(0, [(1%nat, 1)]); (4, [(1%nat, 1)]); (8, [(2%nat, 1)]); (0, [(1%nat, 1)]); (4, [(1%nat, 1)]); (8, [(2%nat, 1)]); (12, [(3%nat, 1)])] (12, 6, true) /\
  soft_runs Metered soft_inv soft_ext (marked soft_prog soft_marks) (0, 0, false)
    [(0, [(4351%nat, 1)]); (0, [(4351%nat, 1)]); (12, [(3%nat, 1)])] (12, 6, true) /\
  installed 4 0 soft_branching soft_allowed soft_jumpdest soft_prog soft_inv [([soft_block], soft_checks)] soft_marks soft_ext /\
  sequential soft_pc soft_halted soft_pre 4 soft_inv soft_branching soft_allowed /\ same_effects soft_pre soft_metered.
Proof.
  assert (One : forall ext code k i e s t tr u, soft_halted s = false -> soft_pc s = 0 + N.of_nat k * 4 -> nth_error code k = Some i ->
    get_executor ext (opcode i) = Some (inl e) -> t = soft_do e i s -> soft_runs Metered soft_inv ext code t tr u ->
    soft_runs Metered soft_inv ext code s ((soft_pc s, [(opcode i, 1)]) :: tr) u).
  { intros ext code k i e s t tr u Hh Hk Hn G -> R. eapply runs_step; eauto. apply (executes_metered soft_reg soft_pc soft_limb soft_pre soft_metered (fun op => op) 4 Metered soft_inv ext _ i s e _ eq_refl G eq_refl). }
  assert (B : soft_runs Metered soft_inv (plain_inventory soft_inv) soft_prog (0, 0, false)
    [(0, [(1%nat, 1)]); (4, [(1%nat, 1)]); (8, [(2%nat, 1)]); (0, [(1%nat, 1)]); (4, [(1%nat, 1)]); (8, [(2%nat, 1)]); (12, [(3%nat, 1)])] (12, 6, true)).
  { apply (One _ _ 0%nat (mkIns 1 [1]) Add (0, 0, false) (4, 1, false)); auto.
    apply (One _ _ 1%nat (mkIns 1 [2]) Add (4, 1, false) (8, 3, false)); auto.
    apply (One _ _ 2%nat (mkIns 2 [0; 6]) Branch (8, 3, false) (0, 3, false)); auto.
    apply (One _ _ 0%nat (mkIns 1 [1]) Add (0, 3, false) (4, 4, false)); auto.
    apply (One _ _ 1%nat (mkIns 1 [2]) Add (4, 4, false) (8, 6, false)); auto.
    apply (One _ _ 2%nat (mkIns 2 [0; 6]) Branch (8, 6, false) (12, 6, false)); auto.
    apply (One _ _ 3%nat (mkIns 3 []) End (12, 6, false) (12, 6, true)); auto. constructor. }
  split; [exact B|]. split; [|split; [exact soft_installed|split; [exact soft_sequential|exact soft_same]]].
  assert (Call : forall v tr u t, t = (if v + 3 <? 6 then 0 else 12, v + 3, false) ->
    soft_runs Metered soft_inv soft_ext (marked soft_prog soft_marks) t tr u ->
    soft_runs Metered soft_inv soft_ext (marked soft_prog soft_marks) (0, v, false) ((soft_pc (0, v, false), [(4351%nat, 1)]) :: tr) u).
  { intros v tr u t -> R. eapply runs_step with (k := 0%nat) (i := mkIns 4351 (repeat 0 7)); [reflexivity|reflexivity|reflexivity| |exact R].
    pose proof (executes_e2 soft_reg soft_pc soft_limb soft_pre soft_metered (fun op => op) 4 Metered soft_inv soft_ext 0 (mkIns 4351 (repeat 0 7)) (0, v, false) (mkPE [soft_block] soft_checks 1)
      (mkPrep 1 [soft_do Add (mkIns 1 [1]); soft_do Add (mkIns 1 [2]); soft_do Branch (mkIns 2 [0; 6])] soft_checks) eq_refl eq_refl) as K.
    unfold execute_e2 in K. erewrite (built_holds soft_reg soft_pc soft_limb soft_block soft_checks) in K by reflexivity. cbn [after last soft_do operands nth height_change opcode] in K.
    replace (v + 1 + 2) with (v + 3) in K by lia. apply K. unfold prepares. cbn [operands repeat forallb N.eqb andb]. exists (ROk [soft_do Add (mkIns 1 [1]); soft_do Add (mkIns 1 [2]); soft_do Branch (mkIns 2 [0; 6])]). split; [apply collects_ok; reflexivity|reflexivity]. }
  apply (Call 0 _ _ (0, 3, false)); auto. apply (Call 3 _ _ (12, 6, false)); auto.
  apply (One _ _ 3%nat (mkIns 3 []) End (12, 6, false) (12, 6, true)); auto. constructor.
Qed.

(** The loop is chosen by the compilation if it is executed twice (here a precompile has as many columns as the instructions). *)
Definition soft_trace : list (bblock ins) := [soft_block; soft_block; mkBB 12 [mkIns 3 []]].
Lemma soft_widths : widths_ok (fun _ => Some (5, 5)) (eligible soft_trace 1 1 100).
Proof.
  split; [|split].
  - intros sb n w _ [= <-]. cbn. lia.
  - intros sb n w sb' n' w' _ [= <-] _ [= <-]. cbn [fst snd]. lia.
  - intros l N H. assert (Li : (length l <= length (map (fun b => [b]) soft_trace))%nat).
    { apply NoDup_incl_length; auto. intros sb Hs. destruct (H sb Hs) as (n & G1 & G2 & G3 & _). destruct sb as [|b [|b' sb]]; [congruence| |cbn [length] in G2; lia].
      apply Exists_exists in G3. destruct G3 as (run & R1 & R2). apply in_map_iff. exists b. split; auto. apply (runs_incl soft_trace run R1). apply (contiguous_incl [b] run R2). now left. }
    cbn [map soft_trace length] in Li. assert (T : total_width (fun _ : list (bblock ins) => Some (5, 5)) l = 5 * N.of_nat (length l)).
    { clear. unfold total_width. induction l as [|x l IH]; [reflexivity|]. cbn [map fold_right]. rewrite IH. unfold width_after. cbn [snd length]. lia. }
    rewrite T. lia.
Qed.
Example C70_compiled_example :
  collect_basic_blocks soft_branching soft_allowed soft_jumpdest 0 4 soft_prog = [soft_block; mkBB 12 [mkIns 3 []]] /\
  queue_ok PropsSel.pop_max /\ widths_ok (fun _ => Some (5, 5)) (eligible soft_trace 1 1 100) /\
  compile_cell PropsSel.pop_max (fun _ => Some (5, 5)) 1 0 1 1 100 None 0 (flat_map (bb_pcs 4) soft_trace) [soft_block; mkBB 12 [mkIns 3 []]] = Some [[soft_block]].
Proof. split; [vm_compute; reflexivity|]. split; [exact PropsSel.C52_queue_exists|]. split; [exact soft_widths|]. vm_compute. reflexivity. Qed.

(** An instruction that may end the execution in the middle of a block: the call goes on after it.  Without precompiles the program
    ends with the number 1, with them it ends with 3. *)
Definition trap_inv : list (nat * soft_exec) := [(1%nat, Add); (2%nat, Trap); (3%nat, End)].
Definition trap_prog : list ins := [mkIns 1 [1]; mkIns 2 []; mkIns 1 [2]; mkIns 3 []].
Definition trap_block : bblock ins := mkBB 0 [mkIns 1 [1]; mkIns 2 []; mkIns 1 [2]].
Definition trap_ext : list (nat * (soft_exec + pexec)) := plain_inventory trap_inv ++ [(4351%nat, inr (mkPE [trap_block] soft_checks 1))].
Theorem C70_trap_refuted :
  installed 4 0 (fun _ => false) soft_allowed soft_jumpdest trap_prog trap_inv [([trap_block], soft_checks)] soft_marks trap_ext /\
  same_effects soft_pre soft_metered /\
  (exists tr, soft_runs Plain trap_inv (plain_inventory trap_inv) trap_prog (0, 0, false) tr (8, 1, true)) /\
  (exists tr, soft_runs Plain trap_inv trap_ext (marked trap_prog soft_marks) (0, 0, false) tr (12, 3, true)).
Proof.
  split; [|split; [exact soft_same|split]].
  - split; [lia|]. split; [vm_compute; discriminate|]. split; [intros i [<-|[<-|[<-|[<-|[]]]]]; discriminate|]. split; [constructor; [intros []|constructor]|].
    split; [intros sb [<-|[]]; exists trap_block; split; [reflexivity|vm_compute; now left]|]. split; [intros sb ocs [[= <- <-]|[]]; reflexivity|]. split; reflexivity.
  - exists [(soft_pc (0, 0, false), []); (soft_pc (4, 1, false), [])].
    eapply runs_step with (k := 0%nat) (t := (4, 1, false)); [reflexivity|reflexivity|reflexivity| |].
    { apply (executes_plain soft_reg soft_pc soft_limb soft_pre soft_metered (fun op => op) 4 Plain trap_inv (plain_inventory trap_inv) _ (mkIns 1 [1]) (0, 0, false) Add _ eq_refl eq_refl eq_refl). }
    eapply runs_step with (k := 1%nat) (t := (8, 1, true)); [reflexivity|reflexivity|reflexivity| |constructor].
    apply (executes_plain soft_reg soft_pc soft_limb soft_pre soft_metered (fun op => op) 4 Plain trap_inv (plain_inventory trap_inv) _ (mkIns 2 []) (4, 1, false) Trap _ eq_refl eq_refl eq_refl).
  - exists [(soft_pc (0, 0, false), [])]. eapply runs_step with (k := 0%nat) (t := (12, 3, true)); [reflexivity|reflexivity|reflexivity| |constructor].
    pose proof (executes_e1 soft_reg soft_pc soft_limb soft_pre soft_metered (fun op => op) 4 Plain trap_inv trap_ext 0 (mkIns 4351 (repeat 0 7)) (0, 0, false) (mkPE [trap_block] soft_checks 1)
      (mkPrep 1 [soft_do Add (mkIns 1 [1]); soft_do Trap (mkIns 2 []); soft_do Add (mkIns 1 [2])] soft_checks) eq_refl eq_refl) as K.
    erewrite (built_holds soft_reg soft_pc soft_limb trap_block soft_checks) in K by reflexivity. apply K. unfold prepares. cbn [operands repeat forallb N.eqb andb]. exists (ROk [soft_do Add (mkIns 1 [1]); soft_do Trap (mkIns 2 []); soft_do Add (mkIns 1 [2])]). split; [apply collects_ok; reflexivity|reflexivity].
Qed.
(** Preparing fails for operands and for an unknown opcode; a call fails if a condition does not hold. *)
Example C70_errors_example :
  prepares soft_pre 4 soft_inv (mkPE [soft_block] soft_checks 1) 8 (mkIns 4351 [0; 5]) (RErr (InvalidInstruction 8)) /\
  prepares soft_pre 4 [(1%nat, Add)] (mkPE [soft_block] soft_checks 1) 8 (mkIns 4351 [0; 0]) (RErr (ExecutorNotFound 2)) /\
  execute_e12 soft_reg soft_pc soft_limb (mkPrep 1 [soft_do Add (mkIns 1 [1])] (from_constraints [mkOC (OLit (mkLit 1 LPc)) (ONum 8)])) (0, 0, false) = None.
Proof.
  split; [reflexivity|]. split; [|reflexivity]. cbn. exists (RErr (ExecutorNotFound 2)). split; [|reflexivity]. eapply collects_err with (x := (8, mkIns 2 [0; 6])); [|reflexivity]. cbn. auto.
Qed.

Print Assumptions C70_prepare.
Print Assumptions C70_call.
Print Assumptions C70_program.
Print Assumptions C70_progress.
Print Assumptions C70_compiled.
Print Assumptions C70_trap_refuted.
