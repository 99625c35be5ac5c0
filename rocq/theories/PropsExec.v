(** C35, C36: optimistic constraints and the selection of APC calls. *)
From Coq Require Import Arith NArith Bool List Lia Sorted.
From Verif Require Import ExecModel ExecSpec ExecFacts CandFacts CandHist.
Import ListNotations.

(** C36: taken through the states [ss], the evaluator never panics, and it gets to the end
    exactly if every constraint that only refers to these states holds on them. *)
Theorem C36_run : forall E (reg : E -> N -> N) (pc : E -> N) (value_limb : N -> nat -> N) cs ss,
  ev_run reg pc value_limb (from_constraints cs) ss ev_new <> StepPanic /\
  ((exists ev, ev_run reg pc value_limb (from_constraints cs) ss ev_new = StepOk ev) <->
   (forall c, In c cs -> due (length ss) c -> oc_holds reg pc value_limb ss c)).
Proof.
  intros E reg pc vl cs ss. pose proof (ev_run_ok reg pc vl cs ss [] ev_new (ev_inv_new reg pc cs)) as H. cbn [app length] in H.
  destruct (ev_run reg pc vl (from_constraints cs) ss ev_new) as [ev| |]; [| |destruct H].
  - split; [discriminate|]. split; eauto. intros _ c Hc Hd. apply H; auto. apply (first_step_lt vl) in Hd. lia.
  - split; [discriminate|]. split; [intros [ev X]; discriminate|]. intros X. exfalso. destruct H as (c & A & B & C). apply C. apply X; auto. apply (first_step_lt vl). lia.
Qed.
(** C36: what the evaluator remembers was read in the state it was remembered for, and it has
    counted the states. *)
Theorem C36_memory : forall E (reg : E -> N -> N) (pc : E -> N) (value_limb : N -> nat -> N) cs ss ev,
  ev_run reg pc value_limb (from_constraints cs) ss ev_new = StepOk ev ->
  instruction_index ev = length ss /\
  forall i f v, mem_get (memory ev) i f = Some v ->
    exists s, nth_error ss i = Some s /\ v = match f with FReg a => reg s a | FPc => pc s end.
Proof.
  intros E reg pc vl cs ss ev H. pose proof (ev_run_ok reg pc vl cs ss [] ev_new (ev_inv_new reg pc cs)) as X. rewrite H in X. cbn [app] in X. destruct X as [X _].
  split; [apply (inv_idx _ _ _ _ _ X)|]. apply (inv_sound _ _ _ _ _ X).
Qed.

(** C35: in every history, nothing panics; every call returned stands for an attempt that was
    inserted, checked for as many cycles as its APC has and that met the constraints of its APC;
    and no two calls of the whole history overlap. *)
Theorem C35_history : forall E S (reg : E -> N -> N) (pc : E -> N) (clk : E -> nat) (value_limb : N -> nat -> N) specs (os : list (cop E S)),
  clock_ok clk os -> ids_ok (mk_apcs specs) os ->
  exists cs outs intervals, crun reg pc clk value_limb (mk_apcs specs) os [] = Some (cs, outs) /\
    Forall2 (genuine reg pc clk value_limb (cycles_of specs) (constraints_of specs) os) (calls_of outs) intervals /\
    ForallOrdPairs disjoint intervals.
Proof.
  intros E S reg pc clk vl specs os H1 H2. destruct (crun_ok reg pc clk vl specs os [] [] [] H1 H2 (hinv_init _ _ _ _ _)) as (cs & outs & A & [_ (ws & B & C & _)]).
  exists cs, outs, ws. auto.
Qed.
(** C35: an attempt whose constraints hold is not lost: after its last check it is finished. *)
Theorem C35_complete : forall E S (reg : E -> N -> N) (pc : E -> N) (clk : E -> nat) (value_limb : N -> nat -> N) specs
    (before middle : list (cop E S)) s0 id f sn t cs outs,
  id < length specs -> ~ In Abort middle -> length (checks_of (middle ++ [Check sn t])) = cycles_of specs id ->
  (forall oc, In oc (constraints_of specs id) -> due (1 + cycles_of specs id) oc -> oc_holds reg pc value_limb (s0 :: checks_of (middle ++ [Check sn t])) oc) ->
  crun reg pc clk value_limb (mk_apcs specs) (before ++ Insert s0 id f :: middle ++ [Check sn t]) [] = Some (cs, outs) ->
  exists c, In c cs /\ apc_id c = id /\ from_snap c = f /\ from_clk c = clk s0 /\ status c = DoneAt (clk sn) t.
Proof.
  intros E S reg pc clk vl specs before middle s0 id f sn t cs outs Hlt Hna Hlen Hh Hr. rewrite crun_app in Hr.
  destruct (crun reg pc clk vl (mk_apcs specs) before []) as [[cs1 o1]|]; [|discriminate].
  destruct (crun reg pc clk vl (mk_apcs specs) (Insert s0 id f :: middle ++ [Check sn t]) cs1) as [[cs2 o2]|] eqn:E2; [|discriminate]. injection Hr as <- <-.
  eexists. split; [eapply attempt_completes; eauto|]. auto.
Qed.
(** C35: when all attempts are finished, the calls returned are those of the candidates [ks]:
    no two of them overlap, each candidate left out overlaps one that outranks it, and so a
    candidate that is not outranked by any it overlaps is among them.  Nothing stays behind. *)
Theorem C35_extract : forall E S (reg : E -> N -> N) (pc : E -> N) (clk : E -> nat) (value_limb : N -> nat -> N) specs (os : list (cop E S)) cs outs,
  clock_ok clk os -> ids_ok (mk_apcs specs) os -> crun reg pc clk value_limb (mk_apcs specs) os [] = Some (cs, outs) ->
  (forall c ev, In c cs -> status c <> InProgress ev) ->
  exists l ks, extract_calls (mk_apcs specs) cs = Some ([], l) /\ StronglySorted lt ks /\ Forall2 (call_at cs) ks l /\
    (forall i j, In i ks -> In j ks -> i <> j -> disjoint (range_at cs i) (range_at cs j)) /\
    (forall j, j < length cs -> ~ In j ks ->
       exists i, i < length cs /\ outranks (cand_rank (mk_apcs specs) cs i) (cand_rank (mk_apcs specs) cs j) /\ ~ disjoint (range_at cs i) (range_at cs j)) /\
    (forall j, j < length cs ->
       (forall i, i < length cs -> outranks (cand_rank (mk_apcs specs) cs i) (cand_rank (mk_apcs specs) cs j) -> disjoint (range_at cs i) (range_at cs j)) -> In j ks).
Proof.
  intros E S reg pc clk vl specs os cs outs H1 H2 Hr Hd. destruct (crun_ok reg pc clk vl specs os [] [] [] H1 H2 (hinv_init _ _ _ _ _)) as (cs' & outs' & A & [B _]).
  rewrite Hr in A. injection A as <- <-. cbn [app] in B.
  assert (G : Forall (cand_good (mk_apcs specs)) cs).
  { apply Forall_forall. intros c Hc. rewrite Forall_forall in B. destruct (B c Hc) as (X1 & _ & _ & X2). unfold cand_good, in_progress, cand_end. specialize (Hd c). destruct (status c) as [ev|e t]; [now destruct (Hd ev Hc)|].
    split; auto. split; [unfold mk_apcs; now rewrite map_length|]. apply (genuine_clk reg pc clk vl specs) in X2; auto. apply X2. }
  destruct (extract_ok (mk_apcs specs) cs G) as (l & ks & X1 & X2 & X3 & X4 & X5). exists l, ks. repeat (split; [assumption|]).
  intros j Hj Hn. destruct (in_dec Nat.eq_dec j ks) as [|N0]; auto. exfalso. destruct (X5 j Hj N0) as (i & Y1 & Y2 & Y3). apply Y3. auto.
Qed.
(** C35: if some attempt is still in progress, nothing is returned and nothing changes. *)
Theorem C35_extract_waits : forall S specs (cs : list (cand S)) c ev, In c cs -> status c = InProgress ev -> extract_calls (mk_apcs specs) cs = Some (cs, []).
Proof. intros S specs cs c ev Hc Es. unfold extract_calls. replace (existsb in_progress cs) with true; auto. symmetry. apply existsb_exists. exists c. split; auto. unfold in_progress. now rewrite Es. Qed.

(** ** Examples *)
(** A state: clock, pc and the value of register 7. *)
Definition ex_state : Type := nat * N * N.
Definition st (c : nat) (p v : N) : ex_state := (c, p, v).
Definition ex_reg (s : ex_state) (a : N) : N := if N.eqb a 7 then snd s else 0%N.
Definition ex_pc (s : ex_state) : N := snd (fst s).
Definition ex_clk (s : ex_state) : nat := fst (fst s).
Definition ex_limb (v : N) (k : nat) : N := (v / 256 ^ N.of_nat k) mod 256.
(** APC 0: two cycles, register 7 unchanged in limb 1 over the first, priority 1.
    APC 1: one cycle, starts at pc 4, priority 5.  APC 2: three cycles, no constraints, priority 9. *)
Definition ex_specs : list (list oconstr * nat * nat) :=
  [([mkOC (OLit (mkLit 0 (RegisterLimb 7 1))) (OLit (mkLit 1 (RegisterLimb 7 1)))], 2, 1);
   ([mkOC (OLit (mkLit 0 LPc)) (ONum 4)], 1, 5); ([], 3, 9)].
Definition ex_ops : list (cop ex_state nat) :=
  [Insert (st 10 0 300) 0 100; Check (st 11 4 310) 101; Insert (st 11 4 310) 1 101; Insert (st 11 4 310) 2 101;
   Extract; Check (st 12 8 900) 102; Abort; Extract].
Example C35_example : clock_ok ex_clk ex_ops /\ ids_ok (mk_apcs ex_specs) ex_ops /\
  option_map snd (crun ex_reg ex_pc ex_clk ex_limb (mk_apcs ex_specs) ex_ops []) =
    Some [Inserted true; Checked; Inserted true; Inserted true; Calls []; Checked; Aborted [2]; Calls [mkCall 1 101 102]].
Proof.
  split; [cbn; repeat split; lia|]. split; [|reflexivity]. unfold ids_ok, ex_ops. repeat (apply Forall_cons || apply Forall_nil); cbn; auto; lia.
Qed.
(** The attempt at APC 0 in this history, with one insertion among its checks. *)
Example C35_complete_example : exists cs outs,
  crun ex_reg ex_pc ex_clk ex_limb (mk_apcs ex_specs) ([] ++ Insert (st 10 0 300) 0 100 :: [Check (st 11 4 310) 101; Insert (st 11 4 310) 1 101] ++ [Check (st 12 8 900) 102]) [] = Some (cs, outs) /\
  length (checks_of ([Check (st 11 4 310) 101; Insert (st 11 4 310) 1 101] ++ [Check (st 12 8 900) 102])) = cycles_of ex_specs 0 /\
  (forall oc, In oc (constraints_of ex_specs 0) ->
     oc_holds ex_reg ex_pc ex_limb ((st 10 0 300) :: checks_of ([Check (st 11 4 310) 101; Insert (st 11 4 310) 1 101] ++ [Check (st 12 8 900) 102])) oc).
Proof. eexists _, _. split; [vm_compute; reflexivity|]. split; [reflexivity|]. intros oc [<-|[]]. exists 1%N. split; reflexivity. Qed.
(** Three finished candidates, the second of which is left out. *)
Definition chain_specs : list (list oconstr * nat * nat) := [([], 2, 1); ([], 2, 2); ([], 2, 3)].
Definition chain_ops : list (cop ex_state nat) :=
  [Insert (st 0 0 0) 0 0; Check (st 1 0 0) 1; Insert (st 1 0 0) 1 1; Check (st 2 0 0) 2; Insert (st 2 0 0) 2 2; Check (st 3 0 0) 3; Check (st 4 0 0) 4].
Example C35_extract_example : clock_ok ex_clk chain_ops /\ ids_ok (mk_apcs chain_specs) chain_ops /\
  exists cs outs, crun ex_reg ex_pc ex_clk ex_limb (mk_apcs chain_specs) chain_ops [] = Some (cs, outs) /\ length cs = 3 /\ (forall c ev, In c cs -> status c <> InProgress ev).
Proof.
  split; [cbn; repeat split; lia|]. split; [unfold ids_ok, chain_ops; repeat (apply Forall_cons || apply Forall_nil); cbn; auto; lia|].
  eexists _, _. split; [vm_compute; reflexivity|]. split; [reflexivity|]. intros c ev [<-|[<-|[<-|[]]]]; discriminate.
Qed.
(** C35: the selection is not maximal.  Of three candidates on [0, 2), [1, 3) and [2, 4), with
    priorities 1, 2 and 3, only the last is returned: the first is left out because of the second,
    which is left out itself, although the first and the last do not overlap. *)
Theorem C35_maximal_refuted : exists cs outs,
  crun ex_reg ex_pc ex_clk ex_limb (mk_apcs chain_specs) chain_ops [] = Some (cs, outs) /\
  extract_calls (mk_apcs chain_specs) cs = Some ([], [mkCall 2 2 4]) /\ disjoint (range_at cs 0) (range_at cs 2).
Proof. eexists _, _. split; [vm_compute; reflexivity|]. split; [vm_compute; reflexivity|]. left. vm_compute. lia. Qed.
(** A constraint between two steps that are not adjacent: the value of the first is remembered. *)
Example C36_example :
  let cs := [mkOC (OLit (mkLit 0 (RegisterLimb 7 0))) (OLit (mkLit 2 (RegisterLimb 7 0)))] in
  let ss := [(st 0 0 300); (st 1 4 301); (st 2 8 556)] in
  (exists ev, ev_run ex_reg ex_pc ex_limb (from_constraints cs) ss ev_new = StepOk ev /\ mem_get (memory ev) 0 (FReg 7) = Some 300%N) /\
  ev_run ex_reg ex_pc ex_limb (from_constraints cs) [(st 0 0 300); (st 1 4 301); (st 2 8 557)] ev_new = StepFailed /\ Forall (due 3) cs.
Proof. cbv zeta. split; [eexists; split; vm_compute; reflexivity|]. split; [reflexivity|]. constructor; [|constructor]. split; [lia|]. intros l [<-|[<-|[]]]; cbn; lia. Qed.
Print Assumptions C35_history. Print Assumptions C35_complete. Print Assumptions C35_extract. Print Assumptions C35_extract_waits. Print Assumptions C35_maximal_refuted. Print Assumptions C36_run. Print Assumptions C36_memory.
