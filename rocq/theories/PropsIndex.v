(** C18: the occurrence index and the work queue. *)
From Coq Require Import NArith ZArith Bool List Lia.
From Verif Require Import Field Primes RangeModel ExprModel ExprFacts SystemModel IndexFacts IndexHist.
Import ListNotations.
Local Open Scope nat_scope.

(** After any sequence of operations, looking up variables returns every constraint that
    mentions one of them, and only constraints of the system. *)
Theorem C18_lookup : forall (p : positive) (c0 : csys p) ops, Forall op_ok ops ->
  let c := run_ops ops (ics_from c0) in
  forall vs,
    (forall e, In e (algs (isys c)) -> (exists v, In v vs /\ In v (vars e)) -> In (RAlg e) (referencing c vs)) /\
    (forall b, In b (buses (isys c)) -> (exists v, In v vs /\ In v (bus_vars b)) -> In (RBus b) (referencing c vs)) /\
    (forall e, In (RAlg e) (referencing c vs) -> In e (algs (isys c))) /\
    (forall b, In (RBus b) (referencing c vs) -> In b (buses (isys c))).
Proof. intros p. exact hist_lookup. Qed.
(** The system obtained is the one obtained by operating on all constraints without index. *)
Theorem C18_refinement : forall (p : positive) (c0 : csys p) ops, Forall op_ok ops ->
  ops_spec c0 ops (isys (run_ops ops (ics_from c0))).
Proof. intros p. exact hist_spec. Qed.
(** No index of the occurrence map is ever out of range. *)
Theorem C18_no_panic : forall (p : positive) (c0 : csys p) ops, Forall op_ok ops ->
  let c := run_ops ops (ics_from c0) in
  retain_panics 0 (algs (isys c)) (iocc c) = false /\
  retain_panics 1 (buses (isys c)) (iocc c) = false /\
  retain_panics 2 (derived (isys c)) (iocc c) = false /\
  forall v x, In x (occ_items v (iocc c)) -> item_valid (isys c) x.
Proof. intros p. exact hist_no_panic. Qed.
(** The work queue: in every reachable state nothing is queued twice, everything dirty is
    queued, taking an item from the queue returns a constraint, and when the queue is empty
    nothing is dirty. *)
Theorem C18_queue : forall (p : positive) (c0 : csys p) c dirty, reach c0 c dirty ->
  NoDup (qitems (qq c)) /\ (forall x, dirty x -> In x (qitems (qq c))) /\
  (forall x c', qcs_pop c = (Some x, c') -> exists r, to_ref (isys (qsys c)) x = Some (Some r)) /\
  (forall c', qcs_pop c = (None, c') -> forall x, ~ dirty x).
Proof. intros p. exact reach_queue. Qed.

Definition x : gexp babybear := from_var (Orig 0).
Definition y : gexp babybear := from_var (Orig 1).
Definition z : gexp babybear := from_var (Orig 2).
Open Scope G_scope.
Definition ex_sys : csys babybear :=
  mkCS [x + y; x * y - gone; z] [mkBus gone gone [x; z]] [(Orig 2, CQuot x y)].
Definition ex_ops : list (iop (p:=babybear)) :=
  [OSubstUnknown (Orig 0) (z + gone); ORetainAlgs (fun e => negb (gexp_eqb e z)); OSubstKnown (Orig 1) fone;
   OExtend (mkCS [x - z] [] [])].
(** The history moves a constraint and creates a stale entry; the lookup still works. *)
Example C18_example : Forall op_ok ex_ops /\
  referencing (run_ops ex_ops (ics_from ex_sys)) [Orig 2] =
  [RAlg (z + gone + gone); RAlg z; RAlg (x - z); RBus (mkBus gone gone [z + gone; z])].
Proof.
  split; [|vm_compute; reflexivity].
  repeat constructor; vm_compute; intuition discriminate.
Qed.
(** Two constraints are taken from the queue, one is added, the first is removed, and a
    variable is updated. *)
Example C18_queue_example : exists c d, reach ex_sys c d /\ d (IAlg 1) /\ d (IAlg 2) /\ ~ d (IAlg 0) /\
  length (algs (isys (qsys c))) = 3.
Proof.
  do 2 eexists. split; [|split; [|split; [|split]]].
  - apply RUpdated with (v := Orig 2). eapply RRetainAlgs with (f := fun e => negb (gexp_eqb e (x + y))).
    eapply RAddAlgs with (es := [z * z]). eapply RPop; [eapply RPop; [apply RInit|reflexivity]|reflexivity].
  - right. split; [unfold is_constraint; cbn; discriminate|]. exists z. split; [vm_compute; reflexivity|]. cbn. auto.
  - left. exists (IAlg 3). split; [right; exists 0; split; [cbn; lia|reflexivity]|]. exists (z * z).
    repeat split; vm_compute; reflexivity.
  - intros [(k & [[[Hk H1] H2]|(i & Hi & ->)] & Hm)|[_ (e & He & Hv)]].
    + destruct k as [[|[|[|k]]]|k|k]; cbn in Hm; try congruence.
      * destruct Hm as (e & [= <-] & _ & Hm). vm_compute in Hm. discriminate.
      * destruct Hk as [_ Hk]. cbn in Hk. lia.
    + cbn in Hi. assert (i = 0) as -> by lia. destruct Hm as (e & He & _ & Hm). vm_compute in Hm. discriminate.
    + vm_compute in He. injection He as <-. vm_compute in Hv. intuition discriminate.
  - vm_compute. reflexivity.
Qed.
Close Scope G_scope.

Print Assumptions C18_lookup. Print Assumptions C18_refinement. Print Assumptions C18_no_panic.
Print Assumptions C18_queue.
