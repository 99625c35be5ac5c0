(** C04, C05, C06 and the first half of C07: grouped expressions. *)
From Coq Require Import NArith ZArith Znumtheory Bool List Lia.
From Verif Require Import Field Primes RangeModel ExprModel ExprFacts ExprWf ExprMore Spec Bridge.
Import ListNotations.
Local Open Scope nat_scope.

(** C04: arithmetic on grouped expressions is polynomial arithmetic... *)
Theorem C04_eval : forall (p : positive) (s : var -> F p) (a b : gexp p) (k : F p),
  eval s (gadd a b) = (eval s a + eval s b)%F /\
  eval s (gsub a b) = (eval s a - eval s b)%F /\
  eval s (gmul a b) = (eval s a * eval s b)%F /\
  eval s (gneg a) = (- eval s a)%F /\
  eval s (gscale a k) = (eval s a * k)%F /\
  eval s (from_number k) = k /\
  (forall v, eval s (from_var v) = s v).
Proof.
  intros p s a b k.
  exact (conj (eval_gadd s a b) (conj (eval_gsub s a b) (conj (eval_gmul s a b) (conj (eval_gneg s a)
    (conj (eval_gscale s a k) (conj (eval_from_number s k) (eval_from_var s))))))).
Qed.
(** ... and keeps the representation invariant. *)
Theorem C04_wf : forall (p : positive) (a b : gexp p) (k : F p) (v : var),
  prime (Z.pos p) -> wf a -> wf b ->
  wf (gadd a b) /\ wf (gsub a b) /\ wf (gmul a b) /\ wf (gneg a) /\ wf (gscale a k) /\
  wf (from_number k) /\ wf (from_var (p:=p) v).
Proof.
  intros p a b k v Hp Ha Hb.
  exact (conj (wf_gadd a b Ha Hb) (conj (wf_gsub a b Ha Hb) (conj (wf_gmul a b Hp Ha Hb) (conj (wf_gneg a Ha)
    (conj (wf_gscale k a Hp Ha) (conj (wf_from_number k) (wf_from_var v Hp))))))).
Qed.

Definition x : gexp babybear := from_var (Orig 0).
Definition y : gexp babybear := from_var (Orig 1).
Definition n (k : N) : gexp babybear := from_number (of_N k).
Open Scope G_scope.
(** The invariant's hypotheses hold for a cubic expression, built by the operations. *)
Example C04_example : wf ((x + n 3) * (y - x) * (x + y) - y * n 7) /\
  eval (fun v => of_N (vid v + 5)) ((x + n 3) * (y - x) * (x + y) - y * n 7) = of_N 46 /\
  gsub (x * y + x) (x * y) = x.
Proof.
  split; [|split; vm_compute; reflexivity].
  repeat first [apply wf_gsub | apply wf_gadd | apply wf_gmul | apply wf_from_var | apply wf_from_number | apply prime_babybear].
Qed.
Close Scope G_scope.

(** C05: substitution. *)
Theorem C05_subst_known : forall (p : positive) (v : var) (k : F p) (e : gexp p),
  (forall s, eval s (subst_known v k e) = eval (upd s v k) e) /\
  ~ In v (vars (subst_known v k e)) /\ incl (vars (subst_known v k e)) (vars e).
Proof. intros p. exact subst_known_spec. Qed.
Theorem C05_subst_simple : forall (p : positive) (v : var) (k : F p) (e : gexp p) s,
  eval s (subst_simple v k e) = eval (upd s v k) e.
Proof. intros p v k e s. exact (eval_subst_simple s v k e). Qed.
Theorem C05_subst_unknown : forall (p : positive) (v : var) (r e : gexp p),
  (forall s, eval s (subst_unknown v r e) = eval (upd s v (eval s r)) e) /\
  (~ In v (vars r) -> ~ In v (vars (subst_unknown v r e))) /\
  incl (vars (subst_unknown v r e)) (vars e ++ vars r).
Proof. intros p. exact subst_unknown_spec. Qed.
Theorem C05_wf : forall (p : positive) (v : var) (k : F p) (r e : gexp p),
  prime (Z.pos p) -> wf e -> wf (subst_known v k e) /\ (wf r -> wf (subst_unknown v r e)).
Proof. intros p v k r e Hp He. exact (conj (wf_subst_known v k e Hp He) (fun Hr => wf_subst_unknown v r e Hp Hr He)). Qed.

Open Scope G_scope.
Example C05_example :
  subst_unknown (Orig 0) (y + n 1) ((x - y) * (x + n 2) + x) = y + n 3 + y + n 1
  /\ ~ In (Orig 0) (vars (y + n 1)) /\ In (Orig 0) (vars ((x - y) * (x + n 2) + x)).
Proof. vm_compute. intuition discriminate. Qed.
Close Scope G_scope.

(** C06: the range constraint computed for an expression. *)
Theorem C06_range_constraint : forall (p : positive) (g : var -> rc p) s (e : gexp p),
  (forall v, In v (vars e) -> rc_allows (g v) (s v)) -> rc_allows (range_constraint g e) (eval s e).
Proof. intros p. exact b_expr_rc. Qed.

Open Scope G_scope.
Example C06_example :
  let g := fun _ => from_mask 255 : rc babybear in
  let s := fun _ => of_N 200 : F babybear in
  (forall v, rc_allows (g v) (s v)) /\
  rc_eqb (range_constraint g (x * y + x * n 2 - n 1)) (mkRC (N.ones 31) (of_Z (-1)) (of_N 65534)) = true /\
  rc_eqb (range_constraint g (x * y + n 1)) (mkRC (N.ones 16) (of_N 1) (of_N 65026)) = true.
Proof.
  cbv zeta. split; [|split; vm_compute; reflexivity]. intros v. apply rc_allows_iff. vm_compute. reflexivity.
Qed.
Close Scope G_scope.

(** C07, first half: on every line in the space of assignments, the value of an expression is
    a polynomial whose degree is at most the reported degree. *)
Theorem C07_degree : forall (p : positive) (s0 s1 : var -> F p) (e : gexp p),
  exists coefficients, length coefficients <= S (degree e) /\
    forall t, eval (fun v => s0 v + t * s1 v)%F e = peval coefficients t.
Proof. intros p. exact degree_sound. Qed.
Open Scope G_scope.
Example C07_degree_example : degree (x * y * x + y) = 3.
Proof. reflexivity. Qed.
Close Scope G_scope.

Print Assumptions C04_eval. Print Assumptions C04_wf.
Print Assumptions C05_subst_known. Print Assumptions C05_subst_simple. Print Assumptions C05_subst_unknown.
Print Assumptions C05_wf. Print Assumptions C06_range_constraint. Print Assumptions C07_degree.
