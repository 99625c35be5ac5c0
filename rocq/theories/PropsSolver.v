(** C11-C13: the transformations the solver applies to constraints. *)
From Coq Require Import NArith ZArith Znumtheory Bool List Lia.
From Verif Require Import Field Primes RangeModel ExprModel ExprFacts ExprWf SolveModel SystemModel Spec Bridge
  SplitterModel SplitterFacts BoolLinModel BoolLinFacts LinHist BoolHist.
Import ListNotations.
Local Open Scope nat_scope.

Definition x : gexp babybear := from_var (Orig 0).
Definition y : gexp babybear := from_var (Orig 1).
Definition z : gexp babybear := from_var (Orig 2).
Definition n (k : N) : gexp babybear := from_number (of_N k).

(** C11: the parts are equivalent to the constraint for all assignments consistent with the
    range constraints; there are at least two, all affine and over variables of the
    constraint; splitting never panics. *)
Theorem C11_split : forall (p : positive) g (e : gexp p), prime (Z.pos p) -> (2 < N.pos p)%N -> (N.pos p <= 2 ^ 64)%N -> wf e ->
  match try_split_constraint g e with
  | Parts l =>
      (forall s, consistent_on g s e -> (solves s e <-> Forall (solves s) l)) /\
      Forall (fun x => wf x /\ is_affine x = true /\ incl (vars x) (vars e)) l /\ 2 <= length l
  | NoSplit => True
  | SplitPanic => False
  end.
Proof.
  intros p g e Hp H2 H64 W. pose proof (try_split_ok Hp g e H2 H64 W) as H. destruct (try_split_constraint g e); auto.
  destruct H as (A & B & C). split; auto. intros s Hs. apply A. intros v Hv. apply rc_allows_iff. auto.
Qed.
(** x + 256 * y + 65536 * z = 1000 for bytes x, y, z splits, as does
    x - y + 256 * (z - 3) = 0, but not x + y + 256 * (z - 3) = 0. *)
Example C11_example :
  let g := fun _ : var => from_mask 255 in
  try_split_constraint g (gsub (gadd (gadd x (gscale y (of_N 256))) (gscale z (of_N 65536))) (n 1000)) =
    Parts [gsub x (n 232); gsub y (n 3); z] /\
  try_split_constraint g (gadd (gadd x y) (gscale (gsub z (n 3)) (of_N 256))) = NoSplit /\
  try_split_constraint g (gadd (gsub x y) (gscale (gsub z (n 3)) (of_N 256))) =
    Parts [gsub x y; gsub z (n 3)].
Proof. vm_compute. repeat split; reflexivity. Qed.

(** C12: for every state [m], [nb] of the extractor, the extracted constraint is equivalent to
    the original, up to the value of the fresh boolean variable. *)
Theorem C12_extract : forall (p : positive) m nb (e c : gexp p) zo m' nb', prime (Z.pos p) -> wf e ->
  try_extract_boolean m nb e = (Some (c, zo), (m', nb')) ->
  wf c /\
  match zo with
  | None => nb' = nb /\ incl (vars c) (vars e) /\ forall s, solves s e <-> solves s c
  | Some z => z = Boolv nb /\ nb' = (nb + 1)%N /\ incl (vars c) (z :: vars e) /\
      forall s, ~ In z (vars e) ->
        (solves s e <-> exists b, (b = 0%F \/ b = 1%F) /\ solves (upd s z b) c)
  end.
Proof. intros p m nb e c zo m' nb' Hp W. exact (extract_ok Hp m nb e c zo m' nb' W). Qed.
Theorem C12_affine : forall (p : positive) m nb (e c : gexp p) zo st' le ri,
  try_extract_boolean m nb e = (Some (c, zo), st') ->
  try_as_single_product e = Some (le, ri) -> is_affine ri = true -> is_affine c = true.
Proof. intros p. exact extract_affine. Qed.
(** Over any history of extractions and assignments: if nothing is extracted from a product of
    two expressions with a known non-zero difference (up to a factor) then the constraints
    extracted before imply it, or it just says that some variable is boolean. *)
Theorem C12_history : forall (p : positive) os rs m nb (s : var -> F p), prime (Z.pos p) ->
  Forall (fun o => Forall (fun ve => ~ In (fst ve) (vars (snd ve))) (bop_assigns o)) os ->
  bool_run os ([], 0%N) = (rs, (m, nb)) ->
  Forall (fun r => solves s (fst r) /\ match snd r with None => True | Some z => s z = 0%F \/ s z = 1%F end) rs ->
  Forall (fun ve => s (fst ve) = eval s (snd ve)) (flat_map bop_assigns os) ->
  forall e le ri off st', wf e -> try_extract_boolean m nb e = (None, st') ->
  try_as_single_product e = Some (le, ri) -> try_to_known (gsub (gscale le (bool_factor le ri)) ri) = Some off -> off <> 0%F ->
  solves s e \/ exists v, forall s', solves s' e <-> s' v = 0%F \/ s' v = 1%F.
Proof. intros p os rs m nb s Hp. exact (extractor_history Hp os rs m nb s). Qed.
Example C12_example :
  let e := gmul (gadd x (gadd y (n 7))) (gscale (gadd x (gadd y (n 4))) (of_N 2)) in
  fst (try_extract_boolean [] 5 e) = Some (gadd (gscale (gadd x (gadd y (n 4))) (of_N 2)) (gscale (from_var (Boolv 5)) (of_N 6)), Some (Boolv 5)) /\
  fst (try_extract_boolean (fst (snd (try_extract_boolean [] 5 e))) 6 e) = None.
Proof. vm_compute. repeat split; reflexivity. Qed.

(** C13: over any history of linearizations, starting with no knowledge: the replacements are
    affine; every assignment extends to the fresh variables such that all collected
    constraints hold; and whenever those hold, every expression equals its replacement (so a
    constraint is satisfied exactly when its replacement is). *)
Theorem C13_linearize : forall (p : positive) (os : list (lin_op p)) xs st, prime (Z.pos p) -> Forall op_ok os ->
  lin_run os lin_init = (xs, st) ->
  map fst xs = flat_map op_exprs os /\
  Forall (fun ex => is_affine (snd ex) = true /\ wf (snd ex)) xs /\
  (forall s, exists s', (forall v, match v with Lin _ => True | _ => s' v = s v end) /\ Forall (solves s') (lconstrs st)) /\
  (forall s, Forall (solves s) (lconstrs st) -> Forall (fun ex => eval s (snd ex) = eval s (fst ex)) xs).
Proof. intros p os xs st Hp. exact (linearizer_history Hp os xs st). Qed.
(** The same with assignments applied in between, for assignments that are true; and what the
    solver looks up for an expression is equal to it. *)
Theorem C13_with_assignments : forall (p : positive) (os : list (lin_op p)) xs st s, Forall op_ok2 os ->
  lin_run os lin_init = (xs, st) ->
  Forall (solves s) (lconstrs st) ->
  Forall (fun ve => s (fst ve) = eval s (snd ve)) (flat_map op_assigns os) ->
  Forall (fun ex => eval s (snd ex) = eval s (fst ex)) xs /\
  (forall e x, try_linearize_existing (lmap st) e = Some x -> eval s x = eval s e) /\
  (forall e x, In x (internalized_versions (lmap st) e) -> eval s x = eval s e).
Proof. intros p. exact linearizer_history_assign. Qed.
Example C13_example :
  let os := [LinExpr (gadd (gmul x (gadd y (n 1))) z); LinExpr (gmul (gmul x (gadd y (n 1))) z); LinVar (gadd x y)] in
  Forall op_ok os /\
  fst (lin_run os lin_init) = combine (flat_map op_exprs os) [gadd (from_var (Lin 1)) z; from_var (Lin 2); from_var (Lin 3)] /\
  length (lconstrs (snd (lin_run os lin_init))) = 4.
Proof.
  split; [|vm_compute; split; reflexivity].
  repeat constructor; try (vm_compute; discriminate);
    try (intros v Hv; vm_compute in Hv; repeat destruct Hv as [<-|Hv]; [exact I..|destruct Hv]).
Qed.

Print Assumptions C11_split. Print Assumptions C12_extract. Print Assumptions C12_affine. Print Assumptions C12_history.
Print Assumptions C13_linearize. Print Assumptions C13_with_assignments.
