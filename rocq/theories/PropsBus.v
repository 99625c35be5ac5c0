(** C17: solving a bus interaction. *)
From Coq Require Import NArith ZArith Znumtheory Bool List Lia.
From Verif Require Import Field Primes RangeModel ExprModel ExprFacts SolveModel SystemModel Spec Bridge BusModel BusFacts.
Import ListNotations.
Local Open Scope nat_scope.

(** C17: for a handler that is sound for the legal bus interactions [sem], every effect holds
    in every assignment that is consistent with the range constraints and makes the bus
    interaction legal; a reported violation means there is no such assignment; all effects
    concern variables of the bus interaction; nothing panics. *)
Theorem C17_bus_solve : forall (p : positive) (sem : busi (F p) -> Prop) (h : busi (rc p) -> busi (rc p)) g (b : busi (gexp p)),
  prime (Z.pos p) -> handler_sound sem h ->
  match bus_solve h g b with
  | BOk effects =>
      (forall s, (forall v, In v (bus_vars b) -> rc_allows (g v) (s v)) -> sem (bmap (eval s) b) -> Forall (effect_true s) effects) /\
      (forall ef, In ef effects -> match ef with SetRC v _ => In v (bus_vars b) | _ => False end)
  | BViolates => forall s, (forall v, In v (bus_vars b) -> rc_allows (g v) (s v)) -> ~ sem (bmap (eval s) b)
  | BPanic => False
  end.
Proof. intros p sem h g b Hp Hh. exact (bus_solve_ok Hp sem h Hh g b). Qed.
Theorem C17_default_handler : forall (p : positive) (sem : busi (F p) -> Prop), handler_sound sem default_handler.
Proof. intros p. exact default_handler_sound. Qed.

(** A bus that only accepts bytes. *)
Definition bytes_sem (b : busi (F babybear)) : Prop := forall x, In x (payload b) -> (val x < 256)%N.
Definition bytes_handler (b : busi (rc babybear)) : busi (rc babybear) :=
  mkBus (bus_id b) (mult b) (map (fun _ => from_mask 255) (payload b)).
Definition x : gexp babybear := from_var (Orig 0).
Definition y : gexp babybear := from_var (Orig 1).
Definition n (k : N) : gexp babybear := from_number (of_N k).
Open Scope G_scope.
Example C17_example :
  handler_sound bytes_sem bytes_handler /\
  let g := fun v => match v with Orig 1 => from_mask 3 | _ => unconstrained end in
  bus_solve bytes_handler g (mkBus (n 1) (n 1) [x + y; x * y]) = BOk [SetRC (Orig 0) (from_range (fopp (of_N 3)) (of_N 255))] /\
  bus_solve bytes_handler g (mkBus (n 1) (n 1) [n 300]) = BViolates.
Proof.
  split; [|split; [|vm_compute; reflexivity]].
  - intros b. split; [apply map_length|]. intros v Hv Hb. unfold bus_allows, fields in *. inversion Hb; subst. inversion H4; subst.
    constructor; auto. constructor; auto. cbn [payload bytes_handler].
    assert (Hl : length (payload b) = length (payload v)) by (clear - H6; induction H6; cbn; auto).
    unfold bytes_sem in Hv. revert Hl Hv. generalize (payload b) as l1, (payload v) as l2. clear.
    induction l1 as [|a l1 IH]; intros [|c l2] Hl Hv; cbn [map]; try discriminate; constructor.
    + specialize (Hv c (or_introl eq_refl)). apply rc_allows_iff. unfold allows_value, from_mask, in_interval, fleb. cbn [rmin rmax mask].
      assert (E : N.land (val c) 255 = val c).
      { change 255%N with (N.ones 8). rewrite N.land_ones. apply N.mod_small. exact Hv. }
      rewrite E, N.eqb_refl, andb_true_r. replace (val (of_N (N.min 255 (val fminus1)) : F babybear)) with 255%N by reflexivity.
      cbn [val fzero]. change (val (0%F : F babybear)) with 0%N. cbn [N.leb]. replace (0 <=? val c)%N with true by (symmetry; apply N.leb_le; lia).
      cbn. apply N.leb_le. lia.
    + apply IH; [now injection Hl|]. intros z Hz. apply Hv. now right.
  - vm_compute. reflexivity.
Qed.
Close Scope G_scope.

Print Assumptions C17_bus_solve. Print Assumptions C17_default_handler.
