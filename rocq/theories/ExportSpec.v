(** What exporting should achieve. *)
From Coq Require Import Arith NArith Bool List Ascii String.
From Verif Require Import NumModel JsonModel ExportModel.
Import ListNotations.
Local Open Scope list_scope.

Definition digit (c : N) : Prop := (48 <= c <= 57)%N.
(** Infos that cannot be taken for a number, and not for the file of substitutions. *)
Definition plain_info (i : text) : Prop := (forall c r, i = c :: r -> ~ digit c) /\ i <> txt "substitutions".
Section Spec.
  Context {D : Type}.
  Definition info_of (e : export D) : list text := match e with EApc _ (Some i) => [i] | EOuter _ i => [i] | EInner _ i => [i] | _ => [] end.
  (** The documents that a level asks for, with their infos. *)
  Definition asked (l : level) (e : export D) : list (D * option text) :=
    match e, l with
    | EApc d i, _ => [(d, i)]
    | EOuter d i, OnlyApc => []
    | EOuter d i, _ => [(d, Some i)]
    | EInner d i, ApcAndSteps => [(d, Some i)]
    | EInner d i, _ => []
    | _, _ => []
    end.
  (** Files are named after the pcs, the number of the document and its info. *)
  Definition name_of (pcs : list N) (number : N) (info : option text) (extension : text) : text :=
    txt "apc_candidate_" ++ join_with 95 (map (print 10) pcs) ++ [95%N] ++ pad3 number ++ match info with Some i => 95%N :: i | None => [] end ++ extension.
  Definition substitutions_name (pcs : list N) : text := txt "apc_candidate_" ++ join_with 95 (map (print 10) pcs) ++ txt "_substitutions.json".
  Fixpoint named (pcs : list N) (number : N) (l : list (D * option text)) : list (text * D) :=
    match l with [] => [] | (d, i) :: r => (name_of pcs number i (txt ".json"), d) :: named pcs (number + 1) r end.
  (** The documents among files. *)
  Definition document_of (w : text * content D) : list (text * D) := match snd w with Document d => [(fst w, d)] | _ => [] end.
  Definition is_subs (e : export D) : bool := match e with ESubs => true | _ => false end.
  Definition is_apc (e : export D) : bool := match e with EApc _ _ => true | _ => false end.
  Definition registered (e : export D) : list text := match e with ERegister l => l | _ => [] end.
  (** The states of a build that the documentation of a level promises, with their names: the machine before and after; with
      the second level also every state of the loop and the passes around it; with the third one every step of every pass. *)
  Definition steps (l : level) (s : list (D * option text)) : list (D * option text) := match l with ApcAndSteps => s | _ => [] end.
  Definition loops (l : level) (s : list (D * option text)) : list (D * option text) := match l with OnlyApc => [] | _ => s end.
  Definition iteration_states (l : level) (i : iteration D) : list (D * option text) :=
    loops l [(it_start i, Some (txt "loop_iteration"))] ++
    steps l (combine [it_solver i; it_trivial i; it_free i; it_disconnected i; it_exhaustive i; it_simp i; it_rule_based i; it_fields i; it_memory i; it_low_degree i]
      (map (fun s => Some (txt s)) ["solver"; "remove_trivial"; "remove_free"; "remove_disconnected"; "simplify_exhaustive"; "trivial_simp"; "rule_based"; "substitute_bus_interactio_fields"; "memory"; "low_degree_bus"]%string)).
  Definition build_states (l : level) (b : building D) : list (D * option text) :=
    [(b_unopt b, Some (txt "unopt"))] ++ loops l [(b_exec b, Some (txt "exec_bus"))] ++ flat_map (iteration_states l) (b_iterations b) ++
    loops l [(b_inlining b, Some (txt "inlining"))] ++ steps l [(b_disconnected b, Some (txt "remove_disconnected"))] ++
    loops l [(b_rule_based b, Some (txt "rule_based")); (b_range b, Some (txt "range_constraints")); (b_simp b, Some (txt "trivial_simp"))] ++
    [(b_final b, None)].
End Spec.
