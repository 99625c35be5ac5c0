(** C58: saving, loading, exporting and printing of expressions and machines. *)
From Coq Require Import Arith NArith Bool List String Lia.
From Verif Require Import Field ExprModel SystemModel Spec SymModel NumModel JsonModel JsonSpec JsonFacts PrintFacts.
Import ListNotations.
Local Open Scope string_scope. Local Open Scope nat_scope. Local Open Scope list_scope.

(** Every machine that is saved is loaded again unchanged, whatever characters the names contain. *)
Theorem C58_roundtrip : forall (p : positive) (word : N), (N.pos p <= word)%N ->
  (forall e : nexpr p, ids_fit e -> de_expr word (ser_expr e) = Some e) /\
  (forall b : nbus p, bus_fits b -> de_bus word (ser_bus b) = Some b) /\
  (forall m : nmach p, machine_fits m -> de_machine word (ser_machine m) = Some m).
Proof. intros p word H. split; [|split]; intros x Hx; [apply de_ser_expr|apply de_ser_bus|apply de_ser_machine]; auto. Qed.
Print Assumptions C58_roundtrip.

(** The document of a constraint system is read as a machine exactly if all buses are fixed, and this machine has the
    same constraints, messages and derived columns. *)
Theorem C58_export : forall (p : positive) (word : N), (N.pos p <= word <= 2 ^ 64)%N -> forall (name_of : var -> text) (c : csys p), system_fits c ->
  (Forall fixed_bus (buses c) -> exists m, de_machine word (ser_system name_of c) = Some m /\ same_system name_of c m) /\
  (forall m : nmach p, de_machine word (ser_system name_of c) = Some m -> Forall fixed_bus (buses c) /\ same_system name_of c m).
Proof.
  intros p word [H1 H2] name_of c Hc. split; [now apply system_loaded|]. intros m Hm. pose proof (system_loaded_fixed word H1 name_of H2 c m Hm) as Hf.
  split; auto. destruct (system_loaded word H1 name_of H2 c Hc Hf) as (m' & E & S). rewrite Hm in E. injection E as <-. exact S.
Qed.
Print Assumptions C58_export.

(** A reader that refuses more than [limit] nested lists accepts an expression exactly if its operations are not
    nested deeper; there is no other reason for a failure. *)
Theorem C58_depth : forall (p : positive) (word : N) (limit : nat), (N.pos p <= word)%N -> forall e : nexpr p, ids_fit e ->
  load limit (de_expr word) (ser_expr e) = if height e <=? limit then Some e else None.
Proof. intros p word limit H e He. unfold load. rewrite depth_ser_expr. destruct (height e <=? limit); auto. now apply de_ser_expr. Qed.
Print Assumptions C58_depth.

(** Exported systems are nested as deeply as their constraints are long: whatever the limit, there is a sum
    of different columns without any products that cannot be loaded again. *)
Theorem C58_depth_refuted : forall (p : positive), (N.pos p < 2 ^ 64)%N -> forall (name_of : var -> text) (limit : nat), (N.of_nat limit < 2 ^ 63)%N ->
  exists c : csys p, system_fits c /\ Forall fixed_bus (buses c) /\ Forall (fun e => quad e = []) (algs c) /\
    (exists m : nmach p, de_machine (2 ^ 64) (ser_system name_of c) = Some m) /\ load limit (de_machine (p:=p) (2 ^ 64)) (ser_system name_of c) = None.
Proof.
  intros p P2 name_of limit L. exists (mkCS [long_sum limit] [] []).
  assert (F0 : system_fits (mkCS [long_sum (p:=p) limit] [] [])).
  { split; cbn; auto. constructor; auto. apply long_sum_fits. change (2 ^ 63)%N with 9223372036854775808%N in L. change (2 ^ 64)%N with 18446744073709551616%N. lia. }
  split; auto. split; [constructor|]. split; [constructor; [reflexivity|constructor]|]. split.
  - destruct (system_loaded (p:=p) (2 ^ 64) ltac:(lia) name_of ltac:(lia) _ F0) as (m & H & _); [constructor|eauto].
  - unfold load. assert (D : limit < depth (ser_system name_of (mkCS [long_sum (p:=p) limit] [] []))).
    { unfold ser_system. cbn [algs buses derived map depth fold_right snd]. rewrite long_sum_depth; [lia|apply feqb_refl]. }
    apply Nat.leb_gt in D. now rewrite D.
Qed.
Print Assumptions C58_depth_refuted.

(** A printed expression is a formula that can be read in only one way, which is the expression, up to the ids, which are
    not printed. *)
Theorem C58_display : forall (p : positive) (e : nexpr p),
  is_sum (display e) e /\ forall e' : nexpr p, is_sum (display e) e' -> forget_ids e' = forget_ids e.
Proof. intros p e. destruct (display_ok e) as (H & _). split; auto. intros e' H'. now apply (read_once (display e)). Qed.
Print Assumptions C58_display.
(** So expressions that are printed in the same way are the same up to the ids. *)
Theorem C58_display_injective : forall (p : positive) (e e' : nexpr p), display e = display e' -> forget_ids e = forget_ids e'.
Proof. intros p e e' H. apply (C58_display p e'). rewrite <- H. apply C58_display. Qed.
Print Assumptions C58_display_injective.
(** Different columns may have the same name, so ids are needed to tell expressions apart. *)
Theorem C58_display_ids_refuted : exists e e' : nexpr 7, e <> e' /\ display e = display e'.
Proof. exists (NRef (txt "a") 0), (NRef (txt "a") 1). split; [discriminate|reflexivity]. Qed.
Print Assumptions C58_display_ids_refuted.
(** A printed grouped expression, with its signs and its numbers from the upper half of the field, is a formula, and
    however it is read it has the value of the expression. *)
Theorem C58_display_grouped : forall (p : positive) (name_of : var -> text) (e : gexp p),
  (exists e', is_sum (display_grouped name_of e) e') /\
  forall e' : nexpr p, is_sum (display_grouped name_of e) e' -> forall env, name_value env e' = eval (fun v => env (name_of v)) e.
Proof.
  intros p name_of e. destruct (display_grouped_ok name_of e) as (e0 & H1 & H2). split; [eauto|]. intros e' H env.
  rewrite <- (forget_value env e'), (read_once _ _ _ H H1), forget_value. apply H2.
Qed.
Print Assumptions C58_display_grouped.

(** ** Examples *)
Definition bb : positive := 2013265921.
Definition a_ : nexpr bb := NRef (txt "a@3") 17.
Definition b_ : nexpr bb := NRef (txt "") 18446744073709551615.
Definition example_expr : nexpr bb := NBin (NNeg (NBin a_ OSub (NNum (fopp 1%F)))) OMul (NBin a_ OMul (NNeg b_)).
Definition example_machine : nmach bb := mkNM [example_expr; NNum 0%F] [mkNB 6 (NNum 1%F) [a_; b_]; mkNB 3 b_ []] [(txt "x", 5%N, NConst (of_N 7)); (txt "y", 6%N, NQuot a_ b_)].
Example C58_machine_fits : machine_fits example_machine.
Proof. repeat (constructor || split); cbn; try lia. Qed.
Example C58_machine_roundtrip : de_machine (2 ^ 32) (ser_machine example_machine) = Some example_machine.
Proof. vm_compute. reflexivity. Qed.
(** Documents written by other tools: maps in another order and with further keys; a missing or doubled field and an
    operator that does not exist are refused. *)
Example C58_maps :
  de_expr (p:=bb) (2 ^ 32) (JObj [(txt "right", JNum 2); (txt "note", JNum 9); (txt "op", JStr (txt "-")); (txt "left", JStr (txt "x@1"))]) = Some (NBin (NRef (txt "x") 1) OSub (NNum (of_N 2))) /\
  de_expr (p:=bb) (2 ^ 32) (JObj [(txt "op", JStr (txt "-")); (txt "expr", JStr (txt "x@1"))]) = Some (NNeg (NRef (txt "x") 1)) /\
  de_expr (p:=bb) (2 ^ 32) (JObj [(txt "op", JStr (txt "-"))]) = None /\
  de_expr (p:=bb) (2 ^ 32) (JArr [JNum 1; JStr (txt "/"); JNum 2]) = None /\
  de_expr (p:=bb) (2 ^ 32) (JStr (txt "x")) = None /\
  de_expr (p:=bb) (2 ^ 32) (JStr (txt "x@18446744073709551616")) = None /\
  de_expr (p:=bb) (2 ^ 32) (JStr (txt "x@+1")) = Some (NRef (txt "x") 1) /\
  de_expr (p:=bb) (2 ^ 32) (JNum (2 ^ 32)) = None.
Proof. repeat split; vm_compute; reflexivity. Qed.
Definition x0 := Orig 0. Definition x1 := Orig 1.
Definition name (v : var) : text := if (vid v =? 0)%N then txt "x" else txt "y".
Definition example_grouped : gexp bb := GE [(GE [] [(x0, 1%F)] (fopp 1%F), GE [] [(x0, fopp (of_N 2))] 0%F)] [(x0, fopp 1%F); (x1, of_N 5)] (fopp (of_N 3)).
Definition example_system : csys bb := mkCS [example_grouped] [mkBus (GE [] [] (of_N 3)) (GE [] [(x1, 1%F)] 0%F) [example_grouped; GE [] [] 0%F]] [(x1, CQuot example_grouped (GE [] [(x0, 1%F)] 0%F))].
Example C58_system_fits : system_fits example_system /\ Forall fixed_bus (buses example_system).
Proof.
  assert (A : forall e : gexp bb, forallb (fun v => (vid v <? 2 ^ 64)%N) (vars e) = true -> vars_fit e).
  { intros e H v Hv. rewrite forallb_forall in H. now apply N.ltb_lt, H. }
  split; [split|]; repeat constructor; cbn [mult payload snd fst]; try (apply A; vm_compute; reflexivity); try (repeat constructor; apply A; vm_compute; reflexivity).
  eexists. reflexivity.
Qed.
Example C58_system_loaded : option_map (fun m => (List.length (nm_cons m), map nb_id (nm_buses m), map fst (nm_derived m))) (de_machine (p:=bb) (2 ^ 32) (ser_system name example_system)) =
  Some (1, [3%N], [(txt "y", 1%N)]).
Proof. vm_compute. reflexivity. Qed.
(** -(a - 2013265920) * (a * -b) with names a and b. *)
Definition a1 : nexpr bb := NRef (txt "a") 17. Definition b1 : nexpr bb := NRef (txt "b") 18.
Example C58_printed : display (NBin (NNeg (NBin a1 OSub (NNum (fopp 1%F)))) OMul (NBin a1 OMul (NNeg b1))) =
  [TOp OSub; TOpen; TName (txt "a"); TOp OSub; TNumber (fopp 1%F); TClose; TOp OMul; TOpen; TName (txt "a"); TOp OMul; TOp OSub; TName (txt "b"); TClose].
Proof. vm_compute. reflexivity. Qed.
(** -((x - 1) * (2 * x) + x - 5 * y + 3). *)
Example C58_grouped_printed : display_grouped name example_grouped =
  TOp OSub :: TOpen :: [TOpen; TName (txt "x"); TOp OSub; TNumber 1%F; TClose; TOp OMul; TOpen; TNumber (of_N 2); TOp OMul; TName (txt "x"); TClose]
  ++ [TOp OAdd; TName (txt "x"); TOp OSub; TNumber (of_N 5); TOp OMul; TName (txt "y"); TOp OAdd; TNumber (of_N 3)] ++ [TClose].
Proof. vm_compute. reflexivity. Qed.
