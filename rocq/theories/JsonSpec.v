(** What saving, loading and printing should achieve. *)
From Coq Require Import Arith NArith Bool List.
From Verif Require Import Field ExprModel SystemModel Spec NumModel SymModel JsonModel.
Import ListNotations.
Local Open Scope F_scope.

(** Values of expressions when columns are known by their ids, or by their names. *)
Fixpoint nvalue {p} (env : N -> F p) (e : nexpr p) : F p :=
  match e with
  | NRef _ id => env id
  | NNum k => k
  | NBin l OAdd r => nvalue env l + nvalue env r
  | NBin l OSub r => nvalue env l - nvalue env r
  | NBin l OMul r => nvalue env l * nvalue env r
  | NNeg e => - nvalue env e
  end.
Fixpoint name_value {p} (env : text -> F p) (e : nexpr p) : F p :=
  match e with
  | NRef name _ => env name
  | NNum k => k
  | NBin l OAdd r => name_value env l + name_value env r
  | NBin l OSub r => name_value env l - name_value env r
  | NBin l OMul r => name_value env l * name_value env r
  | NNeg e => - name_value env e
  end.
(** All ids are 64 bit numbers, as their type says. *)
Fixpoint ids_fit {p} (e : nexpr p) : Prop :=
  match e with NRef _ id => (id < 2 ^ 64)%N | NNum _ => True | NBin l _ r => ids_fit l /\ ids_fit r | NNeg e => ids_fit e end.
Definition bus_fits {p} (b : nbus p) : Prop := (nb_id b < 2 ^ 64)%N /\ ids_fit (nb_mult b) /\ Forall ids_fit (nb_args b).
Definition method_fits {p} (m : nmethod p) : Prop := match m with NConst _ => True | NQuot a b => ids_fit a /\ ids_fit b end.
Definition machine_fits {p} (m : nmach p) : Prop :=
  Forall ids_fit (nm_cons m) /\ Forall bus_fits (nm_buses m) /\ Forall (fun d => (snd (fst d) < 2 ^ 64)%N /\ method_fits (snd d)) (nm_derived m).
(** How deep operations are nested. *)
Fixpoint height {p} (e : nexpr p) : nat :=
  match e with NRef _ _ | NNum _ => 0 | NBin l _ r => S (Nat.max (height l) (height r)) | NNeg e => S (height e) end.
(** The value that a method computes: a division by zero gives zero. *)
Definition quotient_or_zero {p} (a b : F p) : F p := if feqb b 0 then 0 else a / b.
Definition method_value {p} (env : N -> F p) (m : nmethod p) : F p :=
  match m with NConst k => k | NQuot a b => quotient_or_zero (nvalue env a) (nvalue env b) end.
(** The same expression with all ids forgotten. *)
Fixpoint forget_ids {p} (e : nexpr p) : nexpr p :=
  match e with NRef name _ => NRef name 0 | NNum k => NNum k | NBin l o r => NBin (forget_ids l) o (forget_ids r) | NNeg e => NNeg (forget_ids e) end.

(** The usual way to read formulas: a sum consists of products, a product of factors, both group to the left, and
    a factor is a name, a number, a factor with a minus sign or a sum in parentheses. *)
Inductive is_sum {p} : list (token p) -> nexpr p -> Prop :=
| sum_one t e : is_product t e -> is_sum t e
| sum_more t1 e1 t2 e2 o : is_sum t1 e1 -> is_product t2 e2 -> o = OAdd \/ o = OSub -> is_sum (t1 ++ [TOp o] ++ t2) (NBin e1 o e2)
with is_product {p} : list (token p) -> nexpr p -> Prop :=
| product_one t e : is_factor t e -> is_product t e
| product_more t1 e1 t2 e2 : is_product t1 e1 -> is_factor t2 e2 -> is_product (t1 ++ [TOp OMul] ++ t2) (NBin e1 OMul e2)
with is_factor {p} : list (token p) -> nexpr p -> Prop :=
| factor_name name id : is_factor [TName name] (NRef name id)
| factor_number k : is_factor [TNumber k] (NNum k)
| factor_minus t e : is_factor t e -> is_factor (TOp OSub :: t) (NNeg e)
| factor_parens t e : is_sum t e -> is_factor (TOpen :: t ++ [TClose]) e.

(** A constraint system and a machine say the same about all rows. *)
Section Export.
  Context {p : positive}.
  Definition row_of (env : N -> F p) (v : var) : F p := env (vid v).
  Definition same_values (e : gexp p) (e' : nexpr p) : Prop := forall env, nvalue env e' = eval (row_of env) e.
  Record same_bus (b : busi (gexp p)) (b' : nbus p) : Prop := {
    same_id : (nb_id b' < N.pos p)%N /\ forall env, eval (row_of env) (bus_id b) = of_N (nb_id b');
    same_mult : same_values (mult b) (nb_mult b');
    same_args : Forall2 same_values (payload b) (nb_args b') }.
  Record same_derived (name_of : var -> text) (d : var * cmethod p) (d' : text * N * nmethod p) : Prop := {
    same_column : fst d' = (name_of (fst d), vid (fst d));
    same_method : forall env, method_value env (snd d') = cm_value (row_of env) (snd d) }.
  Record same_system (name_of : var -> text) (c : csys p) (m : nmach p) : Prop := {
    same_constraints : Forall2 same_values (algs c) (nm_cons m);
    same_buses : Forall2 same_bus (buses c) (nm_buses m);
    same_deriveds : Forall2 (same_derived name_of) (derived c) (nm_derived m) }.
  Definition vars_fit (e : gexp p) : Prop := forall v, In v (vars e) -> (vid v < 2 ^ 64)%N.
  Record system_fits (c : csys p) : Prop := {
    fit_algs : Forall vars_fit (algs c);
    fit_buses : Forall (fun b => vars_fit (mult b) /\ Forall vars_fit (payload b)) (buses c);
    fit_derived : Forall (fun d => (vid (fst d) < 2 ^ 64)%N /\ match snd d with CConst _ => True | CQuot a b => vars_fit a /\ vars_fit b end) (derived c) }.
  (** The bus is given by a number, not by an expression with columns. *)
  Definition fixed_bus (b : busi (gexp p)) : Prop := exists k, bus_id b = GE [] [] k.
End Export.
