(** C73: a precompile means the same in another representation of the field. *)
From Coq Require Import NArith List Lia Bool.
From Verif Require Import RetypeModel RetypeSpec.
Import ListNotations.

(** The value of a converted expression on the converted row is the converted value. *)
Theorem C73_value : forall V T U (a : arith T) (b : arith U) (f : T -> U) (row : V -> T) (e : aexpr V T),
  translates a b f -> value b (fun v => f (row v)) (convert_expression f e) = f (value a row e).
Proof.
  intros V T U a b f row e [Z A B C D Q]. induction e as [n|r|op l IHl r IHr|op x IH]; cbn [convert_expression value]; auto.
  - destruct op; now rewrite IHl, IHr, ?A, ?B, ?C.
  - destruct op. now rewrite IH, D.
Qed.
Print Assumptions C73_value.

(** The converted row satisfies the converted constraints exactly if the row satisfies the constraints. *)
Theorem C73_satisfies : forall V T U (a : arith T) (b : arith U) (f : T -> U) (row : V -> T) (m : machine V T),
  translates a b f -> injective f ->
  (satisfies b (fun v => f (row v)) (convert_machine f m) <-> satisfies a row m).
Proof.
  intros V T U a b f row m H I. unfold satisfies. cbn [convert_machine constraints]. split.
  - intros S e He. apply I. rewrite <- (C73_value V T U a b f row e H), (tr_zero _ _ _ H). apply S. now apply in_map.
  - intros S e He. apply in_map_iff in He. destruct He as (x & <- & Hx). rewrite (C73_value V T U a b f row x H), S by auto. apply (tr_zero _ _ _ H).
Qed.
Print Assumptions C73_satisfies.

(** The same messages are sent on the same buses in the same order. *)
Theorem C73_sends : forall V T U (a : arith T) (b : arith U) (f : T -> U) (row : V -> T) (m : machine V T),
  translates a b f ->
  sends b (fun v => f (row v)) (convert_machine f m) = map (fun x => let '(i, k, vs) := x in (i, f k, map f vs)) (sends a row m).
Proof.
  intros V T U a b f row m H. unfold sends. cbn [convert_machine interactions]. rewrite !map_map. apply map_ext. intros i. cbn [convert_interaction bus mult args].
  rewrite (C73_value V T U a b f row _ H), !map_map. f_equal. apply map_ext. intros e. apply (C73_value V T U a b f row e H).
Qed.
Print Assumptions C73_sends.

(** The derived columns are the same and get the same values. *)
Theorem C73_derives : forall V T U (a : arith T) (b : arith U) (f : T -> U) (row : V -> T) (m : machine V T),
  translates a b f ->
  derives b (fun v => f (row v)) (convert_machine f m) = map (fun x => (fst x, f (snd x))) (derives a row m).
Proof.
  intros V T U a b f row m H. unfold derives. cbn [convert_machine derived]. rewrite !map_map. apply map_ext. intros [v [c|x y]]; cbn [fst snd convert_method]; auto.
  now rewrite !(C73_value V T U a b f row _ H), (tr_quotient _ _ _ H).
Qed.
Print Assumptions C73_derives.

(** If every number of the other type is a converted one, then the rows of the converted precompile are exactly the converted rows:
    the conversion adds no row and loses none. *)
Theorem C73_rows : forall V T U (a : arith T) (b : arith U) (f : T -> U) (g : U -> T) (row : V -> U) (m : machine V T),
  translates a b f -> injective f -> (forall y, f (g y) = y) ->
  (satisfies b row (convert_machine f m) <-> satisfies a (fun v => g (row v)) m).
Proof.
  intros V T U a b f g row m H I G. rewrite <- (C73_satisfies V T U a b f (fun v => g (row v)) m H I).
  assert (E : forall e, value b row e = value b (fun v => f (g (row v))) e).
  { induction e as [n|r|op l IHl r IHr|op x IH]; cbn [value]; auto; destruct op; congruence. }
  unfold satisfies. split; intros S e He; [rewrite <- E|rewrite E]; auto.
Qed.
Print Assumptions C73_rows.

Lemma convert_back V T U (f : T -> U) (g : U -> T) (e : aexpr V T) : (forall x, g (f x) = x) -> convert_expression g (convert_expression f e) = e.
Proof. intros G. induction e; cbn [convert_expression]; congruence. Qed.
(** Converting a precompile back gives the precompile; the conversion keeps the block, the substitutions and the optimistic
    constraints, and the columns. *)
Theorem C73_back : forall V B Sub O T U (f : T -> U) (g : U -> T) (x : apc V B Sub O T),
  (forall t, g (f t) = t) ->
  convert_apc g (convert_apc f x) = x /\
  block (convert_apc f x) = block x /\ subs (convert_apc f x) = subs x /\ optimistic (convert_apc f x) = optimistic x /\
  apc_machine (convert_apc f x) = convert_machine f (apc_machine x) /\
  map columns (constraints (apc_machine (convert_apc f x))) = map columns (constraints (apc_machine x)).
Proof.
  intros V B Sub O T U f g [bl [cs is ds] su oc] G. unfold convert_apc, convert_machine. cbn [block apc_machine subs optimistic constraints interactions derived].
  repeat split; auto.
  - f_equal. f_equal.
    + rewrite map_map. rewrite <- (map_id cs) at 2. apply map_ext. intros e. now apply convert_back.
    + rewrite map_map. rewrite <- (map_id is) at 2. apply map_ext. intros [i k l]. unfold convert_interaction. cbn [bus mult args]. rewrite convert_back by auto. f_equal.
      rewrite map_map. rewrite <- (map_id l) at 2. apply map_ext. intros e. now apply convert_back.
    + rewrite map_map. rewrite <- (map_id ds) at 2. apply map_ext. intros [v [c|e1 e2]]; cbn [fst snd convert_method]; [now rewrite G|now rewrite !convert_back by auto].
  - rewrite map_map. apply map_ext. intros e. induction e; cbn [convert_expression columns]; congruence.
Qed.
Print Assumptions C73_back.

(** A case: numbers modulo 7, and the same numbers kept as their doubles. *)
Open Scope N_scope.
Inductive seven := S0 | S1 | S2 | S3 | S4 | S5 | S6.
Definition num (s : seven) : N := match s with S0 => 0 | S1 => 1 | S2 => 2 | S3 => 3 | S4 => 4 | S5 => 5 | S6 => 6 end.
Definition of_num (n : N) : seven := match n mod 7 with 0 => S0 | 1 => S1 | 2 => S2 | 3 => S3 | 4 => S4 | 5 => S5 | _ => S6 end.
Definition plain : arith seven := mkArith S0 (fun x y => of_num (num x + num y)) (fun x y => of_num (num x + 7 - num y)) (fun x y => of_num (num x * num y))
  (fun x => of_num (7 - num x)) (fun x y => of_num (num x * num y ^ 5)).
(** Here 1 is kept as 2, so a product has to be divided by 2, that is, multiplied by 4. *)
Definition doubled : arith seven := mkArith S0 (fun x y => of_num (num x + num y)) (fun x y => of_num (num x + 7 - num y)) (fun x y => of_num (4 * (num x * num y)))
  (fun x => of_num (7 - num x)) (fun x y => of_num (2 * (num x * num y ^ 5))).
Definition double (x : seven) : seven := of_num (2 * num x).
Definition halve (x : seven) : seven := of_num (4 * num x).
(** [(x0 - 3) * x1 = 0], a message of [x0] and 5 sent [x1] times, and [x2 := 4 / x0]. *)
Definition small : apc nat nat nat unit seven := mkApc 12%nat (mkMachine
  [ABinary OpMul (ABinary OpSub (AReference 0%nat) (ANumber S3)) (AReference 1%nat)]
  [mkInteraction 8 (AReference 1%nat) [AReference 0%nat; ANumber S5]]
  [(2%nat, QuotientOrZero (ANumber S4) (AReference 0%nat)); (3%nat, Constant S1)]) [[1; 2]%nat] tt.
Definition good_row (v : nat) : seven := match v with 0 => S3 | 1 => S1 | _ => S0 end%nat.
Definition bad_row (v : nat) : seven := match v with 0 => S4 | 1 => S1 | _ => S0 end%nat.
Example C73_example : translates plain doubled double /\ injective double /\ (forall x, halve (double x) = x) /\ (forall y, double (halve y) = y) /\
  satisfies plain good_row (apc_machine small) /\ ~ satisfies plain bad_row (apc_machine small) /\
  sends plain good_row (apc_machine small) = [(8, S1, [S3; S5])] /\
  derives plain good_row (apc_machine small) = [(2%nat, S6); (3%nat, S1)] /\
  sends doubled (fun v => double (good_row v)) (convert_machine double (apc_machine small)) = [(8, S2, [S6; S3])] /\
  derives doubled (fun v => double (good_row v)) (convert_machine double (apc_machine small)) = [(2%nat, S5); (3%nat, S2)].
Proof.
  split. { constructor; [reflexivity| | | | |]; intros x; try (intros y; destruct y); destruct x; reflexivity. }
  split. { intros x y. destruct x, y; intros E; reflexivity || discriminate E. }
  split; [intros x; destruct x; reflexivity|]. split; [intros x; destruct x; reflexivity|].
  split. { intros e [<-|[]]. reflexivity. }
  split. { intros H. specialize (H _ (or_introl eq_refl)). discriminate H. }
  repeat split.
Qed.
