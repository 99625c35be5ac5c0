(** What the cache of artifacts should do. *)
From Coq Require Import NArith List.
From Verif Require Import NumModel CacheModel.
Import ListNotations.
Local Open Scope list_scope.

(** Characters are printed so that they can be read again, and never as an ending quotation mark. *)
Definition escaping_ok (escape : N -> text) : Prop :=
  (forall c d r s, escape c ++ r = escape d ++ s -> c = d /\ r = s) /\ forall c r s, escape c ++ r <> 34%N :: s.
(** A value can be read from all of its bytes, and not from fewer. *)
Definition codec_ok {T} (encode : T -> list N) (decode : list N -> option T) : Prop :=
  forall x, decode (encode x) = Some x /\ forall k, (k < length (encode x))%nat -> decode (firstn k (encode x)) = None.
(** No two of the values have the same digest. *)
Definition no_collision (digest : list (list N) -> N) (l : list (list (list N))) : Prop :=
  forall x y, In x l -> In y l -> digest x = digest y -> x = y.

Section Spec.
  Context {world apcs program : Type}.
  Variable escape : N -> text.
  Variable exe : world -> list N.
  Variable digest : list (list N) -> N.
  Variable selects : select_args -> world -> apcs -> Prop.
  Variable sets_up : world -> apcs -> program -> Prop.
  (** The answers of a command without a cache. *)
  Inductive could_answer (w : world) : command -> @answer apcs program -> Prop :=
  | could_select a r : selects a w r -> could_answer w (SelectApcs a) (Selected r)
  | could_setup c a r p : setup_of c = Some a -> selects (u_select a) w r -> sets_up w r p -> could_answer w c (Ready p).
  (** The commands in a history. *)
  Definition used (l : list (@event world apcs program)) : list (world * command) :=
    flat_map (fun e => match e with Finished _ w c _ | Interrupted _ w c => [(w, c)] | Damaged _ _ => [] end) l.
  (** The values that are hashed for a command. *)
  Definition hashed (u : world * command) : list (list (list N)) :=
    [exe (fst u)] :: [show_select escape (select_of (snd u)); guest_hash exe digest (fst u)] ::
    match setup_of (snd u) with Some a => [[show_setup escape a; guest_hash exe digest (fst u)]] | None => [] end.
  (** The results depend on nothing but the arguments and the executable. *)
  Definition depends_on_exe (ws : list world) : Prop :=
    forall w w', In w ws -> In w' ws -> exe w = exe w' ->
      (forall a r, selects a w r <-> selects a w' r) /\ (forall r p, sets_up w r p <-> sets_up w' r p).
  (** Two commands that only differ in what comes after the setup. *)
  Definition same_stages (c c' : command) : Prop := setup_of c = setup_of c' /\ select_of c = select_of c'.
  Definition undamaged (l : list (@event world apcs program)) : Prop := forall f k, ~ In (Damaged f k) l.
  Definition no_files : files := fun _ => None.
End Spec.
