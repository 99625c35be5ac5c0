(** What the counts should be. *)
From Coq Require Import Arith NArith Bool List Ascii String Lia.
From Verif Require Import NumModel JsonModel SymModel TraceModel TraceSpec AirModel ProfileModel.
Import ListNotations.
Local Open Scope list_scope.

(** The pc of an event is its last field of that name that is a u64. *)
Definition event_pc (e : event) (pc : N) : Prop :=
  exists before after, e = before ++ (txt "pc", U64 pc) :: after /\ forall v, ~ In (txt "pc", U64 v) after.
(** The pcs of events, in order, without the events that have none. *)
Inductive recorded : list event -> list N -> Prop :=
| recorded_nil : recorded [] []
| recorded_pc e pc es pcs : event_pc e pc -> recorded es pcs -> recorded (e :: es) (pc :: pcs)
| recorded_none e es pcs : (forall pc, ~ event_pc e pc) -> recorded es pcs -> recorded (e :: es) pcs.
Definition occurrences (pc : N) (pcs : list N) : nat := count_occ N.eq_dec pcs pc.

(** A number of things is the length of a list with each of them once. *)
Definition many {A} (P : A -> Prop) (n : nat) : Prop := exists l, NoDup l /\ (forall x, In x l <-> P x) /\ n = List.length l.
(** The sum of a number over instructions. *)
Definition total (f : N -> nat) (opcodes : list N) : nat := list_sum (map f opcodes).
