(** What the messages on the memory bus mean. *)
From Coq Require Import Arith NArith Bool List.
From Verif Require Import Field ExprModel SystemModel SymModel SymSpec MemModel.
Import ListNotations.

Section MemSpec.
  Context {p : positive}.
  (** A message on the memory bus with multiplicity 1 stores a content (data and time stamp) at an address
      (address space and pointer), one with multiplicity -1 takes it away again. *)
  Definition access (memory_bus : N) (b : busi (F p)) (op : memop) (addr : F p * F p) (content : list (F p)) : Prop :=
    bus_id b = of_N memory_bus /\ mult b = (match op with SetNew => 1%F | GetPrevious => fopp 1%F end) /\
    payload b = fst addr :: snd addr :: content.
  (** The messages are in chronological order: what is taken away from an address is what was stored there just
      before, if the block accessed that address before. *)
  Definition chronological (memory_bus : N) (l : list (busi (F p))) : Prop :=
    forall i j bi bj op addr ci cj, i < j -> nth_error l i = Some bi -> nth_error l j = Some bj ->
      access memory_bus bi op addr ci -> access memory_bus bj GetPrevious addr cj ->
      (forall k bk opk ck, i < k < j -> nth_error l k = Some bk -> ~ access memory_bus bk opk addr ck) ->
      op = SetNew /\ ci = cj.
  (** The net number of times a message is sent on a bus. *)
  Definition is_message (bus : F p) (args : list (F p)) (b : busi (F p)) : Prop := bus_id b = bus /\ payload b = args.
  Definition F_dec (x y : F p) : {x = y} + {x <> y}.
  Proof. destruct (feqb x y) eqn:E; [left; now apply feqb_eq|right; intros H; apply feqb_eq in H; congruence]. Defined.
  Definition message_dec bus args b : {is_message bus args b} + {~ is_message bus args b}.
  Proof.
    unfold is_message. destruct (F_dec (bus_id b) bus); [|right; tauto]. destruct (list_eq_dec F_dec (payload b) args); [left; auto|right; tauto].
  Defined.
  Fixpoint net (bus : F p) (args : list (F p)) (l : list (busi (F p))) : F p :=
    match l with [] => 0%F | b :: r => ((if message_dec bus args b then mult b else 0) + net bus args r)%F end.
  (** The same for the messages of a symbolic machine. *)
  Fixpoint net_messages (bus : N) (args : list (F p)) (l : list (N * F p * list (F p))) : F p :=
    match l with
    | [] => 0%F
    | (b, m, a) :: r => ((if N.eq_dec b bus then if list_eq_dec F_dec a args then m else 0 else 0) + net_messages bus args r)%F
    end.
End MemSpec.

(** Receives and sends on the execution bus, one pair per instruction. *)
Section ExecChain.
  Context {p : positive}.
  Definition receives_and_sends (l : list (sbus p * sbus p)) : list (sbus p) := flat_map (fun rs => [fst rs; snd rs]) l.
  (** The send of an instruction with the receive of the next one; the last send. *)
  Fixpoint handovers (s : sbus p) (l : list (sbus p * sbus p)) : list (sbus p * sbus p) :=
    match l with [] => [] | (r, s') :: l => (s, r) :: handovers s' l end.
  Fixpoint last_send (s : sbus p) (l : list (sbus p * sbus p)) : sbus p := match l with [] => s | (_, s') :: l => last_send s' l end.
  Definition elsewhere (bus : N) (m : smach p) : list (sbus p) := filter (fun b => negb (sb_id b =? bus)%N) (sm_buses m).
End ExecChain.
