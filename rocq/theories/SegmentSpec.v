(** What running a program segment by segment should mean. *)
From Coq Require Import Arith NArith Bool List.
From Verif Require Import AirModel SegmentModel.
Import ListNotations.

Section Spec.
  Context {Input State Memory Records Ctx : Type}.
  Variable v : machine Input State Memory Records Ctx.
  (** From a state, segments lead to another one: each begins in the state in which the one before ended, and its context is
      made from its records and the memory of the state in which it begins. *)
  Inductive traced : State -> list segment -> list Ctx -> State -> Prop :=
  | traced_end s : traced s [] [] s
  | traced_segment s g records next ctx gs ctxs last :
      vm_preflight v s (g_insns g) (g_heights g) = Ok (records, next) -> vm_ctx v (Some (vm_memory v s)) records = Ok ctx ->
      traced next gs ctxs last -> traced s (g :: gs) (ctx :: ctxs) last.
  (** Why a segment cannot be traced. *)
  Inductive stuck (s : State) (g : segment) : res unit -> Prop :=
  | stuck_preflight_err : vm_preflight v s (g_insns g) (g_heights g) = Err -> stuck s g Err
  | stuck_preflight_panic : vm_preflight v s (g_insns g) (g_heights g) = Panic -> stuck s g Panic
  | stuck_ctx_err records next : vm_preflight v s (g_insns g) (g_heights g) = Ok (records, next) -> vm_ctx v (Some (vm_memory v s)) records = Err -> stuck s g Err
  | stuck_ctx_panic records next : vm_preflight v s (g_insns g) (g_heights g) = Ok (records, next) -> vm_ctx v (Some (vm_memory v s)) records = Panic -> stuck s g Panic.
  (** Things with their numbers from 0. *)
  Definition numbered (l : list Ctx) : list (nat * Ctx) := combine (seq 0 (length l)) l.
End Spec.
