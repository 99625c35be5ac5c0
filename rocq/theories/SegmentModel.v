(** Model of running a program segment by segment, openvm/src/trace_generation.rs, and of [prove] in openvm-riscv/src/lib.rs
    259-351.  The virtual machine, the provers and the verifiers belong to OpenVM: they are parameters. *)
From Coq Require Import Arith NArith Bool List.
From Verif Require Import AirModel.
Import ListNotations.

(** [Segment] of OpenVM: what is used of it. *)
Record segment := mkSegment { g_insns : N; g_heights : list N }.

Section Segments.
  Context {Input State Memory Records Ctx : Type}.
  (** A virtual machine with its program: the state for inputs ([reset_state]), [state.memory], [execute_metered],
      [execute_preflight] and [generate_proving_ctx], which reads the memory that was transported to the device. *)
  Record machine := mkMachine {
    vm_initial : Input -> State; vm_memory : State -> Memory; vm_metered : Input -> res (list segment);
    vm_preflight : State -> N -> list N -> res (Records * State); vm_ctx : option Memory -> Records -> res Ctx }.
  (** The instance of the prover: its state and the memory on the device. *)
  Record instance := mkInstance { in_state : option State; in_device : option Memory }.
  (** What happened: the calls of the callback in order, the instance afterwards, and the result. *)
  Record run := mkRun { r_calls : list (nat * Ctx); r_instance : instance; r_result : res unit }.
  Definition called (i : nat) (c : Ctx) (r : run) : run := mkRun ((i, c) :: r_calls r) (r_instance r) (r_result r).

  (** trace_generation.rs 112-137: [state] is the local variable, the state of the instance has been taken.  A callback
      returns [false] if it panics. *)
  Fixpoint each_segment (v : machine) (callback : nat -> Ctx -> bool) (idx : nat) (state : option State) (device : option Memory) (l : list segment) : run :=
    match l with
    | [] => mkRun [] (mkInstance state device) (Ok tt)
    | g :: rest =>
      match state with
      | None => mkRun [] (mkInstance None device) Panic
      | Some from =>
        let device := Some (vm_memory v from) in
        match vm_preflight v from (g_insns g) (g_heights g) with
        | Ok (records, to) =>
          match vm_ctx v device records with
          | Ok ctx => called idx ctx (if callback idx ctx then each_segment v callback (S idx) (Some to) device rest else mkRun [] (mkInstance None device) Panic)
          | Err => mkRun [] (mkInstance None device) Err
          | Panic => mkRun [] (mkInstance None device) Panic
          end
        | Err => mkRun [] (mkInstance None device) Err
        | Panic => mkRun [] (mkInstance None device) Panic
        end
      end
    end.
  (** 80-141 [do_with_trace_with_sdk], after the prover for the app has been created. *)
  Definition do_with_trace (v : machine) (inputs : Input) (callback : nat -> Ctx -> bool) : run :=
    let reset := mkInstance (Some (vm_initial v inputs)) None in
    match vm_metered v inputs with
    | Ok segments => each_segment v callback 0 (in_state reset) (in_device reset) segments
    | Err => mkRun [] reset Err
    | Panic => mkRun [] reset Panic
    end.
End Segments.
Arguments machine : clear implicits.
Arguments instance : clear implicits.
Arguments run : clear implicits.

(** ** Proving *)
Section Prove.
  Context {Exe Limits Other Input State Memory Records Ctx Proof : Type}.
  (** [CompiledProgram]: the executable, the limits of segments and the rest of the configuration. *)
  Record program := mkProgram { pr_exe : Exe; pr_limits : Limits; pr_other : Other }.
  (** OpenVM's [SegmentationLimits::default()] and [with_max_trace_height]. *)
  Variable default_limits : Limits.
  Variable with_max_trace_height : Limits -> N -> Limits.
  (** Whether the SDK can be created, and the virtual machine of [app_prover]. *)
  Variable sdk : program -> bool.
  Variable app_prover : program -> res (machine Input State Memory Records Ctx).
  (** The check of the constraints of a segment, which panics. *)
  Variable debug_proving_ctx : program -> Ctx -> bool.
  (** The provers with and without recursion, and their verifiers. *)
  Variable prover : bool -> program -> Input -> res Proof.
  Variable verifier : bool -> program -> Proof -> res unit.

  (** lib.rs 270-286: [as u32]; the caller's program is cloned. *)
  Definition limited (p : program) (segment_height : option N) : program :=
    match segment_height with
    | Some h => mkProgram (pr_exe p) (with_max_trace_height default_limits (h mod 2 ^ 32)) (pr_other p)
    | None => p
    end.
  (** 259-351; [debug]: the code was compiled with debug assertions.  Messages to the log are left out.  The creation of the
      SDK returns an error in [do_with_trace] (trace_generation.rs 48-49) and is unwrapped in the other case (305-307).  The creation
      of the provers is part of [app_prover] and [prover], the key and the baseline are parts of [verifier]. *)
  Definition prove (debug : bool) (p : program) (mock recursion : bool) (inputs : Input) (segment_height : option N) : res unit :=
    let p := limited p segment_height in
    if mock then
      if sdk p then
        match app_prover p with
        | Ok v => r_result (do_with_trace v inputs (fun _ ctx => if debug then debug_proving_ctx p ctx else true))
        | Err => Err
        | Panic => Panic
        end
      else Err
    else
      if sdk p then
        match prover recursion p inputs with
        | Ok proof => verifier recursion p proof
        | Err => Err
        | Panic => Panic
        end
      else Panic.
End Prove.
Arguments program : clear implicits.
