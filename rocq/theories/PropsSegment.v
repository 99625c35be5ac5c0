(** C67: a program is traced segment by segment, in order, and proving succeeds only if every segment was checked. *)
From Coq Require Import Arith NArith Bool List Lia.
From Verif Require Import AirModel SegmentModel SegmentSpec.
Import ListNotations.

Section Facts.
  Context {Input State Memory Records Ctx : Type}.
  Variable v : machine Input State Memory Records Ctx.
  Variable callback : nat -> Ctx -> bool.
  Definition numbered_from (n : nat) (l : list Ctx) : list (nat * Ctx) := combine (seq n (length l)) l.
  Lemma traced_one s gs c s' : traced v s gs c s' -> forall c2 s2, traced v s gs c2 s2 -> c2 = c /\ s2 = s'.
  Proof.
    induction 1 as [s|s g records next ctx gs ctxs last P C T IH]; intros c2 s2 T2; inversion T2 as [|? ? r2 n2 x2 ? c3 l3 P2 C2 T3]; subst; [auto|].
    rewrite P in P2. injection P2 as <- <-. rewrite C in C2. injection C2 as <-. destruct (IH _ _ T3) as [-> ->]. auto.
  Qed.
  (** The three ways in which the loop can end. *)
  Lemma each_segment_ends gs : forall idx s device, let r := each_segment v callback idx (Some s) device gs in
    (exists ctxs last, traced v s gs ctxs last /\ (forall k c, nth_error ctxs k = Some c -> callback (idx + k) c = true) /\ r_calls r = numbered_from idx ctxs /\ in_state (r_instance r) = Some last /\ r_result r = Ok tt) \/
    (exists done g rest ctxs at_, gs = done ++ g :: rest /\ traced v s done ctxs at_ /\ (forall k c, nth_error ctxs k = Some c -> callback (idx + k) c = true) /\ stuck v at_ g (r_result r) /\ r_calls r = numbered_from idx ctxs /\ in_state (r_instance r) = None) \/
    (exists done rest ctxs c at_, gs = done ++ rest /\ traced v s done (ctxs ++ [c]) at_ /\ (forall k c, nth_error ctxs k = Some c -> callback (idx + k) c = true) /\ callback (idx + length ctxs) c = false /\
       r_calls r = numbered_from idx (ctxs ++ [c]) /\ in_state (r_instance r) = None /\ r_result r = Panic).
  Proof.
    induction gs as [|g gs IH]; intros idx s device; cbn zeta; cbn [each_segment].
    - left. exists [], s. split; [constructor|]. split; [intros [|k] c; discriminate|]. auto.
    - assert (St : forall res, stuck v s g res -> (exists done g' rest ctxs at_, g :: gs = done ++ g' :: rest /\ traced v s done ctxs at_ /\ (forall k c, nth_error ctxs k = Some c -> callback (idx + k) c = true) /\ stuck v at_ g' res /\
          (@nil (nat * Ctx)) = numbered_from idx ctxs /\ (None : option State) = None)).
      { intros res H. exists [], g, gs, [], s. split; [reflexivity|]. split; [constructor|]. split; [intros [|k] c; discriminate|]. auto. }
      destruct (vm_preflight v s (g_insns g) (g_heights g)) as [[records next]| |] eqn:P.
      + destruct (vm_ctx v (Some (vm_memory v s)) records) as [ctx| |] eqn:C.
        * destruct (callback idx ctx) eqn:Cb.
          -- cbn [called r_calls r_instance r_result]. specialize (IH (S idx) next (Some (vm_memory v s))). cbn zeta in IH. set (r := each_segment v callback (S idx) (Some next) (Some (vm_memory v s)) gs) in *.
             assert (Cbs : forall ctxs, (forall k c, nth_error ctxs k = Some c -> callback (S idx + k) c = true) -> forall k c, nth_error (ctx :: ctxs) k = Some c -> callback (idx + k) c = true).
             { intros ctxs H [|k] c; cbn; [intros [= <-]; now rewrite Nat.add_0_r|]. intros Hk. rewrite Nat.add_succ_r. exact (H k c Hk). }
             destruct IH as [(ctxs & last & T & H & E & I & R)|[(done & g' & rest & ctxs & at_ & -> & T & H & S & E & I)|(done & rest & ctxs & c & at_ & -> & T & H & F & E & I & R)]].
             ++ left. exists (ctx :: ctxs), last. split; [exact (traced_segment v s g records next ctx gs ctxs last P C T)|]. split; [now apply Cbs|]. rewrite E. auto.
             ++ right. left. exists (g :: done), g', rest, (ctx :: ctxs), at_. split; [reflexivity|]. split; [exact (traced_segment v s g records next ctx done ctxs at_ P C T)|]. split; [now apply Cbs|]. rewrite E. auto.
             ++ right. right. exists (g :: done), rest, (ctx :: ctxs), c, at_. split; [reflexivity|]. split; [exact (traced_segment v s g records next ctx done _ at_ P C T)|]. split; [now apply Cbs|]. cbn [length]. rewrite Nat.add_succ_r. rewrite E. auto.
          -- right. right. exists [g], gs, [], ctx, next. split; [reflexivity|]. split; [exact (traced_segment v s g records next ctx [] [] next P C (traced_end v next))|]. split; [intros [|k] c; discriminate|]. cbn. rewrite Nat.add_0_r. auto.
        * right. left. apply St. now apply (stuck_ctx_err v s g records next).
        * right. left. apply St. now apply (stuck_ctx_panic v s g records next).
      + right. left. apply St. now apply stuck_preflight_err.
      + right. left. apply St. now apply stuck_preflight_panic.
  Qed.
  Lemma stuck_not_ok s g : ~ stuck v s g (Ok tt).
  Proof. intros H. inversion H. Qed.
  Lemma traced_stuck s done : forall g rest ctxs at_ res, traced v s done ctxs at_ -> stuck v at_ g res -> forall c s', ~ traced v s (done ++ g :: rest) c s'.
  Proof.
    revert s. induction done as [|d done IH]; intros s g rest ctxs at_ res T S c s' T'.
    - inversion T; subst. cbn in T'. inversion T' as [|? ? r n x ? ? ? P C]; subst. inversion S; congruence.
    - inversion T as [|? ? r n x ? cs ? P C T2]; subst. cbn in T'. inversion T' as [|? ? r2 n2 x2 ? c2 ? P2 C2 T2']; subst. rewrite P in P2. injection P2 as <- <-. exact (IH _ _ _ _ _ _ T2 S _ _ T2').
  Qed.
  Lemma traced_prefix s done : forall rest ctxs at_, traced v s done ctxs at_ -> forall c s', traced v s (done ++ rest) c s' -> exists more, c = ctxs ++ more.
  Proof.
    revert s. induction done as [|d done IH]; intros s rest ctxs at_ T c s' T'.
    - inversion T; subst. now exists c.
    - inversion T as [|? ? r n x ? cs ? P C T2]; subst. cbn in T'. inversion T' as [|? ? r2 n2 x2 ? c2 ? P2 C2 T2']; subst. rewrite P in P2. injection P2 as <- <-. rewrite C in C2. injection C2 as <-.
      destruct (IH _ _ _ _ T2 _ _ T2') as (more & ->). now exists more.
  Qed.
End Facts.

(** Tracing succeeds exactly if all segments of the metered execution can be traced one after the other from the initial state
    and no callback panics.  Then the callback has been called once for every segment, in order, with its number and its
    context, and the instance is in the last state. *)
Theorem C67_success : forall (Input State Memory Records Ctx : Type) (v : machine Input State Memory Records Ctx) inputs callback,
  let r := do_with_trace v inputs callback in
  (r_result r = Ok tt <-> exists gs ctxs last, vm_metered v inputs = Ok gs /\ traced v (vm_initial v inputs) gs ctxs last /\ forall k c, nth_error ctxs k = Some c -> callback k c = true) /\
  (forall gs ctxs last, r_result r = Ok tt -> vm_metered v inputs = Ok gs -> traced v (vm_initial v inputs) gs ctxs last ->
     r_calls r = numbered ctxs /\ in_state (r_instance r) = Some last).
Proof.
  intros Input State Memory Records Ctx v inputs callback r. unfold r, do_with_trace. destruct (vm_metered v inputs) as [gs| |]; cbn [in_state in_device].
  - destruct (each_segment_ends v callback gs 0 (vm_initial v inputs) None) as [(ctxs & last & T & H & E & I & R)|[(done & g' & rest & ctxs & at_ & -> & T & H & S & E & I)|(done & rest & ctxs & c & at_ & -> & T & H & F & E & I & R)]].
    + split.
      * split; [intros _; now exists gs, ctxs, last|intros _; exact R].
      * intros gs' ctxs' last' _ [= <-] T'. destruct (traced_one v _ _ _ _ T _ _ T') as [-> ->]. split; [exact E|exact I].
    + assert (N : r_result (each_segment v callback 0 (Some (vm_initial v inputs)) None (done ++ g' :: rest)) <> Ok tt) by (intros X; rewrite X in S; now apply stuck_not_ok in S).
      split; [split; [now intros X|]|intros; contradiction]. intros (gs' & ctxs' & last' & [= <-] & T' & _). exfalso. exact (traced_stuck v _ _ _ _ _ _ _ T S _ _ T').
    + split; [split; [rewrite R; discriminate|]|rewrite R; discriminate]. intros (gs' & ctxs' & last' & [= <-] & T' & H'). exfalso.
      destruct (traced_prefix v _ _ _ _ _ T _ _ T') as (more & ->). specialize (H' (length ctxs) c). rewrite <- app_assoc, nth_error_app2, Nat.sub_diag in H' by lia. specialize (H' eq_refl). cbn in F. congruence.
  - split; [|discriminate]. split; [discriminate|]. intros (gs & ctxs & last & H & _). discriminate.
  - split; [|discriminate]. split; [discriminate|]. intros (gs & ctxs & last & H & _). discriminate.
Qed.
Print Assumptions C67_success.

(** If it fails after the metered execution, the reason is a segment that cannot be traced, or a callback that panics.  The callback has been
    called for exactly the segments before the failure (for that of the panic as well), in order, and the instance has lost its state. *)
Theorem C67_failure : forall (Input State Memory Records Ctx : Type) (v : machine Input State Memory Records Ctx) inputs callback gs,
  let r := do_with_trace v inputs callback in
  r_result r <> Ok tt -> vm_metered v inputs = Ok gs -> in_state (r_instance r) = None /\
  exists done rest ctxs at_, gs = done ++ rest /\ traced v (vm_initial v inputs) done ctxs at_ /\ r_calls r = numbered ctxs /\
    ((exists g rest', rest = g :: rest' /\ stuck v at_ g (r_result r) /\ forall k c, nth_error ctxs k = Some c -> callback k c = true) \/
     (exists before c, ctxs = before ++ [c] /\ callback (length before) c = false /\ r_result r = Panic /\ forall k c, nth_error before k = Some c -> callback k c = true)).
Proof.
  intros Input State Memory Records Ctx v inputs callback gs r. unfold r, do_with_trace. intros N M. rewrite M in *. cbn [in_state in_device] in *.
  destruct (each_segment_ends v callback gs 0 (vm_initial v inputs) None) as [(ctxs & last & T & H & E & I & R)|[(done & g' & rest & ctxs & at_ & -> & T & H & St & E & I)|(done & rest & ctxs & c & at_ & -> & T & H & X & E & I & R)]].
  - contradiction.
  - split; [exact I|]. exists done, (g' :: rest), ctxs, at_. split; [reflexivity|]. split; [exact T|]. split; [exact E|]. left. now exists g', rest.
  - split; [exact I|]. exists done, rest, (ctxs ++ [c]), at_. split; [reflexivity|]. split; [exact T|]. split; [exact E|]. right. now exists ctxs, c.
Qed.
Print Assumptions C67_failure.

(** If the metered execution fails, no callback is called. *)
Theorem C67_metered : forall (Input State Memory Records Ctx : Type) (v : machine Input State Memory Records Ctx) inputs callback,
  let r := do_with_trace v inputs callback in
  (vm_metered v inputs = Err -> r_calls r = [] /\ r_result r = Err) /\ (vm_metered v inputs = Panic -> r_calls r = [] /\ r_result r = Panic).
Proof. intros Input State Memory Records Ctx v inputs callback r. unfold r, do_with_trace. split; intros ->; auto. Qed.
Print Assumptions C67_metered.

(** Tracing does not panic by itself: a panic is one of OpenVM or of the callback. *)
Theorem C67_no_panic : forall (Input State Memory Records Ctx : Type) (v : machine Input State Memory Records Ctx) inputs callback,
  vm_metered v inputs <> Panic -> (forall s n h, vm_preflight v s n h <> Panic) -> (forall m r, vm_ctx v m r <> Panic) -> (forall k c, callback k c = true) ->
  r_result (do_with_trace v inputs callback) <> Panic.
Proof.
  intros Input State Memory Records Ctx v inputs callback M P C B R. destruct (vm_metered v inputs) as [gs| |] eqn:E; [| |contradiction].
  - assert (N : r_result (do_with_trace v inputs callback) <> Ok tt) by (rewrite R; discriminate).
    destruct (C67_failure _ _ _ _ _ v inputs callback gs N E) as (_ & done & rest & ctxs & at_ & _ & _ & _ & [(g & rest' & _ & St & _)|(before & c & _ & X & _)]).
    + rewrite R in St. inversion St; [now apply (P at_ (g_insns g) (g_heights g))|]. eapply C. eassumption.
    + now rewrite B in X.
  - unfold do_with_trace in R. rewrite E in R. discriminate.
Qed.
Print Assumptions C67_no_panic.

Section Proving.
  Context {Exe Limits Other Input State Memory Records Ctx Proof : Type}.
  Notation prog := (program Exe Limits Other).
  Variables (default_limits : Limits) (with_max_trace_height : Limits -> N -> Limits) (sdk : prog -> bool)
    (app_prover : prog -> res (machine Input State Memory Records Ctx)) (check : prog -> Ctx -> bool)
    (prover : bool -> prog -> Input -> res Proof) (verifier : bool -> prog -> Proof -> res unit).
  Notation prove := (prove default_limits with_max_trace_height sdk app_prover check prover verifier).
  (** What is proved is the program of the caller: its executable and its configuration, except for the limits of segments,
      and those too if no height is given.  The lower 32 bits of a height count. *)
  Definition same_program (segment_height : option N) (p q : prog) : Prop :=
    pr_exe q = pr_exe p /\ pr_other q = pr_other p /\
    match segment_height with None => pr_limits q = pr_limits p | Some h => pr_limits q = with_max_trace_height default_limits (h mod 2 ^ 32) end.

  Lemma limited_same p h : same_program h p (limited default_limits with_max_trace_height p h).
  Proof.
    destruct h as [h|]; (split; [reflexivity|]); (split; [reflexivity|]); reflexivity.
  Qed.

  (** Proving succeeds exactly if a proof for this program and these inputs was generated and accepted by its verifier. *)
  Theorem C67_prove : forall debug p recursion inputs h, exists q, same_program h p q /\
    (prove debug p false recursion inputs h = Ok tt <-> sdk q = true /\ exists proof, prover recursion q inputs = Ok proof /\ verifier recursion q proof = Ok tt).
  Proof.
    intros debug p recursion inputs h. exists (limited default_limits with_max_trace_height p h). split; [apply limited_same|]. unfold SegmentModel.prove. cbn iota.
    set (q := limited default_limits with_max_trace_height p h). destruct (sdk q); [|split; [discriminate|intros [X _]; discriminate]].
    destruct (prover recursion q inputs) as [proof| |].
    - split; [intros V; split; [reflexivity|]; now exists proof|]. intros (_ & proof' & [= <-] & V). exact V.
    - split; [discriminate|]. intros (_ & proof' & X & _). discriminate.
    - split; [discriminate|]. intros (_ & proof' & X & _). discriminate.
  Qed.
  (** A mock proof succeeds exactly if the program can be traced to its end and, with debug assertions, the constraints of every segment hold. *)
  Theorem C67_mock : forall debug p recursion inputs h, exists q, same_program h p q /\
    (prove debug p true recursion inputs h = Ok tt <-> sdk q = true /\ exists v gs ctxs last, app_prover q = Ok v /\ vm_metered v inputs = Ok gs /\
       traced v (vm_initial v inputs) gs ctxs last /\ (debug = true -> Forall (fun c => check q c = true) ctxs)).
  Proof.
    intros debug p recursion inputs h. exists (limited default_limits with_max_trace_height p h). split; [apply limited_same|]. unfold SegmentModel.prove. cbn iota.
    set (q := limited default_limits with_max_trace_height p h). destruct (sdk q); [|split; [discriminate|intros [X _]; discriminate]].
    destruct (app_prover q) as [v| |].
    - rewrite (proj1 (C67_success _ _ _ _ _ v inputs (fun _ ctx => if debug then check q ctx else true))). split.
      + intros (gs & ctxs & last & M & T & H). split; [reflexivity|]. exists v, gs, ctxs, last. split; [reflexivity|]. split; [exact M|]. split; [exact T|]. intros ->.
        apply (proj2 (Forall_forall (fun c => check q c = true) ctxs)). intros c Hc. apply In_nth_error in Hc. destruct Hc as [k Hk]. exact (H k c Hk).
      + intros (_ & v' & gs & ctxs & last & [= <-] & M & T & H). exists gs, ctxs, last. split; [exact M|]. split; [exact T|]. intros k c Hk. destruct debug; [|reflexivity].
        exact (proj1 (Forall_forall (fun c => check q c = true) ctxs) (H eq_refl) c (nth_error_In _ _ Hk)).
    - split; [discriminate|]. intros (_ & v & gs & ctxs & last & X & _). discriminate.
    - split; [discriminate|]. intros (_ & v & gs & ctxs & last & X & _). discriminate.
  Qed.
End Proving.
Print Assumptions C67_prove.
Print Assumptions C67_mock.

(** ** A machine that counts down, two units of work per segment.  Records are the instructions done, a context is the pair of the memory at
    the start and the records. *)
Definition counter : machine nat nat nat nat (nat * nat) :=
  mkMachine (fun i => i) (fun s => s) (fun i => if i <? 10 then Ok (map (fun _ => mkSegment 2 [4%N]) (seq 0 (i / 2))) else Err)
    (fun s n _ => if s <? N.to_nat n then Err else Ok (N.to_nat n, s - N.to_nat n)) (fun m r => match m with Some m => Ok (m, r) | None => Panic end).
Example C67_counter : do_with_trace counter 6 (fun _ _ => true) = mkRun [(0, (6, 2)); (1, (4, 2)); (2, (2, 2))] (mkInstance (Some 0) (Some 2)) (Ok tt).
Proof. reflexivity. Qed.
Example C67_counter_traced : exists gs, vm_metered counter 6 = Ok gs /\ traced counter 6 gs [(6, 2); (4, 2); (2, 2)] 0.
Proof. eexists. split; [reflexivity|]. cbn. repeat (eapply traced_segment; [reflexivity|reflexivity|]). constructor. Qed.
Example C67_counter_panics : do_with_trace counter 6 (fun k _ => k <? 1) = mkRun [(0, (6, 2)); (1, (4, 2))] (mkInstance None (Some 4)) Panic.
Proof. reflexivity. Qed.
Example C67_counter_metered : vm_metered counter 12 = Err.
Proof. reflexivity. Qed.
(** The same with a check of the contexts: the memory at the start must not be 4.  Programs are limits of heights and of cells. *)
Definition counting (p : program nat (N * N) unit) := Ok counter.
Definition example_prove := prove (Exe := nat) (Other := unit) (4194304%N, 1000%N) (fun l h => (h, snd l)) (fun _ => true) counting
  (fun _ c => negb (fst c =? 4)) (fun r _ i => if i <? 10 then Ok (r, i) else Err) (fun r _ pr => if Bool.eqb r (fst pr) && negb (snd pr =? 7) then Ok tt else Err).
Definition example_program : program nat (N * N) unit := mkProgram 1 (1024%N, 5%N) tt.
Example C67_example_prove : example_prove true example_program false true 6 (Some 4%N) = Ok tt /\ example_prove true example_program false false 7 None = Err /\
  example_prove true example_program true false 3 None = Ok tt /\ example_prove true example_program true false 6 None = Panic.
Proof. repeat split; reflexivity. Qed.

(** The option for a mock proof says "constraint check only", but in a release build a mock proof succeeds although constraints are violated. *)
Theorem C67_mock_release_refuted : ~ (forall (p : program nat (N * N) unit) inputs h, example_prove false p true false inputs h = Ok tt ->
  exists ctxs last gs, vm_metered counter inputs = Ok gs /\ traced counter (vm_initial counter inputs) gs ctxs last /\ Forall (fun c => negb (fst c =? 4) = true) ctxs).
Proof.
  intros H. specialize (H example_program 6 None eq_refl). destruct H as (ctxs & last & gs & M & T & A). destruct C67_counter_traced as (gs' & M' & T'). rewrite M in M'. injection M' as <-.
  destruct (traced_one counter _ _ _ _ T' _ _ T) as [-> _]. inversion A as [|? ? _ A2]; subst. inversion A2; discriminate.
Qed.
Print Assumptions C67_mock_release_refuted.

(** A height for segments replaces all limits of the program by the default ones, and heights from [2^32] on wrap around. *)
Theorem C67_limits_refuted :
  ~ (forall (p : program nat (N * N) unit) h, snd (pr_limits (limited (4194304%N, 1000%N) (fun l h => (h, snd l)) p (Some h))) = snd (pr_limits p)) /\
  ~ (forall (p : program nat (N * N) unit) h, fst (pr_limits (limited (4194304%N, 1000%N) (fun l h => (h, snd l)) p (Some h))) = h).
Proof. split; intros H; [specialize (H example_program 4%N)|specialize (H example_program (2 ^ 32)%N)]; vm_compute in H; discriminate. Qed.
Print Assumptions C67_limits_refuted.
