(** The selection of blocks, independently of how it is computed. *)
From Coq Require Import Arith NArith Bool List Permutation.
From Verif Require Import BlocksModel BlocksSpec SelModel.
Import ListNotations.
Local Open Scope N_scope.

(** [carve needle run n gaps]: taking the occurrences of [needle] out of [run] from left to right, [n]
    of them, leaves the stretches [gaps] between them. *)
Inductive carve (needle : list N) : list N -> nat -> list (list N) -> Prop :=
| carve_end run : ~ contiguous needle run -> carve needle run 0 [run]
| carve_hit a b n gaps :
    (forall i, occurs_at needle (a ++ needle ++ b) i -> (length a <= i)%nat) ->
    carve needle b n gaps -> carve needle (a ++ needle ++ b) (S n) (a :: gaps).
Definition nonempty (run : list N) : bool := match run with [] => false | _ => true end.
(** The same for an execution, which consists of runs that each happen a number of times:
    [uses needle exec n exec']: the needle is executed [n] times, and [exec'] is the rest. *)
Inductive uses (needle : list N) : list (list N * N) -> N -> list (list N * N) -> Prop :=
| uses_nil : uses needle [] 0 []
| uses_cons run k exec n gaps m exec' :
    carve needle run n gaps -> uses needle exec m exec' ->
    uses needle ((run, k) :: exec) (N.of_nat n * k + m) (map (fun g => (g, k)) (filter nonempty gaps) ++ exec').
(** What is left of an execution after the candidates [l] have been taken out, one after the other. *)
Inductive left_after (cands : list cand) : list (list N * N) -> list nat -> list (list N * N) -> Prop :=
| left_nil exec : left_after cands exec [] exec
| left_cons exec i c n exec1 l exec2 :
    nth_error cands i = Some c -> uses (c_pcs c) exec n exec1 -> left_after cands exec1 l exec2 ->
    left_after cands exec (i :: l) exec2.
(** The columns the candidates [l] take. *)
Definition columns (cands : list cand) (l : list nat) : N :=
  fold_right N.add 0 (map (fun i => match nth_error cands i with Some c => c_cost c | None => 0 end) l).
(** Candidate [c] used [n] times saves at least as much per column as [d] used [m] times; if they save
    the same, [c] starts at a pc that is not smaller. *)
Definition at_least_as_good (c : cand) (n : N) (d : cand) (m : N) : Prop :=
  let l := n * c_value c * c_cost d in let r := m * c_value d * c_cost c in
  r < l \/ (r = l /\ hd 0 (c_pcs d) <= hd 0 (c_pcs c)).
(** [i] is a best candidate that fits when [l] has been selected. *)
Definition best_next (cands : list cand) (budget : N) (exec : list (list N * N)) (l : list nat) (i : nat) : Prop :=
  ~ In i l /\
  exists c rest n rest', nth_error cands i = Some c /\ left_after cands exec l rest /\ uses (c_pcs c) rest n rest' /\
    0 < n /\ columns cands l + c_cost c <= budget /\
    forall j d m rest'', ~ In j l -> nth_error cands j = Some d -> uses (c_pcs d) rest m rest'' -> 0 < m ->
      columns cands l + c_cost d <= budget -> at_least_as_good c n d m.
(** No further candidate fits and is still executed. *)
Definition exhausted (cands : list cand) (budget : N) (exec : list (list N * N)) (l : list nat) : Prop :=
  exists rest, left_after cands exec l rest /\
  forall j d m rest', ~ In j l -> nth_error cands j = Some d -> uses (c_pcs d) rest m rest' ->
    m = 0 \/ budget < columns cands l + c_cost d.

(** [l] is a selection of different candidates within the budget and the limit (a limit of zero counts as
    one), each the best at its time, that stops only at the limit or when nothing is left. *)
Definition selection_ok (cands : list cand) (exec : list (list N * N)) (budget : N) (limit : nat) (l : list nat) : Prop :=
  NoDup l /\ Forall (fun i => (i < length cands)%nat) l /\ (length l <= Nat.max 1 limit)%nat /\ columns cands l <= budget /\
  (forall a i b, l = a ++ i :: b -> best_next cands budget exec a i) /\
  ((limit <= length l)%nat \/ exhausted cands budget exec l).

(** The number of executed blocks. *)
Definition executed (exec : list (list N * N)) : N := fold_right N.add 0 (map (fun rk => N.of_nat (length (fst rk)) * snd rk) exec).
(** What the arithmetic of the code can cope with: 32-bit counts, 64-bit columns and values. *)
Definition in_range (cands : list cand) (exec : list (list N * N)) : Prop :=
  executed exec < 2 ^ 32 /\
  columns cands (seq 0 (length cands)) < 2 ^ 64 /\
  forall c d, In c cands -> In d cands -> c_count c * c_value c * c_cost d < 2 ^ 64.
(** A candidate is a non-empty sequence of blocks, it has a column, and its count is not smaller than
    the number of its executions. *)
Definition candidate_ok (exec : list (list N * N)) (c : cand) : Prop :=
  c_pcs c <> [] /\ 0 < c_cost c /\ forall n rest, uses (c_pcs c) exec n rest -> n <= c_count c.

(** A priority queue, as the list of its entries: [pop] returns an entry that is not smaller than any
    other.  Only required as far as the comparisons do not panic and the costs are positive, where the
    comparison is a total preorder. *)
Definition queue_ok (pop : list (nat * density) -> option ((nat * density) * list (nat * density))) : Prop :=
  forall q, q <> [] ->
  (forall a b, In a q -> In b q -> density_cmp (snd a) (snd b) <> None) ->
  (forall a, In a q -> 0 < d_cost (snd a)) ->
  exists x r, pop q = Some (x, r) /\ Permutation q (x :: r) /\
    forall y, In y r -> density_cmp (snd x) (snd y) <> Some Lt.

(** ** Whole compilations *)
Section Compile.
  Context {I : Type}.
  Local Notation bblock := (bblock I).
  (** The superblock can be executed as a unit [n] times, and is kept by the limits of the configuration. *)
  Definition eligible (trace : list bblock) (max_bbs : nat) (cutoff : N) (max_instrs : nat) (sb : list bblock) (n : N) : Prop :=
    sb <> [] /\ (length sb <= max_bbs)%nat /\ Exists (contiguous sb) (runs_of trace) /\ total_count sb trace n /\
    cutoff <= n /\ (length (flat_map instrs sb) <= max_instrs)%nat.
  (** The runs of the execution, each with the number of times it happens. *)
  Definition runs_counted (trace : list bblock) (runs : list (list N * N)) : Prop :=
    NoDup (map fst runs) /\
    forall run n, In (run, n) runs <->
      In run (map (map start_pc) (runs_of trace)) /\ n = N.of_nat (count_occ (list_eq_dec N.eq_dec) (map (map start_pc) (runs_of trace)) run).
  Definition width_after (widths : list bblock -> option (N * N)) (sb : list bblock) : N := match widths sb with Some w => snd w | None => 0 end.
  Definition total_width (widths : list bblock -> option (N * N)) (l : list (list bblock)) : N := fold_right N.add 0 (map (width_after widths) l).
  (** Every precompile has a column and is not wider than its block, and the numbers are within the
      range of the code. *)
  Definition widths_ok (widths : list bblock -> option (N * N)) (able : list bblock -> N -> Prop) : Prop :=
    (forall sb n w, able sb n -> widths sb = Some w -> 0 < snd w /\ snd w <= fst w /\ fst w < 2 ^ 64) /\
    (forall sb n w sb' n' w', able sb n -> widths sb = Some w -> able sb' n' -> widths sb' = Some w' -> n * (fst w - snd w) * snd w' < 2 ^ 64) /\
    (forall l, NoDup l -> (forall sb, In sb l -> exists n, able sb n) -> total_width widths l < 2 ^ 64).
  (** Sorted by a value, the largest first. *)
  Definition descending {A} (value : A -> N) (l : list A) : Prop := forall a x b y c, l = a ++ x :: b ++ y :: c -> value y <= value x.
  Definition instr_count (sb : list bblock) : N := N.of_nat (length (flat_map instrs sb)).
End Compile.
