(** C77: code generation gets the arguments of an instruction, and only in their own form. *)
From Coq Require Import NArith ZArith Bool List Lia.
From Verif Require Import DbgModel ArgsModel.
Import ListNotations.
Local Open Scope N_scope.

(** The ways to ask for arguments. *)
Inductive form := Fl | Fr | Frri | Frrr | Frrr2 | Fri | Frr | Frrl | Frl | Frro | Fempty.
(** The request succeeds. *)
Definition answers (t : table) (f : form) (a : hargs) : Prop :=
  match f with
  | Fl => arg_l t a <> None | Fr => arg_r a <> None | Frri => arg_rri a <> None | Frrr => arg_rrr a <> None | Frrr2 => arg_rrr2 a <> None | Fri => arg_ri a <> None
  | Frr => arg_rr a <> None | Frrl => arg_rrl t a <> None | Frl => arg_rl t a <> None | Frro => arg_rro a <> None | Fempty => arg_empty a <> None
  end.
(** The registers are registers and the value is a signed word, as the decoder gives them. *)
Definition in_range (a : hargs) : Prop :=
  (forall x, rd a = Some x \/ rs1 a = Some x \/ rs2 a = Some x -> x < 32) /\ (forall z, imm a = ImmValue z -> (- 2 ^ 31 <= z < 2 ^ 31)%Z).

Lemma register_id x : x < 32 -> register x = x.
Proof. intros H. unfold register. apply N.mod_small. lia. Qed.

(** What each request gives for arguments as the decoder gives them: the registers in the order of the assembly language, the name of
    the label and the value as an unsigned word.  With any other arguments it fails. *)
Theorem C77_requests : forall t a, in_range a ->
  (forall n, arg_l t a = Some n <-> exists x, a = mkArgs (CodeLabel x) None None None /\ n = get_one t x) /\
  (forall r, arg_r a = Some r <-> a = mkArgs ImmNone None (Some r) None) /\
  (forall d x v, arg_rri a = Some (d, x, v) <-> exists z, a = mkArgs (ImmValue z) (Some d) (Some x) None /\ (Z.of_N v = z mod 2 ^ 32)%Z) /\
  (forall d x y, arg_rrr a = Some (d, x, y) <-> a = mkArgs ImmNone (Some d) (Some x) (Some y)) /\
  (forall d x y, arg_rrr2 a = Some (d, y, x) <-> a = mkArgs ImmNone (Some d) (Some x) (Some y)) /\
  (forall d v, arg_ri a = Some (d, v) <-> exists z, a = mkArgs (ImmValue z) (Some d) None None /\ (Z.of_N v = z mod 2 ^ 32)%Z) /\
  (forall d x, arg_rr a = Some (d, x) <-> a = mkArgs ImmNone (Some d) (Some x) None) /\
  (forall x y n, arg_rrl t a = Some (x, y, n) <-> exists l, a = mkArgs (CodeLabel l) None (Some x) (Some y) /\ n = get_one t l) /\
  (forall x n, arg_rl t a = Some (x, n) <-> exists l, (a = mkArgs (CodeLabel l) None (Some x) None \/ a = mkArgs (CodeLabel l) (Some x) None None) /\ n = get_one t l) /\
  (forall d x v, arg_rro a = Some (d, x, v) <-> exists z, (a = mkArgs (ImmValue z) (Some d) (Some x) None \/ a = mkArgs (ImmValue z) None (Some x) (Some d)) /\ (Z.of_N v = z mod 2 ^ 32)%Z) /\
  (arg_empty a = Some tt <-> a = mkArgs ImmNone None None None).
Proof.
  intros t [i d x y] [Hr _]. cbn [rd rs1 rs2 imm] in Hr.
  assert (U : forall z, Z.of_N (as_u32 z) = (z mod 2 ^ 32)%Z) by (intros z; unfold as_u32; apply Z2N.id; apply Z.mod_pos_bound; lia).
  assert (W : forall v z, (Z.of_N v = z mod 2 ^ 32)%Z -> as_u32 z = v) by (intros v z E; apply N2Z.inj; now rewrite U).
  repeat match goal with |- _ /\ _ => split end; intros;
    destruct i as [|l|z], d as [d'|], x as [x'|], y as [y'|]; cbn [arg_l arg_r arg_rri arg_rrr arg_rrr2 arg_ri arg_rr arg_rrl arg_rl arg_rro arg_empty];
    rewrite ?register_id by (apply Hr; auto);
    (split; intros E;
     [try discriminate E; try (injection E; intros; subst); eauto 8
     |repeat match goal with
             | H : exists _, _ |- _ => destruct H
             | H : _ /\ _ |- _ => destruct H
             | H : _ \/ _ |- _ => destruct H
             | H : mkArgs _ _ _ _ = mkArgs _ _ _ _ |- _ => first [discriminate H | injection H; clear H; intros; subst | clear H]
             end; try match goal with H : Z.of_N _ = _ |- _ => rewrite (W _ _ H) end; reflexivity]).
Qed.
Print Assumptions C77_requests.

(** Two requests succeed for the same arguments only if they are [rrr] and [rrr2], or [rri] and [rro]. *)
Theorem C77_exclusive : forall t f g a, answers t f a -> answers t g a ->
  f = g \/ (f = Frrr /\ g = Frrr2) \/ (f = Frrr2 /\ g = Frrr) \/ (f = Frri /\ g = Frro) \/ (f = Frro /\ g = Frri).
Proof.
  intros t f g [i d x y]. destruct i as [|l|z], d as [d'|], x as [x'|], y as [y'|];
    destruct f; cbn [answers arg_l arg_r arg_rri arg_rrr arg_rrr2 arg_ri arg_rr arg_rrl arg_rl arg_rro arg_empty]; intros Hf; try (exfalso; apply Hf; reflexivity);
    destruct g; cbn [answers arg_l arg_r arg_rri arg_rrr arg_rrr2 arg_ri arg_rr arg_rrl arg_rl arg_rro arg_empty]; intros Hg; try (exfalso; apply Hg; reflexivity); auto 8.
Qed.
Print Assumptions C77_exclusive.

(** Arguments that no request gives: a second source without a first one, a label or value with three registers, a label with a target
    and a source, a value alone, or a target alone. *)
Theorem C77_refused : forall t a,
  (forall f, ~ answers t f a) <->
  rs2 a <> None /\ rs1 a = None \/
  imm a <> ImmNone /\ rd a <> None /\ rs1 a <> None /\ rs2 a <> None \/
  (exists l, imm a = CodeLabel l) /\ rd a <> None /\ rs1 a <> None /\ rs2 a = None \/
  (exists z, imm a = ImmValue z) /\ rd a = None /\ rs2 a = None \/
  imm a = ImmNone /\ rd a <> None /\ rs1 a = None /\ rs2 a = None \/
  imm a = ImmNone /\ rd a = None /\ rs1 a <> None /\ rs2 a <> None.
Proof.
  intros t [i d x y]. cbn [imm rd rs1 rs2].
  assert (K : forall (A : Type) (v : A), Some v <> None) by discriminate.
  split.
  - intros H. pose proof (H Fl) as H1. pose proof (H Fr) as H2. pose proof (H Frri) as H3. pose proof (H Frrr) as H4. pose proof (H Fri) as H5. pose proof (H Frr) as H6.
    pose proof (H Frrl) as H7. pose proof (H Frl) as H8. pose proof (H Frro) as H9. pose proof (H Fempty) as H10. clear H.
    destruct i as [|l|z], d as [d'|], x as [x'|], y as [y'|]; cbn [answers arg_l arg_r arg_rri arg_rrr arg_rri arg_ri arg_rr arg_rrl arg_rl arg_rro arg_empty] in *;
      try (exfalso; first [apply H1; apply K | apply H2; apply K | apply H3; apply K | apply H4; apply K | apply H5; apply K | apply H6; apply K
                          | apply H7; apply K | apply H8; apply K | apply H9; apply K | apply H10; apply K]);
      first [left; split; [apply K|reflexivity]
            |right; left; repeat split; (apply K || discriminate)
            |right; right; left; repeat split; (apply K || reflexivity || solve [eauto])
            |right; right; right; left; repeat split; (reflexivity || solve [eauto])
            |right; right; right; right; left; repeat split; (apply K || reflexivity)
            |right; right; right; right; right; repeat split; (apply K || reflexivity)].
  - intros H f.
    destruct i as [|l|z], d as [d'|], x as [x'|], y as [y'|];
      destruct f; cbn [answers arg_l arg_r arg_rri arg_rrr arg_rrr2 arg_ri arg_rr arg_rrl arg_rl arg_rro arg_empty]; try (intros Q; apply Q; reflexivity); exfalso;
      repeat match goal with
             | H : _ \/ _ |- _ => destruct H
             | H : _ /\ _ |- _ => destruct H
             | H : exists _, _ |- _ => destruct H
             end; congruence.
Qed.
Print Assumptions C77_refused.

(** The request [rl] does not tell a source from a target, nor does [rro]: different arguments look the same to code generation. *)
Theorem C77_told_apart_refuted : exists t a b c d, in_range a /\ in_range b /\ in_range c /\ in_range d /\ a <> b /\ c <> d /\
  arg_rl t a = arg_rl t b /\ arg_rl t a <> None /\ arg_rro c = arg_rro d /\ arg_rro c <> None.
Proof.
  exists [], (mkArgs (CodeLabel 16) None (Some 5) None), (mkArgs (CodeLabel 16) (Some 5) None None), (mkArgs (ImmValue (-4)) (Some 7) (Some 2) None), (mkArgs (ImmValue (-4)) None (Some 2) (Some 7)).
  assert (R : forall i d x y, (i = CodeLabel 16 \/ i = ImmValue (-4)) -> (forall v, d = Some v \/ x = Some v \/ y = Some v -> v = 5 \/ v = 7 \/ v = 2) -> in_range (mkArgs i d x y)).
  { intros i d x y Hi Hv. split; cbn [rd rs1 rs2 imm]; [intros v Q; apply Hv in Q; lia|]. intros z ->. destruct Hi as [[=]|[= ->]]. lia. }
  assert (V : forall d x y v, (d = None \/ d = Some 5 \/ d = Some 7) -> (x = None \/ x = Some 5 \/ x = Some 2) -> (y = None \/ y = Some 7) ->
    d = Some v \/ x = Some v \/ y = Some v -> v = 5 \/ v = 7 \/ v = 2).
  { intros d x y v [-> |[-> | ->]] [-> |[-> | ->]] [-> | ->] [[=]|[[=]|[=]]]; auto. }
  split; [apply R; [auto|intros v Q; eapply V; [| | |exact Q]; auto]|].
  split; [apply R; [auto|intros v Q; eapply V; [| | |exact Q]; auto]|].
  split; [apply R; [auto|intros v Q; eapply V; [| | |exact Q]; auto]|].
  split; [apply R; [auto|intros v Q; eapply V; [| | |exact Q]; auto]|].
  split; [discriminate|]. split; [discriminate|]. split; [reflexivity|]. split; [discriminate|]. split; [reflexivity|discriminate].
Qed.
Print Assumptions C77_told_apart_refuted.

Example C77_example : in_range (mkArgs (ImmValue (-4)) (Some 7) (Some 2) None) /\
  arg_rri (mkArgs (ImmValue (-4)) (Some 7) (Some 2) None) = Some (7, 2, 4294967292) /\
  arg_rro (mkArgs (ImmValue 8) None (Some 2) (Some 9)) = Some (9, 2, 8) /\
  arg_rrl [] (mkArgs (CodeLabel 32) None (Some 1) (Some 2)) = Some (1, 2, default_label 32) /\
  arg_rrr2 (mkArgs ImmNone (Some 3) (Some 1) (Some 2)) = Some (3, 2, 1).
Proof. repeat split; cbn [rd rs1 rs2 imm]; try (intros x [E|[E|E]]; try discriminate E; injection E as <-; lia); injection H as <-; lia. Qed.
