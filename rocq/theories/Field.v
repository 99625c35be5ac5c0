(** Prime-field elements as used by the generic [FieldElement] trait
    (number/src/traits.rs 85-218).

    A field element is its canonical representative together with a proof that it
    is below the modulus, so that Leibniz equality is the equality of the Rust types
    (all [FieldElement] implementations compare canonical representatives).
    The modulus is an arbitrary [positive]; primality is a hypothesis of those
    results that need inverses.  Simplification: word-level representations
    (Montgomery form, Goldilocks u64 words) are not used here; Goldilocks words are
    modelled separately in [Goldilocks.v]. *)
From Coq Require Import NArith ZArith Lia Bool List Ring Field Setoid Znumtheory Zdiv.
From Coq Require Import ZifyBool ZifyN.

Declare Scope F_scope.
Delimit Scope F_scope with F.

(** number/src/traits.rs 85: [trait FieldElement]. *)
Record F (p : positive) : Type := mkF { val : N; val_ok : (val <? N.pos p)%N = true }.
Bind Scope F_scope with F.
Arguments mkF {p}. Arguments val {p} _%F. Arguments val_ok {p}.

Section FieldOps.
  Context {p : positive}.
  Local Notation P := (N.pos p).

  Lemma of_N_ok (n : N) : (n mod P <? P)%N = true.
  Proof. apply N.ltb_lt, N.mod_lt. discriminate. Qed.

  (** A proof of [b = true] that computes to [eq_refl], so that elements can be compared by
      computation. *)
  Definition canon (b : bool) : b = true -> b = true :=
    match b with true => fun _ => eq_refl | false => fun H => H end.

  (** number/src/traits.rs: [From<Integer>]: reduction modulo p. *)
  Definition of_N (n : N) : F p := mkF (n mod P)%N (canon _ (of_N_ok n)).

  (** number/src/traits.rs: [Zero], [One]. *)
  Definition fzero : F p := of_N 0.
  Definition fone : F p := of_N 1.
  (** number/src/traits.rs: supertraits [Add], [Sub], [Mul], [Neg]. *)
  Definition fadd (a b : F p) : F p := of_N (val a + val b).
  Definition fsub (a b : F p) : F p := of_N (val a + (P - val b)).
  Definition fmul (a b : F p) : F p := of_N (val a * val b).
  Definition fopp (a : F p) : F p := of_N (P - val a).
  Definition of_Z (z : Z) : F p := of_N (Z.to_N (z mod Z.pos p)).

  (** Extended Euclid, two division steps per unit of fuel; [egcd n a b] returns
      [(x, y)] with [a*x + b*y = gcd a b] when [0 <= b < 2^n]. *)
  Fixpoint egcd (n : nat) (a b : Z) : Z * Z :=
    match n with
    | O => (1, 0)
    | S n' =>
      if (b =? 0)%Z then (1, 0)
      else
        let q1 := (a / b)%Z in let r1 := (a mod b)%Z in
        if (r1 =? 0)%Z then (0, 1)
        else
          let q2 := (b / r1)%Z in let r2 := (b mod r1)%Z in
          let '(x, y) := egcd n' r1 r2 in
          (* r1*x + r2*y; r2 = b - q2*r1; r1 = a - q1*b *)
          let x' := (x - q2 * y)%Z in
          (x', (y - q1 * x')%Z)
    end%Z.

  (** Multiplicative inverse; [finv 0 = 0] is never relied upon (division by zero
      panics in Rust, and every modelled caller checks for zero first). *)
  Definition finv (a : F p) : F p :=
    of_Z (snd (egcd (Pos.to_nat (Pos.size p)) (Z.pos p) (Z.of_N (val a)))).
  (** number/src/traits.rs: [Div]. *)
  Definition fdiv (a b : F p) : F p := fmul a (finv b).

  Definition feqb (a b : F p) : bool := (val a =? val b)%N.
  Definition is_zero (a : F p) : bool := (val a =? 0)%N.
  Definition is_one (a : F p) : bool := feqb a fone.
  (** number/src/traits.rs: [FieldElement: Ord] compares integers. *)
  Definition fleb (a b : F p) : bool := (val a <=? val b)%N.
  Definition fltb (a b : F p) : bool := (val a <? val b)%N.

  (** number/src/traits.rs 185, plonky3_macros.rs 116-119, goldilocks.rs 385-387
      [is_in_lower_half]: [v <= (modulus-1)/2]. *)
  Definition is_in_lower_half (a : F p) : bool := (val a <=? (P - 1) / 2)%N.

  Definition fpow2 (n : N) : F p := of_N (2 ^ n).
End FieldOps.
Arguments F p : clear implicits.

Infix "+" := fadd : F_scope.
Infix "-" := fsub : F_scope.
Infix "*" := fmul : F_scope.
Infix "/" := fdiv : F_scope.
Notation "- x" := (fopp x) : F_scope.
Notation "0" := fzero : F_scope.
Notation "1" := fone : F_scope.

Section FieldFacts.
  Context {p : positive}.
  Local Notation P := (N.pos p).
  Local Open Scope F_scope.

  Lemma val_lt (a : F p) : (val a < P)%N.
  Proof. apply N.ltb_lt, val_ok. Qed.

  Lemma F_ext (a b : F p) : val a = val b -> a = b.
  Proof.
    destruct a as [a Ha], b as [b Hb]; cbn. intros ->. f_equal.
    apply Eqdep_dec.UIP_dec, bool_dec.
  Qed.

  Lemma feqb_eq (a b : F p) : feqb a b = true <-> a = b.
  Proof. unfold feqb. rewrite N.eqb_eq. split; [apply F_ext|now intros ->]. Qed.
  Lemma feqb_neq (a b : F p) : feqb a b = false <-> a <> b.
  Proof. rewrite <- feqb_eq. destruct (feqb a b); intuition congruence. Qed.
  Lemma feqb_refl (a : F p) : feqb a a = true.
  Proof. now apply feqb_eq. Qed.
  Lemma feqb_spec (a b : F p) : reflect (a = b) (feqb a b).
  Proof. apply iff_reflect. symmetry. apply feqb_eq. Qed.
  Lemma F_dec (a b : F p) : {a = b} + {a <> b}.
  Proof. destruct (feqb_spec a b); auto. Qed.

  Lemma val_of_N n : val (of_N n : F p) = (n mod P)%N.
  Proof. reflexivity. Qed.
  Lemma val_of_N_small n : (n < P)%N -> val (of_N n : F p) = n.
  Proof. intros. now apply N.mod_small. Qed.
  Lemma of_N_val (a : F p) : of_N (val a) = a.
  Proof. apply F_ext. apply val_of_N_small, val_lt. Qed.
  Lemma val_zero : val (0 : F p) = 0%N.
  Proof. reflexivity. Qed.

  Lemma is_zero_eq (a : F p) : is_zero a = true <-> a = 0.
  Proof. unfold is_zero. rewrite N.eqb_eq. split; [intros H; apply F_ext; now rewrite H|now intros ->]. Qed.
  Lemma is_zero_neq (a : F p) : is_zero a = false <-> a <> 0.
  Proof. rewrite <- is_zero_eq. destruct (is_zero a); intuition congruence. Qed.
  Lemma is_one_eq (a : F p) : is_one a = true <-> a = 1.
  Proof. apply feqb_eq. Qed.

  (** Linear case analysis of the operations on representatives. *)
  Lemma val_add (a b : F p) :
    (val (a + b) = val a + val b)%N \/ (val (a + b) + P = val a + val b)%N.
  Proof.
    pose proof (val_lt a); pose proof (val_lt b).
    unfold fadd; rewrite val_of_N.
    destruct (N.lt_ge_cases (val a + val b) P).
    - left. now apply N.mod_small.
    - right. replace (val a + val b)%N with ((val a + val b - P) + 1 * P)%N at 1 by lia.
      rewrite N.mod_add by discriminate. rewrite N.mod_small by lia. lia.
  Qed.
  Lemma val_sub (a b : F p) :
    (val (a - b) + val b = val a)%N \/ (val (a - b) + val b = val a + P)%N.
  Proof.
    pose proof (val_lt a); pose proof (val_lt b).
    unfold fsub; rewrite val_of_N.
    destruct (N.lt_ge_cases (val a + (P - val b)) P).
    - right. rewrite N.mod_small by lia. lia.
    - left. replace (val a + (P - val b))%N with ((val a + (P - val b) - P) + 1 * P)%N at 1 by lia.
      rewrite N.mod_add by discriminate. rewrite N.mod_small by lia. lia.
  Qed.
  Lemma val_opp (a : F p) :
    (val a = 0 /\ val (- a) = 0)%N \/ (val (-a) + val a = P)%N.
  Proof.
    pose proof (val_lt a). unfold fopp; rewrite val_of_N.
    destruct (N.eq_dec (val a) 0) as [E|E].
    - left. rewrite E. split; auto. rewrite N.sub_0_r. apply N.mod_same. discriminate.
    - right. rewrite N.mod_small by lia. lia.
  Qed.

  (** Ring laws, through congruence in [Z]. *)
  Definition toZ (a : F p) : Z := Z.of_N (val a).
  Lemma toZ_range a : (0 <= toZ a < Z.pos p)%Z.
  Proof. pose proof (val_lt a). unfold toZ. lia. Qed.
  Lemma toZ_inj a b : toZ a = toZ b -> a = b.
  Proof. unfold toZ. intros. apply F_ext. lia. Qed.
  Lemma toZ_eqm a b : eqm (Z.pos p) (toZ a) (toZ b) -> a = b.
  Proof.
    unfold eqm. intros H. apply toZ_inj. pose proof (toZ_range a). pose proof (toZ_range b).
    now rewrite !Z.mod_small in H by lia.
  Qed.
  Lemma toZ_of_N n : toZ (of_N n) = (Z.of_N n mod Z.pos p)%Z.
  Proof. unfold toZ. rewrite val_of_N. rewrite N2Z.inj_mod. reflexivity. Qed.
  Lemma toZ_add a b : eqm (Z.pos p) (toZ (a + b)) (toZ a + toZ b).
  Proof. unfold fadd. rewrite toZ_of_N. rewrite N2Z.inj_add. apply Zmod_eqm. Qed.
  Lemma toZ_mul a b : eqm (Z.pos p) (toZ (a * b)) (toZ a * toZ b).
  Proof. unfold fmul. rewrite toZ_of_N. rewrite N2Z.inj_mul. apply Zmod_eqm. Qed.
  Lemma eqm_add_p z : eqm (Z.pos p) (z + Z.pos p) z.
  Proof. unfold eqm. rewrite <- (Z.mul_1_l (Z.pos p)) at 1. rewrite Z.mod_add; lia. Qed.
  Lemma toZ_sub a b : eqm (Z.pos p) (toZ (a - b)) (toZ a - toZ b).
  Proof.
    unfold fsub. rewrite toZ_of_N. etransitivity; [apply Zmod_eqm|].
    pose proof (val_lt b). replace (Z.of_N _) with (toZ a - toZ b + Z.pos p)%Z by (unfold toZ; lia).
    apply eqm_add_p.
  Qed.
  Lemma toZ_opp a : eqm (Z.pos p) (toZ (- a)) (- toZ a).
  Proof.
    unfold fopp. rewrite toZ_of_N. etransitivity; [apply Zmod_eqm|].
    pose proof (val_lt a). replace (Z.of_N _) with (- toZ a + Z.pos p)%Z by (unfold toZ; lia).
    apply eqm_add_p.
  Qed.
  Lemma toZ_of_Z z : toZ (of_Z z) = (z mod Z.pos p)%Z.
  Proof.
    unfold of_Z. rewrite toZ_of_N. pose proof (Z.mod_pos_bound z (Z.pos p) eq_refl).
    rewrite Z2N.id by lia. now apply Z.mod_small.
  Qed.
  Lemma toZ_zero : toZ 0 = 0%Z. Proof. reflexivity. Qed.
  Lemma toZ_one : eqm (Z.pos p) (toZ 1) 1.
  Proof. unfold fone. rewrite toZ_of_N. apply Zmod_eqm. Qed.

  Local Instance eqm_eqv : RelationClasses.Equivalence (eqm (Z.pos p)) := eqm_setoid _.
  Local Existing Instance Zplus_eqm.
  Local Existing Instance Zminus_eqm.
  Local Existing Instance Zmult_eqm.
  Local Existing Instance Zopp_eqm.

  Lemma F_ring_theory : ring_theory (fzero (p:=p)) fone fadd fmul fsub fopp eq.
  Proof.
    constructor; intros; apply toZ_eqm; repeat (rewrite ?toZ_add, ?toZ_mul, ?toZ_sub, ?toZ_opp, ?toZ_zero);
      rewrite ?toZ_one; unfold eqm; f_equal; ring.
  Qed.

  Lemma egcd_spec n : forall a b, (0 < a)%Z -> (0 <= b < 2 ^ Z.of_nat n)%Z ->
    let '(x, y) := egcd n a b in (a * x + b * y)%Z = Z.gcd a b.
  Proof.
    induction n as [|n IH]; intros a b Ha Hb.
    - change (2 ^ Z.of_nat 0)%Z with 1%Z in Hb. assert (b = 0)%Z by lia. subst.
      cbn [egcd]. rewrite Z.gcd_0_r. lia.
    - cbn [egcd]. destruct (Z.eqb_spec b 0) as [->|Hb0].
      { rewrite Z.gcd_0_r. lia. }
      assert (Hbp : (0 < b)%Z) by lia.
      pose proof (Z.mod_pos_bound a b Hbp) as Hr1.
      pose proof (Z.div_mod a b ltac:(lia)) as Ea.
      assert (Hg1 : Z.gcd a b = Z.gcd b (a mod b)%Z).
      { rewrite (Z.gcd_comm b). rewrite Z.gcd_mod by lia. apply Z.gcd_comm. }
      destruct (Z.eqb_spec (a mod b) 0) as [Hz|Hz].
      { rewrite Hg1, Hz, Z.gcd_0_r. lia. }
      set (r1 := (a mod b)%Z) in *.
      assert (Hr1p : (0 < r1)%Z) by lia.
      pose proof (Z.mod_pos_bound b r1 Hr1p) as Hr2.
      pose proof (Z.div_mod b r1 ltac:(lia)) as Eb.
      assert (Hg2 : Z.gcd b r1 = Z.gcd r1 (b mod r1)%Z).
      { rewrite (Z.gcd_comm r1). rewrite Z.gcd_mod by lia. apply Z.gcd_comm. }
      assert (Hq : (1 <= b / r1)%Z).
      { apply Z.div_le_lower_bound; lia. }
      assert (Hhalf : (2 * (b mod r1) < b)%Z) by nia.
      specialize (IH r1 (b mod r1)%Z Hr1p).
      destruct (egcd n r1 (b mod r1)) as [x y].
      rewrite Hg1, Hg2, <- IH.
      + clear - Ea Eb. set (q1 := (a / b)%Z) in *. set (q2 := (b / r1)%Z) in *.
        set (r2 := (b mod r1)%Z) in *. replace r2 with (b - r1 * q2)%Z by lia.
        replace r1 with (a - b * q1)%Z by lia. ring.
      + split; [lia|]. rewrite Nat2Z.inj_succ, Z.pow_succ_r in Hb by lia. lia.
  Qed.

  Lemma finv_r (a : F p) : prime (Z.pos p) -> a <> 0 -> a * finv a = 1.
  Proof.
    intros Hp Ha. apply toZ_eqm. rewrite toZ_mul, toZ_one. unfold finv. rewrite toZ_of_Z.
    rewrite (Zmod_eqm (Z.pos p)).
    assert (Hv : (toZ a <> 0)%Z).
    { intros H. apply Ha. apply toZ_inj. exact H. }
    pose proof (toZ_range a) as Hr. fold (toZ a).
    pose proof (egcd_spec (Pos.to_nat (Pos.size p)) (Z.pos p) (toZ a) ltac:(lia)) as HE.
    destruct (egcd _ _ _) as [x y]. cbn [snd].
    assert (Hg : Z.gcd (Z.pos p) (toZ a) = 1%Z).
    { apply Zgcd_1_rel_prime. apply prime_rel_prime; auto.
      intros Hd. apply Z.divide_pos_le in Hd; lia. }
    rewrite Hg in HE. unfold eqm.
    rewrite <- HE.
    - replace (Z.pos p * x + toZ a * y)%Z with (toZ a * y + x * Z.pos p)%Z by ring.
      now rewrite Z.mod_add by lia.
    - split; [lia|]. rewrite positive_nat_Z. pose proof (Pos.size_gt p).
      apply Z.lt_trans with (Z.pos p); [lia|].
      rewrite <- Pos2Z.inj_pow. lia.
  Qed.
  Lemma finv_l (a : F p) : prime (Z.pos p) -> a <> 0 -> finv a * a = 1.
  Proof.
    intros. rewrite (Rmul_comm F_ring_theory). now apply finv_r.
  Qed.
  Lemma one_neq_zero : prime (Z.pos p) -> (1 : F p) <> 0.
  Proof.
    intros Hp H. apply (f_equal val) in H. unfold fone, fzero in H. rewrite !val_of_N in H.
    destruct Hp as [Hp _]. rewrite N.mod_small in H by lia. discriminate.
  Qed.
  Lemma F_field_theory (Hp : prime (Z.pos p)) :
    field_theory (fzero (p:=p)) fone fadd fmul fsub fopp fdiv finv eq.
  Proof.
    constructor.
    - exact F_ring_theory.
    - now apply one_neq_zero.
    - reflexivity.
    - intros a Ha. now apply finv_l.
  Qed.
  Add Ring Fring : F_ring_theory.

  Lemma mul_eq_zero (a b : F p) : prime (Z.pos p) -> a * b = 0 -> a = 0 \/ b = 0.
  Proof.
    intros Hp H. destruct (F_dec a 0) as [|Ha]; auto. right.
    replace b with (finv a * (a * b)).
    - rewrite H. ring.
    - transitivity ((finv a * a) * b); [ring|]. rewrite finv_l by auto. ring.
  Qed.
  Lemma mul_eq_zero_iff (a b : F p) : prime (Z.pos p) -> a * b = 0 <-> a = 0 \/ b = 0.
  Proof.
    intros Hp. split; [now apply mul_eq_zero|]. intros [->| ->]; ring.
  Qed.
  Lemma sub_eq_zero (a b : F p) : a - b = 0 <-> a = b.
  Proof. split; intros H; [|subst; ring]. transitivity (a - b + b); [ring|]. rewrite H. ring. Qed.
  Lemma add_eq_zero (a b : F p) : a + b = 0 <-> a = - b.
  Proof. split; intros H; [|subst; ring]. transitivity (a + b - b); [ring|]. rewrite H. ring. Qed.
  Lemma opp_eq_zero (a : F p) : - a = 0 <-> a = 0.
  Proof. split; intros H; [|subst; ring]. transitivity (- - a); [ring|]. rewrite H. ring. Qed.
  Lemma finv_neq_zero (a : F p) : prime (Z.pos p) -> a <> 0 -> finv a <> 0.
  Proof. intros Hp Ha H. apply (one_neq_zero Hp). rewrite <- (finv_r a Hp Ha), H. ring. Qed.

  (** Addition and multiplication commute with reduction. *)
  Lemma of_N_add m n : of_N (m + n) = (of_N m + of_N n : F p).
  Proof.
    apply toZ_eqm. rewrite toZ_add, !toZ_of_N, N2Z.inj_add.
    rewrite !(Zmod_eqm (Z.pos p)). reflexivity.
  Qed.
  Lemma of_N_mul m n : of_N (m * n) = (of_N m * of_N n : F p).
  Proof.
    apply toZ_eqm. rewrite toZ_mul, !toZ_of_N, N2Z.inj_mul.
    rewrite !(Zmod_eqm (Z.pos p)). reflexivity.
  Qed.
  Lemma of_Z_add m n : of_Z (m + n) = (of_Z m + of_Z n : F p).
  Proof. apply toZ_eqm. rewrite toZ_add, !toZ_of_Z. rewrite !(Zmod_eqm (Z.pos p)). reflexivity. Qed.
  Lemma of_Z_mul m n : of_Z (m * n) = (of_Z m * of_Z n : F p).
  Proof. apply toZ_eqm. rewrite toZ_mul, !toZ_of_Z. rewrite !(Zmod_eqm (Z.pos p)). reflexivity. Qed.
  Lemma of_Z_opp m : of_Z (- m) = (- of_Z m : F p).
  Proof. apply toZ_eqm. rewrite toZ_opp, !toZ_of_Z. rewrite !(Zmod_eqm (Z.pos p)). reflexivity. Qed.
  Lemma of_Z_sub m n : of_Z (m - n) = (of_Z m - of_Z n : F p).
  Proof. apply toZ_eqm. rewrite toZ_sub, !toZ_of_Z. rewrite !(Zmod_eqm (Z.pos p)). reflexivity. Qed.
  Lemma of_Z_toZ (a : F p) : of_Z (toZ a) = a.
  Proof. apply toZ_inj. rewrite toZ_of_Z. apply Z.mod_small, toZ_range. Qed.
  Lemma of_Z_of_N n : of_Z (Z.of_N n) = (of_N n : F p).
  Proof. apply toZ_inj. now rewrite toZ_of_Z, toZ_of_N. Qed.
  Lemma of_Z_eq_iff m n : (of_Z m : F p) = of_Z n <-> eqm (Z.pos p) m n.
  Proof.
    unfold eqm. rewrite <- !toZ_of_Z. split; [now intros ->|apply toZ_inj].
  Qed.
End FieldFacts.
