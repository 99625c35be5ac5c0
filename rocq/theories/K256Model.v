(** * Model of the field arithmetic and of the executors behind the k256 hints

    Models openvm-riscv/extensions/hints-circuit/src/field10x26_k256.rs,
    openvm-riscv/extensions/hints-circuit/src/executors.rs and
    openvm-riscv/extensions/hints-guest/src/lib.rs.

    A machine word is an [N]. The functions below return [None] where the code panics in a build with overflow checks and
    debug assertions: the result of an addition or multiplication that does not fit its type, a subtraction below zero, or a
    [debug_assert!] that fails. A sum of products is checked once, on the whole: every intermediate result is at most the final
    one, because all summands are unsigned. *)
From Coq Require Import NArith List Bool.
Import ListNotations.
Local Open Scope N_scope.

Definition ok {A} (a : A) : option A := Some a.
Definition bind {A B} (o : option A) (k : A -> option B) : option B := match o with Some a => k a | None => None end.
Definition guard {B} (b : bool) (k : option B) : option B := if b then k else None.
Notation "'let*' x ':=' e 'in' k" := (bind e (fun x => k)) (at level 200, x pattern, e at level 100, k at level 200).
Notation "'debug_assert' b ';;' k" := (guard b k) (at level 200, b at level 100, k at level 200).
(** Checked results of unsigned 32-bit and 64-bit arithmetic. *)
Definition u32 (e : N) : option N := if e <? 2 ^ 32 then Some e else None.
Definition u64 (e : N) : option N := if e <? 2 ^ 64 then Some e else None.
Definition sub32 (a b : N) : option N := if b <=? a then Some (a - b) else None.
(** [as u32], [as u8] and shifts to the left, which drop the bits that do not fit. *)
Definition as32 (e : N) : N := e mod 2 ^ 32.
Definition as8 (e : N) : N := e mod 2 ^ 8.
Definition shl32 (e n : N) : N := N.shiftl e n mod 2 ^ 32.
Definition shl8 (e n : N) : N := N.shiftl e n mod 2 ^ 8.

(** [FieldElement10x26] (field10x26_k256.rs 56): ten 32-bit limbs. *)
Record fe := FE { l0 : N; l1 : N; l2 : N; l3 : N; l4 : N; l5 : N; l6 : N; l7 : N; l8 : N; l9 : N }.
(** [limbs] as the array (field [0]). *)
Definition limbs (x : fe) : list N := [l0 x; l1 x; l2 x; l3 x; l4 x; l5 x; l6 x; l7 x; l8 x; l9 x].

Definition byte (bytes : list N) (i : nat) : N := nth i bytes 0.
(** [from_bytes_unchecked] (field10x26_k256.rs 69-110). *)
Definition from_bytes_unchecked (bytes : list N) : fe :=
  let w0 := N.lor (N.lor (N.lor (byte bytes 31) (shl32 (byte bytes 30) 8)) (shl32 (byte bytes 29) 16)) (shl32 (N.land (byte bytes 28) 0x3) 24) in
  let w1 := N.lor (N.lor (N.lor (N.land (N.shiftr (byte bytes 28) 2) 0x3f) (shl32 (byte bytes 27) 6)) (shl32 (byte bytes 26) 14)) (shl32 (N.land (byte bytes 25) 0xf) 22) in
  let w2 := N.lor (N.lor (N.lor (N.land (N.shiftr (byte bytes 25) 4) 0xf) (shl32 (byte bytes 24) 4)) (shl32 (byte bytes 23) 12)) (shl32 (N.land (byte bytes 22) 0x3f) 20) in
  let w3 := N.lor (N.lor (N.lor (N.land (N.shiftr (byte bytes 22) 6) 0x3) (shl32 (byte bytes 21) 2)) (shl32 (byte bytes 20) 10)) (shl32 (byte bytes 19) 18) in
  let w4 := N.lor (N.lor (N.lor (byte bytes 18) (shl32 (byte bytes 17) 8)) (shl32 (byte bytes 16) 16)) (shl32 (N.land (byte bytes 15) 0x3) 24) in
  let w5 := N.lor (N.lor (N.lor (N.land (N.shiftr (byte bytes 15) 2) 0x3f) (shl32 (byte bytes 14) 6)) (shl32 (byte bytes 13) 14)) (shl32 (N.land (byte bytes 12) 0xf) 22) in
  let w6 := N.lor (N.lor (N.lor (N.land (N.shiftr (byte bytes 12) 4) 0xf) (shl32 (byte bytes 11) 4)) (shl32 (byte bytes 10) 12)) (shl32 (N.land (byte bytes 9) 0x3f) 20) in
  let w7 := N.lor (N.lor (N.lor (N.land (N.shiftr (byte bytes 9) 6) 0x3) (shl32 (byte bytes 8) 2)) (shl32 (byte bytes 7) 10)) (shl32 (byte bytes 6) 18) in
  let w8 := N.lor (N.lor (N.lor (byte bytes 5) (shl32 (byte bytes 4) 8)) (shl32 (byte bytes 3) 16)) (shl32 (N.land (byte bytes 2) 0x3) 24) in
  let w9 := N.lor (N.lor (N.land (N.shiftr (byte bytes 2) 2) 0x3f) (shl32 (byte bytes 1) 6)) (shl32 (byte bytes 0) 14) in
  FE w0 w1 w2 w3 w4 w5 w6 w7 w8 w9.

(** [from_u64] (field10x26_k256.rs 124-130). *)
Definition from_u64 (val : N) : fe :=
  let w0 := N.land (as32 val) 0x3FFFFFF in
  let val := N.shiftr val 26 in
  let w1 := N.land (as32 val) 0x3FFFFFF in
  let w2 := as32 (N.shiftr val 26) in
  FE w0 w1 w2 0 0 0 0 0 0 0.

(** [to_bytes] (field10x26_k256.rs 133-168). *)
Definition to_bytes (x : fe) : list N :=
  let '(FE x0 x1 x2 x3 x4 x5 x6 x7 x8 x9) := x in
  [ as8 (N.shiftr x9 14);
    as8 (N.shiftr x9 6);
    N.lor (shl8 (N.land (as8 x9) 0x3F) 2) (N.land (as8 (N.shiftr x8 24)) 0x3);
    as8 (N.shiftr x8 16);
    as8 (N.shiftr x8 8);
    as8 x8;
    as8 (N.shiftr x7 18);
    as8 (N.shiftr x7 10);
    as8 (N.shiftr x7 2);
    N.lor (shl8 (N.land (as8 x7) 0x3) 6) (N.land (as8 (N.shiftr x6 20)) 0x3f);
    as8 (N.shiftr x6 12);
    as8 (N.shiftr x6 4);
    N.lor (shl8 (N.land (as8 x6) 0xf) 4) (N.land (as8 (N.shiftr x5 22)) 0xf);
    as8 (N.shiftr x5 14);
    as8 (N.shiftr x5 6);
    N.lor (shl8 (N.land (as8 x5) 0x3f) 2) (N.land (as8 (N.shiftr x4 24)) 0x3);
    as8 (N.shiftr x4 16);
    as8 (N.shiftr x4 8);
    as8 x4;
    as8 (N.shiftr x3 18);
    as8 (N.shiftr x3 10);
    as8 (N.shiftr x3 2);
    N.lor (shl8 (N.land (as8 x3) 0x3) 6) (N.land (as8 (N.shiftr x2 20)) 0x3f);
    as8 (N.shiftr x2 12);
    as8 (N.shiftr x2 4);
    N.lor (shl8 (N.land (as8 x2) 0xf) 4) (N.land (as8 (N.shiftr x1 22)) 0xf);
    as8 (N.shiftr x1 14);
    as8 (N.shiftr x1 6);
    N.lor (shl8 (N.land (as8 x1) 0x3f) 2) (N.land (as8 (N.shiftr x0 24)) 0x3);
    as8 (N.shiftr x0 16);
    as8 (N.shiftr x0 8);
    as8 x0 ].

(** [add_modulus_correction] (field10x26_k256.rs 171-205). *)
Definition add_modulus_correction (s : fe) (x : N) : option fe :=
  let '(FE s0 s1 s2 s3 s4 s5 s6 s7 s8 s9) := s in
  let* t0 := u32 (s0 + x * 0x3D1) in
  let* t1 := u32 (s1 + shl32 x 6) in
  let* t1 := u32 (t1 + N.shiftr t0 26) in
  let* t0 := ok (N.land t0 0x3FFFFFF) in
  let* t2 := u32 (s2 + N.shiftr t1 26) in
  let* t1 := ok (N.land t1 0x3FFFFFF) in
  let* t3 := u32 (s3 + N.shiftr t2 26) in
  let* t2 := ok (N.land t2 0x3FFFFFF) in
  let* t4 := u32 (s4 + N.shiftr t3 26) in
  let* t3 := ok (N.land t3 0x3FFFFFF) in
  let* t5 := u32 (s5 + N.shiftr t4 26) in
  let* t4 := ok (N.land t4 0x3FFFFFF) in
  let* t6 := u32 (s6 + N.shiftr t5 26) in
  let* t5 := ok (N.land t5 0x3FFFFFF) in
  let* t7 := u32 (s7 + N.shiftr t6 26) in
  let* t6 := ok (N.land t6 0x3FFFFFF) in
  let* t8 := u32 (s8 + N.shiftr t7 26) in
  let* t7 := ok (N.land t7 0x3FFFFFF) in
  let* t9 := u32 (s9 + N.shiftr t8 26) in
  let* t8 := ok (N.land t8 0x3FFFFFF) in
  ok (FE t0 t1 t2 t3 t4 t5 t6 t7 t8 t9).

(** [subtract_modulus_approximation] (field10x26_k256.rs 209-219). *)
Definition subtract_modulus_approximation (s : fe) : fe * N :=
  let '(FE s0 s1 s2 s3 s4 s5 s6 s7 s8 s9) := s in
  (FE s0 s1 s2 s3 s4 s5 s6 s7 s8 (N.land s9 0x03FFFFF), N.shiftr s9 22).

(** [get_overflow] (field10x26_k256.rs 222-229). The code evaluates all operands of [|] and [&]. *)
Definition get_overflow (s : fe) : option bool :=
  let '(FE s0 s1 s2 s3 s4 s5 s6 s7 s8 s9) := s in
  let m := N.land (N.land (N.land (N.land (N.land (N.land s2 s3) s4) s5) s6) s7) s8 in
  let* z := u32 (s0 + 0x3D1) in
  let* y := u32 (s1 + 0x40 + N.shiftr z 26) in
  ok (negb (N.shiftr s9 22 =? 0) || ((s9 =? 0x3FFFFF) && (m =? 0x3FFFFFF) && (0x3FFFFFF <? y)))%bool.

(** [from_bytes] (field10x26_k256.rs 117-122): [ok None] is an empty [CtOption]. *)
Definition from_bytes (bytes : list N) : option (option fe) :=
  let res := from_bytes_unchecked bytes in
  let* overflow := get_overflow res in
  ok (if overflow then None else Some res).

(** [normalize_weak] (field10x26_k256.rs 232-243). *)
Definition normalize_weak (s : fe) : option fe :=
  let '(t, x) := subtract_modulus_approximation s in
  let* res := add_modulus_correction t x in
  debug_assert (N.shiftr (l9 res) 23 =? 0) ;;
  ok res.

(** [normalize] (field10x26_k256.rs 248-265). *)
Definition normalize (s : fe) : option fe :=
  let* res := normalize_weak s in
  let* overflow := get_overflow res in
  let* corrected := add_modulus_correction res 1 in
  let '(corrected, x) := subtract_modulus_approximation corrected in
  debug_assert (x =? (if overflow then 1 else 0)) ;;
  ok (if overflow then corrected else res).

(** [normalizes_to_zero] (field10x26_k256.rs 268-296). *)
Definition normalizes_to_zero (s : fe) : option bool :=
  let* res := normalize_weak s in
  let '(FE t0 t1 t2 t3 t4 t5 t6 t7 t8 t9) := res in
  let z0 := N.lor (N.lor (N.lor (N.lor (N.lor (N.lor (N.lor (N.lor (N.lor t0 t1) t2) t3) t4) t5) t6) t7) t8) t9 in
  let z1 := N.land (N.land (N.land (N.land (N.land (N.land (N.land (N.land (N.land (N.lxor t0 0x3D0) (N.lxor t1 0x40)) t2) t3) t4) t5) t6) t7) t8) (N.lxor t9 0x3C00000) in
  ok ((z0 =? 0) || (z1 =? 0x3FFFFFF))%bool.

(** [is_zero], [is_odd] (field10x26_k256.rs 303-326). *)
Definition fe_is_zero (s : fe) : bool :=
  let '(FE t0 t1 t2 t3 t4 t5 t6 t7 t8 t9) := s in
  N.lor (N.lor (N.lor (N.lor (N.lor (N.lor (N.lor (N.lor (N.lor t0 t1) t2) t3) t4) t5) t6) t7) t8) t9 =? 0.
Definition fe_is_odd (s : fe) : bool := negb (N.land (as8 (l0 s)) 1 =? 0).

(** [negate] (field10x26_k256.rs 335-348). *)
Definition negate (s : fe) (magnitude : N) : option fe :=
  let '(FE s0 s1 s2 s3 s4 s5 s6 s7 s8 s9) := s in
  let* m := u32 (magnitude + 1) in
  let* r0 := u32 (0x3FFFC2F * 2 * m) in let* r0 := sub32 r0 s0 in
  let* r1 := u32 (0x3FFFFBF * 2 * m) in let* r1 := sub32 r1 s1 in
  let* r2 := u32 (0x3FFFFFF * 2 * m) in let* r2 := sub32 r2 s2 in
  let* r3 := u32 (0x3FFFFFF * 2 * m) in let* r3 := sub32 r3 s3 in
  let* r4 := u32 (0x3FFFFFF * 2 * m) in let* r4 := sub32 r4 s4 in
  let* r5 := u32 (0x3FFFFFF * 2 * m) in let* r5 := sub32 r5 s5 in
  let* r6 := u32 (0x3FFFFFF * 2 * m) in let* r6 := sub32 r6 s6 in
  let* r7 := u32 (0x3FFFFFF * 2 * m) in let* r7 := sub32 r7 s7 in
  let* r8 := u32 (0x3FFFFFF * 2 * m) in let* r8 := sub32 r8 s8 in
  let* r9 := u32 (0x03FFFFF * 2 * m) in let* r9 := sub32 r9 s9 in
  ok (FE r0 r1 r2 r3 r4 r5 r6 r7 r8 r9).

(** [add] (field10x26_k256.rs 352-365). *)
Definition fe_add (s r : fe) : option fe :=
  let '(FE s0 s1 s2 s3 s4 s5 s6 s7 s8 s9) := s in let '(FE r0 r1 r2 r3 r4 r5 r6 r7 r8 r9) := r in
  let* t0 := u32 (s0 + r0) in
  let* t1 := u32 (s1 + r1) in
  let* t2 := u32 (s2 + r2) in
  let* t3 := u32 (s3 + r3) in
  let* t4 := u32 (s4 + r4) in
  let* t5 := u32 (s5 + r5) in
  let* t6 := u32 (s6 + r6) in
  let* t7 := u32 (s7 + r7) in
  let* t8 := u32 (s8 + r8) in
  let* t9 := u32 (s9 + r9) in
  ok (FE t0 t1 t2 t3 t4 t5 t6 t7 t8 t9).

(** [mul_single] (field10x26_k256.rs 369-382). *)
Definition mul_single (s : fe) (rhs : N) : option fe :=
  let '(FE s0 s1 s2 s3 s4 s5 s6 s7 s8 s9) := s in
  let* t0 := u32 (s0 * rhs) in
  let* t1 := u32 (s1 * rhs) in
  let* t2 := u32 (s2 * rhs) in
  let* t3 := u32 (s3 * rhs) in
  let* t4 := u32 (s4 * rhs) in
  let* t5 := u32 (s5 * rhs) in
  let* t6 := u32 (s6 * rhs) in
  let* t7 := u32 (s7 * rhs) in
  let* t8 := u32 (s8 * rhs) in
  let* t9 := u32 (s9 * rhs) in
  ok (FE t0 t1 t2 t3 t4 t5 t6 t7 t8 t9).

(** [mul_inner] (field10x26_k256.rs 385-692), statement by statement. [c +=] and [d +=] rebind the name. *)
Definition mul_inner (s r : fe) : option fe :=
  let '(FE a0 a1 a2 a3 a4 a5 a6 a7 a8 a9) := s in let '(FE b0 b1 b2 b3 b4 b5 b6 b7 b8 b9) := r in
  let m := 0x3FFFFFF in
  let rr0 := 0x3D10 in
  let rr1 := 0x400 in
  let* d := u64 (a0 * b9 + a1 * b8 + a2 * b7 + a3 * b6 + a4 * b5 + a5 * b4 + a6 * b3 + a7 * b2 + a8 * b1 + a9 * b0) in
  let* t9 := ok (as32 (N.land d m)) in
  let* d := ok (N.shiftr d 26) in
  debug_assert (N.shiftr t9 26 =? 0) ;;
  debug_assert (N.shiftr d 38 =? 0) ;;
  let* c := u64 (a0 * b0) in
  debug_assert (N.shiftr c 60 =? 0) ;;
  let* d := u64 (d + (a1 * b9 + a2 * b8 + a3 * b7 + a4 * b6 + a5 * b5 + a6 * b4 + a7 * b3 + a8 * b2 + a9 * b1)) in
  debug_assert (N.shiftr d 63 =? 0) ;;
  let* u0 := ok (as32 (N.land d m)) in
  let* d := ok (N.shiftr d 26) in
  let* c := u64 (c + (u0 * rr0)) in
  debug_assert (N.shiftr u0 26 =? 0) ;;
  debug_assert (N.shiftr d 37 =? 0) ;;
  debug_assert (N.shiftr c 61 =? 0) ;;
  let* t0 := ok (as32 (N.land c m)) in
  let* c := ok (N.shiftr c 26) in
  let* c := u64 (c + (u0 * rr1)) in
  debug_assert (N.shiftr t0 26 =? 0) ;;
  debug_assert (N.shiftr c 37 =? 0) ;;
  let* c := u64 (c + (a0 * b1 + a1 * b0)) in
  debug_assert (N.shiftr c 62 =? 0) ;;
  let* d := u64 (d + (a2 * b9 + a3 * b8 + a4 * b7 + a5 * b6 + a6 * b5 + a7 * b4 + a8 * b3 + a9 * b2)) in
  debug_assert (N.shiftr d 63 =? 0) ;;
  let* u1 := ok (as32 (N.land d m)) in
  let* d := ok (N.shiftr d 26) in
  let* c := u64 (c + (u1 * rr0)) in
  debug_assert (N.shiftr u1 26 =? 0) ;;
  debug_assert (N.shiftr d 37 =? 0) ;;
  debug_assert (N.shiftr c 63 =? 0) ;;
  let* t1 := ok (as32 (N.land c m)) in
  let* c := ok (N.shiftr c 26) in
  let* c := u64 (c + (u1 * rr1)) in
  debug_assert (N.shiftr t1 26 =? 0) ;;
  debug_assert (N.shiftr c 38 =? 0) ;;
  let* c := u64 (c + (a0 * b2 + a1 * b1 + a2 * b0)) in
  debug_assert (N.shiftr c 62 =? 0) ;;
  let* d := u64 (d + (a3 * b9 + a4 * b8 + a5 * b7 + a6 * b6 + a7 * b5 + a8 * b4 + a9 * b3)) in
  debug_assert (N.shiftr d 63 =? 0) ;;
  let* u2 := ok (as32 (N.land d m)) in
  let* d := ok (N.shiftr d 26) in
  let* c := u64 (c + (u2 * rr0)) in
  debug_assert (N.shiftr u2 26 =? 0) ;;
  debug_assert (N.shiftr d 37 =? 0) ;;
  debug_assert (N.shiftr c 63 =? 0) ;;
  let* t2 := ok (as32 (N.land c m)) in
  let* c := ok (N.shiftr c 26) in
  let* c := u64 (c + (u2 * rr1)) in
  debug_assert (N.shiftr t2 26 =? 0) ;;
  debug_assert (N.shiftr c 38 =? 0) ;;
  let* c := u64 (c + (a0 * b3 + a1 * b2 + a2 * b1 + a3 * b0)) in
  debug_assert (N.shiftr c 63 =? 0) ;;
  let* d := u64 (d + (a4 * b9 + a5 * b8 + a6 * b7 + a7 * b6 + a8 * b5 + a9 * b4)) in
  debug_assert (N.shiftr d 63 =? 0) ;;
  let* u3 := ok (as32 (N.land d m)) in
  let* d := ok (N.shiftr d 26) in
  let* c := u64 (c + (u3 * rr0)) in
  debug_assert (N.shiftr u3 26 =? 0) ;;
  debug_assert (N.shiftr d 37 =? 0) ;;
  let* t3 := ok (as32 (N.land c m)) in
  let* c := ok (N.shiftr c 26) in
  let* c := u64 (c + (u3 * rr1)) in
  debug_assert (N.shiftr t3 26 =? 0) ;;
  debug_assert (N.shiftr c 39 =? 0) ;;
  let* c := u64 (c + (a0 * b4 + a1 * b3 + a2 * b2 + a3 * b1 + a4 * b0)) in
  debug_assert (N.shiftr c 63 =? 0) ;;
  let* d := u64 (d + (a5 * b9 + a6 * b8 + a7 * b7 + a8 * b6 + a9 * b5)) in
  debug_assert (N.shiftr d 62 =? 0) ;;
  let* u4 := ok (as32 (N.land d m)) in
  let* d := ok (N.shiftr d 26) in
  let* c := u64 (c + (u4 * rr0)) in
  debug_assert (N.shiftr u4 26 =? 0) ;;
  debug_assert (N.shiftr d 36 =? 0) ;;
  let* t4 := ok (as32 (N.land c m)) in
  let* c := ok (N.shiftr c 26) in
  let* c := u64 (c + (u4 * rr1)) in
  debug_assert (N.shiftr t4 26 =? 0) ;;
  debug_assert (N.shiftr c 39 =? 0) ;;
  let* c := u64 (c + (a0 * b5 + a1 * b4 + a2 * b3 + a3 * b2 + a4 * b1 + a5 * b0)) in
  debug_assert (N.shiftr c 63 =? 0) ;;
  let* d := u64 (d + (a6 * b9 + a7 * b8 + a8 * b7 + a9 * b6)) in
  debug_assert (N.shiftr d 62 =? 0) ;;
  let* u5 := ok (as32 (N.land d m)) in
  let* d := ok (N.shiftr d 26) in
  let* c := u64 (c + (u5 * rr0)) in
  debug_assert (N.shiftr u5 26 =? 0) ;;
  debug_assert (N.shiftr d 36 =? 0) ;;
  let* t5 := ok (as32 (N.land c m)) in
  let* c := ok (N.shiftr c 26) in
  let* c := u64 (c + (u5 * rr1)) in
  debug_assert (N.shiftr t5 26 =? 0) ;;
  debug_assert (N.shiftr c 39 =? 0) ;;
  let* c := u64 (c + (a0 * b6 + a1 * b5 + a2 * b4 + a3 * b3 + a4 * b2 + a5 * b1 + a6 * b0)) in
  debug_assert (N.shiftr c 63 =? 0) ;;
  let* d := u64 (d + (a7 * b9 + a8 * b8 + a9 * b7)) in
  debug_assert (N.shiftr d 61 =? 0) ;;
  let* u6 := ok (as32 (N.land d m)) in
  let* d := ok (N.shiftr d 26) in
  let* c := u64 (c + (u6 * rr0)) in
  debug_assert (N.shiftr u6 26 =? 0) ;;
  debug_assert (N.shiftr d 35 =? 0) ;;
  let* t6 := ok (as32 (N.land c m)) in
  let* c := ok (N.shiftr c 26) in
  let* c := u64 (c + (u6 * rr1)) in
  debug_assert (N.shiftr t6 26 =? 0) ;;
  debug_assert (N.shiftr c 39 =? 0) ;;
  let* c := u64 (c + (a0 * b7 + a1 * b6 + a2 * b5 + a3 * b4 + a4 * b3 + a5 * b2 + a6 * b1 + a7 * b0)) in
  debug_assert (c <=? 0x8000007C00000007) ;;
  let* d := u64 (d + (a8 * b9 + a9 * b8)) in
  debug_assert (N.shiftr d 58 =? 0) ;;
  let* u7 := ok (as32 (N.land d m)) in
  let* d := ok (N.shiftr d 26) in
  let* c := u64 (c + (u7 * rr0)) in
  debug_assert (N.shiftr u7 26 =? 0) ;;
  debug_assert (N.shiftr d 32 =? 0) ;;
  let* d32 := ok (as32 d) in
  debug_assert (c <=? 0x800001703FFFC2F7) ;;
  let* t7 := ok (as32 (N.land c m)) in
  let* c := ok (N.shiftr c 26) in
  let* c := u64 (c + (u7 * rr1)) in
  debug_assert (N.shiftr t7 26 =? 0) ;;
  debug_assert (N.shiftr c 38 =? 0) ;;
  let* c := u64 (c + (a0 * b8 + a1 * b7 + a2 * b6 + a3 * b5 + a4 * b4 + a5 * b3 + a6 * b2 + a7 * b1 + a8 * b0)) in
  debug_assert (c <=? 0x9000007B80000008) ;;
  let* d := u64 (d32 + a9 * b9) in
  debug_assert (N.shiftr d 57 =? 0) ;;
  let* u8 := ok (as32 (N.land d m)) in
  let* d := ok (N.shiftr d 26) in
  let* c := u64 (c + (u8 * rr0)) in
  debug_assert (N.shiftr u8 26 =? 0) ;;
  debug_assert (N.shiftr d 31 =? 0) ;;
  let* d32 := ok (as32 d) in
  debug_assert (c <=? 0x9000016FBFFFC2F8) ;;
  let* r3 := ok t3 in
  debug_assert (N.shiftr r3 26 =? 0) ;;
  let* r4 := ok t4 in
  debug_assert (N.shiftr r4 26 =? 0) ;;
  let* r5 := ok t5 in
  debug_assert (N.shiftr r5 26 =? 0) ;;
  let* r6 := ok t6 in
  debug_assert (N.shiftr r6 26 =? 0) ;;
  let* r7 := ok t7 in
  debug_assert (N.shiftr r7 26 =? 0) ;;
  let* r8 := ok (as32 (N.land c m)) in
  let* c := ok (N.shiftr c 26) in
  let* c := u64 (c + (u8 * rr1)) in
  debug_assert (N.shiftr r8 26 =? 0) ;;
  debug_assert (N.shiftr c 39 =? 0) ;;
  let* c := u64 (c + (d32 * rr0 + t9)) in
  debug_assert (N.shiftr c 45 =? 0) ;;
  let* r9 := ok (as32 (N.land c (N.shiftr m 4))) in
  let* c := ok (N.shiftr c 22) in
  let* c := u64 (c + (d * N.shiftl rr1 4)) in
  debug_assert (N.shiftr r9 22 =? 0) ;;
  debug_assert (N.shiftr c 46 =? 0) ;;
  let* d := u64 (c * N.shiftr rr0 4 + t0) in
  debug_assert (N.shiftr d 56 =? 0) ;;
  let* r0 := ok (as32 (N.land d m)) in
  let* d := ok (N.shiftr d 26) in
  debug_assert (N.shiftr r0 26 =? 0) ;;
  debug_assert (N.shiftr d 30 =? 0) ;;
  let* d32 := ok (as32 d) in
  let* d := u64 (d32 + c * N.shiftr rr1 4 + t1) in
  debug_assert (N.shiftr d 53 =? 0) ;;
  debug_assert (d <=? 0x10000003FFFFBF) ;;
  let* r1 := ok (as32 (N.land d m)) in
  let* d := ok (N.shiftr d 26) in
  debug_assert (N.shiftr r1 26 =? 0) ;;
  debug_assert (N.shiftr d 27 =? 0) ;;
  let* d32 := ok (as32 d) in
  debug_assert (d <=? 0x4000000) ;;
  let* d := u64 (d32 + t2) in
  debug_assert (N.shiftr d 27 =? 0) ;;
  let* r2 := ok (as32 d) in
  debug_assert (N.shiftr r2 27 =? 0) ;;
  ok (FE r0 r1 r2 r3 r4 r5 r6 r7 r8 r9).

(** [mul], [square] (field10x26_k256.rs 699-708). *)
Definition mul (s r : fe) : option fe := mul_inner s r.
Definition square (s : fe) : option fe := mul_inner s s.

(** [pow2k] (field10x26_k256.rs 710-716). *)
Fixpoint pow2k (s : fe) (k : nat) : option fe :=
  match k with
  | O => ok s
  | S k => let* x := pow2k s k in square x
  end.

(** [x2] to [x223], the part that [invert] and [sqrt] share (field10x26_k256.rs 721-731, 747-757). The pair holds what is used later. *)
Definition ladder (s : fe) : option (fe * fe * fe) :=
  let* y := pow2k s 1 in let* x2 := mul y s in
  let* y := pow2k x2 1 in let* x3 := mul y s in
  let* y := pow2k x3 3 in let* x6 := mul y x3 in
  let* y := pow2k x6 3 in let* x9 := mul y x3 in
  let* y := pow2k x9 2 in let* x11 := mul y x2 in
  let* y := pow2k x11 11 in let* x22 := mul y x11 in
  let* y := pow2k x22 22 in let* x44 := mul y x22 in
  let* y := pow2k x44 44 in let* x88 := mul y x44 in
  let* y := pow2k x88 88 in let* x176 := mul y x88 in
  let* y := pow2k x176 44 in let* x220 := mul y x44 in
  let* y := pow2k x220 3 in let* x223 := mul y x3 in
  ok (x2, x22, x223).

(** [invert] (field10x26_k256.rs 720-742). *)
Definition invert (s : fe) : option fe :=
  let* xs := ladder s in
  let '(x2, x22, x223) := xs in
  let* y := pow2k x223 23 in let* y := mul y x22 in
  let* y := pow2k y 5 in let* y := mul y s in
  let* y := pow2k y 3 in let* y := mul y x2 in
  let* y := pow2k y 2 in mul y s.

(** [sqrt] (field10x26_k256.rs 746-766): [ok None] is an empty [CtOption]. *)
Definition sqrt (s : fe) : option (option fe) :=
  let* xs := ladder s in
  let '(x2, x22, x223) := xs in
  let* y := pow2k x223 23 in let* y := mul y x22 in
  let* y := pow2k y 6 in let* y := mul y x2 in
  let* res := pow2k y 2 in
  let* sq := mul res res in
  let* ng := negate sq 1 in
  let* df := fe_add ng s in
  let* is_root := normalizes_to_zero df in
  ok (if is_root then Some res else None).

(** ** Executors and guest *)
(** Bytes of a 32-bit word in memory and in the hint stream, least significant first ([to_le_bytes], the transmutes of
    executors.rs 121-131, 167-180 on the little-endian host, and the word reads of hints-guest/src/lib.rs 75-91). *)
Definition word_bytes (w : N) : list N := [w mod 256; w / 256 mod 256; w / 65536 mod 256; w / 16777216 mod 256].
Definition bytes_word (b0 b1 b2 b3 : N) : N := b0 + 256 * b1 + 65536 * b2 + 16777216 * b3.
Definition fe_bytes (x : fe) : list N := concat (map word_bytes (limbs x)).
(** [read_hint_u32] (lib.rs 75-81): the next word of the stream and the rest. *)
Definition read_word (stream : list N) : option (N * list N) :=
  match stream with b0 :: b1 :: b2 :: b3 :: rest => Some (bytes_word b0 b1 b2 b3, rest) | _ => None end.
(** [read_hint_buffer] for [[u32; 10]] (lib.rs 85-91), and the read of the input by the executors (executors.rs 114-127). *)
Definition read_fe (stream : list N) : option (fe * list N) :=
  let* (w0, stream) := read_word stream in
  let* (w1, stream) := read_word stream in
  let* (w2, stream) := read_word stream in
  let* (w3, stream) := read_word stream in
  let* (w4, stream) := read_word stream in
  let* (w5, stream) := read_word stream in
  let* (w6, stream) := read_word stream in
  let* (w7, stream) := read_word stream in
  let* (w8, stream) := read_word stream in
  let* (w9, stream) := read_word stream in
  ok (FE w0 w1 w2 w3 w4 w5 w6 w7 w8 w9, stream).

(** [ReverseBytesSubEx] (executors.rs 15-36) on the four bytes at the pointer: the stream it leaves. *)
Definition exec_reverse_bytes (mem : list N) : list N := rev mem.
(** [hint_reverse_bytes] outside the VM (lib.rs 100-106). *)
Definition host_reverse_bytes (val : N) : N :=
  N.lor (N.lor (N.lor (shl32 (N.land val 0x000000FF) 24) (shl32 (N.land val 0x0000FF00) 8)) (N.shiftr (N.land val 0x00FF0000) 8)) (N.shiftr (N.land val 0xFF000000) 24).
(** [hint_reverse_bytes] inside the VM (lib.rs 95-99). *)
Definition guest_reverse_bytes (val : N) : option N :=
  let* (w, _) := read_word (exec_reverse_bytes (word_bytes val)) in ok w.

(** [K256InverseField10x26SubEx] (executors.rs 100-135): the stream left for the 40 bytes at the pointer. *)
Definition exec_inverse (mem : list N) : option (list N) :=
  let* (elem, _) := read_fe mem in
  let* y := invert elem in
  let* inv := normalize y in
  ok (fe_bytes inv).

(** [K256_NON_QUADRATIC_RESIDUE] (executors.rs 139-140). *)
Definition K256_NON_QUADRATIC_RESIDUE : fe := FE 3 0 0 0 0 0 0 0 0 0.

(** [K256SqrtField10x26SubEx] (executors.rs 147-207); the [unwrap] of an empty [CtOption] panics. *)
Definition exec_sqrt (mem : list N) : option (list N) :=
  let* (elem, _) := read_fe mem in
  let* res := sqrt elem in
  match res with
  | Some root => ok (word_bytes 1 ++ fe_bytes root)
  | None =>
      let* p := mul elem K256_NON_QUADRATIC_RESIDUE in
      let* res := sqrt p in
      let* root := res in
      ok (word_bytes 0 ++ fe_bytes root)
  end.

(** [ensure_weakly_normalized_10x26] (lib.rs 117-133). *)
Definition ensure_weakly_normalized_10x26 (x : fe) : fe :=
  let '(FE x0 x1 x2 x3 x4 x5 x6 x7 x8 x9) := x in
  FE (N.land x0 0x3ffffff) (N.land x1 0x3ffffff) (N.land x2 0x3ffffff) (N.land x3 0x3ffffff) (N.land x4 0x3ffffff) (N.land x5 0x3ffffff) (N.land x6 0x3ffffff) (N.land x7 0x3ffffff) (N.land x8 0x3ffffff) (N.land x9 0x3fffff).

(** [hint_k256_inverse_field_10x26] (lib.rs 141-145) with the stream that the executor left. *)
Definition guest_inverse (elem : fe) : option fe :=
  let* stream := exec_inverse (fe_bytes elem) in
  let* (inverse, _) := read_fe stream in
  ok (ensure_weakly_normalized_10x26 inverse).

(** [hint_k256_sqrt_field_10x26] (lib.rs 156-164). *)
Definition guest_sqrt (elem : fe) : option (bool * fe) :=
  let* stream := exec_sqrt (fe_bytes elem) in
  let* (flag, stream) := read_word stream in
  let* (root, _) := read_fe stream in
  ok (negb (flag =? 0), ensure_weakly_normalized_10x26 root).
