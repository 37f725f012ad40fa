(** ModelFloat.v -- the parts of the finder that decide and count, in binary64
    arithmetic (Flocq).  Everywhere else numbers are real numbers. *)

From Flocq Require Import Core BinarySingleNaN.
From Coq Require Import Reals ZArith List.
From Verif Require Import Base ModelFinder.
Import ListNotations.
Open Scope R_scope.

(** IEEE 754 binary64 *)
Notation prec64 := 53%Z.
Notation emax64 := 1024%Z.
Notation f64 := (binary_float prec64 emax64).
Notation fexp64 := (SpecFloat.fexp prec64 emax64).

Lemma prec64_ok : Prec_gt_0 prec64. Proof. reflexivity. Qed.
Lemma prec64_lt : Prec_lt_emax prec64 emax64. Proof. reflexivity. Qed.
#[global] Existing Instance prec64_ok.
#[global] Existing Instance prec64_lt.

Definition zero64 : f64 := B754_zero false.
Definition one64 : f64 := @Bone prec64 emax64 prec64_ok prec64_lt.
Definition minus64 (x y : f64) : f64 := @Bminus prec64 emax64 prec64_ok prec64_lt mode_NE x y.
(** Python's [x < y] *)
Definition lt64 (x y : f64) : bool := Bltb x y.

(** [np.sign] *)
Definition sign64 (x : f64) : f64 :=
  match x with
  | B754_zero s => B754_zero s
  | B754_nan => B754_nan
  | B754_infinity s | B754_finite s _ _ _ => if s then Bopp one64 else one64
  end.

(** [x.clip(lo)]: a NaN stays *)
Definition clip64 (lo x : f64) : f64 := if lt64 x lo then lo else x.

(** _finder_impl.py:69 [make_valid_compartment_masks], one entry *)
Definition mask64 (thr J : f64) : f64 := clip64 zero64 (sign64 (minus64 J thr)).
Definition masks64 (thr : f64) (Js : list f64) : list f64 := map (mask64 thr) Js.

(** _finder_impl.py:46 [count_valid_compartments] *)
Definition count64 (thr : f64) (Js : list f64) : nat := length (filter (lt64 thr) Js).

(** _finder_impl.py:125 and 184: the test for a dead compartment, [J <= thr] *)
Definition dead64 (thr J : f64) : bool := Bleb J thr.

(** Correctly rounded result of one operation without overflow. *)
Definition RN (x : R) : R := round radix2 fexp64 ZnearestE x.

(** finder.py:556-557 for integer arguments.  CPython divides two integers with
    one correct rounding; np.ceil converts its argument to binary64 and is exact;
    [int] is exact, and so is [//] on integers. *)
Definition schedule64 (max_steps interval : Z) : res (nat * nat) :=
  if Z.eqb interval 0 then Err ZeroDivisionError else
  let tracker := zceil (RN (IZR max_steps / IZR interval)) in
  if Z.eqb tracker 0 then Err ZeroDivisionError else
  let inner := Z.max 1 (zceil (RN (IZR max_steps)) / tracker) in
  Ok (Z.to_nat tracker, Z.to_nat inner).
