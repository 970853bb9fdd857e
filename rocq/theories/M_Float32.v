(** Arithmetic of numpy's float32 and float64, from Flocq's IEEE 754 formats
    with one NaN, rounding to nearest, ties to even.

    Simplifications: NaNs carry no payload; no floating-point exceptions; the
    compiled code rounds every operation (no excess precision). *)
From Coq Require Import List ZArith.
From Flocq Require Import Core.FLX IEEE754.BinarySingleNaN.
From Verif Require Import Base.
Import ListNotations.

Notation f32 := (binary_float 24 128).
Notation f64 := (binary_float 53 1024).

Definition p24 : Prec_gt_0 24 := eq_refl.
Definition p53 : Prec_gt_0 53 := eq_refl.
Definition e128 : Prec_lt_emax 24 128 := eq_refl.
Definition e1024 : Prec_lt_emax 53 1024 := eq_refl.

(** float32 operations. *)
Definition fadd (x y : f32) : f32 := Bplus (prec_gt_0_ := p24) (prec_lt_emax_ := e128) mode_NE x y.
Definition fmul (x y : f32) : f32 := Bmult (prec_gt_0_ := p24) (prec_lt_emax_ := e128) mode_NE x y.
Definition fdiv (x y : f32) : f32 := Bdiv (prec_gt_0_ := p24) (prec_lt_emax_ := e128) mode_NE x y.
Definition fltb (x y : f32) : bool := Bltb x y.

(** float64 operations. *)
Definition dadd (x y : f64) : f64 := Bplus (prec_gt_0_ := p53) (prec_lt_emax_ := e1024) mode_NE x y.
Definition dmul (x y : f64) : f64 := Bmult (prec_gt_0_ := p53) (prec_lt_emax_ := e1024) mode_NE x y.
Definition ddiv (x y : f64) : f64 := Bdiv (prec_gt_0_ := p53) (prec_lt_emax_ := e1024) mode_NE x y.
Definition dltb (x y : f64) : bool := Bltb x y.

(** m * 2^e, rounded. *)
Definition f32_of (m e : Z) : f32 := binary_normalize 24 128 p24 e128 mode_NE m e false.
Definition f64_of (m e : Z) : f64 := binary_normalize 53 1024 p53 e1024 mode_NE m e false.

(** Conversions; a float32 is also a float64. *)
Definition to64 (x : f32) : f64 :=
  match x with
  | B754_zero s => B754_zero s
  | B754_infinity s => B754_infinity s
  | B754_nan => B754_nan
  | B754_finite s m e _ => binary_normalize 53 1024 p53 e1024 mode_NE (SpecFloat.cond_Zopp s (Zpos m)) e s
  end.
Definition to32 (x : f64) : f32 :=
  match x with
  | B754_zero s => B754_zero s
  | B754_infinity s => B754_infinity s
  | B754_nan => B754_nan
  | B754_finite s m e _ => binary_normalize 24 128 p24 e128 mode_NE (SpecFloat.cond_Zopp s (Zpos m)) e s
  end.

Definition fzero : f32 := B754_zero false.
Definition fone : f32 := f32_of 1 0.

(** [a.max()]: numpy keeps the first of equal entries; NaNs are kept once met. *)
Definition fmax2 (x y : f32) : f32 :=
  match x, y with
  | B754_nan, _ | _, B754_nan => B754_nan
  | _, _ => if fltb x y then y else x
  end.
Fixpoint fmax (x : f32) (l : list f32) : f32 :=
  match l with [] => x | y :: l => fmax (fmax2 x y) l end.

(** [a.cumsum()], in float32. *)
Fixpoint fcumsum (acc : f32) (l : list f32) : list f32 :=
  match l with [] => [] | x :: l => fadd acc x :: fcumsum (fadd acc x) l end.

(** [np.dot] of two vectors, added from left to right: one possible order. *)
Fixpoint fdot (acc : f32) (l : list (f32 * f32)) : f32 :=
  match l with [] => acc | (x, y) :: l => fdot (fadd acc (fmul x y)) l end.
Definition seq_dot (x y : list f32) : f32 := fdot fzero (combine x y).
