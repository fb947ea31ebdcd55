(** Model of the value of the expected improvement (crates/ego/src/criteria/ei.rs) in binary64 arithmetic, on top of the
    functions of CritF64_Model.v. *)
From Coq Require Import ZArith Bool.
From Flocq Require Import IEEE754.BinarySingleNaN.
From Verif Require Import F64 CritF64_Model.

(** f64::sqrt and f64::EPSILON of the standard library. *)
Definition fsqrt (a : f64) : f64 := Bsqrt mode_NE a.
Definition EPSILON : f64 := fmake 1 (-52).

(** ei.rs:41-43 and the sum of ei.rs:44: the improvement expected in units of the standard deviation. *)
Definition impr_f (L : libm) (args0 : f64) : f64 :=
  let args1 := fmul args0 (norm_cdf_f L args0) in
  let args2 := norm_pdf_f L args0 in
  fadd args1 args2.
(** ei.rs:33-45, from the value and the variance predicted at the point. *)
Definition ei_f (L : libm) (pred s fmin : f64) (sigma_weight : option f64) : f64 :=
  if flt s EPSILON then fzero
  else let k := match sigma_weight with Some k => k | None => fone end in
       let sigma := fmul k (fsqrt s) in
       let args0 := fdiv (fsub fmin pred) sigma in
       fmul sigma (impr_f L args0).
(** ei.rs:31-49: a prediction which fails counts as no improvement. *)
Definition ei_value_f (L : libm) (predicted : option (f64 * f64)) (fmin : f64) (sigma_weight : option f64) : f64 :=
  match predicted with Some (p, s) => ei_f L p s fmin sigma_weight | None => fzero end.
