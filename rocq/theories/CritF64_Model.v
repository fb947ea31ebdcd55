(** Model of [log_ei_helper] (crates/ego/src/utils/logei_helper.rs) in binary64 arithmetic. The functions of the crate libm are
    arguments of the model; their documented special cases are stated in [libm_spec]. *)
From Coq Require Import ZArith Bool.
From Flocq Require Import IEEE754.BinarySingleNaN.
From Verif Require Import F64.

(** exp, log, erfc, expm1 and log1p of the crate libm. *)
Record libm := { l_exp : f64 -> f64; l_log : f64 -> f64; l_erfc : f64 -> f64; l_expm1 : f64 -> f64; l_log1p : f64 -> f64 }.

(** logei_helper.rs:4-7. *)
Definition INV_SQRT_2 : f64 := fmake 6369051672525772 (-53).
Definition LOG_2PI_OVER_2 : f64 := fmake 8277062471433908 (-53).
Definition LOG_PI_OVER_2_ALL_OVER_2 : f64 := fmake 8134990813074197 (-55).
Definition INV_SQRT_EPSILON : f64 := fofZ 1000000.
(** misc.rs:7 and f64::consts::SQRT_2. *)
Definition SQRT_2PI : f64 := fmake 5644425081792262 (-51).
Definition SQRT_2 : f64 := fmake 6369051672525773 (-52).
Definition half : f64 := fmake 1 (-1).

(** misc.rs:31-38. *)
Definition norm_cdf_f (L : libm) (x : f64) : f64 := fmul half (l_erfc L (fdiv (fneg x) SQRT_2)).
Definition norm_pdf_f (L : libm) (x : f64) : f64 := fdiv (l_exp L (fmul (fmul (fneg half) x) x)) SQRT_2PI.
(** logei_helper.rs:9-20. *)
Definition erfcx_f (L : libm) (u : f64) : f64 := fmul (l_exp L (fmul u u)) (l_erfc L u).
Definition log1mexp_f (L : libm) (x : f64) : f64 :=
  if fgt x (fneg (l_log L (fofZ 2))) then l_log L (fneg (l_expm1 L x)) else l_log1p L (fneg (l_exp L x)).
(** logei_helper.rs:22-37. *)
Definition log_ei_helper_f (L : libm) (u : f64) : f64 :=
  if fgt u (fneg fone) then l_log L (fadd (norm_pdf_f L u) (fmul u (norm_cdf_f L u)))
  else let log_phi_u := fsub (fmul (fmul (fneg half) u) u) LOG_2PI_OVER_2 in
       let log_term :=
         if fgt u (fneg INV_SQRT_EPSILON)
         then log1mexp_f L (fadd (l_log L (fmul (erfcx_f L (fmul (fneg INV_SQRT_2) u)) (fabs u))) LOG_PI_OVER_2_ALL_OVER_2)
         else fmul (fneg (fofZ 2)) (l_log L (fabs u)) in
       fadd log_phi_u log_term.

(** Special cases documented for these functions (C99, annex F): overflow of exp, propagation of NaN, infinite arguments,
    logarithm of a negative number, sign of erfc. *)
Record libm_spec (L : libm) : Prop := {
  exp_overflow : forall x, fle (fofZ 710) x = true -> l_exp L x = finf;
  exp_of_nan : fnan (l_exp L fNaN) = true;
  erfc_nonneg : forall x, fnan x = false -> fle fzero (l_erfc L x) = true;
  log_of_inf : l_log L finf = finf;
  log_of_neg_inf : fnan (l_log L fninf) = true;
  log_nonneg : forall x, fle fone x = true -> fle fzero (l_log L x) = true;
  log_of_nan : fnan (l_log L fNaN) = true;
  log_of_2 : is_finite (l_log L (fofZ 2)) = true;
  expm1_of_inf : l_expm1 L finf = finf;
  log1p_of_nan : fnan (l_log1p L fNaN) = true }.
