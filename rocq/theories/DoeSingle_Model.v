(** Latin hypercubes in single precision: [Lhs<f32, R>]. *)
From Coq Require Import ZArith List.
From Flocq Require Import Core BinarySingleNaN.
From Verif Require Import Util F64 Moe_Model Doe_Model.
Import ListNotations.

(** [F::cast] of a double to [f32]. *)
Definition cast32 (v : f64) : f32 :=
  match v with
  | B754_finite s m e _ => binary_normalize 24 128 f32_prec f32_emax mode_NE (cond_Zopp s (Zpos m)) e s
  | B754_zero s => B754_zero s
  | B754_infinity s => B754_infinity s
  | B754_nan => B754_nan
  end.
Definition ofZ32 (z : Z) : f32 := binary_normalize 24 128 f32_prec f32_emax mode_NE z 0 false.

(** The operations of [f32]; [powf] is a parameter. The square root is that of [l2_dist] of ndarray-stats, a double rounded to [f32] by utils.rs:20
    and 48 (the root of a single precision number rounded first to double precision is the same number). Constants are cast from doubles. *)
Definition f32_arith (pw : f32 -> f32 -> f32) : arith f32 := {|
  ofZ := ofZ32; lit := fun n d => cast32 (fdiv (fofZ n) (fofZ (Zpos d)));
  add := Bplus mode_NE; sub := Bminus mode_NE; mul := Bmult mode_NE; div := Bdiv mode_NE; pow := pw; sqrt := Bsqrt mode_NE; opp := Bopp; absv := Babs;
  ltb := Bltb; leb := Bleb; isnan := is_nan |}.

(** [_classic_lhs] and [_centered_lhs], lhs.rs:236-274: computed in double precision, then cast. *)
Definition no_pow (a b : f64) : f64 := a.
Definition classic32 (ns nx : nat) (rnd : nat -> list f64) (sw : nat -> list (nat * nat)) : list (list f32) :=
  map (map cast32) (classic_lhs (f64_arith no_pow (Bsqrt mode_NE)) ns nx rnd sw).
Definition centered32 (ns nx : nat) (sw : nat -> list (nat * nat)) : list (list f32) :=
  map (map cast32) (centered_lhs (f64_arith no_pow (Bsqrt mode_NE)) ns nx sw).
(** [LhsKind::Optimized], lhs.rs:78-84. *)
Definition optimized32 (pw : f32 -> f32 -> f32) (ns nx : nat) (rnd : nat -> list f64) (sw : nat -> list (nat * nat))
    (draws : nat -> nat -> inner_draws (A := f32)) : option (list (list f32)) :=
  maximin_ese (f32_arith pw) nx (classic32 ns nx rnd sw) (Nat.min (3 * nx / 2) 30) (Nat.min (20 * nx) 100) draws.
(** [_maximin_lhs] with [max_iters = 5], lhs.rs:76-77 and 276-298. *)
Definition maximin32 (pw : f32 -> f32 -> f32) (ns nx : nat) (centered : bool) (rnd : nat -> nat -> list f64) (sw : nat -> nat -> list (nat * nat)) :
    option (list (list f32)) :=
  let design t := if centered then centered32 ns nx (sw t) else classic32 ns nx (rnd t) (sw t) in
  maximin_of (f32_arith pw) (design 0) (map design (seq 1 4)).
