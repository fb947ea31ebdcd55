(** Designs of experiments for integer variables, in exact real arithmetic. *)
From Coq Require Import Reals List Arith ZArith Bool.
From Flocq Require Import Core.
From Verif Require Import Util F64 Doe_Model.
Import ListNotations.

(** The limits of the decorated continuous method, mixint.rs:44-66 ([as_continuous_limits]): an integer variable [lo, hi]
    is relaxed to the interval from [lo] to [hi]. Simplification: only integer variables (a column of another type does
    not change the columns of the integer variables). *)
Definition int_limits (vars : list (Z * Z)) : list (R * R) := map (fun p => (IZR (fst p), IZR (snd p))) vars.
(** [val.round()] of [cast_to_discrete_values_mut], mixint.rs:167-178: to nearest, halves away from zero. *)
Definition int_cast (v : R) : Z := ZnearestA v.
(** [MixintSampling::sample], mixint.rs:282-291, on the normalized sample [x] of the decorated method
    ([SamplingMethod::sample], traits.rs:23-28), then the rounding of every column. *)
Definition integer_sample (vars : list (Z * Z)) (x : list (list R)) : list (list Z) :=
  map (map int_cast) (scale_sample R_arith (int_limits vars) x).
