(** Model of the local search area of a trust-region step. *)
From Coq Require Import ZArith List Arith Bool.
From Verif Require Import F64 Util.
Import ListNotations.

(** crates/ego/src/solver/trego.rs:64-69: one coordinate of the local area: lower and upper limits [lo up],
    best coordinate [xb], radii [d0 d1] ([local_bounds], from the trust-region configuration). *)
Definition local_side (d0 d1 : f64) (lo up xb : f64) : f64 * f64 :=
  (fmax lo (fsub xb d0), fmin up (fadd xb d1)).

(** trego.rs:54-70: the whole area; the [Zip] panics when the lengths differ. *)
Fixpoint local_area (d0 d1 : f64) (origin : list f64) (xlimits : list (f64 * f64)) : option (list (f64 * f64)) :=
  match origin, xlimits with
  | [], [] => Some []
  | xb :: o', (lo, up) :: l' => do r <- local_area d0 d1 o' l'; Some (local_side d0 d1 lo up xb :: r)
  | _, _ => None
  end.
