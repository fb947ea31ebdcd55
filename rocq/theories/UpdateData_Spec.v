(** Specification of the history update. *)
From Coq Require Import ZArith List Arith Bool.
From Verif Require Import F64.
Import ListNotations.

(** L1 distance of two points, summed from left to right in double precision. *)
Definition l1 (a b : list f64) : f64 :=
  fold_left fadd (map (fun p : f64 * f64 => fabs (fsub (fst p) (snd p))) (combine a b)) fzero.

(** [near a b]: the points are closer than 100 machine epsilons (100 * 2^-52). *)
Definition near (a b : list f64) : Prop := flt (l1 a b) (fmake 100 (-52)) = true.

(** Rows of [l] at the given positions. *)
Definition rows_at (l : list (list f64)) (idx : list nat) : list (list f64) :=
  map (fun i => nth i l []) idx.

Definition width (w : nat) (l : list (list f64)) : Prop := Forall (fun r => length r = w) l.

(** Strictly increasing positions below [n]. *)
Definition increasing_below (n : nat) (idx : list nat) : Prop :=
  (forall i, In i idx -> i < n) /\
  forall a b i j, a < b -> nth_error idx a = Some i -> nth_error idx b = Some j -> i < j.

(** The components of a point are finite numbers. *)
Definition finite_row (r : list f64) : Prop := Forall (fun v => Flocq.IEEE754.BinarySingleNaN.is_finite v = true) r.
