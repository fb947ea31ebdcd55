(** Polynomial bases, to state what trends are. *)
From Coq Require Import Reals Arith List.
From Verif Require Import RVec Moe_Model.
Import ListNotations.
Local Open Scope R_scope.

(** Monomials of degree at most two. *)
Inductive monomial := One | Comp (i : nat) | Times (i j : nat).
Definition mono_val (x : nat -> R) (m : monomial) : R :=
  match m with One => 1 | Comp i => x i | Times i j => x i * x j end.
(** Those of the constant, linear and quadratic bases in dimension n; the product of components i and j is
    written with i <= j. *)
Definition in_basis (k : mean_kind) (n : nat) (m : monomial) : Prop :=
  match m with
  | One => True
  | Comp i => (k = Linear \/ k = Quadratic) /\ (i < n)%nat
  | Times i j => k = Quadratic /\ (i <= j < n)%nat
  end.

(** The documented kernels: products over the components j and the columns l of a function of theta_l |w_jl d_j|. *)
Definition profile (k : corr_kind) (t : R) : R :=
  match k with
  | SquaredExponential => exp (- (t * t) / 2)
  | AbsoluteExponential => exp (- t)
  | Matern32 => (1 + sqrt 3 * t) * exp (- (sqrt 3 * t))
  | Matern52 => (1 + sqrt 5 * t + 5 / 3 * (t * t)) * exp (- (sqrt 5 * t))
  end.
Definition documented_kernel (k : corr_kind) (nx h : nat) (theta : nat -> R) (w : nat -> nat -> R) (d : nat -> R) : R :=
  prodn nx (fun j => prodn h (fun l => profile k (theta l * Rabs (w j l * d j)))).
