(** Vocabulary of the statements about sparse Gaussian processes. *)
From Coq Require Import Reals.
From Verif Require Import RVec Moe_Model Kern_Model Kern_Spec Gp_Model Gp_Spec.
Local Open Scope R_scope.

(** t solves A t = b. *)
Definition solves (n : nat) (A : mat) (t b : vec) : Prop := forall i, (i < n)%nat -> mv n A t i = b i.
(** The covariance of two values as seen through the inducing points, ka and kb being their covariances with the values at these points:
    ka^T K^-1 kb. *)
Definition nystrom (m : nat) (K : mat) (ka kb : vec) (q : R) : Prop := exists t, solves m K t kb /\ q = dot m ka t.
(** Mean and variance of a value of variance kss given observations y with covariance C, c being their covariances with the value:
    c^T C^-1 y and kss - c^T C^-1 c. *)
Definition posterior (n : nat) (C : mat) (c y : vec) (kss mean var : R) : Prop :=
  (exists w, solves n C w c) /\ forall w, solves n C w c -> mean = dot n w y /\ var = kss - dot n w c.
(** Prior covariance of the values at two points. *)
Definition prior (ck : corr_kind) (nx h : nat) (theta : vec) (w : mat) (sigma2 : R) (a b : vec) : R :=
  sigma2 * documented_kernel ck nx h theta w (fun c => a c - b c).
(** Covariance of the values at the inducing points, with the nugget. *)
Definition prior_z (ck : corr_kind) (nx h : nat) (theta : vec) (w : mat) (sigma2 nugget : R) (z : mat) : mat :=
  fun i j => prior ck nx h theta w sigma2 (z i) (z j) + if Nat.eqb i j then nugget else 0.
(** A matrix with d added on the diagonal. *)
Definition plus_diag (A : mat) (d : vec) : mat := fun i j => A i j + if Nat.eqb i j then d i else 0.
(** L is the Cholesky factor of A. *)
Definition chol_factor (n : nat) (A L : mat) : Prop :=
  lower n L /\ (forall i, (i < n)%nat -> 0 < L i i) /\ forall i j, (i < n)%nat -> (j < n)%nat -> sumn n (fun k => L i k * L j k) = A i j.
(** d is the logarithm of the determinant of A: of the square of the product of the diagonal of a Cholesky factor. *)
Definition log_det (n : nat) (A : mat) (d : R) : Prop := exists L, chol_factor n A L /\ d = 2 * sumn n (fun i => ln (L i i)).
