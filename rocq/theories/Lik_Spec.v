(** Vocabulary of the statements about the likelihood of a Gaussian process. *)
From Coq Require Import Reals.
From Verif Require Import RVec Gp_Model Gp_Spec Sgp_Spec.
Local Open Scope R_scope.

(** l is the logarithm of the density at y of the Gaussian vector with mean mu and covariance C:
    -n/2 log(2 pi) - 1/2 log det C - 1/2 (y - mu)^T C^-1 (y - mu). *)
Definition gauss_log_density (n : nat) (mu : vec) (C : mat) (y : vec) (l : R) : Prop :=
  exists v d, solves n C v (fun i => y i - mu i) /\ log_det n C d /\
    l = - (INR n / 2) * ln (2 * PI) - d / 2 - dot n (fun i => y i - mu i) v / 2.
