(** Vocabulary of the properties of mixtures, independent of how the code computes. *)
From Coq Require Import Reals Lra Lia Arith.
From Coquelicot Require Import Coquelicot.
From Coq Require Import List Bool.
From Verif Require Import RVec Gmx_Model.
Local Open Scope R_scope.

(** A mixture the constructors can produce: positive weights summing to one, positive smoothing
    factor, log determinants refreshed. *)
Definition good_mixture (g : gmixture) : Prop :=
  (1 <= gm_k g)%nat /\
  (forall k, (k < gm_k g)%nat -> 0 < gm_w g k) /\
  sumn (gm_k g) (gm_w g) = 1 /\
  (forall k i, (k < gm_k g)%nat -> (i < gm_d g)%nat -> 0 < gm_chol g k i i) /\
  0 < gm_h g /\
  gm_logdet g = log_det (gm_d g) (gm_chol g) (gm_h g).

(** Textbook multivariate normal density with precision matrix P = C C^T / h (C triangular, so that the
    determinant of P is the square of the product of the diagonal of C / sqrt h):
    prod_i (C_ii / sqrt h) * (2 pi)^(-d/2) * exp (- (x-mu)^T P (x-mu) / 2). *)
Definition normal_density (d : nat) (mu : nat -> R) (C : nat -> nat -> R) (h : R) (x : nat -> R) : R :=
  let P i j := sumn d (fun l => C i l * C j l) / h in
  prodn d (fun i => C i i / sqrt h) * / (sqrt (2 * PI)) ^ d *
  exp (- / 2 * sumn d (fun i => sumn d (fun j => (x i - mu i) * P i j * (x j - mu j)))).

Definition density (g : gmixture) (x : nat -> R) (k : nat) : R :=
  normal_density (gm_d g) (gm_mu g k) (gm_chol g k) (gm_h g) x.

(** Total density of the mixture at x. *)
Definition mix_density (g : gmixture) (x : nat -> R) : R :=
  sumn (gm_k g) (fun k => gm_w g k * density g x k).

(** Points where no weighted density is negligible for the code and the total is above epsilon. *)
Definition regular (g : gmixture) (x : nat -> R) : Prop :=
  gm_k g = 1%nat \/
  ((forall k, (k < gm_k g)%nat -> exp (-307) < gm_w g k * density g x k) /\ / 4503599627370496 < mix_density g x).

(** l is the gradient of f at x, on the first d components. *)
Definition gradient (d : nat) (f : (nat -> R) -> R) (x : nat -> R) (l : nat -> R) : Prop :=
  forall j, (j < d)%nat -> partial f x j (l j).
