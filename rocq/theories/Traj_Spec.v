(** Vocabulary of the statements about trajectories. *)
From Coq Require Import Reals.
From Verif Require Import RVec Gp_Model.
Local Open Scope R_scope.

(** Averages E of functions of n uncorrelated draws with mean 0 and variance 1. *)
Definition standard (n : nat) (E : (vec -> R) -> R) : Prop :=
  (forall f g, (forall z, f z = g z) -> E f = E g) /\
  (forall f g, E (fun z => f z + g z) = E f + E g) /\ (forall c f, E (fun z => c * f z) = c * E f) /\ E (fun _ => 1) = 1 /\
  (forall k, (k < n)%nat -> E (fun z => z k) = 0) /\
  (forall k l, (k < n)%nat -> (l < n)%nat -> E (fun z => z k * z l) = if Nat.eqb k l then 1 else 0).
(** A trajectory s, function of the draws, has on average the values m and the covariances given by C. *)
Definition has_mean (n : nat) (s : vec -> vec) (m : vec) : Prop := forall E, standard n E -> forall i, (i < n)%nat -> E (fun z => s z i) = m i.
Definition has_cov (n : nat) (s : vec -> vec) (m : vec) (C : mat) : Prop :=
  forall E, standard n E -> forall i k, (i < n)%nat -> (k < n)%nat -> E (fun z => (s z i - m i) * (s z k - m k)) = C i k.
(** The library returns the eigenvalues v and orthonormal eigenvectors w of a: a = w diag(v) w^T. *)
Definition is_eigh (n : nat) (a : mat) (vw : vec * mat) : Prop :=
  (forall i k, (i < n)%nat -> (k < n)%nat -> sumn n (fun l => fst vw l * (snd vw i l * snd vw k l)) = a i k) /\
  (forall i k, (i < n)%nat -> (k < n)%nat -> sumn n (fun l => snd vw l i * snd vw l k) = if Nat.eqb i k then 1 else 0) /\
  (forall i k, (i < n)%nat -> (k < n)%nat -> sumn n (fun l => snd vw i l * snd vw k l) = if Nat.eqb i k then 1 else 0).
(** a <= b as quadratic forms. *)
Definition quad_le (n : nat) (a b : mat) : Prop :=
  forall c : vec, sumn n (fun i => sumn n (fun k => c i * c k * a i k)) <= sumn n (fun i => sumn n (fun k => c i * c k * b i k)).
