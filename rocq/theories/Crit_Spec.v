(** Vocabulary of the properties of infill criteria, independent of the model of the code. *)
From Coq Require Import Reals Lra Lia Arith.
From Coquelicot Require Import Coquelicot.
From Coq Require Import List.
From Verif Require Import RVec Crit_Model.
Local Open Scope R_scope.

(** The surrogate predicts the given mean and variance everywhere. *)
Definition predicts (m : surrogate) (mean var : vec -> R) : Prop :=
  forall x, s_predict m x = Some (mean x) /\ s_valvar m x = Some (mean x, var x).

(** At x, the surrogate also predicts the partial derivatives of its mean and variance with respect to the n components. *)
Definition predicts_gradients (n : nat) (m : surrogate) (mean var : vec -> R) (x : vec) : Prop :=
  exists gm gv, s_grad m x = Some gm /\ s_valvar_grad m x = Some (gm, gv) /\
    forall j, (j < n)%nat -> partial mean x j (gm j) /\ partial var x j (gv j).

(** The vector g holds the partial derivatives of f at x. *)
Definition is_gradient (n : nat) (f : vec -> R) (x : vec) (g : vec) : Prop :=
  forall j, (j < n)%nat -> partial f x j (g j).

(** Density of the normal distribution of mean mu and standard deviation sd. *)
Definition density (mu sd y : R) : R := exp (- (((y - mu) / sd) * ((y - mu) / sd)) / 2) / (sd * sqrt (2 * PI)).
(** v is the expectation of g(Y) when Y follows that distribution: the integrals over [a, b] tend to v when a and b tend to
    minus and plus infinity. *)
Definition expectation (g : R -> R) (mu sd v : R) : Prop :=
  forall e, 0 < e -> exists M, forall a b, a < - M -> M < b ->
    ex_RInt (fun y => g y * density mu sd y) a b /\ Rabs (RInt (fun y => g y * density mu sd y) a b - v) < e.
(** Improvement of the value y over the best known value. *)
Definition improvement (fmin y : R) : R := Rmax (fmin - y) 0.
(** Indicator of the satisfaction of a constraint. *)
Definition satisfied (tol y : R) : R := if Rle_dec y tol then 1 else 0.
