(** Correlation kernels and trends of Gaussian processes, over the reals.
    Source: crates/gp/src/correlation_models.rs and crates/gp/src/mean_models.rs.
    Floating-point rounding is not modelled. Kernels work row by row on an array of differences: the functions
    below are about one row [d] with [nx] components; [h] is the number of columns of the weights
    (reduced dimension). *)
From Coq Require Import Reals Lra Lia Arith.
From Coquelicot Require Import Coquelicot.
From Coq Require Import List Bool.
From Verif Require Import RVec Moe_Model.
Import ListNotations.
Local Open Scope R_scope.

(** Rust [signum] on a number that is not -0: 1 for 0. For -0 it is -1; the results below do not depend on it. *)
Definition signum (t : R) : R := if Rlt_dec t 0 then -1 else 1.

(** ** Shapes *)

(** [theta * weights] with theta of length [nt]: broadcast on the rows of the weights. Only lengths 1 and h can
    occur: others are rejected before (algorithm.rs:826-835). [None] is a panic. *)
Definition theta_row (nt h : nat) (theta : nat -> R) : option (nat -> R) :=
  if Nat.eqb nt h then Some theta else if Nat.eqb nt 1 then Some (fun _ => theta 0%nat) else None.
(** [weights.dot(theta)]: lengths must agree. *)
Definition theta_dot (nt h : nat) (theta : nat -> R) : option (nat -> R) :=
  if Nat.eqb nt h then Some theta else None.
(** Which of the two each kernel does in [value] (91-104, 185-196, 326-353, 497-523) and in [jacobian] (106-122, 198-214,
    355-413, 525-585). *)
Definition value_theta (k : corr_kind) (nt h : nat) (theta : nat -> R) : option (nat -> R) :=
  match k with
  | SquaredExponential => theta_row nt h theta
  | AbsoluteExponential => theta_dot nt h theta
  | Matern32 => theta_row nt h theta
  | Matern52 => theta_row nt h theta
  end.
Definition jac_theta (k : corr_kind) (nt h : nat) (theta : nat -> R) : option (nat -> R) :=
  match k with
  | SquaredExponential => theta_row nt h theta
  | AbsoluteExponential => theta_dot nt h theta
  | Matern32 => match theta_row nt h theta with Some _ => theta_dot nt h theta | None => None end
  | Matern52 => match theta_row nt h theta with Some _ => theta_dot nt h theta | None => None end
  end.

Section Kernel.
  Context (nx h : nat) (theta : nat -> R) (w : nat -> nat -> R).

  (** ** Squared exponential *)
  (** correlation_models.rs:97-99 and 116-119: sum over the columns of the squares of theta * weights. *)
  Definition sq_theta_w (j : nat) : R := sumn h (fun l => (theta l * w j l) * (theta l * w j l)).
  (** correlation_models.rs:91-104, value. *)
  Definition sqexp_value (d : nat -> R) : R := exp (- / 2 * sumn nx (fun j => d j * d j * sq_theta_w j)).
  (** correlation_models.rs:106-122, jacobian, component j (same lines in valjac 124-141). *)
  Definition sqexp_jac (d : nat -> R) (j : nat) : R := d j * - sq_theta_w j * sqexp_value d.

  (** ** Absolute exponential *)
  (** correlation_models.rs:191, 365 and 539: abs(weights).dot(theta). *)
  Definition abs_theta_w (j : nat) : R := sumn h (fun l => Rabs (w j l) * theta l).
  (** correlation_models.rs:185-196, value. *)
  Definition absexp_value (d : nat -> R) : R := exp (- sumn nx (fun j => Rabs (d j) * abs_theta_w j)).
  (** correlation_models.rs:198-214, jacobian (same lines in valjac 216-233). *)
  Definition absexp_jac (d : nat -> R) (j : nat) : R :=
    signum (d j) * (- 1 * sumn h (fun l => theta l * Rabs (w j l))) * absexp_value d.

  (** ** Matern kernels *)
  (** theta * abs(weights), 333 and 505. *)
  Definition tw (j l : nat) : R := theta l * Rabs (w j l).

  (** correlation_models.rs:326-353, _compute_r_factors. *)
  Definition m32_a (d : nat -> R) : R := prodn nx (fun j => prodn h (fun l => 1 + sqrt 3 * tw j l * Rabs (d j))).
  Definition m32_b (d : nat -> R) : R := exp (- sqrt 3 * sumn h (fun l => sumn nx (fun j => Rabs (d j) * tw j l))).
  (** 277-286, value. *)
  Definition m32_value (d : nat -> R) : R := m32_a d * m32_b d.
  (** 355-413, _jac_helper: the product over all (p, l) but (j, k) is accumulated in nested loops. *)
  Definition m32_term (d : nat -> R) (j k : nat) : R :=
    prodn nx (fun p => prodn h (fun l =>
      if negb (Nat.eqb l k) || negb (Nat.eqb p j) then 1 + sqrt 3 * (tw p l * Rabs (d p)) else 1)).
  Definition m32_db (d : nat -> R) (j : nat) : R := - sqrt 3 * abs_theta_w j * signum (d j) * m32_b d * m32_a d.
  Definition m32_da (d : nat -> R) (j : nat) : R :=
    sumn h (fun k => sqrt 3 * tw j k * signum (d j) * m32_term d j k).
  Definition m32_jac (d : nat -> R) (j : nat) : R := m32_db d j + m32_b d * m32_da d j.

  (** correlation_models.rs:497-523, compute_r_factors. *)
  Definition m52_a (d : nat -> R) : R :=
    prodn nx (fun j => prodn h (fun l =>
      1 + sqrt 5 * tw j l * Rabs (d j) + 5 / 3 * (tw j l * tw j l * d j * d j))).
  Definition m52_b (d : nat -> R) : R := exp (- sqrt 5 * sumn h (fun l => sumn nx (fun j => Rabs (d j) * tw j l))).
  (** 446-455, value. *)
  Definition m52_value (d : nat -> R) : R := m52_a d * m52_b d.
  (** 525-585, _jac_helper. *)
  Definition m52_term (d : nat -> R) (j k : nat) : R :=
    prodn nx (fun p => prodn h (fun l =>
      if negb (Nat.eqb l k) || negb (Nat.eqb p j)
      then let v := tw p l * Rabs (d p) in 1 + sqrt 5 * v + 5 / 3 * v * v else 1)).
  Definition m52_db (d : nat -> R) (j : nat) : R := - sqrt 5 * abs_theta_w j * signum (d j) * m52_b d * m52_a d.
  Definition m52_da (d : nat -> R) (j : nat) : R :=
    sumn h (fun k => (sqrt 5 * tw j k * signum (d j) +
                      2 * (5 / 3) * tw j k * tw j k * signum (d j) * Rabs (d j)) * m52_term d j k).
  Definition m52_jac (d : nat -> R) (j : nat) : R := m52_db d j + m52_b d * m52_da d j.
End Kernel.

(** CorrelationModel::value and CorrelationModel::jacobian (22-43) of the four implementations. *)
Definition kval (k : corr_kind) (nx h : nat) (theta : nat -> R) (w : nat -> nat -> R) (d : nat -> R) : R :=
  match k with
  | SquaredExponential => sqexp_value nx h theta w d
  | AbsoluteExponential => absexp_value nx h theta w d
  | Matern32 => m32_value nx h theta w d
  | Matern52 => m52_value nx h theta w d
  end.
Definition kjac (k : corr_kind) (nx h : nat) (theta : nat -> R) (w : nat -> nat -> R) (d : nat -> R) (j : nat) : R :=
  match k with
  | SquaredExponential => sqexp_jac nx h theta w d j
  | AbsoluteExponential => absexp_jac nx h theta w d j
  | Matern32 => m32_jac nx h theta w d j
  | Matern52 => m52_jac nx h theta w d j
  end.
(** utils.rs:136-142, differences, one row of xtrain. *)
Definition differences (x y : nat -> R) : nat -> R := fun j => x j - y j.

(** ** Trends *)

(** mean_models.rs:42-44, 68-71, 97-104: value on one row x of n components. *)
Definition trend_row (m : mean_kind) (n : nat) (x : nat -> R) : list R :=
  match m with
  | Constant => [1]
  | Linear => 1 :: map x (seq 0 n)
  | Quadratic => (1 :: map x (seq 0 n)) ++
                 flat_map (fun k => map (fun j => x j * x k) (seq k (n - k))) (seq 0 n)
  end.
(** mean_models.rs:50-52, 76-81, 110-129: jacobian, list of rows; a row gives the derivative with respect to each
    component. Quadratic: block number i (116-127) has n - i rows, its row a and column i + b holding
    [if b = 0 then x(i+a)] plus [if a = b then x(i)], columns before i staying zero. *)
Definition trend_jac (m : mean_kind) (n : nat) (x : nat -> R) : list (nat -> R) :=
  let zero := (fun _ : nat => 0) in
  let eye := map (fun i => fun c : nat => if Nat.eqb c i then 1 else 0) (seq 0 n) in
  match m with
  | Constant => [zero]
  | Linear => zero :: eye
  | Quadratic => (zero :: eye) ++
      flat_map (fun i => map (fun a => fun c : nat =>
          if Nat.ltb c i then 0
          else (if Nat.eqb (c - i) 0 then x (i + a)%nat else 0) + (if Nat.eqb a (c - i) then x i else 0))
        (seq 0 (n - i))) (seq 0 n)
  end.
