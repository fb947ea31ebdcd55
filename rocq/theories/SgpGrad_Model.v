(** Gradients of sparse Gaussian processes. Models crates/gp/src/sparse_algorithm.rs:300-335 with real numbers: both gradients are
    central differences of the predictions, computed by the external crate finitediff ([ndarr::central_diff]), whose step is the cube
    root of the machine epsilon whatever the scale of the inputs. The cast between F and f64 (303-306, 311), a reinterpretation of the
    memory, is the identity for double precision, the only type modelled. *)
From Coq Require Import Reals.
From Coquelicot Require Import Coquelicot.
From Verif Require Import RVec Gp_Model Sgp_Model.
Local Open Scope R_scope.

(** finitediff, [EPS_F64.cbrt()]: cube root of 2^-52. *)
Definition fd_step : R := Rpower (/ 2 ^ 52) (/ 3).
(** finitediff, [central_diff_ndarray_f64], component j: one coordinate is moved by the step in both directions. *)
Definition central_diff (f : vec -> R) (p : vec) (j : nat) : R :=
  (f (upd p j (p j + fd_step)) - f (upd p j (p j - fd_step))) / (2 * fd_step).
(** sparse_algorithm.rs:300-317, [predict_gradients], component j (below the number of training columns) of one row. *)
Definition sgp_gradient (g : sgp) (p : vec) (j : nat) : R := central_diff (sgp_predict g) p j.
(** sparse_algorithm.rs:319-335, [predict_var_gradients]. *)
Definition sgp_var_gradient (g : sgp) (p : vec) (j : nat) : R := central_diff (sgp_predict_var g) p j.
