(** Gaussian mixture responsibilities and smooth recombination of experts, over the reals.
    Source: crates/moe/src/gaussian_mixture.rs and crates/moe/src/algorithm.rs.
    Floating-point rounding is not modelled here; thresholds of the code are kept as they are. *)
From Coq Require Import Reals Lra Lia Arith.
From Coquelicot Require Import Coquelicot.
From Coq Require Import List Bool.
From Verif Require Import RVec.
Local Open Scope R_scope.

(** gaussian_mixture.rs:28-45, GaussianMixture: number of clusters and of features (shapes of the
    arrays), weights, means, Cholesky factors of the precisions, factor and cached log determinants.
    The covariances only serve to build the factors and are left out. *)
Record gmixture := Gmx {
  gm_k : nat;
  gm_d : nat;
  gm_w : nat -> R;
  gm_mu : nat -> nat -> R;
  gm_chol : nat -> nat -> nat -> R;
  gm_h : R;
  gm_logdet : nat -> R }.

(** gaussian_mixture.rs:221-222 and 262-263: powf(heaviside_factor, -0.5). *)
Definition factor (h : R) : R := Rpower h (- / 2).

(** gaussian_mixture.rs:220-226 and 286-299, compute_log_det: sum of the logs of the diagonal of the
    scaled Cholesky factors (one element out of n_features+1 in the flattened matrix). *)
Definition log_det (d : nat) (chol : nat -> nat -> nat -> R) (h : R) (k : nat) : R :=
  sumn d (fun i => ln (chol k i i * factor h)).

(** gaussian_mixture.rs:64-82, new. The Cholesky factors of the precisions
    (compute_precisions_cholesky 182-204, linear algebra library) are an argument. *)
Definition gmx_new (k d : nat) (w : nat -> R) (mu : nat -> nat -> R) (chol : nat -> nat -> nat -> R) : gmixture :=
  Gmx k d w mu chol 1 (log_det d chol 1).

(** gaussian_mixture.rs:106-111, heaviside_factor: sets the factor and refreshes the log determinants. *)
Definition gmx_heaviside (g : gmixture) (h : R) : gmixture :=
  Gmx (gm_k g) (gm_d g) (gm_w g) (gm_mu g) (gm_chol g) h (log_det (gm_d g) (gm_chol g) h).

(** gaussian_mixture.rs:207-215, compute_precisions: factor times its transpose. *)
Definition precision (g : gmixture) (k i j : nat) : R :=
  sumn (gm_d g) (fun l => gm_chol g k i l * gm_chol g k j l).

(** gaussian_mixture.rs:257-283, compute_log_gaussian_prob, one row x and one cluster k. *)
Definition log_gauss (g : gmixture) (x : nat -> R) (k : nat) : R :=
  let diff j := sumn (gm_d g) (fun i => (x i - gm_mu g k i) * (gm_chol g k i j * factor (gm_h g))) in
  - / 2 * (sumn (gm_d g) (fun j => diff j * diff j) + INR (gm_d g) * ln (2 * PI)) + gm_logdet g k.

(** gaussian_mixture.rs:174-177, pdfs. *)
Definition pdf (g : gmixture) (x : nat -> R) (k : nat) : R := exp (log_gauss g x k).

(** gaussian_mixture.rs:234, weighted_log_prob. *)
Definition wlp (g : gmixture) (x : nat -> R) (k : nat) : R := log_gauss g x k + ln (gm_w g k).

(** f64::EPSILON = 2^-52 and f64::MIN_10_EXP = -307. *)
Definition eps64 : R := / 4503599627370496.
Definition min10 : R := - 307.

(** gaussian_mixture.rs:235-243: sum of the weighted densities, those with a log at most -307 counted
    as zero. *)
Definition total (g : gmixture) (x : nat -> R) : R :=
  sumn (gm_k g) (fun k => if Rle_dec (wlp g x k) min10 then 0 else exp (wlp g x k)).

(** gaussian_mixture.rs:244-250: logarithm of this sum, zero when the sum is below epsilon. *)
Definition log_norm (g : gmixture) (x : nat -> R) : R :=
  if Rlt_dec (Rabs (total g x)) eps64 then 0 else ln (total g x).

(** gaussian_mixture.rs:251, log_resp. *)
Definition log_resp (g : gmixture) (x : nat -> R) (k : nat) : R := wlp g x k - log_norm g x.

(** gaussian_mixture.rs:114-121, predict_probas, one row. *)
Definition probas (g : gmixture) (x : nat -> R) (k : nat) : R :=
  if Nat.eqb (gm_k g) 1 then 1 else exp (log_resp g x k).

(** gaussian_mixture.rs:127-152, predict_single_probas_derivatives: entry (k, j). *)
Definition dprobas (g : gmixture) (x : nat -> R) (k j : nat) : R :=
  let v := sumn (gm_k g) (fun c => gm_w g c * pdf g x c) in
  let deriv c j := sumn (gm_d g) (fun i => (x i - gm_mu g c i) * (precision g c i j / gm_h g)) in
  let vprime j := sumn (gm_k g) (fun c => deriv c j * (- gm_w g c * pdf g x c)) in
  let u c := gm_w g c * pdf g x c in
  let uprime c j := - (deriv c j * u c) in
  (uprime k j * v - u k * vprime j) / (v * v).

(** ** Experts and smooth recombination *)

(** gp_algorithm / surrogates: an expert predicts each row on its own (gp/src/algorithm.rs:253-320,
    523-617 compute row by row); value, variance and their gradients at one point. *)
Record expert := Expert {
  ex_val : (nat -> R) -> R;
  ex_var : (nat -> R) -> R;
  ex_grad : (nat -> R) -> nat -> R;
  ex_vgrad : (nat -> R) -> nat -> R }.

(** algorithm.rs:411-423 and 662-664, predict_smooth, one row; one expert per cluster. *)
Definition smooth_val (g : gmixture) (ex : nat -> expert) (x : nat -> R) : R :=
  sumn (gm_k g) (fun i => ex_val (ex i) x * probas g x i).

(** algorithm.rs:670-685, predict_var_smooth, one row. *)
Definition smooth_var (g : gmixture) (ex : nat -> expert) (x : nat -> R) : R :=
  sumn (gm_k g) (fun i => ex_var (ex i) x * probas g x i * probas g x i).

(** algorithm.rs:789-809, predict_valvar_smooth, one row. *)
Definition smooth_valvar (g : gmixture) (ex : nat -> expert) (x : nat -> R) : R * R :=
  (sumn (gm_k g) (fun i => ex_val (ex i) x * probas g x i),
   sumn (gm_k g) (fun i => ex_var (ex i) x * probas g x i * probas g x i)).

(** algorithm.rs:691-733, predict_gradients_smooth, one row, component j (and val_term1, val_term2 of
    predict_valvar_gradients_smooth 858-866). *)
Definition smooth_grad (g : gmixture) (ex : nat -> expert) (x : nat -> R) (j : nat) : R :=
  sumn (gm_k g) (fun i => ex_grad (ex i) x j * probas g x i) +
  sumn (gm_k g) (fun i => dprobas g x i j * ex_val (ex i) x).

(** *** Arrays with broadcasting, as ndarray's arithmetic operators do it *)

(** A two-dimensional array: numbers of rows and columns, entries. A one-dimensional array of length n
    takes part in broadcasting as one row of n columns (shapes are aligned on the last axis). *)
Record arr2 := A2 { a_nr : nat; a_nc : nat; a_at : nat -> nat -> R }.
Definition of_row (n : nat) (f : nat -> R) : arr2 := A2 1 n (fun _ j => f j).
Definition of_col (n : nat) (f : nat -> R) : arr2 := A2 n 1 (fun i _ => f i).

(** ndarray co-broadcasting of one axis: equal lengths, or one of them is 1; otherwise a panic. *)
Definition bdim (m n : nat) : option nat :=
  if Nat.eqb m n then Some m else if Nat.eqb m 1 then Some n else if Nat.eqb n 1 then Some m else None.
Definition bidx (n i : nat) : nat := if Nat.eqb n 1 then 0%nat else i.

(** ndarray operator on two arrays with co-broadcasting. *)
Definition bop (op : R -> R -> R) (a b : arr2) : option arr2 :=
  match bdim (a_nr a) (a_nr b), bdim (a_nc a) (a_nc b) with
  | Some r, Some c =>
      Some (A2 r c (fun i j => op (a_at a (bidx (a_nr a) i) (bidx (a_nc a) j))
                                  (a_at b (bidx (a_nr b) i) (bidx (a_nc b) j))))
  | _, _ => None
  end.

(** sum_axis(Axis(0)), seen as one row. *)
Definition sum_rows (a : arr2) : arr2 := A2 1 (a_nc a) (fun _ j => sumn (a_nr a) (fun i => a_at a i j)).

(** assign: the right-hand side is broadcast to the shape (n,) of the left-hand side, or a panic. *)
Definition assign (n : nat) (a : arr2) : option (nat -> R) :=
  if Nat.eqb (a_nc a) n then Some (a_at a 0%nat)
  else if Nat.eqb (a_nc a) 1 then Some (fun _ => a_at a 0%nat 0%nat) else None.

(** algorithm.rs:739-780, predict_var_gradients_smooth, one row (same lines for the variance part of
    predict_valvar_gradients_smooth 868-877): [p.to_owned() * pprime * preds] multiplies the (n,) vector of
    responsibilities with the (n, nx) matrix of their derivatives. *)
Definition smooth_vgrad (g : gmixture) (ex : nat -> expert) (x : nat -> R) : option (nat -> R) :=
  let k := gm_k g in let d := gm_d g in
  let term1 := sum_rows (A2 k d (fun i j => ex_vgrad (ex i) x j * probas g x i * probas g x i)) in
  match bop Rmult (of_row k (probas g x)) (A2 k d (dprobas g x)) with
  | None => None
  | Some a =>
      match bop Rmult a (of_col k (fun i => ex_var (ex i) x)) with
      | None => None
      | Some b =>
          match bop Rplus term1 (sum_rows (A2 (a_nr b) (a_nc b) (fun i j => 2 * a_at b i j))) with
          | None => None
          | Some s => assign d s
          end
      end
  end.
