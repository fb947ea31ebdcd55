(** Training and prediction of Gaussian processes, over the reals.
    Source: crates/gp/src/utils.rs and crates/gp/src/algorithm.rs (without the blas feature).
    Matrices are functions of a row and a column index. Floating-point rounding is not modelled. *)
From Coq Require Import Reals Lra Lia Arith.
From Coquelicot Require Import Coquelicot.
From Coq Require Import List Bool.
From Verif Require Import RVec Moe_Model Kern_Model.
Import ListNotations.
Local Open Scope R_scope.

Definition vec := nat -> R.
Definition mat := nat -> nat -> R.
Definition tr (A : mat) : mat := fun i j => A j i.
(** Matrix times vector, over m columns. *)
Definition mv (m : nat) (A : mat) (v : vec) : vec := fun i => sumn m (fun j => A i j * v j).
Definition dot (n : nat) (u v : vec) : R := sumn n (fun i => u i * v i).

(** ** Normalization *)

(** ndarray mean_axis(Axis(0)) and std_axis(Axis(0), 1), one column of n values. *)
Definition mean_axis (n : nat) (v : vec) : R := sumn n v / INR n.
Definition std_axis (n : nat) (v : vec) : R :=
  sqrt (sumn n (fun i => (v i - mean_axis n v) * (v i - mean_axis n v)) / (INR n - 1)).
(** utils.rs:45-54, normalize: returns the normalized data, the means and the deviations. *)
Definition normalize (n : nat) (x : mat) : mat * vec * vec :=
  let x_mean := fun j => mean_axis n (fun i => x i j) in
  let x_std := fun j => let v := std_axis n (fun i => x i j) in if Req_EM_T v 0 then 1 else v in
  (fun i j => (x i j - x_mean j) / x_std j, x_mean, x_std).

(** ** Differences *)

(** Array assignments. *)
Definition set1 {A} (a : nat -> A) (r : nat) (v : A) : nat -> A := fun i => if Nat.eqb i r then v else a i.
Definition set2 (a : mat) (r c : nat) (v : R) : mat := fun i j => if Nat.eqb i r && Nat.eqb j c then v else a i j.

(** utils.rs:80-105, DiffMatrix::_cross_diff: arrays of rows and running index; rows of d are
    assigned by slice, rows of indices one by one. [None]: the subtraction n_obs - 1 underflows. *)
Record cross := mkcross { c_idx : nat; c_ind : nat -> nat * nat; c_d : mat }.
Definition cross_step (n : nat) (x : mat) (c : cross) (k : nat) : cross :=
  let idx0 := c_idx c in
  let offset := (n - k - 1)%nat in
  let idx := (idx0 + offset)%nat in
  let ind := fold_left (fun ind i => set1 ind (idx0 + i - k - 1) (k, i)) (seq (k + 1) (n - (k + 1))) (c_ind c) in
  let diff := fun a j => x k j - x (k + 1 + a)%nat j in
  let d := fun r j => if Nat.leb idx0 r && Nat.ltb r idx then diff (r - idx0)%nat j else c_d c r j in
  mkcross idx ind d.
Definition cross_diff (n : nat) (x : mat) : option (nat * (nat -> nat * nat) * mat) :=
  if Nat.eqb n 0 then None else
  let rows := (n * (n - 1) / 2)%nat in
  let c := fold_left (cross_step n x) (seq 0 (n - 1)) (mkcross 0 (fun _ => (0, 0)%nat) (fun _ _ => 0)) in
  Some (rows, c_ind c, fun r j => Rabs (c_d c r j)).

(** utils.rs:110-131, pairwise_differences, written row by row; ny rows in y. *)
Definition pairwise_differences (ny : nat) (x y : mat) : mat :=
  fun r k => x (r / ny)%nat k - y (r mod ny)%nat k.

(** ** Linear algebra (crate linfa-linalg, not in the repository) *)

(** solve_triangular with UPLO::Lower: forward substitution. *)
Fixpoint fsub (n : nat) (L : mat) (b : vec) : vec :=
  match n with
  | O => fun _ => 0
  | S k => let z := fsub k L b in
           fun i => if Nat.eqb i k then (b k - sumn k (fun j => L k j * z j)) / L k k else z i
  end.
(** solve_triangular with UPLO::Upper: backward substitution. *)
Definition bsub (n : nat) (U : mat) (b : vec) : vec :=
  fun i => fsub n (fun a c => U (n - 1 - a)%nat (n - 1 - c)%nat) (fun a => b (n - 1 - a)%nat) (n - 1 - i)%nat.
(** cholesky: lower factor, row by row; error when a pivot is not positive. *)
Fixpoint cholesky (n : nat) (A : mat) : option mat :=
  match n with
  | O => Some (fun _ _ => 0)
  | S i =>
    match cholesky i A with
    | None => None
    | Some L =>
      let z := fsub i L (fun j => A i j) in
      let p := A i i - sumn i (fun k => z k * z k) in
      if Rlt_dec 0 p
      then Some (fun a b => if Nat.eqb a i then (if Nat.ltb b i then z b else if Nat.eqb b i then sqrt p else 0) else L a b)
      else None
    end
  end.

(** ** Training *)

(** algorithm.rs:998-1002: the correlation matrix, from the values rxx and the indexes of the difference matrix. *)
Definition corr_matrix (rows : nat) (ind : nat -> nat * nat) (rxx : vec) (nugget : R) : mat :=
  fold_left (fun r i => let ij := ind i in set2 (set2 r (fst ij) (snd ij) (rxx i)) (snd ij) (fst ij) (rxx i))
    (seq 0 rows) (fun i j => let v := if Nat.eqb i j then 1 else 0 in v + v * nugget).

(** algorithm.rs:47-60, GpInnerParams (with ft_qr_r). *)
Record inner := mkinner { i_sigma2 : R; i_beta : vec; i_gamma : vec; i_chol : mat; i_ft : mat; i_rr : mat }.

(** log10 *)
Definition log10 (t : R) : R := ln t / ln 10.

(** algorithm.rs:989-1056, reduced_likelihood: p is the number of trend functions, qr the factorization used
    for ft (library); [cond] is the outcome of the tests on singular values (1010-1030), true when accepted. *)
Definition reduced_likelihood (qr : nat -> nat -> mat -> mat * mat) (cond : mat -> bool) (n p : nat) (fx : mat) (r_mx : mat)
    (y : vec) (ystd : R) : option (R * inner) :=
  match cholesky n r_mx with
  | None => None
  | Some L =>
    let ft := fun i j => fsub n L (fun k => fx k j) i in
    let (q, rr) := qr n p ft in
    if negb (cond rr) then None else
    let yt := fsub n L y in
    let beta := bsub p rr (mv n (tr q) yt) in
    let rho := fun i => yt i - mv p ft beta i in
    let rho_sqr := sumn n (fun i => rho i * rho i) in
    let gamma := bsub n (tr L) rho in
    let logdet := sumn n (fun i => log10 (L i i)) * 2 / INR n in
    let sigma2 := rho_sqr / INR n in
    Some (- INR n * (log10 sigma2 + logdet), mkinner (sigma2 * ystd * ystd) beta gamma L ft rr)
  end.

(** algorithm.rs:171-193, GaussianProcess; g_h is the number of columns of w_star, g_n the number of observations, g_nx the
    input dimension; g_nt the length of theta. *)
Record gp := mkgp {
  g_n : nat; g_nx : nat; g_h : nat; g_nt : nat;
  g_mean : mean_kind; g_corr : corr_kind;
  g_theta : vec; g_w : mat;
  g_x : mat; g_xmean : vec; g_xstd : vec; g_ymean : R; g_ystd : R;
  g_lkh : R; g_in : inner }.

Definition trend_size (m : mean_kind) (nx : nat) : nat := length (trend_row m nx (fun _ => 0)).
Definition trend_val (m : mean_kind) (nx : nat) (x : vec) : vec := fun j => nth j (trend_row m nx x) 0.
Definition trend_der (m : mean_kind) (nx : nat) (x : vec) : mat := fun j c => nth j (trend_jac m nx x) (fun _ => 0) c.

(** algorithm.rs:786-980, fit, once theta (length nt) has been chosen (see Tune_Model for the choice); w_star has h columns.
    [None]: an error is returned or the code panics. 854: sums.min() panics when there is a single observation. *)
Definition fit (qr : nat -> nat -> mat -> mat * mat) (cond : mat -> bool) (mk : mean_kind) (ck : corr_kind) (n nx h nt : nat)
    (theta : vec) (w : mat) (nugget : R) (x : mat) (y : vec) : option gp :=
  let '(xd, xm, xs) := normalize n x in
  let '(yd, ym, ys) := normalize n (fun i _ => y i) in
  match cross_diff n xd with
  | None => None
  | Some (rows, ind, d) =>
    if Nat.eqb rows 0 then None else
    match value_theta ck nt h theta with
    | None => None
    | Some th =>
      let rxx := fun r => kval ck nx h th w (d r) in
      let fx := fun i => trend_val mk nx (xd i) in
      match reduced_likelihood qr cond n (trend_size mk nx) fx (corr_matrix rows ind rxx nugget) (fun i => yd i O) (ys O) with
      | None => None
      | Some (lkh, inn) => Some (mkgp n nx h nt mk ck theta w xd xm xs (ym O) (ys O) lkh inn)
      end
    end
  end.

(** ** Prediction *)

(** (x - mean) / std, rows of x. *)
Definition xnorm (g : gp) (x : vec) : vec := fun j => (x j - g_xmean g j) / g_xstd g j.
(** algorithm.rs:374-382, _compute_correlation: value on all pairwise differences, then reshape to (rows of x, n). Result for
    row i of x. [None]: panic in the kernel. *)
Definition compute_correlation (g : gp) (xs : mat) (i : nat) : option vec :=
  match value_theta (g_corr g) (g_nt g) (g_h g) (g_theta g) with
  | None => None
  | Some th =>
    let r := fun k => kval (g_corr g) (g_nx g) (g_h g) th (g_w g) (pairwise_differences (g_n g) xs (g_x g) k) in
    Some (fun j => r (i * g_n g + j)%nat)
  end.
(** algorithm.rs:253-264, predict: value for row i of x. *)
Definition predict (g : gp) (x : mat) (i : nat) : option R :=
  let xs := fun a => xnorm g (x a) in
  match compute_correlation g xs i with
  | None => None
  | Some corr =>
    let f := trend_val (g_mean g) (g_nx g) (xs i) in
    let y_ := dot (trend_size (g_mean g) (g_nx g)) f (i_beta (g_in g)) + dot (g_n g) corr (i_gamma (g_in g)) in
    Some (y_ * g_ystd g + g_ymean g)
  end.
(** algorithm.rs:330-369, _compute_rt_u, one column. *)
Definition compute_rt_u (g : gp) (xn : vec) (corr : vec) : vec * vec :=
  let inn := g_in g in
  let p := trend_size (g_mean g) (g_nx g) in
  let rt := fsub (g_n g) (i_chol inn) corr in
  let rhs := fun j => mv (g_n g) (tr (i_ft inn)) rt j - trend_val (g_mean g) (g_nx g) xn j in
  (rt, fsub p (tr (i_rr inn)) rhs).
(** algorithm.rs:267-279, predict_var. *)
Definition predict_var (g : gp) (x : mat) (i : nat) : option R :=
  let xs := fun a => xnorm g (x a) in
  match compute_correlation g xs i with
  | None => None
  | Some corr =>
    let '(rt, u) := compute_rt_u g (xs i) corr in
    let mse := 1 - dot (g_n g) rt rt + dot (trend_size (g_mean g) (g_nx g)) u u in
    let v := i_sigma2 (g_in g) * mse in
    Some (if Rlt_dec v 0 then 0 else v)
  end.
(** algorithm.rs:282-309, predict_valvar: same computations. *)
Definition predict_valvar (g : gp) (x : mat) (i : nat) : option (R * R) :=
  let xs := fun a => xnorm g (x a) in
  match compute_correlation g xs i with
  | None => None
  | Some corr =>
    let f := trend_val (g_mean g) (g_nx g) (xs i) in
    let y_ := dot (trend_size (g_mean g) (g_nx g)) f (i_beta (g_in g)) + dot (g_n g) corr (i_gamma (g_in g)) in
    let '(rt, u) := compute_rt_u g (xs i) corr in
    let mse := 1 - dot (g_n g) rt rt + dot (trend_size (g_mean g) (g_nx g)) u u in
    let v := i_sigma2 (g_in g) * mse in
    Some (y_ * g_ystd g + g_ymean g, if Rlt_dec v 0 then 0 else v)
  end.
(** algorithm.rs:312-328, _compute_covariance, entry (i, k) for rows of x. *)
Definition compute_covariance (g : gp) (nrows : nat) (x : mat) (i k : nat) : option R :=
  let xs := fun a => xnorm g (x a) in
  match compute_correlation g xs i, compute_correlation g xs k, value_theta (g_corr g) (g_nt g) (g_h g) (g_theta g) with
  | Some ci, Some ck, Some th =>
    let '(rti, ui) := compute_rt_u g (xs i) ci in
    let '(rtk, uk) := compute_rt_u g (xs k) ck in
    let kv := fun r => kval (g_corr g) (g_nx g) (g_h g) th (g_w g) (pairwise_differences nrows xs xs r) in
    Some (i_sigma2 (g_in g) *
          (kv (i * nrows + k)%nat - dot (g_n g) rti rtk + dot (trend_size (g_mean g) (g_nx g)) ui uk))
  | _, _, _ => None
  end.

(** ** Gradients *)

(** The kernel jacobian at xn with respect to all training points: n rows, nx columns. *)
Definition corr_jac (g : gp) (th : vec) (xn : vec) : mat :=
  fun i => kjac (g_corr g) (g_nx g) (g_h g) th (g_w g) (differences xn (g_x g i)).
(** algorithm.rs:510-550, predict_gradients and predict_jacobian: component c at point x. *)
Definition predict_jacobian (g : gp) (x : vec) (c : nat) : option R :=
  let xn := xnorm g x in
  match jac_theta (g_corr g) (g_nt g) (g_h g) (g_theta g) with
  | None => None
  | Some th =>
    let df_dx := mv (trend_size (g_mean g) (g_nx g)) (tr (trend_der (g_mean g) (g_nx g) xn)) (i_beta (g_in g)) in
    let dr := corr_jac g th xn in
    let dr_dx := fun k => df_dx k + mv (g_n g) (tr dr) (i_gamma (g_in g)) k in
    Some (dr_dx c * g_ystd g / g_xstd g c)
  end.
(** algorithm.rs:555-617, predict_var_gradients_single: component c. *)
Definition predict_var_gradients_single (g : gp) (x : vec) (c : nat) : option R :=
  let xn := xnorm g x in
  let n := g_n g in
  let p := trend_size (g_mean g) (g_nx g) in
  let L := i_chol (g_in g) in
  match jac_theta (g_corr g) (g_nt g) (g_h g) (g_theta g) with
  | None => None
  | Some th =>
    let r := fun i => kval (g_corr g) (g_nx g) (g_h g) th (g_w g) (differences xn (g_x g i)) in
    let dr := corr_jac g th xn in
    let rho1 := fsub n L r in
    let inv_kr := bsub n (tr L) rho1 in
    let p2 := fun k => sumn n (fun i => inv_kr i * dr i k) in
    let f_x := trend_val (g_mean g) (g_nx g) xn in
    let f_mean := fun i => trend_val (g_mean g) (g_nx g) (g_x g i) in
    let rho2 := fun i j => fsub n L (fun k => f_mean k j) i in
    let inv_kf := fun i j => bsub n (tr L) (fun k => rho2 k j) i in
    let a_mat := fun j => f_x j - sumn n (fun i => r i * inv_kf i j) in
    let b_mat := fun j l => sumn n (fun i => f_mean i j * inv_kf i l) in
    match cholesky p b_mat with
    | None => None
    | Some rho3 =>
      let inv_bat := fsub p rho3 a_mat in
      let d_mat := bsub p (tr rho3) inv_bat in
      let df := trend_der (g_mean g) (g_nx g) xn in
      let d_a := fun k j => df j k - sumn n (fun i => dr i k * inv_kf i j) in
      let p4 := fun k => sumn p (fun j => d_mat j * d_a k j) in
      let prime := fun k => 2 * (p4 k - p2 k) in
      Some (prime c / g_xstd g c * i_sigma2 (g_in g))
    end
  end.
(** algorithm.rs:443-506, predict_kth_derivatives: row i of x; the trend term uses the jacobian at the first row of the raw
    points when there are at most 1 + nx trend functions; theta[kx] panics when out of range. *)
Definition predict_kth_derivatives (g : gp) (x : mat) (kx i : nat) : option R :=
  let xs := fun a => xnorm g (x a) in
  let p := trend_size (g_mean g) (g_nx g) in
  match compute_correlation g xs i with
  | None => None
  | Some corr =>
    if Nat.leb (g_nt g) kx then None else
    let df := trend_der (g_mean g) (g_nx g) (if Nat.leb p (1 + g_nx g) then x O else xs i) in
    let df_dx := sumn p (fun j => df j kx * i_beta (g_in g) j) in
    let d_dx := fun j => xs i kx - g_x g j kx in
    Some ((df_dx - 2 * g_theta g kx * sumn (g_n g) (fun j => d_dx j * corr j * i_gamma (g_in g) j)) * g_ystd g / g_xstd g kx)
  end.
