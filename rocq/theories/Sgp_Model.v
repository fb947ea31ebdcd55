(** Sparse Gaussian processes. Models crates/gp/src/sparse_algorithm.rs with real numbers: likelihoods and prediction data of the FITC
    and VFE methods, predictions, inducing points, assembly of the optimized parameters. Matrices are functions of the indexes with
    explicit sizes, as in Gp_Model; [m] inducing points, [n] training points, [nx] inputs, [h] columns of w_star. *)
From Coq Require Import Reals Lra Lia Arith.
From Coquelicot Require Import Coquelicot.
From Coq Require Import List Bool.
From Verif Require Import RVec Util Moe_Model Kern_Model Gp_Model Tune_Model.
Import ListNotations.
Local Open Scope R_scope.

(** sparse_algorithm.rs:217-232 and 683-698, [compute_k]: entry (i, j) for rows i of a and j of b, theta having the length of the
    columns of w_star (the only length that reaches it). *)
Definition compute_k (ck : corr_kind) (nx h : nat) (theta : vec) (w : mat) (sigma2 : R) (a b : mat) : mat :=
  fun i j => kval ck nx h theta w (differences (a i) (b j)) * sigma2.
Definition eye (i j : nat) : R := if Nat.eqb i j then 1 else 0.
(** [u.solve_triangular(&Array::eye(m), UPLO::Lower)]. *)
Definition lower_inv (m : nat) (U : mat) : mat := fun i j => fsub m U (fun k => eye k j) i.

(** sparse_algorithm.rs:130-137, [WoodburyData]. *)
Record woodbury := mkw { wd_vec : vec; wd_inv : mat }.

(** sparse_algorithm.rs:700-766, [fitc]; [None] is a panic in a Cholesky factorization. The first component is the likelihood. *)
Definition fitc (ck : corr_kind) (m n nx h : nat) (theta : vec) (w : mat) (sigma2 noise nugget : R) (z x : mat) (y : vec) : option (R * woodbury) :=
  let kmm := fun i j => compute_k ck nx h theta w sigma2 z z i j + eye i j * nugget in
  let kmn := compute_k ck nx h theta w sigma2 z x in
  match cholesky m kmm with
  | None => None
  | Some u =>
    let ui := lower_inv m u in
    let v := fun i j => sumn m (fun k => ui i k * kmn k j) in
    let nu := fun j => sigma2 - sumn m (fun k => v k j * v k j) + noise in
    let beta := fun j => 1 / nu j in
    let a := fun i j => eye i j + sumn n (fun k => v i k * beta k * v j k) in
    match cholesky m a with
    | None => None
    | Some l =>
      let li := lower_inv m l in
      let ya := fun i => y i * beta i in
      let b := fun i => sumn n (fun j => sumn m (fun k => li i k * v k j) * ya j) in
      let term1 := sumn n (fun j => ln (nu j)) in
      let term2 := 2 * sumn m (fun k => ln (l k k)) in
      let term3 := sumn n (fun i => ya i * y i) in
      let term4 := - sumn m (fun i => b i * b i) in
      let li_ui := fun i j => sumn m (fun k => li i k * ui k j) in
      Some (- (1 / 2) * (term1 + term2 + term3 + term4),
            mkw (fun i => sumn m (fun k => li_ui k i * b k))
                (fun i j => sumn m (fun k => ui k i * ui k j) - sumn m (fun k => li_ui k i * li_ui k j)))
    end
  end.

(** sparse_algorithm.rs:768-833, [vfe]. *)
Definition vfe (ck : corr_kind) (m n nx h : nat) (theta : vec) (w : mat) (sigma2 noise nugget : R) (z x : mat) (y : vec) : option (R * woodbury) :=
  let kmm := fun i j => compute_k ck nx h theta w sigma2 z z i j + eye i j * nugget in
  let kmn := compute_k ck nx h theta w sigma2 z x in
  match cholesky m kmm with
  | None => None
  | Some u =>
    let ui := lower_inv m u in
    let v := fun i j => sumn m (fun k => ui i k * kmn k j) in
    let beta := 1 / Rmax noise nugget in
    let a := fun i j => sumn n (fun k => v i k * v j k) * beta in
    match cholesky m (fun i j => eye i j + a i j) with
    | None => None
    | Some l =>
      let li := lower_inv m l in
      let b := fun i => sumn n (fun j => sumn m (fun k => li i k * v k j) * y j) * beta in
      let term1 := - INR n * ln beta in
      let term2 := 2 * sumn m (fun k => ln (l k k)) in
      let term3 := beta * sumn n (fun i => y i * y i) in
      let term4 := - sumn m (fun i => b i * b i) in
      let term5 := INR n * beta * sigma2 in
      let term6 := - sumn m (fun i => a i i) in
      let li_ui := fun i j => sumn m (fun k => li i k * ui k j) in
      let bi := fun i j => eye i j + sumn m (fun k => li k i * li k j) in
      Some (- (1 / 2) * (term1 + term2 + term3 + term4 + term5 + term6),
            mkw (fun i => sumn m (fun k => li_ui k i * b k))
                (fun i j => sumn m (fun q => sumn m (fun k => ui k i * bi k q) * ui q j)))
    end
  end.

Inductive sparse_method := Fitc | Vfe.
(** sparse_algorithm.rs:659-681, [reduced_likelihood]. *)
Definition sgp_likelihood (method : sparse_method) :=
  match method with Fitc => fitc | Vfe => vfe end.

(** sparse_algorithm.rs:141-170, the trained process (fields used by predictions). *)
Record sgp := mksgp { s_corr : corr_kind; s_m : nat; s_nx : nat; s_h : nat; s_theta : vec; s_w : mat; s_sigma2 : R; s_noise : R; s_z : mat;
  s_wd : woodbury; s_lkh : R; s_ny : nat }.
(** sparse_algorithm.rs:626-648: the process built from the chosen parameters. *)
Definition sgp_build (method : sparse_method) (ck : corr_kind) (m n nx h : nat) (theta : vec) (w : mat) (sigma2 noise nugget : R) (z x : mat) (y : vec) : option sgp :=
  match sgp_likelihood method ck m n nx h theta w sigma2 noise nugget z x y with
  | None => None
  | Some (lkh, wd) => Some (mksgp ck m nx h theta w sigma2 noise z wd lkh n)
  end.
(** sparse_algorithm.rs:236-240, [predict], one point. *)
Definition sgp_predict (g : sgp) (p : vec) : R :=
  sumn (s_m g) (fun k => compute_k (s_corr g) (s_nx g) (s_h g) (s_theta g) (s_w g) (s_sigma2 g) (fun _ => p) (s_z g) O k * wd_vec (s_wd g) k).
(** sparse_algorithm.rs:244-248: the variance before the lower limit and the noise. *)
Definition sgp_raw_var (g : sgp) (p : vec) : R :=
  let kx := fun k => compute_k (s_corr g) (s_nx g) (s_h g) (s_theta g) (s_w g) (s_sigma2 g) (s_z g) (fun _ => p) k O in
  s_sigma2 g - sumn (s_m g) (fun i => sumn (s_m g) (fun k => wd_inv (s_wd g) k i * kx k) * kx i).
(** 1e-15, as a real. *)
Definition var_floor : R := / 10 ^ 15.
(** sparse_algorithm.rs:244-257, [predict_var], one point. *)
Definition sgp_predict_var (g : sgp) (p : vec) : R :=
  let v := sgp_raw_var g p in if Rlt_dec v var_floor then var_floor + s_noise g else v + s_noise g.
(** sparse_algorithm.rs:352-361: the covariance used to sample trajectories at the rows of xs. *)
Definition sgp_sample_cov (g : sgp) (xs : mat) : mat := compute_k (s_corr g) (s_nx g) (s_h g) (s_theta g) (s_w g) (s_sigma2 g) xs xs.
(** sparse_algorithm.rs:292-295, [dims]. *)
Definition sgp_dims (g : sgp) : nat * nat := (s_nx g, s_ny g).

(** sparse_algorithm.rs:836-851, [make_inducings]: [shuffled] are the indexes of the rows after the shuffle; rows are of any type.
    [None]: index out of range. *)
Fixpoint rows_at {A} (xt : list A) (idx : list nat) : option (list A) :=
  match idx with [] => Some [] | i :: r => do v <- nth_error xt i; do l <- rows_at xt r; Some (v :: l) end.
Definition make_inducings {A} (n_inducing : nat) (xt : list A) (shuffled : list nat) : option (list A) :=
  rows_at xt (firstn (Nat.min n_inducing (length xt)) shuffled).

(** ** Parameters of the optimization *)

(** sparse_parameters.rs:14-23, [ParamTuning]. *)
Inductive noise_tuning := NoiseFixed (c : R) | NoiseOptimized (init : R) (bounds : R * R).
Definition noise_estimated (t : noise_tuning) : nat := match t with NoiseFixed _ => 0 | NoiseOptimized _ _ => 1 end.
(** sparse_algorithm.rs:472-486: initial values and bounds of theta; partial tuning is full tuning. *)
Definition sgp_init_bounds (t : tuning) : list R * bounds_t :=
  match t with
  | Full i b => (i, b)
  | Partial i b _ => (i, b)
  | Fixed i => (i, map (fun v => (v, v)) i)
  end.
(** [bounds[i] = v]. *)
Definition set_bound (i : nat) (v : R * R) (b : bounds_t) : bounds_t := firstn i b ++ v :: skipn (S i) b.
(** sparse_algorithm.rs:488-592: the starts and the bounds given to the optimizer, in log10 scale. [dim]: columns of w_star;
    [sigma2_0]: the initial variance. Parameters are theta, then the variance, then the noise when it is estimated. The bounds are accepted when
    there is one, or when the length of the initial theta is the number of parameters (565). *)
Definition sgp_starts (dim n_start : nat) (sigma2_0 : R) (nt : noise_tuning) (t : tuning) (u : list R)
    (rnd : nat -> nat -> list R) (sw : nat -> nat -> list (nat * nat)) : option (list (list R) * bounds_t) :=
  let '(init, bounds) := sgp_init_bounds t in
  do theta0 <- broadcast dim init;
  let params0 := theta0 ++ sigma2_0 :: match nt with NoiseFixed _ => [] | NoiseOptimized c _ => [c] end in
  do b <- match bounds with
          | [b] => Some (repeat b (length params0))
          | _ => if Nat.eqb (length init) (length params0) then Some bounds else None
          end;
  do p <- prepare_multistart n_start params0 b u rnd sw;
  let b1 := set_bound dim (log10 (/ 10 ^ 12), log10 (9 * sigma2_0)) (snd p) in
  let b2 := match nt with NoiseFixed _ => b1 | NoiseOptimized _ (lo, up) => set_bound (S dim) (log10 lo, log10 up) b1 end in
  Some (fst p, b2).
(** sparse_algorithm.rs:594-625: the parameters chosen: theta, variance, noise. *)
Definition sgp_choose (lik : list R -> R -> R -> option R) (opt : (list R -> option R) -> list R -> bounds_t -> outcome) (sched : list outcome -> tree)
    (dim n_start : nat) (sigma2_0 : R) (nt : noise_tuning) (t : tuning) (u : list R) (rnd : nat -> nat -> list R) (sw : nat -> nat -> list (nat * nat)) :
    option (list R * R * R) :=
  do p <- sgp_starts dim n_start sigma2_0 nt t u rnd sw;
  let decode := fun l : list R => (firstn dim l, nth dim l 0, match nt with NoiseFixed c => c | NoiseOptimized _ _ => nth (S dim) l 0 end) in
  let objective := fun l : list R => let '(th, s2, no) := decode (map pow10 l) in do v <- lik th s2 no; Some (- v) in
  let res := reduce (S dim + noise_estimated nt) (sched (map (fun x0 => opt objective x0 (snd p)) (fst p))) in
  Some (decode (map pow10 (snd res))).
