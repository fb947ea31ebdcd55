(** Sampling of trajectories: crates/gp/src/algorithm.rs, [sample_chol], [sample_eig], [sample] and their sparse counterparts, with
    real numbers. The eigenvalue decomposition (library) and the normal draws are arguments. [None] is a panic. *)
From Coq Require Import Reals Arith.
From Verif Require Import RVec Kern_Model Gp_Model Sgp_Model.
Local Open Scope R_scope.

(** algorithm.rs:194-197, [GpSamplingMethod]. *)
Inductive sampling_method := ByCholesky | ByEigenValues.
(** algorithm.rs:1177. *)
Definition eigen_floor : R := / 10 ^ 9.
(** algorithm.rs:1161-1190, the factor c; [eigh n a] are the eigenvalues and the matrix of eigenvectors (columns) of a. *)
Definition sample_factor (eigh : nat -> mat -> vec * mat) (method : sampling_method) (n : nat) (cov : mat) : option mat :=
  match method with
  | ByCholesky => cholesky n cov
  | ByEigenValues =>
    let '(v, w) := eigh n cov in
    let v := fun i => if Rlt_dec (v i) eigen_floor then 0 else sqrt (v i) in
    let d := fun i j => if Nat.eqb i j then v i else 0 in
    Some (fun i j => sumn n (fun k => w i k * d k j))
  end.
(** algorithm.rs:1153-1194, [sample]: entry (i, t) of the result, [ary] being the draws, one column per trajectory. *)
Definition sample (eigh : nat -> mat -> vec * mat) (method : sampling_method) (n : nat) (mean : vec) (cov : mat) (ary : mat) : option mat :=
  match sample_factor eigh method n cov with
  | None => None
  | Some c => Some (fun i t => mean i + sumn n (fun k => c i k * ary k t))
  end.
Definition unwrap (o : option R) : R := match o with Some v => v | None => 0 end.
(** algorithm.rs:397-410, [_sample]; predictions and covariances panic together (see [compute_correlation]), which is tested first. *)
Definition gp_sample (eigh : nat -> mat -> vec * mat) (method : sampling_method) (g : gp) (n : nat) (x : mat) (ary : mat) : option mat :=
  match value_theta (g_corr g) (g_nt g) (g_h g) (g_theta g) with
  | None => None
  | Some _ => sample eigh method n (fun i => unwrap (predict g x i)) (fun i k => unwrap (compute_covariance g n x i k)) ary
  end.
(** sparse_algorithm.rs:352-361, [_sample]. *)
Definition sgp_sample (eigh : nat -> mat -> vec * mat) (method : sampling_method) (g : sgp) (n : nat) (x : mat) (ary : mat) : option mat :=
  sample eigh method n (fun i => sgp_predict g (x i)) (sgp_sample_cov g x) ary.
