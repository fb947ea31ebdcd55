(** Model of the Python builder of sparse processes, python/src/sparse_gp_mix.rs. [None] is a panic (an exception in Python). *)
From Coq Require Import List Arith Bool ZArith.
From Verif Require Import F64 Util Moe_Model Expert_Model.
From Verif Require Py_Model Rng_Model.
Import ListNotations.

(** sparse_gp_mix.rs:64-74 [SparseGpMix]; the seed is in [Rng_Model]. *)
Record sparse_gpmix := SparseGpMix {
  g_corr : nat; g_init : option (list f64); g_bounds : option (list (list f64)); g_kpls : option nat; g_nstart : nat;
  g_nz : option nat; g_z : option (list (list f64)); g_method : sparse_method }.

(** sparse_gp_mix.rs:170-176. *)
Definition sparse_inducings (g : sparse_gpmix) : option (Rng_Model.inducings (list f64)) :=
  match g_z g with
  | Some z => Some (Rng_Model.Located z)
  | None => match g_nz g with Some n => Some (Rng_Model.Randomized n) | None => None end
  end.

(** sparse_gp_mix.rs:183-195, the tuning: rows of bounds of less than two numbers panic. *)
Definition sparse_tuning (default_init : f64) (default_bounds : f64 * f64) (g : sparse_gpmix) : option Py_Model.theta_tuning :=
  let t := match g_init g with
           | Some i => Py_Model.TFull i [default_bounds]
           | None => Py_Model.TFull [default_init] [default_bounds]
           end in
  match g_bounds g with
  | None => Some t
  | Some b =>
      do bs <- mapM (fun v => do l <- nth_error v 0; do u <- nth_error v 1; Some (l, u)) b;
      Some (Py_Model.TFull (Py_Model.t_init t) bs)
  end.

(** sparse_gp_mix.rs:207-209 with crates/moe/src/types.rs:77-92, the flags of [CorrelationSpec]; constant trend, crates/moe/src/parameters.rs:147. *)
Definition sparse_specs (bits : nat) : option specs :=
  if bits <? 16 then Some (Specs true false false (Nat.testbit bits 0) (Nat.testbit bits 1) (Nat.testbit bits 2) (Nat.testbit bits 3)) else None.

Section Fit.
Context (default_init : f64) (default_bounds : f64 * f64).
Context {G : Type} (gm_clusters : G -> nat) (gmm_fit : nat -> list (list f64) -> res G) (resp : G * f64 -> list f64 -> list f64)
  (cv : list (list f64) -> mean_kind -> corr_kind -> f64)
  (fits : expert Py_Model.theta_tuning (Rng_Model.inducings (list f64)) -> list (list f64) -> bool)
  (best_nclusters : nat -> list (list f64) -> list f64 -> nat * recombination)
  (factor_errors : list (expert Py_Model.theta_tuning (Rng_Model.inducings (list f64)) * list (list f64)) -> G -> list (list f64) -> list f64)
  (factors : list f64).

(** sparse_gp_mix.rs:125-218 [fit], on an output of one column; the other settings are the defaults of
    crates/moe/src/parameters.rs:141-158: one cluster, hard recombination, [GP_COBYLA_MAX_EVAL]. *)
Definition sparse_fit (g : sparse_gpmix) (dim : nat) (xt : list (list f64)) (yt : list f64) :=
  do z <- sparse_inducings g;
  do t <- sparse_tuning default_init default_bounds g;
  do sp <- sparse_specs (g_corr g);
  match train_settings (Py_Model.TFull [default_init] [default_bounds]) gm_clusters gmm_fit resp cv fits best_nclusters factor_errors factors
          (MixtureSettings (SparseGp (g_method g) z) (g_nstart g) gp_cobyla_max_eval (g_kpls g)) (Fixed 1) Hard sp [t] dim xt yt with
  | Ok m => Some m
  | _ => None
  end.
End Fit.
