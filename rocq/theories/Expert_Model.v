(** Settings of a mixture and of its experts. *)
From Coq Require Import List Arith Bool.
From Verif Require Import F64 Util Moe_Model.
Import ListNotations.

(** crates/gp/src/algorithm.rs:33-37. *)
Definition gp_optim_n_start : nat := 10.
Definition gp_cobyla_min_eval : nat := 25.
Definition gp_cobyla_max_eval : nat := 1000.

(** crates/moe/src/parameters.rs:96-108 [GpType] and crates/gp/src/sparse_parameters.rs:26-41 [SparseMethod]; [I] is the type of the
    inducing points (sparse_parameters.rs:43-58). *)
Inductive sparse_method := Fitc | Vfe.
Inductive gp_type (I : Type) := FullGp | SparseGp (method : sparse_method) (inducings : I).
Arguments FullGp {I}. Arguments SparseGp {I}.

(** crates/gp/src/parameters.rs:86-105 [GpValidParams] and sparse_parameters.rs:61-77 [SgpValidParams] without the nugget and the noise, which
    mixtures do not set; [x_type] holds the method and the inducing points of a sparse process. [T] is the type of the tunings. *)
Record expert (T I : Type) : Type := Expert {
  x_mean : mean_kind; x_corr : corr_kind; x_tuning : T; x_kpls : option nat; x_n_start : nat; x_max_eval : nat; x_type : gp_type I }.
Arguments Expert {T I}. Arguments x_mean {T I}. Arguments x_corr {T I}. Arguments x_tuning {T I}. Arguments x_kpls {T I}.
Arguments x_n_start {T I}. Arguments x_max_eval {T I}. Arguments x_type {T I}.

(** crates/moe/src/parameters.rs:110-138 [GpMixtureValidParams]: the settings that concern experts. *)
Record mixture_settings (I : Type) : Type := MixtureSettings {
  m_type : gp_type I; m_n_start : nat; m_max_eval : nat; m_kpls : option nat }.
Arguments MixtureSettings {I}. Arguments m_type {I}. Arguments m_n_start {I}. Arguments m_max_eval {I}. Arguments m_kpls {I}.

Section Expert.
Context {T I : Type} (default_tuning : T).

(** crates/gp/src/parameters.rs:107-121 and sparse_parameters.rs:153-170: a process before it is set. *)
Definition new_expert (m : mean_kind) (c : corr_kind) (t : gp_type I) : expert T I :=
  Expert m c default_tuning None gp_optim_n_start gp_cobyla_max_eval t.

(** Setters: crates/gp/src/parameters.rs:232-264 and sparse_parameters.rs:229-265, called through crates/moe/src/surrogates.rs:126-145 and 284-322. *)
Definition set_n_start (n : nat) (e : expert T I) : expert T I :=
  Expert (x_mean e) (x_corr e) (x_tuning e) (x_kpls e) n (x_max_eval e) (x_type e).
Definition set_max_eval (n : nat) (e : expert T I) : expert T I :=
  Expert (x_mean e) (x_corr e) (x_tuning e) (x_kpls e) (x_n_start e) (Nat.max gp_cobyla_min_eval n) (x_type e).
Definition set_kpls (k : option nat) (e : expert T I) : expert T I :=
  Expert (x_mean e) (x_corr e) (x_tuning e) k (x_n_start e) (x_max_eval e) (x_type e).
Definition set_tuning (t : T) (e : expert T I) : expert T I :=
  Expert (x_mean e) (x_corr e) t (x_kpls e) (x_n_start e) (x_max_eval e) (x_type e).
Definition set_method (s : sparse_method) (e : expert T I) : expert T I :=
  Expert (x_mean e) (x_corr e) (x_tuning e) (x_kpls e) (x_n_start e) (x_max_eval e)
    (match x_type e with FullGp => FullGp | SparseGp _ z => SparseGp s z end).

(** crates/moe/src/algorithm.rs:261-309 and 312-339: the process trained for a cluster, once the trend, the correlation and the tuning are chosen
    (those choices are in [Moe_Model.find_best_expert]). A sparse process is made with the default method; its seed is in [Rng_Model]. *)
Definition expert_params (s : mixture_settings I) (m : mean_kind) (c : corr_kind) (t : T) : expert T I :=
  match m_type s with
  | FullGp => set_tuning t (set_kpls (m_kpls s) (set_max_eval (m_max_eval s) (set_n_start (m_n_start s) (new_expert m c FullGp))))
  | SparseGp method z => set_tuning t (set_kpls (m_kpls s) (set_n_start (m_n_start s) (set_method method (new_expert m c (SparseGp Fitc z)))))
  end.

(** The number of evaluations of the likelihood allowed in one optimization, for a tuning of [dim] components: crates/gp/src/algorithm.rs:936-937 and
    sparse_algorithm.rs:600-601. [clamp] panics when its bounds are not ordered. *)
Definition allowed_evals (dim : nat) (e : expert T I) : option nat :=
  if x_max_eval e <? gp_cobyla_min_eval then None
  else Some (Nat.min (x_max_eval e) (Nat.max gp_cobyla_min_eval (10 * dim))).

(** Training of a mixture (crates/moe/src/algorithm.rs:60-205, see [Moe_Model.train]) where an expert is its settings and its rows. [fits] tells
    whether the training of a process succeeds. *)
Context {G : Type} (gm_clusters : G -> nat) (gmm_fit : nat -> list (list f64) -> res G) (resp : G * f64 -> list f64 -> list f64)
  (cv : list (list f64) -> mean_kind -> corr_kind -> f64) (fits : expert T I -> list (list f64) -> bool)
  (best_nclusters : nat -> list (list f64) -> list f64 -> nat * recombination)
  (factor_errors : list (expert T I * list (list f64)) -> G -> list (list f64) -> list f64) (factors : list f64).

Definition is_sparse (t : gp_type I) : bool := match t with FullGp => false | SparseGp _ _ => true end.
Definition train_settings (s : mixture_settings I) (nc : nb_clusters) (r : recombination) (sp : specs) (ts : list T) (dim : nat)
    (xt : list (list f64)) (yt : list f64) : res (mixture G (expert T I * list (list f64))) :=
  train gm_clusters gmm_fit resp cv
    (fun m c t rows => let e := expert_params s m c t in if fits e rows then Ok (e, rows) else Err)
    best_nclusters factor_errors factors (Params (is_sparse (m_type s)) nc r sp ts None) dim xt yt.
End Expert.
