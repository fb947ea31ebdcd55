(** The builders of Gaussian process and sparse Gaussian process parameters. Numbers are reals; the mean and correlation models are of any type. *)
From Coq Require Import Reals List Bool.
From Verif Require Import Tune_Model.
From Verif Require Sgp_Model.
Import ListNotations.
Local Open Scope nat_scope.

Section Params.
  Context {M C : Type}.

  (** crates/gp/src/parameters.rs:88-103 [GpValidParams]. *)
  Record gpp := mkGpp { p_tuning : tuning; p_mean : M; p_corr : C; p_kpls : option nat; p_n_start : nat; p_max_eval : nat; p_nugget : R }.
  (** parameters.rs:105-121 [Default] and 163-170 [new]; [eps] is the machine epsilon, lib.rs gives 10 starts and 1000 evaluations. *)
  Definition new_gpp (eps : R) (mean : M) (corr : C) : gpp := mkGpp default_tuning mean corr None 10 1000 (100 * eps).
  (** The builder methods, parameters.rs:177-271. *)
  Inductive gpp_call := CMean (m : M) | CCorr (c : C) | CKpls (d : option nat) | CThetaInit (i : list R) | CThetaBounds (b : bounds_t) |
    CTuning (t : tuning) | CNStart (n : nat) | CMaxEval (n : nat) | CNugget (v : R).
  Definition gpp_apply (p : gpp) (o : gpp_call) : gpp :=
    let '(mkGpp t m c k s e v) := p in
    match o with
    | CMean m' => mkGpp t m' c k s e v
    | CCorr c' => mkGpp t m c' k s e v
    | CKpls d => mkGpp t m c d s e v
    | CThetaInit i => mkGpp (theta_init i t) m c k s e v
    | CThetaBounds b => mkGpp (theta_bounds b t) m c k s e v
    | CTuning t' => mkGpp t' m c k s e v
    | CNStart n => mkGpp t m c k n e v
    | CMaxEval n => mkGpp t m c k s (set_max_eval n) v
    | CNugget v' => mkGpp t m c k s e v'
    end.
  Definition gp_params (eps : R) (mean : M) (corr : C) (calls : list gpp_call) : gpp := fold_left gpp_apply calls (new_gpp eps mean corr).
  (** parameters.rs:289-307 [check_ref]. *)
  Definition gp_accepted (p : gpp) : bool := check (p_kpls p) (p_tuning p).
End Params.
Arguments gpp : clear implicits.
Arguments gpp_call : clear implicits.

(** crates/gp/src/sparse_parameters.rs:33-61, inducing points and method. *)
Inductive inducing_points := Randomized (n : nat) | Located (z : list (list R)).
Inductive sparse_method := MFitc | MVfe.
Section Sparse.
  Context {C : Type}.
  (** sparse_parameters.rs:72-83 [SgpValidParams]; the mean model is constant. *)
  Record sgpp := mkSgpp { q_gp : gpp unit C; q_noise : Sgp_Model.noise_tuning; q_z : inducing_points; q_method : sparse_method; q_seed : option nat }.
  (** sparse_parameters.rs:25-32, 85-95 and 155-171 [new]: the upper bound of theta is raised to 100. *)
  Definition new_sgpp (eps : R) (corr : C) (z : inducing_points) : sgpp :=
    mkSgpp (mkGpp (Full [1 / 10] [(1 / 100, 100)])%R tt corr None 10 1000 (100 * eps)) (Sgp_Model.NoiseOptimized (1 / 100) (100 * eps, 10 ^ 10))%R z MFitc None.
  (** The builder methods, sparse_parameters.rs:178-295; those of the surrogate set the same fields as for a Gaussian process. *)
  Inductive sgpp_call := QGp (o : gpp_call unit C) | QMethod (m : sparse_method) | QInducings (z : list (list R)) | QNInducings (n : nat) |
    QNoise (t : Sgp_Model.noise_tuning) | QSeed (s : option nat).
  Definition sgpp_apply (p : sgpp) (o : sgpp_call) : sgpp :=
    let '(mkSgpp g n z m s) := p in
    match o with
    | QGp o' => mkSgpp (gpp_apply g o') n z m s
    | QMethod m' => mkSgpp g n z m' s
    | QInducings z' => mkSgpp g n (Located z') m s
    | QNInducings k => mkSgpp g n (Randomized k) m s
    | QNoise t => mkSgpp g t z m s
    | QSeed s' => mkSgpp g n z m s'
    end.
  Definition sgp_params (eps : R) (corr : C) (z : inducing_points) (calls : list sgpp_call) : sgpp := fold_left sgpp_apply calls (new_sgpp eps corr z).
End Sparse.
