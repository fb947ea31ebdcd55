(** What the builder calls of the optimizer say, independently of how the configuration is stored. *)
From Coq Require Import String ZArith List Bool.
From Verif Require Import F64 Mixint_Model Py_Model Config_Model.
From Verif Require Moe_Model.
Import ListNotations.

(** The last value given for an option by a sequence of calls, its default if there is none. *)
Definition last_given {O V} (says : O -> option V) (default : V) (calls : list O) : V :=
  last (flat_map (fun o => match says o with Some v => [v] | None => [] end) calls) default.

Definition says_max_iters o := match o with MaxIters n => Some n | _ => None end.
Definition says_n_start o := match o with NStart n => Some n | _ => None end.
Definition says_n_doe o := match o with NDoe n => Some n | _ => None end.
Definition says_n_cstr o := match o with NCstr n => Some n | _ => None end.
Definition says_cstr_tol o := match o with CstrTol t => Some (Some t) | _ => None end.
Definition says_doe o := match o with Doe d => Some (Some d) | DefaultDoe => Some None | _ => None end.
Definition says_qei o := match o with QeiStrategy q => Some q | _ => None end.
Definition says_q_optmod o := match o with QOptmod n => Some n | _ => None end.
Definition says_q_points o := match o with QPoints n => Some n | _ => None end.
(** A criterion object and a strategy are two ways to give the same option. *)
Definition says_criterion o := match o with Criterion id => Some (UserCriterion id) | Strategy s => Some (Standard s) | _ => None end.
Definition says_optimizer o := match o with Optimizer v => Some v | _ => None end.
Definition says_target o := match o with Target t => Some t | _ => None end.
Definition says_outdir o := match o with Outdir d => Some (Some d) | NoOutdir => Some None | _ => None end.
Definition says_warm_start o := match o with WarmStart b => Some b | _ => None end.
Definition says_hot_start o := match o with HotStart h => Some h | _ => None end.
Definition says_seed o := match o with Seed n => Some (Some n) | _ => None end.
Definition says_trego o := match o with Trego b => Some b | _ => None end.
Definition says_coego o := match o with Coego s => Some s | _ => None end.
Definition says_cstr_infill o := match o with CstrInfill b => Some b | _ => None end.
Definition says_cstr_strategy o := match o with CstrStrategy s => Some s | _ => None end.
Definition says_regr o := match o with GRegr b => Some b | _ => None end.
Definition says_corr o := match o with GCorr b => Some b | _ => None end.
Definition says_kpls o := match o with GKplsDim d => Some d | GKpls d => Some (Some d) | GNoKpls => Some None | _ => None end.
Definition says_clusters o := match o with GClusters n => Some n | _ => None end.
Definition says_recomb o := match o with GRecomb r => Some r | _ => None end.
Definition says_tuning o := match o with GTuning t => Some t | _ => None end.
Definition says_gp_n_start o := match o with GNStart n => Some n | _ => None end.
Definition says_max_eval o := match o with GMaxEval n => Some n | _ => None end.

(** The calls that configure the surrogates, in order. *)
Definition gp_calls (calls : list call) : list gp_call := flat_map (fun o => match o with ConfigureGp l => l | _ => [] end) calls.

(** The cooperative optimization as seen by the run: with how many groups, if any. *)
Definition coego_of (k : econf) : coego_status := if k_coego_on k then CoegoEnabled (k_n_coop k) else CoegoDisabled.

(** Two calls are about the same option. *)
Definition same_option (a b : call) : bool :=
  match a, b with
  | MaxIters _, MaxIters _ | NStart _, NStart _ | NDoe _, NDoe _ | NCstr _, NCstr _ | CstrTol _, CstrTol _ | QeiStrategy _, QeiStrategy _
  | QOptmod _, QOptmod _ | QPoints _, QPoints _ | Optimizer _, Optimizer _ | ConfigureGp _, ConfigureGp _ | Target _, Target _
  | WarmStart _, WarmStart _ | HotStart _, HotStart _ | Seed _, Seed _ | Xtypes _, Xtypes _ | Trego _, Trego _ | Coego _, Coego _
  | CstrInfill _, CstrInfill _ | CstrStrategy _, CstrStrategy _ => true
  | (Criterion _ | Strategy _), (Criterion _ | Strategy _) => true
  | (Doe _ | DefaultDoe), (Doe _ | DefaultDoe) => true
  | (Outdir _ | NoOutdir), (Outdir _ | NoOutdir) => true
  | _, _ => false
  end.

(** Number of tolerances documented in Python: one for each constraint, metamodelled or given as a function. *)
Definition documented_tolerances (n_cstr n_fcstr : nat) (t : option (list f64)) : Prop :=
  match t with None => True | Some l => length l = n_cstr + n_fcstr end.
