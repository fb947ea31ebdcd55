(** The configuration of the optimizer: the builder calls, the validation, and the calls made by the Python bindings.
    [usize] and [u64] values are natural numbers; an infill criterion given as an object is known by a number. *)
From Coq Require Import String ZArith List Bool.
From Flocq Require Import IEEE754.BinarySingleNaN.
From Verif Require Import F64 Util FindResult_Model Mixint_Model Py_Model Coego_Model.
From Verif Require Moe_Model.
Import ListNotations.
Local Open Scope nat_scope.

(** crates/ego/src/types.rs:26-68. *)
Inductive infill_strategy := SEI | SLogEI | SWB2 | SWB2S.
Inductive constraint_strategy := MeanConstraint | UpperTrustBound.
Inductive infill_optimizer := Slsqp | Cobyla.
Inductive qei_strategy := KrigingBeliever | KrigingBelieverLowerBound | KrigingBelieverUpperBound | ConstantLiarMinimum.
(** The field [infill_criterion: Box<dyn InfillCriterion>]. *)
Inductive criterion_object := Standard (s : infill_strategy) | UserCriterion (id : nat).
(** crates/ego/src/utils/hot_start.rs:15-24 [HotStartMode]. *)
Inductive hot_mode := HotDisabled | HotEnabled | HotExtended (n : nat).
(** egor_config.rs:143-150 [CoegoStatus]. *)
Inductive coego_status := CoegoDisabled | CoegoEnabled (n : nat).

(** crates/ego/src/solver/egor_config.rs:19-38 [GpConfig]. *)
Record gp_conf := mkGp { gc_regr : nat; gc_corr : nat; gc_kpls : option nat; gc_clusters : Moe_Model.nb_clusters;
  gc_recomb : Moe_Model.recombination; gc_tuning : theta_tuning; gc_n_start : nat; gc_max_eval : nat }.

(** egor_config.rs:176-230 [ValidEgorConfig], with the switches of 120-128 [TregoConfig] and 155-159 [CoegoConfig]; the constants of TREGO cannot be
    set. *)
Record econf := mkConf { k_max_iters : nat; k_n_start : nat; k_n_doe : nat; k_n_cstr : nat; k_cstr_tol : option (list f64);
  k_doe : option (list (list f64)); k_q_ei : qei_strategy; k_q_optmod : nat; k_q_points : nat; k_gp : gp_conf; k_criterion : criterion_object;
  k_optimizer : infill_optimizer; k_target : f64; k_outdir : option string; k_warm_start : bool; k_hot_start : hot_mode; k_xtypes : list xtype;
  k_seed : option nat; k_trego : bool; k_coego_on : bool; k_n_coop : nat; k_cstr_infill : bool; k_cstr_strategy : constraint_strategy }.

(** The builder methods of [GpConfig], egor_config.rs:56-118. *)
Inductive gp_call := GRegr (b : nat) | GCorr (b : nat) | GKplsDim (d : option nat) | GKpls (d : nat) | GNoKpls | GClusters (n : Moe_Model.nb_clusters) |
  GRecomb (r : Moe_Model.recombination) | GTuning (t : theta_tuning) | GNStart (n : nat) | GMaxEval (n : nat).
Definition gp_apply (g : gp_conf) (o : gp_call) : gp_conf :=
  let '(mkGp r c k n rc t s e) := g in
  match o with
  | GRegr b => mkGp b c k n rc t s e
  | GCorr b => mkGp r b k n rc t s e
  | GKplsDim d => mkGp r c d n rc t s e
  | GKpls d => mkGp r c (Some d) n rc t s e
  | GNoKpls => mkGp r c None n rc t s e
  | GClusters n' => mkGp r c k n' rc t s e
  | GRecomb r' => mkGp r c k n r' t s e
  | GTuning t' => mkGp r c k n rc t' s e
  | GNStart n' => mkGp r c k n rc t n' e
  | GMaxEval n' => mkGp r c k n rc t s n'
  end.

(** The builder methods of [EgorConfig], egor_config.rs:272-441. The closure given to [configure_gp] is the sequence of the methods it calls. *)
Inductive call := Criterion (id : nat) | MaxIters (n : nat) | NStart (n : nat) | NDoe (n : nat) | NCstr (n : nat) | CstrTol (t : list f64) |
  Doe (d : list (list f64)) | DefaultDoe | QeiStrategy (q : qei_strategy) | QOptmod (n : nat) | QPoints (n : nat) | Strategy (s : infill_strategy) |
  Optimizer (o : infill_optimizer) | ConfigureGp (l : list gp_call) | Target (t : f64) | Outdir (d : string) | NoOutdir | WarmStart (b : bool) |
  HotStart (h : hot_mode) | Seed (n : nat) | Xtypes (t : list xtype) | Trego (b : bool) | Coego (s : coego_status) | CstrInfill (b : bool) |
  CstrStrategy (s : constraint_strategy).
Definition apply_call (k : econf) (o : call) : econf :=
  let '(mkConf mi ns nd nc tl doe qe qo qp gp cr op tg od ws hs xt sd tr co n ci cs) := k in
  match o with
  | Criterion id => mkConf mi ns nd nc tl doe qe qo qp gp (UserCriterion id) op tg od ws hs xt sd tr co n ci cs
  | MaxIters v => mkConf v ns nd nc tl doe qe qo qp gp cr op tg od ws hs xt sd tr co n ci cs
  | NStart v => mkConf mi v nd nc tl doe qe qo qp gp cr op tg od ws hs xt sd tr co n ci cs
  | NDoe v => mkConf mi ns v nc tl doe qe qo qp gp cr op tg od ws hs xt sd tr co n ci cs
  | NCstr v => mkConf mi ns nd v tl doe qe qo qp gp cr op tg od ws hs xt sd tr co n ci cs
  | CstrTol v => mkConf mi ns nd nc (Some v) doe qe qo qp gp cr op tg od ws hs xt sd tr co n ci cs
  | Doe v => mkConf mi ns nd nc tl (Some v) qe qo qp gp cr op tg od ws hs xt sd tr co n ci cs
  | DefaultDoe => mkConf mi ns nd nc tl None qe qo qp gp cr op tg od ws hs xt sd tr co n ci cs
  | QeiStrategy v => mkConf mi ns nd nc tl doe v qo qp gp cr op tg od ws hs xt sd tr co n ci cs
  | QOptmod v => mkConf mi ns nd nc tl doe qe v qp gp cr op tg od ws hs xt sd tr co n ci cs
  | QPoints v => mkConf mi ns nd nc tl doe qe qo v gp cr op tg od ws hs xt sd tr co n ci cs
  | Strategy s => mkConf mi ns nd nc tl doe qe qo qp gp (Standard s) op tg od ws hs xt sd tr co n ci cs
  | Optimizer v => mkConf mi ns nd nc tl doe qe qo qp gp cr v tg od ws hs xt sd tr co n ci cs
  | ConfigureGp l => mkConf mi ns nd nc tl doe qe qo qp (fold_left gp_apply l gp) cr op tg od ws hs xt sd tr co n ci cs
  | Target v => mkConf mi ns nd nc tl doe qe qo qp gp cr op v od ws hs xt sd tr co n ci cs
  | Outdir v => mkConf mi ns nd nc tl doe qe qo qp gp cr op tg (Some v) ws hs xt sd tr co n ci cs
  | NoOutdir => mkConf mi ns nd nc tl doe qe qo qp gp cr op tg None ws hs xt sd tr co n ci cs
  | WarmStart v => mkConf mi ns nd nc tl doe qe qo qp gp cr op tg od v hs xt sd tr co n ci cs
  | HotStart v => mkConf mi ns nd nc tl doe qe qo qp gp cr op tg od ws v xt sd tr co n ci cs
  | Seed v => mkConf mi ns nd nc tl doe qe qo qp gp cr op tg od ws hs xt (Some v) tr co n ci cs
  | Xtypes v => mkConf mi ns nd nc tl doe qe qo qp gp cr op tg od ws hs v sd tr co n ci cs
  | Trego v => mkConf mi ns nd nc tl doe qe qo qp gp cr op tg od ws hs xt sd v co n ci cs
  | Coego CoegoDisabled => mkConf mi ns nd nc tl doe qe qo qp gp cr op tg od ws hs xt sd tr false n ci cs
  | Coego (CoegoEnabled v) => mkConf mi ns nd nc tl doe qe qo qp gp cr op tg od ws hs xt sd tr true v ci cs
  | CstrInfill v => mkConf mi ns nd nc tl doe qe qo qp gp cr op tg od ws hs xt sd tr co n v cs
  | CstrStrategy v => mkConf mi ns nd nc tl doe qe qo qp gp cr op tg od ws hs xt sd tr co n ci v
  end.

(** egor_config.rs:40-54 and 232-259, the defaults; [ThetaTuning::default] is given, [f64::MIN] is the largest double with a minus sign. *)
Definition f64_min : f64 := fmake (- 9007199254740991) 971.
Section Default.
  Context (default_tuning : theta_tuning).
  Definition default_gp : gp_conf := mkGp 1 1 None (Moe_Model.Fixed 1) (Moe_Model.Smooth (Some fone)) default_tuning 10 50.
  Definition default_conf : econf :=
    mkConf 20 20 0 0 None None KrigingBeliever 1 1 default_gp (Standard SLogEI) Slsqp f64_min None false HotDisabled [] None false false 5 false MeanConstraint.

  (** egor_config.rs:444-466 [check]. *)
  Inductive checked := Valid (k : econf) | BadTolerances (given expected : nat) | CoegoWithKpls.
  Definition check (k : econf) : checked :=
    match k_cstr_tol k with
    | Some t => if (0 <? k_n_cstr k) && negb (length t =? k_n_cstr k) then BadTolerances (length t) (k_n_cstr k)
                else if k_coego_on k && (match gc_kpls (k_gp k) with Some _ => true | None => false end) then CoegoWithKpls else Valid k
    | None => if k_coego_on k && (match gc_kpls (k_gp k) with Some _ => true | None => false end) then CoegoWithKpls else Valid k
    end.
  (** crates/ego/src/egor.rs:165-168 [configure] and 199-211 [min_within_mixint_space]; 187-197 [min_within] is the same with the real variables of
      egor_solver.rs:165-169 [to_xtypes]; egor_service.rs:78-108 is the same. *)
  Definition build (calls : list call) (xtypes : list xtype) : checked :=
    check (apply_call (fold_left apply_call calls default_conf) (Xtypes xtypes)).

  (** crates/ego/src/solver/egor_solver.rs:251-257: the groups of variables at the start; [None] is a panic. *)
  Definition initial_groups (k : econf) (idx : list nat) : option (list (list nat)) :=
    if k_coego_on k then random_activity (length (k_xtypes k)) (k_n_coop k) idx else Some [].
  (** egor_solver.rs:269-272: the tolerances of a run with [n_fcstr] constraint functions. *)
  Definition run_tolerances (default_tol : f64) (k : econf) (n_fcstr : nat) : list f64 :=
    match k_cstr_tol k with Some t => t | None => repeat default_tol (k_n_cstr k + n_fcstr) end.

  (** python/src/egor.rs:131-155 [Egor], without the domain. *)
  Record py_egor := mkPy { y_gp : gp_config; y_n_cstr : nat; y_cstr_tol : option (list f64); y_n_start : nat; y_n_doe : nat;
    y_doe : option (list (list f64)); y_strategy : infill_strategy; y_cstr_infill : bool; y_cstr_strategy : constraint_strategy; y_q_points : nat;
    y_qei : qei_strategy; y_optimizer : infill_optimizer; y_trego : bool; y_n_coop : nat; y_q_optmod : nat; y_target : f64; y_outdir : option string;
    y_warm_start : bool; y_hot_start : option nat; y_seed : option nat }.
  (** crates/ego/src/utils/hot_start.rs:26-38. *)
  Definition hot_of (o : option nat) : hot_mode := match o with Some 0 => HotEnabled | Some n => HotExtended n | None => HotDisabled end.
  Definition given {A B} (f : A -> B) (o : option A) : list B := match o with Some a => [f a] | None => [] end.
  (** python/src/egor.rs:498-562 [apply_config]: the calls it makes; [None] is a panic on unknown bits or short bounds. The enumerations of 435-462 are
      translated one to one. *)
  Definition py_calls (default_init : f64) (default_bounds : f64 * f64) (default_tol : f64) (p : py_egor) (max_iters : option nat) (n_fcstr : nat)
      (doe : option (list (list f64))) : option (list call) :=
    do s <- egor_settings default_init default_bounds (y_gp p);
    do t <- nth_error (m_tunings s) 0;
    Some ([NCstr (y_n_cstr p); MaxIters (match max_iters with Some n => n | None => 1 end); NStart (y_n_start p); NDoe (y_n_doe p);
           CstrTol (cstr_tol default_tol (y_cstr_tol p) (y_n_cstr p) n_fcstr);
           ConfigureGp [GRegr (m_regr s); GCorr (m_corr s); GKplsDim (m_kpls s); GClusters (m_nclusters s); GRecomb (m_recomb s); GTuning t;
                        GNStart (m_nstart s); GMaxEval (m_maxeval s)];
           Strategy (y_strategy p); CstrInfill (y_cstr_infill p); CstrStrategy (y_cstr_strategy p); QPoints (y_q_points p); QeiStrategy (y_qei p);
           Optimizer (y_optimizer p); Trego (y_trego p); Coego (if y_n_coop p =? 0 then CoegoDisabled else CoegoEnabled (y_n_coop p));
           QOptmod (y_q_optmod p); Target (y_target p); WarmStart (y_warm_start p); HotStart (hot_of (y_hot_start p))] ++
          given Doe doe ++ given Outdir (y_outdir p) ++ given Seed (y_seed p)).
  (** python/src/egor.rs:265-309 [minimize], up to the run: [None] is an exception, in particular when the configuration is rejected
      ([expect("Egor configured")]). *)
  Definition py_minimize (default_init : f64) (default_bounds : f64 * f64) (default_tol : f64) (p : py_egor) (max_iters n_fcstr : nat)
      (xtypes : list xtype) : option econf :=
    do calls <- py_calls default_init default_bounds default_tol p (Some max_iters) n_fcstr (y_doe p);
    match build calls xtypes with Valid k => Some k | _ => None end.
End Default.
