(** Random generators along a run: which numbers of a run come from the seed of the configuration and which from the entropy of
    the operating system. Sources: crates/ego/src/solver/{egor_solver,solver_impl,trego,coego}.rs, crates/moe/src/{parameters,
    algorithm}.rs, crates/gp/src/optimization.rs, crates/ego/src/utils/portfolio.rs.
    The run itself is that of [Ego_Model], the schedule of trainings that of [Sched_Model], the training of a mixture that of
    [Moe_Model] and the choice of hyperparameters that of [Tune_Model]; external computations are arguments that receive the
    generator the code gives them. *)
From Coq Require Import ZArith Reals List Arith Bool.
From Verif Require Import F64 Util FindResult_Model UpdateData_Model Ego_Model Coego_Model.
From Verif Require Doe_Model Tune_Model Moe_Model Sched_Model Misc_Model.
Import ListNotations.

(** Everything a process takes from the operating system. [e_builder]: generator of the surrogate builder, made when the solver is
    created ([SB::new_with_xtypes], solver_impl.rs:47; [GpMixtureParams::new_with_rng], moe/src/parameters.rs:154-157 and 234-239).
    [e_run]: generator of a run without a seed (egor_solver.rs:189, solver_impl.rs:64). [e_starts p rows]: generator made by the
    training of an expert on [rows] in the training named by [p] (gp/src/optimization.rs:44). [e_order]: order in which a hash map is
    listed (portfolio.rs:31-43). *)
Record entropy (rng : Type) : Type := mkEntropy {
  e_builder : rng; e_run : rng; e_starts : list nat -> mat -> rng; e_order : list nat -> list nat }.
Arguments mkEntropy {rng}. Arguments e_builder {rng}. Arguments e_run {rng}. Arguments e_starts {rng}. Arguments e_order {rng}.

(** The part of the configuration that matters here (egor_config.rs:20-60 and 176-230). [z_weights] are the weights of
    solver_impl.rs:587-609: one, or thirteen when the portfolio is switched on by the environment and one point is requested.
    [z_doe] is the initial design given by the user or read from a file, with its number of columns. *)
Record setup : Type := mkSetup {
  z_seed : option Z; z_clusters : Sched_Model.nb_clusters; z_recomb : Moe_Model.recombination; z_specs : Moe_Model.specs;
  z_n_start : nat; z_tuning : Sched_Model.tuning; z_bounds : list (R * R); z_dim : nat;
  z_coop : option nat; z_q : nat; z_optmod : nat; z_weights : list f64; z_n_cstr : nat;
  z_n_doe : nat; z_doe : option (nat * mat) }.

(** External computations. [x_seed] is [Xoshiro256Plus::seed_from_u64]; [x_gen] draws a 64-bit number and advances the generator;
    [x_uniforms], [x_draws], [x_swaps] and [x_shuffled n] are what uniform laws, Latin hypercubes and [shuffle] get from a generator.
    Then the external parts of the training of a mixture, as in [Moe_Model] and [Tune_Model]; then those of the solver: the initial
    Latin hypercube, the search of a point (scaling with a first generator, then optimization of the criterion from starts drawn with
    a second one; it gives the point, the scaling factors of the constraint functions and the virtual outputs, if any), the same
    search in the trust region, and the density clustering of a portfolio. *)
Record external (rng G E : Type) : Type := mkExternal {
  x_seed : Z -> rng; x_gen : rng -> Z * rng; x_uniforms : rng -> list R;
  x_draws : rng -> nat -> nat -> list R; x_swaps : rng -> nat -> nat -> list (nat * nat);
  x_shuffled : nat -> rng -> list nat * rng;
  x_gm_clusters : G -> nat; x_gmm_fit : rng -> nat -> mat -> Moe_Model.res G;
  x_resp : G * f64 -> row -> row; x_cv : mat -> Moe_Model.mean_kind -> Moe_Model.corr_kind -> f64;
  x_lik : Moe_Model.mean_kind -> Moe_Model.corr_kind -> mat -> list R -> option R;
  x_opt : (list R -> option R) -> list R -> Tune_Model.bounds_t -> Tune_Model.outcome;
  x_sched : list Tune_Model.outcome -> Tune_Model.tree;
  x_expert : Moe_Model.mean_kind -> Moe_Model.corr_kind -> mat -> list R -> E;
  x_theta : E -> list R; x_lkh : E -> R;
  x_nclusters : rng -> nat -> mat -> row -> nat * Moe_Model.recombination;
  x_factor_errors : list E -> G -> mat -> row; x_factors : row;
  x_doe : rng -> nat -> mat;
  x_search : f64 -> rng -> rng -> list (Moe_Model.mixture G E) -> state -> list (list nat) -> row * row * option row;
  x_search_local : rng -> rng -> list (Moe_Model.mixture G E) -> state -> list (list nat) -> row;
  x_dbscan : mat -> list (option nat) }.
Arguments mkExternal {rng G E}.
Arguments x_seed {rng G E}. Arguments x_gen {rng G E}. Arguments x_uniforms {rng G E}. Arguments x_draws {rng G E}. Arguments x_swaps {rng G E}. Arguments x_shuffled {rng G E}. Arguments x_gm_clusters {rng G E}. Arguments x_gmm_fit {rng G E}. Arguments x_resp {rng G E}. Arguments x_cv {rng G E}. Arguments x_lik {rng G E}. Arguments x_opt {rng G E}. Arguments x_sched {rng G E}. Arguments x_expert {rng G E}. Arguments x_theta {rng G E}. Arguments x_lkh {rng G E}. Arguments x_nclusters {rng G E}. Arguments x_factor_errors {rng G E}. Arguments x_factors {rng G E}. Arguments x_doe {rng G E}. Arguments x_search {rng G E}. Arguments x_search_local {rng G E}. Arguments x_dbscan {rng G E}.

Section Seed.
Context {rng G E : Type} (x : external rng G E).
Context (e : entropy rng) (s : setup) (cfg : config) (fobj fcstr : row -> row).

(** egor_solver.rs:186-190 and solver_impl.rs:61-65. *)
Definition initial_rng : rng := match s.(z_seed) with Some v => x.(x_seed) v | None => e.(e_run) end.

(** ** Training *)

(** [ThetaTuning] in the two models. *)
Definition tuning_of (t : Sched_Model.tuning) : Tune_Model.tuning :=
  match t with
  | Sched_Model.Fixed i => Tune_Model.Fixed i
  | Sched_Model.Partial i b a => Tune_Model.Partial i b a
  | Sched_Model.Full i b => Tune_Model.Full i b
  end.

(** Training of a full expert (moe/src/algorithm.rs:283-311): the multistart is drawn from the entropy when there is one start
    besides the initial guess, and from the seed 42 when there are more (gp/src/optimization.rs:39-66). *)
Definition train_expert (p : list nat) (m : Moe_Model.mean_kind) (c : Moe_Model.corr_kind) (t : Tune_Model.tuning) (rows : mat)
    : Moe_Model.res E :=
  match Tune_Model.choose_theta (x.(x_lik) m c rows) x.(x_opt) x.(x_sched) s.(z_dim) s.(z_n_start) (x.(x_uniforms) (e.(e_starts) p rows))
          (x.(x_draws) (x.(x_seed) 42)) (x.(x_swaps) (x.(x_seed) 42)) t with
  | Some th => Moe_Model.Ok (x.(x_expert) m c rows th)
  | None => Moe_Model.Panic
  end.

Definition clusters_of (n : Sched_Model.nb_clusters) : Moe_Model.nb_clusters :=
  match n with Sched_Model.NbFixed nb => Moe_Model.Fixed nb | Sched_Model.NbAuto => Moe_Model.Auto None end.

(** solver_impl.rs:132-138: the builder the solver trains with. The generator of the builder is not set. *)
Definition params_of (ts : option (list Sched_Model.tuning)) : Moe_Model.params G Tune_Model.tuning :=
  Moe_Model.Params false (clusters_of s.(z_clusters)) s.(z_recomb) s.(z_specs)
    (match ts with Some ts => map tuning_of ts | None => [Tune_Model.default_tuning] end) None.

(** moe/src/algorithm.rs:72-138 and 144-205 with the generator of the builder (parameters.rs:219-220 gives a copy each time). *)
Definition mixture_with (p : list nat) (retrain : Moe_Model.params G Tune_Model.tuning -> Moe_Model.res (Moe_Model.mixture G E))
    (ps : Moe_Model.params G Tune_Model.tuning) (d : mat * row) : Moe_Model.res (Moe_Model.mixture G E) :=
  Moe_Model.train_with x.(x_gm_clusters) (x.(x_gmm_fit) e.(e_builder)) x.(x_resp) x.(x_cv) (train_expert p) (x.(x_nclusters) e.(e_builder)) x.(x_factor_errors)
    x.(x_factors) retrain ps cfg.(c_wx) (fst d) (snd d).
Definition train_mixture (p : list nat) (ts : option (list Sched_Model.tuning)) (d : mat * row) : Moe_Model.res (Moe_Model.mixture G E) :=
  mixture_with p (fun ps => mixture_with p (fun _ => Moe_Model.Panic) ps d) (params_of ts) d.
Definition train_mixture_on (p : list nat) (ts : list Sched_Model.tuning) (d : mat * row) (m : Moe_Model.mixture G E)
    : Moe_Model.res (Moe_Model.mixture G E) :=
  Moe_Model.train_on_clusters x.(x_gm_clusters) x.(x_resp) x.(x_cv) (train_expert p) x.(x_factor_errors) x.(x_factors)
    (fun ps => mixture_with p (fun _ => Moe_Model.Panic) ps d)
    (params_of (Some ts)) cfg.(c_wx) (fst d) (snd d) (Moe_Model.mx_gmx m) (Moe_Model.mx_recomb m).

(** The builder seen by the solver; a failed training is a panic of the solver, kept as [None]. *)
Definition gp_of (r : Moe_Model.res (Moe_Model.mixture G E)) : Sched_Model.gp (option (Moe_Model.mixture G E)) :=
  match r with
  | Moe_Model.Ok m => Sched_Model.mkGp (map x.(x_theta) (Moe_Model.mx_experts m))
                        (match Moe_Model.mx_experts m with xn :: _ => x.(x_lkh) xn | [] => 0%R end) (Some m)
  | _ => Sched_Model.mkGp [] 0%R None
  end.
Definition trainer_of (p : list nat) : Sched_Model.trainer (mat * row) (option (Moe_Model.mixture G E)) :=
  Sched_Model.mkTrainer (fun d ts => gp_of (train_mixture p ts d))
    (fun d ts k => match k with Some m => gp_of (train_mixture_on p ts d m) | None => Sched_Model.mkGp [] 0%R None end).
Definition sconfig_of : Sched_Model.sconfig :=
  Sched_Model.mkSconfig s.(z_clusters) (match s.(z_coop) with Some _ => true | None => false end) s.(z_tuning) s.(z_bounds) s.(z_dim).

(** ** Selection of points *)

(** The solver state besides that of [Ego_Model]: clusterings and hyperparameters kept for each output, groups of variables, generator. *)
Definition kept : Type := list (Sched_Model.kept (K := option (Moe_Model.mixture G E))).
Record hidden : Type := mkHidden { h_kept : kept; h_activity : option (list (list nat)); h_rng : rng }.

Definition actives (h : hidden) : list (list nat) :=
  match h.(h_activity) with Some a => a | None => full_activity cfg.(c_wx) end.
Definition column (k : nat) (y : mat) : option row := mapM (fun r => nth_error r k) y.

(** solver_impl.rs:635-680: the surrogates of all outputs. *)
Definition train_outputs (p : list nat) (flags : bool * bool) (acts : list (list nat)) (xt yt : mat) (ks : kept)
    : option (list (Moe_Model.mixture G E) * kept) :=
  do l <- mapM (fun k => do old <- nth_error ks k; do y <- column k yt;
                         do g <- Sched_Model.train_once (trainer_of (p ++ [k])) sconfig_of (k =? 0) old
                                   (Sched_Model.mkRequest (xt, y) (fst flags) (snd flags) acts);
                         do m <- Sched_Model.g_clust (fst g); Some (m, snd g)) (seq 0 (S s.(z_n_cstr)));
  Some (map fst l, map snd l).

(** A generator seeded by a draw of another: solver_impl.rs:318, 689, 743; trego.rs:113. *)
Definition sub_rng (g : rng) : rng * rng := let (v, g') := x.(x_gen) g in (x.(x_seed) v, g').

(** solver_impl.rs:626-785: the points of a batch, one after the other; the loop is left when virtual outputs cannot be computed. *)
Fixpoint batch_of (p : list nat) (w : f64) (st : state) (flags : list (bool * bool)) (h : hidden) (b : batch)
    : option (batch * hidden) :=
  match flags with
  | [] => Some (b, h)
  | f :: flags' =>
      do t <- train_outputs (p ++ [length b.(b_x)]) f (actives h) (st.(s_x) ++ b.(b_x)) (st.(s_y) ++ b.(b_y)) h.(h_kept);
      let (r1, g1) := sub_rng h.(h_rng) in
      let (r2, g2) := sub_rng g1 in
      let h' := mkHidden (snd t) h.(h_activity) g2 in
      let '(xn, scale, y) := x.(x_search) w r1 r2 (fst t) st (actives h) in
      match y with
      | None => Some (b, h')
      | Some y => batch_of p w st flags' h' (mkBatch (b.(b_x) ++ [xn]) (b.(b_y) ++ [y]) (b.(b_scales) ++ [scale]))
      end
  end.

(** solver_impl.rs:614-791: one batch for each weight. *)
Fixpoint batches (p : list nat) (j : nat) (ws : list f64) (recluster : bool) (st : state) (h : hidden) : option (list batch * hidden) :=
  match ws with
  | [] => Some ([], h)
  | w :: ws' =>
      let flags := map (fun i => (Sched_Model.make_clustering (st.(s_iter) =? 0) i recluster,
                                  Sched_Model.optimize_theta st.(s_iter) s.(z_q) s.(z_optmod) i j)) (seq 0 s.(z_q)) in
      do r <- batch_of (p ++ [j]) w st flags h (mkBatch [] [] []);
      do rs <- batches p (S j) ws' recluster st (snd r);
      Some (fst r :: fst rs, snd rs)
  end.

(** solver_impl.rs:562-807 [select_next_points]. *)
Definition select_next_points (p : list nat) (recluster : bool) (st : state) (h : hidden) : option (batch * hidden) :=
  do r <- batches p 0 s.(z_weights) recluster st h;
  match fst r with
  | [] => None
  | [b] => Some (b, snd r)
  | bs =>
      do xs <- mapM (fun b => nth_error b.(b_x) 0) bs;
      let indices := e.(e_order) (Misc_Model.first_members [] 0 (x.(x_dbscan) xs)) in
      do q <- Misc_Model.select_from_portfolio indices
                (map (fun b => @Misc_Model.mkProposal f64 unit b.(b_x) b.(b_y) b.(b_scales) fzero tt) bs);
      let '(xn, y, c, _, _) := q in Some (mkBatch xn y c, snd r)
  end.

(** ** The run *)

(** solver_impl.rs:424-500: attempts to find points that are kept; each is one turn of [ego_loop]. *)
Fixpoint attempts (n a : nat) (st : state) (h : hidden) : option (state * hidden) :=
  match n with
  | 0 => None
  | S n' =>
      let recluster := Sched_Model.have_to_recluster s.(z_clusters) st.(s_added) st.(s_prev_added) in
      do r <- select_next_points [st.(s_iter); a] recluster st h;
      do st' <- ego_loop cfg fobj fcstr (fun _ => fst r) st 1 0;
      if terminated st' then match n' with 0 => Some (st', snd r) | S _ => attempts n' (S a) st (snd r) end
      else Some (st', snd r)
  end.

(** egor_solver.rs:436-451. *)
Definition global_step (st : state) (h : hidden) : option (state * hidden) := attempts st.(s_retries) 0 st h.

(** egor_solver.rs:519-528, solver_impl.rs:299-391 and trego.rs:84-200: surrogates trained again (and not kept), one generator for
    the scaling and one for the starts of the search. *)
Definition local_step (st : state) (h : hidden) : option (state * hidden) :=
  do t <- train_outputs [st.(s_iter); 0; 0; 0] (false, true) (actives h) st.(s_x) st.(s_y) h.(h_kept);
  let (r1, g1) := sub_rng h.(h_rng) in
  let (r2, g2) := sub_rng g1 in
  let xn := x.(x_search_local) r1 r2 (fst t) st (actives h) in
  do st' <- trego_step cfg fobj fcstr (mkOracle (fun _ _ => mkBatch [] [] []) (fun _ => xn)) st;
  Some (st', mkHidden h.(h_kept) h.(h_activity) g2).

(** egor_solver.rs:454-529. *)
Definition iteration (st : state) (h : hidden) : option (state * hidden) :=
  if cfg.(c_trego) then
    do success <- last_success st;
    let st1 := set_sigma (next_sigma fmul cfg.(c_gamma) cfg.(c_beta) st.(s_iter) st.(s_prev_ego) success st.(s_sigma)) st in
    if is_global_phase st.(s_iter) cfg.(c_n_local) st.(s_prev_ego) success then
      do r <- global_step st1 h; Some (set_prev_ego true (fst r), snd r)
    else
      do r <- local_step st1 h; Some (set_prev_ego false (fst r), snd r)
  else global_step st h.

(** egor_solver.rs:251-257 and 371-380; coego.rs:55-84. *)
Definition draw_activity (h : hidden) : option hidden :=
  match s.(z_coop) with
  | None => Some h
  | Some n =>
      let (idx, g) := x.(x_shuffled) cfg.(c_wx) h.(h_rng) in
      do a <- random_activity cfg.(c_wx) n idx; Some (mkHidden h.(h_kept) (Some a) g)
  end.

(** One round of the executor loop, as in [Ego_Model.exec_step]. *)
Definition round (sh : state * hidden) : option (state * hidden) :=
  let (st, h) := sh in
  if terminated st then Some (st, h)
  else match terminate_internal st with
       | Running =>
           do r <- iteration st h;
           do h' <- draw_activity (snd r);
           do st' <- update (fst r);
           Some (set_iter (S st'.(s_iter)) st', h')
       | r => Some (set_status r st, h)
       end.

(** egor_solver.rs:181-349: [init]. A design that is sampled comes from a copy of the generator. *)
Definition begin : option (state * hidden) :=
  let g := initial_rng in
  let n_doe := if s.(z_n_doe) =? 0 then Nat.max (cfg.(c_wx) + 1) 5 else s.(z_n_doe) in
  let (cols, doe) := match s.(z_doe) with Some d => d | None => (cfg.(c_wx), x.(x_doe) g n_doe) end in
  do st <- init cfg fobj fcstr cols doe;
  do h <- draw_activity (mkHidden (repeat (None, None) (S s.(z_n_cstr))) None g);
  Some (st, h).

Fixpoint rounds (k : nat) (sh : state * hidden) : option (state * hidden) :=
  match k with 0 => Some sh | S k' => do sh' <- round sh; rounds k' sh' end.

(** The run stopped after [k] rounds. *)
Definition run (k : nat) : option state := do sh <- begin; do sh' <- rounds k sh; Some (fst sh').

(** solver_impl.rs:56-101 [suggest]: the state is that of the given data, at iteration 0 and without groups of variables. *)
Definition suggest (st : state) : option mat :=
  do r <- select_next_points [0] false st (mkHidden (repeat (None, None) (S s.(z_n_cstr))) None initial_rng);
  Some (fst r).(b_x).

End Seed.
