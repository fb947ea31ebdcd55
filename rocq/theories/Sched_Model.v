(** When surrogates are re-clustered and re-tuned, and which hyperparameters they are given:
    crates/ego/src/solver/solver_impl.rs, crates/ego/src/solver/coego.rs, crates/ego/src/utils/bounds.rs.
    Hyperparameters and likelihoods are real numbers. Training itself is an argument ([trainer]). *)
From Coq Require Import Reals List Arith Bool.
From Verif Require Import Util Coego_Model.
Import ListNotations.

Definition thetas := list R.

(** crates/gp/src/parameters.rs:14-35 [ThetaTuning]. *)
Inductive tuning : Type :=
| Fixed (init : thetas)
| Partial (init : thetas) (bounds : list (R * R)) (active : list nat)
| Full (init : thetas) (bounds : list (R * R)).

(** crates/gp/src/parameters.rs:54-64 [init]. *)
Definition tuning_init (t : tuning) : thetas :=
  match t with Fixed i => i | Partial i _ _ => i | Full i _ => i end.

(** crates/gp/src/parameters.rs:67-77 [bounds]. *)
Definition tuning_bounds (t : tuning) : option (list (R * R)) :=
  match t with Fixed _ => None | Partial _ b _ => Some b | Full _ b => Some b end.

(** crates/moe/src/parameters.rs:26-40 [NbClusters]; the maximum of the automatic mode is left out. *)
Inductive nb_clusters : Type := NbFixed (nb : nat) | NbAuto.

(** crates/moe/src/parameters.rs:49-54 [n_or_else_one], 72-74 [is_auto], 76-83 [is_mono]. *)
Definition n_or_else_one (n : nb_clusters) : nat := match n with NbFixed nb => nb | NbAuto => 1 end.
Definition is_auto (n : nb_clusters) : bool := match n with NbAuto => true | NbFixed _ => false end.
Definition is_mono (n : nb_clusters) : bool := match n with NbFixed nb => nb =? 1 | NbAuto => false end.

(** solver_impl.rs:110-113 [have_to_recluster]; the subtraction never underflows on reachable counts, and
    here it saturates at zero. *)
Definition have_to_recluster (n : nb_clusters) (added prev_added : nat) : bool :=
  is_auto n && (negb (added =? 0) && (added mod 10 =? 0) && (0 <? added - prev_added)).

(** [usize::is_multiple_of]: only zero is a multiple of zero. *)
Definition is_multiple_of (n d : nat) : bool := if d =? 0 then n =? 0 else n mod d =? 0.

(** solver_impl.rs:642-645: the two flags of attempt [j] (position in the portfolio) for point [i]. *)
Definition make_clustering (init : bool) (i : nat) (recluster : bool) : bool := (init && (i =? 0)) || recluster.
Definition optimize_theta (iter q_points q_optmod i j : nat) : bool :=
  is_multiple_of (iter * q_points + i) q_optmod && (j =? 0).

Section Surrogate.
Context {D K : Type}.

(** What the solver reads of a trained mixture: the hyperparameters of its experts, the likelihood of the
    first one, and its clustering. *)
Record gp : Type := mkGp { g_thetas : list thetas; g_lkh : R; g_clust : K }.

(** The surrogate builder. [t_train d None] clusters and trains with the tunings the builder has by default,
    [t_train d (Some ts)] with the tunings [ts]; [t_train_on d ts k] trains on the given clusters.
    Errors are panics in the solver ([expect]) and are left out. *)
Record trainer : Type := mkTrainer {
  t_train : D -> option (list tuning) -> gp;
  t_train_on : D -> list tuning -> K -> gp }.

(** The part of the configuration that matters here; [c_dim] is the number of hyperparameters of an expert. *)
Record sconfig : Type := mkSconfig {
  c_clusters : nb_clusters; c_coego : bool; c_tuning : tuning; c_bounds : list (R * R); c_dim : nat }.

(** [ArrayBase::assign] broadcasts a single value over the row. *)
Definition broadcast (n : nat) (l : thetas) : thetas := match l with [v] => repeat v n | _ => l end.

(** solver_impl.rs:148-158: hyperparameters the search starts from. *)
Definition initial_thetas (c : sconfig) (inits : option (list thetas)) : list thetas :=
  match inits with
  | Some l => l
  | None => repeat (broadcast c.(c_dim) (tuning_init c.(c_tuning))) (n_or_else_one c.(c_clusters))
  end.

(** coego.rs:98-126 [set_partial_theta_tuning]; the default bounds are (1e-2, 10). *)
Definition default_bounds : R * R := (1 / 100, 10)%R.
Definition set_partial (active : list nat) (t : tuning) : tuning :=
  match t with
  | Fixed i => Partial i (repeat default_bounds (length i)) (strip active (length i))
  | Full i b => Partial i b (strip active (length i))
  | Partial i b _ => Partial i b (strip active (length i))
  end.

(** solver_impl.rs:202-228: tunings used when the clustering is kept. *)
Definition kept_tunings (c : sconfig) (optimize : bool) (active : list nat) (best : list thetas) : list tuning :=
  if optimize then
    let full := map (fun i => Full i c.(c_bounds)) best in
    if c.(c_coego) then map (set_partial active) full else full
  else map Fixed best.

(** State of the loop over activity groups: best hyperparameters, best likelihood (None is minus infinity),
    tunings last given to the builder (None when they were not set), and the model trained last. *)
Record lstate : Type := mkLstate {
  l_best : list thetas; l_lkh : option R; l_tunings : option (list tuning); l_model : option gp }.

Definition better (l : R) (b : option R) : bool :=
  match b with None => true | Some b => if Rlt_dec b l then true else false end.

(** solver_impl.rs:166-293: one turn of the loop over activity groups. Reading the first expert panics when
    there is none, and so does the absence of a clustering. *)
Definition group_step (t : trainer) (c : sconfig) (objective : bool) (d : D) (clustering optimize : bool)
    (k : option K) (s : lstate) (active : list nat) : option lstate :=
  do r <- (if clustering then
             let tunings := match c.(c_clusters) with
                            | NbAuto => s.(l_tunings)
                            | NbFixed _ =>
                              Some (map (fun i => Partial i c.(c_bounds) (strip active (length i))) s.(l_best))
                            end in
             let g := t.(t_train) d tunings in
             match g.(g_thetas) with [] => None | _ => Some (g, tunings, g.(g_thetas)) end
           else
             do k <- k;
             let ts := kept_tunings c optimize active s.(l_best) in
             Some (t.(t_train_on) d ts k, Some ts, s.(l_best)));
  let '(g, tunings, best) := r in
  if c.(c_coego) && is_mono c.(c_clusters) then
    match g.(g_thetas) with
    | [] => None
    | _ => if better g.(g_lkh) s.(l_lkh) && objective
           then Some (mkLstate g.(g_thetas) (Some g.(g_lkh)) tunings (Some g))
           else Some (mkLstate best s.(l_lkh) tunings (Some g))
    end
  else Some (mkLstate best s.(l_lkh) tunings (Some g)).

Fixpoint groups (t : trainer) (c : sconfig) (objective : bool) (d : D) (clustering optimize : bool)
    (k : option K) (s : lstate) (actives : list (list nat)) : option lstate :=
  match actives with
  | [] => Some s
  | a :: l => do s' <- group_step t c objective d clustering optimize k s a;
              groups t c objective d clustering optimize k s' l
  end.

(** solver_impl.rs:121-296 [make_clustered_surrogate]: the surrogate and the hyperparameters kept for the
    next call. *)
Definition make_surrogate (t : trainer) (c : sconfig) (objective : bool) (d : D) (clustering optimize : bool)
    (k : option K) (inits : option (list thetas)) (actives : list (list nat)) : option (gp * list thetas) :=
  do s <- groups t c objective d clustering optimize k (mkLstate (initial_thetas c inits) None None None) actives;
  do g <- s.(l_model);
  Some (g, s.(l_best)).

(** What the solver keeps between trainings, for one output: solver_impl.rs:677-680. *)
Definition kept : Type := (option K * option (list thetas))%type.

(** One training requested by [select_next_points] (solver_impl.rs:616-680). *)
Record request : Type := mkRequest {
  q_data : D; q_clustering : bool; q_optimize : bool; q_actives : list (list nat) }.

Definition train_once (t : trainer) (c : sconfig) (objective : bool) (s : kept) (r : request) : option (gp * kept) :=
  do g <- make_surrogate t c objective r.(q_data) r.(q_clustering) r.(q_optimize) (fst s) (snd s) r.(q_actives);
  Some (fst g, (Some (fst g).(g_clust), Some (snd g))).

(** The trainings of one output along a run, from the first. *)
Fixpoint train_all (t : trainer) (c : sconfig) (objective : bool) (s : kept) (rs : list request)
  : option (list gp * kept) :=
  match rs with
  | [] => Some ([], s)
  | r :: rs => do g <- train_once t c objective s r;
               do l <- train_all t c objective (snd g) rs;
               Some (fst g :: fst l, snd l)
  end.

End Surrogate.
Arguments gp : clear implicits.
Arguments trainer : clear implicits.
Arguments request : clear implicits.

(** solver_impl.rs:608-645: flags of the trainings of one iteration of the solver, in order: portfolio
    positions [j] (there are [n_weights]), then points [i] of the batch. The code leaves the inner loop when
    no point can be proposed; here the batch is always complete. *)
Definition iteration_flags (iter q_points q_optmod n_weights : nat) (recluster : bool) : list (bool * bool) :=
  flat_map (fun j => map (fun i => (make_clustering (iter =? 0) i recluster,
                                    optimize_theta iter q_points q_optmod i j))
                         (seq 0 q_points))
           (seq 0 n_weights).

(** utils/bounds.rs:33-85 [special_bounds]. [Corr] flags: squared exponential, absolute exponential,
    Matern 3/2, Matern 5/2. The third test of the code is written twice; Matern 5/2 is not tested. *)
Record corr_spec : Type := mkCorr { cs_sqexp : bool; cs_absexp : bool; cs_m32 : bool; cs_m52 : bool }.

(** crates/gp/src/correlation_models.rs:143-145, 235-237, 314-316, 485-487 [theta_influence_factors]. *)
Definition infl_sqexp : R * R := (29 / 100, 196 / 100)%R.
Definition infl_absexp : R * R := (15 / 100, 376 / 100)%R.
Definition infl_m32 : R * R := (21 / 100, 274 / 100)%R.
Definition infl_m52 : R * R := (23 / 100, 244 / 100)%R.

Definition widen (b : bool) (p infl : R * R) : R * R :=
  if b then (Rmin (fst p) (fst infl), Rmax (snd p) (snd infl)) else p.

Definition special_bounds (dim : nat) (s : corr_spec) : R * R :=
  let p := widen s.(cs_sqexp) default_bounds infl_sqexp in
  let p := widen s.(cs_absexp) p infl_absexp in
  let p := widen s.(cs_m32) p infl_m32 in
  let p := widen s.(cs_m32) p infl_m32 in
  if dim <? 10 then default_bounds
  else
    (let d := INR dim in
     let sd := 1 / sqrt 12 in
     let k := 9 / 5 in
     let interval := 196 / 100 * sqrt (2 * (k + 1) * d) in
     let rmin := sqrt (2 * d - interval) in
     let rmax := sqrt (2 * d + interval) in
     (1 / (sd * rmax * snd p), 1 / (sd * rmin * fst p)))%R.

(** utils/bounds.rs:5-30 [theta_bounds]. *)
Definition theta_bounds (t : tuning) (dim : nat) (s : corr_spec) : list (R * R) :=
  match tuning_bounds t with
  | Some [b] => [if (if Req_EM_T (fst b) (fst default_bounds) then true else false) &&
                    (if Req_EM_T (snd b) (snd default_bounds) then true else false)
                 then special_bounds dim s else b]
  | Some bs => bs
  | None => [special_bounds dim s]
  end.
