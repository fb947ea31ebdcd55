(** Model of the optimization loop: [init], [ego_step], [trego_step], the trust-region schedule, the state
    update and argmin's executor loop.

    Oracles: surrogate training and infill optimization are replaced by an arbitrary [oracle] giving, for each
    iteration and attempt, the proposed points, their virtual (predicted) outputs and the scaling factors of the
    constraint functions. The user functions [fobj] and [fcstr] are arbitrary functions of one point; for discrete
    variables [fobj] stands for the user function composed with the cast to the discrete space
    (solver_computations.rs:477-493).
    Not modelled: random generator state, clusterings, hyperparameters, infill values, [param]/[cost] of the
    current iteration, timing, logs, observers, the CoEGO activity. *)
From Coq Require Import ZArith List Arith Bool.
From Verif Require Import F64 Util FindResult_Model UpdateData_Model.
Import ListNotations.

Notation row := (list f64).
Notation mat := (list (list f64)).

(** argmin [TerminationStatus]. *)
Inductive status := Running | MaxItersReached | TargetReached | Converged.

(** crates/ego/src/solver/egor_state.rs:25-105 [EgorState] (the fields that matter to the history). *)
Record state := mkState {
  s_x : mat (* history: input points (egor_state.rs:86 data.0) *);
  s_y : mat (* objective and metamodelled constraints (data.1) *);
  s_c : mat (* function constraints (data.2) *);
  s_best : nat (* best_index (egor_state.rs:90) *);
  s_prev_best : nat (* prev_best_index (egor_state.rs:88) *);
  s_feas : bool (* feasibility (egor_state.rs:35) *);
  s_best_param : option row (* best_param (egor_state.rs:31) *);
  s_best_cost : option row (* best_cost (egor_state.rs:45) *);
  s_iter : nat (* iter (egor_state.rs:52) *);
  s_last_best_iter : nat (* last_best_iter (egor_state.rs:54) *);
  s_max_iters : nat (* max_iters (egor_state.rs:56) *);
  s_doe_size : nat (* doe_size (egor_state.rs:65) *);
  s_added : nat (* added (egor_state.rs:67) *);
  s_prev_added : nat (* prev_added (egor_state.rs:69) *);
  s_retries : nat (* no_point_added_retries, an i32 that is only decremented from 3 to 0 (egor_state.rs:71) *);
  s_tol : row (* cstr_tol (egor_state.rs:76) *);
  s_target : f64 (* target_cost (egor_state.rs:49) *);
  s_sigma : f64 (* sigma (egor_state.rs:94) *);
  s_prev_ego : bool (* prev_step_ego (egor_state.rs:96) *);
  s_status : status (* termination_status (egor_state.rs:62) *);
  s_evals : nat (* ghost: number of points at which the objective has been evaluated so far *)
}.

Definition set_x (v : mat) (s : state) : state :=
  mkState v (s.(s_y)) (s.(s_c)) (s.(s_best)) (s.(s_prev_best)) (s.(s_feas)) (s.(s_best_param)) (s.(s_best_cost)) (s.(s_iter)) (s.(s_last_best_iter)) (s.(s_max_iters)) (s.(s_doe_size)) (s.(s_added)) (s.(s_prev_added)) (s.(s_retries)) (s.(s_tol)) (s.(s_target)) (s.(s_sigma)) (s.(s_prev_ego)) (s.(s_status)) (s.(s_evals)).
Definition set_y (v : mat) (s : state) : state :=
  mkState (s.(s_x)) v (s.(s_c)) (s.(s_best)) (s.(s_prev_best)) (s.(s_feas)) (s.(s_best_param)) (s.(s_best_cost)) (s.(s_iter)) (s.(s_last_best_iter)) (s.(s_max_iters)) (s.(s_doe_size)) (s.(s_added)) (s.(s_prev_added)) (s.(s_retries)) (s.(s_tol)) (s.(s_target)) (s.(s_sigma)) (s.(s_prev_ego)) (s.(s_status)) (s.(s_evals)).
Definition set_c (v : mat) (s : state) : state :=
  mkState (s.(s_x)) (s.(s_y)) v (s.(s_best)) (s.(s_prev_best)) (s.(s_feas)) (s.(s_best_param)) (s.(s_best_cost)) (s.(s_iter)) (s.(s_last_best_iter)) (s.(s_max_iters)) (s.(s_doe_size)) (s.(s_added)) (s.(s_prev_added)) (s.(s_retries)) (s.(s_tol)) (s.(s_target)) (s.(s_sigma)) (s.(s_prev_ego)) (s.(s_status)) (s.(s_evals)).
Definition set_best (v : nat) (s : state) : state :=
  mkState (s.(s_x)) (s.(s_y)) (s.(s_c)) v (s.(s_prev_best)) (s.(s_feas)) (s.(s_best_param)) (s.(s_best_cost)) (s.(s_iter)) (s.(s_last_best_iter)) (s.(s_max_iters)) (s.(s_doe_size)) (s.(s_added)) (s.(s_prev_added)) (s.(s_retries)) (s.(s_tol)) (s.(s_target)) (s.(s_sigma)) (s.(s_prev_ego)) (s.(s_status)) (s.(s_evals)).
Definition set_prev_best (v : nat) (s : state) : state :=
  mkState (s.(s_x)) (s.(s_y)) (s.(s_c)) (s.(s_best)) v (s.(s_feas)) (s.(s_best_param)) (s.(s_best_cost)) (s.(s_iter)) (s.(s_last_best_iter)) (s.(s_max_iters)) (s.(s_doe_size)) (s.(s_added)) (s.(s_prev_added)) (s.(s_retries)) (s.(s_tol)) (s.(s_target)) (s.(s_sigma)) (s.(s_prev_ego)) (s.(s_status)) (s.(s_evals)).
Definition set_feas (v : bool) (s : state) : state :=
  mkState (s.(s_x)) (s.(s_y)) (s.(s_c)) (s.(s_best)) (s.(s_prev_best)) v (s.(s_best_param)) (s.(s_best_cost)) (s.(s_iter)) (s.(s_last_best_iter)) (s.(s_max_iters)) (s.(s_doe_size)) (s.(s_added)) (s.(s_prev_added)) (s.(s_retries)) (s.(s_tol)) (s.(s_target)) (s.(s_sigma)) (s.(s_prev_ego)) (s.(s_status)) (s.(s_evals)).
Definition set_best_param (v : option row) (s : state) : state :=
  mkState (s.(s_x)) (s.(s_y)) (s.(s_c)) (s.(s_best)) (s.(s_prev_best)) (s.(s_feas)) v (s.(s_best_cost)) (s.(s_iter)) (s.(s_last_best_iter)) (s.(s_max_iters)) (s.(s_doe_size)) (s.(s_added)) (s.(s_prev_added)) (s.(s_retries)) (s.(s_tol)) (s.(s_target)) (s.(s_sigma)) (s.(s_prev_ego)) (s.(s_status)) (s.(s_evals)).
Definition set_best_cost (v : option row) (s : state) : state :=
  mkState (s.(s_x)) (s.(s_y)) (s.(s_c)) (s.(s_best)) (s.(s_prev_best)) (s.(s_feas)) (s.(s_best_param)) v (s.(s_iter)) (s.(s_last_best_iter)) (s.(s_max_iters)) (s.(s_doe_size)) (s.(s_added)) (s.(s_prev_added)) (s.(s_retries)) (s.(s_tol)) (s.(s_target)) (s.(s_sigma)) (s.(s_prev_ego)) (s.(s_status)) (s.(s_evals)).
Definition set_iter (v : nat) (s : state) : state :=
  mkState (s.(s_x)) (s.(s_y)) (s.(s_c)) (s.(s_best)) (s.(s_prev_best)) (s.(s_feas)) (s.(s_best_param)) (s.(s_best_cost)) v (s.(s_last_best_iter)) (s.(s_max_iters)) (s.(s_doe_size)) (s.(s_added)) (s.(s_prev_added)) (s.(s_retries)) (s.(s_tol)) (s.(s_target)) (s.(s_sigma)) (s.(s_prev_ego)) (s.(s_status)) (s.(s_evals)).
Definition set_last_best_iter (v : nat) (s : state) : state :=
  mkState (s.(s_x)) (s.(s_y)) (s.(s_c)) (s.(s_best)) (s.(s_prev_best)) (s.(s_feas)) (s.(s_best_param)) (s.(s_best_cost)) (s.(s_iter)) v (s.(s_max_iters)) (s.(s_doe_size)) (s.(s_added)) (s.(s_prev_added)) (s.(s_retries)) (s.(s_tol)) (s.(s_target)) (s.(s_sigma)) (s.(s_prev_ego)) (s.(s_status)) (s.(s_evals)).
Definition set_max_iters (v : nat) (s : state) : state :=
  mkState (s.(s_x)) (s.(s_y)) (s.(s_c)) (s.(s_best)) (s.(s_prev_best)) (s.(s_feas)) (s.(s_best_param)) (s.(s_best_cost)) (s.(s_iter)) (s.(s_last_best_iter)) v (s.(s_doe_size)) (s.(s_added)) (s.(s_prev_added)) (s.(s_retries)) (s.(s_tol)) (s.(s_target)) (s.(s_sigma)) (s.(s_prev_ego)) (s.(s_status)) (s.(s_evals)).
Definition set_added (v : nat) (s : state) : state :=
  mkState (s.(s_x)) (s.(s_y)) (s.(s_c)) (s.(s_best)) (s.(s_prev_best)) (s.(s_feas)) (s.(s_best_param)) (s.(s_best_cost)) (s.(s_iter)) (s.(s_last_best_iter)) (s.(s_max_iters)) (s.(s_doe_size)) v (s.(s_prev_added)) (s.(s_retries)) (s.(s_tol)) (s.(s_target)) (s.(s_sigma)) (s.(s_prev_ego)) (s.(s_status)) (s.(s_evals)).
Definition set_prev_added (v : nat) (s : state) : state :=
  mkState (s.(s_x)) (s.(s_y)) (s.(s_c)) (s.(s_best)) (s.(s_prev_best)) (s.(s_feas)) (s.(s_best_param)) (s.(s_best_cost)) (s.(s_iter)) (s.(s_last_best_iter)) (s.(s_max_iters)) (s.(s_doe_size)) (s.(s_added)) v (s.(s_retries)) (s.(s_tol)) (s.(s_target)) (s.(s_sigma)) (s.(s_prev_ego)) (s.(s_status)) (s.(s_evals)).
Definition set_retries (v : nat) (s : state) : state :=
  mkState (s.(s_x)) (s.(s_y)) (s.(s_c)) (s.(s_best)) (s.(s_prev_best)) (s.(s_feas)) (s.(s_best_param)) (s.(s_best_cost)) (s.(s_iter)) (s.(s_last_best_iter)) (s.(s_max_iters)) (s.(s_doe_size)) (s.(s_added)) (s.(s_prev_added)) v (s.(s_tol)) (s.(s_target)) (s.(s_sigma)) (s.(s_prev_ego)) (s.(s_status)) (s.(s_evals)).
Definition set_sigma (v : f64) (s : state) : state :=
  mkState (s.(s_x)) (s.(s_y)) (s.(s_c)) (s.(s_best)) (s.(s_prev_best)) (s.(s_feas)) (s.(s_best_param)) (s.(s_best_cost)) (s.(s_iter)) (s.(s_last_best_iter)) (s.(s_max_iters)) (s.(s_doe_size)) (s.(s_added)) (s.(s_prev_added)) (s.(s_retries)) (s.(s_tol)) (s.(s_target)) v (s.(s_prev_ego)) (s.(s_status)) (s.(s_evals)).
Definition set_prev_ego (v : bool) (s : state) : state :=
  mkState (s.(s_x)) (s.(s_y)) (s.(s_c)) (s.(s_best)) (s.(s_prev_best)) (s.(s_feas)) (s.(s_best_param)) (s.(s_best_cost)) (s.(s_iter)) (s.(s_last_best_iter)) (s.(s_max_iters)) (s.(s_doe_size)) (s.(s_added)) (s.(s_prev_added)) (s.(s_retries)) (s.(s_tol)) (s.(s_target)) (s.(s_sigma)) v (s.(s_status)) (s.(s_evals)).
Definition set_status (v : status) (s : state) : state :=
  mkState (s.(s_x)) (s.(s_y)) (s.(s_c)) (s.(s_best)) (s.(s_prev_best)) (s.(s_feas)) (s.(s_best_param)) (s.(s_best_cost)) (s.(s_iter)) (s.(s_last_best_iter)) (s.(s_max_iters)) (s.(s_doe_size)) (s.(s_added)) (s.(s_prev_added)) (s.(s_retries)) (s.(s_tol)) (s.(s_target)) (s.(s_sigma)) (s.(s_prev_ego)) v (s.(s_evals)).
Definition set_evals (v : nat) (s : state) : state :=
  mkState (s.(s_x)) (s.(s_y)) (s.(s_c)) (s.(s_best)) (s.(s_prev_best)) (s.(s_feas)) (s.(s_best_param)) (s.(s_best_cost)) (s.(s_iter)) (s.(s_last_best_iter)) (s.(s_max_iters)) (s.(s_doe_size)) (s.(s_added)) (s.(s_prev_added)) (s.(s_retries)) (s.(s_tol)) (s.(s_target)) (s.(s_sigma)) (s.(s_prev_ego)) (s.(s_status)) v.

(** The configuration: column counts, trust-region parameters, stopping parameters, tolerances
    (egor_config.rs:176-230); [c_use_pof] is the environment switch EGOR_USE_MAX_PROBA_OF_FEASIBILITY. *)
Record config := mkConfig {
  c_wx : nat; c_wy : nat; c_wc : nat;
  c_trego : bool; c_gamma : f64; c_beta : f64; c_n_local : nat;
  c_max_iters : nat; c_target : f64; c_cstr_tol : option row; c_use_pof : bool
}.

(** One attempt of [select_next_points] (solver_impl.rs:562-807): proposals, virtual outputs, and for each
    proposal the scaling factors of the constraint functions. *)
Record batch := mkBatch { b_x : mat; b_y : mat; b_scales : mat }.

(** [o_batch i a]: proposals of attempt [a] of iteration [i]; [o_local i]: the local step's proposal. *)
Record oracle := mkOracle { o_batch : nat -> nat -> batch; o_local : nat -> row }.

(** solver_impl.rs:716-738 and 759-764: the constraint functions used for the proposals are divided by their
    scaling factor; indexing the factors panics when they are too few. *)
Fixpoint scaled (cs scale : row) : option row :=
  match cs, scale with
  | [], _ => Some []
  | c :: cs', s :: scale' => do r <- scaled cs' scale'; Some (fdiv c s :: r)
  | _ :: _, [] => None
  end.

(** solver_impl.rs:754-776: the rows [c_dat] of a batch. *)
Fixpoint scaled_rows (fcstr : row -> row) (xs scales : mat) : option mat :=
  match xs, scales with
  | [], [] => Some []
  | x :: xs', s :: scales' => do r <- scaled (fcstr x) s; do rs <- scaled_rows fcstr xs' scales'; Some (r :: rs)
  | _, _ => None
  end.

(** solver_impl.rs:522-528: the last [k] rows of [y] are overwritten by the evaluations. *)
Definition overwrite_last (k : nat) (new y : mat) : mat := firstn (length y - k) y ++ new.

(** solver_impl.rs:398-555 [ego_step]. The loop retries with new proposals while all are rejected;
    [retries] is [no_point_added_retries], decremented at each empty attempt; reaching 0 returns
    [NoMorePointToAddError], which [ego_iteration] (egor_solver.rs:436-451) turns into a converged state.
    [x_dat.row(0)] (solver_impl.rs:479) panics on an empty batch. *)
Fixpoint ego_loop (cfg : config) (fobj fcstr : row -> row) (o : nat -> batch) (st : state)
         (retries attempt : nat) : option state :=
  match retries with
  | 0 => None
  | S retries' =>
      let b := o attempt in
      do c_dat <- scaled_rows fcstr b.(b_x) b.(b_scales);
      do r <- update_data cfg.(c_wx) cfg.(c_wy) cfg.(c_wc) st.(s_x) st.(s_y) st.(s_c) b.(b_x) b.(b_y) c_dat;
      match b.(b_x) with
      | [] => None
      | _ :: _ =>
          let '(x', y', c', added) := r in
          if length added =? 0 then
            match retries' with
            | 0 => Some (set_status Converged (set_retries 0 st))
            | S _ => ego_loop cfg fobj fcstr o st retries' (S attempt)
            end
          else
            let k := length added in
            let x_to_eval := skipn (length x' - k) x' in
            let y_actual := map fobj x_to_eval in
            let y'' := overwrite_last k y_actual y' in
            do best <- find_best_result_index_from st.(s_best) (length y'' - k) y'' c' st.(s_tol);
            do yb <- nth_error y'' best;
            do cb <- nth_error c' best;
            do feas <- (if st.(s_feas) then Some true else is_feasible yb cb st.(s_tol));
            Some (set_prev_added st.(s_added) (set_added (st.(s_added) + k) (set_retries 3
                  (set_prev_best st.(s_best) (set_best best (set_x x' (set_y y'' (set_c c'
                  (set_feas feas (set_evals (st.(s_evals) + k) st))))))))))
      end
  end.

(** egor_solver.rs:436-451 [ego_iteration]. *)
Definition ego_iteration (cfg : config) (fobj fcstr : row -> row) (orc : oracle) (st : state) : option state :=
  ego_loop cfg fobj fcstr (orc.(o_batch) st.(s_iter)) st st.(s_retries) 0.

(** trego.rs:84-200 [trego_step]: one local proposal, evaluated before the duplicate test. *)
Definition trego_step (cfg : config) (fobj fcstr : row -> row) (orc : oracle) (st : state) : option state :=
  let x_new := orc.(o_local) st.(s_iter) in
  do r <- update_data cfg.(c_wx) cfg.(c_wy) cfg.(c_wc) st.(s_x) st.(s_y) st.(s_c)
            [x_new] [fobj x_new] [fcstr x_new];
  let '(x', y', c', added) := r in
  do best <- find_best_result_index_from st.(s_best) (length y' - 1) y' c' st.(s_tol);
  do yb <- nth_error y' best;
  do cb <- nth_error c' best;
  do feas <- (if st.(s_feas) then Some true else is_feasible yb cb st.(s_tol));
  Some (set_prev_added st.(s_added) (set_added (st.(s_added) + length added)
        (set_prev_best st.(s_best) (set_best best (set_x x' (set_y y' (set_c c'
        (set_feas feas (set_evals (st.(s_evals) + 1) st))))))))).

(** egor_solver.rs:478-507: trust-region size update, generic in the number type. *)
Definition next_sigma {T : Type} (mul : T -> T -> T) (gamma beta : T) (iter : nat)
           (prev_ego success : bool) (sigma : T) : T :=
  if negb prev_ego && negb (iter =? 0) then
    (if success then mul sigma gamma else mul sigma beta)
  else if negb (iter =? 0) then
    (if success then mul sigma gamma else sigma)
  else sigma.

(** egor_solver.rs:509-512: is the iteration a global step? *)
Definition is_global_phase (iter n_local : nat) (prev_ego success : bool) : bool :=
  (success && prev_ego) || (iter mod (1 + n_local) =? 0).

(** egor_solver.rs:461-468: success of the last step: the objective decreased by more than sigma^2. *)
Definition last_success (st : state) : option bool :=
  do yb <- nth_error st.(s_y) st.(s_best);
  do yp <- nth_error st.(s_y) st.(s_prev_best);
  do b <- nth_error yb 0;
  do p <- nth_error yp 0;
  Some (flt b (fsub p (fmul st.(s_sigma) st.(s_sigma)))).

(** egor_solver.rs:454-529 [trego_iteration]. *)
Definition trego_iteration (cfg : config) (fobj fcstr : row -> row) (orc : oracle) (st : state) : option state :=
  do success <- last_success st;
  let sigma' := next_sigma fmul cfg.(c_gamma) cfg.(c_beta) st.(s_iter) st.(s_prev_ego) success st.(s_sigma) in
  let st1 := set_sigma sigma' st in
  if is_global_phase st.(s_iter) cfg.(c_n_local) st.(s_prev_ego) success then
    do st2 <- ego_iteration cfg fobj fcstr orc st1; Some (set_prev_ego true st2)
  else
    do st2 <- trego_step cfg fobj fcstr orc st1; Some (set_prev_ego false st2).

(** egor_solver.rs:351-418 [next_iter]. *)
Definition next_iter (cfg : config) (fobj fcstr : row -> row) (orc : oracle) (st : state) : option state :=
  if cfg.(c_trego) then trego_iteration cfg fobj fcstr orc st
  else ego_iteration cfg fobj fcstr orc st.

(** egor_state.rs:447-471 [update] ([best_index] is always set after [init]). *)
Definition update (st : state) : option state :=
  do xb <- nth_error st.(s_x) st.(s_best);
  do yb <- nth_error st.(s_y) st.(s_best);
  let lbi :=
    if st.(s_doe_size) <? st.(s_best) then
      (if st.(s_best) =? st.(s_prev_best) then st.(s_last_best_iter) else st.(s_iter) + 1)
    else st.(s_last_best_iter) in
  Some (set_best_param (Some xb) (set_best_cost (Some yb) (set_last_best_iter lbi st))).

(** egor_solver.rs:143 [DEFAULT_CSTR_TOL] = 1e-4, the double nearest to 1/10000. *)
Definition default_cstr_tol : f64 := fdiv fone (fofZ 10000).

(** egor_state.rs:410: the initial trust-region size 1e-1. *)
Definition sigma_init : f64 := fdiv fone (fofZ 10).

(** egor_solver.rs:181-349 [init] followed by the executor's first [update]. [doe] is the initial design, read
    from file, given by the user or sampled; [doe_cols] its column count: only inputs when it is the input
    dimension, otherwise inputs then outputs. *)
Definition init (cfg : config) (fobj fcstr : row -> row) (doe_cols : nat) (doe : mat) : option state :=
  let xs := if doe_cols =? cfg.(c_wx) then doe else map (firstn cfg.(c_wx)) doe in
  let ys := if doe_cols =? cfg.(c_wx) then map fobj doe else map (skipn cfg.(c_wx)) doe in
  let ycols := if doe_cols =? cfg.(c_wx) then cfg.(c_wy) else doe_cols - cfg.(c_wx) in
  let cs := map fcstr xs in
  let tol := match cfg.(c_cstr_tol) with
             | Some t => t
             | None => repeat default_cstr_tol (cfg.(c_wy) - 1 + cfg.(c_wc))
             end in
  do best <- find_best_result_index ycols cfg.(c_wc) ys cs tol;
  do yb <- nth_error ys best;
  do cb <- nth_error cs best;
  do feas <- (if cfg.(c_use_pof) then is_feasible yb cb tol else Some true);
  let evals := if doe_cols =? cfg.(c_wx) then length doe else 0 in
  update (mkState xs ys cs best best feas None None 0 0 cfg.(c_max_iters) (length doe) (length doe) 0 3
            tol cfg.(c_target) sigma_init false Running evals).

(** egor_state.rs:585-590 [get_best_cost]. *)
Definition get_best_cost (st : state) : f64 :=
  match st.(s_best_cost) with
  | Some c => nth 0 c finf
  | None => finf
  end.

(** argmin [terminate_internal] (external dependency); [terminate] of the solver never stops (egor_solver.rs:420-428). *)
Definition terminate_internal (st : state) : status :=
  if st.(s_max_iters) <=? st.(s_iter) then MaxItersReached
  else if fle (get_best_cost st) st.(s_target) then TargetReached
  else Running.

Definition terminated (st : state) : bool :=
  match st.(s_status) with Running => false | _ => true end.

(** One round of argmin's executor loop (external dependency): stopping tests, then
    [next_iter], [update], [increment_iter]. A terminated state is left unchanged. *)
Definition exec_step (cfg : config) (fobj fcstr : row -> row) (orc : oracle) (st : state) : option state :=
  if terminated st then Some st
  else match terminate_internal st with
       | Running =>
           do st1 <- next_iter cfg fobj fcstr orc st;
           do st2 <- update st1;
           Some (set_iter (S st2.(s_iter)) st2)
       | r => Some (set_status r st)
       end.

(** [k] rounds of the executor loop. *)
Fixpoint exec (cfg : config) (fobj fcstr : row -> row) (orc : oracle) (k : nat) (st : state) : option state :=
  match k with
  | 0 => Some st
  | S k' => do st1 <- exec_step cfg fobj fcstr orc st; exec cfg fobj fcstr orc k' st1
  end.
