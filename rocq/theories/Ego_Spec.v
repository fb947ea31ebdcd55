(** Specification vocabulary for runs of the optimizer. *)
From Coq Require Import ZArith List Arith Bool.
From Verif Require Import F64 Util FindResult_Spec UpdateData_Spec Ego_Model.
Import ListNotations.

(** The tolerances used by a run: those given by the user, or 1e-4 for every constraint. *)
Definition run_tol (cfg : config) : row :=
  match cfg.(c_cstr_tol) with
  | Some t => t
  | None => repeat (fdiv fone (fofZ 10000)) (cfg.(c_wy) - 1 + cfg.(c_wc))
  end.

(** User functions with constant output sizes, objectives that are numbers, and enough tolerances. *)
Record problem_ok (cfg : config) (fobj fcstr : row -> row) : Prop := {
  po_wx : 1 <= cfg.(c_wx);
  po_wy : 1 <= cfg.(c_wy);
  po_fobj : forall x, length (fobj x) = cfg.(c_wy);
  po_num : forall x, fnan (objective (fobj x)) = false;
  po_fcstr : forall x, length (fcstr x) = cfg.(c_wc);
  po_tol : cfg.(c_wy) + cfg.(c_wc) - 1 <= length (run_tol cfg)
}.

(** A batch of proposals: at least one, of the right dimensions. Its virtual outputs are arbitrary. *)
Record batch_ok (cfg : config) (b : batch) : Prop := {
  bo_ne : b.(b_x) <> [];
  bo_y : length b.(b_y) = length b.(b_x);
  bo_s : length b.(b_scales) = length b.(b_x);
  bo_wx : width cfg.(c_wx) b.(b_x);
  bo_wy : width cfg.(c_wy) b.(b_y);
  bo_ws : Forall (fun s => cfg.(c_wc) <= length s) b.(b_scales)
}.

Definition oracle_ok (cfg : config) (orc : oracle) : Prop :=
  (forall i a, batch_ok cfg (orc.(o_batch) i a)) /\ (forall i, length (orc.(o_local) i) = cfg.(c_wx)).

(** An initial design: non-empty, either inputs only or inputs followed by the outputs; it has a feasible point
    with an objective below +infinity, or no feasible point, or there is no constraint at all. *)
Record design_ok (cfg : config) (fobj fcstr : row -> row) (cols : nat) (doe : mat) : Prop := {
  do_ne : doe <> [];
  do_w : width cols doe;
  do_cols : cols = cfg.(c_wx) \/ cols = cfg.(c_wx) + cfg.(c_wy);
  do_num : cols <> cfg.(c_wx) -> Forall (fun r => fnan (objective (skipn cfg.(c_wx) r)) = false) doe;
  do_trap : cfg.(c_wy) + cfg.(c_wc) = 1 \/
    no_infinite_trap (run_tol cfg)
      (joined (if cols =? cfg.(c_wx) then map fobj doe else map (skipn cfg.(c_wx)) doe)
              (map (fun r => fcstr (firstn cfg.(c_wx) r)) doe))
}.

(** [st] is the state of a run after [k] rounds of the executor. *)
Definition reached (cfg : config) (fobj fcstr : row -> row) (orc : oracle) (cols : nat) (doe : mat)
           (k : nat) (st : state) : Prop :=
  exists st0, init cfg fobj fcstr cols doe = Some st0 /\ exec cfg fobj fcstr orc k st0 = Some st.

(** The rows of results of a state. *)
Definition results (st : state) : mat := joined st.(s_y) st.(s_c).

(** Every proposal is near a point of the history. *)
Definition all_near (xs proposals : mat) : Prop :=
  forall p, In p proposals -> exists r, In r xs /\ near r p.

(** The objective of the best point, infinite when there is none. *)
Definition best_value (st : state) : f64 :=
  match st.(s_best_cost) with
  | Some (v :: _) => v
  | _ => finf
  end.

(** The run is not stopped: it is not finished, has iterations left and has not reached the target. *)
Definition goes_on (st : state) : Prop :=
  st.(s_status) = Running /\ st.(s_iter) < st.(s_max_iters) /\ fle (best_value st) st.(s_target) = false.

(** The last step was a success: the best objective decreased by more than the squared trust-region size. *)
Definition sufficient_decrease (st : state) : Prop :=
  exists yb yp, nth_error st.(s_y) st.(s_best) = Some yb /\ nth_error st.(s_y) st.(s_prev_best) = Some yp /\
    flt (objective yb) (fsub (objective yp) (fmul st.(s_sigma) st.(s_sigma))) = true.

(** The next iteration is a global step: always without trust region; with trust region when its number is a
    multiple of n_local+1, or when the previous step was global and successful. *)
Definition global_next (cfg : config) (st : state) : Prop :=
  cfg.(c_trego) = false \/ st.(s_iter) mod (1 + cfg.(c_n_local)) = 0 \/
  (st.(s_prev_ego) = true /\ sufficient_decrease st).

(** Points [px] added after [xs]: none is near a point of [xs] or a point added before it. *)
Definition spaced (xs px : mat) : Prop :=
  forall i p, nth_error px i = Some p -> forall r, In r (xs ++ firstn i px) -> ~ near r p.

(** A global iteration from [st] to [st'] appends points [px], constraint rows [pc]: accepted rows of the first
    batch that is not entirely near the history, or nothing after three such batches. *)
Definition global_outcome (fcstr : row -> row) (orc : oracle) (st st' : state) (px pc : mat) : Prop :=
  (st'.(s_status) = Converged /\ pc = [] /\
     forall i, i < 3 -> all_near st.(s_x) (b_x (orc.(o_batch) st.(s_iter) i))) \/
  (st'.(s_status) = Running /\ exists i idx cs, i < 3 /\
     (forall j, j < i -> all_near st.(s_x) (b_x (orc.(o_batch) st.(s_iter) j))) /\
     ~ all_near st.(s_x) (b_x (orc.(o_batch) st.(s_iter) i)) /\
     idx <> [] /\ increasing_below (length (b_x (orc.(o_batch) st.(s_iter) i))) idx /\
     scaled_rows fcstr (b_x (orc.(o_batch) st.(s_iter) i)) (b_scales (orc.(o_batch) st.(s_iter) i)) = Some cs /\
     px = rows_at (b_x (orc.(o_batch) st.(s_iter) i)) idx /\ pc = rows_at cs idx /\
     st'.(s_evals) = st.(s_evals) + length px /\ spaced st.(s_x) px).

(** A local iteration appends the local proposal unless it is near the history. *)
Definition local_outcome (fcstr : row -> row) (orc : oracle) (st st' : state) (px pc : mat) : Prop :=
  st'.(s_status) = Running /\ pc = map fcstr px /\ st'.(s_evals) = st.(s_evals) + 1 /\
  ((px = [] /\ exists r, In r st.(s_x) /\ near r (orc.(o_local) st.(s_iter))) \/
   (px = [orc.(o_local) st.(s_iter)] /\ ~ exists r, In r st.(s_x) /\ near r (orc.(o_local) st.(s_iter)))).


(** The run as a function: state after [k] rounds, [None] if the program panicked. *)
Definition run (cfg : config) (fobj fcstr : row -> row) (orc : oracle) (cols : nat) (doe : mat) (k : nat) : option state :=
  do st0 <- init cfg fobj fcstr cols doe; exec cfg fobj fcstr orc k st0.

(** The hypotheses on a run: well-behaved user functions, proposals of the right shape, a usable initial design. *)
Definition run_ok (cfg : config) (fobj fcstr : row -> row) (orc : oracle) (cols : nat) (doe : mat) : Prop :=
  problem_ok cfg fobj fcstr /\ oracle_ok cfg orc /\ design_ok cfg fobj fcstr cols doe.
