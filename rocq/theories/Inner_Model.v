(** Model of the inner optimization: the facade around the external optimizers and the multistart
    (crates/ego/src/optimizers/optimizer.rs, crates/ego/src/solver/solver_infill_optim.rs). The external optimizers
    (cobyla, slsqp; nlopt is an optional feature, not modelled) are arguments. *)
From Coq Require Import List Arith Bool.
From Verif Require Import F64 Util Coego_Model.
Import ListNotations.
Local Open Scope nat_scope.

(** Outcome of an external optimizer: [Ok((_, x, y))] or [Err((_, x, y))] with the last point and value. *)
Inductive outcome := Done (y : f64) (x : list f64) | Failed (y : f64) (x : list f64).
(** optimizer.rs:171-174 and 217-220: value and point reported by the facade. *)
Definition report (o : outcome) : f64 * list f64 :=
  match o with Done y x => (y, x) | Failed _ x => (finf, x) end.

(** optimizer.rs:128-132: [cstr_tol] has no setter call in solver_infill_optim.rs:222-227, so it is a vector of
    zeros. *)
Definition inner_tols (n_cons : nat) : list f64 := repeat fzero n_cons.
(** optimizer.rs:143-155: a constraint as given to cobyla, which wants it nonnegative. [c] is the (scaled) value
    of the constraint. *)
Definition cobyla_constraint (tol scale c : f64) : f64 := fadd (fneg c) (fdiv tol scale).
(** optimizer.rs:190-202: a constraint as given to slsqp, which wants it nonpositive. *)
Definition slsqp_constraint (tol scale c : f64) : f64 := fsub c (fdiv tol scale).

(** solver_infill_optim.rs:224 and [INFILL_MAX_EVAL_DEFAULT] (optimizers/optimizer.rs:18): the evaluation budget of
    a run; [x_start.len()] counts the elements of the matrix of starts. *)
Definition max_eval (n_start dim : nat) : nat := Nat.min (10 * (n_start * dim)) 2000.

(** solver_infill_optim.rs:229-232: rayon's [reduce] over the runs. The runs are cut in parts, in order; a part is
    folded from the identity and the results of adjacent parts are combined (rayon [ReduceConsumer]). Which cut
    is used depends on the scheduling. *)
Definition keep (a b : f64 * list f64) : f64 * list f64 := if flt (fst b) (fst a) then b else a.
Definition identity (dim : nat) : f64 * list f64 := (finf, repeat fone dim).
Inductive cut := Part (rs : list (f64 * list f64)) | Join (l r : cut).
Fixpoint runs_of (c : cut) : list (f64 * list f64) :=
  match c with Part rs => rs | Join l r => runs_of l ++ runs_of r end.
Fixpoint reduce (dim : nat) (c : cut) : f64 * list f64 :=
  match c with
  | Part rs => fold_left keep rs (identity dim)
  | Join l r => keep (reduce dim l) (reduce dim r)
  end.

(** solver_infill_optim.rs:206-232, one multistart over the group [active]: [starts] are the rows of [x_start],
    [solve] is the external optimizer, called with the bounds of the active variables, the budget and a start;
    [sched] gives the cut used by rayon. Panics are the ones of [get_active_x] (an index out of the bounds). *)
Definition multistart (solve : list (f64 * f64) -> nat -> list f64 -> outcome)
    (sched : list (f64 * list f64) -> cut) (limits : list (f64 * f64)) (active : list nat)
    (starts : list (list f64)) : option (f64 * list f64) :=
  do bounds <- get_active limits active;
  let budget := max_eval (length starts) (length bounds) in
  Some (reduce (length bounds) (sched (map (fun s => report (solve bounds budget s)) starts))).

(** solver_infill_optim.rs:206-232: the optimizer of [Coego_Model.optimize_infill]: a multistart, with its own starts and its own scheduling
    for each group and attempt. *)
Definition inner_optimizer (solve : list f64 -> list nat -> list (f64 * f64) -> nat -> list f64 -> outcome)
    (starts : nat -> nat -> list nat -> list (list f64))
    (sched : nat -> nat -> list (f64 * list f64) -> cut) (limits : list (f64 * f64)) : optimizer :=
  fun i n ctx a =>
    match multistart (solve ctx a) (sched i n) limits a (starts i n a) with Some r => r | None => (fNaN, []) end.
