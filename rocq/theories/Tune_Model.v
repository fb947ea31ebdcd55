(** Choice of the hyperparameters of a Gaussian process: tuning specification, multistart, parallel reduction, result.
    Models crates/gp/src/parameters.rs, optimization.rs and the part of algorithm.rs:786-960 that chooses theta.
    Numbers are reals; bounds are assumed positive where log10 matters (it is NaN in the code otherwise). *)
From Coq Require Import Reals List Arith Lia Lra.
From Verif Require Import Util Doe_Model.
Import ListNotations.
Local Open Scope R_scope.

Definition bounds_t := list (R * R).

(** parameters.rs:14-33, [ThetaTuning]. *)
Inductive tuning :=
| Fixed (init : list R)
| Full (init : list R) (bounds : bounds_t)
| Partial (init : list R) (bounds : bounds_t) (active : list nat).

(** parameters.rs:35-49, default tuning. *)
Definition default_tuning : tuning := Full [1 / 10] [(1 / 100, 10)].
(** parameters.rs:53-63. *)
Definition init_of (t : tuning) : list R := match t with Fixed i => i | Full i _ => i | Partial i _ _ => i end.
(** parameters.rs:66-77. *)
Definition bounds_of (t : tuning) : option bounds_t :=
  match t with Fixed _ => None | Full _ b => Some b | Partial _ b _ => Some b end.
(** parameters.rs:205-222, the builder [theta_init]. *)
Definition theta_init (init : list R) (t : tuning) : tuning :=
  match t with Full _ b => Full init b | Partial _ b _ => Full init b | Fixed _ => Fixed init end.
(** parameters.rs:227-244, the builder [theta_bounds]. *)
Definition theta_bounds (b : bounds_t) (t : tuning) : tuning :=
  match t with Full i _ => Full i b | Partial i _ _ => Full i b | Fixed f => Fixed f end.

(** parameters.rs:259-264, [max_eval]; lib.rs GP_COBYLA_MIN_EVAL = 25. *)
Definition min_eval : nat := 25.
Definition set_max_eval (m : nat) : nat := Nat.max min_eval m.
(** Number of likelihood evaluations of one optimization of [n] components: [(10 * n).clamp(25, max_eval)] (algorithm.rs:933-934);
    [clamp] panics when its bounds are not ordered. *)
Definition eval_budget (n max_eval : nat) : option nat :=
  if Nat.leb min_eval max_eval then Some (Nat.min (Nat.max (10 * n) min_eval) max_eval) else None.

(** parameters.rs:289-307, [check_ref]: whether the parameters are accepted. *)
Definition check (kpls : option nat) (t : tuning) : bool :=
  match kpls with
  | None => true
  | Some d => negb (Nat.eqb d 0) && negb (Nat.ltb 1 (length (init_of t)) && Nat.ltb (length (init_of t)) d)
  end.
(** algorithm.rs:798-813: number of components of theta; [None] is the error. *)
Definition theta_dim (kpls : option nat) (ncols : nat) : option nat :=
  match kpls with None => Some ncols | Some d => if Nat.ltb ncols d then None else Some d end.

(** algorithm.rs:826-835 and 891-902: one value stands for all components; [None] is the panic. *)
Definition broadcast {A} (dim : nat) (l : list A) : option (list A) :=
  match l with
  | [a] => Some (repeat a dim)
  | _ => if Nat.eqb (length l) dim then Some l else None
  end.
(** algorithm.rs:815-824: the components that are tuned (all for a fixed theta, where it is not used). *)
Definition active_of (dim : nat) (t : tuning) : list nat :=
  match t with Partial _ _ a => a | _ => seq 0 dim end.
(** algorithm.rs:905-910: the bounds whose index is active, in the order of the indexes. *)
Definition active_bounds (active : list nat) (b : bounds_t) : bounds_t :=
  map snd (filter (fun p => existsb (Nat.eqb (fst p)) active) (combine (seq 0 (length b)) b)).
(** [theta0.select(Axis(0), &active)] (algorithm.rs:913): panics on an index out of range. *)
Fixpoint select (active : list nat) (l : list R) : option (list R) :=
  match active with
  | [] => Some []
  | i :: a => do v <- nth_error l i; do r <- select a l; Some (v :: r)
  end.

(** Base 10 logarithm and power. *)
Definition log10 (x : R) : R := ln x / ln 10.
Definition pow10 (v : R) : R := Rpower 10 v.

(** [dst.assign(src)] of ndarray: the source is repeated when it has one element; panics when lengths differ otherwise. *)
Definition assign_row (n : nat) (src : list R) : option (list R) := broadcast n src.
Fixpoint assign_rows (n : nat) (rows : list (list R)) : option (list (list R)) :=
  match rows with
  | [] => Some []
  | r :: rs => do a <- assign_row n r; do b <- assign_rows n rs; Some (a :: b)
  end.
(** [rng.gen_range(a..b)]: panics unless a < b; [u] is the uniform draw in [0, 1). *)
Fixpoint gen_ranges (b : bounds_t) (u : list R) : option (list R) :=
  match b, u with
  | [], _ => Some []
  | (lo, up) :: b', v :: u' => if Rlt_dec lo up then do r <- gen_ranges b' u'; Some (lo + v * (up - lo) :: r) else None
  | _, [] => None
  end.

(** optimization.rs:26-71, [prepare_multistart]. [u] are the uniform draws used when n_start = 1; [rnd] and [sw] are the draws
    and swaps of the maximin Latin hypercube (Doe_Model) used when n_start > 1. *)
Definition prepare_multistart (n_start : nat) (theta0 : list R) (b : bounds_t) (u : list R)
    (rnd : nat -> nat -> list R) (sw : nat -> nat -> list (nat * nat)) : option (list (list R) * bounds_t) :=
  let b := map (fun p => (log10 (fst p), log10 (snd p))) b in
  let row0 := map log10 theta0 in
  match n_start with
  | O => Some ([row0], b)
  | 1%nat => do v <- gen_ranges b u; do r <- assign_row (length theta0) v; Some ([row0; r], b)
  | _ => do x <- maximin_lhs R_arith n_start (length b) false rnd sw;
         do rs <- assign_rows (length theta0) (scale_sample R_arith b x); Some (row0 :: rs, b)
  end.

(** ** Optimization from every start *)

(** Result of [optimize_params] (optimization.rs:122-169): value and parameters; [None] is an infinite value (NaN values and errors of
    the optimizer are turned into it). *)
Definition outcome : Type := option R * list R.
(** [b.0 < a.0]. *)
Definition below (b a : option R) : bool :=
  match b, a with
  | Some x, Some y => if Rlt_dec x y then true else false
  | Some _, None => true
  | None, _ => false
  end.
(** algorithm.rs:940-941. *)
Definition best_of (a b : outcome) : outcome := if below (fst b) (fst a) then b else a.
Definition identity_of (n : nat) : outcome := (None, repeat 1 n).
(** rayon's [reduce]: the results are combined in order along some tree chosen by the scheduler, where the identity may be
    used any number of times. *)
Inductive tree := Id | Leaf (o : outcome) | Join (l r : tree).
Fixpoint leaves (t : tree) : list outcome :=
  match t with Id => [] | Leaf o => [o] | Join l r => leaves l ++ leaves r end.
Fixpoint reduce (n : nat) (t : tree) : outcome :=
  match t with Id => identity_of n | Leaf o => o | Join l r => best_of (reduce n l) (reduce n r) end.

(** [theta[i] = xi] for the pairs (i, xi) in order; panics on an index out of range. *)
Fixpoint set_all (active : list nat) (v : list R) (l : list R) : option (list R) :=
  match active, v with
  | i :: a, x :: v' => if Nat.ltb i (length l) then set_all a v' (firstn i l ++ x :: skipn (S i) l) else None
  | _, _ => Some l
  end.

(** The function minimized (algorithm.rs:873-889): [lik theta] is the reduced likelihood, [None] when it fails.
    NaN parameters are outside the model (reals). *)
Definition objective (lik : list R -> option R) (theta0 : list R) (active : list nat) (x : list R) : option R :=
  do th <- set_all active (map pow10 x) theta0; do l <- lik th; Some (- l).

(** algorithm.rs:815-939: the results of the optimizations from every start, when theta is not fixed. [opt f x0 b] is the external
    optimizer run on [f] from [x0] within [b]. [None] is a panic. A number of active bounds different from the number of active
    components (repeated indexes) is [None] too: the behaviour of the optimizer is then unknown. *)
Definition results (lik : list R -> option R) (opt : (list R -> option R) -> list R -> bounds_t -> outcome)
    (dim n_start : nat) (u : list R) (rnd : nat -> nat -> list R) (sw : nat -> nat -> list (nat * nat))
    (init : list R) (b : bounds_t) (active : list nat) : option (list outcome) :=
  do theta0 <- broadcast dim init;
  do b <- broadcast dim b;
  let ab := active_bounds active b in
  do t0 <- select active theta0;
  do p <- prepare_multistart n_start t0 ab u rnd sw;
  if negb (Nat.eqb (length ab) (length active)) then None else
  Some (map (fun x0 => opt (objective lik theta0 active) x0 (snd p)) (fst p)).

(** algorithm.rs:786-960, the theta used by [fit]. [sched] gives the tree used by rayon. *)
Definition choose_theta (lik : list R -> option R) (opt : (list R -> option R) -> list R -> bounds_t -> outcome) (sched : list outcome -> tree)
    (dim n_start : nat) (u : list R) (rnd : nat -> nat -> list R) (sw : nat -> nat -> list (nat * nat)) (t : tuning) : option (list R) :=
  match t with
  | Fixed init => do _ <- broadcast dim init; Some init
  | Full init b =>
    do rs <- results lik opt dim n_start u rnd sw init b (seq 0 dim);
    Some (map pow10 (snd (reduce dim (sched rs))))
  | Partial init b active =>
    do rs <- results lik opt dim n_start u rnd sw init b active;
    set_all active (map pow10 (snd (reduce (length active) (sched rs)))) init
  end.
