(** Model of the cooperative mode (CoEGO): crates/ego/src/solver/coego.rs and the optimization loop of
    crates/ego/src/solver/solver_infill_optim.rs. *)
From Coq Require Import List Arith Bool.
From Verif Require Import F64 Util.
Import ListNotations.

(** Assignment [x[i] = v]. Panics out of range. *)
Definition assign {A} (x : list A) (i : nat) (v : A) : option (list A) :=
  if i <? length x then Some (set_nth i v x) else None.

(** coego.rs:26-28 [set_active_x]; [active[..values.len()]] panics when [active] is shorter than [values]. *)
Fixpoint set_active {A} (x : list A) (active : list nat) (values : list A) : option (list A) :=
  match values, active with
  | [], _ => Some x
  | _ :: _, [] => None
  | v :: values', i :: active' => do x' <- assign x i v; set_active x' active' values'
  end.

(** coego.rs:134-136 [strip], and the selection of [get_active_x]. *)
Definition strip (active : list nat) (dim : nat) : list nat := filter (fun i => i <? dim) active.

(** coego.rs:32-44 [get_active_x]; the items along the axis are the elements of the list. *)
Fixpoint select {A} (x : list A) (idx : list nat) : option (list A) :=
  match idx with
  | [] => Some []
  | i :: idx' => do v <- nth_error x i; do r <- select x idx'; Some (v :: r)
  end.
Definition get_active {A} (x : list A) (active : list nat) : option (list A) :=
  select x (strip active (length x)).

(** [Array2::from_shape_vec((n, size), l).unwrap()]: panics unless the list has [n * size] elements. *)
Definition row_of (size i : nat) (l : list nat) : list nat := firstn size (skipn (i * size) l).
Definition from_shape_vec (n size : nat) (l : list nat) : option (list (list nat)) :=
  if length l =? n * size then Some (map (fun i => row_of size i l) (seq 0 n)) else None.

(** coego.rs:55-84 [get_random_activity]. [idx] is the shuffled list of [0..xdim]; [xdim % g_nb] panics for 0. *)
Definition random_activity (xdim n_coop : nat) (idx : list nat) : option (list (list nat)) :=
  let g_nb := Nat.min n_coop xdim in
  match g_nb with
  | 0 => None
  | S _ =>
      let remainder := xdim mod g_nb in
      if remainder =? 0 then from_shape_vec g_nb (xdim / g_nb) idx
      else
        let g_size := xdim / g_nb + 1 in
        let cut := g_nb * (g_size - 1) in
        do fill <- from_shape_vec g_nb (g_size - 1) (firstn cut idx);
        let last_vals := skipn cut idx in
        if length last_vals =? remainder then
          Some (map (fun i => nth i fill [] ++ [if i <? remainder then nth i last_vals 0 else xdim]) (seq 0 g_nb))
        else None
  end.

(** coego.rs:89-95 [full_activity]. *)
Definition full_activity (xdim : nat) : list (list nat) := [seq 0 xdim].

(** solver_infill_optim.rs:115-121, solver_computations.rs:210-216 and 244-250: the components of the gradient
    handed to the optimizer; [copy_from_slice] panics when their number is not the number of variables. *)
Definition enumerate {A} (l : list A) : list (nat * A) := combine (seq 0 (length l)) l.
Definition coop_gradient {A} (nvars : nat) (g : list A) (active : list nat) : option (list A) :=
  let r := map snd (filter (fun p => existsb (Nat.eqb (fst p)) active) (enumerate g)) in
  if length r =? nvars then Some r else None.

(** solver_infill_optim.rs:45-272 [optimize_infill_criterion] with [COEGO_IMPROVEMENT_CHECK = false]
    (coego.rs:21). [opt i n xbest active] is the outcome of the inner optimizer over the group [active], attempt
    [n] (multistart and reduction), given the context point [xbest] ([infill_data.xbest]). *)
Definition optimizer := nat -> nat -> list f64 -> list nat -> f64 * list f64.
Definition finite_value (v : f64) : bool := negb (fnan v) && negb (feq (fabs v) finf).

(** One group: up to three attempts. The state is (best value, best point, [infill_data.xbest]);
    [current_best_point.0] always is the best point. *)
Fixpoint attempts (opt : optimizer) (i n fuel : nat) (active : list nat) (st : f64 * list f64 * list f64) :
  option (f64 * list f64 * list f64) :=
  match fuel with
  | 0 => Some st
  | S fuel' =>
      let '(best, x, ctx) := st in
      let '(v, u) := opt i n ctx active in
      if finite_value v then do x' <- set_active x active u; Some (v, x', x')
      else attempts opt i (S n) fuel' active st
  end.
Fixpoint groups (opt : optimizer) (i : nat) (actives : list (list nat)) (st : f64 * list f64 * list f64) :
  option (f64 * list f64 * list f64) :=
  match actives with
  | [] => Some st
  | a :: rest => do st' <- attempts opt i 1 3 a st; groups opt (S i) rest st'
  end.
(** [ybest] is the objective value of the current best point; the context starts at it
    (solver_impl.rs:706-714, 758-761). *)
Definition optimize_infill (opt : optimizer) (actives : list (list nat)) (xbest : list f64) (ybest : f64) :
  option (f64 * list f64) :=
  do st <- groups opt 0 actives (ybest, xbest, xbest);
  let '(v, x, _) := st in Some (v, x).

(** solver_infill_optim.rs:75-85 and 161-163: the point at which the criterion and the metamodelled constraints
    are evaluated for optimizer variables [u]. *)
Definition criterion_point (ctx : list f64) (active : list nat) (u : list f64) : option (list f64) :=
  set_active ctx active u.
(** solver_infill_optim.rs:196-203: the constraint functions are handed to the optimizer as they are, so they
    receive the optimizer variables. *)
Definition function_constraint_point (ctx : list f64) (active : list nat) (u : list f64) : option (list f64) :=
  Some u.
