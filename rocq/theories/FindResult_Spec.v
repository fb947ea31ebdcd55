(** Specification of "best result", independent of the code of [find_result.rs].

    A result is an objective value and the list of its constraint values
    (metamodelled constraints then function constraints). *)
From Coq Require Import List Arith Bool.
From Verif Require Import F64.
Import ListNotations.

(** A constraint value [c] violates its tolerance [t] when [c > t]. *)
Definition violates (c t : f64) : Prop := flt t c = true.

(** No constraint is above its tolerance. *)
Definition feasible (tol cs : list f64) : Prop :=
  forall i c t, nth_error cs i = Some c -> nth_error tol i = Some t -> ~ violates c t.

(** Sum (in double precision, from left to right) of the excesses [|c - t|] of the violated constraints. *)
Definition excesses (tol cs : list f64) : list f64 :=
  flat_map (fun ct : f64 * f64 => let (c, t) := ct in if flt t c then [fabs (fsub c t)] else [])
           (combine cs tol).
Definition violation (tol cs : list f64) : f64 := fold_left fadd (excesses tol cs) fzero.

Definition objective (r : list f64) : f64 := nth 0 r fNaN.
Definition constraints (r : list f64) : list f64 := tl r.

(** [better tol r1 r2]: result [r1] is strictly better than [r2]. *)
Definition better (tol r1 r2 : list f64) : Prop :=
  (feasible tol (constraints r1) /\ feasible tol (constraints r2) /\ flt (objective r1) (objective r2) = true)
  \/ (feasible tol (constraints r1) /\ ~ feasible tol (constraints r2))
  \/ (~ feasible tol (constraints r1) /\ ~ feasible tol (constraints r2) /\
      flt (violation tol (constraints r1)) (violation tol (constraints r2)) = true).

(** Row [i] of [rows] is the best one: no row is better, and earlier rows are worse. *)
Definition is_best_row (tol : list f64) (rows : list (list f64)) (i : nat) : Prop :=
  exists r, nth_error rows i = Some r /\
    (forall j s, nth_error rows j = Some s -> ~ better tol s r) /\
    (forall j s, j < i -> nth_error rows j = Some s -> better tol r s).

(** Rows of a history: all of width [w], with objectives that are numbers. *)
Definition row_ok (w : nat) (r : list f64) : Prop :=
  length r = w /\ fnan (objective r) = false.

(** The rows [y_i ++ c_i] of a history held as two matrices. *)
Definition joined (y c : list (list f64)) : list (list f64) :=
  map (fun yc : list f64 * list f64 => fst yc ++ snd yc) (combine y c).

(** Either some feasible row has an objective below +infinity, or no row is feasible. *)
Definition no_infinite_trap (tol : list f64) (rows : list (list f64)) : Prop :=
  (exists r, In r rows /\ feasible tol (constraints r) /\ flt (objective r) finf = true) \/
  (forall r, In r rows -> ~ feasible tol (constraints r)).

(** A history: objective/constraint rows of width [ycols >= 1] and function-constraint rows of width [ccols]. *)
Record history_ok (ycols ccols : nat) (tol : list f64) (y c : list (list f64)) : Prop := {
  ho_ycols : (1 <= ycols);
  ho_tol : (ycols + ccols - 1 <= length tol);
  ho_len : length y = length c;
  ho_y : Forall (fun r => length r = ycols) y;
  ho_c : Forall (fun r => length r = ccols) c;
  ho_obj : Forall (fun r => fnan (objective r) = false) y
}.

