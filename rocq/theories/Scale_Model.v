(** Scaling factors of the constraint functions, and the proposals of a global step that use them. *)
From Coq Require Import List Arith Bool.
From Verif Require Import F64 Util Ego_Model.
Import ListNotations.

(** ndarray-stats [max] (external dependency) on doubles: error ([None]) on an empty array or when a NaN is met. *)
Fixpoint max_loop (acc : f64) (l : row) : option f64 :=
  match l with
  | [] => Some acc
  | v :: l' => do c <- fcmp v acc; max_loop (match c with Gt => v | _ => acc end) l'
  end.
Definition fmaximum (l : row) : option f64 := match l with [] => None | a :: _ => max_loop a l end.

(** solver_computations.rs:184-188: the largest absolute value of constraint function [j] at the points sampled;
    [max().unwrap()] panics on a NaN. *)
Definition fcstr_scale (values : mat) (j : nat) : option f64 :=
  fmaximum (map (fun r => fabs (nth j r fNaN)) values).

(** solver_computations.rs:142-144 and 181-191: the scaling factors of [wc] constraint functions at the points sampled;
    no factor without constraint function. *)
Definition fcstr_scales (wc : nat) (fcstr : row -> row) (points : mat) : option row :=
  mapM (fcstr_scale (map fcstr points)) (seq 0 wc).

(** What a global step proposes: for each point, its virtual outputs (solver_impl.rs:754-757) and the points sampled to
    compute the factors (solver_impl.rs:689-702). *)
Record proposal := mkProposal { p_x : row; p_y : row; p_points : mat }.

(** solver_impl.rs:689-776. Where the factors cannot be computed there is no batch: as the model of the step takes a batch, the factors are then
    left empty, which makes the step panic too. *)
Definition batch_of (wc : nat) (fcstr : row -> row) (ps : list proposal) : batch :=
  mkBatch (map p_x ps) (map p_y ps)
          (match mapM (fun p => fcstr_scales wc fcstr (p_points p)) ps with Some s => s | None => [] end).

(** The run whose global steps propose [ps iteration attempt] and whose local steps propose [loc iteration]. *)
Definition oracle_of (wc : nat) (fcstr : row -> row) (ps : nat -> nat -> list proposal) (loc : nat -> row) : oracle :=
  mkOracle (fun i a => batch_of wc fcstr (ps i a)) loc.
