(** Vocabulary of the properties of mixture training, independent of how the code computes. *)
From Coq Require Import ZArith Reals List Arith Lia Bool Permutation.
From Flocq Require Import Core.Core IEEE754.BinarySingleNaN.
From Verif Require Import F64 Moe_Model.
Import ListNotations.
Local Open Scope nat_scope.

(** The rows whose index satisfies p, in order. *)
Fixpoint rows_from {A} (k : nat) (p : nat -> bool) (data : list A) : list A :=
  match data with
  | [] => []
  | r :: data' => (if p k then [r] else []) ++ rows_from (S k) p data'
  end.
Definition rows_at {A} (p : nat -> bool) (data : list A) : list A := rows_from 0 p data.

(** The rows with label c, in order. *)
Fixpoint rows_with {A} (c : nat) (data : list A) (labels : list nat) : list A :=
  match data, labels with
  | r :: data', l :: labels' => (if Nat.eqb l c then [r] else []) ++ rows_with c data' labels'
  | _, _ => []
  end.

Definition numbers (l : list f64) : Prop := Forall (fun v => fnan v = false) l.

(** c is the index of the first of the largest (smallest) values. *)
Definition first_max (l : list f64) (c : nat) : Prop :=
  exists v, nth_error l c = Some v /\
    (forall j w, nth_error l j = Some w -> (ord w <= ord v)%R) /\
    (forall j w, j < c -> nth_error l j = Some w -> (ord w < ord v)%R).
Definition first_min (l : list f64) (c : nat) : Prop :=
  exists v, nth_error l c = Some v /\
    (forall j w, nth_error l j = Some w -> (ord v <= ord w)%R) /\
    (forall j w, j < c -> nth_error l j = Some w -> (ord v < ord w)%R).

(** Number of coefficients of a trend, hence of points needed to determine it. *)
Definition coefficients (m : mean_kind) (dim : nat) : nat :=
  match m with Constant => 1 | Linear => dim + 1 | Quadratic => (dim + 1) * (dim + 2) / 2 end.
Definition allows (s : specs) (m : mean_kind) : bool :=
  match m with Constant => s_const s | Linear => s_lin s | Quadratic => s_quad s end.
Definition allows_corr (s : specs) (c : corr_kind) : bool :=
  match c with SquaredExponential => s_sqexp s | AbsoluteExponential => s_absexp s
             | Matern32 => s_m32 s | Matern52 => s_m52 s end.
(** Trends are tried from the simplest to the richest, correlations in the order of their declaration. *)
Definition mean_rank (m : mean_kind) : nat := match m with Constant => 0 | Linear => 1 | Quadratic => 2 end.
Definition corr_rank (c : corr_kind) : nat :=
  match c with SquaredExponential => 0 | AbsoluteExponential => 1 | Matern32 => 2 | Matern52 => 3 end.
Definition earlier (a b : mean_kind * corr_kind) : Prop :=
  mean_rank (fst a) < mean_rank (fst b) \/
  (mean_rank (fst a) = mean_rank (fst b) /\ corr_rank (snd a) < corr_rank (snd b)).

(** Cluster of each training point according to a mixture, and the training rows (x with y appended) of a cluster. *)
Definition labels_of {G} (resp : G * f64 -> list f64 -> list f64) (g : G * f64) (xt : list (list f64)) : list nat :=
  map (fun x => hard_cluster (resp g x)) xt.
Definition cluster_rows {G} (resp : G * f64 -> list f64 -> list f64) (g : G * f64) (xt : list (list f64)) (yt : list f64)
    (c : nat) : list (list f64) :=
  rows_with c (rows_of xt yt) (labels_of resp g xt).

(** The smoothing factor announced by a recombination mode. *)
Definition factor_of (r : recombination) : f64 := match r with Smooth (Some f) => f | _ => fone end.
