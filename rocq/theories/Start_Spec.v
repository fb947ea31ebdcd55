(** Vocabulary for starting points: distances with every variable divided by its range, midpoints, boxes. *)
From Coq Require Import Reals List.
Import ListNotations.
Local Open Scope R_scope.

(** The distance in the domain scaled to the unit cube. *)
Fixpoint square_distance (box : list (R * R)) (a b : list R) : R :=
  match box, a, b with
  | (l, u) :: box', v :: a', w :: b' => ((v - w) / (u - l)) * ((v - w) / (u - l)) + square_distance box' a' b'
  | _, _, _ => 0
  end.
Definition distance (box : list (R * R)) (a b : list R) : R := sqrt (square_distance box a b).

(** [p] is the midpoint of [a] and [b]. *)
Definition is_middle (a b p : list R) : Prop :=
  length p = length a /\ forall c u v, nth_error a c = Some u -> nth_error b c = Some v -> nth_error p c = Some ((u + v) / 2).

(** A point of the box. *)
Definition inside (box : list (R * R)) (p : list R) : Prop := Forall2 (fun l v => fst l <= v <= snd l) box p.

(** The coordinates of a point, or the intervals of a box, in the active variables. *)
Definition restricted {A} (p : list A) (active : list nat) (q : list A) : Prop :=
  Forall2 (fun i v => nth_error p i = Some v) (filter (fun i => Nat.ltb i (length p)) active) q.
