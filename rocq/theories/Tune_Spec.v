(** Vocabulary for the properties of hyperparameter tuning, independent of the code of Tune_Model except for its types. *)
From Coq Require Import Reals List.
From Verif Require Import Tune_Model.
Import ListNotations.
Local Open Scope R_scope.

Definition within (b : R * R) (v : R) : Prop := fst b <= v <= snd b.
(** Search spaces that make sense: positive, lower end first. *)
Definition sound_bounds (b : list (R * R)) : Prop := Forall (fun p => 0 < fst p <= snd p) b.
Definition strict_bounds (b : list (R * R)) : Prop := Forall (fun p => 0 < fst p < snd p) b.

(** An optimizer that stays within the bounds it is given. *)
Definition stays_within (opt : (list R -> option R) -> list R -> list (R * R) -> option R * list R) : Prop :=
  forall f x0 b, length x0 = length b -> Forall (fun p => fst p <= snd p) b -> Forall2 within b (snd (opt f x0 b)).
(** An optimizer that reports the value of the function at the point it returns, or a failure, not above the value at the start when
    the start is in the bounds. *)
Definition honest (opt : (list R -> option R) -> list R -> list (R * R) -> option R * list R) : Prop :=
  forall f x0 b v, fst (opt f x0 b) = Some v -> f (snd (opt f x0 b)) = Some v.
Definition descends (opt : (list R -> option R) -> list R -> list (R * R) -> option R * list R) : Prop :=
  forall f x0 b v, length x0 = length b -> Forall2 within b x0 -> f x0 = Some v -> exists w, fst (opt f x0 b) = Some w /\ w <= v.

(** A scheduler uses every result once, in order. *)
Definition fair (sched : list outcome -> tree) : Prop := forall l, leaves (sched l) = l.

(** The results obtained from every start: the search space and the starts as documented, in log10 scale. *)
Definition increasing (l : list nat) : Prop := forall i j a b, (i < j)%nat -> nth_error l i = Some a -> nth_error l j = Some b -> (a < b)%nat.
(** Value of component i in a specification given with one value for all components or one per component. *)
Definition component {A} (l : list A) (i : nat) : option A := match l with [a] => Some a | _ => nth_error l i end.
