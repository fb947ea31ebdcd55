(** How often a value occurs in a column of a design. *)
From Coq Require Import ZArith List Bool.
Import ListNotations.

(** The number of rows of the design whose coordinate [j] is [z]. *)
Definition occurrences (j : nat) (z : Z) (d : list (list Z)) : nat :=
  length (filter (fun r => match nth_error r j with Some v => Z.eqb v z | None => false end) d).
