(** Vocabulary for the properties of designs of experiments, independent of the code. *)
From Coq Require Import Reals List Permutation.
From Flocq Require Import Core.Core IEEE754.BinarySingleNaN.
From Verif Require Import F64.
Import ListNotations.
Local Open Scope nat_scope.

(** Column [j] of a design, and the entry of row [i]. *)
Definition col {A : Type} (j : nat) (x : list (list A)) : list (option A) := map (fun r => nth_error r j) x.
Definition at_ {A : Type} (x : list (list A)) (i j : nat) : option A :=
  match nth_error x i with Some r => nth_error r j | None => None end.

(** [n] rows of [nx] coordinates. *)
Definition shape {A : Type} (n nx : nat) (x : list (list A)) : Prop := length x = n /\ Forall (fun r => length r = nx) x.

(** Same values in every column, in another order. *)
Definition same_columns {A : Type} (x y : list (list A)) : Prop := forall j, Permutation (col j x) (col j y).

(** Section [i] of the unit interval cut in [n]. *)
Definition in_section (n i : nat) (v : R) : Prop := (INR i / INR n <= v < INR (S i) / INR n)%R.

(** A Latin hypercube design: in each column exactly one row is in each section. *)
Definition latin (n nx : nat) (x : list (list R)) : Prop :=
  shape n nx x /\
  forall j, j < nx -> forall i, i < n ->
    exists! r, exists v, at_ x r j = Some v /\ in_section n i v.

(** In double precision: sections widened by [2^-52]; each section has its own row. *)
Definition near_section (n i : nat) (v : f64) : Prop :=
  is_finite v = true /\ (INR i / INR n - bpow radix2 (-52) <= B2R v <= INR (S i) / INR n + bpow radix2 (-52))%R.
Definition latin64 (n nx : nat) (x : list (list f64)) : Prop :=
  shape n nx x /\
  forall j, j < nx -> exists row : nat -> nat,
    (forall i, i < n -> row i < n) /\ (forall i i', i < n -> i' < n -> row i = row i' -> i = i') /\
    forall i, i < n -> exists v, at_ x (row i) j = Some v /\ near_section n i v.

(** The uniform draws of [rand]'s [Uniform::new(0., 1.)]. *)
Definition unit_draws (n : nat) (rnd : list R) : Prop := length rnd = n /\ Forall (fun u => 0 <= u < 1)%R rnd.
Definition unit_draws64 (n : nat) (rnd : list f64) : Prop :=
  length rnd = n /\ Forall (fun u => is_finite u = true /\ 0 <= B2R u < 1)%R rnd.

(** Euclidean distance; the minimal distance of a design. *)
Definition euclid (a b : list R) : R :=
  sqrt (fold_right Rplus 0%R (map (fun p => (fst p - snd p) * (fst p - snd p))%R (combine a b))).
Definition min_distance (x : list (list R)) (d : R) : Prop :=
  (forall i j a b, i < j -> nth_error x i = Some a -> nth_error x j = Some b -> (d <= euclid a b)%R) /\
  exists i j a b, i < j /\ nth_error x i = Some a /\ nth_error x j = Some b /\ d = euclid a b.

(** The space-filling criterion: the [p]-norm of the inverse distances over all pairs of points, [p = 10]. *)
Fixpoint pair_sum (x : list (list R)) : R :=
  match x with
  | [] => 0%R
  | a :: x' => (fold_right Rplus 0 (map (fun b => Rpower (euclid a b) (-10)) x') + pair_sum x')%R
  end.
Definition criterion (x : list (list R)) : R := Rpower (pair_sum x) (1 / 10).

(** The design with two coordinates of two rows exchanged. *)
Definition exchanged {A : Type} (x : list (list A)) (i1 i2 k : nat) (y : list (list A)) : Prop :=
  length y = length x /\
  forall i j, at_ y i j = if andb (Nat.eqb i i1) (Nat.eqb j k) then at_ x i2 k
                          else if andb (Nat.eqb i i2) (Nat.eqb j k) then at_ x i1 k else at_ x i j.

(** In each column all the values are different (as in a Latin hypercube). *)
Definition distinct_values {A : Type} (x : list (list A)) : Prop :=
  forall i i' j v, at_ x i j = Some v -> at_ x i' j = Some v -> i = i'.

(** Draws of the optimization: pairs of different rows, at least one per step. *)
Definition valid_pairs {A : Type} (n : nat) (draws : nat -> nat -> list (nat * nat) * A) : Prop :=
  forall o i, fst (draws o i) <> [] /\ Forall (fun q => fst q < n /\ snd q < n /\ fst q <> snd q) (fst (draws o i)).

(** Within the bounds of each variable. *)
Definition in_box (xlimits : list (R * R)) (r : list R) : Prop := Forall2 (fun l v => fst l <= v <= snd l)%R xlimits r.

(** ** Grids *)

(** The normalized value of level [i] of a variable with [n] levels. *)
Definition level (n i : nat) : R := if Nat.eqb n 1 then 0%R else (INR i / INR (n - 1))%R.
(** The points of the grid with [num] levels per variable; in doubles, the levels are rounded to nearest. *)
Definition on_grid (num : list nat) (r : list R) : Prop :=
  Forall2 (fun n v => exists i, i < n /\ v = level n i) num r.
Definition on_grid64 (num : list nat) (r : list f64) : Prop :=
  Forall2 (fun n v => exists i, i < n /\ is_finite v = true /\
    B2R v = round radix2 (SpecFloat.fexp 53 1024) ZnearestE (level n i)) num r.
(** The rows are in strictly increasing lexicographic order (so they are all different). *)
Definition lexicographic {A : Type} (lt : A -> A -> Prop) (x : list (list A)) : Prop :=
  forall r r' a b, r < r' -> nth_error x r = Some a -> nth_error x r' = Some b ->
    exists k u v, firstn k a = firstn k b /\ nth_error a k = Some u /\ nth_error b k = Some v /\ lt u v.
(** Numbers of levels as even as possible: at least one, no two differ by more than one. *)
Definition balanced (nx : nat) (num : list nat) : Prop :=
  length num = nx /\ Forall (fun n => 1 <= n) num /\ forall a b, In a num -> In b num -> a <= S b.
Definition grid_size (num : list nat) : nat := fold_right Nat.mul 1 num.
