(** Vocabulary of the claims on shared sampling methods. *)
From Coq Require Import Reals List Arith Permutation.
From Verif Require Import Util Doe_Model Doe_Spec DoeConc_Model.
Import ListNotations.
Local Open Scope nat_scope.

(** A generator that does its work: uniform numbers are in [[0, 1)], as many as asked, and two different rows are found as soon as there
    are two. *)
Definition draws_ok {G} (D : draws (A := R) (G := G)) : Prop :=
  (forall n nx g j, j < nx -> unit_draws n (fst (fst (d_classic D n nx g)) j)) /\
  forall n g, 2 <= n -> exists i j g', d_pair D n g = Some (i, j, g') /\ i < n /\ j < n /\ i <> j.

(** The design a method promises: a Latin hypercube, except for random points. A maximin design has the largest minimal distance among five
    designs drawn by the method, and an optimized design is not worse than a classic design whose columns it rearranges. *)
Definition best_of (drawn : list (list R) -> Prop) (x : list (list R)) : Prop :=
  exists cands, length cands = 5 /\ Forall drawn cands /\ In x cands /\
    exists d, min_distance x d /\ forall c dc, In c cands -> min_distance c dc -> (dc <= d)%R.
Definition result_ok {G} (D : draws (A := R) (G := G)) (m : method) (n nx : nat) (x : list (list R)) : Prop :=
  let classic y := exists g, y = fst (classic_section R_arith D n nx g) in
  let centered y := exists g, y = fst (centered_section R_arith D n nx g) in
  match m with
  | Classic => latin n nx x /\ classic x
  | Centered => latin n nx x /\ centered x
  | Maximin => latin n nx x /\ best_of classic x
  | CenteredMaximin => latin n nx x /\ best_of centered x
  | Optimized => latin n nx x /\ exists y, classic y /\ same_columns y x /\ (criterion x <= criterion y)%R
  | RandomPoints => shape n nx x
  end.

(** A request: a method, a number of points, a dimension. *)
Definition request : Type := method * nat * nat.

(** [k] turns in a row for each thread, in the given order. *)
Definition in_turn (k : nat) (order : list nat) : list nat := flat_map (fun i => repeat i k) order.

(** The designs obtained by the calls: [None] for a call that has not returned. *)
Definition designs {G X} (s : list (call G X) * lock G) : list (option X) :=
  map (fun c => match c with Return r => Some r | _ => None end) (fst s).

(** A session: requests made one after the other, each on one of the sampling methods; the results in order. *)
Fixpoint session {G X} (fuel : nat) (ops : list (nat * call G X)) (locks : list (lock G)) : list (option X) :=
  match ops with
  | [] => []
  | (m, c) :: rest => let (r, locks') := sample_on fuel c m locks in r :: session fuel rest locks'
  end.
