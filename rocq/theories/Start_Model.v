(** Model of the starting points of the inner optimizations: crates/ego/src/utils/start_points.rs, the two multistart strategies of
    crates/ego/src/solver/solver_computations.rs and the local one of crates/ego/src/solver/trego.rs. The arithmetic is a parameter,
    and so is [sm], the sum of an array in the order chosen by ndarray. *)
From Coq Require Import List Arith Bool ZArith.
From Verif Require Import Util Doe_Model Coego_Model.
Import ListNotations.

Section Start.
  Context {A : Type} (ar : arith A) (sm : list A -> A).
  Local Notation row := (list A).
  Local Notation mat := (list (list A)).

  (** Arithmetic on arrays, component by component. *)
  Definition map2 (f : A -> A -> A) (a b : row) : row := map (fun p => f (fst p) (snd p)) (combine a b).
  (** start_points.rs:14 [xrange]. *)
  Definition range (xl xu : row) : row := map2 ar.(sub) xu xl.
  (** start_points.rs:21-23, 40-43, 52, 62-65: the distance between two points, each variable being divided by its range
      ([scaled.dot(&scaled)] and the sum of [powi(2)] are written alike). *)
  Definition dist (xr a b : row) : A :=
    ar.(sqrt) (sm (map (fun v => ar.(mul) v v) (map2 ar.(div) (map2 ar.(sub) a b) xr))).
  (** start_points.rs:37. *)
  Definition middle (a b : row) : row := map (fun v => ar.(div) v (ar.(ofZ) 2)) (map2 ar.(add) a b).
  (** start_points.rs:17-26: the pairs with their distances. *)
  Definition pair_indices (n : nat) : list (nat * nat) := flat_map (fun i => map (fun j => (i, j)) (seq 0 i)) (seq 1 (n - 1)).
  Definition pairs (x : mat) (xr : row) : list (nat * nat * A) :=
    map (fun p => (p, dist xr (nth (fst p) x []) (nth (snd p) x []))) (pair_indices (length x)).
  (** start_points.rs:29: a stable sort; incomparable distances count as equal ([sort_by] may do anything, or panic, when only some
      of the distances are NaN). *)
  Fixpoint insert (p : nat * nat * A) (l : list (nat * nat * A)) : list (nat * nat * A) :=
    match l with
    | [] => [p]
    | q :: l' => if ar.(ltb) (snd p) (snd q) then p :: l else q :: insert p l'
    end.
  Definition sort_pairs (l : list (nat * nat * A)) : list (nat * nat * A) := fold_left (fun acc p => insert p acc) l [].
  (** start_points.rs:49-58: no other sample is closer. *)
  Definition no_sample_closer (x : mat) (xr : row) (i j : nat) (xij : row) (d_ij : A) : bool :=
    forallb (fun k => (k =? i) || (k =? j) || negb (ar.(ltb) (dist xr (nth k x []) xij) d_ij)) (seq 0 (length x)).
  (** start_points.rs:61-70: no earlier start is closer. *)
  Definition no_start_closer (xstart : mat) (xr : row) (xij : row) (d_ij : A) : bool :=
    forallb (fun xk => negb (ar.(ltb) (dist xr xk xij) d_ij)) xstart.
  (** start_points.rs:34-82, the loop. *)
  Fixpoint pick (x : mat) (xr : row) (n_max : option nat) (l : list (nat * nat * A)) (xstart : mat) : mat :=
    match l with
    | [] => xstart
    | ((i, j), _) :: l' =>
        let xi := nth i x [] in
        let xij := middle xi (nth j x []) in
        let d_ij := dist xr xi xij in
        let xstart' := if no_sample_closer x xr i j xij d_ij && no_start_closer xstart xr xij d_ij then xstart ++ [xij] else xstart in
        match n_max with
        | Some m => if m <=? length xstart' then xstart' else pick x xr n_max l' xstart'
        | None => pick x xr n_max l' xstart'
        end
    end.
  (** start_points.rs:7-91. *)
  Definition start_points (x : mat) (xl xu : row) (n_max : option nat) : mat :=
    let xr := range xl xu in pick x xr n_max (sort_pairs (pairs x xr)) [].

  (** The draws of a maximin Latin hypercube: uniform numbers and swaps of each attempt; [d ns] are those for [ns] points. *)
  Record draws := { d_rnd : nat -> nat -> row; d_sw : nat -> nat -> list (nat * nat) }.
  (** [Lhs::new(&xlimits).kind(Maximin).sample(ns)]. *)
  Definition lhs (xlimits : list (A * A)) (ns : nat) (d : nat -> draws) : option mat :=
    do m <- maximin_lhs ar ns (length xlimits) false (d_rnd (d ns)) (d_sw (d ns)); Some (scale_sample ar xlimits m).

  (** solver_computations.rs:34-43 [LhsMultiStarter], also the fallback of lines 105-111. *)
  Definition lhs_multistart (xlimits : list (A * A)) (n_start : nat) (active : list nat) (d : nat -> draws) : option mat :=
    do xlimits <- get_active xlimits active; lhs xlimits n_start d.

  (** solver_computations.rs:65-104 [MiddlePickerMultiStarter]; [indices] is the shuffled list of the indices of the samples.
      [stack] of no row fails, then [unwrap] panics. *)
  Definition middle_multistart (xlimits : list (A * A)) (xtrain : mat) (indices : list nat) (n_start : nat) (active : list nat)
    (d : nat -> draws) : option mat :=
    do xlimits <- get_active xlimits active;
    let n := Nat.max (length xtrain / 10) 2 in
    do selected <- select xtrain (firstn n indices);
    match selected with
    | [] => None
    | _ =>
        do xt <- mapM (fun r => get_active r active) selected;
        let midpoints := start_points xt (map fst xlimits) (map snd xlimits) (Some n_start) in
        let missing := n_start - length midpoints in
        if missing =? 0 then Some midpoints
        else do l <- lhs xlimits (Nat.max missing 3) d; Some (midpoints ++ firstn missing l)
    end.

  (** trego.rs:53-78 [LocalLhsMultiStarter]: a sample of the intersection of the trust region and the domain; [mx] and [mn] are
      [f64::max] and [f64::min]. *)
  Definition local_area (mx mn : A -> A -> A) (xlimits : list (A * A)) (origin : row) (lower upper : A) : list (A * A) :=
    map (fun p => (mx (fst (snd p)) (ar.(sub) (fst p) lower), mn (snd (snd p)) (ar.(add) (fst p) upper))) (combine origin xlimits).
  Definition local_multistart (mx mn : A -> A -> A) (xlimits : list (A * A)) (origin : row) (lower upper : A) (n_start : nat)
    (active : list nat) (d : nat -> draws) : option mat :=
    do xlimits <- get_active xlimits active;
    do origin <- get_active origin active;
    lhs (local_area mx mn xlimits origin lower upper) n_start d.
End Start.
