(** Mixed-integer variables: the relaxed bounds, the cast of relaxed points, the fold/unfold of categorical
    variables and their callers, crates/ego/src/gpmix/mixint.rs.

    Simplifications: the generic float type [F] is [f64]; matrices are lists of rows and the column-wise loops of the
    code are written row by row (each column operation is a map over rows, so the rows do not interact; which of two
    panics comes first is not modelled, and a matrix without rows never panics). [None] is a panic. *)
From Coq Require Import ZArith List Bool.
From Flocq Require Import IEEE754.BinarySingleNaN.
From Verif Require Import F64 Util FindResult_Model.
Import ListNotations.
Local Open Scope nat_scope.

Local Notation row := (list f64).
Local Notation mat := (list (list f64)).

(** [XType], crates/ego/src/types.rs:130-139. [i32] bounds are integers ([Z]); the range of [i32] is a hypothesis of
    the theorems that need it. *)
Inductive xtype : Type :=
| Float (lower upper : f64)
| Int (lower upper : Z)
| Ord (values : row)
| Enum (levels : nat).

(** [discrete], crates/ego/src/utils/misc.rs:85-89. *)
Definition discrete (ts : list xtype) : bool :=
  existsb (fun t => match t with Float _ _ => false | _ => true end) ts.

(** [f64::round] (half away from zero), used at mixint.rs:175. *)
Definition fround (a : f64) : f64 := Bnearbyint mode_NA a.

(** ndarray-stats [argmax] (external dependency): index of the first largest element, error on an empty array or
    a NaN. *)
Definition fargmax (l : row) : option nat :=
  if existsb fnan l then None else argmin_by (fun a b => flt b a) l.

(** [as_continuous_limits], mixint.rs:38-67: one (lower, upper) row per relaxed column. *)
Definition limits_of (t : xtype) : list (f64 * f64) :=
  match t with
  | Float lo hi => [(lo, hi)]
  | Int lo hi => [(fofZ lo, fofZ hi)]
  | Ord v => [(fold_left fmin v finf, fold_left fmax v fninf)]
  | Enum n => repeat (fzero, fone) n
  end.
Definition as_continuous_limits (ts : list xtype) : list (f64 * f64) := flat_map limits_of ts.

(** [compute_continuous_dim], mixint.rs:99-108: [reduce(..).unwrap()] panics on an empty specification. *)
Definition compute_continuous_dim (ts : list xtype) : option nat :=
  match map (fun t => match t with Enum n => n | _ => 1 end) ts with
  | [] => None
  | d :: ds => Some (fold_left Nat.add ds d)
  end.

(** [take_closest], mixint.rs:156-162. *)
Definition take_closest (v : row) (val : f64) : option f64 :=
  do i <- fargmin (map (fun r => fabs (fsub val r)) v); nth_error v i.

(** [Array::zeros(v)] with [1.] written at position [m], mixint.rs:192-194 and 131-134. *)
Definition one_hot (n m : nat) : row := set_nth m fone (repeat fzero n).

(** [cast_to_discrete_values_mut], mixint.rs:167-201, on one row; [cast_to_discrete_values], mixint.rs:210-217, is the
    same on a copy. [Float] does not touch its column (mixint.rs:173), the columns after the last variable are kept. *)
Fixpoint cast_row (ts : list xtype) (x : row) : option row :=
  match ts with
  | [] => Some x
  | Float _ _ :: ts' =>
      match x with
      | [] => cast_row ts' []
      | a :: x' => do t <- cast_row ts' x'; Some (a :: t)
      end
  | Int _ _ :: ts' =>
      match x with
      | [] => None
      | a :: x' => do t <- cast_row ts' x'; Some (fround a :: t)
      end
  | Ord v :: ts' =>
      match x with
      | [] => None
      | a :: x' => do c <- take_closest v a; do t <- cast_row ts' x'; Some (c :: t)
      end
  | Enum n :: ts' =>
      if length x <? n then None
      else do m <- fargmax (firstn n x); do t <- cast_row ts' (skipn n x); Some (one_hot n m ++ t)
  end.

Definition cast_to_discrete_values (ts : list xtype) (x : mat) : option mat := mapM (cast_row ts) x.

(** [fold_with_enum_index], mixint.rs:77-96, on one row. [j] is the position of the variable, [u] is [unfold_index];
    the slice of a categorical variable starts at [j] (mixint.rs:89) as in the code. *)
Fixpoint fold_row_from (j u : nat) (ts : list xtype) (x : row) : option row :=
  match ts with
  | [] => Some []
  | Enum n :: ts' =>
      if length x <? j + n then None
      else do m <- fargmax (firstn n (skipn j x));
           do t <- fold_row_from (S j) (u + n) ts' x; Some (fofZ (Z.of_nat m) :: t)
  | _ :: ts' =>
      do a <- nth_error x u; do t <- fold_row_from (S j) (S u) ts' x; Some (a :: t)
  end.
Definition fold_row (ts : list xtype) (x : row) : option row := fold_row_from 0 0 ts x.
Definition fold_with_enum_index (ts : list xtype) (x : mat) : option mat := mapM (fold_row ts) x.

(** Rust [a as usize] on [f64]: truncation, saturating, NaN gives 0. The maximal [usize] is not modelled: an infinite
    value gives [None], as every use below indexes an array with the result. *)
Definition as_index (a : f64) : option nat :=
  match a with
  | B754_nan => Some 0
  | B754_infinity true => Some 0
  | B754_infinity false => None
  | _ => Some (Z.to_nat (Btrunc a))
  end.

(** [unfold_with_enum_mask], mixint.rs:116-144, on one row. [i] is the position of the variable, [u] is
    [unfold_index]; a scalar variable is read at [u] (mixint.rs:124-126), a categorical one at [i] (mixint.rs:132) as in
    the code. [to_continuous_space], mixint.rs:148-153, is an alias. *)
Fixpoint unfold_row_from (i u : nat) (ts : list xtype) (x : row) : option row :=
  match ts with
  | [] => Some []
  | Enum n :: ts' =>
      do a <- nth_error x i;
      do k <- as_index a;
      if k <? n then do t <- unfold_row_from (S i) (u + n) ts' x; Some (one_hot n k ++ t) else None
  | _ :: ts' =>
      do a <- nth_error x u; do t <- unfold_row_from (S i) (S u) ts' x; Some (a :: t)
  end.
Definition unfold_with_enum_mask (ts : list xtype) (x : mat) : option mat :=
  do _ <- compute_continuous_dim ts; mapM (unfold_row_from 0 0 ts) x.

(** [to_discrete_space], mixint.rs:220-226. *)
Definition to_discrete_row (ts : list xtype) (x : row) : option row :=
  do c <- cast_row ts x; fold_row ts c.
Definition to_discrete_space (ts : list xtype) (x : mat) : option mat :=
  do c <- cast_to_discrete_values ts x; fold_with_enum_index ts c.

(** [MixintSampling::sample], mixint.rs:282-291: [doe] is the sample of the decorated continuous method. *)
Definition mixint_sample (ts : list xtype) (folded : bool) (doe : mat) : option mat :=
  do c <- cast_to_discrete_values ts doe;
  if folded then fold_with_enum_index ts c else Some c.

(** The input actually given to the decorated mixture by training (mixint.rs:349-355, 375-381) and by every prediction
    method of [MixintGpMixture] (mixint.rs:578-614 and 649-702). *)
Definition surrogate_input (ts : list xtype) (folded : bool) (x : mat) : option mat :=
  do xcast <- (if folded then unfold_with_enum_mask ts x else Some x);
  cast_to_discrete_values ts xcast.

(** [MixintGpMixture::predict] and the like: [predictor] is the method of the decorated mixture. *)
Definition mixint_predict {A : Type} (ts : list xtype) (folded : bool) (predictor : mat -> A) (x : mat) : option A :=
  do xc <- surrogate_input ts folded x; Some (predictor xc).

(** [eval_obj], crates/ego/src/solver/solver_computations.rs:477-493: the points given to the objective function. *)
Definition objective_input (ts : list xtype) (x : mat) : option mat :=
  if discrete ts then to_discrete_space ts x else Some x.

(** [eval_fcstrs], crates/ego/src/solver/solver_computations.rs:496-528, and the closures given to the infill optimizer,
    crates/ego/src/solver/solver_impl.rs:716-738: the point given to a constraint function. In discrete mode
    [to_discrete_space] is called (and may panic) but its result is dropped. *)
Definition constraint_input (ts : list xtype) (x : row) : option row :=
  if discrete ts then do _ <- to_discrete_row ts x; Some x else Some x.

(** The points of the result, crates/ego/src/egor.rs:270-298. *)
Definition result_points (ts : list xtype) (x : mat) : option mat := objective_input ts x.

(** [EgorServiceApi::suggest], crates/ego/src/solver/egor_service.rs:119-130: [proposals] is the solver's
    [suggest], from relaxed points to relaxed points. *)
Definition suggest (ts : list xtype) (proposals : mat -> mat) (x : mat) : option mat :=
  do xc <- unfold_with_enum_mask ts x; to_discrete_space ts (proposals xc).
