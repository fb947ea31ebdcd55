(** Model of the history update of [crates/ego/src/utils/misc.rs]. *)
From Coq Require Import ZArith List Arith Bool.
From Verif Require Import F64 Util.
Import ListNotations.

(** ndarray-stats [l1_dist] (external dependency): error on empty or different shapes (the caller unwraps),
    otherwise the sum from left to right of [|a_i - b_i|]. *)
Fixpoint l1_loop (acc : f64) (a b : list f64) : option f64 :=
  match a, b with
  | [], [] => Some acc
  | u :: a', v :: b' => l1_loop (fadd acc (fabs (fsub u v))) a' b'
  | _, _ => None
  end.
Definition l1_dist (a b : list f64) : option f64 :=
  match a with
  | [] => None
  | _ => l1_loop fzero a b
  end.

(** [100. * f64::EPSILON], i.e. 100 * 2^-52, exact in binary64 (misc.rs:49). *)
Definition update_tol : f64 := fmake 100 (-52).

(** misc.rs:44-54 [is_update_ok]. *)
Fixpoint is_update_ok (x_data : list (list f64)) (x_new : list f64) : option bool :=
  match x_data with
  | [] => Some true
  | row :: rows =>
      do d <- l1_dist row x_new;
      if flt d update_tol then Some false else is_update_ok rows x_new
  end.

(** [concatenate![Axis(0), data, row]]: panics if the widths differ. [ncols] is the column count of [data]. *)
Definition push_row (ncols : nat) (data : list (list f64)) (row : list f64) : option (list (list f64)) :=
  if length row =? ncols then Some (data ++ [row]) else None.

(** misc.rs:59-83 [update_data]. The three batches are zipped: different row counts panic.
    [wx wy wc] are the column counts of the stored matrices. *)
Fixpoint update_loop (wx wy wc : nat) (idx : nat) (x y c : list (list f64)) (app : list nat)
         (xn yn cn : list (list f64))
  : option (list (list f64) * list (list f64) * list (list f64) * list nat) :=
  match xn, yn, cn with
  | [], [], [] => Some (x, y, c, app)
  | xr :: xn', yr :: yn', cr :: cn' =>
      do ok <- is_update_ok x xr;
      if ok : bool then
        do x' <- push_row wx x xr;
        do y' <- push_row wy y yr;
        do c' <- push_row wc c cr;
        update_loop wx wy wc (S idx) x' y' c' (app ++ [idx]) xn' yn' cn'
      else update_loop wx wy wc (S idx) x y c app xn' yn' cn'
  | _, _, _ => None
  end.

Definition update_data (wx wy wc : nat) (x y c xn yn cn : list (list f64)) :=
  if (length xn =? length yn) && (length xn =? length cn)
  then update_loop wx wy wc 0 x y c [] xn yn cn
  else None.
