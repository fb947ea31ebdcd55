(** Model of [crates/ego/src/utils/find_result.rs]: ranking of results and search of the best one.
    A row is a list of doubles [obj; cstr_1; ...; cstr_n]. *)
From Coq Require Import List Arith Bool.
From Verif Require Import F64 Util.
Import ListNotations.

(** find_result.rs:10-16 [cstr_sum]. [cstr_tol[*i]] panics when [i] is out of range. *)
Fixpoint cstr_sum_loop (acc : f64) (cs tol : list f64) : option f64 :=
  match cs with
  | [] => Some acc
  | c :: cs' =>
      match tol with
      | [] => None
      | t :: tol' =>
          cstr_sum_loop (if fgt c t then fadd acc (fabs (fsub c t)) else acc) cs' tol'
      end
  end.

(** [y.slice(s![1..])] panics on an empty row. *)
Definition cstr_sum (y tol : list f64) : option f64 :=
  match y with
  | [] => None
  | _ :: cs => cstr_sum_loop fzero cs tol
  end.

(** find_result.rs:20-41 [cstr_min]; [partial_cmp(..).unwrap()] panics on NaN, [y[0]] on an empty row. *)
Definition obj_cmp (y1 y2 : list f64) : option comparison :=
  match y1, y2 with
  | a :: _, b :: _ => fcmp a b
  | _, _ => None
  end.

Definition cstr_min (y1 y2 tol : list f64) : option comparison :=
  if 1 <? length y1 then
    do s1 <- cstr_sum y1 tol;
    do s2 <- cstr_sum y2 tol;
    if fgt s1 fzero && fgt s2 fzero then fcmp s1 s2
    else if feq s1 fzero && feq s2 fzero then obj_cmp y1 y2
    else if feq s1 fzero then Some Lt
    else Some Gt
  else obj_cmp y1 y2.

(** find_result.rs:48-69 [find_best_result_index_from]. [usize::MAX] as "no new row" is [None].
    [std::cmp::min_by(a, b, cmp)] keeps [a] unless [b] compares strictly less than [a]. *)
Fixpoint best_from_loop (tol : list f64) (i : nat) (best : option nat) (cur : list f64)
         (rows : list (list f64)) : option (option nat) :=
  match rows with
  | [] => Some best
  | r :: rows' =>
      do c <- cstr_min r cur tol;
      match c with
      | Lt => best_from_loop tol (S i) (Some i) r rows'
      | _ => best_from_loop tol (S i) best cur rows'
      end
  end.

Definition find_best_result_index_from (current offset : nat) (ydata cdata : list (list f64))
           (tol : list f64) : option nat :=
  do alldata <- hconcat ydata cdata;
  if offset <=? length alldata then
    do cur <- nth_error alldata current;
    do r <- best_from_loop tol 0 None cur (skipn offset alldata);
    match r with
    | None => Some current
    | Some i => Some (offset + i)
    end
  else None.

(** find_result.rs:95-98: the violation of a row; [zip] stops at the shorter of the row and the tolerances. *)
Fixpoint csum_zip (acc : f64) (cs tol : list f64) : f64 :=
  match cs, tol with
  | c :: cs', t :: tol' =>
      csum_zip (if fgt c t then fadd acc (fabs (fsub c t)) else acc) cs' tol'
  | _, _ => acc
  end.

(** ndarray-stats [argmin] on doubles: error ([None]) on an empty array or when a NaN is met. *)
Definition fargmin (l : list f64) : option nat :=
  if existsb fnan l then None else argmin_by flt l.

(** find_result.rs:108-116: scan of the feasible rows; the pair is (violation, objective). *)
Fixpoint feas_scan (i index : nat) (ybest : f64) (c_obj : list (f64 * f64)) : nat :=
  match c_obj with
  | [] => index
  | (cs, o) :: l =>
      if feq cs fzero && flt o ybest then feas_scan (S i) i o l else feas_scan (S i) index ybest l
  end.

(** find_result.rs:117-134: fallback when the violations cannot be ordered.
    First row of the rows sorted by objective whose constraints are all strictly below tolerance. *)
Fixpoint all_below (cs tol : list f64) : bool :=
  match cs, tol with
  | c :: cs', t :: tol' => flt c t && all_below cs' tol'
  | _, _ => true
  end.
Fixpoint first_ok (tol : list f64) (i : nat) (rows : list (list f64)) : nat :=
  match rows with
  | [] => 0
  | r :: rows' => if all_below (tl r) tol then i else first_ok tol (S i) rows'
  end.
Definition fallback_index (alldata : list (list f64)) (tol : list f64) : option nat :=
  let n := length alldata in
  let o i := nth 0 (nth i alldata []) fNaN in
  let perm := isort_by (fun i j => flt (o i) (o j)) (seq 0 n) in
  nth_error perm (first_ok tol 0 (map (fun i => nth i alldata []) perm)).

(** find_result.rs:77-142 [find_best_result_index]. [ycols], [ccols] are the column counts of
    [y_data] and [c_data] (an ndarray keeps them even with no rows). *)
Definition find_best_result_index (ycols ccols : nat) (y_data c_data : list (list f64))
           (tol : list f64) : option nat :=
  if (1 <? ycols) || (0 <? ccols) then
    do alldata <- hconcat y_data c_data;
    let c_obj := map (fun r => (csum_zip fzero (tl r) tol, nth 0 r fNaN)) alldata in
    match fargmin (map fst c_obj) with
    | Some m =>
        if fgt (nth m (map fst c_obj) fNaN) fzero then Some m
        else Some (feas_scan 0 0 finf c_obj)
    | None => fallback_index alldata tol
    end
  else fargmin (map (fun r => nth 0 r fNaN) y_data).

(** find_result.rs:146-158 [is_feasible]. *)
Definition is_feasible (y c tol : list f64) : option bool :=
  let yc := y ++ c in
  if 1 <? length yc then
    do s <- cstr_sum yc tol; Some (feq s fzero)
  else Some true.
