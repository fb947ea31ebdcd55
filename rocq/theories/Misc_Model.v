(** Sorting of rows (crates/ego/src/utils/sort_axis.rs), selection from a portfolio of proposals
    (crates/ego/src/utils/portfolio.rs) and quality metrics (crates/gp/src/metrics.rs, crates/moe/src/metrics.rs). *)
From Coq Require Import Reals List Arith Bool.
From Verif Require Import Util.
Import ListNotations.

(** ** Sorting *)

(** sort_axis.rs:71-75 [identity] and 77-92 [sort_axis_by] on [n] rows: [slice::sort_by] is a stable sort, the
    comparison is derived from [less_than]. *)
Definition sort_axis_by (n : nat) (less_than : nat -> nat -> bool) : list nat := isort_by less_than (seq 0 n).

(** sort_axis.rs:28-44 [correct]: [seen] as in the code. *)
Fixpoint correct_from (seen : list bool) (l : list nat) : bool :=
  match l with
  | [] => true
  | i :: l => match nth_error seen i with
              | None => false
              | Some true => false
              | Some false => correct_from (set_nth i true seen) l
              end
  end.
Definition correct (l : list nat) : bool := correct_from (repeat false (length l)) l.

(** sort_axis.rs:23-26 [from_indices]. *)
Definition from_indices (v : list nat) : option (list nat) := if correct v then Some v else None.

(** sort_axis.rs:104-163 [permute_axis] on rows: panics when the lengths differ; row [r] of the result is row
    [perm r] of the source. An index out of range would be undefined behaviour and is [None] here. *)
Definition permute_axis {A} (rows : list A) (perm : list nat) : option (list A) :=
  if length rows =? length perm then mapM (fun i => nth_error rows i) perm else None.

(** ** Portfolio *)

(** portfolio.rs:33-44: the first member of each cluster. [labels] is the result of the density clustering
    (external library), [None] for points it takes for noise. Here clusters are listed in order of appearance;
    the code lists them in the order of a hash map, so see [some_order]. *)
Fixpoint first_members (seen : list nat) (i : nat) (labels : list (option nat)) : list nat :=
  match labels with
  | [] => []
  | None :: l => first_members seen (S i) l
  | Some c :: l => if existsb (Nat.eqb c) seen then first_members seen (S i) l else i :: first_members (c :: seen) (S i) l
  end.

(** One proposal of the portfolio: batches of inputs, outputs, constraints, then the infill value and data. *)
Record proposal {A I : Type} : Type := mkProposal { p_x : list (list A); p_y : list (list A); p_c : list (list A); p_val : A; p_info : I }.
Arguments proposal : clear implicits.

(** portfolio.rs:48-96 [select_from_portfolio]; [indices] are the first members of the clusters in any order.
    Only the first point of a batch is used. Indexing panics are [None]. *)
Definition select_from_portfolio {A I} (indices : list nat) (portfolio : list (proposal A I))
  : option (list (list A) * list (list A) * list (list A) * A * I) :=
  do p0 <- nth_error portfolio 0;
  do _ <- mapM (fun p => nth_error p.(p_x) 0) portfolio;
  do rows <- (if 1 <? length indices then
                mapM (fun i => do p <- nth_error portfolio i;
                               do x <- nth_error p.(p_x) 0; do y <- nth_error p.(p_y) 0; do c <- nth_error p.(p_c) 0;
                               Some (x, y, c)) indices
              else
                do x <- nth_error p0.(p_x) 0; do y <- nth_error p0.(p_y) 0; do c <- nth_error p0.(p_c) 0;
                Some [(x, y, c)]);
  Some (map (fun r => fst (fst r)) rows, map (fun r => snd (fst r)) rows, map snd rows, p0.(p_val), p0.(p_info)).

(** ** Metrics, in exact arithmetic *)
Local Open Scope R_scope.

Definition sumR (l : list R) : R := fold_right Rplus 0 l.
Definition mean (l : list R) : R := sumR l / INR (length l).

(** A fold of the cross-validation: validation targets, with the predicted values and variances of the model
    trained on the other folds. *)
Record fold : Type := mkFold { f_targets : list R; f_pred : list R; f_var : list R }.

Definition sq_diffs (a b : list R) : list R := map (fun p => (fst p - snd p) * (fst p - snd p)) (combine a b).

(** gp/metrics.rs:34-52 [q2_score], moe/metrics.rs:32-50 [q2_k_score]. A zero denominator gives NaN or minus
    infinity in the code, [None] here. *)
Definition press (folds : list fold) : R := sumR (map (fun f => sumR (sq_diffs f.(f_targets) f.(f_pred))) folds).
Definition tss (m : R) (folds : list fold) : R :=
  sumR (map (fun f => sumR (map (fun t => (t - m) * (t - m)) f.(f_targets))) folds).
Definition q2_score (yt : list R) (folds : list fold) : option R :=
  let t := tss (mean yt) folds in
  if Req_EM_T t 0 then None else Some (1 - press folds / t).

(** moe/metrics.rs:58-75 [pva_k_score]; the logarithm of zero is minus infinity in the code, [None] here. *)
Definition std_sq (f : fold) : R := sumR (map (fun p => fst p / snd p) (combine (sq_diffs f.(f_targets) f.(f_pred)) f.(f_var))).
Definition pva_score (folds : list fold) : option R :=
  let v := sumR (map std_sq folds) / INR (length (flat_map f_targets folds)) in
  if Rlt_dec 0 v then Some (Rabs (ln v)) else None.

(** moe/metrics.rs:198-220 [empirical_coverage], one confidence level: the fraction of targets in their interval. *)
Definition inside (t lo hi : R) : bool := (if Rle_dec lo t then true else false) && (if Rle_dec t hi then true else false).
Definition coverage (q : R) (f : fold) : R :=
  let rows := combine f.(f_targets) (combine f.(f_pred) f.(f_var)) in
  INR (length (filter (fun r => let s := sqrt (snd (snd r)) in
                                inside (fst r) (fst (snd r) - s * q) (fst (snd r) + s * q)) rows)) / INR (length f.(f_targets)).

(** moe/metrics.rs:143-195 [iae_alpha]; [ppf] is the quantile function of the normal law. *)
Definition iae_alpha (ppf : R -> R) (alphas : list R) (f : fold) : R :=
  sumR (map (fun a => Rabs (coverage (ppf (1 - a / 2)) f - (1 - a))) alphas) / INR (length alphas).

(** moe/metrics.rs:83-110 [iae_alpha_k_score]: mean over folds; twenty levels from 0.02 to 0.98. *)
Definition levels : list R := map (fun i => 2 / 100 + INR i * (96 / 100 / 19)) (seq 0 20).
Definition iae_score (ppf : R -> R) (folds : list fold) : R :=
  sumR (map (iae_alpha ppf levels) folds) / INR (length folds).

(** moe/metrics.rs:104-108, 128-133: the coverages handed out for plotting, averaged over the folds. *)
Definition plot_deltas (ppf : R -> R) (folds : list fold) : list R :=
  map (fun a => sumR (map (coverage (ppf (1 - a / 2))) folds) / INR (length folds)) levels.
