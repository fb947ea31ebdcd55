(** Model of [crates/moe/src/clustering.rs]: automatic choice of the number of clusters and of the recombination
    by 5-fold cross validation. The clusterings, the trained mixtures and their predictions are arguments. *)
From Coq Require Import List Arith Bool.
From Verif Require Import F64 Util Moe_Model.
Import ListNotations.

(** clustering.rs:14-17 [mean]. [len as f64] is exact for the lengths met here ([f64_of_nat]). *)
Definition f64_of_nat (n : nat) : f64 := fofZ (BinInt.Z.of_nat n).
Definition mean (l : list f64) : f64 := fdiv (fold_left fadd l fzero) (f64_of_nat (length l)).

(** clustering.rs:19-29 [median]. [partial_cmp(..).unwrap()] panics when a NaN is compared, which happens as soon as
    there are two values; [mid - 1] underflows on an empty list (in release mode the slice panics). *)
Definition median (l : list f64) : option f64 :=
  if existsb fnan l && (1 <? length l) then None
  else
    let s := isort_by flt l in
    let len := length s in
    let mid := len / 2 in
    if Nat.even len then
      if mid =? 0 then None else Some (mean (firstn 2 (skipn (mid - 1) s)))
    else nth_error s mid.

(** What one fold of the cross validation observes once the mixture is trained: the number of elements of each
    cluster of its training part (line 165, [Array2::len] counts elements), and the predictions of its validation
    part with hard and smooth recombinations ([None] is an error). *)
Record fitted := Fitted { ft_clusters : list nat; ft_hard : option (list f64); ft_smooth : option (list f64) }.

(** One fold: the mixture trained on it ([None]: training fails) and the actual outputs of the validation part. *)
Record fold := Fold { fd_fit : option fitted; fd_actual : list f64 }.

(** What is observed for one number of clusters: [None] when the clustering fails (lines 128-132). *)
Definition trial : Type := option (list fold).

Definition finfinite (a : f64) : bool := feq (fabs a) finf.

Section Search.
  (** [Array::sum], whose order of additions is left to the argument. *)
  Context (sum : list f64 -> f64).

  (** [(pred - actual).mapv(|x| x.abs()).sum()] *)
  Definition abs_error (pred actual : list f64) : f64 :=
    sum (map (fun p => fabs (fsub (fst p) (snd p))) (combine pred actual)).

  (** clustering.rs:169-193, error with hard recombination, and whether the number of clusters is still possible. *)
  Definition hard_error (pred : option (list f64)) (actual : list f64) : f64 * bool :=
    match pred with
    | None => (fone, false)
    | Some p =>
        if existsb finfinite p then (fone, true)
        else if existsb fnan p then (fone, false)
        else (fdiv (abs_error p actual) (sum (map fabs actual)), true)
    end.

  (** clustering.rs:197-219, error with smooth recombination. *)
  Definition smooth_error (pred : option (list f64)) (actual : list f64) : f64 * bool :=
    match pred with
    | None => (fone, false)
    | Some p =>
        if existsb finfinite p then (fone, true)
        else if existsb fnan p then (fone, false)
        else (abs_error p actual, true)
    end.

  (** clustering.rs:142-229, one fold; [n_clusters] is [i + 1]. *)
  Definition run_fold (n_clusters : nat) (f : fold) : f64 * f64 * bool :=
    match fd_fit f with
    | None => (fone, fone, false)
    | Some t =>
        let okc := forallb (fun k => 3 <? k) (firstn n_clusters (ft_clusters t)) in
        let (h, okh) := hard_error (ft_hard t) (fd_actual f) in
        let (s, oks) := smooth_error (ft_smooth t) (fd_actual f) in
        (h, s, okc && okh && oks)
    end.

  (** clustering.rs:106-235, the errors found with [n_clusters] clusters and whether they are all meaningful.
      When the clustering fails [ok] stays [true] and the lists of errors are empty. *)
  Definition run_trial (n_clusters : nat) (t : trial) : list f64 * list f64 * bool :=
    match t with
    | None => ([], [], true)
    | Some folds =>
        let r := map (run_fold n_clusters) folds in
        (map (fun e => fst (fst e)) r, map (fun e => snd (fst e)) r, forallb snd r)
    end.

  (** clustering.rs:277-289: the search stops when both medians do not decrease twice in a row. The test of lines
      269-274 is left out: its result is always overwritten here; so are the means (lines 250-252, 290-300), which
      are not used as [use_median] is [true]. *)
  Definition increasing (i : nat) (mh ms : list f64) : bool :=
    let g l k := nth k l fNaN in
    fle (g mh (i - 2)) (g mh (i - 1)) && fle (g ms (i - 2)) (g ms (i - 1)) &&
    fle (g mh (i - 1)) (g mh i) && fle (g ms (i - 1)) (g ms i).

  (** clustering.rs:103-303, the loop; [k] is the number of steps left ([max_nb_clusters - i]), [mh] and [ms] the
      medians found so far, [oks] the values of [i] whose numbers of clusters are possible. *)
  Fixpoint search (trials : nat -> trial) (k i : nat) (mh ms : list f64) (oks : list nat) :
      option (list f64 * list f64 * list nat) :=
    match k with
    | O => Some (mh, ms, oks)
    | S k' =>
        let '(he, se, ok) := run_trial (i + 1) (trials (i + 1)) in
        let oks' := if ok && negb (length se =? 0) && negb (length he =? 0) then oks ++ [i] else oks in
        do med_s <- median se;
        do med_h <- median he;
        let mh' := mh ++ [med_h] in
        let ms' := ms ++ [med_s] in
        if (3 <? i) && increasing i mh' ms' then Some (mh', ms', oks')
        else search trials k' (i + 1) mh' ms' oks'
    end.

  (** clustering.rs:331-349, smallest error among the possible numbers of clusters, from [best] and its error. *)
  Definition pick (errs : list f64) (best : nat) (min_err : f64) (oks : list nat) : nat :=
    fst (fold_left (fun (acc : nat * f64) k =>
           let (b, m) := acc in
           let e := nth k errs fNaN in
           if fgt m e then (k + 1, e) else (b, m)) oks (best, min_err)).

  (** clustering.rs:59-386 [find_best_number_of_clusters]; [nrows] is the number of training points. *)
  Definition find_best_number_of_clusters (nrows max_nb : nat) (trials : nat -> trial) : option (nat * recombination) :=
    let mx := if max_nb =? 0 then nrows / 10 + 1 else max_nb in
    do r <- search trials mx 0 [] [] [];
    let '(mh, ms, oks) := r in
    match oks with
    | [] => Some (1, Smooth None)
    | k0 :: _ =>
        let cluster_mse := pick mh 1 (nth k0 mh fNaN) oks in
        let cluster_mses := pick ms 1 (nth k0 ms fNaN) oks in
        if flt (nth (cluster_mse - 1) mh fNaN) (nth (cluster_mses - 1) ms fNaN)
        then Some (cluster_mse, Hard)
        else Some (cluster_mses, Smooth None)
    end.
End Search.
