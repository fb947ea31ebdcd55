(** Automatic choice of the number of clusters and of the recombination (C127 - C129). *)
From Coq Require Import Reals Lra.
From Coq Require Import List Arith Bool Lia.
From Flocq Require Import Core BinarySingleNaN.
From Verif Require Import F64 Util Moe_Model Nbc_Model Nbc_Proofs.
Import ListNotations.

(** ** C127: the number is between 1 and the requested maximum (between 1 and a tenth of the number of points plus
    one without a maximum), whatever the data, the clusterings, the trainings and the predictions. *)
Theorem C127_range : forall sum nrows max_nb trials n r,
  find_best_number_of_clusters sum nrows max_nb trials = Some (n, r) ->
  1 <= n /\ (max_nb <> 0 -> n <= max_nb) /\ (max_nb = 0 -> n <= nrows / 10 + 1) /\ (r = Hard \/ r = Smooth None).
Proof.
  intros sum nrows mx trials n r H. destruct (find_range _ _ _ _ _ _ H) as [[A B] C]. unfold limit in B.
  split; auto. split; [|split; auto].
  - intros E. apply Nat.eqb_neq in E. now rewrite E in B.
  - intros ->. exact B.
Qed.

(** Witnesses: folds with one validation point of output [a], predicted [h] and [s]; [k] is the number of elements of
    the clusters. *)
Definition fold1 (k : nat) (a h s : f64) : fold := Fold (Some (Fitted [k; k; k] (Some [h]) (Some [s]))) [a].
Definition lsum (l : list f64) : f64 := fold_left fadd l fzero.
Definition z (n : BinInt.Z) : f64 := fofZ n.

(** Median errors 0.5, 0.25, 0.5 (hard) and 3, 2, 3 (smooth) for 1, 2, 3 clusters. *)
Definition trials_a (n : nat) : trial :=
  match n with
  | 1 => Some (repeat (fold1 10 (z 2) (z 3) (z 5)) 5)
  | 2 => Some [fold1 10 (z 4) (z 5) (z 6); fold1 10 (z 4) (z 9) (z 3); fold1 10 (z 4) (z 5) (z 6); fold1 10 (z 4) (z 5) (z 6);
               fold1 10 (z 4) (z 4) (z 6)]
  | 3 => Some (repeat (fold1 10 (z 2) (z 3) (z 5)) 5)
  | _ => None
  end.
Example C127_case : find_best_number_of_clusters lsum 27 0 trials_a = Some (2, Hard).
Proof. vm_compute. reflexivity. Qed.

Print Assumptions C127_range.

(** ** C128: the selected number of clusters and recombination have the least cross-validation error. *)

(** When one cluster is a possibility (and with five folds): the selected number is a possible one and its error with
    the selected recombination is at most the error of every possible number tried, with any recombination; numbers
    are tried in increasing order up to the maximum or until both errors fail to decrease twice in a row.
    Missing: the case where one cluster is not possible, and errors of the two recombinations measured alike. *)
Theorem C128_selection_partial : forall sum nrows max_nb trials n r,
  (forall k folds, trials k = Some folds -> length folds = 5) ->
  possible 1 (trials 1) ->
  find_best_number_of_clusters sum nrows max_nb trials = Some (n, r) ->
  let mx := if max_nb =? 0 then nrows / 10 + 1 else max_nb in
  exists tried,
    (tried = mx \/ (5 <= tried <= mx /\
       forall r a b c, cv_error sum r (trials (tried - 2)) a -> cv_error sum r (trials (tried - 1)) b ->
         cv_error sum r (trials tried) c -> fle a b = true /\ fle b c = true)) /\
    1 <= n <= tried /\ possible n (trials n) /\
    exists e, cv_error sum r (trials n) e /\
      forall m r' e', 1 <= m <= tried -> possible m (trials m) -> cv_error sum r' (trials m) e' -> fle e e' = true.
Proof.
  intros sum nrows mx trials n r H5 Hp H. cbv zeta.
  destruct (selection sum trials H5 nrows mx n r Hp H) as (t & A & B & C & D).
  exists t. split; [|auto]. destruct A as [A|[A1 [A2 A3]]]; [left; exact A|right].
  split; [split; [exact A2|exact A1]|exact A3].
Qed.

Lemma possible_check n t : okb lsum n t = true -> possible n t.
Proof. apply okb_possible. Qed.
Lemma impossible_check n t : okb lsum n t = false -> ~ possible n t.
Proof. intros H P. apply (okb_possible lsum) in P. congruence. Qed.

Example C128_case :
  (forall k folds, trials_a k = Some folds -> length folds = 5) /\ possible 1 (trials_a 1) /\
  find_best_number_of_clusters lsum 27 0 trials_a = Some (2, Hard).
Proof.
  split; [|split].
  - intros [|[|[|[|k]]]] folds H; try discriminate H; injection H as <-; reflexivity.
  - apply possible_check. vm_compute. reflexivity.
  - vm_compute. reflexivity.
Qed.

(** All the errors of [t] with recombination [r] are equal to [v]. *)
Lemma cv_const sum r t v e : forallb (fun x => feq x v) (scores sum r t) = true -> cv_error sum r t e -> feq e v = true.
Proof. intros H (fs & -> & He & _). rewrite forallb_forall in H. exact (H e He). Qed.

(** With three elements in its cluster, one cluster is not possible. *)
Definition trials_b (n : nat) : trial :=
  match n with
  | 1 => Some (repeat (fold1 3 (z 1) (z 9) (z 9)) 5)
  | 2 => Some (repeat (fold1 9 (z 1) (z 2) (z 2)) 5)
  | _ => None
  end.

(** The selected number of clusters is 1, which is not a possible one, although 2 is possible with smaller errors. *)
Theorem C128_possible_refuted : exists trials r,
  (forall n, n = 1 \/ n = 2 -> exists folds, trials n = Some folds /\ length folds = 5) /\
  find_best_number_of_clusters lsum 20 2 trials = Some (1, r) /\
  ~ possible 1 (trials 1) /\ possible 2 (trials 2) /\
  forall r' e1 e2, cv_error lsum r' (trials 1) e1 -> cv_error lsum r' (trials 2) e2 -> flt e2 e1 = true.
Proof.
  exists trials_b, (Smooth None). split; [|split; [|split; [|split]]].
  - intros n [E|E]; subst n; eexists; (split; [reflexivity|reflexivity]).
  - vm_compute. reflexivity.
  - apply impossible_check. vm_compute. reflexivity.
  - apply possible_check. vm_compute. reflexivity.
  - intros r e1 e2 H1 H2.
    assert (X1 : feq e1 (z 8) = true) by (apply (cv_const lsum r (trials_b 1)); [destruct r; vm_compute; reflexivity|auto]).
    assert (X2 : feq e2 (z 1) = true) by (apply (cv_const lsum r (trials_b 2)); [destruct r; vm_compute; reflexivity|auto]).
    destruct (feq_nan _ _ X1) as [N1 N1'], (feq_nan _ _ X2) as [N2 N2'].
    apply feq_ord in X1; auto. apply feq_ord in X2; auto.
    assert (Y : flt (z 1) (z 8) = true) by (vm_compute; reflexivity).
    apply flt_ord in Y; auto. apply flt_ord; auto. lra.
Qed.

(** The hard recombination is selected although, in every fold, the predictions of the smooth one are closer to the
    outputs: errors of the former are divided by the sum of the outputs and those of the latter are not. *)
Definition trials_c (n : nat) : trial :=
  match n with 1 => Some (repeat (fold1 9 (z 100) (z 110) (z 101)) 5) | _ => None end.
Theorem C128_recombination_refuted : exists trials,
  find_best_number_of_clusters lsum 20 1 trials = Some (1, Hard) /\ possible 1 (trials 1) /\
  exists folds, trials 1 = Some folds /\ length folds = 5 /\
    forall f, In f folds -> exists m a h s, f = Fold (Some m) [a] /\ ft_hard m = Some [h] /\ ft_smooth m = Some [s] /\
      flt (fabs (fsub s a)) (fabs (fsub h a)) = true.
Proof.
  exists trials_c. split; [vm_compute; reflexivity|]. split; [apply possible_check; vm_compute; reflexivity|].
  exists (repeat (fold1 9 (z 100) (z 110) (z 101)) 5). split; [reflexivity|]. split; [reflexivity|].
  intros f Hf. apply repeat_spec in Hf. subst f.
  eexists _, (z 100), (z 110), (z 101). split; [reflexivity|]. split; [reflexivity|]. split; [reflexivity|].
  vm_compute. reflexivity.
Qed.

Print Assumptions C128_selection_partial.
Print Assumptions C128_possible_refuted.
Print Assumptions C128_recombination_refuted.

(** ** C129: the automatic choice always returns. *)

(** It does when all the clusterings succeed and, in each fold, validation outputs are finite and not all zero with a
    finite sum; trainings and predictions may fail or be infinite or NaN.
    Missing: failing clusterings and folds whose outputs are all zero. *)
Theorem C129_returns_partial : forall sum nrows max_nb trials,
  (forall l, (forall x, In x l -> fnan x = false /\ fle fzero x = true) -> fnan (sum l) = false /\ fle fzero (sum l) = true) ->
  (forall n, 1 <= n <= (if max_nb =? 0 then nrows / 10 + 1 else max_nb) ->
    exists folds, trials n = Some folds /\ length folds = 5 /\
      forall f, In f folds -> (forall a, In a (fd_actual f) -> is_finite a = true) /\
        is_finite (sum (map fabs (fd_actual f))) = true /\ flt fzero (sum (map fabs (fd_actual f))) = true) ->
  exists n r, find_best_number_of_clusters sum nrows max_nb trials = Some (n, r).
Proof.
  intros sum nrows mx trials Hs H. destruct (find_some sum nrows mx trials) as [[n r] E]; [|eauto].
  intros n r Hn. destruct (H n Hn) as (fs & E & H5 & Hf). rewrite E.
  apply (median_odd_some _ 2); [rewrite scores_length; lia|].
  intros x Hx. cbn [scores] in Hx. apply in_map_iff in Hx as (f & <- & Hin).
  destruct (Hf f Hin) as (A & B & C). apply score_number; auto.
Qed.

Definition trials_d (n : nat) : trial :=
  Some [Fold None [z 1; z 2]; fold1 2 (z 1) fNaN (z 2); fold1 2 (z 1) finf (z 2);
        Fold (Some (Fitted [] None None)) [z 0; z 2]; fold1 9 (z 1) (z 2) (z 2)].
Example C129_case :
  (forall l, (forall x, In x l -> fnan x = false /\ fle fzero x = true) -> fnan (lsum l) = false /\ fle fzero (lsum l) = true) /\
  (forall n, 1 <= n <= 3 -> exists folds, trials_d n = Some folds /\ length folds = 5 /\
      forall f, In f folds -> (forall a, In a (fd_actual f) -> is_finite a = true) /\
        is_finite (lsum (map fabs (fd_actual f))) = true /\ flt fzero (lsum (map fabs (fd_actual f))) = true) /\
  find_best_number_of_clusters lsum 20 3 trials_d = Some (1, Smooth None).
Proof.
  split; [exact sums_left|]. split; [|vm_compute; reflexivity].
  intros n _. eexists. split; [reflexivity|]. split; [reflexivity|].
  intros f Hf.
  assert (X : forallb (fun f => forallb is_finite (fd_actual f) && is_finite (lsum (map fabs (fd_actual f))) &&
                flt fzero (lsum (map fabs (fd_actual f)))) (match trials_d n with Some l => l | None => [] end) = true)
    by (vm_compute; reflexivity).
  rewrite forallb_forall in X. specialize (X f Hf).
  apply andb_true_iff in X as [X X3]. apply andb_true_iff in X as [X1 X2]. rewrite forallb_forall in X1. auto.
Qed.

(** A clustering which fails for some number of clusters makes the whole training panic instead of ruling this number
    out: the median of an empty list of errors is taken. *)
Theorem C129_clustering_refuted : exists trials,
  possible 1 (trials 1) /\ possible 2 (trials 2) /\ trials 3 = None /\
  find_best_number_of_clusters lsum 20 3 trials = None.
Proof.
  exists (fun n => match n with 3 => None | _ => Some (repeat (fold1 9 (z 1) (z 2) (z 2)) 5) end).
  split; [apply possible_check; vm_compute; reflexivity|]. split; [apply possible_check; vm_compute; reflexivity|].
  split; [reflexivity|]. vm_compute. reflexivity.
Qed.

(** So does one fold whose outputs are zero and exactly predicted: its relative error is 0/0. *)
Theorem C129_zero_refuted : exists folds,
  length folds = 5 /\ possible 1 (Some folds) /\
  (exists f, In f folds /\ f = Fold (Some (Fitted [9] (Some [fzero]) (Some [fzero]))) [fzero]) /\
  find_best_number_of_clusters lsum 20 1 (fun _ => Some folds) = None.
Proof.
  exists (Fold (Some (Fitted [9] (Some [fzero]) (Some [fzero]))) [fzero] :: repeat (fold1 9 (z 1) (z 2) (z 2)) 4).
  split; [reflexivity|]. split; [apply possible_check; vm_compute; reflexivity|].
  split; [eexists; split; [left; reflexivity|reflexivity]|]. vm_compute. reflexivity.
Qed.

Print Assumptions C129_returns_partial.
Print Assumptions C129_clustering_refuted.
Print Assumptions C129_zero_refuted.
