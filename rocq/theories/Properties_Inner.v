(** The inner optimization of the infill criterion. *)
From Coq Require Import Reals Lra.
From Flocq Require Import Core BinarySingleNaN.
From Coq Require Import List Arith Bool Lia Permutation.
From Verif Require Import F64 F64_Extra Util Coego_Model Coego_Spec Coego_Proofs Inner_Model Inner_Proofs.
Import ListNotations.
Local Open Scope nat_scope.

(** C138: whatever the scheduling, the multistart returns the first of the successful runs with the least value;
    runs that fail or give NaN are ignored; when no run gives a value below infinity, the value is infinite, at the point of ones (and
    [optimize_infill_criterion] starts again). *)
Theorem C138_best_run : forall d outcomes c, schedule_of (map report outcomes) c ->
  ((forall y x, In (Done y x) outcomes -> flt y finf = false) /\ reduce d c = (finf, repeat fone d)) \/
  exists k y x, nth_error outcomes k = Some (Done y x) /\ reduce d c = (y, x) /\ flt y finf = true /\
    forall k' y' x', nth_error outcomes k' = Some (Done y' x') -> fnan y' = false ->
      fle y y' = true /\ (k' < k -> flt y y' = true).
Proof.
  intros d os c S. destruct (best_run d os c S) as [(A & E)|H]; [left; split; [exact A|exact E]|now right].
Qed.
Print Assumptions C138_best_run.

(** C138: the result does not depend on the scheduling. *)
Theorem C138_schedule : forall d rs c c', schedule_of rs c -> schedule_of rs c' -> reduce d c = reduce d c'.
Proof. intros d rs c c' S S'. rewrite !reduce_fold. unfold schedule_of in *. congruence. Qed.
Print Assumptions C138_schedule.

(** Three runs: a failure with a smaller value, a NaN, and two successes. *)
Definition i_runs : list outcome :=
  [Failed (fofZ (-9)) [fzero]; Done fNaN [fzero]; Done (fofZ 3) [fone]; Done (fofZ (-2)) [fofZ 2]].
Example C138_runs_example :
  let c := Join (Part (map report (firstn 2 i_runs))) (Part (map report (skipn 2 i_runs))) in
  schedule_of (map report i_runs) c /\
  feq (fst (reduce 1 c)) (fofZ (-2)) && forallb (feq (fofZ 2)) (snd (reduce 1 c)) && (length (snd (reduce 1 c)) =? 1) = true.
Proof. split; [reflexivity|vm_compute; reflexivity]. Qed.

(** C138: with any external optimizer whose successful runs stay in the bounds they are given, any starts and any
    scheduling, the proposal is in the domain; it is the current best point, or its value is the criterion there. *)
Theorem C138_proposal : forall crit solve starts sched limits xbest ybest n_coop idx rows,
  external_ok crit solve -> (forall i n rs, schedule_of rs (sched i n rs)) ->
  1 <= length limits -> 1 <= n_coop -> Permutation idx (seq 0 (length limits)) ->
  random_activity (length limits) n_coop idx = Some rows -> within limits xbest ->
  exists v x, optimize_infill (inner_optimizer solve starts sched limits) rows xbest ybest = Some (v, x) /\
    within limits x /\ ((v = ybest /\ x = xbest) \/ v = crit x).
Proof.
  intros crit solve starts sched limits xbest ybest n_coop idx rows X S L C P E W.
  destruct (inner_optimizer_ok crit solve starts sched limits X S) as [O V].
  now apply (cooperative_proposal limits _ crit xbest ybest n_coop idx rows).
Qed.
Print Assumptions C138_proposal.

(** Every panic-free call: the multistart itself returns for every group and every starts. *)
Theorem C138_total : forall solve sched limits active starts, exists r, multistart solve sched limits active starts = Some r.
Proof.
  intros solve sched limits active starts. destruct (select_some limits (strip active (length limits))) as (b & E & _).
  { apply Forall_forall. intros j Hj. apply filter_In in Hj. now apply Nat.ltb_lt. }
  unfold multistart, get_active. rewrite E. eexists. reflexivity.
Qed.
Print Assumptions C138_total.

(** C138: the only thing a run may depend on is the optimizer called from one of the starts, with the limits of the
    active variables (indexes beyond the variables are ignored) and a budget of ten evaluations per start and
    active variable, at most 2000: the multistart is the same with any two optimizers which agree there. *)
Theorem C138_budget : forall solve solve' sched limits active starts d,
  let bounds := map (fun i => nth i limits d) (filter (fun i => i <? length limits) active) in
  let budget := Nat.min 2000 (10 * length starts * length bounds) in
  (forall s, In s starts -> solve bounds budget s = solve' bounds budget s) ->
  multistart solve sched limits active starts = multistart solve' sched limits active starts.
Proof.
  intros solve solve' sched limits active starts d bounds budget H. unfold multistart.
  assert (E : get_active limits active = Some bounds).
  { unfold get_active, bounds, strip. clear.
    assert (A : forall i, In i (filter (fun i => i <? length limits) active) -> i < length limits)
      by (intros i I; apply filter_In in I; now apply Nat.ltb_lt).
    revert A. induction (filter (fun i => i <? length limits) active) as [|i l IH]; intros A; [reflexivity|].
    cbn [select map]. rewrite (nth_error_nth' limits d) by (apply A; now left). rewrite IH by (intros; apply A; now right). reflexivity. }
  assert (M : max_eval (length starts) (length bounds) = budget) by (unfold max_eval, budget; lia).
  rewrite E, M. clearbody bounds budget. f_equal. f_equal. f_equal. apply map_ext_in. intros s I. now rewrite H.
Qed.
Print Assumptions C138_budget.

(** An optimizer that returns the upper bounds it is given. *)
Definition i_solve (ctx : list f64) (a : list nat) (b : list (f64 * f64)) (budget : nat) (s : list f64) : outcome :=
  if forallb (fun l => fle (fst l) (snd l)) b then Done (fofZ 7) (map snd b) else Failed fzero s.
Example C138_proposal_example : external_ok (fun _ => fofZ 7) i_solve /\
  let limits := [(fzero, fofZ 4); (fone, fofZ 5); (fofZ (-1), fone)] in
  match random_activity 3 2 [2; 0; 1] with
  | Some rows =>
      match optimize_infill (inner_optimizer i_solve (fun _ _ _ => [[fone]; [fzero]]) (fun _ _ rs => Join (Part []) (Part rs)) limits)
              rows [fone; fone; fone] (fofZ 9) with
      | Some (v, x) => feq v (fofZ 7) && forallb (fun p => feq (fst p) (snd p)) (combine x [fofZ 4; fofZ 5; fone]) && (length x =? 3)
      | None => false
      end
  | None => false
  end = true.
Proof.
  split; [|vm_compute; reflexivity].
  intros ctx a b budget s y u E. unfold i_solve in E. destruct (forallb _ b) eqn:F; [|discriminate]. injection E as <- <-.
  split; [|reflexivity]. clear -F. induction b as [|l b IH]; [constructor|]. cbn in *. apply andb_prop in F. destruct F as [F1 F2].
  constructor; [|now apply IH]. split; [exact F1|]. pose proof (fle_nan _ _ F1) as [_ N]. apply fle_ord; auto. lra.
Qed.

(** C138: with a nonzero scale both algorithms are asked for the same thing: the constraint value is at most 0. *)
Theorem C138_same_constraints_partial : forall scale c, fnan scale = false -> feq scale fzero = false ->
  fle fzero (cobyla_constraint (nth 0 (inner_tols 1) fzero) scale c) = fle c fzero /\
  fle (slsqp_constraint (nth 0 (inner_tols 1) fzero) scale c) fzero = fle c fzero.
Proof. exact same_constraint. Qed.
Print Assumptions C138_same_constraints_partial.
Example C138_same_example : fle fzero (cobyla_constraint fzero (fofZ 3) (fofZ (-1))) = true /\
  fle fzero (cobyla_constraint fzero (fofZ 3) fone) = false.
Proof. split; vm_compute; reflexivity. Qed.

(** C138. Finding: the tolerances given by the user are not used: a value below the tolerance, which the user
    declared acceptable, is a violation for the inner optimizers. [c] is the constraint value, scaled by [scale]. *)
Theorem C138_tolerance_refuted : exists user_tol scale c : f64,
  flt fzero scale = true /\ flt c user_tol = true /\ is_finite c = true /\
  fle fzero (cobyla_constraint (nth 0 (inner_tols 1) fzero) scale (fdiv c scale)) = false /\
  fle (slsqp_constraint (nth 0 (inner_tols 1) fzero) scale (fdiv c scale)) fzero = false.
Proof.
  exists (fofZ 2), fone, fone. repeat split; vm_compute; reflexivity.
Qed.
Print Assumptions C138_tolerance_refuted.

(** C138. Finding: with a zero scale every constraint value is rejected by both algorithms. *)
Theorem C138_zero_scale_refuted : forall scale c, feq scale fzero = true ->
  fle fzero (cobyla_constraint (nth 0 (inner_tols 1) fzero) scale c) = false /\
  fle (slsqp_constraint (nth 0 (inner_tols 1) fzero) scale c) fzero = false.
Proof.
  intros scale c Z. assert (E : fdiv fzero scale = fNaN) by (destruct scale as [[|]|[|]| |[|] ? ? ?]; try discriminate Z; reflexivity).
  unfold inner_tols. cbn [repeat nth]. unfold cobyla_constraint, slsqp_constraint. rewrite E.
  destruct c as [[|]|[|]| |[|] m e H]; split; reflexivity.
Qed.
Print Assumptions C138_zero_scale_refuted.

(** C138. Finding: the result of a run is selected on the criterion alone: a run that ended at a point violating
    a constraint wins over one that ended at a feasible point. [cstr] is the constraint, feasible when at most 0. *)
Theorem C138_feasible_refuted : exists (cstr : list f64 -> f64) outcomes c k y x,
  schedule_of (map report outcomes) c /\ nth_error outcomes k = Some (Done y x) /\ is_finite y = true /\
  fle (cstr x) fzero = true /\ fle (cstr (snd (reduce (length x) c))) fzero = false.
Proof.
  exists (fun x => nth 0 x fzero), [Done fone [fofZ (-1)]; Done fzero [fone]],
    (Part (map report [Done fone [fofZ (-1)]; Done fzero [fone]])), 0, fone, [fofZ (-1)].
  split; [reflexivity|]. split; [reflexivity|]. repeat split; vm_compute; reflexivity.
Qed.
Print Assumptions C138_feasible_refuted.
