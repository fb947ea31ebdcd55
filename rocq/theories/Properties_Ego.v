(** Properties C09 to C20, C77, C78: the optimization loop. *)
From Coq Require Import ZArith List Arith Bool Lia Reals Lra.
From Verif Require Import F64 F64_Extra Util FindResult_Model FindResult_Spec FindResult_Proofs
  UpdateData_Model UpdateData_Spec UpdateData_Proofs Ego_Model Ego_Spec Ego_Proofs Ego_Run Ego_Examples Trego_Model Trego_Proofs.
Import ListNotations.

(** C09. A run never panics; it holds at most [n + iter * q] points, evaluates the objective at most that often,
    performs at most [max_iters] iterations and has stopped after [max_iters + 1] rounds. *)
Theorem C09_never_panics : forall cfg fobj fcstr orc cols doe, run_ok cfg fobj fcstr orc cols doe ->
  forall k, exists st, reached cfg fobj fcstr orc cols doe k st.
Proof.
  intros cfg fobj fcstr orc cols doe (PO & OO & DO).
  exact (reached_exists cfg fobj fcstr orc cols doe PO OO DO).
Qed.
Print Assumptions C09_never_panics.

Theorem C09_budget : forall cfg fobj fcstr orc cols doe q, run_ok cfg fobj fcstr orc cols doe ->
  (forall i a, length (b_x (o_batch orc i a)) <= q) ->
  forall k st, reached cfg fobj fcstr orc cols doe k st ->
  length st.(s_x) <= length doe + st.(s_iter) * q /\ st.(s_iter) <= cfg.(c_max_iters) /\
  st.(s_evals) <= (if cols =? cfg.(c_wx) then length doe else 0) + st.(s_iter) * q /\
  st.(s_iter) <= k.
Proof.
  intros cfg fobj fcstr orc cols doe q (PO & OO & DO).
  exact (run_budget cfg fobj fcstr orc cols doe PO OO DO q).
Qed.
Print Assumptions C09_budget.

Theorem C09_stops : forall cfg fobj fcstr orc cols doe, run_ok cfg fobj fcstr orc cols doe ->
  forall k st, reached cfg fobj fcstr orc cols doe k st -> cfg.(c_max_iters) < k -> st.(s_status) <> Running.
Proof.
  intros cfg fobj fcstr orc cols doe (PO & OO & DO).
  exact (run_stops cfg fobj fcstr orc cols doe PO OO DO).
Qed.
Print Assumptions C09_stops.

Example C09_example : run_ok cfgA ex_obj ex_cstr orcA 1 ex_doe /\
  option_map (fun st => (length st.(s_x), st.(s_iter), st.(s_evals))) (runA 1) = Some (4, 1, 4) /\
  option_map (fun st => (length st.(s_x), st.(s_iter), st.(s_evals))) (runA 9) = Some (4, 2, 4).
Proof. split; [exact A_ok|]. vm_compute. split; reflexivity. Qed.

(** C10. The counter of points is the number of rows of the three parts of the history. *)
Theorem C10_counter : forall cfg fobj fcstr orc cols doe, run_ok cfg fobj fcstr orc cols doe ->
  forall k st, reached cfg fobj fcstr orc cols doe k st ->
  st.(s_added) = length st.(s_x) /\ st.(s_added) = length st.(s_y) /\ st.(s_added) = length st.(s_c).
Proof.
  intros cfg fobj fcstr orc cols doe (PO & OO & DO).
  exact (run_counter cfg fobj fcstr orc cols doe PO OO DO).
Qed.
Print Assumptions C10_counter.

(** C10, partial: the difference of the two counters is the number of points added by the last iteration,
    when that iteration did not end the run as converged. Missing: converged iterations, refuted below. *)
Theorem C10_last_added_partial : forall cfg fobj fcstr orc cols doe, run_ok cfg fobj fcstr orc cols doe ->
  forall k st st', reached cfg fobj fcstr orc cols doe k st -> reached cfg fobj fcstr orc cols doe (S k) st' ->
  goes_on st -> st'.(s_status) <> Converged ->
  st'.(s_prev_added) = length st.(s_x) /\
  st'.(s_added) - st'.(s_prev_added) = length st'.(s_x) - length st.(s_x).
Proof.
  intros cfg fobj fcstr orc cols doe (PO & OO & DO).
  exact (run_last_added cfg fobj fcstr orc cols doe PO OO DO).
Qed.
Print Assumptions C10_last_added_partial.

(** C10. Finding: an iteration that ends as converged adds no point but the counters still differ. *)
Theorem C10_converged_refuted : exists cfg fobj fcstr orc cols doe k st st',
  run_ok cfg fobj fcstr orc cols doe /\
  reached cfg fobj fcstr orc cols doe k st /\ reached cfg fobj fcstr orc cols doe (S k) st' /\ goes_on st /\
  length st'.(s_x) - length st.(s_x) = 0 /\ st'.(s_added) - st'.(s_prev_added) = 2.
Proof.
  destruct (C09_never_panics _ _ _ _ _ _ A_ok 1) as (st & H).
  destruct (C09_never_panics _ _ _ _ _ _ A_ok 2) as (st' & H').
  exists cfgA, ex_obj, ex_cstr, orcA, 1, ex_doe, 1, st, st'.
  split; [exact A_ok|]. split; [exact H|]. split; [exact H'|].
  apply reached_run in H. apply reached_run in H'.
  split; [apply goes_onb_spec; refine (read _ _ _ _ H _); vm_compute; reflexivity|].
  assert (E : length st.(s_x) = 4) by (refine (read (fun s => length s.(s_x)) _ _ _ H _); vm_compute; reflexivity).
  assert (E' : length st'.(s_x) = 4) by (refine (read (fun s => length s.(s_x)) _ _ _ H' _); vm_compute; reflexivity).
  rewrite E, E'. split; [reflexivity|].
  refine (read (fun s => s.(s_added) - s.(s_prev_added)) _ _ _ H' _); vm_compute; reflexivity.
Qed.
Print Assumptions C10_converged_refuted.

Example C10_example : option_map (fun st => (st.(s_added), st.(s_prev_added), goes_onb st)) (runA 0) = Some (2, 0, true) /\
  option_map (fun st => (st.(s_added), st.(s_prev_added), goes_onb st)) (runA 1) = Some (4, 2, true).
Proof. vm_compute. split; reflexivity. Qed.

(** C11. After every round the recorded index is the best row of the whole history, and the recorded best point
    and best value are that row. *)
Theorem C11_best_of_history : forall cfg fobj fcstr orc cols doe, run_ok cfg fobj fcstr orc cols doe ->
  forall k st, reached cfg fobj fcstr orc cols doe k st ->
  is_best_row (run_tol cfg) (results st) st.(s_best) /\
  exists xb yb, nth_error st.(s_x) st.(s_best) = Some xb /\ nth_error st.(s_y) st.(s_best) = Some yb /\
     st.(s_best_param) = Some xb /\ st.(s_best_cost) = Some yb.
Proof.
  intros cfg fobj fcstr orc cols doe (PO & OO & DO) k st H.
  exact (conj (run_best cfg fobj fcstr orc cols doe PO OO DO k st H)
              (run_best_fields cfg fobj fcstr orc cols doe PO OO DO k st H)).
Qed.
Print Assumptions C11_best_of_history.

Example C11_example : option_map s_best (runA 0) = Some 0 /\ option_map s_best (runA 1) = Some 3 /\
  option_map s_best (runA 5) = Some 3.
Proof. vm_compute. repeat split; reflexivity. Qed.

(** C12. Between any two moments of a run the best result never gets worse: it stays feasible once feasible and
    its objective does not increase. *)
Theorem C12_never_worse : forall cfg fobj fcstr orc cols doe, run_ok cfg fobj fcstr orc cols doe ->
  forall k d st st' r r',
  reached cfg fobj fcstr orc cols doe k st -> reached cfg fobj fcstr orc cols doe (k + d) st' ->
  nth_error (results st) st.(s_best) = Some r -> nth_error (results st') st'.(s_best) = Some r' ->
  ~ better (run_tol cfg) r r' /\
  (feasible (run_tol cfg) (constraints r) ->
   feasible (run_tol cfg) (constraints r') /\ fle (objective r') (objective r) = true).
Proof.
  intros cfg fobj fcstr orc cols doe (PO & OO & DO).
  exact (run_never_worse cfg fobj fcstr orc cols doe PO OO DO).
Qed.
Print Assumptions C12_never_worse.

Example C12_example :
  option_map (fun st => option_map (fun r => (feasibleb (run_tol cfgA) (constraints r), feq (objective r) (fofZ 9)))
                          (nth_error (results st) st.(s_best))) (runA 0) = Some (Some (true, true)) /\
  option_map (fun st => option_map (fun r => (feasibleb (run_tol cfgA) (constraints r), feq (objective r) (fofZ 4)))
                          (nth_error (results st) st.(s_best))) (runA 1) = Some (Some (true, true)).
Proof. vm_compute. split; reflexivity. Qed.

(** C13. Every stored objective row is the value of the user function at the stored point (outputs supplied with
    the initial design are kept as given); no predicted value remains. *)
Theorem C13_true_objectives : forall cfg fobj fcstr orc cols doe, run_ok cfg fobj fcstr orc cols doe ->
  cols = cfg.(c_wx) -> forall k st, reached cfg fobj fcstr orc cols doe k st ->
  st.(s_y) = map fobj st.(s_x).
Proof.
  intros cfg fobj fcstr orc cols doe (PO & OO & DO) C k st.
  exact (run_y_all cfg fobj fcstr orc cols doe PO OO DO k st C).
Qed.
Print Assumptions C13_true_objectives.

Theorem C13_true_objectives_given_outputs : forall cfg fobj fcstr orc cols doe, run_ok cfg fobj fcstr orc cols doe ->
  cols <> cfg.(c_wx) -> forall k st, reached cfg fobj fcstr orc cols doe k st ->
  st.(s_x) = map (firstn cfg.(c_wx)) doe ++ skipn (length doe) st.(s_x) /\
  st.(s_y) = map (skipn cfg.(c_wx)) doe ++ map fobj (skipn (length doe) st.(s_x)).
Proof.
  intros cfg fobj fcstr orc cols doe (PO & OO & DO) C k st H.
  pose proof (run_y cfg fobj fcstr orc cols doe PO OO DO k st H) as X.
  unfold doe_x, doe_y in X. apply Nat.eqb_neq in C. rewrite C in X. exact X.
Qed.
Print Assumptions C13_true_objectives_given_outputs.

Example C13_example : option_map (fun st => map (fun y => feq (objective y) (fofZ 4)) st.(s_y)) (runA 1)
  = Some [false; false; false; true].
Proof. vm_compute. reflexivity. Qed.

(** C14. Finding: points of a global step store the constraint functions divided by a scaling factor. *)
Theorem C14_scaled_refuted : exists cfg fobj fcstr orc cols doe k st i xi ci,
  run_ok cfg fobj fcstr orc cols doe /\ reached cfg fobj fcstr orc cols doe k st /\
  nth_error st.(s_x) i = Some xi /\ nth_error st.(s_c) i = Some ci /\
  feq (nth 0 ci fNaN) (nth 0 (fcstr xi) fNaN) = false /\ fnan (nth 0 ci fNaN) = false.
Proof.
  destruct (C09_never_panics _ _ _ _ _ _ A_ok 1) as (st & H).
  destruct (nth_error st.(s_x) 3) as [xi|] eqn:Ex.
  2: { apply reached_run in H. pose proof (read (fun s => match nth_error s.(s_x) 3 with None => true | _ => false end) _ _ false H) as R.
       cbv beta in R. rewrite Ex in R. discriminate R. vm_compute. reflexivity. }
  destruct (nth_error st.(s_c) 3) as [ci|] eqn:Ec.
  2: { apply reached_run in H. pose proof (read (fun s => match nth_error s.(s_c) 3 with None => true | _ => false end) _ _ false H) as R.
       cbv beta in R. rewrite Ec in R. discriminate R. vm_compute. reflexivity. }
  exists cfgA, ex_obj, ex_cstr, orcA, 1, ex_doe, 1, st, 3, xi, ci.
  split; [exact A_ok|]. split; [exact H|]. split; [exact Ex|]. split; [exact Ec|].
  apply reached_run in H.
  pose proof (read (fun s => match nth_error s.(s_x) 3, nth_error s.(s_c) 3 with
     | Some x, Some c => (feq (nth 0 c fNaN) (nth 0 (ex_cstr x) fNaN), fnan (nth 0 c fNaN)) | _, _ => (true, true) end) _ _ (false, false) H) as R.
  cbv beta in R. rewrite Ex, Ec in R. assert (R' := R ltac:(vm_compute; reflexivity)).
  injection R' as R1 R2. split; assumption.
Qed.
Print Assumptions C14_scaled_refuted.

(** C14, partial: rows of the initial design and of local steps store the true values; every other row stores the
    true values divided component by component by the scaling factors of its proposal; hence all rows are true when
    the factors are one. Missing: factors different from one, refuted above. *)
Theorem C14_stored_constraints_partial : forall cfg fobj fcstr orc cols doe, run_ok cfg fobj fcstr orc cols doe ->
  forall k st, reached cfg fobj fcstr orc cols doe k st ->
  forall i xi ci, nth_error st.(s_x) i = Some xi -> nth_error st.(s_c) i = Some ci ->
  (i < length doe -> ci = fcstr xi) /\
  (ci = fcstr xi \/
   exists it a j s, nth_error (b_x (o_batch orc it a)) j = Some xi /\
     nth_error (b_scales (o_batch orc it a)) j = Some s /\ scaled (fcstr xi) s = Some ci).
Proof.
  intros cfg fobj fcstr orc cols doe (PO & OO & DO).
  exact (run_c cfg fobj fcstr orc cols doe PO OO DO).
Qed.
Print Assumptions C14_stored_constraints_partial.

Theorem C14_unit_scales_partial : forall cfg fobj fcstr orc cols doe, run_ok cfg fobj fcstr orc cols doe ->
  (forall i a, Forall (Forall (fun s => s = fone)) (b_scales (o_batch orc i a))) ->
  forall k st, reached cfg fobj fcstr orc cols doe k st -> st.(s_c) = map fcstr st.(s_x).
Proof.
  intros cfg fobj fcstr orc cols doe (PO & OO & DO).
  exact (run_c_unit cfg fobj fcstr orc cols doe PO OO DO).
Qed.
Print Assumptions C14_unit_scales_partial.

Example C14_example : scaled [fofZ 3; fofZ 5] [fofZ 2; fofZ 1] = Some [fdiv (fofZ 3) (fofZ 2); fdiv (fofZ 5) (fofZ 1)].
Proof. reflexivity. Qed.

(** C15. A global iteration all of whose three batches of proposals are near the history ends the run as converged
    and leaves history and best point unchanged; otherwise at least one point is added, the run goes on and the
    retry counter is back to three. *)
Theorem C15_three_empty_attempts : forall cfg fobj fcstr orc cols doe, run_ok cfg fobj fcstr orc cols doe ->
  forall k st st', reached cfg fobj fcstr orc cols doe k st -> reached cfg fobj fcstr orc cols doe (S k) st' ->
  goes_on st -> global_next cfg st ->
  ((forall a, a < 3 -> all_near st.(s_x) (b_x (o_batch orc st.(s_iter) a))) ->
     st'.(s_status) = Converged /\ st'.(s_x) = st.(s_x) /\ st'.(s_y) = st.(s_y) /\ st'.(s_c) = st.(s_c) /\
     st'.(s_best) = st.(s_best) /\ st'.(s_evals) = st.(s_evals)) /\
  (~ (forall a, a < 3 -> all_near st.(s_x) (b_x (o_batch orc st.(s_iter) a))) ->
     st'.(s_status) = Running /\ st'.(s_retries) = 3 /\ length st.(s_x) < length st'.(s_x)).
Proof.
  intros cfg fobj fcstr orc cols doe (PO & OO & DO).
  exact (run_three_attempts cfg fobj fcstr orc cols doe PO OO DO).
Qed.
Print Assumptions C15_three_empty_attempts.

Example C15_example :
  option_map (fun st => (goes_onb st, length st.(s_x))) (runA 1) = Some (true, 4) /\ global_next cfgA
     (match runA 1 with Some st => st | None => mkState [] [] [] 0 0 true None None 0 0 0 0 0 0 0 [] fzero fzero true Running 0 end) /\
  option_map (fun st => match st.(s_status) with Converged => st.(s_best) | _ => 0 end) (runA 2) = Some 3.
Proof. split; [vm_compute; reflexivity|]. split; [left; reflexivity|vm_compute; reflexivity]. Qed.

(** C16. Finding: when the first point added after the initial design becomes the best, no improvement is recorded. *)
Theorem C16_first_added_refuted : exists cfg fobj fcstr orc cols doe k st st',
  run_ok cfg fobj fcstr orc cols doe /\
  reached cfg fobj fcstr orc cols doe k st /\ reached cfg fobj fcstr orc cols doe (S k) st' /\ goes_on st /\
  st'.(s_best) <> st.(s_best) /\ length st.(s_x) <= st'.(s_best) /\
  st'.(s_last_best_iter) = 0 /\ st'.(s_iter) = 1.
Proof.
  destruct (C09_never_panics _ _ _ _ _ _ B_ok 0) as (st & H).
  destruct (C09_never_panics _ _ _ _ _ _ B_ok 1) as (st' & H').
  exists cfgA, ex_obj, ex_cstr, orcB, 1, ex_doe, 0, st, st'.
  split; [exact B_ok|]. split; [exact H|]. split; [exact H'|].
  apply reached_run in H. apply reached_run in H'.
  split; [apply goes_onb_spec; refine (read _ _ _ _ H _); vm_compute; reflexivity|].
  assert (E : (st.(s_best), length st.(s_x)) = (0, 2)) by (refine (read (fun s => (s.(s_best), length s.(s_x))) _ _ _ H _); vm_compute; reflexivity).
  assert (E' : (st'.(s_best), st'.(s_last_best_iter), st'.(s_iter)) = (2, 0, 1))
    by (refine (read (fun s => (s.(s_best), s.(s_last_best_iter), s.(s_iter))) _ _ _ H' _); vm_compute; reflexivity).
  injection E as E1 E2. injection E' as E3 E4 E5. rewrite E1, E2, E3, E4, E5. repeat split; lia.
Qed.
Print Assumptions C16_first_added_refuted.

(** C16, partial: holds when the new best point is not the first point added after the initial design. *)
Theorem C16_last_improvement_partial : forall cfg fobj fcstr orc cols doe, run_ok cfg fobj fcstr orc cols doe ->
  forall k st st', reached cfg fobj fcstr orc cols doe k st -> reached cfg fobj fcstr orc cols doe (S k) st' ->
  goes_on st -> st'.(s_best) <> st.(s_best) -> length doe < st'.(s_best) ->
  st'.(s_last_best_iter) = S st.(s_iter).
Proof.
  intros cfg fobj fcstr orc cols doe (PO & OO & DO).
  exact (run_last_best_iter cfg fobj fcstr orc cols doe PO OO DO).
Qed.
Print Assumptions C16_last_improvement_partial.

Example C16_example : option_map (fun st => (st.(s_best), st.(s_last_best_iter))) (runA 1) = Some (3, 1).
Proof. vm_compute. reflexivity. Qed.

(** C17. The feasibility flag never goes back to false; it is true as soon as the history has a feasible row; and,
    when the flag is in use, it is true only if the history has a feasible row. *)
Theorem C17_flag_monotone : forall cfg fobj fcstr orc cols doe, run_ok cfg fobj fcstr orc cols doe ->
  forall k d st st', reached cfg fobj fcstr orc cols doe k st -> reached cfg fobj fcstr orc cols doe (k + d) st' ->
  st.(s_feas) = true -> st'.(s_feas) = true.
Proof.
  intros cfg fobj fcstr orc cols doe (PO & OO & DO).
  exact (run_feas_monotone cfg fobj fcstr orc cols doe PO OO DO).
Qed.
Print Assumptions C17_flag_monotone.

Theorem C17_flag_complete : forall cfg fobj fcstr orc cols doe, run_ok cfg fobj fcstr orc cols doe ->
  forall k st, reached cfg fobj fcstr orc cols doe k st ->
  (exists r, In r (results st) /\ feasible (run_tol cfg) (constraints r)) -> st.(s_feas) = true.
Proof.
  intros cfg fobj fcstr orc cols doe (PO & OO & DO).
  exact (run_feas_complete cfg fobj fcstr orc cols doe PO OO DO).
Qed.
Print Assumptions C17_flag_complete.

Theorem C17_flag_sound : forall cfg fobj fcstr orc cols doe, run_ok cfg fobj fcstr orc cols doe ->
  cfg.(c_use_pof) = true -> forall k st, reached cfg fobj fcstr orc cols doe k st -> st.(s_feas) = true ->
  exists r, In r (results st) /\ feasible (run_tol cfg) (constraints r).
Proof.
  intros cfg fobj fcstr orc cols doe (PO & OO & DO) U k st.
  exact (run_feas_sound cfg fobj fcstr orc cols doe PO OO DO k st U).
Qed.
Print Assumptions C17_flag_sound.

Example C17_example : option_map s_feas (runA 0) = Some true /\ option_map s_feas (runC 0) = Some false.
Proof. vm_compute. split; reflexivity. Qed.

(** C18. The size starts at 0.1. *)
Theorem C18_initial_size : forall cfg fobj fcstr orc cols doe, run_ok cfg fobj fcstr orc cols doe ->
  forall st, reached cfg fobj fcstr orc cols doe 0 st -> st.(s_sigma) = fdiv fone (fofZ 10).
Proof.
  intros cfg fobj fcstr orc cols doe (PO & OO & DO) st (st0 & I & E). cbn [exec] in E. injection E as <-.
  now apply (init_facts cfg fobj fcstr cols doe PO DO).
Qed.
Print Assumptions C18_initial_size.

(** C18. The trust-region size of a run: unchanged at iteration 0, multiplied by gamma after a success, by beta
    after a failed local step, unchanged after a failed global step; a success is a decrease of the best objective
    by more than the squared size. *)
Theorem C18_size_step : forall cfg fobj fcstr orc cols doe, run_ok cfg fobj fcstr orc cols doe ->
  forall k st st', cfg.(c_trego) = true ->
  reached cfg fobj fcstr orc cols doe k st -> reached cfg fobj fcstr orc cols doe (S k) st' -> goes_on st ->
  (st.(s_iter) = 0 -> st'.(s_sigma) = st.(s_sigma)) /\
  (st.(s_iter) <> 0 -> sufficient_decrease st -> st'.(s_sigma) = fmul st.(s_sigma) cfg.(c_gamma)) /\
  (st.(s_iter) <> 0 -> ~ sufficient_decrease st -> st.(s_prev_ego) = false ->
     st'.(s_sigma) = fmul st.(s_sigma) cfg.(c_beta)) /\
  (st.(s_iter) <> 0 -> ~ sufficient_decrease st -> st.(s_prev_ego) = true -> st'.(s_sigma) = st.(s_sigma)).
Proof.
  intros cfg fobj fcstr orc cols doe (PO & OO & DO).
  exact (sigma_step' cfg fobj fcstr orc cols doe PO OO DO).
Qed.
Print Assumptions C18_size_step.

(** The flag read by the schedule is whether the previous iteration was a global step. *)
Theorem C18_previous_step_flag : forall cfg fobj fcstr orc cols doe, run_ok cfg fobj fcstr orc cols doe ->
  forall k st st', cfg.(c_trego) = true ->
  reached cfg fobj fcstr orc cols doe k st -> reached cfg fobj fcstr orc cols doe (S k) st' -> goes_on st ->
  (st'.(s_prev_ego) = true <-> global_next cfg st).
Proof.
  intros cfg fobj fcstr orc cols doe (PO & OO & DO).
  exact (prev_flag cfg fobj fcstr orc cols doe PO OO DO).
Qed.
Print Assumptions C18_previous_step_flag.

(** In exact arithmetic the size after any sequence of outcomes (previous step global?, success?) is
    sigma0 * gamma^s * beta^f; the outcome of iteration 0 does not count. *)
Theorem C18_closed_form : forall gamma beta o l sigma,
  sigmas Rmult gamma beta 0 (o :: l) sigma = (sigma * gamma ^ successes l * beta ^ failed_locals l)%R.
Proof. exact sigmas_closed. Qed.
Print Assumptions C18_closed_form.

(** C18. Finding: in double precision with beta at most 1/2 the size underflows to zero. *)
Theorem C18_underflow_refuted : exists cfg fobj fcstr orc cols doe k st,
  run_ok cfg fobj fcstr orc cols doe /\ cfg.(c_trego) = true /\ flt fzero cfg.(c_beta) = true /\
  reached cfg fobj fcstr orc cols doe k st /\ feq st.(s_sigma) fzero = true.
Proof.
  destruct (C09_never_panics _ _ _ _ _ _ T_ok 110) as (st & H).
  exists cfgT, ex_obj, ex_cstr, orcT, 1, ex_doe, 110, st.
  split; [exact T_ok|]. split; [reflexivity|]. split; [vm_compute; reflexivity|]. split; [exact H|].
  apply reached_run in H. refine (read (fun s => feq s.(s_sigma) fzero) _ _ _ H _). vm_compute. reflexivity.
Qed.
Print Assumptions C18_underflow_refuted.

(** C18, partial: with both factors above 1/2 (the defaults are 0.9 and 10/9) the size stays positive.
    Missing: a factor at most 1/2, refuted above; and the closed form, exact only in real arithmetic. *)
Theorem C18_positive_partial : forall cfg fobj fcstr orc cols doe, run_ok cfg fobj fcstr orc cols doe ->
  forall k st, reached cfg fobj fcstr orc cols doe k st ->
  fnan cfg.(c_gamma) = false -> (1 / 2 < ord cfg.(c_gamma))%R ->
  fnan cfg.(c_beta) = false -> (1 / 2 < ord cfg.(c_beta))%R ->
  fnan st.(s_sigma) = false /\ (0 < ord st.(s_sigma))%R.
Proof.
  intros cfg fobj fcstr orc cols doe (PO & OO & DO).
  exact (sigma_positive cfg fobj fcstr orc cols doe PO OO DO).
Qed.
Print Assumptions C18_positive_partial.

Example C18_example : run_ok cfgU ex_obj ex_cstr orcU 1 ex_doe /\
  fnan cfgU.(c_gamma) = false /\ fnan cfgU.(c_beta) = false /\ flt (fmake 1 (-1)) cfgU.(c_beta) = true /\
  option_map (fun st => map (fun v => feq st.(s_sigma) (fmul sigma_init v)) [fofZ 1; cfgU.(c_beta)]) (runU 2) = Some [true; false] /\
  option_map (fun st => map (fun v => feq st.(s_sigma) (fmul sigma_init v)) [fofZ 1; cfgU.(c_beta)]) (runU 3) = Some [false; true].
Proof. split; [exact U_ok|]. vm_compute. repeat split; reflexivity. Qed.

(** C19. In trust-region mode an iteration whose number is a multiple of n_local+1 is a global step: what it adds
    comes from the global proposals. *)
Theorem C19_multiple_is_global : forall cfg fobj fcstr orc cols doe, run_ok cfg fobj fcstr orc cols doe ->
  forall k st st', cfg.(c_trego) = true ->
  reached cfg fobj fcstr orc cols doe k st -> reached cfg fobj fcstr orc cols doe (S k) st' -> goes_on st ->
  st.(s_iter) mod (1 + cfg.(c_n_local)) = 0 ->
  exists px pc, st'.(s_x) = st.(s_x) ++ px /\ st'.(s_c) = st.(s_c) ++ pc /\ global_outcome fcstr orc st st' px pc.
Proof.
  intros cfg fobj fcstr orc cols doe (PO & OO & DO).
  exact (multiple_is_global cfg fobj fcstr orc cols doe PO OO DO).
Qed.
Print Assumptions C19_multiple_is_global.

(** C19. Among any n_local+1 consecutive iterations one is global (unless the run stops before). *)
Theorem C19_global_recurrent : forall cfg fobj fcstr orc cols doe, run_ok cfg fobj fcstr orc cols doe ->
  forall k st, cfg.(c_trego) = true -> reached cfg fobj fcstr orc cols doe k st ->
  exists j st', j <= cfg.(c_n_local) /\ reached cfg fobj fcstr orc cols doe (k + j) st' /\
    (~ goes_on st' \/
     forall st'', reached cfg fobj fcstr orc cols doe (S (k + j)) st'' ->
       exists px pc, st''.(s_x) = st'.(s_x) ++ px /\ st''.(s_c) = st'.(s_c) ++ pc /\
         global_outcome fcstr orc st' st'' px pc).
Proof.
  intros cfg fobj fcstr orc cols doe (PO & OO & DO).
  exact (recurrent_global cfg fobj fcstr orc cols doe PO OO DO).
Qed.
Print Assumptions C19_global_recurrent.

Example C19_example : option_map (fun st => (st.(s_iter), st.(s_prev_ego))) (runU 1) = Some (1, true) /\
  option_map (fun st => (st.(s_iter), st.(s_prev_ego))) (runU 2) = Some (2, false) /\
  option_map (fun st => (st.(s_iter), st.(s_prev_ego))) (runU 3) = Some (3, true).
Proof. vm_compute. repeat split; reflexivity. Qed.

(** C20. The local search area is inside the domain and the trust region and contains the best point. *)
Theorem C20_local_area : forall d0 d1, fnan d0 = false -> fnan d1 = false -> (0 <= ord d0)%R -> (0 <= ord d1)%R ->
  forall origin xlimits, length origin = length xlimits ->
  (forall i xb lo up, nth_error origin i = Some xb -> nth_error xlimits i = Some (lo, up) ->
     Flocq.IEEE754.BinarySingleNaN.is_finite xb = true /\ fnan lo = false /\ fnan up = false /\
     fle lo xb = true /\ fle xb up = true) ->
  exists area, local_area d0 d1 origin xlimits = Some area /\ length area = length xlimits /\
   forall i xb lo up, nth_error origin i = Some xb -> nth_error xlimits i = Some (lo, up) ->
     exists a b, nth_error area i = Some (a, b) /\
       fle lo a = true /\ fle a xb = true /\ fle xb b = true /\ fle b up = true /\
       fle (fsub xb d0) a = true /\ fle b (fadd xb d1) = true.
Proof. exact local_area_spec. Qed.
Print Assumptions C20_local_area.

Example C20_example :
  option_map (map (fun ab => (feq (fst ab) (fofZ 1), feq (snd ab) (fofZ 3))))
    (local_area (fofZ 1) (fofZ 5) [fofZ 2; fofZ 1] [(fofZ 0, fofZ 3); (fofZ 1, fofZ 9)])
  = Some [(true, true); (true, false)].
Proof. vm_compute. reflexivity. Qed.

(** C77. Finding: an iteration that changes nothing (converged) can be recorded as the last improvement. *)
Theorem C77_no_improvement_refuted : exists cfg fobj fcstr orc cols doe k st st',
  run_ok cfg fobj fcstr orc cols doe /\
  reached cfg fobj fcstr orc cols doe k st /\ reached cfg fobj fcstr orc cols doe (S k) st' /\ goes_on st /\
  st'.(s_best) = st.(s_best) /\ length st'.(s_x) = length st.(s_x) /\
  st.(s_last_best_iter) = 1 /\ st'.(s_last_best_iter) = 2.
Proof.
  destruct (C09_never_panics _ _ _ _ _ _ A_ok 1) as (st & H).
  destruct (C09_never_panics _ _ _ _ _ _ A_ok 2) as (st' & H').
  exists cfgA, ex_obj, ex_cstr, orcA, 1, ex_doe, 1, st, st'.
  split; [exact A_ok|]. split; [exact H|]. split; [exact H'|].
  apply reached_run in H. apply reached_run in H'.
  split; [apply goes_onb_spec; refine (read _ _ _ _ H _); vm_compute; reflexivity|].
  assert (E : (st.(s_best), length st.(s_x), st.(s_last_best_iter)) = (3, 4, 1))
    by (refine (read (fun s => (s.(s_best), length s.(s_x), s.(s_last_best_iter))) _ _ _ H _); vm_compute; reflexivity).
  assert (E' : (st'.(s_best), length st'.(s_x), st'.(s_last_best_iter)) = (3, 4, 2))
    by (refine (read (fun s => (s.(s_best), length s.(s_x), s.(s_last_best_iter))) _ _ _ H' _); vm_compute; reflexivity).
  injection E as E1 E2 E3. injection E' as E4 E5 E6. rewrite E1, E2, E3, E4, E5, E6. repeat split.
Qed.
Print Assumptions C77_no_improvement_refuted.

(** C77, partial: an iteration that keeps running and does not change the best point does not touch the record.
    Missing: the converged iteration, refuted above. *)
Theorem C77_no_improvement_partial : forall cfg fobj fcstr orc cols doe, run_ok cfg fobj fcstr orc cols doe ->
  forall k st st', reached cfg fobj fcstr orc cols doe k st -> reached cfg fobj fcstr orc cols doe (S k) st' ->
  goes_on st -> st'.(s_status) <> Converged -> st'.(s_best) = st.(s_best) ->
  st'.(s_last_best_iter) = st.(s_last_best_iter).
Proof.
  intros cfg fobj fcstr orc cols doe (PO & OO & DO).
  exact (run_no_improvement cfg fobj fcstr orc cols doe PO OO DO).
Qed.
Print Assumptions C77_no_improvement_partial.

Example C77_example : option_map (fun st => (st.(s_best), st.(s_last_best_iter), goes_onb st)) (runU 1) = Some (0, 0, true) /\
  option_map (fun st => (st.(s_best), st.(s_last_best_iter), goes_onb st)) (runU 2) = Some (0, 0, true).
Proof. vm_compute. split; reflexivity. Qed.

(** C78. Finding: the target stop ignores the constraints: a run stops as "target reached" although no feasible
    point is known. *)
Theorem C78_target_infeasible_refuted : exists cfg fobj fcstr orc cols doe k st,
  run_ok cfg fobj fcstr orc cols doe /\ reached cfg fobj fcstr orc cols doe k st /\
  st.(s_status) = TargetReached /\ st.(s_feas) = false /\ cfg.(c_use_pof) = true /\
  ~ exists r, In r (results st) /\ feasible (run_tol cfg) (constraints r).
Proof.
  destruct (C09_never_panics _ _ _ _ _ _ C_ok 1) as (st & H).
  exists cfgC, ex_obj, ex_cstr_bad, orcB, 1, ex_doe, 1, st.
  split; [exact C_ok|]. split; [exact H|].
  assert (F : st.(s_feas) = false).
  { apply reached_run in H. refine (read s_feas _ _ _ H _); vm_compute; reflexivity. }
  split; [|split; [exact F|split; [reflexivity|]]].
  - apply reached_run in H. refine (read s_status _ _ _ H _); vm_compute; reflexivity.
  - intros X. pose proof (C17_flag_complete _ _ _ _ _ _ C_ok 1 st H X). congruence.
Qed.
Print Assumptions C78_target_infeasible_refuted.

(** C78, partial: a run stopped by the target has a best objective at most the target. Missing: its feasibility. *)
Theorem C78_target_stop_partial : forall cfg fobj fcstr orc cols doe, run_ok cfg fobj fcstr orc cols doe ->
  forall k st, reached cfg fobj fcstr orc cols doe k st -> st.(s_status) = TargetReached ->
  exists yb, nth_error st.(s_y) st.(s_best) = Some yb /\ fle (objective yb) cfg.(c_target) = true.
Proof.
  intros cfg fobj fcstr orc cols doe (PO & OO & DO).
  exact (run_target_value cfg fobj fcstr orc cols doe PO OO DO).
Qed.
Print Assumptions C78_target_stop_partial.

Example C78_example : option_map (fun st => match st.(s_status) with TargetReached => st.(s_best) | _ => 7 end) (runC 1) = Some 0.
Proof. vm_compute. reflexivity. Qed.

(** C82. In a whole run, no point added to the history is closer than the duplicate tolerance to an earlier point of
    the history, wherever that one comes from; in particular no finite point is evaluated twice. *)
Theorem C82_run_distances : forall cfg fobj fcstr orc cols doe, run_ok cfg fobj fcstr orc cols doe ->
  forall k st, reached cfg fobj fcstr orc cols doe k st ->
  forall i j p q, i < j -> length doe <= j -> nth_error st.(s_x) i = Some p -> nth_error st.(s_x) j = Some q -> ~ near p q.
Proof.
  intros cfg fobj fcstr orc cols doe (PO & OO & DO).
  exact (run_distances cfg fobj fcstr orc cols doe PO OO DO).
Qed.
Print Assumptions C82_run_distances.

Theorem C82_never_twice : forall cfg fobj fcstr orc cols doe, run_ok cfg fobj fcstr orc cols doe ->
  forall k st, reached cfg fobj fcstr orc cols doe k st ->
  forall i j p, i < j -> length doe <= j -> finite_row p -> nth_error st.(s_x) i = Some p -> nth_error st.(s_x) j <> Some p.
Proof.
  intros cfg fobj fcstr orc cols doe R k st H i j p L D F Hi Hj.
  exact (C82_run_distances cfg fobj fcstr orc cols doe R k st H i j p p L D Hi Hj (near_self p F)).
Qed.
Print Assumptions C82_never_twice.

(** Run A adds two points to the two initial ones. *)
Example C82_example : run_ok cfgA ex_obj ex_cstr orcA 1 ex_doe /\
  option_map (fun st => (length ex_doe, length st.(s_x))) (runA 1) = Some (2, 4).
Proof. split; [exact A_ok|]. vm_compute. reflexivity. Qed.
