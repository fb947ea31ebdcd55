(** Properties C21 to C25 and C79: warm start, hot start and the configuration check. *)
From Coq Require Import ZArith List Arith Bool Lia.
From Flocq Require Import IEEE754.BinarySingleNaN.
From Verif Require Import F64 Util FindResult_Model FindResult_Spec FindResult_Proofs
  UpdateData_Model UpdateData_Spec Ego_Model Ego_Spec Ego_Proofs Ego_Run Ego_Examples
  Restart_Model Restart_Spec Restart_Proofs.
Import ListNotations.

(** ** C21. Warm start *)

(** C21, partial: without constraint functions, restarting from the history file of any reachable state gives the
    same inputs, outputs, constraints and best point, with no evaluation. Missing: constraint functions, refuted
    below. *)
Theorem C21_warm_start_partial : forall cfg fobj fcstr orc cols doe, run_ok cfg fobj fcstr orc cols doe ->
  forall k st, reached cfg fobj fcstr orc cols doe k st -> cfg.(c_wc) = 0 ->
  (cfg.(c_wy) = 1 \/ no_infinite_trap (run_tol cfg) (results st)) ->
  exists file st', history_file st = Some file /\ warm_start cfg fobj fcstr file = Some st' /\
    s_x st' = s_x st /\ s_y st' = s_y st /\ s_c st' = s_c st /\ s_best st' = s_best st /\ s_evals st' = 0.
Proof.
  intros cfg fobj fcstr orc cols doe (PO & OO & DO).
  exact (warm_start_restores cfg fobj fcstr orc cols doe PO OO DO).
Qed.
Print Assumptions C21_warm_start_partial.

(** An objective and one metamodelled constraint, no constraint function. *)
Definition w_obj (x : row) : row := ex_obj x ++ [fsub fone (nth 0 x fzero)].
Definition w_cfg : config := mkConfig 1 2 0 false (fofZ 2) fone 1 4 (fofZ (-1000)) None true.
Definition w_orc : oracle :=
  mkOracle (fun i _ => mkBatch [[fofZ (5 + Z.of_nat i)]] [[fNaN; fNaN]] [[]]) (fun i => [fofZ (-5 - Z.of_nat i)]).
Lemma w_ok : run_ok w_cfg w_obj (fun _ => []) w_orc 1 ex_doe.
Proof.
  split; [|split].
  - constructor; try (simpl; lia); try reflexivity. intros x. unfold w_obj, objective, ex_obj. simpl.
    destruct (fnan (fmul _ _)) eqn:E; [reflexivity|exact E].
  - split; [|reflexivity]. intros i a. constructor; simpl; try congruence; try reflexivity; repeat constructor.
  - constructor; [discriminate|repeat constructor|now left|intros X; exfalso; now apply X|].
    right. left. exists (w_obj [fofZ 3] ++ []). split; [left; reflexivity|].
    split; [apply feasibleb_spec|]; vm_compute; reflexivity.
Qed.
Definition w_run := run w_cfg w_obj (fun _ => []) w_orc 1 ex_doe.
Definition has_good_b (cfg : config) (st : state) : bool :=
  existsb (fun r => feasibleb (run_tol cfg) (constraints r) && flt (objective r) finf) (results st).
Lemma has_good_trap cfg st : has_good_b cfg st = true -> no_infinite_trap (run_tol cfg) (results st).
Proof.
  intros E. apply existsb_exists in E. destruct E as (r & I & E). apply andb_true_iff in E. destruct E as [A B].
  left. exists r. split; [exact I|]. split; [now apply feasibleb_spec|exact B].
Qed.
Example C21_example : run_ok w_cfg w_obj (fun _ => []) w_orc 1 ex_doe /\
  option_map (fun st => length st.(s_x)) (w_run 2) = Some 4 /\
  (exists st, reached w_cfg w_obj (fun _ => []) w_orc 1 ex_doe 2 st /\ no_infinite_trap (run_tol w_cfg) (results st)).
Proof.
  split; [exact w_ok|]. split; [vm_compute; reflexivity|].
  destruct w_ok as (PO & OO & DO). destruct (reached_exists _ _ _ _ _ _ PO OO DO 2) as (st & R).
  exists st. split; [exact R|]. apply reached_run in R. apply has_good_trap.
  refine (read (has_good_b w_cfg) _ _ _ R _). vm_compute. reflexivity.
Qed.

(** C21. Finding: with a constraint function, its saved values are read back as outputs, so that the restored
    outputs are not the saved ones. *)
Definition nopof (cfg : config) : config :=
  mkConfig (c_wx cfg) (c_wy cfg) (c_wc cfg) (c_trego cfg) (c_gamma cfg) (c_beta cfg) (c_n_local cfg)
    (c_max_iters cfg) (c_target cfg) (c_cstr_tol cfg) false.
Lemma nopof_ok fobj fcstr orc cols doe cfg : run_ok cfg fobj fcstr orc cols doe -> run_ok (nopof cfg) fobj fcstr orc cols doe.
Proof.
  intros (PO & (OB & OL) & DO). split; [destruct PO; constructor; assumption|].
  split; [split; [intros i a; destruct (OB i a); constructor; assumption|exact OL]|].
  destruct DO; constructor; assumption.
Qed.
Definition warm_ncols (cfg : config) (fcstr : row -> row) (st : state) : option (nat * nat) :=
  do f <- history_file st; do st' <- warm_start cfg ex_obj fcstr f;
  Some (length (nth 0 st.(s_y) []), length (nth 0 st'.(s_y) [])).
Theorem C21_constraint_functions_refuted : exists cfg fobj fcstr orc cols doe st file st',
  run_ok cfg fobj fcstr orc cols doe /\ reached cfg fobj fcstr orc cols doe 1 st /\
  history_file st = Some file /\ warm_start cfg fobj fcstr file = Some st' /\ s_y st' <> s_y st.
Proof.
  pose proof (nopof_ok _ _ _ _ _ _ A_ok) as OK. destruct OK as (PO & OO & DO).
  destruct (reached_exists _ _ _ _ _ _ PO OO DO 1) as (st & R).
  assert (E : warm_ncols (nopof cfgA) ex_cstr st = Some (1, 2)).
  { apply reached_run in R. refine (read (warm_ncols (nopof cfgA) ex_cstr) _ _ _ R _). vm_compute. reflexivity. }
  unfold warm_ncols in E. destruct (history_file st) as [f|] eqn:F; [|discriminate].
  destruct (warm_start (nopof cfgA) ex_obj ex_cstr f) as [st'|] eqn:W; [|discriminate].
  exists (nopof cfgA), ex_obj, ex_cstr, orcA, 1, ex_doe, st, f, st'.
  split; [now split|]. split; [exact R|]. split; [exact F|]. split; [exact W|].
  intros X. rewrite X in E. injection E as E1 E2. congruence.
Qed.
Print Assumptions C21_constraint_functions_refuted.

(** C21. Finding: when the feasibility of the best point is tested, that restart panics. *)
Definition warm_fails (cfg : config) (fcstr : row -> row) (st : state) : bool :=
  match history_file st with
  | Some f => match warm_start cfg ex_obj fcstr f with None => true | Some _ => false end
  | None => false
  end.
Theorem C21_warm_start_panics_refuted : exists cfg fobj fcstr orc cols doe st file,
  run_ok cfg fobj fcstr orc cols doe /\ reached cfg fobj fcstr orc cols doe 1 st /\
  history_file st = Some file /\ warm_start cfg fobj fcstr file = None.
Proof.
  destruct A_ok as (PO & OO & DO). destruct (reached_exists _ _ _ _ _ _ PO OO DO 1) as (st & R).
  assert (E : warm_fails cfgA ex_cstr st = true).
  { apply reached_run in R. refine (read (warm_fails cfgA ex_cstr) _ _ _ R _). vm_compute. reflexivity. }
  unfold warm_fails in E. destruct (history_file st) as [f|] eqn:F; [|discriminate].
  destruct (warm_start cfgA ex_obj ex_cstr f) as [st'|] eqn:W; [discriminate|].
  exists cfgA, ex_obj, ex_cstr, orcA, 1, ex_doe, st, f. split; [now split|]. auto.
Qed.
Print Assumptions C21_warm_start_panics_refuted.

(** ** C22, C23, C79. Checkpoints *)

(** C22. If an uninterrupted run (fresh start, [k] rounds) ends in [sf] and its numbers are finite, then after any
    number of sessions killed after any numbers of rounds, one more session ends in the same [sf]. *)
Theorem C22_crash_resume : forall H cfg fobj fcstr (orc : H -> oracle) h_next h_init h_finite cols doe k sf df ks,
  session H cfg fobj fcstr orc h_next h_init h_finite cols doe Enabled NoFile k = Some (sf, df) ->
  s_status (fst sf) <> Running ->
  (forall j s d, j <= k ->
     session H cfg fobj fcstr orc h_next h_init h_finite cols doe Enabled NoFile j = Some (s, d) -> all_finite h_finite s) ->
  exists d d', killed H cfg fobj fcstr orc h_next h_init h_finite cols doe Enabled ks NoFile = Some d /\
    session H cfg fobj fcstr orc h_next h_init h_finite cols doe Enabled d k = Some (sf, d').
Proof.
  intros H cfg fobj fcstr orc h_next h_init h_finite cols doe k sf df ks E T R.
  apply (crash_resume H cfg fobj fcstr orc h_next h_init h_finite cols doe k sf df ks E).
  - unfold terminated. destruct (s_status (fst sf)); [contradiction|reflexivity|reflexivity|reflexivity].
  - intros j s d L X. apply readable_spec. exact (R j s d L X).
Qed.
Print Assumptions C22_crash_resume.

Lemma computed {A B} (f : A -> B) o v : option_map f o = Some v -> exists a, o = Some a /\ f a = v.
Proof. destruct o as [a|]; [|discriminate]. intros E. injection E as E. eauto. Qed.

(** The random generator is a counter; proposals depend on it. *)
Definition r_orc (h : nat) : oracle :=
  mkOracle (fun i _ => mkBatch [[fofZ (5 + 3 * Z.of_nat h)]] [[fNaN]] [[fofZ 2]]) (fun i => [fofZ (-5 - Z.of_nat h)]).
Definition r_next (h : nat) (_ _ : state) : nat := 2 * h + 1.
Notation r_session := (session nat cfgU ex_obj ex_cstr r_orc r_next 0 (fun _ => true) 1 ex_doe).
Notation r_killed := (killed nat cfgU ex_obj ex_cstr r_orc r_next 0 (fun _ => true) 1 ex_doe).
Definition r_readable (j : nat) : bool :=
  match r_session Enabled NoFile j with Some (s, _) => readable nat (fun _ => true) s | None => true end.
Lemma r_finite : forall j s d, j <= 7 -> r_session Enabled NoFile j = Some (s, d) -> all_finite (fun _ => true) s.
Proof.
  intros j s d L E. apply readable_spec.
  assert (X : forallb r_readable (seq 0 8) = true) by (vm_compute; reflexivity).
  rewrite forallb_forall in X. specialize (X j). unfold r_readable in X. rewrite E in X. apply X.
  apply in_seq. lia.
Qed.
Definition summary (r : option (full nat * disk nat)) : option (nat * nat * bool) :=
  option_map (fun x => (length (fst (fst x)).(s_x), snd (fst x), terminated (fst (fst x)))) r.
(** The run evaluates 6 more points; a run killed after 2, then 0, then 3 rounds finishes in the same state. *)
Example C22_example :
  summary (r_session Enabled NoFile 7) = Some (8, 63, true) /\
  (forall j s d, j <= 7 -> r_session Enabled NoFile j = Some (s, d) -> all_finite (fun _ => true) s) /\
  match r_killed Enabled [2; 0; 3] NoFile with
  | Some d => summary (r_session Enabled d 7) = Some (8, 63, true)
  | None => False
  end.
Proof. split; [vm_compute; reflexivity|]. split; [exact r_finite|vm_compute; reflexivity]. Qed.

(** C23, partial: a crash before the checkpoint file is created or after it is completely written is harmless: the
    next session still ends in the state of the uninterrupted run. The crash happens in round [S m] of the last
    session, which performs an iteration. Missing: a crash between creation and the end of the write, refuted below. *)
Theorem C23_crash_in_save_partial : forall H cfg fobj fcstr (orc : H -> oracle) h_next h_init h_finite cols doe k sf df
    ks d m s d1 s' d2 p,
  session H cfg fobj fcstr orc h_next h_init h_finite cols doe Enabled NoFile k = Some (sf, df) ->
  s_status (fst sf) <> Running ->
  (forall j s d, j <= k ->
     session H cfg fobj fcstr orc h_next h_init h_finite cols doe Enabled NoFile j = Some (s, d) -> all_finite h_finite s) ->
  killed H cfg fobj fcstr orc h_next h_init h_finite cols doe Enabled ks NoFile = Some d ->
  session H cfg fobj fcstr orc h_next h_init h_finite cols doe Enabled d m = Some (s, d1) ->
  session H cfg fobj fcstr orc h_next h_init h_finite cols doe Enabled d (S m) = Some (s', d2) ->
  s_iter (fst s) < s_iter (fst s') ->
  p = BeforeCreate \/ p = AfterWrite ->
  exists d', session H cfg fobj fcstr orc h_next h_init h_finite cols doe Enabled
               (crash_in_save H h_finite p d1 s') k = Some (sf, d').
Proof.
  intros H cfg fobj fcstr orc h_next h_init h_finite cols doe k sf df ks d m s d1 s' d2 p E T R K S1 S2 L P.
  exact (crash_in_save_resume H cfg fobj fcstr orc h_next h_init h_finite cols doe k sf df ks d m s d1 s' d2 p E T R K S1 S2 L P).
Qed.
Print Assumptions C23_crash_in_save_partial.

Example C23_example :
  match r_killed Enabled [2] NoFile with
  | Some d => match r_session Enabled d 1, r_session Enabled d 2 with
              | Some (s, _), Some (s', _) => s_iter (fst s) = 3 /\ s_iter (fst s') = 4
              | _, _ => False
              end
  | None => False
  end.
Proof. vm_compute. split; reflexivity. Qed.

(** C23. Finding: [save] truncates the previous checkpoint before writing the new one; a crash in between leaves
    a file from which no session can start. *)
Theorem C23_crash_in_save_refuted : exists H cfg fobj fcstr (orc : H -> oracle) h_next h_init h_finite cols doe k sf df m s d1 s' d2,
  session H cfg fobj fcstr orc h_next h_init h_finite cols doe Enabled NoFile k = Some (sf, df) /\
  s_status (fst sf) <> Running /\
  (forall j s d, j <= k ->
     session H cfg fobj fcstr orc h_next h_init h_finite cols doe Enabled NoFile j = Some (s, d) -> all_finite h_finite s) /\
  session H cfg fobj fcstr orc h_next h_init h_finite cols doe Enabled NoFile m = Some (s, d1) /\
  session H cfg fobj fcstr orc h_next h_init h_finite cols doe Enabled NoFile (S m) = Some (s', d2) /\
  s_iter (fst s) < s_iter (fst s') /\
  forall p, p = AfterCreate \/ p = InWrite ->
  forall mode n, session H cfg fobj fcstr orc h_next h_init h_finite cols doe mode (crash_in_save H h_finite p d1 s') n = None.
Proof.
  assert (X : exists sf df, r_session Enabled NoFile 7 = Some (sf, df) /\ terminated (fst sf) = true).
  { assert (Y : summary (r_session Enabled NoFile 7) = Some (8, 63, true)) by (vm_compute; reflexivity).
    destruct (r_session Enabled NoFile 7) as [[sf df]|]; [|discriminate]. exists sf, df. split; [reflexivity|].
    injection Y as _ _ Y. exact Y. }
  assert (Z : exists s1 d1 s2 d2, r_session Enabled NoFile 1 = Some (s1, d1) /\ r_session Enabled NoFile 2 = Some (s2, d2) /\
     s_iter (fst s1) < s_iter (fst s2)).
  { assert (Y1 : option_map (fun x => s_iter (fst (fst x))) (r_session Enabled NoFile 1) = Some 1) by (vm_compute; reflexivity).
    assert (Y2 : option_map (fun x => s_iter (fst (fst x))) (r_session Enabled NoFile 2) = Some 2) by (vm_compute; reflexivity).
    apply computed in Y1. destruct Y1 as ((s1 & d1) & E1 & I1). apply computed in Y2. destruct Y2 as ((s2 & d2) & E2 & I2).
    exists s1, d1, s2, d2. split; [exact E1|]. split; [exact E2|]. cbn [fst] in I1, I2. rewrite I1, I2. apply Nat.lt_succ_diag_r. }
  destruct X as (sf & df & E & T). destruct Z as (s1 & d1 & s2 & d2 & E1 & E2 & L).
  exists nat, cfgU, ex_obj, ex_cstr, r_orc, r_next, 0, (fun _ => true), 1, ex_doe, 7, sf, df, 1, s1, d1, s2, d2.
  split; [exact E|]. split; [unfold terminated in T; destruct (s_status (fst sf)); congruence|].
  split; [exact r_finite|]. split; [exact E1|]. split; [exact E2|]. split; [exact L|].
  intros p [->| ->] mode n; reflexivity.
Qed.
Print Assumptions C23_crash_in_save_refuted.

(** C79, partial: a state whose numbers are finite is saved in a checkpoint that restarts from it. *)
Theorem C79_finite_reload_partial : forall H cfg fobj fcstr h_init (h_finite : H -> bool) cols doe s,
  all_finite h_finite s -> s_iter (fst s) <> 0 ->
  start H cfg fobj fcstr h_init cols doe Enabled (save H h_finite s) = Some s.
Proof.
  intros H cfg fobj fcstr h_init h_finite cols doe s F I. apply readable_spec in F.
  unfold save. rewrite F. cbn [start]. destruct (s_iter (fst s)); [contradiction|reflexivity].
Qed.
Print Assumptions C79_finite_reload_partial.
Example C79_example : match r_session Enabled NoFile 3 with
  | Some (s, d) => s_iter (fst s) = 3 /\ readable nat (fun _ => true) s = true
  | None => False
  end.
Proof. vm_compute. split; reflexivity. Qed.

(** C79. Finding: a run that evaluated an infinite objective goes on normally, but its checkpoint cannot be
    loaded: JSON has no infinity. *)
Definition i_orc (h : nat) : oracle :=
  mkOracle (fun i _ => mkBatch [[fmake 1 1000]] [[fNaN]] [[fofZ 2]]) (fun i => [fofZ (-5 - Z.of_nat h)]).
Definition i_next (h : nat) (_ _ : state) : nat := S h.
Notation i_session := (session nat cfgU ex_obj ex_cstr i_orc i_next 0 (fun _ => true) 1 ex_doe).
Theorem C79_infinite_refuted : exists H cfg fobj fcstr (orc : H -> oracle) h_next h_init h_finite cols doe s d,
  (forall h, run_ok cfg fobj fcstr (orc h) cols doe) /\
  session H cfg fobj fcstr orc h_next h_init h_finite cols doe Enabled NoFile 1 = Some (s, d) /\
  s_status (fst s) = Running /\
  forall mode n, session H cfg fobj fcstr orc h_next h_init h_finite cols doe mode d n = None.
Proof.
  assert (Y : match i_session Enabled NoFile 1 with
              | Some (s, d) => negb (terminated (fst s)) && match d with Unreadable => true | _ => false end
              | None => false end = true) by (vm_compute; reflexivity).
  destruct (i_session Enabled NoFile 1) as [[s d]|] eqn:E; [|discriminate].
  apply andb_prop in Y. destruct Y as [T D]. destruct d; [discriminate D| |discriminate D].
  exists nat, cfgU, ex_obj, ex_cstr, i_orc, i_next, 0, (fun _ => true), 1, ex_doe, s, Unreadable.
  split.
  { intros h. split; [apply ex_problem; now left|]. split; [|apply ex_design; now left].
    split; [|reflexivity]. intros i a. constructor; simpl; try congruence; try reflexivity; repeat constructor. }
  split; [exact E|]. split; [unfold terminated in T; destruct (s_status (fst s)); [reflexivity|discriminate T..]|].
  intros mode n. reflexivity.
Qed.
Print Assumptions C79_infinite_refuted.

(** ** C24. Extended budget *)

(** A checkpointed run that is restarted with an extension of [n] iterations has a budget of exactly [n] more: it
    never exceeds it, and when it stops on its budget it has used all of it. *)
Theorem C24_extension : forall H cfg fobj fcstr (orc : H -> oracle) h_next h_init h_finite cols doe n s k s' d',
  s_iter (fst s) <> 0 ->
  session H cfg fobj fcstr orc h_next h_init h_finite cols doe (Extended n) (Saved s) k = Some (s', d') ->
  s_max_iters (fst s') = s_max_iters (fst s) + n /\
  s_iter (fst s) <= s_iter (fst s') <= Nat.max (s_iter (fst s)) (s_max_iters (fst s) + n) /\
  (s_status (fst s) = Running -> s_status (fst s') = MaxItersReached -> s_iter (fst s) <= s_max_iters (fst s) + n ->
   s_iter (fst s') = s_max_iters (fst s) + n).
Proof. exact session_budget. Qed.
Print Assumptions C24_extension.

(** Restarts that each complete an iteration add up. *)
Theorem C24_extensions_add_up : forall H cfg fobj fcstr (orc : H -> oracle) h_next h_init h_finite cols doe n ks s s',
  s_iter (fst s) <> 0 ->
  killed H cfg fobj fcstr orc h_next h_init h_finite cols doe (Extended n) ks (Saved s) = Some (Saved s') ->
  (forall i, i < length ks -> exists sa sb : full H,
     killed H cfg fobj fcstr orc h_next h_init h_finite cols doe (Extended n) (firstn i ks) (Saved s) = Some (Saved sa) /\
     killed H cfg fobj fcstr orc h_next h_init h_finite cols doe (Extended n) (firstn (S i) ks) (Saved s) = Some (Saved sb) /\
     s_iter (fst sa) < s_iter (fst sb)) ->
  s_max_iters (fst s') = s_max_iters (fst s) + length ks * n.
Proof. exact killed_budget. Qed.
Print Assumptions C24_extensions_add_up.

(** Without extension a checkpoint keeps its budget; without checkpoint the run is fresh with the configured one. *)
Theorem C24_no_extension : forall H cfg fobj fcstr (orc : H -> oracle) h_next h_init h_finite cols doe s k s' d',
  s_iter (fst s) <> 0 ->
  session H cfg fobj fcstr orc h_next h_init h_finite cols doe Enabled (Saved s) k = Some (s', d') ->
  s_max_iters (fst s') = s_max_iters (fst s).
Proof. exact session_same_budget. Qed.
Print Assumptions C24_no_extension.

(** The number of iterations given as the hot start option, zero included, is the extension. *)
Theorem C24_number : forall H cfg fobj fcstr (orc : H -> oracle) h_next h_init h_finite cols doe n s k s' d',
  s_iter (fst s) <> 0 ->
  exists mode, hot_start_of (Some n) = Some mode /\
  (session H cfg fobj fcstr orc h_next h_init h_finite cols doe mode (Saved s) k = Some (s', d') ->
   s_max_iters (fst s') = s_max_iters (fst s) + n).
Proof.
  intros H cfg fobj fcstr orc h_next h_init h_finite cols doe [|n] s k s' d' I; eexists; split; try reflexivity; intros E.
  - rewrite (C24_no_extension _ _ _ _ _ _ _ _ _ _ _ _ _ _ I E). lia.
  - exact (proj1 (C24_extension _ _ _ _ _ _ _ _ _ _ _ _ _ _ _ I E)).
Qed.
Print Assumptions C24_number.

Theorem C24_missing_checkpoint : forall H cfg fobj fcstr (orc : H -> oracle) h_next h_init h_finite cols doe mode k s' d',
  session H cfg fobj fcstr orc h_next h_init h_finite cols doe mode NoFile k = Some (s', d') ->
  s_max_iters (fst s') = cfg.(c_max_iters) /\ s_iter (fst s') <= cfg.(c_max_iters).
Proof. exact session_fresh_budget. Qed.
Print Assumptions C24_missing_checkpoint.

(** A run of 6 iterations, extended by 2 (twice): 10 iterations in all. *)
Definition budgets (r : option (full nat * disk nat)) : option (nat * nat) :=
  option_map (fun x => ((fst (fst x)).(s_max_iters), (fst (fst x)).(s_iter))) r.
Example C24_example :
  match r_killed Enabled [9] NoFile with
  | Some d => budgets (r_session (Extended 2) d 9) = Some (8, 8) /\ budgets (r_session Enabled d 9) = Some (6, 6) /\
      match r_killed (Extended 2) [9; 9] d with
      | Some d' => budgets (r_session Enabled d' 9) = Some (10, 10)
      | None => False
      end
  | None => False
  end.
Proof. vm_compute. repeat split; reflexivity. Qed.

(** ** C25. Tolerances *)

(** C25, partial: a checked configuration covers all constraints when no tolerance is given or when there is no
    constraint function. Missing: given tolerances with constraint functions, refuted below. *)
Theorem C25_checked_tolerances_partial : forall n_cstr tol coego kpls cfg,
  check_config n_cstr tol coego kpls = true -> cfg.(c_wy) = 1 + n_cstr -> cfg.(c_cstr_tol) = tol ->
  tol = None \/ cfg.(c_wc) = 0 ->
  cfg.(c_wy) + cfg.(c_wc) - 1 <= length (run_tol cfg) /\
  forall y, length y = cfg.(c_wy) + cfg.(c_wc) -> cstr_sum y (run_tol cfg) <> None.
Proof. exact checked_tolerances. Qed.
Print Assumptions C25_checked_tolerances_partial.
Example C25_example : check_config 1 (Some [default_cstr_tol]) false None = true /\
  check_config 1 (Some []) false None = false /\
  match cstr_sum [fone; fone] [default_cstr_tol] with Some v => fgt v fzero | None => false end = true.
Proof. split; [reflexivity|]. split; [reflexivity|]. vm_compute. reflexivity. Qed.

(** C25. Finding: the check only counts metamodelled constraints. A configuration with two constraint functions
    and one tolerance is accepted, starts, and panics at the first iteration. *)
Definition t_cstr (x : row) : row := [fofZ (-1); fofZ (-1)].
Definition t_cfg : config := mkConfig 1 1 2 false (fofZ 2) fone 1 4 (fofZ (-1000)) (Some [default_cstr_tol]) false.
Definition t_orc : oracle :=
  mkOracle (fun i _ => mkBatch [[fofZ 5]] [[fNaN]] [[fone; fone]]) (fun i => [fofZ (-5)]).
Theorem C25_function_constraints_refuted : exists cfg fobj fcstr orc cols doe st0,
  check_config (cfg.(c_wy) - 1) cfg.(c_cstr_tol) false None = true /\
  (forall x, length (fcstr x) = cfg.(c_wc)) /\ oracle_ok cfg orc /\
  init cfg fobj fcstr cols doe = Some st0 /\ exec cfg fobj fcstr orc 1 st0 = None.
Proof.
  assert (Y : match init t_cfg ex_obj t_cstr 1 ex_doe with
              | Some st0 => match exec t_cfg ex_obj t_cstr t_orc 1 st0 with None => true | Some _ => false end
              | None => false end = true) by (vm_compute; reflexivity).
  destruct (init t_cfg ex_obj t_cstr 1 ex_doe) as [st0|] eqn:I; [|discriminate].
  destruct (exec t_cfg ex_obj t_cstr t_orc 1 st0) as [|] eqn:E; [discriminate|].
  exists t_cfg, ex_obj, t_cstr, t_orc, 1, ex_doe, st0. split; [reflexivity|]. split; [reflexivity|].
  split; [|split; [exact I|exact E]].
  split; [|reflexivity]. intros i a. constructor; simpl; try congruence; try reflexivity; repeat constructor.
Qed.
Print Assumptions C25_function_constraints_refuted.
