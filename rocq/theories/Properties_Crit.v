(** Properties of the infill criteria and of the problem given to the inner optimizer. *)
From Coq Require Import Reals Lra Lia Arith.
From Coquelicot Require Import Coquelicot.
From Coq Require Import List Bool.
From Verif Require Import RVec Normal Crit_Model Crit_Spec Crit_Proofs.
Import ListNotations.
Local Open Scope R_scope.

(** A surrogate given by its mean, its variance and their gradients, for examples. *)
Definition surrogate_of (mean var : vec -> R) (gm gv : vec -> vec) : surrogate :=
  {| s_predict := fun x => Some (mean x); s_valvar := fun x => Some (mean x, var x);
     s_grad := fun x => Some (gm x); s_valvar_grad := fun x => Some (gm x, gv x) |}.
Lemma surrogate_predicts mean var gm gv : predicts (surrogate_of mean var gm gv) mean var.
Proof. intros x. split; reflexivity. Qed.
Lemma surrogate_gradients n mean var gm gv x : (forall j, (j < n)%nat -> partial mean x j (gm x j) /\ partial var x j (gv x j)) ->
  predicts_gradients n (surrogate_of mean var gm gv) mean var x.
Proof. intros H. exists (gm x), (gv x). split; [reflexivity|]. split; [reflexivity|exact H]. Qed.
Definition unit_vec (i : nat) : vec := fun j => if Nat.eqb i j then 1 else 0.
Lemma partial_coord i x j : partial (fun y => y i) x j (unit_vec i j).
Proof.
  unfold partial, unit_vec. unfold upd. destruct (Nat.eqb i j) eqn:E; [exact (derive_id (x j))|exact (derive_const (x i) (x j))].
Qed.
(** Mean a x_0 + b and variance c + x_i^2. *)
Definition toy (a b c : R) (i : nat) : surrogate :=
  surrogate_of (fun x => a * x O + b) (fun x => c + x i * x i) (fun _ j => a * unit_vec O j) (fun x j => 2 * x i * unit_vec i j).
Lemma toy_gradients n a b c i x : predicts_gradients n (toy a b c i) (fun x => a * x O + b) (fun x => c + x i * x i) x.
Proof.
  apply surrogate_gradients. intros j _. split.
  - unfold partial. eapply derive_eq; [apply derive_plus; [apply derive_scal_l; apply (partial_coord O x j)|apply derive_const]|ring].
  - unfold partial. eapply derive_eq; [apply derive_plus; [apply derive_const|apply derive_mult; apply (partial_coord i x j)]|].
    cbv beta. rewrite upd_same. ring.
Qed.
Lemma toy_predicts a b c i : predicts (toy a b c i) (fun x => a * x O + b) (fun x => c + x i * x i).
Proof. apply surrogate_predicts. Qed.

(** ** C63 Expected improvement *)
Theorem C63_nonnegative : forall m fmin weight x, (forall k, weight = Some k -> 0 < k) -> 0 <= ei_value m fmin weight x.
Proof. intros m fmin w x K. apply ei_nonneg. destruct w as [k|]; cbn; [now apply K|lra]. Qed.
Theorem C63_positive : forall m fmin weight x p s, (forall k, weight = Some k -> 0 < k) -> s_valvar m x = Some (p, s) -> EPS <= s ->
  0 < ei_value m fmin weight x.
Proof.
  intros m fmin w x p s K V E. rewrite (ei_value_eq m fmin w x p s V E). assert (0 < unwrap_or w 1) by (destruct w as [k|]; cbn; [now apply K|lra]).
  apply Rmult_lt_0_compat; [|apply impr_pos]. apply Rmult_lt_0_compat; [assumption|]. apply sqrt_lt_R0. pose proof EPS_pos. lra.
Qed.
Theorem C63_no_variance : forall m fmin weight x p s, s_valvar m x = Some (p, s) -> s < EPS -> ei_value m fmin weight x = 0.
Proof. intros m fmin w x p s. apply ei_value_small. Qed.
Theorem C63_gradient : forall n m mean var x fmin weight, predicts m mean var -> predicts_gradients n m mean var x ->
  (forall k, weight = Some k -> 0 < k) -> var x <> EPS ->
  exists g, ei_grad m fmin weight x = Some g /\ is_gradient n (ei_value m fmin weight) x g.
Proof.
  intros n m mean var x fmin w P G K N. apply (ei_gradient n m mean var x P G); [|exact N]. destruct w as [k|]; cbn; [|lra].
  assert (0 < k) by now apply K. lra.
Qed.
(** At x = (0, 1) the variance is 2 and the mean 0: the hypotheses hold and the criterion is positive. *)
Lemma EPS_small : EPS < 1. Proof. exact EPS_lt1. Qed.
Example C63_example : let x := unit_vec 1 in let m := toy 1 0 1 1 in
  predicts m (fun x => 1 * x O + 0) (fun x => 1 + x 1%nat * x 1%nat) /\
  predicts_gradients 2 m (fun x => 1 * x O + 0) (fun x => 1 + x 1%nat * x 1%nat) x /\
  1 + x 1%nat * x 1%nat <> EPS /\ 0 < ei_value m 0 (Some 2) x.
Proof.
  cbv zeta. split; [apply toy_predicts|]. split; [apply toy_gradients|]. assert (E := EPS_small).
  split; [cbn; lra|]. apply (C63_positive _ _ _ _ (1 * unit_vec 1 O + 0) (1 + unit_vec 1 1%nat * unit_vec 1 1%nat)).
  - intros k K. injection K as <-. lra.
  - reflexivity.
  - cbn. lra.
Qed.

(** ** C107 Criteria are the probabilistic quantities they are named after *)
Theorem C107_expected_improvement_partial : forall m fmin x p s, s_valvar m x = Some (p, s) -> EPS <= s ->
  expectation (improvement fmin) p (sqrt s) (ei_value m fmin None x).
Proof.
  intros m fmin x p s V E. rewrite (ei_value_eq m fmin None x p s V E). cbn [unwrap_or]. rewrite Rmult_1_l. apply ei_expectation.
  apply sqrt_lt_R0. pose proof EPS_pos. lra.
Qed.
Theorem C107_weighted_partial : forall m fmin x p s k, s_valvar m x = Some (p, s) -> EPS <= s -> 0 < k ->
  expectation (improvement fmin) p (k * sqrt s) (ei_value m fmin (Some k) x).
Proof.
  intros m fmin x p s k V E K. rewrite (ei_value_eq m fmin (Some k) x p s V E). cbn [unwrap_or]. apply ei_expectation.
  apply Rmult_lt_0_compat; [exact K|]. apply sqrt_lt_R0. pose proof EPS_pos. lra.
Qed.
Theorem C107_feasibility_partial : forall m tol x p s, s_valvar m x = Some (p, s) -> EPS <= s ->
  expectation (satisfied tol) p (sqrt s) (pof m tol x).
Proof.
  intros m tol x p s V E. unfold pof. rewrite V, rlt_false by exact E. apply pof_expectation. apply sqrt_lt_R0. pose proof EPS_pos. lra.
Qed.
Lemma expectation_unique g mu sd v w : expectation g mu sd v -> expectation g mu sd w -> v = w.
Proof.
  intros V W. destruct (Req_dec v w) as [E|N]; [exact E|exfalso]. set (e := Rabs (v - w) / 2).
  assert (E : 0 < e) by (unfold e; pose proof (Rabs_pos_lt (v - w)); lra).
  destruct (V e E) as [M1 H1]. destruct (W e E) as [M2 H2].
  set (a := - (Rmax M1 M2) - 1). set (b := Rmax M1 M2 + 1). pose proof (Rmax_l M1 M2). pose proof (Rmax_r M1 M2).
  destruct (H1 a b) as [_ A]; [unfold a; lra|unfold b; lra|]. destruct (H2 a b) as [_ B]; [unfold a; lra|unfold b; lra|].
  set (I := RInt (fun y => g y * density mu sd y) a b) in *.
  assert (Rabs (v - w) <= Rabs (I - v) + Rabs (I - w)).
  { replace (v - w) with ((I - w) - (I - v)) by ring. eapply Rle_trans; [apply Rabs_triang|]. rewrite Rabs_Ropp. lra. }
  unfold e in *. lra.
Qed.
Lemma impr_sym u : impr u - u = impr (- u).
Proof.
  unfold impr. replace (norm_pdf (- u)) with (norm_pdf u) by (unfold norm_pdf; do 2 f_equal; ring).
  pose proof (norm_cdf_sym u). replace (norm_cdf (- u)) with (1 - norm_cdf u) by lra. ring.
Qed.
(** Below the threshold on the variance both are 0, whatever the mean: here the predicted value is 1 below the best one and the
    constraint is expected to hold with a margin of 1. *)
Theorem C107_small_variance_refuted : exists m x p s, s_valvar m x = Some (p, s) /\ 0 < s /\
  (forall v, expectation (improvement 0) p (sqrt s) v -> 1 <= v) /\ ei_value m 0 None x = 0 /\
  (forall v, expectation (satisfied 0) p (sqrt s) v -> / 2 < v) /\ pof m 0 x = 0.
Proof.
  pose proof EPS_pos as E. exists (surrogate_of (fun _ => -1) (fun _ => EPS / 2) (fun _ _ => 0) (fun _ _ => 0)), (fun _ => 0), (-1), (EPS / 2).
  assert (Q : 0 < sqrt (EPS / 2)) by (apply sqrt_lt_R0; lra).
  split; [reflexivity|]. split; [lra|]. split; [|split; [|split]].
  - intros v V. rewrite (expectation_unique _ _ _ _ _ V (ei_expectation (-1) (sqrt (EPS / 2)) 0 Q)).
    set (u := (0 - -1) / sqrt (EPS / 2)). pose proof (impr_sym u). pose proof (impr_pos (- u)).
    assert (U : sqrt (EPS / 2) * u = 1) by (unfold u; field; lra). rewrite <- U at 1. apply Rmult_le_compat_l; lra.
  - eapply ei_value_small; [reflexivity|lra].
  - intros v V. rewrite (expectation_unique _ _ _ _ _ V (pof_expectation (-1) (sqrt (EPS / 2)) 0 Q)). rewrite <- norm_cdf_0.
    apply norm_cdf_incr. apply Rdiv_lt_0_compat; lra.
  - unfold pof. cbn [s_valvar surrogate_of]. rewrite rlt_true by lra. reflexivity.
Qed.
Example C107_example : s_valvar (toy 1 0 1 1) (unit_vec 1) = Some (1 * 0 + 0, 1 + 1 * 1) /\ EPS <= 1 + 1 * 1.
Proof. split; [reflexivity|]. pose proof EPS_small. lra. Qed.

(** ** C64 Probability of feasibility *)
Theorem C64_range : forall cs x, 0 <= pofs cs x <= 1 /\ forall m tol, 0 <= pof m tol x <= 1.
Proof. intros cs x. split; [apply pofs_range|]. intros m tol. pose proof (pof_range m tol x). lra. Qed.
(** The gradient is right for zero tolerances, for any number of constraints. *)
Theorem C64_gradient_partial : forall n x cs, Forall (fun c => exists mean var, predicts (fst c) mean var /\
    predicts_gradients n (fst c) mean var x /\ var x <> EPS /\ snd c = 0) cs ->
  exists g, pofs_grad cs x = Some g /\ is_gradient n (pofs cs) x g.
Proof. intros n x cs F. now apply pofs_gradient. Qed.
(** For one constraint, it is right only for a zero tolerance or where the variance is stationary. *)
Theorem C64_exactly_partial : forall n m mean var x tol g gm gv j, predicts m mean var -> s_valvar_grad m x = Some (gm, gv) ->
  (j < n)%nat -> partial mean x j (gm j) -> partial var x j (gv j) -> EPS < var x -> pof_grad m tol x = Some g ->
  (partial (pof m tol) x j (g j) <-> tol = 0 \/ gv j = 0).
Proof.
  intros n m mean var x tol g gm gv j P GV J Dm Dv V E.
  assert (VP : 0 < var x) by (pose proof EPS_pos; lra). assert (Q : 0 < sqrt (var x)) by (now apply sqrt_lt_R0).
  pose proof (pof_derivative m mean var x P tol gm gv j V Dm Dv) as D.
  unfold pof_grad in E. rewrite (valvar m mean var P), rlt_false, GV in E by lra. cbv beta zeta in E. injection E as <-.
  pose proof (norm_pdf_pos ((tol - mean x) / sqrt (var x))) as PP. set (f := norm_pdf ((tol - mean x) / sqrt (var x))) in *.
  split.
  - intros H. pose proof (derive_unique _ _ _ _ H D) as U. apply Rmult_eq_reg_l in U; [|lra].
    assert (Z : tol * (gv j / (2 * sqrt (var x))) / (sqrt (var x) * sqrt (var x)) = 0).
    { transitivity ((tol - mean x) * (gv j / (2 * sqrt (var x))) / (sqrt (var x) * sqrt (var x)) + gv j / (2 * sqrt (var x)) * mean x / (sqrt (var x) * sqrt (var x))); [field; lra|lra]. }
    assert (Z2 : tol * gv j = 0).
    { apply Rmult_eq_reg_r with (/ (2 * sqrt (var x) * (sqrt (var x) * sqrt (var x)))).
      - rewrite Rmult_0_l, <- Z. field. lra.
      - apply Rinv_neq_0_compat. repeat apply Rmult_integral_contrapositive_currified; lra. }
    now apply Rmult_integral.
  - intros H. eapply partial_eq; [exact D|]. f_equal. destruct H as [-> | ->]; field; lra.
Qed.
(** With the default tolerance of the optimizer, 1e-4, it is wrong. *)
Theorem C64_tolerance_refuted : exists m mean var x g, predicts m mean var /\ predicts_gradients 1 m mean var x /\ EPS < var x /\
  pof_grad m (/ 10000) x = Some g /\ ~ is_gradient 1 (pof m (/ 10000)) x g.
Proof.
  pose proof EPS_small as E. set (x := unit_vec O). set (m := toy 0 0 1 O).
  assert (G := toy_gradients 1 0 0 1 O x). assert (P := toy_predicts 0 0 1 O). fold m in G, P.
  assert (V : EPS < 1 + x O * x O) by (unfold x, unit_vec; cbn; lra).
  destruct (pof_grad m (/ 10000) x) as [g|] eqn:PG.
  2: { unfold pof_grad in PG. rewrite (valvar m _ _ P), rlt_false in PG by lra. discriminate. }
  exists m, (fun x => 0 * x O + 0), (fun x => 1 + x O * x O), x, g. split; [exact P|]. split; [exact G|]. split; [exact V|]. split; [exact PG|].
  intros D. destruct G as [gm [gv [GM [GV DD]]]].
  destruct (proj1 (C64_exactly_partial 1 m _ _ x (/ 10000) g gm gv O P GV Nat.lt_0_1 (proj1 (DD O Nat.lt_0_1)) (proj2 (DD O Nat.lt_0_1)) V PG) (D O Nat.lt_0_1)) as [H|H]; [lra|].
  cbn in GV. injection GV as _ <-. unfold x, unit_vec in H. cbn in H. lra.
Qed.
Example C64_example : Forall (fun c => exists mean var, predicts (fst c) mean var /\
    predicts_gradients 2 (fst c) mean var (unit_vec 1) /\ var (unit_vec 1) <> EPS /\ snd c = 0) [(toy 1 0 1 1, 0); (toy 2 1 1 1, 0)].
Proof.
  pose proof EPS_small. repeat constructor.
  - exists (fun x => 1 * x O + 0), (fun x => 1 + x 1%nat * x 1%nat). split; [apply toy_predicts|]. split; [apply toy_gradients|]. split; [cbn; lra|reflexivity].
  - exists (fun x => 2 * x O + 1), (fun x => 1 + x 1%nat * x 1%nat). split; [apply toy_predicts|]. split; [apply toy_gradients|]. split; [cbn; lra|reflexivity].
Qed.

(** ** C65 Upper trust bound *)
Theorem C65_first_component_partial : forall n m mean var x scale, predicts m mean var -> predicts_gradients n m mean var x ->
  0 < var x -> EPS <= sqrt (var x) -> (0 < n)%nat -> scale <> 0 ->
  exists f g, (forall y, utb_cstr m scale y = Some (f y)) /\ utb_cstr_grad m scale x = Some g /\ partial f x 0 (g O).
Proof.
  intros n m mean var x scale P [gm [gv [_ [GV D]]]] V S N SC. destruct (D O N) as [Dm Dv].
  exists (fun y => (mean y + 3 * sqrt (var y)) / scale). eexists. split; [intros y; unfold utb_cstr; rewrite (valvar m mean var P); reflexivity|].
  unfold utb_cstr_grad. rewrite (valvar m mean var P), GV, rlt_false by exact S. cbv zeta. split; [reflexivity|]. cbv beta.
  assert (Q : 0 < sqrt (var x)) by (now apply sqrt_lt_R0). unfold CSTR_DOUBT.
  unfold partial, Rdiv. apply derive_scal_r. apply derive_plus; [exact Dm|]. apply derive_scal_l.
  eapply derive_eq; [apply derive_sqrt; [exact Dv|now rewrite upd_same]|]. cbv beta. rewrite upd_same. reflexivity.
Qed.
Theorem C65_refuted : exists m mean var x scale f g, predicts m mean var /\ predicts_gradients 2 m mean var x /\ 1 <= var x /\ 0 < scale /\
  (forall y, utb_cstr m scale y = Some (f y)) /\ utb_cstr_grad m scale x = Some g /\ ~ partial f x 1 (g 1%nat).
Proof.
  set (x := unit_vec 1). set (m := toy 0 0 1 1).
  assert (G := toy_gradients 2 0 0 1 1 x). assert (P := toy_predicts 0 0 1 1). fold m in G, P.
  assert (V : 1 + x 1%nat * x 1%nat = 2) by (unfold x, unit_vec; cbn; lra).
  exists m, (fun x => 0 * x O + 0), (fun x => 1 + x 1%nat * x 1%nat), x, 1, (fun y => (0 * y O + 0 + CSTR_DOUBT * sqrt (1 + y 1%nat * y 1%nat)) / 1).
  eexists. split; [exact P|]. split; [exact G|]. split; [rewrite V; lra|]. split; [lra|]. split; [reflexivity|]. split; [reflexivity|].
  intros D. cbv beta in D. assert (T : partial (fun y => (0 * y O + 0 + CSTR_DOUBT * sqrt (1 + y 1%nat * y 1%nat)) / 1) x 1 (3 * (2 / (2 * sqrt 2)))).
  { destruct G as [gm [gv [GM [GV DD]]]]. destruct (DD 1%nat ltac:(lia)) as [Dm Dv]. cbn in GV. injection GV as <- <-.
    unfold partial, Rdiv at 1. eapply derive_eq; [apply derive_scal_r; apply derive_plus; [exact Dm|apply derive_scal_l, derive_sqrt; [exact Dv|]]|].
    - rewrite upd_same, V. lra.
    - cbv beta. rewrite upd_same, V. unfold CSTR_DOUBT, unit_vec, x. cbn. field. pose proof sqrt2_pos. lra. }
  pose proof (derive_unique _ _ _ _ D T) as U.
  assert (Z : (if rlt (sqrt (1 + x 1%nat * x 1%nat)) EPS then 0 else 2 * x 1%nat * unit_vec 1 O / (2 * sqrt (1 + x 1%nat * x 1%nat))) = 0).
  { destruct (rlt _ _); [reflexivity|]. unfold unit_vec at 1. cbn [Nat.eqb]. unfold Rdiv. ring. }
  rewrite Z in U. unfold unit_vec in U. cbn in U. pose proof sqrt2_pos. assert (0 < 2 / (2 * sqrt 2)) by (apply Rdiv_lt_0_compat; lra). lra.
Qed.

(** A surrogate of variance 2 at x = (0, 1), with a scale of 2. *)
Example C65_example : exists f g, (forall y, utb_cstr (toy 1 0 1 1) 2 y = Some (f y)) /\ utb_cstr_grad (toy 1 0 1 1) 2 (unit_vec 1) = Some g /\
  partial f (unit_vec 1) 0 (g O).
Proof.
  apply (C65_first_component_partial 2 _ _ _ _ _ (toy_predicts 1 0 1 1) (toy_gradients 2 1 0 1 1 (unit_vec 1))); [| |lia|lra]; unfold unit_vec; cbn [Nat.eqb]; [lra|].
  pose proof EPS_small. apply Rle_trans with (sqrt 1); [rewrite sqrt_1; lra|]. apply sqrt_le_1_alt. lra.
Qed.

(** ** C108 The gradient given to the inner optimizer is that of its objective *)
(** Unit weight, zero tolerances, regular predictions: both for the plain and the constrained objective. *)
Theorem C108_infill_partial : forall n m mean var x c fmin scale scale_ic, predicts m mean var -> predicts_gradients n m mean var x ->
  scale <> 0 -> (c = LogEI -> EPS < var x /\ - 1000000 < (fmin - mean x) / sqrt (var x)) -> var x <> EPS ->
  exists f g, (forall y, infill_obj c m fmin scale scale_ic 1 y = Some (f y)) /\
    infill_obj_grad c m fmin scale scale_ic x = Some g /\ is_gradient n f x g.
Proof.
  intros n m mean var x c fmin scale sc P G S L N. apply (infill_gradient n m mean var x P G c fmin scale sc S).
  destruct c; cbn [regular]; [exact N|now apply L|exact N].
Qed.
Theorem C108_constrained_partial : forall n m mean var x c cs fmin scale scale_ic feasible, predicts m mean var ->
  predicts_gradients n m mean var x -> scale <> 0 -> (c = LogEI -> EPS < var x /\ - 1000000 < (fmin - mean x) / sqrt (var x)) ->
  var x <> EPS ->
  Forall (fun k => exists mean var, predicts (fst k) mean var /\ predicts_gradients n (fst k) mean var x /\ var x <> EPS /\ snd k = 0) cs ->
  (c = LogEI -> Forall (fun k => EPS < pof (fst k) (snd k) x) cs) -> (cs = [] -> feasible = true) ->
  exists f g, (forall y, constrained_obj c m cs fmin scale scale_ic feasible 1 y = Some (f y)) /\
    constrained_obj_grad c m cs fmin scale scale_ic feasible 1 x = Some g /\ is_gradient n f x g.
Proof.
  intros n m mean var x c cs fmin scale sc feas P G S L N F LF NE. apply (constrained_gradient n m mean var x P G c cs fmin scale sc feas S); try assumption.
  destruct c; cbn [regular]; [exact N|now apply L|exact N].
Qed.
Lemma toy1_ei_slope x w : EPS < 1 + x 1%nat * x 1%nat -> x 1%nat = 0 -> 0 < w ->
  partial (ei_value (toy 1 0 1 1) 0 (Some w)) x 0 (- norm_cdf (- x O / w)).
Proof.
  intros V X W. assert (G := toy_gradients 2 1 0 1 1 x). assert (P := toy_predicts 1 0 1 1).
  destruct (ei_gradient 2 _ _ _ x P G 0 (Some w)) as [g [E D]]; [cbn; lra|cbv beta; lra|]. eapply partial_eq; [apply (D O); lia|].
  destruct (ei_grad_eq (toy 1 0 1 1) 0 (Some w) x _ _ (fun j => 1 * unit_vec O j) (fun j => 2 * x 1%nat * unit_vec 1 j) (valvar _ _ _ P x)) as [g' [E' Eg]]; [lra|reflexivity|cbn; lra|].
  rewrite E in E'. injection E' as ->. rewrite Eg. cbn [unwrap_or]. rewrite X. replace (1 + 0 * 0) with 1 by ring. rewrite sqrt_1. unfold unit_vec. cbn [Nat.eqb].
  replace ((0 - (1 * x O + 0)) / (w * 1)) with (- x O / w) by (field; lra). field.
Qed.
(** A portfolio weighs the standard deviation in the objective but not in its gradient. *)
Theorem C108_weight_refuted : exists m mean var x weight f g, predicts m mean var /\ predicts_gradients 2 m mean var x /\ EPS < var x /\
  0 < weight /\ (forall y, infill_obj EI m 0 1 1 weight y = Some (f y)) /\ infill_obj_grad EI m 0 1 1 x = Some g /\ ~ is_gradient 2 f x g.
Proof.
  pose proof EPS_small as E. set (x := unit_vec O). assert (P := toy_predicts 1 0 1 1). assert (G := toy_gradients 2 1 0 1 1 x).
  assert (V : EPS < 1 + x 1%nat * x 1%nat) by (unfold x, unit_vec; cbn; lra).
  destruct (ei_gradient 2 _ _ _ x P G 0 None) as [g [Eg D]]; [cbn; lra|cbv beta; lra|].
  exists (toy 1 0 1 1), (fun x => 1 * x O + 0), (fun x => 1 + x 1%nat * x 1%nat), x, 10, (fun y => - ei_value (toy 1 0 1 1) 0 (Some 10) y / 1), (fun j => - g j / 1).
  split; [exact P|]. split; [exact G|]. split; [exact V|]. split; [lra|]. split; [reflexivity|].
  split; [unfold infill_obj_grad; cbn [crit_grad]; now rewrite Eg|].
  intros H. specialize (H O ltac:(lia)). specialize (D O ltac:(lia)).
  assert (D1 : partial (ei_value (toy 1 0 1 1) 0 None) x 0 (- norm_cdf (- x O / 1))).
  { apply (partial_ext (ei_value (toy 1 0 1 1) 0 (Some 1))); [reflexivity|]. apply toy1_ei_slope; [exact V|reflexivity|lra]. }
  pose proof (derive_unique _ _ _ _ D D1) as G1.
  assert (D10 : partial (fun y => - ei_value (toy 1 0 1 1) 0 (Some 10) y / 1) x 0 (- - norm_cdf (- x O / 10) * / 1)).
  { unfold partial, Rdiv at 1. apply derive_scal_r, derive_opp. apply toy1_ei_slope; [exact V|reflexivity|lra]. }
  pose proof (derive_unique _ _ _ _ H D10) as G2. cbv beta in G2. rewrite G1 in G2. unfold x, unit_vec in G2. cbn [Nat.eqb] in G2.
  assert (norm_cdf (- (1) / 1) < norm_cdf (- (1) / 10)) by (apply norm_cdf_incr; lra). lra.
Qed.
(** When the only constraints are functions and none of the points satisfies them, the constrained objective is constant
    although its gradient is not zero. *)
Theorem C108_no_surrogate_refuted : exists m mean var x g, predicts m mean var /\ predicts_gradients 2 m mean var x /\ EPS < var x /\
  (forall y, constrained_obj EI m [] 0 1 1 false 1 y = Some (-1)) /\ constrained_obj_grad EI m [] 0 1 1 false 1 x = Some g /\ 0 < g O.
Proof.
  pose proof EPS_small as E. set (x := unit_vec O). assert (P := toy_predicts 1 0 1 1). assert (G := toy_gradients 2 1 0 1 1 x).
  assert (V : EPS < 1 + x 1%nat * x 1%nat) by (unfold x, unit_vec; cbn; lra).
  destruct (ei_gradient 2 _ _ _ x P G 0 None) as [g [Eg D]]; [cbn; lra|cbv beta; lra|].
  exists (toy 1 0 1 1), (fun x => 1 * x O + 0), (fun x => 1 + x 1%nat * x 1%nat), x, (fun j => - g j / 1).
  split; [exact P|]. split; [exact G|]. split; [exact V|].
  split; [intros y; unfold constrained_obj, pofs; cbn [is_logei fold_left]; now rewrite Rmult_1_r|].
  split; [unfold constrained_obj_grad, infill_obj_grad; cbn [crit_grad]; now rewrite Eg|]. specialize (D O ltac:(lia)).
  assert (D1 : partial (ei_value (toy 1 0 1 1) 0 None) x 0 (- norm_cdf (- x O / 1))).
  { apply (partial_ext (ei_value (toy 1 0 1 1) 0 (Some 1))); [reflexivity|]. apply toy1_ei_slope; [exact V|reflexivity|lra]. }
  rewrite (derive_unique _ _ _ _ D D1). pose proof (norm_cdf_bounds (- x O / 1)) as B. set (c := norm_cdf (- x O / 1)) in *. unfold Rdiv. rewrite Rinv_1. lra.
Qed.

Lemma EPS_half : EPS < / 2.
Proof.
  unfold EPS. apply Rinv_lt_contravar; [apply Rmult_lt_0_compat; [lra|apply pow_lt; lra]|]. replace 2 with (2 ^ 1) at 1 by ring. apply Rlt_pow; [lra|lia].
Qed.
(** Two variables, LogEI and one surrogate of a constraint predicted to be satisfied. *)
Example C108_example : exists f g, (forall y, constrained_obj LogEI (toy 1 0 1 1) [(toy 2 (-1) 1 1, 0)] 0 2 1 true 1 y = Some (f y)) /\
  constrained_obj_grad LogEI (toy 1 0 1 1) [(toy 2 (-1) 1 1, 0)] 0 2 1 true 1 (unit_vec 1) = Some g /\ is_gradient 2 f (unit_vec 1) g.
Proof.
  pose proof EPS_small as E. assert (V : 1 + unit_vec 1 1%nat * unit_vec 1 1%nat = 2) by (unfold unit_vec; cbn [Nat.eqb]; lra).
  apply (C108_constrained_partial 2 _ _ _ _ LogEI [(toy 2 (-1) 1 1, 0)] 0 2 1 true (toy_predicts 1 0 1 1) (toy_gradients 2 1 0 1 1 (unit_vec 1))).
  - lra.
  - intros _. rewrite V. split; [lra|]. unfold unit_vec. cbn [Nat.eqb]. pose proof sqrt2_pos.
    replace ((0 - (1 * 0 + 0)) / sqrt 2) with 0 by (field; lra). lra.
  - rewrite V. lra.
  - apply Forall_cons; [|constructor]. exists (fun x => 2 * x O + -1), (fun x => 1 + x 1%nat * x 1%nat). split; [apply toy_predicts|]. split; [apply toy_gradients|].
    split; [rewrite V; lra|reflexivity].
  - intros _. apply Forall_cons; [|constructor]. cbn [fst snd]. unfold pof, toy, surrogate_of. cbn [s_valvar]. rewrite V, rlt_false by lra.
    unfold unit_vec. cbn [Nat.eqb]. pose proof sqrt2_pos.
    apply Rlt_trans with (norm_cdf 0); [rewrite norm_cdf_0; exact EPS_half|apply norm_cdf_incr]. apply Rdiv_lt_0_compat; lra.
  - discriminate.
Qed.

(** ** C109 The logarithm of the expected improvement *)
Theorem C109_value_partial : forall m mean var x fmin, predicts m mean var -> EPS <= var x -> - 1000000 < (fmin - mean x) / sqrt (var x) ->
  0 < ei_value m fmin None x /\ logei_value m fmin x = ln (ei_value m fmin None x).
Proof. intros m mean var x fmin P. now apply logei_of_ei. Qed.
Theorem C109_gradient_partial : forall n m mean var x fmin, predicts m mean var -> predicts_gradients n m mean var x ->
  EPS < var x -> - 1000000 < (fmin - mean x) / sqrt (var x) ->
  exists g, logei_grad m fmin x = Some g /\ is_gradient n (logei_value m fmin) x g.
Proof. intros n m mean var x fmin P G. now apply (logei_gradient n m mean var x P G). Qed.
(** Below the threshold on the variance the criterion is constant, but not its gradient. *)
Theorem C109_no_variance_refuted : exists m mean var x g, predicts m mean var /\ predicts_gradients 1 m mean var x /\ 0 < var x /\
  logei_grad m 0 x = Some g /\ ~ is_gradient 1 (logei_value m 0) x g.
Proof.
  pose proof EPS_pos as E. set (m := toy 1 0 (EPS / 2) 1). set (x := unit_vec O).
  assert (P := toy_predicts 1 0 (EPS / 2) 1). assert (G := toy_gradients 1 1 0 (EPS / 2) 1 x). fold m in P, G.
  assert (V : forall t, EPS / 2 + upd x O t 1%nat * upd x O t 1%nat = EPS / 2) by (intros t; unfold upd, x, unit_vec; cbn; ring).
  exists m, (fun x => 1 * x O + 0), (fun x => EPS / 2 + x 1%nat * x 1%nat), x, (fun _ => F64_MIN).
  assert (VX : EPS / 2 + x 1%nat * x 1%nat = EPS / 2) by (unfold x, unit_vec; cbn; ring).
  split; [exact P|]. split; [exact G|]. split; [rewrite VX; lra|].
  split; [unfold logei_grad; rewrite (valvar m _ _ P), rlt_true by (rewrite VX; lra); reflexivity|].
  intros D. specialize (D O ltac:(lia)).
  assert (D0 : partial (logei_value m 0) x 0 0).
  { unfold partial. apply (derive_ext (fun _ => F64_MIN)); [|exact (derive_const F64_MIN (x O))]. intros t. unfold logei_value.
    rewrite (valvar m _ _ P), rlt_true by (rewrite V; lra). reflexivity. }
  pose proof (derive_unique _ _ _ _ D D0) as U. unfold F64_MIN in U. pose proof EPS_small. assert (0 < 2 ^ 1023) by (apply pow_lt; lra).
  assert (0 < (2 - EPS) * 2 ^ 1023) by (apply Rmult_lt_0_compat; lra). lra.
Qed.
Example C109_example : predicts (toy 1 0 1 1) (fun x => 1 * x O + 0) (fun x => 1 + x 1%nat * x 1%nat) /\ EPS < 1 + unit_vec O 1%nat * unit_vec O 1%nat /\
  - 1000000 < (0 - (1 * unit_vec O O + 0)) / sqrt (1 + unit_vec O 1%nat * unit_vec O 1%nat).
Proof.
  split; [apply toy_predicts|]. pose proof EPS_small. unfold unit_vec. cbn [Nat.eqb]. split; [lra|]. replace (1 + 0 * 0) with 1 by ring. rewrite sqrt_1. lra.
Qed.

(** ** C111 The constrained criterion prefers points that are more likely feasible *)
(** Two points with the same predictions of the objective, the second one being at least as likely to satisfy every constraint:
    its constrained objective, which is minimized, is not greater. *)
Theorem C111_ei_partial : forall m cs fmin scale scale_ic feasible weight x y v w, 0 < scale -> 0 < weight -> s_valvar m x = s_valvar m y ->
  Forall (fun c => pof (fst c) (snd c) x <= pof (fst c) (snd c) y) cs ->
  constrained_obj EI m cs fmin scale scale_ic feasible weight x = Some v -> constrained_obj EI m cs fmin scale scale_ic feasible weight y = Some w -> w <= v.
Proof.
  intros m cs fmin scale sc feas k x y v w S K E F V W. pose proof (pofs_mono cs x y F) as M. pose proof (pofs_range cs x). pose proof (pofs_range cs y).
  unfold constrained_obj in V, W. destruct feas; cbn [is_logei] in V, W.
  - unfold infill_obj in V, W. cbn [crit_value] in V, W. injection V as <-. injection W as <-.
    assert (EE : ei_value m fmin (Some k) y = ei_value m fmin (Some k) x) by (unfold ei_value; now rewrite E). rewrite EE.
    assert (N : 0 <= ei_value m fmin (Some k) x) by (apply ei_nonneg; exact K). set (e := ei_value m fmin (Some k) x) in *.
    assert (ES : 0 <= e / scale) by (apply Rmult_le_pos; [exact N|left; now apply Rinv_0_lt_compat]).
    replace (- e / scale) with (- (e / scale)) by (field; lra). nra.
  - injection V as <-. injection W as <-. lra.
Qed.
Theorem C111_logei_partial : forall m cs fmin scale scale_ic feasible weight x y v w, s_valvar m x = s_valvar m y ->
  Forall (fun c => pof (fst c) (snd c) x <= pof (fst c) (snd c) y) cs ->
  constrained_obj LogEI m cs fmin scale scale_ic feasible weight x = Some v -> constrained_obj LogEI m cs fmin scale scale_ic feasible weight y = Some w -> w <= v.
Proof.
  intros m cs fmin scale sc feas k x y v w E F V W. pose proof (logpofs_mono cs x y F) as M.
  unfold constrained_obj in V, W. destruct feas; cbn [is_logei] in V, W.
  - unfold infill_obj in V, W. cbn [crit_value] in V, W. injection V as <-. injection W as <-.
    assert (EE : logei_value m fmin y = logei_value m fmin x) by (unfold logei_value; now rewrite E). rewrite EE. lra.
  - injection V as <-. injection W as <-. lra.
Qed.
(** With WB2 and positive predicted values, the less likely feasible point is strictly preferred. *)
Theorem C111_wb2_refuted : exists m c x y v w, s_valvar m x = s_valvar m y /\ s_predict m x = s_predict m y /\ pof c 0 x < pof c 0 y /\
  constrained_obj (WB2 (Some 1)) m [(c, 0)] 0 1 1 true 1 x = Some v /\ constrained_obj (WB2 (Some 1)) m [(c, 0)] 0 1 1 true 1 y = Some w /\ v < w.
Proof.
  pose proof EPS_small as E. set (m := toy 0 10 1 1). set (c := toy (-1) 0 1 1). set (x := fun _ : nat => 0) . set (y := unit_vec O).
  assert (PX : pof c 0 x = norm_cdf 0).
  { unfold pof, c, toy, surrogate_of, x. cbn [s_valvar]. rewrite rlt_false by lra. f_equal. replace (1 + 0 * 0) with 1 by ring. rewrite sqrt_1. field. }
  assert (PY : pof c 0 y = norm_cdf 1).
  { unfold pof, c, toy, surrogate_of, y, unit_vec. cbn [s_valvar Nat.eqb]. rewrite rlt_false by lra. f_equal. replace (1 + 0 * 0) with 1 by ring. rewrite sqrt_1. field. }
  assert (LT : norm_cdf 0 < norm_cdf 1) by (apply norm_cdf_incr; lra).
  assert (EV : forall z, z 1%nat = 0 -> ei_value m 0 (Some 1) z = impr (-10)).
  { intros z Z. unfold ei_value, m, toy, surrogate_of. cbn [s_valvar]. rewrite Z. rewrite rlt_false by lra. cbn [unwrap_or]. replace (1 + 0 * 0) with 1 by ring. rewrite sqrt_1.
    replace ((0 - (0 * z O + 10)) / (1 * 1)) with (-10) by field. unfold impr. ring. }
  assert (IM : impr (-10) < 10).
  { pose proof (impr_incr (-10) 0 ltac:(lra)) as I2.
    assert (impr 0 < 1). { unfold impr. rewrite Rmult_0_l, Rplus_0_l. unfold norm_pdf. replace (- / 2 * 0 * 0) with 0 by ring. rewrite exp_0.
      pose proof PI2_1. assert (1 < sqrt (2 * PI)) by (rewrite <- sqrt_1; apply sqrt_lt_1_alt; lra). apply Rmult_lt_reg_r with (sqrt (2 * PI)); [lra|].
      unfold Rdiv. rewrite Rmult_assoc, Rinv_l by lra. lra. } lra. }
  exists m, c, x, y, (- (1 * impr (-10) - 10) / 1 * (1 * norm_cdf 0)), (- (1 * impr (-10) - 10) / 1 * (1 * norm_cdf 1)).
  split; [unfold m, toy, surrogate_of, x, y, unit_vec; cbn [s_valvar Nat.eqb]; do 2 f_equal; ring|].
  split; [unfold m, toy, surrogate_of, x, y, unit_vec; cbn [s_predict Nat.eqb]; f_equal; ring|].
  split; [rewrite PX, PY; exact LT|].
  split; [|split].
  - unfold constrained_obj, infill_obj, crit_value, wb2_value. cbn [is_logei]. replace (s_predict m x) with (Some 10) by (unfold m, toy, surrogate_of, x; cbn [s_predict]; f_equal; ring).
    rewrite (EV x eq_refl). unfold pofs. cbn [fold_left fst snd]. rewrite PX. reflexivity.
  - unfold constrained_obj, infill_obj, crit_value, wb2_value. cbn [is_logei]. replace (s_predict m y) with (Some 10) by (unfold m, toy, surrogate_of, y, unit_vec; cbn [s_predict Nat.eqb]; f_equal; ring).
    rewrite (EV y eq_refl). unfold pofs. cbn [fold_left fst snd]. rewrite PY. reflexivity.
  - rewrite !Rmult_1_l. unfold Rdiv. rewrite Rinv_1, Rmult_1_r. apply Rmult_lt_compat_l; lra.
Qed.

(** At (1, 0) the constraint - x_0 <= 0 is more likely satisfied than at (0, 0), and the constrained objectives are defined at both points. *)
Example C111_example : s_valvar (toy 0 10 1 1) (fun _ => 0) = s_valvar (toy 0 10 1 1) (unit_vec O) /\
  Forall (fun c => pof (fst c) (snd c) (fun _ => 0) < pof (fst c) (snd c) (unit_vec O)) [(toy (-1) 0 1 1, 0)] /\
  (forall c x, exists v, constrained_obj c (toy 0 10 1 1) [(toy (-1) 0 1 1, 0)] 0 1 1 true 1 x = Some v).
Proof.
  pose proof EPS_small as E. split; [unfold toy, surrogate_of, unit_vec; cbn [s_valvar Nat.eqb]; do 2 f_equal; ring|]. split.
  - apply Forall_cons; [|constructor]. cbn [fst snd]. unfold pof, toy, surrogate_of, unit_vec. cbn [s_valvar Nat.eqb]. rewrite rlt_false by lra.
    replace (1 + 0 * 0) with 1 by ring. rewrite sqrt_1. apply norm_cdf_incr. unfold Rdiv. rewrite Rinv_1. lra.
  - intros c x. destruct c; eexists; reflexivity.
Qed.

(** ** C112 Gradients of the constraints given to the inner optimizer *)
Theorem C112_mean_partial : forall n m mean var x scale, predicts m mean var -> predicts_gradients n m mean var x ->
  exists f g, (forall y, mean_cstr m scale y = Some (f y)) /\ mean_cstr_grad m scale x = Some g /\ is_gradient n f x g.
Proof.
  intros n m mean var x scale P [gm [gv [GM [_ D]]]]. exists (fun y => mean y / scale), (fun j => gm j / scale).
  split; [intros y; unfold mean_cstr; rewrite (prediction m mean var P); reflexivity|]. split; [unfold mean_cstr_grad; now rewrite GM|].
  intros j J. unfold partial, Rdiv. apply derive_scal_r. apply (D j J).
Qed.
(** The value of a constraint function is divided by its scale, not its gradient: right for a unit scale only. *)
Theorem C112_function_partial : forall n f fgrad x, is_gradient n f x (fgrad x) -> is_gradient n (fcstr f 1) x (fcstr_grad fgrad 1 x).
Proof.
  intros n f fgrad x D j J. unfold fcstr_grad. apply (partial_ext f); [|apply (D j J)]. intros y. unfold fcstr, Rdiv. rewrite Rinv_1. ring.
Qed.
Theorem C112_function_refuted : exists f fgrad x scale, (forall y, is_gradient 2 f y (fgrad y)) /\ 0 < scale /\
  ~ is_gradient 2 (fcstr f scale) x (fcstr_grad fgrad scale x).
Proof.
  exists (fun y => y O), (fun _ => unit_vec O), (fun _ => 0), 2. split; [intros y j _; apply partial_coord|]. split; [lra|].
  intros D. specialize (D O ltac:(lia)). unfold fcstr_grad in D.
  assert (T : partial (fcstr (fun y => y O) 2) (fun _ => 0) 0 (unit_vec O O * / 2)).
  { unfold partial, fcstr, Rdiv. apply derive_scal_r. apply (partial_coord O (fun _ => 0) O). }
  pose proof (derive_unique _ _ _ _ D T) as U. unfold unit_vec in U. cbn in U. lra.
Qed.

(** x_0 x_1 and its gradient, and the mean of a surrogate, at x = (0, 1). *)
Example C112_example : is_gradient 2 (fun y => y O * y 1%nat) (unit_vec 1) (fun j => unit_vec O j * unit_vec 1 1%nat + unit_vec 1 O * unit_vec 1 j) /\
  exists f g, (forall y, mean_cstr (toy 1 0 1 1) 2 y = Some (f y)) /\ mean_cstr_grad (toy 1 0 1 1) 2 (unit_vec 1) = Some g /\
    is_gradient 2 f (unit_vec 1) g /\ g O = / 2.
Proof.
  split.
  - intros j _. unfold partial. eapply derive_eq; [apply derive_mult; [apply (partial_coord O (unit_vec 1) j)|apply (partial_coord 1 (unit_vec 1) j)]|].
    cbv beta. rewrite upd_same. ring.
  - destruct (C112_mean_partial 2 _ _ _ (unit_vec 1) 2 (toy_predicts 1 0 1 1) (toy_gradients 2 1 0 1 1 (unit_vec 1))) as [f [g [A [B C]]]].
    exists f, g. split; [exact A|]. split; [exact B|]. split; [exact C|]. unfold mean_cstr_grad, toy, surrogate_of in B. cbn in B. injection B as <-. unfold unit_vec. cbn. lra.
Qed.

(** ** C113 Scaling factors *)
Lemma scaled_bound (vals : list R) s : (if rlt (unwrap_or (list_max (map Rabs vals)) 1) (100 * EPS) then 1 else unwrap_or (list_max (map Rabs vals)) 1) = s ->
  0 < s /\ forall v, In v vals -> Rabs v <= s.
Proof.
  pose proof EPS_pos as E. intros H. assert (B : forall v, In v vals -> Rabs v <= unwrap_or (list_max (map Rabs vals)) 1).
  { intros v I. destruct (list_max (map Rabs vals)) as [mx|] eqn:M; [|destruct vals; [destruct I|discriminate]].
    apply list_max_spec in M. apply M. now apply in_map. }
  destruct (rlt_spec (unwrap_or (list_max (map Rabs vals)) 1) (100 * EPS)) as [[Q L]|[Q L]]; rewrite Q in H; subst s.
  - split; [lra|]. intros v I. specialize (B v I). assert (100 * EPS < 1); [|lra]. unfold EPS.
    assert (100 < 2 ^ 52). { apply Rlt_le_trans with (2 ^ 7); [lra|]. apply Rle_pow; [lra|lia]. }
    assert (0 < 2 ^ 52) by lra. apply Rmult_lt_reg_r with (2 ^ 52); [lra|]. rewrite Rmult_assoc, Rinv_l by lra. lra.
  - split; [lra|exact B].
Qed.
(** The scale of the criterion is positive and brings the objective within [-1, 1] at the points it was computed from. *)
Theorem C113_criterion_partial : forall c m cs fmin scale_ic weight points s, infill_obj_scale c m cs false fmin scale_ic weight points = Some s ->
  0 < s /\ forall x, In x points -> exists v, infill_obj c m fmin s scale_ic weight x = Some v /\ Rabs v <= 1.
Proof.
  intros c m cs fmin sc w points s H. unfold infill_obj_scale in H. destruct (all_some _ points) as [vals|] eqn:A; [|discriminate].
  cbv zeta in H. injection H as H. destruct (scaled_bound vals s H) as [S B]. split; [exact S|]. intros x I.
  destruct (all_some_in _ _ _ A x I) as [v [Iv Ev]]. specialize (B v Iv). unfold infill_obj in *.
  destruct (crit_value c m fmin (Some w) (Some sc) x) as [cv|]; [|discriminate]. injection Ev as <-. exists (- cv / s). split; [reflexivity|].
  replace (- cv / s) with ((- cv / 1) / s) by (field; lra). unfold Rdiv at 1. rewrite Rabs_mult, (Rabs_right (/ s)) by (left; now apply Rinv_0_lt_compat).
  apply Rmult_le_reg_r with s; [exact S|]. rewrite Rmult_assoc, Rinv_l by lra. lra.
Qed.
Lemma all_some_combine {A B} (f : A -> option B) l bs : all_some f l = Some bs -> forall a, In a l -> exists b, In (b, a) (combine bs l) /\ f a = Some b.
Proof.
  revert bs. induction l as [|c l IH]; intros bs E a I; [destruct I|]. cbn in E. destruct (f c) as [b|] eqn:Fc; [|discriminate].
  destruct (all_some f l) as [r|] eqn:Fr; [|discriminate]. injection E as <-. destruct I as [<-|I]; [exists b; split; [now left|exact Fc]|].
  destruct (IH r eq_refl a I) as [b' [I' E']]. exists b'. split; [now right|exact E'].
Qed.
Theorem C113_constrained_partial : forall c m cs fmin scale_ic weight points s, c <> LogEI ->
  infill_obj_scale c m cs true fmin scale_ic weight points = Some s ->
  0 < s /\ forall x, In x points -> exists v, constrained_obj c m cs fmin s scale_ic true weight x = Some v /\ Rabs v <= 1.
Proof.
  intros c m cs fmin sc w points s NL H. assert (LC : is_logei c = false) by (destruct c; (reflexivity || contradiction)).
  unfold infill_obj_scale in H. destruct (all_some _ points) as [vals|] eqn:A; [|discriminate].
  cbv zeta in H. rewrite LC in H. injection H as H. destruct (scaled_bound _ s H) as [S B]. split; [exact S|]. intros x I.
  destruct (all_some_combine _ _ _ A x I) as [v [Iv Ev]].
  specialize (B _ (in_map (fun vx => fst vx * pofs cs (snd vx)) _ _ Iv)). cbn [fst snd] in B. unfold constrained_obj, infill_obj in *. rewrite LC.
  destruct (crit_value c m fmin (Some w) (Some sc) x) as [cv|]; [|discriminate]. injection Ev as <-. exists (- cv / s * pofs cs x). split; [reflexivity|].
  replace (- cv / s * pofs cs x) with ((- cv / 1 * pofs cs x) / s) by (field; lra). unfold Rdiv at 1. rewrite Rabs_mult, (Rabs_right (/ s)) by (left; now apply Rinv_0_lt_compat).
  apply Rmult_le_reg_r with s; [exact S|]. rewrite Rmult_assoc, Rinv_l by lra. lra.
Qed.
Theorem C113_constraint_partial : forall m points s, cstr_scale m points = Some s -> (exists x p, In x points /\ s_predict m x = Some p /\ p <> 0) ->
  0 < s /\ forall x, In x points -> exists v, mean_cstr m s x = Some v /\ Rabs v <= 1.
Proof.
  intros m points s H [x0 [p0 [I0 [P0 N0]]]]. unfold cstr_scale in H. destruct (all_some (s_predict m) points) as [ps|] eqn:A; [|discriminate].
  injection H as H. assert (M : forall p, In p ps -> Rabs p <= s).
  { intros p I. destruct (list_max (map Rabs ps)) as [mx|] eqn:M; [|destruct ps; [destruct I|discriminate]]. cbn in H. subst mx.
    apply list_max_spec in M. apply M. now apply in_map. }
  assert (S : 0 < s). { destruct (all_some_in _ _ _ A x0 I0) as [p [Ip Ep]]. rewrite P0 in Ep. injection Ep as <-. specialize (M _ Ip). pose proof (Rabs_pos_lt p0 N0). lra. }
  split; [exact S|]. intros x I. destruct (all_some_in _ _ _ A x I) as [p [Ip Ep]]. exists (p / s). split; [unfold mean_cstr; now rewrite Ep|].
  specialize (M p Ip). unfold Rdiv. rewrite Rabs_mult, (Rabs_right (/ s)) by (left; now apply Rinv_0_lt_compat).
  apply Rmult_le_reg_r with s; [exact S|]. rewrite Rmult_assoc, Rinv_l by lra. lra.
Qed.
(** A constraint model predicting zero at all the sampled points has a zero scale, by which its values are divided. *)
Theorem C113_constraint_refuted : exists m mean var points, predicts m mean var /\ length points = 2%nat /\ cstr_scale m points = Some 0.
Proof.
  exists (toy 1 0 1 1), (fun x => 1 * x O + 0), (fun x => 1 + x 1%nat * x 1%nat), [unit_vec 1; unit_vec 2]. split; [apply toy_predicts|]. split; [reflexivity|].
  unfold cstr_scale, toy, surrogate_of, unit_vec. cbn [all_some s_predict Nat.eqb map list_max max_from unwrap_or]. replace (1 * 0 + 0) with 0 by ring. rewrite Rabs_R0.
  destruct (rlt 0 0); reflexivity.
Qed.
Example C113_example : exists s, infill_obj_scale EI (toy 1 0 1 1) [] false 0 1 1 [unit_vec 1; unit_vec 2] = Some s.
Proof. eexists. reflexivity. Qed.

(** The scale of the WB2S criterion is taken at a point where the expected improvement is the largest: there the scaled improvement is
    a hundred times the absolute value of the prediction, unless the improvement is negligible. *)
Lemma argmax_from_spec l : forall best bi i full, nth_error full bi = Some best -> (forall k v, nth_error l k = Some v -> nth_error full (i + k) = Some v) ->
  (forall k v, (k < i)%nat -> nth_error full k = Some v -> v <= best) -> length full = (i + length l)%nat ->
  exists b, nth_error full (argmax_from best bi i l) = Some b /\ forall v, In v full -> v <= b.
Proof.
  induction l as [|a l IH]; intros best bi i full Hb Hl Hm Hn; cbn [argmax_from].
  - exists best. split; [exact Hb|]. intros v I. apply In_nth_error in I. destruct I as [k E].
    apply (Hm k v); [|exact E]. cbn in Hn. assert (k < length full)%nat by (apply nth_error_Some; now rewrite E). lia.
  - assert (Ha : nth_error full i = Some a) by (rewrite <- (Nat.add_0_r i); now apply (Hl O)).
    assert (Hl' : forall k v, nth_error l k = Some v -> nth_error full (S i + k) = Some v).
    { intros k v E. replace (S i + k)%nat with (i + S k)%nat by lia. now apply Hl. }
    destruct (rlt_spec best a) as [[Q Lt]|[Q Ge]]; rewrite Q; (apply IH; [assumption|exact Hl'| |cbn in Hn; lia]); intros k v Hk E.
    + destruct (Nat.eq_dec k i) as [K|K]; [subst k; rewrite Ha in E; injection E as <-; lra|].
      specialize (Hm k v ltac:(lia) E). lra.
    + destruct (Nat.eq_dec k i) as [K|K]; [subst k; rewrite Ha in E; injection E as <-; lra|].
      apply (Hm k v); [lia|exact E].
Qed.
Theorem C113_wb2s_partial : forall m mean var fmin weight points s, predicts m mean var -> wb2s_scale m fmin weight points = Some s ->
  exists x, In x points /\ (forall z, In z points -> ei_value m fmin weight z <= ei_value m fmin weight x) /\
    (100 * EPS < Rabs (ei_value m fmin weight x) -> s * ei_value m fmin weight x = 100 * Rabs (mean x)) /\
    (Rabs (ei_value m fmin weight x) <= 100 * EPS -> s = 1).
Proof.
  intros m mean var fmin weight points s P H. unfold wb2s_scale in H. destruct points as [|x0 points]; [discriminate|].
  cbn [map argmax] in H. set (full := ei_value m fmin weight x0 :: map (ei_value m fmin weight) points) in H.
  destruct (argmax_from_spec (map (ei_value m fmin weight) points) (ei_value m fmin weight x0) O 1%nat full) as [b [Hb Hm]].
  - reflexivity.
  - intros k v E. exact E.
  - intros k v Hk E. assert (k = O) by lia. subst k. cbn in E. injection E as <-. lra.
  - reflexivity.
  - set (i := argmax_from _ _ _ _) in H, Hb. rewrite Hb in H. destruct (nth_error (x0 :: points) i) as [xi|] eqn:Ex; [|discriminate].
    assert (Eb : b = ei_value m fmin weight xi).
    { assert (M : nth_error (map (ei_value m fmin weight) (x0 :: points)) i = Some (ei_value m fmin weight xi)) by now apply map_nth_error.
      change (map (ei_value m fmin weight) (x0 :: points)) with full in M. rewrite Hb in M. now injection M. }
    destruct (s_predict m xi) as [p|] eqn:Ep; [|discriminate]. injection H as H.
    assert (Emean : p = mean xi). { destruct (P xi) as [E1 _]. rewrite E1 in Ep. now injection Ep. }
    exists xi. split; [exact (nth_error_In _ _ Ex)|]. rewrite <- Eb. split; [|split].
    + intros z Iz. apply Hm. exact (in_map (ei_value m fmin weight) (x0 :: points) z Iz).
    + intros Lt. rewrite rlt_true in H by exact Lt. subst s p. assert (b <> 0).
      { intros Z. rewrite Z, Rabs_R0 in Lt. pose proof EPS_pos. lra. }
      field. assumption.
    + intros Le. rewrite rlt_false in H by exact Le. now subst s.
Qed.
Example C113_wb2s_example : exists s, wb2s_scale (toy 1 0 1 1) 0 None [unit_vec 1; unit_vec 2] = Some s.
Proof. unfold wb2s_scale. cbn [map argmax argmax_from]. destruct (rlt _ _); eexists; reflexivity. Qed.

(** ** C114 Virtual values of parallel points *)
Lemma argmin_spec l : forall b bi i full, nth_error full bi = Some b -> (forall k v, nth_error l k = Some v -> nth_error full (i + k) = Some v) ->
  (forall k v, (k < i)%nat -> nth_error full k = Some v -> b <= v) ->
  length full = (i + length l)%nat ->
  exists v, nth_error full (argmin_from b bi i l) = Some v /\ forall w, In w full -> v <= w.
Proof.
  induction l as [|v l IH]; intros b bi i full B T M L; cbn [argmin_from].
  - exists b. split; [exact B|]. intros w W. apply In_nth_error in W. destruct W as [k K]. apply (M k); [|exact K].
    assert (nth_error full k <> None) by congruence. apply nth_error_Some in H. cbn in L. lia.
  - assert (V : nth_error full i = Some v) by (rewrite <- (Nat.add_0_r i); now apply T).
    assert (T' : forall k w, nth_error l k = Some w -> nth_error full (S i + k) = Some w) by (intros k w K; replace (S i + k)%nat with (i + S k)%nat by lia; now apply T).
    destruct (rlt_spec v b) as [[-> C]|[-> C]]; apply IH; try assumption; try (cbn in L; lia).
    + intros k w K W. destruct (Nat.eq_dec k i) as [->|N]; [rewrite V in W; injection W as <-; lra|]. assert (b <= w) by (apply (M k); [lia|exact W]). lra.
    + intros k w K W. destruct (Nat.eq_dec k i) as [->|N]; [rewrite V in W; injection W as <-; lra|]. apply (M k); [lia|exact W].
Qed.
Lemma all_some_nth_error {A B} (f : A -> option B) l bs k b : all_some f l = Some bs -> nth_error bs k = Some b ->
  exists a, nth_error l k = Some a /\ f a = Some b.
Proof.
  revert bs k. induction l as [|c l IH]; intros bs k E K; cbn in E; [injection E as <-; destruct k; discriminate|].
  destruct (f c) as [b'|] eqn:Fc; [|discriminate]. destruct (all_some f l) as [r|] eqn:Fr; [|discriminate]. injection E as <-.
  destruct k as [|k]; cbn in K; [injection K as <-; exists c; split; [reflexivity|exact Fc]|]. apply (IH r k eq_refl K).
Qed.
Lemma nth_error_seq n s k : (k < n)%nat -> nth_error (seq s n) k = Some (s + k)%nat.
Proof.
  revert s k. induction n as [|n IH]; intros s k K; [lia|]. destruct k as [|k]; cbn; [f_equal; lia|]. rewrite IH by lia. f_equal. lia.
Qed.
Lemma all_some_seq (row : list R) n r : all_some (nth_error row) (seq 0 n) = Some r -> r = firstn n row.
Proof.
  revert r. assert (H : forall s r, all_some (nth_error row) (seq s n) = Some r -> r = firstn n (skipn s row)); [|intros r; apply (H O)].
  induction n as [|n IH]; intros s r E; cbn in E; [injection E as <-; reflexivity|]. destruct (nth_error row s) as [v|] eqn:V; [|discriminate].
  destruct (all_some (nth_error row) (seq (S s) n)) as [q|] eqn:Q; [|discriminate]. injection E as <-. rewrite (IH (S s) q Q).
  clear -V. revert s V. induction row as [|a row IH]; intros s V; [destruct s; discriminate|]. destruct s as [|s]; cbn in *; [injection V as <-; reflexivity|]. apply IH. exact V.
Qed.
(** The constant liar repeats the outputs of an observed point of least objective. *)
Theorem C114_constant_liar : forall n_cstr x ydata m cs r, virtual_point ConstantLiarMinimum n_cstr x ydata m cs = Some r ->
  exists row o, In row ydata /\ r = firstn (S n_cstr) row /\ nth_error row 0 = Some o /\
    forall row' o', In row' ydata -> nth_error row' 0 = Some o' -> o <= o'.
Proof.
  intros n x ydata m cs r H. unfold virtual_point in H. destruct (all_some (fun r => nth_error r 0) ydata) as [objs|] eqn:A; [|discriminate].
  destruct objs as [|o os]; [discriminate|]. destruct (nth_error ydata (argmin_from o 0 1 os)) as [row|] eqn:N; [|discriminate].
  destruct (argmin_spec os o 0 1 (o :: os)) as [v [V M]]; [reflexivity|intros k w K; exact K| |reflexivity|].
  { intros k w K W. destruct k; [|lia]. injection W as <-. lra. }
  destruct (all_some_nth_error _ _ _ _ _ A V) as [row0 [R0 V0]]. rewrite N in R0. injection R0 as <-.
  exists row, v. split; [eapply nth_error_In; exact N|]. split; [now apply all_some_seq|]. split; [exact V0|].
  intros row' o' I O. destruct (all_some_in _ _ _ A row' I) as [b [Ib Eb]]. rewrite O in Eb. injection Eb as <-. now apply M.
Qed.
(** Kriging believers use the predictions; the bounds are three standard deviations away from the mean of the objective. *)
Theorem C114_kriging_believers : forall n_cstr x ydata m mean var cs r lo up, predicts m mean var ->
  virtual_point KrigingBeliever n_cstr x ydata m cs = Some r -> virtual_point KrigingBelieverLowerBound n_cstr x ydata m cs = Some lo ->
  virtual_point KrigingBelieverUpperBound n_cstr x ydata m cs = Some up ->
  exists ps, Forall2 (fun c p => s_predict c x = Some p) cs ps /\ r = mean x :: ps /\
    lo = mean x - 3 * sqrt (var x) :: ps /\ up = mean x + 3 * sqrt (var x) :: ps.
Proof.
  intros n x ydata m mean var cs r lo up P. unfold virtual_point. rewrite (prediction m mean var P), (valvar m mean var P).
  destruct (all_some (fun c => s_predict c x) cs) as [ps|] eqn:A; [|discriminate]. cbv zeta. intros E1 E2 E3. exists ps.
  injection E1 as <-. injection E2 as <-. injection E3 as <-. split.
  - clear -A. revert ps A. induction cs as [|c cs IH]; intros ps A; cbn in A; [injection A as <-; constructor|].
    destruct (s_predict c x) as [p|] eqn:E; [|discriminate]. destruct (all_some (fun c => s_predict c x) cs) as [q|]; [|discriminate]. injection A as <-. constructor; [exact E|now apply IH].
  - split; [f_equal; ring|]. split; f_equal; ring.
Qed.
Example C114_example : exists r, virtual_point ConstantLiarMinimum 1 (unit_vec 1) [[2; 5]; [1; 7]] (toy 1 0 1 1) [toy 1 0 1 1] = Some r /\ r = [1; 7].
Proof.
  eexists. split; [|reflexivity]. unfold virtual_point. cbn [all_some nth_error argmin_from]. rewrite rlt_true by lra. reflexivity.
Qed.

(** ** C115 Criteria follow changes of units *)
(** Outputs multiplied by a positive factor, above the absolute threshold on the variance. *)
Theorem C115_units_partial : forall m m' x p s a fmin tol, 0 < a -> s_valvar m x = Some (p, s) -> s_valvar m' x = Some (a * p, a * a * s) ->
  EPS <= s -> EPS <= a * a * s ->
  ei_value m' (a * fmin) None x = a * ei_value m fmin None x /\ pof m' (a * tol) x = pof m tol x.
Proof.
  intros m m' x p s a fmin tol A V V' E E'. pose proof EPS_pos. assert (Q : 0 < sqrt s) by (apply sqrt_lt_R0; lra).
  assert (SQ : sqrt (a * a * s) = a * sqrt s). { rewrite sqrt_mult by nra. now rewrite sqrt_square by lra. }
  rewrite (ei_value_eq _ _ _ _ _ _ V E), (ei_value_eq _ _ _ _ _ _ V' E'). cbn [unwrap_or]. rewrite SQ, !Rmult_1_l.
  unfold pof. rewrite V, V', !rlt_false, SQ by assumption.
  replace ((a * fmin - a * p) / (a * sqrt s)) with ((fmin - p) / sqrt s) by (field; lra).
  replace ((a * tol - a * p) / (a * sqrt s)) with ((tol - p) / sqrt s) by (field; lra). split; ring.
Qed.
(** The threshold is absolute: the same problem in smaller units has no expected improvement and no feasible point. *)
Theorem C115_threshold_refuted : exists m m' x p s a, 0 < a /\ s_valvar m x = Some (p, s) /\ s_valvar m' x = Some (a * p, a * a * s) /\ s = 1 /\
  0 < ei_value m 0 None x /\ ei_value m' (a * 0) None x = 0 /\ 0 < pof m 0 x /\ pof m' (a * 0) x = 0.
Proof.
  pose proof EPS_pos as E. pose proof EPS_small as E1. set (a := / 2 ^ 27).
  assert (A : 0 < a) by (apply Rinv_0_lt_compat, pow_lt; lra).
  assert (AA : a * a < EPS).
  { unfold a, EPS. rewrite <- Rinv_mult. apply Rinv_lt_contravar; [apply Rmult_lt_0_compat; [apply pow_lt; lra|rewrite <- pow_add; apply pow_lt; lra]|].
    rewrite <- pow_add. apply Rlt_pow; [lra|lia]. }
  exists (surrogate_of (fun _ => -1) (fun _ => 1) (fun _ _ => 0) (fun _ _ => 0)), (surrogate_of (fun _ => a * -1) (fun _ => a * a * 1) (fun _ _ => 0) (fun _ _ => 0)), (fun _ => 0), (-1), 1, a.
  split; [exact A|]. split; [reflexivity|]. split; [reflexivity|]. split; [reflexivity|]. split; [|split; [|split]].
  - apply (C63_positive _ _ None _ (-1) 1); [discriminate|reflexivity|lra].
  - eapply ei_value_small; [reflexivity|lra].
  - unfold pof. cbn [s_valvar surrogate_of]. rewrite rlt_false by lra. apply norm_cdf_bounds.
  - unfold pof. cbn [s_valvar surrogate_of]. rewrite rlt_true by lra. reflexivity.
Qed.

(** Outputs in units three times smaller. *)
Example C115_example : let m := surrogate_of (fun _ => -1) (fun _ => 1) (fun _ _ => 0) (fun _ _ => 0) in
  let m' := surrogate_of (fun _ => 3 * -1) (fun _ => 3 * 3 * 1) (fun _ _ => 0) (fun _ _ => 0) in
  0 < ei_value m 2 None (fun _ => 0) /\ ei_value m' (3 * 2) None (fun _ => 0) = 3 * ei_value m 2 None (fun _ => 0) /\
  pof m' (3 * 1) (fun _ => 0) = pof m 1 (fun _ => 0).
Proof.
  intros m m'. pose proof EPS_small. split; [apply (C63_positive _ _ None _ (-1) 1); [discriminate|reflexivity|lra]|].
  apply (C115_units_partial m m' (fun _ => 0) (-1) 1 3 2 1); try reflexivity; lra.
Qed.

Print Assumptions C63_nonnegative.
Print Assumptions C63_positive.
Print Assumptions C63_no_variance.
Print Assumptions C63_gradient.
Print Assumptions C107_expected_improvement_partial.
Print Assumptions C107_weighted_partial.
Print Assumptions C107_feasibility_partial.
Print Assumptions C107_small_variance_refuted.
Print Assumptions C64_range.
Print Assumptions C64_gradient_partial.
Print Assumptions C64_exactly_partial.
Print Assumptions C64_tolerance_refuted.
Print Assumptions C65_first_component_partial.
Print Assumptions C65_refuted.
Print Assumptions C108_infill_partial.
Print Assumptions C108_constrained_partial.
Print Assumptions C108_weight_refuted.
Print Assumptions C108_no_surrogate_refuted.
Print Assumptions C109_value_partial.
Print Assumptions C109_gradient_partial.
Print Assumptions C109_no_variance_refuted.
Print Assumptions C111_ei_partial.
Print Assumptions C111_logei_partial.
Print Assumptions C111_wb2_refuted.
Print Assumptions C112_mean_partial.
Print Assumptions C112_function_partial.
Print Assumptions C112_function_refuted.
Print Assumptions C113_criterion_partial.
Print Assumptions C113_constrained_partial.
Print Assumptions C113_constraint_partial.
Print Assumptions C113_constraint_refuted.
Print Assumptions C113_wb2s_partial.
Print Assumptions C114_constant_liar.
Print Assumptions C114_kriging_believers.
Print Assumptions C115_units_partial.
Print Assumptions C115_threshold_refuted.
