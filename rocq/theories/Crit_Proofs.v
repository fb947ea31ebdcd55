(** Facts about the infill criteria. *)
From Coq Require Import Reals Lra Lia Arith.
From Coquelicot Require Import Coquelicot.
From Coq Require Import List Bool.
From Verif Require Import RVec Normal Crit_Model Crit_Spec.
Import ListNotations.
Local Open Scope R_scope.

Lemma rlt_true a b : a < b -> rlt a b = true.
Proof. unfold rlt. destruct (Rlt_dec a b); [reflexivity|contradiction]. Qed.
Lemma rlt_false a b : b <= a -> rlt a b = false.
Proof. unfold rlt. destruct (Rlt_dec a b); [lra|reflexivity]. Qed.
Lemma EPS_pos : 0 < EPS. Proof. unfold EPS. apply Rinv_0_lt_compat, pow_lt; lra. Qed.
Lemma EPS_lt1 : EPS < 1.
Proof. unfold EPS. rewrite <- Rinv_1. apply Rinv_lt_contravar; [rewrite Rmult_1_l; apply pow_lt; lra|]. apply Rlt_pow_R1; [lra|lia]. Qed.

(** ** Expectations *)
Lemma density_pdf mu sd y : 0 < sd -> density mu sd y = norm_pdf ((y - mu) / sd) / sd.
Proof.
  intros H. unfold density, norm_pdf. set (z := (y - mu) / sd). replace (- (z * z) / 2) with (- / 2 * z * z) by field.
  field. pose proof sqrt_2PI_pos. lra.
Qed.
Lemma pdf_tail z : z < 0 -> norm_pdf z <= 2 / (z * z).
Proof.
  intros Z. assert (Q : 0 < z * z) by nra. unfold norm_pdf. replace (- / 2 * z * z) with (- (/ 2 * z * z)) by ring. rewrite exp_Ropp.
  assert (X : / exp (/ 2 * z * z) <= 2 / (z * z)).
  { replace (2 / (z * z)) with (/ (/ 2 * (z * z))) by (field; lra). apply Rinv_le_contravar; [lra|].
    pose proof (exp_ineq1 (/ 2 * z * z)). lra. }
  assert (S : 1 <= sqrt (2 * PI)). { rewrite <- sqrt_1. apply sqrt_le_1_alt. pose proof PI2_1. lra. }
  assert (I : 0 < / exp (/ 2 * z * z)) by apply Rinv_0_lt_compat, exp_pos.
  apply Rle_trans with (/ exp (/ 2 * z * z)); [|exact X]. unfold Rdiv. rewrite <- (Rmult_1_r (/ exp (/ 2 * z * z))) at 2.
  apply Rmult_le_compat_l; [lra|]. rewrite <- Rinv_1. apply Rinv_le_contravar; lra.
Qed.
Lemma cdf_tail z : z < 0 -> norm_cdf z <= / (z * z).
Proof.
  intros Z. pose proof (tail_bound z Z) as T. assert (Q : 0 < z * z) by nra.
  replace (/ (z * z)) with (/ - z * / - z) by (field; lra). assert (0 < / - z) by (apply Rinv_0_lt_compat; lra).
  apply Rmult_le_reg_l with (- z); [lra|]. replace (- z * (/ - z * / - z)) with (/ - z) by (field; lra). exact T.
Qed.
(** u Phi(z) + phi(z) tends to 0 when z tends to minus infinity. *)
Lemma tail_small u c e : 0 < e -> 0 <= c -> exists M, 0 < M /\ forall z, z < - M -> Rabs (u * norm_cdf z + c * norm_pdf z) < e.
Proof.
  intros E C. set (K := Rabs u + 2 * c + 1). assert (KP : 0 < K) by (unfold K; pose proof (Rabs_pos u); lra).
  exists (1 + K / e). assert (KE : 0 < K / e) by (apply Rdiv_lt_0_compat; lra). split; [lra|]. intros z Z.
  assert (Z0 : z < 0) by lra. pose proof (cdf_tail z Z0) as T1. pose proof (pdf_tail z Z0) as T2.
  pose proof (norm_cdf_bounds z) as B1. pose proof (norm_pdf_pos z) as B2. assert (Q : 0 < z * z) by nra.
  apply Rle_lt_trans with (K * / (z * z)).
  - eapply Rle_trans; [apply Rabs_triang|]. rewrite !Rabs_mult, (Rabs_right (norm_cdf z)), (Rabs_right (norm_pdf z)), (Rabs_right c) by lra.
    apply Rle_trans with (Rabs u * / (z * z) + c * (2 / (z * z))).
    + apply Rplus_le_compat; apply Rmult_le_compat_l; try lra. apply Rabs_pos.
    + unfold K. assert (0 < / (z * z)) by (now apply Rinv_0_lt_compat). unfold Rdiv. lra.
  - assert (H : K / e < z * z) by nra. apply Rmult_lt_reg_r with (z * z); [lra|]. rewrite Rmult_assoc, Rinv_l by lra. rewrite Rmult_1_r.
    apply Rmult_lt_reg_r with (/ e); [now apply Rinv_0_lt_compat|]. replace (e * (z * z) * / e) with (z * z) by (field; lra). exact H.
Qed.
Lemma std_derive mu sd y : 0 < sd -> is_derive (fun y => (y - mu) / sd) y (/ sd).
Proof. intros H. auto_derive; [exact I|]. field. lra. Qed.
(** Antiderivative of (c - y) times the density. *)
Lemma impr_antiderivative mu sd c y : 0 < sd ->
  is_derive (fun y => sd * ((c - mu) / sd * norm_cdf ((y - mu) / sd) + norm_pdf ((y - mu) / sd))) y ((c - y) * density mu sd y).
Proof.
  intros H. eapply derive_eq.
  - apply derive_scal_l. apply derive_plus.
    + apply derive_scal_l. apply (derive_comp norm_cdf (fun y => (y - mu) / sd)); [now apply std_derive|apply norm_cdf_derive].
    + apply (derive_comp norm_pdf (fun y => (y - mu) / sd)); [now apply std_derive|apply norm_pdf_derive].
  - rewrite density_pdf by exact H. field. lra.
Qed.
Lemma density_cont mu sd y : 0 < sd -> continuous (density mu sd) y.
Proof.
  intros H. apply (ex_derive_continuous (density mu sd)). unfold density. pose proof sqrt_2PI_pos. auto_derive. lra.
Qed.
Lemma ei_expectation mu sd fmin : 0 < sd ->
  expectation (improvement fmin) mu sd (sd * impr ((fmin - mu) / sd)).
Proof.
  intros H e E. set (u := (fmin - mu) / sd).
  destruct (tail_small u 1 (e / sd)) as [M [MP MT]]; [apply Rdiv_lt_0_compat; lra|lra|].
  exists (Rabs fmin + Rabs mu + M * sd). intros a b Ha Hb.
  pose proof (Rle_abs fmin). pose proof (Rle_abs (- fmin)) as N1. rewrite Rabs_Ropp in N1.
  pose proof (Rabs_pos mu). assert (0 < M * sd) by nra. pose proof (Rle_abs (- mu)) as N2. rewrite Rabs_Ropp in N2.
  assert (I1 : is_RInt (fun y => improvement fmin y * density mu sd y) a fmin
    (sd * (u * norm_cdf u + norm_pdf u) - sd * (u * norm_cdf ((a - mu) / sd) + norm_pdf ((a - mu) / sd)))).
  { apply is_RInt_ext with (fun y => (fmin - y) * density mu sd y).
    - rewrite Rmin_left, Rmax_right by lra. intros y Hy. unfold improvement. rewrite Rmax_left by lra. reflexivity.
    - apply (is_RInt_derive (fun y => sd * ((fmin - mu) / sd * norm_cdf ((y - mu) / sd) + norm_pdf ((y - mu) / sd)))).
      + intros y _. now apply impr_antiderivative.
      + intros y _. apply (continuous_mult (fun y => fmin - y) (density mu sd)); [|now apply density_cont].
        apply (ex_derive_continuous (fun y => fmin - y)). auto_derive. exact I. }
  assert (I2 : is_RInt (fun y => improvement fmin y * density mu sd y) fmin b 0).
  { apply is_RInt_ext with (fun _ => 0).
    - rewrite Rmin_left, Rmax_right by lra. intros y Hy. unfold improvement. rewrite Rmax_right by lra. symmetry. apply Rmult_0_l.
    - pose proof (is_RInt_const fmin b 0) as K. unfold scal in K. cbn in K. unfold mult in K. cbn in K. rewrite Rmult_0_r in K. exact K. }
  pose proof (is_RInt_Chasles _ _ _ _ _ _ I1 I2) as I3. split; [eexists; exact I3|].
  rewrite (is_RInt_unique _ _ _ _ I3). unfold plus. cbn. fold u. unfold impr.
  set (za := (a - mu) / sd).
  replace (_ - _) with (- (sd * (u * norm_cdf za + 1 * norm_pdf za))) by ring. rewrite Rabs_Ropp, Rabs_mult, (Rabs_right sd) by lra.
  replace e with (sd * (e / sd)) by (field; lra). apply Rmult_lt_compat_l; [exact H|]. apply MT.
  unfold za. apply Rmult_lt_reg_r with sd; [exact H|]. unfold Rdiv. rewrite Rmult_assoc, Rinv_l, Rmult_1_r by lra. lra.
Qed.
Lemma pof_expectation mu sd tol : 0 < sd -> expectation (satisfied tol) mu sd (norm_cdf ((tol - mu) / sd)).
Proof.
  intros H e E. destruct (tail_small 1 0 e) as [M [MP MT]]; [exact E|lra|].
  exists (Rabs tol + Rabs mu + M * sd). intros a b Ha Hb.
  pose proof (Rle_abs tol). pose proof (Rle_abs (- tol)) as N1. rewrite Rabs_Ropp in N1.
  pose proof (Rabs_pos mu). assert (0 < M * sd) by nra. pose proof (Rle_abs (- mu)) as N2. rewrite Rabs_Ropp in N2.
  assert (I1 : is_RInt (fun y => satisfied tol y * density mu sd y) a tol (norm_cdf ((tol - mu) / sd) - norm_cdf ((a - mu) / sd))).
  { apply is_RInt_ext with (density mu sd).
    - rewrite Rmin_left, Rmax_right by lra. intros y Hy. unfold satisfied. destruct (Rle_dec y tol); [symmetry; apply Rmult_1_l|lra].
    - apply (is_RInt_derive (fun y => norm_cdf ((y - mu) / sd))).
      + intros y _. eapply derive_eq; [apply (derive_comp norm_cdf (fun y => (y - mu) / sd)); [now apply std_derive|apply norm_cdf_derive]|].
        rewrite density_pdf by exact H. field. lra.
      + intros y _. now apply density_cont. }
  assert (I2 : is_RInt (fun y => satisfied tol y * density mu sd y) tol b 0).
  { apply is_RInt_ext with (fun _ => 0).
    - rewrite Rmin_left, Rmax_right by lra. intros y Hy. unfold satisfied. destruct (Rle_dec y tol); [lra|symmetry; apply Rmult_0_l].
    - pose proof (is_RInt_const tol b 0) as K. unfold scal in K. cbn in K. unfold mult in K. cbn in K. rewrite Rmult_0_r in K. exact K. }
  pose proof (is_RInt_Chasles _ _ _ _ _ _ I1 I2) as I3. split; [eexists; exact I3|].
  rewrite (is_RInt_unique _ _ _ _ I3). unfold plus. cbn.
  set (za := (a - mu) / sd). replace (_ - _) with (- (1 * norm_cdf za + 0 * norm_pdf za)) by ring. rewrite Rabs_Ropp. apply MT.
  unfold za. apply Rmult_lt_reg_r with sd; [exact H|]. unfold Rdiv. rewrite Rmult_assoc, Rinv_l, Rmult_1_r by lra. lra.
Qed.

(** ** Derivatives *)
Lemma locally_gt (f : R -> R) t l c : is_derive f t l -> c < f t -> locally t (fun s => c < f s).
Proof.
  intros D H. assert (C : continuous f t) by (apply (ex_derive_continuous f); now exists l).
  apply (C (fun v => c < v)). now apply open_gt.
Qed.
Lemma locally_lt (f : R -> R) t l c : is_derive f t l -> f t < c -> locally t (fun s => f s < c).
Proof.
  intros D H. assert (C : continuous f t) by (apply (ex_derive_continuous f); now exists l).
  apply (C (fun v => v < c)). now apply open_lt.
Qed.
Lemma derive_sqrt (f : R -> R) t l : is_derive f t l -> 0 < f t -> is_derive (fun s => sqrt (f s)) t (l / (2 * sqrt (f t))).
Proof. intros D H. exact (is_derive_sqrt f t l D H). Qed.
Lemma derive_ln (f : R -> R) t l : is_derive f t l -> 0 < f t -> is_derive (fun s => ln (f s)) t (l / f t).
Proof.
  intros D H. eapply derive_eq; [apply (derive_comp ln f t (/ f t) l D)|reflexivity].
  apply is_derive_Reals. now apply derivable_pt_lim_ln.
Qed.
Lemma derive_impr (f : R -> R) t l : is_derive f t l -> is_derive (fun s => impr (f s)) t (l * norm_cdf (f t)).
Proof. intros D. apply (derive_comp impr f); [exact D|apply impr_derive]. Qed.
Lemma derive_cdf (f : R -> R) t l : is_derive f t l -> is_derive (fun s => norm_cdf (f s)) t (l * norm_pdf (f t)).
Proof. intros D. apply (derive_comp norm_cdf f); [exact D|apply norm_cdf_derive]. Qed.
Lemma ei_core_derive (y s : R -> R) t y' v' k fmin : is_derive y t y' -> is_derive s t v' -> 0 < s t -> k <> 0 ->
  is_derive (fun r => k * sqrt (s r) * impr ((fmin - y r) / (k * sqrt (s r)))) t
    (k * v' / (2 * sqrt (s t)) * norm_pdf ((fmin - y t) / (k * sqrt (s t))) - y' * norm_cdf ((fmin - y t) / (k * sqrt (s t)))).
Proof.
  intros Y S P K. assert (Q : 0 < sqrt (s t)) by (now apply sqrt_lt_R0).
  assert (KQ : k * sqrt (s t) <> 0) by (apply Rmult_integral_contrapositive_currified; lra).
  assert (DS : is_derive (fun r => k * sqrt (s r)) t (k * (v' / (2 * sqrt (s t))))) by (apply derive_scal_l; now apply derive_sqrt).
  eapply derive_eq.
  - apply derive_mult; [exact DS|]. apply derive_impr. apply derive_div; [|exact DS|exact KQ].
    apply derive_minus; [apply derive_const|exact Y].
  - cbv beta. unfold impr. set (u := (fmin - y t) / (k * sqrt (s t))). assert (U : fmin - y t = u * (k * sqrt (s t))) by (unfold u; field; lra).
    rewrite U. field. lra.
Qed.
Lemma pdf_factor u : - u / sqrt (2 * PI) * exp (- (u * u) / 2) = - u * norm_pdf u.
Proof. unfold norm_pdf. replace (- (u * u) / 2) with (- / 2 * u * u) by field. field. pose proof sqrt_2PI_pos. lra. Qed.
Lemma ei_value_eq m fmin w x p s : s_valvar m x = Some (p, s) -> EPS <= s ->
  ei_value m fmin w x = unwrap_or w 1 * sqrt s * impr ((fmin - p) / (unwrap_or w 1 * sqrt s)).
Proof. intros V E. unfold ei_value. rewrite V, rlt_false by exact E. reflexivity. Qed.
Lemma ei_value_small m fmin w x p s : s_valvar m x = Some (p, s) -> s < EPS -> ei_value m fmin w x = 0.
Proof. intros V E. unfold ei_value. now rewrite V, rlt_true. Qed.
Lemma ei_grad_eq m fmin w x p s gm gv : s_valvar m x = Some (p, s) -> EPS <= s -> s_valvar_grad m x = Some (gm, gv) ->
  unwrap_or w 1 <> 0 ->
  exists g, ei_grad m fmin w x = Some g /\ forall j, g j =
    unwrap_or w 1 * gv j / (2 * sqrt s) * norm_pdf ((fmin - p) / (unwrap_or w 1 * sqrt s)) - gm j * norm_cdf ((fmin - p) / (unwrap_or w 1 * sqrt s)).
Proof.
  intros V E G K. unfold ei_grad. rewrite V, rlt_false, G by exact E. eexists. split; [reflexivity|]. intros j. cbv beta zeta.
  set (k := unwrap_or w 1) in *. assert (Q : 0 < sqrt s) by (apply sqrt_lt_R0; pose proof EPS_pos; lra).
  set (u := (fmin - p) / (k * sqrt s)). rewrite (Rmult_assoc (k * sqrt s) (- u / sqrt (2 * PI)) (exp (- (u * u) / 2))), pdf_factor.
  assert (U : fmin - p = u * (k * sqrt s)) by (unfold u; field; lra). rewrite U. field. lra.
Qed.
Lemma rlt_spec a b : (rlt a b = true /\ a < b) \/ (rlt a b = false /\ b <= a).
Proof. unfold rlt. destruct (Rlt_dec a b); [left|right]; split; (reflexivity || lra). Qed.

Lemma upd_same (x : vec) j : upd x j (x j) = x.
Proof. apply FunctionalExtensionality.functional_extensionality. apply upd_id. Qed.
(** A function that is constant around x has zero derivatives. *)
Lemma partial_local (f g : vec -> R) x j l : locally (x j) (fun t => f (upd x j t) = g (upd x j t)) -> partial f x j l -> partial g x j l.
Proof. intros L. unfold partial. apply is_derive_ext_loc. exact L. Qed.
Lemma partial_const (c : R) (x : vec) j : partial (fun _ => c) x j 0.
Proof. exact (derive_const c (x j)). Qed.
Lemma var_above (var : vec -> R) x j l c : partial var x j l -> c < var x -> locally (x j) (fun t => c < var (upd x j t)).
Proof. intros D H. apply (locally_gt _ _ l); [exact D|]. now rewrite upd_same. Qed.
Lemma var_below (var : vec -> R) x j l c : partial var x j l -> var x < c -> locally (x j) (fun t => var (upd x j t) < c).
Proof. intros D H. apply (locally_lt _ _ l); [exact D|]. now rewrite upd_same. Qed.
Lemma locally_imp (t : R) (A B : R -> Prop) : (forall s, A s -> B s) -> locally t A -> locally t B.
Proof. intros H. now apply filter_imp. Qed.

Section Smooth.
Context (n : nat) (m : surrogate) (mean var : vec -> R) (x : vec).
Hypothesis (P : predicts m mean var) (G : predicts_gradients n m mean var x).
Lemma valvar y : s_valvar m y = Some (mean y, var y). Proof. apply P. Qed.
Lemma prediction y : s_predict m y = Some (mean y). Proof. apply P. Qed.

Lemma ei_gradient fmin w : unwrap_or w 1 <> 0 -> var x <> EPS ->
  exists g, ei_grad m fmin w x = Some g /\ is_gradient n (ei_value m fmin w) x g.
Proof.
  intros K N. destruct G as [gm [gv [_ [GV D]]]]. destruct (Rlt_le_dec (var x) EPS) as [L|L].
  - exists (fun _ => 0). split; [unfold ei_grad; now rewrite valvar, rlt_true|]. intros j J. destruct (D j J) as [_ Dv].
    apply partial_local with (fun _ => 0); [|apply partial_const]. eapply locally_imp; [|exact (var_below var x j _ EPS Dv L)].
    intros t T. symmetry. cbv beta. eapply ei_value_small; [apply valvar|exact T].
  - destruct (ei_grad_eq m fmin w x _ _ gm gv (valvar x) L GV K) as [g [E Eg]]. exists g. split; [exact E|]. intros j J.
    destruct (D j J) as [Dm Dv]. rewrite Eg. assert (V : EPS < var x) by lra.
    apply partial_local with (fun y => unwrap_or w 1 * sqrt (var y) * impr ((fmin - mean y) / (unwrap_or w 1 * sqrt (var y)))).
    + eapply locally_imp; [|exact (var_above var x j _ EPS Dv V)]. intros t T. symmetry. cbv beta. apply ei_value_eq; [apply valvar|lra].
    + unfold partial. cbv beta. eapply derive_eq; [apply (ei_core_derive (fun t => mean (upd x j t)) (fun t => var (upd x j t)) _ (gm j) (gv j)); [exact Dm|exact Dv| |exact K]|].
      * rewrite upd_same. pose proof EPS_pos. lra.
      * cbv beta. rewrite upd_same. reflexivity.
Qed.
Lemma wb2_gradient own fmin w sc : unwrap_or w 1 <> 0 -> var x <> EPS ->
  exists f g, (forall y, wb2_value own m fmin w sc y = Some (f y)) /\ wb2_grad own m fmin w sc x = Some g /\ is_gradient n f x g.
Proof.
  intros K N. destruct (ei_gradient fmin w K N) as [g [E D]]. destruct G as [gm [gv [GM [GV DD]]]].
  set (s := match sc with Some s => s | None => unwrap_or own 1 end).
  exists (fun y => s * ei_value m fmin w y - mean y), (fun j => g j * s - gm j).
  split; [|split].
  - intros y. unfold wb2_value. rewrite prediction. reflexivity.
  - unfold wb2_grad. rewrite E, GM. reflexivity.
  - intros j J. unfold partial. apply derive_minus; [|apply (DD j J)]. rewrite Rmult_comm. apply derive_scal_l. apply (D j J).
Qed.
Lemma pof_value_eq tol y : EPS <= var y -> pof m tol y = norm_cdf ((tol - mean y) / sqrt (var y)).
Proof. intros E. unfold pof. rewrite valvar, rlt_false by exact E. reflexivity. Qed.
Lemma pof_value_small tol y : var y < EPS -> pof m tol y = 0.
Proof. intros E. unfold pof. now rewrite valvar, rlt_true. Qed.
Lemma pof_derivative tol gm gv j : EPS < var x -> partial mean x j (gm j) -> partial var x j (gv j) ->
  partial (pof m tol) x j (norm_pdf ((tol - mean x) / sqrt (var x)) *
    (gm j / (- sqrt (var x)) - (tol - mean x) * (gv j / (2 * sqrt (var x))) / (sqrt (var x) * sqrt (var x)))).
Proof.
  intros V Dm Dv. assert (VP : 0 < var x) by (pose proof EPS_pos; lra). assert (Q : 0 < sqrt (var x)) by (now apply sqrt_lt_R0).
  apply partial_local with (fun y => norm_cdf ((tol - mean y) / sqrt (var y))).
  - eapply locally_imp; [|exact (var_above var x j _ EPS Dv V)]. intros t T. symmetry. cbv beta. apply pof_value_eq. lra.
  - unfold partial. eapply derive_eq.
    + apply derive_cdf. apply derive_div; [apply derive_minus; [apply derive_const|exact Dm]|apply derive_sqrt; [exact Dv|now rewrite upd_same]|rewrite upd_same; lra].
    + cbv beta. rewrite upd_same. field. lra.
Qed.
Lemma pof_gradient : var x <> EPS -> exists g, pof_grad m 0 x = Some g /\ is_gradient n (pof m 0) x g.
Proof.
  intros N. destruct G as [gm [gv [_ [GV D]]]]. destruct (Rlt_le_dec (var x) EPS) as [L|L].
  - exists (fun _ => 0). split; [unfold pof_grad; now rewrite valvar, rlt_true|]. intros j J. destruct (D j J) as [_ Dv].
    apply partial_local with (fun _ => 0); [|apply partial_const]. eapply locally_imp; [|exact (var_below var x j _ EPS Dv L)].
    intros t T. symmetry. cbv beta. now apply pof_value_small.
  - unfold pof_grad. rewrite valvar, rlt_false, GV by exact L. eexists. split; [reflexivity|]. intros j J. destruct (D j J) as [Dm Dv].
    assert (Q : 0 < sqrt (var x)) by (apply sqrt_lt_R0; pose proof EPS_pos; lra).
    eapply partial_eq; [apply (pof_derivative 0 gm gv j); [lra|exact Dm|exact Dv]|]. cbv beta zeta. f_equal. field. lra.
Qed.
End Smooth.

(** ** The logarithm of the expected improvement *)
Lemma ln_half a : 0 < a -> exp (ln a / 2) = sqrt a.
Proof. intros H. replace (ln a / 2) with (/ 2 * ln a) by field. rewrite <- (Rpower_sqrt a H). reflexivity. Qed.
Lemma PI_2_pos : 0 < PI / 2. Proof. pose proof PI_RGT_0. lra. Qed.
Lemma sqrt_PI_2 : sqrt (PI / 2) = sqrt PI / sqrt 2.
Proof. pose proof PI_RGT_0. apply sqrt_div; lra. Qed.
(** Phi(u) / phi(u) through the scaled complementary error function. *)
Lemma mills u : norm_cdf u = norm_pdf u * (erfcx (- (/ sqrt 2) * u) * sqrt (PI / 2)).
Proof.
  pose proof sqrt2_pos as S2. pose proof sqrt_PI_pos as SP. unfold norm_cdf, norm_pdf, erfcx.
  replace (- (/ sqrt 2) * u) with (- u / sqrt 2) by (field; lra). set (z := - u / sqrt 2).
  assert (Z : z * z = / 2 * u * u). { unfold z. replace (- u / sqrt 2 * (- u / sqrt 2)) with (u * u / (sqrt 2 * sqrt 2)) by (field; lra). rewrite sqrt2_sq. field. }
  rewrite Z, sqrt_2PI_mult, sqrt_PI_2.
  replace (exp (- / 2 * u * u) / (sqrt 2 * sqrt PI) * (exp (/ 2 * u * u) * erfc z * (sqrt PI / sqrt 2)))
    with (exp (- / 2 * u * u) * exp (/ 2 * u * u) * erfc z / (sqrt 2 * sqrt 2)) by (field; lra).
  rewrite <- exp_plus, sqrt2_sq. replace (- / 2 * u * u + / 2 * u * u) with 0 by ring. rewrite exp_0. field.
Qed.
Lemma ln_pdf u : ln (norm_pdf u) = - / 2 * u * u - ln (2 * PI) / 2.
Proof.
  pose proof PI_RGT_0. unfold norm_pdf. unfold Rdiv at 1. rewrite ln_mult; [|apply exp_pos|apply Rinv_0_lt_compat, sqrt_2PI_pos].
  rewrite ln_exp, ln_Rinv by apply sqrt_2PI_pos. rewrite <- (ln_half (2 * PI)) by lra. rewrite ln_exp. ring.
Qed.
Section Tail.
Context (u : R).
Hypothesis (U : u <= -1).
Let v := erfcx (- (/ sqrt 2) * u).
Let q := v * - u * sqrt (PI / 2).
Lemma v_pos : 0 < v.
Proof. unfold v, erfcx. apply Rmult_lt_0_compat; [apply exp_pos|apply erfc_bounds]. Qed.
Lemma impr_q : impr u = norm_pdf u * (1 - q).
Proof. unfold impr. rewrite (mills u) at 1. unfold q. fold v. ring. Qed.
Lemma q_bounds : 0 < q < 1.
Proof.
  pose proof v_pos. assert (0 < sqrt (PI / 2)) by apply sqrt_lt_R0, PI_2_pos. split.
  - unfold q. apply Rmult_lt_0_compat; [apply Rmult_lt_0_compat; lra|assumption].
  - pose proof (impr_pos u) as I. rewrite impr_q in I. pose proof (norm_pdf_pos u). apply Rmult_lt_reg_l with (norm_pdf u); lra.
Qed.
Lemma abs_u : Rabs u = - u. Proof. apply Rabs_left. lra. Qed.
Lemma exp_w : exp (ln (v * Rabs u) + ln (PI / 2) / 2) = q.
Proof.
  rewrite exp_plus, ln_half by apply PI_2_pos. rewrite exp_ln; [rewrite abs_u; reflexivity|]. rewrite abs_u. pose proof v_pos.
  apply Rmult_lt_0_compat; lra.
Qed.
Lemma log1mexp_w : log1mexp (ln (v * Rabs u) + ln (PI / 2) / 2) = ln (1 - q).
Proof. unfold log1mexp. destruct (rlt _ _); rewrite exp_w; f_equal; ring. Qed.
Lemma helper_tail : - / 2 * u * u - ln (2 * PI) / 2 + log1mexp (ln (v * Rabs u) + ln (PI / 2) / 2) = ln (impr u).
Proof.
  rewrite log1mexp_w, impr_q, (ln_mult (norm_pdf u)); [rewrite ln_pdf; reflexivity|apply norm_pdf_pos|]. pose proof q_bounds. lra.
Qed.
Lemma d_helper_tail : - u + log1mexp_w_derivative u = norm_cdf u / impr u.
Proof.
  unfold log1mexp_w_derivative, w_and_w_prime, log1mexp_prime. fold v. rewrite exp_w, (mills u), impr_q. fold v.
  pose proof v_pos as VP. pose proof q_bounds as QB. pose proof (norm_pdf_pos u) as PP.
  assert (S2 := sqrt2_pos). assert (SP := sqrt_PI_pos).
  set (r := sqrt (PI / 2)). assert (RP : 0 < r) by apply sqrt_lt_R0, PI_2_pos.
  assert (R1 : 2 / sqrt PI * / sqrt 2 = / r).
  { unfold r. rewrite sqrt_PI_2. replace 2 with (sqrt 2 * sqrt 2) at 1 by apply sqrt2_sq. field. lra. }
  replace ((2 * (- / sqrt 2 * u) * v - 2 / sqrt PI) * - / sqrt 2 / v + 1 / u) with (u + / (r * v) + 1 / u).
  2: { rewrite Rinv_mult, <- R1. replace ((2 * (- / sqrt 2 * u) * v - 2 / sqrt PI) * - / sqrt 2 / v) with
        (2 / (sqrt 2 * sqrt 2) * u + 2 / sqrt PI * / sqrt 2 * / v) by (field; lra). rewrite sqrt2_sq. field. lra. }
  replace (norm_pdf u * (v * r) / (norm_pdf u * (1 - q))) with (v * r / (1 - q)) by (field; lra).
  apply Rmult_eq_reg_r with (1 - q); [|lra]. replace (v * r / (1 - q) * (1 - q)) with (v * r) by (field; lra).
  replace ((- u + - q / (1 - q) * (u + / (r * v) + 1 / u)) * (1 - q)) with (- u - q * / (r * v) - q / u) by (field; lra).
  assert (QE : q = v * - u * r) by reflexivity. rewrite QE. field. lra.
Qed.
End Tail.
Lemma helper_eq u : - 1000000 < u -> log_ei_helper u = ln (impr u).
Proof.
  intros H. unfold log_ei_helper. destruct (rlt_spec (-1) u) as [[-> L]|[-> L]].
  - unfold impr. f_equal. ring.
  - rewrite (rlt_true (- 1000000) u H). now apply helper_tail.
Qed.
Lemma d_helper_eq u : - 1000000 < u -> d_log_ei_helper u = norm_cdf u / impr u.
Proof.
  intros H. unfold d_log_ei_helper. destruct (rlt_spec (-1) u) as [[-> L]|[-> L]].
  - rewrite helper_eq, exp_ln by (lra || apply impr_pos). reflexivity.
  - rewrite (rlt_true (- 1000000) u H). now apply d_helper_tail.
Qed.
Section LogEi.
Context (n : nat) (m : surrogate) (mean var : vec -> R) (x : vec).
Hypothesis (P : predicts m mean var) (G : predicts_gradients n m mean var x).
Lemma logei_eq fmin y : EPS <= var y -> - 1000000 < (fmin - mean y) / sqrt (var y) ->
  logei_value m fmin y = ln (impr ((fmin - mean y) / sqrt (var y))) + ln (sqrt (var y)).
Proof.
  intros E U. unfold logei_value. rewrite (valvar _ _ _ P), rlt_false by exact E. cbv zeta. now rewrite helper_eq.
Qed.
Lemma logei_of_ei fmin y : EPS <= var y -> - 1000000 < (fmin - mean y) / sqrt (var y) ->
  0 < ei_value m fmin None y /\ logei_value m fmin y = ln (ei_value m fmin None y).
Proof.
  intros E U. assert (Q : 0 < sqrt (var y)) by (apply sqrt_lt_R0; pose proof EPS_pos; lra).
  rewrite (ei_value_eq m fmin None y _ _ (valvar _ _ _ P y) E). cbn [unwrap_or]. rewrite Rmult_1_l. split.
  - apply Rmult_lt_0_compat; [exact Q|apply impr_pos].
  - rewrite (logei_eq fmin y E U), ln_mult by (exact Q || apply impr_pos). ring.
Qed.
Lemma logei_gradient fmin : EPS < var x -> - 1000000 < (fmin - mean x) / sqrt (var x) ->
  exists g, logei_grad m fmin x = Some g /\ is_gradient n (logei_value m fmin) x g.
Proof.
  intros E U. destruct G as [gm [gv [_ [GV D]]]]. assert (VP : 0 < var x) by (pose proof EPS_pos; lra).
  assert (Q : 0 < sqrt (var x)) by (now apply sqrt_lt_R0).
  unfold logei_grad. rewrite (valvar _ _ _ P), rlt_false, GV by lra. eexists. split; [reflexivity|]. intros j J. destruct (D j J) as [Dm Dv].
  cbv beta zeta. rewrite d_helper_eq by exact U.
  assert (Du : is_derive (fun t => (fmin - mean (upd x j t)) / sqrt (var (upd x j t))) (x j)
     (((0 - gm j) * sqrt (var x) - (fmin - mean x) * (gv j / (2 * sqrt (var x)))) / (sqrt (var x) * sqrt (var x)))).
  { eapply derive_eq; [apply derive_div; [apply derive_minus; [apply derive_const|exact Dm]|apply derive_sqrt; [exact Dv|now rewrite upd_same]|rewrite upd_same; lra]|].
    cbv beta. rewrite upd_same. reflexivity. }
  assert (Ds : is_derive (fun t => sqrt (var (upd x j t))) (x j) (gv j / (2 * sqrt (var x)))).
  { eapply derive_eq; [apply derive_sqrt; [exact Dv|now rewrite upd_same]|]. cbv beta. now rewrite upd_same. }
  apply partial_local with (fun y => ln (impr ((fmin - mean y) / sqrt (var y))) + ln (sqrt (var y))).
  - assert (LU : locally (x j) (fun t => - 1000000 < (fmin - mean (upd x j t)) / sqrt (var (upd x j t)))).
    { apply (locally_gt _ _ _ _ Du). now rewrite upd_same. }
    pose proof (var_above var x j _ EPS Dv E) as LV. generalize (filter_and _ _ LU LV). apply filter_imp. intros t [A B].
    symmetry. apply logei_eq; [lra|exact A].
  - unfold partial. eapply derive_eq.
    + apply derive_plus; [apply derive_ln; [apply derive_impr; exact Du|apply impr_pos]|apply derive_ln; [exact Ds|cbv beta; now rewrite upd_same]].
    + cbv beta. rewrite upd_same. set (u := (fmin - mean x) / sqrt (var x)). pose proof (impr_pos u).
      assert (UE : fmin - mean x = u * sqrt (var x)) by (unfold u; field; lra). rewrite UE. field. lra.
Qed.
End LogEi.

(** ** Products over the constraints *)
Lemma prodn_S n f : prodn (S n) f = f O * prodn n (fun i => f (S i)).
Proof. induction n as [|n IH]; [cbn; lra|]. cbn [prodn] in *. rewrite IH. ring. Qed.
Lemma fold_mult {A} (f : A -> R) (d : A) l : forall a, fold_left (fun acc c => acc * f c) l a = a * prodn (length l) (fun i => f (nth i l d)).
Proof.
  induction l as [|c l IH]; intros a; cbn [fold_left length]; [cbn; ring|]. rewrite IH, prodn_S. cbn [nth]. ring.
Qed.
Lemma fold_plus {A} (f : A -> R) (d : A) l : forall a, fold_left (fun acc c => acc + f c) l a = a + sumn (length l) (fun i => f (nth i l d)).
Proof.
  induction l as [|c l IH]; intros a; cbn [fold_left length]; [cbn; ring|]. rewrite IH, sumn_S. cbn [nth]. ring.
Qed.
Lemma others_eq_from vals i : forall s a, fold_left (fun acc jv => if Nat.eqb (fst jv) i then acc else acc * snd jv)
  (combine (seq s (length vals)) vals) a = a * prodn (length vals) (fun k => if Nat.eqb (s + k) i then 1 else nth k vals 0).
Proof.
  induction vals as [|v vals IH]; intros s a; cbn [fold_left length seq combine]; [cbn; ring|]. rewrite IH, prodn_S, Nat.add_0_r. cbn [fst snd nth].
  rewrite (prodn_ext _ (fun k => if Nat.eqb (S s + k) i then 1 else nth k vals 0) (fun k => if Nat.eqb (s + S k) i then 1 else nth k vals 0)).
  2: { intros k _. now rewrite Nat.add_succ_r. }
  destruct (Nat.eqb s i); ring.
Qed.
Lemma others_eq vals i : others_product vals i = prodn (length vals) (fun k => if Nat.eqb k i then 1 else nth k vals 0).
Proof. unfold others_product. rewrite others_eq_from. rewrite Rmult_1_l. reflexivity. Qed.
Lemma weighted_from (h : nat -> R) (grads : list vec) j : forall s a, fold_left (fun acc ig => acc + snd ig j * h (fst ig))
  (combine (seq s (length grads)) grads) a = a + sumn (length grads) (fun k => nth k grads (fun _ => 0) j * h (s + k)%nat).
Proof.
  induction grads as [|g l IH]; intros s a; cbn [fold_left length seq combine]; [cbn; ring|]. rewrite IH, sumn_S, Nat.add_0_r. cbn [fst snd nth].
  rewrite (sumn_ext _ (fun k => nth k l (fun _ => 0) j * h (S s + k)%nat) (fun k => nth k l (fun _ => 0) j * h (s + S k)%nat)); [ring|].
  intros k _. now rewrite Nat.add_succ_r.
Qed.
Lemma all_some_nth {A B} (f : A -> option B) (dB : B) l : (forall c, In c l -> exists b, f c = Some b) ->
  exists bs, all_some f l = Some bs /\ length bs = length l /\ forall i dA, (i < length l)%nat -> f (nth i l dA) = Some (nth i bs dB).
Proof.
  induction l as [|c l IH]; intros H; [exists []; split; [reflexivity|split; [reflexivity|cbn; lia]]|].
  destruct (H c (or_introl eq_refl)) as [b Hb]. destruct IH as [bs [E [L N]]]; [intros; apply H; now right|].
  exists (b :: bs). cbn [all_some]. rewrite Hb, E. split; [reflexivity|]. split; [cbn; now rewrite L|]. intros [|i] dA I; cbn in *; [exact Hb|]. apply N. lia.
Qed.
Definition smooth_cstr (n : nat) (x : vec) (c : surrogate * R) : Prop :=
  exists mean var, predicts (fst c) mean var /\ predicts_gradients n (fst c) mean var x /\ var x <> EPS /\ snd c = 0.
Lemma smooth_pof n x c : smooth_cstr n x c -> exists g, pof_grad (fst c) (snd c) x = Some g /\ is_gradient n (pof (fst c) (snd c)) x g.
Proof. intros [mean [var [P [G [N T]]]]]. rewrite T. now apply (pof_gradient n (fst c) mean var). Qed.
Lemma pofs_gradient n x cs : Forall (smooth_cstr n x) cs -> exists g, pofs_grad cs x = Some g /\ is_gradient n (pofs cs) x g.
Proof.
  intros F. rewrite Forall_forall in F.
  destruct (all_some_nth (fun c => pof_grad (fst c) (snd c) x) (fun _ => 0) cs) as [gs [E [L N]]].
  { intros c I. destruct (smooth_pof n x c (F c I)) as [g [Eg _]]. now exists g. }
  unfold pofs_grad. rewrite E. eexists. split; [reflexivity|]. intros j J. cbv beta.
  rewrite (weighted_from (others_product (map (fun c => pof (fst c) (snd c) x) cs)) gs j 0 0), Rplus_0_l, L.
  destruct cs as [|c0 cs0]; [exact (derive_const 1 (x j))|]. set (cs := c0 :: cs0) in *.
  unfold partial. eapply derive_ext; [intros t; symmetry; unfold pofs; rewrite (fold_mult (fun c => pof (fst c) (snd c) (upd x j t)) c0), Rmult_1_l; reflexivity|].
  eapply derive_eq; [apply (derive_prodn (length cs) (fun i t => pof (fst (nth i cs c0)) (snd (nth i cs c0)) (upd x j t)) (x j) (fun i => nth i gs (fun _ => 0) j))|].
  - intros i I. destruct (smooth_pof n x (nth i cs c0)) as [g [Eg Dg]]; [apply F; now apply nth_In|].
    pose proof (N i c0 I) as Ng. rewrite Eg in Ng. injection Ng as Ng. rewrite <- Ng. apply Dg, J.
  - apply sumn_ext. intros k K. cbv beta. f_equal. rewrite others_eq, map_length. apply prodn_ext. intros i I. change (0 + k)%nat with k.
    destruct (Nat.eqb i k); [reflexivity|]. rewrite upd_same.
    rewrite (nth_indep _ 0 ((fun c => pof (fst c) (snd c) x) c0)) by now rewrite map_length. now rewrite (map_nth (fun c => pof (fst c) (snd c) x)).
Qed.
Lemma pof_range m tol x : 0 <= pof m tol x < 1.
Proof.
  unfold pof. destruct (s_valvar m x) as [[p s]|]; [|lra]. destruct (rlt s EPS); [lra|]. pose proof (norm_cdf_bounds ((tol - p) / sqrt s)). lra.
Qed.
Lemma pofs_range cs x : 0 <= pofs cs x <= 1.
Proof.
  unfold pofs. assert (H : forall a, 0 <= a <= 1 -> 0 <= fold_left (fun acc c => acc * pof (fst c) (snd c) x) cs a <= 1); [|apply H; lra].
  induction cs as [|c cs IH]; intros a A; cbn [fold_left]; [exact A|]. apply IH. pose proof (pof_range (fst c) (snd c) x). nra.
Qed.
Lemma logpof_gradient n x c : smooth_cstr n x c -> EPS < pof (fst c) (snd c) x ->
  exists g, logpof_grad (fst c) (snd c) x = Some g /\ is_gradient n (fun y => ln (Rmax (pof (fst c) (snd c) y) EPS)) x g.
Proof.
  intros S E. destruct (smooth_pof n x c S) as [g [Eg D]]. unfold logpof_grad. rewrite Eg. eexists. split; [reflexivity|]. intros j J.
  specialize (D j J). cbv beta. rewrite Rmax_left by lra.
  apply partial_local with (fun y => ln (pof (fst c) (snd c) y)).
  - eapply locally_imp; [|apply (locally_gt _ _ _ EPS D); rewrite upd_same; exact E]. intros t T. cbv beta in *. now rewrite Rmax_left by lra.
  - unfold partial. eapply derive_eq; [apply derive_ln; [exact D|rewrite upd_same; pose proof EPS_pos; lra]|]. cbv beta. now rewrite upd_same.
Qed.
Lemma logpofs_gradient n x cs : Forall (smooth_cstr n x) cs -> Forall (fun c => EPS < pof (fst c) (snd c) x) cs ->
  exists g, logpofs_grad cs x = Some g /\ is_gradient n (logpofs cs) x g.
Proof.
  intros F L0. rewrite Forall_forall in F, L0.
  destruct (all_some_nth (fun c => logpof_grad (fst c) (snd c) x) (fun _ => 0) cs) as [gs [E [L N]]].
  { intros c I. destruct (logpof_gradient n x c (F c I) (L0 c I)) as [g [Eg _]]. now exists g. }
  unfold logpofs_grad. rewrite E. eexists. split; [reflexivity|]. intros j J. cbv beta.
  eapply partial_eq; [|symmetry; apply (fold_plus (fun g : vec => g j) (fun _ => 0) gs 0)]. rewrite Rplus_0_l, L.
  destruct cs as [|c0 cs0]; [exact (derive_const 0 (x j))|]. set (cs := c0 :: cs0) in *.
  unfold partial. eapply derive_ext; [intros t; symmetry; unfold logpofs; rewrite (fold_plus (fun c => ln (Rmax (pof (fst c) (snd c) (upd x j t)) EPS)) c0), Rplus_0_l; reflexivity|].
  apply (derive_sumn (length cs) (fun i t => ln (Rmax (pof (fst (nth i cs c0)) (snd (nth i cs c0)) (upd x j t)) EPS)) (x j) (fun i => nth i gs (fun _ => 0) j)).
  intros i I. assert (IN : In (nth i cs c0) cs) by now apply nth_In.
  destruct (logpof_gradient n x (nth i cs c0) (F _ IN) (L0 _ IN)) as [g [Eg Dg]].
  pose proof (N i c0 I) as Ng. rewrite Eg in Ng. injection Ng as Ng. rewrite <- Ng. apply Dg, J.
Qed.

(** ** The objective of the inner optimizer *)
Section Objective.
Context (n : nat) (m : surrogate) (mean var : vec -> R) (x : vec).
Hypothesis (P : predicts m mean var) (G : predicts_gradients n m mean var x).
(** The criterion has a gradient at x when the variance is not at its threshold, and for LogEI when the variance is above it and
    the standardized improvement is in the range of the exact formula. *)
Definition regular (c : criterion) (fmin : R) : Prop :=
  match c with LogEI => EPS < var x /\ - 1000000 < (fmin - mean x) / sqrt (var x) | _ => var x <> EPS end.
Lemma crit_gradient c fmin w sc : unwrap_or w 1 <> 0 -> regular c fmin ->
  exists f g, (forall y, crit_value c m fmin w sc y = Some (f y)) /\ crit_grad c m fmin w sc x = Some g /\ is_gradient n f x g.
Proof.
  intros K. destruct c as [| |own]; cbn [regular crit_value crit_grad].
  - intros N. destruct (ei_gradient n m mean var x P G fmin w K N) as [g [E D]]. exists (ei_value m fmin w), g.
    split; [reflexivity|]. split; [exact E|exact D].
  - intros [V U]. destruct (logei_gradient n m mean var x P G fmin V U) as [g [E D]]. exists (logei_value m fmin), g.
    split; [reflexivity|]. split; [exact E|exact D].
  - intros N. now apply (wb2_gradient n m mean var x P G).
Qed.
Lemma infill_gradient c fmin scale sc : scale <> 0 -> regular c fmin ->
  exists f g, (forall y, infill_obj c m fmin scale sc 1 y = Some (f y)) /\ infill_obj_grad c m fmin scale sc x = Some g /\ is_gradient n f x g.
Proof.
  intros S RG. destruct (crit_gradient c fmin None (Some sc) R1_neq_R0 RG) as [f [g [V [E D]]]].
  assert (V1 : forall y, crit_value c m fmin (Some 1) (Some sc) y = Some (f y)) by (intros y; rewrite <- V; destruct c; reflexivity).
  exists (fun y => - f y / scale), (fun j => - g j / scale). split; [|split].
  - intros y. unfold infill_obj. now rewrite V1.
  - unfold infill_obj_grad. now rewrite E.
  - intros j J. unfold partial, Rdiv. apply derive_scal_r, derive_opp. apply (D j J).
Qed.
Lemma constrained_gradient c cs fmin scale sc feas : scale <> 0 -> regular c fmin -> Forall (smooth_cstr n x) cs ->
  (c = LogEI -> Forall (fun k => EPS < pof (fst k) (snd k) x) cs) -> (cs = [] -> feas = true) ->
  exists f g, (forall y, constrained_obj c m cs fmin scale sc feas 1 y = Some (f y)) /\
    constrained_obj_grad c m cs fmin scale sc feas 1 x = Some g /\ is_gradient n f x g.
Proof.
  intros S RG F LF NE. destruct (infill_gradient c fmin scale sc S RG) as [f [g [V [E D]]]].
  destruct (is_logei c) eqn:LC.
  - assert (C : c = LogEI) by (destruct c; (discriminate || reflexivity)). destruct (logpofs_gradient n x cs F (LF C)) as [lg [EL DL]].
    exists (fun y => (if feas then f y else 0) - logpofs cs y).
    exists (fun j => match cs with [] => g j | _ => (if feas then g j else 0) - lg j end). split; [|split].
    + intros y. unfold constrained_obj. rewrite LC. destruct feas; [rewrite V|]; reflexivity.
    + unfold constrained_obj_grad. destruct cs as [|c0 cs0]; [exact E|]. rewrite LC, EL. destruct feas; [rewrite E|]; reflexivity.
    + intros j J. destruct cs as [|c0 cs0].
      * rewrite (NE eq_refl). unfold logpofs. cbn [fold_left]. apply (partial_ext f); [intros; ring|apply (D j J)].
      * unfold partial. apply derive_minus; [|apply (DL j J)]. destruct feas; [apply (D j J)|exact (derive_const 0 (x j))].
  - destruct (pofs_gradient n x cs F) as [pg [EP DP]].
    exists (fun y => (if feas then f y else -1) * pofs cs y).
    exists (fun j => match cs with [] => g j | _ => (if feas then g j else 0) * pofs cs x + pg j * (if feas then f x else -1) end). split; [|split].
    + intros y. unfold constrained_obj. rewrite LC. destruct feas; [rewrite V|]; reflexivity.
    + unfold constrained_obj_grad. destruct cs as [|c0 cs0]; [exact E|]. rewrite LC, EP, E. destruct feas; [rewrite V|]; reflexivity.
    + intros j J. destruct cs as [|c0 cs0].
      * rewrite (NE eq_refl). unfold pofs. cbn [fold_left]. apply (partial_ext f); [intros; ring|apply (D j J)].
      * unfold partial. eapply derive_eq; [apply derive_mult; [|apply (DP j J)]|].
        -- instantiate (1 := if feas then g j else 0). destruct feas; [apply (D j J)|exact (derive_const (-1) (x j))].
        -- cbv beta. rewrite upd_same. ring.
Qed.
End Objective.

(** ** Preferences *)
Lemma pofs_mono cs x y : Forall (fun c => pof (fst c) (snd c) x <= pof (fst c) (snd c) y) cs -> pofs cs x <= pofs cs y.
Proof.
  unfold pofs. intros F. assert (H : forall a b, 0 <= a <= b -> fold_left (fun acc c => acc * pof (fst c) (snd c) x) cs a <= fold_left (fun acc c => acc * pof (fst c) (snd c) y) cs b); [|apply H; lra].
  induction F as [|c cs H F IH]; intros a b A; cbn [fold_left]; [lra|]. apply IH. pose proof (pof_range (fst c) (snd c) x). split; [nra|]. apply Rmult_le_compat; lra.
Qed.
Lemma ln_mono a b : 0 < a -> a <= b -> ln a <= ln b.
Proof. intros A [L|<-]; [left; now apply ln_increasing|right; reflexivity]. Qed.
Lemma logpofs_mono cs x y : Forall (fun c => pof (fst c) (snd c) x <= pof (fst c) (snd c) y) cs -> logpofs cs x <= logpofs cs y.
Proof.
  unfold logpofs. intros F. assert (H : forall a b, a <= b -> fold_left (fun acc c => acc + ln (Rmax (pof (fst c) (snd c) x) EPS)) cs a <= fold_left (fun acc c => acc + ln (Rmax (pof (fst c) (snd c) y) EPS)) cs b); [|apply H; lra].
  induction F as [|c cs H F IH]; intros a b A; cbn [fold_left]; [lra|]. apply IH. apply Rplus_le_compat; [exact A|]. apply ln_mono.
  - pose proof EPS_pos. pose proof (Rmax_r (pof (fst c) (snd c) x) EPS). lra.
  - apply Rle_max_compat_r. exact H.
Qed.
Lemma ei_nonneg m fmin w x : 0 < unwrap_or w 1 -> 0 <= ei_value m fmin w x.
Proof.
  intros K. unfold ei_value. destruct (s_valvar m x) as [[p s]|]; [|lra]. destruct (rlt_spec s EPS) as [[-> L]|[-> L]]; [lra|].
  assert (Q : 0 < sqrt s) by (apply sqrt_lt_R0; pose proof EPS_pos; lra). cbv zeta. left. apply Rmult_lt_0_compat; [now apply Rmult_lt_0_compat|].
  apply impr_pos.
Qed.
(** ** Scales *)
Lemma max_from_spec l : forall b, b <= max_from b l /\ (forall v, In v l -> v <= max_from b l) /\ In (max_from b l) (b :: l).
Proof.
  induction l as [|v l IH]; intros b; cbn [max_from]; [split; [lra|split; [intros ? []|now left]]|].
  destruct (rlt_spec b v) as [[-> L]|[-> L]].
  - destruct (IH v) as [A [B C]]. split; [lra|]. split; [intros w [<-|W]; [exact A|now apply B]|]. destruct C as [C|C]; [right; left; exact C|right; right; exact C].
  - destruct (IH b) as [A [B C]]. split; [exact A|]. split; [intros w [<-|W]; [lra|now apply B]|]. destruct C as [C|C]; [left; exact C|right; right; exact C].
Qed.
Lemma list_max_spec l v : list_max l = Some v -> In v l /\ forall w, In w l -> w <= v.
Proof.
  destruct l as [|a l]; [discriminate|]. cbn. intros E. injection E as <-. destruct (max_from_spec l a) as [A [B C]]. split; [exact C|].
  intros w [<-|W]; [exact A|now apply B].
Qed.
Lemma all_some_in {A B} (f : A -> option B) l bs : all_some f l = Some bs -> forall a, In a l -> exists b, In b bs /\ f a = Some b.
Proof.
  revert bs. induction l as [|c l IH]; intros bs E a I; [destruct I|]. cbn in E. destruct (f c) as [b|] eqn:Fc; [|discriminate].
  destruct (all_some f l) as [r|] eqn:Fr; [|discriminate]. injection E as <-. destruct I as [<-|I]; [exists b; split; [now left|exact Fc]|].
  destruct (IH r eq_refl a I) as [b' [I' E']]. exists b'. split; [now right|exact E'].
Qed.
