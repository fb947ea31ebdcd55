(** LogEI in binary64 arithmetic with an accurate mathematical library, and in its asymptotic range: properties C109 and C110. *)
From Coq Require Import ZArith Reals Lra Lia.
From Coquelicot Require Import Coquelicot.
From Flocq Require Import Core.Core IEEE754.BinarySingleNaN Relative.
From Interval Require Import Tactic.
From Verif Require Import F64 F64_Round CritF64_Model Normal Crit_Model Crit_Spec Crit_Proofs LogEi_Const LogEi_Real LogEi_Proofs.
Local Open Scope R_scope.

(** C109. The constants are, up to 2^-52, the numbers they are named after. *)
Theorem C109_constants :
  denotes INV_SQRT_2 (/ sqrt 2) /\ denotes SQRT_2 (sqrt 2) /\ denotes SQRT_2PI (sqrt (2 * PI)) /\
  denotes LOG_2PI_OVER_2 (ln (2 * PI) / 2) /\ denotes LOG_PI_OVER_2_ALL_OVER_2 (ln (PI / 2) / 2).
Proof. exact constants. Qed.
Print Assumptions C109_constants.

(** C109. Below -1000000 standard deviations the criterion is the logarithm of the expected improvement up to 3/u^2, hence 3e-12. *)
Theorem C109_asymptotic_partial : forall m mean var x fmin, predicts m mean var -> EPS <= var x ->
  let u := (fmin - mean x) / sqrt (var x) in u <= - 1000000 ->
  0 < ei_value m fmin None x /\ Rabs (logei_value m fmin x - ln (ei_value m fmin None x)) <= 3 / (u * u).
Proof.
  intros m mean var x fmin P V u U. pose proof EPS_pos as Ep. assert (S : 0 < sqrt (var x)) by (apply sqrt_lt_R0; lra).
  assert (E : ei_value m fmin None x = sqrt (var x) * impr u).
  { rewrite (ei_value_eq m fmin None x _ _ (valvar _ _ _ P x) V). cbn [unwrap_or]. rewrite Rmult_1_l. reflexivity. }
  pose proof (impr_pos u) as Ip. rewrite E. split; [now apply Rmult_lt_0_compat|].
  unfold logei_value. rewrite (valvar _ _ _ P), rlt_false by exact V. cbv zeta. fold u.
  rewrite ln_mult by assumption. pose proof (far_real u ltac:(lra)) as F.
  unfold log_ei_helper. rewrite (rlt_false (-1)) by lra. rewrite (rlt_false (- 1000000)) by lra. cbv zeta.
  rewrite (Rabs_left1 u) by lra. apply Rabs_le. replace (- 3 / (u * u)) with (- (3 / (u * u))) in F by (field; lra). lra.
Qed.
Print Assumptions C109_asymptotic_partial.
(** There the derivative used for the gradient is that of the logarithm of the improvement function up to 2/|u|. *)
Theorem C109_asymptotic_derivative : forall u, u <= - 1000000 ->
  exists d, is_derive (fun v => ln (v * norm_cdf v + norm_pdf v)) u d /\ Rabs (d_log_ei_helper u - d) <= 2 / Rabs u.
Proof.
  intros u U. exists (norm_cdf u / impr u). split.
  - evar_last; [apply (is_derive_comp ln impr); [apply is_derive_ln, impr_pos|apply impr_derive]|]. reflexivity.
  - pose proof (far_derive u ltac:(lra)) as D. unfold d_log_ei_helper. rewrite (rlt_false (-1)) by lra.
    rewrite (rlt_false (- 1000000)) by lra. cbv zeta. rewrite (Rabs_left1 u) by lra.
    replace (-2 / u) with (2 / - u) by (field; lra). assert (0 < 2 / - u) by (apply Rdiv_lt_0_compat; lra). apply Rabs_le. lra.
Qed.
Print Assumptions C109_asymptotic_derivative.

(** C110. With a mathematical library accurate to 2^-50, the criterion of a standardized improvement above -37 is a finite number,
    equal up to 1e-6 to the logarithm of the expected improvement u Phi(u) + phi(u). *)
Theorem C110_accurate_partial : forall (L : libm), libm_accurate L -> forall u : f64, is_finite u = true -> - 37 <= B2R u ->
  is_finite (log_ei_helper_f L u) = true /\
  Rabs (B2R (log_ei_helper_f L u) - ln (B2R u * norm_cdf (B2R u) + norm_pdf (B2R u))) <= / 1000000.
Proof.
  intros L A u F X. assert (I : isf u (B2R u)) by (split; [exact F|reflexivity]). fold (impr (B2R u)).
  assert (N : near (log_ei_helper_f L u) (ln (impr (B2R u))) (/ 1000000)).
  { destruct (Rle_or_lt (B2R u) (- 1)) as [C|C]; [apply (acc_degraded L A u _ I); lra|].
    destruct (Rle_or_lt (B2R u) 100) as [D|D]; [apply (acc_middle L A u _ I); lra|exact (acc_large L A u _ I D)]. }
  destruct N as (r & [Fr Er] & H). split; [exact Fr|]. now rewrite Er.
Qed.
Print Assumptions C110_accurate_partial.
(** Below -1000000, up to the overflow of its square, it is a finite number with relative accuracy 1e-14 with respect to u^2. *)
Theorem C110_far_accurate_partial : forall (L : libm), libm_accurate L -> forall u : f64, is_finite u = true ->
  - bpow radix2 500 <= B2R u <= - 1000000 -> is_finite (log_ei_helper_f L u) = true /\
  Rabs (B2R (log_ei_helper_f L u) - ln (B2R u * norm_cdf (B2R u) + norm_pdf (B2R u))) <= B2R u * B2R u / 100000000000000.
Proof.
  intros L A u F X. assert (I : isf u (B2R u)) by (split; [exact F|reflexivity]). fold (impr (B2R u)).
  destruct (acc_far L A u _ I ltac:(lra)) as (r & [Fr Er] & H). split; [exact Fr|]. now rewrite Er.
Qed.
Print Assumptions C110_far_accurate_partial.

(** The functions rounded to the nearest double are accurate. *)
Definition of_R (x : R) : f64 := fmake (ZnearestE (scaled_mantissa radix2 fexp64 x)) (cexp radix2 fexp64 x).
Lemma of_R_correct x : small x -> isf (of_R x) (rnd64 x).
Proof.
  intros S. pose proof (binary_normalize_correct 53 1024 f64_prec f64_emax mode_NE (ZnearestE (scaled_mantissa radix2 fexp64 x)) (cexp radix2 fexp64 x) false) as H.
  cbv zeta in H. change (F2R _) with (rnd64 x) in H. pose proof (rnd_fmt _ (fmt_rnd x)) as E.
  rewrite E in H. rewrite (small_round _ S) in H. destruct H as (H1 & H2 & _). split; [exact H2|exact H1].
Qed.
Lemma of_R_err x : small x -> closely (of_R x) x (bpow radix2 (-50) * Rabs x + bpow radix2 (-1070)).
Proof.
  intros S. destruct (of_R_correct x S) as [F E]. split; [exact F|]. rewrite E.
  destruct (error_N_FLT radix2 (-1074) 53 ltac:(lia) (fun x => negb (Z.even x)) x) as (eps & eta & E1 & E2 & _ & E3).
  change (round radix2 (FLT_exp (-1074) 53) (Znearest (fun x => negb (Z.even x))) x) with (rnd64 x) in E3. rewrite E3.
  replace (x * (1 + eps) + eta - x) with (x * eps + eta) by ring. eapply Rle_trans; [apply Rabs_triang|]. rewrite Rabs_mult.
  assert (bpow radix2 (- (53) + 1) <= bpow radix2 (-50)) by (apply bpow_le; lia). assert (bpow radix2 (-1074) <= bpow radix2 (-1070)) by (apply bpow_le; lia).
  pose proof (bpow_gt_0 radix2 (-50)). pose proof (bpow_gt_0 radix2 (-1070)). pose proof (Rabs_pos x). pose proof (Rabs_pos eps).
  assert (Rabs eps <= bpow radix2 (-50)) by lra. nra.
Qed.
Definition exact_libm : libm := {|
  l_exp := fun a => match a with B754_infinity true => fzero | _ => of_R (exp (B2R a)) end;
  l_log := fun a => of_R (ln (B2R a));
  l_erfc := fun a => of_R (erfc (B2R a));
  l_expm1 := fun a => of_R (exp (B2R a) - 1);
  l_log1p := fun a => of_R (ln (1 + B2R a)) |}.
Lemma small_exp x : x <= 709 -> small (exp x).
Proof.
  intros H. unfold small. rewrite Rabs_pos_eq by (left; apply exp_pos). rewrite bpow_exp. change (IZR radix2) with 2. apply exp_le.
  assert (6931 / 10000 <= ln 2) by interval. lra.
Qed.
Lemma small_ln y : bpow radix2 (-1074) <= y < bpow radix2 1025 -> small (ln y).
Proof.
  intros [Y1 Y2]. apply small_le. pose proof (bpow_gt_0 radix2 (-1074)). apply Rabs_le. split.
  - apply Rle_trans with (ln (bpow radix2 (-1074))); [|apply Rcomplements.ln_le; lra]. rewrite bpow_exp, ln_exp. change (IZR radix2) with 2. interval.
  - apply Rle_trans with (ln (bpow radix2 1025)); [apply Rcomplements.ln_le; lra|]. rewrite bpow_exp, ln_exp. change (IZR radix2) with 2. interval.
Qed.
Lemma tiny_vs y : bpow radix2 (-50) * Rabs y + bpow radix2 (-1070) <= bpow radix2 (-50) * (1 + Rabs y).
Proof. assert (bpow radix2 (-1070) <= bpow radix2 (-50)) by (apply bpow_le; lia). lra. Qed.
Theorem C110_accurate_library : libm_accurate exact_libm.
Proof.
  split.
  - intros a F H. cbn [l_exp exact_libm]. destruct a as [s|[|]| |s m e Hb]; try discriminate F;
      (pose proof (of_R_err _ (small_exp _ H)) as Q; rewrite (Rabs_pos_eq (exp _)) in Q by (left; apply exp_pos); exact Q).
  - intros a F H. cbn [l_exp exact_libm].
    assert (Q : 0 <= B2R (of_R (exp (B2R a)))).
    { destruct (of_R_correct _ (small_exp _ H)) as [_ E]. rewrite E. apply rnd_ge; [apply fmt_0|left; apply exp_pos]. }
    destruct a as [s|[|]| |s m e Hb]; try discriminate F; exact Q.
  - reflexivity.
  - intros a F H. cbn [l_log exact_libm]. destruct (of_R_err (ln (B2R a))) as [F1 E1].
    + apply small_ln. pose proof (abs_B2R_lt_emax _ _ a) as M. rewrite Rabs_pos_eq in M by lra. split.
      * pose proof (abs_B2R_ge_emin 53 1024 a) as Q. rewrite Rabs_pos_eq in Q by lra. apply Q.
        destruct a as [s|s| |s m e Hb]; try discriminate F; [exfalso; cbn in H; lra|reflexivity].
      * eapply Rlt_trans; [exact M|apply bpow_lt; lia].
    + split; [exact F1|]. eapply Rle_trans; [exact E1|apply tiny_vs].
  - intros a F. cbn [l_erfc exact_libm]. pose proof (erfc_bounds (B2R a)) as B. assert (S : small (erfc (B2R a))) by (apply small_le; rewrite Rabs_pos_eq; lra). split.
    + pose proof (of_R_err _ S) as Q. rewrite (Rabs_pos_eq (erfc _)) in Q by lra. exact Q.
    + destruct (of_R_correct _ S) as [_ E]. rewrite E. apply rnd_le_fmt; [|lra]. replace 2 with (2 * 1) by ring. apply fmt_2, fmt_1.
  - intros a F H. cbn [l_expm1 exact_libm].
    assert (X : 0 < exp (B2R a) <= 1) by (split; [apply exp_pos|rewrite <- exp_0; apply exp_le; lra]).
    pose proof (of_R_err (exp (B2R a) - 1)) as Q. rewrite (Rabs_left1 (exp _ - 1)) in Q by lra. rewrite Ropp_minus_distr in Q. apply Q. apply small_le. rewrite Rabs_left1; lra.
  - intros a F H. cbn [l_log1p exact_libm]. destruct (of_R_err (ln (1 + B2R a))) as [F1 E1].
    + apply small_ln. pose proof (abs_B2R_lt_emax _ _ a) as M. split.
      * pose proof valid64 as V. pose proof (fmt a) as Fa.
        assert (S : succ radix2 fexp64 (- (1)) <= B2R a).
        { apply succ_le_lt; [exact V|apply generic_format_opp, fmt_1|exact Fa|lra]. }
        rewrite succ_opp in S. change 1 with (bpow radix2 0) in S at 1. rewrite pred_bpow in S. change (fexp64 0) with (-53)%Z in S. change (bpow radix2 0) with 1 in S.
        apply Rle_trans with (bpow radix2 (-53)); [apply bpow_le; lia|lra].
      * change 1025%Z with (1 + 1024)%Z. rewrite bpow_plus. change (bpow radix2 1) with 2. assert (1 < bpow radix2 1024) by (change 1 with (bpow radix2 0); apply bpow_lt; lia).
        unfold Rabs in M. destruct (Rcase_abs (B2R a)); lra.
    + split; [exact F1|]. eapply Rle_trans; [exact E1|apply tiny_vs].
Qed.
Print Assumptions C110_accurate_library.
(** Ten standard deviations of degradation; an improvement of two and a half standard deviations. *)
Example C110_accurate_example :
  Rabs (B2R (log_ei_helper_f exact_libm (fofZ (-10))) - ln (-10 * norm_cdf (-10) + norm_pdf (-10))) <= / 1000000 /\
  is_finite (log_ei_helper_f exact_libm (fmake 5 (-1))) = true /\ is_finite (log_ei_helper_f exact_libm (fofZ (-2000000))) = true.
Proof.
  destruct (Properties_CritF64.fofZ_R (-10) ltac:(lia)) as [F1 E1]. destruct (Properties_CritF64.fmake_R 5 (-1) ltac:(lia) ltac:(lia)) as [F2 E2].
  destruct (Properties_CritF64.fofZ_R (-2000000) ltac:(lia)) as [F3 E3]. split; [|split].
  - rewrite <- E1. apply (C110_accurate_partial _ C110_accurate_library _ F1). rewrite E1. lra.
  - apply (C110_accurate_partial _ C110_accurate_library _ F2). rewrite E2. change (bpow radix2 (-1)) with (/ 2). lra.
  - apply (C110_far_accurate_partial _ C110_accurate_library _ F3). rewrite E3. split; [|lra].
    assert (bpow radix2 30 <= bpow radix2 500) by (apply bpow_le; lia). change (bpow radix2 30) with 1073741824 in H. lra.
Qed.
Example C109_asymptotic_example : exists u, u <= - 1000000 /\ Rabs (log_ei_helper u - ln (impr u)) <= 3 / (u * u).
Proof.
  exists (- 2000000). split; [lra|]. pose proof (far_real (- 2000000) ltac:(lra)) as F.
  unfold log_ei_helper. rewrite (rlt_false (-1)) by lra. rewrite (rlt_false (- 1000000)) by lra. cbv zeta.
  rewrite (Rabs_left1 (- 2000000)) by lra. apply Rabs_le. replace (- 3 / (- 2000000 * - 2000000)) with (- (3 / (- 2000000 * - 2000000))) in F by field. lra.
Qed.
