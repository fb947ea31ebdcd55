(** C151: accuracy and sign of the expected improvement in binary64 arithmetic. *)
From Coq Require Import ZArith Reals Lra Lia Bool.
From Coquelicot Require Import Coquelicot.
From Flocq Require Import Core.Core IEEE754.BinarySingleNaN Relative.
From Interval Require Import Tactic.
From Verif Require Import F64 F64_Round CritF64_Model EiF64_Model Normal LogEi_Real Properties_CritF64 LogEi_Const LogEi_Proofs Ei_Float Ei_Float2 Properties_LogEi.
Local Open Scope R_scope.
Local Arguments bpow : simpl never.

(** ** Specification *)
(** The expected improvement of a normal variable of mean [p] and standard deviation [sg] below [fmin]. *)
Definition expected_improvement (p sg fmin : R) : R :=
  let u := (fmin - p) / sg in sg * (u * norm_cdf u + norm_pdf u).
(** The weight of the standard deviation; 1 when none is given. *)
Definition weight (w : option f64) : R := match w with Some k => B2R k | None => 1 end.
Definition deviation (s : f64) (w : option f64) : R := weight w * sqrt (B2R s).
(** Finite predictions of ordinary size: values below 2^100 in absolute value, a variance between the machine epsilon and 2^100,
    a weight between 2^-20 and 2^20. *)
Definition ordinary (pred s fmin : f64) (w : option f64) : Prop :=
  (is_finite pred = true /\ Rabs (B2R pred) <= bpow radix2 100) /\
  (is_finite fmin = true /\ Rabs (B2R fmin) <= bpow radix2 100) /\
  (is_finite s = true /\ bpow radix2 (-52) <= B2R s <= bpow radix2 100) /\
  match w with Some k => is_finite k = true /\ bpow radix2 (-20) <= B2R k <= bpow radix2 20 | None => True end.
(** erfc is zero where its value is below the smallest double. *)
Definition erfc_vanishes (L : libm) : Prop := forall a, is_finite a = true -> 28 <= B2R a -> B2R (l_erfc L a) = 0.

(** ** Proofs *)
Lemma weight_isf w : match w with Some k => is_finite k = true /\ bpow radix2 (-20) <= B2R k <= bpow radix2 20 | None => True end ->
  isf (match w with Some k => k | None => fone end) (weight w) /\ bpow radix2 (-20) <= weight w <= bpow radix2 20.
Proof.
  destruct w as [k|]; cbn [weight].
  - intros [F B]. split; [now split|exact B].
  - intros _. split; [apply (fofZ_R 1); lia|]. change 1 with (bpow radix2 0) at 1 2. split; apply bpow_le; lia.
Qed.
Lemma not_tiny s : is_finite s = true -> bpow radix2 (-52) <= B2R s -> flt s EPSILON = false.
Proof.
  intros F B. destruct (fmake_R 1 (-52) ltac:(lia) ltac:(lia)) as [F1 E1]. unfold flt, EPSILON. rewrite Bltb_correct by assumption. rewrite E1. apply Rlt_bool_false. lra.
Qed.
Theorem C151_accurate_partial : forall L, libm_accurate L -> forall pred s fmin w, ordinary pred s fmin w ->
  -36 <= (B2R fmin - B2R pred) / deviation s w ->
  let e := expected_improvement (B2R pred) (deviation s w) (B2R fmin) in
  is_finite (ei_value_f L (Some (pred, s)) fmin w) = true /\ 0 < e /\
  Rabs (B2R (ei_value_f L (Some (pred, s)) fmin w) - e) <= 2 / 1000000 * e /\ 0 < B2R (ei_value_f L (Some (pred, s)) fmin w).
Proof.
  intros L A pred s fmin w ((Fp & Bp) & (Fm & Bm) & (Fs & Bs) & W) U. destruct (weight_isf w W) as [Ik Bk].
  assert (P : 0 < expected_improvement (B2R pred) (deviation s w) (B2R fmin)).
  { unfold expected_improvement. apply Rmult_lt_0_compat; [|apply impr_pos]. unfold deviation. pose proof (bpow_gt_0 radix2 (-20)). pose proof (bpow_gt_0 radix2 (-52)).
    apply Rmult_lt_0_compat; [lra|apply sqrt_lt_R0; lra]. }
  destruct (ei_acc pred s fmin _ _ _ _ _ (conj Fp eq_refl) (conj Fs eq_refl) (conj Fm eq_refl) Ik Bp Bm Bs Bk L A) as (r & [F E] & H); [exact U|].
  intros e. cbn [ei_value_f]. unfold ei_f. rewrite (not_tiny s Fs (proj1 Bs)). cbv zeta. unfold args_f, sigma_f in *.
  fold (deviation s w) in H. change (deviation s w * impr ((B2R fmin - B2R pred) / deviation s w)) with e in H.
  enough (G : forall X : f64, isf X r -> is_finite X = true /\ 0 < e /\ Rabs (B2R X - e) <= 2 / 1000000 * e /\ 0 < B2R X) by exact (G _ (conj F E)).
  clear F E. intros X [F E]. rewrite E. split; [exact F|]. split; [exact P|]. fold e in P. split; [lra|]. unfold Rabs in H. destruct (Rcase_abs (r - e)); lra.
Qed.
Print Assumptions C151_accurate_partial.
(** Whatever the prediction, the value is finite and negative at most by an amount far below the smallest normal double times the
    deviation; a point 37 deviations above the best value has no visible improvement. *)
Theorem C151_bounded_partial : forall L, libm_accurate L -> erfc_vanishes L -> forall pred s fmin w, ordinary pred s fmin w ->
  is_finite (ei_value_f L (Some (pred, s)) fmin w) = true /\
  - (deviation s w * bpow radix2 (-900)) <= B2R (ei_value_f L (Some (pred, s)) fmin w) /\
  ((B2R fmin - B2R pred) / deviation s w <= -37 -> Rabs (B2R (ei_value_f L (Some (pred, s)) fmin w)) <= deviation s w * bpow radix2 (-900)).
Proof.
  intros L A Z pred s fmin w ((Fp & Bp) & (Fm & Bm) & (Fs & Bs) & W). destruct (weight_isf w W) as [Ik Bk].
  destruct (ei_low pred s fmin _ _ _ _ _ (conj Fp eq_refl) (conj Fs eq_refl) (conj Fm eq_refl) Ik Bp Bm Bs Bk L A Z) as (r & [F E] & Lo & Up).
  cbn [ei_value_f]. unfold ei_f. rewrite (not_tiny s Fs (proj1 Bs)). cbv zeta. unfold args_f, sigma_f in *. 
  enough (G : forall X : f64, isf X r -> is_finite X = true /\ - (deviation s w * bpow radix2 (-900)) <= B2R X /\
    ((B2R fmin - B2R pred) / deviation s w <= -37 -> Rabs (B2R X) <= deviation s w * bpow radix2 (-900))) by exact (G _ (conj F E)).
  clear F E. intros X [F E]. rewrite E. split; [exact F|]. split; [exact Lo|exact Up].
Qed.
Print Assumptions C151_bounded_partial.
(** No deviation, or no prediction: no improvement. *)
Theorem C151_none : forall L pred s fmin w, (flt s EPSILON = true -> ei_value_f L (Some (pred, s)) fmin w = fzero) /\ ei_value_f L None fmin w = fzero.
Proof. intros. split; [|reflexivity]. intros H. cbn [ei_value_f]. unfold ei_f. now rewrite H. Qed.
Print Assumptions C151_none.

Definition unit : R := bpow radix2 (-1074).
Lemma half_of n h : (0 <= n < 1000)%Z -> (0 <= h < 1000)%Z -> Beqb (fmul half (fmake n (-1074))) (fmake h (-1074)) = true -> rnd64 (1 / 2 * (IZR n * unit)) = IZR h * unit.
Proof.
  intros Hn Hh C. destruct (fmul_R half (fmake n (-1074)) _ _ half_R (fmake_R n (-1074) ltac:(lia) ltac:(lia))) as [F E].
  - apply small_le. assert (B : 0 <= IZR n <= 1000) by (split; apply IZR_le; lia).
    assert (U : bpow radix2 (-1074) <= 1) by (change 1 with (bpow radix2 0); apply bpow_le; lia). pose proof (bpow_gt_0 radix2 (-1074)). rewrite Rabs_pos_eq; nra.
  - fold unit in E. rewrite <- E. destruct (fmake_R h (-1074) ltac:(lia) ltac:(lia)) as [F2 E2]. fold unit in E2. rewrite <- E2.
    rewrite Beqb_correct in C by assumption. destruct (Req_bool_spec (B2R (fmul half (fmake n (-1074)))) (B2R (fmake h (-1074)))); [assumption|discriminate C].
Qed.
(** Half of the smallest double rounds to zero, half of three times the smallest double to twice it. *)
Lemma half_of_one : rnd64 (1 / 2 * (1 * unit)) = 0.
Proof. rewrite (half_of 1 0); [ring|lia|lia|vm_compute; reflexivity]. Qed.
Lemma half_of_three : rnd64 (1 / 2 * (3 * unit)) = 2 * unit.
Proof. apply (half_of 3 2); [lia|lia|vm_compute; reflexivity]. Qed.

(** The correctly rounded library satisfies both hypotheses. *)
Theorem C151_library : libm_accurate exact_libm /\ erfc_vanishes exact_libm.
Proof.
  split; [exact C110_accurate_library|]. intros a F H. cbn [l_erfc exact_libm].
  assert (B : 0 < erfc (B2R a) < bpow radix2 (-1075)).
  { split; [apply erfc_bounds|]. eapply Rle_lt_trans; [apply erfc_le_gauss; lra|]. unfold gauss. rewrite bpow_exp. change (IZR radix2) with 2. apply exp_increasing.
    apply Rle_lt_trans with (- (784)); [nra|]. interval. }
  destruct (of_R_correct (erfc (B2R a))) as [_ E]; [apply small_le; pose proof (erfc_bounds (B2R a)); rewrite Rabs_pos_eq; lra|]. rewrite E.
  apply Rle_antisym; [|apply rnd_ge; [apply fmt_0|lra]].
  rewrite <- half_of_one. apply rnd_le. replace (1 / 2 * (1 * unit)) with (bpow radix2 (-1074) / 2) by (unfold unit; field). rewrite bpow_half. change (-1 + -1074)%Z with (-1075)%Z. lra.
Qed.
Print Assumptions C151_library.

(** The value can be negative: a point 38.46 deviations above the best value. *)
Definition far_x : R := 39379 / 1024.
Definition far_pred : f64 := fmake 39379 (-10).
Lemma unit_exp : unit = exp (- (1074) * ln 2).
Proof. unfold unit. rewrite bpow_exp. change (IZR radix2) with 2. f_equal. Qed.
Lemma unit_pos : 0 < unit <= / 1000000.
Proof.
  split; [apply bpow_gt_0|]. unfold unit. apply Rle_trans with (bpow radix2 (-20)); [apply bpow_le; lia|]. change (bpow radix2 (-20)) with (/ 1048576). lra.
Qed.
Lemma units_fmt n : (Z.abs n < 2 ^ 53)%Z -> format64 (IZR n * unit).
Proof. intros H. apply (isf_fmt (fmake n (-1074))). apply fmake_R; [exact H|lia]. Qed.
Lemma far_pred_R : isf far_pred far_x.
Proof. unfold far_pred, far_x. replace (39379 / 1024) with (IZR 39379 * bpow radix2 (-10)) by (change (bpow radix2 (-10)) with (/ 1024); field). apply fmake_R; lia. Qed.
Lemma far_pdf u : isf u (- far_x) -> exists w, isf (norm_pdf_f exact_libm u) w /\ 0 <= w <= 60 * unit.
Proof.
  intros I. destruct (near_square u _ I) as (a & [F E] & Ha). { unfold far_x. rewrite Rabs_Ropp, Rabs_pos_eq; lra. }
  assert (AB : a <= - (7394 / 10)) by (unfold far_x in Ha; unfold Rabs in Ha; destruct (Rcase_abs (a - - / 2 * - (39379 / 1024) * - (39379 / 1024))); lra).
  assert (EB : exp a <= 150 * unit).
  { apply Rle_trans with (exp (- / 2 * far_x * far_x + / 10000000000)).
    - apply exp_le. unfold far_x in *. unfold Rabs in Ha. destruct (Rcase_abs (a - - / 2 * - (39379 / 1024) * - (39379 / 1024))); lra.
    - rewrite unit_exp. replace (- / 2 * far_x * far_x + / 10000000000) with ((- / 2 * far_x * far_x + / 10000000000 + 1074 * ln 2) + - (1074) * ln 2) by ring.
      rewrite exp_plus. apply Rmult_le_compat_r; [left; apply exp_pos|]. unfold far_x. interval with (i_prec 60). }
  set (z := fmul (fmul (fneg half) u) u) in *.
  assert (V : exists v, isf (l_exp exact_libm z) v /\ 0 <= v <= 150 * unit).
  { exists (rnd64 (exp a)). split.
    - assert (Q : isf (of_R (exp (B2R z))) (rnd64 (exp a))) by (rewrite E; apply of_R_correct, small_exp; lra).
      cbn [l_exp exact_libm]. destruct z as [b|[|]| |b mm ee Hb]; try discriminate F; exact Q.
    - split; [apply rnd_ge; [apply fmt_0|left; apply exp_pos]|]. apply rnd_le_fmt; [apply (units_fmt 150); lia|exact EB]. }
  destruct V as (v & Iv & VB). destruct c_denotes_2pi as ((s & Is & S) & _).
  assert (S0 : 2506 / 1000 <= sqrt (2 * PI)) by interval.
  assert (S1 : 25 / 10 <= s) by (unfold e15, Rabs in S; destruct (Rcase_abs (s - sqrt (2 * PI))); lra).
  assert (Q : 0 <= v / s <= 60 * unit).
  { split; [apply Rmult_le_pos; [lra|left; apply Rinv_0_lt_compat; lra]|]. apply Rmult_le_reg_r with s; [lra|]. unfold Rdiv. rewrite Rmult_assoc, Rinv_l by lra. pose proof unit_pos. nra. }
  pose proof unit_pos. exists (rnd64 (v / s)). unfold norm_pdf_f. fold z. split.
  - apply fdiv_R; [exact Iv|exact Is|lra|]. apply small_le. rewrite Rabs_pos_eq; lra.
  - split; [apply rnd_ge; [apply fmt_0|lra]|apply rnd_le_fmt; [apply (units_fmt 60); lia|lra]].
Qed.
Lemma far_cdf u : isf u (- far_x) -> exists c, isf (norm_cdf_f exact_libm u) c /\ 2 * unit <= c <= 1.
Proof.
  intros I. assert (V : near (fdiv (fneg u) SQRT_2) (- - far_x / sqrt 2) (/ 1000000000000)).
  { destruct c_denotes_2pi as (_ & C & _). pose proof sqrt2_num.
    eapply (near_div _ _ _ _ 0 _ 40); [apply near_neg, near_isf, I|exact C|unfold far_x; apply Rabs_le; lra|lra|unfold e15; lra|unfold e15; lra|lra|unfold e15, e20; lra]. }
  destruct V as (r & [F E] & H). rewrite Ropp_involutive in H.
  set (t := far_x + 2 * / 1000000000000).
  assert (RT : r <= t / sqrt 2).
  { unfold t. pose proof sqrt2_num. replace ((far_x + 2 * / 1000000000000) / sqrt 2) with (far_x / sqrt 2 + 2 * / 1000000000000 * / sqrt 2) by (field; lra).
    assert (/ (15 / 10) <= / sqrt 2) by (apply Rinv_le_contravar; lra). unfold Rabs in H. destruct (Rcase_abs (r - far_x / sqrt 2)); lra. }
  assert (LO : 3 * unit <= erfc r).
  { apply Rle_trans with (erfc (t / sqrt 2)); [|apply erfc_le, RT].
    replace (erfc (t / sqrt 2)) with (2 * norm_cdf (- t)) by (unfold norm_cdf; rewrite Ropp_involutive; field).
    pose proof (mills_lower t) as Q. assert (T0 : 0 < t) by (unfold t, far_x; lra). specialize (Q T0).
    assert (K : 3 / 2 * unit * t <= norm_pdf t * (t * t / (1 + t * t))).
    { unfold norm_pdf. rewrite unit_exp. replace (- / 2 * t * t) with ((- / 2 * t * t + 1074 * ln 2) + - (1074) * ln 2) by ring. rewrite exp_plus.
      set (z := exp (- (1074) * ln 2)). assert (0 < z) by apply exp_pos.
      replace (exp (- / 2 * t * t + 1074 * ln 2) * z / sqrt (2 * PI) * (t * t / (1 + t * t))) with (exp (- / 2 * t * t + 1074 * ln 2) / sqrt (2 * PI) * (t * t / (1 + t * t)) * z)
        by (field; split; [nra|pose proof sqrt2pi_num; lra]).
      replace (3 / 2 * z * t) with (3 / 2 * t * z) by ring. apply Rmult_le_compat_r; [lra|]. unfold t, far_x. interval with (i_prec 60). }
    apply Rmult_le_reg_r with t; [exact T0|]. lra. }
  pose proof (erfc_bounds r) as UP. destruct (of_R_correct (erfc r)) as [F1 E1]; [apply small_le; rewrite Rabs_pos_eq; lra|].
  set (e := rnd64 (erfc r)) in *.
  assert (EB : 3 * unit <= e <= 2).
  { split; [apply rnd_ge; [apply (units_fmt 3); lia|exact LO]|apply rnd_le_fmt; [replace 2 with (2 * 1) by ring; apply fmt_2, fmt_1|lra]]. }
  exists (rnd64 (1 / 2 * e)). pose proof unit_pos. split.
  - apply fmul_R; [apply half_R| |apply small_le; rewrite Rabs_pos_eq; lra]. cbn [l_erfc exact_libm]. rewrite E. split; [exact F1|exact E1].
  - split; [rewrite <- half_of_three; apply rnd_le; lra|apply rnd_le_fmt; [apply fmt_1|lra]].
Qed.
Theorem C151_sign_refuted : exists pred s fmin, ordinary pred s fmin None /\ B2R (ei_value_f exact_libm (Some (pred, s)) fmin None) < 0.
Proof.
  exists far_pred, fone, fzero. pose proof far_pred_R as Ip. assert (Io : isf fone 1) by (apply (fofZ_R 1); lia). assert (Iz : isf fzero 0) by (split; reflexivity).
  assert (P100 : 1000 <= bpow radix2 100). { apply Rle_trans with (bpow radix2 10); [change (bpow radix2 10) with 1024; lra|apply bpow_le; lia]. }
  assert (O : ordinary far_pred fone fzero None).
  { destruct Ip as [F1 E1], Io as [F2 E2]. unfold ordinary. rewrite E1, E2. repeat split; try assumption; try reflexivity.
    - unfold far_x. rewrite Rabs_pos_eq; lra.
    - change (B2R fzero) with 0. rewrite Rabs_R0. lra.
    - change 1 with (bpow radix2 0). apply bpow_le. lia.
    - lra. }
  split; [exact O|]. cbn [ei_value_f]. unfold ei_f. rewrite not_tiny; [|apply Io|destruct Io as [_ ->]; change 1 with (bpow radix2 0); apply bpow_le; lia]. cbv zeta.
  assert (Is : isf (fsqrt fone) 1).
  { destruct (Bsqrt_correct 53 1024 f64_prec f64_emax mode_NE fone) as (Q1 & Q2 & _). destruct Io as [_ E]. rewrite E, sqrt_1 in Q1. split; [vm_compute; reflexivity|].
    change (fsqrt fone) with (Bsqrt mode_NE fone). rewrite Q1. apply rnd_fmt, fmt_1. }
  assert (Ig : isf (fmul fone (fsqrt fone)) 1).
  { replace 1 with (rnd64 (1 * 1)) by (rewrite Rmult_1_l; apply rnd_fmt, fmt_1). apply fmul_R; [exact Io|exact Is|]. apply small_le. rewrite Rabs_pos_eq; lra. }
  set (sg := fmul fone (fsqrt fone)) in *.
  assert (Fx : format64 (- far_x)) by (apply generic_format_opp, (isf_fmt _ _ Ip)).
  assert (Id : isf (fsub fzero far_pred) (- far_x)).
  { rewrite <- (rnd_fmt (- far_x) Fx). replace (- far_x) with (0 - far_x) by ring. apply fsub_R; [exact Iz|exact Ip|]. apply small_le. unfold far_x. apply Rabs_le. lra. }
  assert (Iu : isf (fdiv (fsub fzero far_pred) sg) (- far_x)).
  { rewrite <- (rnd_fmt (- far_x) Fx). replace (- far_x) with (- far_x / 1) at 1 by field. apply fdiv_R; [exact Id|exact Ig|lra|]. apply small_le. unfold far_x. apply Rabs_le. lra. }
  set (u := fdiv (fsub fzero far_pred) sg) in *. destruct (far_pdf u Iu) as (w & Iw & W). destruct (far_cdf u Iu) as (c & Ic & C). pose proof unit_pos as UP.
  assert (XB : - (40) <= - far_x * c <= - (76) * unit) by (unfold far_x; nra).
  assert (Im : isf (fmul u (norm_cdf_f exact_libm u)) (rnd64 (- far_x * c))) by (apply fmul_R; [exact Iu|exact Ic|apply small_le; apply Rabs_le; lra]).
  set (m := rnd64 (- far_x * c)) in *.
  assert (MB : - (40) <= m <= - (76) * unit).
  { split; [apply rnd_ge; [apply (isf_fmt (fofZ (-40))), fofZ_R; lia|lra]|apply rnd_le_fmt; [apply (units_fmt (-76)); lia|lra]]. }
  assert (Ii : isf (impr_f exact_libm u) (rnd64 (m + w))) by (apply fadd_R; [exact Im|exact Iw|apply small_le; apply Rabs_le; lra]).
  set (i := rnd64 (m + w)) in *.
  assert (IB : - (50) <= i <= - (16) * unit).
  { split; [apply rnd_ge; [apply (isf_fmt (fofZ (-50))), fofZ_R; lia|lra]|apply rnd_le_fmt; [apply (units_fmt (-16)); lia|lra]]. }
  assert (R : isf (fmul sg (impr_f exact_libm u)) (rnd64 (1 * i))) by (apply fmul_R; [exact Ig|exact Ii|apply small_le; apply Rabs_le; lra]).
  destruct R as [_ R]. rewrite R, Rmult_1_l. apply Rle_lt_trans with (- (16) * unit); [apply rnd_le_fmt; [apply (units_fmt (-16)); lia|lra]|lra].
Qed.
Print Assumptions C151_sign_refuted.
(** The best value is 3, the prediction 5 with a variance of 4: one deviation above the best value. *)
Example C151_example :
  let e := expected_improvement 5 2 3 in
  Rabs (B2R (ei_value_f exact_libm (Some (fofZ 5, fofZ 4)) (fofZ 3) None) - e) <= 2 / 1000000 * e /\ 0 < e.
Proof.
  destruct (fofZ_R 5 ltac:(lia)) as [F1 E1]. destruct (fofZ_R 4 ltac:(lia)) as [F2 E2]. destruct (fofZ_R 3 ltac:(lia)) as [F3 E3].
  assert (P100 : 1000 <= bpow radix2 100). { apply Rle_trans with (bpow radix2 10); [change (bpow radix2 10) with 1024; lra|apply bpow_le; lia]. }
  assert (O : ordinary (fofZ 5) (fofZ 4) (fofZ 3) None).
  { unfold ordinary. rewrite E1, E2, E3. repeat split; try assumption; try (rewrite Rabs_pos_eq; lra); try lra.
    apply Rle_trans with (bpow radix2 0); [apply bpow_le; lia|change (bpow radix2 0) with 1; lra]. }
  assert (D : deviation (fofZ 4) None = 2). { unfold deviation. cbn [weight]. rewrite E2. replace 4 with (2 * 2) by ring. rewrite sqrt_square; lra. }
  pose proof (C151_accurate_partial exact_libm C110_accurate_library _ _ _ _ O) as Q. rewrite D, E1, E3 in Q. destruct (Q ltac:(lra)) as (_ & P & H & _). split; assumption.
Qed.
