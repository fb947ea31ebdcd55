(** Accuracy of LogEI in binary64 arithmetic. *)
From Coq Require Import ZArith Reals Lra Lia Bool.
From Coquelicot Require Import Coquelicot.
From Flocq Require Import Core.Core IEEE754.BinarySingleNaN Relative.
From Interval Require Import Tactic.
From Verif Require Import F64 F64_Round CritF64_Model Normal LogEi_Real Properties_CritF64 LogEi_Const.
Local Open Scope R_scope.

(** The functions of the mathematical library are accurate to 2^-50 (relative error, 4 units in the last place), up to underflow. *)
Definition closely (a : f64) (x tol : R) : Prop := is_finite a = true /\ Rabs (B2R a - x) <= tol.
Record libm_accurate (L : libm) : Prop := {
  acc_exp : forall a, is_finite a = true -> B2R a <= 709 ->
    closely (l_exp L a) (exp (B2R a)) (bpow radix2 (-50) * exp (B2R a) + bpow radix2 (-1070));
  acc_exp_pos : forall a, is_finite a = true -> B2R a <= 709 -> 0 <= B2R (l_exp L a);
  acc_exp_ninf : l_exp L fninf = fzero;
  acc_log : forall a, is_finite a = true -> 0 < B2R a ->
    closely (l_log L a) (ln (B2R a)) (bpow radix2 (-50) * (1 + Rabs (ln (B2R a))));
  acc_erfc : forall a, is_finite a = true ->
    closely (l_erfc L a) (erfc (B2R a)) (bpow radix2 (-50) * erfc (B2R a) + bpow radix2 (-1070)) /\ B2R (l_erfc L a) <= 2;
  acc_expm1 : forall a, is_finite a = true -> -1 <= B2R a < 0 ->
    closely (l_expm1 L a) (exp (B2R a) - 1) (bpow radix2 (-50) * (1 - exp (B2R a)) + bpow radix2 (-1070));
  acc_log1p : forall a, is_finite a = true -> -1 < B2R a ->
    closely (l_log1p L a) (ln (1 + B2R a)) (bpow radix2 (-50) * (1 + Rabs (ln (1 + B2R a)))) }.

(** ** Roundings *)
Definition e15 : R := / 1000000000000000.
Definition e20 : R := / 100000000000000000000.
Lemma bpow_m50 : bpow radix2 (-50) <= e15.
Proof. change (bpow radix2 (-50)) with (/ IZR (2 ^ 50)). change (2 ^ 50)%Z with 1125899906842624%Z. unfold e15. lra. Qed.
Lemma bpow_m1070 : 0 < bpow radix2 (-1070) <= e20.
Proof.
  split; [apply bpow_gt_0|]. apply Rle_trans with (bpow radix2 (-70)); [apply bpow_le; lia|].
  change (bpow radix2 (-70)) with (/ IZR (2 ^ 70)). change (2 ^ 70)%Z with 1180591620717411303424%Z. unfold e20. lra.
Qed.
Lemma rnd_err x : Rabs (rnd64 x - x) <= Rabs x * e15 + e20.
Proof.
  destruct (error_N_FLT radix2 (-1074) 53 ltac:(lia) (fun x => negb (Z.even x)) x) as (eps & eta & E1 & E2 & _ & E3).
  change (round radix2 (FLT_exp (-1074) 53) (Znearest (fun x => negb (Z.even x))) x) with (rnd64 x) in E3. rewrite E3.
  replace (x * (1 + eps) + eta - x) with (x * eps + eta) by ring.
  apply Rle_trans with (Rabs (x * eps) + Rabs eta); [apply Rabs_triang|]. rewrite Rabs_mult.
  assert (B1 : / 2 * bpow radix2 (- (53) + 1) <= e15).
  { change (- (53) + 1)%Z with (-52)%Z. rewrite bpow_m52. unfold e15. lra. }
  assert (B2 : / 2 * bpow radix2 (-1074) <= e20).
  { pose proof bpow_m1070. assert (bpow radix2 (-1074) <= bpow radix2 (-1070)) by (apply bpow_le; lia). lra. }
  pose proof (Rabs_pos x). assert (Rabs eps <= e15) by lra. assert (Rabs eta <= e20) by lra. nra.
Qed.

Definition near (a : f64) (x e : R) : Prop := exists r, isf a r /\ Rabs (r - x) <= e.
Lemma near_isf a x : isf a x -> near a x 0. Proof. intros H. exists x. split; [exact H|]. rewrite Rminus_eq_0, Rabs_R0. lra. Qed.
Lemma near_weaken a x e f : near a x e -> e <= f -> near a x f. Proof. intros (r & I & E) H. exists r. split; [exact I|lra]. Qed.
Lemma near_neg a x e : near a x e -> near (fneg a) (- x) e.
Proof. intros (r & I & E). exists (- r). split; [now apply fneg_R|]. replace (- r - - x) with (- (r - x)) by ring. now rewrite Rabs_Ropp. Qed.
Lemma near_bound a x e X r : isf a r -> Rabs (r - x) <= e -> Rabs x <= X -> Rabs r <= X + e.
Proof. intros _ E B. replace r with (x + (r - x)) by ring. apply Rle_trans with (Rabs x + Rabs (r - x)); [apply Rabs_triang|lra]. Qed.
Lemma near_const a x : denotes a x -> near a x (bpow radix2 (-52)).
Proof. intros [F E]. exists (B2R a). split; [split; [exact F|reflexivity]|exact E]. Qed.
Lemma near_mul a b x y e f X Y g : near a x e -> near b y f -> Rabs x <= X -> Rabs y <= Y -> 0 <= e -> 0 <= f ->
  (X + e) * (Y + f) <= 1000000 -> X * f + Y * e + e * f + (X + e) * (Y + f) * e15 + e20 <= g -> near (fmul a b) (x * y) g.
Proof.
  intros (r & I & E) (s & J & F) BX BY E0 F0 S G.
  pose proof (near_bound _ _ _ _ _ I E BX) as R1. pose proof (near_bound _ _ _ _ _ J F BY) as S1.
  pose proof (Rabs_pos x). pose proof (Rabs_pos y). pose proof (Rabs_pos r). pose proof (Rabs_pos s).
  pose proof (Rabs_pos (r - x)). pose proof (Rabs_pos (s - y)).
  assert (B : Rabs (r * s) <= (X + e) * (Y + f)) by (rewrite Rabs_mult; apply Rmult_le_compat; lra).
  exists (rnd64 (r * s)). split; [apply fmul_R; try assumption; apply small_le; lra|].
  pose proof (rnd_err (r * s)) as Q.
  assert (D : Rabs (r * s - x * y) <= X * f + Y * e + e * f).
  { replace (r * s - x * y) with (x * (s - y) + y * (r - x) + (r - x) * (s - y)) by ring.
    apply Rle_trans with (Rabs (x * (s - y)) + Rabs (y * (r - x)) + Rabs ((r - x) * (s - y))).
    - apply Rle_trans with (Rabs (x * (s - y) + y * (r - x)) + Rabs ((r - x) * (s - y))); [apply Rabs_triang|].
      apply Rplus_le_compat_r, Rabs_triang.
    - rewrite !Rabs_mult. repeat apply Rplus_le_compat; apply Rmult_le_compat; lra. }
  replace (rnd64 (r * s) - x * y) with ((rnd64 (r * s) - r * s) + (r * s - x * y)) by ring.
  apply Rle_trans with (Rabs (rnd64 (r * s) - r * s) + Rabs (r * s - x * y)); [apply Rabs_triang|].
  assert (Rabs (r * s) * e15 <= (X + e) * (Y + f) * e15) by (apply Rmult_le_compat_r; [unfold e15; lra|exact B]). lra.
Qed.
Lemma near_add a b x y e f X g : near a x e -> near b y f -> Rabs (x + y) <= X -> X + e + f <= 1000000 ->
  e + f + (X + e + f) * e15 + e20 <= g -> near (fadd a b) (x + y) g.
Proof.
  intros (r & I & E) (s & J & F) BX S G.
  assert (D : Rabs (r + s - (x + y)) <= e + f).
  { replace (r + s - (x + y)) with ((r - x) + (s - y)) by ring. apply Rle_trans with (Rabs (r - x) + Rabs (s - y)); [apply Rabs_triang|lra]. }
  assert (B : Rabs (r + s) <= X + e + f).
  { replace (r + s) with ((x + y) + (r + s - (x + y))) by ring. apply Rle_trans with (Rabs (x + y) + Rabs (r + s - (x + y))); [apply Rabs_triang|lra]. }
  exists (rnd64 (r + s)). split; [apply fadd_R; try assumption; apply small_le; lra|].
  pose proof (rnd_err (r + s)) as Q.
  replace (rnd64 (r + s) - (x + y)) with ((rnd64 (r + s) - (r + s)) + (r + s - (x + y))) by ring.
  apply Rle_trans with (Rabs (rnd64 (r + s) - (r + s)) + Rabs (r + s - (x + y))); [apply Rabs_triang|].
  assert (Rabs (r + s) * e15 <= (X + e + f) * e15) by (apply Rmult_le_compat_r; [unfold e15; lra|exact B]). lra.
Qed.
Lemma near_sub a b x y e f X g : near a x e -> near b y f -> Rabs (x - y) <= X -> X + e + f <= 1000000 ->
  e + f + (X + e + f) * e15 + e20 <= g -> near (fsub a b) (x - y) g.
Proof.
  intros (r & I & E) (s & J & F) BX S G.
  assert (D : Rabs (r - s - (x - y)) <= e + f).
  { replace (r - s - (x - y)) with ((r - x) + - (s - y)) by ring. apply Rle_trans with (Rabs (r - x) + Rabs (- (s - y))); [apply Rabs_triang|]. rewrite Rabs_Ropp. lra. }
  assert (B : Rabs (r - s) <= X + e + f).
  { replace (r - s) with ((x - y) + (r - s - (x - y))) by ring. apply Rle_trans with (Rabs (x - y) + Rabs (r - s - (x - y))); [apply Rabs_triang|lra]. }
  exists (rnd64 (r - s)). split; [apply fsub_R; try assumption; apply small_le; lra|].
  pose proof (rnd_err (r - s)) as Q.
  replace (rnd64 (r - s) - (x - y)) with ((rnd64 (r - s) - (r - s)) + (r - s - (x - y))) by ring.
  apply Rle_trans with (Rabs (rnd64 (r - s) - (r - s)) + Rabs (r - s - (x - y))); [apply Rabs_triang|].
  assert (Rabs (r - s) * e15 <= (X + e + f) * e15) by (apply Rmult_le_compat_r; [unfold e15; lra|exact B]). lra.
Qed.
(** Division by a number above one. *)
Lemma near_div a b x y e f X g : near a x e -> near b y f -> Rabs x <= X -> 0 <= e -> 0 <= f -> 1 + f <= y -> X + e <= 1000000 ->
  e + X * f + (X + e) * e15 + e20 <= g -> near (fdiv a b) (x / y) g.
Proof.
  intros (r & I & E) (s & J & F) BX E0 F0 Y S G.
  pose proof (near_bound _ _ _ _ _ I E BX) as R1. pose proof (Rabs_pos x). pose proof (Rabs_pos r). pose proof (Rabs_pos (r - x)). pose proof (Rabs_pos (s - y)).
  assert (S1 : 1 <= s). { unfold Rabs in F. destruct (Rcase_abs (s - y)); lra. }
  assert (Is : 0 < / s <= 1). { split; [apply Rinv_0_lt_compat; lra|]. rewrite <- Rinv_1. apply Rinv_le_contravar; lra. }
  assert (Iy : 0 < / y <= 1). { split; [apply Rinv_0_lt_compat; lra|]. rewrite <- Rinv_1. apply Rinv_le_contravar; lra. }
  assert (B : Rabs (r / s) <= X + e).
  { unfold Rdiv. rewrite Rabs_mult, (Rabs_pos_eq (/ s)) by lra. nra. }
  exists (rnd64 (r / s)). split; [apply fdiv_R; try assumption; [lra|apply small_le; lra]|].
  pose proof (rnd_err (r / s)) as Q.
  assert (D : Rabs (r / s - x / y) <= e + X * f).
  { replace (r / s - x / y) with ((r - x) * / s + x * (- (s - y)) * (/ s * / y)) by (field; lra).
    eapply Rle_trans; [apply Rabs_triang|]. rewrite !Rabs_mult, Rabs_Ropp, (Rabs_pos_eq (/ s)), (Rabs_pos_eq (/ y)) by lra.
    assert (0 <= / s * / y <= 1) by nra. assert (Rabs x * Rabs (s - y) <= X * f) by (apply Rmult_le_compat; lra).
    assert (0 <= Rabs x * Rabs (s - y)) by nra. assert (Rabs (r - x) * / s <= e) by nra. nra. }
  replace (rnd64 (r / s) - x / y) with ((rnd64 (r / s) - r / s) + (r / s - x / y)) by ring.
  apply Rle_trans with (Rabs (rnd64 (r / s) - r / s) + Rabs (r / s - x / y)); [apply Rabs_triang|].
  assert (Rabs (r / s) * e15 <= (X + e) * e15) by (apply Rmult_le_compat_r; [unfold e15; lra|exact B]). lra.
Qed.

(** ** Small perturbations *)
Lemma exp_small d : Rabs d <= / 2 -> Rabs (exp d - 1) <= 2 * Rabs d.
Proof.
  intros H. pose proof (exp_ineq1_le d). pose proof (exp_ineq1_le (- d)) as Q. rewrite exp_Ropp in Q. pose proof (exp_pos d) as P.
  assert (K : exp d * (1 - d) <= 1).
  { apply Rmult_le_compat_l with (r := exp d) in Q; [|lra]. rewrite Rinv_r in Q by lra. lra. }
  unfold Rabs in *. destruct (Rcase_abs d); destruct (Rcase_abs (exp d - 1)); nra.
Qed.
Lemma exp_near r x e : Rabs (r - x) <= e -> e <= / 2 -> Rabs (exp r - exp x) <= 2 * e * exp x.
Proof.
  intros H E. replace (exp r - exp x) with ((exp (r - x) - 1) * exp x).
  - rewrite Rabs_mult, (Rabs_pos_eq (exp x)) by (left; apply exp_pos). apply Rmult_le_compat_r; [left; apply exp_pos|].
    pose proof (exp_small (r - x) ltac:(lra)). lra.
  - rewrite Rmult_minus_distr_r, <- exp_plus. f_equal; [f_equal; ring|ring].
Qed.
Lemma ln_near r x e : 0 < x -> Rabs (r - x) <= e * x -> e <= / 2 -> 0 < r /\ Rabs (ln r - ln x) <= 2 * e.
Proof.
  intros X H E. assert (E0 : 0 <= e). { pose proof (Rabs_pos (r - x)). nra. }
  assert (B : x - e * x <= r <= x + e * x). { unfold Rabs in H. destruct (Rcase_abs (r - x)); lra. }
  assert (R0 : 0 < r) by nra. split; [exact R0|].
  assert (U : forall a, 0 < a -> ln a <= a - 1).
  { intros a A. pose proof (exp_ineq1_le (ln a)) as Q. rewrite exp_ln in Q by assumption. lra. }
  assert (L1 : ln r - ln x <= e).
  { rewrite <- Rcomplements.ln_div by assumption. apply Rle_trans with (r / x - 1); [apply U; now apply Rdiv_lt_0_compat|].
    apply Rmult_le_reg_r with x; [assumption|]. replace ((r / x - 1) * x) with (r - x) by (field; lra). lra. }
  assert (L2 : ln x - ln r <= 2 * e).
  { rewrite <- Rcomplements.ln_div by assumption. apply Rle_trans with (x / r - 1); [apply U; now apply Rdiv_lt_0_compat|].
    apply Rmult_le_reg_r with r; [assumption|]. replace ((x / r - 1) * r) with (x - r) by (field; lra). nra. }
  apply Rabs_le. lra.
Qed.
Lemma erfc_lipschitz r x : Rabs (erfc r - erfc x) <= 2 * Rabs (r - x).
Proof.
  destruct (MVT_gen erfc x r (fun t => - (2 / sqrt PI * gauss t))) as (c & _ & M).
  - intros t _. apply erfc_derive.
  - intros t _. apply derivable_continuous_pt. eexists. apply is_derive_Reals, erfc_derive.
  - rewrite M, Rabs_mult. apply Rmult_le_compat_r; [apply Rabs_pos|]. rewrite Rabs_Ropp.
    assert (S : 1 <= sqrt PI). { rewrite <- sqrt_1 at 1. apply sqrt_le_1_alt. pose proof PI2_3_2. unfold PI2 in *. lra. }
    assert (0 < / sqrt PI <= 1). { split; [apply Rinv_0_lt_compat; lra|]. rewrite <- Rinv_1. apply Rinv_le_contravar; lra. }
    assert (G : 0 < gauss c <= 1).
    { split; [apply gauss_pos|]. unfold gauss. rewrite <- exp_0 at 1. destruct (Req_dec c 0) as [->|N].
      - right. f_equal. ring.
      - left. apply exp_increasing. nra. }
    rewrite Rabs_pos_eq; [|unfold Rdiv; repeat apply Rmult_le_pos; lra]. unfold Rdiv. assert (/ sqrt PI * gauss c <= 1 * 1) by (apply Rmult_le_compat; lra). lra.
Qed.
Lemma impr_low x : -1 <= x -> / 20 <= impr x.
Proof.
  intros H. assert (M : / 20 <= impr (-1)).
  { pose proof (mills_upper 1 ltac:(lra)) as Q. unfold impr. rewrite <- (norm_pdf_even (-1)).
    replace (- -1) with 1 by ring. replace (-1) with (- (1)) by ring.
    assert (P : / 5 <= norm_pdf 1). { unfold norm_pdf. interval. } lra. }
  destruct (Req_dec x (-1)) as [->|N]; [exact M|]. pose proof (impr_incr (-1) x ltac:(lra)). lra.
Qed.

(** ** Accuracy of the parts *)
Section Acc.
Context (L : libm) (A : libm_accurate L).
Lemma c_denotes_2pi : near SQRT_2PI (sqrt (2 * PI)) e15 /\ near SQRT_2 (sqrt 2) e15 /\ near INV_SQRT_2 (/ sqrt 2) e15 /\
  near LOG_2PI_OVER_2 (ln (2 * PI) / 2) e15 /\ near LOG_PI_OVER_2_ALL_OVER_2 (ln (PI / 2) / 2) e15.
Proof.
  destruct constants as (C1 & C2 & C3 & C4 & C5). assert (B : bpow radix2 (-52) <= e15) by (rewrite bpow_m52; unfold e15; lra).
  repeat split; (eapply near_weaken; [apply near_const; eassumption|exact B]).
Qed.
Lemma near_half : near half (/ 2) 0. Proof. apply near_isf. replace (/ 2) with (1 / 2) by lra. apply half_R. Qed.
Lemma near_exp a x e : near a x e -> x <= 0 -> 0 <= e <= / 1000 -> near (l_exp L a) (exp x) (3 * e + 2 * e15).
Proof.
  intros (r & [F E] & H) X E0. subst r.
  assert (R : B2R a <= 709). { unfold Rabs in H. destruct (Rcase_abs (B2R a - x)); lra. }
  destruct (acc_exp L A a F R) as [F1 E1]. exists (B2R (l_exp L a)). split; [now split|].
  pose proof (exp_near _ _ _ H ltac:(lra)) as Q. pose proof (exp_pos x). pose proof (exp_pos (B2R a)).
  assert (exp x <= 1). { rewrite <- exp_0. destruct X as [X| ->]; [left; now apply exp_increasing|right; reflexivity]. }
  pose proof bpow_m50. pose proof bpow_m1070. pose proof (bpow_gt_0 radix2 (-50)).
  assert (B : exp (B2R a) <= 2). { unfold Rabs in Q. destruct (Rcase_abs (exp (B2R a) - exp x)); nra. }
  assert (e20 <= e15 * / 10) by (unfold e20, e15; lra).
  replace (B2R (l_exp L a) - exp x) with ((B2R (l_exp L a) - exp (B2R a)) + (exp (B2R a) - exp x)) by ring.
  eapply Rle_trans; [apply Rabs_triang|].
  assert (bpow radix2 (-50) * exp (B2R a) <= e15 * exp (B2R a)) by (apply Rmult_le_compat_r; lra).
  assert (K : exp (B2R a) <= 1 + 2 * e) by (unfold Rabs in Q; destruct (Rcase_abs (exp (B2R a) - exp x)); nra).
  assert (e15 * exp (B2R a) <= e15 * (1 + 2 * e)) by (apply Rmult_le_compat_l; unfold e15 in *; lra).
  assert (2 * e * exp x <= 2 * e) by nra. assert (0 <= e15 <= / 1000) by (unfold e15; lra). nra.
Qed.
Lemma near_erfc a x e : near a x e -> 0 <= e -> near (l_erfc L a) (erfc x) (2 * e + 3 * e15).
Proof.
  intros (r & [F E] & H) E0. subst r. destruct (acc_erfc L A a F) as [[F1 E1] _]. exists (B2R (l_erfc L a)). split; [now split|].
  pose proof (erfc_lipschitz (B2R a) x) as Q. pose proof (erfc_bounds (B2R a)).
  pose proof bpow_m50. pose proof bpow_m1070. pose proof (bpow_gt_0 radix2 (-50)). assert (e20 <= e15 * / 10) by (unfold e20, e15; lra).
  replace (B2R (l_erfc L a) - erfc x) with ((B2R (l_erfc L a) - erfc (B2R a)) + (erfc (B2R a) - erfc x)) by ring.
  eapply Rle_trans; [apply Rabs_triang|]. nra.
Qed.
Lemma near_log a x e : near a x (e * x) -> 0 < x -> 0 <= e <= / 2 -> near (l_log L a) (ln x) (2 * e + e15 * (2 + Rabs (ln x))).
Proof.
  intros (r & [F E] & H) X E0. subst r. destruct (ln_near _ _ _ X H ltac:(lra)) as [R Q].
  destruct (acc_log L A a F R) as [F1 E1]. exists (B2R (l_log L a)). split; [now split|].
  pose proof bpow_m50. pose proof (bpow_gt_0 radix2 (-50)). pose proof (Rabs_pos (ln (B2R a))).
  assert (B : Rabs (ln (B2R a)) <= Rabs (ln x) + 2 * e).
  { replace (ln (B2R a)) with (ln x + (ln (B2R a) - ln x)) by ring. eapply Rle_trans; [apply Rabs_triang|]. lra. }
  replace (B2R (l_log L a) - ln x) with ((B2R (l_log L a) - ln (B2R a)) + (ln (B2R a) - ln x)) by ring.
  eapply Rle_trans; [apply Rabs_triang|].
  assert (bpow radix2 (-50) * (1 + Rabs (ln (B2R a))) <= e15 * (2 + Rabs (ln x))) by (apply Rmult_le_compat; lra). lra.
Qed.
Lemma sqrt2_num : 14 / 10 <= sqrt 2 <= 15 / 10. Proof. split; interval. Qed.
Lemma sqrt2pi_num : 25 / 10 <= sqrt (2 * PI) <= 26 / 10. Proof. split; interval. Qed.
Lemma pdf_pos_le u : 0 < norm_pdf u <= 1.
Proof.
  split; [apply norm_pdf_pos|]. apply Rle_trans with (exp (- / 2 * u * u)); [apply norm_pdf_le|]. rewrite <- exp_0.
  destruct (Req_dec u 0) as [->|N]; [right; f_equal; ring|]. left. apply exp_increasing. assert (0 < u * u) by nra. lra.
Qed.
(** The density and the distribution function. *)
Lemma near_square u x : isf u x -> Rabs x <= 100 -> near (fmul (fmul (fneg half) u) u) (- / 2 * x * x) (2 * / 100000000000).
Proof.
  intros I B. assert (N1 : near (fmul (fneg half) u) (- / 2 * x) (/ 10000000000000)).
  { eapply (near_mul _ _ (- / 2) x 0 0 (/ 2) 100); [apply near_neg, near_half|now apply near_isf| |exact B|lra|lra|lra|unfold e15, e20; lra].
    rewrite Rabs_Ropp, Rabs_pos_eq; lra. }
  eapply (near_mul _ _ (- / 2 * x) x _ 0 50 100); [exact N1|now apply near_isf| |exact B|lra|lra|lra|unfold e15, e20; lra].
  rewrite Rabs_mult, Rabs_Ropp, (Rabs_pos_eq (/ 2)) by lra. lra.
Qed.
Lemma near_pdf u x : isf u x -> Rabs x <= 100 -> near (norm_pdf_f L u) (norm_pdf x) (/ 10000000000).
Proof.
  intros I B. unfold norm_pdf_f, norm_pdf. pose proof (near_exp _ _ _ (near_square u x I B)) as Q.
  assert (X : - / 2 * x * x <= 0) by nra. specialize (Q X ltac:(lra)).
  destruct c_denotes_2pi as (C & _). pose proof sqrt2pi_num.
  eapply (near_div _ _ _ _ _ _ 1); [exact Q|exact C| |unfold e15; lra|unfold e15; lra|unfold e15; lra|unfold e15; lra|unfold e15, e20; lra].
  rewrite Rabs_pos_eq by (left; apply exp_pos). rewrite <- exp_0. destruct X as [X| ->]; [left; now apply exp_increasing|right; reflexivity].
Qed.
Lemma near_cdf u x : isf u x -> Rabs x <= 100 -> near (norm_cdf_f L u) (norm_cdf x) (3 * / 1000000000000).
Proof.
  intros I B. unfold norm_cdf_f, norm_cdf. destruct c_denotes_2pi as (_ & C & _). pose proof sqrt2_num.
  assert (N : near (fdiv (fneg u) SQRT_2) (- x / sqrt 2) (/ 1000000000000)).
  { eapply (near_div _ _ _ _ 0 _ 100); [apply near_neg, near_isf, I|exact C|now rewrite Rabs_Ropp|lra|unfold e15; lra|unfold e15; lra|lra|unfold e15, e20; lra]. }
  pose proof (near_erfc _ _ _ N ltac:(lra)) as Q. pose proof (erfc_bounds (- x / sqrt 2)).
  eapply (near_mul _ _ _ _ 0 _ (/ 2) 2); [apply near_half|exact Q| | |lra|unfold e15; lra|unfold e15; lra|unfold e15, e20; lra].
  - rewrite Rabs_pos_eq; lra.
  - rewrite Rabs_pos_eq; lra.
Qed.
Lemma impr_up x : impr x <= Rabs x + 1.
Proof. unfold impr. pose proof (pdf_pos_le x). pose proof (norm_cdf_bounds x). pose proof (Rabs_pos x). pose proof (Rle_abs x). nra. Qed.
Lemma ln_abs a lo hi : 0 < lo -> lo <= a <= hi -> Rabs (ln a) <= Rabs (ln lo) + Rabs (ln hi).
Proof.
  intros L0 [A1 A2]. assert (M1 : ln lo <= ln a) by (apply Rcomplements.ln_le; lra). assert (M2 : ln a <= ln hi) by (apply Rcomplements.ln_le; lra).
  unfold Rabs. destruct (Rcase_abs (ln a)), (Rcase_abs (ln lo)), (Rcase_abs (ln hi)); lra.
Qed.
Lemma ln_num : Rabs (ln (/ 20)) <= 4 /\ Rabs (ln 101) <= 5.
Proof. split; interval. Qed.
(** Between -1 and 100. *)
Lemma acc_middle u x : isf u x -> -1 < x <= 100 -> near (log_ei_helper_f L u) (ln (impr x)) (/ 1000000).
Proof.
  intros I B. unfold log_ei_helper_f.
  assert (G : fgt u (fneg fone) = true).
  { unfold fgt, fone. change (fmake 1 0) with (fofZ 1). apply (flt_of_R _ _ _ _ (fneg_R _ _ (fofZ_R 1 ltac:(lia))) I). lra. }
  rewrite G. assert (X : Rabs x <= 100) by (apply Rabs_le; lra). pose proof (norm_cdf_bounds x). pose proof (pdf_pos_le x).
  assert (N : near (fmul u (norm_cdf_f L u)) (x * norm_cdf x) (4 * / 10000000000)).
  { eapply (near_mul _ _ _ _ 0 _ 100 1); [apply near_isf, I|apply (near_cdf u x I X)|exact X| |lra|lra|lra|unfold e15, e20; lra].
    rewrite Rabs_pos_eq; lra. }
  pose proof (impr_low x ltac:(lra)) as Lo. pose proof (impr_up x) as Up.
  assert (S : near (fadd (norm_pdf_f L u) (fmul u (norm_cdf_f L u))) (impr x) (6 * / 10000000000)).
  { unfold impr. rewrite Rplus_comm. eapply (near_add _ _ _ _ _ _ 101); [apply (near_pdf u x I X)|exact N| |lra|unfold e15, e20; lra].
    fold (impr x). rewrite Rplus_comm. fold (impr x). rewrite Rabs_pos_eq; lra. }
  assert (S' : near (fadd (norm_pdf_f L u) (fmul u (norm_cdf_f L u))) (impr x) (/ 50000000 * impr x)) by (eapply near_weaken; [exact S|lra]).
  assert (Q := near_log _ (impr x) (/ 50000000) S' ltac:(lra) ltac:(lra)).
  eapply near_weaken; [exact Q|]. pose proof (ln_abs (impr x) (/ 20) 101 ltac:(lra) ltac:(lra)). pose proof ln_num. unfold e15. lra.
Qed.

(** ** Large improvements *)
Lemma erfc_neg y : erfc (- y) = 2 - erfc y. Proof. unfold erfc. rewrite erf_odd. ring. Qed.
Lemma erfc_le a b : a <= b -> erfc b <= erfc a.
Proof. intros [H| ->]; [|lra]. unfold erfc. pose proof (erf_incr a b H). lra. Qed.
Lemma exp_le a b : a <= b -> exp a <= exp b.
Proof. intros [H| ->]; [left; now apply exp_increasing|lra]. Qed.
Lemma impr_sym x : impr x = x + impr (- x).
Proof. unfold impr. rewrite norm_pdf_even. pose proof (norm_cdf_sym x). replace (norm_cdf (- x)) with (1 - norm_cdf x) by lra. ring. Qed.
Lemma no_overflow r y : format64 y -> Rabs y < bpow radix2 1024 -> 0 <= r <= y -> Rlt_bool (Rabs (rnd64 r)) (bpow radix2 1024) = true.
Proof.
  intros F B R. apply Rlt_bool_true. assert (0 <= rnd64 r) by (apply rnd_ge; [apply fmt_0|lra]).
  assert (rnd64 r <= y) by (apply rnd_le_fmt; [exact F|lra]). rewrite Rabs_pos_eq by assumption. rewrite Rabs_pos_eq in B; lra.
Qed.
Lemma isf_bound a r : isf a r -> Rabs r < bpow radix2 1024.
Proof. intros [_ <-]. apply abs_B2R_lt_emax. Qed.
(** The density is negligible far from 0. *)
Lemma tiny_pdf u x : isf u x -> 100 < x -> exists p, isf (norm_pdf_f L u) p /\ 0 <= p <= / 100000000000000000.
Proof.
  intros I B. unfold norm_pdf_f. destruct c_denotes_2pi as ((s & Is & S) & _). pose proof sqrt2pi_num.
  assert (S1 : 2 <= s). { unfold e15 in S. unfold Rabs in S. destruct (Rcase_abs (s - sqrt (2 * PI))); lra. }
  assert (Sg : Bsign u = false).
  { destruct I as [Fu Eu]. clear - B Fu Eu. destruct u as [s|s| |[|] m e Hb]; try discriminate Fu; [exfalso|exfalso|reflexivity].
    - cbn [B2R] in Eu. lra.
    - cbn [B2R] in Eu. assert (F2R (Float radix2 (cond_Zopp true (Z.pos m)) e) < 0) by (apply F2R_lt_0; cbn; lia). lra. }
  assert (Sm : small (- (1 / 2) * x)).
  { unfold small. rewrite Rabs_mult, Rabs_Ropp, (Rabs_pos_eq (1 / 2)) by lra. pose proof (isf_bound _ _ I) as M.
    assert (E : bpow radix2 1024 = 2 * bpow radix2 1023) by (change 1024%Z with (1 + 1023)%Z; rewrite bpow_plus; reflexivity). lra. }
  pose proof (fmul_R _ _ _ _ (fneg_R _ _ half_R) I Sm) as Ip. set (p := fmul (fneg half) u) in *. set (r := rnd64 (- (1 / 2) * x)) in *.
  assert (P : r <= - (50)).
  { apply rnd_le_fmt; [|lra]. apply (isf_fmt (fneg (fofZ 50))). apply fneg_R, fofZ_R. lia. }
  assert (Z : fmul p u = fninf \/ exists q, isf (fmul p u) q /\ q <= - (5000)).
  { destruct Ip as [Fp Ep], I as [Fu Eu]. pose proof (Bmult_correct 53 1024 f64_prec f64_emax mode_NE p u) as C. change (Bmult mode_NE p u) with (fmul p u) in C.
    destruct (Rlt_bool _ _).
    - right. destruct C as (C1 & C2 & _). exists (B2R (fmul p u)). split; [split; [|reflexivity]|].
      + rewrite C2, Fp, Fu. reflexivity.
      + rewrite C1, Ep, Eu. apply rnd_le_fmt; [|nra]. apply (isf_fmt (fneg (fofZ 5000))). apply fneg_R, fofZ_R. lia.
    - left. assert (Sp : Bsign p = true).
      { clear - P Fp Ep. destruct p as [s|s| |[|] m e B]; try discriminate Fp; [exfalso|reflexivity|exfalso].
        - cbn [B2R] in Ep. lra.
        - cbn [B2R] in Ep. assert (0 < F2R (Float radix2 (cond_Zopp false (Z.pos m)) e)) by (apply F2R_gt_0; cbn; lia). lra. }
      rewrite Sp, Sg in C. apply B2SF_inj. rewrite C. reflexivity. }
  destruct Z as [Z|(q & [Fq Eq] & Q)].
  - rewrite Z, (acc_exp_ninf L A). exists 0. split; [split; reflexivity|lra].
  - assert (Q7 : B2R (fmul p u) <= 709) by lra.
    destruct (acc_exp L A _ Fq Q7) as [F1 E1]. pose proof (acc_exp_pos L A _ Fq Q7) as V0. set (v := B2R (l_exp L (fmul p u))) in *.
    assert (V : v <= 2 * e20).
    { assert (X : exp (B2R (fmul p u)) <= / 1000000000000000000000000).
      { rewrite Eq. apply Rle_trans with (exp (- (100))); [apply exp_le; lra|interval]. }
      pose proof (exp_pos (B2R (fmul p u))). pose proof bpow_m50. pose proof bpow_m1070. pose proof (bpow_gt_0 radix2 (-50)).
      unfold e15, e20 in *. unfold Rabs in E1. destruct (Rcase_abs (v - exp (B2R (fmul p u)))); nra. }
    assert (D : 0 <= v / s <= 2 * e20).
    { assert (Ii : 0 < / s <= 1). { split; [apply Rinv_0_lt_compat; lra|]. rewrite <- Rinv_1. apply Rinv_le_contravar; lra. } unfold Rdiv, e20 in *. nra. }
    exists (rnd64 (v / s)). split.
    + apply fdiv_R; [split; [exact F1|reflexivity]|exact Is|lra|]. apply small_le. rewrite Rabs_pos_eq by lra. unfold e20 in D. lra.
    + pose proof (rnd_err (v / s)) as R. rewrite (Rabs_pos_eq (v / s)) in R by lra. split; [apply rnd_ge; [apply fmt_0|lra]|].
      unfold e15, e20 in *. unfold Rabs in R. destruct (Rcase_abs (rnd64 (v / s) - v / s)); lra.
Qed.
Lemma cdf_one u x : isf u x -> 100 < x -> exists p, isf (norm_cdf_f L u) p /\ 1 - / 100000000000000 <= p <= 1.
Proof.
  intros I B. unfold norm_cdf_f. destruct c_denotes_2pi as (_ & (s & Is & S) & _). pose proof sqrt2_num.
  assert (S1 : 13 / 10 <= s <= 16 / 10). { unfold e15 in S. unfold Rabs in S. destruct (Rcase_abs (s - sqrt 2)); lra. }
  assert (Q0 : / (16 / 10) <= / s <= 1).
  { split; [apply Rinv_le_contravar; lra|]. rewrite <- Rinv_1. apply Rinv_le_contravar; lra. }
  assert (Iq : isf (fdiv (fneg u) SQRT_2) (rnd64 (- x / s))).
  { pose proof (fneg_R _ _ I) as [F1 E1]. destruct Is as [F2 E2]. pose proof (Bdiv_correct 53 1024 f64_prec f64_emax mode_NE (fneg u) SQRT_2) as C.
    rewrite E1, E2 in C. specialize (C ltac:(lra)). rewrite Rlt_bool_true in C.
    - destruct C as (C1 & C2 & _). split; [|exact C1]. change (fdiv (fneg u) SQRT_2) with (Bdiv mode_NE (fneg u) SQRT_2). rewrite C2. exact F1.
    - apply Rle_lt_trans with x; [|pose proof (isf_bound _ _ I) as M; rewrite Rabs_pos_eq in M; lra].
      pose proof valid64. apply abs_round_le_generic; [typeclasses eauto|typeclasses eauto|exact (isf_fmt _ _ I)|].
      unfold Rdiv. rewrite Rabs_mult, Rabs_Ropp, (Rabs_pos_eq x), (Rabs_pos_eq (/ s)) by lra. nra. }
  assert (Q : rnd64 (- x / s) <= - (60)).
  { apply rnd_le_fmt; [apply (isf_fmt (fneg (fofZ 60))); apply fneg_R, fofZ_R; lia|]. unfold Rdiv. nra. }
  destruct Iq as [Fq Eq]. destruct (acc_erfc L A _ Fq) as [[F1 E1] U]. rewrite Eq in E1. set (q := rnd64 (- x / s)) in *.
  set (v := B2R (l_erfc L (fdiv (fneg u) SQRT_2))) in *.
  assert (V : 2 - 4 * e15 <= v).
  { assert (X : 2 - e20 <= erfc q).
    { replace q with (- (- q)) by ring. rewrite erfc_neg. pose proof (erfc_le 60 (- q) ltac:(lra)). pose proof (erfc_le_gauss 60 ltac:(lra)).
      assert (gauss 60 <= e20) by (unfold gauss, e20; interval). lra. }
    pose proof (erfc_bounds q). pose proof bpow_m50. pose proof bpow_m1070. pose proof (bpow_gt_0 radix2 (-50)). unfold e15, e20 in *.
    unfold Rabs in E1. destruct (Rcase_abs (v - erfc q)); nra. }
  exists (rnd64 (1 / 2 * v)). split.
  - apply fmul_R; [apply half_R|split; [exact F1|reflexivity]|]. apply small_le. rewrite Rabs_pos_eq; unfold e15 in V; lra.
  - split; [|apply rnd_le_fmt; [apply fmt_1|lra]]. pose proof (rnd_err (1 / 2 * v)) as R. rewrite (Rabs_pos_eq (1 / 2 * v)) in R by (unfold e15 in V; lra).
    unfold e15, e20 in *. unfold Rabs in R. destruct (Rcase_abs (rnd64 (1 / 2 * v) - 1 / 2 * v)); lra.
Qed.
Lemma absorb y p : format64 y -> 99 <= y -> 0 <= p <= / 100000000000000000 -> rnd64 (y + p) = y.
Proof.
  intros F Y P. apply Rle_antisym; [|apply rnd_ge; [exact F|lra]].
  pose proof valid64 as V. apply (round_N_le_midp radix2 fexp64 _ y (y + p) F). 
  rewrite succ_eq_pos by lra.
  assert (U : 2 * p < ulp radix2 fexp64 y).
  { unfold ulp. rewrite Req_bool_false by lra.
    assert (U : bpow radix2 (-46) <= bpow radix2 (cexp radix2 fexp64 y)).
    { apply bpow_le. unfold cexp. assert (7 <= mag radix2 y)%Z.
      { apply mag_ge_bpow. rewrite Rabs_pos_eq by lra. change (bpow radix2 (7 - 1)) with 64. lra. }
      unfold SpecFloat.fexp, SpecFloat.emin. lia. }
    change (bpow radix2 (-46)) with (/ IZR (2 ^ 46)) in U. change (2 ^ 46)%Z with 70368744177664%Z in U. lra. }
  lra.
Qed.
Lemma ln_max r : 99 <= r < bpow radix2 1024 -> Rabs (ln r) <= 1000.
Proof.
  intros [A1 A2]. rewrite Rabs_pos_eq.
  - apply Rle_trans with (ln (bpow radix2 1024)); [apply Rcomplements.ln_le; lra|]. rewrite bpow_exp, ln_exp. change (IZR radix2) with 2. interval.
  - rewrite <- ln_1. apply Rcomplements.ln_le; lra.
Qed.
Lemma acc_large u x : isf u x -> 100 < x -> near (log_ei_helper_f L u) (ln (impr x)) (/ 1000000).
Proof.
  intros I B. unfold log_ei_helper_f.
  assert (G : fgt u (fneg fone) = true).
  { unfold fgt, fone. change (fmake 1 0) with (fofZ 1). apply (flt_of_R _ _ _ _ (fneg_R _ _ (fofZ_R 1 ltac:(lia))) I). lra. }
  rewrite G. destruct (tiny_pdf u x I B) as (p & Ip & P). destruct (cdf_one u x I B) as (c & Ic & C).
  pose proof (isf_fmt _ _ I) as Fx. pose proof (isf_bound _ _ I) as Bx.
  assert (M : isf (fmul u (norm_cdf_f L u)) (rnd64 (x * c))).
  { destruct I as [F1 E1], Ic as [F2 E2]. pose proof (Bmult_correct 53 1024 f64_prec f64_emax mode_NE u (norm_cdf_f L u)) as Q. rewrite E1, E2 in Q.
    rewrite (no_overflow (x * c) x) in Q; [|exact Fx|exact Bx|nra]. destruct Q as (Q1 & Q2 & _). split; [|exact Q1].
    change (fmul u (norm_cdf_f L u)) with (Bmult mode_NE u (norm_cdf_f L u)). rewrite Q2, F1, F2. reflexivity. }
  set (y := rnd64 (x * c)) in *.
  assert (Y : Rabs (y - x) <= 2 * / 100000000000000 * x /\ y <= x).
  { split; [|apply rnd_le_fmt; [exact Fx|nra]]. pose proof (rnd_err (x * c)) as Q. fold y in Q. rewrite (Rabs_pos_eq (x * c)) in Q by nra.
    replace (y - x) with ((y - x * c) + (x * c - x)) by ring. eapply Rle_trans; [apply Rabs_triang|].
    assert (Rabs (x * c - x) <= / 100000000000000 * x) by (apply Rabs_le; nra). unfold e15, e20 in Q. nra. }
  assert (Y1 : 99 <= y). { destruct Y as [Y _]. unfold Rabs in Y. destruct (Rcase_abs (y - x)); lra. }
  assert (S : isf (fadd (norm_pdf_f L u) (fmul u (norm_cdf_f L u))) y).
  { destruct Ip as [F1 E1]. pose proof M as [F2 E2]. pose proof (Bplus_correct 53 1024 f64_prec f64_emax mode_NE _ _ F1 F2) as Q.
    rewrite E1, E2, (Rplus_comm p), (absorb y p (isf_fmt _ _ M) Y1 P) in Q. rewrite Rlt_bool_true in Q by exact (isf_bound _ _ M).
    destruct Q as (Q1 & Q2 & _). split; [exact Q2|exact Q1]. }
  assert (IM : x <= impr x <= x + / 100000000000).
  { rewrite impr_sym. pose proof (impr_pos (- x)). assert (impr (- x) <= norm_pdf x).
    { unfold impr. rewrite norm_pdf_even. pose proof (norm_cdf_bounds (- x)). nra. }
    assert (norm_pdf x <= / 100000000000). { apply Rle_trans with (exp (- / 2 * x * x)); [apply norm_pdf_le|].
      apply Rle_trans with (exp (- (100))); [apply exp_le; nra|interval]. } lra. }
  assert (N : near (fadd (norm_pdf_f L u) (fmul u (norm_cdf_f L u))) (impr x) (/ 10000000000 * impr x)).
  { exists y. split; [exact S|]. destruct Y as [Y _]. replace (y - impr x) with ((y - x) + (x - impr x)) by ring.
    eapply Rle_trans; [apply Rabs_triang|]. assert (Rabs (x - impr x) <= / 100000000000) by (apply Rabs_le; lra). lra. }
  eapply near_weaken; [apply (near_log _ _ _ N ltac:(lra) ltac:(lra))|].
  assert (LL : Rabs (ln (impr x)) <= 1001).
  { assert (0 <= ln (impr x)) by (rewrite <- ln_1; apply Rcomplements.ln_le; lra). rewrite Rabs_pos_eq by assumption.
    apply Rle_trans with (ln (2 * x)); [apply Rcomplements.ln_le; lra|]. rewrite ln_mult by lra.
    rewrite Rabs_pos_eq in Bx by lra. pose proof (ln_max x ltac:(lra)). pose proof (Rle_abs (ln x)). assert (ln 2 <= 1) by interval. lra. }
  unfold e15. lra.
Qed.

(** ** Moderate degradations *)
Lemma c_1070 : bpow radix2 (-1070) <= e15 * (exp (- (685)) * / 100).
Proof.
  rewrite bpow_exp. change (IZR radix2) with 2. apply Rle_trans with (exp (- (685) + - (50))).
  - apply exp_le. assert (69 / 100 <= ln 2) by interval. lra.
  - rewrite exp_plus. pose proof (exp_pos (- (685))). assert (exp (- (50)) <= e15 * / 100) by (unfold e15; interval). nra.
Qed.
Lemma sqrt_pi_half : sqrt (PI / 2) = sqrt (2 * PI) / 2.
Proof.
  pose proof PI_RGT_0. replace (2 * PI) with (4 * (PI / 2)) by field. rewrite sqrt_mult by lra.
  replace (sqrt 4) with 2; [field|]. symmetry. replace 4 with (2 * 2) by ring. apply sqrt_square. lra.
Qed.
Section Degr.
Context (u : f64) (x : R) (I : isf u x) (X : - (37) <= x <= - (1)).
Let v0 := - / sqrt 2 * x.
Let k := - x * norm_cdf x / norm_pdf x.
Lemma v0_eq : - x / sqrt 2 = v0. Proof. unfold v0. field. pose proof sqrt2_num. lra. Qed.
Lemma v0_sq : v0 * v0 = / 2 * x * x.
Proof. unfold v0. replace (- / sqrt 2 * x * (- / sqrt 2 * x)) with (x * x / (sqrt 2 * sqrt 2)) by (field; pose proof sqrt2_num; lra). rewrite sqrt2_sq. field. Qed.
Lemma v0_bounds : 6 / 10 <= v0 <= 27.
Proof.
  pose proof sqrt2_num. unfold v0. assert (B : / (15 / 10) <= / sqrt 2 <= / (14 / 10)) by (split; apply Rinv_le_contravar; lra). split; nra.
Qed.
Lemma k_bounds : / 2 <= k <= 1 - / 1372.
Proof.
  pose proof (mills_upper (- x) ltac:(lra)) as U. pose proof (mills_lower (- x) ltac:(lra)) as Lw. rewrite Ropp_involutive, norm_pdf_even in U, Lw.
  pose proof (norm_pdf_pos x) as P. unfold k. split.
  - apply Rmult_le_reg_r with (norm_pdf x); [exact P|]. unfold Rdiv. rewrite Rmult_assoc, Rinv_l, Rmult_1_r by lra.
    apply Rle_trans with (norm_pdf x * (- x * - x / (1 + - x * - x))); [|exact Lw].
    assert (/ 2 <= - x * - x / (1 + - x * - x)); [|nra].
    apply Rmult_le_reg_r with (1 + - x * - x); [nra|]. unfold Rdiv. rewrite (Rmult_assoc (- x * - x)), Rinv_l by nra. nra.
  - apply Rmult_le_reg_r with (norm_pdf x); [exact P|]. unfold Rdiv. rewrite (Rmult_assoc (- x * norm_cdf x)), Rinv_l, Rmult_1_r by lra.
    apply Rle_trans with (norm_pdf x * (1 - / (- x * - x + 3))); [exact U|].
    assert (/ 1372 <= / (- x * - x + 3)); [|nra]. apply Rinv_le_contravar; nra.
Qed.
Lemma impr_k : impr x = norm_pdf x * (1 - k).
Proof. unfold impr, k. pose proof (norm_pdf_pos x). field. lra. Qed.
Let m0 := exp (v0 * v0) * erfc v0.
Lemma m0_k : m0 * - x * sqrt (PI / 2) = k.
Proof.
  unfold k, m0, norm_cdf, norm_pdf. rewrite v0_eq, v0_sq, sqrt_pi_half. replace (- / 2 * x * x) with (- (/ 2 * x * x)) by ring. rewrite exp_Ropp.
  pose proof (exp_pos (/ 2 * x * x)). pose proof sqrt2pi_num. field. lra.
Qed.
Lemma gauss_v0 : gauss v0 = / exp (v0 * v0). Proof. unfold gauss. apply exp_Ropp. Qed.
Lemma m0_bounds : / 100 <= m0 <= 1 /\ / 4 <= m0 * - x <= 1.
Proof.
  pose proof m0_k as M. pose proof k_bounds as K. pose proof sqrt2pi_num as S. rewrite sqrt_pi_half in M. pose proof v0_bounds.
  assert (Q : / 4 <= m0 * - x <= 1) by nra. split; [|exact Q]. split; [nra|].
  pose proof (erfc_le_gauss v0 ltac:(lra)) as G. rewrite gauss_v0 in G. unfold m0. pose proof (exp_pos (v0 * v0)) as P.
  apply Rmult_le_compat_l with (r := exp (v0 * v0)) in G; [|lra]. rewrite Rinv_r in G by lra. exact G.
Qed.
Lemma erfc_v0_low : gauss v0 * / 100 <= erfc v0.
Proof.
  destruct m0_bounds as [[M _] _]. rewrite gauss_v0. unfold m0 in M. pose proof (exp_pos (v0 * v0)) as P.
  apply Rmult_le_reg_l with (exp (v0 * v0)); [exact P|]. rewrite <- Rmult_assoc, Rinv_r by lra. lra.
Qed.
Lemma near_v : near (fmul (fneg INV_SQRT_2) u) v0 (8 * / 100000000000000).
Proof.
  destruct c_denotes_2pi as (_ & _ & C & _). pose proof sqrt2_num. unfold v0.
  assert (B : 0 < / sqrt 2 <= 1). { split; [apply Rinv_0_lt_compat; lra|]. rewrite <- Rinv_1. apply Rinv_le_contravar; lra. }
  eapply (near_mul _ _ _ _ _ 0 1 37); [apply near_neg, C|apply near_isf, I| | |unfold e15; lra|lra|unfold e15; lra|unfold e15, e20; lra].
  - rewrite Rabs_Ropp, Rabs_pos_eq; lra.
  - apply Rabs_le. lra.
Qed.
Lemma near_erfcx : near (erfcx_f L (fmul (fneg INV_SQRT_2) u)) m0 (46 * / 1000000000000 * m0).
Proof.
  pose proof near_v as V. pose proof v0_bounds as B. unfold erfcx_f. set (a := fmul (fneg INV_SQRT_2) u) in *.
  assert (VV : near (fmul a a) (v0 * v0) (52 * / 10000000000000)).
  { eapply (near_mul _ _ _ _ _ _ 27 27); [exact V|exact V| | |lra|lra|lra|unfold e15, e20; lra]; apply Rabs_le; lra. }
  assert (SQ : / 3 <= v0 * v0 <= 6845 / 10). { split; [nra|]. rewrite v0_sq. nra. }
  pose proof (exp_pos (v0 * v0)) as P. pose proof (erfc_bounds v0) as Pe. pose proof bpow_m50 as E50. pose proof (bpow_gt_0 radix2 (-50)).
  assert (N1 : near (l_exp L (fmul a a)) (exp (v0 * v0)) (12 * / 1000000000000 * exp (v0 * v0))).
  { destruct VV as (r & [F E] & H1). subst r. assert (R : B2R (fmul a a) <= 709) by (unfold Rabs in H1; destruct (Rcase_abs (B2R (fmul a a) - v0 * v0)); lra).
    destruct (acc_exp L A _ F R) as [F1 E1]. exists (B2R (l_exp L (fmul a a))). split; [now split|]. pose proof (exp_near _ _ _ H1 ltac:(lra)) as Q.
    set (er := exp (B2R (fmul a a))) in *. set (e0 := exp (v0 * v0)) in *.
    assert (O : 1 <= e0). { unfold e0. pose proof (exp_ineq1_le (v0 * v0)). lra. }
    assert (K : 0 <= er <= 2 * e0). { split; [left; apply exp_pos|]. unfold Rabs in Q. destruct (Rcase_abs (er - e0)); lra. }
    replace (B2R (l_exp L (fmul a a)) - e0) with ((B2R (l_exp L (fmul a a)) - er) + (er - e0)) by ring. eapply Rle_trans; [apply Rabs_triang|].
    pose proof bpow_m1070. assert (bpow radix2 (-50) * er <= e15 * (2 * e0)) by (apply Rmult_le_compat; lra). unfold e15, e20 in *. lra. }
  assert (N2 : near (l_erfc L a) (erfc v0) (33 * / 1000000000000 * erfc v0)).
  { destruct V as (r & [F E] & H1). destruct (acc_erfc L A a F) as [[F1 E1] _]. rewrite E in E1. exists (B2R (l_erfc L a)). split; [now split|].
    assert (D : Rabs (erfc r - erfc v0) <= 4 * gauss v0 * Rabs (r - v0)).
    { destruct (MVT_gen erfc v0 r (fun t => - (2 / sqrt PI * gauss t))) as (c & C & M).
      - intros t _. apply erfc_derive.
      - intros t _. apply derivable_continuous_pt. eexists. apply is_derive_Reals, erfc_derive.
      - rewrite M, Rabs_mult. apply Rmult_le_compat_r; [apply Rabs_pos|]. rewrite Rabs_Ropp.
        assert (S : 1 <= sqrt PI) by interval.
        assert (0 < / sqrt PI <= 1). { split; [apply Rinv_0_lt_compat; lra|]. rewrite <- Rinv_1. apply Rinv_le_contravar; lra. }
        assert (C' : Rabs (c - v0) <= 8 * / 100000000000000).
        { revert C H1. unfold Rmin, Rmax. destruct (Rle_dec v0 r); intros C H1; unfold Rabs in *; destruct (Rcase_abs (r - v0)), (Rcase_abs (c - v0)); lra. }
        assert (G : 0 < gauss c <= 2 * gauss v0).
        { split; [apply gauss_pos|]. unfold gauss. assert (Q := exp_near (- (c * c)) (- (v0 * v0)) (/ 2)). 
          assert (Z : Rabs (- (c * c) - - (v0 * v0)) <= / 2).
          { replace (- (c * c) - - (v0 * v0)) with (- ((c - v0) * (c + v0))) by ring. rewrite Rabs_Ropp, Rabs_mult.
            assert (Rabs (c + v0) <= 100). { unfold Rabs in *. destruct (Rcase_abs (c - v0)), (Rcase_abs (c + v0)); lra. }
            pose proof (Rabs_pos (c - v0)). pose proof (Rabs_pos (c + v0)). nra. }
          specialize (Q Z ltac:(lra)). unfold Rabs in Q. destruct (Rcase_abs (exp (- (c * c)) - exp (- (v0 * v0)))); lra. }
        rewrite Rabs_pos_eq; [|unfold Rdiv; repeat apply Rmult_le_pos; lra]. unfold Rdiv.
        assert (/ sqrt PI * gauss c <= 1 * (2 * gauss v0)) by (apply Rmult_le_compat; lra). lra. }
    pose proof erfc_v0_low as Lo. pose proof (gauss_pos v0) as Pg. pose proof (Rabs_pos (r - v0)).
    assert (D' : Rabs (erfc r - erfc v0) <= 32 * / 1000000000000 * erfc v0).
    { apply Rle_trans with (4 * gauss v0 * (8 * / 100000000000000)); [eapply Rle_trans; [exact D|]; apply Rmult_le_compat_l; lra|]. lra. }
    assert (K : 0 < erfc r <= 2 * erfc v0). { split; [apply erfc_bounds|]. unfold Rabs in D'. destruct (Rcase_abs (erfc r - erfc v0)); lra. }
    assert (U : bpow radix2 (-1070) <= e15 * erfc v0).
    { eapply Rle_trans; [apply c_1070|]. apply Rmult_le_compat_l; [unfold e15; lra|]. eapply Rle_trans; [|exact Lo]. apply Rmult_le_compat_r; [lra|].
      unfold gauss. apply exp_le. lra. }
    replace (B2R (l_erfc L a) - erfc v0) with ((B2R (l_erfc L a) - erfc r) + (erfc r - erfc v0)) by ring. eapply Rle_trans; [apply Rabs_triang|].
    assert (bpow radix2 (-50) * erfc r <= e15 * (2 * erfc v0)) by (apply Rmult_le_compat; lra). unfold e15 in *. lra. }
  destruct m0_bounds as [[M1 M2] _]. unfold m0 in *. set (e0 := exp (v0 * v0)) in *. set (f0 := erfc v0) in *. set (mm := e0 * f0) in *.
  eapply (near_mul _ _ _ _ _ _ e0 f0); [exact N1|exact N2|rewrite Rabs_pos_eq; lra|rewrite Rabs_pos_eq; lra|lra|lra| |].
  - replace ((e0 + 12 * / 1000000000000 * e0) * (f0 + 33 * / 1000000000000 * f0)) with ((1 + 12 * / 1000000000000) * (1 + 33 * / 1000000000000) * mm) by (unfold mm; ring). lra.
  - replace ((e0 + 12 * / 1000000000000 * e0) * (f0 + 33 * / 1000000000000 * f0)) with ((1 + 12 * / 1000000000000) * (1 + 33 * / 1000000000000) * mm) by (unfold mm; ring).
    replace (e0 * (33 * / 1000000000000 * f0) + f0 * (12 * / 1000000000000 * e0) + 12 * / 1000000000000 * e0 * (33 * / 1000000000000 * f0))
      with ((33 * / 1000000000000 + 12 * / 1000000000000 + 12 * / 1000000000000 * (33 * / 1000000000000)) * mm) by (unfold mm; ring).
    unfold e15, e20. lra.
Qed.
Lemma near_w : near (fadd (l_log L (fmul (erfcx_f L (fmul (fneg INV_SQRT_2) u)) (fabs u))) LOG_PI_OVER_2_ALL_OVER_2) (ln k) (/ 10000000000).
Proof.
  destruct m0_bounds as [M1 M2]. pose proof k_bounds as K. destruct c_denotes_2pi as (_ & _ & _ & _ & C).
  assert (N : near (fmul (erfcx_f L (fmul (fneg INV_SQRT_2) u)) (fabs u)) (m0 * - x) (47 * / 1000000000000 * (m0 * - x))).
  { assert (Ia : isf (fabs u) (- x)). { rewrite <- (Rabs_left1 x) by lra. now apply fabs_R. }
    eapply (near_mul _ _ _ _ _ 0 m0 (- x)); [exact near_erfcx|apply near_isf, Ia|rewrite Rabs_pos_eq; lra|rewrite Rabs_pos_eq; lra|lra|lra| |].
    - replace ((m0 + 46 * / 1000000000000 * m0) * (- x + 0)) with ((1 + 46 * / 1000000000000) * (m0 * - x)) by ring. lra.
    - replace ((m0 + 46 * / 1000000000000 * m0) * (- x + 0)) with ((1 + 46 * / 1000000000000) * (m0 * - x)) by ring.
      replace (m0 * 0 + - x * (46 * / 1000000000000 * m0) + 46 * / 1000000000000 * m0 * 0) with (46 * / 1000000000000 * (m0 * - x)) by ring.
      unfold e15, e20. lra. }
  pose proof (near_log _ _ _ N ltac:(lra) ltac:(lra)) as Q.
  assert (B : Rabs (ln (m0 * - x)) <= 3).
  { pose proof (ln_abs (m0 * - x) (/ 4) 1 ltac:(lra) ltac:(lra)) as Z. rewrite ln_1, Rabs_R0 in Z. assert (Rabs (ln (/ 4)) <= 3) by interval. lra. }
  assert (E : ln k = ln (m0 * - x) + ln (PI / 2) / 2).
  { rewrite <- m0_k. assert (0 < PI / 2) by (pose proof PI_RGT_0; lra). rewrite ln_mult; [|lra|now apply sqrt_lt_R0]. f_equal.
    rewrite <- (sqrt_sqrt (PI / 2)) at 2 by lra. rewrite ln_mult by (now apply sqrt_lt_R0). field. }
  rewrite E. eapply (near_add _ _ _ _ _ _ 1); [exact Q|exact C| |unfold e15; lra|unfold e15, e20; lra].
  rewrite <- E. pose proof (ln_abs k (/ 2) 1 ltac:(lra) ltac:(lra)) as Z. rewrite ln_1, Rabs_R0 in Z. assert (Rabs (ln (/ 2)) <= 1) by interval. lra.
Qed.
Lemma near_log1mexp : near (log1mexp_f L (fadd (l_log L (fmul (erfcx_f L (fmul (fneg INV_SQRT_2) u)) (fabs u))) LOG_PI_OVER_2_ALL_OVER_2))
  (ln (1 - k)) (9 * / 10000000).
Proof.
  pose proof near_w as W. pose proof k_bounds as K. set (w := fadd _ LOG_PI_OVER_2_ALL_OVER_2) in *. unfold log1mexp_f.
  assert (B : Rabs (ln (1 - k)) <= 9).
  { pose proof (ln_abs (1 - k) (/ 1372) 1 ltac:(lra) ltac:(lra)) as Z. rewrite ln_1, Rabs_R0 in Z. assert (Rabs (ln (/ 1372)) <= 9) by interval. lra. }
  assert (Wk : - (7 / 10) <= ln k <= - / 1372).
  { split.
    - apply Rle_trans with (ln (/ 2)); [interval|apply Rcomplements.ln_le; lra].
    - pose proof (exp_ineq1_le (ln k)) as Q. rewrite exp_ln in Q by lra. lra. }
  destruct (fgt w _).
  - assert (N : near (fneg (l_expm1 L w)) (1 - k) (3 * / 10000000 * (1 - k))).
    { destruct W as (r & [F E] & H). destruct (acc_expm1 L A w F) as [F1 E1].
      - rewrite E. unfold Rabs in H. destruct (Rcase_abs (r - ln k)); lra.
      - rewrite E in E1. apply near_weaken with (203 * / 1000000000000); [|lra]. replace (1 - k) with (- (k - 1)) by ring. apply near_neg.
        exists (B2R (l_expm1 L w)). split; [now split|]. pose proof (exp_near _ _ _ H ltac:(lra)) as Q. rewrite (exp_ln k) in Q by lra.
        replace (B2R (l_expm1 L w) - (k - 1)) with ((B2R (l_expm1 L w) - (exp r - 1)) + (exp r - k)) by ring. eapply Rle_trans; [apply Rabs_triang|].
        pose proof bpow_m50. pose proof (bpow_gt_0 radix2 (-50)). pose proof bpow_m1070. pose proof (exp_pos r). unfold e15, e20 in *.
        assert (bpow radix2 (-50) * (1 - exp r) <= / 1000000000000000) by nra. nra. }
    eapply near_weaken; [apply (near_log _ _ _ N ltac:(lra) ltac:(lra))|]. unfold e15. lra.
  - pose proof (near_exp _ _ _ W ltac:(lra) ltac:(lra)) as N. rewrite (exp_ln k) in N by lra. apply near_neg in N.
    destruct N as (r & [F E] & H). assert (H' : Rabs (1 + r - (1 - k)) <= 42 * / 100000000 * (1 - k)).
    { replace (1 + r - (1 - k)) with (r - - k) by ring. unfold e15 in H. lra. }
    destruct (ln_near (1 + r) (1 - k) (42 * / 100000000) ltac:(lra) H' ltac:(lra)) as [R Q].
    destruct (acc_log1p L A (fneg (l_exp L w)) F) as [F1 E1]; [rewrite E; lra|]. rewrite E in E1.
    exists (B2R (l_log1p L (fneg (l_exp L w)))). split; [now split|].
    replace (B2R (l_log1p L (fneg (l_exp L w))) - ln (1 - k)) with ((B2R (l_log1p L (fneg (l_exp L w))) - ln (1 + r)) + (ln (1 + r) - ln (1 - k))) by ring.
    eapply Rle_trans; [apply Rabs_triang|]. pose proof bpow_m50. pose proof (bpow_gt_0 radix2 (-50)).
    assert (Rabs (ln (1 + r)) <= 10). { replace (ln (1 + r)) with (ln (1 - k) + (ln (1 + r) - ln (1 - k))) by ring. eapply Rle_trans; [apply Rabs_triang|]. lra. }
    pose proof (Rabs_pos (ln (1 + r))). assert (bpow radix2 (-50) * (1 + Rabs (ln (1 + r))) <= e15 * 11) by (apply Rmult_le_compat; lra). unfold e15 in *. lra.
Qed.
Lemma ln_pdf y : ln (norm_pdf y) = - / 2 * y * y - ln (2 * PI) / 2.
Proof.
  unfold norm_pdf. pose proof sqrt_2PI_pos as S. unfold Rdiv at 1. rewrite ln_mult; [|apply exp_pos|now apply Rinv_0_lt_compat]. rewrite ln_exp, ln_Rinv by assumption.
  assert (0 < 2 * PI) by (pose proof PI_RGT_0; lra).
  assert (E : ln (2 * PI) = ln (sqrt (2 * PI)) + ln (sqrt (2 * PI))) by (rewrite <- ln_mult by assumption; rewrite sqrt_sqrt by lra; reflexivity).
  rewrite E. field.
Qed.
Lemma acc_degraded : near (log_ei_helper_f L u) (ln (impr x)) (/ 1000000).
Proof.
  unfold log_ei_helper_f. assert (G : fgt u (fneg fone) = false).
  { pose proof I as [Fu Eu]. unfold fgt, flt. destruct (fneg_R _ _ (fofZ_R 1 ltac:(lia))) as [F1 E1]. unfold fone. change (fmake 1 0) with (fofZ 1).
    rewrite Bltb_correct by assumption. rewrite E1, Eu. apply Rlt_bool_false. lra. }
  rewrite G. cbv zeta. assert (G2 : fgt u (fneg INV_SQRT_EPSILON) = true).
  { apply (flt_of_R _ _ _ _ (fneg_R _ _ (fofZ_R 1000000 ltac:(lia))) I). lra. }
  rewrite G2. pose proof k_bounds as K. pose proof (norm_pdf_pos x). rewrite impr_k, ln_mult by lra.
  destruct c_denotes_2pi as (_ & _ & _ & C & _). assert (C2 : 0 <= ln (2 * PI) / 2 <= 1) by (split; interval).
  assert (B : Rabs (ln (1 - k)) <= 9).
  { pose proof (ln_abs (1 - k) (/ 1372) 1 ltac:(lra) ltac:(lra)) as Z. rewrite ln_1, Rabs_R0 in Z. assert (Rabs (ln (/ 1372)) <= 9) by interval. lra. }
  assert (Bp : Rabs (ln (norm_pdf x)) <= 700).
  { rewrite ln_pdf. apply Rabs_le. split; nra. }
  eapply (near_add _ _ _ _ _ _ 709); [|exact near_log1mexp| |unfold e15|unfold e15, e20].
  - rewrite ln_pdf. eapply (near_sub _ _ _ _ _ _ 700 (3 * / 100000000000)); [apply (near_square u x I); apply Rabs_le; lra|exact C|rewrite <- ln_pdf; exact Bp|unfold e15; lra|unfold e15, e20; lra].
  - eapply Rle_trans; [apply Rabs_triang|]. lra.
  - lra.
  - lra.
Qed.
End Degr.

(** ** The asymptotic range *)
Lemma far_real x : x <= - (1000000) -> - 3 / (x * x) <= ln (impr x) - ((- / 2 * x * x - ln (2 * PI) / 2) + -2 * ln (- x)) <= 0.
Proof.
  intros X. pose proof (mills_upper (- x) ltac:(lra)) as U. pose proof (mills_lower (- x) ltac:(lra)) as Lw. rewrite Ropp_involutive, norm_pdf_even in U, Lw.
  pose proof (norm_pdf_pos x) as P. set (t := - x) in *. replace (x * x) with (t * t) by (unfold t; ring). rewrite <- ln_pdf.
  assert (T : 1000000 <= t) by (unfold t; lra). assert (T2 : 0 < t * t) by nra.
  assert (E : impr x = norm_pdf x - t * norm_cdf x) by (unfold impr, t; ring).
  assert (I1 : norm_pdf x * / (t * t + 3) <= impr x) by (rewrite E; lra).
  assert (I2 : impr x <= norm_pdf x * / (t * t)).
  { rewrite E. replace (t * t / (1 + t * t)) with (1 - / (1 + t * t)) in Lw by (field; lra).
    assert (/ (1 + t * t) <= / (t * t)) by (apply Rinv_le_contravar; lra). nra. }
  assert (L2 : ln (t * t) = 2 * ln t) by (rewrite ln_mult by lra; ring).
  assert (L3 : ln (t * t + 3) <= 2 * ln t + 3 / (t * t)).
  { replace (t * t + 3) with (t * t * (1 + 3 / (t * t))) by (field; lra). assert (0 < 3 / (t * t)) by (apply Rdiv_lt_0_compat; lra).
    rewrite ln_mult, L2 by lra. pose proof (exp_ineq1_le (3 / (t * t))) as Q. apply Rplus_le_compat_l. rewrite <- (ln_exp (3 / (t * t))) at 2. apply Rcomplements.ln_le; lra. }
  pose proof (impr_pos x) as Ip. split.
  - apply Rcomplements.ln_le in I1; [|apply Rmult_lt_0_compat; [exact P|apply Rinv_0_lt_compat; lra]].
    rewrite ln_mult, ln_Rinv in I1; [|lra|exact P|apply Rinv_0_lt_compat; lra]. replace (- 3 / (t * t)) with (- (3 / (t * t))) by (field; lra). lra.
  - apply Rcomplements.ln_le in I2; [|exact Ip]. rewrite ln_mult, ln_Rinv in I2; [|lra|exact P|apply Rinv_0_lt_compat; lra]. lra.
Qed.
Lemma far_derive x : x <= - (1000000) -> - x <= norm_cdf x / impr x <= - x + 2 / - x.
Proof.
  intros X. pose proof (mills_upper (- x) ltac:(lra)) as U. pose proof (mills_lower (- x) ltac:(lra)) as Lw. rewrite Ropp_involutive, norm_pdf_even in U, Lw.
  pose proof (norm_pdf_pos x) as P. pose proof (impr_pos x) as Ip. set (t := - x) in *. assert (T : 1000000 <= t) by (unfold t; lra).
  assert (E : impr x = norm_pdf x - t * norm_cdf x) by (unfold impr, t; ring). set (c := norm_cdf x) in *. set (p := norm_pdf x) in *.
  assert (T2 : 0 < t * t) by nra.
  assert (U' : t * c * (t * t + 3) <= p * (t * t + 2)).
  { apply Rmult_le_compat_r with (r := t * t + 3) in U; [|lra]. replace (p * (1 - / (t * t + 3)) * (t * t + 3)) with (p * (t * t + 2)) in U by (field; lra). exact U. }
  assert (L' : p * (t * t) <= t * c * (1 + t * t)).
  { apply Rmult_le_compat_r with (r := 1 + t * t) in Lw; [|lra]. replace (p * (t * t / (1 + t * t)) * (1 + t * t)) with (p * (t * t)) in Lw by (field; lra). exact Lw. }
  split.
  - apply Rmult_le_reg_r with (impr x); [exact Ip|]. unfold Rdiv. rewrite (Rmult_assoc c), Rinv_l, Rmult_1_r by lra. rewrite E.
    apply Rmult_le_reg_l with t; [lra|]. nra.
  - apply Rmult_le_reg_r with (impr x); [exact Ip|]. unfold Rdiv at 1. rewrite (Rmult_assoc c), Rinv_l, Rmult_1_r by lra. rewrite E.
    apply Rmult_le_reg_l with t; [lra|]. replace (t * ((t + 2 / t) * (p - t * c))) with ((t * t + 2) * (p - t * c)) by (field; lra). nra.
Qed.
Lemma acc_far u x : isf u x -> - bpow radix2 500 <= x <= - (1000000) -> near (log_ei_helper_f L u) (ln (impr x)) (x * x * / 100000000000000).
Proof.
  intros I X. pose proof (far_real x ltac:(lra)) as FR. unfold log_ei_helper_f.
  assert (G : fgt u (fneg fone) = false).
  { pose proof I as [Fu Eu]. unfold fgt, flt. destruct (fneg_R _ _ (fofZ_R 1 ltac:(lia))) as [F1 E1]. unfold fone. change (fmake 1 0) with (fofZ 1).
    rewrite Bltb_correct by assumption. rewrite E1, Eu. apply Rlt_bool_false. lra. }
  assert (G2 : fgt u (fneg INV_SQRT_EPSILON) = false).
  { pose proof I as [Fu Eu]. unfold fgt, flt. destruct (fneg_R _ _ (fofZ_R 1000000 ltac:(lia))) as [F1 E1]. unfold INV_SQRT_EPSILON.
    rewrite Bltb_correct by assumption. rewrite E1, Eu. apply Rlt_bool_false. lra. }
  rewrite G, G2. cbv zeta. set (t := - x) in *. assert (T : 1000000 <= t <= bpow radix2 500) by (unfold t; lra).
  assert (XX : x * x = t * t) by (unfold t; ring). rewrite XX in *. set (S := t * t) in *. assert (S0 : 1000000000000 <= S) by (unfold S; nra).
  assert (SB : S <= bpow radix2 1000). { unfold S. change 1000%Z with (500 + 500)%Z. rewrite bpow_plus. apply Rmult_le_compat; lra. }
  assert (SM : forall z, Rabs z <= 8 * S -> small z).
  { intros z Z. unfold small. apply Rle_trans with (8 * bpow radix2 1000); [lra|]. change 8 with (bpow radix2 3). rewrite <- bpow_plus. apply bpow_le. lia. }
  assert (tS : t <= S) by (unfold S; nra).
  (* u/2 *)
  assert (I1 : isf (fmul (fneg half) u) (rnd64 (- (1 / 2) * x))) by (apply fmul_R; [apply fneg_R, half_R|exact I|apply SM; apply Rabs_le; unfold t in *; lra]).
  pose proof (rnd_err (- (1 / 2) * x)) as R1. set (r1 := rnd64 (- (1 / 2) * x)) in *.
  rewrite (Rabs_pos_eq (- (1 / 2) * x)) in R1 by (unfold t in *; lra). replace (- (1 / 2) * x) with (t / 2) in R1 by (unfold t; field).
  assert (B1 : Rabs (r1 * x - - (S / 2)) <= S * e15).
  { replace (r1 * x - - (S / 2)) with (- ((r1 - t / 2) * t)) by (unfold S, t; field). rewrite Rabs_Ropp, Rabs_mult, (Rabs_pos_eq t) by lra.
    apply Rmult_le_compat_r with (r := t) in R1; [|lra]. eapply Rle_trans; [exact R1|]. unfold S, e15, e20. nra. }
  assert (I2 : isf (fmul (fmul (fneg half) u) u) (rnd64 (r1 * x))).
  { apply fmul_R; [exact I1|exact I|]. apply SM. unfold e15 in B1. apply Rabs_le. unfold Rabs in B1. destruct (Rcase_abs (r1 * x - - (S / 2))); lra. }
  pose proof (rnd_err (r1 * x)) as R2. set (r2 := rnd64 (r1 * x)) in *.
  assert (Q2 : Rabs (r1 * x) <= S) by (apply Rabs_le; unfold e15 in B1; unfold Rabs in B1; destruct (Rcase_abs (r1 * x - - (S / 2))); lra).
  assert (B2 : Rabs (r2 - - (S / 2)) <= 3 * S * e15).
  { replace (r2 - - (S / 2)) with ((r2 - r1 * x) + (r1 * x - - (S / 2))) by ring. eapply Rle_trans; [apply Rabs_triang|]. unfold e15, e20 in *. lra. }
  destruct c_denotes_2pi as (_ & _ & _ & (c & Ic & C) & _). assert (C2 : 0 <= ln (2 * PI) / 2 <= 1) by (split; interval). set (c0 := ln (2 * PI) / 2) in *.
  assert (B3 : Rabs (r2 - c - (- (S / 2) - c0)) <= 4 * S * e15).
  { replace (r2 - c - (- (S / 2) - c0)) with ((r2 - - (S / 2)) + - (c - c0)) by ring. eapply Rle_trans; [apply Rabs_triang|]. rewrite Rabs_Ropp. unfold e15 in *. lra. }
  assert (Q3 : Rabs (r2 - c) <= S) by (apply Rabs_le; unfold e15 in B3; unfold Rabs in B3; destruct (Rcase_abs (r2 - c - (- (S / 2) - c0))); lra).
  assert (I3 : isf (fsub (fmul (fmul (fneg half) u) u) LOG_2PI_OVER_2) (rnd64 (r2 - c))) by (apply fsub_R; [exact I2|exact Ic|apply SM; lra]).
  pose proof (rnd_err (r2 - c)) as R3. set (r3 := rnd64 (r2 - c)) in *.
  (* the logarithm *)
  assert (Ia : isf (fabs u) t). { unfold t. rewrite <- (Rabs_left1 x) by lra. now apply fabs_R. }
  destruct Ia as [Fa Ea]. destruct (acc_log L A (fabs u) Fa ltac:(lra)) as [Fl El]. rewrite Ea in El. set (l := B2R (l_log L (fabs u))) in *.
  assert (Lt : 0 <= ln t <= 1000).
  { split; [rewrite <- ln_1; apply Rcomplements.ln_le; lra|]. apply Rle_trans with (ln (bpow radix2 500)); [apply Rcomplements.ln_le; lra|].
    rewrite bpow_exp, ln_exp. change (IZR radix2) with 2. interval. }
  rewrite (Rabs_pos_eq (ln t)) in El by lra.
  assert (Bl : Rabs (l - ln t) <= 1001 * e15).
  { eapply Rle_trans; [exact El|]. rewrite (Rmult_comm 1001). apply Rmult_le_compat; [apply bpow_ge_0|lra|apply bpow_m50|lra]. }
  assert (I4 : isf (fmul (fneg (fofZ 2)) (l_log L (fabs u))) (rnd64 (- (2) * l))).
  { apply fmul_R; [apply fneg_R, fofZ_R; lia|split; [exact Fl|reflexivity]|]. apply SM. unfold e15 in Bl. apply Rabs_le. unfold Rabs in Bl. destruct (Rcase_abs (l - ln t)); lra. }
  pose proof (rnd_err (- (2) * l)) as R4. set (r4 := rnd64 (- (2) * l)) in *.
  assert (Q4 : Rabs (- (2) * l) <= 3000) by (apply Rabs_le; unfold e15 in Bl; unfold Rabs in Bl; destruct (Rcase_abs (l - ln t)); lra).
  assert (B4 : Rabs (r4 - -2 * ln t) <= 6000 * e15).
  { replace (r4 - -2 * ln t) with ((r4 - - (2) * l) + - (2) * (l - ln t)) by ring. eapply Rle_trans; [apply Rabs_triang|].
    rewrite (Rabs_mult (- (2))), (Rabs_Ropp 2), (Rabs_pos_eq 2) by lra. unfold e15, e20 in *. lra. }
  (* the sum *)
  assert (B5 : Rabs (r3 + r4 - ((- (S / 2) - c0) + -2 * ln t)) <= 6 * S * e15).
  { replace (r3 + r4 - ((- (S / 2) - c0) + -2 * ln t)) with ((r3 - (r2 - c)) + (r2 - c - (- (S / 2) - c0)) + (r4 - -2 * ln t)) by ring.
    eapply Rle_trans; [apply Rabs_triang|]. eapply Rle_trans; [apply Rplus_le_compat_r, Rabs_triang|]. unfold e15, e20 in *. lra. }
  assert (Q5 : Rabs (r3 + r4) <= S) by (apply Rabs_le; unfold e15 in B5; unfold Rabs in B5; destruct (Rcase_abs (r3 + r4 - (- (S / 2) - c0 + -2 * ln t))); lra).
  exists (rnd64 (r3 + r4)). split; [apply fadd_R; [exact I3|exact I4|apply SM; lra]|].
  pose proof (rnd_err (r3 + r4)) as R5. 
  assert (F' : Rabs ((- (S / 2) - c0) + -2 * ln t - ln (impr x)) <= e15 * S).
  { assert (0 <= 3 / S <= 3 * / 1000000000000). { split; [apply Rlt_le, Rdiv_lt_0_compat; lra|]. unfold Rdiv. apply Rmult_le_compat_l; [lra|]. apply Rinv_le_contravar; lra. }
    assert (EQ : - / 2 * x * x = - (S / 2)) by (unfold S, t; field). rewrite EQ in FR. replace (- 3 / S) with (- (3 / S)) in FR by (field; lra).
    apply Rabs_le. unfold e15. lra. }
  replace (rnd64 (r3 + r4) - ln (impr x)) with ((rnd64 (r3 + r4) - (r3 + r4)) + (r3 + r4 - ((- (S / 2) - c0) + -2 * ln t)) + ((- (S / 2) - c0) + -2 * ln t - ln (impr x))) by ring.
  eapply Rle_trans; [apply Rabs_triang|]. eapply Rle_trans; [apply Rplus_le_compat_r, Rabs_triang|]. unfold e15, e20 in *. lra.
Qed.
End Acc.
