(** Bounds on the tail of the normal distribution, and the logarithm of the expected improvement of a standardized variable. *)
From Coq Require Import Reals Lra Lia.
From Coquelicot Require Import Coquelicot.
From Verif Require Import Normal.
Local Open Scope R_scope.

(** A decreasing function whose negative part vanishes at infinity is nonnegative. *)
Lemma decr_nonneg (f d : R -> R) t : 0 < t ->
  (forall T, t <= T -> is_derive f T (d T) /\ d T <= 0) -> (forall T, t <= T -> - exp (- / 2 * T * T) <= f T) -> 0 <= f t.
Proof.
  intros Ht D B. destruct (Rle_or_lt 0 (f t)) as [|N]; [assumption|exfalso].
  set (a := - f t). assert (A : 0 < a) by (unfold a; lra).
  assert (Ia : 0 < / a) by now apply Rinv_0_lt_compat.
  set (T := t + 2 * / a + 2). assert (T1 : t <= T) by (unfold T; lra).
  assert (L : f T <= f t).
  { destruct (MVT_gen f t T d) as (c & C1 & C2).
    - intros x Hx. rewrite Rmin_left in Hx by assumption. apply D. lra.
    - intros x Hx. rewrite Rmin_left in Hx by assumption. apply derivable_continuous_pt. exists (d x). apply is_derive_Reals, D. lra.
    - rewrite Rmin_left, Rmax_right in C1 by assumption. destruct (D c) as [_ C3]; [lra|]. nra. }
  specialize (B T T1).
  assert (X : exp (- / 2 * T * T) <= / (1 + / 2 * T * T)).
  { replace (- / 2 * T * T) with (- (/ 2 * T * T)) by ring. rewrite exp_Ropp. apply Rinv_le_contravar.
    - assert (0 <= T * T) by nra. lra.
    - apply exp_ineq1_le. }
  assert (Y : / (1 + / 2 * T * T) < a).
  { apply Rmult_lt_reg_l with (/ a); [assumption|]. rewrite (Rinv_l a) by lra.
    assert (P : 0 < 1 + / 2 * T * T) by nra.
    apply Rmult_lt_reg_r with (1 + / 2 * T * T); [assumption|]. rewrite Rmult_assoc, Rinv_l by lra. unfold T. nra. }
  unfold a in Y. lra.
Qed.

Lemma norm_pdf_even t : norm_pdf (- t) = norm_pdf t.
Proof. unfold norm_pdf. f_equal. f_equal. ring. Qed.
Lemma norm_pdf_le t : norm_pdf t <= exp (- / 2 * t * t).
Proof.
  unfold norm_pdf. pose proof (exp_pos (- / 2 * t * t)). apply Rmult_le_reg_r with (sqrt (2 * PI)); [apply sqrt_2PI_pos|].
  unfold Rdiv. rewrite Rmult_assoc, Rinv_l by (pose proof sqrt_2PI_pos; lra).
  assert (1 <= sqrt (2 * PI)). { rewrite <- sqrt_1 at 1. apply sqrt_le_1_alt. pose proof PI2_3_2. unfold PI2 in *. lra. } nra.
Qed.
Lemma tail_derive t : is_derive (fun t => norm_cdf (- t)) t (- norm_pdf t).
Proof.
  evar_last.
  - apply (is_derive_comp norm_cdf (fun t => - t)); [apply norm_cdf_derive|]. auto_derive; [exact I|reflexivity].
  - rewrite norm_pdf_even. unfold scal. cbn. unfold mult. cbn. ring.
Qed.
Lemma mills_upper t : 0 < t -> t * norm_cdf (- t) <= norm_pdf t * (1 - / (t * t + 3)).
Proof.
  intros Ht. set (h := fun t => (t * t + 2) / (t * (t * t + 3))).
  enough (G : 0 <= norm_pdf t * h t - norm_cdf (- t)).
  { assert (E : norm_pdf t * (1 - / (t * t + 3)) = t * (norm_pdf t * h t)) by (unfold h; field; split; nra). rewrite E. nra. }
  apply (decr_nonneg (fun t => norm_pdf t * h t - norm_cdf (- t)) (fun t => - norm_pdf t * (6 / ((t * (t * t + 3)) * (t * (t * t + 3))))) t Ht).
  - intros T HT. assert (P : 0 < T * (T * T + 3)) by (apply Rmult_lt_0_compat; nra). split.
    + evar_last; [apply (is_derive_minus (fun t => norm_pdf t * h t) (fun t => norm_cdf (- t)))|].
      * apply (is_derive_mult norm_pdf h); [apply norm_pdf_derive| |apply Rmult_comm].
        unfold h. auto_derive; [lra|reflexivity].
      * apply tail_derive.
      * unfold h, minus, plus, opp, mult, scal; cbn. unfold mult; cbn. field. split; nra.
    + pose proof (norm_pdf_pos T). assert (0 < 6 / ((T * (T * T + 3)) * (T * (T * T + 3)))) by (apply Rdiv_lt_0_compat; nra). nra.
  - intros T HT. assert (P : 0 < T * (T * T + 3)) by (apply Rmult_lt_0_compat; nra).
    pose proof (norm_pdf_pos T). assert (0 < h T) by (unfold h; apply Rdiv_lt_0_compat; nra).
    assert (Q := norm_cdf_tail (- T) ltac:(lra)). replace (- / 2 * - T * - T) with (- / 2 * T * T) in Q by ring.
    pose proof (exp_pos (- / 2 * T * T)). assert (0 <= norm_pdf T * h T) by (apply Rmult_le_pos; lra). lra.
Qed.
Lemma mills_lower t : 0 < t -> norm_pdf t * (t * t / (1 + t * t)) <= t * norm_cdf (- t).
Proof.
  intros Ht. set (h := fun t => t / (1 + t * t)).
  enough (G : 0 <= norm_cdf (- t) - norm_pdf t * h t).
  { assert (E : norm_pdf t * (t * t / (1 + t * t)) = t * (norm_pdf t * h t)) by (unfold h; field; nra). rewrite E. nra. }
  apply (decr_nonneg (fun t => norm_cdf (- t) - norm_pdf t * h t) (fun t => - norm_pdf t * (2 / ((1 + t * t) * (1 + t * t)))) t Ht).
  - intros T HT. assert (P : 0 < 1 + T * T) by nra. split.
    + evar_last; [apply (is_derive_minus (fun t => norm_cdf (- t)) (fun t => norm_pdf t * h t))|].
      * apply tail_derive.
      * apply (is_derive_mult norm_pdf h); [apply norm_pdf_derive| |apply Rmult_comm].
        unfold h. auto_derive; [lra|reflexivity].
      * unfold h, minus, plus, opp, mult, scal; cbn. unfold mult; cbn. field. lra.
    + pose proof (norm_pdf_pos T). assert (0 < 2 / ((1 + T * T) * (1 + T * T))) by (apply Rdiv_lt_0_compat; nra). nra.
  - intros T HT. pose proof (norm_cdf_bounds (- T)). pose proof (norm_pdf_pos T). pose proof (norm_pdf_le T).
    assert (h T <= 1). { unfold h. apply Rmult_le_reg_r with (1 + T * T); [nra|]. unfold Rdiv. rewrite Rmult_assoc, Rinv_l by nra. nra. } nra.
Qed.
