(** Accuracy of the expected improvement in binary64 arithmetic. *)
From Coq Require Import ZArith Reals Lra Lia Bool.
From Coquelicot Require Import Coquelicot.
From Flocq Require Import Core.Core IEEE754.BinarySingleNaN Relative.
From Interval Require Import Tactic.
From Verif Require Import F64 F64_Round CritF64_Model EiF64_Model Normal LogEi_Real Properties_CritF64 LogEi_Const LogEi_Proofs.
Local Open Scope R_scope.

Lemma dlt_e15 : 0 < dlt <= e15.
Proof.
  pose proof dlt_bounds. assert (uro <= e15); [|lra]. unfold uro. apply Rle_trans with (bpow radix2 (-50)); [apply bpow_le; lia|exact bpow_m50].
Qed.
Lemma c_1022 : bpow radix2 (-1022) <= exp (- (700)).
Proof. rewrite bpow_exp. change (IZR radix2) with 2. apply exp_le. assert (69 / 100 <= ln 2) by interval. lra. Qed.
(** A product, quotient or square root which does not underflow. *)
Lemma rnd_rel y : bpow radix2 (-1022) <= Rabs y -> Rabs (rnd64 y - y) <= e15 * Rabs y.
Proof. intros H. pose proof (rel_err _ H). pose proof dlt_e15. pose proof (Rabs_pos y). nra. Qed.

Section Acc.
Context (L : libm) (A : libm_accurate L).

Section Degr.
Context (u : f64) (x : R) (I : isf u x) (X : - (37) <= x <= - (1)).
Let v0 := - / sqrt 2 * x.
Lemma square_bound : - (685) <= - / 2 * x * x <= 0. Proof. split; nra. Qed.
Lemma pdf_exp : norm_pdf x = exp (- / 2 * x * x) / sqrt (2 * PI). Proof. reflexivity. Qed.
Lemma exp_low : exp (- (685)) <= exp (- / 2 * x * x). Proof. apply exp_le. apply square_bound. Qed.
Lemma num_1022 : bpow radix2 (-1022) <= / 100000 * exp (- (685)).
Proof.
  eapply Rle_trans; [apply c_1022|]. replace (- (700)) with (- (15) + - (685)) by ring. rewrite exp_plus. pose proof (exp_pos (- (685))).
  assert (exp (- (15)) <= / 100000) by interval. nra.
Qed.
Lemma pdf_degr : near (norm_pdf_f L u) (norm_pdf x) (/ 10000000000 * norm_pdf x).
Proof.
  unfold norm_pdf_f. destruct (near_square u x I ltac:(apply Rabs_le; lra)) as (a & [Fa Ea] & Ha). pose proof square_bound as SB.
  set (q := fmul (fmul (fneg half) u) u) in *. assert (a <= 709) by (unfold Rabs in Ha; destruct (Rcase_abs (a - - / 2 * x * x)); lra).
  destruct (acc_exp L A q Fa ltac:(rewrite Ea; assumption)) as [F1 E1]. rewrite Ea in E1. set (v := B2R (l_exp L q)) in *.
  pose proof (exp_near _ _ _ Ha ltac:(lra)) as Q. set (e0 := exp (- / 2 * x * x)) in *. set (er := exp a) in *.
  pose proof exp_low as Lo. fold e0 in Lo. pose proof (exp_pos (- (685))) as P0.
  assert (K : 0 < er <= 2 * e0). { split; [apply exp_pos|]. unfold Rabs in Q. destruct (Rcase_abs (er - e0)); lra. }
  assert (V : Rabs (v - e0) <= 5 * / 100000000000 * e0).
  { replace (v - e0) with ((v - er) + (er - e0)) by ring. eapply Rle_trans; [apply Rabs_triang|]. pose proof c_1070. pose proof bpow_m50. pose proof (bpow_gt_0 radix2 (-50)).
    assert (bpow radix2 (-50) * er <= e15 * (2 * e0)) by (apply Rmult_le_compat; lra). unfold e15 in *. lra. }
  destruct c_denotes_2pi as ((s & Is & S) & _). pose proof sqrt2pi_num as S0. rewrite pdf_exp. fold e0. set (S2 := sqrt (2 * PI)) in *.
  assert (S1 : 24 / 10 <= s <= 27 / 10) by (unfold e15, Rabs in S; destruct (Rcase_abs (s - S2)); lra).
  set (P := e0 / S2). assert (PE : e0 = P * S2) by (unfold P; field; lra). assert (PP : 0 < P) by (unfold P; apply Rdiv_lt_0_compat; lra).
  set (w := v / s). assert (WE : v = w * s) by (unfold w; field; lra).
  assert (W : Rabs (w - P) <= 6 * / 100000000000 * P).
  { apply Rmult_le_reg_r with s; [lra|]. rewrite <- (Rabs_pos_eq s) at 1 by lra. rewrite <- Rabs_mult.
    replace ((w - P) * s) with ((v - e0) + P * (S2 - s)) by (rewrite WE, PE; ring). eapply Rle_trans; [apply Rabs_triang|].
    rewrite Rabs_mult, (Rabs_pos_eq P), (Rabs_minus_sym S2) by lra. assert (P * Rabs (s - S2) <= P * e15) by (apply Rmult_le_compat_l; lra).
    assert (EB : e0 <= P * (26 / 10)) by (rewrite PE; apply Rmult_le_compat_l; lra).
    assert (6 * / 100000000000 * P * (24 / 10) <= 6 * / 100000000000 * P * s) by (apply Rmult_le_compat_l; lra). unfold e15 in *. lra. }
  assert (W1 : P / 2 <= w <= 2 * P) by (unfold Rabs in W; destruct (Rcase_abs (w - P)); lra).
  assert (P3 : exp (- (685)) / 3 <= P). { apply Rmult_le_reg_r with S2; [lra|]. rewrite <- PE. nra. }
  assert (P4 : P <= 1). { apply Rmult_le_reg_r with S2; [lra|]. rewrite <- PE. assert (e0 <= 1) by (unfold e0; rewrite <- exp_0; apply exp_le; lra). lra. }
  exists (rnd64 w). split.
  - apply fdiv_R; [split; [exact F1|reflexivity]|exact Is|lra|]. fold w. apply small_le. rewrite Rabs_pos_eq; lra.
  - pose proof num_1022. pose proof (rnd_rel w) as R. rewrite (Rabs_pos_eq w) in R by lra. specialize (R ltac:(lra)).
    replace (rnd64 w - P) with ((rnd64 w - w) + (w - P)) by ring. eapply Rle_trans; [apply Rabs_triang|]. unfold e15 in R. lra.
Qed.
Lemma near_quot : near (fdiv (fneg u) SQRT_2) v0 (8 * / 100000000000000).
Proof.
  destruct c_denotes_2pi as (_ & C & _). pose proof sqrt2_num. unfold v0. rewrite <- v0_eq.
  eapply (near_div _ _ _ _ 0 _ 37); [apply near_neg, near_isf, I|exact C|rewrite Rabs_Ropp; apply Rabs_le; lra|lra|unfold e15; lra|unfold e15; lra|lra|unfold e15, e20; lra].
Qed.
Lemma erfc_degr a : near a v0 (8 * / 100000000000000) -> near (l_erfc L a) (erfc v0) (33 * / 1000000000000 * erfc v0).
Proof.
  intros V. pose proof (v0_bounds x X) as B. fold v0 in B. pose proof bpow_m50 as E50. pose proof (bpow_gt_0 radix2 (-50)).
  assert (SQ : / 3 <= v0 * v0 <= 6845 / 10). { split; [nra|]. unfold v0. rewrite (v0_sq x). nra. }
  destruct V as (r & [F E] & H1). destruct (acc_erfc L A a F) as [[F1 E1] _]. rewrite E in E1. exists (B2R (l_erfc L a)). split; [now split|].
    assert (D : Rabs (erfc r - erfc v0) <= 4 * gauss v0 * Rabs (r - v0)).
    { destruct (MVT_gen erfc v0 r (fun t => - (2 / sqrt PI * gauss t))) as (c & C & M).
      - intros t _. apply erfc_derive.
      - intros t _. apply derivable_continuous_pt. eexists. apply is_derive_Reals, erfc_derive.
      - rewrite M, Rabs_mult. apply Rmult_le_compat_r; [apply Rabs_pos|]. rewrite Rabs_Ropp.
        assert (S : 1 <= sqrt PI) by interval.
        assert (0 < / sqrt PI <= 1). { split; [apply Rinv_0_lt_compat; lra|]. rewrite <- Rinv_1. apply Rinv_le_contravar; lra. }
        assert (C' : Rabs (c - v0) <= 8 * / 100000000000000).
        { revert C H1. unfold Rmin, Rmax. destruct (Rle_dec v0 r); intros C H1; unfold Rabs in *; destruct (Rcase_abs (r - v0)), (Rcase_abs (c - v0)); lra. }
        assert (G : 0 < gauss c <= 2 * gauss v0).
        { split; [apply gauss_pos|]. unfold gauss. assert (Q := exp_near (- (c * c)) (- (v0 * v0)) (/ 2)). 
          assert (Z : Rabs (- (c * c) - - (v0 * v0)) <= / 2).
          { replace (- (c * c) - - (v0 * v0)) with (- ((c - v0) * (c + v0))) by ring. rewrite Rabs_Ropp, Rabs_mult.
            assert (Rabs (c + v0) <= 100). { unfold Rabs in *. destruct (Rcase_abs (c - v0)), (Rcase_abs (c + v0)); lra. }
            pose proof (Rabs_pos (c - v0)). pose proof (Rabs_pos (c + v0)). nra. }
          specialize (Q Z ltac:(lra)). unfold Rabs in Q. destruct (Rcase_abs (exp (- (c * c)) - exp (- (v0 * v0)))); lra. }
        rewrite Rabs_pos_eq; [|unfold Rdiv; repeat apply Rmult_le_pos; lra]. unfold Rdiv.
        assert (/ sqrt PI * gauss c <= 1 * (2 * gauss v0)) by (apply Rmult_le_compat; lra). lra. }
    pose proof (erfc_v0_low x X) as Lo. fold v0 in Lo. pose proof (gauss_pos v0) as Pg. pose proof (Rabs_pos (r - v0)).
    assert (D' : Rabs (erfc r - erfc v0) <= 32 * / 1000000000000 * erfc v0).
    { apply Rle_trans with (4 * gauss v0 * (8 * / 100000000000000)); [eapply Rle_trans; [exact D|]; apply Rmult_le_compat_l; lra|]. lra. }
    assert (K : 0 < erfc r <= 2 * erfc v0). { split; [apply erfc_bounds|]. unfold Rabs in D'. destruct (Rcase_abs (erfc r - erfc v0)); lra. }
    assert (U : bpow radix2 (-1070) <= e15 * erfc v0).
    { eapply Rle_trans; [apply c_1070|]. apply Rmult_le_compat_l; [unfold e15; lra|]. eapply Rle_trans; [|exact Lo]. apply Rmult_le_compat_r; [lra|].
      unfold gauss. apply exp_le. lra. }
    replace (B2R (l_erfc L a) - erfc v0) with ((B2R (l_erfc L a) - erfc r) + (erfc r - erfc v0)) by ring. eapply Rle_trans; [apply Rabs_triang|].
    assert (bpow radix2 (-50) * erfc r <= e15 * (2 * erfc v0)) by (apply Rmult_le_compat; lra). unfold e15 in *. lra.
Qed.
Lemma cdf_erfc : norm_cdf x = / 2 * erfc v0. Proof. unfold norm_cdf. rewrite v0_eq. fold v0. lra. Qed.
Lemma erfc_low : exp (- (685)) * / 100 <= erfc v0.
Proof.
  pose proof (erfc_v0_low x X) as Lo. fold v0 in Lo. eapply Rle_trans; [|exact Lo]. apply Rmult_le_compat_r; [lra|]. unfold gauss. apply exp_le.
  unfold v0. rewrite v0_sq. pose proof square_bound. lra.
Qed.
Lemma cdf_degr : near (norm_cdf_f L u) (norm_cdf x) (34 * / 1000000000000 * norm_cdf x).
Proof.
  destruct (erfc_degr _ near_quot) as (r & Ir & R). pose proof erfc_low as Lo. pose proof (exp_pos (- (685))). pose proof (erfc_bounds v0) as B. rewrite cdf_erfc.
  assert (K : erfc v0 / 2 <= r <= 2 * erfc v0) by (unfold Rabs in R; destruct (Rcase_abs (r - erfc v0)); lra).
  unfold norm_cdf_f. exists (rnd64 (1 / 2 * r)). split; [apply fmul_R; [apply half_R|exact Ir|apply small_le; rewrite Rabs_pos_eq; lra]|].
  pose proof num_1022. pose proof (rnd_rel (1 / 2 * r)) as Q. rewrite (Rabs_pos_eq (1 / 2 * r)) in Q by lra. specialize (Q ltac:(lra)).
  replace (rnd64 (1 / 2 * r) - / 2 * erfc v0) with ((rnd64 (1 / 2 * r) - 1 / 2 * r) + / 2 * (r - erfc v0)) by field. eapply Rle_trans; [apply Rabs_triang|].
  rewrite (Rabs_mult (/ 2)), (Rabs_pos_eq (/ 2)) by lra. unfold e15 in Q. lra.
Qed.
Lemma impr_degr : near (impr_f L u) (impr x) (/ 1000000 * impr x).
Proof.
  destruct cdf_degr as (c & Ic & C). destruct pdf_degr as (p & Ip & P). pose proof (norm_cdf_bounds x) as B. pose proof (pdf_pos_le x) as BP.
  pose proof (k_bounds x X) as K. pose proof (impr_k x) as IK. set (k := - x * norm_cdf x / norm_pdf x) in *.
  assert (KE : - x * norm_cdf x = k * norm_pdf x) by (unfold k; field; lra).
  assert (Lo : exp (- (685)) * / 200 <= norm_cdf x) by (rewrite cdf_erfc; pose proof erfc_low; lra). pose proof (exp_pos (- (685))).
  assert (C1 : norm_cdf x / 2 <= c <= 2 * norm_cdf x) by (unfold Rabs in C; destruct (Rcase_abs (c - norm_cdf x)); lra).
  assert (SM : small (x * c)). { apply small_le. rewrite Rabs_mult, (Rabs_left1 x), (Rabs_pos_eq c) by lra. nra. }
  pose proof (fmul_R _ _ _ _ I Ic SM) as M. set (m := rnd64 (x * c)) in *.
  assert (MM : Rabs (m - x * norm_cdf x) <= 36 * / 1000000000000 * norm_pdf x).
  { pose proof num_1022. pose proof (rnd_rel (x * c)) as Q. rewrite Rabs_mult, (Rabs_left1 x), (Rabs_pos_eq c) in Q by lra. specialize (Q ltac:(nra)). fold m in Q.
    replace (m - x * norm_cdf x) with ((m - x * c) + x * (c - norm_cdf x)) by ring. eapply Rle_trans; [apply Rabs_triang|]. rewrite (Rabs_mult x), (Rabs_left1 x) by lra.
    assert (- x * c <= - x * (2 * norm_cdf x)) by (apply Rmult_le_compat_l; lra).
    assert (- x * Rabs (c - norm_cdf x) <= - x * (34 * / 1000000000000 * norm_cdf x)) by (apply Rmult_le_compat_l; lra).
    replace (- x * (34 * / 1000000000000 * norm_cdf x)) with (34 * / 1000000000000 * (- x * norm_cdf x)) in * by ring.
    replace (- x * (2 * norm_cdf x)) with (2 * (- x * norm_cdf x)) in * by ring. rewrite KE in *. unfold e15 in Q. nra. }
  assert (T : Rabs (m + p - impr x) <= 14 * / 100000000000 * norm_pdf x).
  { unfold impr. replace (m + p - (x * norm_cdf x + norm_pdf x)) with ((m - x * norm_cdf x) + (p - norm_pdf x)) by ring. eapply Rle_trans; [apply Rabs_triang|]. lra. }
  assert (Q : norm_pdf x <= 1372 * impr x) by (rewrite IK; nra). pose proof (impr_pos x). pose proof (impr_up x) as Up. rewrite (Rabs_left1 x) in Up by lra.
  assert (T1 : impr x / 2 <= m + p <= 2 * impr x) by (unfold Rabs in T; destruct (Rcase_abs (m + p - impr x)); lra).
  exists (rnd64 (m + p)). split; [apply fadd_R; [exact M|exact Ip|apply small_le; rewrite Rabs_pos_eq; lra]|].
  pose proof (add_err m p (isf_fmt _ _ M) (isf_fmt _ _ Ip)) as E. rewrite (Rabs_pos_eq (m + p)) in E by lra. pose proof dlt_e15.
  assert (dlt * (m + p) <= e15 * (m + p)) by (apply Rmult_le_compat_r; lra).
  replace (rnd64 (m + p) - impr x) with ((rnd64 (m + p) - (m + p)) + (m + p - impr x)) by ring. eapply Rle_trans; [apply Rabs_triang|]. unfold e15 in *. lra.
Qed.
End Degr.

Lemma impr_middle u x : isf u x -> -1 < x <= 100 -> near (impr_f L u) (impr x) (/ 1000000 * impr x).
Proof.
  intros I B. assert (X : Rabs x <= 100) by (apply Rabs_le; lra). pose proof (norm_cdf_bounds x). pose proof (pdf_pos_le x).
  assert (N : near (fmul u (norm_cdf_f L u)) (x * norm_cdf x) (4 * / 10000000000)).
  { eapply (near_mul _ _ _ _ 0 _ 100 1); [apply near_isf, I|apply (near_cdf L A u x I X)|exact X| |lra|lra|lra|unfold e15, e20; lra].
    rewrite Rabs_pos_eq; lra. }
  pose proof (impr_low x ltac:(lra)) as Lo. pose proof (impr_up x) as Up.
  apply near_weaken with (6 * / 10000000000); [|lra]. unfold impr_f, impr.
  eapply (near_add _ _ _ _ _ _ 101); [exact N|apply (near_pdf L A u x I X)| |lra|unfold e15, e20; lra].
  fold (impr x). rewrite Rabs_pos_eq; lra.
Qed.
Lemma impr_large u x : isf u x -> 100 < x -> near (impr_f L u) (impr x) (/ 1000000 * impr x).
Proof.
  intros I B. destruct (tiny_pdf L A u x I B) as (p & Ip & P). destruct (cdf_one L A u x I B) as (c & Ic & C).
  pose proof (isf_fmt _ _ I) as Fx. pose proof (isf_bound _ _ I) as Bx.
  assert (M : isf (fmul u (norm_cdf_f L u)) (rnd64 (x * c))).
  { destruct I as [F1 E1], Ic as [F2 E2]. pose proof (Bmult_correct 53 1024 f64_prec f64_emax mode_NE u (norm_cdf_f L u)) as Q. rewrite E1, E2 in Q.
    rewrite (no_overflow (x * c) x) in Q; [|exact Fx|exact Bx|nra]. destruct Q as (Q1 & Q2 & _). split; [|exact Q1].
    change (fmul u (norm_cdf_f L u)) with (Bmult mode_NE u (norm_cdf_f L u)). rewrite Q2, F1, F2. reflexivity. }
  set (y := rnd64 (x * c)) in *.
  assert (Y : Rabs (y - x) <= 2 * / 100000000000000 * x /\ y <= x).
  { split; [|apply rnd_le_fmt; [exact Fx|nra]]. pose proof (rnd_err (x * c)) as Q. fold y in Q. rewrite (Rabs_pos_eq (x * c)) in Q by nra.
    replace (y - x) with ((y - x * c) + (x * c - x)) by ring. eapply Rle_trans; [apply Rabs_triang|].
    assert (Rabs (x * c - x) <= / 100000000000000 * x) by (apply Rabs_le; nra). unfold e15, e20 in Q. nra. }
  assert (Y1 : 99 <= y). { destruct Y as [Y _]. unfold Rabs in Y. destruct (Rcase_abs (y - x)); lra. }
  assert (S : isf (fadd (fmul u (norm_cdf_f L u)) (norm_pdf_f L u)) y).
  { destruct Ip as [F1 E1]. pose proof M as [F2 E2]. pose proof (Bplus_correct 53 1024 f64_prec f64_emax mode_NE _ _ F2 F1) as Q.
    rewrite E1, E2, (absorb y p (isf_fmt _ _ M) Y1 P) in Q. rewrite Rlt_bool_true in Q by exact (isf_bound _ _ M).
    destruct Q as (Q1 & Q2 & _). split; [exact Q2|exact Q1]. }
  assert (IM : x <= impr x <= x + / 100000000000).
  { rewrite impr_sym. pose proof (impr_pos (- x)). assert (impr (- x) <= norm_pdf x).
    { unfold impr. rewrite norm_pdf_even. pose proof (norm_cdf_bounds (- x)). nra. }
    assert (norm_pdf x <= / 100000000000). { apply Rle_trans with (exp (- / 2 * x * x)); [apply norm_pdf_le|].
      apply Rle_trans with (exp (- (100))); [apply exp_le; nra|interval]. } lra. }
  assert (N : near (fadd (fmul u (norm_cdf_f L u)) (norm_pdf_f L u)) (impr x) (/ 10000000000 * impr x)).
  { exists y. split; [exact S|]. destruct Y as [Y _]. replace (y - impr x) with ((y - x) + (x - impr x)) by ring.
    eapply Rle_trans; [apply Rabs_triang|]. assert (Rabs (x - impr x) <= / 100000000000) by (apply Rabs_le; lra). lra. }
  eapply near_weaken; [exact N|]. lra.
Qed.
Lemma impr_acc u x : isf u x -> - (37) <= x -> near (impr_f L u) (impr x) (/ 1000000 * impr x).
Proof.
  intros I B. destruct (Rle_lt_dec x (- (1))); [apply impr_degr; [exact I|lra]|].
  destruct (Rle_lt_dec x 100); [apply impr_middle; [exact I|lra]|apply impr_large; assumption].
Qed.
End Acc.
