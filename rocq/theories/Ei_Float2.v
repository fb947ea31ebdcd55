(** The expected improvement in binary64 arithmetic: standard deviation, standardized improvement, product. *)
From Coq Require Import ZArith Reals Lra Lia Bool.
From Coquelicot Require Import Coquelicot.
From Flocq Require Import Core.Core IEEE754.BinarySingleNaN Relative.
From Interval Require Import Tactic.
From Verif Require Import F64 F64_Round CritF64_Model EiF64_Model Normal LogEi_Real Properties_CritF64 LogEi_Const LogEi_Proofs Ei_Float.
Local Open Scope R_scope.
Local Arguments bpow : simpl never.

(** ** Real analysis *)
Lemma impr_mvt q U : exists c, Rabs (impr q - impr U) = norm_cdf c * Rabs (q - U) /\ Rabs (c - U) <= Rabs (q - U).
Proof.
  destruct (MVT_gen impr U q norm_cdf) as (c & C & M).
  - intros t _. apply impr_derive.
  - intros t _. apply derivable_continuous_pt. eexists. apply is_derive_Reals, impr_derive.
  - exists c. split; [rewrite M, Rabs_mult, (Rabs_pos_eq (norm_cdf c)); [reflexivity|left; apply norm_cdf_bounds]|].
    revert C. unfold Rmin, Rmax. destruct (Rle_dec U q); intros C; unfold Rabs; destruct (Rcase_abs (c - U)), (Rcase_abs (q - U)); lra.
Qed.
Lemma impr_ge x : x <= impr x. Proof. rewrite impr_sym. pose proof (impr_pos (- x)). lra. Qed.
Lemma impr_near q U : - (37) <= U -> Rabs (q - U) <= 9 * e15 * Rabs U + e20 -> Rabs (impr q - impr U) <= 2 * / 1000000000 * impr U.
Proof.
  intros B H. destruct (impr_mvt q U) as (c & E & C). rewrite E. pose proof (norm_cdf_bounds c) as BC. pose proof (Rabs_pos (q - U)) as P.
  destruct (Rle_lt_dec (-1) U) as [U1|U1].
  - apply Rle_trans with (Rabs (q - U)); [nra|]. pose proof (impr_low U U1). pose proof (impr_ge U). unfold e15, e20 in *.
    unfold Rabs in H at 2. destruct (Rcase_abs U); lra.
  - pose proof (k_bounds U ltac:(lra)) as K. pose proof (impr_k U) as IK. set (k := - U * norm_cdf U / norm_pdf U) in *. pose proof (norm_pdf_pos U) as PP.
    assert (Q : norm_pdf U <= 1372 * impr U) by (rewrite IK; nra).
    rewrite (Rabs_left1 U) in H by lra. assert (H' : Rabs (q - U) <= 4 * / 10000000000000) by (unfold e15, e20 in H; lra).
    assert (CC : U - 4 * / 10000000000000 <= c <= U + 4 * / 10000000000000) by (unfold Rabs in C at 1; destruct (Rcase_abs (c - U)); lra).
    assert (T : norm_cdf c <= 27 / 10 * norm_pdf U).
    { eapply Rle_trans; [apply norm_cdf_tail; lra|]. unfold norm_pdf. pose proof sqrt2pi_num as S.
      assert (Z : exp (- / 2 * c * c) <= 2 * exp (- / 2 * U * U)).
      { assert (D : Rabs (- / 2 * c * c - - / 2 * U * U) <= / 2).
        { replace (- / 2 * c * c - - / 2 * U * U) with (- / 2 * ((c - U) * (c + U))) by ring. rewrite !Rabs_mult.
          assert (Rabs (c + U) <= 100) by (apply Rabs_le; lra). assert (Rabs (c - U) <= / 1000) by (apply Rabs_le; lra).
          rewrite (Rabs_left1 (- / 2)) by lra. pose proof (Rabs_pos (c - U)). pose proof (Rabs_pos (c + U)). nra. }
        pose proof (exp_near _ _ _ D ltac:(lra)) as N. pose proof (exp_pos (- / 2 * U * U)). unfold Rabs in N. destruct (Rcase_abs (exp (- / 2 * c * c) - exp (- / 2 * U * U))); lra. }
      set (e0 := exp (- / 2 * U * U)) in *. assert (0 < e0) by apply exp_pos.
      assert (e0 * / (26 / 10) <= e0 / sqrt (2 * PI)). { unfold Rdiv. apply Rmult_le_compat_l; [lra|]. apply Rinv_le_contravar; lra. } lra. }
    pose proof (impr_pos U). apply Rle_trans with ((27 / 10 * (1372 * impr U)) * (4 * / 10000000000000)); [apply Rmult_le_compat; lra|]. lra.
Qed.
Lemma impr_floor U : - (36) <= U -> exp (- (657)) <= impr U.
Proof.
  intros B. destruct (Rle_lt_dec (-1) U) as [U1|U1].
  - pose proof (impr_low U U1). assert (exp (- (657)) <= / 20) by interval. lra.
  - pose proof (k_bounds U ltac:(lra)) as K. pose proof (impr_k U) as IK. set (k := - U * norm_cdf U / norm_pdf U) in *. rewrite IK.
    assert (Z : exp (- (649)) <= norm_pdf U).
    { unfold norm_pdf. pose proof sqrt2pi_num as S. replace (- (649)) with (- (648) + - (1)) by ring. rewrite exp_plus. unfold Rdiv.
      apply Rmult_le_compat; [left; apply exp_pos|left; apply exp_pos|apply exp_le; nra|].
      apply Rle_trans with (/ (26 / 10)); [interval|]. apply Rinv_le_contravar; lra. }
    replace (- (657)) with (- (649) + - (8)) by ring. rewrite exp_plus. apply Rmult_le_compat; [left; apply exp_pos|left; apply exp_pos|exact Z|].
    assert (exp (- (8)) <= / 1372) by interval. lra.
Qed.

(** ** Bounds by powers of two *)
Lemma fmt_bpow e : (-1074 <= e <= 1000)%Z -> format64 (bpow radix2 e).
Proof. intros H. apply generic_format_bpow. unfold SpecFloat.fexp, SpecFloat.emin. lia. Qed.
Lemma rnd_pow y e : (-1074 <= e <= 1000)%Z -> Rabs y <= bpow radix2 e -> Rabs (rnd64 y) <= bpow radix2 e.
Proof. intros E H. apply abs_round_le_generic; try typeclasses eauto; [apply fmt_bpow, E|exact H]. Qed.
Lemma small_pow y e : (e <= 1000)%Z -> Rabs y <= bpow radix2 e -> small y.
Proof. intros E H. unfold small. eapply Rle_trans; [exact H|apply bpow_le; lia]. Qed.
Lemma bmul a b x y : 0 <= x <= bpow radix2 a -> 0 <= y <= bpow radix2 b -> x * y <= bpow radix2 (a + b).
Proof. intros X Y. rewrite bpow_plus. apply Rmult_le_compat; lra. Qed.
Lemma bmul_ge a b x y : bpow radix2 a <= x -> bpow radix2 b <= y -> bpow radix2 (a + b) <= x * y.
Proof. intros X Y. rewrite bpow_plus. pose proof (bpow_gt_0 radix2 a). pose proof (bpow_gt_0 radix2 b). apply Rmult_le_compat; lra. Qed.
Lemma bpow_2 e : 2 * bpow radix2 e = bpow radix2 (1 + e). Proof. rewrite bpow_plus. reflexivity. Qed.
Lemma bpow_half e : bpow radix2 e / 2 = bpow radix2 (-1 + e). Proof. rewrite bpow_plus. change (bpow radix2 (-1)) with (/ 2). field. Qed.

(** ** Points which are hopeless *)
Lemma c_975 : exp (- (676)) <= bpow radix2 (-975).
Proof. rewrite bpow_exp. change (IZR radix2) with 2. apply exp_le. interval. Qed.
Lemma tol_974 y v : 0 <= y <= bpow radix2 (-975) -> Rabs (v - y) <= bpow radix2 (-50) * y + bpow radix2 (-1070) -> Rabs v <= bpow radix2 (-974).
Proof.
  intros Y H. pose proof bpow_m50. pose proof (bpow_gt_0 radix2 (-50)). assert (T : bpow radix2 (-1070) <= e15 * bpow radix2 (-975)).
  { change (-1070)%Z with (-95 + -975)%Z. rewrite bpow_plus. apply Rmult_le_compat_r; [apply bpow_ge_0|]. apply Rle_trans with (/ 1000000000000000000000); [|unfold e15; lra].
    change (bpow radix2 (-95)) with (/ IZR (2 ^ 95)). change (2 ^ 95)%Z with 39614081257132168796771975168%Z. lra. }
  change (-974)%Z with (1 + -975)%Z. rewrite <- bpow_2. assert (bpow radix2 (-50) * y <= e15 * bpow radix2 (-975)) by (apply Rmult_le_compat; lra).
  unfold e15 in *. unfold Rabs in *. destruct (Rcase_abs v), (Rcase_abs (v - y)); lra.
Qed.
Lemma quot_pow v s : Rabs v <= bpow radix2 (-974) -> 24 / 10 <= s -> Rabs (v / s) <= bpow radix2 (-974).
Proof.
  intros H S. unfold Rdiv. rewrite Rabs_mult, (Rabs_pos_eq (/ s)) by (left; apply Rinv_0_lt_compat; lra).
  assert (0 < / s <= 1). { split; [apply Rinv_0_lt_compat; lra|]. rewrite <- Rinv_1. apply Rinv_le_contravar; lra. } pose proof (Rabs_pos v). nra.
Qed.
Section Tail.
Context (L : libm) (A : libm_accurate L).
Lemma pdf_tail u a : isf (fmul (fmul (fneg half) u) u) a -> a <= - (676) -> exists w, isf (norm_pdf_f L u) w /\ 0 <= w <= bpow radix2 (-974).
Proof.
  intros [F E] H. unfold norm_pdf_f. destruct (acc_exp L A _ F ltac:(rewrite E; lra)) as [F1 E1]. pose proof (acc_exp_pos L A _ F ltac:(rewrite E; lra)) as E2. rewrite E in E1.
  set (v := B2R (l_exp L (fmul (fmul (fneg half) u) u))) in *. destruct c_denotes_2pi as ((s & Is & S) & _). pose proof sqrt2pi_num as S0.
  assert (S1 : 24 / 10 <= s) by (unfold e15, Rabs in S; destruct (Rcase_abs (s - sqrt (2 * PI))); lra).
  assert (B : Rabs v <= bpow radix2 (-974)).
  { apply (tol_974 (exp a)); [|exact E1]. split; [left; apply exp_pos|]. eapply Rle_trans; [|apply c_975]. apply exp_le. lra. }
  pose proof (quot_pow v s B S1) as Q. exists (rnd64 (v / s)). split.
  - apply fdiv_R; [split; [exact F1|reflexivity]|exact Is|lra|]. apply (small_pow _ (-974)); [lia|exact Q].
  - split; [apply rnd_ge; [apply fmt_0|]; apply Rmult_le_pos; [exact E2|left; apply Rinv_0_lt_compat; lra]|].
    eapply Rle_trans; [apply Rle_abs|]. apply rnd_pow; [lia|exact Q].
Qed.
Lemma tail_mid u q : isf u q -> - (40) <= q <= - (369 / 10) -> exists i, isf (impr_f L u) i /\ Rabs i <= bpow radix2 (-967).
Proof.
  intros I B.
  assert (V : near (fdiv (fneg u) SQRT_2) (- q / sqrt 2) (/ 1000000000000)).
  { destruct c_denotes_2pi as (_ & C & _). pose proof sqrt2_num.
    eapply (near_div _ _ _ _ 0 _ 40); [apply near_neg, near_isf, I|exact C|rewrite Rabs_Ropp; apply Rabs_le; lra|lra|unfold e15; lra|unfold e15; lra|lra|unfold e15, e20; lra]. }
  destruct V as (r & [F E] & H). assert (S2 : 14 / 10 <= sqrt 2 <= 14143 / 10000) by (split; interval).
  assert (R : 26 <= r).
  { assert (26 + / 1000 <= - q / sqrt 2). { apply Rmult_le_reg_r with (sqrt 2); [lra|]. unfold Rdiv. rewrite Rmult_assoc, Rinv_l by lra. nra. }
    unfold Rabs in H. destruct (Rcase_abs (r - - q / sqrt 2)); lra. }
  destruct (acc_erfc L A _ F) as [[F1 E1] _]. rewrite E in E1. set (v := B2R (l_erfc L (fdiv (fneg u) SQRT_2))) in *.
  assert (BV : Rabs v <= bpow radix2 (-974)).
  { apply (tol_974 (erfc r)); [|exact E1]. split; [left; apply erfc_bounds|]. eapply Rle_trans; [apply erfc_le_gauss; lra|]. eapply Rle_trans; [|apply c_975]. unfold gauss. apply exp_le. nra. }
  assert (C : Rabs (1 / 2 * v) <= bpow radix2 (-974)) by (rewrite Rabs_mult, (Rabs_pos_eq (1 / 2)) by lra; pose proof (Rabs_pos v); lra).
  assert (Ic : isf (norm_cdf_f L u) (rnd64 (1 / 2 * v))).
  { apply fmul_R; [apply half_R|split; [exact F1|reflexivity]|apply (small_pow _ (-974)); [lia|exact C]]. }
  pose proof (rnd_pow _ (-974) ltac:(lia) C) as C1. set (c := rnd64 (1 / 2 * v)) in *.
  assert (D : Rabs (q * c) <= bpow radix2 (-968)).
  { rewrite Rabs_mult, (Rabs_left1 q) by lra. change (-968)%Z with (6 + -974)%Z. apply bmul; [change (bpow radix2 6) with 64; lra|split; [apply Rabs_pos|exact C1]]. }
  assert (Im : isf (fmul u (norm_cdf_f L u)) (rnd64 (q * c))) by (apply fmul_R; [exact I|exact Ic|apply (small_pow _ (-968)); [lia|exact D]]).
  pose proof (rnd_pow _ (-968) ltac:(lia) D) as D1. set (m := rnd64 (q * c)) in *.
  destruct (near_square u q I ltac:(apply Rabs_le; lra)) as (a & Ia & Ha).
  destruct (pdf_tail u a Ia) as (w & Iw & W). { unfold Rabs in Ha. destruct (Rcase_abs (a - - / 2 * q * q)); nra. }
  assert (W' : bpow radix2 (-974) <= bpow radix2 (-968)) by (apply bpow_le; lia).
  assert (T : Rabs (m + w) <= bpow radix2 (-967)).
  { eapply Rle_trans; [apply Rabs_triang|]. rewrite (Rabs_pos_eq w) by lra. change (-967)%Z with (1 + -968)%Z. rewrite <- bpow_2. lra. }
  exists (rnd64 (m + w)). split; [apply fadd_R; [exact Im|exact Iw|apply (small_pow _ (-967)); [lia|exact T]]|apply rnd_pow; [lia|exact T]].
Qed.
Context (Z : forall a, is_finite a = true -> 28 <= B2R a -> B2R (l_erfc L a) = 0).
Lemma tail_far u q : isf u q -> - bpow radix2 148 <= q <= - (40) -> exists i, isf (impr_f L u) i /\ 0 <= i <= bpow radix2 (-967).
Proof.
  intros I B. destruct c_denotes_2pi as (_ & (s & Is & S) & _). assert (S2 : 14 / 10 <= sqrt 2 <= 14143 / 10000) by (split; interval).
  assert (S1 : 13 / 10 <= s <= 14144 / 10000) by (unfold e15 in S; unfold Rabs in S; destruct (Rcase_abs (s - sqrt 2)); lra).
  assert (QB : 28 <= - q / s <= bpow radix2 148).
  { split; apply Rmult_le_reg_r with s; try lra; unfold Rdiv; rewrite Rmult_assoc, Rinv_l by lra; nra. }
  assert (Iq : isf (fdiv (fneg u) SQRT_2) (rnd64 (- q / s))).
  { apply fdiv_R; [apply fneg_R, I|exact Is|lra|]. apply (small_pow _ 148); [lia|]. rewrite Rabs_pos_eq; lra. }
  assert (R : 28 <= rnd64 (- q / s)) by (apply rnd_ge; [apply (isf_fmt (fofZ 28)), fofZ_R; lia|lra]).
  destruct Iq as [F E]. destruct (acc_erfc L A _ F) as [[F1 _] _]. pose proof (Z _ F ltac:(rewrite E; exact R)) as Z0.
  assert (Ic : isf (norm_cdf_f L u) 0).
  { replace 0 with (rnd64 (1 / 2 * 0)) by (rewrite Rmult_0_r; apply rnd_fmt, fmt_0). apply fmul_R; [apply half_R|split; [exact F1|exact Z0]|]. apply small_le. rewrite Rmult_0_r, Rabs_R0. lra. }
  assert (Im : isf (fmul u (norm_cdf_f L u)) 0).
  { replace 0 with (rnd64 (q * 0)) by (rewrite Rmult_0_r; apply rnd_fmt, fmt_0). apply fmul_R; [exact I|exact Ic|]. apply small_le. rewrite Rmult_0_r, Rabs_R0. lra. }
  assert (T0 : 20 <= - (1 / 2) * q <= bpow radix2 147). { change 148%Z with (1 + 147)%Z in B. rewrite <- bpow_2 in B. lra. }
  assert (It : isf (fmul (fneg half) u) (rnd64 (- (1 / 2) * q))).
  { apply fmul_R; [apply fneg_R, half_R|exact I|]. apply (small_pow _ 147); [lia|]. rewrite Rabs_pos_eq; lra. }
  set (t := rnd64 (- (1 / 2) * q)) in *.
  assert (T : 20 <= t <= bpow radix2 147).
  { split; [apply rnd_ge; [apply (isf_fmt (fofZ 20)), fofZ_R; lia|lra]|apply rnd_le_fmt; [apply fmt_bpow; lia|lra]]. }
  assert (TQ : - t * q <= bpow radix2 (147 + 148)) by (replace (- t * q) with (t * - q) by ring; apply bmul; lra).
  assert (Ia : isf (fmul (fmul (fneg half) u) u) (rnd64 (t * q))).
  { apply fmul_R; [exact It|exact I|]. apply (small_pow _ (147 + 148)); [lia|]. rewrite Rabs_left1; nra. }
  assert (AB : rnd64 (t * q) <= - (676)).
  { apply rnd_le_fmt; [apply (isf_fmt (fneg (fofZ 676))), fneg_R, fofZ_R; lia|nra]. }
  destruct (pdf_tail u _ Ia AB) as (w & Iw & W). exists w. split.
  - rewrite <- (rnd_fmt w (isf_fmt _ _ Iw)). replace w with (0 + w) at 1 by ring. apply fadd_R; [exact Im|exact Iw|]. rewrite Rplus_0_l. apply (small_pow _ (-974)); [lia|]. rewrite Rabs_pos_eq; lra.
  - split; [lra|]. eapply Rle_trans; [apply W|apply bpow_le; lia].
Qed.
End Tail.

(** ** Standard deviation and standardized improvement *)
Section Full.
Context (p s m k : f64) (P V M K : R) (Ip : isf p P) (Is : isf s V) (Im : isf m M) (Ik : isf k K).
Context (BP : Rabs P <= bpow radix2 100) (BM : Rabs M <= bpow radix2 100) (BV : bpow radix2 (-52) <= V <= bpow radix2 100)
  (BK : bpow radix2 (-20) <= K <= bpow radix2 20).
Let sg := K * sqrt V.
Let U := (M - P) / sg.
Definition sigma_f : f64 := fmul k (fsqrt s).
Definition args_f : f64 := fdiv (fsub m p) sigma_f.
Lemma sqrt_bounds : bpow radix2 (-26) <= sqrt V <= bpow radix2 50.
Proof.
  split.
  - rewrite <- (sqrt_bpow radix2 (-26)). apply sqrt_le_1; [apply bpow_ge_0|pose proof (bpow_ge_0 radix2 (-52)); lra|apply BV].
  - rewrite <- (sqrt_bpow radix2 50). apply sqrt_le_1; [pose proof (bpow_ge_0 radix2 (-52)); lra|apply bpow_ge_0|apply BV].
Qed.
Lemma sg_bounds : bpow radix2 (-46) <= sg <= bpow radix2 70.
Proof.
  pose proof sqrt_bounds as S. pose proof (bpow_gt_0 radix2 (-26)). pose proof (bpow_gt_0 radix2 (-20)). split.
  - apply (bmul_ge (-20) (-26)); lra.
  - apply (bmul 20 50); lra.
Qed.
Lemma sqrt_acc : exists r, isf (fsqrt s) r /\ Rabs (r - sqrt V) <= e15 * sqrt V.
Proof.
  destruct Is as [F E]. pose proof (bpow_gt_0 radix2 (-52)). destruct (Bsqrt_correct 53 1024 f64_prec f64_emax mode_NE s) as (Q1 & Q2 & _). rewrite E in Q1.
  exists (rnd64 (sqrt V)). split.
  - split; [|exact Q1]. change (fsqrt s) with (Bsqrt mode_NE s). rewrite Q2. destruct s as [b|b| |[|] mm ee Hb]; try reflexivity; try discriminate F.
    exfalso. assert (N : B2R (B754_finite true mm ee Hb : f64) < 0) by (apply F2R_lt_0; reflexivity). rewrite E in N. lra.
  - pose proof sqrt_bounds as S. pose proof (bpow_gt_0 radix2 (-26)). pose proof (rnd_rel (sqrt V)) as R. rewrite (Rabs_pos_eq (sqrt V)) in R by lra. apply R.
    apply Rle_trans with (bpow radix2 (-26)); [apply bpow_le; lia|lra].
Qed.
Lemma sigma_acc : exists r, isf sigma_f r /\ Rabs (r - sg) <= 3 * e15 * sg.
Proof.
  destruct sqrt_acc as (r & Ir & R). pose proof sqrt_bounds as S. pose proof sg_bounds as B. pose proof (bpow_gt_0 radix2 (-26)). pose proof (bpow_gt_0 radix2 (-46)). pose proof (bpow_gt_0 radix2 (-20)).
  assert (R1 : sqrt V / 2 <= r <= 2 * sqrt V) by (unfold e15 in R; unfold Rabs in R; destruct (Rcase_abs (r - sqrt V)); lra).
  assert (KR : Rabs (K * r - sg) <= e15 * sg).
  { unfold sg. replace (K * r - K * sqrt V) with (K * (r - sqrt V)) by ring. rewrite Rabs_mult, (Rabs_pos_eq K) by lra.
    replace (e15 * (K * sqrt V)) with (K * (e15 * sqrt V)) by ring. apply Rmult_le_compat_l; lra. }
  assert (KB : sg / 2 <= K * r <= 2 * sg) by (unfold e15 in KR; unfold Rabs in KR; destruct (Rcase_abs (K * r - sg)); lra).
  exists (rnd64 (K * r)). split.
  - apply fmul_R; [exact Ik|exact Ir|]. apply (small_pow _ 71); [lia|]. rewrite Rabs_pos_eq by lra. change 71%Z with (1 + 70)%Z. rewrite <- bpow_2. lra.
  - pose proof (rnd_rel (K * r)) as Q. rewrite (Rabs_pos_eq (K * r)) in Q by lra.
    assert (bpow radix2 (-1022) <= K * r). { apply Rle_trans with (bpow radix2 (-1 + -46)); [apply bpow_le; lia|]. rewrite <- bpow_half. lra. }
    specialize (Q H2). replace (rnd64 (K * r) - sg) with ((rnd64 (K * r) - K * r) + (K * r - sg)) by ring. eapply Rle_trans; [apply Rabs_triang|]. unfold e15 in *. lra.
Qed.
Lemma diff_bound : Rabs (M - P) <= bpow radix2 101.
Proof. change 101%Z with (1 + 100)%Z. rewrite <- bpow_2. unfold Rminus. eapply Rle_trans; [apply Rabs_triang|]. rewrite Rabs_Ropp. lra. Qed.
Lemma diff_acc : exists d, isf (fsub m p) d /\ Rabs (d - (M - P)) <= e15 * Rabs (M - P).
Proof.
  exists (rnd64 (M - P)). split; [apply fsub_R; [exact Im|exact Ip|apply (small_pow _ 101); [lia|exact diff_bound]]|].
  pose proof (sub_err M P (isf_fmt _ _ Im) (isf_fmt _ _ Ip)). pose proof dlt_e15. pose proof (Rabs_pos (M - P)). nra.
Qed.
Lemma U_bound : Rabs U <= bpow radix2 147.
Proof.
  pose proof sg_bounds as B. pose proof (bpow_gt_0 radix2 (-46)). unfold U, Rdiv. rewrite Rabs_mult, (Rabs_inv sg), (Rabs_pos_eq sg) by lra. change 147%Z with (101 + 46)%Z.
  pose proof (Rabs_pos (M - P)). apply bmul; [pose proof diff_bound; lra|]. split; [left; apply Rinv_0_lt_compat; lra|].
  change 46%Z with (- -46)%Z. rewrite bpow_opp. apply Rinv_le_contravar; lra.
Qed.
Lemma args_acc : exists q, isf args_f q /\ Rabs (q - U) <= 9 * e15 * Rabs U + e20.
Proof.
  destruct sigma_acc as (r & Ir & R). destruct diff_acc as (d & Id & D). pose proof sg_bounds as B. pose proof (bpow_gt_0 radix2 (-46)).
  assert (R1 : 9 / 10 * sg <= r) by (unfold e15 in R; unfold Rabs in R; destruct (Rcase_abs (r - sg)); lra).
  set (DD := M - P) in *. assert (UE : DD = U * sg) by (unfold U, DD; field; lra).
  assert (G : Rabs (d / r - U) <= 6 * e15 * Rabs U).
  { apply Rmult_le_reg_r with r; [lra|]. replace (Rabs (d / r - U) * r) with (Rabs ((d / r - U) * r)) by (rewrite Rabs_mult, (Rabs_pos_eq r) by lra; reflexivity).
    replace ((d / r - U) * r) with ((d - DD) + U * (sg - r)) by (rewrite UE; field; lra). eapply Rle_trans; [apply Rabs_triang|]. rewrite (Rabs_mult U), (Rabs_minus_sym sg).
    rewrite UE in D at 2. rewrite (Rabs_mult U), (Rabs_pos_eq sg) in D by lra. pose proof (Rabs_pos U).
    assert (Rabs U * Rabs (r - sg) <= Rabs U * (3 * e15 * sg)) by (apply Rmult_le_compat_l; lra).
    assert (Rabs U * (9 / 10 * sg) <= Rabs U * r) by (apply Rmult_le_compat_l; lra). unfold e15 in *. nra. }
  assert (G1 : Rabs (d / r) <= 2 * Rabs U).
  { replace (d / r) with (U + (d / r - U)) by ring. eapply Rle_trans; [apply Rabs_triang|]. pose proof (Rabs_pos U). unfold e15 in G. lra. }
  exists (rnd64 (d / r)). split.
  - apply fdiv_R; [exact Id|exact Ir|lra|]. apply (small_pow _ 148); [lia|]. change 148%Z with (1 + 147)%Z. rewrite <- bpow_2. pose proof U_bound. lra.
  - pose proof (rnd_err (d / r)) as Q. replace (rnd64 (d / r) - U) with ((rnd64 (d / r) - d / r) + (d / r - U)) by ring. eapply Rle_trans; [apply Rabs_triang|].
    pose proof (Rabs_pos U). unfold e15, e20 in *. lra.
Qed.

Context (L : libm) (A : libm_accurate L).
Lemma ei_acc : - (36) <= U -> near (fmul sigma_f (impr_f L args_f)) (sg * impr U) (2 * / 1000000 * (sg * impr U)).
Proof.
  intros B. destruct args_acc as (q & Iq & Q). destruct sigma_acc as (r & Ir & R). pose proof sg_bounds as SB. pose proof (bpow_gt_0 radix2 (-46)).
  assert (Q37 : - (37) <= q). { unfold e15, e20 in Q. unfold Rabs in Q. destruct (Rcase_abs (q - U)), (Rcase_abs U); lra. }
  destruct (impr_acc L A _ _ Iq Q37) as (i & Ii & E). pose proof (impr_near q U ltac:(lra) Q) as N. pose proof (impr_pos U) as PU.
  assert (E' : Rabs (i - impr U) <= 12 / 10 * / 1000000 * impr U).
  { replace (i - impr U) with ((i - impr q) + (impr q - impr U)) by ring. eapply Rle_trans; [apply Rabs_triang|].
    assert (impr q <= 101 / 100 * impr U) by (unfold Rabs in N; destruct (Rcase_abs (impr q - impr U)); lra). lra. }
  assert (I1 : impr U / 2 <= i <= 2 * impr U) by (unfold Rabs in E'; destruct (Rcase_abs (i - impr U)); lra).
  assert (R1 : sg / 2 <= r <= 2 * sg) by (unfold e15 in R; unfold Rabs in R; destruct (Rcase_abs (r - sg)); lra).
  assert (PR : Rabs (r * i - sg * impr U) <= 13 / 10 * / 1000000 * (sg * impr U)).
  { replace (r * i - sg * impr U) with ((r - sg) * i + sg * (i - impr U)) by ring. eapply Rle_trans; [apply Rabs_triang|]. rewrite !Rabs_mult, (Rabs_pos_eq sg), (Rabs_pos_eq i) by lra.
    assert (Rabs (r - sg) * i <= (3 * e15 * sg) * (2 * impr U)) by (apply Rmult_le_compat; try lra; apply Rabs_pos).
    assert (sg * Rabs (i - impr U) <= sg * (12 / 10 * / 1000000 * impr U)) by (apply Rmult_le_compat_l; lra).
    assert (0 < sg * impr U) by (apply Rmult_lt_0_compat; lra).
    replace ((3 * e15 * sg) * (2 * impr U)) with (6 * e15 * (sg * impr U)) in * by ring.
    replace (sg * (12 / 10 * / 1000000 * impr U)) with (12 / 10 * / 1000000 * (sg * impr U)) in * by ring. unfold e15 in *. lra. }
  assert (SI : 0 < sg * impr U) by (apply Rmult_lt_0_compat; lra).
  assert (PB : sg * impr U / 2 <= r * i <= 2 * (sg * impr U)) by (unfold Rabs in PR; destruct (Rcase_abs (r * i - sg * impr U)); lra).
  assert (LO : bpow radix2 (-1022) <= r * i).
  { apply Rle_trans with (sg * impr U / 2); [|lra]. pose proof (impr_floor U B) as FL. eapply Rle_trans; [apply c_1022|].
    assert (Z : exp (- (34)) <= bpow radix2 (-46)). { rewrite bpow_exp. change (IZR radix2) with 2. apply exp_le. interval. }
    replace (- (700)) with (- (657) + (- (34) + - (9))) by ring. rewrite !exp_plus. assert (exp (- (9)) <= / 2) by interval.
    pose proof (exp_pos (- (657))). pose proof (exp_pos (- (34))). pose proof (exp_pos (- (9))).
    apply Rle_trans with (impr U * (sg * / 2)); [|lra]. apply Rmult_le_compat; [lra|apply Rmult_le_pos; lra|lra|]. apply Rmult_le_compat; lra. }
  exists (rnd64 (r * i)). split.
  - apply fmul_R; [exact Ir|exact Ii|]. apply (small_pow _ 220); [lia|]. rewrite Rabs_pos_eq by lra.
    apply Rle_trans with (2 * (sg * impr U)); [lra|]. change 220%Z with (1 + (70 + 149))%Z. rewrite <- bpow_2. apply Rmult_le_compat_l; [lra|]. apply bmul; [lra|].
    split; [lra|]. pose proof (impr_up U). pose proof U_bound. apply Rle_trans with (bpow radix2 147 + 1); [lra|]. change 149%Z with (1 + 148)%Z. rewrite <- bpow_2.
    assert (bpow radix2 147 <= bpow radix2 148) by (apply bpow_le; lia). assert (1 <= bpow radix2 148) by (change 1 with (bpow radix2 0); apply bpow_le; lia). lra.
  - pose proof (rnd_rel (r * i)) as QQ. rewrite (Rabs_pos_eq (r * i)) in QQ by lra. specialize (QQ LO).
    replace (rnd64 (r * i) - sg * impr U) with ((rnd64 (r * i) - r * i) + (r * i - sg * impr U)) by ring. eapply Rle_trans; [apply Rabs_triang|]. unfold e15 in *. lra.
Qed.
Context (Z : forall a, is_finite a = true -> 28 <= B2R a -> B2R (l_erfc L a) = 0).
Lemma rnd_tail y : Rabs y <= 2 * sg * bpow radix2 (-967) -> Rabs (rnd64 y) <= sg * bpow radix2 (-900).
Proof.
  intros H. pose proof sg_bounds as B. pose proof (bpow_gt_0 radix2 (-46)). pose proof (bpow_gt_0 radix2 (-967)) as P0. destruct (Rle_lt_dec (bpow radix2 (-1022)) (Rabs y)) as [N|N].
  - pose proof (rnd_rel y N) as Q. assert (Rabs (rnd64 y) <= 2 * Rabs y).
    { replace (rnd64 y) with (y + (rnd64 y - y)) by ring. eapply Rle_trans; [apply Rabs_triang|]. pose proof (Rabs_pos y). unfold e15 in Q. lra. }
    apply Rle_trans with (sg * (4 * bpow radix2 (-967))); [lra|]. apply Rmult_le_compat_l; [lra|]. change 4 with (bpow radix2 2). rewrite <- bpow_plus. apply bpow_le. lia.
  - apply Rle_trans with (bpow radix2 (-1022)); [apply rnd_pow; [lia|lra]|]. apply Rle_trans with (bpow radix2 (-46 + -900)); [apply bpow_le; lia|]. apply bmul_ge; lra.
Qed.
Lemma ei_low : exists e, isf (fmul sigma_f (impr_f L args_f)) e /\ - (sg * bpow radix2 (-900)) <= e /\ (U <= - (37) -> Rabs e <= sg * bpow radix2 (-900)).
Proof.
  destruct args_acc as (q & Iq & Q). destruct sigma_acc as (r & Ir & R). pose proof sg_bounds as SB. pose proof (bpow_gt_0 radix2 (-46)).
  assert (R1 : sg / 2 <= r <= 2 * sg) by (unfold e15 in R; unfold Rabs in R; destruct (Rcase_abs (r - sg)); lra).
  pose proof (bpow_gt_0 radix2 (-900)) as P9. pose proof (bpow_gt_0 radix2 (-967)) as P967.
  assert (SM : forall i, Rabs i <= bpow radix2 (-967) -> isf (impr_f L args_f) i ->
    exists e, isf (fmul sigma_f (impr_f L args_f)) e /\ - (sg * bpow radix2 (-900)) <= e /\ (U <= - (37) -> Rabs e <= sg * bpow radix2 (-900))).
  { intros i HI Ii. assert (RI : Rabs (r * i) <= 2 * sg * bpow radix2 (-967)) by (rewrite Rabs_mult, (Rabs_pos_eq r) by lra; apply Rmult_le_compat; try lra; apply Rabs_pos).
    exists (rnd64 (r * i)). split.
    - apply fmul_R; [exact Ir|exact Ii|]. apply (small_pow _ 0); [lia|]. eapply Rle_trans; [exact RI|]. change 0%Z with (71 + -71)%Z. apply bmul.
      + change 71%Z with (1 + 70)%Z. rewrite <- bpow_2. lra.
      + split; [lra|apply bpow_le; lia].
    - pose proof (rnd_tail _ RI) as T. split; [|intros _; exact T]. unfold Rabs in T. destruct (Rcase_abs (rnd64 (r * i))); lra. }
  destruct (Rle_lt_dec q (- (369 / 10))) as [C|C].
  - destruct (Rle_lt_dec q (- (40))) as [C2|C2].
    + destruct (tail_far L A Z args_f q Iq) as (i & Ii & B).
      { split; [|exact C2]. pose proof U_bound. change 148%Z with (1 + 147)%Z. rewrite <- bpow_2. assert (1 <= bpow radix2 147) by (change 1 with (bpow radix2 0); apply bpow_le; lia).
        unfold e15, e20 in Q. unfold Rabs in *. destruct (Rcase_abs (q - U)), (Rcase_abs U); lra. }
      apply (SM i); [rewrite Rabs_pos_eq; lra|exact Ii].
    + destruct (tail_mid L A args_f q Iq ltac:(lra)) as (i & Ii & B). now apply (SM i).
  - destruct (impr_acc L A _ _ Iq ltac:(lra)) as (i & Ii & E). pose proof (impr_pos q) as PU. pose proof (impr_up q) as UP.
    assert (I1 : 0 < i <= 2 * impr q) by (unfold Rabs in E; destruct (Rcase_abs (i - impr q)); lra).
    assert (QB : Rabs q <= bpow radix2 148).
    { pose proof U_bound. change 148%Z with (1 + 147)%Z. rewrite <- bpow_2. assert (1 <= bpow radix2 147) by (change 1 with (bpow radix2 0); apply bpow_le; lia).
      unfold e15, e20 in Q. unfold Rabs in *. destruct (Rcase_abs (q - U)), (Rcase_abs U), (Rcase_abs q); lra. }
    exists (rnd64 (r * i)). split; [|split].
    + apply fmul_R; [exact Ir|exact Ii|]. apply (small_pow _ (71 + 150)); [lia|]. rewrite Rabs_pos_eq by (apply Rmult_le_pos; lra). apply bmul.
      * change 71%Z with (1 + 70)%Z. rewrite <- bpow_2. lra.
      * split; [lra|]. change 150%Z with (1 + (1 + 148))%Z. rewrite <- !bpow_2. assert (1 <= bpow radix2 148) by (change 1 with (bpow radix2 0); apply bpow_le; lia). lra.
    + apply Rle_trans with 0; [assert (0 < sg * bpow radix2 (-900)) by (apply Rmult_lt_0_compat; lra); lra|]. apply rnd_ge; [apply fmt_0|apply Rmult_le_pos; lra].
    + intros UU. exfalso. rewrite (Rabs_left1 U) in Q by lra. unfold e15, e20 in Q. 
      pose proof (Rle_abs (q - U)). lra.
Qed.
End Full.
