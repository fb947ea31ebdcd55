(** Likelihood of a Gaussian process: property C133. *)
From Coq Require Import Reals Lra Lia Arith.
From Coquelicot Require Import Coquelicot.
From Verif Require Import RVec Moe_Model Kern_Model Kern_Spec Kern_Proofs Gp_Model Gp_Spec Gp_Lin Gp_Proofs Gp_Grad Gp_Inv Gp_Exist
  Sgp_Model Sgp_Spec Lik_Spec Lik_Proofs.
Local Open Scope R_scope.

(** ** C133: the trend, the variance and the likelihood reported are those of the maximum of the Gaussian likelihood *)
(** Observations y are modelled as a Gaussian vector whose mean is the trend with coefficients b and whose covariance is s2 times
    the correlation matrix. The reported coefficients and variance give it the largest density, and the reported likelihood is
    the logarithm of this density up to a positive factor and a term which depends on the outputs only. *)
Theorem C133_maximum_likelihood : forall qr cond mk ck n nx h nt theta w nugget x y g th,
  fit qr cond mk ck n nx h nt theta w nugget x y = Some g ->
  is_qr n (trend_size mk nx) (i_ft (g_in g)) (qr n (trend_size mk nx) (i_ft (g_in g))) ->
  value_theta ck nt h theta = Some th ->
  0 < i_sigma2 (g_in g) ->
  let xd := fst (fst (normalize n x)) in
  let Rm := fun i j => if Nat.eqb i j then 1 + nugget else kval ck nx h th w (fun c => xd i c - xd j c) in
  let trend := fun b i => g_ymean g + g_ystd g * dot (trend_size mk nx) (trend_val mk nx (xd i)) b in
  exists lmax,
    gauss_log_density n (trend (i_beta (g_in g))) (fun i j => i_sigma2 (g_in g) * Rm i j) y lmax /\
    (forall b s2 l, 0 < s2 -> gauss_log_density n (trend b) (fun i j => s2 * Rm i j) y l -> l <= lmax) /\
    lmax = ln 10 / 2 * g_lkh g - INR n / 2 * (1 + ln (2 * PI)) - INR n * ln (g_ystd g).
Proof.
  intros qr cond mk ck n nx h nt theta w nugget x y g th Fit QR ET Pos xd Rm trend.
  assert (ER : Rmx ck n nx h nt theta w nugget x = Rm) by (unfold Rmx, Rm, theta_used; now rewrite ET).
  exists (best n g). split; [|split].
  - pose proof (best_eq _ _ _ _ _ _ _ _ _ _ _ _ _ _ Fit Pos) as B. unfold cov_of in B. rewrite ER in B. exact B.
  - intros b s2 l Hs D. apply (best_max _ _ _ _ _ _ _ _ _ _ _ _ _ _ Fit QR Pos b s2 l Hs). unfold cov_of. rewrite ER. exact D.
  - reflexivity.
Qed.
Print Assumptions C133_maximum_likelihood.

(** So, of two processes trained on the same outputs, whatever their kernels, trends and hyperparameters, the one with the larger
    reported likelihood is the one with the larger maximal density. *)
Theorem C133_ranking : forall qr cond n y mk ck nx h nt theta w nugget x g th mk' ck' nx' h' nt' theta' w' nugget' x' g' th',
  fit qr cond mk ck n nx h nt theta w nugget x y = Some g ->
  fit qr cond mk' ck' n nx' h' nt' theta' w' nugget' x' y = Some g' ->
  is_qr n (trend_size mk nx) (i_ft (g_in g)) (qr n (trend_size mk nx) (i_ft (g_in g))) ->
  is_qr n (trend_size mk' nx') (i_ft (g_in g')) (qr n (trend_size mk' nx') (i_ft (g_in g'))) ->
  value_theta ck nt h theta = Some th -> value_theta ck' nt' h' theta' = Some th' ->
  0 < i_sigma2 (g_in g) -> 0 < i_sigma2 (g_in g') ->
  let density := fun mk ck nx h th w nugget x g b s2 =>
    let xd := fst (fst (normalize n x)) in
    gauss_log_density n (fun i => g_ymean g + g_ystd g * dot (trend_size mk nx) (trend_val mk nx (xd i)) b)
      (fun i j => s2 * if Nat.eqb i j then 1 + nugget else kval ck nx h th w (fun c => xd i c - xd j c)) y in
  g_lkh g <= g_lkh g' <->
  (forall b s2 l, 0 < s2 -> density mk ck nx h th w nugget x g b s2 l ->
     exists b' s2' l', 0 < s2' /\ density mk' ck' nx' h' th' w' nugget' x' g' b' s2' l' /\ l <= l').
Proof.
  intros qr cond n y mk ck nx h nt theta w nugget x g th mk' ck' nx' h' nt' theta' w' nugget' x' g' th' F F' Q Q' T T' P P' density.
  destruct (C133_maximum_likelihood _ _ _ _ _ _ _ _ _ _ _ _ _ _ _ F Q T P) as [m [M1 [M2 M3]]].
  destruct (C133_maximum_likelihood _ _ _ _ _ _ _ _ _ _ _ _ _ _ _ F' Q' T' P') as [m' [M1' [M2' M3']]].
  assert (EY : g_ystd g = g_ystd g').
  { destruct (fit_inv _ _ _ _ _ _ _ _ _ _ _ _ _ _ F) as (t1 & r1 & ET & N1 & ER & EC & Eft & Err & Eco & EB & EG & ES & E0 & Ex & Eh & Ent & Em & Ec & Eth & Ew & Exd & Exm & Exs & Eym & Eys & Elk).
    rewrite Eys. clear - F'.
    destruct (fit_inv _ _ _ _ _ _ _ _ _ _ _ _ _ _ F') as (t1 & r1 & ET & N1 & ER & EC & Eft & Err & Eco & EB & EG & ES & E0 & Ex & Eh & Ent & Em & Ec & Eth & Ew & Exd & Exm & Exs & Eym & Eys & Elk).
    now rewrite Eys. }
  assert (L10 : 0 < ln 10) by (rewrite <- ln_1; apply ln_increasing; lra).
  assert (E : g_lkh g <= g_lkh g' <-> m <= m').
  { rewrite M3, M3', <- EY. set (c := INR n / 2 * (1 + ln (2 * PI))). set (e := INR n * ln (g_ystd g)). clearbody c e. set (a := ln 10 / 2).
    assert (Ha : 0 < a) by (unfold a; lra). clearbody a. split; intros H.
    - assert (a * g_lkh g <= a * g_lkh g') by (apply Rmult_le_compat_l; lra). lra.
    - apply (Rmult_le_reg_l a); lra. }
  rewrite E. split.
  - intros H b s2 l Hs D. exists (i_beta (g_in g')), (i_sigma2 (g_in g')), m'. split; [exact P'|]. split; [exact M1'|].
    pose proof (M2 b s2 l Hs D). lra.
  - intros H. destruct (H _ _ _ P M1) as (b' & s' & l' & Hs & D & Le). pose proof (M2' b' s' l' Hs D). lra.
Qed.
Print Assumptions C133_ranking.

(** Two observations, 0 and 2, satisfy these hypotheses. *)
Example C133_example : exists g, two_fit 2 = Some g /\ 0 < i_sigma2 (g_in g) /\
  is_qr 2 (trend_size Constant 1) (i_ft (g_in g)) (qr1 2 (trend_size Constant 1) (i_ft (g_in g))).
Proof.
  destruct (two_trained 2) as [g Fit]. exists g. split; [exact Fit|]. split; [|exact (qr1_trained _ _ _ _ _ _ _ _ _ _ _ _ Fit)].
  pose proof (sigma2_nonneg _ _ _ _ _ _ _ _ _ _ _ _ _ _ Fit) as N. destruct N as [N|Z]; [exact N|exfalso].
  destruct (two_gamma 2 g ltac:(lra) Fit) as [_ G1]. pose proof exp_m1 as Q. pose proof (sqrt_lt_R0 2 ltac:(lra)) as S.
  pose proof (ystd_pos _ _ _ _ _ _ _ _ _ _ _ _ _ _ Fit) as Hy.
  rewrite (sigma2_quad _ _ _ _ _ _ _ _ _ _ _ _ _ _ Fit) in Z.
  set (q := quad0 _ _ _ _ _ _ _ _ _ _) in Z. assert (Q0 : q = 0).
  { cbn [INR] in Z. destruct (Req_dec q 0) as [E|E]; [exact E|]. exfalso.
    assert (g_ystd g * g_ystd g <> 0) by (apply Rmult_integral_contrapositive_currified; lra).
    apply (Rmult_integral_contrapositive_currified (q / (1 + 1)) (g_ystd g * g_ystd g)); [|assumption|symmetry; exact Z].
    apply Rmult_integral_contrapositive_currified; [exact E|]. apply Rinv_neq_0_compat. lra. }
  unfold q, quad0 in Q0. rewrite (quad_pos _ _ _ _ _ _ _ _ _ _ _ _ _ _ Fit) in Q0.
  pose proof (Lt_inj _ _ _ _ _ _ _ _ _ _ _ _ _ _ Fit _ (dot_zero _ _ Q0) 1%nat ltac:(lia)) as G. rewrite G1 in G.
  assert (0 < sqrt 2 / 2 / (1 - exp (-1))) by (apply Rdiv_lt_0_compat; lra). lra.
Qed.
