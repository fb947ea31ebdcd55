(** Validity of the correlations: properties C123-C126. *)
From Coq Require Import Reals Lra Lia Arith.
From Coquelicot Require Import Coquelicot.
From Coq Require Import List Bool.
From Verif Require Import RVec Moe_Model Kern_Model Kern_Spec Kern_Proofs Kern_Pd Gp_Model Gp_Spec Gp_Lin Gp_Proofs Gp_Grad Gp_Inv Gp_Exist
  Tune_Model Sgp_Model Sgp_Spec Sgp_Proofs Pd_Proofs Properties_Gp Properties_Sgp.
Import ListNotations.
Local Open Scope R_scope.

(** ** C123: correlations of any set of points *)
(** No weighted sum of values with these correlations has a negative variance. *)
Theorem C123_semidefinite : forall (ck : corr_kind) (nx h : nat) (theta : vec) (w : mat) (n : nat) (x : mat) (c : vec),
  (forall l, (l < h)%nat -> 0 <= theta l) ->
  0 <= sumn n (fun i => sumn n (fun j => c i * c j * kval ck nx h theta w (fun a => x i a - x j a))).
Proof.
  intros ck nx h theta w n x c T. pose proof (psd_kernel n ck nx h theta w x T c) as P. rewrite quad_sum in P.
  erewrite sumn_ext; [exact P|]. intros i Hi. apply sumn_ext. intros j Hj. now rewrite kval_documented.
Qed.
Print Assumptions C123_semidefinite.
(** With a positive nugget, weighted sums have a positive variance, even when points coincide. *)
Theorem C123_definite : forall (ck : corr_kind) (nx h : nat) (theta : vec) (w : mat) (nugget : R) (n : nat) (x : mat) rows ind d,
  cross_diff n x = Some (rows, ind, d) -> (0 < n)%nat -> (forall l, (l < h)%nat -> 0 <= theta l) -> 0 < nugget ->
  positive_definite n (corr_matrix rows ind (fun r => kval ck nx h theta w (d r)) nugget).
Proof.
  intros ck nx h theta w nugget n x rows ind d E N T Nu v Hv.
  destruct (C53_correlation_matrix n x ck nx h theta w nugget rows ind d E N) as (D & _ & O).
  pose proof (nugget_pd ck nx h theta w T n x 1 nugget ltac:(lra) Nu v Hv) as P.
  match type of P with 0 < ?a => match goal with |- 0 < ?b => replace b with a; [exact P|] end end.
  apply dot_ext; [reflexivity|]. intros i Hi. apply sumn_ext. intros j Hj. f_equal. destruct (Nat.eqb_spec i j) as [->|Ne].
  - rewrite (D j Hj), kval_zero by (intros; ring). ring.
  - rewrite (O i j Hi Hj Ne). ring.
Qed.
Print Assumptions C123_definite.
Example C123_example : 0 < sumn 2 (fun i => sumn 2 (fun j => (1 - 2 * INR i) * (1 - 2 * INR j) * kval AbsoluteExponential 1 1 (fun _ => 1) (fun _ _ => 1) (fun a => INR i - INR j))).
Proof.
  cbn [sumn]. rewrite !kval_documented. unfold documented_kernel. cbn [prodn profile INR].
  replace (Rabs (1 * (0 - 0))) with 0 by (rewrite Rminus_0_r, Rmult_0_r, Rabs_R0; reflexivity).
  replace (Rabs (1 * (1 - 1))) with 0 by (replace (1 * (1 - 1)) with 0 by ring; now rewrite Rabs_R0).
  replace (Rabs (1 * (0 - 1))) with 1 by (replace (1 * (0 - 1)) with (- (1)) by ring; rewrite Rabs_Ropp; symmetry; apply Rabs_R1).
  replace (Rabs (1 * (1 - 0))) with 1 by (replace (1 * (1 - 0)) with 1 by ring; symmetry; apply Rabs_R1).
  rewrite !Rmult_0_r, !Ropp_0, exp_0. replace (- (1 * 1)) with (-1) by ring. generalize exp_m1. lra.
Qed.

(** ** C124: training always succeeds with a positive nugget *)
(** Whatever the data, repeated points included: training on two points or more fails only when the trend matrix is reported as
    ill-conditioned. *)
Theorem C124_trains : forall qr cond mk ck n nx h nt theta w nugget x y th,
  value_theta ck nt h theta = Some th -> (1 < n)%nat -> (forall l, (l < h)%nat -> 0 <= th l) -> 0 < nugget -> (forall a, cond a = true) ->
  exists g, fit qr cond mk ck n nx h nt theta w nugget x y = Some g.
Proof.
  intros qr cond mk ck n nx h nt theta w nugget x y th ET N T Nu C.
  apply (fit_succeeds _ _ _ _ _ _ _ _ _ _ _ _ _ th ET N); [|intros L; apply C].
  apply Rmx_pd; [|exact Nu]. unfold theta_used. now rewrite ET.
Qed.
Print Assumptions C124_trains.
(** Five times the same point, with different outputs. *)
Example C124_example : exists g, fit qr1 (fun _ => true) Constant Matern32 5 2 2 1 (fun _ => 1 / 100) (fun i j => if Nat.eqb i j then 1 else 0) (/ 10 ^ 12) (fun _ _ => 3) (fun i => INR i) = Some g.
Proof.
  apply (C124_trains _ _ _ _ _ _ _ _ _ _ _ _ _ (fun _ => 1 / 100)); [reflexivity|lia|intros; lra| |reflexivity].
  apply Rinv_0_lt_compat, pow_lt. lra.
Qed.

(** ** C125: covariances of predictions are covariances *)
Theorem C125_covariance : forall qr cond mk ck n nx h nt theta w nugget x y g th,
  fit qr cond mk ck n nx h nt theta w nugget x y = Some g -> value_theta ck nt h theta = Some th ->
  (forall l, (l < h)%nat -> 0 <= th l) -> 0 <= nugget ->
  forall m (x' cov : mat), (forall i k, (i < m)%nat -> (k < m)%nat -> compute_covariance g m x' i k = Some (cov i k)) ->
  forall c, 0 <= sumn m (fun i => sumn m (fun k => c i * c k * cov i k)).
Proof.
  intros qr cond mk ck n nx h nt theta w nugget x y g th Fit ET T Nu m x' cov C c. rewrite <- quad_sum.
  apply (covariance_psd qr cond mk ck n nx h nt theta w nugget x y) with (x' := x') (g := g); try assumption.
  unfold theta_used. now rewrite ET.
Qed.
Print Assumptions C125_covariance.
(** The lower limit 0 of the predicted variance is never what is returned in place of a negative number: the variance is the
    process variance times the mean squared error of the prediction. *)
Theorem C125_variance : forall qr cond mk ck n nx h nt theta w nugget x y g th,
  fit qr cond mk ck n nx h nt theta w nugget x y = Some g -> value_theta ck nt h theta = Some th ->
  (forall l, (l < h)%nat -> 0 <= th l) -> 0 <= nugget ->
  is_qr n (trend_size mk nx) (i_ft (g_in g)) (qr n (trend_size mk nx) (i_ft (g_in g))) ->
  let xd := fst (fst (normalize n x)) in
  let Rm := fun i j => if Nat.eqb i j then 1 + nugget else kval ck nx h th w (fun c => xd i c - xd j c) in
  let Fm := fun i => trend_val mk nx (xd i) in
  forall x' i,
  let r := fun j => kval ck nx h th w (fun c => xnorm g (x' i) c - xd j c) in
  let f := trend_val mk nx (xnorm g (x' i)) in
  exists mu, unbiased n (trend_size mk nx) Fm f mu /\ 0 <= sq_error n Rm r mu /\
    predict_var g x' i = Some (i_sigma2 (g_in g) * sq_error n Rm r mu) /\
    (forall mu', unbiased n (trend_size mk nx) Fm f mu' -> sq_error n Rm r mu <= sq_error n Rm r mu').
Proof.
  intros qr cond mk ck n nx h nt theta w nugget x y g th Fit ET T Nu QR xd Rm Fm x' i r f.
  destruct (C91_best_linear_unbiased _ _ _ _ _ _ _ _ _ _ _ _ _ g th Fit QR ET x' i) as (mu & U & _ & V & M).
  exists mu. split; [exact U|].
  assert (Q : 0 <= sq_error n Rm r mu).
  { pose proof (blocks ck nx h th w T 1 n (fun _ => xnorm g (x' i)) xd (fun _ => 1) mu) as B. unfold sq_error.
    cbn [sumn] in B. rewrite K_one in B.
    assert (E1 : dot n mu (fun j => 0 + 1 * kval ck nx h th w (fun c => xnorm g (x' i) c - xd j c)) = dot n mu r).
    { apply dot_ext; [reflexivity|]. intros j Hj. unfold r. ring. }
    rewrite E1 in B.
    assert (E2 : dot n mu (mv n Rm mu) = dot n mu (mv n (fun i j => kval ck nx h th w (fun c => xd i c - xd j c)) mu) + nugget * dot n mu mu).
    { rewrite <- diag_quad. apply dot_ext; [reflexivity|]. intros a Ha. apply sumn_ext. intros b Hb. f_equal. unfold Rm.
      destruct (Nat.eqb_spec a b) as [->|]; [|ring]. rewrite (kval_zero ck nx h th w (fun c => xd b c - xd b c)) by (intros; ring). ring. }
    pose proof (Rmult_le_pos _ _ Nu (dot_nonneg n mu)) as P. lra. }
  split; [exact Q|]. split; [|exact M]. rewrite V. f_equal. apply Rmax_right.
  apply Rmult_le_pos; [exact (sigma2_nonneg _ _ _ _ _ _ _ _ _ _ _ _ _ _ Fit)|exact Q].
Qed.
Print Assumptions C125_variance.
Example C125_example : exists g, two_fit 1 = Some g /\ forall m x' cov,
  (forall i k, (i < m)%nat -> (k < m)%nat -> compute_covariance g m x' i k = Some (cov i k)) -> forall c, 0 <= sumn m (fun i => sumn m (fun k => c i * c k * cov i k)).
Proof.
  destruct (two_trained 1) as [g Fit]. exists g. split; [exact Fit|].
  apply (C125_covariance _ _ _ _ _ _ _ _ _ _ _ _ _ g (fun _ => 1) Fit); [reflexivity|intros; lra|lra].
Qed.

(** ** C126: sparse models *)
Theorem C126_trains : forall method ck m n nx h theta w sigma2 noise nugget z x y,
  (forall l, (l < h)%nat -> 0 <= theta l) -> 0 <= sigma2 -> 0 < nugget ->
  match method with Fitc => 0 < noise | Vfe => True end ->
  exists g, sgp_build method ck m n nx h theta w sigma2 noise nugget z x y = Some g.
Proof.
  intros method ck m n nx h theta w sigma2 noise nugget z x y T S N H.
  apply C103_trains; [apply Kz_pd; assumption|]. destruct method.
  - intros j q Hj Q. generalize (explained_le ck m nx h theta w sigma2 nugget z T S (x j) q ltac:(lra) Q). lra.
  - generalize (Rmax_r noise nugget). lra.
Qed.
Print Assumptions C126_trains.
(** The variance predicted with the FITC method is between the noise and the prior variance plus the noise. *)
Theorem C126_fitc_variance : forall ck m n nx h theta w sigma2 noise nugget z x y g p,
  sgp_build Fitc ck m n nx h theta w sigma2 noise nugget z x y = Some g ->
  (forall l, (l < h)%nat -> 0 <= theta l) -> 0 <= sigma2 -> 0 <= nugget -> 0 < noise ->
  0 <= sgp_raw_var g p <= sigma2 /\ noise <= sgp_predict_var g p <= Rmax var_floor sigma2 + noise.
Proof.
  intros ck m n nx h theta w sigma2 noise nugget z x y g p B T S N H.
  destruct (fitc_build _ _ _ _ _ _ _ _ _ _ _ _ _ g B) as (u & l & Ch & ChA & _ & Va & _ & No).
  pose proof (explained_le ck m nx h theta w sigma2 nugget z T S p _ N (white_nystrom ck m nx h theta w sigma2 nugget z u Ch p p)) as E.
  assert (P : forall j, (j < n)%nat -> 0 < fnu ck m nx h theta w sigma2 noise z x u j).
  { intros j Hj. unfold fnu. generalize (explained_le ck m nx h theta w sigma2 nugget z T S (x j) _ N (white_nystrom ck m nx h theta w sigma2 nugget z u Ch (x j) (x j))). lra. }
  pose proof (whitened_le m n (Vm ck m nx h theta w sigma2 z x u) _ l (white ck m nx h theta w sigma2 z u p) P ChA) as W.
  pose proof (dot_nonneg m (fsub m l (white ck m nx h theta w sigma2 z u p))) as D.
  assert (R : 0 <= sgp_raw_var g p <= sigma2) by (rewrite Va; lra).
  split; [exact R|]. unfold sgp_predict_var. rewrite No.
  assert (F : 0 < var_floor) by (unfold var_floor; apply Rinv_0_lt_compat, pow_lt; lra).
  pose proof (Rmax_l var_floor sigma2). pose proof (Rmax_r var_floor sigma2). destruct (Rlt_dec _ _); lra.
Qed.
Print Assumptions C126_fitc_variance.
(** Trajectories of sparse models are sampled with a valid covariance. *)
Theorem C126_sample_covariance : forall method ck m n nx h theta w sigma2 noise nugget z x y g,
  sgp_build method ck m n nx h theta w sigma2 noise nugget z x y = Some g ->
  (forall l, (l < h)%nat -> 0 <= theta l) -> 0 <= sigma2 ->
  forall k xs c, 0 <= sumn k (fun i => sumn k (fun j => c i * c j * sgp_sample_cov g xs i j)).
Proof.
  intros method ck m n nx h theta w sigma2 noise nugget z x y g B T S k xs c.
  rewrite (sumn_ext k _ (fun i => sumn k (fun j => sigma2 * (c i * c j * kval ck nx h theta w (fun a => xs i a - xs j a))))).
  - rewrite (sumn_ext k _ (fun i => sigma2 * sumn k (fun j => c i * c j * kval ck nx h theta w (fun a => xs i a - xs j a)))) by (intros; apply sumn_scal_l).
    rewrite sumn_scal_l. apply Rmult_le_pos; [exact S|]. now apply C123_semidefinite.
  - intros i Hi. apply sumn_ext. intros j Hj. rewrite (C104_prior_partial _ _ _ _ _ _ _ _ _ _ _ _ _ _ g xs i j B).
    unfold prior. rewrite <- kval_documented. ring.
Qed.
Print Assumptions C126_sample_covariance.
(** Three times the same inducing point and ten times the same training point. *)
Example C126_example : exists g, sgp_build Fitc Matern52 3 10 1 1 (fun _ => 1) (fun _ _ => 1) 1 (1 / 100) (/ 10 ^ 10) at0 at0 (fun i => INR i) = Some g /\
  1 / 100 <= sgp_predict_var g (at0 O) <= Rmax var_floor 1 + 1 / 100.
Proof.
  assert (P : 0 < / 10 ^ 10) by (apply Rinv_0_lt_compat, pow_lt; lra).
  destruct (C126_trains Fitc Matern52 3 10 1 1 (fun _ => 1) (fun _ _ => 1) 1 (1 / 100) (/ 10 ^ 10) at0 at0 (fun i => INR i)) as [g B]; [intros; lra|lra|exact P|lra|].
  exists g. split; [exact B|]. apply (C126_fitc_variance _ _ _ _ _ _ _ _ _ _ _ _ _ g (at0 O) B); intros; lra.
Qed.
