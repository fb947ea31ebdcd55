(** Gradients of sparse Gaussian processes (C141). *)
From Coq Require Import Reals Lra Lia Arith FunctionalExtensionality.
From Coquelicot Require Import Coquelicot.
From Coq Require Import List Bool.
From Verif Require Import RVec Moe_Model Kern_Model Kern_Spec Kern_Proofs Gp_Model Gp_Spec Gp_Lin Gp_Grad Sgp_Model Sgp_Spec Sgp_Proofs Properties_Sgp SgpGrad_Model SgpGrad_Proofs.
Local Open Scope R_scope.

Local Lemma sumn_exists n (P : nat -> R -> Prop) : (forall i, (i < n)%nat -> exists a, P i a) -> exists d, forall i, (i < n)%nat -> P i (d i).
Proof.
  induction n as [|n IH]; intros H; [exists (fun _ => 0); intros; lia|].
  destruct IH as [d Hd]; [intros; apply H; lia|]. destruct (H n) as [a Ha]; [lia|].
  exists (fun i => if Nat.eqb i n then a else d i). intros i Hi. destruct (Nat.eqb_spec i n) as [->|]; [exact Ha|apply Hd; lia].
Qed.
Local Lemma ex_sumn n (f : nat -> R -> R) x : (forall i, (i < n)%nat -> exists a, is_derive (f i) x a) -> exists a, is_derive (fun t => sumn n (fun i => f i t)) x a.
Proof. intros H. destruct (sumn_exists n (fun i a => is_derive (f i) x a) H) as [d Hd]. eexists. apply derive_sumn with (d := d). exact Hd. Qed.
(** The kernel is differentiable along coordinate j. *)
Local Lemma kval_ex ck nx h th w p z j t : (j < nx)%nat -> (ck = AbsoluteExponential -> t <> z j) ->
  exists d, is_derive (fun s => kval ck nx h th w (differences (upd p j s) z)) t d.
Proof.
  intros Hj N. eexists. apply (partial_upd (fun q => kval ck nx h th w (differences q z))). apply kval_partial; [exact Hj|]. now rewrite upd_at.
Qed.
Local Lemma kval_swap ck nx h th w a b : kval ck nx h th w (differences a b) = kval ck nx h th w (differences b a).
Proof. apply kval_ext. intros j _. unfold differences. apply Rabs_minus_sym. Qed.
Local Lemma predict_ex g p j t : (j < s_nx g)%nat -> (s_corr g = AbsoluteExponential -> forall k, (k < s_m g)%nat -> t <> s_z g k j) ->
  exists d, partial (sgp_predict g) (upd p j t) j d.
Proof.
  intros Hj N. destruct (ex_sumn (s_m g) (fun k s => compute_k (s_corr g) (s_nx g) (s_h g) (s_theta g) (s_w g) (s_sigma2 g) (fun _ => upd p j s) (s_z g) O k * wd_vec (s_wd g) k) t) as [d Hd].
  - intros k Hk. destruct (kval_ex (s_corr g) (s_nx g) (s_h g) (s_theta g) (s_w g) p (s_z g k) j t Hj) as [a Ha]; [intros E; now apply N|].
    eexists. unfold compute_k. apply derive_scal_r. apply derive_scal_r. exact Ha.
  - exists d. apply partial_upd. exact Hd.
Qed.
Local Lemma raw_var_ex g p j t : (j < s_nx g)%nat -> (s_corr g = AbsoluteExponential -> forall k, (k < s_m g)%nat -> t <> s_z g k j) ->
  exists d, is_derive (fun s => sgp_raw_var g (upd p j s)) t d.
Proof.
  intros Hj N.
  assert (K : forall k, (k < s_m g)%nat -> exists a, is_derive (fun s => compute_k (s_corr g) (s_nx g) (s_h g) (s_theta g) (s_w g) (s_sigma2 g) (s_z g) (fun _ => upd p j s) k O) t a).
  { intros k Hk. destruct (kval_ex (s_corr g) (s_nx g) (s_h g) (s_theta g) (s_w g) p (s_z g k) j t Hj) as [a Ha]; [intros E; now apply N|].
    eexists. unfold compute_k. apply derive_scal_r. eapply derive_ext; [|exact Ha]. intros s. apply kval_swap. }
  destruct (ex_sumn (s_m g) (fun i s => sumn (s_m g) (fun k => wd_inv (s_wd g) k i * compute_k (s_corr g) (s_nx g) (s_h g) (s_theta g) (s_w g) (s_sigma2 g) (s_z g) (fun _ => upd p j s) k O)
      * compute_k (s_corr g) (s_nx g) (s_h g) (s_theta g) (s_w g) (s_sigma2 g) (s_z g) (fun _ => upd p j s) i O) t) as [d Hd].
  - intros i Hi. destruct (K i Hi) as [b Hb].
    destruct (ex_sumn (s_m g) (fun k s => wd_inv (s_wd g) k i * compute_k (s_corr g) (s_nx g) (s_h g) (s_theta g) (s_w g) (s_sigma2 g) (s_z g) (fun _ => upd p j s) k O) t) as [a Ha].
    + intros k Hk. destruct (K k Hk) as [c Hc]. eexists. apply derive_scal_l. exact Hc.
    + eexists. apply derive_mult; [exact Ha|exact Hb].
  - eexists. unfold sgp_raw_var. apply derive_minus; [apply derive_const|exact Hd].
Qed.

(** ** C141: gradients of sparse models *)

(** Every component of the gradient of the mean is the exact derivative of the mean at a point which differs from the given one by less
    than 6.1e-6 in that component only; with the absolute exponential correlation, if no inducing point is that close. *)
Theorem C141_nearby_partial : forall g p j, (j < s_nx g)%nat ->
  (s_corr g = AbsoluteExponential -> forall k, (k < s_m g)%nat -> 61 / 10000000 <= Rabs (p j - s_z g k j)) ->
  exists t, Rabs (t - p j) < 61 / 10000000 /\ partial (sgp_predict g) (upd p j t) j (sgp_gradient g p j).
Proof.
  intros g p j Hj N. pose proof fd_step_bounds as B.
  destruct (central_mean_value (sgp_predict g) p j) as (t & Ht & D).
  - intros t Ht. apply predict_ex; [exact Hj|]. intros E k Hk Et. specialize (N E k Hk). rewrite <- Et, Rabs_minus_sym in N. lra.
  - exists t. split; [lra|exact D].
Qed.
Print Assumptions C141_nearby_partial.

(** The same of the variance, as long as the computed variance stays on one side of its lower limit 1e-15 around the point: above, it is
    the derivative of the returned variance at a close point; below, the gradient is zero. *)
Theorem C141_variance_partial : forall g p j, (j < s_nx g)%nat ->
  (s_corr g = AbsoluteExponential -> forall k, (k < s_m g)%nat -> 61 / 10000000 <= Rabs (p j - s_z g k j)) ->
  ((forall t, Rabs (t - p j) < 61 / 10000000 -> var_floor <= sgp_raw_var g (upd p j t)) \/
   (forall t, Rabs (t - p j) < 61 / 10000000 -> sgp_raw_var g (upd p j t) < var_floor)) ->
  exists t, Rabs (t - p j) < 61 / 10000000 /\ partial (sgp_predict_var g) (upd p j t) j (sgp_var_gradient g p j).
Proof.
  intros g p j Hj N Side. pose proof fd_step_bounds as B.
  assert (E : exists F : R -> R, (forall t, Rabs (t - p j) < 61 / 10000000 -> sgp_predict_var g (upd p j t) = F t) /\ forall t, Rabs (t - p j) < 61 / 10000000 -> exists d, is_derive F t d).
  { destruct Side as [S|S].
    - exists (fun t => sgp_raw_var g (upd p j t) + s_noise g). split.
      + intros t Ht. unfold sgp_predict_var. specialize (S t Ht). destruct (Rlt_dec _ _); [lra|reflexivity].
      + intros t Ht. destruct (raw_var_ex g p j t Hj) as [d Hd].
        * intros Ek k Hk Et. specialize (N Ek k Hk). rewrite <- Et, Rabs_minus_sym in N. lra.
        * eexists. apply derive_plus; [exact Hd|apply derive_const].
    - exists (fun _ => var_floor + s_noise g). split.
      + intros t Ht. unfold sgp_predict_var. specialize (S t Ht). destruct (Rlt_dec _ _); [reflexivity|lra].
      + intros t Ht. eexists. apply derive_const. }
  destruct E as (F & EF & DF).
  destruct (central_mean_value (sgp_predict_var g) p j) as (t & Ht & D); [|exists t; split; [lra|exact D]].
  intros t Ht. destruct (DF t) as [d Hd]; [lra|]. exists d. apply partial_upd.
  apply is_derive_ext_loc with F; [|exact Hd].
  assert (Pe : 0 < 61 / 10000000 - Rabs (t - p j)) by lra. exists (mkposreal _ Pe). intros s Hs. symmetry. apply EF.
  change (Rabs (s - t) < 61 / 10000000 - Rabs (t - p j)) in Hs. replace (s - p j) with ((s - t) + (t - p j)) by ring.
  apply Rle_lt_trans with (1 := Rabs_triang _ _). lra.
Qed.
Print Assumptions C141_variance_partial.

Local Lemma se_split nx h th w p z j : (j < nx)%nat -> exists a, 0 < a <= 1 /\
  forall t, sqexp_value nx h th w (differences (upd p j t) z) = a * gauss (sq_theta_w h th w j / 2) (t - z j).
Proof.
  intros Hj. exists (exp (- / 2 * sumn nx (fun i => if Nat.eqb i j then 0 else (p i - z i) * (p i - z i) * sq_theta_w h th w i))). split.
  - split; [apply exp_pos|]. rewrite <- exp_0. assert (0 <= sumn nx (fun i => if Nat.eqb i j then 0 else (p i - z i) * (p i - z i) * sq_theta_w h th w i)).
    { apply sumn_nonneg. intros i _. destruct (Nat.eqb i j); [lra|].
      apply Rmult_le_pos; [apply Rle_0_sqr|]. unfold sq_theta_w. apply sumn_nonneg. intros l _. apply Rle_0_sqr. }
    destruct (Req_dec (sumn nx (fun i => if Nat.eqb i j then 0 else (p i - z i) * (p i - z i) * sq_theta_w h th w i)) 0) as [E|E].
    + rewrite E, Rmult_0_r. lra.
    + apply Rlt_le, exp_increasing. lra.
  - intros s. unfold sqexp_value, gauss. rewrite <- exp_plus. f_equal.
    rewrite (sumn_ext nx _ (fun i => (if Nat.eqb i j then 0 else (p i - z i) * (p i - z i) * sq_theta_w h th w i) + (if Nat.eqb i j then (s - z j) * (s - z j) * sq_theta_w h th w j else 0))).
    + rewrite sumn_plus, (sumn_only nx (fun i => if Nat.eqb i j then (s - z j) * (s - z j) * sq_theta_w h th w j else 0) j Hj).
      * rewrite Nat.eqb_refl. field.
      * intros i _ Ni. now apply Nat.eqb_neq in Ni as ->.
    + intros i _. rewrite diff_upd. destruct (Nat.eqb_spec i j) as [->|]; ring.
Qed.
Local Lemma gauss_derive c u : is_derive (gauss c) u (- (2 * c * u) * gauss c u).
Proof. unfold gauss. auto_derive; [exact I|ring]. Qed.
Local Lemma gauss_derive2 c u : is_derive (fun u => - (2 * c * u) * gauss c u) u ((4 * (c * c) * (u * u) - 2 * c) * gauss c u).
Proof. unfold gauss. auto_derive; [exact I|ring]. Qed.
Local Lemma gauss_derive3 c u : is_derive (fun u => (4 * (c * c) * (u * u) - 2 * c) * gauss c u) u ((12 * (c * c) * u - 8 * (c * c * c) * (u * u * u)) * gauss c u).
Proof. unfold gauss. auto_derive; [exact I|ring]. Qed.
Local Lemma shift_derive (f : R -> R) (d z t : R) : is_derive f (t - z) d -> is_derive (fun t => f (t - z)) t d.
Proof.
  intros H. eapply derive_eq; [apply (derive_comp f (fun t => t - z)); [|exact H]; apply derive_minus; [apply derive_id|apply derive_const]|]. ring.
Qed.
Local Lemma sumn_tri n f : Rabs (sumn n f) <= sumn n (fun i => Rabs (f i)).
Proof. induction n as [|n IH]; cbn [sumn]; [rewrite Rabs_R0; lra|]. apply Rle_trans with (1 := Rabs_triang _ _). lra. Qed.

(** Squared exponential correlation: the mean has a partial derivative everywhere and the returned component differs from it by at most
    (7/3) step^2 c^(3/2) sigma2 sum_k |v_k|, where the v_k are the coefficients of the inducing points in the mean
    (mean(x) = sum_k sigma2 exp(...) v_k) and c is half of the coefficient of (x_j - z_kj)^2 in twice the exponent. *)
Theorem C141_squared_exponential : forall g p j, s_corr g = SquaredExponential -> (j < s_nx g)%nat -> 0 <= s_sigma2 g ->
  let c := sumn (s_h g) (fun l => (s_theta g l * s_w g j l) * (s_theta g l * s_w g j l)) / 2 in
  exists d, partial (sgp_predict g) p j d /\
    Rabs (sgp_gradient g p j - d) <= 7 / 3 * (61 / 10000000) ^ 2 * (c * sqrt c) * s_sigma2 g * sumn (s_m g) (fun k => Rabs (wd_vec (s_wd g) k)).
Proof.
  intros g p j Ek Hj Hs c. pose proof fd_step_bounds as B.
  assert (Hc : 0 <= c). { unfold c. assert (0 <= sumn (s_h g) (fun l => (s_theta g l * s_w g j l) * (s_theta g l * s_w g j l))); [|lra].
    apply sumn_nonneg. intros l _. apply Rle_0_sqr. }
  assert (A : exists a, forall k, (k < s_m g)%nat -> 0 < a k <= 1 /\ forall t, sqexp_value (s_nx g) (s_h g) (s_theta g) (s_w g) (differences (upd p j t) (s_z g k)) = a k * gauss c (t - s_z g k j)).
  { apply (sumn_exists (s_m g) (fun k a => 0 < a <= 1 /\ forall t, sqexp_value (s_nx g) (s_h g) (s_theta g) (s_w g) (differences (upd p j t) (s_z g k)) = a * gauss c (t - s_z g k j))).
    intros k _. apply (se_split (s_nx g) (s_h g) (s_theta g) (s_w g) p (s_z g k) j Hj). }
  destruct A as [a Ha].
  set (co := fun k => a k * s_sigma2 g * wd_vec (s_wd g) k).
  set (f := fun t => sumn (s_m g) (fun k => gauss c (t - s_z g k j) * co k)).
  set (f1 := fun t => sumn (s_m g) (fun k => - (2 * c * (t - s_z g k j)) * gauss c (t - s_z g k j) * co k)).
  set (f2 := fun t => sumn (s_m g) (fun k => (4 * (c * c) * ((t - s_z g k j) * (t - s_z g k j)) - 2 * c) * gauss c (t - s_z g k j) * co k)).
  set (f3 := fun t => sumn (s_m g) (fun k => (12 * (c * c) * (t - s_z g k j) - 8 * (c * c * c) * ((t - s_z g k j) * (t - s_z g k j) * (t - s_z g k j))) * gauss c (t - s_z g k j) * co k)).
  set (W := sumn (s_m g) (fun k => Rabs (wd_vec (s_wd g) k))).
  assert (Ef : forall t, sgp_predict g (upd p j t) = f t).
  { intros t. unfold sgp_predict, f, compute_k. rewrite Ek. apply sumn_ext. intros k Hk. cbn [kval]. rewrite (proj2 (Ha k Hk)). unfold co. ring. }
  assert (D1 : forall t, is_derive f t (f1 t)).
  { intros t. apply derive_sumn. intros k _. apply derive_scal_r. apply (shift_derive (gauss c)). apply gauss_derive. }
  assert (D2 : forall t, is_derive f1 t (f2 t)).
  { intros t. apply derive_sumn. intros k _. apply derive_scal_r. apply (shift_derive (fun u => - (2 * c * u) * gauss c u)). apply gauss_derive2. }
  assert (D3 : forall t, is_derive f2 t (f3 t)).
  { intros t. apply derive_sumn. intros k _. apply derive_scal_r. apply (shift_derive (fun u => (4 * (c * c) * (u * u) - 2 * c) * gauss c u)). apply gauss_derive3. }
  assert (B3 : forall t, Rabs (f3 t) <= 14 * (c * sqrt c) * (s_sigma2 g * W)).
  { intros t. apply Rle_trans with (1 := sumn_tri _ _). unfold W. rewrite <- !sumn_scal_l. apply sumn_le. intros k Hk. rewrite Rabs_mult.
    apply Rmult_le_compat; [apply Rabs_pos|apply Rabs_pos|now apply gauss_third|]. unfold co. rewrite !Rabs_mult, (Rabs_right (a k)), (Rabs_right (s_sigma2 g)) by (try (destruct (Ha k Hk)); lra).
    apply Rmult_le_compat_r; [apply Rabs_pos|]. replace (s_sigma2 g) with (1 * s_sigma2 g) at 2 by ring. apply Rmult_le_compat_r; [exact Hs|]. apply (Ha k Hk). }
  exists (f1 (p j)). split.
  - unfold partial. apply derive_ext with f; [intros t; symmetry; apply Ef|apply D1].
  - unfold sgp_gradient, central_diff. rewrite !Ef. apply Rle_trans with (1 := central_error f f1 f2 f3 _ (p j) fd_step ltac:(lra) D1 D2 D3 B3).
    assert (Q : fd_step * fd_step <= (61 / 10000000) ^ 2) by (cbn [pow]; rewrite Rmult_1_r; apply Rmult_le_compat; lra).
    replace (7 / 3 * (61 / 10000000) ^ 2 * (c * sqrt c) * s_sigma2 g * W) with (14 * (c * sqrt c) * (s_sigma2 g * W) * (61 / 10000000) ^ 2 / 6) by field.
    unfold Rdiv at 1 2. apply Rmult_le_compat_r; [lra|]. apply Rmult_le_compat_l; [|exact Q].
    apply Rle_trans with (2 := B3 0). apply Rabs_pos.
Qed.
Print Assumptions C141_squared_exponential.

(** One inducing point, one training point, at 0; squared exponential correlation of any inverse length theta. *)
Definition one_scale (theta : R) : option sgp := sgp_build Fitc SquaredExponential 1 1 1 1 (fun _ => theta) (fun _ _ => 1) 1 1 0 at0 at0 (fun _ => 1).
Local Lemma prior_same theta i j : prior SquaredExponential 1 1 (fun _ => theta) (fun _ _ => 1) 1 (at0 i) (at0 j) = 1.
Proof. unfold prior. rewrite <- kval_documented, kval_zero; [ring|]. intros; unfold at0; ring. Qed.
Local Lemma same_nystrom theta ka kb q : (forall k, ka k = 1) -> (forall k, kb k = 1) ->
  nystrom 1 (prior_z SquaredExponential 1 1 (fun _ => theta) (fun _ _ => 1) 1 0 at0) ka kb q <-> q = 1.
Proof.
  intros Ha Hb. unfold nystrom, solves, dot, mv. cbn [sumn]. split.
  - intros (t & S & ->). specialize (S O ltac:(lia)). unfold prior_z in S. rewrite prior_same in S. cbn [Nat.eqb] in S. rewrite Hb in S. rewrite Ha. lra.
  - intros ->. exists (fun _ => 1). split; [|rewrite Ha; ring].
    intros i Hi. assert (i = O) by lia. subst i. unfold prior_z. rewrite prior_same. cbn [Nat.eqb]. rewrite Hb. ring.
Qed.
Local Lemma one_scale_predict theta : exists g, one_scale theta = Some g /\ s_nx g = 1%nat /\ s_corr g = SquaredExponential /\
  forall p, sgp_predict g p = / 2 * exp (- (theta * theta / 2 * (p O * p O))).
Proof.
  assert (T : exists g, one_scale theta = Some g).
  { apply C103_trains.
    - intros v (i & Hi & Ni). assert (i = O) by lia. subst i. unfold dot, mv. cbn [sumn]. unfold prior_z. rewrite prior_same. cbn [Nat.eqb].
      assert (0 < v O * v O) by (apply Rsqr_pos_lt; exact Ni). lra.
    - intros j q Hj H. apply same_nystrom in H; [|intros; apply prior_same|intros; apply prior_same]. lra. }
  destruct T as [g B]. exists g. split; [exact B|].
  destruct (C101_fitc _ _ _ _ _ _ _ _ _ _ _ _ _ g (at0 O) (fun _ _ => 1) (fun _ => 1) B) as [[_ P] _].
  - intros i j Hi Hj. apply same_nystrom; [intros; apply prior_same|intros; apply prior_same|lra].
  - intros i Hi. apply same_nystrom; [intros; apply prior_same|intros; apply prior_same|lra].
  - intros i Hi. lra.
  - destruct (P (fun _ => 1 / 2)) as [Pm _].
    { intros i Hi. assert (i = O) by lia. subst i. unfold mv, plus_diag. cbn. lra. }
    unfold dot in Pm. cbn [sumn] in Pm.
    unfold one_scale, sgp_build in B. destruct (sgp_likelihood _ _ _ _ _ _ _ _ _ _ _ _ _ _) as [[lk wd]|]; [|discriminate B]. injection B as B. subst g.
    split; [reflexivity|]. split; [reflexivity|]. intros p.
    unfold sgp_predict in *. cbn [s_m s_corr s_nx s_h s_theta s_w s_sigma2 s_z s_wd] in *. unfold compute_k in *. cbn [sumn kval] in *. rewrite Rplus_0_l in *.
    assert (Z : sqexp_value 1 1 (fun _ => theta) (fun _ _ => 1) (differences (at0 O) (at0 O)) = 1) by (apply (kval_zero SquaredExponential); intros; unfold differences, at0; ring).
    rewrite Z in Pm. assert (Ew : wd_vec wd O = / 2) by lra. rewrite Ew.
    unfold sqexp_value, sq_theta_w, differences, at0. cbn [sumn]. replace (- / 2 * (0 + (p O - 0) * (p O - 0) * (0 + theta * 1 * (theta * 1)))) with (- (theta * theta / 2 * (p O * p O))) by field. ring.
Qed.

(** The step does not depend on the scale of the inputs: whatever factor is asked, some trained model has at some point a component of the
    gradient smaller than the derivative by that factor. *)
Theorem C141_scale_refuted : forall factor, 0 < factor -> exists theta g p d, one_scale theta = Some g /\
  partial (sgp_predict g) p O d /\ d <> 0 /\ factor * Rabs (sgp_gradient g p O) <= Rabs d.
Proof.
  intros factor Hf. pose proof fd_step_bounds as B. set (theta := factor * exp (/ 2) / (2 * fd_step)).
  assert (Ht : 0 < theta). { unfold theta. apply Rdiv_lt_0_compat; [apply Rmult_lt_0_compat; [exact Hf|apply exp_pos]|lra]. }
  destruct (one_scale_predict theta) as (g & E & Nx & _ & P). exists theta, g, (fun _ => / theta), (- (theta / 2) * exp (- / 2)).
  assert (Hd : 0 < theta / 2 * exp (- / 2)) by (apply Rmult_lt_0_compat; [lra|apply exp_pos]).
  split; [exact E|]. split; [|split].
  - unfold partial. apply derive_ext with (fun t => / 2 * exp (- (theta * theta / 2 * (t * t)))).
    { intros t. rewrite P. unfold upd. rewrite Nat.eqb_refl. reflexivity. }
    auto_derive; [exact I|]. replace (- (theta * theta / 2 * (/ theta * / theta))) with (- / 2) by (field; lra). field. lra.
  - lra.
  - replace (Rabs (- (theta / 2) * exp (- / 2))) with (theta / 2 * exp (- / 2)) by (rewrite Rabs_mult, Rabs_Ropp, !Rabs_right; try reflexivity; apply Rle_ge, Rlt_le; [apply exp_pos|lra]).
    assert (Bd : forall q, 0 <= sgp_predict g q <= / 2).
    { intros q. rewrite P. split; [apply Rmult_le_pos; [lra|apply Rlt_le, exp_pos]|]. rewrite <- (Rmult_1_r (/ 2)) at 2. apply Rmult_le_compat_l; [lra|].
      rewrite <- exp_0. assert (L : - (theta * theta / 2 * (q O * q O)) <= 0). { assert (0 <= theta * theta / 2 * (q O * q O)); [|lra]. apply Rmult_le_pos; [apply Rlt_le, Rmult_lt_0_compat; nra|apply Rle_0_sqr]. }
      destruct (Req_dec (- (theta * theta / 2 * (q O * q O))) 0) as [Z|Z]; [rewrite Z; lra|apply Rlt_le, exp_increasing; lra]. }
    assert (G : Rabs (sgp_gradient g (fun _ => / theta) O) <= / 2 / (2 * fd_step)).
    { unfold sgp_gradient, central_diff, Rdiv. rewrite Rabs_mult, (Rabs_right (/ (2 * fd_step))); [|apply Rle_ge, Rlt_le, Rinv_0_lt_compat; lra].
      apply Rmult_le_compat_r; [apply Rlt_le, Rinv_0_lt_compat; lra|]. apply Rabs_le.
      pose proof (Bd (upd (fun _ => / theta) O (/ theta + fd_step))). pose proof (Bd (upd (fun _ => / theta) O (/ theta - fd_step))). lra. }
    apply Rle_trans with (factor * (/ 2 / (2 * fd_step))); [apply Rmult_le_compat_l; [lra|exact G]|].
    right. unfold theta. replace (factor * exp (/ 2) / (2 * fd_step) / 2 * exp (- / 2)) with (factor / (2 * fd_step) / 2 * (exp (/ 2) * exp (- / 2))) by (field; lra).
    rewrite <- exp_plus. replace (/ 2 + - / 2) with 0 by ring. rewrite exp_0. field. lra.
Qed.
Print Assumptions C141_scale_refuted.

(** A model of unit length: at x = 1 the returned gradient is within 1e-10 of -exp(-1/2)/2. *)
Example C141_example : exists g, one_scale 1 = Some g /\ s_corr g = SquaredExponential /\ (0 < s_nx g)%nat /\ Rabs (sgp_gradient g (fun _ => 1) O - - (exp (- / 2) / 2)) <= / 10 ^ 10.
Proof.
  destruct (one_scale_predict 1) as (g & E & Nx & Ck & P). exists g. split; [exact E|]. split; [exact Ck|]. split; [lia|].
  set (f := fun t => gauss (1 / 2) t * / 2). set (f1 := fun t => - (2 * (1 / 2) * t) * gauss (1 / 2) t * / 2).
  set (f2 := fun t => (4 * (1 / 2 * (1 / 2)) * (t * t) - 2 * (1 / 2)) * gauss (1 / 2) t * / 2).
  set (f3 := fun t => (12 * (1 / 2 * (1 / 2)) * t - 8 * (1 / 2 * (1 / 2) * (1 / 2)) * (t * t * t)) * gauss (1 / 2) t * / 2).
  assert (Ef : forall t, sgp_predict g (upd (fun _ => 1) O t) = f t).
  { intros t. rewrite P, upd_at. unfold f, gauss. replace (1 * 1 / 2) with (1 / 2) by field. ring. }
  pose proof fd_step_bounds as B.
  assert (C := central_error f f1 f2 f3 7 1 fd_step ltac:(lra)).
  unfold sgp_gradient, central_diff. rewrite !Ef.
  replace (- (exp (- / 2) / 2)) with (f1 1) by (unfold f1, gauss; replace (- (1 / 2 * (1 * 1))) with (- / 2) by field; field).
  apply Rle_trans with (7 * (fd_step * fd_step) / 6).
  - apply C.
    + intros t. apply derive_scal_r, gauss_derive.
    + intros t. apply derive_scal_r, gauss_derive2.
    + intros t. apply derive_scal_r, gauss_derive3.
    + intros t. unfold f3. rewrite Rabs_mult, (Rabs_right (/ 2)) by lra. pose proof (gauss_third (1 / 2) t ltac:(lra)) as T.
      assert (S : sqrt (1 / 2) <= sqrt 1) by (apply sqrt_le_1_alt; lra). rewrite sqrt_1 in S.
      apply Rle_trans with (14 * (1 / 2 * sqrt (1 / 2)) * / 2); [apply Rmult_le_compat_r; [lra|exact T]|]. lra.
  - assert (fd_step * fd_step <= 61 / 10000000 * (61 / 10000000)) by (apply Rmult_le_compat; lra). assert (E10 : / 10 ^ 10 = 1 / 10000000000) by (cbn [pow]; field). lra.
Qed.
