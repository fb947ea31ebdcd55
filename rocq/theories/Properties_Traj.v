(** Sampled trajectories: property C134. *)
From Coq Require Import Reals Lra Lia Arith.
From Coquelicot Require Import Coquelicot.
From Verif Require Import RVec Moe_Model Kern_Model Kern_Spec Kern_Proofs Gp_Model Gp_Spec Gp_Lin Gp_Proofs Gp_Inv Gp_Exist Sgp_Model Sgp_Spec Sgp_Proofs
  Pd_Proofs Properties_Gp Properties_Sgp Properties_Pd Properties_Lik Traj_Model Traj_Spec Traj_Proofs.
Local Open Scope R_scope.

(** ** C134: trajectories follow the predicted means, variances and covariances *)
(** [s] is what sampling returns, as a function of the normal draws of one trajectory: one column of draws for each trajectory. *)
Definition sampled (eigh : nat -> mat -> vec * mat) (method : sampling_method) (g : gp) (m : nat) (x' : mat) (s : vec -> vec) : Prop :=
  forall ary, gp_sample eigh method g m x' ary = Some (fun i t => s (fun k => ary k t) i).
Definition means (g : gp) (m : nat) (x' : mat) (mean : vec) : Prop := forall i, (i < m)%nat -> predict g x' i = Some (mean i).
Definition covariances (g : gp) (m : nat) (x' cov : mat) : Prop :=
  forall i k, (i < m)%nat -> (k < m)%nat -> compute_covariance g m x' i k = Some (cov i k).

(** The library decomposes the matrix cov. *)
Definition decomposes (eigh : nat -> mat -> vec * mat) (m : nat) (cov : mat) : Prop :=
  forall a, (forall i k, (i < m)%nat -> (k < m)%nat -> a i k = cov i k) -> is_eigh m cov (eigh m a).

Lemma cov_sym qr cond mk ck n nx h nt theta w nugget x y g m x' : fit qr cond mk ck n nx h nt theta w nugget x y = Some g ->
  symmetric m (fun i k => unwrap (compute_covariance g m x' i k)).
Proof.
  intros Fit i k Hi Hk. destruct (C97_covariance _ _ _ _ _ _ _ _ _ _ _ _ _ g Fit m x' i k Hi Hk) as [[c [-> ->]] _]. reflexivity.
Qed.
Lemma cov_some qr cond mk ck n nx h nt theta w nugget x y g m x' : fit qr cond mk ck n nx h nt theta w nugget x y = Some g ->
  covariances g m x' (fun i k => unwrap (compute_covariance g m x' i k)).
Proof.
  intros Fit i k Hi Hk. destruct (C97_covariance _ _ _ _ _ _ _ _ _ _ _ _ _ g Fit m x' i k Hi Hk) as [[c [-> _]] _]. reflexivity.
Qed.
Lemma theta_some qr cond mk ck n nx h nt theta w nugget x y g : fit qr cond mk ck n nx h nt theta w nugget x y = Some g ->
  exists th, value_theta (g_corr g) (g_nt g) (g_h g) (g_theta g) = Some th /\ value_theta ck nt h theta = Some th.
Proof.
  intros Fit. destruct (fit_inv _ _ _ _ _ _ _ _ _ _ _ _ _ _ Fit) as (th & r_mx & ET & N1 & ER & EC & Eft & Err & Eco & EB & EG & ES & E0 & Ex & Eh & Ent & Em & Ec & Eth & Ew & Exd & Exm & Exs & Eym & Eys & Elk).
  exists th. rewrite Ec, Ent, Eh, Eth. split; exact ET.
Qed.
Lemma has_mean_ext n s m m' : (forall i, (i < n)%nat -> m i = m' i) -> has_mean n s m -> has_mean n s m'.
Proof. intros H A E St i Hi. rewrite <- H by exact Hi. now apply A. Qed.
Lemma has_cov_mean n s m m' C : (forall i, (i < n)%nat -> m i = m' i) -> has_cov n s m C -> has_cov n s m' C.
Proof.
  intros H A E St i k Hi Hk. rewrite <- (A E St i k Hi Hk). destruct St as [Ex _]. apply Ex. intros z. now rewrite !H.
Qed.

Lemma is_eigh_ext n a b vw : (forall i k, (i < n)%nat -> (k < n)%nat -> a i k = b i k) -> is_eigh n b vw -> is_eigh n a vw.
Proof. intros H [A B]. split; [|exact B]. intros i k Hi Hk. rewrite H by assumption. now apply A. Qed.

(** Cholesky sampling, when the covariance matrix of the points is positive definite: the moments are exact. *)
Theorem C134_cholesky_partial : forall eigh qr cond mk ck n nx h nt theta w nugget x y g,
  fit qr cond mk ck n nx h nt theta w nugget x y = Some g ->
  forall m x' mean cov, means g m x' mean -> covariances g m x' cov -> positive_definite m cov ->
  exists s, sampled eigh ByCholesky g m x' s /\ has_mean m s mean /\ has_cov m s mean cov.
Proof.
  intros eigh qr cond mk ck n nx h nt theta w nugget x y g Fit m x' mean cov Me Co PD.
  destruct (theta_some _ _ _ _ _ _ _ _ _ _ _ _ _ _ Fit) as (th & ET & _).
  pose proof (cov_sym _ _ _ _ _ _ _ _ _ _ _ _ _ _ m x' Fit) as Sy. set (cv := fun i k => unwrap (compute_covariance g m x' i k)) in *.
  assert (EC : forall i k, (i < m)%nat -> (k < m)%nat -> cv i k = cov i k) by (intros i k Hi Hk; unfold cv; now rewrite Co).
  assert (PD' : positive_definite m cv).
  { intros v Hv. specialize (PD v Hv). erewrite dot_ext; [exact PD|reflexivity|]. intros i Hi. apply sumn_ext. intros k Hk. cbv beta. now rewrite EC. }
  destruct (cholesky_complete m cv Sy PD') as [L EL]. destruct (cholesky_correct m cv L Sy EL) as (Lo & Po & Fa).
  exists (traj m (fun i => unwrap (predict g x' i)) L).
  assert (EM : forall i, (i < m)%nat -> unwrap (predict g x' i) = mean i) by (intros i Hi; now rewrite Me).
  split; [|split].
  - intros ary. unfold gp_sample. rewrite ET. unfold sample, sample_factor. fold cv. rewrite EL. reflexivity.
  - apply (has_mean_ext _ _ _ _ EM), traj_mean.
  - apply (has_cov_mean _ _ _ _ _ EM). apply (has_cov_ext _ _ _ (fun i k => sumn m (fun l => L i l * L k l))); [|apply traj_cov].
    intros i k Hi Hk. rewrite <- EC by assumption. exact (Fa i k Hi Hk).
Qed.
Print Assumptions C134_cholesky_partial.
(** Without nugget, Cholesky sampling panics as soon as one of the points is a training point. *)
Theorem C134_cholesky_panics : forall eigh qr cond mk ck n nx h nt theta w x y g,
  fit qr cond mk ck n nx h nt theta w 0 x y = Some g ->
  is_qr n (trend_size mk nx) (i_ft (g_in g)) (qr n (trend_size mk nx) (i_ft (g_in g))) ->
  forall m (x' : mat) i j, (i < m)%nat -> (j < n)%nat -> (forall c, (c < nx)%nat -> x' i c = x j c) ->
  forall ary, gp_sample eigh ByCholesky g m x' ary = None.
Proof.
  intros eigh qr cond mk ck n nx h nt theta w x y g Fit QR m x' i j Hi Hj Eq ary.
  destruct (theta_some _ _ _ _ _ _ _ _ _ _ _ _ _ _ Fit) as (th & ET & _).
  pose proof (cov_sym _ _ _ _ _ _ _ _ _ _ _ _ _ _ m x' Fit) as Sy. unfold gp_sample. rewrite ET. unfold sample, sample_factor.
  set (cv := fun i k => unwrap (compute_covariance g m x' i k)) in *.
  destruct (cholesky m cv) as [L|] eqn:EL; [exfalso|reflexivity].
  destruct (cholesky_correct m cv L Sy EL) as (Lo & Po & Fa).
  destruct (C97_covariance _ _ _ _ _ _ _ _ _ _ _ _ _ g Fit m x' i i Hi Hi) as [_ [v [V1 V2]]].
  destruct (proj2 (C57_interpolation _ _ _ _ _ _ _ _ _ _ _ _ _ g Fit QR) eq_refl j Hj) as [_ V3].
  destruct (C96_batch _ _ _ _ _ _ _ _ _ _ _ _ _ g Fit x' x i j Eq) as (_ & _ & VV). rewrite V2, V3 in VV. injection VV as VV.
  assert (Vn : v <= 0) by (rewrite <- VV; apply Rmax_r).
  assert (cv i i = v) by (unfold cv; now rewrite V1).
  pose proof (Fa i i Hi Hi) as F. unfold dot in F. pose proof (Po i Hi) as P.
  pose proof (sumn_term m (fun l => L i l * L i l) i (fun l _ => Rle_0_sqr (L i l)) Hi) as T. cbv beta in T.
  assert (0 < L i i * L i i) by (apply Rmult_lt_0_compat; exact P). unfold factor in *. cbv beta in *. lra.
Qed.
Print Assumptions C134_cholesky_panics.
Theorem C134_cholesky_refuted : exists g, two_fit 2 = Some g /\ forall eigh ary, gp_sample eigh ByCholesky g 2 two_x ary = None.
Proof.
  destruct (two_trained 2) as [g Fit]. exists g. split; [exact Fit|]. intros eigh.
  exact (C134_cholesky_panics eigh _ _ _ _ _ _ _ _ _ _ _ _ g Fit (qr1_trained _ _ _ _ _ _ _ _ _ _ _ _ Fit) 2 two_x O O ltac:(lia) ltac:(lia) ltac:(reflexivity)).
Qed.
Print Assumptions C134_cholesky_refuted.

(** Eigenvalue sampling, the default: it always succeeds with the exact mean; the covariances C of the trajectories are below the
    predicted ones, by at most 1e-9 for each unit vector, so that variances are within 1e-9 of the predicted variances. They are
    exact when no eigenvalue is strictly between 0 and 1e-9. *)
Theorem C134_eigen_partial : forall eigh qr cond mk ck n nx h nt theta w nugget x y g th,
  fit qr cond mk ck n nx h nt theta w nugget x y = Some g -> value_theta ck nt h theta = Some th ->
  (forall l, (l < h)%nat -> 0 <= th l) -> 0 <= nugget ->
  forall m x' mean cov, means g m x' mean -> covariances g m x' cov -> decomposes eigh m cov ->
  exists s C, sampled eigh ByEigenValues g m x' s /\ has_mean m s mean /\ has_cov m s mean C /\
    quad_le m C cov /\ quad_le m cov (fun i k => C i k + if Nat.eqb i k then / 10 ^ 9 else 0) /\
    (forall i, (i < m)%nat -> exists v, predict_var g x' i = Some v /\ v - / 10 ^ 9 <= C i i <= v) /\
    ((forall v u l, is_eigh m cov (v, u) -> (l < m)%nat -> v l = 0 \/ / 10 ^ 9 <= v l) -> forall i k, (i < m)%nat -> (k < m)%nat -> C i k = cov i k).
Proof.
  intros eigh qr cond mk ck n nx h nt theta w nugget x y g th Fit ET T Nu m x' mean cov Me Co EO.
  destruct (theta_some _ _ _ _ _ _ _ _ _ _ _ _ _ _ Fit) as (th' & ET' & _).
  pose proof (cov_sym _ _ _ _ _ _ _ _ _ _ _ _ _ _ m x' Fit) as Sy. pose proof (cov_some _ _ _ _ _ _ _ _ _ _ _ _ _ _ m x' Fit) as So.
  pose proof (C125_covariance _ _ _ _ _ _ _ _ _ _ _ _ _ g th Fit ET T Nu m x' _ So) as PS.
  set (cv := fun i k => unwrap (compute_covariance g m x' i k)) in *.
  assert (EC : forall i k, (i < m)%nat -> (k < m)%nat -> cv i k = cov i k) by (intros i k Hi Hk; unfold cv; now rewrite Co).
  assert (EM : forall i, (i < m)%nat -> unwrap (predict g x' i) = mean i) by (intros i Hi; now rewrite Me).
  pose proof (is_eigh_ext _ _ _ _ EC (EO cv EC)) as IE.
  destruct (sample_factor eigh ByEigenValues m cv) as [c|] eqn:EF; [|unfold sample_factor in EF; destruct (eigh m cv); discriminate].
  destruct (eigen_bounds eigh m cv c EF IE PS) as [B1 B2].
  exists (traj m (fun i => unwrap (predict g x' i)) c), (fun i k => sumn m (fun l => c i l * c k l)).
  split; [intros ary; unfold gp_sample; rewrite ET'; unfold sample; fold cv; rewrite EF; reflexivity|].
  split; [apply (has_mean_ext _ _ _ _ EM), traj_mean|].
  split; [apply (has_cov_mean _ _ _ _ _ EM), traj_cov|].
  assert (QE : forall u : vec, sumn m (fun i => sumn m (fun k => u i * u k * cv i k)) = sumn m (fun i => sumn m (fun k => u i * u k * cov i k))).
  { intros u. apply sumn_ext. intros i Hi. apply sumn_ext. intros k Hk. now rewrite EC. }
  split; [intros u; specialize (B1 u); rewrite QE in B1; exact B1|].
  split; [intros u; specialize (B2 u); rewrite QE in B2; exact B2|].
  split.
  - intros i Hi. destruct (C97_covariance _ _ _ _ _ _ _ _ _ _ _ _ _ g Fit m x' i i Hi Hi) as [_ [v [V1 V2]]].
    exists (Rmax 0 v). split; [exact V2|].
    assert (Ev : cv i i = v) by (unfold cv; now rewrite V1).
    pose proof (PS (fun p => if Nat.eqb p i then 1 else 0)) as P0. cbv beta in P0. rewrite quad_unit in P0 by exact Hi.
    rewrite Rmax_right by lra. pose proof (quad_le_diag _ _ _ i B1 Hi) as D1. pose proof (quad_le_diag _ _ _ i B2 Hi) as D2. cbv beta in D1, D2.
    rewrite Nat.eqb_refl in D2. unfold eigen_floor in D2. lra.
  - intros Gap i k Hi Hk. rewrite (eigen_factor eigh m cv c EF i k Hi Hk). pose proof (EO cv EC) as [A B]. rewrite <- (A i k Hi Hk).
    apply sumn_ext. intros l Hl. f_equal. unfold kept, eigen_floor.
    assert (G : fst (eigh m cv) l = 0 \/ / 10 ^ 9 <= fst (eigh m cv) l).
    { apply (Gap _ (snd (eigh m cv)) l); [|exact Hl]. destruct (eigh m cv) as [v u]. exact (conj A B). }
    destruct (Rlt_dec (fst (eigh m cv) l) (/ 10 ^ 9)); lra.
Qed.
Print Assumptions C134_eigen_partial.
(** Without nugget, every trajectory goes through the training data, whatever the draws. *)
Theorem C134_interpolates : forall eigh qr cond mk ck n nx h nt theta w x y g th,
  fit qr cond mk ck n nx h nt theta w 0 x y = Some g -> value_theta ck nt h theta = Some th ->
  is_qr n (trend_size mk nx) (i_ft (g_in g)) (qr n (trend_size mk nx) (i_ft (g_in g))) ->
  (forall l, (l < h)%nat -> 0 <= th l) ->
  forall m (x' cov ary : mat) i j t, covariances g m x' cov -> decomposes eigh m cov -> (i < m)%nat -> (j < n)%nat -> (forall c, (c < nx)%nat -> x' i c = x j c) ->
  exists S, gp_sample eigh ByEigenValues g m x' ary = Some S /\ S i t = y j.
Proof.
  intros eigh qr cond mk ck n nx h nt theta w x y g th Fit ET QR T m x' cov ary i j t Co EO Hi Hj Eq.
  destruct (theta_some _ _ _ _ _ _ _ _ _ _ _ _ _ _ Fit) as (th' & ET' & _).
  pose proof (cov_sym _ _ _ _ _ _ _ _ _ _ _ _ _ _ m x' Fit) as Sy. pose proof (cov_some _ _ _ _ _ _ _ _ _ _ _ _ _ _ m x' Fit) as So.
  pose proof (C125_covariance _ _ _ _ _ _ _ _ _ _ _ _ _ g th Fit ET T (Rle_refl 0) m x' _ So) as PS.
  unfold gp_sample. rewrite ET'. unfold sample. set (cv := fun i k => unwrap (compute_covariance g m x' i k)) in *.
  assert (EC : forall i k, (i < m)%nat -> (k < m)%nat -> cv i k = cov i k) by (intros p q Hp Hq; unfold cv; now rewrite Co).
  pose proof (is_eigh_ext _ _ _ _ EC (EO cv EC)) as IE.
  destruct (sample_factor eigh ByEigenValues m cv) as [c|] eqn:EF; [|unfold sample_factor in EF; destruct (eigh m cv); discriminate].
  eexists. split; [reflexivity|]. cbv beta.
  destruct (eigen_bounds eigh m cv c EF IE PS) as [B1 _].
  destruct (C97_covariance _ _ _ _ _ _ _ _ _ _ _ _ _ g Fit m x' i i Hi Hi) as [_ [v [V1 V2]]].
  destruct (proj2 (C57_interpolation _ _ _ _ _ _ _ _ _ _ _ _ _ g Fit QR) eq_refl j Hj) as [P3 V3].
  destruct (C96_batch _ _ _ _ _ _ _ _ _ _ _ _ _ g Fit x' x i j Eq) as (_ & PP & VV). rewrite V2, V3 in VV. injection VV as VV.
  rewrite PP, P3. cbn [unwrap].
  assert (Vn : v <= 0) by (rewrite <- VV; apply Rmax_r).
  assert (Ev : cv i i = v) by (unfold cv; now rewrite V1).
  pose proof (quad_le_diag _ _ _ i B1 Hi) as D1. cbv beta in D1.
  assert (Z : forall l, (l < m)%nat -> c i l = 0).
  { intros l Hl. pose proof (sumn_term m (fun l => c i l * c i l) l (fun l _ => Rle_0_sqr (c i l)) Hl) as TT. cbv beta in TT.
    apply Rsqr_0_uniq. unfold Rsqr. pose proof (Rle_0_sqr (c i l)) as N. unfold Rsqr in N. lra. }
  rewrite sumn_zero; [ring|]. intros l Hl. rewrite Z by exact Hl. ring.
Qed.
Print Assumptions C134_interpolates.

(** Outputs in small units: the predicted variance at a point is positive but every trajectory takes the predicted mean there. *)
Lemma two_sigma2 g : two_fit 2 = Some g -> 0 < i_sigma2 (g_in g).
Proof. intros Fit. destruct C133_example as (g0 & F0 & P & _). rewrite Fit in F0. injection F0 as <-. exact P. Qed.
Definition mid : mat := fun _ _ => 1.
Lemma two_mid_var g : two_fit 2 = Some g -> exists v, predict_var g mid O = Some v /\ 0 < v.
Proof.
  intros Fit. pose proof (two_sigma2 g Fit) as S2. pose proof (sqrt_lt_R0 2 ltac:(lra)) as Q2. pose proof (sqrt_sqrt 2 ltac:(lra)) as QQ.
  destruct (C125_variance _ _ _ _ _ _ _ _ _ _ _ _ _ g (fun _ => 1) Fit eq_refl ltac:(intros; lra) ltac:(lra) (qr1_trained _ _ _ _ _ _ _ _ _ _ _ _ Fit) mid O)
    as (mu & U & _ & V & _).
  eexists. split; [exact V|]. apply Rmult_lt_0_compat; [exact S2|]. clear V.
  assert (XN : forall c, xnorm g (mid O) c = 0).
  { intros c. destruct (fit_inv _ _ _ _ _ _ _ _ _ _ _ _ _ _ Fit) as (th & r_mx & ET & N1 & ER & EC & Eft & Err & Eco & EB & EG & ES & E0 & Ex & Eh & Ent & Em & Ec & Eth & Ew & Exd & Exm & Exs & Eym & Eys & Elk).
    unfold xnorm. rewrite Exm, Exs. destruct (normalize_two 2 two_x ltac:(lra) ltac:(reflexivity) O c) as (_ & Hm & Hs). rewrite Hm, Hs. unfold mid. field. lra. }
  specialize (U O ltac:(cbn; lia)). unfold dot in U. cbn in U.
  unfold sq_error, dot, mv. cbn [sumn Nat.eqb kval]. rewrite !sqexp_one. rewrite !two_d, !XN. cbn [INR].
  set (rho := exp (- / 4)).
  assert (E4 : exp (-1) = rho * rho * rho * rho) by (unfold rho; rewrite <- !exp_plus; f_equal; lra).
  replace (exp (- ((0 - (sqrt 2 * 0 - sqrt 2 / 2)) * (0 - (sqrt 2 * 0 - sqrt 2 / 2))) / 2)) with rho by (unfold rho; f_equal; nra).
  replace (exp (- ((0 - (sqrt 2 * 1 - sqrt 2 / 2)) * (0 - (sqrt 2 * 1 - sqrt 2 / 2))) / 2)) with rho by (unfold rho; f_equal; nra).
  replace (exp (- ((sqrt 2 * 0 - sqrt 2 / 2 - (sqrt 2 * 1 - sqrt 2 / 2)) * (sqrt 2 * 0 - sqrt 2 / 2 - (sqrt 2 * 1 - sqrt 2 / 2))) / 2)) with (exp (-1)) by (f_equal; nra).
  replace (exp (- ((sqrt 2 * 1 - sqrt 2 / 2 - (sqrt 2 * 0 - sqrt 2 / 2)) * (sqrt 2 * 1 - sqrt 2 / 2 - (sqrt 2 * 0 - sqrt 2 / 2))) / 2)) with (exp (-1)) by (f_equal; nra).
  rewrite E4.
  assert (R0 : 0 < rho) by apply exp_pos.
  assert (R1 : rho < 1) by (unfold rho; rewrite <- exp_0; apply exp_increasing; lra).
  assert (Em : mu 1%nat = 1 - mu O) by lra. rewrite Em.
  assert (R4 : rho * rho * rho * rho < 1).
  { assert (rho * rho < 1) by nra. assert (rho * rho * (rho * rho) < 1) by nra. nra. }
  assert (K : 0 < (1 - rho) * (1 - rho) * (rho * rho + 2 * rho + 3)) by (apply Rmult_lt_0_compat; nra).
  assert (M : 0 <= (mu O - / 2) * (mu O - / 2) * (1 - rho * rho * rho * rho)) by (apply Rmult_le_pos; [apply Rle_0_sqr|lra]).
  match goal with |- 0 < ?e => replace e with ((1 - rho) * (1 - rho) * (rho * rho + 2 * rho + 3) / 2 + 2 * ((mu O - / 2) * (mu O - / 2) * (1 - rho * rho * rho * rho))) by field end.
  lra.
Qed.
Theorem C134_eigen_refuted : forall eigh, (forall cov, decomposes eigh 1 cov) ->
  exists u g, 0 < u /\ two_fit u = Some g /\
    exists v, predict_var g mid O = Some v /\ 0 < v /\
    forall ary, exists S, gp_sample eigh ByEigenValues g 1 mid ary = Some S /\ forall t, predict g mid O = Some (S O t).
Proof.
  intros eigh EO. destruct (two_trained 2) as [g2 F2]. destruct (two_mid_var g2 F2) as (v2 & V2 & P2).
  pose proof (predict_eq _ _ _ _ _ _ _ _ _ _ _ _ _ _ F2 mid O) as M2.
  assert (A : exists a, 0 < a /\ a * a * v2 < / 10 ^ 9).
  { exists (sqrt (/ 10 ^ 9 / (2 * v2))). assert (0 < / 10 ^ 9) by (apply Rinv_0_lt_compat, pow_lt; lra).
    assert (Q : 0 < / 10 ^ 9 / (2 * v2)) by (apply Rdiv_lt_0_compat; lra). split; [now apply sqrt_lt_R0|].
    rewrite sqrt_sqrt by lra. set (t := / 10 ^ 9) in *. clearbody t. replace (t / (2 * v2) * v2) with (t / 2) by (field; lra). lra. }
  destruct A as (a & A0 & A1). destruct (two_trained (2 * a)) as [g F]. exists (2 * a), g. split; [lra|]. split; [exact F|].
  destruct (C93_output_units _ _ _ _ _ _ _ _ _ _ _ _ _ _ _ _ g2 g a 0 F2 F (qr1_trained _ _ _ _ _ _ _ _ _ _ _ _ F2) (qr1_trained _ _ _ _ _ _ _ _ _ _ _ _ F)
    ltac:(lra) ltac:(intros; unfold two_y; ring) mid O _ v2 M2 V2) as [M V].
  exists (a * a * v2). split; [exact V|]. split; [apply Rmult_lt_0_compat; nra|].
  intros ary. destruct (theta_some _ _ _ _ _ _ _ _ _ _ _ _ _ _ F) as (th' & ET' & _).
  pose proof (cov_sym _ _ _ _ _ _ _ _ _ _ _ _ _ _ 1%nat mid F) as Sy.
  unfold gp_sample. rewrite ET'. unfold sample. set (cv := fun i k => unwrap (compute_covariance g 1 mid i k)) in *.
  destruct (sample_factor eigh ByEigenValues 1 cv) as [c|] eqn:EF; [|unfold sample_factor in EF; destruct (eigh 1%nat cv); discriminate].
  eexists. split; [reflexivity|]. intros t. cbv beta. rewrite M at 2. cbn [unwrap].
  destruct (C97_covariance _ _ _ _ _ _ _ _ _ _ _ _ _ g F 1 mid O O ltac:(lia) ltac:(lia)) as [_ [v [V1 V3]]].
  assert (Ev : cv O O = v) by (unfold cv; now rewrite V1). rewrite V in V3. injection V3 as V3.
  assert (Vs : v < / 10 ^ 9) by (generalize (Rmax_r 0 v); rewrite <- V3; lra).
  assert (Z : c O O = 0).
  { pose proof (eigen_factor eigh 1 cv c EF O O ltac:(lia) ltac:(lia)) as K. destruct (EO cv cv ltac:(reflexivity)) as (I1 & I2 & _).
    specialize (I1 O O ltac:(lia) ltac:(lia)). specialize (I2 O O ltac:(lia) ltac:(lia)). cbn [sumn Nat.eqb] in *.
    assert (Ew : fst (eigh 1%nat cv) O = v) by nra. unfold kept, eigen_floor in K. rewrite Ew in K.
    destruct (Rlt_dec v (/ 10 ^ 9)); [|lra]. apply Rsqr_0_uniq. unfold Rsqr. lra. }
  cbn [sumn]. rewrite Z, M. f_equal. ring.
Qed.
Print Assumptions C134_eigen_refuted.

(** One point: the decomposition, and averages over signs, meet the hypotheses. *)
Definition eigh1 : nat -> mat -> vec * mat := fun _ a => (fun _ => a O O, fun _ _ => 1).
Example C134_example : (forall cov, decomposes eigh1 1 cov) /\ standard 1 (signs 1) /\ exists g s v, two_fit 2 = Some g /\
  sampled eigh1 ByEigenValues g 1 mid s /\ predict g mid O = Some (signs 1 (fun z => s z O)) /\
  predict_var g mid O = Some v /\ 0 < v /\
  v - / 10 ^ 9 <= signs 1 (fun z => (s z O - signs 1 (fun z => s z O)) * (s z O - signs 1 (fun z => s z O))) <= v.
Proof.
  assert (D : forall cov, decomposes eigh1 1 cov).
  { intros cov a H. split; [|split]; intros i k Hi Hk; assert (i = O) by lia; assert (k = O) by lia; subst; cbn; [|ring|ring].
    rewrite H by lia. ring. }
  split; [exact D|]. split; [apply signs_standard|]. destruct (two_trained 2) as [g F].
  destruct (C96_batch _ _ _ _ _ _ _ _ _ _ _ _ _ g F mid mid O O ltac:(reflexivity)) as ([mu Mu] & _).
  destruct (C134_eigen_partial eigh1 _ _ _ _ _ _ _ _ _ _ _ _ _ g (fun _ => 1) F eq_refl ltac:(intros; lra) ltac:(lra) 1 mid (fun _ => mu)
    (fun i k => unwrap (compute_covariance g 1 mid i k))) as (s & C & S1 & S2 & S3 & _ & _ & S4 & _).
  - intros i Hi. assert (i = O) by lia. subst. exact Mu.
  - exact (cov_some _ _ _ _ _ _ _ _ _ _ _ _ _ _ 1%nat mid F).
  - apply D.
  - destruct (two_mid_var g F) as (v & V & P). exists g, s, v. split; [exact F|]. split; [exact S1|].
    rewrite (S2 _ (signs_standard 1) O ltac:(lia)). split; [exact Mu|]. split; [exact V|]. split; [exact P|].
    rewrite (S3 _ (signs_standard 1) O O ltac:(lia) ltac:(lia)). destruct (S4 O ltac:(lia)) as (v' & V' & B). rewrite V in V'. injection V' as <-. exact B.
Qed.
(** The covariances of one point with a positive predicted variance are positive definite. *)
Example C134_cholesky_example : exists g s mean v, two_fit 2 = Some g /\ predict_var g mid O = Some v /\ 0 < v /\
  sampled eigh1 ByCholesky g 1 mid s /\ has_mean 1 s mean /\ has_cov 1 s mean (fun _ _ => v).
Proof.
  destruct (two_trained 2) as [g F]. destruct (C96_batch _ _ _ _ _ _ _ _ _ _ _ _ _ g F mid mid O O ltac:(reflexivity)) as ([mu Mu] & _).
  destruct (two_mid_var g F) as (v & V & P).
  destruct (C97_covariance _ _ _ _ _ _ _ _ _ _ _ _ _ g F 1 mid O O ltac:(lia) ltac:(lia)) as [_ [v' [V1 V3]]].
  rewrite V in V3. injection V3 as V3. assert (v' = v) by (unfold Rmax in V3; destruct (Rle_dec 0 v'); lra). subst v'.
  destruct (C134_cholesky_partial eigh1 _ _ _ _ _ _ _ _ _ _ _ _ _ g F 1 mid (fun _ => mu) (fun _ _ => v)) as (s & S1 & S2 & S3).
  - intros i Hi. assert (i = O) by lia. subst. exact Mu.
  - intros i k Hi Hk. assert (i = O) by lia. assert (k = O) by lia. subst. exact V1.
  - intros u [i [Hi N]]. assert (i = O) by lia. subst i. unfold dot, mv. cbn [sumn]. pose proof (Rsqr_pos_lt _ N) as Q. unfold Rsqr in Q. nra.
  - exists g, s, (fun _ => mu), v. repeat (split; [assumption|]). assumption.
Qed.

(** ** C104: trajectories of sparse models *)
(** They have the predicted mean, and, up to 1e-9, the prior covariance. *)
Theorem C104_trajectories_partial : forall eigh method ck nz n nx h theta w sigma2 noise nugget z x y g,
  sgp_build method ck nz n nx h theta w sigma2 noise nugget z x y = Some g ->
  (forall l, (l < h)%nat -> 0 <= theta l) -> 0 <= sigma2 ->
  forall m x', let K := fun i k => prior ck nx h theta w sigma2 (x' i) (x' k) in decomposes eigh m K ->
  exists s C, (forall ary, sgp_sample eigh ByEigenValues g m x' ary = Some (fun i t => s (fun k => ary k t) i)) /\
    has_mean m s (fun i => sgp_predict g (x' i)) /\ has_cov m s (fun i => sgp_predict g (x' i)) C /\
    quad_le m C K /\ quad_le m K (fun i k => C i k + if Nat.eqb i k then / 10 ^ 9 else 0).
Proof.
  intros eigh method ck nz n nx h theta w sigma2 noise nugget z x y g B T S m x' K EO.
  set (cv := sgp_sample_cov g x'). assert (EC : forall i k, (i < m)%nat -> (k < m)%nat -> cv i k = K i k).
  { intros i k _ _. exact (C104_prior_partial _ _ _ _ _ _ _ _ _ _ _ _ _ _ g x' i k B). }
  pose proof (is_eigh_ext _ _ _ _ EC (EO cv EC)) as IE.
  assert (QE : forall u : vec, sumn m (fun i => sumn m (fun k => u i * u k * cv i k)) = sumn m (fun i => sumn m (fun k => u i * u k * K i k))).
  { intros u. apply sumn_ext. intros i Hi. apply sumn_ext. intros k Hk. now rewrite EC. }
  assert (PS : forall c : vec, 0 <= sumn m (fun i => sumn m (fun k => c i * c k * cv i k))).
  { intros c. rewrite QE. pose proof (C123_semidefinite ck nx h theta w m x' c T) as P.
    replace (sumn m (fun i => sumn m (fun k => c i * c k * K i k))) with (sigma2 * sumn m (fun i => sumn m (fun j => c i * c j * kval ck nx h theta w (fun a => x' i a - x' j a))));
      [now apply Rmult_le_pos|].
    rewrite <- sumn_scal_l. apply sumn_ext. intros i Hi. rewrite <- sumn_scal_l. apply sumn_ext. intros k Hk. unfold K, prior. rewrite <- kval_documented. ring. }
  unfold sgp_sample, sample. fold cv.
  destruct (sample_factor eigh ByEigenValues m cv) as [c|] eqn:EF; [|unfold sample_factor in EF; destruct (eigh m cv); discriminate].
  destruct (eigen_bounds eigh m cv c EF IE PS) as [B1 B2].
  exists (traj m (fun i => sgp_predict g (x' i)) c), (fun i k => sumn m (fun l => c i l * c k l)).
  split; [reflexivity|]. split; [apply traj_mean|]. split; [apply traj_cov|].
  split; [intros u; specialize (B1 u); rewrite QE in B1; exact B1|intros u; specialize (B2 u); rewrite QE in B2; exact B2].
Qed.
Print Assumptions C104_trajectories_partial.
(** At a training point that is an inducing point, the predicted variance without noise is 1/2; that of the trajectories is 1. *)
Theorem C104_trajectories_refuted : exists g s m, one_build Fitc 1 0 = Some g /\ sgp_raw_var g (at0 O) = 1 / 2 /\
  (forall ary, sgp_sample eigh1 ByEigenValues g 1 at0 ary = Some (fun i t => s (fun k => ary k t) i)) /\ has_cov 1 s m (fun _ _ => 1).
Proof.
  destruct C104_posterior_refuted as (g & B & V & C). pose proof eigen_floor_pos as FP.
  assert (F1 : eigen_floor <= 1).
  { unfold eigen_floor. rewrite <- Rinv_1. apply Rinv_le_contravar; [lra|]. apply pow_R1_Rle. lra. }
  destruct (sample_factor eigh1 ByEigenValues 1 (sgp_sample_cov g at0)) as [c|] eqn:EF; [|discriminate].
  exists g, (traj 1 (fun i => sgp_predict g (at0 i)) c), (fun i => sgp_predict g (at0 i)). split; [exact B|]. split; [exact V|].
  split; [intros ary; unfold sgp_sample, sample; rewrite EF; reflexivity|].
  apply (has_cov_ext _ _ _ (fun i k => sumn 1 (fun l => c i l * c k l))); [|apply traj_cov].
  intros i k Hi Hk. rewrite (eigen_factor _ _ _ _ EF i k Hi Hk). assert (i = O) by lia. assert (k = O) by lia. subst.
  unfold kept, eigh1. cbn [sumn fst snd]. rewrite C. destruct (Rlt_dec 1 eigen_floor); lra.
Qed.
Print Assumptions C104_trajectories_refuted.
