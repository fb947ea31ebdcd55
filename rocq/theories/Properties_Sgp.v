(** Sparse Gaussian processes: predictions, likelihoods, inducing points, tuned parameters (C58, C70-C72, C101-C105). *)
From Coq Require Import Reals Lra Lia Arith.
From Coquelicot Require Import Coquelicot.
From Coq Require Import List Bool Permutation.
From Verif Require Import RVec Util Moe_Model Kern_Model Kern_Spec Kern_Proofs Gp_Model Gp_Spec Gp_Lin Doe_Spec Tune_Model Tune_Spec Tune_Proofs Properties_Tune Sgp_Model Sgp_Spec Sgp_Proofs Sgp_Det.
Import ListNotations.
Local Open Scope R_scope.

(** Covariances of the value at p with the values at the inducing points. *)
Local Notation kz_of ck nx h theta w sigma2 z := (fun (p : vec) (k : nat) => prior ck nx h theta w sigma2 (z k) p).

(** Conditioning on the training values through the inducing points, for a diagonal d. *)
Local Lemma low_rank ck m n nx h theta w sigma2 nugget z x y p (q : mat) (c d : vec) u l :
  let Kz := prior_z ck nx h theta w sigma2 nugget z in let kz := kz_of ck nx h theta w sigma2 z in
  let W := white ck m nx h theta w sigma2 z u in let V := Vm ck m nx h theta w sigma2 z x u in
  cholesky m Kz = Some u -> cholesky m (Am n V d) = Some l ->
  (forall i j, (i < n)%nat -> (j < n)%nat -> nystrom m Kz (kz (x i)) (kz (x j)) (q i j)) ->
  (forall i, (i < n)%nat -> nystrom m Kz (kz (x i)) (kz p) (c i)) ->
  (forall i, (i < n)%nat -> d i <> 0) ->
  posterior n (plus_diag q d) c y sigma2 (dot m (fsub m l (W p)) (fsub m l (mv n V (ya d y))))
    (sigma2 - (dot m (W p) (W p) - dot m (fsub m l (W p)) (fsub m l (W p)))).
Proof.
  intros Kz kz W V Ch ChA Hq Hc Nz.
  assert (Eq : forall i j, (i < n)%nat -> (j < n)%nat -> q i j = gram m V i j).
  { intros i j Hi Hj. exact (nystrom_white ck m nx h theta w sigma2 nugget z u Ch (x i) (x j) (q i j) (Hq i j Hi Hj)). }
  assert (Ec : forall i, (i < n)%nat -> c i = cs m V (W p) i).
  { intros i Hi. exact (nystrom_white ck m nx h theta w sigma2 nugget z u Ch (x i) p (c i) (Hc i Hi)). }
  assert (ES : forall v r r', (forall i, (i < n)%nat -> r i = r' i) -> solves n (plus_diag q d) v r <-> solves n (Cm m V d) v r').
  { intros v r r' Er. split; intros S i Hi; [rewrite <- (Er i Hi)|rewrite (Er i Hi)]; rewrite <- (S i Hi); apply sumn_ext; intros j Hj; f_equal;
      unfold Cm, plus_diag; now rewrite (Eq i j Hi Hj). }
  split.
  - destruct (woodbury_ex m n V d l Nz ChA (cs m V (W p))) as [v Hv]. exists v. apply (ES v c (cs m V (W p)) Ec). exact Hv.
  - intros v Hv. apply (ES v c (cs m V (W p)) Ec) in Hv. split.
    + symmetry. exact (woodbury_mean m n V d l Nz ChA (W p) y v Hv).
    + f_equal. rewrite (dot_ext n v c v (cs m V (W p))) by auto. symmetry. exact (woodbury_var m n V d l Nz ChA (W p) v Hv).
Qed.
Local Lemma low_rank_lik ck m n nx h theta w sigma2 nugget z x y (q : mat) (d v : vec) ld u l :
  let Kz := prior_z ck nx h theta w sigma2 nugget z in let kz := kz_of ck nx h theta w sigma2 z in
  let V := Vm ck m nx h theta w sigma2 z x u in
  cholesky m Kz = Some u -> cholesky m (Am n V d) = Some l ->
  (forall i j, (i < n)%nat -> (j < n)%nat -> nystrom m Kz (kz (x i)) (kz (x j)) (q i j)) ->
  (forall i, (i < n)%nat -> 0 < d i) -> solves n (plus_diag q d) v y -> log_det n (plus_diag q d) ld ->
  dot n y v = dot n (ya d y) y - dot m (fsub m l (mv n V (ya d y))) (fsub m l (mv n V (ya d y))) /\
  ld = sumn n (fun j => ln (d j)) + 2 * sumn m (fun k => ln (l k k)).
Proof.
  intros Kz kz V Ch ChA Hq Pos Sv (L & F & ->).
  assert (Nz : forall i, (i < n)%nat -> d i <> 0) by (intros i Hi; specialize (Pos i Hi); lra).
  assert (Eq : forall i j, (i < n)%nat -> (j < n)%nat -> plus_diag q d i j = Cm m V d i j).
  { intros i j Hi Hj. unfold Cm, plus_diag. f_equal.
    exact (nystrom_white ck m nx h theta w sigma2 nugget z u Ch (x i) (x j) (q i j) (Hq i j Hi Hj)). }
  split.
  - apply (woodbury_lik m n V d l Nz ChA y v). intros i Hi. rewrite <- (Sv i Hi). apply sumn_ext. intros j Hj. f_equal. symmetry. now apply Eq.
  - apply (logd_Cm m V d n L l Pos); [exact (fac_ext n _ _ L Eq F)|]. exact (cholesky_correct m _ l (Am_sym m n V d) ChA).
Qed.
Local Lemma trace_white ck m n nx h theta w sigma2 nugget z x (q : mat) u :
  let Kz := prior_z ck nx h theta w sigma2 nugget z in let kz := kz_of ck nx h theta w sigma2 z in
  cholesky m Kz = Some u -> (forall i j, (i < n)%nat -> (j < n)%nat -> nystrom m Kz (kz (x i)) (kz (x j)) (q i j)) ->
  forall j, (j < n)%nat -> dot m (white ck m nx h theta w sigma2 z u (x j)) (white ck m nx h theta w sigma2 z u (x j)) = q j j.
Proof.
  intros Kz kz Ch Hq j Hj. symmetry. exact (nystrom_white ck m nx h theta w sigma2 nugget z u Ch (x j) (x j) (q j j) (Hq j j Hj Hj)).
Qed.

(** One inducing point, one training point, one prediction, all at the same place; unit prior variance. *)
Definition at0 : mat := fun _ _ => 0.
Definition one_build (method : sparse_method) (noise nugget : R) : option sgp :=
  sgp_build method SquaredExponential 1 1 1 1 (fun _ => 1) (fun _ _ => 1) 1 noise nugget at0 at0 (fun _ => 1).
Local Lemma prior_at0 i j : prior SquaredExponential 1 1 (fun _ => 1) (fun _ _ => 1) 1 (at0 i) (at0 j) = 1.
Proof. unfold prior. rewrite <- kval_documented, kval_zero; [ring|]. intros; unfold at0; ring. Qed.

(** ** C101: FITC predictions are the posterior of the FITC model *)

Theorem C101_fitc : forall ck m n nx h theta w sigma2 noise nugget z x y g p (q : mat) (c : vec),
  sgp_build Fitc ck m n nx h theta w sigma2 noise nugget z x y = Some g ->
  let Kz := prior_z ck nx h theta w sigma2 nugget z in let kz := kz_of ck nx h theta w sigma2 z in
  (forall i j, (i < n)%nat -> (j < n)%nat -> nystrom m Kz (kz (x i)) (kz (x j)) (q i j)) ->
  (forall i, (i < n)%nat -> nystrom m Kz (kz (x i)) (kz p) (c i)) ->
  (forall i, (i < n)%nat -> sigma2 - q i i + noise <> 0) ->
  posterior n (plus_diag q (fun i => sigma2 - q i i + noise)) c y sigma2 (sgp_predict g p) (sgp_raw_var g p) /\
  (var_floor <= sgp_raw_var g p -> sgp_predict_var g p = sgp_raw_var g p + noise).
Proof.
  intros ck m n nx h theta w sigma2 noise nugget z x y g p q c B Kz kz Hq Hc Hn.
  destruct (fitc_build _ _ _ _ _ _ _ _ _ _ _ _ _ g B) as (u & l & Ch & ChA & Pr & Va & _ & No).
  pose proof (trace_white ck m n nx h theta w sigma2 nugget z x q u Ch Hq) as T.
  set (nu := fnu ck m nx h theta w sigma2 noise z x u) in *.
  assert (En : forall i, (i < n)%nat -> nu i = sigma2 - q i i + noise) by (intros i Hi; rewrite <- (T i Hi); reflexivity).
  split.
  - rewrite Pr, Va.
    pose proof (low_rank ck m n nx h theta w sigma2 nugget z x y p q c nu u l Ch ChA Hq Hc (fun i Hi => eq_ind_r (fun t => t <> 0) (Hn i Hi) (En i Hi))) as [[v0 E0] U].
    assert (ES : forall v, solves n (plus_diag q (fun i => sigma2 - q i i + noise)) v c <-> solves n (plus_diag q nu) v c).
    { intros v. split; intros S i Hi; rewrite <- (S i Hi); apply sumn_ext; intros j Hj; f_equal; unfold plus_diag; destruct (Nat.eqb i j); try reflexivity; now rewrite (En i Hi). }
    split; [exists v0; now apply ES|]. intros v Hv. apply U. now apply ES.
  - intros F. unfold sgp_predict_var. destruct (Rlt_dec (sgp_raw_var g p) var_floor); [lra|]. now rewrite No.
Qed.
Print Assumptions C101_fitc.

(** ** C103: training succeeds when the prior covariance at the inducing points is positive definite *)

Theorem C103_trains : forall method ck m n nx h theta w sigma2 noise nugget z x y,
  let Kz := prior_z ck nx h theta w sigma2 nugget z in let kz := kz_of ck nx h theta w sigma2 z in
  positive_definite m Kz ->
  match method with
  | Fitc => forall j q, (j < n)%nat -> nystrom m Kz (kz (x j)) (kz (x j)) q -> 0 < sigma2 - q + noise
  | Vfe => 0 < Rmax noise nugget
  end ->
  exists g, sgp_build method ck m n nx h theta w sigma2 noise nugget z x y = Some g.
Proof.
  intros method ck m n nx h theta w sigma2 noise nugget z x y Kz kz PD H.
  destruct (cholesky_complete m Kz (Kz_sym ck m nx h theta w sigma2 nugget z) PD) as [u Ch].
  assert (EV : (fun i j => sumn m (fun k => lower_inv m u i k * compute_k ck nx h theta w sigma2 z x k j)) = Vm ck m nx h theta w sigma2 z x u).
  { apply FunctionalExtensionality.functional_extensionality. intros i. apply FunctionalExtensionality.functional_extensionality. intros j. apply Vm_code. }
  unfold sgp_build, sgp_likelihood. destruct method.
  - rewrite fitc_unfold, kmm_eq. fold Kz. rewrite Ch, EV. unfold fitc_core. cbv zeta.
    set (V := Vm ck m nx h theta w sigma2 z x u).
    change (fun i j => eye i j + sumn n (fun k => V i k * (1 / (sigma2 - sumn m (fun k0 => V k0 k * V k0 k) + noise)) * V j k))
      with (Am n V (fnu ck m nx h theta w sigma2 noise z x u)).
    destruct (cholesky_complete m (Am n V (fnu ck m nx h theta w sigma2 noise z x u))) as [l ->]; [apply Am_sym| |eauto].
    apply Am_pd. intros j Hj. apply (H j _ Hj). exact (white_nystrom ck m nx h theta w sigma2 nugget z u Ch (x j) (x j)).
  - rewrite vfe_unfold, kmm_eq. fold Kz. rewrite Ch, EV. unfold vfe_core. cbv zeta.
    set (V := Vm ck m nx h theta w sigma2 z x u).
    replace (fun i j => eye i j + sumn n (fun k => V i k * V j k) * (1 / Rmax noise nugget)) with (Am n V (vnu noise nugget)).
    + destruct (cholesky_complete m (Am n V (vnu noise nugget))) as [l ->]; [apply Am_sym| |eauto]. apply Am_pd. intros j Hj. exact H.
    + apply FunctionalExtensionality.functional_extensionality. intros i. apply FunctionalExtensionality.functional_extensionality. intros j. unfold Am, vnu. f_equal.
      rewrite <- sumn_scal_r. apply sumn_ext. intros; ring.
Qed.
Print Assumptions C103_trains.

Local Lemma at0_pd nugget : 0 <= nugget -> positive_definite 1 (prior_z SquaredExponential 1 1 (fun _ => 1) (fun _ _ => 1) 1 nugget at0).
Proof.
  intros Hn v (i & Hi & Ni). assert (i = O) by lia. subst i. unfold dot, mv. cbn [sumn]. unfold prior_z. rewrite prior_at0. cbn [Nat.eqb].
  assert (0 < v O * v O) by (apply Rsqr_pos_lt; exact Ni). 
  replace (0 + v O * (0 + (1 + nugget) * v O)) with ((1 + nugget) * (v O * v O)) by ring. apply Rmult_lt_0_compat; lra.
Qed.
(** Covariance through the inducing point of the values at the unique place. *)
Local Lemma at0_nystrom nugget ka kb q : 0 <= nugget -> (forall k, ka k = 1) -> (forall k, kb k = 1) ->
  nystrom 1 (prior_z SquaredExponential 1 1 (fun _ => 1) (fun _ _ => 1) 1 nugget at0) ka kb q <-> q = 1 / (1 + nugget).
Proof.
  intros Hn Ha Hb. unfold nystrom, solves, dot, mv. cbn [sumn]. split.
  - intros (t & S & ->). specialize (S O ltac:(lia)). unfold prior_z in S. rewrite prior_at0 in S. cbn [Nat.eqb] in S. rewrite Hb in S. rewrite Ha.
    apply (Rmult_eq_reg_l (1 + nugget)); [|lra]. transitivity 1; [lra|field; lra].
  - intros ->. exists (fun _ => 1 / (1 + nugget)). split; [|rewrite Ha; ring].
    intros i Hi. assert (i = O) by lia. subst i. unfold prior_z. rewrite prior_at0. cbn [Nat.eqb]. rewrite Hb. field. lra.
Qed.
Local Lemma one_builds method noise nugget : 0 <= nugget -> 0 < noise -> exists g, one_build method noise nugget = Some g.
Proof.
  intros Hn Hp. apply C103_trains; [now apply at0_pd|]. destruct method.
  - intros j q Hj H. apply at0_nystrom in H; [|exact Hn|intros; apply prior_at0|intros; apply prior_at0]. subst q.
    assert (1 / (1 + nugget) <= 1); [|lra]. apply Rle_div_l; lra.
  - apply Rlt_le_trans with noise; [exact Hp|apply Rmax_l].
Qed.

Example C101_example : exists g, one_build Fitc 1 0 = Some g /\ sgp_predict g (at0 O) = 1 / 2 /\ sgp_raw_var g (at0 O) = 1 / 2 /\ sgp_predict_var g (at0 O) = 3 / 2.
Proof.
  destruct (one_builds Fitc 1 0) as [g B]; [lra|lra|]. exists g. split; [exact B|].
  destruct (C101_fitc _ _ _ _ _ _ _ _ _ _ _ _ _ g (at0 O) (fun _ _ => 1) (fun _ => 1) B) as [[_ P] V].
  - intros i j Hi Hj. apply at0_nystrom; [lra|intros; apply prior_at0|intros; apply prior_at0|lra].
  - intros i Hi. apply at0_nystrom; [lra|intros; apply prior_at0|intros; apply prior_at0|lra].
  - intros i Hi. lra.
  - destruct (P (fun _ => 1 / 2)) as [Pm Pv].
    { intros i Hi. assert (i = O) by lia. subst i. unfold mv, plus_diag. cbn. lra. }
    unfold dot in Pm, Pv. cbn [sumn] in Pm, Pv. split; [lra|]. split; [lra|].
    rewrite V; [lra|]. rewrite Pv. unfold var_floor. assert (/ 10 ^ 15 <= / 2); [|lra]. apply Rinv_le_contravar; [lra|]. change 2 with (IZR 2). rewrite pow_IZR. apply IZR_le. lia.
Qed.

(** ** C102: likelihoods *)

Theorem C102_fitc_likelihood : forall ck m n nx h theta w sigma2 noise nugget z x y g (q : mat) (v : vec) ld,
  sgp_build Fitc ck m n nx h theta w sigma2 noise nugget z x y = Some g ->
  let Kz := prior_z ck nx h theta w sigma2 nugget z in let kz := kz_of ck nx h theta w sigma2 z in
  (forall i j, (i < n)%nat -> (j < n)%nat -> nystrom m Kz (kz (x i)) (kz (x j)) (q i j)) ->
  (forall i, (i < n)%nat -> 0 < sigma2 - q i i + noise) ->
  let C := plus_diag q (fun i => sigma2 - q i i + noise) in
  log_det n C ld -> solves n C v y ->
  s_lkh g = - (1 / 2) * (ld + dot n y v).
Proof.
  intros ck m n nx h theta w sigma2 noise nugget z x y g q v ld B Kz kz Hq Pos C Ld Sv.
  destruct (fitc_build _ _ _ _ _ _ _ _ _ _ _ _ _ g B) as (u & l & Ch & ChA & _ & _ & Lk & _).
  pose proof (trace_white ck m n nx h theta w sigma2 nugget z x q u Ch Hq) as T.
  set (nu := fnu ck m nx h theta w sigma2 noise z x u) in *.
  assert (En : forall i, (i < n)%nat -> nu i = sigma2 - q i i + noise) by (intros i Hi; rewrite <- (T i Hi); reflexivity).
  assert (EC : forall i j, (i < n)%nat -> (j < n)%nat -> C i j = plus_diag q nu i j).
  { intros i j Hi Hj. unfold C, plus_diag. destruct (Nat.eqb i j); [|reflexivity]. now rewrite (En i Hi). }
  destruct (low_rank_lik ck m n nx h theta w sigma2 nugget z x y q nu v ld u l Ch ChA Hq) as [E1 E2].
  - intros i Hi. rewrite (En i Hi). now apply Pos.
  - intros i Hi. rewrite <- (Sv i Hi). apply sumn_ext. intros j Hj. f_equal. symmetry. now apply EC.
  - destruct Ld as (L & F & E). exists L. split; [exact (fac_ext n _ _ L EC F)|exact E].
  - rewrite Lk, E1, E2. ring.
Qed.
Print Assumptions C102_fitc_likelihood.

(** The lower bound of the variational method: the density of the observations under the low rank model with homogeneous noise, less the
    variance that the inducing points leave unexplained at the training points. *)
Theorem C102_vfe_likelihood : forall ck m n nx h theta w sigma2 noise nugget z x y g (q : mat) (v : vec) ld,
  sgp_build Vfe ck m n nx h theta w sigma2 noise nugget z x y = Some g ->
  let Kz := prior_z ck nx h theta w sigma2 nugget z in let kz := kz_of ck nx h theta w sigma2 z in
  (forall i j, (i < n)%nat -> (j < n)%nat -> nystrom m Kz (kz (x i)) (kz (x j)) (q i j)) ->
  let s := Rmax noise nugget in 0 < s ->
  let C := plus_diag q (fun _ => s) in
  log_det n C ld -> solves n C v y ->
  s_lkh g = - (1 / 2) * (ld + dot n y v + 1 / s * sumn n (fun i => sigma2 - q i i)).
Proof.
  intros ck m n nx h theta w sigma2 noise nugget z x y g q v ld B Kz kz Hq s Pos C Ld Sv.
  destruct (vfe_build _ _ _ _ _ _ _ _ _ _ _ _ _ g B) as (u & l & Ch & ChA & _ & _ & Lk & _).
  pose proof (trace_white ck m n nx h theta w sigma2 nugget z x q u Ch Hq) as T.
  destruct (low_rank_lik ck m n nx h theta w sigma2 nugget z x y q (vnu noise nugget) v ld u l Ch ChA Hq (fun _ _ => Pos) Sv Ld) as [E1 E2].
  rewrite Lk, E1, E2. fold s. rewrite (sumn_ext n _ (fun j => q j j) T).
  rewrite sumn_minus. change (sumn n (fun j => ln (vnu noise nugget j))) with (sumn n (fun _ : nat => ln s)). rewrite !sumn_const. replace (ln (1 / s)) with (- ln s).
  - ring.
  - unfold Rdiv. rewrite Rmult_1_l, ln_Rinv by exact Pos. reflexivity.
Qed.
Print Assumptions C102_vfe_likelihood.
Example C102_example : exists g, one_build Vfe 1 0 = Some g /\ s_lkh g = - (1 / 2) * (2 * ln (sqrt 2) + 1 / 2).
Proof.
  destruct (one_builds Vfe 1 0) as [g B]; [lra|lra|]. exists g. split; [exact B|].
  assert (M : Rmax 1 0 = 1) by (apply Rmax_left; lra).
  rewrite (C102_vfe_likelihood _ _ _ _ _ _ _ _ _ _ _ _ _ g (fun _ _ => 1) (fun _ => 1 / 2) (2 * ln (sqrt 2)) B).
  - rewrite M. unfold dot. cbn [sumn]. field.
  - intros i j Hi Hj. apply at0_nystrom; [lra|intros; apply prior_at0|intros; apply prior_at0|lra].
  - rewrite M. lra.
  - exists (fun _ _ => sqrt 2). split; [|cbn [sumn]; ring]. split; [intros i j; lia|]. split; [intros; apply sqrt_lt_R0; lra|].
    intros i j Hi Hj. assert (i = O) by lia. assert (j = O) by lia. subst. cbn [sumn]. rewrite sqrt_sqrt by lra. unfold plus_diag. cbn. rewrite M. lra.
  - intros i Hi. assert (i = O) by lia. subst i. unfold mv, plus_diag. cbn. rewrite M. lra.
Qed.

(** ** C70: predictions of the variational method *)

(** The mean is the posterior mean of the low rank model with homogeneous noise; the variance differs from its posterior variance v by
    2 (sigma2 - qpp - v), qpp being the variance explained by the inducing points: it is never above v. *)
Theorem C70_vfe_partial : forall ck m n nx h theta w sigma2 noise nugget z x y g p (q : mat) (c : vec) (qpp mean v : R),
  sgp_build Vfe ck m n nx h theta w sigma2 noise nugget z x y = Some g ->
  let Kz := prior_z ck nx h theta w sigma2 nugget z in let kz := kz_of ck nx h theta w sigma2 z in
  (forall i j, (i < n)%nat -> (j < n)%nat -> nystrom m Kz (kz (x i)) (kz (x j)) (q i j)) ->
  (forall i, (i < n)%nat -> nystrom m Kz (kz (x i)) (kz p) (c i)) ->
  nystrom m Kz (kz p) (kz p) qpp ->
  Rmax noise nugget <> 0 ->
  posterior n (plus_diag q (fun _ => Rmax noise nugget)) c y sigma2 mean v ->
  sgp_predict g p = mean /\ sgp_raw_var g p = 2 * (sigma2 - qpp) - v /\ sigma2 - qpp <= v /\ 0 <= qpp /\
  sgp_predict_var g p <= Rmax var_floor (sigma2 - qpp) + noise.
Proof.
  intros ck m n nx h theta w sigma2 noise nugget z x y g p q c qpp mean v B Kz kz Hq Hc Hpp Nz Po.
  destruct (vfe_build _ _ _ _ _ _ _ _ _ _ _ _ _ g B) as (u & l & Ch & ChA & Pr & Va & _ & No).
  destruct (low_rank ck m n nx h theta w sigma2 nugget z x y p q c (vnu noise nugget) u l Ch ChA Hq Hc (fun _ _ => Nz)) as [_ U].
  destruct Po as [[t St] Po]. destruct (Po t St) as [-> ->]. destruct (U t St) as [Um Uv].
  rewrite (nystrom_white ck m nx h theta w sigma2 nugget z u Ch p p qpp Hpp) in *.
  set (W := white ck m nx h theta w sigma2 z u) in *.
  pose proof (dot_nonneg m (fsub m l (W p))) as D1. pose proof (dot_nonneg m (W p)) as D2.
  split; [rewrite Pr; exact Um|]. split; [rewrite Va; lra|]. split; [lra|]. split; [exact D2|].
  unfold sgp_predict_var. rewrite No, Va. pose proof (Rmax_l var_floor (sigma2 - dot m (W p) (W p))). pose proof (Rmax_r var_floor (sigma2 - dot m (W p) (W p))).
  destruct (Rlt_dec _ _); lra.
Qed.
Print Assumptions C70_vfe_partial.

(** One inducing point, one observation at the same place, prior variance 1: the posterior variance of the value is s / (1 + s) for a
    noise s, which tends to 1 when the noise grows; the prediction stays at the lower limit. *)
Theorem C70_variance_refuted : forall s, 0 < s -> exists g, one_build Vfe s 0 = Some g /\
  (forall mean v, posterior 1 (plus_diag (fun _ _ => 1) (fun _ => s)) (fun _ => 1) (fun _ => 1) 1 mean v -> v = s / (1 + s)) /\
  (exists mean v, posterior 1 (plus_diag (fun _ _ => 1) (fun _ => s)) (fun _ => 1) (fun _ => 1) 1 mean v) /\
  sgp_predict_var g (at0 O) = var_floor + s.
Proof.
  intros s Hs. destruct (one_builds Vfe s 0) as [g B]; [lra|exact Hs|]. exists g. split; [exact B|].
  assert (S1 : solves 1 (plus_diag (fun _ _ => 1) (fun _ => s)) (fun _ => 1 / (1 + s)) (fun _ => 1)).
  { intros i Hi. assert (i = O) by lia. subst i. unfold mv, plus_diag. cbn. field. lra. }
  assert (PV : forall mean v, posterior 1 (plus_diag (fun _ _ => 1) (fun _ => s)) (fun _ => 1) (fun _ => 1) 1 mean v -> v = s / (1 + s)).
  { intros mean v [_ U]. destruct (U _ S1) as [_ ->]. unfold dot. cbn [sumn]. field. lra. }
  assert (PE : posterior 1 (plus_diag (fun _ _ => 1) (fun _ => s)) (fun _ => 1) (fun _ => 1) 1 (1 / (1 + s)) (s / (1 + s))).
  { split; [exists (fun _ => 1 / (1 + s)); exact S1|]. intros t St. specialize (St O ltac:(lia)). unfold mv, plus_diag in St. cbn in St.
    assert (E : t O = 1 / (1 + s)) by (apply (Rmult_eq_reg_l (1 + s)); [|lra]; transitivity 1; [lra|field; lra]).
    unfold dot. cbn [sumn]. rewrite E. split; field; lra. }
  split; [exact PV|]. split; [eauto|].
  assert (M : Rmax s 0 = s) by (apply Rmax_left; lra).
  destruct (C70_vfe_partial _ _ _ _ _ _ _ _ _ _ _ _ _ g (at0 O) (fun _ _ => 1) (fun _ => 1) 1 (1 / (1 + s)) (s / (1 + s)) B) as (_ & R & _).
  - intros i j Hi Hj. apply at0_nystrom; [lra|intros; apply prior_at0|intros; apply prior_at0|lra].
  - intros i Hi. apply at0_nystrom; [lra|intros; apply prior_at0|intros; apply prior_at0|lra].
  - apply at0_nystrom; [lra|intros; apply prior_at0|intros; apply prior_at0|lra].
  - rewrite M. lra.
  - rewrite M. exact PE.
  - destruct (vfe_build _ _ _ _ _ _ _ _ _ _ _ _ _ g B) as (u & l & _ & _ & _ & _ & _ & No).
    unfold sgp_predict_var. rewrite R, No. assert (0 < s / (1 + s)) by (apply Rdiv_lt_0_compat; lra).
    assert (0 < var_floor) by (unfold var_floor; apply Rinv_0_lt_compat, pow_lt; lra).
    destruct (Rlt_dec _ _); lra.
Qed.
Print Assumptions C70_variance_refuted.

(** ** C58: variances of sparse processes *)

Theorem C58_sparse_variance : forall method ck m n nx h theta w sigma2 noise nugget z x y g p,
  sgp_build method ck m n nx h theta w sigma2 noise nugget z x y = Some g -> 0 <= noise -> noise < sgp_predict_var g p.
Proof.
  intros method ck m n nx h theta w sigma2 noise nugget z x y g p B Hn. assert (No : s_noise g = noise).
  { unfold sgp_build in B. destruct (sgp_likelihood _ _ _ _ _ _ _ _ _ _ _ _ _ _) as [[lk wd]|]; [|discriminate]. injection B as <-. reflexivity. }
  unfold sgp_predict_var. rewrite No. assert (0 < var_floor) by (unfold var_floor; apply Rinv_0_lt_compat, pow_lt; lra).
  destruct (Rlt_dec _ _); lra.
Qed.
Print Assumptions C58_sparse_variance.
(** One observation, one inducing point, unit noise. *)
Example C70_example : exists g, one_build Vfe 1 0 = Some g /\ sgp_predict g (at0 O) = 1 / 2 /\ sgp_raw_var g (at0 O) = - (1 / 2) /\ 1 < sgp_predict_var g (at0 O).
Proof.
  destruct (one_builds Vfe 1 0) as [g B]; [lra|lra|]. exists g. split; [exact B|].
  assert (N1 : nystrom 1 (prior_z SquaredExponential 1 1 (fun _ => 1) (fun _ _ => 1) 1 0 at0) (kz_of SquaredExponential 1 1 (fun _ => 1) (fun _ _ => 1) 1 at0 (at0 O))
    (kz_of SquaredExponential 1 1 (fun _ => 1) (fun _ _ => 1) 1 at0 (at0 O)) 1) by (apply at0_nystrom; [lra|intros; apply prior_at0|intros; apply prior_at0|lra]).
  assert (M : Rmax 1 0 = 1) by (apply Rmax_left; lra).
  destruct (C70_vfe_partial _ _ _ _ _ _ _ _ _ _ _ _ _ g (at0 O) (fun _ _ => 1) (fun _ => 1) 1 (1 / 2) (1 / 2) B) as (P & V & _).
  - intros i j _ _. exact N1.
  - intros i _. exact N1.
  - exact N1.
  - lra.
  - rewrite M. assert (St : solves 1 (plus_diag (fun _ _ => 1) (fun _ => 1)) (fun _ => 1 / 2) (fun _ => 1)).
    { intros i Hi. assert (i = O) by lia. subst i. unfold mv, plus_diag. cbn. lra. }
    split; [exists (fun _ => 1 / 2); exact St|]. intros t T. specialize (T O ltac:(lia)). unfold mv, plus_diag in T. cbn in T. unfold dot. cbn. lra.
  - split; [exact P|]. split; [lra|]. exact (C58_sparse_variance _ _ _ _ _ _ _ _ _ _ _ _ _ _ g (at0 O) B ltac:(lra)).
Qed.
(** Nothing rejects a fixed noise given below zero. *)
Theorem C58_negative_noise_refuted : exists g, one_build Vfe (-1) 1 = Some g /\ sgp_predict_var g (at0 O) < 0.
Proof.
  assert (M : Rmax (-1) 1 = 1) by (apply Rmax_right; lra).
  destruct (C103_trains Vfe SquaredExponential 1 1 1 1 (fun _ => 1) (fun _ _ => 1) 1 (-1) 1 at0 at0 (fun _ => 1)) as [g B]; [apply at0_pd; lra|rewrite M; lra|].
  exists g. split; [exact B|]. destruct (vfe_build _ _ _ _ _ _ _ _ _ _ _ _ _ g B) as (u & l & Ch & _ & _ & Va & _ & No).
  unfold sgp_predict_var. rewrite No. assert (var_floor < 1) by (unfold var_floor; rewrite <- Rinv_1; apply Rinv_lt_contravar; [rewrite Rmult_1_l; apply pow_lt; lra|apply Rlt_pow_R1; [lra|lia]]).
  destruct (Rlt_dec _ _); [lra|]. rewrite Va.
  pose proof (white_nystrom SquaredExponential 1 1 1 (fun _ => 1) (fun _ _ => 1) 1 1 at0 u Ch (at0 O) (at0 O)) as Ny.
  apply at0_nystrom in Ny; [|lra|intros; apply prior_at0|intros; apply prior_at0]. rewrite Ny.
  match goal with |- context [dot ?a ?b ?b] => pose proof (dot_nonneg a b) end. lra.
Qed.
Print Assumptions C58_negative_noise_refuted.

(** ** C71: inducing points *)

Theorem C71_inducings : forall {A} (n_inducing : nat) (xt : list A) shuffled,
  Permutation shuffled (seq 0 (length xt)) ->
  exists idx z, make_inducings n_inducing xt shuffled = Some z /\ NoDup idx /\ length z = Nat.min n_inducing (length xt) /\
    Forall2 (fun i r => nth_error xt i = Some r) idx z.
Proof.
  intros A k xt sh P. exists (firstn (Nat.min k (length xt)) sh). unfold make_inducings.
  assert (ND : NoDup (firstn (Nat.min k (length xt)) sh)).
  { assert (N : NoDup sh) by (eapply Permutation_NoDup; [symmetry; exact P|apply seq_NoDup]).
    rewrite <- (firstn_skipn (Nat.min k (length xt)) sh) in N. clear - N. induction (firstn (Nat.min k (length xt)) sh) as [|a r IH]; [constructor|].
    cbn in N. inversion N as [|? ? H1 H2]; subst. constructor; [|now apply IH]. intros H. apply H1. apply in_or_app. now left. }
  assert (Rg : Forall (fun i => (i < length xt)%nat) (firstn (Nat.min k (length xt)) sh)).
  { apply Forall_forall. intros i Hi. assert (In i sh).
    { rewrite <- (firstn_skipn (Nat.min k (length xt)) sh). apply in_or_app. now left. }
    apply (Permutation_in i P) in H. apply in_seq in H. lia. }
  assert (Ln : length (firstn (Nat.min k (length xt)) sh) = Nat.min k (length xt)).
  { rewrite firstn_length. apply Permutation_length in P. rewrite seq_length in P. lia. }
  assert (F : exists z, rows_at xt (firstn (Nat.min k (length xt)) sh) = Some z /\ Forall2 (fun i r => nth_error xt i = Some r) (firstn (Nat.min k (length xt)) sh) z).
  { clear ND Ln. induction Rg as [|i r Hi F IH]; [exists []; split; [reflexivity|constructor]|].
    destruct IH as (z & E & F2). destruct (nth_error xt i) as [v|] eqn:Ev; [|now apply nth_error_None in Ev; lia].
    exists (v :: z). cbn. rewrite Ev, E. split; [reflexivity|now constructor]. }
  destruct F as (z & E & F2). exists z. split; [exact E|]. split; [exact ND|]. split; [|exact F2]. rewrite <- Ln. symmetry. eapply Forall2_len. exact F2.
Qed.
Print Assumptions C71_inducings.
Example C71_example : make_inducings 2 [10; 11; 12]%nat [2; 0; 1]%nat = Some [12; 10]%nat /\ make_inducings 9 [10; 11]%nat [1; 0]%nat = Some [11; 10]%nat.
Proof. split; reflexivity. Qed.

(** ** C72: search spaces given by component *)

Local Lemma broadcast_inv {A} dim (i l : list A) : broadcast dim i = Some l -> length i = 1%nat \/ length i = dim.
Proof.
  intros H. pose proof (broadcast_length dim i l H) as L. unfold broadcast in H. destruct i as [|a [|a' r]]; [right|now left|right].
  - destruct (Nat.eqb (length []) dim); [|discriminate]. injection H as <-. exact L.
  - destruct (Nat.eqb (length (a :: a' :: r)) dim); [|discriminate]. injection H as <-. exact L.
Qed.
(** Whatever the dimension, a search space with one interval per component stops the training. *)
Theorem C72_bounds_refuted : forall dim n_start sigma2_0 nt init b u rnd sw, (1 <= dim)%nat -> length b <> 1%nat ->
  sgp_starts dim n_start sigma2_0 nt (Full init b) u rnd sw = None.
Proof.
  intros dim n s0 nt init b u rnd sw Hd Hb. unfold sgp_starts. cbn [sgp_init_bounds].
  destruct (broadcast dim init) as [t0|] eqn:Eb; [|reflexivity]. cbv beta iota zeta.
  pose proof (broadcast_length dim init t0 Eb) as L0.
  pose proof (broadcast_inv dim init t0 Eb) as Li.
  assert (Ne : length init <> length (t0 ++ s0 :: match nt with NoiseFixed _ => [] | NoiseOptimized c _ => [c] end)).
  { rewrite app_length. cbn [length]. destruct nt; cbn [length]; lia. }
  apply Nat.eqb_neq in Ne. destruct b as [|b1 [|b2 r]]; [|now elim Hb|]; cbv beta iota zeta; now rewrite Ne.
Qed.
Print Assumptions C72_bounds_refuted.

Theorem C72_fixed_refuted : forall dim n_start sigma2_0 nt init u rnd sw, (1 <= dim)%nat ->
  (length init <> 1%nat -> sgp_starts dim n_start sigma2_0 nt (Fixed init) u rnd sw = None) /\
  (n_start = 1%nat -> sgp_starts dim n_start sigma2_0 nt (Fixed init) u rnd sw = None).
Proof.
  intros dim n s0 nt init u rnd sw Hd.
  assert (A : length init <> 1%nat -> sgp_starts dim n s0 nt (Fixed init) u rnd sw = None).
  { intros Hi. rewrite <- (C72_bounds_refuted dim n s0 nt init (map (fun v => (v, v)) init) u rnd sw Hd); [reflexivity|]. now rewrite map_length. }
  split; [exact A|]. intros ->. destruct (Nat.eq_dec (length init) 1) as [E|E]; [|now apply A].
  destruct init as [|v [|? ?]]; try discriminate E. unfold sgp_starts. cbn [sgp_init_bounds map broadcast]. cbv beta iota zeta.
  destruct dim as [|d]; [lia|]. cbn [repeat app length]. unfold prepare_multistart. cbn [map]. cbn [fst snd].
  destruct u as [|u0 u]; [reflexivity|]. cbn [gen_ranges]. destruct (Rlt_dec _ _) as [H|H]; [lra|reflexivity].
Qed.
Print Assumptions C72_fixed_refuted.

Local Definition all_bounds (dim : nat) (b : R * R) (sigma2_0 : R) (nt : noise_tuning) : bounds_t :=
  repeat b dim ++ (/ 10 ^ 12, 9 * sigma2_0) :: match nt with NoiseFixed _ => [] | NoiseOptimized _ nb => [nb] end.
Local Lemma set_bound_app l v w r : set_bound (length l) v (l ++ w :: r) = l ++ v :: r.
Proof. unfold set_bound. rewrite firstn_app, Nat.sub_diag, firstn_all, firstn_O, app_nil_r. f_equal. f_equal. rewrite skipn_app, skipn_all2 by lia. cbn [app]. replace (S (length l) - length l)%nat with 1%nat by lia. reflexivity. Qed.
Local Lemma starts_inv dim n s0 nt init b u rnd sw starts lb : sound_bounds [b] -> Forall (fun v => 0 <= v < 1) u -> (forall t j, (j < S (S dim))%nat -> unit_draws n (rnd t j)) ->
  sgp_starts dim n s0 nt (Full init [b]) u rnd sw = Some (starts, lb) ->
  lb = log_bounds (all_bounds dim b s0 nt) /\ Forall (fun r => length r = length lb) starts /\ starts <> [].
Proof.
  intros Sb U D H. unfold sgp_starts in H. cbn [sgp_init_bounds] in H. destruct (broadcast dim init) as [t0|] eqn:Eb; [|discriminate]. cbv beta iota zeta in H.
  pose proof (broadcast_length dim init t0 Eb) as L0.
  set (p0 := t0 ++ s0 :: match nt with NoiseFixed _ => [] | NoiseOptimized c _ => [c] end) in *.
  assert (Lp : length p0 = (dim + (1 + match nt with NoiseFixed _ => 0 | NoiseOptimized _ _ => 1 end))%nat).
  { unfold p0. rewrite app_length, L0. destruct nt; reflexivity. }
  destruct (prepare_multistart n p0 (repeat b (length p0)) u rnd sw) as [[st lb0]|] eqn:Ep; [|discriminate].
  destruct (multistart_spec n p0 (repeat b (length p0)) u rnd sw) with (starts := st) (lb := lb0) as (El & others & Es & _ & Fo).
  { now rewrite repeat_length. }
  { apply Forall_forall. intros a Ha. apply repeat_spec in Ha. subst a. now inversion Sb. }
  { exact U. }
  { intros t j Hj. apply D. rewrite repeat_length, Lp in Hj. destruct nt; lia. }
  { exact Ep. }
  cbn [fst snd] in H.
  assert (Elb : lb = log_bounds (all_bounds dim b s0 nt)).
  { apply (f_equal (option_map snd)) in H. cbn [option_map snd] in H. assert (H' := f_equal (fun o => match o with Some a => a | None => [] end) H). cbv beta iota in H'. rewrite <- H'. clear H H'.
    rewrite El. unfold log_bounds, all_bounds. set (lg := fun p : R * R => (Tune_Model.log10 (fst p), Tune_Model.log10 (snd p))).
    rewrite Lp, repeat_app, !map_app. cbn [map].
    assert (Lr : length (map lg (repeat b dim)) = dim) by (rewrite map_length; apply repeat_length).
    destruct nt as [c|c [lo up]]; cbn [repeat Nat.add map].
    - rewrite <- Lr at 1. rewrite set_bound_app. reflexivity.
    - rewrite <- Lr at 2. rewrite set_bound_app.
      transitivity (set_bound (length (map lg (repeat b dim) ++ [lg (/ 10 ^ 12, 9 * s0)])) (Tune_Model.log10 lo, Tune_Model.log10 up) ((map lg (repeat b dim) ++ [lg (/ 10 ^ 12, 9 * s0)]) ++ [lg b])).
      + f_equal; [rewrite app_length, Lr; cbn; lia|]. rewrite <- app_assoc. reflexivity.
      + rewrite set_bound_app, <- app_assoc. reflexivity. }
  assert (Est : st = starts) by (destruct nt as [?|? [? ?]]; congruence).
  assert (Ll : length lb = length p0).
  { rewrite Elb, log_bounds_length. unfold all_bounds. rewrite app_length, repeat_length, Lp. destruct nt; reflexivity. }
  split; [exact Elb|]. rewrite <- Est, Es. split; [|discriminate]. rewrite Ll. constructor; [apply map_length|].
  apply Forall_forall. intros r Hr. rewrite Forall_forall in Fo. specialize (Fo r Hr). apply Forall2_len in Fo. rewrite <- Fo, El, log_bounds_length. apply repeat_length.
Qed.
Theorem C72_accepted_partial : forall dim n_start sigma2_0 nt init b u rnd sw,
  (length init = 1%nat \/ length init = dim) -> 0 < fst b <= snd b -> Forall (fun v => 0 <= v < 1) u -> (forall t j, (j < S (S dim))%nat -> unit_draws n_start (rnd t j)) ->
  (n_start = 1%nat -> fst b < snd b /\ (dim + 2 <= length u)%nat) ->
  exists p, sgp_starts dim n_start sigma2_0 nt (Full init [b]) u rnd sw = Some p.
Proof.
  intros dim n s0 nt init b u rnd sw Li Sb U D S1. unfold sgp_starts. cbn [sgp_init_bounds]. destruct (broadcast_ok dim init Li) as [t0 Eb]. rewrite Eb. cbv beta iota zeta.
  pose proof (broadcast_length dim init t0 Eb) as L0.
  set (p0 := t0 ++ s0 :: match nt with NoiseFixed _ => [] | NoiseOptimized c _ => [c] end) in *.
  assert (Lp : length p0 = (dim + (1 + match nt with NoiseFixed _ => 0 | NoiseOptimized _ _ => 1 end))%nat).
  { unfold p0. rewrite app_length, L0. destruct nt; reflexivity. }
  destruct (multistart_ok n p0 (repeat b (length p0)) u rnd sw) as [p ->].
  - now rewrite repeat_length.
  - exact U.
  - intros t j Hj. apply D. rewrite repeat_length, Lp in Hj. destruct nt; lia.
  - intros E. destruct (S1 E) as [Lt Lu]. split; [|rewrite repeat_length, Lp; destruct nt; lia].
    apply Forall_forall. intros a Ha. apply repeat_spec in Ha. subst a. lra.
  - destruct nt as [?|? [? ?]]; eauto.
Qed.
Print Assumptions C72_accepted_partial.
Example C72_example : exists p, sgp_starts 2 1 1 (NoiseFixed 1) (Full [1; 2] [(1 / 100, 10)]) [1 / 2; 1 / 4; 1 / 8; 0] (fun _ _ => [1 / 2]) (fun _ _ => []) = Some p.
Proof.
  apply C72_accepted_partial; [now right|cbn; lra| | |].
  - repeat (apply Forall_cons || apply Forall_nil); lra.
  - intros t j _. split; [reflexivity|]. apply Forall_cons; [lra|constructor].
  - intros _. cbn. split; [lra|lia].
Qed.

(** ** C105: what the tuning of a sparse process returns *)

Theorem C105_bounds_partial : forall lik opt sched dim n_start sigma2_0 nt init b u rnd sw th s2 no,
  stays_within opt -> (forall f x0 b, exists v, fst (opt f x0 b) = Some v) -> fair sched ->
  0 < fst b <= snd b -> / 10 ^ 12 <= 9 * sigma2_0 -> (forall c nb, nt = NoiseOptimized c nb -> 0 < fst nb <= snd nb) ->
  Forall (fun v => 0 <= v < 1) u -> (forall t j, (j < S (S dim))%nat -> unit_draws n_start (rnd t j)) ->
  sgp_choose lik opt sched dim n_start sigma2_0 nt (Full init [b]) u rnd sw = Some (th, s2, no) ->
  length th = dim /\ Forall (within b) th /\ within (/ 10 ^ 12, 9 * sigma2_0) s2 /\
  match nt with NoiseFixed c => no = c | NoiseOptimized _ nb => within nb no end.
Proof.
  intros lik opt sched dim n s0 nt init b u rnd sw th s2 no St Fin Fa Sb Sv Sn U D H. unfold sgp_choose in H.
  destruct (sgp_starts _ _ _ _ _ _ _ _) as [[starts lb]|] eqn:Es; [|discriminate]. cbv beta iota zeta in H. cbn [fst snd] in H.
  destruct (starts_inv dim n s0 nt init b u rnd sw starts lb ltac:(constructor; [exact Sb|constructor]) U D Es) as (El & Fl & Ne).
  match type of H with context [opt ?f] => set (obj := f) in * end.
  set (rs := map (fun x0 => opt obj x0 lb) starts) in *.
  assert (So : sound_bounds (all_bounds dim b s0 nt)).
  { unfold all_bounds. apply Forall_app. split.
    - apply Forall_forall. intros a Ha. apply repeat_spec in Ha. subst a. exact Sb.
    - constructor; [cbn [fst snd]; split; [apply Rinv_0_lt_compat, pow_lt; lra|exact Sv]|]. destruct nt as [?|c nb]; [constructor|]. constructor; [exact (Sn c nb eq_refl)|constructor]. }
  assert (M : In (reduce (S dim + noise_estimated nt) (sched rs)) rs).
  { apply first_min_in. apply reduce_best; [exact Fa|]. destruct starts as [|x0 r]; [now elim Ne|]. destruct (Fin obj x0 lb) as [v Hv].
    exists (opt obj x0 lb), v. split; [now left|exact Hv]. }
  apply in_map_iff in M. destruct M as (x0 & Ex & Hx). change (sched (map (fun x0 => opt obj x0 lb) starts)) with (sched rs) in H. rewrite <- Ex in H.
  assert (W : Forall2 within lb (snd (opt obj x0 lb))).
  { apply St; [|rewrite El; now apply log_bounds_le]. rewrite Forall_forall in Fl. now apply Fl. }
  assert (W2 : Forall2 within (all_bounds dim b s0 nt) (map pow10 (snd (opt obj x0 lb)))).
  { rewrite El in W at 1. revert W So. generalize (snd (opt obj x0 lb)) as r. generalize (all_bounds dim b s0 nt) as ab. clear.
    induction ab as [|a ab IH]; intros r W So; inversion W as [|? ? ? ? [W1 W1'] W2]; subst; cbn [map]; constructor.
    - inversion So as [|? ? S1 S2]; subst. cbn [fst snd] in *. split; [rewrite <- (pow10_log10 (fst a)) by lra|rewrite <- (pow10_log10 (snd a)) by lra]; now apply pow10_le.
    - apply IH; [assumption|]. now inversion So. }
  unfold all_bounds in W2. apply Forall2_app_inv_l in W2. destruct W2 as (l1 & l2 & F1 & F2 & E2). rewrite E2 in H.
  assert (L1 : length l1 = dim) by (apply Forall2_len in F1; rewrite repeat_length in F1; now symmetry).
  rewrite firstn_app, <- L1, Nat.sub_diag, firstn_all, firstn_O, app_nil_r in H.
  assert (F1b : Forall (within b) l1).
  { clear - F1. revert F1. generalize dim. induction l1 as [|a l1 IH]; intros d F; [constructor|]. destruct d; inversion F; subst. constructor; [assumption|]. eapply IH. eassumption. }
  inversion F2 as [|? v2 ? r2 Wv F3]; subst l2. clear F2.
  assert (N1 : nth (length l1) (l1 ++ v2 :: r2) 0 = v2) by (rewrite app_nth2, Nat.sub_diag by lia; reflexivity).
  rewrite N1 in H. apply (f_equal (fun o => match o with Some a => a | None => (th, s2, no) end)) in H. cbv beta iota in H.
  assert (Et := f_equal (fun t => fst (fst t)) H). assert (Ev := f_equal (fun t => snd (fst t)) H). assert (En := f_equal snd H). cbn [fst snd] in Et, Ev, En.
  split; [now rewrite <- Et|]. split; [now rewrite <- Et|]. split; [now rewrite <- Ev|].
  destruct nt as [c|c nb]; [now symmetry|]. inversion F3 as [|? v3 ? r3 Wn F4]; subst r2. rewrite <- En.
  rewrite app_nth2 by lia. replace (S (length l1) - length l1)%nat with 1%nat by lia. exact Wn.
Qed.
Print Assumptions C105_bounds_partial.

Theorem C105_fixed_partial : forall lik opt sched dim n_start sigma2_0 nt v u rnd sw th s2 no,
  stays_within opt -> (forall f x0 b, exists v, fst (opt f x0 b) = Some v) -> fair sched ->
  0 < v -> / 10 ^ 12 <= 9 * sigma2_0 -> (forall c nb, nt = NoiseOptimized c nb -> 0 < fst nb <= snd nb) ->
  Forall (fun v => 0 <= v < 1) u -> (forall t j, (j < S (S dim))%nat -> unit_draws n_start (rnd t j)) ->
  sgp_choose lik opt sched dim n_start sigma2_0 nt (Fixed [v]) u rnd sw = Some (th, s2, no) ->
  th = repeat v dim.
Proof.
  intros lik opt sched dim n s0 nt v u rnd sw th s2 no St Fin Fa Hv Sv Sn U D H.
  change (sgp_choose lik opt sched dim n s0 nt (Full [v] [(v, v)]) u rnd sw = Some (th, s2, no)) in H.
  destruct (C105_bounds_partial lik opt sched dim n s0 nt [v] (v, v) u rnd sw th s2 no St Fin Fa ltac:(cbn; lra) Sv Sn U D H) as (L & F & _).
  subst dim. clear - F. induction F as [|a l [P Q] F IH]; [reflexivity|]. cbn in *. f_equal; [lra|exact IH].
Qed.
Print Assumptions C105_fixed_partial.

(** Components excluded from the tuning are tuned as well. *)
Theorem C105_inactive_refuted : (forall lik opt sched dim n_start sigma2_0 nt init b active u rnd sw,
    sgp_choose lik opt sched dim n_start sigma2_0 nt (Partial init b active) u rnd sw = sgp_choose lik opt sched dim n_start sigma2_0 nt (Full init b) u rnd sw) /\
  exists th s2 no, sgp_choose (fun _ _ _ => Some 0) to_upper in_order 2 0 1 (NoiseFixed 1) (Partial [1; 1] [(1, 10)] [O]) [] (fun _ _ => []) (fun _ _ => []) = Some (th, s2, no) /\
    nth_error th 1 = Some 10.
Proof.
  split; [reflexivity|]. do 3 eexists. split; [cbn -[pow10 Tune_Model.log10 IZR pow]; reflexivity|].
  cbn -[pow10 Tune_Model.log10 IZR pow]. f_equal. apply pow10_log10. lra.
Qed.
Print Assumptions C105_inactive_refuted.
Example C105_example : exists p, sgp_choose (fun _ _ _ => Some 0) to_upper in_order 1 0 1 (NoiseOptimized 1 (1, 5)) (Full [1] [(1, 10)]) [] (fun _ _ => []) (fun _ _ => []) = Some p /\
  0 < fst (1, 10) <= snd (1, 10) /\ / 10 ^ 12 <= 9 * 1.
Proof.
  eexists. split; [cbn -[pow10 Tune_Model.log10 IZR pow]; reflexivity|]. split; [cbn; lra|].
  assert (/ 10 ^ 12 <= / 1); [|lra]. apply Rinv_le_contravar; [lra|]. apply pow_R1_Rle. lra.
Qed.

(** ** C62: starts of the tuning of a sparse process *)
(** The start of the variance is drawn in the search space of theta, not in its own. *)
Theorem C62_sparse_refuted : exists starts lb, sgp_starts 1 1 1 (NoiseFixed 1) (Full [100] [(100, 1000)]) [1/2; 1/2] (fun _ _ => []) (fun _ _ => []) = Some (starts, lb) /\
  Forall (fun p => fst p <= snd p) lb /\ exists r, In r starts /\ ~ Forall2 within lb r.
Proof.
  assert (Lt : Tune_Model.log10 100 < Tune_Model.log10 1000) by (apply log10_lt; lra).
  assert (L9 : Tune_Model.log10 9 < Tune_Model.log10 100) by (apply log10_lt; lra).
  do 2 eexists. split.
  { unfold sgp_starts. cbn [sgp_init_bounds broadcast repeat app length]. cbv beta iota zeta. unfold prepare_multistart. cbn [map fst snd gen_ranges repeat length app].
    destruct (Rlt_dec _ _) as [_|N]; [|now elim N]. cbn [assign_row length Nat.eqb]. cbv beta iota zeta. unfold set_bound. cbn [firstn skipn app fst snd]. reflexivity. }
  split.
  - constructor; [cbn [fst snd]; lra|]. constructor; [|constructor]. cbn [fst snd]. left. apply log10_lt; [apply Rinv_0_lt_compat, pow_lt; lra|].
    assert (/ 10 ^ 12 <= / 1); [|lra]. apply Rinv_le_contravar; [lra|]. apply pow_R1_Rle. lra.
  - eexists. split; [right; left; reflexivity|]. intros W. inversion W as [|? ? ? ? _ W2]; subst. inversion W2 as [|? ? ? ? [_ W3] _]; subst. cbn [fst snd] in W3.
    rewrite Rmult_1_r in W3. lra.
Qed.
Print Assumptions C62_sparse_refuted.

(** ** C104: sampled trajectories *)

Theorem C104_prior_partial : forall method ck m n nx h theta w sigma2 noise nugget z x y g xs i j,
  sgp_build method ck m n nx h theta w sigma2 noise nugget z x y = Some g ->
  sgp_sample_cov g xs i j = prior ck nx h theta w sigma2 (xs i) (xs j).
Proof.
  intros method ck m n nx h theta w sigma2 noise nugget z x y g xs i j B. unfold sgp_build in B.
  destruct (sgp_likelihood _ _ _ _ _ _ _ _ _ _ _ _ _ _) as [[lk wd]|]; [|discriminate]. injection B as <-. apply compute_k_prior.
Qed.
Print Assumptions C104_prior_partial.
(** At a training point that is an inducing point the sampled values keep the prior variance although half of it is explained. *)
Theorem C104_posterior_refuted : exists g, one_build Fitc 1 0 = Some g /\ sgp_raw_var g (at0 O) = 1 / 2 /\ sgp_sample_cov g at0 O O = 1.
Proof.
  destruct C101_example as (g & B & _ & V & _). exists g. split; [exact B|]. split; [exact V|].
  rewrite (C104_prior_partial _ _ _ _ _ _ _ _ _ _ _ _ _ _ g at0 O O B). apply prior_at0.
Qed.
Print Assumptions C104_posterior_refuted.

(** ** C106: dimensions *)

Theorem C106_inputs_partial : forall method ck m n nx h theta w sigma2 noise nugget z x y g,
  sgp_build method ck m n nx h theta w sigma2 noise nugget z x y = Some g -> sgp_dims g = (nx, n).
Proof.
  intros method ck m n nx h theta w sigma2 noise nugget z x y g B. unfold sgp_build in B.
  destruct (sgp_likelihood _ _ _ _ _ _ _ _ _ _ _ _ _ _) as [[lk wd]|]; [|discriminate]. injection B as <-. reflexivity.
Qed.
Print Assumptions C106_inputs_partial.
Theorem C106_outputs_refuted : exists g, sgp_build Vfe SquaredExponential 1 2 1 1 (fun _ => 1) (fun _ _ => 1) 1 1 0 at0 at0 (fun _ => 1) = Some g /\ snd (sgp_dims g) <> 1%nat.
Proof.
  destruct (C103_trains Vfe SquaredExponential 1 2 1 1 (fun _ => 1) (fun _ _ => 1) 1 1 0 at0 at0 (fun _ => 1)) as [g B]; [apply at0_pd; lra|rewrite Rmax_left; lra|].
  exists g. split; [exact B|]. rewrite (C106_inputs_partial _ _ _ _ _ _ _ _ _ _ _ _ _ _ g B). discriminate.
Qed.
Print Assumptions C106_outputs_refuted.
