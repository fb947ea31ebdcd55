(** The error function and the standard normal distribution, used by the infill criteria (crates/ego/src/utils/misc.rs:30-38,
    crates/ego/src/utils/logei_helper.rs). The functions of libm are modelled by the functions they approximate. *)
From Coq Require Import Reals Lra Lia.
From Coquelicot Require Import Coquelicot.
Local Open Scope R_scope.

Definition gauss (t : R) : R := exp (- (t * t)).
(** [libm::erf] and [libm::erfc]. *)
Definition erf (x : R) : R := 2 / sqrt PI * RInt gauss 0 x.
Definition erfc (x : R) : R := 1 - erf x.
(** misc.rs:31-33, [norm_cdf]. *)
Definition norm_cdf (x : R) : R := / 2 * erfc (- x / sqrt 2).
(** misc.rs:36-38, [norm_pdf]; SQRT_2PI is the square root of 2 pi. *)
Definition norm_pdf (x : R) : R := exp (- / 2 * x * x) / sqrt (2 * PI).

Lemma gauss_pos t : 0 < gauss t. Proof. apply exp_pos. Qed.
Lemma gauss_ex_derive t : ex_derive gauss t.
Proof. unfold gauss. auto_derive. exact I. Qed.
Lemma gauss_cont t : continuous gauss t.
Proof. apply (ex_derive_continuous gauss), gauss_ex_derive. Qed.
Lemma gauss_ex_RInt a b : ex_RInt gauss a b.
Proof. apply (ex_RInt_continuous gauss). intros; apply gauss_cont. Qed.
Definition E (x : R) : R := RInt gauss 0 x.
Lemma E_derive x : is_derive E x (gauss x).
Proof.
  apply (is_derive_RInt gauss E 0 x).
  - apply filter_forall. intros y. apply (RInt_correct gauss), gauss_ex_RInt.
  - apply gauss_cont.
Qed.
Lemma E_0 : E 0 = 0.
Proof. unfold E. apply (RInt_point 0 gauss). Qed.

(** ** The integral of Gauss *)
Definition Jf (x t : R) : R := exp (- (x * x * (1 + t * t))) / (1 + t * t).
Definition J (x : R) : R := RInt (Jf x) 0 1.
Lemma sq1_pos t : 0 < 1 + t * t. Proof. pose proof (Rle_0_sqr t). unfold Rsqr in H. lra. Qed.
Lemma Jf_derive x t : is_derive (fun u => Jf u t) x (-2 * x * exp (- (x * x * (1 + t * t)))).
Proof.
  unfold Jf. pose proof (sq1_pos t). auto_derive; [lra|]. field. lra.
Qed.
Lemma Jf_cont x t : continuous (Jf x) t.
Proof. apply (ex_derive_continuous (Jf x)). unfold Jf. pose proof (sq1_pos t). auto_derive. lra. Qed.
Lemma J_derive x : is_derive J x (RInt (fun t => -2 * x * exp (- (x * x * (1 + t * t)))) 0 1).
Proof.
  unfold J. evar_last.
  - apply (is_derive_RInt_param Jf 0 1 x).
    + apply filter_forall. intros y t _. eexists. apply Jf_derive.
    + intros t _. apply continuity_2d_pt_ext with (fun u v => (-2 * u) * exp (- (u * u * (1 + v * v)))).
      { intros u v. symmetry. apply is_derive_unique, Jf_derive. }
      apply continuity_2d_pt_mult.
      * apply continuity_2d_pt_mult; [apply continuity_2d_pt_const|apply continuity_2d_pt_id1].
      * apply (continuity_1d_2d_pt_comp exp (fun u v => - (u * u * (1 + v * v)))).
        -- apply derivable_continuous_pt, derivable_pt_exp.
        -- apply continuity_2d_pt_opp. apply continuity_2d_pt_mult; [apply continuity_2d_pt_mult; apply continuity_2d_pt_id1|].
           apply continuity_2d_pt_plus; [apply continuity_2d_pt_const|]. apply continuity_2d_pt_mult; apply continuity_2d_pt_id2.
    + apply filter_forall. intros y. apply (ex_RInt_continuous (Jf y)). intros; apply Jf_cont.
  - apply RInt_ext. intros t _. apply is_derive_unique, Jf_derive.
Qed.
Lemma E_scale x : E x = x * RInt (fun t => gauss (x * t)) 0 1.
Proof.
  unfold E. transitivity (RInt gauss (x * 0 + 0) (x * 1 + 0)); [f_equal; ring|].
  rewrite <- (RInt_comp_lin gauss x 0 0 1).
  - symmetry. etransitivity; [symmetry; apply (RInt_scal (fun t => gauss (x * t)) 0 1 x)|].
    2: { apply RInt_ext. intros t _. unfold scal. cbn. unfold mult. cbn. do 2 f_equal. ring. }
    apply (ex_RInt_continuous (fun t => gauss (x * t))). intros z _. apply (ex_derive_continuous (fun t => gauss (x * t))). unfold gauss. auto_derive. exact I.
  - apply gauss_ex_RInt.
Qed.
Lemma J_derive' x : is_derive J x (- 2 * gauss x * E x).
Proof.
  evar_last; [apply J_derive|]. rewrite E_scale.
  transitivity (RInt (fun t => scal (-2 * x * gauss x) (gauss (x * t))) 0 1).
  - apply RInt_ext. intros t _. unfold scal. cbn. unfold mult. cbn. unfold gauss. rewrite Rmult_assoc, (Rmult_assoc (-2 * x)), <- exp_plus. rewrite <- Rmult_assoc. f_equal. f_equal. ring.
  - etransitivity; [apply (RInt_scal (fun t => gauss (x * t)) 0 1 (-2 * x * gauss x))|].
    2: { unfold scal. cbn. unfold mult. cbn. ring. }
    apply (ex_RInt_continuous (fun t => gauss (x * t))). intros z _. apply (ex_derive_continuous (fun t => gauss (x * t))). unfold gauss. auto_derive. exact I.
Qed.
Lemma const_of_derive (f : R -> R) a b : (forall t, is_derive f t 0) -> f a = f b.
Proof.
  intros H. destruct (Rtotal_order a b) as [L|[->|L]]; [|reflexivity|symmetry].
  - apply (eq_is_derive f); [|exact L]. intros; apply H.
  - apply (eq_is_derive f); [|exact L]. intros; apply H.
Qed.
Lemma J_0 : J 0 = PI / 4.
Proof.
  unfold J. rewrite <- atan_1. transitivity (RInt (Derive atan) 0 1).
  - apply RInt_ext. intros t _. unfold Jf. rewrite (is_derive_unique atan t (/ (1 + t ^ 2))).
    + replace (- (0 * 0 * (1 + t * t))) with 0 by ring. rewrite exp_0. pose proof (sq1_pos t). replace (1 + t ^ 2) with (1 + t * t) by ring. unfold Rdiv. rewrite Rmult_1_l. reflexivity.
    + apply is_derive_Reals, derivable_pt_lim_atan.
  - rewrite RInt_Derive.
    + rewrite atan_0. unfold minus, plus, opp. cbn. ring.
    + intros t _. eexists. apply is_derive_Reals, derivable_pt_lim_atan.
    + intros t _. apply continuous_ext with (fun t => / (1 + t ^ 2)).
      * intros u. symmetry. apply is_derive_unique, is_derive_Reals, derivable_pt_lim_atan.
      * apply (ex_derive_continuous (fun t => / (1 + t ^ 2))). pose proof (sq1_pos t). auto_derive. cbn. lra.
Qed.
Lemma gauss_identity x : E x * E x + J x = PI / 4.
Proof.
  transitivity (E 0 * E 0 + J 0); [|rewrite E_0, J_0; ring].
  apply (const_of_derive (fun x => E x * E x + J x)). intros t. evar_last.
  - apply (is_derive_plus (fun x => E x * E x) J).
    + apply (is_derive_mult E E); [apply E_derive|apply E_derive|]. intros; unfold mult; cbn; ring.
    + apply J_derive'.
  - unfold plus, mult. cbn. ring.
Qed.
Lemma J_pos x : 0 < J x.
Proof.
  unfold J. apply RInt_gt_0; [lra| |].
  - intros t _. unfold Jf. apply Rdiv_lt_0_compat; [apply exp_pos|apply sq1_pos].
  - intros t _. apply Jf_cont.
Qed.
Lemma J_le x : J x <= gauss x * (PI / 4).
Proof.
  rewrite <- J_0. unfold J. change (gauss x * RInt (Jf 0) 0 1) with (scal (gauss x) (RInt (Jf 0) 0 1)). rewrite <- (RInt_scal (Jf 0) 0 1 (gauss x)).
  - apply RInt_le; [lra| | |].
    + apply (ex_RInt_continuous (Jf x)). intros; apply Jf_cont.
    + apply (ex_RInt_scal (Jf 0)). apply (ex_RInt_continuous (Jf 0)). intros; apply Jf_cont.
    + intros t _. unfold scal. cbn. unfold mult. cbn. unfold Jf, gauss. unfold Rdiv. rewrite <- Rmult_assoc. apply Rmult_le_compat_r.
      * left. apply Rinv_0_lt_compat, sq1_pos.
      * rewrite <- exp_plus. destruct (Req_dec (x * t) 0) as [Z|Z].
        -- right. f_equal. replace (x * x * (1 + t * t)) with (x * x + (x * t) * (x * t)) by ring. rewrite Z. ring.
        -- left. apply exp_increasing. replace (x * x * (1 + t * t)) with (x * x + (x * t) * (x * t)) by ring.
           assert (0 < (x * t) * (x * t)) by (apply Rsqr_pos_lt; exact Z). lra.
  - apply (ex_RInt_continuous (Jf 0)). intros; apply Jf_cont.
Qed.

(** ** The error function *)
Lemma E_odd x : E (- x) = - E x.
Proof.
  assert (H : E x + E (- x) = E 0 + E (- 0)).
  { apply (const_of_derive (fun x => E x + E (- x))). intros t. evar_last.
    - apply (is_derive_plus E (fun x => E (- x))); [apply E_derive|].
      apply (is_derive_comp E (fun x => - x)); [apply E_derive|].
      apply (is_derive_opp (fun x : R => x) t 1). apply @is_derive_id.
    - unfold plus, scal, opp. cbn. unfold mult. cbn. unfold gauss. replace (- t * - t) with (t * t) by ring. ring. }
  rewrite Ropp_0, E_0 in H. lra.
Qed.
Lemma E_incr a b : a < b -> E a < E b.
Proof.
  intros H. assert (E b - E a = RInt gauss a b).
  { unfold E. pose proof (RInt_Chasles gauss 0 a b (gauss_ex_RInt 0 a) (gauss_ex_RInt a b)) as C.
    change (RInt gauss 0 a + RInt gauss a b = RInt gauss 0 b) in C. lra. }
  assert (0 < RInt gauss a b); [|lra]. apply RInt_gt_0; [exact H|intros; apply gauss_pos|intros; apply gauss_cont].
Qed.
Lemma sqrt_PI_pos : 0 < sqrt PI. Proof. apply sqrt_lt_R0, PI_RGT_0. Qed.
Lemma erf_E x : erf x = 2 / sqrt PI * E x. Proof. reflexivity. Qed.
Lemma erf_sq x : erf x * erf x = 1 - 4 / PI * J x.
Proof.
  rewrite erf_E. pose proof (gauss_identity x) as G. pose proof sqrt_PI_pos. pose proof PI_RGT_0.
  replace (2 / sqrt PI * E x * (2 / sqrt PI * E x)) with (4 / (sqrt PI * sqrt PI) * (E x * E x)) by (field; lra).
  rewrite sqrt_def by lra. replace (E x * E x) with (PI / 4 - J x) by lra. field. lra.
Qed.
Lemma erf_0 : erf 0 = 0. Proof. rewrite erf_E, E_0. ring. Qed.
Lemma erf_odd x : erf (- x) = - erf x. Proof. rewrite !erf_E, E_odd. ring. Qed.
Lemma erf_incr a b : a < b -> erf a < erf b.
Proof.
  intros H. rewrite !erf_E. apply Rmult_lt_compat_l; [apply Rdiv_lt_0_compat; [lra|apply sqrt_PI_pos]|]. now apply E_incr.
Qed.
Lemma erf_bounds x : -1 < erf x < 1.
Proof.
  assert (H : erf x * erf x < 1).
  { rewrite erf_sq. pose proof (J_pos x). pose proof PI_RGT_0. assert (0 < 4 / PI) by (apply Rdiv_lt_0_compat; lra).
    assert (0 < 4 / PI * J x) by (now apply Rmult_lt_0_compat). lra. }
  split; nra.
Qed.
Lemma erf_derive x : is_derive erf x (2 / sqrt PI * gauss x).
Proof. apply (is_derive_scal E x (2 / sqrt PI)), E_derive. Qed.
Lemma erfc_derive x : is_derive erfc x (- (2 / sqrt PI * gauss x)).
Proof.
  evar_last; [apply (is_derive_minus (fun _ => 1) erf); [apply @is_derive_const|apply erf_derive]|]. unfold minus, plus, opp, zero. cbn. ring.
Qed.
Lemma erfc_bounds x : 0 < erfc x < 2. Proof. unfold erfc. pose proof (erf_bounds x). lra. Qed.
Lemma erfc_le_gauss x : 0 <= x -> erfc x <= gauss x.
Proof.
  intros H. assert (P : 0 <= erf x). { rewrite <- erf_0. destruct H as [H| <-]; [left; now apply erf_incr|right; reflexivity]. }
  assert (S : erfc x * (1 + erf x) = 4 / PI * J x) by (unfold erfc; pose proof (erf_sq x); lra).
  pose proof (J_le x) as L. pose proof (erfc_bounds x). pose proof PI_RGT_0.
  assert (4 / PI * J x <= gauss x).
  { replace (gauss x) with (4 / PI * (gauss x * (PI / 4))) by (field; lra). apply Rmult_le_compat_l; [left; apply Rdiv_lt_0_compat; lra|exact L]. }
  nra.
Qed.

(** ** The standard normal distribution *)
Lemma sqrt2_pos : 0 < sqrt 2. Proof. apply sqrt_lt_R0; lra. Qed.
Lemma sqrt2_sq : sqrt 2 * sqrt 2 = 2. Proof. apply sqrt_def; lra. Qed.
Lemma sqrt_2PI_pos : 0 < sqrt (2 * PI). Proof. apply sqrt_lt_R0. pose proof PI_RGT_0; lra. Qed.
Lemma sqrt_2PI_mult : sqrt (2 * PI) = sqrt 2 * sqrt PI.
Proof. apply sqrt_mult; [lra|]. pose proof PI_RGT_0; lra. Qed.
Lemma norm_pdf_pos u : 0 < norm_pdf u.
Proof. apply Rdiv_lt_0_compat; [apply exp_pos|apply sqrt_2PI_pos]. Qed.
Lemma norm_cdf_bounds u : 0 < norm_cdf u < 1.
Proof. unfold norm_cdf. pose proof (erfc_bounds (- u / sqrt 2)). lra. Qed.
Lemma gauss_half u : gauss (- u / sqrt 2) = exp (- / 2 * u * u).
Proof.
  unfold gauss. f_equal. replace (- u / sqrt 2 * (- u / sqrt 2)) with (u * u / (sqrt 2 * sqrt 2)) by (field; pose proof sqrt2_pos; lra).
  rewrite sqrt2_sq. field.
Qed.
Lemma norm_cdf_derive u : is_derive norm_cdf u (norm_pdf u).
Proof.
  evar_last.
  - apply (is_derive_scal (fun u => erfc (- u / sqrt 2)) u (/ 2)).
    apply (is_derive_comp erfc (fun u => - u / sqrt 2)); [apply erfc_derive|]. pose proof sqrt2_pos. auto_derive; [exact I|reflexivity].
  - unfold scal. cbn. unfold mult. cbn. rewrite gauss_half. unfold norm_pdf. rewrite sqrt_2PI_mult. field. pose proof sqrt2_pos. pose proof sqrt_PI_pos. lra.
Qed.
Lemma norm_pdf_derive u : is_derive norm_pdf u (- u * norm_pdf u).
Proof. unfold norm_pdf. pose proof sqrt_2PI_pos. auto_derive; [exact I|]. field. lra. Qed.
Lemma norm_cdf_sym u : norm_cdf u + norm_cdf (- u) = 1.
Proof. unfold norm_cdf, erfc. replace (- - u / sqrt 2) with (- (- u / sqrt 2)) by (field; pose proof sqrt2_pos; lra). rewrite erf_odd. lra. Qed.
Lemma norm_cdf_0 : norm_cdf 0 = / 2.
Proof. pose proof (norm_cdf_sym 0) as H. rewrite Ropp_0 in H. lra. Qed.
Lemma norm_cdf_incr a b : a < b -> norm_cdf a < norm_cdf b.
Proof.
  intros H. unfold norm_cdf, erfc. assert (erf (- b / sqrt 2) < erf (- a / sqrt 2)); [|lra]. apply erf_incr.
  apply Rmult_lt_compat_r; [apply Rinv_0_lt_compat, sqrt2_pos|lra].
Qed.
Lemma norm_cdf_tail u : u <= 0 -> norm_cdf u <= / 2 * exp (- / 2 * u * u).
Proof.
  intros H. unfold norm_cdf. rewrite <- gauss_half. apply Rmult_le_compat_l; [lra|]. apply erfc_le_gauss.
  apply Rmult_le_pos; [lra|left; apply Rinv_0_lt_compat, sqrt2_pos].
Qed.

(** ** The improvement function u Phi(u) + phi(u) *)
Definition impr (u : R) : R := u * norm_cdf u + norm_pdf u.
Lemma impr_derive u : is_derive impr u (norm_cdf u).
Proof.
  unfold impr. evar_last.
  - apply (is_derive_plus (fun u => u * norm_cdf u) norm_pdf); [|apply norm_pdf_derive].
    apply (is_derive_mult (fun u : R => u) norm_cdf); [apply @is_derive_id|apply norm_cdf_derive|intros; apply Rmult_comm].
  - unfold plus, mult, one. cbn. ring.
Qed.
Lemma impr_incr a b : a < b -> impr a < impr b.
Proof.
  intros H. assert (exists c, a <= c <= b /\ impr b - impr a = norm_cdf c * (b - a)) as [c [_ M]].
  { destruct (MVT_gen impr a b norm_cdf) as [c [B C]].
    - intros; apply impr_derive.
    - intros; apply derivable_continuous_pt. eexists. apply is_derive_Reals, impr_derive.
    - rewrite Rmin_left, Rmax_right in B by lra. now exists c. }
  pose proof (norm_cdf_bounds c). nra.
Qed.
(** A bound of the left tail: u Phi(u) >= -1/|u|. *)
Lemma tail_bound v : v < 0 -> - v * norm_cdf v <= / - v.
Proof.
  intros V. pose proof (norm_cdf_tail v (Rlt_le _ _ V)) as T.
  assert (X : exp (- / 2 * v * v) <= / (1 + / 2 * v * v)).
  { replace (- / 2 * v * v) with (- (/ 2 * v * v)) by ring. rewrite exp_Ropp. apply Rinv_le_contravar; [nra|].
    destruct (Req_dec (/ 2 * v * v) 0) as [Z|Z]; [nra|]. left. apply exp_ineq1. exact Z. }
  assert (B : norm_cdf v <= / (v * v)).
  { apply Rle_trans with (/ 2 * / (1 + / 2 * v * v)); [lra|]. rewrite <- Rinv_mult. apply Rinv_le_contravar; nra. }
  replace (/ - v) with (- v * / (v * v)) by (field; lra). apply Rmult_le_compat_l; lra.
Qed.
Lemma impr_pos u : 0 < impr u.
Proof.
  destruct (Rlt_le_dec 0 (impr u)) as [H|H]; [exact H|exfalso].
  assert (I1 : impr (u - 1) < 0) by (pose proof (impr_incr (u - 1) u); lra).
  set (c := - impr (u - 1)) in *.
  set (v := Rmin (u - 1) (- (1 + / c)) - 1).
  assert (C : 0 < c) by (unfold c; lra). pose proof (Rinv_0_lt_compat c C) as IC.
  assert (V1 : v < u - 1) by (unfold v; pose proof (Rmin_l (u - 1) (- (1 + / c))); lra).
  assert (V2 : v < - (1 + / c)) by (unfold v; pose proof (Rmin_r (u - 1) (- (1 + / c))); lra).
  pose proof (impr_incr v (u - 1) V1) as L. pose proof (norm_pdf_pos v) as P.
  assert (V : v < 0) by lra. pose proof (tail_bound v V) as T.
  assert (K : c < / - v).
  { unfold c in *. assert (impr v = v * norm_cdf v + norm_pdf v) by reflexivity. lra. }
  assert (/ - v < c); [|lra]. rewrite <- (Rinv_inv c). apply Rinv_lt_contravar; [|lra]. apply Rmult_lt_0_compat; lra.
Qed.
