(** Proofs about Gaussian mixtures and smooth recombination. *)
From Coq Require Import Reals Lra Lia Arith.
From Coquelicot Require Import Coquelicot.
From Coq Require Import List Bool.
From Verif Require Import RVec Gmx_Model Gmx_Spec.
Local Open Scope R_scope.

(** ** The computed density is the normal density *)
Lemma factor_sqrt h : 0 < h -> factor h = / sqrt h.
Proof. intros H. unfold factor. rewrite Rpower_Ropp, Rpower_sqrt by exact H. reflexivity. Qed.
Lemma factor_sq h : 0 < h -> factor h * factor h = / h.
Proof.
  intros H. rewrite factor_sqrt by exact H. rewrite <- Rinv_mult. rewrite sqrt_sqrt by lra. reflexivity.
Qed.
Lemma factor_pos h : 0 < factor h.
Proof. apply exp_pos. Qed.

Lemma sq_sum n f : sumn n f * sumn n f = sumn n (fun i => sumn n (fun j => f i * f j)).
Proof.
  rewrite <- sumn_scal_r. apply sumn_ext. intros i _. rewrite <- sumn_scal_l. reflexivity.
Qed.

Lemma quad_form d (C : nat -> nat -> R) a h : 0 < h ->
  sumn d (fun l => sumn d (fun i => a i * (C i l * factor h)) * sumn d (fun i => a i * (C i l * factor h))) =
  sumn d (fun i => sumn d (fun j => a i * (sumn d (fun l => C i l * C j l) / h) * a j)).
Proof.
  intros H.
  rewrite (sumn_ext d _ (fun l => sumn d (fun i => sumn d (fun j => a i * (C i l * factor h) * (a j * (C j l * factor h)))))).
  2:{ intros l _. apply sq_sum. }
  rewrite sumn_swap. apply sumn_ext. intros i _.
  rewrite sumn_swap. apply sumn_ext. intros j _.
  rewrite (sumn_ext d _ (fun l => (a i * a j * / h) * (C i l * C j l))).
  2:{ intros l _. rewrite <- (factor_sq h H). ring. }
  rewrite sumn_scal_l. unfold Rdiv. ring.
Qed.

Lemma ln2pi_pow d : exp (- / 2 * (INR d * ln (2 * PI))) = / (sqrt (2 * PI)) ^ d.
Proof.
  assert (P : 0 < 2 * PI) by (pose proof PI_RGT_0; lra).
  replace (- / 2 * (INR d * ln (2 * PI))) with (- (INR d * (/ 2 * ln (2 * PI)))) by ring.
  rewrite exp_Ropp. f_equal.
  induction d as [|d IH]; [simpl; rewrite Rmult_0_l; apply exp_0|].
  rewrite S_INR. replace ((INR d + 1) * (/ 2 * ln (2 * PI))) with (/ 2 * ln (2 * PI) + INR d * (/ 2 * ln (2 * PI))) by ring.
  rewrite exp_plus, IH. simpl. f_equal.
  change (exp (/ 2 * ln (2 * PI))) with (Rpower (2 * PI) (/ 2)). apply Rpower_sqrt. exact P.
Qed.

Lemma pdf_density g x k : good_mixture g -> (k < gm_k g)%nat -> pdf g x k = density g x k.
Proof.
  intros (K & W & S & C & H & L) Hk. unfold pdf, log_gauss, density, normal_density.
  rewrite (quad_form (gm_d g) (gm_chol g k) (fun i => x i - gm_mu g k i)) by exact H.
  rewrite Rmult_plus_distr_l, !exp_plus, ln2pi_pow, L. unfold log_det. rewrite exp_sumn.
  rewrite (prodn_ext (gm_d g) (fun i => exp (ln (gm_chol g k i i * factor (gm_h g)))) (fun i => gm_chol g k i i / sqrt (gm_h g))).
  2:{ intros i Hi. rewrite exp_ln.
      - rewrite factor_sqrt by exact H. reflexivity.
      - apply Rmult_lt_0_compat; [now apply C|apply factor_pos]. }
  set (A := exp _). set (B := / _). set (D := prodn _ _). ring.
Qed.

Lemma exp_wlp_pdf g x k : 0 < gm_w g k -> exp (wlp g x k) = gm_w g k * pdf g x k.
Proof. intros W. unfold wlp. rewrite exp_plus, exp_ln by exact W. unfold pdf. ring. Qed.
Lemma exp_wlp g x k : good_mixture g -> (k < gm_k g)%nat -> exp (wlp g x k) = gm_w g k * density g x k.
Proof.
  intros G Hk. rewrite exp_wlp_pdf, pdf_density by (auto; apply G; exact Hk). reflexivity.
Qed.
Lemma density_pos g x k : good_mixture g -> (k < gm_k g)%nat -> 0 < density g x k.
Proof. intros G Hk. rewrite <- pdf_density by assumption. apply exp_pos. Qed.
Lemma mix_density_exp g x : good_mixture g -> mix_density g x = sumn (gm_k g) (fun k => exp (wlp g x k)).
Proof. intros G. apply sumn_ext. intros k Hk. symmetry. now apply exp_wlp. Qed.
Lemma mix_density_pos g x : good_mixture g -> 0 < mix_density g x.
Proof.
  intros G. rewrite mix_density_exp by exact G. apply sumn_pos; [apply G|]. intros; apply exp_pos.
Qed.

(** ** The filtered total *)
Lemma total_bounds g x : good_mixture g ->
  total g x <= mix_density g x <= total g x + INR (gm_k g) * exp min10.
Proof.
  intros G. rewrite mix_density_exp by exact G. unfold total. split.
  - apply sumn_le. intros k _. destruct (Rle_dec _ _); [left; apply exp_pos|lra].
  - rewrite <- sumn_const, <- sumn_plus. apply sumn_le. intros k _.
    pose proof (exp_pos min10). destruct (Rle_dec _ _) as [L|L]; [|lra].
    destruct L as [L|L]; [apply exp_increasing in L; lra|rewrite L; lra].
Qed.
Lemma total_nonneg g x : 0 <= total g x.
Proof. apply sumn_nonneg. intros k _. destruct (Rle_dec _ _); [lra|left; apply exp_pos]. Qed.
Lemma eps_pos : 0 < eps64. Proof. unfold eps64. apply Rinv_0_lt_compat. lra. Qed.

Lemma total_regular g x : good_mixture g ->
  (forall k, (k < gm_k g)%nat -> exp min10 < gm_w g k * density g x k) -> total g x = mix_density g x.
Proof.
  intros G R. rewrite mix_density_exp by exact G. unfold total. apply sumn_ext. intros k Hk.
  destruct (Rle_dec _ _) as [L|L]; [|reflexivity]. exfalso.
  specialize (R k Hk). rewrite <- exp_wlp in R by assumption.
  destruct L as [L|L]; [apply exp_increasing in L; lra|rewrite L in R; lra].
Qed.

(** ** Responsibilities *)
Lemma probas_pos g x k : 0 < probas g x k.
Proof. unfold probas. destruct (Nat.eqb _ _); [lra|apply exp_pos]. Qed.

Lemma probas_norm g x k : gm_k g <> 1%nat -> good_mixture g -> (k < gm_k g)%nat ->
  eps64 <= total g x -> probas g x k = gm_w g k * density g x k / total g x.
Proof.
  intros N G Hk T. pose proof eps_pos. unfold probas. destruct (Nat.eqb_spec (gm_k g) 1); [contradiction|].
  unfold log_resp, log_norm. rewrite Rabs_pos_eq by lra.
  destruct (Rlt_dec _ _); [lra|]. unfold Rminus. rewrite exp_plus, exp_Ropp, exp_ln by lra.
  rewrite exp_wlp by assumption. reflexivity.
Qed.
Lemma probas_far g x k : gm_k g <> 1%nat -> good_mixture g -> (k < gm_k g)%nat ->
  total g x < eps64 -> probas g x k = gm_w g k * density g x k.
Proof.
  intros N G Hk T. unfold probas. destruct (Nat.eqb_spec (gm_k g) 1); [contradiction|].
  unfold log_resp, log_norm. rewrite Rabs_pos_eq by apply total_nonneg.
  destruct (Rlt_dec _ _); [|lra]. rewrite Rminus_0_r. now apply exp_wlp.
Qed.

Lemma probas_sum_near g x : good_mixture g -> eps64 <= total g x ->
  1 <= sumn (gm_k g) (probas g x) <= 1 + INR (gm_k g) * exp min10 / eps64.
Proof.
  intros G T. pose proof eps_pos as E.
  assert (P : 0 <= INR (gm_k g) * exp min10 / eps64).
  { apply Rmult_le_pos; [apply Rmult_le_pos; [apply pos_INR|left; apply exp_pos]|].
    left. now apply Rinv_0_lt_compat. }
  destruct (Nat.eq_dec (gm_k g) 1) as [N|N].
  - rewrite N. cbn [sumn]. unfold probas. rewrite N. simpl Nat.eqb. cbv iota. rewrite N in P. lra.
  - rewrite (sumn_ext _ _ (fun k => gm_w g k * density g x k / total g x)).
    2:{ intros k Hk. now apply probas_norm. }
    rewrite sumn_div. fold (mix_density g x). destruct (total_bounds g x G) as [A B].
    split.
    + apply Rmult_le_reg_r with (total g x); [lra|]. unfold Rdiv. rewrite Rmult_assoc, Rinv_l by lra. lra.
    + apply Rmult_le_reg_r with (total g x); [lra|]. unfold Rdiv. rewrite Rmult_assoc, Rinv_l by lra.
      rewrite Rmult_1_r, Rmult_plus_distr_r, Rmult_1_l. eapply Rle_trans; [exact B|].
      apply Rplus_le_compat_l. rewrite Rmult_assoc.
      rewrite <- (Rmult_1_r (INR (gm_k g) * exp min10)) at 1. apply Rmult_le_compat_l.
      * apply Rmult_le_pos; [apply pos_INR|left; apply exp_pos].
      * apply Rmult_le_reg_l with eps64; [exact E|]. rewrite <- Rmult_assoc, Rinv_r by lra. lra.
Qed.

Lemma probas_sum_regular g x : good_mixture g -> regular g x -> sumn (gm_k g) (probas g x) = 1.
Proof.
  intros G [N|[R T]]; [|change (eps64 < mix_density g x) in T].
  - rewrite N. cbn [sumn]. unfold probas. rewrite N. simpl. lra.
  - pose proof eps_pos. pose proof (total_regular g x G R) as E.
    destruct (Nat.eq_dec (gm_k g) 1) as [N|N].
    + rewrite N. cbn [sumn]. unfold probas. rewrite N. simpl. lra.
    + rewrite (sumn_ext _ _ (fun k => gm_w g k * density g x k / total g x)).
      2:{ intros k Hk. apply probas_norm; try assumption. rewrite E. lra. }
      rewrite sumn_div. fold (mix_density g x). rewrite E. unfold Rdiv. apply Rinv_r. lra.
Qed.

(** Regular points: the responsibility is the normalized weighted density. *)
Lemma probas_regular g x k : good_mixture g -> (k < gm_k g)%nat -> regular g x ->
  probas g x k = gm_w g k * density g x k / mix_density g x.
Proof.
  intros G Hk [N|[R T]]; [|change (eps64 < mix_density g x) in T].
  - assert (k = 0%nat) by lia. subst k. unfold probas, mix_density. rewrite N. cbn [sumn]. simpl.
    rewrite Rplus_0_l. symmetry. apply Rinv_r.
    pose proof (density_pos g x 0 G Hk) as D. destruct G as (_ & W & _). specialize (W 0%nat Hk).
    pose proof (Rmult_lt_0_compat _ _ W D). lra.
  - pose proof eps_pos. pose proof (total_regular g x G R) as E.
    destruct (Nat.eq_dec (gm_k g) 1) as [N|N].
    + assert (k = 0%nat) by lia. subst k. unfold probas, mix_density. rewrite N. cbn [sumn]. simpl.
      rewrite Rplus_0_l. symmetry. apply Rinv_r.
      pose proof (density_pos g x 0 G Hk) as D. destruct G as (_ & W & _). specialize (W 0%nat Hk).
      pose proof (Rmult_lt_0_compat _ _ W D). lra.
    + rewrite probas_norm; try assumption; [|rewrite E; lra]. rewrite E. reflexivity.
Qed.

Lemma probas_sum_far g x : good_mixture g -> gm_k g <> 1%nat -> mix_density g x < eps64 ->
  sumn (gm_k g) (probas g x) = mix_density g x.
Proof.
  intros G N T. apply sumn_ext. intros k Hk. apply probas_far; try assumption.
  destruct (total_bounds g x G). lra.
Qed.

(** ** Convex combinations *)
Lemma smooth_val_bounds g ex x lo hi :
  sumn (gm_k g) (probas g x) = 1 ->
  (forall i, (i < gm_k g)%nat -> lo <= ex_val (ex i) x <= hi) ->
  lo <= smooth_val g ex x <= hi.
Proof.
  intros S B. unfold smooth_val.
  assert (L : sumn (gm_k g) (fun i => lo * probas g x i) <= sumn (gm_k g) (fun i => ex_val (ex i) x * probas g x i)).
  { apply sumn_le. intros i Hi. apply Rmult_le_compat_r; [left; apply probas_pos|apply B; exact Hi]. }
  assert (U : sumn (gm_k g) (fun i => ex_val (ex i) x * probas g x i) <= sumn (gm_k g) (fun i => hi * probas g x i)).
  { apply sumn_le. intros i Hi. apply Rmult_le_compat_r; [left; apply probas_pos|apply B; exact Hi]. }
  rewrite sumn_scal_l, S in L, U. lra.
Qed.
Lemma smooth_var_nonneg g ex x : (forall i, (i < gm_k g)%nat -> 0 <= ex_var (ex i) x) -> 0 <= smooth_var g ex x.
Proof.
  intros B. apply sumn_nonneg. intros i Hi. pose proof (probas_pos g x i).
  apply Rmult_le_pos; [apply Rmult_le_pos; [now apply B|lra]|lra].
Qed.
Lemma smooth_var_bounds g ex x hi :
  sumn (gm_k g) (probas g x) = 1 ->
  (forall i, (i < gm_k g)%nat -> 0 <= ex_var (ex i) x <= hi) ->
  smooth_var g ex x <= hi.
Proof.
  intros S B. unfold smooth_var.
  apply Rle_trans with (sumn (gm_k g) (fun i => hi * probas g x i)).
  - apply sumn_le. intros i Hi. pose proof (probas_pos g x i) as P. destruct (B i Hi) as [B0 B1].
    assert (P1 : probas g x i <= 1).
    { rewrite <- S. apply (sumn_term (gm_k g) (probas g x)); [intros; left; apply probas_pos|exact Hi]. }
    assert (H1 : ex_var (ex i) x * probas g x i <= hi * 1) by (apply Rmult_le_compat; lra).
    apply Rle_trans with (ex_var (ex i) x * probas g x i * 1).
    + apply Rmult_le_compat_l; [|exact P1]. apply Rmult_le_pos; lra.
    + rewrite Rmult_1_r. apply Rmult_le_compat_r; lra.
  - rewrite sumn_scal_l, S. lra.
Qed.

(** ** Derivatives of the responsibilities *)
Lemma log_gauss_partial g x k j : 0 < gm_h g -> (j < gm_d g)%nat ->
  partial (fun y => log_gauss g y k) x j
    (- sumn (gm_d g) (fun i => (x i - gm_mu g k i) * (precision g k i j / gm_h g))).
Proof.
  intros H Hj. unfold partial, log_gauss.
  set (d := gm_d g). set (C := gm_chol g k). set (mu := gm_mu g k). set (f := factor (gm_h g)).
  set (D := fun l (y : nat -> R) => sumn d (fun i => (y i - mu i) * (C i l * f))).
  assert (HD : forall l, is_derive (fun t => D l (upd x j t)) (x j) (C j l * f)).
  { intros l. eapply derive_eq.
    - apply derive_sumn. intros i Hi. apply derive_scal_r. apply derive_minus; [apply derive_upd|apply derive_const].
    - rewrite (sumn_only d _ j).
      + rewrite Nat.eqb_refl. ring.
      + exact Hj.
      + intros i _ Ni. destruct (Nat.eqb_spec i j); [contradiction|]. ring. }
  eapply derive_eq.
  - apply derive_plus; [|apply derive_const].
    apply derive_scal_l. apply derive_plus; [|apply derive_const].
    apply derive_sumn. intros l Hl. apply (derive_mult (fun t => D l (upd x j t)) (fun t => D l (upd x j t))); apply HD.
  - assert (E : forall l, D l (upd x j (x j)) = D l x).
    { intros l. apply sumn_ext. intros i _. now rewrite upd_id. }
    rewrite (sumn_ext d _ (fun l => 2 * (D l x * (C j l * f)))).
    2:{ intros l _. rewrite E. ring. }
    rewrite sumn_scal_l. rewrite Rplus_0_r, Rplus_0_r.
    replace (- / 2 * (2 * sumn d (fun l => D l x * (C j l * f)))) with (- sumn d (fun l => D l x * (C j l * f))) by field.
    f_equal. unfold D.
    rewrite (sumn_ext d _ (fun l => sumn d (fun i => (x i - mu i) * (C i l * f) * (C j l * f)))).
    2:{ intros l _. now rewrite sumn_scal_r. }
    rewrite sumn_swap. apply sumn_ext. intros i _. unfold precision. fold d C.
    rewrite (sumn_ext d _ (fun l => ((x i - mu i) * / gm_h g) * (C i l * C j l))).
    2:{ intros l _. unfold f. rewrite <- (factor_sq (gm_h g) H). ring. }
    rewrite sumn_scal_l. unfold Rdiv. ring.
Qed.

Lemma pdf_partial g x k j : 0 < gm_h g -> (j < gm_d g)%nat ->
  partial (fun y => pdf g y k) x j
    (- sumn (gm_d g) (fun i => (x i - gm_mu g k i) * (precision g k i j / gm_h g)) * pdf g x k).
Proof.
  intros H Hj. unfold partial, pdf. eapply derive_eq; [apply derive_exp, log_gauss_partial; assumption|].
  cbv beta. f_equal. f_equal. unfold log_gauss. f_equal. f_equal. f_equal. apply sumn_ext. intros l _.
  assert (E : sumn (gm_d g) (fun i => (upd x j (x j) i - gm_mu g k i) * (gm_chol g k i l * factor (gm_h g))) =
              sumn (gm_d g) (fun i => (x i - gm_mu g k i) * (gm_chol g k i l * factor (gm_h g)))).
  { apply sumn_ext. intros i _. now rewrite upd_id. }
  rewrite E. reflexivity.
Qed.

Lemma pdf_depends g k : depends (gm_d g) (fun y => pdf g y k).
Proof.
  intros x y E. unfold pdf, log_gauss. do 4 f_equal. apply sumn_ext. intros j _.
  assert (E' : sumn (gm_d g) (fun i => (x i - gm_mu g k i) * (gm_chol g k i j * factor (gm_h g))) =
               sumn (gm_d g) (fun i => (y i - gm_mu g k i) * (gm_chol g k i j * factor (gm_h g)))).
  { apply sumn_ext. intros i Hi. now rewrite (E i Hi). }
  rewrite E'. reflexivity.
Qed.

(** Normalized densities: the code's formula is their derivative, everywhere. *)
Lemma ratio_partial g x k j : good_mixture g -> (k < gm_k g)%nat -> (j < gm_d g)%nat ->
  partial (fun y => gm_w g k * density g y k / mix_density g y) x j (dprobas g x k j).
Proof.
  intros G Hk Hj. assert (H : 0 < gm_h g) by apply G.
  apply (partial_ext (fun y => gm_w g k * pdf g y k / sumn (gm_k g) (fun c => gm_w g c * pdf g y c))).
  { intros y. rewrite pdf_density by assumption. f_equal. apply sumn_ext. intros c Hc.
    now rewrite pdf_density. }
  unfold partial. eapply derive_eq.
  - apply (derive_div (fun t => gm_w g k * pdf g (upd x j t) k)
             (fun t => sumn (gm_k g) (fun c => gm_w g c * pdf g (upd x j t) c))).
    + apply derive_scal_l. apply pdf_partial; assumption.
    + apply derive_sumn. intros c Hc. apply derive_scal_l. apply pdf_partial; assumption.
    + apply Rgt_not_eq. apply sumn_pos; [apply G|]. intros c Hc. apply Rmult_lt_0_compat; [now apply G|apply exp_pos].
  - assert (E : forall c, pdf g (upd x j (x j)) c = pdf g x c) by (intros c; apply (depends_upd _ _ x j (pdf_depends g c))).
    unfold dprobas. cbv zeta. rewrite !E.
    rewrite (sumn_ext (gm_k g) (fun c => gm_w g c * pdf g (upd x j (x j)) c) (fun c => gm_w g c * pdf g x c)).
    2:{ intros c _. now rewrite E. }
    set (v := sumn (gm_k g) (fun c => gm_w g c * pdf g x c)).
    set (dk := fun c => sumn (gm_d g) (fun i => (x i - gm_mu g c i) * (precision g c i j / gm_h g))).
    rewrite (sumn_ext (gm_k g) _ (fun c => dk c * (- gm_w g c * pdf g x c))).
    2:{ intros c _. unfold dk. ring. }
    f_equal. unfold dk. ring.
Qed.

Lemma dprobas_sum g x j : good_mixture g -> sumn (gm_k g) (fun k => dprobas g x k j) = 0.
Proof.
  intros G. unfold dprobas. cbv zeta. rewrite sumn_div.
  set (v := sumn (gm_k g) (fun c => gm_w g c * pdf g x c)).
  set (dk := fun c => sumn (gm_d g) (fun i => (x i - gm_mu g c i) * (precision g c i j / gm_h g))).
  set (vp := sumn (gm_k g) (fun c => dk c * (- gm_w g c * pdf g x c))).
  rewrite sumn_minus, !sumn_scal_r. fold v.
  rewrite (sumn_ext (gm_k g) (fun k => - (sumn (gm_d g) (fun i => (x i - gm_mu g k i) * (precision g k i j / gm_h g)) * (gm_w g k * pdf g x k)))
            (fun c => dk c * (- gm_w g c * pdf g x c))).
  2:{ intros c _. unfold dk. ring. }
  change (sumn (gm_k g) (fun c => sumn (gm_d g) (fun i => (x i - gm_mu g c i) * (precision g c i j / gm_h g)) *
            (- gm_w g c * pdf g x c))) with vp.
  fold vp. unfold Rdiv. ring.
Qed.

(** ** Regular points form an open set along each coordinate *)
Lemma density_partial_ex g x k j : good_mixture g -> (k < gm_k g)%nat -> (j < gm_d g)%nat ->
  exists l, is_derive (fun t => gm_w g k * density g (upd x j t) k) (x j) l.
Proof.
  intros G Hk Hj. eexists. apply derive_scal_l.
  apply (is_derive_ext (fun t => pdf g (upd x j t) k)); [intros t; apply pdf_density; assumption|].
  apply (pdf_partial g x k j); [apply G|exact Hj].
Qed.
Lemma density_cont g x k j : good_mixture g -> (k < gm_k g)%nat -> (j < gm_d g)%nat ->
  continuous (fun t => gm_w g k * density g (upd x j t) k) (x j).
Proof.
  intros G Hk Hj. destruct (density_partial_ex g x k j G Hk Hj) as [l D].
  apply (ex_derive_continuous (fun t => gm_w g k * density g (upd x j t) k)). now exists l.
Qed.
Lemma locally_gt (f : R -> R) t c : continuous f t -> c < f t -> locally t (fun s => c < f s).
Proof. intros C L. apply (C (fun y => c < y)). now apply open_gt. Qed.
Lemma locally_all n (P : nat -> R -> Prop) t :
  (forall k, (k < n)%nat -> locally t (P k)) -> locally t (fun s => forall k, (k < n)%nat -> P k s).
Proof.
  induction n as [|n IH]; intros H.
  - apply filter_forall. intros s k Hk. lia.
  - assert (A := IH (fun k Hk => H k (Nat.lt_lt_succ_r _ _ Hk))). assert (B := H n (Nat.lt_succ_diag_r n)).
    generalize (filter_and _ _ A B). apply filter_imp. intros s [U V] k Hk.
    destruct (Nat.eq_dec k n) as [->|N]; [exact V|apply U; lia].
Qed.
Lemma density_depends g k : depends (gm_d g) (fun y => density g y k).
Proof.
  intros x y E. unfold density, normal_density. do 3 f_equal. apply sumn_ext. intros i Hi. apply sumn_ext. intros l Hl.
  now rewrite (E i Hi), (E l Hl).
Qed.
Lemma mix_depends g : depends (gm_d g) (fun y => mix_density g y).
Proof. intros x y E. apply sumn_ext. intros k _. now rewrite (density_depends g k x y E). Qed.

Lemma regular_open g x j : good_mixture g -> (j < gm_d g)%nat -> regular g x ->
  locally (x j) (fun t => regular g (upd x j t)).
Proof.
  intros G Hj [N|[R T]].
  - apply filter_forall. intros t. now left.
  - assert (A : locally (x j) (fun t => forall k, (k < gm_k g)%nat -> exp min10 < gm_w g k * density g (upd x j t) k)).
    { apply locally_all. intros k Hk. apply (locally_gt (fun t => gm_w g k * density g (upd x j t) k)).
      - now apply density_cont.
      - rewrite (depends_upd _ _ x j (density_depends g k)). now apply R. }
    assert (B : locally (x j) (fun t => eps64 < mix_density g (upd x j t))).
    { apply (locally_gt (fun t => mix_density g (upd x j t))).
      - apply (ex_derive_continuous (fun t => mix_density g (upd x j t))).
        exists (sumn (gm_k g) (fun k => Derive (fun t => gm_w g k * density g (upd x j t) k) (x j))).
        apply derive_sumn. intros k Hk. apply Derive_correct.
        destruct (density_partial_ex g x k j G Hk Hj) as [l D]. now exists l.
      - rewrite (depends_upd _ _ x j (mix_depends g)). exact T. }
    generalize (filter_and _ _ A B). apply filter_imp. intros t [U V]. right. now split.
Qed.

Lemma probas_partial g x k j : good_mixture g -> (k < gm_k g)%nat -> (j < gm_d g)%nat -> regular g x ->
  partial (fun y => probas g y k) x j (dprobas g x k j).
Proof.
  intros G Hk Hj R. unfold partial.
  apply (is_derive_ext_loc (fun t => gm_w g k * density g (upd x j t) k / mix_density g (upd x j t))).
  - generalize (regular_open g x j G Hj R). apply filter_imp. intros t Rt. symmetry. now apply probas_regular.
  - now apply (ratio_partial g x k j).
Qed.
Lemma probas_depends g k : depends (gm_d g) (fun y => probas g y k).
Proof.
  intros x y E. unfold probas. destruct (Nat.eqb _ _); [reflexivity|]. f_equal.
  assert (W : forall c, wlp g x c = wlp g y c).
  { intros c. unfold wlp. f_equal. apply exp_inv. exact (pdf_depends g c x y E). }
  unfold log_resp. rewrite W. f_equal. unfold log_norm.
  assert (T : total g x = total g y) by (apply sumn_ext; intros c _; now rewrite W). now rewrite T.
Qed.

(** ** Gradients of the smooth recombination *)
Lemma smooth_grad_correct g ex x : good_mixture g -> regular g x ->
  (forall i, (i < gm_k g)%nat -> depends (gm_d g) (ex_val (ex i))) ->
  (forall i, (i < gm_k g)%nat -> gradient (gm_d g) (ex_val (ex i)) x (ex_grad (ex i) x)) ->
  gradient (gm_d g) (smooth_val g ex) x (smooth_grad g ex x).
Proof.
  intros G R D E j Hj. unfold partial, smooth_val. eapply derive_eq.
  - apply derive_sumn. intros i Hi.
    apply (derive_mult (fun t => ex_val (ex i) (upd x j t)) (fun t => probas g (upd x j t) i)).
    + now apply E.
    + now apply (probas_partial g x i j).
  - unfold smooth_grad. rewrite <- sumn_plus. apply sumn_ext. intros i Hi.
    rewrite (depends_upd _ _ x j (probas_depends g i)), (depends_upd _ _ x j (D i Hi)). ring.
Qed.

(** The true derivative of the smooth variance. *)
Definition true_vgrad (g : gmixture) (ex : nat -> expert) (x : nat -> R) (j : nat) : R :=
  sumn (gm_k g) (fun i => ex_vgrad (ex i) x j * probas g x i * probas g x i) +
  sumn (gm_k g) (fun i => 2 * (probas g x i * dprobas g x i j * ex_var (ex i) x)).
Lemma true_vgrad_correct g ex x : good_mixture g -> regular g x ->
  (forall i, (i < gm_k g)%nat -> depends (gm_d g) (ex_var (ex i))) ->
  (forall i, (i < gm_k g)%nat -> gradient (gm_d g) (ex_var (ex i)) x (ex_vgrad (ex i) x)) ->
  gradient (gm_d g) (smooth_var g ex) x (true_vgrad g ex x).
Proof.
  intros G R D E j Hj. unfold partial, smooth_var. eapply derive_eq.
  - apply derive_sumn. intros i Hi.
    apply (derive_mult (fun t => ex_var (ex i) (upd x j t) * probas g (upd x j t) i) (fun t => probas g (upd x j t) i)).
    + apply (derive_mult (fun t => ex_var (ex i) (upd x j t)) (fun t => probas g (upd x j t) i)).
      * now apply E.
      * now apply (probas_partial g x i j).
    + now apply (probas_partial g x i j).
  - unfold true_vgrad. rewrite <- sumn_plus. apply sumn_ext. intros i Hi.
    rewrite (depends_upd _ _ x j (probas_depends g i)), (depends_upd _ _ x j (D i Hi)). ring.
Qed.

(** What the code computes: only with one cluster, or as many clusters as dimensions, no panic. *)
Lemma smooth_vgrad_panics g ex x : (2 <= gm_k g)%nat -> gm_d g <> gm_k g -> smooth_vgrad g ex x = None.
Proof.
  intros K D. unfold smooth_vgrad, bop, of_row, of_col, bdim. cbn [a_nr a_nc].
  destruct (Nat.eqb_spec 1 (gm_k g)); [lia|]. cbn [Nat.eqb].
  destruct (Nat.eqb_spec (gm_k g) (gm_d g)); [lia|].
  destruct (Nat.eqb_spec (gm_k g) 1); [lia|].
  destruct (Nat.eqb_spec (gm_d g) 1) as [D1|D1]; [|reflexivity].
  cbn [a_nr a_nc a_at sum_rows]. rewrite Nat.eqb_refl.
  destruct (Nat.eqb_spec (gm_k g) 1); [lia|]. cbn [a_nr a_nc a_at sum_rows Nat.eqb]. rewrite D1.
  destruct (Nat.eqb_spec 1 (gm_k g)); [lia|]. cbn [Nat.eqb]. unfold assign. cbn [a_nc].
  destruct (Nat.eqb_spec (gm_k g) 1); [lia|]. reflexivity.
Qed.

Lemma smooth_vgrad_square g ex x : (2 <= gm_k g)%nat -> gm_d g = gm_k g ->
  exists v, smooth_vgrad g ex x = Some v /\
  forall j, (j < gm_d g)%nat ->
    v j = true_vgrad g ex x j +
          2 * sumn (gm_k g) (fun i => (probas g x j - probas g x i) * dprobas g x i j * ex_var (ex i) x).
Proof.
  intros K D. unfold smooth_vgrad, bop, of_row, of_col, bdim. cbn [a_nr a_nc].
  rewrite D.
  assert (E1 : Nat.eqb (gm_k g) 1 = false) by (apply Nat.eqb_neq; lia).
  assert (E2 : Nat.eqb 1 (gm_k g) = false) by (apply Nat.eqb_neq; lia).
  unfold assign.
  repeat (rewrite ?Nat.eqb_refl, ?E1, ?E2; cbn [a_nr a_nc a_at sum_rows]).
  eexists. split; [reflexivity|].
  intros j Hj. cbv beta. unfold bidx. rewrite !E1. unfold true_vgrad. rewrite Rplus_assoc. f_equal.
  rewrite <- sumn_scal_l, <- sumn_plus. apply sumn_ext. intros i Hi. ring.
Qed.

Lemma smooth_vgrad_single g ex x : gm_k g = 1%nat -> (1 <= gm_d g)%nat ->
  exists v, smooth_vgrad g ex x = Some v /\ forall j, (j < gm_d g)%nat -> v j = true_vgrad g ex x j.
Proof.
  intros K D. unfold smooth_vgrad, bop, of_row, of_col, bdim. rewrite K. cbn [a_nr a_nc].
  unfold assign.
  destruct (Nat.eqb_spec (gm_d g) 1) as [E|E].
  - rewrite E. cbn [a_nr a_nc a_at sum_rows Nat.eqb].
    eexists. split; [reflexivity|]. intros j Hj. assert (j = 0%nat) by lia. subst j.
    unfold true_vgrad. rewrite K. unfold bidx. cbn [Nat.eqb sumn]. ring.
  - assert (E1 : Nat.eqb (gm_d g) 1 = false) by (apply Nat.eqb_neq; lia).
    assert (E2 : Nat.eqb 1 (gm_d g) = false) by (apply Nat.eqb_neq; lia).
    repeat (rewrite ?Nat.eqb_refl, ?E1, ?E2; cbn [a_nr a_nc a_at sum_rows]).
    eexists. split; [reflexivity|]. intros j Hj. unfold true_vgrad. rewrite K. unfold bidx. rewrite ?E1.
    cbn [sumn Nat.eqb]. ring.
Qed.
