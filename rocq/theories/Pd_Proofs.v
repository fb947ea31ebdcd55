(** Consequences of the positive semidefiniteness of the kernels for full and sparse Gaussian processes. *)
From Coq Require Import Reals Lra Lia Arith.
From Coquelicot Require Import Coquelicot.
From Coq Require Import List Bool.
From Verif Require Import RVec Moe_Model Kern_Model Kern_Spec Kern_Proofs Kern_Pd Gp_Model Gp_Spec Gp_Lin Gp_Proofs Gp_Grad Gp_Inv Gp_Exist
  Tune_Model Sgp_Model Sgp_Spec Sgp_Proofs.
Local Open Scope R_scope.

Lemma dot_lincomb n m (c : vec) (v : nat -> vec) :
  sumn m (fun i => sumn m (fun k => c i * c k * dot n (v i) (v k))) = dot n (fun a => sumn m (fun i => c i * v i a)) (fun a => sumn m (fun i => c i * v i a)).
Proof.
  unfold dot. rewrite (sumn_ext n (fun a => sumn m (fun i => c i * v i a) * sumn m (fun i => c i * v i a))
    (fun a => sumn m (fun i => sumn m (fun k => c i * c k * (v i a * v k a))))).
  - symmetry. rewrite sumn_swap. apply sumn_ext. intros i Hi. rewrite sumn_swap. apply sumn_ext. intros k Hk. apply sumn_scal_l.
  - intros a Ha. rewrite <- sumn_scal_r. apply sumn_ext. intros i Hi. rewrite <- sumn_scal_l. apply sumn_ext. intros; ring.
Qed.

(** Two sets of points. *)
Section Blocks.
  Context (ck : corr_kind) (nx h : nat) (th : vec) (w : mat).
  Hypothesis T : forall l, (l < h)%nat -> 0 <= th l.
  Local Notation K := (fun a b : vec => kval ck nx h th w (fun c => a c - b c)).
  Lemma K_sym a b : K a b = K b a.
  Proof. apply kval_ext. intros c _. apply Rabs_minus_sym. Qed.
  Lemma K_one a : K a a = 1.
  Proof. apply kval_zero. intros; ring. Qed.
  Lemma blocks m n (s x : mat) (c z : vec) :
    0 <= sumn m (fun i => sumn m (fun k => c i * c k * K (s i) (s k))) - 2 * dot n z (fun j => sumn m (fun i => c i * K (s i) (x j)))
         + dot n z (mv n (fun i j => K (x i) (x j)) z).
  Proof.
    set (p := fun a => if Nat.ltb a m then s a else x (a - m)%nat). set (d := fun a => if Nat.ltb a m then c a else - z (a - m)%nat).
    pose proof (psd_kernel (m + n) ck nx h th w p T d) as P. rewrite quad_sum in P.
    assert (E : forall f : vec, sumn (m + n) f = sumn m f + sumn n (fun j => f (m + j)%nat)).
    { intros f. rewrite (sumn_split (m + n) m f) by lia. replace (m + n - m)%nat with n by lia. reflexivity. }
    assert (Lp : forall a, (a < m)%nat -> p a = s a /\ d a = c a) by (intros a Ha; unfold p, d; destruct (Nat.ltb_spec a m); [auto|lia]).
    assert (Rp : forall a, p (m + a)%nat = x a /\ d (m + a)%nat = - z a).
    { intros a. unfold p, d. destruct (Nat.ltb_spec (m + a) m); [lia|]. now replace (m + a - m)%nat with a by lia. }
    set (A := sumn m (fun i => sumn m (fun k => c i * c k * K (s i) (s k)))). set (r := fun j => sumn m (fun i => c i * K (s i) (x j))).
    assert (Q : sumn (m + n) (fun i => sumn (m + n) (fun j => d i * d j * documented_kernel ck nx h th w (fun a => p i a - p j a)))
                = A + - dot n z r + (- dot n z r + dot n z (mv n (fun i j => K (x i) (x j)) z))).
    { rewrite E. f_equal.
      - rewrite (sumn_ext m _ (fun i => sumn m (fun k => c i * c k * K (s i) (s k)) + - sumn n (fun j => z j * (c i * K (s i) (x j))))).
        + rewrite sumn_plus. f_equal. rewrite sumn_opp, sumn_swap. f_equal. apply sumn_ext. intros j Hj. unfold r. now rewrite <- sumn_scal_l.
        + intros i Hi. destruct (Lp i Hi) as [-> ->]. rewrite E. f_equal.
          * apply sumn_ext. intros k Hk. destruct (Lp k Hk) as [-> ->]. now rewrite <- kval_documented.
          * rewrite <- sumn_opp. apply sumn_ext. intros j Hj. destruct (Rp j) as [-> ->]. rewrite <- kval_documented. ring.
      - rewrite (sumn_ext n _ (fun j => - (z j * r j) + z j * mv n (fun i j => K (x i) (x j)) z j)).
        + rewrite sumn_plus, sumn_opp. reflexivity.
        + intros j Hj. destruct (Rp j) as [-> ->]. rewrite E. f_equal.
          * unfold r. rewrite <- sumn_scal_l, <- sumn_opp. apply sumn_ext. intros i Hi. destruct (Lp i Hi) as [-> ->].
            rewrite <- kval_documented, (K_sym (s i) (x j)). ring.
          * unfold mv. rewrite <- sumn_scal_l. apply sumn_ext. intros k Hk. destruct (Rp k) as [-> ->]. rewrite <- kval_documented. ring. }
    rewrite Q in P. lra.
  Qed.
  (** With something added on the diagonal. *)
  Lemma diag_quad n (A : mat) (d : R) (c : vec) :
    dot n c (mv n (fun i j => A i j + if Nat.eqb i j then d else 0) c) = dot n c (mv n A c) + d * dot n c c.
  Proof.
    unfold dot, mv. rewrite <- sumn_scal_l, <- sumn_plus. apply sumn_ext. intros i Hi.
    rewrite (sumn_ext n _ (fun j => A i j * c j + (if Nat.eqb j i then d * c i else 0))).
    - rewrite sumn_plus, (sumn_only n (fun j => if Nat.eqb j i then d * c i else 0) i Hi).
      + rewrite Nat.eqb_refl. ring.
      + intros j Hj D. destruct (Nat.eqb_spec j i); [contradiction|reflexivity].
    - intros j Hj. rewrite (Nat.eqb_sym j i). destruct (Nat.eqb_spec i j) as [->|]; ring.
  Qed.
  Lemma nugget_pd n (x : mat) (s nugget : R) : 0 <= s -> 0 < nugget ->
    positive_definite n (fun i j => s * K (x i) (x j) + if Nat.eqb i j then nugget else 0).
  Proof.
    intros S N v [i [Hi Nz]]. rewrite (diag_quad n (fun i j => s * K (x i) (x j)) nugget v).
    assert (P : 0 <= dot n v (mv n (fun i j => s * K (x i) (x j)) v)).
    { apply (schur_psd n (fun i j => s * K (x i) (x j))). apply schur_scal; [exact S|].
      apply (schur_ext n (fun i j => documented_kernel ck nx h th w (fun a => x i a - x j a))); [intros; now rewrite kval_documented|].
      now apply schur_kernel. }
    assert (Q : 0 < dot n v v).
    { destruct (Rle_lt_or_eq_dec 0 _ (dot_nonneg n v)) as [|Z]; [assumption|]. elim Nz. now apply (dot_zero n v). }
    generalize (Rmult_lt_0_compat nugget _ N Q). lra.
  Qed.
End Blocks.

Section Full.
  Context (qr : nat -> nat -> mat -> mat * mat) (cond : mat -> bool).
  Context (mk : mean_kind) (ck : corr_kind) (n nx h nt : nat) (theta : vec) (w : mat) (nugget : R) (x : mat) (y : vec).
  Local Notation Rm := (Rmx ck n nx h nt theta w nugget x).
  Local Notation xd := (fst (fst (normalize n x))).
  Local Notation th := (theta_used ck h nt theta).
  Hypothesis T : forall l, (l < h)%nat -> 0 <= th l.

  Lemma Rmx_diag i j : Rm i j = 1 * kval ck nx h th w (fun c => xd i c - xd j c) + if Nat.eqb i j then nugget else 0.
  Proof.
    unfold Rmx. destruct (Nat.eqb_spec i j) as [->|]; [|ring]. rewrite kval_zero by (intros; ring). ring.
  Qed.
  Lemma Rmx_pd : 0 < nugget -> positive_definite n Rm.
  Proof.
    intros N v Hv. pose proof (nugget_pd ck nx h th w T n xd 1 nugget ltac:(lra) N v Hv) as P.
    replace (dot n v (mv n Rm v)) with (dot n v (mv n (fun i j => 1 * kval ck nx h th w (fun c => xd i c - xd j c) + if Nat.eqb i j then nugget else 0) v)); [exact P|].
    apply dot_ext; [reflexivity|]. intros i Hi. apply sumn_ext. intros j Hj. now rewrite Rmx_diag.
  Qed.
  Context (g : gp).
  Hypothesis Fit : fit qr cond mk ck n nx h nt theta w nugget x y = Some g.
  Hypothesis Nu : 0 <= nugget.
  Local Notation rv := (fun z => rvec ck n nx h nt theta w x (xnorm g z)).
  Local Notation fv := (fun z => fvec mk nx (xnorm g z)).
  Lemma rt_lincomb m (c : vec) (r : nat -> vec) a : (a < n)%nat ->
    rt_of n g (fun j => sumn m (fun i => c i * r i j)) a = sumn m (fun i => c i * rt_of n g (r i) a).
  Proof.
    intros Ha. symmetry. unfold rt_of.
    destruct (chol_ok _ _ _ _ _ _ _ _ _ _ _ _ _ _ Fit) as (Lo & _).
    pose proof (chol_reg _ _ _ _ _ _ _ _ _ _ _ _ _ _ Fit) as Re.
    apply (fsub_unique n (i_chol (g_in g)) (fun j => sumn m (fun i => c i * r i j)) (fun a => sumn m (fun i => c i * fsub n (i_chol (g_in g)) (r i) a)) Lo Re); [|exact Ha].
    intros k Hk. unfold mv.
    rewrite (sumn_ext n _ (fun j => sumn m (fun i => c i * (i_chol (g_in g) k j * fsub n (i_chol (g_in g)) (r i) j)))).
    - rewrite sumn_swap. apply sumn_ext. intros i Hi. rewrite sumn_scal_l. f_equal. now apply (fsub_solves n (i_chol (g_in g)) (r i) Lo Re).
    - intros j Hj. rewrite <- sumn_scal_l. apply sumn_ext. intros; ring.
  Qed.
  Lemma covariance_psd m (x' : mat) (cov : mat) :
    (forall i k, (i < m)%nat -> (k < m)%nat -> compute_covariance g m x' i k = Some (cov i k)) -> psd m cov.
  Proof.
    intros C c. rewrite quad_sum. set (s := fun i => xnorm g (x' i)).
    set (r := fun i => rv (x' i)). set (u := fun i => u_of mk n nx g (rv (x' i)) (fv (x' i))).
    set (KK := sumn m (fun i => sumn m (fun k => c i * c k * kval ck nx h th w (fun a => s i a - s k a)))).
    set (rb := fun j => sumn m (fun i => c i * r i j)). set (q := Rsolve n g rb).
    assert (E : sumn m (fun i => sumn m (fun k => c i * c k * cov i k)) =
      i_sigma2 (g_in g) * (KK - dot n (rt_of n g rb) (rt_of n g rb) + dot (trend_size mk nx) (fun a => sumn m (fun i => c i * u i a)) (fun a => sumn m (fun i => c i * u i a)))).
    { rewrite <- dot_lincomb.
      rewrite (dot_ext n (rt_of n g rb) (rt_of n g rb) (fun a => sumn m (fun i => c i * rt_of n g (r i) a)) (fun a => sumn m (fun i => c i * rt_of n g (r i) a)))
        by (intros a Ha; exact (rt_lincomb m c r a Ha)).
      rewrite <- (dot_lincomb n m c (fun i => rt_of n g (r i))). unfold KK. rewrite <- sumn_minus, <- sumn_plus, <- sumn_scal_l.
      apply sumn_ext. intros i Hi. rewrite <- sumn_minus, <- sumn_plus, <- sumn_scal_l. apply sumn_ext. intros k Hk.
      pose proof (C i k Hi Hk) as Cik. rewrite (covariance_eq _ _ _ _ _ _ _ _ _ _ _ _ _ _ Fit m x' i k Hi Hk) in Cik.
      apply (f_equal (fun o => match o with Some v => v | None => 0 end)) in Cik. cbv beta iota in Cik. rewrite <- Cik. unfold u, r, s. ring. }
    rewrite E. apply Rmult_le_pos; [exact (sigma2_nonneg _ _ _ _ _ _ _ _ _ _ _ _ _ _ Fit)|].
    pose proof (dot_nonneg (trend_size mk nx) (fun a => sumn m (fun i => c i * u i a))) as P1.
    assert (Hq : forall i, (i < n)%nat -> mv n Rm q i = rb i) by (intros i Hi; exact (Rsolve_ok _ _ _ _ _ _ _ _ _ _ _ _ _ _ Fit rb i Hi)).
    rewrite (rt_dot _ _ _ _ _ _ _ _ _ _ _ _ _ _ Fit rb rb q Hq).
    pose proof (blocks ck nx h th w T m n s xd c q) as B.
    assert (B' : 0 <= KK - 2 * dot n q rb + dot n q (mv n (fun i j => kval ck nx h th w (fun a => xd i a - xd j a)) q)) by exact B.
    assert (D : dot n q rb = dot n q (mv n (fun i j => kval ck nx h th w (fun a => xd i a - xd j a)) q) + nugget * dot n q q).
    { rewrite <- diag_quad. apply dot_ext; [reflexivity|]. intros i Hi. rewrite <- (Hq i Hi). apply sumn_ext. intros j Hj.
      rewrite Rmx_diag. ring. }
    pose proof (Rmult_le_pos _ _ Nu (dot_nonneg n q)) as P2. clear - P1 P2 D B'. lra.
  Qed.
End Full.

Section SparsePd.
  Context (ck : corr_kind) (m n nx h : nat) (theta : vec) (w : mat) (sigma2 noise nugget : R) (z x : mat) (y : vec).
  Hypothesis T : forall l, (l < h)%nat -> 0 <= theta l.
  Hypothesis S2 : 0 <= sigma2.
  Local Notation Kz := (prior_z ck nx h theta w sigma2 nugget z).
  Local Notation kp := (kz ck nx h theta w sigma2 z).
  Lemma Kz_pd : 0 < nugget -> positive_definite m Kz.
  Proof.
    intros N v Hv. pose proof (nugget_pd ck nx h theta w T m z sigma2 nugget S2 N v Hv) as P.
    replace (dot m v (mv m Kz v)) with (dot m v (mv m (fun i j => sigma2 * kval ck nx h theta w (fun c => z i c - z j c) + if Nat.eqb i j then nugget else 0) v)); [exact P|].
    apply dot_ext; [reflexivity|]. intros i Hi. apply sumn_ext. intros j Hj. unfold prior_z, prior. now rewrite kval_documented.
  Qed.
  (** What the inducing points explain does not exceed the prior variance. *)
  Lemma explained_le p q : 0 <= nugget -> nystrom m Kz (kp p) (kp p) q -> q <= sigma2.
  Proof.
    intros N (t & S & ->).
    destruct (Rle_lt_or_eq_dec 0 sigma2 S2) as [Sp|Z].
    2:{ assert (Ek : forall k, kp p k = 0) by (intros k; unfold kz, prior; rewrite <- Z; ring).
        unfold dot. rewrite (sumn_zero m) by (intros; rewrite Ek; ring). lra. }
    pose proof (blocks ck nx h theta w T 1 m (fun _ => p) z (fun _ => 1) t) as B.
    rewrite !sumn_S in B. cbn [sumn] in B. rewrite K_one in B.
    assert (D : dot m t (kp p) = sigma2 * dot m t (mv m (fun i j => kval ck nx h theta w (fun a => z i a - z j a)) t) + nugget * dot m t t).
    { transitivity (dot m t (mv m Kz t)); [apply dot_ext; [reflexivity|]; intros i Hi; symmetry; exact (S i Hi)|].
      replace (sigma2 * dot m t (mv m (fun i j => kval ck nx h theta w (fun a => z i a - z j a)) t))
        with (dot m t (mv m (fun i j => sigma2 * kval ck nx h theta w (fun a => z i a - z j a)) t)).
      - rewrite <- (diag_quad m (fun i j => sigma2 * kval ck nx h theta w (fun a => z i a - z j a)) nugget t).
        apply dot_ext; [reflexivity|]. intros i Hi. apply sumn_ext. intros j Hj. unfold prior_z, prior. now rewrite kval_documented.
      - rewrite !quad_sum, <- sumn_scal_l. apply sumn_ext. intros i Hi. rewrite <- sumn_scal_l. apply sumn_ext. intros; ring. }
    assert (Er : sigma2 * dot m t (fun j => sumn 1 (fun i => 1 * kval ck nx h theta w (fun c => p c - z j c))) = dot m t (kp p)).
    { unfold dot. rewrite <- sumn_scal_l. apply sumn_ext. intros j Hj. cbn [sumn]. unfold kz, prior.
      rewrite <- kval_documented, (K_sym ck nx h theta w p (z j)). ring. }
    assert (P2 : 0 <= nugget * dot m t t) by (apply Rmult_le_pos; [exact N|apply dot_nonneg]).
    apply (Rmult_le_compat_l sigma2) in B; [|lra]. rewrite Rmult_0_r in B.
    rewrite (dot_comm m (kp p) t).
    change (dot m t (fun j => 0 + 1 * kval ck nx h theta w (fun c => p c - z j c))) with (dot m t (fun j => sumn 1 (fun i => 1 * kval ck nx h theta w (fun c => p c - z j c)))) in B.
    nra.
  Qed.
End SparsePd.
(** s^T A^-1 s <= s^T s when A is the identity plus a positive semidefinite matrix. *)
Lemma whitened_le m n (V : mat) (nu : vec) l (s : vec) : (forall j, (j < n)%nat -> 0 < nu j) -> cholesky m (Am n V nu) = Some l ->
  dot m (fsub m l s) (fsub m l s) <= dot m s s.
Proof.
  intros P Ch. pose proof (asol_solves m (Am n V nu) l (Am_sym m n V nu) Ch s) as S. set (t := asol m l s) in *.
  rewrite <- (asol_dot m (Am n V nu) l (Am_sym m n V nu) Ch t s s S).
  assert (E : dot m t s = dot m t t + sumn n (fun j => 1 / nu j * (dot m (fun k => V k j) t * dot m (fun k => V k j) t))).
  { transitivity (dot m t (mv m (Am n V nu) t)); [apply dot_ext; [reflexivity|]; intros i Hi; symmetry; exact (S i Hi)|].
    rewrite (dot_ext m t (mv m (Am n V nu) t) t (fun i => t i + mv n V (fun j => 1 / nu j * dot m (fun k => V k j) t) i)); [|reflexivity|intros i Hi; now apply Am_mv].
    transitivity (dot m t t + dot m t (mv n V (fun j => 1 / nu j * dot m (fun k => V k j) t))).
    - unfold dot. rewrite <- sumn_plus. apply sumn_ext. intros; ring.
    - f_equal. rewrite dot_mv. unfold dot at 1. apply sumn_ext. intros j Hj.
      replace (mv m (tr V) t j) with (dot m (fun k => V k j) t) by reflexivity. ring. }
  assert (Q : 0 <= sumn n (fun j => 1 / nu j * (dot m (fun k => V k j) t * dot m (fun k => V k j) t))).
  { apply sumn_nonneg. intros j Hj. apply Rmult_le_pos; [|apply Rle_0_sqr]. left. apply Rdiv_lt_0_compat; [lra|now apply P]. }
  assert (D : 0 <= dot m (fun i => s i - t i) (fun i => s i - t i)) by apply dot_nonneg.
  assert (X : dot m (fun i => s i - t i) (fun i => s i - t i) = dot m s s - 2 * dot m t s + dot m t t).
  { unfold dot. rewrite <- sumn_scal_l, <- sumn_minus, <- sumn_plus. apply sumn_ext. intros; ring. }
  rewrite (dot_comm m s t). lra.
Qed.
