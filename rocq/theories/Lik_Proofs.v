(** The training criterion of a Gaussian process is the maximized Gaussian likelihood. *)
From Coq Require Import Reals Lra Lia Arith.
From Coquelicot Require Import Coquelicot.
From Verif Require Import RVec Moe_Model Kern_Model Kern_Spec Kern_Proofs Gp_Model Gp_Spec Gp_Lin Gp_Proofs Sgp_Model Sgp_Spec Sgp_Proofs Sgp_Det Lik_Spec.
Local Open Scope R_scope.

(** ** Scaling a factorization *)
Lemma chol_scale n A L s : 0 < s -> chol_factor n A L -> chol_factor n (fun i j => s * A i j) (fun i j => sqrt s * L i j).
Proof.
  intros Hs [Lo [Po Fa]]. assert (Hq : 0 < sqrt s) by now apply sqrt_lt_R0. split; [|split].
  - intros i j Hi Hj Hl. rewrite (Lo i j Hi Hj Hl). ring.
  - intros i Hi. apply Rmult_lt_0_compat; [exact Hq|now apply Po].
  - intros i j Hi Hj. rewrite <- (Fa i j Hi Hj), <- sumn_scal_l. apply sumn_ext. intros k _.
    replace (sqrt s * L i k * (sqrt s * L j k)) with (sqrt s * sqrt s * (L i k * L j k)) by ring.
    rewrite sqrt_sqrt by lra. reflexivity.
Qed.
Lemma ln_sqrt' s : 0 < s -> 2 * ln (sqrt s) = ln s.
Proof. intros Hs. rewrite <- (sqrt_sqrt s) at 2 by lra. rewrite ln_mult by now apply sqrt_lt_R0. ring. Qed.
Lemma logd_scale n A L s d : 0 < s -> chol_factor n A L -> log_det n (fun i j => s * A i j) d ->
  d = INR n * ln s + 2 * sumn n (fun i => ln (L i i)).
Proof.
  intros Hs F [L' [F' ->]].
  pose proof (logd_unique _ _ _ _ F' (chol_scale _ _ _ _ Hs F)) as E. unfold logd in E.
  assert (E2 : sumn n (fun i => ln (L' i i)) = sumn n (fun i => ln (sqrt s) + ln (L i i))).
  { assert (E3 : sumn n (fun i => ln (L' i i)) = sumn n (fun i => ln (sqrt s * L i i))) by (first [exact E|lra]).
    rewrite E3. apply sumn_ext. intros i Hi. apply ln_mult; [now apply sqrt_lt_R0|apply F; exact Hi]. }
  rewrite E2, sumn_plus, sumn_const. rewrite <- (ln_sqrt' s Hs). ring.
Qed.

Section Trained.
  Context (qr : nat -> nat -> mat -> mat * mat) (cond : mat -> bool).
  Context (mk : mean_kind) (ck : corr_kind) (n nx h nt : nat) (theta : vec) (w : mat) (nugget : R) (x : mat) (y : vec) (g : gp).
  Hypothesis Fit : fit qr cond mk ck n nx h nt theta w nugget x y = Some g.
  Local Notation p := (trend_size mk nx).
  Local Notation xd := (fst (fst (normalize n x))).
  Local Notation yd := (fun i => fst (fst (normalize n (fun i _ => y i))) i O).
  Local Notation L := (i_chol (g_in g)).
  Local Notation ft := (i_ft (g_in g)).
  Local Notation beta := (i_beta (g_in g)).
  Local Notation gamma := (i_gamma (g_in g)).
  Local Notation Rm := (Rmx ck n nx h nt theta w nugget x).
  Local Notation Fm := (Fmx mk n nx x).
  Hypothesis QR : is_qr n p ft (qr n p ft).

  Definition quad0 : R := dot n gamma (mv n Rm gamma).

  Lemma n_pos : (1 < n)%nat.
  Proof. now destruct (fit_inv _ _ _ _ _ _ _ _ _ _ _ _ _ _ Fit) as (th & r_mx & ET & N1 & _). Qed.
  Lemma fac : chol_factor n Rm L.
  Proof. exact (chol_ok _ _ _ _ _ _ _ _ _ _ _ _ _ _ Fit). Qed.
  Lemma quad_pos u : dot n u (mv n Rm u) = dot n (mv n (tr L) u) (mv n (tr L) u).
  Proof.
    rewrite <- dot_mv. apply dot_ext; [reflexivity|]. intros i Hi. apply (R_LLt _ _ _ _ _ _ _ _ _ _ _ _ _ _ Fit). exact Hi.
  Qed.
  Lemma Ltgamma i : (i < n)%nat -> mv n (tr L) gamma i = fsub n L yd i - mv p ft beta i.
  Proof.
    intros Hi. destruct (fit_inv _ _ _ _ _ _ _ _ _ _ _ _ _ _ Fit) as (th & r_mx & ET & N1 & ER & EC & Eft & Err & Eco & EB & EG & _).
    rewrite EG at 1. apply bsub_solves; [apply upper_tr, fac|apply regular_tr|exact Hi].
    exact (chol_reg _ _ _ _ _ _ _ _ _ _ _ _ _ _ Fit).
  Qed.
  Lemma quad0_rho : quad0 = dot n (fun i => fsub n L yd i - mv p ft beta i) (fun i => fsub n L yd i - mv p ft beta i).
  Proof. unfold quad0. rewrite quad_pos. apply dot_ext; exact Ltgamma. Qed.
  Lemma sigma2_quad : i_sigma2 (g_in g) = quad0 / INR n * (g_ystd g * g_ystd g).
  Proof.
    rewrite quad0_rho. destruct (fit_inv _ _ _ _ _ _ _ _ _ _ _ _ _ _ Fit) as (th & r_mx & ET & N1 & ER & EC & Eft & Err & Eco & EB & EG & ES & _).
    rewrite ES. ring.
  Qed.
  Lemma lkh_quad : ln 10 * g_lkh g = - INR n * ln (quad0 / INR n) - 2 * sumn n (fun i => ln (L i i)).
  Proof.
    rewrite quad0_rho. destruct (fit_inv _ _ _ _ _ _ _ _ _ _ _ _ _ _ Fit) as (th & r_mx & ET & N1 & ER & EC & Eft & Err & Eco & EB & EG & ES & E0 & Ex & Eh & Ent & Em & Ec & Eth & Ew & Exd & Exm & Exs & Eym & Eys & Elk).
    rewrite Elk. assert (L10 : 0 < ln 10) by (rewrite <- ln_1; apply ln_increasing; lra).
    assert (Hn : INR n <> 0) by (apply not_0_INR; lia).
    set (q := dot n _ _ / INR n). clearbody q.
    assert (E : sumn n (fun i => log10 (L i i)) = sumn n (fun i => ln (L i i)) / ln 10).
    { unfold log10. rewrite <- sumn_div. reflexivity. }
    rewrite E. unfold log10. set (s := sumn n _). clearbody s. set (l10 := ln 10) in *. clearbody l10. field. split; first [exact Hn|lra].
  Qed.

  (** The quadratic form at any coefficients. *)
  Lemma quad_gap (b v : vec) : solves n Rm v (fun i => yd i - mv p Fm b i) ->
    quad0 <= dot n (fun i => yd i - mv p Fm b i) v.
  Proof.
    intros S. set (d := fun j => beta j - b j). set (u := fun i => v i - gamma i).
    assert (EY : forall i, (i < n)%nat -> yd i - mv p Fm b i = mv n Rm gamma i + mv p Fm d i).
    { intros i Hi. pose proof (kriging_gamma _ _ _ _ _ _ _ _ _ _ _ _ _ _ Fit i Hi) as K. cbv beta in K |- *. rewrite <- K.
      unfold d. rewrite mv_minus. ring. }
    assert (EU : forall i, (i < n)%nat -> mv n Rm u i = mv p Fm d i).
    { intros i Hi. unfold u. rewrite mv_minus. rewrite (S i Hi), EY by exact Hi. ring. }
    assert (OR : dot n gamma (mv p Fm d) = 0).
    { rewrite dot_mv. apply sumn_zero. intros j Hj.
      rewrite (kriging_orth _ _ _ _ _ _ _ _ _ _ _ _ _ _ Fit QR j Hj). ring. }
    assert (SY : dot n u (mv n Rm gamma) = dot n gamma (mv n Rm u)).
    { rewrite dot_mv, dot_comm. apply dot_ext; [reflexivity|]. intros i Hi. apply sumn_ext. intros k Hk. unfold tr.
      now rewrite (Rmx_sym ck n nx h nt theta w nugget x k i). }
    assert (EQ : dot n (fun i => yd i - mv p Fm b i) v = quad0 + dot n u (mv n Rm u)).
    { rewrite (dot_ext n _ v (fun i => mv n Rm gamma i + mv p Fm d i) (fun i => gamma i + u i) EY) by (intros; unfold u; ring).
      assert (E2 : dot n (fun i => mv n Rm gamma i + mv p Fm d i) (fun i => gamma i + u i)
        = dot n gamma (mv n Rm gamma) + dot n u (mv n Rm gamma) + dot n gamma (mv p Fm d) + dot n u (mv p Fm d)).
      { unfold dot. rewrite <- !sumn_plus. apply sumn_ext. intros; ring. }
      rewrite E2, OR, SY. rewrite (dot_ext n gamma (mv n Rm u) gamma (mv p Fm d) (fun _ _ => eq_refl) EU), OR.
      rewrite (dot_ext n u (mv n Rm u) u (mv p Fm d) (fun _ _ => eq_refl) EU). unfold quad0. ring. }
    pose proof (dot_nonneg n (mv n (tr L) u)) as NN. rewrite <- quad_pos in NN.
    apply (Rle_trans _ (quad0 + dot n u (mv n Rm u))); [lra|]. apply Req_le. symmetry. exact EQ.
  Qed.
  Lemma quad_best : dot n (fun i => yd i - mv p Fm beta i) gamma = quad0 /\ solves n Rm gamma (fun i => yd i - mv p Fm beta i).
  Proof.
    assert (EY : forall i, (i < n)%nat -> yd i - mv p Fm beta i = mv n Rm gamma i).
    { intros i Hi. pose proof (kriging_gamma _ _ _ _ _ _ _ _ _ _ _ _ _ _ Fit i Hi) as K. cbv beta in K |- *. rewrite <- K. ring. }
    split.
    - rewrite dot_comm. unfold quad0. apply dot_ext; [reflexivity|exact EY].
    - intros i Hi. now rewrite EY.
  Qed.

  Definition mean_of (b : vec) : vec := fun i => g_ymean g + g_ystd g * mv p Fm b i.
  Definition cov_of (s2 : R) : mat := fun i j => s2 * Rm i j.
  Definition best : R := ln 10 / 2 * g_lkh g - INR n / 2 * (1 + ln (2 * PI)) - INR n * ln (g_ystd g).

  Lemma resid b i : y i - mean_of b i = g_ystd g * (yd i - mv p Fm b i).
  Proof.
    unfold mean_of. rewrite <- (y_back _ _ _ _ _ _ _ _ _ _ _ _ _ _ Fit i). cbv beta. ring.
  Qed.
  Lemma density_eq b s2 l : 0 < s2 -> gauss_log_density n (mean_of b) (cov_of s2) y l ->
    exists v, solves n Rm v (fun i => yd i - mv p Fm b i) /\
      l = - (INR n / 2) * ln (2 * PI) - (INR n * ln s2 + 2 * sumn n (fun i => ln (L i i))) / 2
          - g_ystd g * g_ystd g / s2 * dot n (fun i => yd i - mv p Fm b i) v / 2.
  Proof.
    intros Hs (v & d & S & D & ->). pose proof (ystd_pos _ _ _ _ _ _ _ _ _ _ _ _ _ _ Fit) as Hy.
    exists (fun i => s2 / g_ystd g * v i). split.
    - intros i Hi. rewrite mv_scal. specialize (S i Hi). cbv beta in S. rewrite resid in S.
      assert (E : mv n (cov_of s2) v i = s2 * mv n Rm v i).
      { unfold mv, cov_of. rewrite <- sumn_scal_l. apply sumn_ext. intros; ring. }
      rewrite E in S. cbv beta in S |- *. apply (Rmult_eq_reg_l (g_ystd g)); [|lra]. rewrite <- S. field. lra.
    - rewrite (logd_scale n Rm L s2 d Hs fac D).
      assert (E : dot n (fun i => y i - mean_of b i) v
        = g_ystd g * g_ystd g / s2 * dot n (fun i => yd i - mv p Fm b i) (fun i => s2 / g_ystd g * v i)).
      { unfold dot. rewrite <- sumn_scal_l. apply sumn_ext. intros i Hi. rewrite resid. cbv beta. field. lra. }
      rewrite E. reflexivity.
  Qed.
  Lemma density_ex b s2 : 0 < s2 -> exists l, gauss_log_density n (mean_of b) (cov_of s2) y l.
  Proof.
    intros Hs. eexists. exists (fun i => / s2 * Rsolve n g (fun i => y i - mean_of b i) i). eexists. split; [|split; [|reflexivity]].
    - intros i Hi. rewrite mv_scal.
      assert (E : mv n (cov_of s2) (Rsolve n g (fun i => y i - mean_of b i)) i = s2 * mv n Rm (Rsolve n g (fun i => y i - mean_of b i)) i).
      { unfold mv, cov_of. rewrite <- sumn_scal_l. apply sumn_ext. intros; ring. }
      rewrite E, (Rsolve_ok _ _ _ _ _ _ _ _ _ _ _ _ _ _ Fit) by exact Hi. field. lra.
    - eexists. split; [exact (chol_scale n Rm L s2 Hs fac)|reflexivity].
  Qed.

  Hypothesis Pos : 0 < i_sigma2 (g_in g).
  Lemma quad0_pos : 0 < quad0.
  Proof.
    pose proof (ystd_pos _ _ _ _ _ _ _ _ _ _ _ _ _ _ Fit) as Hy. pose proof n_pos as Hn.
    assert (Hn' : 0 < INR n) by (apply lt_0_INR; lia).
    assert (Q0 : 0 <= quad0) by (rewrite quad0_rho; apply dot_nonneg).
    destruct (Req_dec quad0 0) as [Z|Z]; [|lra]. exfalso. rewrite sigma2_quad, Z in Pos. unfold Rdiv in Pos. lra.
  Qed.
  Lemma best_eq : gauss_log_density n (mean_of beta) (cov_of (i_sigma2 (g_in g))) y best.
  Proof.
    destruct (density_ex beta _ Pos) as [l D]. enough (E : l = best) by now rewrite <- E.
    destruct (density_eq beta _ l Pos D) as [v [S ->]].
    pose proof (ystd_pos _ _ _ _ _ _ _ _ _ _ _ _ _ _ Fit) as Hy. pose proof n_pos as Hn. pose proof quad0_pos as Hq.
    assert (Hn' : 0 < INR n) by (apply lt_0_INR; lia).
    assert (E : dot n (fun i => yd i - mv p Fm beta i) v = quad0).
    { destruct quad_best as [B1 B2]. rewrite <- B1. rewrite !(fac_dot n Rm L fac _ _ _ S), (fac_dot n Rm L fac _ _ _ B2). reflexivity. }
    rewrite E. unfold best. pose proof lkh_quad as LK.
    replace (ln 10 / 2 * g_lkh g) with (ln 10 * g_lkh g / 2) by field. rewrite LK.
    rewrite sigma2_quad. assert (H1 : 0 < quad0 / INR n) by (apply Rdiv_lt_0_compat; assumption).
    rewrite (ln_mult (quad0 / INR n)) by (try assumption; nra). rewrite (ln_mult (g_ystd g)) by assumption.
    replace (g_ystd g * g_ystd g / (quad0 / INR n * (g_ystd g * g_ystd g)) * quad0) with (INR n) by (field; lra).
    field.
  Qed.
  Lemma best_max b s2 l : 0 < s2 -> gauss_log_density n (mean_of b) (cov_of s2) y l -> l <= best.
  Proof.
    intros Hs D. destruct (density_eq b _ l Hs D) as [v [S ->]].
    pose proof (ystd_pos _ _ _ _ _ _ _ _ _ _ _ _ _ _ Fit) as Hy. pose proof n_pos as Hn. pose proof quad0_pos as Hq.
    assert (Hn' : 0 < INR n) by (apply lt_0_INR; lia). pose proof (quad_gap b v S) as G.
    unfold best. pose proof lkh_quad as LK.
    replace (ln 10 / 2 * g_lkh g) with (ln 10 * g_lkh g / 2) by field. rewrite LK.
    set (Q := dot n _ v) in *. clearbody Q. set (t := sumn n _). clearbody t.
    set (r := g_ystd g * g_ystd g / s2 * (quad0 / INR n)).
    assert (H1 : 0 < quad0 / INR n) by (apply Rdiv_lt_0_compat; assumption).
    assert (H2 : 0 < g_ystd g * g_ystd g / s2) by (apply Rdiv_lt_0_compat; [nra|assumption]).
    assert (Hr : 0 < r) by (unfold r; apply Rmult_lt_0_compat; assumption).
    assert (Lr : ln r = 2 * ln (g_ystd g) - ln s2 + ln (quad0 / INR n)).
    { unfold r. rewrite ln_mult by assumption. unfold Rdiv at 1. rewrite ln_mult; [|nra|now apply Rinv_0_lt_compat].
      rewrite (ln_Rinv s2 Hs), (ln_mult (g_ystd g)) by assumption. ring. }
    assert (Ir : ln r <= r - 1).
    { destruct (Req_dec (ln r) 0) as [Z|Z].
      - assert (r = 1) by (apply ln_inv; [assumption|lra|rewrite ln_1; exact Z]). lra.
      - pose proof (exp_ineq1 (ln r) Z) as X. rewrite exp_ln in X by exact Hr. lra. }
    assert (G2 : INR n * r <= g_ystd g * g_ystd g / s2 * Q).
    { unfold r. replace (INR n * (g_ystd g * g_ystd g / s2 * (quad0 / INR n))) with (g_ystd g * g_ystd g / s2 * quad0) by (field; lra).
      apply Rmult_le_compat_l; lra. }
    assert (G3 : INR n * ln r <= INR n * (r - 1)) by (apply Rmult_le_compat_l; lra). rewrite Lr in G3.
    set (A := g_ystd g * g_ystd g / s2 * Q) in *. clearbody A. lra.
  Qed.
End Trained.
