(** Central differences: value at an intermediate point, and error for smooth functions. *)
From Coq Require Import Reals Lra Lia Arith FunctionalExtensionality.
From Coquelicot Require Import Coquelicot.
From Verif Require Import RVec Kern_Model Kern_Proofs Gp_Model Gp_Grad Sgp_Model SgpGrad_Model.
Local Open Scope R_scope.

Lemma fd_step_pos : 0 < fd_step.
Proof. apply exp_pos. Qed.
Lemma fd_step_cube : fd_step * fd_step * fd_step = / 2 ^ 52.
Proof.
  unfold fd_step. rewrite <- !Rpower_plus. replace (/ 3 + / 3 + / 3) with 1 by field. apply Rpower_1. apply Rinv_0_lt_compat, pow_lt. lra.
Qed.
Lemma cube_mono a b : 0 <= a -> a <= b -> a * a * a <= b * b * b.
Proof. intros Ha Hb. apply Rmult_le_compat; try nra. Qed.
Lemma fd_step_bounds : 6 / 1000000 < fd_step < 61 / 10000000.
Proof.
  pose proof fd_step_pos as P. pose proof fd_step_cube as C.
  assert (E : / 2 ^ 52 * 4503599627370496 = 1).
  { replace 4503599627370496 with (2 ^ 52) by (change 2 with (IZR 2); rewrite pow_IZR; apply f_equal; reflexivity).
    apply Rinv_l. apply pow_nonzero. lra. }
  rewrite <- C in E.
  split; apply Rnot_le_lt; intros H.
  - assert (K := cube_mono fd_step (6 / 1000000)). specialize (K (Rlt_le _ _ P) H). lra.
  - assert (K := cube_mono (61 / 10000000) fd_step). specialize (K ltac:(lra) H). lra.
Qed.

Lemma upd_upd p j a b : upd (upd p j a) j b = upd p j b.
Proof. apply functional_extensionality. intros i. unfold upd. now destruct (Nat.eqb i j). Qed.
Lemma upd_at p j a : upd p j a j = a.
Proof. unfold upd. now rewrite Nat.eqb_refl. Qed.
Lemma partial_upd F p j t d : partial F (upd p j t) j d <-> is_derive (fun s => F (upd p j s)) t d.
Proof.
  unfold partial. rewrite upd_at. split; intros H; (eapply is_derive_ext; [|exact H]); intros s; cbn; now rewrite upd_upd.
Qed.

(** The central difference is the derivative at a point closer than the step. *)
Lemma central_mean_value F p j : (forall t, Rabs (t - p j) <= fd_step -> exists d, partial F (upd p j t) j d) ->
  exists t, Rabs (t - p j) < fd_step /\ partial F (upd p j t) j (central_diff F p j).
Proof.
  intros D. pose proof fd_step_pos as P. set (f := fun s => F (upd p j s)).
  assert (Df : forall c, p j - fd_step <= c <= p j + fd_step -> is_derive f c (Derive f c)).
  { intros c Hc. apply Derive_correct. destruct (D c) as [d Hd]; [apply Rabs_le; lra|]. exists d. exact (proj1 (partial_upd F p j c d) Hd). }
  destruct (MVT_cor2 f (Derive f) (p j - fd_step) (p j + fd_step)) as (c & E & Hc); [lra| |].
  - intros c Hc. apply is_derive_Reals. now apply Df.
  - exists c. split; [apply Rabs_def1; lra|]. apply partial_upd. unfold central_diff. fold (f (p j + fd_step)) (f (p j - fd_step)).
    change (F (upd p j (p j + fd_step))) with (f (p j + fd_step)). change (F (upd p j (p j - fd_step))) with (f (p j - fd_step)).
    rewrite E. replace (Derive f c * (p j + fd_step - (p j - fd_step)) / (2 * fd_step)) with (Derive f c) by (field; lra).
    apply Df. lra.
Qed.

(** A function growing no faster than another one. *)
Lemma growth (f g f' g' : R -> R) a : 0 < a -> (forall s, is_derive f s (f' s)) -> (forall s, is_derive g s (g' s)) -> f 0 = 0 -> g 0 = 0 ->
  (forall s, 0 <= s <= a -> Rabs (f' s) <= g' s) -> forall s, 0 <= s <= a -> Rabs (f s) <= g s.
Proof.
  intros Ha Df Dg F0 G0 H s Hs. destruct (Req_dec s 0) as [->|N]; [rewrite F0, G0, Rabs_R0; lra|].
  assert (A : forall e, (e = 1 \/ e = -1) -> e * f s <= g s).
  { intros e He. destruct (MVT_cor2 (fun t => g t - e * f t) (fun t => g' t - e * f' t) 0 s) as (c & E & Hc); [lra| |].
    - intros c Hc. apply is_derive_Reals. apply (is_derive_minus g (fun t => e * f t)); [apply Dg|]. 
      apply (is_derive_scal f c e). apply Df.
    - cbv beta in E. rewrite F0, G0 in E. specialize (H c ltac:(lra)). pose proof (Rle_abs (f' c)). pose proof (Rle_abs (- f' c)). rewrite Rabs_Ropp in *.
      assert (0 <= g' c - e * f' c) by (destruct He; subst e; lra). assert (0 <= (g' c - e * f' c) * (s - 0)) by (apply Rmult_le_pos; lra). lra. }
  apply Rabs_le. pose proof (A 1 (or_introl eq_refl)). pose proof (A (-1) (or_intror eq_refl)). lra.
Qed.

(** Error of the central difference of a function whose third derivative is bounded. *)
Lemma central_error (f f1 f2 f3 : R -> R) M x h : 0 < h -> (forall t, is_derive f t (f1 t)) -> (forall t, is_derive f1 t (f2 t)) -> (forall t, is_derive f2 t (f3 t)) ->
  (forall t, Rabs (f3 t) <= M) -> Rabs ((f (x + h) - f (x - h)) / (2 * h) - f1 x) <= M * (h * h) / 6.
Proof.
  intros Hh D1 D2 D3 B.
  assert (Sh : forall (g g1 : R -> R) s, (forall t, is_derive g t (g1 t)) -> is_derive (fun s => g (x + s)) s (g1 (x + s))).
  { intros g g1 s Dg. evar_last. apply (is_derive_comp g (fun s => x + s)); [apply Dg|]. auto_derive; [exact I|reflexivity]. unfold scal; cbn; unfold mult; cbn. ring. }
  assert (Sm : forall (g g1 : R -> R) s, (forall t, is_derive g t (g1 t)) -> is_derive (fun s => g (x - s)) s (- g1 (x - s))).
  { intros g g1 s Dg. evar_last. apply (is_derive_comp g (fun s => x - s)); [apply Dg|]. auto_derive; [exact I|reflexivity]. unfold scal; cbn; unfold mult; cbn. ring. }
  assert (G2 : forall s, 0 <= s <= h -> Rabs (f2 (x + s) - f2 (x - s)) <= 2 * M * s).
  { apply (growth (fun s => f2 (x + s) - f2 (x - s)) (fun s => 2 * M * s) (fun s => f3 (x + s) - - f3 (x - s)) (fun s => 2 * M) h Hh).
    - intros s. apply (is_derive_minus (fun s => f2 (x + s)) (fun s => f2 (x - s))); [now apply Sh|now apply Sm].
    - intros s. auto_derive; [exact I|ring].
    - rewrite Rplus_0_r, Rminus_0_r. ring.
    - ring.
    - intros s _. pose proof (B (x + s)). pose proof (B (x - s)). replace (f3 (x + s) - - f3 (x - s)) with (f3 (x + s) + f3 (x - s)) by ring.
      apply Rle_trans with (1 := Rabs_triang _ _). lra. }
  assert (G1 : forall s, 0 <= s <= h -> Rabs (f1 (x + s) + f1 (x - s) - 2 * f1 x) <= M * s * s).
  { apply (growth (fun s => f1 (x + s) + f1 (x - s) - 2 * f1 x) (fun s => M * s * s) (fun s => f2 (x + s) - f2 (x - s)) (fun s => 2 * M * s) h Hh).
    - intros s. evar_last. apply (is_derive_minus (fun s => f1 (x + s) + f1 (x - s)) (fun _ => 2 * f1 x)); [|apply is_derive_const].
      apply (is_derive_plus (fun s => f1 (x + s)) (fun s => f1 (x - s))); [now apply Sh|now apply Sm].
      cbn. unfold minus, plus, opp, zero; cbn. ring.
    - intros s. auto_derive; [exact I|ring].
    - rewrite Rplus_0_r, Rminus_0_r. ring.
    - ring.
    - exact G2. }
  assert (G0 : Rabs (f (x + h) - f (x - h) - 2 * h * f1 x) <= M / 3 * h * h * h).
  { apply (growth (fun s => f (x + s) - f (x - s) - 2 * s * f1 x) (fun s => M / 3 * s * s * s) (fun s => f1 (x + s) + f1 (x - s) - 2 * f1 x) (fun s => M * s * s) h Hh); [| | | |exact G1|lra].
    - intros s. evar_last. apply (is_derive_minus (fun s => f (x + s) - f (x - s)) (fun s => 2 * s * f1 x)).
      apply (is_derive_minus (fun s => f (x + s)) (fun s => f (x - s))); [now apply Sh|now apply Sm].
      auto_derive; [exact I|reflexivity]. cbn. unfold minus, plus, opp, zero; cbn. ring.
    - intros s. auto_derive; [exact I|field].
    - rewrite Rplus_0_r, Rminus_0_r. ring.
    - ring. }
  replace ((f (x + h) - f (x - h)) / (2 * h) - f1 x) with ((f (x + h) - f (x - h) - 2 * h * f1 x) * / (2 * h)) by (field; lra).
  rewrite Rabs_mult, (Rabs_right (/ (2 * h))); [|apply Rle_ge, Rlt_le, Rinv_0_lt_compat; lra].
  apply Rle_trans with (M / 3 * h * h * h * / (2 * h)).
  - apply Rmult_le_compat_r; [apply Rlt_le, Rinv_0_lt_compat; lra|exact G0].
  - right. field. lra.
Qed.

(** Third derivative of a Gaussian. *)
Definition gauss (c u : R) : R := exp (- (c * (u * u))).
Lemma exp_quadratic v : 0 <= v -> 1 + v + v * v / 2 <= exp v.
Proof.
  intros Hv. destruct (Req_dec v 0) as [->|N]; [rewrite exp_0; lra|].
  pose proof (growth (fun s => 0) (fun s => exp s - 1 - s - s * s / 2) (fun _ => 0) (fun s => exp s - 1 - s) v) as G.
  specialize (G ltac:(lra)). cbv beta in G. rewrite exp_0 in G.
  assert (Rabs 0 <= exp v - 1 - v - v * v / 2); [|rewrite Rabs_R0 in *; lra].
  apply G; [| |lra|lra| |lra].
  - intros s. apply (@is_derive_const R_AbsRing R_NormedModule).
  - intros s. auto_derive; [exact I|]. field.
  - intros s Hs. rewrite Rabs_R0. pose proof (exp_ineq1_le s). lra.
Qed.
Lemma gauss_third c u : 0 <= c -> Rabs ((12 * (c * c) * u - 8 * (c * c * c) * (u * u * u)) * gauss c u) <= 14 * (c * sqrt c).
Proof.
  intros Hc. unfold gauss. set (r := sqrt c). assert (Hr : 0 <= r) by apply sqrt_pos. assert (Er : c = r * r) by (symmetry; now apply sqrt_sqrt).
  clearbody r. subst c. set (v := Rabs (r * u)). assert (Hv : 0 <= v) by apply Rabs_pos.
  assert (Ev : r * r * (u * u) = v * v). { unfold v. rewrite <- Rabs_mult. rewrite Rabs_right; [ring|]. apply Rle_ge. replace (r * u * (r * u)) with (Rsqr (r * u)) by reflexivity. apply Rle_0_sqr. }
  rewrite Ev, exp_Ropp.
  replace ((12 * (r * r * (r * r)) * u - 8 * (r * r * (r * r) * (r * r)) * (u * u * u)) * / exp (v * v))
    with ((r * r * r) * ((12 * (r * u) - 8 * (r * u * (r * u) * (r * u))) * / exp (v * v))) by ring.
  rewrite Rabs_mult, (Rabs_right (r * r * r)); [|apply Rle_ge; repeat apply Rmult_le_pos; assumption].
  replace (14 * (r * r * r)) with (r * r * r * 14) by ring. apply Rmult_le_compat_l; [repeat apply Rmult_le_pos; assumption|].
  pose proof (exp_pos (v * v)) as Pe. rewrite Rabs_mult, (Rabs_right (/ exp (v * v))); [|apply Rle_ge, Rlt_le, Rinv_0_lt_compat; exact Pe].
  apply (Rmult_le_reg_r (exp (v * v))); [exact Pe|]. rewrite Rmult_assoc, Rinv_l, Rmult_1_r; [|lra].
  assert (Q : 1 + v * v + v * v * (v * v) / 2 <= exp (v * v)) by (apply exp_quadratic; apply Rmult_le_pos; assumption).
  apply Rle_trans with (12 * v + 8 * (v * v * v)).
  - unfold Rminus. apply Rle_trans with (1 := Rabs_triang _ _). rewrite Rabs_Ropp, !Rabs_mult. fold v. rewrite !(Rabs_right 12), !(Rabs_right 8) by lra.
    unfold v. rewrite !Rabs_mult. right. ring.
  - assert (12 * v <= 6 + 6 * (v * v)) by (pose proof (Rle_0_sqr (v - 1)) as Sq; unfold Rsqr in Sq; lra). assert (8 * (v * v * v) <= 4 * (v * v) + 4 * (v * v * (v * v))). { pose proof (Rle_0_sqr (v - 1)) as Sq. pose proof (Rle_0_sqr v) as Sv. unfold Rsqr in *. pose proof (Rmult_le_pos _ _ Sv Sq). lra. }
    assert (0 <= v * v) by (apply Rmult_le_pos; assumption). assert (0 <= v * v * (v * v)) by (apply Rmult_le_pos; assumption). lra.
Qed.
