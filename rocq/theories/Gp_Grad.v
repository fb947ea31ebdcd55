(** Gradients of the mean and of the variance of Gaussian processes. *)
From Coq Require Import Reals Lra Lia Arith FunctionalExtensionality.
From Coquelicot Require Import Coquelicot.
From Coq Require Import List Bool.
From Verif Require Import RVec Moe_Model Kern_Model Kern_Spec Kern_Proofs Gp_Model Gp_Spec Gp_Lin Gp_Proofs.
Import ListNotations.
Local Open Scope R_scope.

Lemma kval_partial ck nx h th w x y j : (j < nx)%nat -> (ck = AbsoluteExponential -> x j <> y j) ->
  partial (fun z => kval ck nx h th w (differences z y)) x j (kjac ck nx h th w (differences x y) j).
Proof.
  intros Hj N. destruct ck; cbn [kval kjac].
  - now apply sqexp_partial.
  - apply absexp_partial; auto.
  - now apply m32_partial.
  - now apply m52_partial.
Qed.
Lemma trend_size_eq mk nx x : length (trend_row mk nx x) = trend_size mk nx.
Proof. unfold trend_size. now rewrite !trend_length. Qed.
Lemma trend_val_partial mk nx x i j : (i < trend_size mk nx)%nat ->
  partial (fun z => trend_val mk nx z i) x j (trend_der mk nx x i j).
Proof. intros H. apply trend_partial. now rewrite trend_size_eq. Qed.

Lemma xnorm_upd g x c t : xnorm g (upd x c t) = upd (xnorm g x) c ((t - g_xmean g c) / g_xstd g c).
Proof.
  apply functional_extensionality. intros j. unfold xnorm, upd. destruct (Nat.eqb_spec j c) as [->|]; reflexivity.
Qed.
Lemma upd_self (x : vec) c : upd x c (x c) = x.
Proof. apply functional_extensionality. intros j. apply upd_id. Qed.
Lemma xnorm_chain g (F : vec -> R) x c l : partial F (xnorm g x) c l ->
  is_derive (fun t => F (xnorm g (upd x c t))) (x c) (l / g_xstd g c).
Proof.
  intros H. apply derive_ext with (fun t => F (upd (xnorm g x) c ((t - g_xmean g c) / g_xstd g c))).
  { intros t. now rewrite xnorm_upd. }
  eapply derive_eq.
  - apply (derive_comp (fun s => F (upd (xnorm g x) c s)) (fun t => (t - g_xmean g c) / g_xstd g c)).
    + unfold Rdiv. apply derive_scal_r. apply derive_minus; [apply derive_id|apply derive_const].
    + exact H.
  - unfold Rdiv. ring.
Qed.


Lemma is_derive_clamp (v : R -> R) (x l : R) : is_derive v x l -> 0 < v x -> is_derive (fun t => if Rlt_dec (v t) 0 then 0 else v t) x l.
Proof.
  intros D P. apply is_derive_ext_loc with v; [|exact D].
  assert (C : continuous v x) by (apply (ex_derive_continuous v); now exists l).
  specialize (C (fun z => 0 < z)). destruct C as [d Hd].
  { exists (mkposreal (v x) P). intros z Hz. unfold ball in Hz. simpl in Hz. unfold AbsRing_ball, abs, minus, plus, opp in Hz. simpl in Hz.
    apply Rabs_def2 in Hz. lra. }
  exists d. intros z Hz. specialize (Hd z Hz). destruct (Rlt_dec (v z) 0); [lra|reflexivity].
Qed.

Section Gradients.
  Context (qr : nat -> nat -> mat -> mat * mat) (cond : mat -> bool).
  Context (mk : mean_kind) (ck : corr_kind) (n nx h nt : nat) (theta : vec) (w : mat) (nugget : R) (x : mat) (y : vec) (g : gp).
  Hypothesis Fit : fit qr cond mk ck n nx h nt theta w nugget x y = Some g.
  Local Notation p := (trend_size mk nx).
  Local Notation xd := (fst (fst (normalize n x))).
  Local Notation L := (i_chol (g_in g)).
  Local Notation ft := (i_ft (g_in g)).
  Local Notation rr := (i_rr (g_in g)).
  Local Notation beta := (i_beta (g_in g)).
  Local Notation gamma := (i_gamma (g_in g)).
  Local Notation th := (theta_used ck h nt theta).
  Local Notation rvec := (rvec ck n nx h nt theta w x).
  Local Notation fvec := (fvec mk nx).

  Context (z : vec) (c : nat) (Hc : (c < nx)%nat).
  Hypothesis Smooth : ck = AbsoluteExponential -> forall i, (i < n)%nat -> z c <> x i c.
  Hypothesis Shape : exists t, jac_theta ck nt h theta = Some t.

  Lemma jac_theta_eq : jac_theta (g_corr g) (g_nt g) (g_h g) (g_theta g) = Some th.
  Proof.
    destruct (fit_inv _ _ _ _ _ _ _ _ _ _ _ _ _ _ Fit) as (t0 & r_mx & ET & N1 & ER & EC & Eft & Err & Eco & EB & EG & ES & E0 & Ex & Eh & Ent & Em & Ec & Eth & Ew & Exd & Exm & Exs & Eym & Eys & Elk).
    rewrite Ec, Ent, Eh, Eth. destruct Shape as [t Ht]. rewrite Ht. apply jac_value_theta in Ht. unfold theta_used. now rewrite Ht.
  Qed.
  Lemma zn_ne i : ck = AbsoluteExponential -> (i < n)%nat -> xnorm g z c <> xd i c.
  Proof.
    intros E Hi H. apply (Smooth E i Hi). rewrite <- (xnorm_train _ _ _ _ _ _ _ _ _ _ _ _ _ _ Fit i) in H.
    pose proof (xstd_pos _ _ _ _ _ _ _ _ _ _ _ _ _ _ Fit c) as P. unfold xnorm in H. unfold Rdiv in H.
    apply Rmult_eq_reg_r in H; [lra|]. apply Rinv_neq_0_compat. lra.
  Qed.
  Definition drv : mat := fun i k => kjac ck nx h th w (differences (xnorm g z) (xd i)) k.
  Lemma rvec_derive i : (i < n)%nat -> is_derive (fun t => rvec (xnorm g (upd z c t)) i) (z c) (drv i c / g_xstd g c).
  Proof.
    intros Hi. apply (xnorm_chain g (fun q => rvec q i)). apply (kval_partial ck nx h th w (xnorm g z) (xd i) c Hc).
    intros E. now apply zn_ne.
  Qed.
  Lemma fvec_derive j : (j < p)%nat -> is_derive (fun t => fvec (xnorm g (upd z c t)) j) (z c) (trend_der mk nx (xnorm g z) j c / g_xstd g c).
  Proof. intros Hj. apply (xnorm_chain g (fun q => fvec q j)). now apply trend_val_partial. Qed.

  Lemma mean_gradient : exists l, predict_jacobian g z c = Some l /\ partial (mean_at g) z c l.
  Proof.
    unfold predict_jacobian. rewrite jac_theta_eq. eexists. split; [reflexivity|].
    destruct (fit_inv _ _ _ _ _ _ _ _ _ _ _ _ _ _ Fit) as (t0 & r_mx & ET & N1 & ER & EC & Eft & Err & Eco & EB & EG & ES & E0 & Ex & Eh & Ent & Em & Ec & Eth & Ew & Exd & Exm & Exs & Eym & Eys & Elk).
    rewrite E0, Ex, Em. unfold corr_jac. rewrite Ec, Ex, Eh, Ew, Exd.
    unfold partial, mean_at. apply derive_ext with (fun t => (dot p (fvec (xnorm g (upd z c t))) beta + dot n (rvec (xnorm g (upd z c t))) gamma) * g_ystd g + g_ymean g).
    { intros t. now rewrite (predict_eq _ _ _ _ _ _ _ _ _ _ _ _ _ _ Fit). }
    eapply derive_eq.
    - apply derive_plus; [|apply derive_const]. apply derive_scal_r. apply derive_plus.
      + apply derive_sumn. intros j Hj. apply derive_scal_r. apply fvec_derive. exact Hj.
      + apply derive_sumn. intros i Hi. apply derive_scal_r. apply rvec_derive. exact Hi.
    - unfold mv, tr. fold drv.
      rewrite (sumn_ext p _ (fun j => trend_der mk nx (xnorm g z) j c * beta j / g_xstd g c)) by (intros; unfold Rdiv; ring).
      rewrite (sumn_ext n _ (fun i => drv i c * gamma i / g_xstd g c)) by (intros; unfold Rdiv; ring).
      rewrite !sumn_div. unfold drv. unfold Rdiv. ring.
  Qed.

  Hypothesis QR : is_qr n p ft (qr n p ft).
  Local Notation RFm := (RF mk n nx x g).
  Local Notation Bm := (Bmx mk n nx x g).
  Lemma var_gradient : exists l, predict_var_gradients_single g z c = Some l /\ (0 < var_at g z -> partial (var_at g) z c l).
  Proof.
    destruct (fit_inv _ _ _ _ _ _ _ _ _ _ _ _ _ _ Fit) as (t0 & r_mx & ET & N1 & ER & EC & Eft & Err & Eco & EB & EG & ES & E0 & Ex & Eh & Ent & Em & Ec & Eth & Ew & Exd & Exm & Exs & Eym & Eys & Elk).
    unfold predict_var_gradients_single. rewrite jac_theta_eq. rewrite E0, Ex, Em, Ec, Eh, Ew, Exd.
    set (r := fun i => kval ck nx h th w (differences (xnorm g z) (xd i))).
    cbv zeta. change (cholesky p _) with (cholesky p Bm).
    destruct (cholesky_complete p Bm) as [C3 HC3].
    { apply (Bmx_sym _ _ _ _ _ _ _ _ _ _ _ _ _ _ Fit). }
    { apply (Bmx_pd _ _ _ _ _ _ _ _ _ _ _ _ _ _ Fit QR). }
    rewrite HC3. eexists. split; [reflexivity|]. intros P.
    destruct (cholesky_correct p Bm C3) as [Lo [Di Fa]]; [apply (Bmx_sym _ _ _ _ _ _ _ _ _ _ _ _ _ _ Fit)|exact HC3|].
    assert (Re : regular p C3) by (intros i Hi; specialize (Di i Hi); lra).
    set (a := fun j => trend_val mk nx (xnorm g z) j - sumn n (fun i => r i * RFm j i)).
    set (dm := bsub p (tr C3) (fsub p C3 a)).
    assert (HB : forall j, (j < p)%nat -> mv p Bm dm j = fvec (xnorm g z) j - dot n r (RFm j)).
    { intros j Hj. transitivity (mv p C3 (mv p (tr C3) dm) j).
      - rewrite mv_mv. apply sumn_ext. intros l Hl. unfold tr. now rewrite <- (Fa j l Hj Hl).
      - rewrite (mv_ext p C3 _ (fsub p C3 a)).
        + rewrite fsub_solves by assumption. reflexivity.
        + intros k Hk. apply bsub_solves; [now apply upper_tr|now apply regular_tr|exact Hk]. }
    set (s2 := i_sigma2 (g_in g)).
    set (v := fun t => s2 * mse_of mk n nx g (rvec (xnorm g (upd z c t))) (fvec (xnorm g (upd z c t)))).
    assert (V0 : var_at g z = if Rlt_dec (v (z c)) 0 then 0 else v (z c)).
    { unfold var_at. rewrite (predict_var_eq _ _ _ _ _ _ _ _ _ _ _ _ _ _ Fit). unfold v. rewrite upd_self. reflexivity. }
    unfold partial. apply derive_ext with (fun t => if Rlt_dec (v t) 0 then 0 else v t).
    { intros t. unfold var_at. rewrite (predict_var_eq _ _ _ _ _ _ _ _ _ _ _ _ _ _ Fit). reflexivity. }
    apply is_derive_clamp.
    2:{ rewrite V0 in P. destruct (Rlt_dec (v (z c)) 0); lra. }
    set (dr := fun i => drv i c / g_xstd g c). set (df := fun j => trend_der mk nx (xnorm g z) j c / g_xstd g c).
    assert (DRt : forall i, is_derive (fun t => rt_of n g (rvec (xnorm g (upd z c t))) i) (z c) (rt_of n g dr i)).
    { intros i. apply (derive_fsub n L (fun t => rvec (xnorm g (upd z c t))) (z c) dr). intros k Hk. now apply rvec_derive. }
    assert (DU : forall j, is_derive (fun t => u_of mk n nx g (rvec (xnorm g (upd z c t))) (fvec (xnorm g (upd z c t))) j) (z c) (u_of mk n nx g dr df j)).
    { intros j. apply (derive_fsub p (tr rr) (fun t j => mv n (tr ft) (rt_of n g (rvec (xnorm g (upd z c t)))) j - fvec (xnorm g (upd z c t)) j) (z c)).
      intros k Hk. apply derive_minus; [|now apply fvec_derive]. apply derive_sumn. intros i Hi. apply derive_scal_l. apply DRt. }
    eapply derive_eq.
    - unfold v. apply derive_scal_l. unfold mse_of. apply derive_plus; [apply derive_minus; [apply derive_const|]|].
      + apply (derive_sumn n (fun i t => rt_of n g (rvec (xnorm g (upd z c t))) i * rt_of n g (rvec (xnorm g (upd z c t))) i)).
        intros i Hi. apply derive_mult; apply DRt.
      + apply (derive_sumn p (fun j t => u_of mk n nx g (rvec (xnorm g (upd z c t))) (fvec (xnorm g (upd z c t))) j * u_of mk n nx g (rvec (xnorm g (upd z c t))) (fvec (xnorm g (upd z c t))) j)).
        intros j Hj. apply derive_mult; apply DU.
    - cbv beta. rewrite !upd_self. fold s2.
      set (rt := rt_of n g (rvec (xnorm g z))). set (u := u_of mk n nx g (rvec (xnorm g z)) (fvec (xnorm g z))).
      rewrite (sumn_ext n _ (fun i => 2 * (rt i * rt_of n g dr i))) by (intros; ring).
      rewrite (sumn_ext p _ (fun j => 2 * (u j * u_of mk n nx g dr df j))) by (intros; ring).
      rewrite !sumn_scal_l.
      change (sumn n (fun i => rt i * rt_of n g dr i)) with (dot n rt (rt_of n g dr)).
      change (sumn p (fun j => u j * u_of mk n nx g dr df j)) with (dot p u (u_of mk n nx g dr df)).
      unfold rt. rewrite (rt_dot _ _ _ _ _ _ _ _ _ _ _ _ _ _ Fit _ _ (bsub n (tr L) (fsub n L r))).
      2:{ intros i Hi. apply (Rsolve_ok _ _ _ _ _ _ _ _ _ _ _ _ _ _ Fit r i Hi). }
      unfold u. rewrite (u_dot _ _ _ _ _ _ _ _ _ _ _ _ _ _ Fit QR _ _ _ _ dm).
      2:{ exact HB. }
      assert (P2 : dot n (bsub n (tr L) (fsub n L r)) dr = sumn n (fun i => bsub n (tr L) (fsub n L r) i * corr_jac g th (xnorm g z) i c) / g_xstd g c).
      { rewrite <- sumn_div. apply sumn_ext. intros i Hi. unfold dr, drv, corr_jac. rewrite Ec, Ex, Eh, Ew, Exd. unfold Rdiv. ring. }
      assert (P4 : dot p dm (fun j => df j - dot n dr (RFm j)) =
        sumn p (fun j => dm j * (trend_der mk nx (xnorm g z) j c - sumn n (fun i => corr_jac g th (xnorm g z) i c * RFm j i))) / g_xstd g c).
      { rewrite <- sumn_div. apply sumn_ext. intros j Hj. unfold df, dot.
        rewrite (sumn_ext n (fun i => dr i * RFm j i) (fun i => corr_jac g th (xnorm g z) i c * RFm j i / g_xstd g c)).
        - rewrite sumn_div. unfold Rdiv. ring.
        - intros i Hi. unfold dr, drv, corr_jac. rewrite Ec, Ex, Eh, Ew, Exd. unfold Rdiv. ring. }
      rewrite P2, P4.
      transitivity (2 * (sumn p (fun j => dm j * (trend_der mk nx (xnorm g z) j c - sumn n (fun i => corr_jac g th (xnorm g z) i c * RFm j i))) -
                         sumn n (fun i => bsub n (tr L) (fsub n L r) i * corr_jac g th (xnorm g z) i c)) / g_xstd g c * s2).
      + unfold Rdiv. ring.
      + reflexivity.
  Qed.
End Gradients.
