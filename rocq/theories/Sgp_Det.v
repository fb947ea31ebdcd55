(** Determinants through Cholesky factors: updates of rank one and the determinant of a low rank matrix plus a diagonal. *)
From Coq Require Import Reals Lra Lia Arith.
From Coquelicot Require Import Coquelicot.
From Coq Require Import List Bool.
From Verif Require Import RVec Util Moe_Model Kern_Model Gp_Model Gp_Spec Gp_Lin Sgp_Model Sgp_Spec Sgp_Proofs.
Local Open Scope R_scope.

Definition logd (n : nat) (L : mat) : R := 2 * sumn n (fun i => ln (L i i)).

Section Fac.
  Context (n : nat) (A L : mat).
  Hypothesis Fa : chol_factor n A L.
  Lemma fac_lower : lower n L. Proof. apply Fa. Qed.
  Lemma fac_regular : regular n L. Proof. intros i Hi. pose proof (proj1 (proj2 Fa) i Hi). lra. Qed.
  Lemma fac_mv x i : (i < n)%nat -> mv n A x i = mv n L (mv n (tr L) x) i.
  Proof.
    intros Hi. rewrite mv_mv. unfold mv. apply sumn_ext. intros k Hk. f_equal. symmetry. exact (proj2 (proj2 Fa) i k Hi Hk).
  Qed.
  Lemma fac_solves b : solves n A (asol n L b) b.
  Proof.
    intros i Hi. rewrite fac_mv by exact Hi. unfold asol. rewrite (mv_ext n L _ (fsub n L b)).
    - apply fsub_solves; [exact fac_lower|exact fac_regular|exact Hi].
    - intros j Hj. apply bsub_solves; [apply upper_tr, fac_lower|apply regular_tr, fac_regular|exact Hj].
  Qed.
  Lemma fac_dot x b c : solves n A x c -> dot n b x = dot n (fsub n L b) (fsub n L c).
  Proof.
    intros H. transitivity (dot n (mv n L (fsub n L b)) x).
    - apply dot_ext; [|reflexivity]. intros i Hi. symmetry. apply fsub_solves; [exact fac_lower|exact fac_regular|exact Hi].
    - rewrite dot_comm, dot_mv. rewrite dot_comm. apply dot_ext; [reflexivity|].
      apply fsub_unique; [exact fac_lower|exact fac_regular|]. intros i Hi. rewrite <- fac_mv by exact Hi. now apply H.
  Qed.
End Fac.

Lemma fac_ext n A B L : (forall i j, (i < n)%nat -> (j < n)%nat -> A i j = B i j) -> chol_factor n A L -> chol_factor n B L.
Proof.
  intros H (Lo & Di & Fa). split; [exact Lo|]. split; [exact Di|]. intros i j Hi Hj. rewrite <- (H i j Hi Hj). now apply Fa.
Qed.
Lemma fac_prefix n A L : chol_factor (S n) A L -> chol_factor n A L.
Proof.
  intros (Lo & Di & Fa). split; [intros i j Hi Hj; apply Lo; lia|]. split; [intros i Hi; apply Di; lia|].
  intros i j Hi Hj. rewrite <- (Fa i j) by lia. cbn [sumn]. rewrite (Lo i n) by lia. ring.
Qed.
Lemma fac_row n A L : chol_factor (S n) A L -> forall k, (k < n)%nat -> L n k = fsub n L (fun j => A n j) k.
Proof.
  intros F. assert (Fn := fac_prefix n A L F). destruct F as (Lo & Di & Fa).
  apply (fsub_unique n L (fun j => A n j) (fun k => L n k)); [exact (fac_lower n A L Fn)|exact (fac_regular n A L Fn)|].
  intros j Hj. rewrite <- (Fa n j) by lia. cbn [sumn]. rewrite (Lo j n) by lia. unfold mv. rewrite Rmult_0_r, Rplus_0_r.
  apply sumn_ext. intros; ring.
Qed.
Lemma fac_pivot n A L w : chol_factor (S n) A L -> solves n A w (fun j => A n j) ->
  L n n * L n n = A n n - dot n (fun j => A n j) w.
Proof.
  intros F S. assert (Fn := fac_prefix n A L F). rewrite (fac_dot n A L Fn w _ _ S).
  rewrite <- (proj2 (proj2 F) n n) by lia. cbn [sumn].
  rewrite <- (dot_ext n (fun k => L n k) (fun k => L n k) (fsub n L (fun j => A n j)) (fsub n L (fun j => A n j)) (fac_row n A L F) (fac_row n A L F)).
  unfold dot. ring.
Qed.
Lemma logd_unique n A L L' : chol_factor n A L -> chol_factor n A L' -> logd n L = logd n L'.
Proof.
  induction n as [|n IH]; intros F F'; [reflexivity|].
  assert (Fn := fac_prefix n A L F). specialize (IH Fn (fac_prefix n A L' F')). unfold logd in *. cbn [sumn]. rewrite !Rmult_plus_distr_l, IH. f_equal.
  pose proof (fac_solves n A L Fn (fun j => A n j)) as S.
  pose proof (fac_pivot n A L _ F S) as P. pose proof (fac_pivot n A L' _ F' S) as P'.
  f_equal. f_equal. pose proof (proj1 (proj2 F) n (Nat.lt_succ_diag_r n)). pose proof (proj1 (proj2 F') n (Nat.lt_succ_diag_r n)).
  apply Rsqr_inj; [lra|lra|]. unfold Rsqr. congruence.
Qed.
Lemma eye_factor n : chol_factor n eye eye.
Proof.
  split; [|split].
  - intros i j _ _ H. unfold eye. destruct (Nat.eqb_spec i j); [lia|reflexivity].
  - intros i _. unfold eye. rewrite Nat.eqb_refl. lra.
  - intros i j Hi Hj. rewrite (eye_sum n i (fun k => eye j k) Hi). apply eye_sym.
Qed.
Lemma logd_eye n : logd n eye = 0.
Proof.
  unfold logd. rewrite (sumn_zero n); [ring|]. intros i _. unfold eye. rewrite Nat.eqb_refl. apply ln_1.
Qed.
Lemma fsub_last n L b : fsub (S n) L b n = (b n - sumn n (fun j => L n j * fsub n L b j)) / L n n.
Proof.
  rewrite fsub_at by lia. do 2 f_equal. apply sumn_ext. intros j Hj. f_equal. apply fsub_prefix. lia.
Qed.

Lemma logd_rank_one c v : 0 <= c -> forall n A L L', chol_factor n A L -> chol_factor n (fun i j => A i j + c * (v i * v j)) L' ->
  logd n L' = logd n L + ln (1 + c * dot n (fsub n L v) (fsub n L v)).
Proof.
  intros Hc. induction n as [|n IH]; intros A L L' F F'.
  { unfold logd, dot. cbn [sumn]. replace (1 + c * 0) with 1 by ring. rewrite ln_1. ring. }
  assert (Fn := fac_prefix n A L F). assert (Fn' := fac_prefix n _ L' F'). specialize (IH A L L' Fn Fn').
  unfold logd in *. cbn [sumn]. rewrite !Rmult_plus_distr_l, IH.
  set (r0 := dot n (fsub n L v) (fsub n L v)) in *.
  set (al := dot n (fsub n L (fun j => A n j)) (fsub n L v)).
  assert (E1 : dot (S n) (fsub (S n) L v) (fsub (S n) L v) = r0 + (v n - al) * (v n - al) / (L n n * L n n)).
  { unfold dot at 1. cbn [sumn]. f_equal.
    - unfold r0, dot. apply sumn_ext. intros i Hi. rewrite (fsub_prefix (S n) n L v i) by lia. reflexivity.
    - rewrite fsub_last. replace (sumn n (fun j => L n j * fsub n L v j)) with al.
      + field. apply (fac_regular (S n) A L F). lia.
      + unfold al, dot. apply sumn_ext. intros j Hj. now rewrite (fac_row n A L F j Hj). }
  pose proof (fac_solves n A L Fn (fun j => A n j)) as St. pose proof (fac_solves n A L Fn v) as Sr.
  set (t := asol n L (fun j => A n j)) in *. set (r := asol n L v) in *.
  assert (Hr0 : 0 <= r0) by apply dot_nonneg.
  assert (Dr : dot n v r = r0) by apply (fac_dot n A L Fn r v v Sr).
  assert (Dt : dot n v t = al) by (rewrite (fac_dot n A L Fn t v _ St); unfold al; apply dot_comm).
  assert (Da : dot n (fun j => A n j) r = al) by (rewrite (fac_dot n A L Fn r _ _ Sr); reflexivity).
  assert (Pc : 0 <= c * r0) by now apply Rmult_le_pos.
  set (ka := c * (v n - al) / (1 + c * r0)).
  assert (S' : solves n (fun i j => A i j + c * (v i * v j)) (fun i => t i + ka * r i) (fun j => A n j + c * (v n * v j))).
  { intros i Hi. transitivity (mv n A (fun i => t i + ka * r i) i + c * v i * dot n v (fun i => t i + ka * r i)).
    - unfold mv, dot. rewrite <- sumn_scal_l, <- sumn_plus. apply sumn_ext. intros; ring.
    - rewrite mv_plus, mv_scal, (St i Hi), (Sr i Hi).
      replace (dot n v (fun i => t i + ka * r i)) with (al + ka * r0).
      + unfold ka. field. lra.
      + rewrite <- Dt, <- Dr. unfold dot. rewrite <- sumn_scal_l, <- sumn_plus. apply sumn_ext. intros; ring. }
  pose proof (fac_pivot n A L t F St) as P. pose proof (fac_pivot n _ L' _ F' S') as P'. cbv beta in P'.
  replace (dot n (fun j => A n j + c * (v n * v j)) (fun i => t i + ka * r i))
    with (dot n (fun j => A n j) t + ka * al + c * v n * (al + ka * r0)) in P'.
  2:{ transitivity (dot n (fun j => A n j) t + ka * dot n (fun j => A n j) r + c * v n * (dot n v t + ka * dot n v r)); [now rewrite Da, Dt, Dr|].
      unfold dot. rewrite <- (sumn_scal_l n ka (fun i => A n i * r i)), <- (sumn_scal_l n ka (fun i => v i * r i)), <- !sumn_plus, <- sumn_scal_l, <- sumn_plus.
      apply sumn_ext. intros; ring. }
  assert (Lp := proj1 (proj2 F) n (Nat.lt_succ_diag_r n)). assert (Lp' := proj1 (proj2 F') n (Nat.lt_succ_diag_r n)).
  assert (Q : L' n n * L' n n * (1 + c * r0) = L n n * L n n * (1 + c * (r0 + (v n - al) * (v n - al) / (L n n * L n n)))).
  { rewrite P'. replace (A n n + c * (v n * v n) - (dot n (fun j => A n j) t + ka * al + c * v n * (al + ka * r0)))
      with (L n n * L n n + c * (v n * v n) - ka * al - c * v n * (al + ka * r0)) by lra. unfold ka. field. split; lra. }
  rewrite E1. assert (H : ln (L' n n) + ln (L' n n) + ln (1 + c * r0) =
    ln (L n n) + ln (L n n) + ln (1 + c * (r0 + (v n - al) * (v n - al) / (L n n * L n n)))); [|lra].
  assert (0 <= (v n - al) * (v n - al) / (L n n * L n n)).
  { apply Rmult_le_pos; [apply Rle_0_sqr|]. left. apply Rinv_0_lt_compat. now apply Rmult_lt_0_compat. }
  assert (0 <= c * (r0 + (v n - al) * (v n - al) / (L n n * L n n))) by (apply Rmult_le_pos; lra).
  rewrite <- !ln_mult; try lra; try (now apply Rmult_lt_0_compat). now rewrite Q.
Qed.

Lemma Am_0 V nu i j : Am 0 V nu i j = eye i j.
Proof. unfold Am. cbn. ring. Qed.
Lemma logd_Cm m V nu : forall n L l, (forall j, (j < n)%nat -> 0 < nu j) -> chol_factor n (Cm m V nu) L -> chol_factor m (Am n V nu) l ->
  logd n L = sumn n (fun j => ln (nu j)) + logd m l.
Proof.
  induction n as [|n IH]; intros L l Nu F Fl.
  - rewrite (logd_unique m eye l eye); [|exact (fac_ext m _ _ l (fun i j _ _ => Am_0 V nu i j) Fl)|apply eye_factor]. rewrite logd_eye. unfold logd. cbn. ring.
  - assert (Nn : forall j, (j < n)%nat -> 0 < nu j) by (intros; apply Nu; lia).
    assert (Nz : forall j, (j < n)%nat -> nu j <> 0) by (intros j Hj; specialize (Nn j Hj); lra).
    destruct (cholesky_complete m (Am n V nu) (Am_sym m n V nu) (Am_pd m n V nu Nn)) as [l0 Ch].
    assert (F0 : chol_factor m (Am n V nu) l0) by exact (cholesky_correct m _ l0 (Am_sym m n V nu) Ch).
    assert (Fn := fac_prefix n _ L F). specialize (IH L l0 Nn Fn F0).
    set (v := fun k => V k n).
    assert (Hn : 0 < nu n) by (apply Nu; lia).
    rewrite (logd_rank_one (1 / nu n) v) with (A := Am n V nu) (L := l0) (L' := l).
    + destruct (woodbury_ex m n V nu l0 Nz Ch (cs m V v)) as [w W].
      pose proof (woodbury_var m n V nu l0 Nz Ch v w W) as Vw.
      assert (EC : forall j, (j < n)%nat -> Cm m V nu n j = cs m V v j).
      { intros j Hj. unfold Cm, plus_diag, gram, cs, v. destruct (Nat.eqb_spec n j); [lia|]. rewrite Rplus_0_r. apply dot_comm. }
      assert (W' : solves n (Cm m V nu) w (fun j => Cm m V nu n j)) by (intros j Hj; rewrite EC by exact Hj; now apply W).
      pose proof (fac_pivot n (Cm m V nu) L w F W') as P.
      rewrite (dot_ext n (fun j => Cm m V nu n j) w (cs m V v) w EC (fun _ _ => eq_refl)) in P. rewrite dot_comm, Vw in P.
      assert (En : Cm m V nu n n = dot m v v + nu n) by (unfold Cm, plus_diag, gram, v; now rewrite Nat.eqb_refl).
      rewrite En in P. unfold logd in *. cbn [sumn]. rewrite Rmult_plus_distr_l, IH.
      assert (Lp := proj1 (proj2 F) n (Nat.lt_succ_diag_r n)). pose proof (dot_nonneg m (fsub m l0 v)) as D.
      set (d := dot m (fsub m l0 v) (fsub m l0 v)) in *.
      assert (0 <= 1 / nu n * d) by (apply Rmult_le_pos; [left; apply Rdiv_lt_0_compat; lra|exact D]).
      assert (G : ln (L n n) + ln (L n n) = ln (nu n) + ln (1 + 1 / nu n * d)); [|lra].
      rewrite <- !ln_mult by lra. f_equal. rewrite P. field. lra.
    + left. apply Rdiv_lt_0_compat; lra.
    + exact F0.
    + apply (fac_ext m (Am (S n) V nu)); [|exact Fl]. intros i j _ _. unfold Am. cbn [sumn]. unfold v. ring.
Qed.
