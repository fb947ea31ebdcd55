(** Lemmas on trajectories. *)
From Coq Require Import Reals Lra Lia Arith FunctionalExtensionality.
From Coquelicot Require Import Coquelicot.
From Verif Require Import RVec Moe_Model Kern_Model Kern_Spec Kern_Proofs Gp_Model Gp_Spec Gp_Lin Gp_Proofs Sgp_Model Traj_Model Traj_Spec.
Local Open Scope R_scope.

(** ** Averages of linear functions of the draws *)
Section Avg.
  Context (n : nat) (E : (vec -> R) -> R).
  Hypothesis St : standard n E.
  Lemma E_ext f g : (forall z, f z = g z) -> E f = E g. Proof. apply St. Qed.
  Lemma E_const c : E (fun _ => c) = c.
  Proof.
    destruct St as (Ex & _ & S & O & _). rewrite (Ex _ (fun z : vec => c * 1)) by (intros; ring). rewrite (S c (fun _ => 1)), O. ring.
  Qed.
  Lemma E_sum m (f : nat -> vec -> R) : E (fun z => sumn m (fun k => f k z)) = sumn m (fun k => E (f k)).
  Proof.
    induction m as [|m IH]; cbn [sumn]; [apply E_const|].
    destruct St as (Ex & P & _). rewrite (P (fun z => sumn m (fun k => f k z)) (f m)), IH. reflexivity.
  Qed.
  Lemma E_lin (c : vec) : E (fun z => sumn n (fun k => c k * z k)) = 0.
  Proof.
    rewrite E_sum. apply sumn_zero. intros k Hk. destruct St as (Ex & P & S & O & M & _). rewrite (S (c k) (fun z => z k)), M by exact Hk. ring.
  Qed.
  Lemma E_quad (c d : vec) : E (fun z => sumn n (fun k => c k * z k) * sumn n (fun k => d k * z k)) = sumn n (fun k => c k * d k).
  Proof.
    rewrite (E_ext _ (fun z => sumn n (fun k => sumn n (fun l => c k * d l * (z k * z l))))).
    2:{ intros z. rewrite <- sumn_scal_r. apply sumn_ext. intros k _. rewrite <- sumn_scal_l. apply sumn_ext. intros; ring. }
    rewrite (E_sum n (fun k z => sumn n (fun l => c k * d l * (z k * z l)))). apply sumn_ext. intros k Hk.
    rewrite (E_sum n (fun l z => c k * d l * (z k * z l))).
    rewrite (sumn_only n _ k Hk).
    - destruct St as (Ex & P & S & O & M & V). rewrite (S (c k * d k) (fun z => z k * z k)), V, Nat.eqb_refl by exact Hk. ring.
    - intros l Hl N. destruct St as (Ex & P & S & O & M & V). rewrite (S (c k * d l) (fun z => z k * z l)), V by assumption.
      destruct (Nat.eqb_spec k l); [lia|ring].
  Qed.
End Avg.

(** Averages over signs: a standard average exists for every n. *)
Definition upd (z : vec) (k : nat) (v : R) : vec := fun i => if Nat.eqb i k then v else z i.
Fixpoint signs (n : nat) (f : vec -> R) : R :=
  match n with O => f (fun _ => 0) | S k => (signs k (fun z => f (upd z k 1)) + signs k (fun z => f (upd z k (-1)))) / 2 end.
Lemma signs_ext n : forall f g, (forall z, f z = g z) -> signs n f = signs n g.
Proof.
  induction n as [|n IH]; intros f g H; cbn [signs]; [apply H|].
  rewrite (IH (fun z => f (upd z n 1)) (fun z => g (upd z n 1))) by (intros; apply H).
  rewrite (IH (fun z => f (upd z n (-1))) (fun z => g (upd z n (-1)))) by (intros; apply H). reflexivity.
Qed.
Lemma signs_plus n : forall f g, signs n (fun z => f z + g z) = signs n f + signs n g.
Proof. induction n as [|n IH]; intros f g; cbn [signs]; [reflexivity|]. rewrite !IH. field. Qed.
Lemma signs_scal n : forall c f, signs n (fun z => c * f z) = c * signs n f.
Proof. induction n as [|n IH]; intros c f; cbn [signs]; [reflexivity|]. rewrite !IH. field. Qed.
Lemma signs_const n : forall c, signs n (fun _ => c) = c.
Proof. induction n as [|n IH]; intros c; cbn [signs]; [reflexivity|]. rewrite !IH. field. Qed.
Lemma upd_same z k v : upd z k v k = v. Proof. unfold upd. now rewrite Nat.eqb_refl. Qed.
Lemma upd_other z k v i : (i < k)%nat -> upd z k v i = z i. Proof. intros H. unfold upd. destruct (Nat.eqb_spec i k); [lia|reflexivity]. Qed.
Lemma signs_mean n : forall k, (k < n)%nat -> signs n (fun z => z k) = 0.
Proof.
  induction n as [|n IH]; intros k Hk; [lia|]. cbn [signs]. destruct (Nat.eq_dec k n) as [->|N].
  - rewrite (signs_ext n _ (fun _ => 1)) by (intros; apply upd_same). rewrite (signs_ext n (fun z => upd z n (-1) n) (fun _ => -1)) by (intros; apply upd_same).
    rewrite !signs_const. field.
  - assert (L : (k < n)%nat) by lia. rewrite (signs_ext n _ (fun z => z k)) by (intros; now apply upd_other).
    rewrite (signs_ext n (fun z => upd z n (-1) k) (fun z => z k)) by (intros; now apply upd_other). rewrite IH by exact L. field.
Qed.
Lemma signs_cov n : forall k l, (k < n)%nat -> (l < n)%nat -> signs n (fun z => z k * z l) = if Nat.eqb k l then 1 else 0.
Proof.
  induction n as [|n IH]; intros k l Hk Hl; [lia|]. cbn [signs]. destruct (Nat.eq_dec k n) as [->|N], (Nat.eq_dec l n) as [->|N'].
  - rewrite (signs_ext n _ (fun _ => 1)) by (intros; rewrite upd_same; ring).
    rewrite (signs_ext n (fun z => upd z n (-1) n * upd z n (-1) n) (fun _ => 1)) by (intros; rewrite upd_same; ring).
    rewrite !signs_const, Nat.eqb_refl. field.
  - assert (L : (l < n)%nat) by lia. rewrite (signs_ext n _ (fun z => z l)) by (intros; rewrite upd_same, upd_other by exact L; ring).
    rewrite (signs_ext n (fun z => upd z n (-1) n * upd z n (-1) l) (fun z => -1 * z l)) by (intros; rewrite upd_same, upd_other by exact L; ring).
    rewrite signs_scal, signs_mean by exact L. destruct (Nat.eqb_spec n l); [lia|]. field.
  - assert (L : (k < n)%nat) by lia. rewrite (signs_ext n _ (fun z => z k)) by (intros; rewrite upd_same, upd_other by exact L; ring).
    rewrite (signs_ext n (fun z => upd z n (-1) k * upd z n (-1) n) (fun z => -1 * z k)) by (intros; rewrite upd_same, upd_other by exact L; ring).
    rewrite signs_scal, signs_mean by exact L. destruct (Nat.eqb_spec k n); [lia|]. field.
  - assert (L : (k < n)%nat) by lia. assert (L' : (l < n)%nat) by lia.
    rewrite (signs_ext n _ (fun z => z k * z l)) by (intros; now rewrite !upd_other).
    rewrite (signs_ext n (fun z => upd z n (-1) k * upd z n (-1) l) (fun z => z k * z l)) by (intros; now rewrite !upd_other).
    rewrite IH by assumption. destruct (Nat.eqb k l); field.
Qed.
Lemma signs_standard n : standard n (signs n).
Proof.
  split; [apply signs_ext|]. split; [apply signs_plus|]. split; [apply signs_scal|]. split; [apply signs_const|].
  split; [apply signs_mean|apply signs_cov].
Qed.

(** ** Trajectories *)
Definition traj (n : nat) (mean : vec) (c : mat) (z : vec) : vec := fun i => mean i + sumn n (fun k => c i k * z k).
Lemma traj_mean n mean c : has_mean n (traj n mean c) mean.
Proof.
  intros E St i _. unfold traj. destruct (St) as (Ex & P & _). rewrite (P (fun _ => mean i) (fun z => sumn n (fun k => c i k * z k))).
  rewrite (E_const n E St), (E_lin n E St (c i)). ring.
Qed.
Lemma traj_cov n mean c : has_cov n (traj n mean c) mean (fun i k => sumn n (fun l => c i l * c k l)).
Proof.
  intros E St i k _ _. rewrite <- (E_quad n E St (c i) (c k)). apply (E_ext n E St). intros z. unfold traj. ring.
Qed.
Lemma has_cov_ext n s m C C' : (forall i k, (i < n)%nat -> (k < n)%nat -> C i k = C' i k) -> has_cov n s m C -> has_cov n s m C'.
Proof. intros H A E St i k Hi Hk. rewrite <- H by assumption. now apply A. Qed.

(** The factor of the eigenvalue decomposition: its square is the matrix with small eigenvalues replaced by 0. *)
Definition kept (v : vec) : vec := fun l => if Rlt_dec (v l) eigen_floor then 0 else v l.
Lemma eigen_floor_pos : 0 < eigen_floor.
Proof. unfold eigen_floor. apply Rinv_0_lt_compat, pow_lt. lra. Qed.
Lemma eigen_factor (eigh : nat -> mat -> vec * mat) n cov c : sample_factor eigh ByEigenValues n cov = Some c ->
  forall i k, (i < n)%nat -> (k < n)%nat ->
  sumn n (fun l => c i l * c k l) = sumn n (fun l => kept (fst (eigh n cov)) l * (snd (eigh n cov) i l * snd (eigh n cov) k l)).
Proof.
  unfold sample_factor. destruct (eigh n cov) as [v w]. cbn [fst snd]. intros H. injection H as <-. intros i k Hi Hk.
  pose proof eigen_floor_pos as FP.
  assert (X : forall a l, (l < n)%nat -> sumn n (fun q => w a q * (if Nat.eqb q l then if Rlt_dec (v q) eigen_floor then 0 else sqrt (v q) else 0))
    = w a l * (if Rlt_dec (v l) eigen_floor then 0 else sqrt (v l))).
  { intros a l Hl. rewrite (sumn_only n _ l Hl); [now rewrite Nat.eqb_refl|]. intros q _ N. destruct (Nat.eqb_spec q l); [lia|ring]. }
  apply sumn_ext. intros l Hl. rewrite !X by exact Hl. unfold kept. destruct (Rlt_dec (v l) eigen_floor); [ring|].
  replace (w i l * sqrt (v l) * (w k l * sqrt (v l))) with (sqrt (v l) * sqrt (v l) * (w i l * w k l)) by ring.
  rewrite sqrt_sqrt by lra. ring.
Qed.
Lemma quad_diag n (e : vec) (w : mat) (c : vec) :
  sumn n (fun i => sumn n (fun k => c i * c k * sumn n (fun l => e l * (w i l * w k l)))) = sumn n (fun l => e l * (sumn n (fun i => c i * w i l) * sumn n (fun i => c i * w i l))).
Proof.
  transitivity (sumn n (fun i => sumn n (fun l => e l * (c i * w i l) * sumn n (fun k => c k * w k l)))).
  - apply sumn_ext. intros i _. transitivity (sumn n (fun k => sumn n (fun l => e l * (c i * w i l) * (c k * w k l)))).
    + apply sumn_ext. intros k _. rewrite <- sumn_scal_l. apply sumn_ext. intros; ring.
    + rewrite sumn_swap. apply sumn_ext. intros l _. now rewrite sumn_scal_l.
  - rewrite sumn_swap. apply sumn_ext. intros l _. rewrite sumn_scal_r, sumn_scal_l. ring.
Qed.
(** All eigenvalues of a positive semidefinite matrix are non negative. *)
Lemma eigen_nonneg n a vw : is_eigh n a vw -> (forall c : vec, 0 <= sumn n (fun i => sumn n (fun k => c i * c k * a i k))) ->
  forall l, (l < n)%nat -> 0 <= fst vw l.
Proof.
  intros [A [O _]] P l Hl. specialize (P (fun i => snd vw i l)). cbv beta in P.
  assert (Eq : sumn n (fun i => sumn n (fun k => snd vw i l * snd vw k l * a i k))
    = sumn n (fun i => sumn n (fun k => snd vw i l * snd vw k l * sumn n (fun q => fst vw q * (snd vw i q * snd vw k q))))).
  { apply sumn_ext. intros i Hi. apply sumn_ext. intros k Hk. now rewrite A. }
  rewrite Eq, (quad_diag n (fst vw) (snd vw) (fun i => snd vw i l)) in P.
  rewrite (sumn_only n _ l Hl) in P.
  - rewrite !O, Nat.eqb_refl in P by assumption. lra.
  - intros q Hq N. rewrite O by assumption. destruct (Nat.eqb_spec l q); [lia|ring].
Qed.
Lemma eigen_bounds (eigh : nat -> mat -> vec * mat) n cov c : sample_factor eigh ByEigenValues n cov = Some c -> is_eigh n cov (eigh n cov) ->
  (forall c : vec, 0 <= sumn n (fun i => sumn n (fun k => c i * c k * cov i k))) ->
  quad_le n (fun i k => sumn n (fun l => c i l * c k l)) cov /\
  quad_le n cov (fun i k => sumn n (fun l => c i l * c k l) + if Nat.eqb i k then eigen_floor else 0).
Proof.
  intros H IE P. pose proof eigen_floor_pos as FP. pose proof (eigen_nonneg _ _ _ IE P) as NN. pose proof (eigen_factor _ _ _ _ H) as EF.
  destruct IE as [A [O1 O2]]. set (v := fst (eigh n cov)) in *. set (w := snd (eigh n cov)) in *.
  assert (QC : forall u : vec, sumn n (fun i => sumn n (fun k => u i * u k * cov i k)) = sumn n (fun l => v l * (sumn n (fun i => u i * w i l) * sumn n (fun i => u i * w i l)))).
  { intros u. rewrite <- quad_diag. apply sumn_ext. intros i Hi. apply sumn_ext. intros k Hk. now rewrite A. }
  assert (QS : forall u : vec, sumn n (fun i => sumn n (fun k => u i * u k * sumn n (fun l => c i l * c k l))) = sumn n (fun l => kept v l * (sumn n (fun i => u i * w i l) * sumn n (fun i => u i * w i l)))).
  { intros u. rewrite <- quad_diag. apply sumn_ext. intros i Hi. apply sumn_ext. intros k Hk. now rewrite EF. }
  split; intros u.
  - rewrite QS, QC. apply sumn_le. intros l Hl. apply Rmult_le_compat_r; [apply Rle_0_sqr|]. unfold kept. specialize (NN l Hl).
    destruct (Rlt_dec (v l) eigen_floor); lra.
  - assert (ID : sumn n (fun i => sumn n (fun k => u i * u k * (if Nat.eqb i k then eigen_floor else 0)))
      = sumn n (fun l => eigen_floor * (sumn n (fun i => u i * w i l) * sumn n (fun i => u i * w i l)))).
    { rewrite <- (quad_diag n (fun _ => eigen_floor) w u). apply sumn_ext. intros i Hi. apply sumn_ext. intros k Hk.
      rewrite sumn_scal_l, O2 by assumption. destruct (Nat.eqb i k); ring. }
    rewrite QC.
    apply Rle_trans with (sumn n (fun l => (kept v l + eigen_floor) * (sumn n (fun i => u i * w i l) * sumn n (fun i => u i * w i l)))).
    + apply sumn_le. intros l Hl. apply Rmult_le_compat_r; [apply Rle_0_sqr|]. unfold kept. destruct (Rlt_dec (v l) eigen_floor); lra.
    + right. transitivity (sumn n (fun i => sumn n (fun k => u i * u k * sumn n (fun l => c i l * c k l)))
        + sumn n (fun i => sumn n (fun k => u i * u k * (if Nat.eqb i k then eigen_floor else 0)))).
      * rewrite QS, ID, <- sumn_plus. apply sumn_ext. intros; ring.
      * rewrite <- sumn_plus. apply sumn_ext. intros i _. rewrite <- sumn_plus. apply sumn_ext. intros; ring.
Qed.
(** Quadratic forms at a unit vector. *)
Lemma quad_unit n (a : mat) i : (i < n)%nat ->
  sumn n (fun p => sumn n (fun q => (if Nat.eqb p i then 1 else 0) * (if Nat.eqb q i then 1 else 0) * a p q)) = a i i.
Proof.
  intros Hi. rewrite (sumn_only n _ i Hi).
  - rewrite (sumn_only n _ i Hi); [rewrite Nat.eqb_refl; ring|]. intros q _ N. destruct (Nat.eqb_spec q i); [lia|ring].
  - intros p _ N. apply sumn_zero. intros q _. destruct (Nat.eqb_spec p i); [lia|ring].
Qed.
Lemma quad_le_diag n a b i : quad_le n a b -> (i < n)%nat -> a i i <= b i i.
Proof. intros Q Hi. pose proof (Q (fun p => if Nat.eqb p i then 1 else 0)) as D. cbv beta in D. rewrite !quad_unit in D by exact Hi. exact D. Qed.
