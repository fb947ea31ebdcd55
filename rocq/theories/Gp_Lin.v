(** Linear algebra used by Gaussian processes: substitutions and Cholesky factorization. *)
From Coq Require Import Reals Lra Lia Arith.
From Coquelicot Require Import Coquelicot.
From Coq Require Import List Bool.
From Verif Require Import RVec Moe_Model Kern_Model Gp_Model Gp_Spec.
Local Open Scope R_scope.


(** ** Sums *)
Lemma sumn_split n k f : (k <= n)%nat -> sumn n f = sumn k f + sumn (n - k) (fun i => f (k + i)%nat).
Proof.
  intros H. induction n as [|n IH].
  - replace k with 0%nat by lia. simpl. lra.
  - destruct (Nat.eq_dec k (S n)) as [->|N].
    + rewrite Nat.sub_diag. cbn [sumn]. lra.
    + rewrite Nat.sub_succ_l by lia. cbn [sumn]. rewrite IH by lia. replace (k + (n - k))%nat with n by lia. lra.
Qed.
Lemma sumn_prefix n k f : (k <= n)%nat -> (forall i, (k <= i < n)%nat -> f i = 0) -> sumn n f = sumn k f.
Proof. intros H Z. rewrite (sumn_split n k f H), (sumn_zero (n - k)); [lra|]. intros; apply Z; lia. Qed.
Lemma sumn_rev n f : sumn n f = sumn n (fun i => f (n - 1 - i)%nat).
Proof.
  induction n as [|n IH]; [reflexivity|]. rewrite (sumn_S n (fun i => f (S n - 1 - i)%nat)). cbn [sumn]. rewrite IH.
  replace (S n - 1 - 0)%nat with n by lia. rewrite Rplus_comm. f_equal. apply sumn_ext. intros i Hi. f_equal. lia.
Qed.
Lemma mv_ext m A v v' i : (forall j, (j < m)%nat -> v j = v' j) -> mv m A v i = mv m A v' i.
Proof. intros H. apply sumn_ext. intros j Hj. now rewrite H. Qed.
Lemma dot_ext n u v u' v' : (forall i, (i < n)%nat -> u i = u' i) -> (forall i, (i < n)%nat -> v i = v' i) -> dot n u v = dot n u' v'.
Proof. intros H H'. apply sumn_ext. intros i Hi. now rewrite H, H'. Qed.
Lemma dot_comm n u v : dot n u v = dot n v u.
Proof. apply sumn_ext. intros; ring. Qed.
Lemma dot_mv n m A u v : dot n u (mv m A v) = dot m (mv n (tr A) u) v.
Proof.
  unfold dot, mv, tr. transitivity (sumn n (fun i => sumn m (fun j => u i * A i j * v j))).
  - apply sumn_ext. intros i _. rewrite <- sumn_scal_l. apply sumn_ext. intros; ring.
  - rewrite sumn_swap. apply sumn_ext. intros j _. rewrite <- sumn_scal_r. apply sumn_ext. intros; ring.
Qed.
Lemma dot_nonneg n u : 0 <= dot n u u.
Proof. apply sumn_nonneg. intros; apply Rle_0_sqr. Qed.
Lemma dot_zero n u : dot n u u = 0 -> forall i, (i < n)%nat -> u i = 0.
Proof.
  intros H i Hi. assert (A : u i * u i <= 0).
  { rewrite <- H. apply (sumn_term n (fun i => u i * u i)); [intros; apply Rle_0_sqr|exact Hi]. }
  apply Rsqr_0_uniq. apply Rle_antisym; [exact A|apply Rle_0_sqr].
Qed.
Lemma mv_mv n m A B v i : mv n A (mv m B v) i = sumn m (fun k => sumn n (fun j => A i j * B j k) * v k).
Proof.
  unfold mv. transitivity (sumn n (fun j => sumn m (fun k => A i j * B j k * v k))).
  - apply sumn_ext. intros j _. rewrite <- sumn_scal_l. apply sumn_ext. intros; ring.
  - rewrite sumn_swap. apply sumn_ext. intros k _. now rewrite <- sumn_scal_r.
Qed.
Lemma mv_plus m A u v i : mv m A (fun j => u j + v j) i = mv m A u i + mv m A v i.
Proof. unfold mv. rewrite <- sumn_plus. apply sumn_ext. intros; ring. Qed.
Lemma mv_minus m A u v i : mv m A (fun j => u j - v j) i = mv m A u i - mv m A v i.
Proof. unfold mv. rewrite <- sumn_minus. apply sumn_ext. intros; ring. Qed.
Lemma mv_scal m A c v i : mv m A (fun j => c * v j) i = c * mv m A v i.
Proof. unfold mv. rewrite <- sumn_scal_l. apply sumn_ext. intros; ring. Qed.

(** ** Forward substitution *)
Lemma fsub_prefix n k L b i : (i < k <= n)%nat -> fsub n L b i = fsub k L b i.
Proof.
  intros H. induction n as [|n IH]; [lia|]. destruct (Nat.eq_dec k (S n)) as [->|N]; [reflexivity|].
  cbn [fsub]. destruct (Nat.eqb_spec i n); [lia|]. apply IH. lia.
Qed.
Lemma fsub_at n L b i : (i < n)%nat -> fsub n L b i = (b i - sumn i (fun j => L i j * fsub n L b j)) / L i i.
Proof.
  intros H. rewrite (fsub_prefix n (S i)) by lia. cbn [fsub]. rewrite Nat.eqb_refl. f_equal. f_equal.
  apply sumn_ext. intros j Hj. now rewrite (fsub_prefix n i) by lia.
Qed.
Lemma fsub_solves n L b : lower n L -> regular n L -> forall i, (i < n)%nat -> mv n L (fsub n L b) i = b i.
Proof.
  intros Lo Re i Hi. unfold mv. rewrite (sumn_prefix n (S i)).
  - cbn [sumn]. rewrite (fsub_at n L b i Hi). field. now apply Re.
  - lia.
  - intros j Hj. rewrite Lo by lia. ring.
Qed.
Lemma fsub_unique n L b z : lower n L -> regular n L -> (forall i, (i < n)%nat -> mv n L z i = b i) ->
  forall i, (i < n)%nat -> z i = fsub n L b i.
Proof.
  intros Lo Re H i. induction i as [i IH] using lt_wf_ind. intros Hi. rewrite (fsub_at n L b i Hi).
  specialize (H i Hi). unfold mv in H. rewrite (sumn_prefix n (S i)) in H; [|lia|intros j Hj; rewrite Lo by lia; ring].
  cbn [sumn] in H. rewrite <- H.
  rewrite (sumn_ext i (fun j => L i j * fsub n L b j) (fun j => L i j * z j)).
  - field. now apply Re.
  - intros j Hj. rewrite <- IH by lia. reflexivity.
Qed.
Lemma fsub_ext n L L' b b' : (forall i j, (i < n)%nat -> (j < n)%nat -> L i j = L' i j) -> (forall i, (i < n)%nat -> b i = b' i) ->
  forall i, fsub n L b i = fsub n L' b' i.
Proof.
  induction n as [|n IH]; intros HL Hb i; [reflexivity|]. cbn [fsub].
  rewrite (HL n n), (Hb n) by lia. assert (E : forall j, fsub n L b j = fsub n L' b' j) by (apply IH; intros; [apply HL|apply Hb]; lia).
  destruct (Nat.eqb i n); [|apply E]. f_equal. f_equal. apply sumn_ext. intros j Hj. rewrite HL, E by lia. reflexivity.
Qed.
Lemma fsub_inj n L z : lower n L -> regular n L -> (forall i, (i < n)%nat -> mv n L z i = 0) -> forall i, (i < n)%nat -> z i = 0.
Proof.
  intros Lo Re H i Hi. rewrite (fsub_unique n L (fun _ => 0) z Lo Re H i Hi).
  rewrite <- (fsub_unique n L (fun _ => 0) (fun _ => 0) Lo Re); [reflexivity| |exact Hi].
  intros k Hk. apply sumn_zero. intros; ring.
Qed.
Lemma derive_fsub n L (b : R -> vec) (x : R) (b' : vec) : (forall i, (i < n)%nat -> is_derive (fun t => b t i) x (b' i)) ->
  forall i, is_derive (fun t => fsub n L (b t) i) x (fsub n L b' i).
Proof.
  induction n as [|n IH]; intros H i; [exact (derive_const 0 x)|]. cbn [fsub].
  assert (E : forall j, is_derive (fun t => fsub n L (b t) j) x (fsub n L b' j)) by (apply IH; intros; apply H; lia).
  destruct (Nat.eqb i n); [|apply E]. unfold Rdiv. apply derive_scal_r. apply derive_minus; [apply H; lia|].
  apply derive_sumn. intros j Hj. apply derive_scal_l. apply E.
Qed.

(** ** Backward substitution *)
Lemma bsub_solves n U b : upper n U -> regular n U -> forall i, (i < n)%nat -> mv n U (bsub n U b) i = b i.
Proof.
  intros Up Re i Hi. unfold mv. rewrite sumn_rev.
  set (V := fun a c : nat => U (n - 1 - a)%nat (n - 1 - c)%nat).
  assert (H : mv n V (fsub n V (fun a => b (n - 1 - a)%nat)) (n - 1 - i)%nat = b i).
  { rewrite fsub_solves; [f_equal; lia| | |lia].
    - intros a c Ha Hc Hl. apply Up; lia.
    - intros a Ha. apply Re. lia. }
  rewrite <- H. unfold mv. apply sumn_ext. intros j Hj. unfold V at 1, bsub.
  replace (n - 1 - (n - 1 - i))%nat with i by lia. replace (n - 1 - (n - 1 - j))%nat with j by lia. reflexivity.
Qed.
Lemma upper_inj n U z : upper n U -> regular n U -> (forall i, (i < n)%nat -> mv n U z i = 0) -> forall i, (i < n)%nat -> z i = 0.
Proof.
  intros Up Re H i Hi.
  set (V := fun a c : nat => U (n - 1 - a)%nat (n - 1 - c)%nat).
  enough (A : z (n - 1 - (n - 1 - i))%nat = 0) by (replace (n - 1 - (n - 1 - i))%nat with i in A by lia; exact A).
  apply (fsub_inj n V (fun a => z (n - 1 - a)%nat)).
  - intros a c Ha Hc Hl. apply Up; lia.
  - intros a Ha. apply Re. lia.
  - intros a Ha. rewrite <- (H (n - 1 - a)%nat) by lia. unfold mv. rewrite (sumn_rev n (fun j => U _ j * z j)). reflexivity.
  - lia.
Qed.
Lemma upper_tr n L : lower n L -> upper n (tr L).
Proof. intros H i j Hi Hj Hl. now apply H. Qed.
Lemma lower_tr n U : upper n U -> lower n (tr U).
Proof. intros H i j Hi Hj Hl. now apply H. Qed.
Lemma regular_tr n L : regular n L -> regular n (tr L).
Proof. intros H i Hi. now apply H. Qed.
Lemma bsub_unique n U b z : upper n U -> regular n U -> (forall i, (i < n)%nat -> mv n U z i = b i) ->
  forall i, (i < n)%nat -> z i = bsub n U b i.
Proof.
  intros Up Re H i Hi. apply Rminus_diag_uniq.
  apply (upper_inj n U (fun i => z i - bsub n U b i) Up Re); [|exact Hi].
  intros k Hk. rewrite mv_minus, H, bsub_solves by assumption. lra.
Qed.
Lemma bsub_ext n U U' b b' : (forall i j, (i < n)%nat -> (j < n)%nat -> U i j = U' i j) -> (forall i, (i < n)%nat -> b i = b' i) ->
  forall i, bsub n U b i = bsub n U' b' i.
Proof. intros HU Hb i. unfold bsub. apply fsub_ext; intros; [apply HU|apply Hb]; lia. Qed.

(** ** Cholesky factorization *)
Definition factor (n : nat) (L A : mat) : Prop :=
  forall i j, (i < n)%nat -> (j < n)%nat -> sumn n (fun k => L i k * L j k) = A i j.
Lemma cholesky_correct n A L : symmetric n A -> cholesky n A = Some L ->
  lower n L /\ (forall i, (i < n)%nat -> 0 < L i i) /\ factor n L A.
Proof.
  revert L. induction n as [|n IH]; intros L Sy H.
  - repeat split; intros i; lia.
  - cbn [cholesky] in H. destruct (cholesky n A) as [M|] eqn:E; [|discriminate].
    destruct (Rlt_dec 0 _) as [P|]; [|discriminate]. injection H as <-.
    destruct (IH M) as [Lo [Di Fa]]; [intros i j Hi Hj; apply Sy; lia|reflexivity|].
    set (z := fsub n M (fun j => A n j)) in *. set (p := A n n - _) in *.
    assert (Re : regular n M) by (intros i Hi; specialize (Di i Hi); lra).
    repeat split.
    + intros i j Hi Hj Hl. destruct (Nat.eqb_spec i n); [lia|]. destruct (Nat.eq_dec j n) as [->|]; [|apply Lo; lia].
      (* rows above n have a zero in column n *)
      clear - E Hl. revert M E. assert (G : forall k M, cholesky k A = Some M -> forall i j, (k <= j)%nat -> M i j = 0).
      { induction k as [|k IHk]; intros M H i' j' Hj; [injection H as <-; reflexivity|]. cbn [cholesky] in H.
        destruct (cholesky k A) as [N|] eqn:EN; [|discriminate]. destruct (Rlt_dec 0 _); [|discriminate]. injection H as <-.
        destruct (Nat.eqb i' k); [|apply (IHk N eq_refl); lia].
        destruct (Nat.ltb_spec j' k); [lia|]. destruct (Nat.eqb_spec j' k); [lia|reflexivity]. }
      intros M E. apply (G n M E). lia.
    + intros i Hi. destruct (Nat.eqb_spec i n) as [->|]; [|apply Di; lia].
      rewrite Nat.ltb_irrefl. now apply sqrt_lt_R0.
    + assert (G : forall k M, cholesky k A = Some M -> forall i j, (k <= j)%nat -> M i j = 0).
      { clear. induction k as [|k IHk]; intros M H i' j' Hj; [injection H as <-; reflexivity|]. cbn [cholesky] in H.
        destruct (cholesky k A) as [N|] eqn:EN; [|discriminate]. destruct (Rlt_dec 0 _); [|discriminate]. injection H as <-.
        destruct (Nat.eqb i' k); [|apply (IHk N eq_refl); lia].
        destruct (Nat.ltb_spec j' k); [lia|]. destruct (Nat.eqb_spec j' k); [lia|reflexivity]. }
      specialize (G n M E).
      assert (RowN : forall j, (j < n)%nat -> sumn n (fun k => z k * M j k) = A n j).
      { intros j Hj. rewrite <- (fsub_solves n M (fun j => A n j) Lo Re j Hj). unfold mv. apply sumn_ext. intros; unfold z; ring. }
      intros i j Hi Hj. cbn [sumn]. rewrite !Nat.eqb_refl, !Nat.ltb_irrefl.
      destruct (Nat.eqb_spec i n) as [->|Ni]; destruct (Nat.eqb_spec j n) as [->|Nj].
      * rewrite (sumn_ext n _ (fun k => z k * z k)).
        2:{ intros k Hk. destruct (Nat.ltb_spec k n); [reflexivity|lia]. }
        rewrite sqrt_sqrt by lra. unfold p. ring.
      * rewrite (G j n) by lia. rewrite (sumn_ext n _ (fun k => z k * M j k)).
        2:{ intros k Hk. destruct (Nat.ltb_spec k n); [reflexivity|lia]. }
        rewrite RowN by lia. ring.
      * rewrite (G i n) by lia. rewrite (sumn_ext n _ (fun k => z k * M i k)).
        2:{ intros k Hk. destruct (Nat.ltb_spec k n); [ring|lia]. }
        rewrite RowN by lia. rewrite (Sy n i) by lia. ring.
      * rewrite (G i n), (G j n) by lia. rewrite Fa by lia. ring.
Qed.
Lemma cholesky_complete n A : symmetric n A -> positive_definite n A -> exists L, cholesky n A = Some L.
Proof.
  induction n as [|n IH]; intros Sy PD; [eexists; reflexivity|].
  assert (Sy' : symmetric n A) by (intros i j Hi Hj; apply Sy; lia).
  destruct IH as [L E]; [exact Sy'| |].
  - intros v [i [Hi Hv]]. set (w := fun k => if Nat.ltb k n then v k else 0).
    assert (P : 0 < dot (S n) w (mv (S n) A w)).
    { apply PD. exists i. split; [lia|]. unfold w. destruct (Nat.ltb_spec i n); [exact Hv|lia]. }
    unfold dot in *. cbn [sumn] in P. unfold w at 3 in P. rewrite Nat.ltb_irrefl, Rmult_0_l, Rplus_0_r in P.
    rewrite (sumn_ext n _ (fun k => v k * mv n A v k)) in P; [exact P|].
    intros k Hk. unfold w at 1. destruct (Nat.ltb_spec k n); [|lia]. f_equal. unfold mv. cbn [sumn]. unfold w at 2.
    rewrite Nat.ltb_irrefl, Rmult_0_r, Rplus_0_r. apply sumn_ext. intros j Hj. unfold w. destruct (Nat.ltb_spec j n); [reflexivity|lia].
  - cbn [cholesky]. rewrite E. destruct (cholesky_correct n A L Sy' E) as [Lo [Di Fa]].
    assert (Re : regular n L) by (intros i Hi; specialize (Di i Hi); lra).
    set (z := fsub n L (fun j => A n j)).
    destruct (Rlt_dec 0 _) as [P|P]; [eexists; reflexivity|exfalso; apply P; clear P].
    set (w := bsub n (tr L) z).
    assert (Hw : forall i, (i < n)%nat -> mv n (tr L) w i = z i).
    { apply bsub_solves; [now apply upper_tr|now apply regular_tr]. }
    set (v := fun k => if Nat.ltb k n then - w k else 1).
    assert (Q : 0 < dot (S n) v (mv (S n) A v)).
    { apply PD. exists n. split; [lia|]. unfold v. rewrite Nat.ltb_irrefl. lra. }
    assert (W1 : dot n w (fun j => A n j) = sumn n (fun k => z k * z k)).
    { rewrite (dot_ext n w _ w (mv n L z)) by (intros; auto; symmetry; now apply fsub_solves).
      rewrite dot_mv. apply sumn_ext. intros i Hi. now rewrite Hw. }
    assert (W2 : dot n w (mv n A w) = sumn n (fun k => z k * z k)).
    { rewrite (dot_ext n w (mv n A w) w (mv n L (mv n (tr L) w))).
      - rewrite dot_mv. apply sumn_ext. intros i Hi. now rewrite Hw.
      - reflexivity.
      - intros i Hi. rewrite mv_mv. apply sumn_ext. intros j Hj. unfold tr. now rewrite <- (Fa i j Hi Hj). }
    assert (V : dot (S n) v (mv (S n) A v) = A n n - 2 * dot n w (fun j => A n j) + dot n w (mv n A w)).
    { unfold dot. cbn [sumn].
      assert (M : forall i, mv (S n) A v i = A i n - mv n A w i).
      { intros i. unfold mv. cbn [sumn]. unfold v at 2. rewrite Nat.ltb_irrefl.
        rewrite (sumn_ext n _ (fun j => - (A i j * w j))).
        - rewrite sumn_opp. ring.
        - intros j Hj. unfold v. destruct (Nat.ltb_spec j n); [ring|lia]. }
      rewrite (sumn_ext n (fun i => v i * mv (S n) A v i) (fun i => w i * mv n A w i - w i * A n i)).
      2:{ intros i Hi. rewrite M. unfold v. destruct (Nat.ltb_spec i n); [|lia]. rewrite (Sy i n) by lia. ring. }
      rewrite M. unfold v. rewrite Nat.ltb_irrefl. rewrite sumn_minus.
      replace (mv n A w n) with (sumn n (fun i => w i * A n i)) by (apply sumn_ext; intros; ring). ring. }
    rewrite V, W1, W2 in Q. fold z. lra.
Qed.
