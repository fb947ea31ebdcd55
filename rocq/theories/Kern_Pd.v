(** The kernels are positive semidefinite. A symmetric function K of two indexes below n is handled through the stronger property
    [schur]: its product with any positive semidefinite function is positive semidefinite. *)
From Coq Require Import Reals Lra Lia Arith.
From Coquelicot Require Import Coquelicot.
From Coq Require Import List Bool.
From Verif Require Import RVec Moe_Model Kern_Model Kern_Spec Kern_Proofs Gp_Model Gp_Spec Gp_Lin.
Local Open Scope R_scope.

Definition psd (n : nat) (K : mat) : Prop := forall c, 0 <= dot n c (mv n K c).
Definition schur (n : nat) (K : mat) : Prop := forall K2, psd n K2 -> psd n (fun i j => K i j * K2 i j).

Lemma quad_sum n K c : dot n c (mv n K c) = sumn n (fun i => sumn n (fun j => c i * c j * K i j)).
Proof.
  unfold dot, mv. apply sumn_ext. intros i Hi. rewrite <- sumn_scal_l. apply sumn_ext. intros; ring.
Qed.
Lemma psd_ext n K K' : (forall i j, (i < n)%nat -> (j < n)%nat -> K i j = K' i j) -> psd n K -> psd n K'.
Proof.
  intros E P c. specialize (P c). rewrite quad_sum in *.
  erewrite sumn_ext; [exact P|]. intros i Hi. apply sumn_ext. intros j Hj. cbn. now rewrite E.
Qed.
Lemma schur_ext n K K' : (forall i j, (i < n)%nat -> (j < n)%nat -> K i j = K' i j) -> schur n K -> schur n K'.
Proof. intros E P K2 H. apply (psd_ext n (fun i j => K i j * K2 i j)); [|now apply P]. intros i j Hi Hj. now rewrite E. Qed.
Lemma schur_rank1 n (u : vec) : schur n (fun i j => u i * u j).
Proof.
  intros K2 P c. specialize (P (fun i => c i * u i)). rewrite quad_sum in *.
  erewrite sumn_ext; [exact P|]. intros i Hi. apply sumn_ext. intros; cbn; ring.
Qed.
Lemma schur_one n : schur n (fun _ _ => 1).
Proof. apply (schur_ext n (fun _ _ => 1 * 1)); [intros; ring|]. apply (schur_rank1 n (fun _ => 1)). Qed.
Lemma schur_plus n K K' : schur n K -> schur n K' -> schur n (fun i j => K i j + K' i j).
Proof.
  intros H H' K2 P c. specialize (H K2 P c). specialize (H' K2 P c). rewrite quad_sum in *.
  erewrite sumn_ext; [|intros i Hi; erewrite sumn_ext; [|intros j Hj; cbv beta; instantiate (1 := fun j => c i * c j * (K i j * K2 i j) + c i * c j * (K' i j * K2 i j)); cbv beta; ring];
    rewrite sumn_plus; instantiate (1 := fun i => sumn n (fun j => c i * c j * (K i j * K2 i j)) + sumn n (fun j => c i * c j * (K' i j * K2 i j))); reflexivity].
  rewrite sumn_plus. apply Rplus_le_le_0_compat; assumption.
Qed.
Lemma schur_scal n a K : 0 <= a -> schur n K -> schur n (fun i j => a * K i j).
Proof.
  intros A H K2 P c. specialize (H K2 P c). rewrite quad_sum in *.
  replace (sumn n (fun i => sumn n (fun j => c i * c j * (a * K i j * K2 i j)))) with (a * sumn n (fun i => sumn n (fun j => c i * c j * (K i j * K2 i j)))).
  - now apply Rmult_le_pos.
  - rewrite <- sumn_scal_l. apply sumn_ext. intros i Hi. rewrite <- sumn_scal_l. apply sumn_ext. intros; ring.
Qed.
Lemma schur_mult n K K' : schur n K -> schur n K' -> schur n (fun i j => K i j * K' i j).
Proof.
  intros H H' K2 P. apply (psd_ext n (fun i j => K i j * (K' i j * K2 i j))); [intros; ring|]. apply H, H', P.
Qed.
Lemma schur_pow n K k : schur n K -> schur n (fun i j => K i j ^ k).
Proof. intros H. induction k as [|k IH]; simpl; [apply schur_one|now apply schur_mult]. Qed.
Lemma schur_sum n (K : nat -> mat) m : (forall k, (k < m)%nat -> schur n (K k)) -> schur n (fun i j => sumn m (fun k => K k i j)).
Proof.
  induction m as [|m IH]; intros H; simpl.
  - apply (schur_ext n (fun _ _ => 0 * 1)); [intros; ring|]. apply (schur_scal n 0 (fun _ _ => 1)); [lra|apply schur_one].
  - apply (schur_plus n (fun i j => sumn m (fun k => K k i j)) (K m)); [apply IH; intros; apply H; lia|apply H; lia].
Qed.
Lemma schur_prod n (K : nat -> mat) m : (forall k, (k < m)%nat -> schur n (K k)) -> schur n (fun i j => prodn m (fun k => K k i j)).
Proof.
  induction m as [|m IH]; intros H; simpl; [apply schur_one|].
  apply (schur_mult n (fun i j => prodn m (fun k => K k i j)) (K m)); [apply IH; intros; apply H; lia|apply H; lia].
Qed.
Lemma schur_psd n K : schur n K -> psd n K.
Proof.
  intros H. apply (psd_ext n (fun i j => K i j * 1)); [intros; ring|]. apply H. intros c. rewrite quad_sum.
  replace (sumn n (fun i => sumn n (fun j => c i * c j * 1))) with (sumn n c * sumn n c); [apply Rle_0_sqr|].
  rewrite <- sumn_scal_r. apply sumn_ext. intros i Hi. rewrite <- sumn_scal_l. apply sumn_ext. intros; ring.
Qed.

(** ** Limits *)
Lemma lim_sumn n (u : nat -> nat -> R) (l : vec) : (forall i, (i < n)%nat -> is_lim_seq (u i) (l i)) ->
  is_lim_seq (fun N => sumn n (fun i => u i N)) (sumn n l).
Proof.
  induction n as [|n IH]; intros H; simpl; [apply is_lim_seq_const|].
  apply is_lim_seq_plus'; [apply IH; intros; apply H; lia|apply H; lia].
Qed.
Lemma schur_lim n (K : nat -> mat) (L : mat) : (forall N, schur n (K N)) ->
  (forall i j, (i < n)%nat -> (j < n)%nat -> is_lim_seq (fun N => K N i j) (L i j)) -> schur n L.
Proof.
  intros H Lim K2 P c. rewrite quad_sum.
  assert (S : is_lim_seq (fun N => sumn n (fun i => sumn n (fun j => c i * c j * (K N i j * K2 i j))))
                (sumn n (fun i => sumn n (fun j => c i * c j * (L i j * K2 i j))))).
  { apply (lim_sumn n (fun i N => sumn n (fun j => c i * c j * (K N i j * K2 i j)))). intros i Hi.
    apply (lim_sumn n (fun j N => c i * c j * (K N i j * K2 i j))). intros j Hj.
    apply (is_lim_seq_mult' (fun _ => c i * c j)); [apply is_lim_seq_const|].
    apply is_lim_seq_mult'; [now apply Lim|apply is_lim_seq_const]. }
  assert (Z : is_lim_seq (fun _ => 0) 0) by apply is_lim_seq_const.
  assert (Le : Rbar_le 0 (sumn n (fun i => sumn n (fun j => c i * c j * (L i j * K2 i j))))).
  { apply (is_lim_seq_le (fun _ => 0) (fun N => sumn n (fun i => sumn n (fun j => c i * c j * (K N i j * K2 i j))))); [|exact Z|exact S].
    intros N. rewrite <- quad_sum. apply (H N K2 P). }
  exact Le.
Qed.

(** ** Gaussian *)
Lemma schur_exp n (u : vec) : schur n (fun i j => exp (u i * u j)).
Proof.
  apply (schur_lim n (fun N i j => sumn (S N) (fun k => / INR (fact k) * (u i * u j) ^ k))).
  - intros N. apply (schur_sum n (fun k i j => / INR (fact k) * (u i * u j) ^ k)). intros k _.
    apply schur_scal; [left; apply Rinv_0_lt_compat, INR_fact_lt_0|]. apply (schur_pow n (fun i j => u i * u j)), schur_rank1.
  - intros i j _ _. pose proof (is_exp_Reals (u i * u j)) as E. unfold is_pseries, is_series in E.
    assert (E' : is_lim_seq (sum_n (fun k => scal (pow_n (u i * u j) k) (/ INR (fact k)))) (exp (u i * u j))) by exact E.
    eapply is_lim_seq_ext; [|exact E']. intros N. cbv beta.
    induction N as [|N IH].
    + rewrite sum_O. cbn. unfold scal, mult; cbn. unfold one; cbn. field.
    + rewrite sum_Sn, IH. change (sumn (S (S N)) ?f) with (sumn (S N) f + f (S N)).
      rewrite pow_n_pow. match goal with |- plus ?a (scal ?b ?c) = _ => change (plus a (scal b c)) with (a + b * c) end.
      match goal with |- ?a = ?b => change (@eq R a b) end. ring.
Qed.
Lemma schur_gauss n (a : R) (x : vec) : schur n (fun i j => exp (- (a * Rabs (x i - x j) * (a * Rabs (x i - x j))) / 2)).
Proof.
  apply (schur_ext n (fun i j => exp (- (a * x i * (a * x i)) / 2) * exp (- (a * x j * (a * x j)) / 2) * exp (a * x i * (a * x j)))).
  - intros i j _ _. rewrite <- !exp_plus. f_equal.
    replace (a * Rabs (x i - x j) * (a * Rabs (x i - x j))) with (a * a * (Rabs (x i - x j) * Rabs (x i - x j))) by ring.
    rewrite <- Rabs_mult, Rabs_pos_eq by apply Rle_0_sqr. field.
  - apply (schur_mult n (fun i j => exp (- (a * x i * (a * x i)) / 2) * exp (- (a * x j * (a * x j)) / 2)) (fun i j => exp (a * x i * (a * x j)))).
    + apply (schur_rank1 n (fun i => exp (- (a * x i * (a * x i)) / 2))).
    + apply (schur_exp n (fun i => a * x i)).
Qed.

(** ** Minimum *)
Fixpoint count (n : nat) (s : vec) : nat := match n with O => O | S m => (count m s + if Rlt_dec 0 (s m) then 1 else 0)%nat end.
Lemma count_pos n s : count n s <> O -> exists i, (i < n)%nat /\ 0 < s i.
Proof.
  induction n as [|n IH]; simpl; intros H; [congruence|].
  destruct (Rlt_dec 0 (s n)) as [P|P]; [exists n; split; [lia|exact P]|]. destruct IH as (i & Hi & Pi); [lia|]. exists i. split; [lia|exact Pi].
Qed.
Lemma count_zero n s : count n s = O -> forall i, (i < n)%nat -> s i <= 0.
Proof.
  induction n as [|n IH]; simpl; intros H i Hi; [lia|]. destruct (Rlt_dec 0 (s n)) as [P|P]; [lia|].
  destruct (Nat.eq_dec i n) as [->|D]; [lra|]. apply IH; lia.
Qed.
Lemma count_mono n s s' : (forall i, (i < n)%nat -> 0 < s' i -> 0 < s i) -> (count n s' <= count n s)%nat.
Proof.
  induction n as [|n IH]; simpl; intros H; [lia|]. specialize (IH (fun i Hi => H i (Nat.lt_lt_succ_r _ _ Hi))).
  destruct (Rlt_dec 0 (s' n)) as [P|P], (Rlt_dec 0 (s n)) as [Q|Q]; try lia. elim Q. apply H; [lia|exact P].
Qed.
Lemma count_less n s s' i : (i < n)%nat -> 0 < s i -> s' i <= 0 -> (forall i, (i < n)%nat -> 0 < s' i -> 0 < s i) -> (count n s' < count n s)%nat.
Proof.
  induction n as [|n IH]; simpl; intros Hi P Z H; [lia|]. destruct (Nat.eq_dec i n) as [->|D].
  - destruct (Rlt_dec 0 (s' n)) as [Q|Q]; [lra|]. destruct (Rlt_dec 0 (s n)) as [Q'|Q']; [|lra].
    generalize (count_mono n s s' (fun i Hi => H i (Nat.lt_lt_succ_r _ _ Hi))). lia.
  - assert (L : (count n s' < count n s)%nat) by (apply IH; auto; lia).
    destruct (Rlt_dec 0 (s' n)) as [Q|Q], (Rlt_dec 0 (s n)) as [Q'|Q']; try lia. elim Q'. apply H; [lia|exact Q].
Qed.
(** The least positive value. *)
Lemma least_pos n s : count n s <> O -> exists i, (i < n)%nat /\ 0 < s i /\ forall j, (j < n)%nat -> 0 < s j -> s i <= s j.
Proof.
  induction n as [|n IH]; simpl; intros H; [congruence|].
  destruct (Nat.eq_dec (count n s) 0) as [Z|Z].
  - destruct (Rlt_dec 0 (s n)) as [P|P]; [|lia]. exists n. split; [lia|]. split; [exact P|]. intros j Hj Pj.
    destruct (Nat.eq_dec j n) as [->|D]; [lra|]. generalize (count_zero n s Z j ltac:(lia)). lra.
  - destruct (IH Z) as (i & Hi & Pi & M). destruct (Rlt_dec 0 (s n)) as [P|P].
    + destruct (Rle_dec (s i) (s n)) as [Q|Q].
      * exists i. split; [lia|]. split; [exact Pi|]. intros j Hj Pj. destruct (Nat.eq_dec j n) as [->|D]; [exact Q|]. apply M; [lia|exact Pj].
      * exists n. split; [lia|]. split; [exact P|]. intros j Hj Pj. destruct (Nat.eq_dec j n) as [->|D]; [lra|].
        generalize (M j ltac:(lia) Pj). lra.
    + exists i. split; [lia|]. split; [exact Pi|]. intros j Hj Pj. destruct (Nat.eq_dec j n) as [->|D]; [lra|]. apply M; [lia|exact Pj].
Qed.
Lemma schur_min n : forall k s, (count n s <= k)%nat -> (forall i, (i < n)%nat -> 0 <= s i) -> schur n (fun i j => Rmin (s i) (s j)).
Proof.
  induction k as [|k IH]; intros s C P.
  - apply (schur_ext n (fun i j => 0 * 1)).
    + intros i j Hi Hj. assert (E : forall i, (i < n)%nat -> s i = 0).
      { intros a Ha. generalize (P a Ha) (count_zero n s ltac:(lia) a Ha). lra. }
      rewrite (E i Hi), (E j Hj), Rmin_left by lra. ring.
    + apply (schur_scal n 0 (fun _ _ => 1)); [lra|apply schur_one].
  - destruct (Nat.eq_dec (count n s) 0) as [Z|Z]; [apply IH; [lia|exact P]|].
    destruct (least_pos n s Z) as (a & Ha & Pa & M).
    set (e := fun i => if Rlt_dec 0 (s i) then 1 else 0). set (s' := fun i => if Rlt_dec 0 (s i) then s i - s a else 0).
    apply (schur_ext n (fun i j => s a * (e i * e j) + Rmin (s' i) (s' j))).
    + intros i j Hi Hj. unfold e, s'. generalize (P i Hi) (P j Hj) (M i Hi) (M j Hj). intros Pi Pj Mi Mj.
      destruct (Rlt_dec 0 (s i)) as [Qi|Qi], (Rlt_dec 0 (s j)) as [Qj|Qj]; try specialize (Mi Qi); try specialize (Mj Qj);
      unfold Rmin; repeat destruct (Rle_dec _ _); lra.
    + apply (schur_plus n (fun i j => s a * (e i * e j)) (fun i j => Rmin (s' i) (s' j))).
      * apply (schur_scal n (s a) (fun i j => e i * e j)); [lra|]. apply schur_rank1.
      * apply IH.
        -- assert (L : (count n s' < count n s)%nat); [|lia]. apply (count_less n s s' a Ha Pa).
           ++ unfold s'. destruct (Rlt_dec 0 (s a)); lra.
           ++ intros i Hi. unfold s'. destruct (Rlt_dec 0 (s i)); lra.
        -- intros i Hi. unfold s'. destruct (Rlt_dec 0 (s i)) as [Q|Q]; [|lra]. generalize (M i Hi Q). lra.
Qed.
Lemma schur_absexp n (a : R) (x : vec) : 0 <= a -> schur n (fun i j => exp (- (a * Rabs (x i - x j)))).
Proof.
  intros A. apply (schur_ext n (fun i j => exp (- (a * x i)) * exp (- (a * x j)) * Rmin (exp (2 * (a * x i))) (exp (2 * (a * x j))))).
  - intros i j _ _. unfold Rabs. destruct (Rcase_abs (x i - x j)) as [D|D].
    + rewrite Rmin_left.
      * rewrite <- !exp_plus. f_equal. ring.
      * destruct (Rle_lt_or_eq_dec 0 a A) as [A'|<-]; [|rewrite !Rmult_0_l; lra]. left. apply exp_increasing.
        apply Rmult_lt_compat_l; [lra|]. apply Rmult_lt_compat_l; lra.
    + rewrite Rmin_right.
      * rewrite <- !exp_plus. f_equal. ring.
      * destruct (Req_dec (a * x i) (a * x j)) as [->|N]; [lra|]. left. apply exp_increasing.
        assert (a * x j <= a * x i) by (apply Rmult_le_compat_l; lra). lra.
  - apply (schur_mult n (fun i j => exp (- (a * x i)) * exp (- (a * x j))) (fun i j => Rmin (exp (2 * (a * x i))) (exp (2 * (a * x j))))).
    + apply (schur_rank1 n (fun i => exp (- (a * x i)))).
    + apply (schur_min n (count n (fun i => exp (2 * (a * x i)))) (fun i => exp (2 * (a * x i)))); [lia|].
      intros i _. left. apply exp_pos.
Qed.

(** ** Integrals *)
Lemma cont_sumn n (f : nat -> R -> R) t : (forall i, (i < n)%nat -> continuous (f i) t) -> continuous (fun t => sumn n (fun i => f i t)) t.
Proof.
  induction n as [|n IH]; intros H; simpl; [apply continuous_const|].
  apply (continuous_plus (V := R_NormedModule) (fun t => sumn n (fun i => f i t)) (f n)); [apply IH; intros; apply H; lia|apply H; lia].
Qed.
Lemma RInt_sumn n (f : nat -> R -> R) a b : (forall i, (i < n)%nat -> ex_RInt (f i) a b) ->
  is_RInt (fun t => sumn n (fun i => f i t)) a b (sumn n (fun i => RInt (f i) a b)).
Proof.
  induction n as [|n IH]; intros H; simpl.
  - assert (E : is_RInt (fun _ : R => 0) a b (scal (b - a) 0)) by apply (is_RInt_const (V := R_NormedModule)).
    change (scal (b - a) 0) with ((b - a) * 0) in E. rewrite Rmult_0_r in E. exact E.
  - apply (is_RInt_plus (V := R_NormedModule) (fun t => sumn n (fun i => f i t)) (f n)); [apply IH; intros; apply H; lia|].
    apply (RInt_correct (V := R_CompleteNormedModule)), H. lia.
Qed.
Lemma schur_int n (f : nat -> R -> R) a b : a <= b -> (forall i t, (i < n)%nat -> continuous (f i) t) ->
  schur n (fun i j => RInt (fun t => f i t * f j t) a b).
Proof.
  intros Hab C K2 P c. rewrite quad_sum.
  assert (Cij : forall i j t, (i < n)%nat -> (j < n)%nat -> continuous (fun t => f i t * f j t) t).
  { intros i j t Hi Hj. apply (continuous_mult (K := R_AbsRing) (f i) (f j)); now apply C. }
  assert (X : forall i j, (i < n)%nat -> (j < n)%nat -> ex_RInt (fun t => f i t * f j t) a b).
  { intros i j Hi Hj. apply (ex_RInt_continuous (V := R_CompleteNormedModule)). intros t _. now apply Cij. }
  set (g := fun i j t => c i * c j * K2 i j * (f i t * f j t)).
  assert (Xg : forall i j, (i < n)%nat -> (j < n)%nat -> is_RInt (g i j) a b (c i * c j * K2 i j * RInt (fun t => f i t * f j t) a b)).
  { intros i j Hi Hj. apply (is_RInt_scal (V := R_NormedModule) (fun t => f i t * f j t) a b (c i * c j * K2 i j)).
    apply (RInt_correct (V := R_CompleteNormedModule)). now apply X. }
  assert (Xs : forall i, (i < n)%nat -> is_RInt (fun t => sumn n (fun j => g i j t)) a b (sumn n (fun j => c i * c j * K2 i j * RInt (fun t => f i t * f j t) a b))).
  { intros i Hi. erewrite sumn_ext; [apply (RInt_sumn n (g i) a b); intros j Hj; eexists; now apply Xg|].
    intros j Hj. cbv beta. symmetry. apply is_RInt_unique. now apply Xg. }
  assert (I : is_RInt (fun t => sumn n (fun i => sumn n (fun j => g i j t))) a b
                (sumn n (fun i => sumn n (fun j => c i * c j * K2 i j * RInt (fun t => f i t * f j t) a b)))).
  { erewrite (sumn_ext n (fun i => sumn n (fun j => c i * c j * K2 i j * RInt (fun t => f i t * f j t) a b))).
    - apply (RInt_sumn n (fun i t => sumn n (fun j => g i j t)) a b). intros i Hi. eexists. now apply Xs.
    - intros i Hi. cbv beta. symmetry. apply is_RInt_unique. now apply Xs. }
  replace (sumn n (fun i => sumn n (fun j => c i * c j * (RInt (fun t => f i t * f j t) a b * K2 i j))))
    with (RInt (fun t => sumn n (fun i => sumn n (fun j => g i j t))) a b).
  2:{ rewrite (is_RInt_unique _ _ _ _ I). apply sumn_ext. intros i Hi. apply sumn_ext. intros j Hj. ring. }
  apply RInt_ge_0; [exact Hab|eexists; exact I|].
  intros t _. specialize (P (fun i => c i * f i t)). rewrite quad_sum in P.
  erewrite sumn_ext; [exact P|]. intros i Hi. apply sumn_ext. intros j Hj. unfold g. ring.
Qed.

(** ** Matérn *)
Definition pos (u : R) : R := (u + Rabs u) / 2.
Lemma pos_nonneg u : 0 <= u -> pos u = u.
Proof. intros H. unfold pos. rewrite Rabs_pos_eq by exact H. field. Qed.
Lemma pos_nonpos u : u <= 0 -> pos u = 0.
Proof. intros H. unfold pos. rewrite Rabs_left1 by exact H. field. Qed.
Lemma cont_pos u : continuous pos u.
Proof.
  unfold pos. apply (continuous_scal_l (K := R_AbsRing) (V := R_NormedModule) (fun u => u + Rabs u) (/ 2)).
  apply (continuous_plus (V := R_NormedModule) (fun u => u) Rabs); [apply continuous_id|apply continuous_Rabs].
Qed.
Lemma bounds_of n (x : vec) : exists L U, L <= U /\ forall i, (i < n)%nat -> L <= x i <= U.
Proof.
  induction n as [|n (L & U & H & B)]; [exists 0, 0; split; [lra|intros; lia]|].
  exists (Rmin L (x n)), (Rmax U (x n)). generalize (Rmin_l L (x n)) (Rmin_r L (x n)) (Rmax_l U (x n)) (Rmax_r U (x n)). intros.
  split; [lra|]. intros i Hi. destruct (Nat.eq_dec i n) as [->|D]; [lra|]. specialize (B i ltac:(lia)). lra.
Qed.
(** The integral of phi(x - t) phi(y - t), phi (u) = pos u ^ k e^{-bu}, over an interval around x and y. *)
Lemma int_pos b k (x y L U : R) (G : R -> R) : L <= x <= U -> L <= y <= U -> (0 < k)%nat ->
  (forall t, is_derive G t ((x - t) ^ k * exp (- (b * (x - t))) * ((y - t) ^ k * exp (- (b * (y - t)))))) ->
  RInt (fun t => pos (x - t) ^ k * exp (- (b * (x - t))) * (pos (y - t) ^ k * exp (- (b * (y - t))))) L U = G (Rmin x y) - G L.
Proof.
  intros Hx Hy Hk D. apply is_RInt_unique. set (m := Rmin x y).
  assert (Hm : L <= m <= U /\ m <= x /\ m <= y /\ (m = x \/ m = y)).
  { unfold m, Rmin. destruct (Rle_dec x y); lra. }
  assert (Ez : G m - G L = G m - G L + 0) by ring. rewrite Ez. change (G m - G L + 0) with (plus (G m - G L) 0).
  apply (is_RInt_Chasles (V := R_NormedModule)) with m.
  - apply (is_RInt_ext (fun t => (x - t) ^ k * exp (- (b * (x - t))) * ((y - t) ^ k * exp (- (b * (y - t)))))).
    + intros t Ht. rewrite Rmin_left, Rmax_right in Ht by lra. rewrite !pos_nonneg by lra. reflexivity.
    + apply (is_RInt_derive (V := R_CompleteNormedModule) G); [intros t _; apply D|].
      intros t _. apply (ex_derive_continuous (V := R_NormedModule)). auto_derive; exact I.
  - apply (is_RInt_ext (fun _ => 0)).
    + intros t Ht. rewrite Rmin_left, Rmax_right in Ht by lra.
      assert (E : pos (x - t) = 0 \/ pos (y - t) = 0) by (destruct Hm as (_ & _ & _ & [Em|Em]); [left|right]; apply pos_nonpos; lra).
      destruct E as [-> | ->]; rewrite (pow_i k Hk); match goal with |- ?a = ?b => change (@eq R a b) end; ring.
    + assert (E : is_RInt (fun _ : R => 0) m U (scal (U - m) 0)) by apply (is_RInt_const (V := R_NormedModule)).
      change (scal (U - m) 0) with ((U - m) * 0) in E. rewrite Rmult_0_r in E. exact E.
Qed.
Lemma cont_phi b k x t : continuous (fun t => pos (x - t) ^ k * exp (- (b * (x - t)))) t.
Proof.
  apply (continuous_mult (K := R_AbsRing) (fun t => pos (x - t) ^ k) (fun t => exp (- (b * (x - t))))).
  - induction k as [|k IH]; simpl; [apply continuous_const|].
    apply (continuous_mult (K := R_AbsRing) (fun t => pos (x - t)) (fun t => pos (x - t) ^ k)); [|exact IH].
    apply (continuous_comp (fun t => x - t) pos); [|apply cont_pos].
    apply (ex_derive_continuous (V := R_NormedModule)). auto_derive; exact I.
  - apply (ex_derive_continuous (V := R_NormedModule)). auto_derive; exact I.
Qed.
Lemma schur_matern32 n (b : R) (x : vec) : 0 <= b -> schur n (fun i j => (1 + b * Rabs (x i - x j)) * exp (- (b * Rabs (x i - x j)))).
Proof.
  intros Hb. destruct (Rle_lt_or_eq_dec 0 b Hb) as [B| <-].
  2:{ apply (schur_ext n (fun _ _ => 1)); [|apply schur_one]. intros. rewrite !Rmult_0_l, Ropp_0, exp_0. ring. }
  destruct (bounds_of n x) as (L & U & LU & Bd).
  set (G := fun x y t => ((x - t) * (y - t) / (2 * b) + ((x - t) + (y - t)) / (4 * (b * b)) + 1 / (4 * (b * b * b))) * exp (- (b * (x - t)) + - (b * (y - t)))).
  set (e := fun i => exp (- (b * (x i - L)))).
  apply (schur_ext n (fun i j => (4 * (b * b * b)) *
    (RInt (fun t => pos (x i - t) ^ 1 * exp (- (b * (x i - t))) * (pos (x j - t) ^ 1 * exp (- (b * (x j - t))))) L U
     + ((1 / (2 * b)) * (((x i - L + 1 / (2 * b)) * e i) * ((x j - L + 1 / (2 * b)) * e j)) + 1 / (8 * (b * b * b)) * (e i * e j))))).
  - intros i j Hi Hj. rewrite (int_pos b 1 (x i) (x j) L U (G (x i) (x j)) (Bd i Hi) (Bd j Hj) ltac:(lia)).
    + replace (1 / (2 * b) * ((x i - L + 1 / (2 * b)) * e i * ((x j - L + 1 / (2 * b)) * e j)) + 1 / (8 * (b * b * b)) * (e i * e j)) with (G (x i) (x j) L).
      2:{ unfold G, e. rewrite exp_plus. field. lra. }
      replace (4 * (b * b * b) * (G (x i) (x j) (Rmin (x i) (x j)) - G (x i) (x j) L + G (x i) (x j) L)) with (4 * (b * b * b) * G (x i) (x j) (Rmin (x i) (x j))) by ring.
      unfold G, Rmin, Rabs. destruct (Rle_dec (x i) (x j)), (Rcase_abs (x i - x j)); try lra.
      * replace (- (b * (x i - x i)) + - (b * (x j - x i))) with (- (b * - (x i - x j))) by ring. field. lra.
      * replace (x j) with (x i) by lra. replace (- (b * (x i - x i)) + - (b * (x i - x i))) with (- (b * (x i - x i))) by ring. field. lra.
      * replace (- (b * (x i - x j)) + - (b * (x j - x j))) with (- (b * (x i - x j))) by ring. field. lra.
    + intros t. unfold G. auto_derive; [exact I|]. rewrite !exp_plus. unfold Rminus. field. lra.
  - assert (P : 0 < b * b * b) by (apply Rmult_lt_0_compat; [apply Rmult_lt_0_compat|]; exact B).
    apply schur_scal; [lra|].
    apply (schur_plus n (fun i j => RInt (fun t => pos (x i - t) ^ 1 * exp (- (b * (x i - t))) * (pos (x j - t) ^ 1 * exp (- (b * (x j - t))))) L U)
      (fun i j => 1 / (2 * b) * ((x i - L + 1 / (2 * b)) * e i * ((x j - L + 1 / (2 * b)) * e j)) + 1 / (8 * (b * b * b)) * (e i * e j))).
    + apply (schur_int n (fun i t => pos (x i - t) ^ 1 * exp (- (b * (x i - t)))) L U LU). intros; apply cont_phi.
    + apply (schur_plus n (fun i j => 1 / (2 * b) * ((x i - L + 1 / (2 * b)) * e i * ((x j - L + 1 / (2 * b)) * e j))) (fun i j => 1 / (8 * (b * b * b)) * (e i * e j))).
      * apply schur_scal; [apply Rlt_le, Rdiv_lt_0_compat; lra|]. apply (schur_rank1 n (fun i => (x i - L + 1 / (2 * b)) * e i)).
      * apply schur_scal; [apply Rlt_le, Rdiv_lt_0_compat; lra|]. apply (schur_rank1 n e).
Qed.
Lemma schur_matern52 n (b : R) (x : vec) : 0 <= b ->
  schur n (fun i j => (1 + b * Rabs (x i - x j) + b * b * (Rabs (x i - x j) * Rabs (x i - x j)) / 3) * exp (- (b * Rabs (x i - x j)))).
Proof.
  intros Hb. destruct (Rle_lt_or_eq_dec 0 b Hb) as [B| <-].
  2:{ apply (schur_ext n (fun _ _ => 1)); [|apply schur_one]. intros. rewrite !Rmult_0_l, Ropp_0, exp_0. field. }
  destruct (bounds_of n x) as (L & U & LU & Bd). set (q := 1 / (2 * b)). assert (Q : 0 < q) by (apply Rdiv_lt_0_compat; lra).
  assert (Eb : b = 1 / (2 * q)) by (unfold q; field; lra). clearbody q.
  set (p := fun u v => q * (u * u * (v * v)) + 2 * (q * q) * (u * u * v + u * (v * v)) + 2 * (q * q * q) * (u * u + 4 * (u * v) + v * v)
                       + 12 * (q * q * q * q) * (u + v) + 24 * (q * q * q * q * q)).
  set (G := fun x y t => p (x - t) (y - t) * exp (- (b * (x - t)) + - (b * (y - t)))).
  set (e := fun i => exp (- (b * (x i - L)))).
  set (u1 := fun i => ((x i - L) * (x i - L) + 2 * q * (x i - L) + 2 * (q * q)) * e i).
  set (u2 := fun i => (2 * q * (x i - L) + 4 * (q * q)) * e i). set (u3 := fun i => q * q * e i).
  set (I2 := fun i j => RInt (fun t => pos (x i - t) ^ 2 * exp (- (b * (x i - t))) * (pos (x j - t) ^ 2 * exp (- (b * (x j - t))))) L U).
  apply (schur_ext n (fun i j => (1 / (24 * (q * q * q * q * q))) * (I2 i j + q * (u1 i * u1 j + (u2 i * u2 j + 4 * (u3 i * u3 j)))))).
  - intros i j Hi Hj. unfold I2. rewrite (int_pos b 2 (x i) (x j) L U (G (x i) (x j)) (Bd i Hi) (Bd j Hj) ltac:(lia)).
    + replace (q * (u1 i * u1 j + (u2 i * u2 j + 4 * (u3 i * u3 j)))) with (G (x i) (x j) L).
      2:{ unfold G, p, u1, u2, u3, e. rewrite exp_plus. ring. }
      replace (G (x i) (x j) (Rmin (x i) (x j)) - G (x i) (x j) L + G (x i) (x j) L) with (G (x i) (x j) (Rmin (x i) (x j))) by ring.
      unfold G, p, Rmin, Rabs. destruct (Rle_dec (x i) (x j)), (Rcase_abs (x i - x j)); try lra.
      * replace (- (b * (x i - x i)) + - (b * (x j - x i))) with (- (b * - (x i - x j))) by ring.
        generalize (exp (- (b * - (x i - x j)))). intros E. rewrite Eb. field. lra.
      * replace (x j) with (x i) by lra. replace (- (b * (x i - x i)) + - (b * (x i - x i))) with (- (b * (x i - x i))) by ring.
        generalize (exp (- (b * (x i - x i)))). intros E. rewrite Eb. field. lra.
      * replace (- (b * (x i - x j)) + - (b * (x j - x j))) with (- (b * (x i - x j))) by ring.
        generalize (exp (- (b * (x i - x j)))). intros E. rewrite Eb. field. lra.
    + intros t. unfold G, p. auto_derive; [exact I|]. rewrite !exp_plus. unfold Rminus.
      generalize (exp (- (b * (x i + - t)))) (exp (- (b * (x j + - t)))). intros E1 E2. rewrite Eb. field. lra.
  - assert (P : 0 < q * q * q * q * q) by (repeat apply Rmult_lt_0_compat; exact Q).
    apply schur_scal; [apply Rlt_le, Rdiv_lt_0_compat; lra|].
    apply (schur_plus n I2 (fun i j => q * (u1 i * u1 j + (u2 i * u2 j + 4 * (u3 i * u3 j))))).
    + apply (schur_int n (fun i t => pos (x i - t) ^ 2 * exp (- (b * (x i - t)))) L U LU). intros; apply cont_phi.
    + apply (schur_scal n q (fun i j => u1 i * u1 j + (u2 i * u2 j + 4 * (u3 i * u3 j)))); [lra|].
      apply (schur_plus n (fun i j => u1 i * u1 j) (fun i j => u2 i * u2 j + 4 * (u3 i * u3 j))); [apply schur_rank1|].
      apply (schur_plus n (fun i j => u2 i * u2 j) (fun i j => 4 * (u3 i * u3 j))); [apply schur_rank1|].
      apply (schur_scal n 4 (fun i j => u3 i * u3 j)); [lra|apply schur_rank1].
Qed.

(** ** The kernels of the library *)
Lemma schur_profile n ck (a : R) (x : vec) : 0 <= a -> schur n (fun i j => profile ck (a * Rabs (x i - x j))).
Proof.
  intros A. destruct ck; cbn [profile].
  - apply (schur_ext n (fun i j => exp (- (a * Rabs (x i - x j) * (a * Rabs (x i - x j))) / 2))); [|apply schur_gauss].
    intros; f_equal; field.
  - now apply schur_absexp.
  - apply (schur_ext n (fun i j => (1 + sqrt 3 * a * Rabs (x i - x j)) * exp (- (sqrt 3 * a * Rabs (x i - x j))))).
    + intros i j _ _. f_equal; [|f_equal]; ring.
    + apply schur_matern32. apply Rmult_le_pos; [apply sqrt_pos|exact A].
  - apply (schur_ext n (fun i j => (1 + sqrt 5 * a * Rabs (x i - x j) + sqrt 5 * a * (sqrt 5 * a) * (Rabs (x i - x j) * Rabs (x i - x j)) / 3) * exp (- (sqrt 5 * a * Rabs (x i - x j))))).
    + intros i j _ _. f_equal; [|f_equal; ring].
      replace (sqrt 5 * a * (sqrt 5 * a)) with (sqrt 5 * sqrt 5 * (a * a)) by ring. rewrite sqrt_sqrt by lra. field.
    + apply schur_matern52. apply Rmult_le_pos; [apply sqrt_pos|exact A].
Qed.
Lemma schur_kernel n ck nx h theta w (x : mat) : (forall l, (l < h)%nat -> 0 <= theta l) ->
  schur n (fun i j => documented_kernel ck nx h theta w (fun a => x i a - x j a)).
Proof.
  intros T. unfold documented_kernel.
  apply (schur_prod n (fun a i j => prodn h (fun l => profile ck (theta l * Rabs (w a l * (x i a - x j a))))) nx). intros a _.
  apply (schur_prod n (fun l i j => profile ck (theta l * Rabs (w a l * (x i a - x j a)))) h). intros l Hl.
  apply (schur_ext n (fun i j => profile ck (theta l * Rabs (w a l * x i a - w a l * x j a)))).
  - intros. do 3 f_equal. ring.
  - apply (schur_profile n ck (theta l) (fun i => w a l * x i a)). now apply T.
Qed.
Lemma psd_kernel n ck nx h theta w (x : mat) : (forall l, (l < h)%nat -> 0 <= theta l) ->
  psd n (fun i j => documented_kernel ck nx h theta w (fun a => x i a - x j a)).
Proof. intros T. now apply schur_psd, schur_kernel. Qed.
