(** Real vectors and matrices as functions on indexes, finite sums and partial derivatives.
    An array of shape (n,) is a function of which only the values at indexes below n are used. *)
From Coq Require Import Reals Lra Lia Arith.
From Coquelicot Require Import Coquelicot.
From Coq Require Import List.
Local Open Scope R_scope.

(** Sum of f over the indexes below n, accumulated from the first index. *)
Fixpoint sumn (n : nat) (f : nat -> R) : R :=
  match n with O => 0 | S m => sumn m f + f m end.

(** Product of f over the indexes below n. *)
Fixpoint prodn (n : nat) (f : nat -> R) : R := match n with O => 1 | S m => prodn m f * f m end.

(** The point x with component j replaced by t. *)
Definition upd (x : nat -> R) (j : nat) (t : R) : nat -> R :=
  fun i => if Nat.eqb i j then t else x i.

(** l is the partial derivative of f at x with respect to component j. *)
Definition partial (f : (nat -> R) -> R) (x : nat -> R) (j : nat) (l : R) : Prop :=
  is_derive (fun t => f (upd x j t)) (x j) l.

(** ** Finite sums *)
Lemma sumn_ext n f g : (forall i, (i < n)%nat -> f i = g i) -> sumn n f = sumn n g.
Proof.
  induction n as [|n IH]; intros H; cbn [sumn]; [reflexivity|].
  rewrite IH by (intros; apply H; lia). rewrite (H n) by lia. reflexivity.
Qed.
Lemma sumn_plus n f g : sumn n (fun i => f i + g i) = sumn n f + sumn n g.
Proof. induction n as [|n IH]; cbn [sumn]; [lra|]. rewrite IH. lra. Qed.
Lemma sumn_minus n f g : sumn n (fun i => f i - g i) = sumn n f - sumn n g.
Proof. induction n as [|n IH]; cbn [sumn]; [lra|]. rewrite IH. lra. Qed.
Lemma sumn_scal_l n c f : sumn n (fun i => c * f i) = c * sumn n f.
Proof. induction n as [|n IH]; cbn [sumn]; [lra|]. rewrite IH. lra. Qed.
Lemma sumn_scal_r n c f : sumn n (fun i => f i * c) = sumn n f * c.
Proof. induction n as [|n IH]; cbn [sumn]; [lra|]. rewrite IH. lra. Qed.
Lemma sumn_div n c f : sumn n (fun i => f i / c) = sumn n f / c.
Proof. unfold Rdiv. apply sumn_scal_r. Qed.
Lemma sumn_opp n f : sumn n (fun i => - f i) = - sumn n f.
Proof. induction n as [|n IH]; cbn [sumn]; [lra|]. rewrite IH. lra. Qed.
Lemma sumn_0 n : sumn n (fun _ => 0) = 0.
Proof. induction n as [|n IH]; cbn [sumn]; lra. Qed.
Lemma sumn_zero n f : (forall i, (i < n)%nat -> f i = 0) -> sumn n f = 0.
Proof. intros H. rewrite (sumn_ext n f (fun _ => 0)) by exact H. apply sumn_0. Qed.
Lemma sumn_const n c : sumn n (fun _ => c) = INR n * c.
Proof. induction n as [|n IH]; [simpl; lra|]. cbn [sumn]. rewrite IH, S_INR. lra. Qed.
Lemma sumn_le n f g : (forall i, (i < n)%nat -> f i <= g i) -> sumn n f <= sumn n g.
Proof.
  induction n as [|n IH]; intros H; cbn [sumn]; [lra|].
  apply Rplus_le_compat; [apply IH; intros; apply H; lia|apply H; lia].
Qed.
Lemma sumn_nonneg n f : (forall i, (i < n)%nat -> 0 <= f i) -> 0 <= sumn n f.
Proof. intros H. rewrite <- (sumn_0 n). now apply sumn_le. Qed.
Lemma sumn_lt n f g : (forall i, (i < n)%nat -> f i <= g i) ->
  (exists i, (i < n)%nat /\ f i < g i) -> sumn n f < sumn n g.
Proof.
  induction n as [|n IH]; intros H [i [Hi L]]; [lia|]. cbn [sumn].
  destruct (Nat.eq_dec i n) as [->|N].
  - apply Rplus_le_lt_compat; [apply sumn_le; intros; apply H; lia|exact L].
  - apply Rplus_lt_le_compat; [apply IH; [intros; apply H; lia|exists i; split; [lia|exact L]]|apply H; lia].
Qed.
Lemma sumn_pos n f : (0 < n)%nat -> (forall i, (i < n)%nat -> 0 < f i) -> 0 < sumn n f.
Proof.
  intros N H. rewrite <- (sumn_0 n). apply sumn_lt.
  - intros; left; now apply H.
  - exists 0%nat. split; [exact N|now apply H].
Qed.
Lemma sumn_term n f i : (forall i, (i < n)%nat -> 0 <= f i) -> (i < n)%nat -> f i <= sumn n f.
Proof.
  induction n as [|n IH]; intros H Hi; [lia|]. cbn [sumn].
  assert (0 <= sumn n f) by (apply sumn_nonneg; intros; apply H; lia).
  destruct (Nat.eq_dec i n) as [->|N]; [lra|].
  assert (f i <= sumn n f) by (apply IH; [intros; apply H; lia|lia]).
  assert (0 <= f n) by (apply H; lia). lra.
Qed.
Lemma sumn_swap n m (f : nat -> nat -> R) :
  sumn n (fun i => sumn m (fun j => f i j)) = sumn m (fun j => sumn n (fun i => f i j)).
Proof.
  induction n as [|n IH]; cbn [sumn].
  - symmetry. apply sumn_0.
  - rewrite IH. symmetry. apply sumn_plus.
Qed.
Lemma sumn_only n f i : (i < n)%nat -> (forall j, (j < n)%nat -> j <> i -> f j = 0) -> sumn n f = f i.
Proof.
  induction n as [|n IH]; intros Hi H; [lia|]. cbn [sumn].
  destruct (Nat.eq_dec i n) as [->|N].
  - rewrite sumn_zero; [lra|]. intros j Hj. apply H; lia.
  - rewrite IH by (try lia; intros; apply H; lia). rewrite (H n) by lia. lra.
Qed.
Lemma sumn_S n f : sumn (S n) f = f 0%nat + sumn n (fun i => f (S i)).
Proof. induction n as [|n IH]; [cbn; lra|]. cbn [sumn] in *. rewrite IH. lra. Qed.

(** ** Finite products *)
Lemma exp_sumn n f : exp (sumn n f) = prodn n (fun i => exp (f i)).
Proof. induction n as [|n IH]; cbn [sumn prodn]; [apply exp_0|]. rewrite exp_plus, IH. reflexivity. Qed.
Lemma prodn_ext n f g : (forall i, (i < n)%nat -> f i = g i) -> prodn n f = prodn n g.
Proof.
  induction n as [|n IH]; intros H; cbn [prodn]; [reflexivity|].
  rewrite IH by (intros; apply H; lia). rewrite (H n) by lia. reflexivity.
Qed.
Lemma prodn_pos n f : (forall i, (i < n)%nat -> 0 < f i) -> 0 < prodn n f.
Proof.
  induction n as [|n IH]; intros H; cbn [prodn]; [lra|].
  apply Rmult_lt_0_compat; [apply IH; intros; apply H; lia|apply H; lia].
Qed.
Lemma prodn_mult n f g : prodn n (fun i => f i * g i) = prodn n f * prodn n g.
Proof. induction n as [|n IH]; cbn [prodn]; [lra|]. rewrite IH. ring. Qed.
Lemma prodn_1 n f : (forall i, (i < n)%nat -> f i = 1) -> prodn n f = 1.
Proof.
  induction n as [|n IH]; intros H; cbn [prodn]; [reflexivity|].
  rewrite IH by (intros; apply H; lia). rewrite (H n) by lia. ring.
Qed.
Lemma prodn_le1 n f : (forall i, (i < n)%nat -> 0 < f i <= 1) -> prodn n f <= 1.
Proof.
  induction n as [|n IH]; intros H; cbn [prodn]; [lra|].
  assert (A : prodn n f <= 1) by (apply IH; intros; apply H; lia).
  assert (B : 0 < prodn n f) by (apply prodn_pos; intros; apply H; lia).
  assert (C : 0 < f n <= 1) by (apply H; lia).
  apply Rle_trans with (1 * 1); [apply Rmult_le_compat; lra|lra].
Qed.
(** Taking one factor out. *)
Lemma prodn_out n f i : (i < n)%nat -> prodn n f = f i * prodn n (fun k => if Nat.eqb k i then 1 else f k).
Proof.
  induction n as [|n IH]; intros Hi; [lia|]. cbn [prodn]. destruct (Nat.eqb_spec n i) as [->|N].
  - rewrite (prodn_ext i (fun k => if Nat.eqb k i then 1 else f k) f); [ring|].
    intros k Hk. destruct (Nat.eqb_spec k i); [lia|reflexivity].
  - rewrite IH by lia. ring.
Qed.

(** ** Updates *)
Lemma upd_same x j t : upd x j t j = t.
Proof. unfold upd. now rewrite Nat.eqb_refl. Qed.
Lemma upd_other x j t i : i <> j -> upd x j t i = x i.
Proof. intros. unfold upd. destruct (Nat.eqb_spec i j); congruence. Qed.
Lemma upd_id x j i : upd x j (x j) i = x i.
Proof. unfold upd. destruct (Nat.eqb_spec i j); congruence. Qed.

(** ** Partial derivatives *)
Lemma derive_eq (f : R -> R) (x l m : R) : is_derive f x l -> l = m -> is_derive f x m.
Proof. now intros H <-. Qed.
Lemma derive_ext (f g : R -> R) (x l : R) : (forall t, f t = g t) -> is_derive f x l -> is_derive g x l.
Proof. intros E. now apply is_derive_ext. Qed.
Lemma derive_const (c x : R) : is_derive (fun _ : R => c) x 0.
Proof. exact (is_derive_const c x). Qed.
Lemma derive_id (x : R) : is_derive (fun t : R => t) x 1.
Proof. exact (is_derive_id x). Qed.
Lemma derive_plus (f g : R -> R) (x a b : R) : is_derive f x a -> is_derive g x b -> is_derive (fun t => f t + g t) x (a + b).
Proof. exact (is_derive_plus f g x a b). Qed.
Lemma derive_minus (f g : R -> R) (x a b : R) : is_derive f x a -> is_derive g x b -> is_derive (fun t => f t - g t) x (a - b).
Proof. exact (is_derive_minus f g x a b). Qed.
Lemma derive_opp (f : R -> R) (x a : R) : is_derive f x a -> is_derive (fun t => - f t) x (- a).
Proof. exact (is_derive_opp f x a). Qed.
Lemma derive_mult (f g : R -> R) (x a b : R) : is_derive f x a -> is_derive g x b ->
  is_derive (fun t => f t * g t) x (a * g x + f x * b).
Proof. intros Ha Hb. apply (is_derive_mult f g x a b Ha Hb). intros; apply Rmult_comm. Qed.
Lemma derive_scal_l (f : R -> R) (x c a : R) : is_derive f x a -> is_derive (fun t => c * f t) x (c * a).
Proof. intros H. eapply derive_eq; [apply derive_mult; [apply derive_const|exact H]|]. lra. Qed.
Lemma derive_scal_r (f : R -> R) (x c a : R) : is_derive f x a -> is_derive (fun t => f t * c) x (a * c).
Proof. intros H. eapply derive_eq; [apply derive_mult; [exact H|apply derive_const]|]. lra. Qed.
Lemma derive_div (f g : R -> R) (x a b : R) : is_derive f x a -> is_derive g x b -> g x <> 0 ->
  is_derive (fun t => f t / g t) x ((a * g x - f x * b) / (g x * g x)).
Proof.
  intros Ha Hb N. eapply derive_eq; [apply (is_derive_div f g x a b Ha Hb N)|].
  replace (g x ^ 2) with (g x * g x) by ring. reflexivity.
Qed.
Lemma derive_comp (f g : R -> R) (x a b : R) : is_derive g x b -> is_derive f (g x) a ->
  is_derive (fun t => f (g t)) x (b * a).
Proof. intros Hb Ha. exact (is_derive_comp f g x a b Ha Hb). Qed.
Lemma derive_exp (f : R -> R) (x a : R) : is_derive f x a -> is_derive (fun t => exp (f t)) x (a * exp (f x)).
Proof. intros H. apply (derive_comp exp f); [exact H|]. apply is_derive_Reals. apply derivable_pt_lim_exp. Qed.
Lemma derive_sumn n (f : nat -> R -> R) x (d : nat -> R) :
  (forall i, (i < n)%nat -> is_derive (f i) x (d i)) ->
  is_derive (fun t => sumn n (fun i => f i t)) x (sumn n d).
Proof.
  induction n as [|n IH]; intros H; cbn [sumn]; [apply derive_const|].
  apply derive_plus; [apply IH; intros; apply H; lia|apply H; lia].
Qed.
Lemma derive_prodn n (f : nat -> R -> R) x (d : nat -> R) :
  (forall i, (i < n)%nat -> is_derive (f i) x (d i)) ->
  is_derive (fun t => prodn n (fun i => f i t)) x
    (sumn n (fun k => d k * prodn n (fun i => if Nat.eqb i k then 1 else f i x))).
Proof.
  induction n as [|n IH]; intros H; cbn [prodn]; [apply derive_const|].
  eapply derive_eq.
  - apply derive_mult; [apply IH; intros; apply H; lia|apply H; lia].
  - cbn [sumn]. rewrite Nat.eqb_refl, Rmult_1_r. f_equal.
    + rewrite <- sumn_scal_r. apply sumn_ext. intros k Hk. destruct (Nat.eqb_spec n k); [lia|]. ring.
    + rewrite Rmult_comm. f_equal. apply prodn_ext. intros i Hi. destruct (Nat.eqb_spec i n); [lia|reflexivity].
Qed.
Lemma derive_upd x j i : is_derive (fun t => upd x j t i) (x j) (if Nat.eqb i j then 1 else 0).
Proof. unfold upd. destruct (Nat.eqb i j); [apply derive_id|apply derive_const]. Qed.
Lemma derive_unique (f : R -> R) (x a b : R) : is_derive f x a -> is_derive f x b -> a = b.
Proof. intros A B. apply is_derive_unique in A. apply is_derive_unique in B. congruence. Qed.

Lemma partial_ext f g x j l : (forall y, f y = g y) -> partial f x j l -> partial g x j l.
Proof. intros E. apply is_derive_ext. intros; apply E. Qed.
Lemma partial_eq f x j l l' : partial f x j l -> l = l' -> partial f x j l'.
Proof. now intros H <-. Qed.

(** Functions of the first d components only. *)
Definition depends (d : nat) {A} (f : (nat -> R) -> A) : Prop :=
  forall x y, (forall i, (i < d)%nat -> x i = y i) -> f x = f y.
Lemma depends_upd d {A} (f : (nat -> R) -> A) x j : depends d f -> f (upd x j (x j)) = f x.
Proof. intros D. apply D. intros; apply upd_id. Qed.
