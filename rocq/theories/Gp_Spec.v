(** Vocabulary of the statements about Gaussian processes. *)
From Coq Require Import Reals Lra Lia Arith.
From Verif Require Import RVec Gp_Model.
Local Open Scope R_scope.

Definition lower (n : nat) (L : mat) : Prop := forall i j, (i < n)%nat -> (j < n)%nat -> (i < j)%nat -> L i j = 0.
Definition upper (n : nat) (U : mat) : Prop := forall i j, (i < n)%nat -> (j < n)%nat -> (j < i)%nat -> U i j = 0.
Definition regular (n : nat) (L : mat) : Prop := forall i, (i < n)%nat -> L i i <> 0.
Definition symmetric (n : nat) (A : mat) : Prop := forall i j, (i < n)%nat -> (j < n)%nat -> A i j = A j i.
(** The quadratic form of A. *)
Definition positive_definite (n : nat) (A : mat) : Prop :=
  forall v, (exists i, (i < n)%nat /\ v i <> 0) -> 0 < dot n v (mv n A v).
Definition pairs_once (n rows : nat) (ind : nat -> nat * nat) : Prop :=
  (forall r, (r < rows)%nat -> (fst (ind r) < snd (ind r) < n)%nat) /\
  (forall k i, (k < i < n)%nat -> exists! r, (r < rows)%nat /\ ind r = (k, i)).
(** The factorization of an n x p matrix returned by the library is exact, with an invertible triangle. *)
Definition is_qr (n p : nat) (A : mat) (qr : mat * mat) : Prop :=
  (forall i j, (i < n)%nat -> (j < p)%nat -> sumn p (fun k => fst qr i k * snd qr k j) = A i j) /\
  (forall j l, (j < p)%nat -> (l < p)%nat -> sumn n (fun i => fst qr i j * fst qr i l) = if Nat.eqb j l then 1 else 0) /\
  upper p (snd qr) /\ regular p (snd qr).
Definition permutes (n : nat) (s : nat -> nat) : Prop :=
  (forall i, (i < n)%nat -> (s i < n)%nat) /\ (forall i j, (i < n)%nat -> (j < n)%nat -> s i = s j -> i = j).
(** Solutions of the systems behind the mean and the variance, for a correlation matrix R (n x n), a trend matrix F (n x p),
    correlations r and trend functions f at a point. *)
Definition kriging_mean (n p : nat) (R' F : mat) (yn : vec) (be ga : vec) : Prop :=
  (forall i, (i < n)%nat -> mv n R' ga i + mv p F be i = yn i) /\ (forall j, (j < p)%nat -> mv n (tr F) ga j = 0).
Definition kriging_var (n p : nat) (R' F : mat) (r f : vec) (mse : R) : Prop :=
  exists (z : vec) (X : nat -> vec) (b : vec),
    (forall i, (i < n)%nat -> mv n R' z i = r i) /\
    (forall j i, (j < p)%nat -> (i < n)%nat -> mv n R' (X j) i = F i j) /\
    (forall j, (j < p)%nat -> sumn p (fun l => dot n (fun i => F i j) (X l) * b l) = f j - dot n r (X j)) /\
    mse = 1 - dot n r z + dot p b (fun j => f j - dot n r (X j)).
(** Values returned at one point. *)
Definition mean_at (g : gp) (z : vec) : R := match predict g (fun _ => z) O with Some v => v | None => 0 end.
Definition var_at (g : gp) (z : vec) : R := match predict_var g (fun _ => z) O with Some v => v | None => 0 end.
Definition identity (w : mat) (n : nat) : Prop := forall i j, (i < n)%nat -> (j < n)%nat -> w i j = if Nat.eqb i j then 1 else 0.
(** A weighted sum of the observations with weights mu is an unbiased predictor at a point when it is exact on the trend
    functions; its mean squared error, in units of the process variance, for a correlation matrix R of the observations
    and their correlations r with the point. *)
Definition unbiased (n p : nat) (F : mat) (f mu : vec) : Prop := forall j, (j < p)%nat -> dot n (fun i => F i j) mu = f j.
Definition sq_error (n : nat) (R' : mat) (r mu : vec) : R := 1 - 2 * dot n mu r + dot n mu (mv n R' mu).
