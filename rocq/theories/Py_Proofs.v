(** Specification and proofs for the Python bindings ([Py_Model]). *)
From Coq Require Import Reals Lra.
From Coq Require Import ZArith List Bool Lia.
From Flocq Require Import Core BinarySingleNaN.
From Verif Require Import F64 Util FindResult_Model FindResult_Spec FindResult_Proofs Mixint_Model Py_Model.
From Verif Require Moe_Model.
Import ListNotations.
Local Open Scope nat_scope.

(** * Specification *)

(** A double is the integer [k]. *)
Definition is_int (a : f64) (k : Z) : Prop := is_finite a = true /\ B2R a = IZR k.

(** Values a user variable may take according to its description in Python. *)
Definition spec_admits (s : xspec) (v : f64) : Prop :=
  match sp_kind s with
  | KFloat => exists a b, sp_limits s = [a; b] /\ fle a v = true /\ fle v b = true
  | KInt => exists a b k, sp_limits s = [a; b] /\ is_int v k /\ fle a v = true /\ fle v b = true
  | KOrd => In v (sp_limits s)
  | KEnum => exists k, is_int v (Z.of_nat k) /\
      (k < sp_tags s \/ (sp_tags s = 0 /\ exists a, sp_limits s = [a] /\ flt v a = true))
  end.

(** Values of a variable of the Rust crates. *)
Definition type_admits (t : xtype) (v : f64) : Prop :=
  match t with
  | Float a b => fle a v = true /\ fle v b = true
  | Int a b => exists k, is_int v k /\ (a <= k <= b)%Z
  | Ord l => In v l
  | Enum n => exists k, is_int v (Z.of_nat k) /\ k < n
  end.

(** A description following the documentation: two finite limits for an integer variable, within the range of [i32], an
    integer or non-positive lower limit and an integer or non-negative upper limit; the integer size of an enumeration. *)
Definition well_described (s : xspec) : Prop :=
  match sp_kind s with
  | KFloat => exists a b, sp_limits s = [a; b]
  | KInt => exists a b : f64, sp_limits s = [a; b] /\ is_finite a = true /\ is_finite b = true /\
      (-2147483648 <= B2R a <= 2147483647)%R /\ (-2147483648 <= B2R b <= 2147483647)%R /\
      ((exists k, is_int a k) \/ (B2R a <= 0)%R) /\ ((exists k, is_int b k) \/ (0 <= B2R b)%R)
  | KOrd => True
  | KEnum => sp_tags s <> 0 \/ exists a n, sp_limits s = [a] /\ is_int a (Z.of_nat n)
  end.

(** * Proofs *)
Lemma trunc_correct (a : f64) : Btrunc a = Ztrunc (B2R a).
Proof.
  pose proof (Btrunc_correct 53 1024 f64_emax a) as H. rewrite round_FIX_IZR in H. now apply eq_IZR in H.
Qed.

Lemma as_i32_trunc (a : f64) : is_finite a = true -> (IZR i32_min <= B2R a <= IZR i32_max)%R -> as_i32 a = Ztrunc (B2R a).
Proof.
  intros Hf [H1 H2]. pose proof (Ztrunc_le _ _ H1) as T1. pose proof (Ztrunc_le _ _ H2) as T2.
  rewrite (@Ztrunc_IZR i32_min) in T1. rewrite (@Ztrunc_IZR i32_max) in T2. rewrite <- trunc_correct in *.
  destruct a as [s|s| |s m e B]; try discriminate Hf; unfold as_i32; rewrite Z.min_r, Z.max_r; lia.
Qed.

Lemma as_index_int a k : is_int a (Z.of_nat k) -> as_index a = Some k.
Proof.
  intros (F & E). pose proof (trunc_correct a) as H. rewrite E, Ztrunc_IZR in H.
  destruct a as [s|s| |s m e B]; try discriminate F; unfold as_index; rewrite H; f_equal; apply Nat2Z.id.
Qed.

Lemma fle_B2R (a b : f64) : is_finite a = true -> is_finite b = true -> (fle a b = true <-> (B2R a <= B2R b)%R).
Proof. intros Ha Hb. rewrite (fle_ord a b (finite_not_nan _ Ha) (finite_not_nan _ Hb)), (ord_fin a Ha), (ord_fin b Hb). reflexivity. Qed.
Lemma flt_B2R (a b : f64) : is_finite a = true -> is_finite b = true -> (flt a b = true <-> (B2R a < B2R b)%R).
Proof. intros Ha Hb. rewrite (flt_ord a b (finite_not_nan _ Ha) (finite_not_nan _ Hb)), (ord_fin a Ha), (ord_fin b Hb). reflexivity. Qed.

(** An integer is above a limit iff it is above the truncated one. *)
Lemma trunc_lower (x : R) k : ((exists j, x = IZR j) \/ x <= 0)%R -> ((Ztrunc x <= k)%Z <-> (x <= IZR k)%R).
Proof.
  intros [[j ->]|H].
  - rewrite Ztrunc_IZR. split; [apply IZR_le|apply le_IZR].
  - rewrite Ztrunc_ceil by auto. split; intros X.
    + apply Rle_trans with (IZR (Zceil x)); [apply Zceil_ub|now apply IZR_le].
    + now apply Zceil_glb.
Qed.
Lemma trunc_upper (x : R) k : ((exists j, x = IZR j) \/ 0 <= x)%R -> ((k <= Ztrunc x)%Z <-> (IZR k <= x)%R).
Proof.
  intros [[j ->]|H].
  - rewrite Ztrunc_IZR. split; [apply IZR_le|apply le_IZR].
  - rewrite Ztrunc_floor by auto. split; intros X.
    + apply Rle_trans with (IZR (Zfloor x)); [now apply IZR_le|apply Zfloor_lb].
    + now apply Zfloor_lub.
Qed.

Lemma spec_correct s : well_described s -> exists t, xtype_of_spec s = Some t /\ forall v, type_admits t v <-> spec_admits s v.
Proof.
  intros H. unfold well_described, xtype_of_spec, spec_admits in *. destruct s as [k lim tags]. cbn [sp_kind sp_limits sp_tags] in *.
  destruct k.
  - destruct H as (a & b & ->). exists (Float a b). split; [reflexivity|]. intros v. simpl. split.
    + intros [A B]. exists a, b. auto.
    + intros (a' & b' & E & A & B). injection E as <- <-. auto.
  - destruct H as (a & b & -> & Fa & Fb & Ra & Rb & La & Lb). cbn [nth_error].
    rewrite (as_i32_trunc a Fa Ra), (as_i32_trunc b Fb Rb). eexists. split; [reflexivity|].
    assert (La' : ((exists j, B2R a = IZR j) \/ B2R a <= 0)%R) by (destruct La as [[j [_ X]]|X]; eauto).
    assert (Lb' : ((exists j, B2R b = IZR j) \/ 0 <= B2R b)%R) by (destruct Lb as [[j [_ X]]|X]; eauto).
    intros v. simpl. split.
    + intros (k & Hk & A & B). exists a, b, k. split; [reflexivity|]. split; [exact Hk|]. destruct Hk as [Fk Ek].
      rewrite (fle_B2R a v Fa Fk), (fle_B2R v b Fk Fb), Ek. split; [now apply trunc_lower|now apply trunc_upper].
    + intros (a' & b' & k & E & Hk & A & B). injection E as <- <-. exists k. split; [exact Hk|]. destruct Hk as [Fk Ek].
      rewrite (fle_B2R a v Fa Fk) in A. rewrite (fle_B2R v b Fk Fb) in B. rewrite Ek in A, B.
      split; [now apply trunc_lower|now apply trunc_upper].
  - exists (Ord lim). split; [reflexivity|]. intros v. simpl. reflexivity.
  - destruct (Nat.eqb tags 0) eqn:Et.
    + apply Nat.eqb_eq in Et. subst tags. destruct H as [H|(a & n & -> & Ha)]; [congruence|].
      cbn [nth_error]. rewrite (as_index_int a n Ha). eexists. split; [reflexivity|]. destruct Ha as [Fa Ea].
      intros v. simpl. split.
      * intros (k & [Fk Ek] & Hk). exists k. split; [split; auto|]. right. split; auto. exists a. split; auto.
        apply (flt_B2R v a Fk Fa). rewrite Ek, Ea. apply IZR_lt. lia.
      * intros (k & [Fk Ek] & [X|(_ & a' & E & X)]); [lia|]. injection E as <-. exists k. split; [split; auto|].
        apply (flt_B2R v a Fk Fa) in X. rewrite Ek, Ea in X. apply lt_IZR in X. lia.
    + apply Nat.eqb_neq in Et. eexists. split; [reflexivity|]. intros v. simpl. split.
      * intros (k & Hk & X). exists k. auto.
      * intros (k & Hk & [X|[X _]]); [|congruence]. exists k. auto.
Qed.

Lemma mapM_forall2 {A B} (f : A -> option B) (P : A -> B -> Prop) l :
  (forall a, In a l -> exists b, f a = Some b /\ P a b) -> exists r, mapM f l = Some r /\ Forall2 P l r.
Proof.
  induction l as [|a l IH]; intros H.
  - exists []. split; [reflexivity|constructor].
  - destruct (H a (or_introl eq_refl)) as (b & E & Hb). destruct IH as (r & Er & Hr); [intros x Hx; apply H; right; auto|].
    exists (b :: r). split; [|constructor; auto]. cbn [mapM]. rewrite E, Er. reflexivity.
Qed.

(** ** Best result *)
Lemma joined_empty (y : list (list f64)) : joined y (repeat [] (length y)) = y.
Proof.
  unfold joined. induction y as [|r y IH]; [reflexivity|]. cbn [length repeat combine map fst snd]. rewrite IH, app_nil_r. reflexivity.
Qed.

Lemma hconcat_none {A} (a b : list (list A)) : length a <> length b -> hconcat a b = None.
Proof.
  intros H. destruct (hconcat a b) as [t|] eqn:E; [|reflexivity]. apply hconcat_length in E. tauto.
Qed.
