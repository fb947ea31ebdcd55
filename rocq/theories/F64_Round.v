(** Rounding of double operations away from overflow: exact real counterparts and error bounds. *)
From Coq Require Import Reals Lra ZArith Lia Bool.
From Flocq Require Import Core.Core IEEE754.BinarySingleNaN Plus_error Relative Mult_error Sterbenz.
From Verif Require Import F64 F64_Extra.
Local Open Scope R_scope.
Local Arguments bpow : simpl never.

Notation fexp64 := (SpecFloat.fexp 53 1024).
Notation rnd64 := (round radix2 fexp64 (round_mode mode_NE)).
Notation format64 := (generic_format radix2 fexp64).

(** The unit roundoff, and the sharp bound of the relative error. *)
Definition uro : R := bpow radix2 (-53).
Definition dlt : R := uro / (1 + uro).

Lemma uro_pos : 0 < uro. Proof. apply bpow_gt_0. Qed.
Lemma uro_small : uro < / 1000000.
Proof.
  unfold uro. apply Rlt_trans with (bpow radix2 (-20)); [apply bpow_lt; lia|].
  change (bpow radix2 (-20)) with (/ 1048576). lra.
Qed.
Lemma uro_2 : 2 * uro = bpow radix2 (-52).
Proof. unfold uro. change (-52)%Z with (1 + -53)%Z. rewrite bpow_plus. reflexivity. Qed.
Lemma dlt_bounds : 0 < dlt < uro.
Proof.
  pose proof uro_pos. unfold dlt. split.
  - apply Rdiv_lt_0_compat; lra.
  - apply Rmult_lt_reg_r with (1 + uro); [lra|]. unfold Rdiv. rewrite Rmult_assoc, Rinv_l by lra. nra.
Qed.
Lemma dlt_eq : dlt * (1 + uro) = uro.
Proof. pose proof uro_pos. unfold dlt. field. lra. Qed.

Lemma valid64 : Valid_exp fexp64.
Proof. apply (FLT_exp_valid (SpecFloat.emin 53 1024) 53). Qed.
#[global] Existing Instance valid64.
Lemma mono64 : Monotone_exp fexp64.
Proof. apply (FLT_exp_monotone (SpecFloat.emin 53 1024) 53). Qed.
#[global] Existing Instance mono64.

Lemma fmt (a : f64) : format64 (B2R a). Proof. apply generic_format_B2R. Qed.
Lemma rnd_fmt x : format64 x -> rnd64 x = x.
Proof. intros. apply round_generic; auto with typeclass_instances. Qed.
Lemma fmt_rnd x : format64 (rnd64 x).
Proof. apply generic_format_round; auto with typeclass_instances. Qed.
Lemma fmt_2 x : format64 x -> format64 (2 * x).
Proof.
  intros H. rewrite Rmult_comm. change 2 with (bpow radix2 1).
  apply (mult_bpow_pos_exact_FLT radix2 (SpecFloat.emin 53 1024) 53); [exact H|lia].
Qed.
Lemma fmt_0 : format64 0. Proof. apply generic_format_0. Qed.
Lemma fmt_1 : format64 1.
Proof. change 1 with (bpow radix2 0). apply generic_format_bpow. unfold SpecFloat.fexp, SpecFloat.emin. lia. Qed.
Lemma rnd_ge x y : format64 x -> x <= y -> x <= rnd64 y.
Proof. intros F H. rewrite <- (rnd_fmt x F). now apply rnd_le. Qed.
Lemma rnd_le_fmt x y : format64 y -> x <= y -> rnd64 x <= y.
Proof. intros F H. rewrite <- (rnd_fmt y F). now apply rnd_le. Qed.

(** ** Error bounds *)
Lemma u_ro_uro : u_ro radix2 53 = uro.
Proof.
  unfold u_ro. change (/ 2 * bpow radix2 (-52) = uro). rewrite <- uro_2. lra.
Qed.
Lemma rel_err x : bpow radix2 (-1022) <= Rabs x -> Rabs (rnd64 x - x) <= dlt * Rabs x.
Proof.
  intros H. change fexp64 with (FLT_exp (SpecFloat.emin 53 1024) 53).
  rewrite round_FLT_FLX by exact H.
  pose proof (relative_error_N_FLX' radix2 53 ltac:(lia) (fun x => negb (Z.even x)) x) as E.
  rewrite u_ro_uro in E. exact E.
Qed.
Lemma rel_err_pos x : bpow radix2 (-1022) <= x -> x * (1 - dlt) <= rnd64 x <= x * (1 + dlt).
Proof.
  intros H. assert (P : 0 < x) by (apply Rlt_le_trans with (2 := H); apply bpow_gt_0).
  pose proof (rel_err x) as E. rewrite (Rabs_pos_eq x) in E by lra. specialize (E H). apply Rabs_le_inv in E. lra.
Qed.
Lemma add_err (x y : R) : format64 x -> format64 y -> Rabs (rnd64 (x + y) - (x + y)) <= dlt * Rabs (x + y).
Proof.
  intros Fx Fy.
  destruct (FLT_plus_error_N_ex radix2 (SpecFloat.emin 53 1024) 53 (fun x => negb (Z.even x)) x y Fx Fy) as (e & He & E).
  rewrite u_ro_uro in He. change (rnd64 (x + y) = (x + y) * (1 + e)) in E. rewrite E.
  replace ((x + y) * (1 + e) - (x + y)) with (e * (x + y)) by ring. rewrite Rabs_mult.
  apply Rmult_le_compat_r; [apply Rabs_pos|exact He].
Qed.
Lemma sub_err (x y : R) : format64 x -> format64 y -> Rabs (rnd64 (x - y) - (x - y)) <= dlt * Rabs (x - y).
Proof. intros Fx Fy. apply (add_err x (- y)); [exact Fx|now apply generic_format_opp]. Qed.

(** ** Operations on finite doubles *)
Definition small (x : R) : Prop := Rabs x <= bpow radix2 1023.
Lemma small_round x : small x -> Rlt_bool (Rabs (rnd64 x)) (bpow radix2 1024) = true.
Proof.
  intros H. apply Rlt_bool_true. apply Rle_lt_trans with (bpow radix2 1023); [|apply bpow_lt; lia].
  apply Rabs_le_inv in H.
  assert (F : format64 (bpow radix2 1023)) by (apply generic_format_bpow; unfold SpecFloat.fexp, SpecFloat.emin; lia).
  apply Rabs_le. split.
  - apply rnd_ge; [now apply generic_format_opp|lra].
  - apply rnd_le_fmt; [exact F|lra].
Qed.
Lemma small_le x : Rabs x <= 1000000 -> small x.
Proof.
  intros H. unfold small. apply Rle_trans with (1 := H). apply Rle_trans with (bpow radix2 20); [|apply bpow_le; lia].
  change (bpow radix2 20) with 1048576. lra.
Qed.

Definition isf (a : f64) (x : R) : Prop := is_finite a = true /\ B2R a = x.
Lemma fadd_R a b x y : isf a x -> isf b y -> small (x + y) -> isf (fadd a b) (rnd64 (x + y)).
Proof.
  intros (Fa & <-) (Fb & <-) S. pose proof (Bplus_correct 53 1024 _ _ mode_NE a b Fa Fb) as H.
  rewrite small_round in H by exact S. destruct H as (H & F & _). now split.
Qed.
Lemma fsub_R a b x y : isf a x -> isf b y -> small (x - y) -> isf (fsub a b) (rnd64 (x - y)).
Proof.
  intros (Fa & <-) (Fb & <-) S. pose proof (Bminus_correct 53 1024 _ _ mode_NE a b Fa Fb) as H.
  rewrite small_round in H by exact S. destruct H as (H & F & _). now split.
Qed.
Lemma fmul_R a b x y : isf a x -> isf b y -> small (x * y) -> isf (fmul a b) (rnd64 (x * y)).
Proof.
  intros (Fa & <-) (Fb & <-) S. pose proof (Bmult_correct 53 1024 _ _ mode_NE a b) as H.
  rewrite small_round in H by exact S. destruct H as (H & F & _). rewrite Fa, Fb in F. now split.
Qed.
Lemma fdiv_R a b x y : isf a x -> isf b y -> y <> 0 -> small (x / y) -> isf (fdiv a b) (rnd64 (x / y)).
Proof.
  intros (Fa & <-) (Fb & <-) N S. pose proof (Bdiv_correct 53 1024 _ _ mode_NE a b N) as H.
  rewrite small_round in H by exact S. destruct H as (H & F & _). rewrite Fa in F. now split.
Qed.
Lemma isf_fmt a x : isf a x -> format64 x.
Proof. intros (_ & <-). apply fmt. Qed.
