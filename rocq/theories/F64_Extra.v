(** More facts about binary64 arithmetic. *)
From Coq Require Import ZArith Reals Lra Lia Bool List.
From Flocq Require Import Core.Core IEEE754.BinarySingleNaN Plus_error.
From Verif Require Import F64.
Local Open Scope R_scope.
Local Arguments bpow : simpl never.
Local Arguments ord !a /.
Local Arguments fnan !a /.

Local Notation fexp := (SpecFloat.fexp 53 1024).
Local Notation rnd := (round radix2 fexp (round_mode mode_NE)).

Lemma sign_neg (a : f64) : Bsign a = true -> is_finite a = true -> B2R a <= 0.
Proof. destruct a as [s|s| |s m e H]; simpl; intros E F; try discriminate; try lra. subst. apply F2R_le_0. simpl. lia. Qed.
Lemma sign_pos (a : f64) : Bsign a = false -> is_finite a = true -> 0 <= B2R a.
Proof. destruct a as [s|s| |s m e H]; simpl; intros E F; try discriminate; try lra. subst. apply F2R_ge_0. simpl. lia. Qed.

Lemma overflow_inf (z : f64) s : B2SF z = binary_overflow 53 1024 mode_NE s -> z = B754_infinity s.
Proof.
  destruct z as [t|t| |t m e H]; simpl; intros E; try discriminate. now injection E as ->.
Qed.

(** Adding a non-negative amount to a finite number does not decrease it. *)
Lemma fadd_ge (x d : f64) : is_finite x = true -> fnan d = false -> 0 <= ord d ->
  fnan (fadd x d) = false /\ ord x <= ord (fadd x d).
Proof.
  pose proof bpow1024_pos as Hp.
  intros Fx Nd Hd. destruct (is_finite d) eqn:Fd.
  - pose proof (Bplus_correct 53 1024 _ _ mode_NE x d Fx Fd) as H. rewrite (ord_fin d Fd) in Hd.
    assert (L1 : B2R x <= rnd (B2R x + B2R d)) by (rewrite <- (rnd_B2R x) at 1; apply rnd_le; lra).
    destruct (Rlt_bool_spec (Rabs (rnd (B2R x + B2R d))) (bpow radix2 1024)) as [Hlt|Hge].
    + destruct H as (H1 & H2 & _). fold (fadd x d) in *.
      rewrite (finite_not_nan _ H2), (ord_fin x Fx), (ord_fin _ H2), H1. tauto.
    + destruct H as (H1 & Hs). fold (fadd x d) in *. apply overflow_inf in H1. rewrite H1.
      destruct (Bsign x) eqn:Sx.
      * exfalso. symmetry in Hs. pose proof (sign_neg d Hs Fd). replace (B2R d) with 0 in Hge by lra.
        rewrite Rplus_0_r, rnd_B2R in Hge. pose proof (ord_inf_gt x Fx).
        apply Rle_not_lt in Hge. apply Hge. apply Rabs_def1; lra.
      * split; [reflexivity|]. apply (ord_bound x).
  - destruct d as [s|[|]| |s m e H]; try discriminate; simpl in *; [lra|].
    pose proof (ord_bound x).
    destruct x as [s|s| |s m e H']; try discriminate; unfold fadd, fsub; simpl in *; (split; [reflexivity|lra]).
Qed.

Lemma fsub_le (x d : f64) : is_finite x = true -> fnan d = false -> 0 <= ord d ->
  fnan (fsub x d) = false /\ ord (fsub x d) <= ord x.
Proof.
  pose proof bpow1024_pos as Hp.
  intros Fx Nd Hd. destruct (is_finite d) eqn:Fd.
  - pose proof (Bminus_correct 53 1024 _ _ mode_NE x d Fx Fd) as H. rewrite (ord_fin d Fd) in Hd.
    assert (L1 : rnd (B2R x - B2R d) <= B2R x) by (rewrite <- (rnd_B2R x) at 2; apply rnd_le; lra).
    destruct (Rlt_bool_spec (Rabs (rnd (B2R x - B2R d))) (bpow radix2 1024)) as [Hlt|Hge].
    + destruct H as (H1 & H2 & _). fold (fsub x d) in *.
      rewrite (finite_not_nan _ H2), (ord_fin x Fx), (ord_fin _ H2), H1. tauto.
    + destruct H as (H1 & Hs). fold (fsub x d) in *. apply overflow_inf in H1. rewrite H1.
      destruct (Bsign x) eqn:Sx.
      * split; [reflexivity|]. simpl. apply (ord_bound x).
      * exfalso. assert (Hs' : Bsign d = true) by (destruct (Bsign d); simpl in Hs; congruence).
        pose proof (sign_neg d Hs' Fd). replace (B2R d) with 0 in Hge by lra.
        rewrite Rminus_0_r, rnd_B2R in Hge. pose proof (ord_inf_gt x Fx).
        apply Rle_not_lt in Hge. apply Hge. apply Rabs_def1; lra.
  - destruct d as [s|[|]| |s m e H]; try discriminate; simpl in *; [lra|].
    pose proof (ord_bound x).
    destruct x as [s|s| |s m e H']; try discriminate; unfold fadd, fsub; simpl in *; (split; [reflexivity|lra]).
Qed.

Definition tiny : R := bpow radix2 (-1074).

Lemma tiny_format : generic_format radix2 fexp tiny.
Proof. apply generic_format_bpow. unfold SpecFloat.fexp, SpecFloat.emin. lia. Qed.

Lemma finite_pos_ge (a : f64) : is_finite a = true -> 0 < B2R a -> tiny <= B2R a.
Proof.
  intros F P. pose proof (generic_format_B2R 53 1024 a) as G.
  apply (generic_format_ge_bpow radix2 fexp (-1074)); try assumption.
  intros e. unfold SpecFloat.fexp, SpecFloat.emin. lia.
Qed.

Lemma rnd_above_half (t : R) : tiny / 2 < t -> 0 < rnd t.
Proof.
  intros H. assert (T : 0 < tiny) by apply bpow_gt_0.
  destruct (Rle_or_lt tiny t) as [L|L].
  - apply Rlt_le_trans with tiny; [assumption|].
    assert (E : rnd tiny = tiny) by (apply round_generic; [auto with typeclass_instances|exact tiny_format]).
    rewrite <- E. now apply rnd_le.
  - assert (E : Rabs (rnd t - t) <= / 2 * ulp radix2 fexp t).
    { apply error_le_half_ulp. apply (FLT_exp_valid (SpecFloat.emin 53 1024) 53). }
    assert (U : ulp radix2 fexp t = tiny).
    { change fexp with (FLT_exp (-1074) 53). apply ulp_FLT_small; [reflexivity|].
      rewrite Rabs_pos_eq by lra. apply Rlt_trans with (1 := L). apply bpow_lt. lia. }
    rewrite U in E.
    destruct (Rlt_or_le 0 (rnd t)) as [P|N]; [assumption|]. exfalso.
    rewrite Rabs_left1 in E by lra. lra.
Qed.

(** Multiplying a positive number by a factor above 1/2 never underflows to zero. *)
Lemma fmul_pos (a b : f64) : fnan a = false -> 0 < ord a -> fnan b = false -> 1 / 2 < ord b ->
  fnan (fmul a b) = false /\ 0 < ord (fmul a b).
Proof.
  pose proof bpow1024_pos as Hp. intros Na Ha Nb Hb.
  destruct (is_finite a) eqn:Fa; destruct (is_finite b) eqn:Fb.
  - rewrite (ord_fin a Fa) in Ha. rewrite (ord_fin b Fb) in Hb.
    pose proof (Bmult_correct 53 1024 _ _ mode_NE a b) as H.
    assert (P : 0 < rnd (B2R a * B2R b)).
    { apply rnd_above_half. pose proof (finite_pos_ge a Fa Ha) as G. assert (T : 0 < tiny) by apply bpow_gt_0. nra. }
    assert (Sa : Bsign a = false).
    { destruct (Bsign a) eqn:S; [|reflexivity]. pose proof (sign_neg a S Fa). lra. }
    assert (Sb : Bsign b = false).
    { destruct (Bsign b) eqn:S; [|reflexivity]. pose proof (sign_neg b S Fb). lra. }
    destruct (Rlt_bool_spec (Rabs (rnd (B2R a * B2R b))) (bpow radix2 1024)) as [Hl|Hge].
    + destruct H as (H1 & H2 & _). fold (fmul a b) in *. rewrite Fa, Fb in H2. simpl in H2.
      rewrite (finite_not_nan _ H2), (ord_fin _ H2), H1. split; [reflexivity|assumption].
    + fold (fmul a b) in *. rewrite Sa, Sb in H. simpl xorb in H. apply overflow_inf in H. rewrite H.
      split; [reflexivity|]. simpl. assumption.
  - destruct b as [s|[|]| |s m e H]; try discriminate; simpl in *; [lra|].
    destruct a as [s|s| |s m e H]; try discriminate; simpl in *; try lra.
    destruct s; [|unfold fmul; simpl; split; [reflexivity|assumption]].
    exfalso. pose proof (F2R_le_0 radix2 {| Fnum := Z.neg m; Fexp := e |}). simpl in *. specialize (H0 ltac:(lia)). lra.
  - destruct a as [s|[|]| |s m e H]; try discriminate; simpl in *; [lra|].
    destruct b as [s|s| |s m e H]; try discriminate; simpl in *; try lra.
    destruct s; [|unfold fmul; simpl; split; [reflexivity|assumption]].
    exfalso. pose proof (F2R_le_0 radix2 {| Fnum := Z.neg m; Fexp := e |}). simpl in *. specialize (H0 ltac:(lia)). lra.
  - destruct a as [s|[|]| |s m e H]; try discriminate; simpl in *; [lra|].
    destruct b as [s|[|]| |s m e H]; try discriminate; simpl in *; [lra|].
    unfold fmul; simpl; split; [reflexivity|assumption].
Qed.

(** Division by one is exact. *)
Lemma B2R_fone : B2R fone = 1.
Proof.
  pose proof (binary_normalize_correct 53 1024 f64_prec f64_emax mode_NE 1 0 false) as H.
  cbv zeta in H. fold (fmake 1 0) in H. fold fone in H. rewrite F2R_bpow in H. change (bpow radix2 0) with 1 in H.
  assert (E : rnd 1 = 1); [apply round_generic|rewrite E in H].
  - auto with typeclass_instances.
  - change 1 with (bpow radix2 0). apply generic_format_bpow. unfold SpecFloat.fexp, SpecFloat.emin. lia.
  - rewrite Rlt_bool_true in H; [exact (proj1 H)|]. rewrite Rabs_R1. change 1 with (bpow radix2 0). apply bpow_lt. lia.
Qed.

Lemma fdiv_one (a : f64) : fdiv a fone = a.
Proof.
  destruct (is_finite a) eqn:F.
  - pose proof (Bdiv_correct 53 1024 _ _ mode_NE a fone) as H. rewrite B2R_fone in H.
    specialize (H R1_neq_R0). replace (B2R a / 1) with (B2R a) in H by (unfold Rdiv; rewrite Rinv_1; lra). rewrite rnd_B2R in H.
    rewrite Rlt_bool_true in H.
    + fold (fdiv a fone) in H. destruct H as (H1 & H2 & H3). rewrite F in H2.
      apply B2R_Bsign_inj; try assumption. rewrite H3 by (now apply finite_not_nan).
      replace (Bsign fone) with false by (vm_compute; reflexivity). apply xorb_false_r.
    + pose proof (ord_inf_gt a F). apply Rabs_def1; lra.
  - destruct a as [s|s| |s m e H]; try discriminate; [|reflexivity].
    destruct s; vm_compute; reflexivity.
Qed.
