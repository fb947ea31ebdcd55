(** IEEE-754 binary64 numbers: the model of Rust's [f64].

    [f64] is Flocq's [BinarySingleNaN.binary_float 53 1024] with rounding to nearest, ties to even.
    Simplification: there is a single NaN (payloads and signs of NaNs are not modelled). *)
From Coq Require Import ZArith Reals Lra Lia Bool List.
From Flocq Require Import Core.Core IEEE754.BinarySingleNaN Plus_error.
Import ListNotations.

Definition f64 : Set := binary_float 53 1024.

Global Instance f64_prec : FLX.Prec_gt_0 53.
Proof. reflexivity. Qed.
Global Instance f64_emax : Prec_lt_emax 53 1024.
Proof. reflexivity. Qed.

(** Rust [a + b], [a - b], [a * b], [a / b], [a.abs()], [-a]. *)
Definition fadd (a b : f64) : f64 := Bplus mode_NE a b.
Definition fsub (a b : f64) : f64 := Bminus mode_NE a b.
Definition fmul (a b : f64) : f64 := Bmult mode_NE a b.
Definition fdiv (a b : f64) : f64 := Bdiv mode_NE a b.
Definition fabs (a : f64) : f64 := Babs a.
Definition fneg (a : f64) : f64 := Bopp a.

(** Rust [a < b], [a > b], [a <= b], [a == b] on [f64]: all false when an argument is NaN. *)
Definition flt (a b : f64) : bool := Bltb a b.
Definition fgt (a b : f64) : bool := flt b a.
Definition fle (a b : f64) : bool := Bleb a b.
Definition feq (a b : f64) : bool := Beqb a b.
Definition fnan (a : f64) : bool := is_nan a.

(** Rust [a.partial_cmp(&b)]: [None] when an argument is NaN. *)
Definition fcmp (a b : f64) : option comparison := Bcompare a b.

Definition fzero : f64 := B754_zero false.
Definition finf : f64 := B754_infinity false.
Definition fninf : f64 := B754_infinity true.
Definition fNaN : f64 := B754_nan.

(** [fmake m e] is [m * 2^e] rounded to binary64; used to write constants. *)
Definition fmake (m e : Z) : f64 :=
  binary_normalize 53 1024 f64_prec f64_emax mode_NE m e false.
Definition fone : f64 := fmake 1 0.
Definition fofZ (z : Z) : f64 := fmake z 0.

(** Rust [f64::max] / [f64::min] : if one argument is NaN the other is returned.
    (On equal arguments of opposite zero signs the sign returned is unspecified in Rust:
    the model returns the first argument.) *)
Definition fmax (a b : f64) : f64 :=
  if fnan a then b else if fnan b then a else if flt a b then b else a.
Definition fmin (a b : f64) : f64 :=
  if fnan a then b else if fnan b then a else if flt b a then b else a.

(** ** Order embedding: non-NaN doubles embed in the reals,
    infinities being sent to plus/minus [2^1024], which bounds all finite values. *)
Local Open Scope R_scope.

Local Arguments bpow : simpl never.

Definition ord (a : f64) : R :=
  match a with
  | B754_infinity false => bpow radix2 1024
  | B754_infinity true => - bpow radix2 1024
  | _ => B2R a
  end.

Lemma ord_fin (a : f64) : is_finite a = true -> ord a = B2R a.
Proof. destruct a as [s|s| |s m e H]; simpl; try reflexivity; discriminate. Qed.

Lemma ord_inf_gt (a : f64) : is_finite a = true -> - bpow radix2 1024 < B2R a < bpow radix2 1024.
Proof.
  intros _.
  assert (H := abs_B2R_lt_emax 53 1024 a).
  apply Rabs_def2 in H. lra.
Qed.

Lemma bpow1024_pos : 0 < bpow radix2 1024.
Proof. apply bpow_gt_0. Qed.

Lemma ord_bound (a : f64) : - bpow radix2 1024 <= ord a <= bpow radix2 1024.
Proof.
  pose proof bpow1024_pos as Hp.
  destruct (is_finite a) eqn:F.
  - rewrite (ord_fin a F). pose proof (ord_inf_gt a F). lra.
  - destruct a as [s|[|]| |s m e H]; simpl in *; try discriminate; lra.
Qed.

Lemma fcmp_ord (a b : f64) : fnan a = false -> fnan b = false ->
  fcmp a b = Some (Rcompare (ord a) (ord b)).
Proof.
  intros Na Nb. unfold fcmp.
  pose proof bpow1024_pos as Hp.
  destruct (is_finite a) eqn:Fa; destruct (is_finite b) eqn:Fb.
  - rewrite Bcompare_correct by assumption. now rewrite !ord_fin.
  - pose proof (ord_inf_gt a Fa) as Ha. rewrite (ord_fin a Fa).
    destruct b as [s|[|]| |s m e H]; try discriminate.
    + replace (Bcompare a (B754_infinity true)) with (Some Gt)
        by (destruct a as [[|]|[|]| |[|] ? ? ?]; simpl in *; try discriminate; reflexivity).
      simpl. now rewrite Rcompare_Gt by lra.
    + replace (Bcompare a (B754_infinity false)) with (Some Lt)
        by (destruct a as [[|]|[|]| |[|] ? ? ?]; simpl in *; try discriminate; reflexivity).
      simpl. now rewrite Rcompare_Lt by lra.
  - pose proof (ord_inf_gt b Fb) as Hb. rewrite (ord_fin b Fb).
    destruct a as [s|[|]| |s m e H]; try discriminate.
    + replace (Bcompare (B754_infinity true) b) with (Some Lt)
        by (destruct b as [[|]|[|]| |[|] ? ? ?]; simpl in *; try discriminate; reflexivity).
      simpl. now rewrite Rcompare_Lt by lra.
    + replace (Bcompare (B754_infinity false) b) with (Some Gt)
        by (destruct b as [[|]|[|]| |[|] ? ? ?]; simpl in *; try discriminate; reflexivity).
      simpl. now rewrite Rcompare_Gt by lra.
  - destruct a as [s|[|]| |s m e H]; try discriminate;
    destruct b as [s'|[|]| |s' m' e' H']; try discriminate; simpl; unfold Bcompare; simpl; f_equal;
    symmetry; first [apply Rcompare_Eq; lra | apply Rcompare_Lt; lra | apply Rcompare_Gt; lra].
Qed.

Lemma flt_ord (a b : f64) : fnan a = false -> fnan b = false ->
  (flt a b = true <-> ord a < ord b).
Proof.
  intros Na Nb. pose proof (fcmp_ord a b Na Nb) as H.
  unfold flt, Bltb, SpecFloat.SFltb. unfold fcmp, Bcompare in H. rewrite H.
  destruct (Rcompare_spec (ord a) (ord b)); split; intros; try discriminate; try reflexivity; lra.
Qed.

Lemma fle_ord (a b : f64) : fnan a = false -> fnan b = false ->
  (fle a b = true <-> ord a <= ord b).
Proof.
  intros Na Nb. pose proof (fcmp_ord a b Na Nb) as H.
  unfold fle, Bleb, SpecFloat.SFleb. unfold fcmp, Bcompare in H. rewrite H.
  destruct (Rcompare_spec (ord a) (ord b)); split; intros; try discriminate; try reflexivity; lra.
Qed.

Lemma feq_ord (a b : f64) : fnan a = false -> fnan b = false ->
  (feq a b = true <-> ord a = ord b).
Proof.
  intros Na Nb. pose proof (fcmp_ord a b Na Nb) as H.
  unfold feq, Beqb, SpecFloat.SFeqb. unfold fcmp, Bcompare in H. rewrite H.
  destruct (Rcompare_spec (ord a) (ord b)); split; intros; try discriminate; try reflexivity; lra.
Qed.

Lemma flt_ordF (a b : f64) : fnan a = false -> fnan b = false ->
  (flt a b = false <-> ord b <= ord a).
Proof.
  intros Na Nb. pose proof (flt_ord a b Na Nb) as H.
  destruct (flt a b) eqn:E; split; intros; try discriminate; try reflexivity.
  - assert (ord a < ord b) by tauto. lra.
  - destruct (Rle_or_lt (ord b) (ord a)); [assumption|]. apply H in H1. discriminate.
Qed.

Lemma feq_ordF (a b : f64) : fnan a = false -> fnan b = false ->
  (feq a b = false <-> ord a <> ord b).
Proof.
  intros Na Nb. pose proof (feq_ord a b Na Nb) as H.
  destruct (feq a b) eqn:E; split; intros; try discriminate; try reflexivity.
  - tauto.
  - intro E'. apply H in E'. discriminate.
Qed.

Lemma flt_nan (a b : f64) : flt a b = true -> fnan a = false /\ fnan b = false.
Proof.
  destruct a as [[|]|[|]| |[|] ? ? ?]; destruct b as [[|]|[|]| |[|] ? ? ?];
  unfold flt, fnan; simpl; intros; try discriminate; split; reflexivity.
Qed.

Lemma fle_nan (a b : f64) : fle a b = true -> fnan a = false /\ fnan b = false.
Proof.
  destruct a as [[|]|[|]| |[|] ? ? ?]; destruct b as [[|]|[|]| |[|] ? ? ?];
  unfold fle, fnan; simpl; intros; try discriminate; split; reflexivity.
Qed.

Lemma feq_nan (a b : f64) : feq a b = true -> fnan a = false /\ fnan b = false.
Proof.
  destruct a as [[|]|[|]| |[|] ? ? ?]; destruct b as [[|]|[|]| |[|] ? ? ?];
  unfold feq, fnan; simpl; intros; try discriminate; split; reflexivity.
Qed.

Lemma ord_fzero : ord fzero = 0. Proof. reflexivity. Qed.
Lemma ord_finf : ord finf = bpow radix2 1024. Proof. reflexivity. Qed.
Lemma fnan_fzero : fnan fzero = false. Proof. reflexivity. Qed.
Lemma fnan_finf : fnan finf = false. Proof. reflexivity. Qed.

Lemma ord_fabs (a : f64) : fnan a = false -> ord (fabs a) = Rabs (ord a).
Proof.
  pose proof bpow1024_pos as Hp.
  intros N. destruct (is_finite a) eqn:F.
  - rewrite (ord_fin a F), ord_fin by (unfold fabs; now rewrite is_finite_Babs).
    apply B2R_Babs.
  - destruct a as [s|[|]| |s m e H]; try discriminate; simpl;
    [rewrite Rabs_Ropp|]; rewrite Rabs_pos_eq; lra.
Qed.

Lemma fnan_fabs (a : f64) : fnan (fabs a) = fnan a.
Proof. destruct a as [s|s| |s m e H]; reflexivity. Qed.

Lemma ord_fneg (a : f64) : fnan a = false -> ord (fneg a) = - ord a.
Proof.
  intros N. destruct (is_finite a) eqn:F.
  - rewrite (ord_fin a F), ord_fin by (unfold fneg; now rewrite is_finite_Bopp).
    apply B2R_Bopp.
  - destruct a as [s|[|]| |s m e H]; try discriminate; simpl; lra.
Qed.

Lemma finite_not_nan (a : f64) : is_finite a = true -> fnan a = false.
Proof. destruct a; simpl; intros; try discriminate; reflexivity. Qed.

Local Notation fexp := (SpecFloat.fexp 53 1024).
Local Notation rnd := (round radix2 fexp (round_mode mode_NE)).

Lemma rnd_B2R (a : f64) : rnd (B2R a) = B2R a.
Proof. apply round_generic; [auto with typeclass_instances| apply generic_format_B2R]. Qed.

Lemma rnd_le (x y : R) : x <= y -> rnd x <= rnd y.
Proof. intros. apply round_le; auto with typeclass_instances.
  apply (FLT_exp_valid (SpecFloat.emin 53 1024) 53). Qed.

(** Adding two non-negative doubles never gives NaN nor a value below either operand. *)
Lemma fadd_nonneg (a b : f64) : fnan a = false -> fnan b = false -> 0 <= ord a -> 0 <= ord b ->
  fnan (fadd a b) = false /\ ord a <= ord (fadd a b) /\ ord b <= ord (fadd a b).
Proof.
  pose proof bpow1024_pos as Hp.
  intros Na Nb Ha Hb.
  destruct (is_finite a) eqn:Fa; destruct (is_finite b) eqn:Fb.
  - pose proof (Bplus_correct 53 1024 _ _ mode_NE a b Fa Fb) as H.
    rewrite ord_fin in Ha, Hb by assumption.
    assert (L1 : B2R a <= rnd (B2R a + B2R b)) by (rewrite <- (rnd_B2R a) at 1; apply rnd_le; lra).
    assert (L2 : B2R b <= rnd (B2R a + B2R b)) by (rewrite <- (rnd_B2R b) at 1; apply rnd_le; lra).
    destruct (Rlt_bool_spec (Rabs (rnd (B2R a + B2R b))) (bpow radix2 1024)) as [Hlt|Hge].
    + destruct H as (H1 & H2 & _). fold (fadd a b) in *.
      rewrite (finite_not_nan _ H2), !ord_fin, H1 by assumption. tauto.
    + destruct H as (H1 & Hs). fold (fadd a b) in *.
      assert (Sa : Bsign a = false).
      { destruct (Bsign a) eqn:Sa; [|reflexivity]. exfalso.
        assert (Hza : B2R a <= 0).
        { destruct a as [s|s| |s m e Hm]; simpl in *; try lra. subst s.
          apply F2R_le_0. simpl. lia. }
        assert (Hzb : B2R b <= 0).
        { symmetry in Hs. destruct b as [s|s| |s m e Hm]; simpl in *; try lra. subst s.
          apply F2R_le_0. simpl. lia. }
        replace (B2R a + B2R b) with 0 in Hge by lra.
        rewrite round_0, Rabs_R0 in Hge by auto with typeclass_instances. lra. }
      rewrite Sa in H1. unfold binary_overflow in H1. simpl in H1.
      destruct (fadd a b) as [s|s| |s m e Hm]; simpl in H1; try discriminate.
      injection H1 as ->. rewrite (ord_fin a Fa), (ord_fin b Fb). simpl.
      pose proof (ord_inf_gt a Fa). pose proof (ord_inf_gt b Fb).
      repeat split; lra.
  - destruct b as [s|[|]| |s m e H]; try discriminate; simpl in *; [lra|].
    pose proof (ord_bound a).
    destruct a as [s|s| |s m e H']; try discriminate; simpl in *; repeat split; try lra.
  - destruct a as [s|[|]| |s m e H]; try discriminate; simpl in *; [lra|].
    pose proof (ord_bound b).
    destruct b as [s|s| |s m e H']; try discriminate; simpl in *; repeat split; try lra.
  - destruct a as [s|[|]| |s m e H]; try discriminate; simpl in *; [lra|].
    destruct b as [s|[|]| |s m e H]; try discriminate; simpl in *; [lra|].
    repeat split; lra.
Qed.

(** Gradual underflow: the difference of two distinct doubles is never rounded to zero. *)
Lemma fsub_pos (a b : f64) : flt b a = true ->
  fnan (fsub a b) = false /\ 0 < ord (fsub a b).
Proof.
  pose proof bpow1024_pos as Hp.
  intros Hlt. destruct (flt_nan _ _ Hlt) as [Nb Na].
  apply flt_ord in Hlt; try assumption.
  destruct (is_finite a) eqn:Fa; destruct (is_finite b) eqn:Fb.
  - pose proof (Bminus_correct 53 1024 _ _ mode_NE a b Fa Fb) as H.
    rewrite !ord_fin in Hlt by assumption.
    assert (Hpos : 0 < rnd (B2R a - B2R b)).
    { assert (0 <= rnd (B2R a - B2R b)).
      { rewrite <- (round_0 radix2 fexp (round_mode mode_NE)). apply rnd_le. lra. }
      assert (rnd (B2R a - B2R b) <> 0).
      { apply (round_plus_neq_0 radix2 fexp (round_mode mode_NE) (B2R a) (- B2R b)).
        - apply generic_format_B2R.
        - apply generic_format_opp, generic_format_B2R.
        - lra. }
      lra. }
    destruct (Rlt_bool_spec (Rabs (rnd (B2R a - B2R b))) (bpow radix2 1024)) as [Hl|Hge].
    + destruct H as (H1 & H2 & _). fold (fsub a b) in *.
      rewrite (finite_not_nan _ H2), ord_fin, H1 by assumption. split; [reflexivity|lra].
    + destruct H as (H1 & Hs). fold (fsub a b) in *.
      assert (Sa : Bsign a = false).
      { destruct (Bsign a) eqn:Sa; [|reflexivity]. exfalso.
        assert (Sb : Bsign b = false) by (destruct (Bsign b); simpl in Hs; congruence).
        assert (B2R a <= 0).
        { destruct a as [s|s| |s m e Hm]; simpl in *; try lra. subst s.
          apply F2R_le_0. simpl. lia. }
        assert (0 <= B2R b).
        { destruct b as [s|s| |s m e Hm]; simpl in *; try lra. subst s.
          apply F2R_ge_0. simpl. lia. }
        lra. }
      rewrite Sa in H1. unfold binary_overflow in H1. simpl in H1.
      destruct (fsub a b) as [s|s| |s m e Hm]; simpl in H1; try discriminate.
      injection H1 as ->. split; [reflexivity|]. simpl. lra.
  - pose proof (ord_bound a).
    destruct b as [s|[|]| |s m e H']; try discriminate; simpl in *.
    + destruct a as [s|s| |s m e H']; try discriminate; simpl in *; (split; [reflexivity|lra]).
    + lra.
  - pose proof (ord_bound b).
    destruct a as [s|[|]| |s m e H']; try discriminate; simpl in *.
    + lra.
    + destruct b as [s|s| |s m e H']; try discriminate; simpl in *; (split; [reflexivity|lra]).
  - destruct a as [s|[|]| |s m e H]; try discriminate; simpl in *;
    destruct b as [s'|[|]| |s' m' e' H']; try discriminate; simpl in *; try lra.
    all: split; [reflexivity|lra].
Qed.

(** [a - a] is zero for a finite [a]. *)
Lemma fsub_diag (a : f64) : is_finite a = true -> fnan (fsub a a) = false /\ ord (fsub a a) = 0.
Proof.
  pose proof bpow1024_pos as Hp.
  intros Fa.
  pose proof (Bminus_correct 53 1024 _ _ mode_NE a a Fa Fa) as H.
  replace (B2R a - B2R a) with 0 in H by lra.
  rewrite round_0, Rabs_R0, Rlt_bool_true in H by (auto with typeclass_instances).
  destruct H as (H1 & H2 & _). fold (fsub a a) in *.
  now rewrite (finite_not_nan _ H2), ord_fin, H1 by assumption.
Qed.

Lemma fadd_zero_zero (a b : f64) : fnan a = false -> fnan b = false -> ord a = 0 -> ord b = 0 ->
  fnan (fadd a b) = false /\ ord (fadd a b) = 0.
Proof.
  pose proof bpow1024_pos as Hp.
  intros Na Nb Ha Hb.
  assert (Fa : is_finite a = true) by (destruct a as [s|[|]| |s m e H]; simpl in *; try discriminate; try reflexivity; lra).
  assert (Fb : is_finite b = true) by (destruct b as [s|[|]| |s m e H]; simpl in *; try discriminate; try reflexivity; lra).
  pose proof (Bplus_correct 53 1024 _ _ mode_NE a b Fa Fb) as H.
  rewrite ord_fin in Ha, Hb by assumption. rewrite Ha, Hb in H.
  replace (0 + 0) with 0 in H by lra.
  rewrite round_0, Rabs_R0, Rlt_bool_true in H by (auto with typeclass_instances).
  destruct H as (H1 & H2 & _). fold (fadd a b) in *.
  now rewrite (finite_not_nan _ H2), ord_fin, H1 by assumption.
Qed.

(** [fmax]/[fmin] seen through the order. *)
Lemma fmax_ord (a b : f64) : fnan a = false -> fnan b = false ->
  fnan (fmax a b) = false /\ ord (fmax a b) = Rmax (ord a) (ord b).
Proof.
  intros Na Nb. unfold fmax. rewrite Na, Nb.
  pose proof (flt_ord a b Na Nb) as H. pose proof (flt_ordF a b Na Nb) as H'.
  destruct (flt a b) eqn:E.
  - assert (ord a < ord b) by tauto. rewrite Rmax_right by lra. tauto.
  - assert (ord b <= ord a) by tauto. rewrite Rmax_left by lra. tauto.
Qed.
Lemma fmin_ord (a b : f64) : fnan a = false -> fnan b = false ->
  fnan (fmin a b) = false /\ ord (fmin a b) = Rmin (ord a) (ord b).
Proof.
  intros Na Nb. unfold fmin. rewrite Na, Nb.
  pose proof (flt_ord b a Nb Na) as H. pose proof (flt_ordF b a Nb Na) as H'.
  destruct (flt b a) eqn:E.
  - assert (ord b < ord a) by tauto. rewrite Rmin_right by lra. tauto.
  - assert (ord a <= ord b) by tauto. rewrite Rmin_left by lra. tauto.
Qed.

Global Arguments fadd : simpl never.
Global Arguments fsub : simpl never.
Global Arguments fmul : simpl never.
Global Arguments fdiv : simpl never.
Global Arguments fabs : simpl never.
Global Arguments fneg : simpl never.
Global Arguments flt : simpl never.
Global Arguments fgt : simpl never.
Global Arguments fle : simpl never.
Global Arguments feq : simpl never.
Global Arguments fnan : simpl never.
Global Arguments fcmp : simpl never.
Global Arguments ord : simpl never.
Global Arguments fmake _%Z _%Z : simpl never.
Global Arguments fofZ _%Z.
