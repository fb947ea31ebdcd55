(** C110: LogEI in binary64 arithmetic. *)
From Coq Require Import ZArith Reals Lra Lia Bool.
From Flocq Require Import Core.Core IEEE754.BinarySingleNaN.
From Verif Require Import F64 F64_Round CritF64_Model.
Local Open Scope R_scope.

Lemma fnan_eq a : fnan a = true -> a = fNaN. Proof. destruct a; (discriminate || reflexivity). Qed.
Lemma fnan_add_l a b : fnan a = true -> fnan (fadd a b) = true. Proof. intros H. apply fnan_eq in H. subst a. destruct b; reflexivity. Qed.
Lemma fnan_add_r a b : fnan b = true -> fnan (fadd a b) = true. Proof. intros H. apply fnan_eq in H. subst b. destruct a as [ | | | ]; reflexivity. Qed.
Lemma fnan_mul_l a b : fnan a = true -> fnan (fmul a b) = true. Proof. intros H. apply fnan_eq in H. subst a. destruct b; reflexivity. Qed.
Lemma inf_mul b : fle fzero b = true -> fnan (fmul finf b) = true \/ fmul finf b = finf.
Proof. destruct b as [s|[|]| |[|] m e H]; intros L; try discriminate L; (now left) || (now right). Qed.

Lemma fin_range u a b x y : isf a x -> isf b y -> fgt u a = true -> fle u b = true -> is_finite u = true /\ x < B2R u <= y.
Proof.
  intros [Fa Ea] [Fb Eb] G L. unfold fgt, flt in G. unfold fle in L.
  assert (Fu : is_finite u = true).
  { destruct u as [s|[|]| |s m e H]; trivial; destruct a as [sa|[|]| |[|] ma ea Ha]; try discriminate Fa; try discriminate G;
    destruct b as [sb|[|]| |[|] mb eb Hb]; try discriminate Fb; discriminate L. }
  split; [exact Fu|]. rewrite Bltb_correct in G by assumption. rewrite Bleb_correct in L by assumption.
  split.
  - rewrite <- Ea. destruct (Rlt_bool_spec (B2R a) (B2R u)); [assumption|discriminate].
  - rewrite <- Eb. destruct (Rle_bool_spec (B2R u) (B2R b)); [assumption|discriminate].
Qed.

Lemma fle_of_R a b x y : isf a x -> isf b y -> x <= y -> fle a b = true.
Proof. intros [Fa Ea] [Fb Eb] L. unfold fle. rewrite Bleb_correct by assumption. subst. now apply Rle_bool_true. Qed.
Lemma flt_of_R a b x y : isf a x -> isf b y -> x < y -> flt a b = true.
Proof. intros [Fa Ea] [Fb Eb] L. unfold flt. rewrite Bltb_correct by assumption. subst. now apply Rlt_bool_true. Qed.
Lemma fneg_R a x : isf a x -> isf (fneg a) (- x).
Proof. intros [Fa Ea]. unfold fneg. split; [now rewrite is_finite_Bopp|]. rewrite B2R_Bopp. now rewrite Ea. Qed.
Lemma fabs_R a x : isf a x -> isf (fabs a) (Rabs x).
Proof. intros [Fa Ea]. unfold fabs. split; [now rewrite is_finite_Babs|]. rewrite B2R_Babs. now rewrite Ea. Qed.

Lemma fmake_R (m e : Z) : (Z.abs m < 2 ^ 53)%Z -> (-1074 <= e <= 0)%Z -> isf (fmake m e) (IZR m * bpow radix2 e).
Proof.
  intros Hm He. pose proof (binary_normalize_correct 53 1024 f64_prec f64_emax mode_NE m e false) as H. cbv zeta in H.
  change (binary_normalize 53 1024 f64_prec f64_emax mode_NE m e false) with (fmake m e) in H.
  assert (G : format64 (F2R (Float radix2 m e))).
  { apply generic_format_FLT. exists (Float radix2 m e); [reflexivity|exact Hm|exact (proj1 He)]. }
  pose proof (rnd_fmt _ G) as E. unfold rnd64 in E. change (round_mode mode_NE) with ZnearestE in H.
  assert (E' : round radix2 (SpecFloat.fexp 53 1024) ZnearestE (F2R (Float radix2 m e)) = F2R (Float radix2 m e)) by exact E.
  rewrite E' in H. rewrite Rlt_bool_true in H.
  - destruct H as (H1 & H2 & _). split; [exact H2|exact H1].
  - unfold F2R. cbn [Fnum Fexp]. rewrite Rabs_mult, (Rabs_pos_eq (bpow radix2 e)) by apply bpow_ge_0. rewrite <- abs_IZR.
    apply Rle_lt_trans with (IZR (Z.abs m) * 1).
    + apply Rmult_le_compat_l; [apply IZR_le; lia|]. change 1 with (bpow radix2 0). apply bpow_le. lia.
    + rewrite Rmult_1_r. apply Rlt_trans with (IZR (2 ^ 53)); [now apply IZR_lt|].
      change (IZR (2 ^ 53)) with (bpow radix2 53). apply bpow_lt. lia.
Qed.
Lemma fofZ_R z : (Z.abs z < 2 ^ 53)%Z -> isf (fofZ z) (IZR z).
Proof. intros H. destruct (fmake_R z 0 H) as [A B]; [lia|]. split; [exact A|]. unfold fofZ. rewrite B. cbn [bpow]. ring. Qed.
Lemma half_R : isf half (1 / 2).
Proof. destruct (fmake_R 1 (-1)) as [A B]; [lia|lia|]. split; [exact A|]. unfold half. rewrite B. cbn. lra. Qed.

Lemma fmt_107 : format64 (107 / 4).
Proof. destruct (fmake_R 107 (-2)) as [A B]; [lia|lia|]. replace (107 / 4) with (B2R (fmake 107 (-2))) by (rewrite B; cbn; lra). apply fmt. Qed.
Lemma fmt_710 : format64 710.
Proof. destruct (fofZ_R 710) as [A B]; [lia|]. rewrite <- B. apply fmt. Qed.
Lemma inv_sqrt2_R : exists c, isf INV_SQRT_2 c /\ 707 / 1000 <= c <= 708 / 1000.
Proof.
  exists (IZR 6369051672525772 * bpow radix2 (-53)). split; [apply fmake_R; lia|].
  change (bpow radix2 (-53)) with (/ IZR (2 ^ 53)). change (2 ^ 53)%Z with 9007199254740992%Z. split; lra.
Qed.

(** C110. In the documented range of the helper, exp(u^2/2) overflows below u = -38: the value is not a number. *)
Theorem C110_number_refuted (L : libm) (LS : libm_spec L) (u : f64) :
  fgt u (fofZ (-1000000)) = true -> fle u (fofZ (-38)) = true -> fnan (log_ei_helper_f L u) = true.
Proof.
  intros G H. destruct (fin_range u _ _ _ _ (fofZ_R (-1000000) ltac:(lia)) (fofZ_R (-38) ltac:(lia)) G H) as (Fu & U1 & U2).
  assert (Iu : isf u (B2R u)) by (split; auto). set (x := B2R u) in *.
  unfold log_ei_helper_f.
  assert (N1 : fgt u (fneg fone) = false).
  { unfold fgt, flt. destruct (fneg_R _ _ (fofZ_R 1 ltac:(lia))) as [A B]. unfold fone. change (fmake 1 0) with (fofZ 1).
    rewrite Bltb_correct by assumption. rewrite B. apply Rlt_bool_false. fold x. lra. }
  rewrite N1. cbv zeta.
  assert (N2 : fgt u (fneg INV_SQRT_EPSILON) = true).
  { apply (flt_of_R _ _ _ _ (fneg_R _ _ (fofZ_R 1000000 ltac:(lia))) Iu). lra. }
  rewrite N2. apply fnan_add_r.
  destruct inv_sqrt2_R as (c & Ic & C1 & C2).
  assert (P0 : 707 / 1000 * 38 <= - c * x).
  { replace (- c * x) with (c * (- x)) by ring. apply Rmult_le_compat; lra. }
  assert (P1 : - c * x <= 708 / 1000 * 1000000).
  { replace (- c * x) with (c * (- x)) by ring. apply Rmult_le_compat; lra. }
  pose proof (fmul_R _ _ _ _ (fneg_R _ _ Ic) Iu ltac:(apply small_le; rewrite Rabs_pos_eq; lra)) as Iz.
  set (z := fmul (fneg INV_SQRT_2) u) in *. set (zr := rnd64 (- c * x)) in *.
  assert (Z1 : 107 / 4 <= zr) by (apply rnd_ge; [exact fmt_107|lra]).
  assert (Z2 : zr <= 1000000).
  { apply rnd_le_fmt; [|lra]. destruct (fofZ_R 1000000) as [A B]; [lia|]. rewrite <- B. apply fmt. }
  assert (Q1 : 710 <= zr * zr) by nra.
  assert (Isq : isf (fmul z z) (rnd64 (zr * zr))).
  { apply fmul_R; trivial. unfold small. rewrite Rabs_pos_eq by lra. apply Rle_trans with (IZR (2 ^ 100)).
    - apply Rle_trans with (1000000 * 1000000); [nra|]. change (2 ^ 100)%Z with 1267650600228229401496703205376%Z. lra.
    - change (IZR (2 ^ 100)) with (bpow radix2 100). apply bpow_le. lia. }
  assert (Ov : l_exp L (fmul z z) = finf).
  { apply (exp_overflow _ LS). apply (fle_of_R _ _ _ _ (fofZ_R 710 ltac:(lia)) Isq). apply rnd_ge; [exact fmt_710|exact Q1]. }
  assert (Nz : fnan z = false) by (destruct Iz as [A _]; destruct z; trivial; discriminate A).
  unfold erfcx_f. rewrite Ov. pose proof (erfc_nonneg _ LS z Nz) as E.
  unfold log1mexp_f.
  assert (Hn : forall w, fnan w = true -> fnan (if fgt w (fneg (l_log L (fofZ 2))) then l_log L (fneg (l_expm1 L w)) else l_log1p L (fneg (l_exp L w))) = true).
  { intros w Nw. apply fnan_eq in Nw. subst w.
    assert (Q : fgt fNaN (fneg (l_log L (fofZ 2))) = false) by (unfold fgt, flt; destruct (fneg (l_log L (fofZ 2))); reflexivity).
    rewrite Q. pose proof (exp_of_nan _ LS) as Q'. apply fnan_eq in Q'. rewrite Q'. exact (log1p_of_nan _ LS). }
  destruct (inf_mul _ E) as [Q|Q].
  - apply Hn. apply fnan_add_l. assert (Q' := fnan_mul_l _ (fabs u) Q). apply fnan_eq in Q'. rewrite Q'. exact (log_of_nan _ LS).
  - rewrite Q. destruct (inf_mul (fabs u)) as [Q2|Q2].
    + apply (fle_of_R _ _ _ _ (fofZ_R 0 ltac:(lia)) (fabs_R _ _ Iu)). apply Rabs_pos.
    + apply Hn. apply fnan_add_l. apply fnan_eq in Q2. rewrite Q2. exact (log_of_nan _ LS).
    + rewrite Q2, (log_of_inf _ LS).
      assert (Q3 : fadd finf LOG_PI_OVER_2_ALL_OVER_2 = finf) by reflexivity. rewrite Q3.
      assert (Q4 : fgt finf (fneg (l_log L (fofZ 2))) = true).
      { pose proof (log_of_2 _ LS) as F. destruct (l_log L (fofZ 2)) as [ | | |s m e B]; try discriminate F; reflexivity. }
      rewrite Q4, (expm1_of_inf _ LS). exact (log_of_neg_inf _ LS).
Qed.

(** At -1000000 and below, where the asymptotic expansion is used, it is a number. *)
Theorem C110_far_partial (L : libm) (LS : libm_spec L) (u : f64) :
  fnan u = false -> fle u (fofZ (-1000000)) = true -> fnan (log_ei_helper_f L u) = false.
Proof.
  intros Nu H. unfold log_ei_helper_f.
  assert (N1 : fgt u (fneg fone) = false /\ fgt u (fneg INV_SQRT_EPSILON) = false /\ fle fone (fabs u) = true /\
               exists s v, v = fmul (fmul (fneg half) u) u /\ (v = fninf \/ isf v s)).
  { destruct (is_finite u) eqn:Fu.
    - assert (Iu : isf u (B2R u)) by (split; auto). set (x := B2R u) in *.
      assert (X : x <= -1000000).
      { destruct (fofZ_R (-1000000)) as [A B]; [lia|]. unfold fle in H. rewrite Bleb_correct in H by assumption. rewrite B in H.
        fold x in H. destruct (Rle_bool_spec x (-1000000)); [assumption|discriminate]. }
      repeat split.
      + unfold fgt, flt. destruct (fneg_R _ _ (fofZ_R 1 ltac:(lia))) as [A B]. unfold fone. change (fmake 1 0) with (fofZ 1).
        rewrite Bltb_correct by assumption. rewrite B. apply Rlt_bool_false. fold x. lra.
      + unfold fgt, flt. destruct (fneg_R _ _ (fofZ_R 1000000 ltac:(lia))) as [A B]. unfold INV_SQRT_EPSILON.
        rewrite Bltb_correct by assumption. rewrite B. apply Rlt_bool_false. fold x. lra.
      + apply (fle_of_R _ _ _ _ (fofZ_R 1 ltac:(lia)) (fabs_R _ _ Iu)). rewrite Rabs_left; lra.
      + assert (Sg : Bsign u = true).
        { clear - X Fu. unfold x in X. clear x.
          destruct u as [s|s| |[|] m e B]; try discriminate Fu; [exfalso|reflexivity|exfalso].
          - cbn [B2R] in X. lra.
          - cbn [B2R] in X. assert (0 < F2R (Float radix2 (cond_Zopp false (Z.pos m)) e)) by (apply F2R_gt_0; cbn; lia). lra. }
        (* first product: half the magnitude *)
        assert (S1 : small (- (1 / 2) * x)).
        { unfold small. rewrite Rabs_mult, Rabs_Ropp, (Rabs_pos_eq (1 / 2)) by lra.
          pose proof (abs_B2R_lt_emax _ _ u) as M. fold x in M.
          assert (E : bpow radix2 1024 = 2 * bpow radix2 1023) by (change 1024%Z with (1 + 1023)%Z; rewrite bpow_plus; reflexivity).
          lra. }
        pose proof (fmul_R _ _ _ _ (fneg_R _ _ half_R) Iu S1) as Ip. set (p := fmul (fneg half) u) in *.
        assert (P : 0 < rnd64 (- (1 / 2) * x)).
        { apply Rlt_le_trans with 1; [lra|]. apply rnd_ge; [exact fmt_1|lra]. }
        destruct Ip as [Fp Ep].
        pose proof (Bmult_correct 53 1024 f64_prec f64_emax mode_NE p u) as C. change (Bmult mode_NE p u) with (fmul p u) in C.
        destruct (Rlt_bool _ _).
        * destruct C as (C1 & C2 & _). exists (B2R (fmul p u)), (fmul p u). split; [reflexivity|]. right. split; [|reflexivity].
          rewrite C2, Fp, Fu. reflexivity.
        * exists 0, (fmul p u). split; [reflexivity|]. left.
          assert (Sp : Bsign p = false).
          { clear - P Fp Ep. destruct p as [s|s| |[|] m e B]; try discriminate Fp; [exfalso|exfalso|reflexivity].
            - cbn [B2R] in Ep. lra.
            - cbn [B2R] in Ep. assert (F2R (Float radix2 (cond_Zopp true (Z.pos m)) e) < 0) by (apply F2R_lt_0; cbn; lia). lra. }
          rewrite Sp, Sg in C. apply B2SF_inj. rewrite C. reflexivity.
    - destruct u as [s|[|]| |s m e B]; try discriminate Fu; try discriminate Nu; try discriminate H.
      repeat split; try reflexivity. exists 0, fninf. split; [reflexivity|now left]. }
  destruct N1 as (N1 & N2 & N3 & s & v & Ev & Hv). rewrite N1, N2. cbv zeta. rewrite <- Ev.
  pose proof (log_nonneg _ LS _ N3) as Lg. set (l := l_log L (fabs u)) in *.
  assert (T : fmul (fneg (fofZ 2)) l = fninf \/ is_finite (fmul (fneg (fofZ 2)) l) = true).
  { destruct l as [sl|[|]| |[|] m e B]; try discriminate Lg; [right; reflexivity|left; reflexivity|].
    pose proof (Bmult_correct 53 1024 f64_prec f64_emax mode_NE (fneg (fofZ 2)) (B754_finite false m e B)) as C.
    change (Bmult mode_NE (fneg (fofZ 2)) (B754_finite false m e B)) with (fmul (fneg (fofZ 2)) (B754_finite false m e B)) in C.
    destruct (Rlt_bool _ _).
    - right. destruct C as (_ & C & _). rewrite C. reflexivity.
    - left. apply B2SF_inj. rewrite C. reflexivity. }
  set (t := fmul (fneg (fofZ 2)) l) in *.
  assert (W : fsub v LOG_2PI_OVER_2 = fninf \/ is_finite (fsub v LOG_2PI_OVER_2) = true).
  { destruct Hv as [->|[Fv _]]; [left; reflexivity|].
    pose proof (Bminus_correct 53 1024 f64_prec f64_emax mode_NE v LOG_2PI_OVER_2 Fv eq_refl) as C.
    change (Bminus mode_NE v LOG_2PI_OVER_2) with (fsub v LOG_2PI_OVER_2) in C.
    destruct (Rlt_bool _ _); [right; now destruct C as (_ & C & _)|]. left. destruct C as (C1 & C2). apply B2SF_inj. rewrite C1, C2. reflexivity. }
  set (w := fsub v LOG_2PI_OVER_2) in *.
  destruct W as [->|Fw], T as [->|Ft].
  - reflexivity.
  - destruct t; try discriminate Ft; reflexivity.
  - destruct w; try discriminate Fw; reflexivity.
  - pose proof (Bplus_correct 53 1024 f64_prec f64_emax mode_NE w t Fw Ft) as C. change (Bplus mode_NE w t) with (fadd w t) in C.
    destruct (Rlt_bool _ _).
    + destruct C as (_ & C & _). destruct (fadd w t); trivial; discriminate C.
    + destruct C as (C & _). destruct (fadd w t); trivial; discriminate C.
Qed.

(** A mathematical library meeting the special cases exists; u = -40 and u = -2000000 are in the two ranges. *)
Definition coarse : libm := {|
  l_exp := fun x => if fnan x then fNaN else if fle (fofZ 710) x then finf else fone;
  l_log := fun x => if fnan x then fNaN else if flt x fzero then fNaN else if feq x finf then finf else fone;
  l_erfc := fun _ => fone; l_expm1 := fun x => x; l_log1p := fun x => x |}.
Lemma coarse_spec : libm_spec coarse.
Proof.
  constructor; try reflexivity; cbn [coarse l_exp l_log l_erfc l_expm1 l_log1p].
  - intros x H. assert (N : fnan x = false) by (destruct x; trivial; discriminate H). now rewrite N, H.
  - intros x H. assert (N : fnan x = false) by (destruct x; trivial; discriminate H). rewrite N.
    assert (P : flt x fzero = false) by (destruct x as [s|[|]| |[|] m e B]; try discriminate H; reflexivity). rewrite P.
    destruct (feq x finf); reflexivity.
Qed.
Example C110_example : fnan (log_ei_helper_f coarse (fofZ (-40))) = true /\ fnan (log_ei_helper_f coarse (fofZ (-2000000))) = false.
Proof.
  split.
  - apply C110_number_refuted; [exact coarse_spec|vm_compute; reflexivity|vm_compute; reflexivity].
  - apply C110_far_partial; [exact coarse_spec|vm_compute; reflexivity|vm_compute; reflexivity].
Qed.

Print Assumptions C110_number_refuted.
Print Assumptions C110_far_partial.
