(** Designs in double precision: cut points, sections, bounds. *)
From Coq Require Import Reals Lra ZArith List Bool Arith Lia Permutation.
From Flocq Require Import Core.Core IEEE754.BinarySingleNaN Sterbenz.
From Verif Require Import F64 F64_Extra F64_Round Util Mixint_Proofs Doe_Model Doe_Spec Doe_Generic Doe_Real.
Import ListNotations.
Local Open Scope R_scope.
Local Arguments bpow : simpl never.

Section F.
  Context (pw : f64 -> f64 -> f64) (sq : f64 -> f64).
  Local Notation FA := (f64_arith pw sq).

  Lemma ofN_F n : (Z.of_nat n <= 2 ^ 53)%Z -> isf (ofN FA n) (INR n).
  Proof. intros H. unfold ofN. cbn [ofZ f64_arith]. rewrite INR_IZR_INZ. apply fofZ_correct. lia. Qed.
  Lemma zero_F : isf (fofZ 0) 0. Proof. apply (fofZ_correct 0). lia. Qed.
  Lemma one_F : isf (fofZ 1) 1. Proof. apply (fofZ_correct 1). lia. Qed.
  Lemma two_F : isf (fofZ 2) 2. Proof. apply (fofZ_correct 2). lia. Qed.

  Section Cut.
    Context (n : nat) (N1 : (1 <= n)%nat) (N2 : (Z.of_nat n <= 2 ^ 53)%Z).
    Let h : R := rnd64 (1 / INR n).
    Definition cutv (i : nat) : R := rnd64 (h * INR i).

    Lemma n_pos : 1 <= INR n.
    Proof. change 1 with (INR 1). now apply le_INR. Qed.
    Lemma n_le : INR n <= bpow radix2 53.
    Proof. rewrite INR_IZR_INZ. change (bpow radix2 53) with (IZR (2 ^ 53)). now apply IZR_le. Qed.
    Lemma inv_n : bpow radix2 (-53) <= 1 / INR n <= 1.
    Proof.
      pose proof n_pos. pose proof n_le. split.
      - change (-53)%Z with (Z.opp 53). rewrite bpow_opp. unfold Rdiv. rewrite Rmult_1_l. apply Rinv_le; lra.
      - apply Rmult_le_reg_r with (INR n); [lra|]. unfold Rdiv. rewrite Rmult_assoc, Rinv_l by lra. lra.
    Qed.
    Lemma h_err : 1 / INR n * (1 - dlt) <= h <= 1 / INR n * (1 + dlt).
    Proof.
      apply rel_err_pos. apply Rle_trans with (2 := proj1 inv_n). apply bpow_le. lia.
    Qed.
    Lemma h_low : bpow radix2 (-54) <= h.
    Proof.
      pose proof inv_n as (I & _). pose proof h_err as (H & _). pose proof dlt_bounds. pose proof uro_small.
      apply Rle_trans with (2 := H).
      apply Rle_trans with (bpow radix2 (-53) * (1 - dlt)).
      - replace (bpow radix2 (-53)) with (bpow radix2 (-54) * 2).
        + assert (0 < bpow radix2 (-54)) by apply bpow_gt_0. nra.
        + change (-53)%Z with (-54 + 1)%Z. rewrite bpow_plus. reflexivity.
      - apply Rmult_le_compat_r; lra.
    Qed.
    Lemma h_up : h <= 1.
    Proof. apply rnd_le_fmt; [apply fmt_1|apply inv_n]. Qed.
    Lemma h_fmt : format64 h. Proof. apply fmt_rnd. Qed.

    Lemma step_F : isf (fdiv (fsub (fofZ 1) (fofZ 0)) (ofN FA n)) h.
    Proof.
      pose proof (fsub_R _ _ _ _ one_F zero_F) as S. replace (1 - 0) with 1 in S by lra. rewrite (rnd_fmt 1 fmt_1) in S.
      apply fdiv_R; [apply S, small_le; rewrite Rabs_pos_eq; lra|now apply ofN_F|pose proof n_pos; lra|].
      apply small_le. pose proof inv_n. pose proof (bpow_gt_0 radix2 (-53)). rewrite Rabs_pos_eq; lra.
    Qed.

    Lemma hi_le i : (i <= n)%nat -> h * INR i <= INR i / INR n * (1 + dlt) <= 1 + dlt.
    Proof.
      intros I. pose proof n_pos. pose proof h_err as (_ & H1). pose proof dlt_bounds.
      assert (0 <= INR i) by apply pos_INR. assert (INR i <= INR n) by now apply le_INR.
      assert (E : INR i / INR n <= 1).
      { apply Rmult_le_reg_r with (INR n); [lra|]. unfold Rdiv. rewrite Rmult_assoc, Rinv_l by lra. lra. }
      split; [|rewrite <- (Rmult_1_l (1 + dlt)) at 2; apply Rmult_le_compat_r; lra].
      replace (INR i / INR n * (1 + dlt)) with (1 / INR n * (1 + dlt) * INR i) by (field; lra).
      now apply Rmult_le_compat_r.
    Qed.
    Lemma hi_ge i : INR i / INR n * (1 - dlt) <= h * INR i.
    Proof.
      pose proof n_pos. pose proof h_err as (H1 & _). assert (0 <= INR i) by apply pos_INR.
      replace (INR i / INR n * (1 - dlt)) with (1 / INR n * (1 - dlt) * INR i) by (field; lra).
      now apply Rmult_le_compat_r.
    Qed.
    Lemma hi_big i : (1 <= i)%nat -> bpow radix2 (-1022) <= h * INR i.
    Proof.
      intros I. apply le_INR in I. change (INR 1) with 1 in I. pose proof h_low.
      apply Rle_trans with (bpow radix2 (-54)); [apply bpow_le; lia|].
      pose proof (bpow_gt_0 radix2 (-54)). nra.
    Qed.

    Lemma cut_0 : cutv 0 = 0.
    Proof. unfold cutv. simpl INR. rewrite Rmult_0_r. apply rnd_fmt, fmt_0. Qed.
    Lemma cut_mono i j : (i <= j)%nat -> cutv i <= cutv j.
    Proof.
      intros I. apply rnd_le. apply le_INR in I. pose proof h_low. pose proof (bpow_gt_0 radix2 (-54)).
      apply Rmult_le_compat_l; lra.
    Qed.
    Lemma cut_nonneg i : 0 <= cutv i.
    Proof. rewrite <- cut_0. apply cut_mono. lia. Qed.
    Lemma cut_le_1 i : (i <= n)%nat -> cutv i <= 1.
    Proof.
      intros I. unfold cutv. apply (round_N_le_midp radix2 fexp64); [apply fmt_1|].
      rewrite succ_eq_pos by lra.
      assert (U : ulp radix2 fexp64 1 = 2 * uro).
      { rewrite uro_2. change 1 with (bpow radix2 0). rewrite ulp_bpow. f_equal. }
      rewrite U. pose proof (hi_le i I) as (A & B). pose proof dlt_bounds. lra.
    Qed.
    Lemma cut_err i : (i <= n)%nat -> Rabs (cutv i - INR i / INR n) <= bpow radix2 (-52).
    Proof.
      intros I. destruct i as [|i].
      - rewrite cut_0. unfold Rdiv. simpl INR. rewrite Rmult_0_l, Rminus_0_r, Rabs_R0. apply bpow_ge_0.
      - pose proof (rel_err_pos _ (hi_big (S i) ltac:(lia))) as (A & B). fold (cutv (S i)) in A, B.
        pose proof (hi_le _ I) as (C & _). pose proof (hi_ge (S i)) as D. pose proof n_pos. pose proof dlt_bounds. pose proof uro_small.
        pose proof dlt_eq. set (t := INR (S i) / INR n) in *.
        assert (0 <= t <= 1).
        { assert (0 <= INR (S i)) by apply pos_INR. apply le_INR in I. unfold t. split.
          - apply Rmult_le_pos; [lra|]. apply Rlt_le, Rinv_0_lt_compat. lra.
          - apply Rmult_le_reg_r with (INR n); [lra|]. unfold Rdiv. rewrite Rmult_assoc, Rinv_l by lra. lra. }
        assert (U : t * (1 + dlt) * (1 + dlt) <= t + 2 * uro).
        { assert (X : 2 * dlt + dlt * dlt <= 2 * uro) by nra.
          assert (Y : t * (2 * dlt + dlt * dlt) <= 1 * (2 * dlt + dlt * dlt)) by (apply Rmult_le_compat_r; nra). lra. }
        assert (V : t - 2 * uro <= t * (1 - dlt) * (1 - dlt)).
        { assert (Y : t * (2 * dlt - dlt * dlt) <= 1 * (2 * dlt - dlt * dlt)) by (apply Rmult_le_compat_r; nra). nra. }
        rewrite <- uro_2. apply Rabs_le. split.
        + assert (t * (1 - dlt) * (1 - dlt) <= h * INR (S i) * (1 - dlt)) by (apply Rmult_le_compat_r; lra). lra.
        + assert (h * INR (S i) * (1 + dlt) <= t * (1 + dlt) * (1 + dlt)) by (apply Rmult_le_compat_r; lra). lra.
    Qed.

    (** The width of a section is computed exactly. *)
    Lemma cut_width_fmt i : (i < n)%nat -> format64 (cutv (S i) - cutv i).
    Proof.
      intros I. destruct i as [|[|i]].
      - rewrite cut_0, Rminus_0_r. apply fmt_rnd.
      - assert (E1 : cutv 1 = h) by (unfold cutv; simpl INR; rewrite Rmult_1_r; apply rnd_fmt, h_fmt).
        assert (E2 : cutv 2 = 2 * h).
        { unfold cutv. replace (h * INR 2) with (2 * h) by (simpl; lra). apply rnd_fmt, fmt_2, h_fmt. }
        rewrite E1, E2. replace (2 * h - h) with h by lra. apply h_fmt.
      - apply sterbenz; auto with typeclass_instances; try apply fmt_rnd.
        assert (M : cutv (S (S i)) <= cutv (S (S (S i)))) by (apply cut_mono; lia).
        pose proof (cut_nonneg (S (S i))).
        split; [lra|]. apply rnd_le_fmt; [apply fmt_2, fmt_rnd|].
        pose proof (rel_err_pos _ (hi_big (S (S i)) ltac:(lia))) as (A & _). fold (cutv (S (S i))) in A.
        pose proof dlt_bounds. pose proof uro_small. pose proof h_low. pose proof (bpow_gt_0 radix2 (-54)).
        rewrite (S_INR (S (S i))). set (k := INR (S (S i))) in *.
        assert (K : 2 <= k) by (unfold k; change 2 with (INR 2); apply le_INR; lia).
        assert (h * k * (3 / 4) <= cutv (S (S i))) by (apply Rle_trans with (2 := A); apply Rmult_le_compat_l; [apply Rmult_le_pos; lra|lra]).
        assert (h <= h * k / 2) by nra. lra.
    Qed.

    Lemma linspace_F i : (i <= n)%nat -> exists a, nth_error (linspace FA (n + 1)) i = Some a /\ isf a (cutv i).
    Proof.
      intros I. eexists. split; [apply linspace_nth; lia|].
      rewrite (proj2 (Nat.leb_gt (n + 1) 1)) by lia. replace (n + 1 - 1)%nat with n by lia.
      cbn [add mul div sub ofZ f64_arith].
      assert (M : isf (fmul (fdiv (fsub (fofZ 1) (fofZ 0)) (ofN FA n)) (ofN FA i)) (cutv i)).
      { apply fmul_R; [apply step_F|apply ofN_F; lia|]. apply small_le.
        pose proof (hi_le i I). pose proof h_low. pose proof (bpow_gt_0 radix2 (-54)). pose proof dlt_bounds. pose proof uro_small.
        rewrite Rabs_pos_eq; [lra|]. apply Rmult_le_pos; [lra|apply pos_INR]. }
      pose proof (fadd_R _ _ _ _ zero_F M) as A. rewrite Rplus_0_l in A. rewrite (rnd_fmt (cutv i)) in A by apply fmt_rnd.
      apply A. apply small_le. pose proof (cut_nonneg i). pose proof (cut_le_1 i I). rewrite Rabs_pos_eq; lra.
    Qed.
    Lemma cut_pair_F i a b : (i < n)%nat -> cut_pair FA n i a b -> isf a (cutv i) /\ isf b (cutv (S i)).
    Proof.
      intros I (Ha & Hb). destruct (linspace_F i ltac:(lia)) as (a' & Ea & Ia). destruct (linspace_F (S i) ltac:(lia)) as (b' & Eb & Ib).
      rewrite Ea in Ha. rewrite Eb in Hb. apply some_inj in Ha, Hb. subst. now split.
    Qed.

    Definition between_cuts (i : nat) (v : f64) : Prop := is_finite v = true /\ cutv i <= B2R v <= cutv (S i).
    Lemma between_near i v : (i < n)%nat -> between_cuts i v -> near_section n i v.
    Proof.
      intros I (F & A & B). split; [exact F|].
      pose proof (cut_err i ltac:(lia)) as E. pose proof (cut_err (S i) ltac:(lia)) as E'.
      apply Rabs_le_inv in E, E'. lra.
    Qed.
    Lemma between_unit i v : (i < n)%nat -> between_cuts i v -> is_finite v = true /\ 0 <= B2R v <= 1.
    Proof.
      intros I (F & A & B). split; [exact F|]. pose proof (cut_nonneg i). pose proof (cut_le_1 (S i) ltac:(lia)). lra.
    Qed.

    Lemma classic_entry i u a b : (i < n)%nat -> is_finite u = true -> 0 <= B2R u < 1 -> isf a (cutv i) -> isf b (cutv (S i)) ->
      between_cuts i (fadd (fmul u (fsub b a)) a).
    Proof.
      intros I Fu (U0 & U1) Ha Hb.
      pose proof (cut_mono i (S i) ltac:(lia)) as M. pose proof (cut_nonneg i). pose proof (cut_le_1 (S i) ltac:(lia)).
      set (w := cutv (S i) - cutv i). assert (W : 0 <= w <= 1) by (unfold w; lra).
      assert (D : isf (fsub b a) w).
      { unfold w. rewrite <- (rnd_fmt _ (cut_width_fmt i I)). apply fsub_R; try assumption. apply small_le. fold w. rewrite Rabs_pos_eq; lra. }
      assert (P : 0 <= B2R u * w <= w) by nra.
      assert (E : isf (fmul u (fsub b a)) (rnd64 (B2R u * w))).
      { apply fmul_R; [now split|exact D|]. apply small_le. rewrite Rabs_pos_eq; lra. }
      set (p := rnd64 (B2R u * w)) in *.
      assert (Q : 0 <= p <= w).
      { split; [apply rnd_ge; [apply fmt_0|lra]|apply rnd_le_fmt; [apply (cut_width_fmt i I)|lra]]. }
      assert (S : isf (fadd (fmul u (fsub b a)) a) (rnd64 (p + cutv i))).
      { apply fadd_R; try assumption. apply small_le. unfold w in Q. rewrite Rabs_pos_eq; lra. }
      destruct S as (F & S). split; [exact F|]. rewrite S. unfold w in Q. split.
      - apply rnd_ge; [apply fmt_rnd|lra].
      - apply rnd_le_fmt; [apply fmt_rnd|lra].
    Qed.
    Lemma centered_entry i a b : (i < n)%nat -> isf a (cutv i) -> isf b (cutv (S i)) -> between_cuts i (fdiv (fadd a b) (fofZ 2)).
    Proof.
      intros I Ha Hb.
      pose proof (cut_mono i (S i) ltac:(lia)) as M. pose proof (cut_nonneg i). pose proof (cut_le_1 (S i) ltac:(lia)).
      assert (A : isf (fadd a b) (rnd64 (cutv i + cutv (S i)))).
      { apply fadd_R; try assumption. apply small_le. rewrite Rabs_pos_eq; lra. }
      set (s := rnd64 (cutv i + cutv (S i))) in *.
      assert (S : 2 * cutv i <= s <= 2 * cutv (S i)).
      { split; [apply rnd_ge|apply rnd_le_fmt]; try lra; apply fmt_2, fmt_rnd. }
      assert (D : isf (fdiv (fadd a b) (fofZ 2)) (rnd64 (s / 2))).
      { apply fdiv_R; [exact A|exact two_F|lra|]. apply small_le. rewrite Rabs_pos_eq; lra. }
      destruct D as (F & D). split; [exact F|]. rewrite D. split.
      - apply rnd_ge; [apply fmt_rnd|lra].
      - apply rnd_le_fmt; [apply fmt_rnd|lra].
    Qed.

    Lemma classic_F nx rnd sw : (forall j, (j < nx)%nat -> unit_draws64 n (rnd j)) ->
      columns_from n nx between_cuts (classic_lhs FA n nx rnd sw).
    Proof.
      intros D. apply classic_columns.
      - intros j J. apply (D j J).
      - intros j i u a b J I U C. destruct (cut_pair_F i a b I C) as (Ha & Hb).
        destruct (D j J) as (_ & F). rewrite Forall_forall in F. destruct (F u (nth_error_In _ _ U)) as (Fu & U01).
        now apply classic_entry.
    Qed.
    Lemma centered_F nx sw : columns_from n nx between_cuts (centered_lhs FA n nx sw).
    Proof.
      apply centered_columns_from. intros i a b I C. destruct (cut_pair_F i a b I C) as (Ha & Hb). now apply centered_entry.
    Qed.

    Lemma columns_latin64 nx x : columns_from n nx between_cuts x -> latin64 n nx x.
    Proof.
      intros (Sh & H). split; [exact Sh|]. intros j J. destruct (H j J) as (c & L & P & HQ).
      apply Permutation_nth_error in P. destruct P as (Lp & f & Inj & E).
      assert (Cc : forall i, (i < n)%nat -> exists v, nth_error c i = Some v /\ at_ x (f i) j = Some v).
      { intros i I. destruct (nth_error c i) as [v|] eqn:E'; [|apply nth_error_None in E'; lia].
        exists v. split; [reflexivity|]. apply at_col. rewrite <- E, nth_error_map, E'. reflexivity. }
      exists f. split; [|split].
      - intros i I. destruct (Cc i I) as (v & _ & A). apply at_col in A.
        assert (B : (f i < length (col j x))%nat) by (apply nth_error_Some; congruence).
        rewrite col_length in B. destruct Sh as (Lx & _). lia.
      - intros i i' I I' Ef. now apply Inj.
      - intros i I. destruct (Cc i I) as (v & Hv & A). exists v. split; [exact A|]. apply between_near; [exact I|]. now apply HQ.
    Qed.
    Lemma columns_unit nx x : columns_from n nx between_cuts x ->
      forall i j v, at_ x i j = Some v -> is_finite v = true /\ 0 <= B2R v <= 1.
    Proof.
      intros C i j v H. destruct (columns_from_entries _ _ _ _ C i j v H) as (k & K & B). now apply (between_unit k).
    Qed.
  End Cut.

  (** ** Full factorial levels *)
  Lemma level_unit n i : (i < n)%nat -> (Z.of_nat n <= 2 ^ 53)%Z ->
    is_finite (level_value FA n i) = true /\ 0 <= B2R (level_value FA n i) <= 1.
  Proof.
    intros I N. unfold level_value. destruct (1 <? n)%nat eqn:E.
    - apply Nat.ltb_lt in E. assert (D : 0 <= INR i / INR (n - 1) <= 1).
      { assert (0 < INR (n - 1)) by (apply lt_0_INR; lia). pose proof (pos_INR i). assert (INR i <= INR (n - 1)) by (apply le_INR; lia). split.
        - apply Rmult_le_pos; [lra|]. apply Rlt_le, Rinv_0_lt_compat. lra.
        - apply Rmult_le_reg_r with (INR (n - 1)); [lra|]. unfold Rdiv. rewrite Rmult_assoc, Rinv_l by lra. lra. }
      destruct (fdiv_R (ofN FA i) (ofN FA (n - 1)) (INR i) (INR (n - 1))) as (F & B).
      + apply ofN_F. lia.
      + apply ofN_F. lia.
      + apply not_0_INR. lia.
      + apply small_le. rewrite Rabs_pos_eq; lra.
      + cbn [div f64_arith]. rewrite F, B. split; [reflexivity|]. split; [apply rnd_ge|apply rnd_le_fmt]; try lra; [apply fmt_0|apply fmt_1].
    - apply Nat.ltb_ge in E. assert (i = 0)%nat by lia. subst i. destruct zero_F as (F & B).
      change (ofN FA 0) with (fofZ 0). rewrite F, B. split; [reflexivity|lra].
  Qed.

  (** ** Scaling *)
  Lemma scale_value lo up u : is_finite lo = true -> is_finite up = true -> is_finite u = true ->
    B2R lo <= B2R up -> Rabs (B2R lo) <= bpow radix2 1021 -> Rabs (B2R up) <= bpow radix2 1021 -> 0 <= B2R u <= 1 ->
    let r := fadd (fmul u (fsub up lo)) lo in
    is_finite r = true /\ B2R lo <= B2R r /\
    B2R r <= B2R up + bpow radix2 (-51) * Rmax (Rabs (B2R lo)) (Rabs (B2R up)) /\
    (format64 (B2R up - B2R lo) -> B2R r <= B2R up).
  Proof.
    intros Fl Fp Fu L Al Ap (U0 & U1) r.
    set (a := B2R lo) in *. set (b := B2R up) in *. set (x := B2R u) in *.
    assert (K : bpow radix2 1023 = 4 * bpow radix2 1021).
    { change 1023%Z with (2 + 1021)%Z. rewrite bpow_plus. reflexivity. }
    set (big := bpow radix2 1021) in *. assert (Bp : 0 < big) by apply bpow_gt_0.
    apply Rabs_le_inv in Al, Ap.
    assert (Fa : format64 a) by apply fmt. assert (Fb : format64 b) by apply fmt.
    assert (S : isf (fsub up lo) (rnd64 (b - a))).
    { apply fsub_R; try now split. unfold small. rewrite K. apply Rabs_le. lra. }
    set (s := rnd64 (b - a)) in *.
    pose proof dlt_bounds as D. pose proof uro_small as Us.
    pose proof (sub_err b a Fb Fa) as E. fold s in E. rewrite (Rabs_pos_eq (b - a)) in E by lra. apply Rabs_le_inv in E.
    assert (S0 : 0 <= s) by (apply rnd_ge; [apply fmt_0|lra]).
    assert (S2 : s <= (5/2) * big) by nra.
    assert (P : 0 <= x * s <= s) by nra.
    assert (Mm : isf (fmul u (fsub up lo)) (rnd64 (x * s))).
    { apply fmul_R; [now split|exact S|]. unfold small. rewrite K. apply Rabs_le. lra. }
    set (p := rnd64 (x * s)) in *.
    assert (Q : 0 <= p <= s).
    { split; [apply rnd_ge; [apply fmt_0|lra]|apply rnd_le_fmt; [apply fmt_rnd|lra]]. }
    assert (Rr : isf r (rnd64 (p + a))).
    { apply fadd_R; [exact Mm|now split|]. unfold small. rewrite K. apply Rabs_le. lra. }
    destruct Rr as (Fr & Rr). rewrite Rr. split; [exact Fr|]. split; [apply rnd_ge; [exact Fa|lra]|]. split.
    - apply Rle_trans with (rnd64 (s + a)); [apply rnd_le; lra|].
      pose proof (add_err s a (fmt_rnd _) Fa) as E2. apply Rabs_le_inv in E2. destruct E2 as (_ & E2).
      set (m := Rmax (Rabs a) (Rabs b)).
      assert (Ma : Rabs a <= m) by apply Rmax_l. assert (Mb : Rabs b <= m) by apply Rmax_r.
      assert (M0 : 0 <= m) by (apply Rle_trans with (2 := Ma); apply Rabs_pos).
      apply Rabs_le_inv in Ma, Mb.
      assert (H1 : s + a <= b + dlt * (b - a)) by lra.
      assert (H2 : dlt * (b - a) <= dlt * (2 * m)) by (apply Rmult_le_compat_l; lra).
      assert (H3 : dlt * (2 * m) <= m) by nra.
      assert (H4 : Rabs (s + a) <= 2 * m) by (apply Rabs_le; lra).
      assert (H5 : dlt * Rabs (s + a) <= dlt * (2 * m)) by (apply Rmult_le_compat_l; lra).
      replace (bpow radix2 (-51)) with (4 * uro); [nra|].
      unfold uro. change (-51)%Z with (2 + -53)%Z. rewrite bpow_plus. reflexivity.
    - intros X. apply rnd_le_fmt; [exact Fb|]. unfold s in Q. rewrite (rnd_fmt _ X) in Q. lra.
  Qed.
End F.
