(** C158: Latin hypercube sampling in single precision returns a design for all draws. *)
From Coq Require Import Reals Lra Lia ZArith List Bool Permutation.
From Flocq Require Import Core BinarySingleNaN.
From Verif Require Import Util F64 Moe_Model Doe_Model Doe_Spec Doe_Generic Doe_F64 DoeSingle_Model DoeSingle_Proofs.
Import ListNotations.
Local Open Scope nat_scope.

(** n points of nx coordinates, all of them numbers between 0 and 1. *)
Definition unit_design (n nx : nat) (x : list (list f32)) : Prop :=
  shape n nx x /\ Forall (Forall (fun v => is_finite v = true /\ (0 <= B2R v <= 1)%R)) x.

Lemma at_intro {A} (x : list (list A)) i j r v : nth_error x i = Some r -> nth_error r j = Some v -> at_ x i j = Some v.
Proof. intros H1 H2. unfold at_. now rewrite H1. Qed.
Lemma cast_design n nx x : shape n nx x -> (forall i j v, at_ x i j = Some v -> is_finite v = true /\ (0 <= B2R v <= 1)%R) ->
  unit_design n nx (map (map cast32) x).
Proof.
  intros (L & F) U. split; [split|].
  - now rewrite map_length.
  - apply Forall_forall. intros r I. apply in_map_iff in I. destruct I as (r' & <- & I). rewrite map_length. rewrite Forall_forall in F. now apply F.
  - apply Forall_forall. intros r I. apply in_map_iff in I. destruct I as (r' & <- & I). apply Forall_forall. intros v Iv.
    apply in_map_iff in Iv. destruct Iv as (u & <- & Iu). apply In_nth_error in I. destruct I as (i & Hi). apply In_nth_error in Iu. destruct Iu as (j & Hj).
    assert (A : at_ x i j = Some u) by (eapply at_intro; [exact Hi|exact Hj]). destruct (U i j u A) as (Fu & Ru). now apply cast_unit.
Qed.

(** The classic and the centered designs. *)
Theorem C158_classic_partial : forall n nx rnd sw, 1 <= n -> (Z.of_nat n <= 2 ^ 53)%Z -> (forall j, j < nx -> unit_draws64 n (rnd j)) ->
  unit_design n nx (classic32 n nx rnd sw) /\ unit_design n nx (centered32 n nx sw).
Proof.
  intros n nx rnd sw N1 N2 D.
  pose proof (classic_F no_pow (Bsqrt mode_NE) n N1 N2 nx rnd sw D) as C1. pose proof (centered_F no_pow (Bsqrt mode_NE) n N1 N2 nx sw) as C2. split.
  - apply cast_design; [apply C1|]. exact (columns_unit n N1 N2 nx _ C1).
  - apply cast_design; [apply C2|]. exact (columns_unit n N1 N2 nx _ C2).
Qed.

(** The maximin designs of two points or more: whatever the draws, in single and in double precision. *)
Theorem C158_maximin_partial : forall pw n nx centered rnd sw, 2 <= n -> (Z.of_nat n <= 2 ^ 53)%Z -> (forall t j, j < nx -> unit_draws64 n (rnd t j)) ->
  exists x, maximin32 pw n nx centered rnd sw = Some x /\ unit_design n nx x.
Proof.
  intros pw n nx centered rnd sw N1 N2 D.
  set (design := fun t => if centered then centered32 n nx (sw t) else classic32 n nx (rnd t) (sw t)).
  assert (U : forall t, unit_design n nx (design t)).
  { intros t. destruct (C158_classic_partial n nx (rnd t) (sw t) ltac:(lia) N2 (D t)) as (U1 & U2). unfold design. now destruct centered. }
  destruct (maximin_answers (f32_arith pw) (fun v => is_finite v = true) (plus_num 24 128)) with (first := design 0) (cands := map design (seq 1 4)) as (x & E).
  - intros a b Fa Fb. cbn [mul sub f32_arith]. apply square_number, minus_number; assumption.
  - intros a b. apply plus_number.
  - split; reflexivity.
  - intros a. apply sqrt_number.
  - assert (G : forall t, 2 <= length (design t) /\ Forall (Forall (fun v : f32 => is_finite v = true)) (design t)).
    { intros t. destruct (U t) as ((L & _) & F). split; [lia|]. eapply Forall_impl; [|exact F]. intros r Fr. eapply Forall_impl; [|exact Fr]. intros v Fv. apply Fv. }
    constructor; [apply G|]. apply Forall_forall. intros c I. apply in_map_iff in I. destruct I as (t & <- & _). apply G.
  - exists x. split; [exact E|]. apply maximin_of_in in E. destruct E as [<-|I]; [apply U|]. apply in_map_iff in I. destruct I as (t & <- & _). apply U.
Qed.
Theorem C158_maximin_doubles_partial : forall pw n nx centered rnd sw, 2 <= n -> (Z.of_nat n <= 2 ^ 53)%Z -> (forall t j, j < nx -> unit_draws64 n (rnd t j)) ->
  exists x, maximin_lhs (f64_arith pw (Bsqrt mode_NE)) n nx centered rnd sw = Some x /\ latin64 n nx x.
Proof.
  intros pw n nx centered rnd sw N1 N2 D. assert (N1' : 1 <= n) by lia.
  set (ar := f64_arith pw (Bsqrt mode_NE)).
  set (design := fun t => if centered then centered_lhs ar n nx (sw t) else classic_lhs ar n nx (rnd t) (sw t)).
  assert (U : forall t, columns_from n nx (between_cuts n) (design t)).
  { intros t. unfold design, ar. destruct centered; [apply centered_F; assumption|]. apply classic_F; auto. }
  destruct (maximin_answers ar (fun v => is_finite v = true) (plus_num 53 1024)) with (first := design 0) (cands := map design (seq 1 4)) as (x & E).
  - intros a b Fa Fb. apply square_number, minus_number; assumption.
  - intros a b. apply plus_number.
  - split; reflexivity.
  - intros a. apply sqrt_number.
  - assert (G : forall t, 2 <= length (design t) /\ Forall (Forall (fun v : f64 => is_finite v = true)) (design t)).
    { intros t. pose proof (U t) as C. destruct C as ((L & _) & _). split; [lia|]. apply Forall_forall. intros r I. apply Forall_forall. intros v Iv.
      apply In_nth_error in I. destruct I as (i & Hi). apply In_nth_error in Iv. destruct Iv as (j & Hj).
      refine (proj1 (columns_unit n N1' N2 nx _ (U t) i j v _)). eapply at_intro; [exact Hi|exact Hj]. }
    constructor; [apply G|]. apply Forall_forall. intros c I. apply in_map_iff in I. destruct I as (t & <- & _). apply G.
  - exists x. split; [exact E|]. apply maximin_of_in in E. destruct E as [<-|I]; [apply columns_latin64; auto|]. apply in_map_iff in I. destruct I as (t & <- & _).
    apply columns_latin64; auto.
Qed.

(** The optimized designs, when there is one: the coordinates of the classic design it starts from, in another order. *)
Theorem C158_optimized_partial : forall pw n nx rnd sw draws x, optimized32 pw n nx rnd sw draws = Some x -> same_columns (classic32 n nx rnd sw) x.
Proof. intros pw n nx rnd sw draws x E. exact (maximin_ese_columns _ _ _ _ _ _ _ E). Qed.

(** But there may be none, with ordinary draws and even with a correctly rounded power function: three points in two dimensions, at distances 0.056, 0.66
    and 0.61. The criterion is updated by subtracting the tenth power of the inverse of the smallest distance, as rounded, from the tenth power of the
    criterion, which is rounded too; the difference is negative, its tenth root is not a number, and the search for the least criterion panics. *)
Theorem C158_optimized_refuted : forall pw, powf_rounded pw ->
  exists rnd sw, (forall j, j < 2 -> unit_draws64 3 (rnd j)) /\
    forall draws, In (0, 2) (fst (draws 0 0)) -> optimized32 pw 3 2 rnd sw draws = None.
Proof.
  intros pw P. exists w_rnd, (fun _ => []). split; [|intros draws; now apply w_panics].
  assert (K : forall k m e, B2SF (k64 k) = SpecFloat.S754_finite false m e -> (0 <= IZR (Zpos m) * bpow radix2 e < 1)%R -> is_finite (k64 k) = true /\ (0 <= B2R (k64 k) < 1)%R).
  { intros k m e H V. rewrite <- SF2R_B2SF, H. split; [|exact V]. destruct (k64 k); try discriminate H. reflexivity. }
  intros j J. split; [now destruct j|].
  destruct j as [|j]; cbn [w_rnd map]; (apply Forall_cons; [|apply Forall_cons; [|apply Forall_cons; [|apply Forall_nil]]]); (eapply K; [vm_compute; reflexivity|]);
    cbn [bpow]; match goal with |- context [Z.pow_pos ?a ?b] => let v := eval vm_compute in (Z.pow_pos a b) in change (Z.pow_pos a b) with v end; lra.
Qed.

(** There is such a power function. *)
Definition round_pw (x y : f32) : f32 :=
  if is_finite x && is_finite y then
    if Rlt_dec 0 (B2R x) then
      let r := Rpower (B2R x) (B2R y) in
      binary_normalize 24 128 f32_prec f32_emax mode_NE (ZnearestE (scaled_mantissa radix2 (SpecFloat.fexp 24 128) r)) (cexp radix2 (SpecFloat.fexp 24 128) r) false
    else B754_nan
  else B754_nan.
Example C158_example : powf_rounded round_pw /\ exists draws : nat -> nat -> inner_draws (A := f32), In (0, 2) (fst (draws 0 0)).
Proof.
  split; [split|exists (fun _ _ => ([(1, 0); (0, 2)], ofZ32 0)); right; now left].
  - intros x y Fx Fy X B. unfold round_pw. rewrite Fx, Fy. cbn [andb]. destruct (Rlt_dec 0 (B2R x)) as [X0|]; [|contradiction]. cbv zeta.
    set (r := Rpower (B2R x) (B2R y)) in *.
    pose proof (binary_normalize_correct 24 128 f32_prec f32_emax mode_NE (ZnearestE (scaled_mantissa radix2 (SpecFloat.fexp 24 128) r)) (cexp radix2 (SpecFloat.fexp 24 128) r) false) as C.
    cbv zeta in C. change (F2R _) with (round radix2 (SpecFloat.fexp 24 128) ZnearestE r) in C.
    assert (V : Valid_exp (SpecFloat.fexp 24 128)) by apply (FLT_exp_valid (SpecFloat.emin 24 128) 24).
    rewrite (round_generic radix2 (SpecFloat.fexp 24 128) (round_mode mode_NE) (round radix2 (SpecFloat.fexp 24 128) ZnearestE r)) in C by (apply generic_format_round; [exact V|apply valid_rnd_N]).
    assert (P : (0 < r)%R) by apply exp_pos.
    rewrite Rlt_bool_true in C; [destruct C as (C1 & C2 & _); now split|].
    rewrite Rabs_pos_eq.
    + apply Rle_lt_trans with (bpow radix2 127); [|now apply bpow_lt]. apply round_le_generic; [exact V|apply valid_rnd_N| |lra]. apply generic_format_bpow. cbv. discriminate.
    + apply round_ge_generic; [exact V|apply valid_rnd_N|apply generic_format_0|lra].
  - intros x y Fx Fy X _. unfold round_pw. rewrite Fx, Fy. cbn [andb]. destruct (Rlt_dec 0 (B2R x)); [lra|reflexivity].
Qed.
Print Assumptions C158_classic_partial.
Print Assumptions C158_maximin_partial.
Print Assumptions C158_maximin_doubles_partial.
Print Assumptions C158_optimized_partial.
Print Assumptions C158_optimized_refuted.
