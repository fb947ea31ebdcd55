(** Proofs about Latin hypercubes in single precision. *)
From Coq Require Import Reals Lra Lia ZArith List Bool.
From Flocq Require Import Core BinarySingleNaN.
From Interval Require Import Tactic.
From Verif Require Import Util F64 Moe_Model Doe_Model Doe_Spec DoeSingle_Model.
Import ListNotations.
Local Open Scope R_scope.

(** A power function of C or of Rust which rounds correctly, where the power is not too large, and refuses negative numbers with fractional exponents. *)
Definition powf_rounded (pw : f32 -> f32 -> f32) : Prop :=
  (forall x y, is_finite x = true -> is_finite y = true -> 0 < B2R x -> Rpower (B2R x) (B2R y) < bpow radix2 127 ->
    is_finite (pw x y) = true /\ B2R (pw x y) = round radix2 (SpecFloat.fexp 24 128) ZnearestE (Rpower (B2R x) (B2R y))) /\
  (forall x y, is_finite x = true -> is_finite y = true -> B2R x < 0 -> (forall z : Z, B2R y <> IZR z) -> is_nan (pw x y) = true).

Definition num32 (m e : Z) : f32 := binary_normalize 24 128 f32_prec f32_emax mode_NE m e false.

(** Rounding to 24 digits. *)
Lemma round24 r m e : (2 ^ 23 < m < 2 ^ 24)%Z -> (-149 <= e)%Z -> Rabs (r * bpow radix2 (- e) - IZR m) < / 2 ->
  round radix2 (SpecFloat.fexp 24 128) ZnearestE r = IZR m * bpow radix2 e.
Proof.
  intros M E H.
  assert (P : 0 < bpow radix2 e) by apply bpow_gt_0.
  assert (P' : bpow radix2 (- e) * bpow radix2 e = 1) by (rewrite <- bpow_plus; replace (- e + e)%Z with 0%Z by lia; reflexivity).
  assert (M1 : IZR (2 ^ 23) + 1 <= IZR m) by (rewrite <- plus_IZR; apply IZR_le; lia).
  assert (M2 : IZR m <= IZR (2 ^ 24) - 1) by (rewrite <- minus_IZR; apply IZR_le; lia).
  set (q := r * bpow radix2 (- e)) in *.
  assert (Er : r = q * bpow radix2 e) by (unfold q; rewrite Rmult_assoc, P'; ring).
  apply Rabs_def2 in H.
  assert (C : cexp radix2 (SpecFloat.fexp 24 128) r = e).
  { assert (Q : cexp radix2 (SpecFloat.fexp 24 128) r = SpecFloat.fexp 24 128 (e + 24)).
    { apply cexp_fexp. rewrite Rabs_pos_eq by (rewrite Er; apply Rmult_le_pos; lra).
      replace (e + 24 - 1)%Z with (23 + e)%Z by lia. replace (e + 24)%Z with (24 + e)%Z by lia. rewrite !bpow_plus.
      change (bpow radix2 23) with (IZR (2 ^ 23)). change (bpow radix2 24) with (IZR (2 ^ 24)). rewrite Er. split.
      - apply Rmult_le_compat_r; lra.
      - apply Rmult_lt_compat_r; lra. }
    rewrite Q. unfold SpecFloat.fexp, SpecFloat.emin. lia. }
  unfold round, scaled_mantissa. rewrite C. fold q.
  rewrite (Znearest_imp (fun x => negb (Z.even x)) q m) by (apply Rabs_def1; lra). unfold F2R. cbn [Fnum Fexp]. reflexivity.
Qed.

Lemma value32 (X : f32) s m e : B2SF X = SpecFloat.S754_finite s m e -> B2R X = IZR (cond_Zopp s (Zpos m)) * bpow radix2 e /\ is_finite X = true.
Proof. intros H. rewrite <- SF2R_B2SF, H. split; [reflexivity|]. destruct X; try discriminate H. reflexivity. Qed.

Lemma pw_lit pw X Y L mx ex sy my ey ml el : powf_rounded pw ->
  B2SF X = SpecFloat.S754_finite false mx ex -> B2SF Y = SpecFloat.S754_finite sy my ey -> B2SF L = SpecFloat.S754_finite false ml el ->
  (2 ^ 23 < Zpos ml < 2 ^ 24)%Z -> (-149 <= el <= 100)%Z ->
  Rabs (Rpower (IZR (Zpos mx) * bpow radix2 ex) (IZR (cond_Zopp sy (Zpos my)) * bpow radix2 ey) * bpow radix2 (- el) - IZR (Zpos ml)) < / 2 ->
  pw X Y = L.
Proof.
  intros (P & _) HX HY HL M E H.
  destruct (value32 _ _ _ _ HX) as (VX & FX). destruct (value32 _ _ _ _ HY) as (VY & FY). destruct (value32 _ _ _ _ HL) as (VL & FL).
  cbn [cond_Zopp] in VX, VL. rewrite <- VX, <- VY in H.
  assert (Pe : 0 < bpow radix2 el) by apply bpow_gt_0.
  assert (P' : bpow radix2 (- el) * bpow radix2 el = 1) by (rewrite <- bpow_plus; replace (- el + el)%Z with 0%Z by lia; reflexivity).
  assert (B : Rpower (B2R X) (B2R Y) < bpow radix2 127).
  { apply Rabs_def2 in H. destruct H as (H & _). assert (M2 : IZR (Zpos ml) <= IZR (2 ^ 24) - 1) by (rewrite <- minus_IZR; apply IZR_le; lia).
    apply Rlt_le_trans with (IZR (2 ^ 24) * bpow radix2 el).
    - rewrite <- (Rmult_1_r (Rpower _ _)), <- P', <- Rmult_assoc. apply Rmult_lt_compat_r; [exact Pe|lra].
    - change (IZR (2 ^ 24)) with (bpow radix2 24). rewrite <- bpow_plus. apply bpow_le. lia. }
  destruct (P X Y FX FY) as (F & V).
  - rewrite VX. apply Rmult_lt_0_compat; [apply IZR_lt; lia|apply bpow_gt_0].
  - exact B.
  - rewrite (round24 _ (Zpos ml) el M ltac:(lia) H), <- VL in V.
    assert (SL : is_finite_strict L = true) by (destruct L; try discriminate HL; reflexivity).
    apply B2R_inj; [|exact SL|exact V].
    assert (N : B2R L <> 0).
    { rewrite VL. apply Rmult_integral_contrapositive_currified; [apply IZR_neq; lia|lra]. }
    destruct (pw X Y); try discriminate F; [|reflexivity]. cbn [B2R] in V. congruence.
Qed.

(** ** Three points in two dimensions *)
Definition k64 (k : Z) : f64 := fdiv (fofZ k) (fofZ 64).
Definition w_rnd (j : nat) : list f64 := match j with O => map k64 [60; 6; 32]%Z | _ => map k64 [62; 2; 12]%Z end.
Definition w_design : list (list f32) := classic32 3 2 w_rnd (fun _ => []).

Ltac pw_fact := intros; eapply pw_lit; [eassumption|vm_compute; reflexivity|vm_compute; reflexivity|vm_compute; reflexivity|lia|lia|];
  unfold Rpower; cbn [bpow Z.opp cond_Zopp];
  repeat match goal with |- context [Z.pow_pos ?a ?b] => let v := eval vm_compute in (Z.pow_pos a b) in change (Z.pow_pos a b) with v end;
  interval with (i_prec 120).

Section Witness.
  Context (pw : f32 -> f32 -> f32).
  Hypothesis Pw : powf_rounded pw.
  Local Notation ar := (f32_arith pw).
  Local Notation p := (ofZ32 10).
  Local Notation tenth := (Bdiv mode_NE (ofZ32 1) (ofZ32 10)).
  Lemma w_d0 : pw (num32 15058016 (-28)) (Bopp p) = num32 12364636 18. Proof. pw_fact. Qed.
  Lemma w_d1 : pw (num32 11081938 (-24)) (Bopp p) = num32 16579893 (-18). Proof. pw_fact. Qed.
  Lemma w_d2 : pw (num32 10181331 (-24)) (Bopp p) = num32 9674607 (-16). Proof. pw_fact. Qed.
  Lemma w_ph : pw (num32 12364636 18) tenth = num32 9346350 (-19). Proof. pw_fact. Qed.
  Lemma w_pp : pw (num32 9346350 (-19)) p = num32 12364635 18. Proof. pw_fact. Qed.
  Lemma w_e1 : pw (num32 10150800 (-26)) (Bdiv mode_NE (Bopp p) (ofZ32 2)) = num32 12932963 (-10). Proof. pw_fact. Qed.
  Lemma w_e2 : pw (num32 14774723 (-26)) (Bdiv mode_NE (Bopp p) (ofZ32 2)) = num32 15837719 (-13). Proof. pw_fact. Qed.
  Lemma same_SF (l l' : list f32) : map B2SF l = map B2SF l' -> l = l'.
  Proof.
    revert l'. induction l as [|a l IH]; intros [|b l'] H; try discriminate H; [reflexivity|]. cbn [map] in H. injection H as H1 H2.
    f_equal; [now apply B2SF_inj|now apply IH].
  Qed.
  Definition w_rows : list (list f32) :=
    [[num32 10485760 (-25); num32 10835285 (-25)]; [num32 12233387 (-25); num32 11534336 (-25)]; [num32 13981013 (-24); num32 12233387 (-24)]].
  Lemma w_design_eq : w_design = w_rows.
  Proof.
    assert (L : length w_design = 3%nat) by reflexivity.
    assert (A : forall i, (i < 3)%nat -> map B2SF (nth i w_design []) = map B2SF (nth i w_rows [])).
    { intros i Hi. destruct i as [|[|[|i]]]; [vm_compute; reflexivity|vm_compute; reflexivity|vm_compute; reflexivity|lia]. }
    apply (nth_ext _ _ [] []); [reflexivity|]. intros i Hi. apply same_SF, A. lia.
  Qed.
  Lemma w_phip : phip ar w_design p = num32 9346350 (-19).
  Proof.
    unfold phip. replace (pdist ar w_design) with [num32 15058016 (-28); num32 11081938 (-24); num32 10181331 (-24)] by (apply same_SF; vm_compute; reflexivity).
    cbn [map pow opp div ofZ f32_arith]. rewrite w_d0, w_d1, w_d2. rewrite <- w_ph. f_equal. apply B2SF_inj. vm_compute. reflexivity.
  Qed.
  Lemma w_swap : exists y v, phip_swap ar w_design 1 (num32 9346350 (-19)) p 0 2 = Some (y, v) /\ is_nan v = true.
  Proof.
    rewrite w_design_eq. unfold phip_swap.
    cbn -[Bplus Bminus Bmult Bdiv Bopp Bsqrt num32 ofZ32 B2SF cdist_row sum].
    eexists. eexists. split; [reflexivity|].
    replace (cdist_row ar [num32 10485760 (-25); num32 10835285 (-25)] [[num32 12233387 (-25); num32 11534336 (-25)]])
      with [num32 15058016 (-28)] by (apply same_SF; vm_compute; reflexivity).
    replace (cdist_row ar [num32 13981013 (-24); num32 12233387 (-24)] [[num32 12233387 (-25); num32 11534336 (-25)]])
      with [num32 10181331 (-24)] by (apply same_SF; vm_compute; reflexivity).
    set (half := Bdiv mode_NE (Bopp p) (ofZ32 2)).
    match goal with |- context [map (fun v : f32 => pw v half) ?l] => replace l with [num32 10150800 (-26)] by (apply same_SF; vm_compute; reflexivity) end.
    match goal with |- context [map (fun v : f32 => pw v half) ?l] => lazymatch l with map _ _ =>
      replace l with [num32 14774723 (-26)] by (apply same_SF; vm_compute; reflexivity) end end.
    subst half. cbn [map]. rewrite w_d0, w_d2, w_pp, w_e1, w_e2. destruct Pw as (_ & Neg).
    match goal with |- is_nan (pw ?a ?b) = true => assert (A : B2SF a = SpecFloat.S754_finite true 8388608 (-5)) by (vm_compute; reflexivity);
      assert (B : B2SF b = SpecFloat.S754_finite false 13421773 (-27)) by (vm_compute; reflexivity) end.
    destruct (value32 _ _ _ _ A) as (VA & FA). destruct (value32 _ _ _ _ B) as (VB & FB).
    apply Neg; [exact FA|exact FB| |].
    - rewrite VA. cbn [cond_Zopp Z.opp]. generalize (bpow_gt_0 radix2 (-5)). intros. lra.
    - rewrite VB. cbn [cond_Zopp bpow]. change (Z.pow_pos radix2 27) with 134217728%Z. intros z Hz.
      assert (H : 0 < IZR z < 1) by (rewrite <- Hz; lra). destruct H as (H1 & H2). apply lt_IZR in H1. apply lt_IZR in H2. lia.
  Qed.

  (** The first iteration of the optimization panics as soon as it tries to exchange the second coordinates of the first and third points. *)
  Lemma mapM_in {A B} (f : A -> option B) l l' a : mapM f l = Some l' -> In a l -> exists b, f a = Some b /\ In b l'.
  Proof.
    revert l'. induction l as [|c l IH]; intros l' H I; [destruct I|]. cbn in H. destruct (f c) as [b|] eqn:E; [|discriminate H].
    destruct (mapM f l) as [m|] eqn:M; [|discriminate H]. injection H as <-. destruct I as [->|I]; [exists b; split; [exact E|now left]|].
    destruct (IH m eq_refl I) as (b' & E' & I'). exists b'. split; [exact E'|now right].
  Qed.
  Lemma w_inner (d : inner_draws (A := f32)) t acpt imp : In (0, 2)%nat (fst d) ->
    ese_inner ar 2 0 d (mk_ese w_design w_design (num32 9346350 (-19)) (num32 9346350 (-19)) t acpt imp) = None.
  Proof.
    intros I. unfold ese_inner. cbn [e_own e_phip]. change ((0 + 1) mod 2)%nat with 1%nat. change (ofZ ar 10) with p.
    destruct (mapM _ (fst d)) as [l|] eqn:M; [|reflexivity].
    destruct (mapM_in _ _ _ _ M I) as ((y & v) & E & Il). cbn [fst snd] in E. destruct w_swap as (y' & v' & E' & N). rewrite E in E'. injection E' as <- <-.
    unfold argmin. replace (existsb (isnan ar) (map snd l)) with true; [reflexivity|]. symmetry. apply existsb_exists. exists v. split; [|exact N].
    apply in_map_iff. exists (y, v). split; [reflexivity|exact Il].
  Qed.
  Lemma w_panics draws : In (0, 2)%nat (fst (draws O O)) -> optimized32 pw 3 2 w_rnd (fun _ => []) draws = None.
  Proof.
    intros I. unfold optimized32, maximin_ese. fold w_design. unfold ese_start. change (ofZ ar 10) with p. rewrite w_phip.
    change (Nat.min (3 * 2 / 2) 30) with 3%nat. change (Nat.min (20 * 2) 100) with 40%nat. cbn [ese_outer_loop]. unfold ese_outer.
    cbn [e_own e_best e_phip e_phip_best e_t ese_inner_loop]. rewrite w_inner by exact I. reflexivity.
  Qed.
End Witness.

(** ** Distances are numbers *)
Section NoNan.
  Context {A : Type} (ar : arith A) (fin nn : A -> Prop).
  Hypothesis Hsub : forall a b, fin a -> fin b -> nn (mul ar (sub ar a b) (sub ar a b)).
  Hypothesis Hadd : forall a b, nn a -> nn b -> nn (add ar a b).
  Hypothesis H0 : nn (ofZ ar 0).
  Hypothesis Hsqrt : forall a, nn a -> isnan ar (sqrt ar a) = false.
  Lemma dist_number r r' : Forall fin r -> Forall fin r' -> isnan ar (dist ar r r') = false.
  Proof.
    intros F F'. apply Hsqrt. unfold sq_dist, sum.
    assert (G : forall l, Forall nn l -> forall a, nn a -> nn (fold_left (add ar) l a)).
    { intros l. induction l as [|b l IH]; intros FL a Ha; [exact Ha|]. inversion FL. subst. cbn [fold_left]. apply IH; [assumption|]. now apply Hadd. }
    apply G; [|exact H0]. apply Forall_forall. intros v I. apply in_map_iff in I. destruct I as ((a & b) & <- & I). cbn [fst snd].
    rewrite Forall_forall in F, F'. apply Hsub; [apply F; now apply in_combine_l in I|apply F'; now apply in_combine_r in I].
  Qed.
  Lemma pdist_number x : Forall (Forall fin) x -> Forall (fun v => isnan ar v = false) (pdist ar x).
  Proof.
    induction 1 as [|r x Hr Hx IH]; [constructor|]. cbn [pdist]. apply Forall_app. split; [|exact IH].
    apply Forall_forall. intros v I. apply in_map_iff in I. destruct I as (r' & <- & I). apply dist_number; [exact Hr|]. rewrite Forall_forall in Hx. now apply Hx.
  Qed.
  Lemma min_of_number x : (2 <= length x)%nat -> Forall (Forall fin) x -> exists d, min_of ar (pdist ar x) = Some d.
  Proof.
    intros L F. pose proof (pdist_number x F) as P. unfold min_of, argmin.
    replace (existsb (isnan ar) (pdist ar x)) with false.
    - assert (N : pdist ar x <> []) by (destruct x as [|a [|b x]]; cbn in L; try lia; cbn; discriminate).
      destruct (argmin_by_some (ltb ar) _ N) as (i & E). rewrite E. cbn beta iota. pose proof (argmin_by_bound _ _ _ E) as B.
      destruct (nth_error (pdist ar x) i) as [d|] eqn:D; [eauto|]. apply nth_error_None in D. lia.
    - symmetry. apply not_true_iff_false. intros E. apply existsb_exists in E. destruct E as (v & I & V). rewrite Forall_forall in P. rewrite P in V by exact I. discriminate V.
  Qed.
  Lemma maximin_answers first cands : Forall (fun x => (2 <= length x)%nat /\ Forall (Forall fin) x) (first :: cands) ->
    exists x, maximin_of ar first cands = Some x.
  Proof.
    intros F. inversion F as [|? ? (L & Ff) Fc]. subst. unfold maximin_of. destruct (min_of_number first L Ff) as (d & ->). cbn beta iota.
    clear L Ff F. revert d. generalize first. induction Fc as [|c cands (L & Fc) _ IH]; intros best d; cbn [maximin_loop]; [eauto|].
    destruct (min_of_number c L Fc) as (d' & ->). cbn beta iota. destruct (ltb ar d d'); apply IH.
  Qed.
End NoNan.

Section Flocq.
  Context (prec emax : Z) (Hp : Prec_gt_0 prec) (He : Prec_lt_emax prec emax).
  Local Notation bf := (binary_float prec emax).
  Definition plus_num (a : bf) : Prop := is_nan a = false /\ Bsign a = false.
  Lemma finite_number (a : bf) : is_finite a = true -> is_nan a = false.
  Proof. now destruct a. Qed.
  Lemma inf_number (a : bf) s : B2SF a = SpecFloat.S754_infinity s -> is_nan a = false /\ Bsign a = s.
  Proof. destruct a; intros H; try discriminate H. now injection H as <-. Qed.
  Lemma minus_number (a b : bf) : is_finite a = true -> is_finite b = true -> is_nan (Bminus mode_NE a b) = false.
  Proof.
    intros Fa Fb. pose proof (Bminus_correct prec emax Hp He mode_NE a b Fa Fb) as C. destruct (Rlt_bool _ _).
    - apply finite_number, C.
    - destruct C as (C & _). now apply inf_number in C.
  Qed.
  Lemma square_number (a : bf) : is_nan a = false -> plus_num (Bmult mode_NE a a).
  Proof.
    intros N. destruct a as [s|s| |s m e B]; try discriminate N.
    - split; [reflexivity|]. cbn. now destruct s.
    - split; [reflexivity|]. cbn. now destruct s.
    - pose proof (Bmult_correct prec emax Hp He mode_NE (B754_finite s m e B) (B754_finite s m e B)) as C. destruct (Rlt_bool _ _).
      + destruct C as (_ & F & S). cbn [is_finite andb] in F. apply finite_number in F. split; [exact F|]. rewrite (S F). cbn. now destruct s.
      + apply inf_number in C. cbn [Bsign] in C. rewrite xorb_nilpotent in C. exact C.
  Qed.
  Lemma sign_nonneg (a : bf) : Bsign a = false -> 0 <= B2R a.
  Proof.
    intros S. destruct a as [s|s| |s m e B]; try (cbn; lra). cbn in S. subst s. cbn [B2R]. apply F2R_ge_0. cbn. lia.
  Qed.
  Lemma plus_number (a b : bf) : plus_num a -> plus_num b -> plus_num (Bplus mode_NE a b).
  Proof.
    intros (Na & Sa) (Nb & Sb).
    destruct (is_finite a) eqn:Fa; [|destruct a; try discriminate; cbn in Sa; subst; destruct b; try discriminate; cbn in Sb; subst; split; reflexivity].
    destruct (is_finite b) eqn:Fb; [|destruct b; try discriminate; cbn in Sb; subst; destruct a; try discriminate; split; reflexivity].
    pose proof (Bplus_correct prec emax Hp He mode_NE a b Fa Fb) as C. destruct (Rlt_bool _ _).
    - destruct C as (_ & F & S). split; [now apply finite_number|]. rewrite S, Sa, Sb.
      pose proof (sign_nonneg a Sa). pose proof (sign_nonneg b Sb). destruct (Rcompare_spec (B2R a + B2R b) 0); [lra|reflexivity|reflexivity].
    - destruct C as (C & _). apply inf_number in C. now rewrite Sa in C.
  Qed.
  Lemma sqrt_number (a : bf) : plus_num a -> is_nan (Bsqrt mode_NE a) = false.
  Proof.
    intros (N & S). destruct a as [s|s| |s m e B]; try discriminate N; cbn in S; subst.
    - reflexivity.
    - reflexivity.
    - destruct (Bsqrt_correct prec emax Hp He mode_NE (B754_finite false m e B)) as (_ & F & _). now apply finite_number.
  Qed.
End Flocq.

Lemma cast_unit v : is_finite v = true -> 0 <= B2R v <= 1 -> is_finite (cast32 v) = true /\ 0 <= B2R (cast32 v) <= 1.
Proof.
  intros F U. destruct v as [s|s| |s m e B]; try discriminate F; [cbn; split; [reflexivity|lra]|]. cbn [cast32].
  pose proof (binary_normalize_correct 24 128 f32_prec f32_emax mode_NE (cond_Zopp s (Zpos m)) e s) as C. cbv zeta in C.
  cbn [B2R] in U. set (r := F2R _) in *.
  assert (Rd : 0 <= round radix2 (SpecFloat.fexp 24 128) (round_mode mode_NE) r <= 1).
  { assert (V : Valid_exp (SpecFloat.fexp 24 128)) by apply (FLT_exp_valid (SpecFloat.emin 24 128) 24).
    split.
    - apply round_ge_generic; [exact V|apply valid_rnd_round_mode|apply generic_format_0|apply U].
    - apply round_le_generic; [exact V|apply valid_rnd_round_mode| |apply U]. change 1 with (bpow radix2 0). apply generic_format_bpow. cbv. discriminate. }
  rewrite Rlt_bool_true in C.
  - destruct C as (Ev & Fv & _). split; [exact Fv|]. rewrite Ev. exact Rd.
  - rewrite Rabs_pos_eq by apply Rd. apply Rle_lt_trans with (bpow radix2 0); [apply Rd|]. apply bpow_lt. lia.
Qed.
