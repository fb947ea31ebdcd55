(** Proofs about the mixed-integer conversions. *)
From Coq Require Import ZArith Reals Lra Lia List Bool Arith.
From Flocq Require Import Core.Core IEEE754.BinarySingleNaN Plus_error.
From Verif Require Import F64 F64_Extra Util FindResult_Model FindResult_Proofs Mixint_Model Mixint_Spec.
Import ListNotations.
Local Open Scope nat_scope.
Local Arguments bpow : simpl never.

Local Notation row := (list f64).
Local Notation fexp := (SpecFloat.fexp 53 1024).
Local Notation rnd := (round radix2 fexp (round_mode mode_NE)).

(** ** Rounding to an integer *)
Lemma fround_B2R (a : f64) : B2R (fround a) = IZR (ZnearestA (B2R a)).
Proof.
  destruct (Bnearbyint_correct 53 1024 _ mode_NA a) as (H & _ & _). fold (fround a) in H.
  rewrite H. apply round_FIX_IZR.
Qed.
Lemma fround_finite (a : f64) : is_finite (fround a) = is_finite a.
Proof. destruct (Bnearbyint_correct 53 1024 _ mode_NA a) as (_ & H & _). exact H. Qed.
Lemma fround_sign (a : f64) : finite a -> Bsign (fround a) = Bsign a.
Proof.
  intros F. destruct (Bnearbyint_correct 53 1024 _ mode_NA a) as (_ & H & S). apply S.
  apply finite_not_nan. rewrite H. exact F.
Qed.
Lemma fround_integer (a : f64) (z : Z) : is_integer a z -> fround a = a.
Proof.
  intros (F & E). apply B2R_Bsign_inj.
  - rewrite fround_finite. exact F.
  - exact F.
  - rewrite fround_B2R, E. f_equal. apply (@Zrnd_IZR ZnearestA _).
  - apply fround_sign. exact F.
Qed.
Lemma fround_is_integer (a : f64) : finite a -> is_integer (fround a) (ZnearestA (B2R a)).
Proof. intros F. split; [red; now rewrite fround_finite | apply fround_B2R]. Qed.
Lemma fround_close (a : f64) : (Rabs (B2R a - IZR (ZnearestA (B2R a))) <= / 2)%R.
Proof. apply Znearest_half. Qed.
Lemma fround_idem (a : f64) : fround (fround a) = fround a.
Proof.
  destruct (is_finite a) eqn:F.
  - apply fround_integer with (1 := fround_is_integer a F).
  - destruct a as [s|s| |s m e H]; try discriminate; reflexivity.
Qed.

(** ** Integers as doubles *)
Lemma generic_IZR (z : Z) : (Z.abs z <= 2 ^ 53)%Z -> generic_format radix2 fexp (IZR z).
Proof.
  intros H. destruct (Z.eq_dec (Z.abs z) (2 ^ 53)) as [E|E].
  - assert (G : generic_format radix2 fexp (bpow radix2 53)).
    { apply generic_format_bpow. unfold SpecFloat.fexp, SpecFloat.emin. lia. }
    assert (B : bpow radix2 53 = IZR (2 ^ 53)) by reflexivity. rewrite B in G.
    destruct (Z.abs_eq_or_opp z) as [A|A]; rewrite A in E.
    + now rewrite E.
    + replace z with (- 2 ^ 53)%Z by lia. rewrite opp_IZR. now apply generic_format_opp.
  - change fexp with (FLT_exp (-1074) 53). apply generic_format_FLT.
    exists {| Fnum := z; Fexp := 0 |}; simpl; try lia.
    unfold F2R; simpl. change (bpow radix2 0) with 1%R. lra.
Qed.
Lemma fofZ_correct (z : Z) : (Z.abs z <= 2 ^ 53)%Z -> is_integer (fofZ z) z.
Proof.
  intros Hz. pose proof (binary_normalize_correct 53 1024 f64_prec f64_emax mode_NE z 0 false) as H.
  cbv zeta in H. fold (fmake z 0) in H. fold (fofZ z) in H.
  assert (E : F2R (Defs.Float radix2 z 0) = IZR z) by (apply (Rmult_1_r (IZR z))).
  rewrite E in H.
  assert (R : rnd (IZR z) = IZR z).
  { apply round_generic; [auto with typeclass_instances | now apply generic_IZR]. }
  rewrite R in H. rewrite Rlt_bool_true in H.
  - destruct H as (H1 & H2 & _). split; assumption.
  - rewrite <- abs_IZR. apply Rle_lt_trans with (IZR (2 ^ 53)); [now apply IZR_le|].
    change (IZR (2 ^ 53)) with (bpow radix2 53). apply bpow_lt. lia.
Qed.

Lemma is_integer_unique (a b : f64) (z : Z) : is_integer a z -> is_integer b z -> feq a b = true.
Proof.
  intros (Fa & Ea) (Fb & Eb). apply feq_ord; try (now apply finite_not_nan).
  rewrite !ord_fin by assumption. congruence.
Qed.

(** ** Arg max *)
Lemma fargmax_spec (l : row) : l <> [] -> Forall (fun v => fnan v = false) l ->
  exists i m, fargmax l = Some i /\ nth_error l i = Some m /\
   (forall j v, nth_error l j = Some v -> (ord v <= ord m)%R) /\
   (forall j v, j < i -> nth_error l j = Some v -> (ord v < ord m)%R).
Proof.
  intros Hl Hn. unfold fargmax.
  assert (E : existsb fnan l = false).
  { apply not_true_is_false. rewrite existsb_exists. intros (v & Hv & Nv).
    eapply Forall_forall in Hn; [|exact Hv]. congruence. }
  rewrite E. destruct (argmin_by_some (fun a b => flt b a) l Hl) as [i Hi].
  destruct (argmin_by_spec (fun a b => flt b a) (fun v => fnan v = false)) with (l := l) (i := i)
    as (m & Hm & H1 & H2); try assumption.
  - intros a Na. apply flt_ordF; auto; lra.
  - intros a b c Na Nb Nc. rewrite !flt_ord by assumption. lra.
  - intros a b c Na Nb Nc. rewrite !flt_ordF by assumption. lra.
  - exists i, m. rewrite Forall_forall in Hn.
    assert (Nm : fnan m = false) by (apply Hn; eapply nth_error_In; eauto).
    repeat split; try assumption.
    + intros j v Hj. apply flt_ordF; eauto. apply Hn; eapply nth_error_In; eauto.
    + intros j v Hl' Hj. apply flt_ord; eauto. apply Hn; eapply nth_error_In; eauto.
Qed.

Lemma one_hot_length n k : length (one_hot n k) = n.
Proof. unfold one_hot. now rewrite set_nth_length, repeat_length. Qed.
Lemma one_hot_nth n k i : i < n -> nth_error (one_hot n k) i = Some (if i =? k then fone else fzero).
Proof.
  intros H. unfold one_hot. destruct (Nat.eqb_spec i k) as [->|N].
  - apply set_nth_eq. now rewrite repeat_length.
  - rewrite set_nth_neq by congruence. rewrite nth_error_repeat by assumption. reflexivity.
Qed.
Lemma one_hot_mask n k : k < n -> is_mask n k (one_hot n k).
Proof. intros H. split; [exact H|]. split; [apply one_hot_length|]. intros i. apply one_hot_nth. Qed.
Lemma nth_error_ext {A} (l m : list A) : (forall i, nth_error l i = nth_error m i) -> l = m.
Proof.
  revert m; induction l as [|a l IH]; intros [|b m] H; try reflexivity.
  - specialize (H 0). discriminate.
  - specialize (H 0). discriminate.
  - pose proof (H 0) as H0. injection H0 as ->. f_equal. apply IH. intros i. exact (H (S i)).
Qed.
Lemma is_mask_one_hot n k m : is_mask n k m -> m = one_hot n k.
Proof.
  intros (K & L & H). apply nth_error_ext. intros i.
  destruct (Nat.lt_ge_cases i n) as [I|I].
  - now rewrite H, one_hot_nth.
  - rewrite !(proj2 (nth_error_None _ _)); try reflexivity; rewrite ?one_hot_length; lia.
Qed.
Lemma fone_finite : finite fone. Proof. vm_compute. reflexivity. Qed.
Lemma ord_fone : ord fone = 1%R. Proof. rewrite ord_fin by exact fone_finite. exact B2R_fone. Qed.
Lemma fnan_fone : fnan fone = false. Proof. apply finite_not_nan, fone_finite. Qed.

Lemma fargmax_one_hot n k : k < n -> fargmax (one_hot n k) = Some k.
Proof.
  intros K. destruct (fargmax_spec (one_hot n k)) as (i & m & E & Hi & Hm & _).
  - intros C. pose proof (one_hot_length n k). rewrite C in H. simpl in H. lia.
  - apply Forall_forall. intros v Hv. apply In_nth_error in Hv. destruct Hv as (j & Hj).
    assert (J : j < n) by (rewrite <- (one_hot_length n k); apply nth_error_Some; congruence).
    rewrite one_hot_nth in Hj by assumption. injection Hj as <-. destruct (j =? k); [exact fnan_fone|reflexivity].
  - rewrite E. f_equal.
    assert (J : i < n) by (rewrite <- (one_hot_length n k); apply nth_error_Some; congruence).
    rewrite one_hot_nth in Hi by assumption. injection Hi as Hi.
    destruct (Nat.eqb_spec i k) as [->|N]; [reflexivity|]. exfalso.
    specialize (Hm k fone). rewrite one_hot_nth, Nat.eqb_refl in Hm by assumption. specialize (Hm eq_refl).
    rewrite <- Hi, ord_fone, ord_fzero in Hm. lra.
Qed.
Lemma fargmax_mask n k m : is_mask n k m -> fargmax m = Some k.
Proof. intros H. rewrite (is_mask_one_hot n k m H). apply fargmax_one_hot. apply H. Qed.

(** ** Closest value of a list *)
Lemma dist_nan (x r : f64) : finite r -> fnan x = false -> fnan (fabs (fsub x r)) = false.
Proof.
  intros F N. rewrite fnan_fabs.
  destruct (is_finite x) eqn:Fx.
  - pose proof (Bminus_correct 53 1024 _ _ mode_NE x r Fx F) as H.
    destruct (Rlt_bool _ _).
    + apply finite_not_nan. apply H.
    + destruct H as (H & _). fold (fsub x r) in H. apply overflow_inf in H. rewrite H. reflexivity.
  - destruct x as [s|s| |s m e H]; try discriminate. destruct r as [s'|s'| |s' m' e' H']; try discriminate; reflexivity.
Qed.

Lemma dist_nonneg (x r : f64) : fnan (fabs (fsub x r)) = false -> (0 <= ord (fabs (fsub x r)))%R.
Proof. intros N. rewrite ord_fabs by (now rewrite fnan_fabs in N). apply Rabs_pos. Qed.

Lemma dist_ext (x r s : f64) : finite r -> finite s -> B2R r = B2R s ->
  ord (fabs (fsub x r)) = ord (fabs (fsub x s)).
Proof.
  intros Fr Fs E. destruct (fnan x) eqn:N.
  { destruct x; try discriminate. destruct r; destruct s; reflexivity. }
  assert (N1 := dist_nan x r Fr N). assert (N2 := dist_nan x s Fs N). rewrite fnan_fabs in N1, N2.
  rewrite !ord_fabs by assumption.
  destruct (is_finite x) eqn:Fx.
  - pose proof (Bminus_correct 53 1024 _ _ mode_NE x r Fx Fr) as H1.
    pose proof (Bminus_correct 53 1024 _ _ mode_NE x s Fx Fs) as H2.
    rewrite <- E in H2. destruct (Rlt_bool _ _).
    + destruct H1 as (H1 & F1 & _). destruct H2 as (H2 & F2 & _).
      fold (fsub x r) in H1, F1. fold (fsub x s) in H2, F2. rewrite (ord_fin _ F1), (ord_fin _ F2), H1, H2. reflexivity.
    + destruct H1 as (H1 & _). destruct H2 as (H2 & _). fold (fsub x r) in H1. fold (fsub x s) in H2.
      apply overflow_inf in H1. apply overflow_inf in H2. rewrite H1, H2. reflexivity.
  - destruct x as [t|t| |t m e H]; try discriminate.
    destruct r as [s1|s1| |s1 m1 e1 H1]; try discriminate; destruct s as [s2|s2| |s2 m2 e2 H2]; try discriminate; reflexivity.
Qed.

Lemma dist_zero (x r : f64) : finite x -> finite r -> (ord (fabs (fsub x r)) = 0)%R -> B2R x = B2R r.
Proof.
  intros Fx Fr Z.
  assert (N1 := dist_nan x r Fr (finite_not_nan x Fx)). rewrite fnan_fabs in N1.
  rewrite ord_fabs in Z by assumption.
  pose proof (Bminus_correct 53 1024 _ _ mode_NE x r Fx Fr) as H.
  destruct (Req_dec (B2R x) (B2R r)) as [E|E]; [exact E|]. exfalso.
  assert (NZ : rnd (B2R x - B2R r) <> 0%R).
  { apply (round_plus_neq_0 radix2 fexp (round_mode mode_NE) (B2R x) (- B2R r)).
    - apply generic_format_B2R.
    - apply generic_format_opp, generic_format_B2R.
    - lra. }
  destruct (Rlt_bool_spec (Rabs (rnd (B2R x - B2R r))) (bpow radix2 1024)) as [Hl|Hge].
  - destruct H as (H1 & F1 & _). fold (fsub x r) in H1, F1. rewrite (ord_fin _ F1), H1 in Z.
    now apply (Rabs_no_R0 _ NZ).
  - destruct H as (H1 & _). fold (fsub x r) in H1. apply overflow_inf in H1. rewrite H1 in Z.
    pose proof bpow1024_pos. destruct (Bsign x); unfold ord in Z; rewrite ?Rabs_Ropp, Rabs_pos_eq in Z; lra.
Qed.

Lemma take_closest_spec (v : row) (x : f64) : v <> [] -> Forall finite v -> fnan x = false ->
  exists i c, take_closest v x = Some c /\ nth_error v i = Some c /\
    (forall r, In r v -> (ord (fabs (fsub x c)) <= ord (fabs (fsub x r)))%R) /\
    (forall j r, j < i -> nth_error v j = Some r -> (ord (fabs (fsub x c)) < ord (fabs (fsub x r)))%R).
Proof.
  intros NE F N. unfold take_closest.
  set (d := fun r => fabs (fsub x r)).
  destruct (fargmin_spec (map d v)) as (i & m & E & Hi & H1 & H2).
  - destruct v; [congruence|discriminate].
  - apply Forall_map. eapply Forall_impl; [|exact F]. intros r Fr. now apply dist_nan.
  - rewrite E. rewrite nth_error_map in Hi. destruct (nth_error v i) as [c|] eqn:Ec; [|discriminate].
    injection Hi as <-. exists i, c. repeat split; try assumption.
    + intros r Hr. apply In_nth_error in Hr. destruct Hr as (j & Hj). apply (H1 j (d r)).
      now rewrite nth_error_map, Hj.
    + intros j r Hj Hr. apply (H2 j (d r)); [assumption|]. now rewrite nth_error_map, Hr.
Qed.

Lemma take_closest_some_nan (v : row) (x c : f64) : take_closest v x = Some c -> fnan x = false.
Proof.
  unfold take_closest, fargmin. intros H. destruct (fnan x) eqn:N; [|reflexivity].
  destruct x; try discriminate N. destruct v as [|r v].
  - discriminate.
  - simpl map in H. simpl existsb in H. replace (fnan (fabs (fsub B754_nan r))) with true in H by (destruct r; reflexivity).
    discriminate.
Qed.

Lemma take_closest_idem (v : row) (x c : f64) : v <> [] -> Forall finite v -> take_closest v x = Some c ->
  take_closest v c = Some c.
Proof.
  intros NE F H. assert (N := take_closest_some_nan v x c H).
  destruct (take_closest_spec v x NE F N) as (i & c0 & E & Hi & H1 & H2).
  rewrite H in E. injection E as <-.
  assert (Fc : finite c) by (eapply Forall_forall in F; [exact F| eapply nth_error_In; eauto]).
  destruct (take_closest_spec v c NE F (finite_not_nan c Fc)) as (j & b & E & Hj & K1 & K2).
  rewrite E. f_equal.
  assert (Fb : finite b) by (eapply Forall_forall in F; [exact F| eapply nth_error_In; eauto]).
  assert (Z : (ord (fabs (fsub c c)) = 0)%R).
  { destruct (fsub_diag c Fc) as (Nd & Od). rewrite ord_fabs by assumption. rewrite Od. apply Rabs_R0. }
  assert (Zb : (ord (fabs (fsub c b)) = 0)%R).
  { pose proof (K1 c ltac:(eapply nth_error_In; eauto)) as L. rewrite Z in L.
    pose proof (dist_nonneg c b (dist_nan c b Fb (finite_not_nan c Fc))). lra. }
  apply dist_zero in Zb; try assumption.
  destruct (Nat.lt_trichotomy i j) as [L|[->|L]].
  - specialize (K2 i c L Hi). rewrite Z in K2.
    pose proof (dist_nonneg c b (dist_nan c b Fb (finite_not_nan c Fc))). lra.
  - congruence.
  - specialize (H2 j b L Hj). rewrite (dist_ext x c b Fc Fb Zb) in H2. lra.
Qed.

Lemma take_closest_member (v : row) (a : f64) : Forall finite v -> In a v ->
  exists c, take_closest v a = Some c /\ feq a c = true.
Proof.
  intros F Ha. assert (Fa : finite a) by (eapply Forall_forall in F; [exact F|exact Ha]).
  assert (NE : v <> []) by (intros ->; contradiction).
  destruct (take_closest_spec v a NE F (finite_not_nan a Fa)) as (j & b & E & Hj & K1 & _).
  exists b. split; [exact E|].
  assert (Fb : finite b) by (eapply Forall_forall in F; [exact F| eapply nth_error_In; eauto]).
  assert (Z : (ord (fabs (fsub a a)) = 0)%R).
  { destruct (fsub_diag a Fa) as (Nd & Od). rewrite ord_fabs by assumption. rewrite Od. apply Rabs_R0. }
  specialize (K1 a Ha). rewrite Z in K1.
  pose proof (dist_nonneg a b (dist_nan a b Fb (finite_not_nan a Fa))) as P.
  assert (Zb : (ord (fabs (fsub a b)) = 0)%R) by lra.
  apply dist_zero in Zb; try assumption. apply feq_ord; try (now apply finite_not_nan).
  now rewrite !ord_fin by assumption.
Qed.

Lemma take_closest_real (v : row) (x c : f64) : Forall finite v -> finite x -> take_closest v x = Some c ->
  (Rabs (B2R x) <= bpow radix2 1022)%R -> Forall (fun r => Rabs (B2R r) <= bpow radix2 1022)%R v ->
  forall r, In r v -> (Rabs (B2R x - B2R c) <= (1 + bpow radix2 (-51)) * Rabs (B2R x - B2R r))%R.
Proof.
  intros F Fx H Bx Bv r Hr. assert (NE : v <> []) by (intros ->; contradiction).
  destruct (take_closest_spec v x NE F (finite_not_nan x Fx)) as (i & c0 & E & Hi & H1 & _).
  rewrite H in E. injection E as <-. specialize (H1 r Hr).
  assert (Ic : In c v) by (eapply nth_error_In; eauto).
  rewrite Forall_forall in F, Bv.
  assert (D : forall q, In q v -> exists eps, (Rabs eps <= bpow radix2 (-53))%R /\
    (ord (fabs (fsub x q)) = Rabs (B2R x - B2R q) * (1 + eps))%R).
  { intros q Hq. assert (Fq := F q Hq). specialize (Bv q Hq). simpl in Bv.
    destruct (FLT_plus_error_N_ex radix2 (-1074) 53 (fun t => negb (Z.even t)) (B2R x) (- B2R q)%R) as (eps & He & Hr').
    { apply generic_format_B2R. } { apply generic_format_opp, generic_format_B2R. }
    assert (U : Relative.u_ro radix2 53 = bpow radix2 (-53)).
    { unfold Relative.u_ro. change (-53 + 1)%Z with (-52)%Z. change (bpow radix2 (-52)) with (/ IZR (2 ^ 52))%R.
      change (bpow radix2 (-53)) with (/ IZR (2 ^ 53))%R. change (2 ^ 53)%Z with (2 * 2 ^ 52)%Z. rewrite mult_IZR.
      rewrite Rinv_mult. reflexivity. }
    rewrite U in He. assert (P := bpow_gt_0 radix2 (-53)).
    assert (P1 : (bpow radix2 (-53) <= / 2)%R).
    { change (/ 2)%R with (bpow radix2 (-1)). apply bpow_le. lia. }
    assert (He' : (Rabs eps <= bpow radix2 (-53))%R).
    { eapply Rle_trans; [exact He|]. apply Rmult_le_reg_r with (1 + bpow radix2 (-53))%R; [lra|].
      unfold Rdiv. rewrite Rmult_assoc, Rinv_l by lra. nra. }
    exists eps. split; [exact He'|].
    pose proof (Bminus_correct 53 1024 _ _ mode_NE x q Fx Fq) as M.
    change (round radix2 (FLT_exp (-1074) 53) (Znearest (fun t : Z => negb (Z.even t))) (B2R x + - B2R q)%R)
      with (rnd (B2R x - B2R q)) in Hr'.
    change (B2R x + - B2R q)%R with (B2R x - B2R q)%R in Hr'.
    assert (A1 : (Rabs (B2R x - B2R q) <= bpow radix2 1023)%R).
    { replace (bpow radix2 1023) with (bpow radix2 1022 + bpow radix2 1022)%R
        by (change 1023%Z with (1022 + 1)%Z; rewrite bpow_plus; change (bpow radix2 1) with 2%R; ring).
      eapply Rle_trans; [apply Rabs_triang|]. rewrite Rabs_Ropp. lra. }
    rewrite Rlt_bool_true in M.
    - destruct M as (M1 & M2 & _). fold (fsub x q) in M1, M2.
      rewrite ord_fabs by (now apply finite_not_nan). rewrite (ord_fin _ M2), M1, Hr'.
      rewrite Rabs_mult. f_equal. apply Rabs_pos_eq. apply Rabs_le_inv in He'. lra.
    - apply Rle_lt_trans with (rnd (bpow radix2 1023)).
      + rewrite <- (Rabs_pos_eq (rnd (bpow radix2 1023))).
        2: { rewrite round_generic; [apply bpow_ge_0|auto with typeclass_instances|].
             apply generic_format_bpow. unfold SpecFloat.fexp, SpecFloat.emin. lia. }
        apply Rabs_le. apply Rabs_le_inv in A1.
        rewrite (Rabs_pos_eq (rnd _)).
        2: { rewrite round_generic; [apply bpow_ge_0|auto with typeclass_instances|].
             apply generic_format_bpow. unfold SpecFloat.fexp, SpecFloat.emin. lia. }
        split; [|apply rnd_le; lra]. rewrite <- round_NE_opp. apply rnd_le. lra.
      + rewrite round_generic; [apply bpow_lt; lia|auto with typeclass_instances|].
        apply generic_format_bpow. unfold SpecFloat.fexp, SpecFloat.emin. lia. }
  destruct (D c Ic) as (e1 & B1 & E1). destruct (D r Hr) as (e2 & B2 & E2). rewrite E1, E2 in H1.
  apply Rabs_le_inv in B1. apply Rabs_le_inv in B2.
  set (A := Rabs (B2R x - B2R c)) in *. set (B := Rabs (B2R x - B2R r)) in *.
  assert (PA : (0 <= A)%R) by apply Rabs_pos. assert (PB : (0 <= B)%R) by apply Rabs_pos.
  set (u := bpow radix2 (-53)) in *.
  assert (U4 : bpow radix2 (-51) = (4 * u)%R).
  { unfold u. change (-51)%Z with (2 + -53)%Z. rewrite bpow_plus. reflexivity. }
  assert (Hu : (0 < u <= / 4)%R).
  { split; [apply bpow_gt_0|]. change (/ 4)%R with (bpow radix2 (-2)). apply bpow_le. lia. }
  rewrite U4. clearbody u A B. clear - H1 B1 B2 PA PB Hu.
  assert (X : (A * (1 - u) <= B * (1 + u))%R) by nra.
  assert (Y : ((1 + u) <= (1 + 4 * u) * (1 - u))%R) by nra.
  assert (Z : (A * (1 - u) <= (B * (1 + 4 * u)) * (1 - u))%R) by nra.
  apply Rmult_le_reg_r in Z; lra.
Qed.

(** ** Casting a row *)
Lemma cast_length ts : forall x y, cast_row ts x = Some y -> length y = length x.
Proof.
  induction ts as [|t ts IH]; intros x y H; simpl in H.
  - congruence.
  - destruct t as [lo hi|lo hi|v|n].
    + destruct x as [|a x]; [now apply IH|]. destruct (cast_row ts x) eqn:E; [|discriminate].
      injection H as <-. simpl. f_equal. now apply IH.
    + destruct x as [|a x]; [discriminate|]. destruct (cast_row ts x) eqn:E; [|discriminate].
      injection H as <-. simpl. f_equal. now apply IH.
    + destruct x as [|a x]; [discriminate|]. destruct (take_closest v a); [|discriminate].
      destruct (cast_row ts x) eqn:E; [|discriminate].
      injection H as <-. simpl. f_equal. now apply IH.
    + destruct (Nat.ltb_spec (length x) n) as [L|L]; [discriminate|].
      destruct (fargmax (firstn n x)); [|discriminate]. destruct (cast_row ts (skipn n x)) eqn:E; [|discriminate].
      injection H as <-. rewrite app_length, one_hot_length, (IH _ _ E), skipn_length. lia.
Qed.

Lemma dimension_cons t ts : dimension (t :: ts) = width t + dimension ts.
Proof. reflexivity. Qed.

(** What the cast does, without finiteness of the continuous variables. *)
Lemma firstn_block n (m x : row) : length m = n -> firstn n (m ++ x) = m /\ skipn n (m ++ x) = x.
Proof.
  intros <-. split.
  - rewrite firstn_app, Nat.sub_diag, firstn_all. simpl. apply app_nil_r.
  - rewrite skipn_app, Nat.sub_diag, skipn_all. reflexivity.
Qed.
Lemma firstn_mask n k m (x : row) : is_mask n k m -> firstn n (m ++ x) = m /\ skipn n (m ++ x) = x.
Proof. intros (_ & L & _). now apply firstn_block. Qed.

Lemma cast_spec ts : Forall usable ts -> forall x, Forall finite x -> length x = dimension ts ->
  exists y, cast_row ts x = Some y /\ nearest ts x y.
Proof.
  induction ts as [|t ts IH]; intros U x F L.
  - destruct x; [|discriminate]. exists []. split; [reflexivity|constructor].
  - rewrite dimension_cons in L. inversion U as [|? ? Ut Us]; subst. specialize (IH Us).
    destruct t as [lo hi|lo hi|v|n]; simpl in L.
    + destruct x as [|a x]; [discriminate|]. injection L as L. inversion F; subst. destruct (IH x) as (y & E & N); [assumption|assumption|].
      exists (a :: y). simpl. rewrite E. split; [reflexivity|now constructor].
    + destruct x as [|a x]; [discriminate|]. injection L as L. inversion F; subst. destruct (IH x) as (y & E & N); [assumption|assumption|].
      exists (fround a :: y). simpl. rewrite E. split; [reflexivity|].
      apply near_int with (ZnearestA (B2R a)); [now apply fround_is_integer|apply fround_close|assumption].
    + destruct x as [|a x]; [discriminate|]. injection L as L. inversion F; subst. destruct (IH x) as (y & E & N); [assumption|assumption|].
      destruct Ut as (NE & Fv).
      destruct (take_closest_spec v a NE Fv (finite_not_nan a ltac:(assumption))) as (i & c & Ec & Hi & Q1 & _).
      exists (c :: y). cbn [cast_row]. rewrite Ec, E. split; [reflexivity|].
      constructor; [eapply nth_error_In; eauto| |assumption].
      intros r Hr. rewrite Forall_forall in Fv. apply fle_ord.
      * apply dist_nan; [apply Fv; eapply nth_error_In; eauto|now apply finite_not_nan].
      * apply dist_nan; [now apply Fv|now apply finite_not_nan].
      * now apply Q1.
    + destruct Ut as (N1 & _).
      destruct (IH (skipn n x)) as (y & E & N).
      { rewrite Forall_forall in *. intros a Ha. apply F. rewrite <- (firstn_skipn n x). apply in_or_app. now right. }
      { rewrite skipn_length. lia. }
      assert (Lw : length (firstn n x) = n) by (rewrite firstn_length; lia).
      destruct (fargmax_spec (firstn n x)) as (k & m & Ek & Hk & Hm & _).
      { intros C. rewrite C in Lw. simpl in Lw. lia. }
      { apply Forall_forall. intros a Ha. apply finite_not_nan. rewrite Forall_forall in F. apply F.
        rewrite <- (firstn_skipn n x). apply in_or_app. now left. }
      assert (K : k < n) by (rewrite <- Lw; apply nth_error_Some; congruence).
      exists (one_hot n k ++ y). cbn [cast_row]. rewrite (proj2 (Nat.ltb_ge (length x) n)) by lia. rewrite Ek, E.
      split; [reflexivity|].
      rewrite <- (firstn_skipn n x) at 1. apply near_enum with k; [now apply one_hot_mask|assumption| |assumption].
      exists m. split; [assumption|]. intros wi Hw.
      assert (Nx : forall a, In a (firstn n x) -> fnan a = false).
      { intros a Ha. apply finite_not_nan. rewrite Forall_forall in F. apply F.
        rewrite <- (firstn_skipn n x). apply in_or_app. now left. }
      apply fle_ord; [now apply Nx|apply Nx; eapply nth_error_In; eauto|].
      apply In_nth_error in Hw. destruct Hw as (j & Hj). eauto.
Qed.

Lemma nearest_admissible ts x y : nearest ts x y -> admissible ts y.
Proof. induction 1; try (now constructor); econstructor; eauto. Qed.

Lemma cast_idem ts : Forall usable ts -> forall x y, cast_row ts x = Some y -> cast_row ts y = Some y.
Proof.
  induction ts as [|t ts IH]; intros U x y H; [reflexivity|].
  inversion U as [|? ? Ut Us]; subst. specialize (IH Us). simpl in H.
  destruct t as [lo hi|lo hi|v|n].
  - destruct x as [|a x].
    + pose proof (cast_length _ _ _ H) as L. destruct y; [|discriminate]. simpl. eapply IH; eauto.
    + destruct (cast_row ts x) as [z|] eqn:E; [|discriminate]. injection H as <-. simpl. now rewrite (IH _ _ E).
  - destruct x as [|a x]; [discriminate|]. destruct (cast_row ts x) as [z|] eqn:E; [|discriminate].
    injection H as <-. cbn [cast_row]. rewrite (IH _ _ E). now rewrite fround_idem.
  - destruct x as [|a x]; [discriminate|]. destruct (take_closest v a) as [c|] eqn:Ec; [|discriminate].
    destruct (cast_row ts x) as [z|] eqn:E; [|discriminate].
    injection H as <-. cbn [cast_row]. destruct Ut as (NE & Fv).
    rewrite (take_closest_idem v a c NE Fv Ec). now rewrite (IH _ _ E).
  - destruct (Nat.ltb_spec (length x) n) as [L|L]; [discriminate|].
    destruct (fargmax (firstn n x)) as [k|] eqn:Ek; [|discriminate].
    destruct (cast_row ts (skipn n x)) as [z|] eqn:E; [|discriminate].
    injection H as <-.
    assert (K : k < n).
    { unfold fargmax in Ek. destruct (existsb fnan (firstn n x)); [discriminate|]. apply argmin_by_bound in Ek.
      rewrite firstn_length in Ek. lia. }
    cbn [cast_row]. rewrite app_length, one_hot_length. rewrite (proj2 (Nat.ltb_ge (n + length z) n)) by lia.
    destruct (firstn_mask n k (one_hot n k) z (one_hot_mask n k K)) as (-> & ->).
    rewrite fargmax_one_hot by assumption. now rewrite (IH _ _ E).
Qed.

Lemma feq_refl a : fnan a = false -> feq a a = true.
Proof. intros N. now apply feq_ord. Qed.

Lemma cast_admissible ts : Forall usable ts -> forall x, admissible ts x -> Forall finite x ->
  exists y, cast_row ts x = Some y /\ same_numbers x y.
Proof.
  intros U x A. induction A as [|lo hi a ts x A IH|lo hi z a ts x Z A IH|v a ts x I A IH|n k m ts x M A IH]; intros F;
    inversion U as [|? ? Ut Us]; subst.
  - exists []. split; [reflexivity|constructor].
  - inversion F; subst. destruct (IH Us) as (y & E & S); [assumption|]. exists (a :: y). simpl. rewrite E.
    split; [reflexivity|]. constructor; [apply feq_refl; now apply finite_not_nan|assumption].
  - inversion F; subst. destruct (IH Us) as (y & E & S); [assumption|]. exists (a :: y). cbn [cast_row]. rewrite E.
    rewrite (fround_integer a z Z). split; [reflexivity|].
    constructor; [apply feq_refl; now apply finite_not_nan|assumption].
  - inversion F; subst. destruct (IH Us) as (y & E & S); [assumption|]. destruct Ut as (NE & Fv).
    destruct (take_closest_member v a Fv I) as (c & Ec & Q). exists (c :: y). cbn [cast_row]. rewrite Ec, E.
    split; [reflexivity|]. now constructor.
  - apply Forall_app in F. destruct F as (Fm & Fx). destruct (IH Us Fx) as (y & E & S).
    exists (m ++ y). cbn [cast_row]. assert (L := proj1 (proj2 M)).
    rewrite app_length, L. rewrite (proj2 (Nat.ltb_ge (n + length x) n)) by lia.
    destruct (firstn_mask n k m x M) as (-> & ->). rewrite (fargmax_mask n k m M), E.
    rewrite <- (is_mask_one_hot n k m M). split; [reflexivity|].
    apply Forall2_app; [|assumption]. clear - Fm. induction Fm; constructor; [apply feq_refl; now apply finite_not_nan|assumption].
Qed.

Lemma admissible_length ts x : admissible ts x -> length x = dimension ts.
Proof.
  induction 1; rewrite ?dimension_cons; cbn [length width].
  - reflexivity.
  - lia.
  - lia.
  - lia.
  - rewrite app_length, (proj1 (proj2 H)). lia.
Qed.

(** ** Bounds *)
Lemma limits_length ts : length (as_continuous_limits ts) = dimension ts.
Proof.
  induction ts as [|t ts IH]; [reflexivity|]. unfold as_continuous_limits in *. simpl flat_map.
  rewrite app_length, IH, dimension_cons. f_equal. destruct t; try reflexivity. simpl. apply repeat_length.
Qed.
Lemma fold_left_sum (l : list nat) : forall d, fold_left Nat.add l d = d + list_sum l.
Proof.
  induction l as [|w l IH]; intros d; cbn [fold_left].
  - unfold list_sum. cbn. lia.
  - rewrite IH. change (list_sum (w :: l)) with (w + list_sum l). lia.
Qed.
Lemma continuous_dim ts : ts <> [] -> compute_continuous_dim ts = Some (dimension ts).
Proof.
  intros NE. unfold compute_continuous_dim, dimension. destruct ts as [|t ts]; [congruence|].
  cbn [map]. f_equal. apply fold_left_sum.
Qed.

Lemma fold_min_le (v : row) : forall b, fnan b = false -> Forall finite v ->
  fnan (fold_left fmin v b) = false /\ (ord (fold_left fmin v b) <= ord b)%R /\
  (forall a, In a v -> (ord (fold_left fmin v b) <= ord a)%R).
Proof.
  induction v as [|c v IH]; intros b N F; simpl.
  - split; [assumption|]. split; [lra|]. contradiction.
  - inversion F; subst. destruct (fmin_ord b c N (finite_not_nan c ltac:(assumption))) as (N1 & O1).
    destruct (IH (fmin b c) N1) as (Q1 & Q2 & Q3); [assumption|]. rewrite O1 in Q2.
    pose proof (Rmin_l (ord b) (ord c)). pose proof (Rmin_r (ord b) (ord c)).
    split; [exact Q1|]. split; [lra|]. intros a [<-|Ha]; [lra|now apply Q3].
Qed.
Lemma fold_max_ge (v : row) : forall b, fnan b = false -> Forall finite v ->
  fnan (fold_left fmax v b) = false /\ (ord b <= ord (fold_left fmax v b))%R /\
  (forall a, In a v -> (ord a <= ord (fold_left fmax v b))%R).
Proof.
  induction v as [|c v IH]; intros b N F; simpl.
  - split; [assumption|]. split; [lra|]. contradiction.
  - inversion F; subst. destruct (fmax_ord b c N (finite_not_nan c ltac:(assumption))) as (N1 & O1).
    destruct (IH (fmax b c) N1) as (Q1 & Q2 & Q3); [assumption|]. rewrite O1 in Q2.
    pose proof (Rmax_l (ord b) (ord c)). pose proof (Rmax_r (ord b) (ord c)).
    split; [exact Q1|]. split; [lra|]. intros a [<-|Ha]; [lra|now apply Q3].
Qed.

Lemma Forall2_same_length {A B} (P : A -> B -> Prop) l m : Forall2 P l m -> length l = length m.
Proof. induction 1; simpl; congruence. Qed.

Lemma usable_int lo hi : usable (Int lo hi) -> forall z, (lo <= z <= hi)%Z -> is_integer (fofZ z) z.
Proof. intros (A & B & C) z Hz. apply fofZ_correct. lia. Qed.

Lemma integer_ord a z : is_integer a z -> ord a = IZR z /\ fnan a = false.
Proof. intros (F & E). rewrite ord_fin by assumption. split; [exact E|now apply finite_not_nan]. Qed.

Lemma domain_within ts : Forall usable ts -> forall x, in_domain ts x -> within_limits (as_continuous_limits ts) x.
Proof.
  intros U x D. induction D as [|lo hi a ts x L1 L2 D IH|lo hi z a ts x Z B D IH|v a ts x I D IH|n k m ts x M D IH];
    inversion U as [|? ? Ut Us]; subst; unfold as_continuous_limits; simpl flat_map.
  - constructor.
  - constructor; [split; assumption|now apply IH].
  - constructor; [|now apply IH]. destruct (integer_ord a z Z) as (Oa & Na). cbn [fst snd].
    destruct (integer_ord _ _ (usable_int lo hi Ut lo ltac:(lia))) as (Ol & Nl).
    destruct (integer_ord _ _ (usable_int lo hi Ut hi ltac:(lia))) as (Oh & Nh).
    split; apply fle_ord; try assumption; rewrite Oa, ?Ol, ?Oh; apply IZR_le; lia.
  - constructor; [|now apply IH]. cbn [fst snd]. destruct Ut as (NE & Fv).
    destruct (fold_min_le v finf fnan_finf Fv) as (N1 & _ & M1).
    destruct (fold_max_ge v fninf eq_refl Fv) as (N2 & _ & M2).
    assert (Na : fnan a = false) by (rewrite Forall_forall in Fv; apply finite_not_nan; now apply Fv).
    split; apply fle_ord; auto.
  - apply Forall2_app; [|now apply IH]. rewrite (is_mask_one_hot n k m M).
    assert (A : Forall (fun a => a = fone \/ a = fzero) (one_hot n k)).
    { apply Forall_forall. intros a Ha. apply In_nth_error in Ha. destruct Ha as (j & Hj).
      assert (J : j < n) by (rewrite <- (one_hot_length n k); apply nth_error_Some; congruence).
      rewrite one_hot_nth in Hj by assumption. injection Hj as <-. destruct (j =? k); tauto. }
    assert (L := one_hot_length n k). simpl. revert L A. generalize (one_hot n k). clear.
    induction n as [|n IH]; intros [|a l] L A; try discriminate; simpl; constructor.
    + inversion A; subst. cbn [fst snd].
      destruct H1 as [-> | ->]; split; apply fle_ord; try exact fnan_fone; try reflexivity; rewrite ?ord_fone, ?ord_fzero; lra.
    + inversion A; subst. apply IH; [now injection L|assumption].
Qed.

Lemma between_finite lo a hi : finite lo -> finite hi -> fle lo a = true -> fle a hi = true -> finite a.
Proof.
  intros Fl Fh L1 L2. destruct (fle_nan _ _ L1) as (Nl & Na). destruct (fle_nan _ _ L2) as (_ & Nh).
  apply fle_ord in L1; try assumption. apply fle_ord in L2; try assumption.
  rewrite ord_fin in L1 by assumption. rewrite (ord_fin hi) in L2 by assumption.
  pose proof (ord_inf_gt lo Fl). pose proof (ord_inf_gt hi Fh).
  destruct a as [s|[|]| |s m e H']; try discriminate; try reflexivity; unfold ord in *; lra.
Qed.

Lemma cast_domain ts : Forall usable ts -> forall x, within_limits (as_continuous_limits ts) x ->
  exists y, cast_row ts x = Some y /\ in_domain ts y.
Proof.
  induction ts as [|t ts IH]; intros U x W; unfold as_continuous_limits in W; simpl flat_map in W.
  - inversion W; subst. exists []. split; [reflexivity|constructor].
  - inversion U as [|? ? Ut Us]; subst. specialize (IH Us). fold (as_continuous_limits ts) in W.
    destruct t as [lo hi|lo hi|v|n]; simpl limits_of in W.
    + inversion W as [|? a ? x' (L1 & L2) W']; subst. destruct (IH x' W') as (y & E & D).
      exists (a :: y). simpl. rewrite E. split; [reflexivity|now constructor].
    + inversion W as [|? a ? x' (L1 & L2) W']; subst. cbn [fst snd] in L1, L2.
      destruct (IH x' W') as (y & E & D). exists (fround a :: y). cbn [cast_row]. rewrite E. split; [reflexivity|].
      destruct (fle_nan _ _ L1) as (Nl & Na). destruct (fle_nan _ _ L2) as (_ & Nh).
      assert (O : (lo <= hi)%Z) by apply Ut.
      destruct (usable_int lo hi Ut lo ltac:(lia)) as (Fl & El).
      destruct (usable_int lo hi Ut hi ltac:(lia)) as (Fh & Eh).
      assert (Fa : finite a) by (apply (between_finite (fofZ lo) a (fofZ hi)); assumption).
      apply fle_ord in L1; try assumption. apply fle_ord in L2; try assumption.
      rewrite !ord_fin in L1, L2 by assumption. rewrite El in L1. rewrite Eh in L2.
      apply dom_int with (ZnearestA (B2R a)); [now apply fround_is_integer| |assumption].
      split.
      * rewrite <- (@Zrnd_IZR ZnearestA _ lo). now apply (@Zrnd_le ZnearestA _).
      * rewrite <- (@Zrnd_IZR ZnearestA _ hi). now apply (@Zrnd_le ZnearestA _).
    + inversion W as [|? a ? x' (L1 & L2) W']; subst. destruct (IH x' W') as (y & E & D).
      destruct (fle_nan _ _ L1) as (_ & Na). destruct Ut as (NE & Fv).
      destruct (take_closest_spec v a NE Fv Na) as (i & c & Ec & Hi & _).
      exists (c :: y). cbn [cast_row]. rewrite Ec, E. split; [reflexivity|].
      constructor; [eapply nth_error_In; eauto|assumption].
    + apply Forall2_app_inv_l in W. destruct W as (w & x' & Ww & W' & ->).
      destruct (IH x' W') as (y & E & D).
      assert (Lw : length w = n) by (apply Forall2_same_length in Ww; rewrite repeat_length in Ww; congruence).
      assert (Nw : Forall (fun a => fnan a = false) w).
      { clear - Ww. revert Ww. generalize (repeat (fzero, fone) n) as l. intros l Ww.
        induction Ww as [|? ? ? ? (A & B)]; constructor; [apply (fle_nan _ _ A)|assumption]. }
      destruct (fargmax_spec w) as (k & m & Ek & Hk & _); [|assumption|].
      { intros ->. simpl in Lw. destruct Ut. lia. }
      assert (K : k < n) by (rewrite <- Lw; apply nth_error_Some; congruence).
      exists (one_hot n k ++ y). cbn [cast_row]. rewrite app_length, Lw.
      rewrite (proj2 (Nat.ltb_ge (n + length x') n)) by lia.
      destruct (firstn_block n w x' Lw) as (-> & ->). rewrite Ek, E. split; [reflexivity|]. apply dom_enum with k; [now apply one_hot_mask|assumption].
Qed.

(** ** Fold and unfold *)
Lemma last_only_cons t ts : last_only (t :: ts) -> ts = [] \/ (width t = 1 /\ last_only ts).
Proof.
  intros (pre & post & E & W & L). destruct pre as [|p pre].
  - simpl in E. subst post. simpl in L. left. destruct ts; [reflexivity|simpl in L; lia].
  - simpl in E. injection E as -> ->. right. inversion W; subst. split; [assumption|]. now exists pre, post.
Qed.

Lemma as_index_nat a k : is_integer a (Z.of_nat k) -> as_index a = Some k.
Proof.
  intros (F & E). pose proof (Btrunc_correct 53 1024 f64_emax a) as H. rewrite round_FIX_IZR, E in H.
  apply eq_IZR in H. rewrite (@Zrnd_IZR Ztrunc _) in H.
  destruct a as [s|s| |s m e B]; try discriminate; unfold as_index; rewrite H; f_equal; apply Nat2Z.id.
Qed.

Lemma nth_error_pre {A} (pre : list A) a x : nth_error (pre ++ a :: x) (length pre) = Some a.
Proof. rewrite nth_error_app2, Nat.sub_diag by lia. reflexivity. Qed.

Lemma usable_width t : usable t -> 1 <= width t.
Proof. destruct t; simpl; lia. Qed.

(** After the wide variable: scalars are read at the right column; a one-level variable has level 0 wherever it is read. *)
Lemma fold_scalars ts : Forall (fun t => width t = 1) ts -> forall x y, folded ts x y -> Forall finite x ->
  forall pre j, Forall finite pre -> j <= length pre ->
  exists y', fold_row_from j (length pre) ts (pre ++ x) = Some y' /\ same_numbers y y'.
Proof.
  induction ts as [|t ts IH]; intros W x y Fo Fx pre j Fp J.
  - inversion Fo; subst. exists []. split; [reflexivity|constructor].
  - inversion W as [|? ? Wt Ws]; subst.
    assert (Scal : forall a x0 y0, folded ts x0 y0 -> Forall finite (a :: x0) ->
      exists y', (do b <- nth_error (pre ++ a :: x0) (length pre);
                  do r <- fold_row_from (S j) (S (length pre)) ts (pre ++ a :: x0); Some (b :: r)) = Some y'
        /\ same_numbers (a :: y0) y').
    { intros a x0 y0 F0 Fin. inversion Fin; subst.
      destruct (IH Ws x0 y0 F0 ltac:(assumption) (pre ++ [a]) (S j)) as (y' & E & S).
      - apply Forall_app. split; [assumption|]. now constructor.
      - rewrite app_length. simpl. lia.
      - rewrite app_length in E. simpl length in E. rewrite Nat.add_1_r, <- app_assoc in E. simpl app in E.
        rewrite nth_error_pre, E. exists (a :: y'). split; [reflexivity|].
        constructor; [apply feq_refl; now apply finite_not_nan|assumption]. }
    inversion Fo as [|lo hi a ts0 x0 y0 F0|lo hi a ts0 x0 y0 F0|v a ts0 x0 y0 F0|n k m a ts0 x0 y0 Hm Ha F0]; subst; cbn [fold_row_from]; try (now apply Scal).
    simpl in Wt. subst n. pose proof (proj1 (proj2 Hm)) as Lm. pose proof (proj1 Hm) as K. assert (k = 0) by lia. subst k.
    rewrite !app_length, Lm. rewrite (proj2 (Nat.ltb_ge _ _)) by lia.
    assert (Q : exists c, firstn 1 (skipn j (pre ++ m ++ x0)) = [c] /\ finite c).
    { assert (Fall : Forall finite (pre ++ m ++ x0)) by (apply Forall_app; now split).
      destruct (nth_error (pre ++ m ++ x0) j) as [c|] eqn:E.
      2: { apply nth_error_None in E. rewrite !app_length in E. lia. }
      exists c. split.
      - apply nth_error_split in E. destruct E as (l1 & l2 & -> & <-).
        rewrite skipn_app, skipn_all, Nat.sub_diag. reflexivity.
      - rewrite Forall_forall in Fall. apply Fall. now apply nth_error_In in E. }
    destruct Q as (c & -> & Fc). unfold fargmax. cbn [existsb].
    rewrite (finite_not_nan c Fc). cbn [orb argmin_by].
    apply Forall_app in Fx. destruct Fx as (Fm & Fx0).
    destruct (IH Ws x0 y0 F0 Fx0 (pre ++ m) (S j)) as (y' & E & S).
    + apply Forall_app. now split.
    + rewrite app_length. lia.
    + rewrite app_length, Lm, <- app_assoc in E.
      rewrite E. eexists. split; [reflexivity|]. constructor; [|assumption].
      apply is_integer_unique with (Z.of_nat 0); [assumption|]. apply fofZ_correct. simpl. lia.
Qed.

Lemma one_wide_cons t ts : usable t -> Forall usable ts -> one_wide (t :: ts) ->
  (width t = 1 /\ one_wide ts) \/ Forall (fun t => width t = 1) ts.
Proof.
  intros Ut Us. unfold one_wide. cbn [filter]. apply usable_width in Ut. destruct (1 <? width t) eqn:E.
  - intros L. right. simpl in L. assert (Z : filter (fun t => 1 <? width t) ts = []) by (destruct filter; [reflexivity|simpl in L; lia]).
    rewrite Forall_forall in Us |- *. intros t' Ht. specialize (Us t' Ht). apply usable_width in Us.
    destruct (1 <? width t') eqn:E'.
    + assert (In t' (filter (fun t => 1 <? width t) ts)) by (apply filter_In; now split). now rewrite Z in *.
    + apply Nat.ltb_ge in E'. lia.
  - intros L. left. apply Nat.ltb_ge in E. split; [lia|exact L].
Qed.

Lemma fold_layout ts : Forall usable ts -> one_wide ts -> forall x y, folded ts x y -> Forall finite x ->
  forall pre, Forall finite pre -> exists y', fold_row_from (length pre) (length pre) ts (pre ++ x) = Some y' /\ same_numbers y y'.
Proof.
  induction ts as [|t ts IH]; intros U LO x y Fo Fx pre Fp.
  - inversion Fo; subst. exists []. split; [reflexivity|constructor].
  - inversion U as [|? ? Ut Us]; subst.
    destruct (one_wide_cons t ts Ut Us LO) as [(W1 & LO')|Ws].
    + assert (Scal : forall a x0 y0, folded ts x0 y0 -> Forall finite (a :: x0) ->
        exists y', (do b <- nth_error (pre ++ a :: x0) (length pre);
                  do r <- fold_row_from (S (length pre)) (S (length pre)) ts (pre ++ a :: x0); Some (b :: r)) = Some y'
          /\ same_numbers (a :: y0) y').
      { intros a x0 y0 F0 Fin. inversion Fin; subst.
        destruct (IH Us LO' x0 y0 F0 ltac:(assumption) (pre ++ [a])) as (y' & E & S).
        { apply Forall_app. split; [assumption|]. now constructor. }
        rewrite app_length in E. simpl length in E. rewrite Nat.add_1_r, <- app_assoc in E. simpl app in E.
        rewrite nth_error_pre, E. exists (a :: y'). split; [reflexivity|].
        constructor; [apply feq_refl; now apply finite_not_nan|assumption]. }
      inversion Fo as [|lo hi a ts0 x0 y0 F0|lo hi a ts0 x0 y0 F0|v a ts0 x0 y0 F0|n k m a ts0 x0 y0 Hm Ha F0]; subst; cbn [fold_row_from]; try (now apply Scal).
      pose proof (proj1 (proj2 Hm)) as Lm. simpl in W1. subst n.
      apply Forall_app in Fx. destruct Fx as (Fm & Fx0).
      rewrite !app_length, Lm. rewrite (proj2 (Nat.ltb_ge _ _)) by lia.
      rewrite skipn_app, skipn_all, Nat.sub_diag. cbn [skipn app].
      destruct (firstn_mask 1 k m x0 Hm) as (-> & _). rewrite (fargmax_mask 1 k m Hm).
      assert (Ik : is_integer (fofZ (Z.of_nat k)) (Z.of_nat k)).
      { apply fofZ_correct. destruct Ut as (_ & Un). destruct Hm as (K & _). lia. }
      destruct (IH Us LO' x0 y0 F0 Fx0 (pre ++ m)) as (y' & E & S); [apply Forall_app; now split|].
      rewrite app_length, Lm, Nat.add_1_r, <- app_assoc in E. rewrite Nat.add_1_r, E.
      exists (fofZ (Z.of_nat k) :: y'). split; [reflexivity|]. constructor; [|assumption].
      now apply is_integer_unique with (Z.of_nat k).
    + assert (Scal : forall a x0 y0, folded ts x0 y0 -> Forall finite (a :: x0) ->
        exists y', (do b <- nth_error (pre ++ a :: x0) (length pre);
                  do r <- fold_row_from (S (length pre)) (S (length pre)) ts (pre ++ a :: x0); Some (b :: r)) = Some y'
          /\ same_numbers (a :: y0) y').
      { intros a x0 y0 F0 Fin. inversion Fin; subst.
        destruct (fold_scalars ts Ws x0 y0 F0 ltac:(assumption) (pre ++ [a]) (S (length pre))) as (y' & E & S).
        { apply Forall_app. split; [assumption|]. now constructor. }
        { rewrite app_length. simpl. lia. }
        rewrite app_length in E. simpl length in E. rewrite Nat.add_1_r, <- app_assoc in E. simpl app in E.
        rewrite nth_error_pre, E. exists (a :: y'). split; [reflexivity|].
        constructor; [apply feq_refl; now apply finite_not_nan|assumption]. }
      inversion Fo as [|lo hi a ts0 x0 y0 F0|lo hi a ts0 x0 y0 F0|v a ts0 x0 y0 F0|n k m a ts0 x0 y0 Hm Ha F0]; subst; cbn [fold_row_from]; try (now apply Scal).
      pose proof (proj1 (proj2 Hm)) as Lm. apply Forall_app in Fx. destruct Fx as (Fm & Fx0).
      rewrite !app_length, Lm. rewrite (proj2 (Nat.ltb_ge _ _)) by lia.
      rewrite skipn_app, skipn_all, Nat.sub_diag. cbn [skipn app].
      destruct (firstn_mask n k m x0 Hm) as (-> & _). rewrite (fargmax_mask n k m Hm).
      assert (Ik : is_integer (fofZ (Z.of_nat k)) (Z.of_nat k)).
      { apply fofZ_correct. destruct Ut as (_ & Un). destruct Hm as (K & _). lia. }
      destruct (fold_scalars ts Ws x0 y0 F0 Fx0 (pre ++ m) (S (length pre))) as (y' & E & S).
      { apply Forall_app. now split. }
      { rewrite app_length. destruct Ut. lia. }
      rewrite app_length, Lm, <- app_assoc in E. rewrite E.
      exists (fofZ (Z.of_nat k) :: y'). split; [reflexivity|]. constructor; [|assumption].
      now apply is_integer_unique with (Z.of_nat k).
Qed.

Lemma folded_finite ts x y : folded ts x y -> Forall finite y -> Forall finite x.
Proof.
  intros H. induction H; intros F; [constructor| | | |]; inversion F; subst; try (constructor; auto; fail).
 apply Forall_app. split; [|auto].
  destruct H as (K & L & N). rewrite Forall_forall. intros c Hc. apply In_nth_error in Hc. destruct Hc as (i & Hi).
  assert (I : i < n) by (rewrite <- L; apply nth_error_Some; congruence). rewrite (N i I) in Hi. injection Hi as <-.
  destruct (i =? k); reflexivity.
Qed.

Lemma last_only_wide ts : last_only ts -> one_wide ts.
Proof.
  intros (pre & post & -> & W & L). unfold one_wide. rewrite filter_app, app_length.
  assert (Z : filter (fun t => 1 <? width t) pre = []).
  { induction W as [|t pre Wt W IH]; [reflexivity|]. cbn [filter]. rewrite Wt. exact IH. }
  rewrite Z. destruct post as [|t [|]]; simpl in *; [lia| |lia]. destruct (1 <? width t); simpl; lia.
Qed.

Lemma unfold_layout ts : Forall usable ts -> last_only ts -> forall x y, folded ts x y ->
  forall pre, unfold_row_from (length pre) (length pre) ts (pre ++ y) = Some x.
Proof.
  induction ts as [|t ts IH]; intros U LO x y Fo pre.
  - inversion Fo; subst. reflexivity.
  - inversion U as [|? ? Ut Us]; subst.
    assert (LO' : last_only ts).
    { destruct (last_only_cons t ts LO) as [->|(_ & L)]; [|exact L]. exists [], []. simpl. repeat split; [constructor|lia]. }
    assert (Next : forall a x0 y0, folded ts x0 y0 ->
      unfold_row_from (S (length pre)) (S (length pre)) ts (pre ++ a :: y0) = Some x0).
    { intros a x0 y0 F0. pose proof (IH Us LO' x0 y0 F0 (pre ++ [a])) as E.
      rewrite app_length in E. simpl length in E. rewrite Nat.add_1_r, <- app_assoc in E. exact E. }
    inversion Fo as [|lo hi a ts0 x0 y0 F0|lo hi a ts0 x0 y0 F0|v a ts0 x0 y0 F0|n k m a ts0 x0 y0 Hm Ha F0]; subst; cbn [unfold_row_from]; rewrite nth_error_pre; try (now rewrite (Next _ _ _ F0)).
    rewrite (as_index_nat a k) by assumption. pose proof (proj1 Hm) as K.
    rewrite (proj2 (Nat.ltb_lt k n)) by assumption. rewrite <- (is_mask_one_hot n k m Hm).
    destruct (last_only_cons _ ts LO) as [->|(W1 & _)].
    + inversion F0; subst. reflexivity.
    + simpl in W1. rewrite W1, Nat.add_1_r, (Next _ _ _ F0). reflexivity.
Qed.

(** ** Matrices *)
Lemma mapM_rel {A B} (f : A -> option B) (P : A -> Prop) (R : A -> B -> Prop) :
  (forall a, P a -> exists b, f a = Some b /\ R a b) ->
  forall l, Forall P l -> exists m, mapM f l = Some m /\ Forall2 R l m.
Proof.
  intros H l. induction l as [|a l IH]; intros F; simpl.
  - exists []. split; [reflexivity|constructor].
  - inversion F; subst. destruct (H a) as (b & -> & Rb); [assumption|].
    destruct (IH ltac:(assumption)) as (m & -> & Rm). exists (b :: m). split; [reflexivity|now constructor].
Qed.
Lemma mapM_inv {A B} (f : A -> option B) l : forall m, mapM f l = Some m -> Forall2 (fun a b => f a = Some b) l m.
Proof.
  induction l as [|a l IH]; intros m H; simpl in H.
  - injection H as <-. constructor.
  - destruct (f a) eqn:E; [|discriminate]. destruct (mapM f l) eqn:E2; [|discriminate]. injection H as <-.
    constructor; auto.
Qed.
Lemma mapM_intro {A B} (f : A -> option B) l m : Forall2 (fun a b => f a = Some b) l m -> mapM f l = Some m.
Proof. induction 1 as [|a b l m H F IH]; simpl; [reflexivity|]. now rewrite H, IH. Qed.
Lemma Forall2_imp {A B} (P Q : A -> B -> Prop) l m : (forall a b, P a b -> Q a b) -> Forall2 P l m -> Forall2 Q l m.
Proof. intros H F. induction F; constructor; auto. Qed.


Lemma cast_matrix ts x : Forall usable ts -> Forall (point_ok ts) x ->
  exists y, cast_to_discrete_values ts x = Some y /\ Forall2 (nearest ts) x y.
Proof.
  intros U F. apply (mapM_rel (cast_row ts) (point_ok ts)); [|assumption].
  intros a (A & B). now apply cast_spec.
Qed.

Lemma cast_matrix_idem ts x y : Forall usable ts -> cast_to_discrete_values ts x = Some y ->
  cast_to_discrete_values ts y = Some y.
Proof.
  intros U H. apply mapM_inv in H. apply mapM_intro.
  induction H as [|a b x y H F IH]; constructor; [|assumption]. eapply cast_idem; eauto.
Qed.

Lemma cast_matrix_admissible ts x : Forall usable ts -> Forall (fun r => admissible ts r /\ Forall finite r) x ->
  exists y, cast_to_discrete_values ts x = Some y /\ Forall2 same_numbers x y.
Proof.
  intros U F. apply (mapM_rel (cast_row ts) (fun r => admissible ts r /\ Forall finite r)); [|assumption].
  intros a (A & B). now apply cast_admissible.
Qed.

Lemma cast_matrix_domain ts x : Forall usable ts -> Forall (within_limits (as_continuous_limits ts)) x ->
  exists y, cast_to_discrete_values ts x = Some y /\ Forall (in_domain ts) y /\
            Forall (within_limits (as_continuous_limits ts)) y.
Proof.
  intros U F. destruct (mapM_rel (cast_row ts) (within_limits (as_continuous_limits ts)) (fun _ y => in_domain ts y)
    (cast_domain ts U) x F) as (y & E & R). exists y. split; [exact E|].
  assert (D : Forall (in_domain ts) y) by (clear - R; induction R; constructor; auto).
  split; [exact D|]. eapply Forall_impl; [|exact D]. intros r. now apply domain_within.
Qed.

Lemma nearest_finite ts x y : Forall usable ts -> nearest ts x y -> Forall finite x -> Forall finite y.
Proof.
  intros U N. induction N as [|lo hi a ts x y N IH|lo hi z a b ts x y Z D N IH|v a b ts x y I D N IH|n k w m ts x y M L W N IH];
    intros F; inversion U as [|? ? Ut Us]; subst.
  - constructor.
  - inversion F; subst. constructor; auto.
  - inversion F; subst. constructor; [apply Z|auto].
  - inversion F; subst. constructor; [|auto]. destruct Ut as (_ & Fv). rewrite Forall_forall in Fv. auto.
  - apply Forall_app in F. apply Forall_app. split; [|now apply IH].
    rewrite (is_mask_one_hot _ _ _ M). apply Forall_forall. intros a Ha. apply In_nth_error in Ha. destruct Ha as (j & Hj).
    assert (J : j < length w) by (rewrite <- (one_hot_length (length w) k); apply nth_error_Some; congruence).
    rewrite one_hot_nth in Hj by assumption. injection Hj as <-. destruct (j =? k); [exact fone_finite|reflexivity].
Qed.

Lemma fold_exists ts x : Forall usable ts -> admissible ts x -> Forall finite x ->
  exists u, folded ts x u /\ Forall finite u.
Proof.
  intros U A. induction A as [|lo hi a ts x A IH|lo hi z a ts x Z A IH|v a ts x I A IH|n k m ts x M A IH]; intros F;
    inversion U as [|? ? Ut Us]; subst.
  - exists []. split; constructor.
  - inversion F; subst. destruct IH as (u & H & H'); try assumption. exists (a :: u). split; constructor; assumption.
  - inversion F; subst. destruct IH as (u & H & H'); try assumption. exists (a :: u). split; constructor; assumption.
  - inversion F; subst. destruct IH as (u & H & H'); try assumption. exists (a :: u). split; constructor; assumption.
  - apply Forall_app in F. destruct F as (_ & F). destruct IH as (u & H & H'); try assumption.
    assert (Ik : is_integer (fofZ (Z.of_nat k)) (Z.of_nat k)).
    { apply fofZ_correct. destruct Ut as (_ & Un). destruct M as (K & _). lia. }
    exists (fofZ (Z.of_nat k) :: u). split; [econstructor; eassumption|]. constructor; [apply Ik|assumption].
Qed.

Lemma to_discrete_layout ts x : Forall usable ts -> one_wide ts -> Forall (point_ok ts) x ->
  exists d, to_discrete_space ts x = Some d /\
    Forall2 (fun r u => exists c u0, nearest ts r c /\ folded ts c u0 /\ same_numbers u0 u) x d.
Proof.
  intros U LO F. unfold to_discrete_space. destruct (cast_matrix ts x U F) as (c & -> & N).
  unfold fold_with_enum_index. induction N as [|r y x c N Ns IH].
  - exists []. split; [reflexivity|constructor].
  - inversion F as [|? ? (Fr & Lr) F']; subst. destruct (IH F') as (d & E & R).
    pose proof (nearest_finite ts r y U N Fr) as Fy.
    destruct (fold_exists ts y U (nearest_admissible _ _ _ N) Fy) as (u0 & Fo & Fu).
    destruct (fold_layout ts U LO y u0 Fo Fy [] ltac:(constructor)) as (u & Eu & S). simpl in Eu.
    exists (u :: d). cbn [mapM]. change (fold_row ts y) with (fold_row_from 0 0 ts y). rewrite Eu, E. split; [reflexivity|]. constructor; [|assumption].
    exists y, u0. tauto.
Qed.

Lemma suggest_layout ts (proposals : list row -> list row) x xr : Forall usable ts -> ts <> [] -> last_only ts ->
  Forall2 (folded ts) xr x -> Forall (point_ok ts) (proposals xr) ->
  exists d, suggest ts proposals x = Some d /\
    Forall2 (fun r u => exists c u0, nearest ts r c /\ folded ts c u0 /\ same_numbers u0 u) (proposals xr) d.
Proof.
  intros U NE LO F P. unfold suggest, unfold_with_enum_mask. rewrite (continuous_dim ts NE).
  assert (E : mapM (unfold_row_from 0 0 ts) x = Some xr).
  { apply mapM_intro. clear P. induction F as [|r u xr x H F IH]; constructor; [|assumption].
    exact (unfold_layout ts U LO r u H []). }
  rewrite E. apply last_only_wide in LO. now apply to_discrete_layout.
Qed.

Lemma surrogate_cast_invariant {A} ts (predictor : list row -> A) x xc : Forall usable ts ->
  cast_to_discrete_values ts x = Some xc ->
  mixint_predict ts false predictor x = Some (predictor xc) /\
  mixint_predict ts false predictor xc = Some (predictor xc).
Proof.
  intros U H. unfold mixint_predict, surrogate_input. rewrite H, (cast_matrix_idem ts x xc U H). split; reflexivity.
Qed.

(** ** Reported and evaluated designs *)
Lemma to_discrete_rows ts x d : to_discrete_space ts x = Some d -> Forall2 (fun r u => to_discrete_row ts r = Some u) x d.
Proof.
  unfold to_discrete_space, to_discrete_row. destruct (cast_to_discrete_values ts x) as [c|] eqn:E; [|discriminate].
  intros H. apply mapM_inv in E. apply mapM_inv in H. revert d H.
  induction E as [|r y x c Hr E IH]; intros d H; inversion H; subst; constructor; [|auto]. now rewrite Hr.
Qed.

(** The conversion to user space never panics, whatever the layout. *)
Lemma nth_error_some_lt {A} (l : list A) i : i < length l -> exists a, nth_error l i = Some a.
Proof. intros L. destruct (nth_error l i) eqn:E; [eauto|]. apply nth_error_None in E. lia. Qed.

Lemma fold_total ts : Forall usable ts -> forall x j u, j <= u -> length x = u + dimension ts ->
  Forall (fun a => fnan a = false) x -> exists y, fold_row_from j u ts x = Some y /\ length y = length ts.
Proof.
  induction ts as [|t ts IH]; intros U x j u L D N; cbn [fold_row_from].
  - exists []. split; reflexivity.
  - inversion U as [|? ? Ut Us]; subst. rewrite dimension_cons in D.
    assert (Sc : width t = 1 -> exists y, (do a <- nth_error x u; do r <- fold_row_from (S j) (S u) ts x; Some (a :: r)) = Some y
                 /\ length y = length (t :: ts)).
    { intros W. rewrite W in D. destruct (nth_error_some_lt x u ltac:(lia)) as (a & ->).
      destruct (IH Us x (S j) (S u) ltac:(lia) ltac:(lia) N) as (y & -> & Ly). exists (a :: y). split; [reflexivity|]. simpl. lia. }
    destruct t as [lo hi|lo hi|v|n]; try (now apply Sc). clear Sc. cbn [width] in D. destruct Ut as (N1 & _).
    rewrite (proj2 (Nat.ltb_ge _ _)) by lia.
    destruct (fargmax_spec (firstn n (skipn j x))) as (m & w & -> & _).
    + intros C. apply (f_equal (@length f64)) in C. rewrite firstn_length, skipn_length in C. simpl in C. lia.
    + apply Forall_forall. intros a Ha. rewrite Forall_forall in N. apply N.
      assert (In a (skipn j x)) by (rewrite <- (firstn_skipn n (skipn j x)); apply in_or_app; now left).
      rewrite <- (firstn_skipn j x). apply in_or_app. now right.
    + destruct (IH Us x (S j) (u + n) ltac:(lia) ltac:(lia) N) as (y & -> & Ly).
      eexists. split; [reflexivity|]. simpl. lia.
Qed.

Lemma to_discrete_total ts x : Forall usable ts -> Forall (point_ok ts) x ->
  exists d, to_discrete_space ts x = Some d /\ Forall2 (fun _ u => length u = length ts) x d.
Proof.
  intros U F. unfold to_discrete_space. destruct (cast_matrix ts x U F) as (c & -> & N).
  unfold fold_with_enum_index. induction N as [|r y x c N Ns IH].
  - exists []. split; [reflexivity|constructor].
  - inversion F as [|? ? (Fr & Lr) F']; subst. destruct (IH F') as (d & E & R).
    pose proof (nearest_finite ts r y U N Fr) as Fy.
    destruct (fold_total ts U y 0 0 (le_n 0)) as (u & Eu & Lu).
    + simpl. apply admissible_length. eapply nearest_admissible; eauto.
    + eapply Forall_impl; [|exact Fy]. intros a. apply finite_not_nan.
    + exists (u :: d). cbn [mapM]. change (fold_row ts y) with (fold_row_from 0 0 ts y). rewrite Eu, E.
      split; [reflexivity|]. now constructor.
Qed.

(** Without discrete variables, points are left as they are. *)
Lemma not_discrete ts : discrete ts = false -> Forall (fun t => exists lo hi, t = Float lo hi) ts.
Proof.
  unfold discrete. induction ts as [|t ts IH]; cbn [existsb]; intros H; constructor;
    apply orb_false_iff in H; destruct H as (H & H'); [|now apply IH].
  destruct t; try discriminate H. eauto.
Qed.
Lemma floats_same ts : Forall (fun t => exists lo hi, t = Float lo hi) ts -> forall x, point_ok ts x ->
  nearest ts x x /\ folded ts x x /\ same_numbers x x /\ length x = length ts.
Proof.
  induction 1 as [|t ts (lo & hi & ->) _ IH]; intros x (F & L).
  - destruct x; [|discriminate L]. repeat split; constructor.
  - destruct x as [|a x]; [discriminate L|]. inversion F as [|? ? Fa Fx]; subst.
    destruct (IH x) as (A & B & C & D); [split; [assumption|now injection L]|].
    split; [now constructor|]. split; [now constructor|]. split; [|simpl; now rewrite D].
    constructor; [now apply feq_refl, finite_not_nan|assumption].
Qed.
Lemma continuous_discrete ts : continuous ts -> discrete ts = false.
Proof. induction 1 as [|t ts (lo & hi & ->) _ IH]; [reflexivity|exact IH]. Qed.
