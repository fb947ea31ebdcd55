(** Proofs about mixture training and hard recombination. *)
From Coq Require Import ZArith Reals List Arith Lia Bool Permutation Lra.
From Flocq Require Import Core.Core IEEE754.BinarySingleNaN Relative.
From Verif Require Import F64 Util Moe_Model Moe_Spec.
Import ListNotations.
Local Open Scope nat_scope.

(** ** Selecting rows *)
Lemma rows_from_app {A} p (a b : list A) k : rows_from k p (a ++ b) = rows_from k p a ++ rows_from (k + length a) p b.
Proof.
  revert k; induction a as [|r a IH]; intros k; simpl; [now rewrite Nat.add_0_r|].
  rewrite IH, <- app_assoc. do 3 f_equal. lia.
Qed.
Lemma select_app {A} (data : list A) i j : select data (i ++ j) =
  match select data i, select data j with Some a, Some b => Some (a ++ b) | _, _ => None end.
Proof.
  unfold select. induction i as [|k i IH]; simpl; [now destruct (mapM _ j)|].
  destruct (nth_error data k); [|reflexivity]. rewrite IH. destruct (mapM _ i); [|reflexivity].
  now destruct (mapM _ j).
Qed.
Lemma select_filter {A} (pre data : list A) p :
  select (pre ++ data) (filter p (seq (length pre) (length data))) = Some (rows_from (length pre) p data).
Proof.
  revert pre. induction data as [|r data IH]; intros pre; simpl; [reflexivity|].
  specialize (IH (pre ++ [r])). rewrite app_length in IH. simpl in IH. rewrite Nat.add_1_r, <- app_assoc in IH. simpl in IH.
  destruct (p (length pre)).
  - unfold select in *. simpl. rewrite nth_error_app2, Nat.sub_diag by lia. simpl. rewrite IH. reflexivity.
  - exact IH.
Qed.
Lemma rows_split {A} p (data : list A) k : Permutation (rows_from k p data ++ rows_from k (fun i => negb (p i)) data) data.
Proof.
  revert k; induction data as [|r data IH]; intros k; simpl; [constructor|]. specialize (IH (S k)).
  destruct (p k); simpl; [now constructor|].
  eapply Permutation_trans; [|apply Permutation_cons; [reflexivity|exact IH]].
  apply Permutation_sym, Permutation_middle.
Qed.

(** ** Single precision *)
Section F32.
Local Open Scope R_scope.
Local Notation fexp32 := (SpecFloat.fexp 24 128).
Local Notation rnd32 := (round radix2 fexp32 (round_mode mode_NE)).
Lemma valid32 : Valid_exp fexp32.
Proof. apply (FLT_exp_valid (SpecFloat.emin 24 128) 24). Qed.
Local Existing Instance valid32.
Lemma mono32 : Monotone_exp fexp32.
Proof. apply (FLT_exp_monotone (SpecFloat.emin 24 128) 24). Qed.
Local Existing Instance mono32.

Lemma fmtZ32 z : (Z.abs z <= 16777216)%Z -> generic_format radix2 fexp32 (IZR z).
Proof.
  intros H. destruct (Z.eq_dec (Z.abs z) 16777216) as [E|E].
  - assert (P : generic_format radix2 fexp32 (IZR 16777216)).
    { change (IZR 16777216) with (bpow radix2 24). apply generic_format_bpow. unfold SpecFloat.fexp, SpecFloat.emin. lia. }
    assert (Z : z = 16777216%Z \/ z = (- 16777216)%Z) by lia. destruct Z as [->| ->]; [exact P|].
    change (-16777216)%Z with (Z.opp 16777216); rewrite opp_IZR. now apply generic_format_opp.
  - apply generic_format_FLT. exists (Float radix2 z 0).
    + unfold F2R. simpl. lra.
    + simpl. change (2 ^ 24)%Z with 16777216%Z. lia.
    + simpl. unfold SpecFloat.emin. lia.
Qed.
Lemma rnd32_id x : generic_format radix2 fexp32 x -> rnd32 x = x.
Proof. intros; apply round_generic; auto with typeclass_instances. Qed.
Lemma rnd32_le x z : (Z.abs z <= 16777216)%Z -> x <= IZR z -> rnd32 x <= IZR z.
Proof.
  intros Hz H. rewrite <- (rnd32_id (IZR z) (fmtZ32 z Hz)). now apply round_le; auto with typeclass_instances.
Qed.
Lemma rnd32_ge x z : (Z.abs z <= 16777216)%Z -> IZR z <= x -> IZR z <= rnd32 x.
Proof.
  intros Hz H. rewrite <- (rnd32_id (IZR z) (fmtZ32 z Hz)). now apply round_le; auto with typeclass_instances.
Qed.
Lemma small32 x : 0 <= x <= 1073741824 -> Rlt_bool (Rabs (rnd32 x)) (bpow radix2 128) = true.
Proof.
  intros [L U]. apply Rlt_bool_true. apply Rle_lt_trans with (bpow radix2 30); [|apply bpow_lt; lia].
  assert (F : generic_format radix2 fexp32 (bpow radix2 30)) by (apply generic_format_bpow; unfold SpecFloat.fexp, SpecFloat.emin; lia).
  rewrite Rabs_pos_eq.
  - rewrite <- (rnd32_id _ F). apply round_le; auto with typeclass_instances.
  - rewrite <- (rnd32_id 0) by apply generic_format_0. now apply round_le; auto with typeclass_instances.
Qed.
Definition is32 (a : f32) (x : R) : Prop := is_finite a = true /\ B2R a = x.
Lemma ofN32_R n : INR n <= 1073741824 -> is32 (ofN32 n) (rnd32 (INR n)).
Proof.
  intros H. unfold ofN32. pose proof (binary_normalize_correct 24 128 f32_prec f32_emax mode_NE (Z.of_nat n) 0 false) as C.
  cbv zeta in C. assert (E : F2R (Float radix2 (Z.of_nat n) 0) = INR n).
  { unfold F2R. simpl. rewrite Rmult_1_r. now rewrite <- INR_IZR_INZ. }
  rewrite E, small32 in C by (split; [apply pos_INR|exact H]). destruct C as (C & F & _). now split.
Qed.
Lemma INR_le_Z n z : (Z.of_nat n <= z)%Z -> INR n <= IZR z.
Proof. intros. rewrite INR_IZR_INZ. now apply IZR_le. Qed.
Lemma ofN32_exact n : (Z.of_nat n <= 16777216)%Z -> is32 (ofN32 n) (INR n).
Proof.
  intros H. destruct (ofN32_R n) as [F E]; [apply Rle_trans with (IZR 16777216); [now apply INR_le_Z|lra]|].
  split; [exact F|]. rewrite E, INR_IZR_INZ. apply rnd32_id, fmtZ32. lia.
Qed.
Lemma mul32 a b x y : is32 a x -> is32 b y -> 0 <= x * y <= 1073741824 -> is32 (Bmult mode_NE a b) (rnd32 (x * y)).
Proof.
  intros (Fa & <-) (Fb & <-) S. pose proof (Bmult_correct 24 128 _ _ mode_NE a b) as H.
  rewrite small32 in H by exact S. destruct H as (H & F & _). rewrite Fa, Fb in F. now split.
Qed.
Lemma div32 a b x y : is32 a x -> is32 b y -> y <> 0 -> 0 <= x / y <= 1073741824 -> is32 (Bdiv mode_NE a b) (rnd32 (x / y)).
Proof.
  intros (Fa & <-) (Fb & <-) N S. pose proof (Bdiv_correct 24 128 _ _ mode_NE a b N) as H.
  rewrite small32 in H by exact S. destruct H as (H & F & _). rewrite Fa in F. now split.
Qed.
Lemma sub0_32 a x : is32 a x -> 0 <= x <= 1073741824 -> is32 (Bminus mode_NE a (B754_zero false)) x.
Proof.
  intros (Fa & <-) S. pose proof (Bminus_correct 24 128 _ _ mode_NE a (B754_zero false) Fa eq_refl) as H.
  simpl (B2R (B754_zero false)) in H. rewrite Rminus_0_r, small32 in H by exact S. destruct H as (H & F & _).
  split; [exact F|]. rewrite H. apply rnd32_id, generic_format_B2R.
Qed.
Lemma add0_32 a x : is32 a x -> 0 <= x <= 1073741824 -> is32 (Bplus mode_NE (B754_zero false) a) x.
Proof.
  intros (Fa & <-) S. pose proof (Bplus_correct 24 128 _ _ mode_NE (B754_zero false) a eq_refl Fa) as H.
  simpl (B2R (B754_zero false)) in H. rewrite Rplus_0_l, small32 in H by exact S. destruct H as (H & F & _).
  split; [exact F|]. rewrite H. apply rnd32_id, generic_format_B2R.
Qed.
Lemma toN32_R a x : is32 a x -> 0 <= x -> Z.of_nat (toN32 a) = Ztrunc x.
Proof.
  intros (Fa & <-) P. pose proof (Btrunc_correct 24 128 f32_emax a) as H. rewrite round_FIX_IZR in H.
  apply eq_IZR in H. unfold toN32. rewrite H. apply Z2Nat.id. rewrite Ztrunc_floor by exact P.
  apply Zfloor_lub. exact P.
Qed.
Lemma toN32_exact a n : is32 a (INR n) -> toN32 a = n.
Proof.
  intros H. apply Nat2Z.inj. rewrite (toN32_R a (INR n) H (pos_INR n)). rewrite INR_IZR_INZ. apply Ztrunc_IZR.
Qed.
Lemma ceilN32_R a w : is32 a w -> 0 <= w <= 16777216 -> Z.of_nat (ceilN32 a) = Zceil w.
Proof.
  intros H [P U]. pose proof (toN32_R a w H P) as T. unfold ceilN32.
  assert (B : (Z.of_nat (toN32 a) <= 16777216)%Z).
  { rewrite T, Ztrunc_floor by exact P. apply le_IZR. eapply Rle_trans; [apply Zfloor_lb|exact U]. }
  destruct (ofN32_exact _ B) as [F E]. destruct H as [Fa Ea].
  rewrite (Beqb_correct 24 128 _ _ F Fa), E, Ea, INR_IZR_INZ, T.
  rewrite Ztrunc_floor by exact P.
  destruct (Req_bool_spec (IZR (Zfloor w)) w) as [Q|Q].
  - rewrite T, Ztrunc_floor by exact P. rewrite <- Q at 2. now rewrite Zceil_IZR.
  - rewrite Nat2Z.inj_succ, T, Ztrunc_floor by exact P. symmetry. apply Zceil_imp.
    pose proof (Zfloor_lb w). pose proof (Zfloor_ub w). unfold Z.succ. rewrite minus_IZR, plus_IZR. lra.
Qed.

(** Number of steps of the range. *)
Definition steps (n q : nat) : nat := ((n + q - 1) / q)%nat.
Lemma steps_bounds n q : (1 <= q)%nat -> (1 <= n)%nat -> (q * (steps n q - 1) < n /\ n <= q * steps n q /\ 1 <= steps n q)%nat.
Proof.
  intros Q N. unfold steps. pose proof (Nat.div_mod (n + q - 1) q ltac:(lia)) as D.
  pose proof (Nat.mod_upper_bound (n + q - 1) q ltac:(lia)) as M. set (k := ((n + q - 1) / q)%nat) in *.
  assert (1 <= k)%nat by (apply Nat.div_le_lower_bound; lia).
  rewrite Nat.mul_sub_distr_l. lia.
Qed.
Lemma range_len n q : (1 <= q)%nat -> (1 <= n)%nat -> (Z.of_nat n < 16777216)%Z -> (Z.of_nat q < 16777216)%Z ->
  Zceil (rnd32 (INR n / INR q)) = Z.of_nat (steps n q).
Proof.
  intros Q N Hn Hq. destruct (steps_bounds n q Q N) as (A & B & C). set (k := steps n q) in *.
  assert (Q1 : 1 <= INR q) by (change 1 with (INR 1); now apply le_INR).
  assert (N1 : 1 <= INR n) by (change 1 with (INR 1); now apply le_INR).
  assert (Nu : INR n <= 16777215) by (apply INR_le_Z; lia).
  assert (Qu : INR q <= 16777215) by (apply INR_le_Z; lia).
  assert (Kz : (Z.of_nat k <= 16777216)%Z).
  { assert (q * (k - 1) < n)%nat by exact A. nia. }
  assert (Q0 : 0 < INR q) by lra.
  assert (V1 : INR n / INR q <= IZR (Z.of_nat k)).
  { rewrite <- INR_IZR_INZ. apply Rmult_le_reg_r with (INR q); [exact Q0|]. unfold Rdiv. rewrite Rmult_assoc, Rinv_l by lra.
    rewrite Rmult_1_r, <- mult_INR. apply le_INR. lia. }
  assert (V2 : IZR (Z.of_nat k) - 1 + / INR q <= INR n / INR q).
  { rewrite <- INR_IZR_INZ. apply Rmult_le_reg_r with (INR q); [exact Q0|]. unfold Rdiv.
    rewrite (Rmult_assoc (INR n)), Rmult_plus_distr_r, Rinv_l by lra. rewrite Rmult_1_r.
    assert (H : (q * (k - 1) + 1 <= n)%nat) by lia. apply le_INR in H. rewrite plus_INR, mult_INR, minus_INR in H by lia.
    simpl (INR 1) in H. lra. }
  apply Zceil_imp. rewrite minus_IZR. split.
  - set (v := INR n / INR q) in *.
    assert (Vl : bpow radix2 (-126) <= Rabs v).
    { assert (L : / 16777216 <= v).
      { unfold v, Rdiv. apply Rmult_le_reg_r with (INR q); [exact Q0|]. rewrite Rmult_assoc, Rinv_l by lra. lra. }
      rewrite Rabs_pos_eq by lra. apply Rle_trans with (2 := L). apply Rle_trans with (bpow radix2 (-24)); [apply bpow_le; lia|].
      change (bpow radix2 (-24)) with (/ 16777216). lra. }
    pose proof (relative_error_N_FLT radix2 (SpecFloat.emin 24 128) 24 ltac:(lia) (fun x => negb (Z.even x)) v Vl) as E.
    change (bpow radix2 (- (24) + 1)) with (/ 8388608) in E.
    assert (Vp : 0 < v) by (unfold v; apply Rdiv_lt_0_compat; lra).
    rewrite (Rabs_pos_eq v) in E by lra. apply Rabs_le_inv in E. destruct E as [E _].
    change (round radix2 (FLT_exp (SpecFloat.emin 24 128) 24) (Znearest (fun x => negb (Z.even x))) v) with (rnd32 v) in E.
    assert (S : / 2 * / 8388608 * v < / INR q).
    { unfold v, Rdiv. apply Rmult_lt_reg_r with (INR q); [exact Q0|].
      replace (/ 2 * / 8388608 * (INR n * / INR q) * INR q) with (/ 2 * / 8388608 * INR n) by (field; lra).
      rewrite Rinv_l by lra. lra. }
    lra.
  - apply rnd32_le; [lia|exact V1].
Qed.

Lemma range32_spec n q : (1 <= q)%nat -> (Z.of_nat n < 16777216)%Z -> (Z.of_nat q < 16777216)%Z ->
  exists r, range32 (ofN32 n) (ofN32 q) = Some r /\ map toN32 r = map (fun i => q * i)%nat (seq 0 (steps n q)).
Proof.
  intros Q Hn Hq. unfold range32.
  assert (Q1 : 1 <= INR q) by (change 1 with (INR 1); now apply le_INR).
  assert (Nu : INR n <= 16777215) by (apply INR_le_Z; lia).
  pose proof (pos_INR n) as Np.
  assert (V : 0 <= INR n / INR q <= 16777215).
  { split.
    - apply Rmult_le_pos; [exact Np|left; apply Rinv_0_lt_compat; lra].
    - apply Rmult_le_reg_r with (INR q); [lra|]. unfold Rdiv. rewrite Rmult_assoc, Rinv_l by lra. nra. }
  assert (L : is32 (Bdiv mode_NE (Bminus mode_NE (ofN32 n) (B754_zero false)) (ofN32 q)) (rnd32 (INR n / INR q))).
  { apply div32; [apply sub0_32; [apply ofN32_exact; lia|lra]|apply ofN32_exact; lia|lra|lra]. }
  pose proof L as [F _]. rewrite F. eexists. split; [reflexivity|].
  assert (C : ceilN32 (Bdiv mode_NE (Bminus mode_NE (ofN32 n) (B754_zero false)) (ofN32 q)) = steps n q).
  { apply Nat2Z.inj. rewrite (ceilN32_R _ _ L).
    - destruct (Nat.eq_dec n 0) as [->|N0].
      + replace (INR 0 / INR q) with 0 by (simpl; field; lra). rewrite round_0 by auto with typeclass_instances.
        change 0 with (IZR 0). rewrite Zceil_IZR. unfold steps. rewrite Nat.div_small by lia. reflexivity.
      + apply range_len; lia.
    - split; [apply (rnd32_ge _ 0); [lia|apply V]|]. apply (rnd32_le _ 16777216); [lia|lra]. }
  rewrite C, map_map. apply map_ext_in. intros i Hi. apply in_seq in Hi.
  destruct (Nat.eq_dec n 0) as [->|N0].
  { unfold steps in Hi. rewrite Nat.div_small in Hi by lia. lia. }
  destruct (steps_bounds n q Q ltac:(lia)) as (A & B & D).
  assert (I : (q * i < n)%nat) by (eapply Nat.le_lt_trans; [|exact A]; apply Nat.mul_le_mono_l; lia).
  assert (Iz : (Z.of_nat (q * i) <= 16777216)%Z) by lia.
  assert (Ii : (Z.of_nat i <= 16777216)%Z) by nia.
  assert (Rr : 0 <= INR q * INR i <= 1073741824).
  { rewrite <- mult_INR. split; [apply pos_INR|]. apply Rle_trans with (IZR 16777216); [now apply INR_le_Z|lra]. }
  apply toN32_exact.
  assert (M : is32 (Bmult mode_NE (ofN32 q) (ofN32 i)) (INR (q * i))).
  { assert (X : is32 (Bmult mode_NE (ofN32 q) (ofN32 i)) (rnd32 (INR q * INR i))).
    { apply mul32; [apply ofN32_exact; lia|apply ofN32_exact; lia|exact Rr]. }
    rewrite <- mult_INR, INR_IZR_INZ, rnd32_id in X by (apply fmtZ32; lia). now rewrite INR_IZR_INZ. }
  apply add0_32; [exact M|]. now rewrite mult_INR.
Qed.
End F32.

Lemma filter_app_ {A} p (a b : list A) : filter p (a ++ b) = filter p a ++ filter p b.
Proof. induction a as [|x a IH]; simpl; [reflexivity|]. destruct (p x); simpl; now rewrite IH. Qed.
Lemma multiples n q : 1 <= q -> filter (fun i => Nat.eqb (i mod q) 0) (seq 0 n) = map (fun i => q * i) (seq 0 (steps n q)).
Proof.
  intros Q. induction n as [|n IH].
  - unfold steps. rewrite Nat.div_small by lia. reflexivity.
  - rewrite seq_S, filter_app_, IH. simpl.
    pose proof (Nat.div_mod n q ltac:(lia)) as D. pose proof (Nat.mod_upper_bound n q ltac:(lia)) as M.
    assert (S1 : steps (S n) q = S (n / q)).
    { unfold steps. replace (S n + q - 1) with (n + 1 * q) by lia. rewrite Nat.div_add by lia. lia. }
    rewrite S1. destruct (Nat.eqb_spec (n mod q) 0) as [E|E].
    + assert (S0 : steps n q = n / q).
      { unfold steps. symmetry. apply (Nat.div_unique _ _ _ (q - 1)); lia. }
      rewrite S0, seq_S, map_app. simpl. do 2 f_equal. lia.
    + assert (S0 : steps n q = S (n / q)).
      { unfold steps. symmetry. apply (Nat.div_unique _ _ _ (n mod q - 1)); lia. }
      rewrite S0. now rewrite app_nil_r.
Qed.

Lemma extract_spec {A} (data : list A) q : 1 <= q -> (Z.of_nat (length data) < 16777216)%Z -> (Z.of_nat q < 16777216)%Z ->
  extract_part data q =
  Some (rows_at (fun i => Nat.eqb (i mod q) 0) data, rows_at (fun i => negb (Nat.eqb (i mod q) 0)) data).
Proof.
  intros Q Hn Hq. unfold extract_part. destruct (range32_spec (length data) q Q Hn Hq) as (r & -> & ->).
  rewrite <- multiples by exact Q.
  pose proof (select_filter [] data (fun i => Nat.eqb (i mod q) 0)) as S1. simpl in S1. rewrite S1.
  pose proof (select_filter [] data (fun i => negb (Nat.eqb (i mod q) 0))) as S2. simpl in S2. rewrite S2. reflexivity.
Qed.

(** ** Clusters *)
Lemma rows_with_combine {A} c (pre data : list A) labels : length labels = length data ->
  select (pre ++ data) (map fst (filter (fun p => Nat.eqb (snd p) c) (combine (seq (length pre) (length labels)) labels))) =
  Some (rows_with c data labels).
Proof.
  revert pre labels. induction data as [|r data IH]; intros pre [|l labels] H; simpl in *; try discriminate; [reflexivity|].
  specialize (IH (pre ++ [r]) labels ltac:(lia)). rewrite app_length in IH. simpl in IH. rewrite Nat.add_1_r, <- app_assoc in IH.
  simpl in IH. destruct (Nat.eqb l c); [|exact IH].
  unfold select in *. simpl. rewrite nth_error_app2, Nat.sub_diag by lia. simpl. now rewrite IH.
Qed.
Lemma mapM_some {A B} (f : A -> option B) g l : (forall a, In a l -> f a = Some (g a)) -> mapM f l = Some (map g l).
Proof.
  induction l as [|a l IH]; intros H; simpl; [reflexivity|]. rewrite (H a) by now left. rewrite IH by (intros; apply H; now right).
  reflexivity.
Qed.
Lemma sort_spec {A} n (data : list A) labels : length labels = length data ->
  sort_by_cluster n data labels = Some (map (fun c => rows_with c data labels) (seq 0 n)).
Proof.
  intros H. apply mapM_some. intros c _. exact (rows_with_combine c [] data labels H).
Qed.
Lemma perm_concat_cons {A} (r : A) (f g : nat -> list A) (l : nat) s n : s <= l < s + n ->
  f l = r :: g l -> (forall c, c <> l -> f c = g c) ->
  Permutation (concat (map f (seq s n))) (r :: concat (map g (seq s n))).
Proof.
  revert s; induction n as [|n IH]; intros s Hl Hf Hg; [lia|]. simpl.
  destruct (Nat.eq_dec s l) as [->|N].
  - rewrite Hf. simpl. constructor. apply Permutation_app_head.
    rewrite (map_ext_in f g); [reflexivity|]. intros c Hc. apply in_seq in Hc. apply Hg. lia.
  - rewrite (Hg s N). eapply Permutation_trans; [apply Permutation_app_head, (IH (S s)); auto; lia|].
    apply Permutation_sym, Permutation_middle.
Qed.
Lemma rows_with_perm {A} n (data : list A) labels : length labels = length data -> Forall (fun l => l < n) labels ->
  Permutation (concat (map (fun c => rows_with c data labels) (seq 0 n))) data.
Proof.
  revert labels. induction data as [|r data IH]; intros [|l labels] H F; simpl in H; try discriminate.
  - assert (E : forall s m, concat (map (fun c => rows_with c (@nil A) []) (seq s m)) = []).
    { intros s m; revert s; induction m as [|m IHm]; intros s; simpl; [reflexivity|apply IHm]. }
    rewrite E. constructor.
  - inversion F as [|? ? Hl F']; subst. simpl rows_with.
    eapply Permutation_trans; [|apply perm_skip, (IH labels); [lia|exact F']].
    apply (perm_concat_cons r _ (fun c => rows_with c data labels) l); [lia| |].
    + now rewrite Nat.eqb_refl.
    + intros c N. destruct (Nat.eqb_spec l c); [congruence|reflexivity].
Qed.
Lemma rows_with_in {A} c (data : list A) labels r : In r (rows_with c data labels) <->
  exists i, nth_error data i = Some r /\ nth_error labels i = Some c.
Proof.
  revert labels. induction data as [|a data IH]; intros [|l labels]; simpl.
  - split; [tauto|]. intros (i & H & _). now destruct i.
  - split; [tauto|]. intros (i & H & _). now destruct i.
  - split; [tauto|]. intros (i & _ & H). now destruct i.
  - rewrite in_app_iff, IH. split.
    + intros [H|(i & H1 & H2)]; [|exists (S i); now split].
      destruct (Nat.eqb_spec l c) as [->|]; simpl in H; [|tauto]. destruct H as [->|[]]. now exists 0.
    + intros ([|i] & H1 & H2); simpl in *.
      * injection H1 as ->. injection H2 as ->. left. rewrite Nat.eqb_refl. now left.
      * right. now exists i.
Qed.

(** ** First maximum and minimum *)
Lemma existsb_nan l : numbers l -> existsb fnan l = false.
Proof.
  intros H. apply not_true_is_false. rewrite existsb_exists. intros (v & Hv & Nv).
  eapply Forall_forall in H; [|exact Hv]. congruence.
Qed.
Lemma argmax_spec l : l <> [] -> numbers l -> exists c, argmax l = Some c /\ first_max l c.
Proof.
  intros Hl Hn. unfold argmax. rewrite existsb_nan by exact Hn.
  destruct (argmin_by_some (fun a b : f64 => flt b a) l Hl) as [i Hi]. exists i. split; [exact Hi|].
  destruct (argmin_by_spec (fun a b : f64 => flt b a) (fun v => fnan v = false)) with (l := l) (i := i) as (m & Hm & H1 & H2); try assumption.
  - intros a Na. apply flt_ordF; auto; lra.
  - intros a b c Na Nb Nc. rewrite !flt_ord by assumption. lra.
  - intros a b c Na Nb Nc. rewrite !flt_ordF by assumption. lra.
  - unfold numbers in Hn. rewrite Forall_forall in Hn.
    assert (Nm : fnan m = false) by (apply Hn; eapply nth_error_In; eauto).
    exists m. repeat split; [exact Hm| |].
    + intros j w Hw. assert (fnan w = false) by (apply Hn; eapply nth_error_In; eauto).
      specialize (H1 j w Hw). apply flt_ordF in H1; assumption.
    + intros j w Hj Hw. assert (fnan w = false) by (apply Hn; eapply nth_error_In; eauto).
      specialize (H2 j w Hj Hw). apply flt_ord in H2; assumption.
Qed.
Lemma argmax_bound l c : argmax l = Some c -> c < length l.
Proof. unfold argmax. destruct (existsb fnan l); [discriminate|]. apply argmin_by_bound. Qed.
Lemma hard_cluster_bound l : l <> [] -> hard_cluster l < length l.
Proof.
  intros H. unfold hard_cluster. destruct (argmax l) eqn:E; [now apply argmax_bound|]. destruct l; [congruence|simpl; lia].
Qed.
Lemma cmp_gt a b : fnan a = false -> fnan b = false ->
  (match fcmp a b with Some Gt => true | _ => false end) = flt b a.
Proof.
  intros Na Nb. assert (H : fcmp a b = option_map CompOpp (fcmp b a)).
  { unfold fcmp. rewrite (Bcompare_swap 53 1024 b a). destruct (Bcompare a b) as [[]|]; reflexivity. }
  rewrite H. unfold flt, Bltb. change (SpecFloat.SFltb (B2SF b) (B2SF a)) with
    (match fcmp b a with Some Lt => true | _ => false end).
  destruct (fcmp b a) as [[]|]; reflexivity.
Qed.
Lemma min_by_spec l : l <> [] -> numbers l -> exists c, min_by l = Some c /\ first_min l c.
Proof.
  intros Hl Hn. unfold min_by. set (lt := fun a cur : f64 => _).
  destruct (argmin_by_some lt l Hl) as [i Hi]. exists i. split; [exact Hi|].
  destruct (argmin_by_spec lt (fun v => fnan v = false)) with (l := l) (i := i) as (m & Hm & H1 & H2); try assumption.
  - intros a Na. unfold lt. rewrite cmp_gt by assumption. apply flt_ordF; auto; lra.
  - intros a b c Na Nb Nc. unfold lt. rewrite !cmp_gt by assumption. rewrite !flt_ord by assumption. lra.
  - intros a b c Na Nb Nc. unfold lt. rewrite !cmp_gt by assumption. rewrite !flt_ordF by assumption. lra.
  - unfold numbers in Hn. rewrite Forall_forall in Hn.
    assert (Nm : fnan m = false) by (apply Hn; eapply nth_error_In; eauto).
    exists m. repeat split; [exact Hm| |].
    + intros j w Hw. assert (fnan w = false) by (apply Hn; eapply nth_error_In; eauto).
      specialize (H1 j w Hw). unfold lt in H1. rewrite cmp_gt in H1 by assumption. apply flt_ordF in H1; assumption.
    + intros j w Hj Hw. assert (fnan w = false) by (apply Hn; eapply nth_error_In; eauto).
      specialize (H2 j w Hj Hw). unfold lt in H2. rewrite cmp_gt in H2 by assumption. apply flt_ord in H2; assumption.
Qed.
