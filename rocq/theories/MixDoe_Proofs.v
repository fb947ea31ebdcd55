(** Counting the rows of a design that take a value of an integer variable. *)
From Coq Require Import Reals Lra ZArith List Bool Arith Lia Permutation.
From Flocq Require Import Core.
From Verif Require Import Util F64 Doe_Model Doe_Spec Doe_Generic Doe_Real Doe_FF MixDoe_Model MixDoe_Spec.
Import ListNotations.
Local Open Scope nat_scope.

(** ** Rounding *)
Lemma cast_near w z : (Rabs (w - IZR z) < / 2)%R -> int_cast w = z.
Proof. apply Znearest_imp. Qed.
Lemma cast_dist w : (Rabs (w - IZR (int_cast w)) <= / 2)%R.
Proof. apply Znearest_half. Qed.
Lemma cast_up w z : (0 <= w)%R -> (IZR z - / 2 <= w < IZR z + / 2)%R -> int_cast w = z.
Proof.
  intros W (A & B). destruct (Rle_lt_or_eq_dec _ _ A) as [A'|A'].
  { apply cast_near. apply Rabs_def1; lra. }
  assert (F : Zfloor w = (z - 1)%Z) by (apply Zfloor_imp; rewrite plus_IZR, minus_IZR; lra).
  unfold int_cast, Znearest. rewrite F, minus_IZR.
  rewrite Rcompare_Eq by lra.
  assert (G : (0 <= z - 1)%Z).
  { rewrite <- F. rewrite <- (Zfloor_IZR 0). apply Zfloor_le. exact W. }
  rewrite (proj2 (Z.leb_le _ _) G). apply Zceil_imp. rewrite minus_IZR. lra.
Qed.
Lemma cast_up_iff w z : (0 <= w)%R -> int_cast w = z <-> (IZR z - / 2 <= w < IZR z + / 2)%R.
Proof.
  intros W. split; [|now apply cast_up]. intros <-.
  set (z := Zfloor (w + / 2)).
  assert (E : int_cast w = z).
  { apply cast_up; [exact W|]. pose proof (Zfloor_lb (w + / 2)). pose proof (Zfloor_ub (w + / 2)). fold z in H, H0. lra. }
  rewrite E. pose proof (Zfloor_lb (w + / 2)). pose proof (Zfloor_ub (w + / 2)). fold z in H, H0. lra.
Qed.

(** ** Sections as columns *)
Lemma latin_columns n nx x : 1 <= n -> latin n nx x -> columns_from n nx (in_section n) x.
Proof.
  intros N (Sh & H). split; [exact Sh|]. intros j J. specialize (H j J).
  assert (C : forall m, m <= n -> exists rs c, length rs = m /\ length c = m /\ map (fun r => nth_error (col j x) r) rs = map (fun v => Some (Some v)) c /\
    forall i v, nth_error c i = Some v -> in_section n i v).
  { induction m as [|m IH]; intros M.
    - exists [], []. split; [reflexivity|]. split; [reflexivity|]. split; [reflexivity|]. intros [|i] v I; discriminate.
    - destruct (IH ltac:(lia)) as (rs & c & L1 & L2 & E & Q). destruct (H m ltac:(lia)) as (r & (v & A & S) & _).
      exists (rs ++ [r]), (c ++ [v]). rewrite !app_length, !map_app, E. cbn [length map].
      split; [lia|]. split; [lia|]. split.
      + f_equal. f_equal. now apply at_col.
      + intros i w I. destruct (Nat.lt_ge_cases i (length c)) as [K|K].
        * rewrite nth_error_app1 in I by lia. now apply Q.
        * rewrite nth_error_app2 in I by lia. destruct (i - length c) as [|q] eqn:D; [|destruct q; discriminate].
          injection I as <-. replace i with m by lia. exact S. }
  destruct (C n (le_n n)) as (rs & c & L1 & L2 & E & Q). clear C.
  exists c. split; [exact L2|]. split; [|exact Q].
  assert (Ln : length (col j x) = n) by (rewrite col_length; apply Sh).
  assert (Hr : forall i r, nth_error rs i = Some r -> exists v, nth_error c i = Some v /\ nth_error (col j x) r = Some (Some v)).
  { intros i r I. assert (T : nth_error (map (fun r => nth_error (col j x) r) rs) i = Some (nth_error (col j x) r)) by (rewrite nth_error_map, I; reflexivity).
    rewrite E, nth_error_map in T. destruct (nth_error c i) as [v|]; [|discriminate]. injection T as T. exists v. auto. }
  assert (Nd : NoDup rs).
  { apply NoDup_nth_error. intros i i' I E'. destruct (nth_error rs i) as [r|] eqn:R1; [|apply nth_error_None in R1; lia].
    destruct (Hr _ _ R1) as (v & V & A). symmetry in E'. destruct (Hr _ _ E') as (v' & V' & A').
    assert (v = v') by congruence. subst v'. eapply in_section_unique; eauto. }
  assert (P : Permutation rs (seq 0 n)).
  { apply NoDup_Permutation_bis; [exact Nd|rewrite seq_length; lia|]. intros r I. apply In_nth_error in I. destruct I as (i & I).
    destruct (Hr _ _ I) as (v & _ & A). apply in_seq. assert (r < length (col j x)) by (apply nth_error_Some; congruence). lia. }
  assert (T : map (fun r => nth_error (col j x) r) (seq 0 n) = map Some (col j x)).
  { rewrite <- Ln. generalize (col j x) as l. clear. induction l as [|a l IH]; [reflexivity|]. cbn [length seq map nth_error]. f_equal.
    rewrite <- seq_shift, map_map. exact IH. }
  assert (P2 : Permutation (map Some (col j x)) (map Some (map Some c))).
  { rewrite <- T, map_map, <- E. apply Permutation_map. now symmetry. }
  apply Permutation_map_inv in P2. destruct P2 as (l & El & Pl).
  assert (l = col j x). { clear - El. revert l El. generalize (col j x) as m. induction m as [|a m IH]; intros [|b l] El; try discriminate; [reflexivity|].
    cbn in El. injection El as <- El. f_equal. now apply IH. }
  subst l. now symmetry.
Qed.

(** ** Counting *)
Section Count.
  Context {A : Type} (f : A -> bool).
  Lemma count_shift (c : list A) (a b : nat) :
    (forall i v, nth_error c i = Some v -> a <= i < b -> f v = true) -> b <= length c -> b - a <= length (filter f c).
  Proof.
    revert a b. induction c as [|v c IH]; intros a b H L; [cbn in *; lia|].
    destruct b as [|b]; [lia|]. cbn [filter]. cbn [length] in L. destruct a as [|a].
    - rewrite (H 0 v eq_refl) by lia. cbn [length]. specialize (IH 0 b). assert (b - 0 <= length (filter f c)); [|lia]. apply IH; [|lia].
      intros i w I K. apply (H (S i) w I). lia.
    - assert (b - a <= length (filter f c)). { apply IH; [|lia]. intros i w I K. apply (H (S i) w I). lia. }
      destruct (f v); cbn [length]; lia.
  Qed.
  Lemma count_most (c : list A) (a b : nat) :
    (forall i v, nth_error c i = Some v -> f v = true -> a <= i < b) -> length (filter f c) <= b - a.
  Proof.
    revert a b. induction c as [|v c IH]; intros a b H; [cbn; lia|].
    cbn [filter]. destruct (f v) eqn:F.
    - destruct (H 0 v eq_refl F) as (A0 & B0). assert (a = 0) by lia. subst a. destruct b as [|b]; [lia|]. cbn [length].
      assert (length (filter f c) <= b - 0); [|lia]. apply IH. intros i w I K. pose proof (H (S i) w I K). lia.
    - destruct a as [|a].
      + assert (length (filter f c) <= (b - 1) - 0); [|lia]. apply IH. intros i w I K. pose proof (H (S i) w I K). lia.
      + assert (length (filter f c) <= (b - 1) - a); [|lia]. apply IH. intros i w I K. pose proof (H (S i) w I K). lia.
  Qed.
End Count.

Lemma filter_map_len {A B : Type} (g : A -> B) f l : length (filter f (map g l)) = length (filter (fun a => f (g a)) l).
Proof. induction l as [|a l IH]; [reflexivity|]. cbn. destruct (f (g a)); cbn; now rewrite IH. Qed.
Lemma filter_perm {A : Type} (f : A -> bool) l l' : Permutation l l' -> length (filter f l) = length (filter f l').
Proof.
  induction 1; [reflexivity|cbn; destruct (f x); cbn; congruence|cbn; destruct (f y), (f x); reflexivity|congruence].
Qed.

Lemma row_nth vars u j lo hi : length u = length vars -> nth_error vars j = Some (lo, hi) ->
  nth_error (map int_cast (scale_row R_arith (int_limits vars) u)) j =
  option_map (fun v => int_cast (v * (IZR hi - IZR lo) + IZR lo)%R) (nth_error u j).
Proof.
  revert u j. induction vars as [|(l, h) vars IH]; intros u j L J; [destruct j; discriminate|].
  destruct u as [|a u]; [discriminate|]. destruct j as [|j].
  - injection J as -> ->. reflexivity.
  - cbn [nth_error] in J. injection L as L. exact (IH u j L J).
Qed.

(** The number of rows is the number of sections that give the value. *)
Lemma occ_sections n vars x j lo hi z (Q : nat -> R -> Prop) : columns_from n (length vars) Q x -> nth_error vars j = Some (lo, hi) ->
  exists c, length c = n /\ (forall i v, nth_error c i = Some v -> Q i v) /\
    occurrences j z (integer_sample vars x) = length (filter (fun v => Z.eqb (int_cast (v * (IZR hi - IZR lo) + IZR lo)%R) z) c).
Proof.
  intros ((Ln & W) & H) J. assert (Jl : j < length vars) by (apply nth_error_Some; congruence).
  destruct (H j Jl) as (c & L & P & HQ). exists c. split; [exact L|]. split; [exact HQ|].
  unfold occurrences, integer_sample, scale_sample. rewrite map_map, filter_map_len.
  transitivity (length (filter (fun o => match o with Some v => Z.eqb (int_cast (v * (IZR hi - IZR lo) + IZR lo)%R) z | None => false end) (col j x))).
  - unfold col. rewrite filter_map_len. clear - W J. induction x as [|u x IH]; [reflexivity|]. inversion_clear W.
    cbn [filter]. rewrite (row_nth vars u j lo hi) by assumption. destruct (nth_error u j) as [v|]; cbn [option_map].
    + destruct (Z.eqb _ z); cbn [length]; now rewrite IH.
    + now rewrite IH.
  - rewrite (filter_perm _ _ _ P), filter_map_len. reflexivity.
Qed.

(** ** The counts *)
Section Levels.
  Context (lo hi : Z) (H : (lo < hi)%Z).
  Let M := Z.to_nat (hi - lo).
  Lemma M_R : INR M = (IZR hi - IZR lo)%R.
  Proof. unfold M. rewrite INR_IZR_INZ, Z2Nat.id by lia. apply minus_IZR. Qed.
  Lemma M_pos : (1 <= M).
  Proof. unfold M. lia. Qed.

  (** The value in section [i], times [2 n]. *)
  Lemma scaled n i v : 1 <= n -> in_section n i v ->
    (2 * INR i * INR M <= 2 * INR n * (v * (IZR hi - IZR lo)) < 2 * (INR i + 1) * INR M)%R.
  Proof.
    intros N (A & B). rewrite <- M_R. rewrite S_INR in B. assert (P : (0 < INR n)%R) by (apply lt_0_INR; lia).
    assert (Q : (0 < INR M)%R) by (apply lt_0_INR; pose proof M_pos; lia).
    assert (A' : (INR i <= v * INR n)%R).
    { apply (Rmult_le_compat_r (INR n)) in A; [|lra]. unfold Rdiv in A. rewrite Rmult_assoc, Rinv_l, Rmult_1_r in A by lra. exact A. }
    assert (B' : (v * INR n < INR i + 1)%R).
    { apply (Rmult_lt_compat_r (INR n)) in B; [|lra]. unfold Rdiv in B. rewrite Rmult_assoc, Rinv_l, Rmult_1_r in B by lra. exact B. }
    split.
    - replace (2 * INR n * (v * INR M))%R with (2 * (v * INR n) * INR M)%R by ring. apply Rmult_le_compat_r; lra.
    - replace (2 * INR n * (v * INR M))%R with (2 * (v * INR n) * INR M)%R by ring. apply Rmult_lt_compat_r; lra.
  Qed.

  (** Sections entirely in the range of [lo + d], and sections that meet it. *)
  Lemma level_in n i v d : 1 <= n -> in_section n i v ->
    (Z.of_nat n * (2 * Z.of_nat d - 1) < 2 * Z.of_nat i * Z.of_nat M)%Z ->
    (2 * (Z.of_nat i + 1) * Z.of_nat M <= Z.of_nat n * (2 * Z.of_nat d + 1))%Z ->
    int_cast (v * (IZR hi - IZR lo) + IZR lo)%R = (lo + Z.of_nat d)%Z.
  Proof.
    intros N S A B. destruct (scaled n i v N S) as (C & D). apply cast_near. rewrite plus_IZR.
    apply IZR_lt in A. apply IZR_le in B. rewrite !mult_IZR, ?minus_IZR, ?plus_IZR, ?mult_IZR, <- ?INR_IZR_INZ in A.
    rewrite !mult_IZR, ?minus_IZR, ?plus_IZR, ?mult_IZR, <- ?INR_IZR_INZ in B.
    assert (P : (0 < INR n)%R) by (apply lt_0_INR; lia). rewrite <- INR_IZR_INZ.
    set (w := (v * (IZR hi - IZR lo))%R) in *. apply Rabs_def1.
    - assert (2 * INR n * w < 2 * INR n * (INR d + / 2))%R by lra. apply Rmult_lt_reg_l in H0; lra.
    - assert (2 * INR n * (INR d - / 2) < 2 * INR n * w)%R by lra. apply Rmult_lt_reg_l in H0; lra.
  Qed.

  Lemma level_out n i v d : 1 <= n -> in_section n i v ->
    int_cast (v * (IZR hi - IZR lo) + IZR lo)%R = (lo + Z.of_nat d)%Z ->
    (Z.of_nat n * (2 * Z.of_nat d - 1) < 2 * (Z.of_nat i + 1) * Z.of_nat M)%Z /\
    (2 * Z.of_nat i * Z.of_nat M <= Z.of_nat n * (2 * Z.of_nat d + 1))%Z.
  Proof.
    intros N S E. destruct (scaled n i v N S) as (C & D). pose proof (cast_dist (v * (IZR hi - IZR lo) + IZR lo)%R) as A.
    rewrite E, plus_IZR, <- INR_IZR_INZ in A. assert (P : (0 < INR n)%R) by (apply lt_0_INR; lia).
    set (w := (v * (IZR hi - IZR lo))%R) in *. apply Rabs_le_inv in A.
    split; [apply lt_IZR|apply le_IZR]; rewrite !mult_IZR, ?minus_IZR, ?plus_IZR, ?mult_IZR, <- ?INR_IZR_INZ.
    - assert (2 * INR n * (INR d - / 2) <= 2 * INR n * w)%R by (apply Rmult_le_compat_l; lra). lra.
    - assert (2 * INR n * w <= 2 * INR n * (INR d + / 2))%R by (apply Rmult_le_compat_l; lra). lra.
  Qed.

  Lemma level_exact k i v d : (0 <= lo)%Z -> 1 <= k -> in_section (2 * k * M) i v ->
    int_cast (v * (IZR hi - IZR lo) + IZR lo)%R = (lo + Z.of_nat d)%Z <-> 2 * k * d <= i + k /\ i < 2 * k * d + k.
  Proof.
    intros L K Sec. pose proof M_pos as Mp. assert (N : 1 <= 2 * k * M) by nia.
    destruct (scaled _ i v N Sec) as (C & D). rewrite !mult_INR in C, D. cbn [INR] in C, D.
    assert (Q : (0 < INR M)%R) by (apply lt_0_INR; lia). assert (Kp : (1 <= INR k)%R) by (apply (le_INR 1 k K)).
    set (w := (v * (IZR hi - IZR lo))%R) in *.
    assert (C' : (INR i <= 2 * INR k * w)%R) by (apply (Rmult_le_reg_l (2 * INR M)); lra).
    assert (D' : (2 * INR k * w < INR i + 1)%R) by (apply (Rmult_lt_reg_l (2 * INR M)); lra).
    assert (W : (0 <= w)%R).
    { pose proof (pos_INR i). apply (Rmult_le_reg_l (2 * INR k)); lra. }
    apply IZR_le in L. rewrite cast_up_iff by lra. rewrite plus_IZR, <- INR_IZR_INZ.
    split.
    - intros (A & B). assert (A' : (2 * INR k * (INR d - / 2) <= 2 * INR k * w)%R) by (apply Rmult_le_compat_l; lra).
      assert (B' : (2 * INR k * w < 2 * INR k * (INR d + / 2))%R) by (apply Rmult_lt_compat_l; lra).
      split.
      + apply Nat.lt_succ_r, INR_lt. rewrite S_INR, plus_INR, !mult_INR. cbn [INR]. lra.
      + apply INR_lt. rewrite plus_INR, !mult_INR. cbn [INR]. lra.
    - intros (A & B). apply le_INR in A. rewrite plus_INR, !mult_INR in A. cbn [INR] in A.
      apply (le_INR (S i)) in B. rewrite S_INR, plus_INR, !mult_INR in B. cbn [INR] in B.
      assert (2 * INR k * (INR d - / 2) <= 2 * INR k * w)%R by lra.
      assert (2 * INR k * w < 2 * INR k * (INR d + / 2))%R by lra.
      apply Rmult_le_reg_l in H0; [|lra]. apply Rmult_lt_reg_l in H1; [|lra]. lra.
  Qed.
End Levels.

(** The middle of section [i] out of [hi - lo + 1]. *)
Lemma center_level lo hi i : (lo <= hi)%Z -> i < Z.to_nat (hi - lo + 1) ->
  int_cast ((INR i + / 2) / INR (Z.to_nat (hi - lo + 1)) * (IZR hi - IZR lo) + IZR lo)%R = (lo + Z.of_nat i)%Z.
Proof.
  intros H I. apply cast_near. rewrite plus_IZR, <- INR_IZR_INZ.
  set (n := Z.to_nat (hi - lo + 1)) in *. assert (E : (IZR hi - IZR lo = INR n - 1)%R).
  { unfold n. rewrite INR_IZR_INZ, Z2Nat.id, plus_IZR, minus_IZR by lia. lra. }
  rewrite E. apply (le_INR (S i)) in I. rewrite S_INR in I. pose proof (pos_INR i).
  assert (P : (0 < / INR n)%R) by (apply Rinv_0_lt_compat; lra).
  assert (X : ((INR i + / 2) / INR n * (INR n - 1) = INR i + / 2 - (INR i + / 2) / INR n)%R) by (field; lra).
  rewrite X. assert (0 < (INR i + / 2) / INR n < 1)%R.
  { split; [apply Rmult_lt_0_compat; lra|]. apply (Rmult_lt_reg_r (INR n)); [lra|]. unfold Rdiv. rewrite Rmult_assoc, Rinv_l by lra. lra. }
  apply Rabs_def1; lra.
Qed.

(** ** Full factorial designs *)
Lemma prod_ge m l : Forall (fun k => m <= k) l -> m ^ length l <= prod l.
Proof. induction 1 as [|k l K F IH]; [cbn; lia|]. rewrite prod_cons. cbn [length Nat.pow]. nia. Qed.
Lemma levels_small m ns fuel : forall num num', num <> [] -> Forall (fun k => 1 <= k) num -> Forall (fun k => k <= m) num -> ns <= m ^ length num ->
  levels_loop R_arith fuel ns num = Some num' -> Forall (fun k => k <= m) num'.
Proof.
  induction fuel as [|f IH]; intros num num' Ne F1 Fm Ns E; cbn [levels_loop] in E.
  - destruct (prod num <? ns); [discriminate|]. now injection E as <-.
  - destruct (prod num <? ns) eqn:P; [|now injection E as <-]. apply Nat.ltb_lt in P.
    rewrite (weakest_R (Z.of_nat (list_sum num))) in E; [|exact Ne|exact F1|lia].
    destruct (argmin_by Nat.ltb num) as [i|] eqn:Ei; [|discriminate]. destruct (min_spec _ _ Ei) as (k & Ek & K). rewrite Ek in E.
    assert (k < m).
    { destruct (Nat.lt_ge_cases k m) as [T|T]; [exact T|exfalso]. assert (Forall (fun a => m <= a) num).
      { apply Forall_forall. intros a A. specialize (K a A). lia. }
      apply prod_ge in H. lia. }
    apply IH in E; [exact E| | | |].
    + intros N0. apply (f_equal (@length _)) in N0. rewrite set_nth_length' in N0. destruct num; [congruence|discriminate].
    + apply Forall_forall. intros a Ha. apply in_set_nth in Ha. rewrite Forall_forall in F1. destruct Ha as [->|Ha]; [lia|auto].
    + apply Forall_forall. intros a Ha. apply in_set_nth in Ha. rewrite Forall_forall in Fm. destruct Ha as [->|Ha]; [lia|auto].
    + now rewrite set_nth_length'.
Qed.
Lemma small_grid nx n m x : 1 <= nx -> 1 <= m -> n <= m ^ nx -> full_factorial R_arith nx n = Some x ->
  exists num, Forall (fun k => k <= m) num /\ length num = nx /\ Forall (on_grid num) x.
Proof.
  intros N Mp Hn E.
  destruct (levels_spec R_arith (Z.of_nat nx + Z.of_nat n) (weakest_R _) nx n N ltac:(lia)) as (num & El & (Ln & F1 & D) & Lv & L).
  exists num. split; [|split; [exact Ln|]].
  - unfold levels in El. apply levels_small with (m := m) in El; [exact El| | | |].
    + destruct nx; [lia|discriminate].
    + apply Forall_forall. intros a Ha. apply repeat_spec in Ha. lia.
    + apply Forall_forall. intros a Ha. apply repeat_spec in Ha. lia.
    + now rewrite repeat_length.
  - unfold full_factorial in E. rewrite El in E. injection E as E.
    apply (ff_grid R_arith _ n num x (conj eq_refl (conj F1 D))); [lia| | |].
    + rewrite <- E, (index_digits num F1). rewrite map_length, firstn_length, map_length, seq_length. lia.
    + intros k i _ I. exists i. split; [exact I|now apply level_R].
    + intros r R. rewrite <- E, (index_digits num F1). rewrite nth_error_map, nth_error_firstn, nth_error_map, seq_nth_error by lia. reflexivity.
Qed.

(** Values at least one apart are rounded to different integers. *)
Lemma cast_opp w : int_cast (- w) = (- int_cast w)%Z.
Proof.
  unfold int_cast. rewrite Znearest_opp. f_equal. unfold Znearest. destruct (Rcompare _ _); try reflexivity.
  set (t := Zfloor w). replace (negb (0 <=? - (t + 1))%Z) with (0 <=? t)%Z; [reflexivity|].
  destruct (Z.leb_spec 0 t), (Z.leb_spec 0 (- (t + 1))); try reflexivity; lia.
Qed.
Lemma cast_apart a b : (a + 1 <= b)%R -> int_cast a <> int_cast b.
Proof.
  intros H E. pose proof (cast_dist a) as A. pose proof (cast_dist b) as B. rewrite E in A. apply Rabs_le_inv in A, B.
  set (z := int_cast b) in *. destruct (Rle_or_lt 0 b) as [P|P].
  - pose proof (proj1 (cast_up_iff b z P) eq_refl). lra.
  - assert (Q : (0 <= - a)%R) by lra. pose proof (proj1 (cast_up_iff (- a) (- z)%Z Q)) as C.
    rewrite cast_opp, E in C. specialize (C eq_refl). rewrite opp_IZR in C. lra.
Qed.

Lemma level_apart lo hi k i i' : (Z.of_nat k <= hi - lo + 1)%Z -> i < i' < k ->
  int_cast (level k i * (IZR hi - IZR lo) + IZR lo)%R <> int_cast (level k i' * (IZR hi - IZR lo) + IZR lo)%R.
Proof.
  intros H I. apply cast_apart. unfold level. rewrite (proj2 (Nat.eqb_neq k 1)) by lia.
  assert (P : (1 <= INR (k - 1))%R) by (apply (le_INR 1); lia).
  assert (W : (INR (k - 1) <= IZR hi - IZR lo)%R) by (rewrite INR_IZR_INZ, <- minus_IZR; apply IZR_le; lia).
  assert (J : (INR i + 1 <= INR i')%R) by (rewrite <- S_INR; apply le_INR; lia).
  assert (Q : (0 < / INR (k - 1))%R) by (apply Rinv_0_lt_compat; lra).
  enough ((INR i' / INR (k - 1) - INR i / INR (k - 1)) * (IZR hi - IZR lo) >= 1)%R by lra.
  replace (INR i' / INR (k - 1) - INR i / INR (k - 1))%R with ((INR i' - INR i) * / INR (k - 1))%R by (field; lra).
  apply Rle_ge. rewrite Rmult_assoc. assert (1 <= / INR (k - 1) * (IZR hi - IZR lo))%R.
  { rewrite <- (Rinv_l (INR (k - 1))) by lra. apply Rmult_le_compat_l; lra. }
  nra.
Qed.

Lemma grid_inj vars num m : Forall (fun v => (Z.of_nat m <= snd v - fst v + 1)%Z) vars -> Forall (fun k => k <= m) num -> length num = length vars ->
  forall a b, map int_cast (scale_row R_arith (int_limits vars) a) = map int_cast (scale_row R_arith (int_limits vars) b) ->
  on_grid num a -> on_grid num b -> a = b.
Proof.
  intros Hv. revert num. induction Hv as [|(lo, hi) vars V Hv IH]; intros num Fm Ln a b E A B.
  - destruct num; [|discriminate]. inversion A. inversion B. reflexivity.
  - destruct num as [|k num]; [discriminate|]. inversion A as [|? u ? a' (i & Ii & Eu) A']. inversion B as [|? v ? b' (i' & Ii' & Ev) B']. subst.
    inversion Fm as [|? ? Km Fm']. subst. cbn [int_limits map scale_row combine fst snd] in E. cbn [snd fst] in V.
    injection E as E1 E2. f_equal.
    + cbn [add mul sub R_arith] in E1. destruct (Nat.lt_trichotomy i i') as [T|[T|T]]; [exfalso|now subst|exfalso].
      * revert E1. apply level_apart; lia.
      * symmetry in E1. revert E1. apply level_apart; lia.
    + injection Ln as Ln. apply (IH num Fm' Ln a' b'); assumption.
Qed.
