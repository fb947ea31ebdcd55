(** Representation of the values of an integer variable in designs of experiments (C152). *)
From Coq Require Import Reals Lra ZArith List Bool Arith Lia Permutation.
From Flocq Require Import Core BinarySingleNaN.
From Verif Require Import Util F64 Mixint_Model Doe_Model Doe_Spec Doe_Generic Doe_Real Doe_FF Properties_Doe MixDoe_Model MixDoe_Spec MixDoe_Proofs.
Import ListNotations.
Local Open Scope nat_scope.

(** C152. Claim: the values of an integer variable occur equally often in a Latin hypercube design.
    It is false for every Latin hypercube of [2 k (hi - lo)] points: the two bounds occur [k] times, every value between
    them occurs [2 k] times. *)
Theorem C152_even_refuted : forall vars j lo hi k x,
  nth_error vars j = Some (lo, hi) -> (0 <= lo < hi)%Z -> 1 <= k ->
  latin (2 * k * Z.to_nat (hi - lo)) (length vars) x ->
  let d := integer_sample vars x in
  occurrences j lo d = k /\ occurrences j hi d = k /\
  forall z, (lo < z < hi)%Z -> occurrences j z d = 2 * k.
Proof.
  intros vars j lo hi k x J (L & H) K Lx d. set (M := Z.to_nat (hi - lo)) in *.
  assert (Mp : 1 <= M) by (unfold M; lia).
  apply latin_columns in Lx; [|nia].
  assert (G : forall e a b, e <= M -> (forall i, i < 2 * k * M -> (2 * k * e <= i + k /\ i < 2 * k * e + k) <-> a <= i < b) -> b <= 2 * k * M ->
    occurrences j (lo + Z.of_nat e) d = b - a).
  { intros e a b E R B. destruct (occ_sections _ vars x j lo hi (lo + Z.of_nat e) _ Lx J) as (c & Lc & Q & Oc). unfold d. rewrite Oc.
    assert (X : forall i v, nth_error c i = Some v ->
      (int_cast (v * (IZR hi - IZR lo) + IZR lo)%R =? lo + Z.of_nat e)%Z = true <-> a <= i < b).
    { intros i v I. rewrite Z.eqb_eq, <- R.
      - apply (level_exact lo hi H k i v e L K). now apply Q.
      - rewrite <- Lc. apply nth_error_Some. congruence. }
    apply Nat.le_antisymm; [apply count_most|apply count_shift; [|lia]]; intros i v I; apply (X i v I). }
  split; [|split].
  - replace lo with (lo + Z.of_nat 0)%Z by lia. rewrite (G 0 0 k); [lia|lia| |nia]. intros i I. lia.
  - replace hi with (lo + Z.of_nat M)%Z by (unfold M; lia). rewrite (G M (2 * k * M - k) (2 * k * M)); [nia|lia| |lia]. intros i I. nia.
  - intros z Z. replace z with (lo + Z.of_nat (Z.to_nat (z - lo)))%Z by lia. set (e := Z.to_nat (z - lo)).
    assert (e < M) by (unfold e, M; lia). assert (1 <= e) by (unfold e; lia).
    rewrite (G e (2 * k * e - k) (2 * k * e + k)); [nia|lia| |nia]. intros i I. nia.
Qed.
Print Assumptions C152_even_refuted.

(** Every Latin hypercube of [n] points: up to two rows, a value between the bounds has the share [1 / (hi - lo)] of the rows
    and a bound half of it; from [2 (hi - lo) + 1] points on, every value occurs. *)
Theorem C152_counts_partial : forall vars j lo hi n x,
  nth_error vars j = Some (lo, hi) -> (lo < hi)%Z -> 1 <= n -> latin n (length vars) x ->
  let d := integer_sample vars x in
  let share (z : Z) (w : R) := (Rabs (INR (occurrences j z d) - INR n * w) <= 2)%R in
  share lo (/ (2 * IZR (hi - lo)))%R /\ share hi (/ (2 * IZR (hi - lo)))%R /\
  (forall z, (lo < z < hi)%Z -> share z (/ IZR (hi - lo))%R) /\
  ((2 * (hi - lo) < Z.of_nat n)%Z -> forall z, (lo <= z <= hi)%Z -> 1 <= occurrences j z d).
Proof.
  intros vars j lo hi n x J H N Lx d share. set (M := Z.to_nat (hi - lo)) in *.
  assert (Mp : 1 <= M) by (unfold M; lia). assert (ME : (hi - lo)%Z = Z.of_nat M) by (unfold M; lia).
  apply latin_columns in Lx; [|lia].
  (* the counts as bounds between integers *)
  assert (Glow : forall e a b, (forall i, a <= i < b -> (Z.of_nat n * (2 * Z.of_nat e - 1) < 2 * Z.of_nat i * Z.of_nat M)%Z /\
      (2 * (Z.of_nat i + 1) * Z.of_nat M <= Z.of_nat n * (2 * Z.of_nat e + 1))%Z) -> b <= n ->
    b - a <= occurrences j (lo + Z.of_nat e) d).
  { intros e a b R B. destruct (occ_sections _ vars x j lo hi (lo + Z.of_nat e) _ Lx J) as (c & Lc & Q & Oc). unfold d. rewrite Oc.
    apply count_shift; [|lia]. intros i v I A. apply Z.eqb_eq. destruct (R i A) as (R1 & R2).
    apply (level_in lo hi H n i v e N (Q i v I)); assumption. }
  assert (Gup : forall e a b, (forall i, i < n -> (Z.of_nat n * (2 * Z.of_nat e - 1) < 2 * (Z.of_nat i + 1) * Z.of_nat M)%Z ->
      (2 * Z.of_nat i * Z.of_nat M <= Z.of_nat n * (2 * Z.of_nat e + 1))%Z -> a <= i < b) ->
    occurrences j (lo + Z.of_nat e) d <= b - a).
  { intros e a b R. destruct (occ_sections _ vars x j lo hi (lo + Z.of_nat e) _ Lx J) as (c & Lc & Q & Oc). unfold d. rewrite Oc.
    apply count_most. intros i v I A. apply Z.eqb_eq in A.
    destruct (level_out lo hi H n i v e N (Q i v I) A) as (R1 & R2). apply R; [|assumption|assumption].
    rewrite <- Lc. apply nth_error_Some. congruence. }
  set (m := Z.of_nat M) in *. assert (Mz : (1 <= m)%Z) by lia.
  assert (Dv : forall a, (2 * m * (a / (2 * m)) <= a < 2 * m * (a / (2 * m)) + 2 * m)%Z).
  { intros a. pose proof (Z.div_mod a (2 * m) ltac:(lia)). pose proof (Z.mod_pos_bound a (2 * m) ltac:(lia)). lia. }
  (* in units of 2 M *)
  assert (S1 : forall z, (2 * m * Z.of_nat (occurrences j z d) <= Z.of_nat n + 4 * m)%Z /\ (Z.of_nat n - 4 * m <= 2 * m * Z.of_nat (occurrences j z d))%Z ->
    share z (/ (2 * IZR (hi - lo)))%R).
  { intros z (A & B). unfold share. apply IZR_le in A, B. rewrite !plus_IZR, !mult_IZR, <- !INR_IZR_INZ in A. rewrite !minus_IZR, !mult_IZR, <- !INR_IZR_INZ in B.
    rewrite ME. fold m. assert (P : (1 <= IZR m)%R) by (apply IZR_le; lia). set (o := INR (occurrences j z d)) in *. set (mr := IZR m) in *.
    assert (Pi : (0 < / (2 * mr))%R) by (apply Rinv_0_lt_compat; lra).
    replace (o - INR n * / (2 * mr))%R with ((2 * mr * o - INR n) * / (2 * mr))%R by (field; lra).
    assert (Q : (4 * mr * / (2 * mr) = 2)%R) by (field; lra).
    apply Rabs_le. split.
    - assert (- (4 * mr) * / (2 * mr) <= (2 * mr * o - INR n) * / (2 * mr))%R by (apply Rmult_le_compat_r; lra). lra.
    - assert ((2 * mr * o - INR n) * / (2 * mr) <= 4 * mr * / (2 * mr))%R by (apply Rmult_le_compat_r; lra). lra. }
  assert (S2 : forall z, (m * Z.of_nat (occurrences j z d) <= Z.of_nat n + 2 * m)%Z /\ (Z.of_nat n - 2 * m <= m * Z.of_nat (occurrences j z d))%Z ->
    share z (/ IZR (hi - lo))%R).
  { intros z (A & B). unfold share. apply IZR_le in A, B. rewrite !plus_IZR, !mult_IZR, <- !INR_IZR_INZ in A. rewrite !minus_IZR, !mult_IZR, <- !INR_IZR_INZ in B.
    rewrite ME. fold m. assert (P : (1 <= IZR m)%R) by (apply IZR_le; lia). set (o := INR (occurrences j z d)) in *. set (mr := IZR m) in *.
    assert (Pi : (0 < / mr)%R) by (apply Rinv_0_lt_compat; lra).
    replace (o - INR n * / mr)%R with ((mr * o - INR n) * / mr)%R by (field; lra).
    assert (Q : (2 * mr * / mr = 2)%R) by (field; lra). apply Rabs_le. split.
    - assert (- (2 * mr) * / mr <= (mr * o - INR n) * / mr)%R by (apply Rmult_le_compat_r; lra). lra.
    - assert ((mr * o - INR n) * / mr <= 2 * mr * / mr)%R by (apply Rmult_le_compat_r; lra). lra. }
  (* the three cases *)
  assert (Blo : (2 * m * Z.of_nat (occurrences j lo d) <= Z.of_nat n + 4 * m)%Z /\ (Z.of_nat n - 2 * m < 2 * m * Z.of_nat (occurrences j lo d))%Z).
  { replace lo with (lo + Z.of_nat 0)%Z by lia. pose proof (Dv (Z.of_nat n)) as D. set (q := (Z.of_nat n / (2 * m))%Z) in *.
    assert (Q0 : (0 <= q)%Z) by (apply Z.div_pos; lia).
    pose proof (Gup 0 0 (Z.to_nat (q + 1))) as U. pose proof (Glow 0 0 (Z.to_nat q)) as W. split.
    - assert (occurrences j (lo + Z.of_nat 0) d <= Z.to_nat (q + 1) - 0) by (apply U; intros i I A B; nia). nia.
    - assert (Z.to_nat q - 0 <= occurrences j (lo + Z.of_nat 0) d) by (apply W; [intros i I; nia|nia]). nia. }
  assert (Bhi : (2 * m * Z.of_nat (occurrences j hi d) <= Z.of_nat n + 4 * m)%Z /\ (Z.of_nat n - 2 * m <= 2 * m * Z.of_nat (occurrences j hi d))%Z /\
    ((2 * m < Z.of_nat n)%Z -> 1 <= occurrences j hi d)).
  { replace hi with (lo + Z.of_nat M)%Z by (unfold M; lia). fold m in Gup, Glow.
    pose proof (Dv (Z.of_nat n * (2 * m - 1))%Z) as D. set (q := (Z.of_nat n * (2 * m - 1) / (2 * m))%Z) in *.
    assert (Q0 : (0 <= q)%Z) by (apply Z.div_pos; nia).
    pose proof (Gup M (Z.to_nat q) n) as U. pose proof (Glow M (Z.to_nat (q + 1)) n) as W. fold m in U, W.
    assert (A1 : occurrences j (lo + m) d <= n - Z.to_nat q) by (apply U; intros i I A B; split; [nia|lia]).
    assert (A2 : n - Z.to_nat (q + 1) <= occurrences j (lo + m) d) by (apply W; [intros i I; split; nia|lia]).
    assert (Qn : (q <= Z.of_nat n)%Z) by nia.
    assert (O1 : (Z.of_nat (occurrences j (lo + m) d) <= Z.of_nat n - q)%Z) by lia.
    assert (O2 : (Z.of_nat n - (q + 1) <= Z.of_nat (occurrences j (lo + m) d))%Z) by lia.
    fold m. clear - O1 O2 D Mz N. set (o := Z.of_nat (occurrences j (lo + m) d)) in *.
    split; [nia|]. split; [nia|]. intros G. assert (0 < o)%Z by nia. lia. }
  assert (Bin : forall z, (lo < z < hi)%Z -> (m * Z.of_nat (occurrences j z d) <= Z.of_nat n + 2 * m)%Z /\ (Z.of_nat n - 2 * m < m * Z.of_nat (occurrences j z d))%Z).
  { intros z Hz. replace z with (lo + Z.of_nat (Z.to_nat (z - lo)))%Z by lia. set (e := Z.to_nat (z - lo)).
    assert (E1 : 1 <= e) by (unfold e; lia). assert (E2 : e < M) by (unfold e, M; lia).
    pose proof (Dv (Z.of_nat n * (2 * Z.of_nat e - 1))%Z) as D1. pose proof (Dv (Z.of_nat n * (2 * Z.of_nat e + 1))%Z) as D2.
    set (q1 := (Z.of_nat n * (2 * Z.of_nat e - 1) / (2 * m))%Z) in *. set (q2 := (Z.of_nat n * (2 * Z.of_nat e + 1) / (2 * m))%Z) in *.
    assert (Q1 : (0 <= q1)%Z) by (apply Z.div_pos; nia). assert (Q12 : (q1 <= q2)%Z) by nia.
    assert (Qn : (q2 <= Z.of_nat n)%Z). { assert (2 * Z.of_nat e + 1 <= 2 * m)%Z by lia. nia. }
    pose proof (Gup e (Z.to_nat q1) (Z.to_nat (q2 + 1))) as U. pose proof (Glow e (Z.to_nat (q1 + 1)) (Z.to_nat q2)) as W.
    assert (A1 : occurrences j (lo + Z.of_nat e) d <= Z.to_nat (q2 + 1) - Z.to_nat q1) by (apply U; intros i I A B; split; nia).
    assert (A2 : Z.to_nat q2 - Z.to_nat (q1 + 1) <= occurrences j (lo + Z.of_nat e) d) by (apply W; [intros i I; split; nia|lia]).
    assert (O1 : (Z.of_nat (occurrences j (lo + Z.of_nat e) d) <= q2 + 1 - q1)%Z) by lia.
    assert (O2 : (q2 - (q1 + 1) <= Z.of_nat (occurrences j (lo + Z.of_nat e) d))%Z) by lia.
    clear - O1 O2 D1 D2 Mz. set (o := Z.of_nat (occurrences j (lo + Z.of_nat e) d)) in *. split; nia. }
  split; [apply S1; lia|]. split; [apply S1; lia|]. split.
  - intros z Hz. apply S2. specialize (Bin z Hz). lia.
  - rewrite ME. fold m. intros G z Hz. destruct (Z.eq_dec z lo) as [->|]; [nia|]. destruct (Z.eq_dec z hi) as [->|]; [now apply Bhi|].
    specialize (Bin z ltac:(lia)). nia.
Qed.
Print Assumptions C152_counts_partial.

(** A single uniform draw [u]: the share of the unit interval that gives a bound is half the share of a value between. *)
Theorem C152_random_refuted : forall lo hi u, (0 <= lo < hi)%Z -> (0 <= u < 1)%R ->
  let n := IZR (hi - lo) in
  forall r z, integer_sample [(lo, hi)] [[u]] = [[r]] ->
    (lo < z < hi)%Z ->
    (r = lo <-> u < / (2 * n))%R /\ (r = hi <-> 1 - / (2 * n) <= u)%R /\
    (r = z <-> (IZR (z - lo) - / 2) / n <= u < (IZR (z - lo) - / 2) / n + / n)%R.
Proof.
  intros lo hi u (L & H) (U0 & U1) n r z E Z. unfold integer_sample, scale_sample, int_limits in E. cbn in E. injection E as <-.
  assert (Ln : (0 <= IZR lo)%R) by (apply IZR_le; lia). assert (Hn : (1 <= n)%R) by (unfold n; apply IZR_le; lia).
  assert (En : (IZR hi - IZR lo = n)%R) by (unfold n; now rewrite minus_IZR). rewrite En.
  assert (W : (0 <= u * n)%R) by (apply Rmult_le_pos; lra).
  assert (Ei : (/ (2 * n) * n = / 2)%R) by (field; lra). assert (Ej : (/ n * n = 1)%R) by (field; lra).
  assert (U1n : (u * n < n)%R) by (rewrite <- (Rmult_1_l n) at 2; apply Rmult_lt_compat_r; lra).
  assert (Ed : forall a, (a / n * n = a)%R) by (intros a; field; lra).
  assert (Mle : forall a b, (a * n <= b * n <-> a <= b)%R).
  { intros a b. split; intros G; [apply (Rmult_le_reg_r n) in G; lra|apply Rmult_le_compat_r; lra]. }
  assert (Mlt : forall a b, (a * n < b * n <-> a < b)%R).
  { intros a b. split; intros G; [apply (Rmult_lt_reg_r n) in G; lra|apply Rmult_lt_compat_r; lra]. }
  rewrite !cast_up_iff by lra. rewrite <- (Mlt u (/ (2 * n))%R), <- (Mle (1 - / (2 * n))%R u), <- (Mle _ u), <- (Mlt u).
  rewrite Rmult_plus_distr_r, Rmult_minus_distr_r, Ed, Ei, Ej, Rmult_1_l, minus_IZR.
  split; [|split]; split; intros G; lra.
Qed.
Print Assumptions C152_random_refuted.

(** A centered design with as many points as values takes each value exactly once. *)
Theorem C152_centered : forall vars sw j lo hi, nth_error vars j = Some (lo, hi) -> (lo <= hi)%Z ->
  let d := integer_sample vars (centered_lhs R_arith (Z.to_nat (hi - lo + 1)) (length vars) sw) in
  forall z, (lo <= z <= hi)%Z -> occurrences j z d = 1.
Proof.
  intros vars sw j lo hi J H d z Z. set (n := Z.to_nat (hi - lo + 1)) in *. assert (N : 1 <= n) by (unfold n; lia).
  assert (C : columns_from n (length vars) (fun i v => v = (INR i + / 2) / INR n)%R (centered_lhs R_arith n (length vars) sw)).
  { apply centered_columns_from. intros i a b I (Ha & Hb). rewrite linspace_R in Ha, Hb by lia. apply some_inj in Ha, Hb. subst a b.
    cbn [add div ofZ R_arith]. rewrite S_INR. field. apply not_0_INR. lia. }
  destruct (occ_sections _ vars _ j lo hi z _ C J) as (c & Lc & Q & Oc). unfold d. rewrite Oc.
  set (e := Z.to_nat (z - lo)).
  assert (X : forall i v, nth_error c i = Some v -> (int_cast (v * (IZR hi - IZR lo) + IZR lo)%R =? z)%Z = true <-> e <= i < S e).
  { intros i v I. rewrite (Q i v I). assert (In : i < n) by (rewrite <- Lc; apply nth_error_Some; congruence).
    unfold n. rewrite center_level; [|exact H|exact In]. rewrite Z.eqb_eq. unfold e. lia. }
  replace 1 with (S e - e) by lia.
  apply Nat.le_antisymm; [apply count_most|apply count_shift; [|unfold e; lia]]; intros i v I; apply (X i v I).
Qed.
Print Assumptions C152_centered.

(** Four points for a variable with the values 5, 6, 7: once 5, twice 6, once 7. *)
Example C152_example : exists x, latin (2 * 1 * Z.to_nat (7 - 5)) (length [(5, 7)]%Z) x /\
  occurrences 0 5 (integer_sample [(5, 7)]%Z x) = 1 /\ occurrences 0 6 (integer_sample [(5, 7)]%Z x) = 2.
Proof.
  exists (centered_lhs R_arith 4 1 (fun _ => [])).
  assert (L : latin (2 * 1 * Z.to_nat (7 - 5)) (length [(5, 7)]%Z) (centered_lhs R_arith 4 1 (fun _ => []))).
  { change (latin 4 1 (centered_lhs R_arith 4 1 (fun _ => []))). apply columns_latin; [lia|]. apply centered_R. lia. }
  split; [exact L|].
  destruct (C152_even_refuted [(5, 7)]%Z 0 5 7 1 _ eq_refl ltac:(lia) ltac:(lia) L) as (A & _ & B).
  split; [exact A|]. apply B. lia.
Qed.

(** C153. Claim: a full factorial design of integer variables, with at most as many points as there are points in the space,
    has no repeated point. It is false: 16 points among the 20 points of [0, 1] x [0, 9] (computed in doubles). *)
Theorem C153_distinct_refuted : exists ts n x d, ts = [Int 0 1; Int 0 9] /\ n <= 2 * 10 /\
  full_factorial (f64_arith (fun a _ => a) (fun a => a)) 2 n = Some x /\
  mixint_sample ts false (scale_sample (f64_arith (fun a _ => a) (fun a => a)) [(fofZ 0, fofZ 1); (fofZ 0, fofZ 9)] x) = Some d /\
  length d = n /\ exists i i', i < i' < n /\ option_map (map Btrunc) (nth_error d i) = Some [0; 0]%Z /\ option_map (map Btrunc) (nth_error d i') = Some [0; 0]%Z.
Proof.
  destruct (full_factorial (f64_arith (fun a _ => a) (fun a => a)) 2 16) as [x|] eqn:E.
  2:{ exfalso. assert (N : (match full_factorial (f64_arith (fun a _ => a) (fun a => a)) 2 16 with Some _ => true | None => false end) = true) by (vm_compute; reflexivity). now rewrite E in N. }
  destruct (mixint_sample [Int 0 1; Int 0 9] false (scale_sample (f64_arith (fun a _ => a) (fun a => a)) [(fofZ 0, fofZ 1); (fofZ 0, fofZ 9)] x)) as [d|] eqn:D.
  all: assert (N : option_map (map (map Btrunc)) (do x <- full_factorial (f64_arith (fun a _ => a) (fun a => a)) 2 16;
    mixint_sample [Int 0 1; Int 0 9] false (scale_sample (f64_arith (fun a _ => a) (fun a => a)) [(fofZ 0, fofZ 1); (fofZ 0, fofZ 9)] x)) =
    Some [[0; 0]; [0; 3]; [0; 6]; [0; 9]; [0; 0]; [0; 3]; [0; 6]; [0; 9]; [1; 0]; [1; 3]; [1; 6]; [1; 9]; [1; 0]; [1; 3]; [1; 6]; [1; 9]]%Z) by (vm_compute; reflexivity);
    rewrite E in N; try rewrite D in N; cbn [option_map] in N.
  2: discriminate N.
  injection N as N. exists [Int 0 1; Int 0 9], 16, x, d. split; [reflexivity|]. split; [lia|]. split; [exact E|]. split; [exact D|].
  split; [apply (f_equal (@length _)) in N; rewrite map_length in N; exact N|]. exists 0, 4. split; [lia|].
  pose proof (f_equal (fun l => nth_error l 0) N) as N0. pose proof (f_equal (fun l => nth_error l 4) N) as N4. cbv beta in N0, N4.
  rewrite nth_error_map in N0, N4. split; [exact N0|exact N4].
Qed.
Print Assumptions C153_distinct_refuted.

(** When every variable has at least [m] values and the design has at most [m ^ nx] points, they are all different (in exact
    arithmetic); so also every design no larger than the space when all the variables have the same number of values. *)
Theorem C153_distinct_partial : forall vars m n x, vars <> [] -> 1 <= m ->
  Forall (fun v => (Z.of_nat m <= snd v - fst v + 1)%Z) vars -> n <= m ^ length vars ->
  full_factorial R_arith (length vars) n = Some x -> NoDup (integer_sample vars x).
Proof.
  intros vars m n x Nv Mp Hv Hn E. assert (N : 1 <= length vars) by (destruct vars; [congruence|cbn; lia]).
  destruct (ff_spec R_arith (Z.of_nat (length vars) + Z.of_nat n) (weakest_R _) (length vars) n N ltac:(lia)) as (num & x' & E' & B & Lv & L & Lx & X).
  assert (x' = x) by congruence. subst x'.
  destruct (C40_full_factorial (length vars) n N) as (_ & y & Ey & _ & _ & _ & _ & Lex & _). assert (y = x) by congruence. subst y.
  assert (Hm : exists num, Forall (fun k => k <= m) num /\ length num = length vars /\ Forall (on_grid num) x) by (now apply (small_grid _ n m x)).
  destruct Hm as (nu & Fm & Ln & Gr).
  apply NoDup_nth_error. intros i i' I Eq. unfold integer_sample, scale_sample in *. rewrite !map_length in I. rewrite !nth_error_map in Eq.
  destruct (nth_error x i) as [a|] eqn:Ea; [|apply nth_error_None in Ea; lia].
  destruct (nth_error x i') as [b|] eqn:Eb; [|discriminate]. cbn [option_map] in Eq. injection Eq as Eq.
  assert (a = b).
  { rewrite Forall_forall in Gr. apply (grid_inj vars nu m); try assumption; apply Gr; eapply nth_error_In; eauto. }
  subst b. destruct (Nat.lt_trichotomy i i') as [T|[T|T]]; [exfalso|exact T|exfalso].
  - destruct (Lex i i' a a T Ea Eb) as (k & u & v & _ & U & V & W). assert (u = v) by congruence. subst. lra.
  - destruct (Lex i' i a a T Eb Ea) as (k & u & v & _ & U & V & W). assert (u = v) by congruence. subst. lra.
Qed.
Print Assumptions C153_distinct_partial.
Example C153_example : exists x, full_factorial R_arith 2 9 = Some x /\ length x = 9 /\ NoDup (integer_sample [(-1, 1); (0, 5)]%Z x).
Proof.
  destruct (C40_full_factorial 2 9 ltac:(lia)) as (num & x & E & L & _). exists x. split; [exact E|]. split; [exact L|].
  apply (C153_distinct_partial [(-1, 1); (0, 5)]%Z 3 9 x); [discriminate|lia| |cbn; lia|exact E].
  repeat constructor; cbn; lia.
Qed.
