(** Properties C34 to C40: designs of experiments. *)
From Coq Require Import Reals Lra ZArith List Bool Arith Lia Permutation.
From Flocq Require Import Core.Core IEEE754.BinarySingleNaN.
From Verif Require Import F64 F64_Extra F64_Round Util Doe_Model Doe_Spec Doe_Generic Doe_Real Doe_Optim Doe_F64 Doe_FF.
Import ListNotations.
Local Open Scope nat_scope.

(** Examples: three points, two variables. *)
Definition ex_rnd (j : nat) : list R := [0; 1 / 2; 1 / 4]%R.
Definition ex_rnd64 (j : nat) : list f64 := [fzero; fmake 1 (-1); fmake 3 (-2)].
Definition ex_sw (j : nat) : list (nat * nat) := if j =? 0 then [(2, 1); (1, 0)] else [(2, 0)].
Lemma ex_rnd_ok j : unit_draws 3 (ex_rnd j).
Proof. split; [reflexivity|]. repeat (apply Forall_cons || apply Forall_nil); lra. Qed.
Definition in_unit64 (u : f64) : bool := is_finite u && fle fzero u && flt u fone.
Lemma in_unit64_spec u : in_unit64 u = true -> is_finite u = true /\ (0 <= B2R u < 1)%R.
Proof.
  unfold in_unit64. intros H. apply andb_prop in H. destruct H as (H & L). apply andb_prop in H. destruct H as (F & Z).
  split; [exact F|]. pose proof (finite_not_nan u F) as N.
  apply fle_ord in Z; [|reflexivity|exact N]. apply flt_ord in L; [|exact N|reflexivity].
  rewrite (ord_fin u F) in Z, L. rewrite ord_fzero in Z. rewrite (ord_fin fone) in L by reflexivity. rewrite B2R_fone in L. lra.
Qed.
Lemma ex_rnd64_ok j : unit_draws64 3 (ex_rnd64 j).
Proof.
  split; [reflexivity|]. repeat (apply Forall_cons || apply Forall_nil); apply in_unit64_spec; vm_compute; reflexivity.
Qed.

(** C34. In exact arithmetic: one point in each section, for each variable. *)
Theorem C34_classic : forall n nx rnd sw, 1 <= n -> (forall j, j < nx -> unit_draws n (rnd j)) ->
  latin n nx (classic_lhs R_arith n nx rnd sw).
Proof. intros n nx rnd sw N D. apply columns_latin; [exact N|]. now apply classic_R. Qed.
Print Assumptions C34_classic.
Theorem C34_centered : forall n nx sw, 1 <= n -> latin n nx (centered_lhs R_arith n nx sw).
Proof. intros n nx sw N. apply columns_latin; [exact N|]. now apply centered_R. Qed.
Print Assumptions C34_centered.
(** In double precision, for up to [2^53] points: the same with the ends of the sections moved by at most [2^-52]. *)
Theorem C34_classic_doubles : forall pw sq n nx rnd sw, 1 <= n -> (Z.of_nat n <= 2 ^ 53)%Z ->
  (forall j, j < nx -> unit_draws64 n (rnd j)) -> latin64 n nx (classic_lhs (f64_arith pw sq) n nx rnd sw).
Proof. intros pw sq n nx rnd sw N1 N2 D. apply columns_latin64; try assumption. now apply classic_F. Qed.
Print Assumptions C34_classic_doubles.
Theorem C34_centered_doubles : forall pw sq n nx sw, 1 <= n -> (Z.of_nat n <= 2 ^ 53)%Z ->
  latin64 n nx (centered_lhs (f64_arith pw sq) n nx sw).
Proof. intros pw sq n nx sw N1 N2. apply columns_latin64; try assumption. now apply centered_F. Qed.
Print Assumptions C34_centered_doubles.

Example C34_example : (forall j, j < 2 -> unit_draws 3 (ex_rnd j)) /\ (forall j, j < 2 -> unit_draws64 3 (ex_rnd64 j)) /\
  map (map (fun v => Btrunc (fmul (fofZ 3) v))) (classic_lhs (f64_arith (fun a _ => a) (fun a => a)) 3 2 ex_rnd64 ex_sw) =
    [[2; 2]; [0; 1]; [1; 0]]%Z.
Proof.
  split; [intros; apply ex_rnd_ok|]. split; [intros; apply ex_rnd64_ok|]. vm_compute. reflexivity.
Qed.

(** C35. The columns of an optimized design are those of the starting design, reordered: in any arithmetic. *)
Theorem C35_optimized_columns : forall (A : Type) (ar : arith A) nx lhs outer inner draws x,
  maximin_ese ar nx lhs outer inner draws = Some x -> same_columns lhs x.
Proof. intros A ar nx lhs outer inner draws x. apply maximin_ese_columns. Qed.
Print Assumptions C35_optimized_columns.
(** A maximin design is one of the designs drawn: in any arithmetic. *)
Theorem C35_maximin_candidate : forall (A : Type) (ar : arith A) first cands x,
  maximin_of ar first cands = Some x -> In x (first :: cands).
Proof. intros A ar first cands x. apply maximin_of_in. Qed.
Print Assumptions C35_maximin_candidate.

(** Hence both are Latin hypercubes, in exact arithmetic and in double precision. *)
Theorem C35_optimized_latin : forall n nx rnd sw draws x, 1 <= n -> (forall j, j < nx -> unit_draws n (rnd j)) ->
  optimized_lhs R_arith n nx rnd sw draws = Some x -> latin n nx x.
Proof.
  intros n nx rnd sw draws x N D H. apply columns_latin; [exact N|]. apply maximin_ese_columns in H.
  eapply columns_from_same; [exact H|]. now apply classic_R.
Qed.
Print Assumptions C35_optimized_latin.
Theorem C35_optimized_latin_doubles : forall pw sq n nx rnd sw draws x, 1 <= n -> (Z.of_nat n <= 2 ^ 53)%Z ->
  (forall j, j < nx -> unit_draws64 n (rnd j)) ->
  optimized_lhs (f64_arith pw sq) n nx rnd sw draws = Some x -> latin64 n nx x.
Proof.
  intros pw sq n nx rnd sw draws x N1 N2 D H. apply columns_latin64; try assumption. apply maximin_ese_columns in H.
  eapply columns_from_same; [exact H|]. now apply classic_F.
Qed.
Print Assumptions C35_optimized_latin_doubles.
Theorem C35_maximin_latin : forall n nx centered rnd sw x, 1 <= n -> (forall t j, j < nx -> unit_draws n (rnd t j)) ->
  maximin_lhs R_arith n nx centered rnd sw = Some x -> latin n nx x.
Proof.
  intros n nx centered rnd sw x N D H. unfold maximin_lhs in H. apply maximin_of_in in H.
  assert (E : exists t, x = if centered then centered_lhs R_arith n nx (sw t) else classic_lhs R_arith n nx (rnd t) (sw t)).
  { destruct H as [<-|H]; [eauto|]. apply in_map_iff in H. destruct H as (t & <- & _). eauto. }
  destruct E as (t & ->). apply columns_latin; [exact N|]. destruct centered; [now apply centered_R|]. apply classic_R; auto.
Qed.
Print Assumptions C35_maximin_latin.
Theorem C35_maximin_latin_doubles : forall pw sq n nx centered rnd sw x, 1 <= n -> (Z.of_nat n <= 2 ^ 53)%Z ->
  (forall t j, j < nx -> unit_draws64 n (rnd t j)) ->
  maximin_lhs (f64_arith pw sq) n nx centered rnd sw = Some x -> latin64 n nx x.
Proof.
  intros pw sq n nx centered rnd sw x N1 N2 D H. unfold maximin_lhs in H. apply maximin_of_in in H.
  assert (E : exists t, x = if centered then centered_lhs (f64_arith pw sq) n nx (sw t) else classic_lhs (f64_arith pw sq) n nx (rnd t) (sw t)).
  { destruct H as [<-|H]; [eauto|]. apply in_map_iff in H. destruct H as (t & <- & _). eauto. }
  destruct E as (t & ->). apply columns_latin64; try assumption. destruct centered; [now apply centered_F|]. apply classic_F; auto.
Qed.
Print Assumptions C35_maximin_latin_doubles.

(** C36. The optimized design exists, and its criterion is not above the one of the starting design, whose values are
    different in each column (as in a Latin hypercube). *)
Theorem C36_optimized_not_worse : forall n nx lhs outer inner draws, 1 <= nx -> shape n nx lhs -> distinct_values lhs ->
  valid_pairs n draws ->
  exists x, maximin_ese R_arith nx lhs outer inner draws = Some x /\ (criterion x <= criterion lhs)%R.
Proof.
  intros n nx lhs outer inner draws N S D V. destruct (maximin_ese_spec n nx lhs S N D outer inner draws V) as (x & E & _ & C). eauto.
Qed.
Print Assumptions C36_optimized_not_worse.
Theorem C36_maximin_largest : forall first cands x, maximin_of R_arith first cands = Some x ->
  exists d, min_distance x d /\ forall c dc, In c (first :: cands) -> min_distance c dc -> (dc <= d)%R.
Proof. exact maximin_of_spec. Qed.
Print Assumptions C36_maximin_largest.

Definition ex_draws (o i : nat) : list (nat * nat) * R := ([(0, 1); (2, 0)], (1 / 2)%R).
Example C36_example : valid_pairs 3 ex_draws /\ distinct_values (centered_lhs R_arith 3 2 ex_sw) /\
  (exists x, optimized_lhs R_arith 3 2 ex_rnd ex_sw ex_draws = Some x) /\
  exists x, maximin_lhs R_arith 3 2 true (fun _ => ex_rnd) (fun _ => ex_sw) = Some x.
Proof.
  assert (V : valid_pairs 3 ex_draws).
  { intros o i. split; [discriminate|]. repeat (apply Forall_cons || apply Forall_nil); simpl; lia. }
  split; [exact V|]. split; [apply (columns_distinct 3 2); [lia|now apply centered_R; lia]|]. split.
  - assert (C : columns_from 3 2 (in_section 3) (classic_lhs R_arith 3 2 ex_rnd ex_sw)) by (apply classic_R; [lia|intros; apply ex_rnd_ok]).
    destruct (C36_optimized_not_worse 3 2 (classic_lhs R_arith 3 2 ex_rnd ex_sw) (Nat.min (3 * 2 / 2) 30) (Nat.min (20 * 2) 100) ex_draws) as (x & E & _);
      [lia|apply C|apply (columns_distinct 3 2); [lia|exact C]|exact V|]. exists x. exact E.
  - apply maximin_of_some; [unfold centered_lhs; rewrite of_columns_length; lia|].
    apply Forall_forall. intros c Hc. apply in_map_iff in Hc. destruct Hc as (t & <- & _). unfold centered_lhs. rewrite of_columns_length. lia.
Qed.

Example C35_example : (exists x, optimized_lhs R_arith 3 2 ex_rnd ex_sw ex_draws = Some x /\ latin 3 2 x) /\
  exists x, maximin_lhs (f64_arith (fun a _ => a) (Bsqrt mode_NE)) 3 2 false (fun _ => ex_rnd64) (fun _ => ex_sw) = Some x /\ latin64 3 2 x.
Proof.
  split.
  - destruct C36_example as (_ & _ & (x & E) & _). exists x. split; [exact E|]. apply (C35_optimized_latin 3 2 ex_rnd ex_sw ex_draws); [lia|intros; apply ex_rnd_ok|exact E].
  - destruct (maximin_lhs (f64_arith (fun a _ => a) (Bsqrt mode_NE)) 3 2 false (fun _ => ex_rnd64) (fun _ => ex_sw)) as [x|] eqn:E.
    + exists x. split; [reflexivity|]. apply (C35_maximin_latin_doubles (fun a _ => a) (Bsqrt mode_NE) 3 2 false (fun _ => ex_rnd64) (fun _ => ex_sw)); [lia|lia|intros; apply ex_rnd64_ok|exact E].
    + exfalso. apply (f_equal (fun o => match o with Some _ => true | None => false end)) in E. vm_compute in E. discriminate E.
Qed.

(** C37. The criterion computed for an exchange is that of the design with the two coordinates exchanged. *)
Theorem C37_incremental_exact : forall n nx x k i1 i2, 1 <= nx -> shape n nx x -> distinct_values x ->
  k < nx -> i1 < n -> i2 < n -> i1 <> i2 ->
  exists y, phip_swap R_arith x k (criterion x) 10%R i1 i2 = Some (y, criterion y) /\ exchanged x i1 i2 k y.
Proof.
  intros n nx x k i1 i2 N S D K I1 I2 Ne.
  destruct (phip_swap_some R_arith x k (criterion x) 10%R i1 i2 n nx S K I1 I2) as (y & v & E).
  assert (Sep : separated x) by (eapply distinct_separated; eauto).
  assert (Sy : separated y).
  { apply (distinct_separated n nx); [eapply shape_columns; [|exact S]|exact N|eapply distinct_columns; [|exact D]];
      eapply phip_swap_columns; exact E. }
  exists y. split.
  - rewrite E. repeat f_equal. apply (phip_swap_exact x y k i1 i2 (criterion x) v nx); try assumption; try reflexivity.
    destruct S as (Ls & Ws). now split.
  - unfold phip_swap in E. destruct (nth_error x i1); [|discriminate E]. destruct (nth_error x i2); [|discriminate E].
    destruct (nth_error l k); [|discriminate E]. destruct (nth_error l0 k); [|discriminate E].
    destruct (mapM _ _); [|discriminate E]. destruct (swap_entries x i1 i2 k) as [x'|] eqn:Ex; [|discriminate E].
    apply some_inj in E. injection E as <- _. now apply swap_entries_exchanged.
Qed.
Print Assumptions C37_incremental_exact.
Example C37_example : shape 3 2 (centered_lhs R_arith 3 2 ex_sw) /\ distinct_values (centered_lhs R_arith 3 2 ex_sw).
Proof.
  assert (C : columns_from 3 2 (in_section 3) (centered_lhs R_arith 3 2 ex_sw)) by (apply centered_R; lia).
  split; [apply C|]. apply (columns_distinct 3 2); [lia|exact C].
Qed.

(** C38. Finding: with one point, the optimized design loops for ever when it looks for a second row to exchange with,
    and the maximin design panics. *)
Theorem C38_one_point_loops_refuted : forall fuel draws i1, i1 < 1 -> (forall k, draws k < 1) -> other_row fuel i1 draws = None.
Proof. intros fuel draws i1 I D. now apply other_row_one. Qed.
Print Assumptions C38_one_point_loops_refuted.
Theorem C38_one_point_panics_refuted : forall (A : Type) (ar : arith A) nx centered rnd sw, maximin_lhs ar 1 nx centered rnd sw = None.
Proof. intros A ar nx centered rnd sw. destruct centered; reflexivity. Qed.
Print Assumptions C38_one_point_panics_refuted.
(** C38, partial: with two points or more every kind of Latin hypercube is built, with one row per point (in exact
    arithmetic for the optimized and maximin kinds, in which a NaN distance cannot occur), and the search for a second
    row ends as soon as a different row is drawn. Missing: one point, refuted above. *)
Theorem C38_rows_partial : forall n nx rnd rnds sw sws draws, 2 <= n -> 1 <= nx ->
  (forall j, j < nx -> unit_draws n (rnd j)) -> valid_pairs n draws ->
  length (classic_lhs R_arith n nx rnd sw) = n /\ length (centered_lhs R_arith n nx sw) = n /\
  (exists x, optimized_lhs R_arith n nx rnd sw draws = Some x /\ length x = n) /\
  (forall centered, exists x, maximin_lhs R_arith n nx centered rnds sws = Some x /\ length x = n).
Proof.
  intros n nx rnd rnds sw sws draws N Nx D V.
  split; [apply of_columns_length|]. split; [apply of_columns_length|]. split.
  - assert (C : columns_from n nx (in_section n) (classic_lhs R_arith n nx rnd sw)) by (apply classic_R; [lia|exact D]).
    destruct (C36_optimized_not_worse n nx (classic_lhs R_arith n nx rnd sw) (Nat.min (3 * nx / 2) 30) (Nat.min (20 * nx) 100) draws)
      as (x & E & _); [exact Nx|apply C|apply (columns_distinct n nx); [lia|exact C]|exact V|].
    exists x. split; [exact E|]. apply maximin_ese_columns in E. rewrite <- (same_columns_length _ _ E). apply of_columns_length.
  - intros centered.
    assert (L : forall t, length (if centered then centered_lhs R_arith n nx (sws t) else classic_lhs R_arith n nx (rnds t) (sws t)) = n)
      by (intros t; destruct centered; apply of_columns_length).
    destruct (maximin_of_some (if centered then centered_lhs R_arith n nx (sws 0) else classic_lhs R_arith n nx (rnds 0) (sws 0))
      (map (fun t => if centered then centered_lhs R_arith n nx (sws t) else classic_lhs R_arith n nx (rnds t) (sws t)) (seq 1 4))) as (x & E).
    + rewrite L. exact N.
    + apply Forall_forall. intros c Hc. apply in_map_iff in Hc. destruct Hc as (t & <- & _). rewrite L. exact N.
    + exists x. split; [exact E|]. apply maximin_of_in in E. destruct E as [<-|E]; [apply (L 0)|].
      apply in_map_iff in E. destruct E as (t & <- & _). apply L.
Qed.
Print Assumptions C38_rows_partial.
Theorem C38_second_row_partial : forall draws i1 k, draws k <> i1 -> exists fuel i2, other_row fuel i1 draws = Some i2 /\ i2 <> i1.
Proof. exact other_row_ends. Qed.
Print Assumptions C38_second_row_partial.
Example C38_example : valid_pairs 3 ex_draws /\ (forall j, j < 2 -> unit_draws 3 (ex_rnd j)).
Proof. split; [apply C36_example|intros; apply ex_rnd_ok]. Qed.

(** C39. Finding: in double precision a full factorial design of two points on [-0.1, 0.2] has a point above 0.2. *)
Definition tenth : f64 := fmake (-3602879701896397) (-55).
Definition fifth : f64 := fmake 3602879701896397 (-54).
Theorem C39_above_bound_refuted : forall pw sq, exists lo up x r v, flt lo up = true /\
  full_factorial (f64_arith pw sq) 1 2 = Some x /\ In r (scale_sample (f64_arith pw sq) [(lo, up)] x) /\ In v r /\ flt up v = true.
Proof.
  intros pw sq. exists tenth, fifth.
  set (l1 := level_value (f64_arith pw sq) 2 1). set (l0 := level_value (f64_arith pw sq) 2 0).
  exists [[l0]; [l1]], (scale_row (f64_arith pw sq) [(tenth, fifth)] [l1]).
  exists (fadd (fmul l1 (fsub fifth tenth)) tenth).
  split; [vm_compute; reflexivity|]. split; [|split; [right; left; reflexivity|split; [left; reflexivity|vm_compute; reflexivity]]].
  unfold full_factorial. replace (levels (f64_arith pw sq) 1 2) with (Some [2]); [reflexivity|].
  vm_compute. reflexivity.
Qed.
Print Assumptions C39_above_bound_refuted.

(** C39, partial. In exact arithmetic every sample of every method is within the bounds. *)
Theorem C39_exact_partial : forall xlimits x, Forall (fun l => fst l <= snd l)%R xlimits ->
  Forall (fun r => length r = length xlimits /\ Forall (fun u => 0 <= u <= 1)%R r) x ->
  Forall (in_box xlimits) (scale_sample R_arith xlimits x).
Proof.
  intros xlimits x L F. unfold scale_sample. apply Forall_forall. intros r Hr. apply in_map_iff in Hr. destruct Hr as (u & <- & Hu).
  rewrite Forall_forall in F. destruct (F u Hu) as (Le & U). clear - L Le U. unfold scale_row, in_box. revert u Le U.
  induction L as [|(lo, up) ls Hl L IH]; intros [|v u] Le U; try discriminate Le; cbn [combine map fst snd].
  - apply Forall2_nil.
  - inversion U as [|? ? Hv Hu]; subst. apply Forall2_cons; [|apply IH; [now injection Le|assumption]].
    cbn [fst snd add mul sub R_arith] in *.
    assert (0 <= v * (up - lo))%R by (apply Rmult_le_pos; lra).
    assert (v * (up - lo) <= 1 * (up - lo))%R by (apply Rmult_le_compat_r; lra). lra.
Qed.
Print Assumptions C39_exact_partial.

(** All the methods give normalized samples in the unit cube: exact arithmetic and doubles. *)
Definition cube (x : list (list R)) : Prop := Forall (Forall (fun u => 0 <= u <= 1)%R) x.
Definition cube64 (x : list (list f64)) : Prop := Forall (Forall (fun u => is_finite u = true /\ 0 <= B2R u <= 1)%R) x.
Lemma entries_forall {A} (P : A -> Prop) (x : list (list A)) : (forall i j v, at_ x i j = Some v -> P v) -> Forall (Forall P) x.
Proof.
  intros H. apply Forall_forall. intros r Hr. apply Forall_forall. intros v Hv.
  apply In_nth_error in Hr, Hv. destruct Hr as (i & Hr). destruct Hv as (j & Hv). apply (H i j). unfold at_. now rewrite Hr.
Qed.
Lemma latin_cube n nx x : 1 <= n -> latin n nx x -> columns_from n nx (in_section n) x -> cube x.
Proof.
  intros N _ C. apply entries_forall. intros i j v H. destruct (columns_from_entries _ _ _ _ C i j v H) as (k & K & (A & B)).
  assert (P : (0 < / INR n)%R) by (apply Rinv_0_lt_compat, lt_0_INR; lia).
  assert (Q : (INR (S k) * / INR n <= 1)%R).
  { apply Rmult_le_reg_r with (INR n); [apply lt_0_INR; lia|]. rewrite Rmult_assoc, Rinv_l, !Rmult_1_r, Rmult_1_l; [apply le_INR; lia|apply not_0_INR; lia]. }
  assert (0 <= INR k * / INR n)%R by (apply Rmult_le_pos; [apply pos_INR|lra]). unfold Rdiv in *. lra.
Qed.
Theorem C39_normalized_partial : forall n nx rnd rnds sw sws draws centered, 1 <= n ->
  (forall j, j < nx -> unit_draws n (rnd j)) -> (forall t j, j < nx -> unit_draws n (rnds t j)) ->
  cube (classic_lhs R_arith n nx rnd sw) /\ cube (centered_lhs R_arith n nx sw) /\
  (forall x, optimized_lhs R_arith n nx rnd sw draws = Some x -> cube x) /\
  (forall x, maximin_lhs R_arith n nx centered rnds sws = Some x -> cube x) /\
  (forall ns x, 1 <= nx -> full_factorial R_arith nx ns = Some x -> cube x).
Proof.
  intros n nx rnd rnds sw sws draws centered N D Ds.
  assert (K : forall x, columns_from n nx (in_section n) x -> cube x).
  { intros x C. apply (latin_cube n nx); [exact N|now apply columns_latin|exact C]. }
  split; [apply K; now apply classic_R|]. split; [apply K; now apply centered_R|]. split; [|split].
  - intros x H. apply K. apply maximin_ese_columns in H. eapply columns_from_same; [exact H|]. now apply classic_R.
  - intros x H. unfold maximin_lhs in H. apply maximin_of_in in H. apply K.
    assert (E : exists t, x = if centered then centered_lhs R_arith n nx (sws t) else classic_lhs R_arith n nx (rnds t) (sws t)).
    { destruct H as [<-|H]; [eauto|]. apply in_map_iff in H. destruct H as (t & <- & _). eauto. }
    destruct E as (t & ->). destruct centered; [now apply centered_R|]. apply classic_R; auto.
  - intros ns x Nx H. destruct (ff_spec R_arith (Z.of_nat nx + Z.of_nat ns) (weakest_R _) nx ns Nx ltac:(lia)) as (num & x' & E & B & Lv & L & Lx & X).
    rewrite E in H. apply some_inj in H. subst x'. destruct B as (Ln & B).
    pose proof (ff_grid R_arith (fun _ v => 0 <= v <= 1)%R ns num x (conj eq_refl B) L Lx) as G.
    assert (G' : Forall (fun r => Forall2 (fun _ v => 0 <= v <= 1)%R num r) x).
    { apply G; [|exact X]. intros m i _ I. rewrite level_R by exact I. now apply level_R_unit. }
    eapply Forall_impl; [|exact G']. intros r Hr. clear - Hr. induction Hr; constructor; auto.
Qed.
Print Assumptions C39_normalized_partial.
Theorem C39_normalized_doubles_partial : forall pw sq n nx rnd rnds sw sws draws centered, 1 <= n -> (Z.of_nat n <= 2 ^ 53)%Z ->
  (forall j, j < nx -> unit_draws64 n (rnd j)) -> (forall t j, j < nx -> unit_draws64 n (rnds t j)) ->
  let ar := f64_arith pw sq in
  cube64 (classic_lhs ar n nx rnd sw) /\ cube64 (centered_lhs ar n nx sw) /\
  (forall x, optimized_lhs ar n nx rnd sw draws = Some x -> cube64 x) /\
  (forall x, maximin_lhs ar n nx centered rnds sws = Some x -> cube64 x) /\
  (forall ns x, 1 <= nx -> (Z.of_nat nx + Z.of_nat ns <= 2 ^ 49)%Z -> full_factorial ar nx ns = Some x -> cube64 x).
Proof.
  intros pw sq n nx rnd rnds sw sws draws centered N1 N2 D Ds ar.
  assert (K : forall x, columns_from n nx (between_cuts n) x -> cube64 x).
  { intros x C. apply entries_forall. now apply (columns_unit n N1 N2 nx). }
  split; [apply K; now apply classic_F|]. split; [apply K; now apply centered_F|]. split; [|split].
  - intros x H. apply K. apply maximin_ese_columns in H. eapply columns_from_same; [exact H|]. now apply classic_F.
  - intros x H. unfold maximin_lhs in H. apply maximin_of_in in H. apply K.
    assert (E : exists t, x = if centered then centered_lhs ar n nx (sws t) else classic_lhs ar n nx (rnds t) (sws t)).
    { destruct H as [<-|H]; [eauto|]. apply in_map_iff in H. destruct H as (t & <- & _). eauto. }
    destruct E as (t & ->). destruct centered; [now apply centered_F|]. apply classic_F; auto.
  - intros ns x Nx Bd H. destruct (ff_spec ar (2 ^ 49) (weakest_F pw sq) nx ns Nx Bd) as (num & x' & E & B & Lv & L & Lx & X).
    rewrite E in H. apply some_inj in H. subst x'. destruct B as (Ln & B).
    pose proof (ff_grid ar (fun _ v => is_finite v = true /\ 0 <= B2R v <= 1)%R ns num x (conj eq_refl B) L Lx) as G.
    assert (G' : Forall (fun r => Forall2 (fun _ v => is_finite v = true /\ 0 <= B2R v <= 1)%R num r) x).
    { apply G; [|exact X]. intros m i Hm I. apply level_unit; [exact I|]. specialize (Lv m Hm). lia. }
    eapply Forall_impl; [|exact G']. intros r Hr. clear - Hr. induction Hr; constructor; auto.
Qed.
Print Assumptions C39_normalized_doubles_partial.

(** In double precision: never below the lower bound; above the upper bound by at most [2^-51] times the largest bound;
    within the bounds when [upper - lower] is a double. Missing: the upper bound in general, refuted above. *)
Theorem C39_doubles_partial : forall pw sq xlimits x,
  Forall (fun l => is_finite (fst l) = true /\ is_finite (snd l) = true /\ B2R (fst l) <= B2R (snd l) /\
    Rabs (B2R (fst l)) <= bpow radix2 1021 /\ Rabs (B2R (snd l)) <= bpow radix2 1021)%R xlimits ->
  Forall (fun r => length r = length xlimits) x -> cube64 x ->
  Forall (fun r => Forall2 (fun l v => is_finite v = true /\ B2R (fst l) <= B2R v /\
      B2R v <= B2R (snd l) + bpow radix2 (-51) * Rmax (Rabs (B2R (fst l))) (Rabs (B2R (snd l))) /\
      (generic_format radix2 (SpecFloat.fexp 53 1024) (B2R (snd l) - B2R (fst l)) -> B2R v <= B2R (snd l)))%R xlimits r)
    (scale_sample (f64_arith pw sq) xlimits x).
Proof.
  intros pw sq xlimits x L W C. unfold scale_sample. apply Forall_forall. intros r Hr. apply in_map_iff in Hr. destruct Hr as (u & <- & Hu).
  unfold cube64 in C. rewrite Forall_forall in W, C. specialize (W u Hu). specialize (C u Hu). clear Hu x.
  unfold scale_row. revert u W C. induction L as [|l ls (F1 & F2 & Le & A1 & A2) L IH]; intros [|v u] W C; try discriminate W; cbn [combine map fst snd].
  - apply Forall2_nil.
  - inversion C as [|? ? (Fv & Hv) Hu]; subst. apply Forall2_cons; [|apply IH; [now injection W|assumption]].
    exact (scale_value (fst l) (snd l) v F1 F2 Fv Le A1 A2 Hv).
Qed.
Print Assumptions C39_doubles_partial.
Example C39_example : cube64 (classic_lhs (f64_arith (fun a _ => a) (fun a => a)) 3 2 ex_rnd64 ex_sw) /\
  (is_finite tenth = true /\ is_finite fifth = true /\ fle tenth fifth = true) /\
  forallb (fun r => forallb (fun v => flt v fifth) r)
    (scale_sample (f64_arith (fun a _ => a) (fun a => a)) [(tenth, fifth); (fzero, fone)]
      (classic_lhs (f64_arith (fun a _ => a) (fun a => a)) 3 2 ex_rnd64 ex_sw)) = false.
Proof.
  split; [|split; [split; [|split]|]; vm_compute; reflexivity].
  assert (H := C39_normalized_doubles_partial (fun a _ => a) (fun a => a) 3 2 ex_rnd64 (fun _ => ex_rnd64) ex_sw (fun _ => ex_sw)
    (fun _ _ => ([], fzero)) true ltac:(lia) ltac:(lia) (fun j _ => ex_rnd64_ok j) (fun _ j _ => ex_rnd64_ok j)).
  exact (proj1 H).
Qed.

(** Random designs: the shape is as asked, the points are in the unit cube, and every design in the cube is the result of some draws. *)
Theorem C39_random_partial : forall n nx,
  (forall rnd, (forall i j, i < n -> j < nx -> is_finite (rnd i j) = true /\ (0 <= B2R (rnd i j) < 1)%R) ->
     length (random_sample n nx rnd) = n /\ Forall (fun r => length r = nx) (random_sample n nx rnd) /\ cube64 (random_sample n nx rnd)) /\
  (forall x : list (list f64), length x = n -> Forall (fun r => length r = nx) x ->
     exists rnd, random_sample n nx rnd = x /\ forall i j, i < n -> j < nx -> at_ x i j = Some (rnd i j)).
Proof.
  intros n nx. unfold random_sample. split.
  - intros rnd H. split; [now rewrite map_length, seq_length|]. split; apply Forall_map, Forall_forall; intros i Hi; apply in_seq in Hi.
    + now rewrite map_length, seq_length.
    + apply Forall_map, Forall_forall. intros j Hj. apply in_seq in Hj. destruct (H i j ltac:(lia) ltac:(lia)). split; [assumption|lra].
  - intros x L W. exists (fun i j => nth j (nth i x []) fzero). rewrite Forall_forall in W. split.
    + assert (K : forall (l : list f64), map (fun j => nth j l fzero) (seq 0 (length l)) = l).
      { induction l as [|a l IH]; [reflexivity|]. cbn [length seq map nth]. f_equal. rewrite <- seq_shift, map_map. exact IH. }
      rewrite <- L. clear L. assert (K' : forall i, i < length x -> map (fun j => nth j (nth i x []) fzero) (seq 0 nx) = nth i x []).
      { intros i Hi. rewrite <- (W (nth i x [])) by (now apply nth_In). apply K. }
      transitivity (map (fun i => nth i x []) (seq 0 (length x))).
      * apply map_ext_in. intros i Hi. apply in_seq in Hi. apply K'. lia.
      * clear. induction x as [|a x IH]; [reflexivity|]. cbn [length seq map nth]. f_equal. rewrite <- seq_shift, map_map. exact IH.
    + intros i j Hi Hj. unfold at_. rewrite (nth_error_nth' x []) by lia. apply nth_error_nth'. rewrite W; [exact Hj|]. apply nth_In. lia.
Qed.
Print Assumptions C39_random_partial.

(** C40. A full factorial design of [ns] points: balanced numbers of levels, points of the grid, all different, in
    lexicographic order; all the grid when [ns] is its size. *)
Theorem C40_full_factorial : forall nx ns, 1 <= nx ->
  exists num x, full_factorial R_arith nx ns = Some x /\ length x = ns /\ balanced nx num /\ ns <= grid_size num /\
    Forall (on_grid num) x /\ lexicographic Rlt x /\
    (ns = grid_size num -> forall r, on_grid num r -> In r x).
Proof.
  intros nx ns N. destruct (ff_spec R_arith (Z.of_nat nx + Z.of_nat ns) (weakest_R _) nx ns N ltac:(lia)) as (num & x & E & B & Lv & L & Lx & X).
  exists num, x. split; [exact E|]. split; [exact Lx|]. split; [exact B|]. rewrite <- prod_grid. split; [exact L|]. destruct B as (Ln & B).
  split; [|split].
  - apply (ff_grid R_arith _ ns num x (conj eq_refl B) L Lx); [|exact X]. intros n i _ I. exists i. split; [exact I|now apply level_R].
  - apply (ff_lex R_arith _ ns num x (conj eq_refl B) L Lx); [|exact X]. intros n i j _ I J. now apply level_R_mono.
  - intros -> r G. assert (I : exists idx, Forall2 (fun n i => i < n) num idx /\ r = values R_arith num idx).
    { clear - G. unfold values. induction G as [|n v num r (i & I & V) G (idx & F & ->)]; [exists []; split; [apply Forall2_nil|reflexivity]|].
      exists (i :: idx). split; [now apply Forall2_cons|]. cbn [combine map fst snd]. rewrite level_R by exact I. now rewrite V. }
    destruct I as (idx & F & ->). apply (ff_all R_arith num x (conj eq_refl B) Lx X idx F).
Qed.
Print Assumptions C40_full_factorial.
(** The same in double precision, with the levels rounded to nearest. *)
Theorem C40_full_factorial_doubles : forall pw sq nx ns, 1 <= nx -> (Z.of_nat nx + Z.of_nat ns <= 2 ^ 49)%Z ->
  exists num x, full_factorial (f64_arith pw sq) nx ns = Some x /\ length x = ns /\ balanced nx num /\ ns <= grid_size num /\
    Forall (on_grid64 num) x /\ lexicographic (fun u v => flt u v = true) x.
Proof.
  intros pw sq nx ns N Bd. destruct (ff_spec (f64_arith pw sq) (2 ^ 49) (weakest_F pw sq) nx ns N Bd) as (num & x & E & B & Lv & L & Lx & X).
  exists num, x. split; [exact E|]. split; [exact Lx|]. split; [exact B|]. rewrite <- prod_grid. split; [exact L|]. destruct B as (Ln & B).
  assert (Lv' : forall n, In n num -> (Z.of_nat n <= 2 ^ 49)%Z) by (intros n Hn; specialize (Lv n Hn); lia).
  split.
  - apply (ff_grid (f64_arith pw sq) _ ns num x (conj eq_refl B) L Lx); [|exact X]. intros n i Hn I. exists i. split; [exact I|].
    apply level_F; [exact I|]. specialize (Lv' n Hn). lia.
  - apply (ff_lex (f64_arith pw sq) _ ns num x (conj eq_refl B) L Lx); [|exact X]. intros n i j Hn I J. specialize (Lv' n Hn).
    destruct (level_F pw sq n i) as (F1 & V1); [lia|lia|]. destruct (level_F pw sq n j) as (F2 & V2); [lia|lia|].
    apply flt_ord; try now apply finite_not_nan. rewrite !ord_fin by assumption. rewrite V1, V2. now apply level_F_mono.
Qed.
Print Assumptions C40_full_factorial_doubles.
Example C40_example : levels (f64_arith (fun a _ => a) (fun a => a)) 3 10 = Some [3; 2; 2] /\
  option_map (map (map (fun v => Btrunc (fmul (fofZ 2) v)))) (full_factorial (f64_arith (fun a _ => a) (fun a => a)) 2 5) =
    Some [[0; 0]; [0; 2]; [1; 0]; [1; 2]; [2; 0]]%Z.
Proof. split; vm_compute; reflexivity. Qed.
