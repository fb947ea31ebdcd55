(** Property C145: training in single and double precision. *)
From Coq Require Import Reals List ZArith Lia Lra.
From Flocq Require Import Core IEEE754.Binary IEEE754.Bits.
From Verif Require Import Single_Model.
Import ListNotations.
Local Open Scope Z_scope.

(** ** Specification: what it means for a number to be in memory *)

Definition bytes (m : memory) : Prop := forall q, 0 <= m q < 256.
Definition holds32 (m : memory) (p : Z) (v : binary32) : Prop := load 4 m p = bits_of_b32 v.
Definition holds64 (m : memory) (p : Z) (v : binary64) : Prop := load 8 m p = bits_of_b64 v.
Definition array32 m p (l : list binary32) : Prop := forall i v, nth_error l i = Some v -> holds32 m (p + 4 * Z.of_nat i) v.
Definition array64 m p (l : list binary64) : Prop := forall i v, nth_error l i = Some v -> holds64 m (p + 8 * Z.of_nat i) v.
Definition pairs32 m p (l : list (binary32 * binary32)) : Prop := array32 m p (concat (map (fun b => [fst b; snd b]) l)).
Definition pairs64 m p (l : list (binary64 * binary64)) : Prop := array64 m p (concat (map (fun b => [fst b; snd b]) l)).
Definition real32 (v : binary32) : R := B2R 24 128 v.
Definition real64 (v : binary64) : R := B2R 53 1024 v.
Definition finite32 (v : binary32) : Prop := is_finite 24 128 v = true.
Definition finite64 (v : binary64) : Prop := is_finite 53 1024 v = true.

(** ** Proofs *)

Lemma load_range m : bytes m -> forall k p, 0 <= load k m p < 256 ^ Z.of_nat k.
Proof.
  intros B. induction k as [|k IH]; intros p; [simpl; lia|].
  cbn [load]. specialize (IH (p + 1)). specialize (B p). rewrite Nat2Z.inj_succ, Z.pow_succ_r by lia. lia.
Qed.
Lemma load_words m p : load 8 m p = load 4 m p + 4294967296 * load 4 m (p + 4).
Proof. cbn [load]. replace (p + 4) with (p + 1 + 1 + 1 + 1) by lia. ring. Qed.

Lemma load64_value m p v : holds64 m p v -> into_f64 m p = v.
Proof. unfold holds64, into_f64, b64_of_bits, bits_of_b64. intros ->. apply (binary_float_of_bits_of_binary_float 52 11). Qed.

Lemma map_seq_eq {A B} (f : nat -> B) (g : A -> B) : forall l k, (forall i v, nth_error l i = Some v -> f (k + i)%nat = g v) ->
  map f (seq k (length l)) = map g l.
Proof.
  induction l as [|a l IH]; intros k H; [reflexivity|]. cbn [length seq map]. f_equal.
  - rewrite <- (H 0%nat a eq_refl). f_equal. lia.
  - apply IH. intros i v E. rewrite <- (H (S i) v E). f_equal. lia.
Qed.
Lemma concat_pairs {A} : forall (l : list (A * A)) i b, nth_error l i = Some b ->
  nth_error (concat (map (fun b => [fst b; snd b]) l)) (2 * i) = Some (fst b) /\
  nth_error (concat (map (fun b => [fst b; snd b]) l)) (2 * i + 1) = Some (snd b).
Proof.
  induction l as [|a l IH]; intros [|i] b E; try discriminate.
  - injection E as <-. split; reflexivity.
  - replace (2 * S i)%nat with (S (S (2 * i))) by lia. replace (2 * S i + 1)%nat with (S (S (2 * i + 1))) by lia. now apply IH.
Qed.

(** In double precision, the optimizer is given the start, the bounds and the likelihoods of the search, exactly. *)
Theorem C145_double_partial : forall m p,
  (forall l, array64 m p l -> start_values 8 m p (length l) = l) /\
  (forall l, pairs64 m p l -> bounds_values 8 m p (length l) = l) /\
  (forall v, holds64 m p v -> real64 (objective_value m p) = (- real64 v)%R).
Proof.
  intros m p. split; [|split].
  - intros l H. unfold start_values. rewrite <- (map_id l) at 2. apply (map_seq_eq _ (fun v => v)). intros i v E.
    apply load64_value. now apply H.
  - intros l H. unfold bounds_values. rewrite <- (map_id l) at 2. apply (map_seq_eq _ (fun b => b)). intros i b E.
    destruct (concat_pairs _ _ _ E) as [A B]. apply H in A. apply H in B. destruct b as [lo up]. cbn [fst snd] in *. cbv zeta.
    f_equal; apply load64_value.
    + replace (p + 2 * 8 * Z.of_nat (0 + i)) with (p + 8 * Z.of_nat (2 * i)) by lia. exact A.
    + replace (p + 2 * 8 * Z.of_nat (0 + i) + 8) with (p + 8 * Z.of_nat (2 * i + 1)) by lia. exact B.
  - intros v H. unfold objective_value. rewrite (load64_value _ _ _ H). unfold real64, b64_opp. apply B2R_Bopp.
Qed.
Print Assumptions C145_double_partial.

Lemma bits32_range v : 0 <= bits_of_b32 v < 4294967296.
Proof. exact (bits_of_binary_float_range 23 8 eq_refl eq_refl v). Qed.

(** Fields of a finite number of single precision other than zero. *)
Lemma exponent32 mx ex : SpecFloat.bounded 24 128 mx ex = true -> -149 <= ex <= 104.
Proof.
  intros Hb. unfold SpecFloat.bounded in Hb. apply andb_prop in Hb. destruct Hb as [C D]. apply Z.leb_le in D.
  unfold SpecFloat.canonical_mantissa in C. apply Zeq_bool_eq in C. unfold SpecFloat.fexp in C.
  assert (E : SpecFloat.emin 24 128 = -149) by reflexivity. rewrite E in C. lia.
Qed.
Lemma fields32 (v : binary32) : finite32 v -> real32 v <> 0%R ->
  let b := bits_of_b32 v in
  (2147483648 <=? b) = Bsign 24 128 v /\ (b / 8388608) mod 256 < 255 /\ ~ (b mod 8388608 = 0 /\ (b / 8388608) mod 256 = 0).
Proof.
  intros F N. assert (S : split_bits 23 8 (bits_of_b32 v) = split_bits_of_binary_float 23 8 v)
    by (exact (split_bits_of_binary_float_correct 23 8 eq_refl eq_refl v)).
  cbv zeta. revert S. generalize (bits_of_b32 v). intros b S. unfold split_bits in S.
  assert (E1 : 2 ^ 23 = 8388608) by reflexivity. assert (E2 : 2 ^ 8 = 256) by reflexivity.
  assert (E3 : 8388608 * 256 = 2147483648) by reflexivity. rewrite E1, E2, E3 in S.
  destruct v as [s|s|s pl Hp|s mx ex Hb]; try discriminate F.
  - now elim N.
  - clear F N. unfold split_bits_of_binary_float in S. cbn [Bsign]. rewrite E1 in S.
    assert (E4 : SpecFloat.emin (23 + 1) (2 ^ (8 - 1)) = -149) by reflexivity. rewrite E4 in S.
    pose proof (Pos2Z.is_pos mx). pose proof (exponent32 mx ex Hb) as E.
    destruct (0 <=? Z.pos mx - 8388608) eqn:L; apply pair_equal_spec in S; destruct S as [S S3]; apply pair_equal_spec in S; destruct S as [S1 S2].
    + rewrite S1, S3. split; [reflexivity|]. lia.
    + rewrite S1, S2, S3. split; [reflexivity|]. lia.
Qed.

Lemma sign_real prec emax (v : binary_float prec emax) :
  is_finite prec emax v = true -> B2R prec emax v <> 0%R ->
  (Bsign prec emax v = false -> (0 < B2R prec emax v)%R) /\ (Bsign prec emax v = true -> (B2R prec emax v < 0)%R).
Proof.
  destruct v as [s|s|s pl Hp|s mx ex Hb]; intros F N; try discriminate F; [now elim N|]. cbn [Bsign B2R] in *. split; intros ->.
  - apply F2R_gt_0. reflexivity.
  - apply F2R_lt_0. reflexivity.
Qed.

(** The number read at [p] when the four bytes after the first four are those of the finite number [v], not zero: a finite number
    with the sign of [v]. *)
Lemma next_word m p (v : binary32) : bytes m -> holds32 m (p + 4) v -> finite32 v -> real32 v <> 0%R ->
  finite64 (into_f64 m p) /\ real64 (into_f64 m p) <> 0%R /\ Bsign 53 1024 (into_f64 m p) = Bsign 24 128 v.
Proof.
  intros B H F N. unfold into_f64. rewrite load_words, H.
  pose proof (load_range m B 4 p) as L. change (256 ^ Z.of_nat 4) with 4294967296 in L.
  pose proof (bits32_range v) as Hv. destruct (fields32 v F N) as (Fs & Fe & Fz).
  set (w := load 4 m p) in *. clearbody w. set (b := bits_of_b32 v) in *. clearbody b.
  set (x := w + 4294967296 * b).
  assert (X : 0 <= x < 2 ^ 64) by (change (2 ^ 64) with (4294967296 * 4294967296); unfold x; lia).
  pose proof (bits_of_binary_float_of_bits 52 11 eq_refl eq_refl eq_refl x X) as Bx.
  change (binary_float_of_bits 52 11 eq_refl eq_refl eq_refl x) with (b64_of_bits x) in Bx.
  set (f := b64_of_bits x) in *. clearbody f.
  pose proof (split_bits_of_binary_float_correct 52 11 eq_refl eq_refl f) as Sf. rewrite Bx in Sf. clear Bx.
  unfold split_bits in Sf. assert (E1 : 2 ^ 52 = 4503599627370496) by reflexivity. assert (E2 : 2 ^ 11 = 2048) by reflexivity.
  assert (E3 : 4503599627370496 * 2048 = 9223372036854775808) by reflexivity. rewrite E1, E2, E3 in Sf.
  assert (E : (x / 4503599627370496) mod 2048 = (b / 1048576) mod 2048).
  { f_equal. change 4503599627370496 with (4294967296 * 1048576). rewrite <- Z.div_div by lia. f_equal. unfold x.
    rewrite Z.mul_comm, Z.div_add, Z.div_small by lia. reflexivity. }
  assert (Sg : (9223372036854775808 <=? x) = (2147483648 <=? b)).
  { unfold x. destruct (Z.leb_spec 2147483648 b); [apply Z.leb_le|apply Z.leb_gt]; lia. }
  assert (U : (b / 1048576) mod 2048 < 2047).
  { pose proof (Z.div_mod b 1048576 ltac:(lia)). pose proof (Z.mod_pos_bound b 1048576 ltac:(lia)).
    pose proof (Z.div_mod (b / 1048576) 2048 ltac:(lia)). pose proof (Z.mod_pos_bound (b / 1048576) 2048 ltac:(lia)).
    pose proof (Z.div_mod b 8388608 ltac:(lia)). pose proof (Z.mod_pos_bound b 8388608 ltac:(lia)).
    pose proof (Z.div_mod (b / 8388608) 256 ltac:(lia)). pose proof (Z.mod_pos_bound (b / 8388608) 256 ltac:(lia)). lia. }
  rewrite E, Sg, Fs in Sf.
  assert (Z0 : ~ (x mod 4503599627370496 = 0 /\ (b / 1048576) mod 2048 = 0)).
  { intros [X1 X2]. apply Fz. assert (b mod 2147483648 = 0); [|
      pose proof (Z.div_mod b 2147483648 ltac:(lia)); replace b with (0 + b / 2147483648 * 256 * 8388608) by lia; rewrite Z.div_add, Z.mod_add by lia;
      rewrite Z.add_0_l, Z.mod_mul by lia; split; reflexivity].
    pose proof (Z.div_mod x 4503599627370496 ltac:(lia)) as D. rewrite X1 in D. rewrite X1 in *. pose proof (Z.div_mod (b / 1048576) 2048 ltac:(lia)) as D2.
    rewrite X2 in D2.
    assert (Q : x / 4503599627370496 = b / 1048576).
    { change 4503599627370496 with (4294967296 * 1048576). rewrite <- Z.div_div by lia. f_equal. unfold x. rewrite Z.mul_comm, Z.div_add, Z.div_small by lia. reflexivity. }
    rewrite Q, D2 in D. unfold x in D. symmetry. apply Z.mod_unique_pos with (q := b / 1048576 / 2048); lia. }
  destruct f as [s|s|s pl Hp|s mx ex Hb]; unfold split_bits_of_binary_float in Sf.
  - apply pair_equal_spec in Sf; destruct Sf as [Sf S3]; apply pair_equal_spec in Sf; destruct Sf as [S1 S2]. elim Z0. now split.
  - rewrite E2 in Sf. apply pair_equal_spec in Sf; destruct Sf as [Sf S3]; apply pair_equal_spec in Sf; destruct Sf as [S1 S2]. lia.
  - rewrite E2 in Sf. apply pair_equal_spec in Sf; destruct Sf as [Sf S3]; apply pair_equal_spec in Sf; destruct Sf as [S1 S2]. lia.
  - split; [reflexivity|]. split.
    + unfold real64. cbn [B2R]. destruct s; [apply Rlt_not_eq, F2R_lt_0|apply not_eq_sym, Rlt_not_eq, F2R_gt_0]; reflexivity.
    + cbn [Bsign]. destruct (0 <=? Z.pos mx - 2 ^ 52); apply pair_equal_spec in Sf; destruct Sf as [Sf _]; apply pair_equal_spec in Sf; destruct Sf as [S1 _]; now symmetry.
Qed.

Lemma read_sign m p (v : binary32) : bytes m -> holds32 m (p + 4) v -> finite32 v ->
  ((0 < real32 v)%R -> finite64 (into_f64 m p) /\ (0 < real64 (into_f64 m p))%R) /\
  ((real32 v < 0)%R -> finite64 (into_f64 m p) /\ (real64 (into_f64 m p) < 0)%R).
Proof.
  intros B H F. split; intros S; (destruct (next_word m p v B H F) as (Fd & Nz & Sg); [lra|]); split; try exact Fd;
    destruct (sign_real 53 1024 _ Fd Nz) as [P Q]; destruct (sign_real 24 128 v F ltac:(unfold real32 in S; lra)) as [P' Q'];
    unfold real32, real64 in *; destruct (Bsign 24 128 v); [specialize (Q' eq_refl); lra|now apply P|now apply Q|specialize (P' eq_refl); lra].
Qed.

(** Finding: in single precision the bounds of the search are wrong. For every component followed by another one, when 0 is inside
    both searches (powers of ten: bounds on both sides of 1, as the default 0.01 and 10), the lower bound given to the optimizer is
    above the upper one. *)
Theorem C145_bounds_refuted : forall m p l i b b',
  bytes m -> pairs32 m p l -> nth_error l i = Some b -> nth_error l (S i) = Some b' ->
  finite32 (snd b) -> finite32 (fst b') -> (real32 (fst b') < 0 < real32 (snd b))%R ->
  exists lo up, nth_error (bounds_values 4 m p (length l)) i = Some (lo, up) /\ (real64 up < real64 lo)%R.
Proof.
  intros m p l i b b' B H E E' F F' [N P]. destruct (concat_pairs _ _ _ E) as [_ Eu]. destruct (concat_pairs _ _ _ E') as [El _].
  apply H in Eu. apply H in El.
  assert (L : (i < length l)%nat) by (apply nth_error_Some; congruence).
  set (q := p + 2 * 4 * Z.of_nat i). exists (into_f64 m q), (into_f64 m (q + 4)). split.
  - unfold bounds_values. rewrite nth_error_map, (nth_error_nth' _ 0%nat) by (now rewrite seq_length). rewrite seq_nth by exact L. reflexivity.
  - assert (A1 : holds32 m (q + 4) (snd b)) by (replace (q + 4) with (p + 4 * Z.of_nat (2 * i + 1)) by (unfold q; lia); exact Eu).
    assert (A2 : holds32 m (q + 4 + 4) (fst b')) by (replace (q + 4 + 4) with (p + 4 * Z.of_nat (2 * S i)) by (unfold q; lia); exact El).
    destruct (read_sign m q _ B A1 F) as [X _]. destruct (read_sign m (q + 4) _ B A2 F') as [_ Y].
    destruct (X P) as [_ ?]. destruct (Y N) as [_ ?]. lra.
Qed.
Print Assumptions C145_bounds_refuted.

(** Finding: so is the start of the search: each component but the last has the sign of the next one. *)
Theorem C145_start_refuted : forall m p l i v v',
  bytes m -> array32 m p l -> nth_error l i = Some v -> nth_error l (S i) = Some v' -> finite32 v' ->
  (real32 v < 0 < real32 v')%R ->
  exists s, nth_error (start_values 4 m p (length l)) i = Some s /\ finite64 s /\ (0 < real64 s)%R.
Proof.
  intros m p l i v v' B H E E' F [N P]. assert (L : (i < length l)%nat) by (apply nth_error_Some; congruence). apply H in E'.
  exists (into_f64 m (p + 4 * Z.of_nat i)). split.
  - unfold start_values. rewrite nth_error_map, (nth_error_nth' _ 0%nat) by (now rewrite seq_length). rewrite seq_nth by exact L. reflexivity.
  - assert (A : holds32 m (p + 4 * Z.of_nat i + 4) v') by (replace (p + 4 * Z.of_nat i + 4) with (p + 4 * Z.of_nat (S i)) by lia; exact E').
    destruct (read_sign m _ _ B A F) as [X _]. now apply X.
Qed.
Print Assumptions C145_start_refuted.

(** A memory with the bytes of [x] from address [p]. *)
Definition written (p x : Z) : memory := fun q => (x / 256 ^ (q - p)) mod 256.
Lemma load_ext m m' : forall k p, (forall q, p <= q -> m q = m' q) -> load k m p = load k m' p.
Proof. induction k as [|k IH]; intros p H; [reflexivity|]. cbn [load]. rewrite H by lia. rewrite (IH (p + 1)); [reflexivity|]. intros q Hq. apply H. lia. Qed.
Lemma load_written : forall k x p, 0 <= x < 256 ^ Z.of_nat k -> load k (written p x) p = x.
Proof.
  induction k as [|k IH]; intros x p H; [cbn in H; cbn [load]; lia|]. cbn [load].
  rewrite Nat2Z.inj_succ, Z.pow_succ_r in H by lia.
  rewrite (load_ext _ (written (p + 1) (x / 256))).
  - rewrite IH by (split; [apply Z.div_pos; lia|apply Z.div_lt_upper_bound; lia]).
    unfold written. rewrite Z.sub_diag, Z.pow_0_r, Z.div_1_r. pose proof (Z.div_mod x 256). lia.
  - intros q Hq. unfold written. replace (q - p) with (Z.succ (q - (p + 1))) by lia. rewrite Z.pow_succ_r by lia.
    rewrite Z.div_div; [reflexivity|lia|apply Z.pow_pos_nonneg; lia].
Qed.
Lemma written_bytes p x : bytes (written p x).
Proof. intros q. unfold written. apply Z.mod_pos_bound. lia. Qed.

Lemma large_word m p s : bytes m -> load 4 m (p + 4) = (if s : bool then 2147483648 else 0) + 2130706432 ->
  finite64 (into_f64 m p) /\ Bsign 53 1024 (into_f64 m p) = s /\ (bpow radix2 1009 <= Rabs (real64 (into_f64 m p)))%R.
Proof.
  intros B H. unfold into_f64. rewrite load_words, H.
  pose proof (load_range m B 4 p) as L. change (256 ^ Z.of_nat 4) with 4294967296 in L.
  set (w := load 4 m p) in *. clearbody w. set (x := w + 4294967296 * ((if s : bool then 2147483648 else 0) + 2130706432)).
  assert (X : 0 <= x < 2 ^ 64) by (change (2 ^ 64) with (4294967296 * 4294967296); unfold x; destruct s; lia).
  pose proof (bits_of_binary_float_of_bits 52 11 eq_refl eq_refl eq_refl x X) as Bx.
  change (binary_float_of_bits 52 11 eq_refl eq_refl eq_refl x) with (b64_of_bits x) in Bx.
  set (f := b64_of_bits x) in *. clearbody f.
  pose proof (split_bits_of_binary_float_correct 52 11 eq_refl eq_refl f) as Sf. rewrite Bx in Sf. clear Bx.
  unfold split_bits in Sf. assert (E1 : 2 ^ 52 = 4503599627370496) by reflexivity. assert (E2 : 2 ^ 11 = 2048) by reflexivity.
  assert (E3 : 4503599627370496 * 2048 = 9223372036854775808) by reflexivity. rewrite E1, E2, E3 in Sf.
  assert (Q : (x / 4503599627370496) mod 2048 = 2032).
  { assert (D : x / 4503599627370496 = (if s then 2048 else 0) + 2032).
    { symmetry. apply Z.div_unique with (r := w); [lia|]. unfold x. destruct s; lia. }
    rewrite D. destruct s; reflexivity. }
  assert (Sg : (9223372036854775808 <=? x) = s).
  { unfold x. destruct s; [apply Z.leb_le|apply Z.leb_gt]; lia. }
  rewrite Q, Sg in Sf. unfold split_bits_of_binary_float in Sf.
  destruct f as [z|z|z pl Hp|z mx ex Hb].
  - apply pair_equal_spec in Sf; destruct Sf as [Sf S3]. discriminate S3.
  - rewrite E2 in Sf. apply pair_equal_spec in Sf; destruct Sf as [Sf S3]. discriminate S3.
  - rewrite E2 in Sf. apply pair_equal_spec in Sf; destruct Sf as [Sf S3]. discriminate S3.
  - split; [reflexivity|]. assert (E4 : SpecFloat.emin (52 + 1) (2 ^ (11 - 1)) = -1074) by reflexivity. rewrite E4, E1 in Sf.
    destruct (0 <=? Z.pos mx - 4503599627370496) eqn:G; apply pair_equal_spec in Sf; destruct Sf as [Sf S3];
      apply pair_equal_spec in Sf; destruct Sf as [S1 S2]; [|lia].
    split; [cbn [Bsign]; now symmetry|]. unfold real64. cbn [B2R]. rewrite <- F2R_Zabs, abs_cond_Zopp. cbn [Z.abs].
    unfold F2R. cbn [Fnum Fexp]. assert (Ex : ex = 957) by lia. rewrite Ex. change 1009 with (52 + 957). rewrite bpow_plus.
    apply Rmult_le_compat_r; [apply bpow_ge_0|]. rewrite <- IZR_Zpower by lia. apply IZR_le. apply Z.leb_le in G. change (Zpower radix2 52) with (2 ^ 52). lia.
Qed.

(** Finding: the value read for a number of single precision, the likelihood in particular, depends on the bytes that follow it in
    memory: the same number can be read as a huge positive or negative one. *)
Theorem C145_value_refuted : forall (v : binary32) p, exists m m', bytes m /\ bytes m' /\ holds32 m p v /\ holds32 m' p v /\
  (bpow radix2 1009 <= real64 (into_f64 m p))%R /\ (real64 (into_f64 m' p) <= - bpow radix2 1009)%R.
Proof.
  intros v p. pose proof (bits32_range v) as Hv.
  assert (K : forall s : bool, exists m, bytes m /\ holds32 m p v /\ load 4 m (p + 4) = (if s then 2147483648 else 0) + 2130706432).
  { intros s. set (x := bits_of_b32 v + 4294967296 * ((if s : bool then 2147483648 else 0) + 2130706432)).
    assert (X : 0 <= x < 256 ^ Z.of_nat 8) by (change (256 ^ Z.of_nat 8) with (4294967296 * 4294967296); unfold x; destruct s; lia).
    exists (written p x). pose proof (written_bytes p x) as B. split; [exact B|].
    pose proof (load_written 8 x p X) as E. rewrite load_words in E.
    pose proof (load_range _ B 4 p) as R0. change (256 ^ Z.of_nat 4) with 4294967296 in R0. unfold holds32, x in *. destruct s; lia. }
  destruct (K false) as (m & B & H & L). destruct (K true) as (m' & B' & H' & L').
  exists m, m'. split; [exact B|]. split; [exact B'|]. split; [exact H|]. split; [exact H'|]. split.
  - destruct (large_word m p false B L) as (Fd & Sg & A). assert (Nz : real64 (into_f64 m p) <> 0%R).
    { intros Z0. rewrite Z0, Rabs_R0 in A. pose proof (bpow_gt_0 radix2 1009). lra. }
    destruct (sign_real _ _ _ Fd Nz) as [P _]. specialize (P Sg). unfold real64 in *. rewrite Rabs_pos_eq in A by lra. exact A.
  - destruct (large_word m' p true B' L') as (Fd & Sg & A). assert (Nz : real64 (into_f64 m' p) <> 0%R).
    { intros Z0. rewrite Z0, Rabs_R0 in A. pose proof (bpow_gt_0 radix2 1009). lra. }
    destruct (sign_real _ _ _ Fd Nz) as [_ P]. specialize (P Sg). unfold real64 in *. rewrite Rabs_left in A by exact P. lra.
Qed.
Print Assumptions C145_value_refuted.

(** The default search of two components: powers from -2 to 1. *)
Definition minus_two : binary32 := b32_of_bits 3221225472.
Definition plus_one : binary32 := b32_of_bits 1065353216.
Definition two_bounds : memory :=
  written 0 (3221225472 + 4294967296 * 1065353216 + 18446744073709551616 * (3221225472 + 4294967296 * 1065353216)).
Example C145_example : bytes two_bounds /\ pairs32 two_bounds 0 [(minus_two, plus_one); (minus_two, plus_one)] /\
  finite32 minus_two /\ finite32 plus_one /\ real32 minus_two = (-2)%R /\ real32 plus_one = 1%R /\
  exists lo up, nth_error (bounds_values 4 two_bounds 0 2) 0 = Some (lo, up) /\ (real64 up < real64 lo)%R.
Proof.
  assert (B : bytes two_bounds) by apply written_bytes.
  assert (P : pairs32 two_bounds 0 [(minus_two, plus_one); (minus_two, plus_one)]).
  { intros [|[|[|[|i]]]] v E; cbn [nth_error map concat fst snd app] in E; [injection E as <-..|destruct i; discriminate]; vm_compute; reflexivity. }
  assert (M : real32 minus_two = (-2)%R).
  { replace (real32 minus_two) with (F2R (Float radix2 (-8388608) (-22))); [|reflexivity]. unfold F2R. cbn [Fnum Fexp bpow]. change (Z.pow_pos radix2 22) with 4194304. lra. }
  assert (O : real32 plus_one = 1%R).
  { replace (real32 plus_one) with (F2R (Float radix2 8388608 (-23))); [|reflexivity]. unfold F2R. cbn [Fnum Fexp bpow]. change (Z.pow_pos radix2 23) with 8388608. lra. }
  split; [exact B|]. split; [exact P|]. split; [reflexivity|]. split; [reflexivity|]. split; [exact M|]. split; [exact O|].
  apply (C145_bounds_refuted two_bounds 0 [(minus_two, plus_one); (minus_two, plus_one)] 0 (minus_two, plus_one) (minus_two, plus_one) B P);
    try reflexivity. cbn [fst snd]. rewrite M, O. lra.
Qed.
