(** Designs in real arithmetic: sections, criterion, optimization. *)
From Coq Require Import Reals Lra ZArith List Bool Arith Lia Permutation.
From Verif Require Import F64 Util Doe_Model Doe_Spec Doe_Generic.
Import ListNotations.
Local Open Scope nat_scope.

Local Notation Rsum := (fold_right Rplus 0%R).
Local Notation RA := R_arith.

Lemma sum_R l : sum RA l = Rsum l.
Proof.
  unfold sum. cbn [ofZ add R_arith].
  assert (H : forall l a, fold_left Rplus l a = (a + Rsum l)%R).
  { clear. induction l as [|x l IH]; intros a; simpl; [lra|]. rewrite IH. lra. }
  rewrite H. simpl. lra.
Qed.

Lemma some_inj (A : Type) (a b : A) : Some a = Some b -> a = b.
Proof. congruence. Qed.

Lemma ofN_R n : ofN RA n = INR n.
Proof. unfold ofN. cbn [ofZ R_arith]. now rewrite <- INR_IZR_INZ. Qed.

(** ** Sections *)
Lemma linspace_R n i : 1 <= n -> i <= n -> nth_error (linspace RA (n + 1)) i = Some (INR i / INR n)%R.
Proof.
  intros N I. rewrite linspace_nth by lia.
  rewrite (proj2 (Nat.leb_gt (n + 1) 1)) by lia. replace (n + 1 - 1) with n by lia. rewrite !ofN_R.
  cbn [ofZ add mul div sub R_arith]. f_equal. field. apply not_0_INR. lia.
Qed.

Lemma in_section_unique n i i' v : 1 <= n -> in_section n i v -> in_section n i' v -> i = i'.
Proof.
  intros N (A1 & A2) (B1 & B2). assert (P : (0 < INR n)%R) by (apply lt_0_INR; lia).
  assert (Q : forall a b, (INR a / INR n < INR (S b) / INR n)%R -> a <= b).
  { intros a b H. apply Rmult_lt_reg_r in H; [|now apply Rinv_0_lt_compat]. apply INR_lt in H. lia. }
  assert (i <= i') by (apply Q; lra). assert (i' <= i) by (apply Q; lra). lia.
Qed.

Lemma columns_latin n nx x : 1 <= n -> columns_from n nx (in_section n) x -> latin n nx x.
Proof.
  intros N (Sh & H). split; [exact Sh|]. intros j J i I. destruct (H j J) as (c & L & P & HQ).
  pose proof (Permutation_sym P) as P'.
  apply Permutation_nth_error in P. destruct P as (Lp & f & Inj & E).
  apply Permutation_nth_error in P'. destruct P' as (_ & g & Injg & Eg).
  assert (Cc : exists v, nth_error c i = Some v).
  { destruct (nth_error c i) eqn:E'; [eauto|]. apply nth_error_None in E'. lia. }
  destruct Cc as (v & Hv). exists (f i). split.
  - exists v. split; [|now apply HQ]. apply at_col. rewrite <- E, nth_error_map, Hv. reflexivity.
  - intros r (w & Hw & Sw). apply at_col in Hw. rewrite Eg, nth_error_map in Hw.
    destruct (nth_error c (g r)) as [w'|] eqn:W; [|discriminate]. injection Hw as ->.
    pose proof (in_section_unique n _ _ _ N (HQ _ _ W) Sw) as G.
    (* row f i also comes from section i *)
    assert (F : nth_error (col j x) (f i) = Some (Some v)) by (rewrite <- E, nth_error_map, Hv; reflexivity).
    rewrite Eg, nth_error_map in F. destruct (nth_error c (g (f i))) as [v'|] eqn:V'; [|discriminate]. injection F as ->.
    pose proof (in_section_unique n _ _ _ N (HQ _ _ V') (HQ _ _ Hv)) as G'.
    apply Injg. congruence.
Qed.

Lemma classic_R n nx rnd sw : 1 <= n -> (forall j, j < nx -> unit_draws n (rnd j)) ->
  columns_from n nx (in_section n) (classic_lhs RA n nx rnd sw).
Proof.
  intros N D. apply classic_columns.
  - intros j J. apply (D j J).
  - intros j i u a b J I U (Ha & Hb). rewrite linspace_R in Ha, Hb by lia. apply some_inj in Ha, Hb. subst a b.
    destruct (D j J) as (_ & F). rewrite Forall_forall in F. pose proof (F u (nth_error_In _ _ U)) as (U0 & U1).
    cbn [add mul sub R_arith]. unfold in_section. rewrite S_INR.
    assert (P : (0 < / INR n)%R) by (apply Rinv_0_lt_compat, lt_0_INR; lia).
    unfold Rdiv. set (h := (/ INR n)%R) in *. set (k := INR i) in *.
    assert (Q0 : (0 <= u * h)%R) by (apply Rmult_le_pos; lra).
    assert (Q1 : (u * h < 1 * h)%R) by (apply Rmult_lt_compat_r; lra).
    replace (u * ((k + 1) * h - k * h) + k * h)%R with (k * h + u * h)%R by ring. split; lra.
Qed.

Lemma centered_R n nx sw : 1 <= n -> columns_from n nx (in_section n) (centered_lhs RA n nx sw).
Proof.
  intros N. apply centered_columns_from. intros i a b I (Ha & Hb).
  rewrite linspace_R in Ha, Hb by lia. apply some_inj in Ha, Hb. subst a b.
  cbn [add div ofZ R_arith]. unfold in_section. rewrite S_INR.
  assert (P : (0 < / INR n)%R) by (apply Rinv_0_lt_compat, lt_0_INR; lia).
  unfold Rdiv. set (h := (/ INR n)%R) in *. set (k := INR i) in *. split; lra.
Qed.

Lemma columns_distinct n nx x : 1 <= n -> columns_from n nx (in_section n) x -> distinct_values x.
Proof.
  intros N C i i' j v Hi Hi'. pose proof C as ((Ln & W) & H).
  assert (J : j < nx).
  { unfold at_ in Hi. destruct (nth_error x i) as [r|] eqn:E; [|discriminate].
    rewrite Forall_forall in W. rewrite <- (W r (nth_error_In _ _ E)). apply nth_error_Some. congruence. }
  destruct (H j J) as (c & L & P & HQ). apply Permutation_sym in P.
  apply Permutation_nth_error in P. destruct P as (_ & g & Injg & Eg).
  apply at_col in Hi, Hi'. rewrite Eg, nth_error_map in Hi, Hi'.
  destruct (nth_error c (g i)) as [w|] eqn:W1; [|discriminate]. destruct (nth_error c (g i')) as [w'|] eqn:W2; [|discriminate].
  injection Hi as ->. injection Hi' as ->. apply Injg. eapply in_section_unique; eauto.
Qed.

(** ** Distances *)
Local Notation sqd := (fun p : R * R => ((fst p - snd p) * (fst p - snd p))%R).
Definition sq (a b : list R) : R := Rsum (map sqd (combine a b)).

Lemma sq_dist_R a b : sq_dist RA a b = sq a b.
Proof. unfold sq_dist. rewrite sum_R. reflexivity. Qed.
Lemma dist_R a b : dist RA a b = euclid a b.
Proof. unfold dist. rewrite sq_dist_R. reflexivity. Qed.

Lemma sq_nonneg a b : (0 <= sq a b)%R.
Proof. unfold sq. generalize (combine a b). intros l. induction l as [|p l IH]; simpl; [lra|].
  pose proof (Rle_0_sqr (fst p - snd p)) as Q. unfold Rsqr in Q. lra. Qed.
Lemma sq_sym a b : sq a b = sq b a.
Proof.
  unfold sq. revert b. induction a as [|x a IH]; intros [|y b]; simpl; try reflexivity. rewrite IH. f_equal. ring.
Qed.
Lemma euclid_sym a b : euclid a b = euclid b a.
Proof. unfold euclid. change (R_sqrt.sqrt (sq a b) = R_sqrt.sqrt (sq b a)). now rewrite sq_sym. Qed.
Lemma sq_pos a b j u v : nth_error a j = Some u -> nth_error b j = Some v -> u <> v -> (0 < sq a b)%R.
Proof.
  unfold sq. revert b j. induction a as [|x a IH]; intros [|y b] [|j] Ha Hb D; simpl in *; try discriminate.
  - injection Ha as ->. injection Hb as ->. pose proof (sq_nonneg a b) as Q. unfold sq in Q.
    assert (0 < (u - v) * (u - v))%R by (apply Rsqr_pos_lt; lra). lra.
  - specialize (IH b j Ha Hb D). pose proof (Rle_0_sqr (x - y)) as Q. unfold Rsqr in Q. lra.
Qed.
Lemma euclid_pos a b : (0 < sq a b)%R -> (0 < euclid a b)%R.
Proof. intros H. unfold euclid. change (0 < R_sqrt.sqrt (sq a b))%R. now apply sqrt_lt_R0. Qed.
Lemma euclid_sq a b : (euclid a b * euclid a b = sq a b)%R.
Proof. unfold euclid. change (R_sqrt.sqrt (sq a b) * R_sqrt.sqrt (sq a b) = sq a b)%R. apply sqrt_sqrt, sq_nonneg. Qed.

Lemma sq_set a b k u v w : nth_error a k = Some u -> nth_error b k = Some v ->
  sq (set_nth k w a) b = (sq a b - (v - u) * (v - u) + (v - w) * (v - w))%R.
Proof.
  unfold sq. revert b k. induction a as [|x a IH]; intros [|y b] [|k] Ha Hb; simpl in *; try discriminate.
  - injection Ha as ->. injection Hb as ->. ring.
  - rewrite (IH b k Ha Hb). ring.
Qed.
Lemma sq_exchange a b k u v : nth_error a k = Some u -> nth_error b k = Some v ->
  sq (set_nth k v a) (set_nth k u b) = sq a b.
Proof.
  unfold sq. revert b k. induction a as [|x a IH]; intros [|y b] [|k] Ha Hb; simpl in *; try discriminate.
  - injection Ha as ->. injection Hb as ->. ring.
  - now rewrite (IH b k Ha Hb).
Qed.

(** ** The sum over pairs *)
Definition W (a b : list R) : R := Rpower (euclid a b) (-10).
Lemma pair_sum_cons a x : pair_sum (a :: x) = (Rsum (map (W a) x) + pair_sum x)%R.
Proof. reflexivity. Qed.
Lemma W_sym a b : W a b = W b a.
Proof. unfold W. now rewrite euclid_sym. Qed.
Lemma W_pos a b : (0 < W a b)%R.
Proof. unfold W, Rpower. apply exp_pos. Qed.

Lemma Rsum_perm l l' : Permutation l l' -> Rsum l = Rsum l'.
Proof. intros P. induction P; simpl; lra. Qed.
Lemma Rsum_app l l' : Rsum (l ++ l') = (Rsum l + Rsum l')%R.
Proof. induction l; simpl; lra. Qed.
Lemma pair_sum_perm x y : Permutation x y -> pair_sum x = pair_sum y.
Proof.
  intros P. induction P as [|a x y P IH|a b x|x y z P1 IH1 P2 IH2].
  - reflexivity.
  - rewrite !pair_sum_cons, IH. f_equal. apply Rsum_perm, Permutation_map, P.
  - rewrite !pair_sum_cons. cbn [map fold_right]. rewrite (W_sym a b). lra.
  - congruence.
Qed.
Lemma Rsum_nonneg l : Forall (fun v => 0 <= v)%R l -> (0 <= Rsum l)%R.
Proof. intros F. induction F; simpl; lra. Qed.
Lemma pair_sum_nonneg x : (0 <= pair_sum x)%R.
Proof.
  induction x as [|a x IH]; [simpl; lra|]. rewrite pair_sum_cons.
  assert (0 <= Rsum (map (W a) x))%R.
  { apply Rsum_nonneg. rewrite Forall_forall. intros v Hv. apply in_map_iff in Hv. destruct Hv as (b & <- & _).
    apply Rlt_le, W_pos. }
  lra.
Qed.
Lemma pair_sum_pos x : 2 <= length x -> (0 < pair_sum x)%R.
Proof.
  destruct x as [|a [|b x]]; simpl length; try lia. intros _. rewrite pair_sum_cons. cbn [map fold_right].
  pose proof (W_pos a b). pose proof (pair_sum_nonneg (b :: x)).
  assert (0 <= Rsum (map (W a) x))%R.
  { apply Rsum_nonneg. rewrite Forall_forall. intros v Hv. apply in_map_iff in Hv. destruct Hv as (c & <- & _).
    apply Rlt_le, W_pos. }
  lra.
Qed.

Lemma pdist_sum x : Rsum (map (fun v => Rpower v (-10)) (pdist RA x)) = pair_sum x.
Proof.
  induction x as [|a x IH]; [reflexivity|]. cbn [pdist]. rewrite map_app, Rsum_app, IH, pair_sum_cons. f_equal.
  rewrite map_map. f_equal. apply map_ext. intros b. now rewrite dist_R.
Qed.

Lemma phip_R x : phip RA x (ofZ RA 10) = criterion x.
Proof. unfold phip, criterion. rewrite sum_R. cbn [pow opp div ofZ R_arith]. rewrite pdist_sum. reflexivity. Qed.

(** ** The rows left apart by a swap *)
Lemma filter_filter {A} (f g : A -> bool) l : filter f (filter g l) = filter (fun x => g x && f x) l.
Proof. induction l as [|a l IH]; simpl; [reflexivity|]. destruct (g a); simpl; [destruct (f a)|]; now rewrite IH. Qed.

Lemma take_out {A} (L : list (nat * A)) i r : NoDup (map fst L) -> In (i, r) L ->
  Permutation L ((i, r) :: filter (fun p => negb (fst p =? i)) L).
Proof.
  intros N I. apply in_split in I. destruct I as (l1 & l2 & ->). rewrite map_app in N. cbn [map fst] in N.
  assert (K : forall l : list (nat * A), (forall p, In p l -> fst p <> i) -> filter (fun p => negb (fst p =? i)) l = l).
  { clear. induction l as [|p l IH]; intros H; simpl; [reflexivity|]. rewrite (proj2 (Nat.eqb_neq (fst p) i)) by (apply H; now left).
    simpl. rewrite IH; [reflexivity|]. intros q Hq. apply H. now right. }
  pose proof (NoDup_remove_2 _ _ _ N) as NI.
  assert (K1 : forall p, In p (l1 ++ l2) -> fst p <> i).
  { intros p Hp E. apply NI. rewrite <- map_app. subst i. now apply in_map. }
  rewrite filter_app. cbn [filter fst]. rewrite Nat.eqb_refl. cbn [negb].
  rewrite !K by (intros p Hp; apply K1; apply in_or_app; tauto). symmetry. apply Permutation_middle.
Qed.

Lemma filter_NoDup_fst {A} (f : nat * A -> bool) L : NoDup (map fst L) -> NoDup (map fst (filter f L)).
Proof.
  induction L as [|p L IH]; simpl; intros N; [constructor|]. inversion N as [|? ? N1 N2]; subst. destruct (f p); [|auto].
  simpl. constructor; [|auto]. intros I. apply N1. apply in_map_iff in I. destruct I as (q & E & I). rewrite <- E.
  apply in_map. apply filter_In in I. tauto.
Qed.

Lemma combine_seq_in {A} (x : list A) s i r : nth_error x i = Some r -> In (s + i, r) (combine (seq s (length x)) x).
Proof.
  revert s i. induction x as [|a x IH]; intros s [|i] H; simpl in *; try discriminate.
  - injection H as ->. left. now rewrite Nat.add_0_r.
  - right. replace (s + S i) with (S s + i) by lia. now apply IH.
Qed.
Lemma combine_seq_fst {A} (x : list A) s : map fst (combine (seq s (length x)) x) = seq s (length x).
Proof. revert s. induction x as [|a x IH]; intros s; simpl; [reflexivity|]. now rewrite IH. Qed.
Lemma combine_seq_snd {A} (x : list A) s : map snd (combine (seq s (length x)) x) = x.
Proof. revert s. induction x as [|a x IH]; intros s; simpl; [reflexivity|]. now rewrite IH. Qed.

Lemma rest_perm {A} (x : list (list A)) i1 i2 r1 r2 : i1 <> i2 -> nth_error x i1 = Some r1 -> nth_error x i2 = Some r2 ->
  Permutation x (r1 :: r2 :: rest x i1 i2).
Proof.
  intros D E1 E2. set (L := combine (seq 0 (length x)) x).
  assert (N : NoDup (map fst L)) by (unfold L; rewrite combine_seq_fst; apply seq_NoDup).
  assert (I1 : In (i1, r1) L) by (exact (combine_seq_in x 0 i1 r1 E1)).
  assert (I2 : In (i2, r2) L) by (exact (combine_seq_in x 0 i2 r2 E2)).
  pose proof (take_out L i1 r1 N I1) as P1.
  assert (I2' : In (i2, r2) (filter (fun p => negb (fst p =? i1)) L)).
  { apply filter_In. split; [exact I2|]. simpl. now rewrite (proj2 (Nat.eqb_neq i2 i1)) by auto. }
  pose proof (take_out _ i2 r2 (filter_NoDup_fst (fun p => negb (fst p =? i1)) L N) I2') as P2.
  rewrite P2 in P1. apply (Permutation_map snd) in P1. unfold L in P1 at 1. rewrite combine_seq_snd in P1.
  eapply Permutation_trans; [exact P1|]. cbn [map snd]. rewrite filter_filter. unfold rest. fold L.
  rewrite (filter_ext (fun p : nat * list A => negb ((fst p =? i1) || (fst p =? i2))) (fun p : nat * list A => negb (fst p =? i1) && negb (fst p =? i2))); [reflexivity|].
  intros p. apply negb_orb.
Qed.

Lemma rest_set {A} (x : list (list A)) i1 i2 i v : i = i1 \/ i = i2 -> rest (set_nth i v x) i1 i2 = rest x i1 i2.
Proof.
  intros D. unfold rest. rewrite set_nth_length. f_equal.
  assert (G : forall s i, s + i = i1 \/ s + i = i2 ->
    filter (fun p => negb ((fst p =? i1) || (fst p =? i2))) (combine (seq s (length x)) (set_nth i v x)) =
    filter (fun p => negb ((fst p =? i1) || (fst p =? i2))) (combine (seq s (length x)) x)).
  { clear. induction x as [|a x IH]; intros s [|i] D; simpl; try reflexivity.
    - rewrite Nat.add_0_r in D. assert (Q : (s =? i1) || (s =? i2) = true).
      { apply orb_true_iff. rewrite !Nat.eqb_eq. exact D. }
      now rewrite Q.
    - rewrite (IH (S s) i) by (destruct D; [left|right]; lia). reflexivity. }
  now apply (G 0 i).
Qed.

(** ** The incremental criterion *)
Definition separated (x : list (list R)) : Prop :=
  forall i j a b, i <> j -> nth_error x i = Some a -> nth_error x j = Some b -> (0 < sq a b)%R.

Lemma map2_map {A B C D} (F : B * C -> D) (g : A -> B) (h : A -> C) l :
  map F (combine (map g l) (map h l)) = map (fun a => F (g a, h a)) l.
Proof. induction l as [|a l IH]; simpl; [reflexivity|]. now rewrite IH. Qed.

Lemma Rpower_half s : (0 < s)%R -> forall d, d = (s * s)%R -> Rpower d (-(10) / 2) = Rpower s (-10).
Proof.
  intros P d ->. unfold Rpower. f_equal. rewrite ln_mult by assumption. lra.
Qed.

Lemma Rsum_sub {A} (f g : A -> R) l : Rsum (map (fun a => f a - g a)%R l) = (Rsum (map f l) - Rsum (map g l))%R.
Proof. induction l as [|a l IH]; simpl; [lra|]. rewrite IH. lra. Qed.

Lemma Rsum_ext {A} (f g : A -> R) l : (forall a, In a l -> f a = g a) -> Rsum (map f l) = Rsum (map g l).
Proof.
  induction l as [|a l IH]; intros H; simpl; [reflexivity|]. rewrite (H a) by now left. rewrite IH; [reflexivity|].
  intros b Hb. apply H. now right.
Qed.

Lemma mapM_total {A B} (f : A -> option B) (g : A -> B) l : (forall a, In a l -> f a = Some (g a)) -> mapM f l = Some (map g l).
Proof.
  induction l as [|a l IH]; intros H; simpl; [reflexivity|]. rewrite (H a) by now left. rewrite IH; [reflexivity|].
  intros b Hb. apply H. now right.
Qed.

Lemma separated_swap (x y : list (list R)) i1 i2 k : separated y -> swap_entries x i1 i2 k = Some y -> i1 <> i2 ->
  forall r1 r2 v1 v2, nth_error x i1 = Some r1 -> nth_error x i2 = Some r2 -> nth_error r1 k = Some v1 -> nth_error r2 k = Some v2 ->
  (forall b, In b (rest x i1 i2) -> (0 < sq (set_nth k v2 r1) b)%R /\ (0 < sq (set_nth k v1 r2) b)%R).
Proof.
  intros S H D r1 r2 v1 v2 E1 E2 V1 V2 b Hb. unfold swap_entries in H. rewrite E1, E2, V1, V2 in H. injection H as H.
  assert (L1 : i1 < length x) by (apply nth_error_Some; congruence).
  assert (L2 : i2 < length x) by (apply nth_error_Some; congruence).
  assert (Y1 : nth_error y i1 = Some (set_nth k v2 r1)) by (rewrite <- H; apply set_nth_eq; now rewrite set_nth_length).
  assert (Y2 : nth_error y i2 = Some (set_nth k v1 r2)) by (rewrite <- H, set_nth_neq by assumption; now apply set_nth_eq).
  unfold rest in Hb. apply in_map_iff in Hb. destruct Hb as ((i, b') & E & Hb). simpl in E. subst b'.
  apply filter_In in Hb. destruct Hb as (Hb & F). simpl in F. apply negb_true_iff, orb_false_iff in F. destruct F as (F1 & F2).
  apply Nat.eqb_neq in F1, F2.
  assert (Bi : nth_error x i = Some b).
  { clear - Hb. apply In_nth_error in Hb. destruct Hb as (n & Hn).
    assert (N : n < length x).
    { assert (n < length (combine (seq 0 (length x)) x)) by (apply nth_error_Some; congruence).
      rewrite combine_length, seq_length in H. lia. }
    assert (K : exists c, nth_error x n = Some c) by (destruct (nth_error x n) eqn:E; [eauto|apply nth_error_None in E; lia]).
    destruct K as (c & K).
    rewrite (nth_error_combine _ _ n n c) in Hn; [|now rewrite seq_nth_error|assumption]. congruence. }
  assert (Yi : nth_error y i = Some b) by (rewrite <- H, !set_nth_neq by auto; exact Bi).
  split; [apply (S i1 i _ _ ltac:(auto) Y1 Yi)|apply (S i2 i _ _ ltac:(auto) Y2 Yi)].
Qed.

Lemma phip_swap_exact x y k i1 i2 ph v nx : shape (length x) nx x -> k < nx -> i1 <> i2 -> separated x -> separated y ->
  ph = criterion x -> phip_swap RA x k ph (ofZ RA 10) i1 i2 = Some (y, v) -> v = criterion y.
Proof.
  intros (_ & Wd) K D Sx Sy -> H. unfold phip_swap in H.
  destruct (nth_error x i1) as [r1|] eqn:E1; [|discriminate]. destruct (nth_error x i2) as [r2|] eqn:E2; [|discriminate].
  destruct (nth_error r1 k) as [v1|] eqn:V1; [|discriminate]. destruct (nth_error r2 k) as [v2|] eqn:V2; [|discriminate].
  pose proof (rest_perm x i1 i2 r1 r2 D E1 E2) as Px.
  assert (Wr : forall b, In b (rest x i1 i2) -> nth_error b k = Some (nth k b 0%R)).
  { intros b Hb. apply nth_error_nth'. rewrite Forall_forall in Wd. rewrite (Wd b); [assumption|].
    apply (Permutation_in _ (Permutation_sym Px)). now do 2 right. }
  rewrite (mapM_total _ (fun b => nth k b 0%R) _ Wr) in H.
  destruct (swap_entries x i1 i2 k) as [x'|] eqn:SE; [|discriminate]. injection H as <- <-.
  pose proof (separated_swap x x' i1 i2 k Sy SE D r1 r2 v1 v2 E1 E2 V1 V2) as Pos.
  assert (Len : 2 <= length x).
  { apply Permutation_length in Px. simpl in Px. lia. }
  (* the new design *)
  assert (Py : pair_sum x' = (Rsum (map (W (set_nth k v2 r1)) (set_nth k v1 r2 :: rest x i1 i2)) +
                 (Rsum (map (W (set_nth k v1 r2)) (rest x i1 i2)) + pair_sum (rest x i1 i2)))%R).
  { unfold swap_entries in SE. rewrite E1, E2, V1, V2 in SE. injection SE as SE.
    assert (L1 : i1 < length x) by (apply nth_error_Some; congruence).
    assert (L2 : i2 < length x) by (apply nth_error_Some; congruence).
    rewrite (pair_sum_perm x' (set_nth k v2 r1 :: set_nth k v1 r2 :: rest x i1 i2)).
    - now rewrite !pair_sum_cons.
    - rewrite <- (rest_set x i1 i2 i2 (set_nth k v1 r2)) by now right.
      rewrite <- (rest_set (set_nth i2 (set_nth k v1 r2) x) i1 i2 i1 (set_nth k v2 r1)) by now left.
      rewrite SE. apply rest_perm; [exact D| |].
      + rewrite <- SE. apply set_nth_eq. now rewrite set_nth_length.
      + rewrite <- SE, set_nth_neq by assumption. now apply set_nth_eq. }
  assert (Psx : pair_sum x = (Rsum (map (W r1) (r2 :: rest x i1 i2)) +
                 (Rsum (map (W r2) (rest x i1 i2)) + pair_sum (rest x i1 i2)))%R).
  { rewrite (pair_sum_perm _ _ Px). now rewrite !pair_sum_cons. }
  assert (W12 : W (set_nth k v2 r1) (set_nth k v1 r2) = W r1 r2).
  { unfold W, euclid. fold (sq (set_nth k v2 r1) (set_nth k v1 r2)). fold (sq r1 r2). now rewrite sq_exchange. }
  unfold criterion at 2. cbn [pow add div ofZ R_arith]. f_equal.
  unfold criterion. rewrite Rpower_mult. replace (1 / 10 * 10)%R with 1%R by lra.
  rewrite Rpower_1 by (now apply pair_sum_pos).
  rewrite !sum_R. unfold cdist_row. rewrite !map_map. cbn [sub mul add opp R_arith]. rewrite !map2_map. cbn [fst snd].
  match goal with |- (_ + (?S1 + ?S2))%R = _ => set (s1 := S1); set (s2 := S2) end.
  assert (T1 : s1 = Rsum (map (fun b => W (set_nth k v2 r1) b - W r1 b)%R (rest x i1 i2))).
  { apply Rsum_ext. intros b Hb. rewrite !dist_R. unfold W. f_equal.
    destruct (Pos b Hb) as (P1 & _). apply Rpower_half; [now apply euclid_pos|].
    rewrite !euclid_sq. rewrite (sq_set r1 b k v1 (nth k b 0%R) v2 V1 (Wr b Hb)). ring. }
  assert (T2 : s2 = Rsum (map (fun b => W (set_nth k v1 r2) b - W r2 b)%R (rest x i1 i2))).
  { apply Rsum_ext. intros b Hb. rewrite !dist_R. unfold W. f_equal.
    destruct (Pos b Hb) as (_ & P2). apply Rpower_half; [now apply euclid_pos|].
    rewrite !euclid_sq. rewrite (sq_set r2 b k v2 (nth k b 0%R) v1 V2 (Wr b Hb)). ring. }
  rewrite T1, T2, !Rsum_sub, Py, Psx. cbn [map fold_right]. rewrite W12. lra.
Qed.
