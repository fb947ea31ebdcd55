(** The optimized and maximin designs in real arithmetic. *)
From Coq Require Import Reals Lra ZArith List Bool Arith Lia Permutation.
From Verif Require Import F64 Util Doe_Model Doe_Spec Doe_Generic Doe_Real.
Import ListNotations.
Local Open Scope nat_scope.
Local Notation RA := R_arith.

Lemma distinct_separated n nx x : shape n nx x -> 1 <= nx -> distinct_values x -> separated x.
Proof.
  intros (_ & Wd) N D i j a b Ne Hi Hj. rewrite Forall_forall in Wd.
  pose proof (Wd a (nth_error_In _ _ Hi)) as La. pose proof (Wd b (nth_error_In _ _ Hj)) as Lb.
  destruct (nth_error a 0) as [u|] eqn:Ua; [|apply nth_error_None in Ua; lia].
  destruct (nth_error b 0) as [v|] eqn:Vb; [|apply nth_error_None in Vb; lia].
  apply (sq_pos a b 0 u v Ua Vb). intros ->. apply Ne. apply (D i j 0 v); unfold at_; [rewrite Hi|rewrite Hj]; assumption.
Qed.

Lemma nth_error_lt {A} (l : list A) i : i < length l -> exists a, nth_error l i = Some a.
Proof. intros L. destruct (nth_error l i) eqn:E; [eauto|]. apply nth_error_None in E. lia. Qed.

Lemma rest_in {A} (x : list (list A)) i1 i2 b : In b (rest x i1 i2) -> In b x.
Proof.
  unfold rest. intros H. apply in_map_iff in H. destruct H as (p & <- & H). apply filter_In in H. destruct H as (H & _).
  destruct p as (n & b). apply in_combine_r in H. exact H.
Qed.

Lemma phip_swap_some {A} (ar : arith A) x k ph p i1 i2 n nx : shape n nx x -> k < nx -> i1 < n -> i2 < n ->
  exists y v, phip_swap ar x k ph p i1 i2 = Some (y, v).
Proof.
  intros (L & Wd) K I1 I2. unfold phip_swap, swap_entries. rewrite Forall_forall in Wd.
  destruct (nth_error_lt x i1 ltac:(lia)) as (r1 & E1). destruct (nth_error_lt x i2 ltac:(lia)) as (r2 & E2).
  rewrite E1, E2.
  destruct (nth_error_lt r1 k) as (v1 & V1); [rewrite (Wd r1 (nth_error_In _ _ E1)); lia|].
  destruct (nth_error_lt r2 k) as (v2 & V2); [rewrite (Wd r2 (nth_error_In _ _ E2)); lia|].
  rewrite V1, V2.
  rewrite (mapM_total _ (fun r => nth k r (ofZ ar 0))).
  - eauto.
  - intros b Hb. apply nth_error_nth'. rewrite (Wd b (rest_in _ _ _ _ Hb)). lia.
Qed.

Section Ese.
  Context (n nx : nat) (lhs : list (list R)).
  Hypothesis Sh : shape n nx lhs.
  Hypothesis Nx : 1 <= nx.
  Hypothesis Dv : distinct_values lhs.

  Definition good (s : @ese R) : Prop :=
    from lhs s /\ e_phip s = criterion (e_own s) /\ e_phip_best s = criterion (e_best s) /\
    (criterion (e_best s) <= criterion lhs)%R.

  Lemma columns_separated x : same_columns lhs x -> separated x.
  Proof.
    intros S. apply (distinct_separated n nx); [eapply shape_columns; eauto|assumption|]. eapply distinct_columns; eauto.
  Qed.

  Lemma inner_good i d s : good s -> fst d <> [] -> Forall (fun q => fst q < n /\ snd q < n /\ fst q <> snd q) (fst d) ->
    exists s', ese_inner RA nx i d s = Some s' /\ good s'.
  Proof.
    intros ((Fo & Fb) & Ep & Eb & Le) Ne Fd. pose proof (shape_columns n nx _ _ Fo Sh) as So.
    assert (M : exists l, mapM (fun q => phip_swap RA (e_own s) ((i + 1) mod nx) (e_phip s) (ofZ RA 10) (fst q) (snd q)) (fst d) = Some l
             /\ l <> [] /\ Forall (fun p => same_columns lhs (fst p) /\ snd p = criterion (fst p)) l).
    { clear - So Fo Ep Ne Fd Nx Sh Dv. induction (fst d) as [|q qs IH]; [congruence|]. inversion Fd as [|? ? (Q1 & Q2 & Q3) Fq]; subst. cbn [mapM].
      assert (K : (i + 1) mod nx < nx) by (apply Nat.mod_upper_bound; lia).
      destruct (phip_swap_some RA (e_own s) ((i + 1) mod nx) (e_phip s) (ofZ RA 10) (fst q) (snd q) n nx So K Q1 Q2) as (y & v & E).
      rewrite E. pose proof (phip_swap_columns RA _ _ _ _ _ _ _ _ E) as Cy.
      pose proof (same_columns_trans _ _ _ Fo Cy) as Ly.
      assert (Ev : v = criterion y).
      { apply (phip_swap_exact (e_own s) y ((i + 1) mod nx) (fst q) (snd q) (e_phip s) v nx); auto.
        - destruct So as (L & Wd). split; [reflexivity|exact Wd].
        - now apply columns_separated.
        - now apply columns_separated. }
      destruct qs as [|q' qs'].
      - cbn [mapM]. exists [(y, v)]. split; [reflexivity|]. split; [discriminate|]. constructor; [|constructor]. split; assumption.
      - destruct (IH ltac:(discriminate) Fq) as (l & El & Nl & Fl). rewrite El. exists ((y, v) :: l).
        split; [reflexivity|]. split; [discriminate|]. constructor; [|assumption]. split; assumption. }
    destruct M as (l & El & Nl & Fl). unfold ese_inner. rewrite El.
    assert (Am : exists k, argmin RA (map snd l) = Some k).
    { unfold argmin. replace (existsb (isnan RA) (map snd l)) with false.
      - apply argmin_by_some. destruct l; [congruence|discriminate].
      - clear. induction (map snd l); [reflexivity|]. simpl. exact IHl0. }
    destruct Am as (k & Ek). rewrite Ek.
    assert (Kl : k < length l).
    { unfold argmin in Ek. destruct (existsb _ _); [discriminate|]. apply argmin_by_bound in Ek. now rewrite map_length in Ek. }
    destruct (nth_error_lt l k Kl) as ((xt & pt) & En). rewrite En.
    rewrite Forall_forall in Fl. destruct (Fl _ (nth_error_In _ _ En)) as (Lx & Lp). cbn [fst snd] in Lx, Lp.
    destruct (leb RA _ _).
    - cbn [ltb R_arith]. destruct (Rlt_dec pt (e_phip_best s)) as [Lt|Nlt]; eexists; (split; [reflexivity|]); unfold good, from; cbn.
      + repeat split; auto. rewrite <- Lp. rewrite Eb in Lt. lra.
      + repeat split; auto.
    - exists s. split; [reflexivity|]. unfold good, from. tauto.
  Qed.

  Lemma inner_loop_good m : forall i draws s, good s ->
    (forall i, fst (draws i) <> [] /\ Forall (fun q => fst q < n /\ snd q < n /\ fst q <> snd q) (fst (draws i))) ->
    exists s', ese_inner_loop RA nx m i draws s = Some s' /\ good s'.
  Proof.
    induction m as [|m IH]; intros i draws s G V; cbn [ese_inner_loop].
    - eauto.
    - destruct (V i) as (V1 & V2). destruct (inner_good i (draws i) s G V1 V2) as (s1 & -> & G1). now apply IH.
  Qed.

  Lemma outer_loop_good m inner : forall o draws s, good s -> valid_pairs n draws ->
    exists s', ese_outer_loop RA nx inner m o draws s = Some s' /\ good s'.
  Proof.
    induction m as [|m IH]; intros o draws s G V; cbn [ese_outer_loop].
    - eauto.
    - unfold ese_outer.
      destruct (inner_loop_good inner 0 (draws o) (mk_ese (e_own s) (e_best s) (e_phip s) (e_phip_best s) (e_t s) 0 0) G (V o)) as (s1 & -> & G1).
      apply IH; [exact G1|exact V].
  Qed.

  Lemma maximin_ese_spec outer inner draws : valid_pairs n draws ->
    exists x, maximin_ese RA nx lhs outer inner draws = Some x /\ same_columns lhs x /\ (criterion x <= criterion lhs)%R.
  Proof.
    intros V. unfold maximin_ese.
    destruct (outer_loop_good outer inner 0 draws (ese_start RA lhs)) as (s & -> & G).
    - unfold good, from, ese_start. cbn [e_own e_best e_phip e_phip_best]. rewrite phip_R.
      repeat split; try apply same_columns_refl. apply Rle_refl.
    - exact V.
    - exists (e_best s). destruct G as ((_ & Fb) & _ & _ & Le). auto.
  Qed.
End Ese.

(** ** Maximin *)
Lemma min_of_R l m : min_of RA l = Some m -> In m l /\ forall v, In v l -> (m <= v)%R.
Proof.
  unfold min_of. destruct (argmin RA l) as [i|] eqn:E; [|discriminate]. intros H.
  unfold argmin in E. destruct (existsb _ _); [discriminate|].
  assert (T : forall a b : R, ltb RA a b = false <-> (b <= a)%R).
  { intros a b. cbn [ltb R_arith]. destruct (Rlt_dec a b); split; intros; try discriminate; try lra; reflexivity. }
  assert (T' : forall a b : R, ltb RA a b = true <-> (a < b)%R).
  { intros a b. cbn [ltb R_arith]. destruct (Rlt_dec a b); split; intros; try discriminate; try lra; reflexivity. }
  destruct (argmin_by_spec (ltb RA) (fun _ => True)
    ltac:(intros; apply T; lra)
    ltac:(intros a b c _ _ _ H1 H2; apply T' in H1, H2; apply T'; lra)
    ltac:(intros a b c _ _ _ H1 H2; apply T in H1, H2; apply T; lra) l i
    ltac:(now rewrite Forall_forall) E) as (m' & Hm & Min & _).
  assert (m' = m) by congruence. subst m'. split; [eapply nth_error_In; eauto|].
  intros v Hv. apply In_nth_error in Hv. destruct Hv as (j & Hj). apply T. eauto.
Qed.
Lemma min_of_some l : l <> [] -> exists m, min_of RA l = Some m.
Proof.
  intros N. unfold min_of, argmin. replace (existsb (isnan RA) l) with false.
  - destruct (argmin_by_some (ltb RA) l N) as (i & E). rewrite E. apply nth_error_lt. eapply argmin_by_bound; eauto.
  - clear. induction l; [reflexivity|]. simpl. exact IHl.
Qed.

Lemma pdist_in x v : In v (pdist RA x) <->
  exists i j a b, i < j /\ nth_error x i = Some a /\ nth_error x j = Some b /\ v = euclid a b.
Proof.
  induction x as [|r x IH]; cbn [pdist].
  - split; [intros []|]. intros (i & j & a & b & _ & H & _). now destruct i.
  - rewrite in_app_iff, IH. split.
    + intros [H|(i & j & a & b & L & Hi & Hj & E)].
      * apply in_map_iff in H. destruct H as (b & <- & Hb). apply In_nth_error in Hb. destruct Hb as (j & Hj).
        exists 0, (S j), r, b. rewrite dist_R. repeat split; auto. lia.
      * exists (S i), (S j), a, b. repeat split; auto. lia.
    + intros (i & j & a & b & L & Hi & Hj & E). destruct j as [|j]; [lia|]. destruct i as [|i].
      * left. injection Hi as <-. simpl in Hj. apply in_map_iff. exists b. rewrite dist_R. split; [auto|]. eapply nth_error_In; eauto.
      * right. exists i, j, a, b. repeat split; auto. lia.
Qed.

Lemma min_of_distance x d : min_of RA (pdist RA x) = Some d -> min_distance x d.
Proof.
  intros H. apply min_of_R in H. destruct H as (I & M). split.
  - intros i j a b L Hi Hj. apply M. apply pdist_in. exists i, j, a, b. auto.
  - apply pdist_in in I. exact I.
Qed.
Lemma min_distance_unique x d d' : min_distance x d -> min_distance x d' -> d = d'.
Proof.
  intros (A & (i & j & a & b & L & Hi & Hj & E)) (B & (i' & j' & a' & b' & L' & Hi' & Hj' & E')).
  pose proof (A i' j' a' b' L' Hi' Hj'). pose proof (B i j a b L Hi Hj). lra.
Qed.

Lemma maximin_loop_spec cands : forall best d x, min_of RA (pdist RA best) = Some d ->
  maximin_loop RA best d cands = Some x ->
  exists dx, min_of RA (pdist RA x) = Some dx /\ (d <= dx)%R /\
    forall c, In c cands -> exists dc, min_of RA (pdist RA c) = Some dc /\ (dc <= dx)%R.
Proof.
  induction cands as [|c cands IH]; intros best d x Hd H; cbn [maximin_loop] in H.
  - injection H as <-. exists d. split; [exact Hd|]. split; [apply Rle_refl|]. intros c [].
  - destruct (min_of RA (pdist RA c)) as [dc|] eqn:E; [|discriminate]. cbn [ltb R_arith] in H.
    destruct (Rlt_dec d dc) as [Lt|Ge].
    + destruct (IH c dc x E H) as (dx & Hx & Le & Al). exists dx. split; [exact Hx|]. split; [lra|].
      intros c' [<-|I]; [exists dc; auto|auto].
    + destruct (IH best d x Hd H) as (dx & Hx & Le & Al). exists dx. split; [exact Hx|]. split; [lra|].
      intros c' [<-|I]; [exists dc; split; [assumption|lra]|auto].
Qed.

Lemma maximin_of_spec first cands x : maximin_of RA first cands = Some x ->
  exists d, min_distance x d /\ forall c dc, In c (first :: cands) -> min_distance c dc -> (dc <= d)%R.
Proof.
  unfold maximin_of. destruct (min_of RA (pdist RA first)) as [d|] eqn:E; [|discriminate]. intros H.
  destruct (maximin_loop_spec cands first d x E H) as (dx & Hx & Le & Al). exists dx. split; [now apply min_of_distance|].
  intros c dc [<-|I] Hc.
  - rewrite (min_distance_unique _ _ _ Hc (min_of_distance _ _ E)). exact Le.
  - destruct (Al c I) as (dc' & Hc' & Le'). rewrite (min_distance_unique _ _ _ Hc (min_of_distance _ _ Hc')). exact Le'.
Qed.

Lemma pdist_some x : 2 <= length x -> pdist RA x <> [].
Proof. destruct x as [|a [|b x]]; simpl; intros H; try lia. discriminate. Qed.

Lemma maximin_of_some first cands : 2 <= length first -> Forall (fun c => 2 <= length c) cands ->
  exists x, maximin_of RA first cands = Some x.
Proof.
  intros L F. unfold maximin_of. destruct (min_of_some (pdist RA first) (pdist_some first L)) as (d & ->).
  clear L. revert first d. induction F as [|c cands Lc F IH]; intros first d; cbn [maximin_loop]; [eauto|].
  destruct (min_of_some (pdist RA c) (pdist_some c Lc)) as (dc & ->). destruct (ltb RA d dc); apply IH.
Qed.

(** One point: the rejection loop does not end, and the minimal distance does not exist. *)
Lemma other_row_one fuel draws i1 : i1 < 1 -> (forall k, draws k < 1) -> other_row fuel i1 draws = None.
Proof.
  intros I. revert draws. induction fuel as [|f IH]; intros draws D; cbn [other_row]; [reflexivity|].
  rewrite (proj2 (Nat.eqb_eq (draws 0) i1)) by (specialize (D 0); lia). apply IH. intros k. apply D.
Qed.
Lemma other_row_ends draws i1 k : draws k <> i1 -> exists fuel i2, other_row fuel i1 draws = Some i2 /\ i2 <> i1.
Proof.
  revert draws. induction k as [|k IH]; intros draws H.
  - exists 1, (draws 0). cbn [other_row]. now rewrite (proj2 (Nat.eqb_neq (draws 0) i1)) by assumption.
  - destruct (Nat.eq_dec (draws 0) i1) as [E|N].
    + destruct (IH (fun k => draws (S k)) H) as (f & i2 & E2 & N2). exists (S f), i2. cbn [other_row].
      now rewrite (proj2 (Nat.eqb_eq _ _) E).
    + exists 1, (draws 0). cbn [other_row]. now rewrite (proj2 (Nat.eqb_neq (draws 0) i1)) by assumption.
Qed.
