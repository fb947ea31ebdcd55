(** Specification and proofs for the automatic choice of the number of clusters ([Nbc_Model]). *)
From Coq Require Import Reals Lra.
From Coq Require Import List Arith Bool Lia Permutation.
From Flocq Require Import Core BinarySingleNaN.
From Verif Require Import F64 Util Moe_Model Nbc_Model.
Import ListNotations.

(** * Specification *)

(** A number of clusters can be retained when the clustering succeeds and, for each fold, a mixture is trained, each
    of the clusters holds more than three numbers, and both recombinations predict: some prediction is infinite or
    none is NaN. *)
Definition predicts (p : option (list f64)) : Prop :=
  exists v, p = Some v /\ ((exists a, In a v /\ (a = finf \/ a = fninf)) \/ (forall a, In a v -> fnan a = false)).
Definition possible (n : nat) (t : trial) : Prop :=
  exists folds, t = Some folds /\ folds <> [] /\
    forall f, In f folds -> exists m, fd_fit f = Some m /\
      (forall k, In k (firstn n (ft_clusters m)) -> 3 < k) /\ predicts (ft_hard m) /\ predicts (ft_smooth m).

(** Error of a fold for a recombination: 1 when predictions cannot be used, otherwise the sum of the absolute errors,
    relative to the sum of the absolute outputs for the hard recombination. *)
Definition score (sum : list f64 -> f64) (r : recombination) (f : fold) : f64 :=
  match fd_fit f with
  | None => fone
  | Some m =>
      match (match r with Hard => ft_hard m | Smooth _ => ft_smooth m end) with
      | None => fone
      | Some p =>
          if forallb is_finite p then
            let e := sum (map (fun c => fabs (fsub (fst c) (snd c))) (combine p (fd_actual f))) in
            match r with Hard => fdiv e (sum (map fabs (fd_actual f))) | Smooth _ => e end
          else fone
      end
  end.

(** Median of an odd number of values. *)
Definition middle (l : list f64) (m : f64) : Prop :=
  In m l /\ length l < 2 * length (filter (fun x => fle x m) l) /\ length l < 2 * length (filter (fun x => fle m x) l).

(** Cross-validation error of a number of clusters. *)
Definition cv_error (sum : list f64 -> f64) (r : recombination) (t : trial) (e : f64) : Prop :=
  exists folds, t = Some folds /\ middle (map (score sum r) folds) e.

(** * Proofs *)
Lemma forallb_app_in {A} (p : A -> bool) l : forallb p l = true <-> forall x, In x l -> p x = true.
Proof. apply forallb_forall. Qed.

Lemma existsb_false {A} (p : A -> bool) l : existsb p l = false <-> forall x, In x l -> p x = false.
Proof.
  split.
  - intros H x Hx. destruct (p x) eqn:E; auto.
    assert (X : existsb p l = true) by (apply existsb_exists; eauto). congruence.
  - intros H. destruct (existsb p l) eqn:E; auto. apply existsb_exists in E as (x & Hx & E).
    rewrite (H x Hx) in E. discriminate E.
Qed.

Lemma finfinite_spec a : finfinite a = true <-> a = finf \/ a = fninf.
Proof.
  unfold finfinite. destruct a as [s|s| |s m e H]; simpl.
  - split; [intro X; discriminate X|intros [X|X]; discriminate X].
  - destruct s; split; auto.
  - split; [intro X; discriminate X|intros [X|X]; discriminate X].
  - split; [intro X|intros [X|X]; discriminate X].
    exfalso. revert X. unfold feq, fabs, finf. simpl. intro X; discriminate X.
Qed.

Lemma finite_iff a : is_finite a = negb (finfinite a) && negb (fnan a).
Proof.
  destruct a as [s|s| |s m e H]; try destruct s; reflexivity.
Qed.

Lemma finite_all p : forallb is_finite p = negb (existsb finfinite p) && negb (existsb fnan p).
Proof.
  induction p as [|a p IH]; auto. simpl. rewrite IH, finite_iff.
  destruct (finfinite a), (fnan a), (existsb finfinite p), (existsb fnan p); reflexivity.
Qed.

Lemma predicts_iff p : predicts p <->
  match p with None => False | Some v => existsb finfinite v = true \/ existsb fnan v = false end.
Proof.
  unfold predicts. destruct p as [v|].
  - split.
    + intros (w & Hw & [(a & Ha & E)|Hn]); injection Hw as <-.
      * left. apply existsb_exists. exists a. split; auto. now apply finfinite_spec.
      * right. now apply existsb_false.
    + intros [H|H]; exists v; split; auto.
      * left. apply existsb_exists in H as (a & Ha & E). exists a. split; auto. now apply finfinite_spec.
      * right. now apply existsb_false.
  - split; [intros (w & Hw & _); discriminate Hw|tauto].
Qed.

Section P.
  Context (sum : list f64 -> f64).

  Lemma hard_error_ok p a : snd (hard_error sum p a) = true <-> predicts p.
  Proof.
    rewrite predicts_iff. destruct p as [v|]; simpl; [|split; [intro X; discriminate X|tauto]].
    destruct (existsb finfinite v); simpl; [tauto|]. destruct (existsb fnan v); simpl; split; auto; try intros [X|X]; try discriminate; auto.
  Qed.
  Lemma smooth_error_ok p a : snd (smooth_error sum p a) = true <-> predicts p.
  Proof.
    rewrite predicts_iff. destruct p as [v|]; simpl; [|split; [intro X; discriminate X|tauto]].
    destruct (existsb finfinite v); simpl; [tauto|]. destruct (existsb fnan v); simpl; split; auto; try intros [X|X]; try discriminate; auto.
  Qed.

  Lemma run_fold_score n f : fst (run_fold sum n f) = (score sum Hard f, score sum (Smooth None) f).
  Proof.
    unfold run_fold, score. destruct (fd_fit f) as [m|]; auto.
    assert (Hh : fst (hard_error sum (ft_hard m) (fd_actual f)) =
                 match ft_hard m with None => fone | Some p => if forallb is_finite p then
                   fdiv (abs_error sum p (fd_actual f)) (sum (map fabs (fd_actual f))) else fone end).
    { unfold hard_error. destruct (ft_hard m) as [p|]; auto. rewrite finite_all.
      destruct (existsb finfinite p); auto. destruct (existsb fnan p); auto. }
    assert (Hs : fst (smooth_error sum (ft_smooth m) (fd_actual f)) =
                 match ft_smooth m with None => fone | Some p => if forallb is_finite p then
                   abs_error sum p (fd_actual f) else fone end).
    { unfold smooth_error. destruct (ft_smooth m) as [p|]; auto. rewrite finite_all.
      destruct (existsb finfinite p); auto. destruct (existsb fnan p); auto. }
    destruct (hard_error sum (ft_hard m) (fd_actual f)) as [h okh].
    destruct (smooth_error sum (ft_smooth m) (fd_actual f)) as [s oks].
    cbn [fst snd] in *. now rewrite Hh, Hs.
  Qed.

  Lemma run_fold_ok n f : snd (run_fold sum n f) = true <->
    exists m, fd_fit f = Some m /\ (forall k, In k (firstn n (ft_clusters m)) -> 3 < k) /\
      predicts (ft_hard m) /\ predicts (ft_smooth m).
  Proof.
    unfold run_fold. destruct (fd_fit f) as [m|].
    - pose proof (hard_error_ok (ft_hard m) (fd_actual f)) as Hh.
      pose proof (smooth_error_ok (ft_smooth m) (fd_actual f)) as Hs.
      destruct (hard_error sum (ft_hard m) (fd_actual f)) as [h okh].
      destruct (smooth_error sum (ft_smooth m) (fd_actual f)) as [s oks].
      cbn [fst snd] in *. rewrite !andb_true_iff, forallb_forall, Hh, Hs. split.
      + intros [[H1 H2] H3]. exists m. repeat split; auto. intros k Hk. now apply Nat.ltb_lt, H1.
      + intros (m' & E & H1 & H2 & H3). injection E as <-. repeat split; auto. intros k Hk. now apply Nat.ltb_lt, H1.
    - cbn [snd]. split; [intro X; discriminate X|intros (m & E & _); discriminate E].
  Qed.

  Definition scores r (t : trial) : list f64 := match t with None => [] | Some fs => map (score sum r) fs end.

  Lemma run_trial_errs n t : run_trial sum n t = (scores Hard t, scores (Smooth None) t, snd (run_trial sum n t)).
  Proof.
    destruct t as [fs|]; auto. cbn [run_trial scores snd]. rewrite !map_map. f_equal. f_equal.
    - apply map_ext. intros f. now rewrite run_fold_score.
    - apply map_ext. intros f. now rewrite run_fold_score.
  Qed.

  Lemma scores_length r t : length (scores r t) = match t with None => 0 | Some fs => length fs end.
  Proof. destruct t; auto. simpl. now rewrite map_length. Qed.

  Definition okb n t : bool :=
    snd (run_trial sum n t) && negb (length (scores (Smooth None) t) =? 0) && negb (length (scores Hard t) =? 0).

  Lemma okb_possible n t : okb n t = true <-> possible n t.
  Proof.
    unfold okb, possible. rewrite !scores_length. destruct t as [fs|].
    - cbn [run_trial snd]. rewrite !andb_true_iff, !negb_true_iff, !Nat.eqb_neq, forallb_forall. split.
      + intros [[H1 H2] _]. exists fs. split; auto. split; [intros ->; now apply H2|].
        intros f Hf. apply (run_fold_ok n f), H1. now apply in_map.
      + intros (fs' & E & H1 & H2). injection E as <-.
        assert (length fs <> 0) by (destruct fs; [congruence|simpl; lia]). repeat split; auto.
        intros x Hx. apply in_map_iff in Hx as (f & <- & Hf). now apply run_fold_ok, H2.
    - cbn. split; [intro X; discriminate X|intros (fs & E & _); discriminate E].
  Qed.

  Lemma nth_app_last {A} (l : list A) a d k : k < length l + 1 -> nth k (l ++ [a]) d = if k <? length l then nth k l d else a.
  Proof.
    intros H. destruct (k <? length l) eqn:E.
    - apply Nat.ltb_lt in E. now rewrite app_nth1.
    - apply Nat.ltb_ge in E. rewrite app_nth2 by auto. now replace (k - length l) with 0 by lia.
  Qed.

  Record inv (trials : nat -> trial) (i : nat) (mh ms : list f64) (oks : list nat) : Prop := {
    i_lh : length mh = i; i_ls : length ms = i;
    i_h : forall k, k < i -> median (scores Hard (trials (k + 1))) = Some (nth k mh fNaN);
    i_s : forall k, k < i -> median (scores (Smooth None) (trials (k + 1))) = Some (nth k ms fNaN);
    i_ok : oks = filter (fun k => okb (k + 1) (trials (k + 1))) (seq 0 i) }.

  Lemma search_inv trials k i mh ms oks mh' ms' oks' :
    inv trials i mh ms oks -> search sum trials k i mh ms oks = Some (mh', ms', oks') ->
    exists t, i <= t <= i + k /\ inv trials t mh' ms' oks' /\
      (t = i + k \/ (5 <= t /\ increasing (t - 1) mh' ms' = true)).
  Proof.
    revert i mh ms oks. induction k as [|k IH]; intros i mh ms oks Hi H.
    - simpl in H. injection H as <- <- <-. exists i. split; [lia|]. split; auto.
    - cbn [search] in H. rewrite run_trial_errs in H.
      destruct (median (scores (Smooth None) (trials (i + 1)))) as [es|] eqn:Es; [|discriminate H].
      destruct (median (scores Hard (trials (i + 1)))) as [eh|] eqn:Eh; [|discriminate H].
      fold (okb (i + 1) (trials (i + 1))) in H.
      assert (Hi' : inv trials (i + 1) (mh ++ [eh]) (ms ++ [es]) (if okb (i + 1) (trials (i + 1)) then oks ++ [i] else oks)).
      { destruct Hi as [H1 H2 H3 H4 H5]. constructor.
        - rewrite app_length. simpl. lia.
        - rewrite app_length. simpl. lia.
        - intros j Hj. rewrite nth_app_last by lia. destruct (j <? length mh) eqn:E.
          + apply H3. apply Nat.ltb_lt in E. lia.
          + apply Nat.ltb_ge in E. now replace j with i by lia.
        - intros j Hj. rewrite nth_app_last by lia. destruct (j <? length ms) eqn:E.
          + apply H4. apply Nat.ltb_lt in E. lia.
          + apply Nat.ltb_ge in E. now replace j with i by lia.
        - replace (i + 1) with (S i) at 3 by lia. rewrite seq_S, filter_app, <- H5. simpl.
          destruct (okb (i + 1) (trials (i + 1))); auto. now rewrite app_nil_r. }
      destruct ((3 <? i) && increasing i (mh ++ [eh]) (ms ++ [es])) eqn:Est.
      + injection H as <- <- <-. apply andb_true_iff in Est as [E1 E2]. apply Nat.ltb_lt in E1.
        exists (i + 1). split; [lia|]. split; auto. right. split; [lia|]. now replace (i + 1 - 1) with i by lia.
      + destruct (IH _ _ _ _ Hi' H) as (t & Ht & Hinv & Hs). exists t. split; [lia|]. split; auto.
        destruct Hs as [->|Hs]; [left; lia|right; auto].
  Qed.

  Lemma inv0 trials : inv trials 0 [] [] [].
  Proof. constructor; auto; intros k Hk; lia. Qed.

  (** ** The smallest error *)
  Lemma pick_spec errs oks b m : fnan m = false -> (forall k, In k oks -> fnan (nth k errs fNaN) = false) ->
    let p := pick errs b m oks in
    exists m', fnan m' = false /\ fle m' m = true /\ (forall k, In k oks -> fle m' (nth k errs fNaN) = true) /\
      ((p = b /\ m' = m) \/ (exists k, In k oks /\ p = k + 1 /\ m' = nth k errs fNaN)).
  Proof.
    cbv zeta. unfold pick. revert b m. induction oks as [|k oks IH]; intros b m Hm Hk.
    - exists m. split; auto. split; [now apply fle_ord; auto; lra|]. split; [intros k []|left; auto].
    - assert (Hek : fnan (nth k errs fNaN) = false) by (apply Hk; left; auto).
      cbn [fold_left]. unfold fgt. destruct (flt (nth k errs fNaN) m) eqn:E.
      + destruct (IH (k + 1) (nth k errs fNaN) Hek (fun j Hj => Hk j (or_intror Hj))) as (m' & A & B & C & D).
        exists m'. split; auto. apply (flt_ord _ _ Hek Hm) in E. pose proof (proj1 (fle_ord _ _ A Hek) B) as B'.
        split; [apply fle_ord; auto; lra|]. split.
        * intros j [<-|Hj]; auto.
        * destruct D as [[D1 D2]|(j & D1 & D2 & D3)].
          -- right. exists k. split; [left; auto|]. auto.
          -- right. exists j. split; [right; auto|]. auto.
      + destruct (IH b m Hm (fun j Hj => Hk j (or_intror Hj))) as (m' & A & B & C & D).
        exists m'. split; auto. split; auto. pose proof (proj1 (flt_ordF _ _ Hek Hm) E) as E'.
        pose proof (proj1 (fle_ord _ _ A Hm) B) as B'. split.
        * intros j [<-|Hj]; auto. apply fle_ord; auto. lra.
        * destruct D as [D|(j & D1 & D2 & D3)]; [left; auto|]. right. exists j. split; [right; auto|]. auto.
  Qed.
End P.

(** ** Medians *)
Section Median.
  Definition fbefore (x y : f64) : Prop := fle x y = true.

  Lemma insert_in {A} (lt : A -> A -> bool) a l x : In x (insert_by lt a l) <-> a = x \/ In x l.
  Proof.
    split; intros H.
    - apply (Permutation_in x (Permutation_sym (insert_by_perm lt a l))) in H. exact H.
    - apply (Permutation_in x (insert_by_perm lt a l)). exact H.
  Qed.

  Lemma finsert_sorted a l : fnan a = false -> (forall x, In x l -> fnan x = false) ->
    ForallOrdPairs fbefore l -> ForallOrdPairs fbefore (insert_by flt a l).
  Proof.
    induction l as [|b l IH]; intros Ha Hl Hs; cbn [insert_by].
    - constructor; constructor.
    - assert (Hb : fnan b = false) by (apply Hl; left; auto).
      inversion Hs as [|? ? Hb1 Hb2]; subst.
      destruct (flt b a) eqn:E.
      + constructor; auto.
        * apply Forall_forall. intros x Hx. apply insert_in in Hx as [<-|Hx].
          -- apply fle_ord; auto. apply flt_ord in E; auto. lra.
          -- rewrite Forall_forall in Hb1. auto.
        * apply IH; auto. intros x Hx. apply Hl. right. auto.
      + constructor; auto. constructor.
        * apply fle_ord; auto. apply flt_ordF in E; auto.
        * rewrite Forall_forall in *. intros x Hx. assert (Hxn : fnan x = false) by (apply Hl; right; auto).
          apply fle_ord; auto. apply flt_ordF in E; auto. pose proof (proj1 (fle_ord _ _ Hb Hxn) (Hb1 x Hx)). lra.
  Qed.

  Lemma fsort_sorted l : (forall x, In x l -> fnan x = false) -> ForallOrdPairs fbefore (isort_by flt l).
  Proof.
    induction l as [|a l IH]; intros H; cbn [isort_by]; [constructor|].
    apply finsert_sorted; [apply H; left; auto| |apply IH; intros; apply H; right; auto].
    intros x Hx. apply H. right. apply (Permutation_in x (Permutation_sym (isort_by_perm flt l))); auto.
  Qed.

  Lemma filter_perm_length {A} (p : A -> bool) l l' : Permutation l l' -> length (filter p l) = length (filter p l').
  Proof.
    induction 1; simpl; auto.
    - destruct (p x); simpl; auto.
    - destruct (p x), (p y); simpl; auto.
    - congruence.
  Qed.
  Lemma filter_all {A} (p : A -> bool) l : (forall x, In x l -> p x = true) -> filter p l = l.
  Proof.
    induction l as [|a l IH]; intros H; auto. simpl. rewrite (H a (or_introl eq_refl)). f_equal. apply IH.
    intros x Hx. apply H. right. auto.
  Qed.
  Lemma filter_length_le {A} (p : A -> bool) l : length (filter p l) <= length l.
  Proof. induction l as [|a l IH]; auto. simpl. destruct (p a); simpl; lia. Qed.

  Lemma ordpairs_app {A} (r : A -> A -> Prop) l l' : ForallOrdPairs r (l ++ l') -> forall a b, In a l -> In b l' -> r a b.
  Proof.
    induction l as [|c l IH]; intros H a b Ha Hb; [destruct Ha|]. simpl in H. inversion H as [|? ? H1 H2]; subst.
    destruct Ha as [<-|Ha]; [|apply IH; auto]. rewrite Forall_forall in H1. apply H1, in_or_app. auto.
  Qed.

  Lemma sorted_middle s m k : (forall x, In x s -> fnan x = false) -> ForallOrdPairs fbefore s ->
    length s = 2 * k + 1 -> nth_error s k = Some m -> middle s m.
  Proof.
    intros Hn Hs Hl Hm. destruct (nth_error_split s k Hm) as (l1 & l2 & E & E1). subst s.
    assert (Hmm : fnan m = false) by (apply Hn, in_or_app; right; left; auto).
    assert (Hrefl : fle m m = true) by (apply fle_ord; auto; lra).
    rewrite app_length in Hl. simpl in Hl. unfold middle. rewrite !filter_app, !app_length. cbn [filter length].
    rewrite Hrefl. cbn [length]. split; [apply in_or_app; right; left; auto|].
    split.
    - rewrite (filter_all _ l1); [lia|]. intros x Hx. apply (ordpairs_app _ _ _ Hs x m Hx). left. auto.
    - rewrite (filter_all _ l2); [lia|]. intros x Hx.
      replace (l1 ++ m :: l2) with ((l1 ++ [m]) ++ l2) in Hs by (rewrite <- app_assoc; auto).
      apply (ordpairs_app _ _ _ Hs m x); auto. apply in_or_app. right. left. auto.
  Qed.

  Lemma middle_perm l l' m : Permutation l l' -> middle l m -> middle l' m.
  Proof.
    intros P (H1 & H2 & H3). unfold middle. rewrite <- (Permutation_length P), <- !(filter_perm_length _ _ _ P).
    split; auto. apply (Permutation_in m P H1).
  Qed.

  Lemma median_odd l m k : length l = 2 * k + 1 -> 0 < k -> median l = Some m ->
    middle l m /\ (forall x, In x l -> fnan x = false).
  Proof.
    intros Hl Hk H. unfold median in H. replace (1 <? length l) with true in H by (symmetry; apply Nat.ltb_lt; lia).
    rewrite andb_true_r in H. destruct (existsb fnan l) eqn:E; [discriminate H|].
    pose proof (proj1 (existsb_false fnan l) E) as Hn. split; [|auto].
    pose proof (isort_by_perm flt l) as P. rewrite <- (Permutation_length P), Hl in H.
    replace (Nat.even (2 * k + 1)) with false in H.
    2: { symmetry. rewrite Nat.even_add, Nat.even_mul. reflexivity. }
    replace ((2 * k + 1) / 2) with k in H by (apply Nat.div_unique with 1; lia).
    apply (middle_perm (isort_by flt l)); [now apply Permutation_sym|].
    apply (sorted_middle _ _ k); auto.
    - intros x Hx. apply Hn, (Permutation_in x (Permutation_sym P) Hx).
    - now apply fsort_sorted.
    - now rewrite <- (Permutation_length P).
  Qed.

  Lemma median_odd_some l k : length l = 2 * k + 1 -> (forall x, In x l -> fnan x = false) -> exists m, median l = Some m.
  Proof.
    intros Hl Hn. unfold median. rewrite (proj2 (existsb_false fnan l) Hn). cbn [andb].
    pose proof (isort_by_perm flt l) as P. rewrite <- (Permutation_length P), Hl.
    replace (Nat.even (2 * k + 1)) with false.
    2: { symmetry. rewrite Nat.even_add, Nat.even_mul. reflexivity. }
    replace ((2 * k + 1) / 2) with k by (apply Nat.div_unique with 1; lia).
    destruct (nth_error (isort_by flt l) k) as [m|] eqn:E; [eauto|].
    apply nth_error_None in E. rewrite <- (Permutation_length P) in E. lia.
  Qed.

  Lemma filters_meet {A} (p q : A -> bool) l : length l < length (filter p l) + length (filter q l) ->
    exists x, In x l /\ p x = true /\ q x = true.
  Proof.
    induction l as [|a l IH]; simpl; [lia|]. intros H. destruct (p a) eqn:Ep, (q a) eqn:Eq; simpl in H.
    - exists a. auto.
    - destruct IH as (x & Hx & X); [lia|]. exists x. auto.
    - destruct IH as (x & Hx & X); [lia|]. exists x. auto.
    - destruct IH as (x & Hx & X); [lia|]. exists x. auto.
  Qed.

  Lemma middle_le l a b : (forall x, In x l -> fnan x = false) -> middle l a -> middle l b -> fle a b = true.
  Proof.
    intros Hn (Ha & _ & Ha2) (Hb & Hb1 & _).
    destruct (filters_meet (fun x => fle a x) (fun x => fle x b) l) as (x & Hx & H1 & H2); [lia|].
    pose proof (Hn a Ha) as Na. pose proof (Hn b Hb) as Nb. pose proof (Hn x Hx) as Nx.
    apply fle_ord in H1; auto. apply fle_ord in H2; auto. apply fle_ord; auto. lra.
  Qed.
End Median.

(** ** The whole selection *)
Definition five_folds (t : trial) : Prop := forall folds, t = Some folds -> length folds = 5.

Lemma scores_odd sum r t m : five_folds t -> median (scores sum r t) = Some m ->
  cv_error sum r t m /\ (forall x, In x (scores sum r t) -> fnan x = false).
Proof.
  intros H5 Hm. destruct t as [fs|].
  - assert (Hl : length (scores sum r (Some fs)) = 2 * 2 + 1) by (rewrite scores_length; rewrite (H5 fs eq_refl); lia).
    destruct (median_odd _ _ 2 Hl ltac:(lia) Hm) as [A B]. split; auto. exists fs. auto.
  - discriminate Hm.
Qed.

Lemma cv_le sum r t a b : (forall x, In x (scores sum r t) -> fnan x = false) -> cv_error sum r t a -> cv_error sum r t b -> fle a b = true.
Proof.
  intros Hn (fs & -> & Ha) (fs' & E & Hb). injection E as <-. exact (middle_le _ _ _ Hn Ha Hb).
Qed.

Lemma cv_nan sum r t a : (forall x, In x (scores sum r t) -> fnan x = false) -> cv_error sum r t a -> fnan a = false.
Proof. intros Hn (fs & -> & Ha & _). apply Hn. exact Ha. Qed.

(** Both errors have not decreased from [n - 2] to [n - 1] clusters nor from [n - 1] to [n]. *)
Definition stops_at (sum : list f64 -> f64) (trials : nat -> trial) (n : nat) : Prop :=
  5 <= n /\ forall r a b c, cv_error sum r (trials (n - 2)) a -> cv_error sum r (trials (n - 1)) b ->
    cv_error sum r (trials n) c -> fle a b = true /\ fle b c = true.

Definition limit (nrows max_nb : nat) : nat := if max_nb =? 0 then nrows / 10 + 1 else max_nb.

Lemma smooth_scores sum o t : scores sum (Smooth o) t = scores sum (Smooth None) t.
Proof. destruct t; reflexivity. Qed.
Lemma smooth_cv sum o t e : cv_error sum (Smooth o) t e <-> cv_error sum (Smooth None) t e.
Proof. reflexivity. Qed.

Section Final.
  Context (sum : list f64 -> f64) (trials : nat -> trial) (H5 : forall k, five_folds (trials k)).

  Lemma fle_trans a b c : fle a b = true -> fle b c = true -> fle a c = true.
  Proof.
    intros H1 H2. destruct (fle_nan _ _ H1), (fle_nan _ _ H2). apply fle_ord in H1; auto. apply fle_ord in H2; auto.
    apply fle_ord; auto. lra.
  Qed.

  (** An entry of the tables of medians is the cross-validation error. *)
  Lemma table r t mh ms oks k : inv sum trials t mh ms oks -> k < t ->
    let e := nth k (match r with Hard => mh | Smooth _ => ms end) fNaN in
    cv_error sum r (trials (k + 1)) e /\ (forall x, In x (scores sum r (trials (k + 1))) -> fnan x = false).
  Proof.
    intros Hi Hk. cbv zeta. destruct r.
    - apply scores_odd; auto. apply (i_h _ _ _ _ _ _ Hi); auto.
    - rewrite smooth_scores. rewrite smooth_cv. apply scores_odd; auto. apply (i_s _ _ _ _ _ _ Hi); auto.
  Qed.

  Lemma increasing_stops t mh ms oks : inv sum trials t mh ms oks -> 5 <= t -> increasing (t - 1) mh ms = true ->
    stops_at sum trials t.
  Proof.
    intros Hi Ht H. split; auto. unfold increasing in H.
    apply andb_true_iff in H as [H A4]. apply andb_true_iff in H as [H A3]. apply andb_true_iff in H as [A1 A2].
    intros r a b c Ha Hb Hc.
    pose proof (table r t mh ms oks (t - 1 - 2) Hi ltac:(lia)) as [Ta Na].
    pose proof (table r t mh ms oks (t - 1 - 1) Hi ltac:(lia)) as [Tb Nb].
    pose proof (table r t mh ms oks (t - 1) Hi ltac:(lia)) as [Tc Nc].
    replace (t - 1 - 2 + 1) with (t - 2) in * by lia. replace (t - 1 - 1 + 1) with (t - 1) in * by lia.
    replace (t - 1 + 1) with t in * by lia.
    assert (E : fle (nth (t - 1 - 2) (match r with Hard => mh | Smooth _ => ms end) fNaN)
                    (nth (t - 1 - 1) (match r with Hard => mh | Smooth _ => ms end) fNaN) = true /\
                fle (nth (t - 1 - 1) (match r with Hard => mh | Smooth _ => ms end) fNaN)
                    (nth (t - 1) (match r with Hard => mh | Smooth _ => ms end) fNaN) = true) by (destruct r; auto).
    destruct E as [E1 E2]. split.
    - apply (fle_trans _ _ _ (cv_le _ _ _ _ _ Na Ha Ta)), (fle_trans _ _ _ E1), (cv_le _ _ _ _ _ Nb Tb Hb).
    - apply (fle_trans _ _ _ (cv_le _ _ _ _ _ Nb Hb Tb)), (fle_trans _ _ _ E2), (cv_le _ _ _ _ _ Nc Tc Hc).
  Qed.

  (** The best number of clusters for a recombination when one cluster is possible. *)
  Lemma pick_best r t mh ms oks : inv sum trials t mh ms (0 :: oks) ->
    let errs := match r with Hard => mh | Smooth _ => ms end in
    let p := pick errs 1 (nth 0 errs fNaN) (0 :: oks) in
    In (p - 1) (0 :: oks) /\ 1 <= p <= t /\
    (forall k, In k (0 :: oks) -> fle (nth (p - 1) errs fNaN) (nth k errs fNaN) = true).
  Proof.
    intros Hi. cbv zeta. set (errs := match r with Hard => mh | Smooth _ => ms end).
    assert (Hlt : forall k, In k (0 :: oks) -> k < t).
    { intros k Hk. rewrite (i_ok _ _ _ _ _ _ Hi) in Hk. apply filter_In in Hk as [Hk _]. apply in_seq in Hk. lia. }
    assert (Hn : forall k, In k (0 :: oks) -> fnan (nth k errs fNaN) = false).
    { intros k Hk. destruct (table r _ _ _ _ k Hi (Hlt k Hk)) as [A B]. exact (cv_nan _ _ _ _ B A). }
    destruct (pick_spec errs (0 :: oks) 1 (nth 0 errs fNaN) (Hn 0 (or_introl eq_refl)) Hn) as (m' & A & B & C & D).
    assert (Ht : 0 < t) by (apply Hlt; left; auto).
    destruct D as [[-> ->]|(k & Dk & -> & ->)].
    - cbn [Nat.sub]. split; [left; auto|]. split; [lia|]. exact C.
    - replace (k + 1 - 1) with k by lia. split; auto. split; [pose proof (Hlt k Dk); lia|]. exact C.
  Qed.

  Lemma ok_in t mh ms oks m : inv sum trials t mh ms oks -> 1 <= m <= t -> possible m (trials m) -> In (m - 1) oks.
  Proof.
    intros Hi Hm Hp. rewrite (i_ok _ _ _ _ _ _ Hi). apply filter_In. split; [apply in_seq; lia|].
    replace (m - 1 + 1) with m by lia. now apply okb_possible.
  Qed.

  Lemma selection nrows mx n r : possible 1 (trials 1) ->
    find_best_number_of_clusters sum nrows mx trials = Some (n, r) ->
    exists tried, (tried = limit nrows mx \/ (tried <= limit nrows mx /\ stops_at sum trials tried)) /\
      1 <= n <= tried /\ possible n (trials n) /\
      exists e, cv_error sum r (trials n) e /\
        forall m r' e', 1 <= m <= tried -> possible m (trials m) -> cv_error sum r' (trials m) e' -> fle e e' = true.
  Proof.
    intros Hp H. unfold find_best_number_of_clusters in H. fold (limit nrows mx) in H.
    destruct (search sum trials (limit nrows mx) 0 [] [] []) as [[[mh ms] oks]|] eqn:Es; [|discriminate H].
    destruct (search_inv _ _ _ _ _ _ _ _ _ _ (inv0 sum trials) Es) as (t & Ht & Hi & Hst).
    cbn [Nat.add] in Ht, Hst.
    assert (Hl : 1 <= limit nrows mx) by (unfold limit; destruct (mx =? 0) eqn:E; [lia|apply Nat.eqb_neq in E; lia]).
    assert (Ht1 : 1 <= t) by (destruct Hst; lia).
    exists t. split.
    { destruct Hst as [->|[A B]]; [left; auto|right]. split; [lia|]. exact (increasing_stops _ _ _ _ Hi A B). }
    assert (Hoks : exists oks', oks = 0 :: oks').
    { pose proof (i_ok _ _ _ _ _ _ Hi) as E. destruct t as [|t]; [lia|]. cbn [seq filter] in E.
      change (0 + 1) with 1 in E.
      rewrite (proj2 (okb_possible sum 1 (trials 1)) Hp) in E. eauto. }
    destruct Hoks as [oks' ->].
    pose proof (pick_best Hard t mh ms oks' Hi) as Bh. pose proof (pick_best (Smooth None) t mh ms oks' Hi) as Bs.
    cbv zeta in Bh, Bs. cbv iota in Bh, Bs.
    set (ph := pick mh 1 (nth 0 mh fNaN) (0 :: oks')) in *. set (ps := pick ms 1 (nth 0 ms fNaN) (0 :: oks')) in *.
    destruct Bh as (Bh1 & Bh2 & Bh3), Bs as (Bs1 & Bs2 & Bs3).
    pose proof (table Hard t _ _ _ (ph - 1) Hi ltac:(lia)) as [Th Nh].
    pose proof (table (Smooth None) t _ _ _ (ps - 1) Hi ltac:(lia)) as [Ts Ns].
    replace (ph - 1 + 1) with ph in Th, Nh by lia. replace (ps - 1 + 1) with ps in Ts, Ns by lia. cbv iota zeta in Th, Ts.
    pose proof (cv_nan _ _ _ _ Nh Th) as Xh. pose proof (cv_nan _ _ _ _ Ns Ts) as Xs.
    assert (Hposs : forall p, 1 <= p -> In (p - 1) (0 :: oks') -> possible p (trials p)).
    { intros p Hp1 Hin. rewrite (i_ok _ _ _ _ _ _ Hi) in Hin. apply filter_In in Hin as [_ Hin].
      replace (p - 1 + 1) with p in Hin by lia. now apply okb_possible in Hin. }
    assert (Hall : forall m r' e', 1 <= m <= t -> possible m (trials m) -> cv_error sum r' (trials m) e' ->
              fle (nth (match r' with Hard => ph | Smooth _ => ps end - 1) (match r' with Hard => mh | Smooth _ => ms end) fNaN) e' = true).
    { intros m r' e' Hm Hpm He. pose proof (ok_in _ _ _ _ m Hi Hm Hpm) as Hin.
      pose proof (table r' t _ _ _ (m - 1) Hi ltac:(lia)) as [Tm Nm]. replace (m - 1 + 1) with m in Tm, Nm by lia.
      pose proof (cv_le _ _ _ _ _ Nm Tm He) as Hle.
      destruct r'; cbv iota zeta in *; eapply fle_trans; eauto. }
    destruct (flt (nth (ph - 1) mh fNaN) (nth (ps - 1) ms fNaN)) eqn:Ec; injection H as <- <-.
    - split; [lia|]. split; [apply Hposs; auto; lia|]. exists (nth (ph - 1) mh fNaN). split; auto.
      intros m r' e' Hm Hpm He. pose proof (Hall m r' e' Hm Hpm He) as X. destruct r'; auto.
      apply (flt_ord _ _ Xh Xs) in Ec. eapply fle_trans; [|exact X]. apply fle_ord; auto. lra.
    - split; [lia|]. split; [apply Hposs; auto; lia|]. exists (nth (ps - 1) ms fNaN). split; auto.
      intros m r' e' Hm Hpm He. pose proof (Hall m r' e' Hm Hpm He) as X. destruct r'; auto.
      apply (flt_ordF _ _ Xh Xs) in Ec. eapply fle_trans; [|exact X]. apply fle_ord; auto.
  Qed.
End Final.

(** ** Range of the result, whatever the folds *)
Lemma pick_range errs oks b m t : 1 <= b <= t -> (forall k, In k oks -> k < t) -> 1 <= pick errs b m oks <= t.
Proof.
  unfold pick. revert b m. induction oks as [|k oks IH]; intros b m Hb Hk; cbn [fold_left]; auto.
  destruct (fgt m (nth k errs fNaN)).
  - apply IH; [pose proof (Hk k (or_introl eq_refl)); lia|]. intros j Hj. apply Hk. right. auto.
  - apply IH; auto. intros j Hj. apply Hk. right. auto.
Qed.

Lemma find_range sum nrows mx trials n r : find_best_number_of_clusters sum nrows mx trials = Some (n, r) ->
  1 <= n <= limit nrows mx /\ (r = Hard \/ r = Smooth None).
Proof.
  intros H. unfold find_best_number_of_clusters in H. fold (limit nrows mx) in H.
  destruct (search sum trials (limit nrows mx) 0 [] [] []) as [[[mh ms] oks]|] eqn:Es; [|discriminate H].
  destruct (search_inv _ _ _ _ _ _ _ _ _ _ (inv0 sum trials) Es) as (t & Ht & Hi & _).
  assert (Hl : 1 <= limit nrows mx) by (unfold limit; destruct (mx =? 0) eqn:E; [lia|apply Nat.eqb_neq in E; lia]).
  assert (Hlt : forall k, In k oks -> k < limit nrows mx).
  { intros k Hk. rewrite (i_ok _ _ _ _ _ _ Hi) in Hk. apply filter_In in Hk as [Hk _]. apply in_seq in Hk. lia. }
  destruct oks as [|k0 oks].
  - injection H as <- <-. split; [lia|auto].
  - destruct (flt _ _) in H; injection H as <- <-; (split; [apply pick_range; auto; lia|auto]).
Qed.

(** ** No panic *)
(** What is asked from a summation: on non-negative numbers it gives a non-negative number. *)
Definition sums (sum : list f64 -> f64) : Prop :=
  forall l, (forall x, In x l -> fnan x = false /\ fle fzero x = true) -> fnan (sum l) = false /\ fle fzero (sum l) = true.

Lemma fsub_finite_nan a b : is_finite a = true -> is_finite b = true -> fnan (fsub a b) = false.
Proof.
  intros Ha Hb. unfold fsub. pose proof (Bminus_correct 53 1024 _ _ mode_NE a b Ha Hb) as H.
  destruct (Rlt_bool _ _) in H.
  - destruct H as (_ & H & _). now apply finite_not_nan.
  - destruct H as (H & _). destruct (Bminus mode_NE a b) as [s|s| |s m e Hm]; auto.
    unfold binary_overflow in H. destruct (overflow_to_inf _ _) in H; discriminate H.
Qed.

Lemma fdiv_pos_nan a b : fnan a = false -> is_finite b = true -> flt fzero b = true -> fnan (fdiv a b) = false.
Proof.
  intros Ha Hb Hp. unfold fdiv. destruct b as [s|s| |s m e Hm]; try discriminate Hb; try discriminate Hp.
  destruct a as [s'|s'| |s' m' e' Hm']; auto; try discriminate Ha.
  pose proof (Bdiv_correct 53 1024 _ _ mode_NE (B754_finite s' m' e' Hm') (B754_finite s m e Hm)) as H.
  match type of H with ?P -> _ => assert (X : P) end.
  { simpl. intro E. apply eq_0_F2R in E. destruct s; discriminate E. }
  specialize (H X). destruct (Rlt_bool _ _) in H.
  - destruct H as (_ & H & _). apply finite_not_nan. rewrite H. reflexivity.
  - destruct (Bdiv mode_NE _ _) as [z|z| |z mz ez Hz]; auto. unfold binary_overflow in H. destruct (overflow_to_inf _ _) in H; discriminate H.
Qed.

Lemma fabs_nonneg a : fnan a = false -> fle fzero (fabs a) = true.
Proof.
  intros Ha. apply fle_ord; auto; [now rewrite fnan_fabs|]. rewrite ord_fabs, ord_fzero by auto. apply Rabs_pos.
Qed.

Lemma score_number sum r f : sums sum -> (forall a, In a (fd_actual f) -> is_finite a = true) ->
  is_finite (sum (map fabs (fd_actual f))) = true -> flt fzero (sum (map fabs (fd_actual f))) = true ->
  fnan (score sum r f) = false.
Proof.
  intros Hs Ha Hf Hp. unfold score. destruct (fd_fit f) as [m|]; auto.
  destruct (match r with Hard => ft_hard m | Smooth _ => ft_smooth m end) as [p|]; auto.
  destruct (forallb is_finite p) eqn:E; auto. rewrite forallb_forall in E.
  set (e := sum (map (fun c => fabs (fsub (fst c) (snd c))) (combine p (fd_actual f)))).
  assert (He : fnan e = false).
  { apply Hs. intros x Hx. apply in_map_iff in Hx as ([u v] & <- & Hin). cbn [fst snd].
    assert (X : fnan (fsub u v) = false).
    { apply fsub_finite_nan; [apply E|apply Ha]; [eapply in_combine_l|eapply in_combine_r]; eauto. }
    split; [now rewrite fnan_fabs|now apply fabs_nonneg]. }
  cbv zeta. destruct r; auto. now apply fdiv_pos_nan.
Qed.

Lemma search_some sum trials k i mh ms oks :
  (forall n r, i < n <= i + k -> exists m, median (scores sum r (trials n)) = Some m) ->
  exists x, search sum trials k i mh ms oks = Some x.
Proof.
  revert i mh ms oks. induction k as [|k IH]; intros i mh ms oks H; [simpl; eauto|].
  cbn [search]. rewrite run_trial_errs.
  destruct (H (i + 1) (Smooth None) ltac:(lia)) as [a ->]. destruct (H (i + 1) Hard ltac:(lia)) as [b ->].
  destruct ((3 <? i) && increasing _ _ _); [eauto|]. apply IH. intros n r Hn. apply H. lia.
Qed.

Lemma find_some sum nrows mx trials :
  (forall n r, 1 <= n <= limit nrows mx -> exists m, median (scores sum r (trials n)) = Some m) ->
  exists x, find_best_number_of_clusters sum nrows mx trials = Some x.
Proof.
  intros H. unfold find_best_number_of_clusters. fold (limit nrows mx).
  destruct (search_some sum trials (limit nrows mx) 0 [] [] []) as [[[mh ms] oks] ->].
  { intros n r Hn. apply H. lia. }
  destruct oks as [|k0 oks]; [eauto|]. destruct (flt _ _); eauto.
Qed.

Lemma sums_left : sums (fun l => fold_left fadd l fzero).
Proof.
  intros l H.
  enough (G : forall acc, fnan acc = false -> fle fzero acc = true ->
            fnan (fold_left fadd l acc) = false /\ fle fzero (fold_left fadd l acc) = true).
  { apply G; auto. }
  induction l as [|x l IH]; intros acc H1 H2; simpl; auto.
  destruct (H x (or_introl eq_refl)) as [Hx1 Hx2].
  apply fle_ord in H2; auto. apply fle_ord in Hx2; auto. rewrite ord_fzero in *.
  destruct (fadd_nonneg acc x H1 Hx1 H2 Hx2) as [A B].
  apply IH; auto.
  - intros y Hy. apply H. right. auto.
  - apply fle_ord; auto. rewrite ord_fzero. lra.
Qed.
