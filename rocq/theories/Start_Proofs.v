From Coq Require Import Reals Lra Lia List Arith Bool ZArith Permutation Sorted.
From Verif Require Import Util Doe_Model Doe_Real Coego_Model Start_Model Start_Spec.
Import ListNotations.
Local Open Scope nat_scope.

Lemma pair_indices_in n i j : In (i, j) (pair_indices n) <-> j < i < n.
Proof.
  unfold pair_indices. rewrite in_flat_map. split.
  - intros (i' & H1 & H2). apply in_seq in H1. apply in_map_iff in H2. destruct H2 as (j' & E & H2). apply in_seq in H2.
    injection E as <- <-. lia.
  - intros H. exists i. split; [apply in_seq; lia|]. apply in_map_iff. exists j. split; [reflexivity|]. apply in_seq. lia.
Qed.
Section Generic.
  Context {A : Type} (ar : arith A) (sm : list A -> A).
  Notation insert := (insert ar). Notation sort_pairs := (sort_pairs ar).

  Lemma insert_perm p l : Permutation (p :: l) (insert p l).
  Proof.
    induction l as [|q l IH]; [reflexivity|]. cbn [Start_Model.insert]. destruct (ltb ar (snd p) (snd q)); [reflexivity|].
    etransitivity; [apply perm_swap|]. now constructor.
  Qed.
  Lemma sort_perm l : Permutation l (sort_pairs l).
  Proof.
    unfold sort_pairs. assert (H : forall l acc, Permutation (l ++ acc) (fold_left (fun acc p => insert p acc) l acc)).
    { clear l. induction l as [|p l IH]; intros acc; [reflexivity|]. cbn [fold_left app].
      etransitivity; [|apply IH]. rewrite Permutation_middle. apply Permutation_app_head. apply insert_perm. }
    specialize (H l []). now rewrite app_nil_r in H.
  Qed.

  (** What the loop guarantees about the points added to [xstart]: each has generators among [l], in the order of [l]. *)
  Definition good x xr (before : list (list A)) (p : nat * nat * A) (q : list A) : Prop :=
    let i := fst (fst p) in let j := snd (fst p) in
    let d := dist ar sm xr (nth i x []) q in
    q = middle ar (nth i x []) (nth j x []) /\
    (forall k, k < length x -> k <> i -> k <> j -> ltb ar (dist ar sm xr (nth k x []) q) d = false) /\
    (forall s, In s before -> ltb ar (dist ar sm xr s q) d = false).

  Fixpoint goods x xr before (ps : list (nat * nat * A)) (qs : list (list A)) : Prop :=
    match ps, qs with
    | [], [] => True
    | p :: ps', q :: qs' => good x xr before p q /\ goods x xr (before ++ [q]) ps' qs'
    | _, _ => False
    end.
  Inductive subseq {B} : list B -> list B -> Prop :=
  | sub_nil l : subseq [] l
  | sub_take x l l' : subseq l l' -> subseq (x :: l) (x :: l')
  | sub_skip x l l' : subseq l l' -> subseq l (x :: l').

  Lemma no_sample_spec x xr i j q d : no_sample_closer ar sm x xr i j q d = true ->
    forall k, k < length x -> k <> i -> k <> j -> ltb ar (dist ar sm xr (nth k x []) q) d = false.
  Proof.
    intros H k K I J. unfold no_sample_closer in H. rewrite forallb_forall in H. specialize (H k ltac:(apply in_seq; lia)).
    apply Nat.eqb_neq in I. apply Nat.eqb_neq in J. rewrite I, J in H. cbn [orb] in H. now apply negb_true_iff in H.
  Qed.
  Lemma no_sample_spec_false x xr i j q d : no_sample_closer ar sm x xr i j q d = false ->
    exists k, k < length x /\ k <> i /\ k <> j /\ ltb ar (dist ar sm xr (nth k x []) q) d = true.
  Proof.
    intros H. unfold no_sample_closer in H. apply not_true_iff_false in H. rewrite forallb_forall in H.
    destruct (existsb (fun k => negb ((k =? i) || (k =? j) || negb (ltb ar (dist ar sm xr (nth k x []) q) d))) (seq 0 (length x))) eqn:E.
    - apply existsb_exists in E. destruct E as (k & K & E). apply in_seq in K. apply negb_true_iff in E.
      apply orb_false_iff in E. destruct E as (E & E3). apply orb_false_iff in E. destruct E as (E1 & E2).
      apply Nat.eqb_neq in E1. apply Nat.eqb_neq in E2. apply negb_false_iff in E3. exists k. repeat split; trivial; lia.
    - exfalso. apply H. intros k K. apply not_true_iff_false in E. rewrite existsb_exists in E.
      destruct (_ || _)%bool eqn:F; trivial. exfalso. apply E. exists k. now rewrite F.
  Qed.
  Lemma no_start_spec s xr q d : no_start_closer ar sm s xr q d = true -> forall p, In p s -> ltb ar (dist ar sm xr p q) d = false.
  Proof. intros H p P. unfold no_start_closer in H. rewrite forallb_forall in H. specialize (H p P). now apply negb_true_iff in H. Qed.
  Lemma no_start_spec_false s xr q d : no_start_closer ar sm s xr q d = false -> exists p, In p s /\ ltb ar (dist ar sm xr p q) d = true.
  Proof.
    intros H. induction s as [|p s IH]; [discriminate|]. cbn [no_start_closer forallb] in H. apply andb_false_iff in H.
    destruct H as [H|H]; [apply negb_false_iff in H; exists p; split; [now left|exact H]|].
    destruct (IH H) as (p' & P1 & P2). exists p'. split; [now right|exact P2].
  Qed.

  Lemma pick_spec x xr m l s : exists ps qs, pick ar sm x xr m l s = s ++ qs /\ subseq ps l /\ goods x xr s ps qs.
  Proof.
    revert s. induction l as [|((i, j), d0) l IH]; intros s.
    - exists [], []. cbn. rewrite app_nil_r. repeat split; constructor.
    - cbn [pick]. set (q := middle ar (nth i x []) (nth j x [])). set (d := dist ar sm xr (nth i x []) q).
      destruct (no_sample_closer ar sm x xr i j q d && no_start_closer ar sm s xr q d)%bool eqn:G.
      + apply andb_true_iff in G. destruct G as (G1 & G2).
        assert (Gd : good x xr s (i, j, d0) q).
        { split; [reflexivity|]. split; [exact (no_sample_spec _ _ _ _ _ _ G1)|exact (no_start_spec _ _ _ _ G2)]. }
        assert (K : exists ps qs, pick ar sm x xr m l (s ++ [q]) = (s ++ [q]) ++ qs /\ subseq ps l /\ goods x xr (s ++ [q]) ps qs) by apply IH.
        destruct K as (ps & qs & K1 & K2 & K3).
        destruct m as [m|]; [destruct (m <=? length (s ++ [q])) eqn:Lm|].
        * exists [(i, j, d0)], [q]. split; [reflexivity|]. split; [constructor; constructor|]. cbn. auto.
        * exists ((i, j, d0) :: ps), (q :: qs). rewrite K1, <- app_assoc. split; [reflexivity|]. split; [now constructor|]. cbn. auto.
        * exists ((i, j, d0) :: ps), (q :: qs). rewrite K1, <- app_assoc. split; [reflexivity|]. split; [now constructor|]. cbn. auto.
      + assert (K : exists ps qs, pick ar sm x xr m l s = s ++ qs /\ subseq ps l /\ goods x xr s ps qs) by apply IH.
        destruct K as (ps & qs & K1 & K2 & K3).
        destruct m as [m|]; [destruct (m <=? length s) eqn:Lm|].
        * exists [], []. rewrite app_nil_r. split; [reflexivity|]. split; [constructor|exact I].
        * exists ps, qs. repeat split; trivial. now constructor.
        * exists ps, qs. repeat split; trivial. now constructor.
  Qed.
  Lemma pick_length x xr m l s : length s < m -> length (pick ar sm x xr (Some m) l s) <= m.
  Proof.
    revert s. induction l as [|((i, j), d0) l IH]; intros s L1; [cbn; lia|]. cbn [pick].
    set (q := middle ar (nth i x []) (nth j x [])). set (d := dist ar sm xr (nth i x []) q).
    destruct (no_sample_closer ar sm x xr i j q d && no_start_closer ar sm s xr q d)%bool.
    - destruct (m <=? length (s ++ [q])) eqn:Lm.
      + rewrite app_length. cbn [length]. lia.
      + apply IH. now apply Nat.leb_gt in Lm.
    - destruct (m <=? length s) eqn:Lm; [lia|]. now apply IH.
  Qed.
  Lemma pick_zero x xr l s : length (pick ar sm x xr (Some 0) l s) <= S (length s).
  Proof.
    destruct l as [|((i, j), d0) l]; [cbn; lia|]. cbn [pick].
    destruct (_ && _)%bool; cbn [Nat.leb]; [rewrite app_length; cbn [length]; lia|lia].
  Qed.
  Lemma pick_incl x xr m l s p : In p s -> In p (pick ar sm x xr m l s).
  Proof. intros H. destruct (pick_spec x xr m l s) as (ps & qs & E & _). rewrite E. apply in_or_app. now left. Qed.

  Definition full (m : option nat) (s : list (list A)) : Prop := match m with Some k => length s < k | None => True end.
  Lemma pick_complete x xr m l s i j d0 : full m (pick ar sm x xr m l s) -> In (i, j, d0) l ->
    let q := middle ar (nth i x []) (nth j x []) in let d := dist ar sm xr (nth i x []) q in
    In q (pick ar sm x xr m l s) \/
    (exists k, k < length x /\ k <> i /\ k <> j /\ ltb ar (dist ar sm xr (nth k x []) q) d = true) \/
    (exists p, In p (pick ar sm x xr m l s) /\ ltb ar (dist ar sm xr p q) d = true).
  Proof.
    revert s. induction l as [|((i', j'), d') l IH]; intros s F Hin; [destruct Hin|destruct Hin as [E|H]].
    - injection E as -> -> ->. cbv zeta. cbn [pick] in F |- *. set (q := middle ar (nth i x []) (nth j x [])) in *.
      set (d := dist ar sm xr (nth i x []) q) in *.
      destruct (no_sample_closer ar sm x xr i j q d) eqn:G1; [|right; left; exact (no_sample_spec_false _ _ _ _ _ _ G1)].
      destruct (no_start_closer ar sm s xr q d) eqn:G2.
      + left. cbn [andb] in F |- *. destruct m as [m|]; [destruct (m <=? length (s ++ [q]))|];
        [apply in_or_app; right; now left|apply pick_incl, in_or_app; right; now left|apply pick_incl, in_or_app; right; now left].
      + right; right. cbn [andb] in F |- *. destruct (no_start_spec_false _ _ _ _ G2) as (p & P1 & P2). exists p. split; [|exact P2].
        destruct m as [m|]; [destruct (m <=? length s)|]; trivial; now apply pick_incl.
    - cbn [pick] in F |- *. set (q' := middle ar (nth i' x []) (nth j' x [])) in *.
      set (dd := dist ar sm xr (nth i' x []) q') in *.
      set (s' := if (no_sample_closer ar sm x xr i' j' q' dd && no_start_closer ar sm s xr q' dd)%bool then s ++ [q'] else s) in *.
      destruct m as [m|]; [|now apply IH]. destruct (m <=? length s') eqn:Lm; [|now apply IH].
      apply Nat.leb_le in Lm. cbn in F. lia.
  Qed.

  Lemma subseq_in {B} (l l' : list B) x : subseq l l' -> In x l -> In x l'.
  Proof. induction 1; intros H1; [destruct H1|destruct H1 as [->|H1]; [now left|right; auto]|right; auto]. Qed.
  Lemma subseq_length {B} (l l' : list B) : subseq l l' -> length l <= length l'.
  Proof. induction 1; cbn; lia. Qed.
  Lemma goods_nth x xr before ps qs t q : goods x xr before ps qs -> nth_error qs t = Some q ->
    exists p, nth_error ps t = Some p /\ good x xr (before ++ firstn t qs) p q.
  Proof.
    revert before qs t. induction ps as [|p ps IH]; intros before [|q0 qs] t G H; try (now destruct G); [now destruct t|].
    destruct G as (G1 & G2). destruct t as [|t].
    - cbn in H. injection H as ->. exists p. split; [reflexivity|]. cbn [firstn]. now rewrite app_nil_r.
    - cbn in H. destruct (IH _ _ _ G2 H) as (p' & P1 & P2). exists p'. split; [exact P1|]. cbn [firstn].
      rewrite <- app_assoc in P2. exact P2.
  Qed.
  Lemma goods_length x xr before ps qs : goods x xr before ps qs -> length ps = length qs.
  Proof. revert before qs. induction ps as [|p ps IH]; intros before [|q qs] G; try (now destruct G). cbn. f_equal. destruct G. eauto. Qed.
End Generic.

(** Sorted lists: in exact arithmetic. *)
Local Notation RA := R_arith.
Definition le_key (p q : nat * nat * R) : Prop := (snd p <= snd q)%R.
Lemma insert_sorted p l : StronglySorted le_key l -> StronglySorted le_key (insert RA p l).
Proof.
  induction 1 as [|q l S IH F]; [repeat constructor|]. cbn [insert ltb R_arith]. destruct (Rlt_dec (snd p) (snd q)) as [L|L].
  - constructor; [now constructor|]. constructor; [unfold le_key; lra|]. eapply Forall_impl; [|exact F]. unfold le_key. intros; lra.
  - constructor; [exact IH|]. apply Forall_forall. intros r Hr.
    apply (Permutation_in _ (Permutation_sym (insert_perm RA p l))) in Hr. destruct Hr as [<-|Hr]; [unfold le_key; lra|].
    rewrite Forall_forall in F. now apply F.
Qed.
Lemma sort_sorted l : StronglySorted le_key (sort_pairs RA l).
Proof.
  unfold sort_pairs. assert (H : forall l acc, StronglySorted le_key acc -> StronglySorted le_key (fold_left (fun acc p => insert RA p acc) l acc)).
  { clear l. induction l as [|p l IH]; intros acc S; [exact S|]. cbn [fold_left]. apply IH. now apply insert_sorted. }
  apply H. constructor.
Qed.
Lemma subseq_sorted {B} (le : B -> B -> Prop) (l l' : list B) : subseq l l' -> StronglySorted le l' -> StronglySorted le l.
Proof.
  induction 1 as [l'|x l l' S IH|x l l' S IH]; intros H; [constructor|..]; inversion H as [|? ? H1 H2]; subst; [|now apply IH].
  constructor; [now apply IH|]. apply Forall_forall. intros y Y. rewrite Forall_forall in H2. apply H2. eapply subseq_in; eauto.
Qed.
Lemma sorted_nth {B} (le : B -> B -> Prop) (l : list B) s t a b : StronglySorted le l -> s < t -> nth_error l s = Some a ->
  nth_error l t = Some b -> le a b.
Proof.
  intros S. revert s t. induction S as [|x l S IH F]; intros s t L H1 H2; [destruct s; discriminate|].
  destruct t as [|t]; [lia|]. cbn in H2. destruct s as [|s].
  - cbn in H1. injection H1 as ->. rewrite Forall_forall in F. apply F. eapply nth_error_In; eauto.
  - cbn in H1. apply (IH s t); trivial. lia.
Qed.

(** Distances of the code and of the specification. *)
Lemma dist_R box a b : length a = length box -> length b = length box ->
  dist RA (sum RA) (range RA (map fst box) (map snd box)) a b = distance box a b.
Proof.
  intros La Lb. unfold dist, distance. cbn [sqrt R_arith]. f_equal. rewrite sum_R.
  revert a b La Lb. induction box as [|(l, u) box IH]; intros [|v a] [|w b] La Lb; try discriminate; [reflexivity|].
  cbn in La, Lb. injection La as La. injection Lb as Lb. specialize (IH a b La Lb).
  unfold range, map2 in *. cbn [map combine fst snd fold_right square_distance R_arith sub div mul] in *. rewrite IH. reflexivity.
Qed.
Lemma middle_R a b : length a = length b -> is_middle a b (middle RA a b).
Proof.
  intros L. split.
  - unfold middle, map2. rewrite !map_length, combine_length. lia.
  - revert b L. induction a as [|u a IH]; intros [|v b] L c u' v' H1 H2; try (destruct c; discriminate).
    destruct c as [|c]; cbn in H1, H2 |- *; [congruence|]. apply IH; trivial. now injection L.
Qed.
Lemma middle_length a b : length a = length b -> length (middle RA a b) = length a.
Proof. intros L. unfold middle, map2. rewrite !map_length, combine_length. lia. Qed.
Lemma middle_same_distance box a b : length a = length box -> length b = length box ->
  distance box a (middle RA a b) = distance box b (middle RA a b).
Proof.
  intros La Lb. unfold distance. f_equal. revert a b La Lb. induction box as [|(l, u) box IH]; intros [|v a] [|w b] La Lb; try discriminate; [reflexivity|].
  cbn in La, Lb. injection La as La. injection Lb as Lb. specialize (IH a b La Lb).
  change (middle RA (v :: a) (w :: b)) with ((v + w) / 2 :: middle RA a b)%R. cbn [square_distance]. rewrite IH. f_equal.
  replace (w - (v + w) / 2)%R with (- (v - (v + w) / 2))%R by lra. unfold Rdiv. rewrite <- Ropp_mult_distr_l. ring.
Qed.
Lemma middle_inside box a b : inside box a -> inside box b -> inside box (middle RA a b).
Proof.
  unfold inside. revert a b. induction box as [|l box IH]; intros a b Ha Hb; inversion Ha; inversion Hb; subst; [constructor|].
  match goal with |- Forall2 _ _ (middle RA (?v :: ?a') (?w :: ?b')) => change (middle RA (v :: a') (w :: b')) with ((v + w) / 2 :: middle RA a' b')%R end.
  constructor; [lra|]. now apply IH.
Qed.
Lemma inside_length box p : inside box p -> length p = length box.
Proof. induction 1; cbn; congruence. Qed.
