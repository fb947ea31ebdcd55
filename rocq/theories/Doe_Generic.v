(** Structure of the designs, whatever the arithmetic. *)
From Coq Require Import Reals ZArith List Bool Arith Lia Permutation.
From Flocq Require Import IEEE754.BinarySingleNaN.
From Verif Require Import F64 Util Doe_Model Doe_Spec.
Import ListNotations.
Local Open Scope nat_scope.

Section Perm.
  Context {A : Type}.
  Lemma perm_set_head (l : list A) j a b : nth_error l j = Some b -> Permutation (b :: set_nth j a l) (a :: l).
  Proof.
    revert j. induction l as [|c l IH]; intros [|j] H; simpl in *; try discriminate.
    - injection H as <-. apply perm_swap.
    - rewrite perm_swap. rewrite (IH j H). apply perm_swap.
  Qed.
  Lemma perm_set_swap (l : list A) i j a b : nth_error l i = Some a -> nth_error l j = Some b ->
    Permutation (set_nth i b (set_nth j a l)) l.
  Proof.
    revert i j. induction l as [|c l IH]; intros [|i] [|j] Hi Hj; simpl in *; try discriminate.
    - injection Hi as <-. injection Hj as <-. reflexivity.
    - injection Hi as <-. now apply perm_set_head.
    - injection Hj as <-. now apply perm_set_head.
    - constructor. now apply IH.
  Qed.
  Lemma set_nth_same (l : list A) i a : nth_error l i = Some a -> set_nth i a l = l.
  Proof. revert i. induction l as [|c l IH]; intros [|i] H; simpl in *; try discriminate; [congruence|]. now rewrite IH. Qed.
  Lemma map_set_nth {B} (f : A -> B) l i v : map f (set_nth i v l) = set_nth i (f v) (map f l).
  Proof. revert i. induction l as [|c l IH]; intros [|i]; simpl; [reflexivity..|]. now rewrite IH. Qed.

  Lemma swap_perm i j (l : list A) : Permutation (swap i j l) l.
  Proof.
    unfold swap. destruct (nth_error l i) as [a|] eqn:Ei; [|reflexivity].
    destruct (nth_error l j) as [b|] eqn:Ej; [|reflexivity]. now apply perm_set_swap.
  Qed.
  Lemma shuffle_perm sw (l : list A) : Permutation (shuffle sw l) l.
  Proof.
    unfold shuffle. revert l. induction sw as [|p sw IH]; intros l; cbn [fold_left]; [reflexivity|].
    rewrite IH. apply swap_perm.
  Qed.
End Perm.

Section Columns.
  Context {A : Type}.
  Lemma same_columns_refl (x : list (list A)) : same_columns x x.
  Proof. intros j. reflexivity. Qed.
  Lemma same_columns_trans (x y z : list (list A)) : same_columns x y -> same_columns y z -> same_columns x z.
  Proof. intros H H' j. now rewrite (H j). Qed.
  Lemma col_length (x : list (list A)) j : length (col j x) = length x.
  Proof. unfold col. apply map_length. Qed.
  Lemma same_columns_length (x y : list (list A)) : same_columns x y -> length x = length y.
  Proof. intros H. specialize (H 0). apply Permutation_length in H. now rewrite !col_length in H. Qed.
  Lemma col_nth (x : list (list A)) j i : nth_error (col j x) i = option_map (fun r => nth_error r j) (nth_error x i).
  Proof. apply nth_error_map. Qed.
  Lemma at_col (x : list (list A)) i j v : at_ x i j = Some v <-> nth_error (col j x) i = Some (Some v).
  Proof. rewrite col_nth. unfold at_. destruct (nth_error x i); simpl; split; congruence. Qed.

  Lemma shape_columns n nx (x y : list (list A)) : same_columns x y -> shape n nx x -> shape n nx y.
  Proof.
    intros H (L & W). split; [rewrite <- L; symmetry; now apply same_columns_length|].
    rewrite Forall_forall in W |- *. intros r Hr.
    assert (E : forall j, In (nth_error r j) (col j y)) by (intros j; unfold col; apply in_map_iff; eauto).
    assert (F : forall j, exists r', In r' x /\ nth_error r' j = nth_error r j).
    { intros j. specialize (E j). apply (Permutation_in _ (Permutation_sym (H j))) in E. unfold col in E.
      apply in_map_iff in E. destruct E as (r' & E & I). eauto. }
    destruct (F nx) as (r1 & I1 & E1). specialize (W r1 I1) as W1. assert (Z : nth_error r1 nx = None) by (apply nth_error_None; lia).
    rewrite Z in E1. symmetry in E1. apply nth_error_None in E1.
    destruct nx as [|m]; [lia|]. destruct (F m) as (r2 & I2 & E2). specialize (W r2 I2).
    assert (Q : nth_error r2 m <> None) by (apply nth_error_Some; lia). rewrite E2 in Q. apply nth_error_Some in Q. lia.
  Qed.

  Lemma distinct_columns (x y : list (list A)) : same_columns x y -> distinct_values x -> distinct_values y.
  Proof.
    intros H D i i' j v Hi Hi'. apply at_col in Hi, Hi'.
    specialize (H j). apply Permutation_nth_error in H. destruct H as (L & f & Inj & E).
    rewrite E in Hi, Hi'. apply at_col in Hi, Hi'. apply Inj. exact (D _ _ _ _ Hi Hi').
  Qed.

  Lemma swap_entries_columns (x y : list (list A)) i1 i2 k : swap_entries x i1 i2 k = Some y -> same_columns x y.
  Proof.
    unfold swap_entries. destruct (nth_error x i1) as [r1|] eqn:E1; [|discriminate].
    destruct (nth_error x i2) as [r2|] eqn:E2; [|discriminate].
    destruct (nth_error r1 k) as [v1|] eqn:V1; [|discriminate]. destruct (nth_error r2 k) as [v2|] eqn:V2; [|discriminate].
    intros H. injection H as <-. intros j. unfold col. rewrite !map_set_nth.
    assert (C1 : nth_error (map (fun r => nth_error r j) x) i1 = Some (nth_error r1 j)) by (rewrite nth_error_map, E1; reflexivity).
    assert (C2 : nth_error (map (fun r => nth_error r j) x) i2 = Some (nth_error r2 j)) by (rewrite nth_error_map, E2; reflexivity).
    destruct (Nat.eq_dec k j) as [->|N].
    - rewrite !set_nth_eq by (apply nth_error_Some; congruence). rewrite V1 in C1. rewrite V2 in C2.
      symmetry. now apply perm_set_swap.
    - rewrite !set_nth_neq by assumption. rewrite (set_nth_same _ i2) by assumption. rewrite set_nth_same by assumption. reflexivity.
  Qed.

  Lemma swap_entries_exchanged (x y : list (list A)) i1 i2 k : i1 <> i2 -> swap_entries x i1 i2 k = Some y -> exchanged x i1 i2 k y.
  Proof.
    intros D. unfold swap_entries. destruct (nth_error x i1) as [r1|] eqn:E1; [|discriminate].
    destruct (nth_error x i2) as [r2|] eqn:E2; [|discriminate].
    destruct (nth_error r1 k) as [v1|] eqn:V1; [|discriminate]. destruct (nth_error r2 k) as [v2|] eqn:V2; [|discriminate].
    intros H. injection H as <-. split; [now rewrite !set_nth_length|]. intros i j. unfold at_.
    assert (L1 : i1 < length x) by (apply nth_error_Some; congruence).
    assert (L2 : i2 < length x) by (apply nth_error_Some; congruence).
    assert (K1 : k < length r1) by (apply nth_error_Some; congruence).
    assert (K2 : k < length r2) by (apply nth_error_Some; congruence).
    destruct (Nat.eqb_spec i i1) as [->|N1]; cbn [andb].
    - rewrite set_nth_eq by (now rewrite set_nth_length). rewrite E1, E2.
      destruct (Nat.eqb_spec j k) as [->|Nk].
      + rewrite set_nth_eq by assumption. congruence.
      + rewrite set_nth_neq by auto. rewrite andb_false_r. reflexivity.
    - rewrite (set_nth_neq i1 i) by auto. destruct (Nat.eqb_spec i i2) as [->|N2]; cbn [andb].
      + rewrite set_nth_eq by assumption. rewrite E1, E2. destruct (Nat.eqb_spec j k) as [->|Nk].
        * rewrite set_nth_eq by assumption. congruence.
        * rewrite set_nth_neq by auto. reflexivity.
      + rewrite set_nth_neq by auto. reflexivity.
  Qed.
End Columns.

Section Generic.
  Context {A : Type} (ar : arith A).

  Lemma phip_swap_columns x k ph p i1 i2 y v : phip_swap ar x k ph p i1 i2 = Some (y, v) -> same_columns x y.
  Proof.
    unfold phip_swap. destruct (nth_error x i1); [|discriminate]. destruct (nth_error x i2); [|discriminate].
    destruct (nth_error l k); [|discriminate]. destruct (nth_error l0 k); [|discriminate].
    destruct (mapM _ _); [|discriminate]. destruct (swap_entries x i1 i2 k) as [x'|] eqn:E; [|discriminate].
    intros H. injection H as <- _. eapply swap_entries_columns. exact E.
  Qed.

  Definition from (x : list (list A)) (s : ese) : Prop := same_columns x (@e_own A s) /\ same_columns x (e_best s).

  Lemma ese_inner_columns x nx i d s s' : from x s -> ese_inner ar nx i d s = Some s' -> from x s'.
  Proof.
    intros (Fo & Fb). unfold ese_inner. destruct (mapM _ (fst d)) as [l|] eqn:E; [|discriminate].
    destruct (argmin ar (map snd l)) as [k|]; [|discriminate]. destruct (nth_error l k) as [(xt, pt)|] eqn:K; [|discriminate].
    assert (S : same_columns x xt).
    { apply nth_error_In in K. clear - K E Fo. revert l E K. induction (fst d) as [|q qs IH]; intros l E K; cbn [mapM] in E.
      - injection E as <-. destruct K.
      - destruct (phip_swap ar (e_own s) ((i + 1) mod nx) (e_phip s) (ofZ ar 10) (fst q) (snd q)) as [(a & b)|] eqn:P; [|discriminate].
        destruct (mapM _ qs) as [bs|] eqn:Es; [|discriminate]. injection E as <-. destruct K as [K|K].
        + injection K as -> ->. eapply same_columns_trans; [exact Fo|]. eapply phip_swap_columns. exact P.
        + eapply IH; eauto. }
    destruct (leb ar _ _); [destruct (ltb ar _ _)|]; intros H; injection H as <-; split; assumption.
  Qed.

  Lemma ese_inner_loop_columns x nx n : forall i draws s s', from x s -> ese_inner_loop ar nx n i draws s = Some s' -> from x s'.
  Proof.
    induction n as [|n IH]; intros i draws s s' F H; cbn [ese_inner_loop] in H.
    - injection H as <-. exact F.
    - destruct (ese_inner ar nx i (draws i) s) as [s1|] eqn:E; [|discriminate].
      eapply IH; [|exact H]. eapply ese_inner_columns; eauto.
  Qed.

  Lemma ese_outer_columns x nx inner draws s s' : from x s -> ese_outer ar nx inner draws s = Some s' -> from x s'.
  Proof.
    intros F. unfold ese_outer. destruct (ese_inner_loop _ _ _ _ _ _) as [s1|] eqn:E; [|discriminate].
    intros H. injection H as <-. apply ese_inner_loop_columns with (x := x) in E; [exact E|exact F].
  Qed.

  Lemma ese_outer_loop_columns x nx inner n : forall o draws s s', from x s -> ese_outer_loop ar nx inner n o draws s = Some s' -> from x s'.
  Proof.
    induction n as [|n IH]; intros o draws s s' F H; cbn [ese_outer_loop] in H.
    - injection H as <-. exact F.
    - destruct (ese_outer ar nx inner (draws o) s) as [s1|] eqn:E; [|discriminate].
      eapply IH; [|exact H]. eapply ese_outer_columns; eauto.
  Qed.

  Lemma maximin_ese_columns nx lhs outer inner draws x : maximin_ese ar nx lhs outer inner draws = Some x -> same_columns lhs x.
  Proof.
    unfold maximin_ese. destruct (ese_outer_loop _ _ _ _ _ _ _) as [s|] eqn:E; [|discriminate].
    intros H. injection H as <-. apply ese_outer_loop_columns with (x := lhs) in E; [apply E|].
    split; apply same_columns_refl.
  Qed.

  Lemma maximin_loop_in best d cands x : maximin_loop ar best d cands = Some x -> In x (best :: cands).
  Proof.
    revert best d. induction cands as [|c cands IH]; intros best d H; cbn [maximin_loop] in H.
    - injection H as <-. now left.
    - destruct (min_of ar (pdist ar c)) as [m|]; [|discriminate]. destruct (ltb ar d m); apply IH in H; simpl in *; tauto.
  Qed.
  Lemma maximin_of_in first cands x : maximin_of ar first cands = Some x -> In x (first :: cands).
  Proof. unfold maximin_of. destruct (min_of _ _); [|discriminate]. apply maximin_loop_in. Qed.

  (** ** Designs built by columns *)
  Lemma of_columns_length ns cols : length (of_columns ar ns cols) = ns.
  Proof. unfold of_columns. now rewrite map_length, seq_length. Qed.
  Lemma of_columns_shape ns cols : shape ns (length cols) (of_columns ar ns cols).
  Proof.
    split; [apply of_columns_length|]. unfold of_columns. rewrite Forall_forall. intros r Hr. apply in_map_iff in Hr.
    destruct Hr as (i & <- & _). apply map_length.
  Qed.
  Lemma of_columns_at ns cols i j c : i < ns -> nth_error cols j = Some c -> length c = ns ->
    at_ (of_columns ar ns cols) i j = nth_error c i.
  Proof.
    intros I J L. unfold at_, of_columns. rewrite nth_error_map.
    assert (S : nth_error (seq 0 ns) i = Some i) by (rewrite (nth_error_nth' _ 0) by (rewrite seq_length; lia); now rewrite seq_nth by lia).
    rewrite S. cbn [option_map]. rewrite nth_error_map, J. cbn [option_map]. symmetry. apply nth_error_nth'. lia.
  Qed.

  Lemma classic_column_length ns rnd : length rnd = ns -> length (classic_column ar ns rnd) = ns.
  Proof.
    intros L. unfold classic_column, linspace. rewrite map_length, !combine_length, firstn_length, skipn_length, map_length, seq_length. lia.
  Qed.
  Lemma shuffle_length sw (c : list A) : length (shuffle sw c) = length c.
  Proof. apply Permutation_length, shuffle_perm. Qed.

  Lemma seq_nth_error s n i : i < n -> nth_error (seq s n) i = Some (s + i).
  Proof. intros I. rewrite (nth_error_nth' _ 0) by (rewrite seq_length; lia). now rewrite seq_nth by lia. Qed.

  Lemma linspace_nth n i : i < n -> nth_error (linspace ar n) i =
    Some (add ar (ofZ ar 0) (mul ar (if n <=? 1 then ofZ ar 0 else div ar (sub ar (ofZ ar 1) (ofZ ar 0)) (ofN ar (n - 1))) (ofN ar i))).
  Proof. intros I. unfold linspace. rewrite nth_error_map, seq_nth_error by assumption. reflexivity. Qed.

  Lemma nth_error_combine {B C} (l : list B) (m : list C) i b c : nth_error l i = Some b -> nth_error m i = Some c ->
    nth_error (combine l m) i = Some (b, c).
  Proof. revert m i. induction l as [|x l IH]; intros [|y m] [|i] H K; simpl in *; try discriminate; [congruence|]. now apply IH. Qed.
  Lemma nth_error_firstn {B} (l : list B) n i : i < n -> nth_error (firstn n l) i = nth_error l i.
  Proof. revert n i. induction l as [|x l IH]; intros [|n] [|i] H; simpl; try lia; try reflexivity. apply IH. lia. Qed.
  Lemma nth_error_skipn {B} (l : list B) n i : nth_error (skipn n l) i = nth_error l (n + i).
  Proof. revert n. induction l as [|x l IH]; intros [|n]; simpl; try reflexivity; [now destruct i|apply IH]. Qed.

  Definition cut_pair (ns i : nat) (a b : A) : Prop :=
    nth_error (linspace ar (ns + 1)) i = Some a /\ nth_error (linspace ar (ns + 1)) (S i) = Some b.

  Lemma classic_column_nth ns rnd i u a b : i < ns -> nth_error rnd i = Some u -> cut_pair ns i a b ->
    nth_error (classic_column ar ns rnd) i = Some (add ar (mul ar u (sub ar b a)) a).
  Proof.
    intros I U (Ha & Hb). unfold classic_column. rewrite nth_error_map.
    rewrite (nth_error_combine rnd _ i u (a, b)); [reflexivity|assumption|].
    apply nth_error_combine; [now rewrite nth_error_firstn|]. rewrite nth_error_skipn. exact Hb.
  Qed.
  Lemma centers_nth ns i a b : i < ns -> cut_pair ns i a b ->
    nth_error (centers ar ns) i = Some (div ar (add ar a b) (ofZ ar 2)).
  Proof.
    intros I (Ha & Hb). unfold centers. rewrite nth_error_map. rewrite (nth_error_combine _ _ i a b); [reflexivity| |].
    - now rewrite nth_error_firstn.
    - rewrite nth_error_skipn. exact Hb.
  Qed.
  Lemma centers_length ns : length (centers ar ns) = ns.
  Proof. unfold centers, linspace. rewrite map_length, combine_length, firstn_length, skipn_length, map_length, seq_length. lia. Qed.
  Lemma linspace_length n : length (linspace ar n) = n.
  Proof. unfold linspace. now rewrite map_length, seq_length. Qed.

  Lemma centered_columns_spec nx : forall j c sw, length (centered_columns nx j c sw) = nx /\
    Forall (fun c' => @Permutation A c c') (centered_columns nx j c sw).
  Proof.
    induction nx as [|nx IH]; intros j c sw; cbn [centered_columns].
    - split; [reflexivity|constructor].
    - destruct (IH (S j) (shuffle (sw j) c) sw) as (L & F). split; [simpl; now rewrite L|].
      pose proof (shuffle_perm (sw j) c) as P. constructor; [now symmetry|].
      eapply Forall_impl; [|exact F]. intros c' H. rewrite <- P. exact H.
  Qed.

  (** Every column of a classic or centered design is, in some order, a list with one value per section. *)
  Definition columns_from (ns nx : nat) (Q : nat -> A -> Prop) (x : list (list A)) : Prop :=
    shape ns nx x /\ forall j, j < nx -> exists c, length c = ns /\ Permutation (col j x) (map Some c) /\
      forall i v, nth_error c i = Some v -> Q i v.

  Lemma col_of_columns ns cols j c : nth_error cols j = Some c -> length c = ns -> col j (of_columns ar ns cols) = map Some c.
  Proof.
    intros J L. apply nth_ext with (d := None) (d' := None).
    - rewrite col_length, of_columns_length, map_length. lia.
    - intros i I. rewrite col_length, of_columns_length in I.
      assert (C : i < length c) by lia. destruct (nth_error c i) as [v|] eqn:E; [|apply nth_error_None in E; lia].
      pose proof (of_columns_at ns cols i j c I J L) as AT. rewrite E in AT. apply at_col in AT.
      rewrite (nth_error_nth _ _ _ AT). symmetry. apply nth_error_nth. now rewrite nth_error_map, E.
  Qed.

  Lemma classic_columns ns nx rnd sw (Q : nat -> A -> Prop) :
    (forall j, j < nx -> length (rnd j) = ns) ->
    (forall j i u a b, j < nx -> i < ns -> nth_error (rnd j) i = Some u -> cut_pair ns i a b -> Q i (add ar (mul ar u (sub ar b a)) a)) ->
    columns_from ns nx Q (classic_lhs ar ns nx rnd sw).
  Proof.
    intros L H. unfold classic_lhs. split.
    { pose proof (of_columns_shape ns (map (fun j => shuffle (sw j) (classic_column ar ns (rnd j))) (seq 0 nx))) as S.
      now rewrite map_length, seq_length in S. }
    intros j J. exists (classic_column ar ns (rnd j)). split; [apply classic_column_length; auto|]. split.
    - rewrite (col_of_columns ns _ j (shuffle (sw j) (classic_column ar ns (rnd j)))).
      + apply Permutation_map, shuffle_perm.
      + rewrite nth_error_map, seq_nth_error by assumption. reflexivity.
      + rewrite shuffle_length. apply classic_column_length. auto.
    - intros i v Hv. assert (I : i < ns).
      { rewrite <- (classic_column_length ns (rnd j)) by auto. apply nth_error_Some. congruence. }
      destruct (nth_error (rnd j) i) as [u|] eqn:U; [|apply nth_error_None in U; rewrite L in U by assumption; lia].
      destruct (nth_error (linspace ar (ns + 1)) i) as [a|] eqn:Ea; [|apply nth_error_None in Ea; rewrite linspace_length in Ea; lia].
      destruct (nth_error (linspace ar (ns + 1)) (S i)) as [b|] eqn:Eb; [|apply nth_error_None in Eb; rewrite linspace_length in Eb; lia].
      rewrite (classic_column_nth ns (rnd j) i u a b) in Hv by (assumption || now split). injection Hv as <-.
      apply (H j i u a b); auto. now split.
  Qed.

  Lemma centered_columns_from ns nx sw (Q : nat -> A -> Prop) :
    (forall i a b, i < ns -> cut_pair ns i a b -> Q i (div ar (add ar a b) (ofZ ar 2))) ->
    columns_from ns nx Q (centered_lhs ar ns nx sw).
  Proof.
    intros H. unfold centered_lhs. destruct (centered_columns_spec nx 0 (centers ar ns) sw) as (L & F). split.
    { pose proof (of_columns_shape ns (centered_columns nx 0 (centers ar ns) sw)) as S. now rewrite L in S. }
    intros j J. exists (centers ar ns). split; [apply centers_length|].
    destruct (nth_error (centered_columns nx 0 (centers ar ns) sw) j) as [c|] eqn:E; [|apply nth_error_None in E; lia].
    rewrite Forall_forall in F. pose proof (F c (nth_error_In _ _ E)) as P. split.
    - rewrite (col_of_columns ns _ j c E) by (rewrite <- (Permutation_length P); apply centers_length).
      apply Permutation_map. now symmetry.
    - intros i v Hv. assert (I : i < ns) by (rewrite <- (centers_length ns); apply nth_error_Some; congruence).
      destruct (nth_error (linspace ar (ns + 1)) i) as [a|] eqn:Ea; [|apply nth_error_None in Ea; rewrite linspace_length in Ea; lia].
      destruct (nth_error (linspace ar (ns + 1)) (S i)) as [b|] eqn:Eb; [|apply nth_error_None in Eb; rewrite linspace_length in Eb; lia].
      rewrite (centers_nth ns i a b) in Hv by (assumption || now split). injection Hv as <-. apply H; auto. now split.
  Qed.

  Lemma columns_from_same ns nx Q x y : same_columns x y -> columns_from ns nx Q x -> columns_from ns nx Q y.
  Proof.
    intros S (Sh & H). split; [eapply shape_columns; eauto|]. intros j J. destruct (H j J) as (c & L & P & HQ).
    exists c. split; [exact L|]. split; [|exact HQ]. rewrite <- (S j). exact P.
  Qed.

  Lemma columns_from_entries ns nx Q x : columns_from ns nx Q x -> forall i j v, at_ x i j = Some v -> exists k, k < ns /\ Q k v.
  Proof.
    intros ((Ln & W) & H) i j v HV. assert (J : j < nx).
    { unfold at_ in HV. destruct (nth_error x i) as [r|] eqn:E; [|discriminate].
      rewrite Forall_forall in W. rewrite <- (W r (nth_error_In _ _ E)). apply nth_error_Some. congruence. }
    destruct (H j J) as (c & L & P & HQ). apply at_col in HV. apply nth_error_In in HV.
    apply (Permutation_in _ P) in HV. apply in_map_iff in HV. destruct HV as (w & E & I). injection E as ->.
    apply In_nth_error in I. destruct I as (k & K). exists k. split; [|now apply HQ].
    rewrite <- L. apply nth_error_Some. congruence.
  Qed.
End Generic.
