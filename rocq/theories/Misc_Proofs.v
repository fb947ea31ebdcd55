(** Lemmas on sorting, permutations, sums and counts. *)
From Coq Require Import Reals List Arith Bool Permutation Sorted Lra Lia.
From Verif Require Import Util Misc_Model.
Import ListNotations.

(** ** Sorting *)
Section Sort.
  Context (lt : nat -> nat -> bool).
  Hypothesis irrefl : forall a, lt a a = false.
  Hypothesis trans : forall a b c, lt a b = true -> lt b c = true -> lt a c = true.
  Hypothesis ntrans : forall a b c, lt a b = false -> lt b c = false -> lt a c = false.

  (** [before a b]: [a] may stand before [b] in a stable sort of increasing indices. *)
  Definition before (a b : nat) : Prop := lt a b = true \/ (lt b a = false /\ a < b).

  Lemma asym a b : lt a b = true -> lt b a = false.
  Proof. intros H. destruct (lt b a) eqn:E; [|reflexivity]. generalize (trans _ _ _ H E). now rewrite irrefl. Qed.

  Lemma insert_sorted a l : StronglySorted before l -> (forall b, In b l -> a < b) -> StronglySorted before (insert_by lt a l).
  Proof.
    induction l as [|b l IH]; intros S L; simpl.
    - repeat constructor.
    - apply StronglySorted_inv in S as [S F].
      destruct (lt b a) eqn:E.
      + constructor; [apply IH; [exact S|firstorder]|].
        apply Forall_forall. intros c Hc.
        apply (Permutation_in c (Permutation_sym (insert_by_perm lt a l))) in Hc. destruct Hc as [<-|Hc].
        * now left.
        * rewrite Forall_forall in F. now apply F.
      + constructor.
        * now constructor.
        * constructor; [right; split; [exact E|apply L; now left]|].
          apply Forall_forall. intros c Hc. rewrite Forall_forall in F.
          right. split; [|apply L; now right].
          destruct (F c Hc) as [H|[H _]].
          -- apply asym in H. now apply ntrans with b.
          -- now apply ntrans with b.
  Qed.

  Lemma isort_sorted l : StronglySorted Peano.lt l -> StronglySorted before (isort_by lt l).
  Proof.
    induction l as [|a l IH]; intros S; simpl; [constructor|].
    apply StronglySorted_inv in S as [S F]. apply insert_sorted; [now apply IH|].
    intros b Hb. apply (Permutation_in b (Permutation_sym (isort_by_perm lt l))) in Hb.
    rewrite Forall_forall in F. now apply F.
  Qed.
End Sort.

Lemma seq_sorted n : forall s, StronglySorted Peano.lt (seq s n).
Proof.
  induction n as [|n IH]; intros s; simpl; constructor; [apply IH|].
  apply Forall_forall. intros b Hb. apply in_seq in Hb. lia.
Qed.

Lemma ssorted_nth {A} (R : A -> A -> Prop) l : StronglySorted R l ->
  forall i j a b, i < j -> nth_error l i = Some a -> nth_error l j = Some b -> R a b.
Proof.
  induction 1 as [|x l S IH F]; intros i j a b L Ha Hb.
  - now destruct i.
  - destruct j as [|j]; [lia|]. destruct i as [|i]; simpl in *.
    + injection Ha as <-. rewrite Forall_forall in F. apply F. now apply nth_error_In with j.
    + apply (IH i j); auto; lia.
Qed.

(** ** Permutations *)
Lemma correct_from_ok l : forall seen, correct_from seen l = true <->
  NoDup l /\ forall i, In i l -> nth_error seen i = Some false.
Proof.
  induction l as [|i l IH]; intros seen; simpl.
  - split; [intros _; split; [constructor|tauto]|reflexivity].
  - destruct (nth_error seen i) as [[|]|] eqn:E.
    + split; [discriminate|]. intros [_ H]. specialize (H i (or_introl eq_refl)). congruence.
    + rewrite IH. assert (Li : i < length seen) by (apply nth_error_Some; congruence). split.
      * intros [N H]. split.
        -- constructor; [|exact N]. intros Hi. specialize (H i Hi). rewrite set_nth_eq in H by exact Li. discriminate H.
        -- intros j [<-|Hj]; [exact E|]. specialize (H j Hj).
           destruct (Nat.eq_dec i j) as [<-|D]; [exact E|]. now rewrite set_nth_neq in H.
      * intros [N H]. inversion N as [|? ? Ni N']; subst. split; [exact N'|].
        intros j Hj. rewrite set_nth_neq by (intros <-; contradiction). apply H. now right.
    + split; [discriminate|]. intros [_ H]. specialize (H i (or_introl eq_refl)). congruence.
Qed.

Lemma nth_repeat_false n i : nth_error (repeat false n) i = Some false <-> i < n.
Proof.
  split; intros H.
  - rewrite <- (repeat_length false n). apply nth_error_Some. congruence.
  - revert i H; induction n as [|n IH]; intros [|i] H; simpl; try lia; auto. apply IH. lia.
Qed.

Lemma correct_ok l : correct l = true <-> Permutation (seq 0 (length l)) l.
Proof.
  unfold correct. rewrite correct_from_ok. split.
  - intros [N H]. symmetry. apply NoDup_Permutation_bis; [exact N|rewrite seq_length; lia|].
    intros i Hi. apply in_seq. apply H, nth_repeat_false in Hi. lia.
  - intros P. split.
    + apply (Permutation_NoDup P), seq_NoDup.
    + intros i Hi. apply nth_repeat_false. apply (Permutation_in i (Permutation_sym P)), in_seq in Hi. lia.
Qed.

Lemma mapM_nth_error_some {A} (rows : list A) perm : (forall i, In i perm -> i < length rows) ->
  exists out, mapM (fun i => nth_error rows i) perm = Some out.
Proof.
  induction perm as [|i perm IH]; intros H; simpl; [eauto|].
  destruct IH as [out ->]; [firstorder|].
  destruct (nth_error rows i) eqn:E; [eauto|]. apply nth_error_None in E. specialize (H i (or_introl eq_refl)). lia.
Qed.

Lemma mapM_perm {A} (rows : list A) p q : Permutation p q -> forall out, mapM (fun i => nth_error rows i) q = Some out ->
  exists out', mapM (fun i => nth_error rows i) p = Some out' /\ Permutation out' out.
Proof.
  induction 1 as [|i p q P IH|i j p|p q r P1 IH1 P2 IH2]; intros out H.
  - simpl in *. exists out. now split.
  - simpl in *. destruct (nth_error rows i) as [a|]; [|discriminate H].
    destruct (mapM _ q) as [o|]; [|discriminate H]. injection H as <-.
    destruct (IH o eq_refl) as (o' & -> & Po). exists (a :: o'). split; [reflexivity|now constructor].
  - simpl in *. destruct (nth_error rows i) as [a|]; [|discriminate H].
    destruct (nth_error rows j) as [b|]; [|discriminate H].
    destruct (mapM _ p) as [o|]; [|discriminate H]. injection H as <-.
    eexists. split; [reflexivity|]. constructor.
  - destruct (IH2 _ H) as (o2 & E2 & P3). destruct (IH1 _ E2) as (o1 & E1 & P4).
    exists o1. split; [exact E1|]. now transitivity o2.
Qed.

Lemma mapM_seq {A} (rows : list A) : forall pre, mapM (fun i => nth_error (pre ++ rows) i) (seq (length pre) (length rows)) = Some rows.
Proof.
  induction rows as [|a rows IH]; intros pre; simpl; [reflexivity|].
  rewrite nth_error_app2 by lia. rewrite Nat.sub_diag. simpl.
  specialize (IH (pre ++ [a])). rewrite app_length in IH. simpl in IH. rewrite Nat.add_1_r in IH.
  rewrite <- app_assoc in IH. simpl in IH. now rewrite IH.
Qed.

(** ** First members of clusters *)
Lemma first_members_in labels : forall seen s i, In i (first_members seen s labels) <->
  exists c k, i = s + k /\ nth_error labels k = Some (Some c) /\ ~ In c seen /\
              forall k', k' < k -> nth_error labels k' <> Some (Some c).
Proof.
  induction labels as [|[c|] labels IH]; intros seen s i; simpl.
  - split; [tauto|]. intros (c & k & _ & H & _). now destruct k.
  - destruct (existsb (Nat.eqb c) seen) eqn:E.
    + rewrite IH. apply existsb_exists in E as (c' & Hc & Ec). apply Nat.eqb_eq in Ec as <-. split.
      * intros (d & k & -> & Hk & Nd & F). exists d, (S k). split; [lia|]. split; [exact Hk|]. split; [exact Nd|].
        intros [|k'] L; simpl; [congruence|]. apply F. lia.
      * intros (d & [|k] & -> & Hk & Nd & F); simpl in *; [congruence|].
        exists d, k. split; [lia|]. split; [exact Hk|]. split; [exact Nd|].
        intros k' L. apply (F (S k')). lia.
    + simpl. rewrite IH. assert (Nc : ~ In c seen).
      { intros Hc. assert (existsb (Nat.eqb c) seen = true) by (apply existsb_exists; exists c; split; [exact Hc|apply Nat.eqb_refl]). congruence. }
      split.
      * intros [<-|(d & k & -> & Hk & Nd & F)].
        -- exists c, 0. split; [lia|]. split; [reflexivity|]. split; [exact Nc|]. intros; lia.
        -- exists d, (S k). split; [lia|]. split; [exact Hk|]. split; [firstorder|].
           intros [|k'] L; simpl; [intros [= ->]; apply Nd; now left|]. apply F. lia.
      * intros (d & [|k] & -> & Hk & Nd & F); simpl in *; [left; lia|right].
        exists d, k. split; [lia|]. split; [exact Hk|]. split.
        -- intros [<-|Hd]; [|now apply Nd]. now apply (F 0 ltac:(lia)).
        -- intros k' L. apply (F (S k')). lia.
  - rewrite IH. split.
    + intros (d & k & -> & Hk & Nd & F). exists d, (S k). split; [lia|]. split; [exact Hk|]. split; [exact Nd|].
      intros [|k'] L; simpl; [discriminate|]. apply F. lia.
    + intros (d & [|k] & -> & Hk & Nd & F); simpl in *; [discriminate|].
      exists d, k. split; [lia|]. split; [exact Hk|]. split; [exact Nd|].
      intros k' L. apply (F (S k')). lia.
Qed.

Lemma first_members_nodup labels : forall seen s, NoDup (first_members seen s labels).
Proof.
  induction labels as [|[c|] labels IH]; intros seen s; simpl; [constructor| |apply IH].
  destruct (existsb _ seen); [apply IH|]. constructor; [|apply IH].
  rewrite first_members_in. intros (d & k & H & _). lia.
Qed.

(** ** Sums *)
Local Open Scope R_scope.

Lemma sumR_nonneg l : (forall x, In x l -> 0 <= x) -> 0 <= sumR l.
Proof.
  induction l as [|a l IH]; intros H; simpl; [lra|].
  generalize (H a (or_introl eq_refl)), (IH (fun x h => H x (or_intror h))). lra.
Qed.
Lemma sumR_zero l : (forall x, In x l -> 0 <= x) -> sumR l = 0 -> forall x, In x l -> x = 0.
Proof.
  induction l as [|a l IH]; simpl; intros H E x Hx; [tauto|].
  assert (A : 0 <= a) by (apply H; now left).
  assert (B : 0 <= sumR l) by (apply sumR_nonneg; intros; apply H; now right).
  destruct Hx as [<-|Hx]; [lra|]. apply IH; [intros; apply H; now right|lra|exact Hx].
Qed.
Lemma sumR_le {A} (f g : A -> R) l : (forall x, In x l -> f x <= g x) -> sumR (map f l) <= sumR (map g l).
Proof.
  induction l as [|a l IH]; intros H; simpl; [lra|].
  generalize (H a (or_introl eq_refl)), (IH (fun x h => H x (or_intror h))). lra.
Qed.
Lemma sumR_const {A} (c : R) (l : list A) : sumR (map (fun _ => c) l) = INR (length l) * c.
Proof. induction l as [|a l IH]; [simpl; lra|]. cbn [map sumR fold_right length]. fold (sumR (map (fun _ => c) l)). rewrite IH, S_INR. lra. Qed.

Lemma mean_bounds {A} (f : A -> R) l lo hi : l <> [] -> (forall x, In x l -> lo <= f x <= hi) ->
  lo <= sumR (map f l) / INR (length l) <= hi.
Proof.
  intros N H. assert (P : 0 < INR (length l)) by (apply lt_0_INR; destruct l; [congruence|simpl; lia]).
  assert (LO : INR (length l) * lo <= sumR (map f l)) by (rewrite <- (sumR_const lo l); apply sumR_le; firstorder).
  assert (HI : sumR (map f l) <= INR (length l) * hi) by (rewrite <- (sumR_const hi l); apply sumR_le; firstorder).
  split; [apply Rmult_le_reg_r with (INR (length l))|apply Rmult_le_reg_r with (INR (length l))]; auto;
  unfold Rdiv; rewrite Rmult_assoc, Rinv_l by lra; lra.
Qed.

Lemma filter_length_le {A} (f g : A -> bool) l : (forall x, In x l -> f x = true -> g x = true) ->
  (length (filter f l) <= length (filter g l))%nat.
Proof.
  induction l as [|a l IH]; intros H; simpl; [lia|].
  specialize (IH (fun x h => H x (or_intror h))). generalize (H a (or_introl eq_refl)).
  destruct (f a), (g a); intros E; simpl; try lia.
Qed.
Lemma filter_len {A} (f : A -> bool) l : (length (filter f l) <= length l)%nat.
Proof. induction l as [|a l IH]; simpl; [lia|]. destruct (f a); simpl; lia. Qed.

Lemma sq_diffs_nonneg a b x : In x (sq_diffs a b) -> 0 <= x.
Proof. unfold sq_diffs. rewrite in_map_iff. intros ([p q] & <- & _). simpl. generalize (Rle_0_sqr (p - q)). unfold Rsqr. lra. Qed.

Lemma sq_diffs_zero a : forall b, length a = length b -> (forall x, In x (sq_diffs a b) -> x = 0) -> a = b.
Proof.
  induction a as [|p a IH]; intros [|q b] L H; simpl in L; try discriminate L; [reflexivity|].
  assert (E : (p - q) * (p - q) = 0) by (apply H; now left).
  apply Rmult_integral in E. f_equal; [lra|]. apply IH; [lia|]. intros x Hx. apply H. now right.
Qed.
Lemma sq_diffs_same a : forall x, In x (sq_diffs a a) -> x = 0.
Proof. induction a as [|p a IH]; simpl; intros x Hx; [tauto|]. destruct Hx as [<-|Hx]; [lra|]. now apply IH. Qed.
Lemma sumR_div {A} (f : A -> R) c l : sumR (map (fun x => f x / c) l) = sumR (map f l) / c.
Proof. induction l as [|a l IH]; simpl; [unfold Rdiv; lra|]. rewrite IH. unfold Rdiv. lra. Qed.
Lemma sumR_plus {A} (f g : A -> R) l : sumR (map (fun x => f x + g x) l) = sumR (map f l) + sumR (map g l).
Proof. induction l as [|a l IH]; simpl; [lra|]. rewrite IH. lra. Qed.
Lemma le_div a b n : 0 < n -> a * n <= b -> a <= b / n.
Proof. intros P H. apply Rmult_le_reg_r with n; [exact P|]. unfold Rdiv. rewrite Rmult_assoc, Rinv_l by lra. lra. Qed.
