(** Small helpers shared by the models: the panic monad, ndarray-stats' [argmin]/[argmax],
    a stable sort, list update. *)
From Coq Require Import List Arith Lia Bool Permutation Sorted.
Import ListNotations.

(** ** Panics: [None] is a panic of the Rust program. *)
Notation "'do' x <- e ; f" := (match e with Some x => f | None => None end)
  (at level 200, x pattern, e at level 100, f at level 200, right associativity).

Fixpoint mapM {A B : Type} (f : A -> option B) (l : list A) : option (list B) :=
  match l with
  | [] => Some []
  | a :: l' => do b <- f a; do bs <- mapM f l'; Some (b :: bs)
  end.

(** ndarray [concatenate![Axis(1), a, b]] on matrices given as lists of rows:
    panics when the row counts differ. *)
Fixpoint hconcat {A : Type} (a b : list (list A)) : option (list (list A)) :=
  match a, b with
  | [], [] => Some []
  | r :: a', s :: b' => do t <- hconcat a' b'; Some ((r ++ s) :: t)
  | _, _ => None
  end.

(** Index of the first smallest element for a "strictly less" test: the loop of
    ndarray-stats' [argmin] (external dependency, [quantile/mod.rs]): keeps the current
    minimum unless the new element is strictly less. *)
Fixpoint argmin_loop {A : Type} (lt : A -> A -> bool) (i : nat) (best : nat) (cur : A) (l : list A) : nat :=
  match l with
  | [] => best
  | a :: l' => if lt a cur then argmin_loop lt (S i) i a l' else argmin_loop lt (S i) best cur l'
  end.

Definition argmin_by {A : Type} (lt : A -> A -> bool) (l : list A) : option nat :=
  match l with
  | [] => None
  | a :: l' => Some (argmin_loop lt 1 0 a l')
  end.

(** [a.swap]/assignment at an index. *)
Fixpoint set_nth {A : Type} (i : nat) (v : A) (l : list A) : list A :=
  match l, i with
  | [], _ => []
  | _ :: l', 0 => v :: l'
  | a :: l', S i' => a :: set_nth i' v l'
  end.

(** A stable insertion sort for a "strictly less" test (Rust's [sort_by] is stable). *)
Fixpoint insert_by {A : Type} (lt : A -> A -> bool) (a : A) (l : list A) : list A :=
  match l with
  | [] => [a]
  | b :: l' => if lt b a then b :: insert_by lt a l' else a :: l
  end.
Fixpoint isort_by {A : Type} (lt : A -> A -> bool) (l : list A) : list A :=
  match l with
  | [] => []
  | a :: l' => insert_by lt a (isort_by lt l')
  end.

(** ** Lemmas *)
Lemma hconcat_length {A} (a b t : list (list A)) : hconcat a b = Some t ->
  length a = length b /\ length t = length a.
Proof.
  revert b t; induction a as [|r a IH]; intros [|s b] t H; simpl in H; try discriminate.
  - injection H as <-. split; reflexivity.
  - destruct (hconcat a b) eqn:E; [|discriminate]. injection H as <-.
    destruct (IH _ _ E) as [H1 H2]. simpl. split; lia.
Qed.

Lemma hconcat_some {A} (a b : list (list A)) : length a = length b -> exists t, hconcat a b = Some t.
Proof.
  revert b; induction a as [|r a IH]; intros [|s b] H; simpl in *; try discriminate.
  - now exists [].
  - destruct (IH b ltac:(lia)) as [t ->]. now exists ((r ++ s) :: t).
Qed.

Lemma hconcat_nth {A} (a b t : list (list A)) : hconcat a b = Some t ->
  forall i, nth_error t i = match nth_error a i, nth_error b i with
                            | Some r, Some s => Some (r ++ s) | _, _ => None end.
Proof.
  revert b t; induction a as [|r a IH]; intros [|s b] t H i; simpl in H; try discriminate.
  - injection H as <-. now destruct i.
  - destruct (hconcat a b) eqn:E; [|discriminate]. injection H as <-.
    destruct i; simpl; [reflexivity|]. now apply IH.
Qed.

Lemma hconcat_app {A} (a a' b b' t t' : list (list A)) :
  hconcat a b = Some t -> hconcat a' b' = Some t' -> hconcat (a ++ a') (b ++ b') = Some (t ++ t').
Proof.
  revert b t; induction a as [|r a IH]; intros [|s b] t H H'; simpl in *; try discriminate.
  - now injection H as <-.
  - destruct (hconcat a b) eqn:E; [|discriminate]. injection H as <-.
    now rewrite (IH _ _ E H').
Qed.

Lemma mapM_length {A B} (f : A -> option B) l bs : mapM f l = Some bs -> length bs = length l.
Proof.
  revert bs; induction l as [|a l IH]; simpl; intros bs H.
  - now injection H as <-.
  - destruct (f a); [|discriminate]. destruct (mapM f l); [|discriminate].
    injection H as <-. simpl. now rewrite (IH l0).
Qed.

Lemma mapM_nth {A B} (f : A -> option B) l bs : mapM f l = Some bs ->
  forall i a, nth_error l i = Some a -> exists b, nth_error bs i = Some b /\ f a = Some b.
Proof.
  revert bs; induction l as [|x l IH]; simpl; intros bs H i a Hi.
  - now destruct i.
  - destruct (f x) eqn:Fx; [|discriminate]. destruct (mapM f l) eqn:E; [|discriminate].
    injection H as <-. destruct i; simpl in *.
    + injection Hi as ->. eauto.
    + eapply IH; eauto.
Qed.

Lemma set_nth_length {A} i (v : A) l : length (set_nth i v l) = length l.
Proof. revert i; induction l as [|a l IH]; intros [|i]; simpl; auto. Qed.

Lemma set_nth_eq {A} i (v : A) l : i < length l -> nth_error (set_nth i v l) i = Some v.
Proof. revert i; induction l as [|a l IH]; intros [|i] H; simpl in *; try lia; auto. apply IH; lia. Qed.

Lemma set_nth_neq {A} i j (v : A) l : i <> j -> nth_error (set_nth i v l) j = nth_error l j.
Proof.
  revert i j; induction l as [|a l IH]; intros [|i] [|j] H; simpl; auto; try congruence.
Qed.

(** [argmin_by]: specification when "less" is irreflexive, transitive and its complement transitive
    on the elements satisfying [P]. *)
Section Argmin.
  Context {A : Type} (lt : A -> A -> bool) (P : A -> Prop).
  Hypothesis lt_irrefl : forall a, P a -> lt a a = false.
  Hypothesis lt_trans : forall a b c, P a -> P b -> P c -> lt a b = true -> lt b c = true -> lt a c = true.
  Hypothesis nlt_trans : forall a b c, P a -> P b -> P c -> lt a b = false -> lt b c = false -> lt a c = false.

  Lemma argmin_loop_spec (pre l : list A) (best : nat) (cur : A) :
    Forall P (pre ++ l) -> nth_error pre best = Some cur ->
    (forall j a, nth_error pre j = Some a -> lt a cur = false) ->
    (forall j a, j < best -> nth_error pre j = Some a -> lt cur a = true) ->
    exists m, nth_error (pre ++ l) (argmin_loop lt (length pre) best cur l) = Some m /\
      (forall j a, nth_error (pre ++ l) j = Some a -> lt a m = false) /\
      (forall j a, j < argmin_loop lt (length pre) best cur l -> nth_error (pre ++ l) j = Some a -> lt m a = true).
  Proof.
    revert pre best cur. induction l as [|x l IH]; intros pre best cur HP Hb Hmin Hfirst.
    - rewrite app_nil_r in *. simpl. eauto.
    - assert (HPpre : Forall P pre) by (apply Forall_app in HP; tauto).
      assert (HPx : P x) by (apply Forall_app in HP; destruct HP as [_ HP]; now inversion HP).
      assert (Pcur : P cur) by (eapply Forall_forall in HPpre; [exact HPpre| eapply nth_error_In; eauto]).
      simpl argmin_loop.
      replace (pre ++ x :: l) with ((pre ++ [x]) ++ l) in * by (rewrite <- app_assoc; reflexivity).
      replace (S (length pre)) with (length (pre ++ [x])) by (rewrite app_length; simpl; lia).
      assert (Hb' : best < length pre) by (apply nth_error_Some; congruence).
      destruct (lt x cur) eqn:E.
      + apply IH; auto.
        * rewrite nth_error_app2 by lia. now rewrite Nat.sub_diag.
        * intros j a Hj. destruct (Nat.lt_ge_cases j (length pre)).
          -- rewrite nth_error_app1 in Hj by lia.
             assert (Pa : P a) by (eapply Forall_forall in HPpre; [exact HPpre| eapply nth_error_In; eauto]).
             pose proof (Hmin _ _ Hj) as Hm.
             destruct (lt a x) eqn:E2; [|reflexivity].
             rewrite (lt_trans a x cur) in Hm by assumption. discriminate.
          -- rewrite nth_error_app2 in Hj by lia.
             destruct (j - length pre) as [|k]; simpl in Hj; [injection Hj as <-; now apply lt_irrefl | now destruct k].
        * intros j a Hj Hn. rewrite nth_error_app1 in Hn by lia.
          assert (Pa : P a) by (eapply Forall_forall in HPpre; [exact HPpre| eapply nth_error_In; eauto]).
          destruct (lt x a) eqn:E2; [reflexivity|].
          assert (lt x cur = false) by (apply (nlt_trans x a cur); eauto). congruence.
      + apply IH; auto.
        * rewrite nth_error_app1 by lia. assumption.
        * intros j a Hj. destruct (Nat.lt_ge_cases j (length pre)).
          -- rewrite nth_error_app1 in Hj by lia. eauto.
          -- rewrite nth_error_app2 in Hj by lia.
             destruct (j - length pre) as [|k]; simpl in Hj; [injection Hj as <-; assumption | now destruct k].
        * intros j a Hj Hn. rewrite nth_error_app1 in Hn by lia. eauto.
  Qed.

  Lemma argmin_by_spec (l : list A) (i : nat) : Forall P l -> argmin_by lt l = Some i ->
    exists m, nth_error l i = Some m /\
      (forall j a, nth_error l j = Some a -> lt a m = false) /\
      (forall j a, j < i -> nth_error l j = Some a -> lt m a = true).
  Proof.
    intros HP H. destruct l as [|a l]; [discriminate|]. simpl in H. injection H as <-.
    assert (Pa : P a) by now inversion HP.
    apply (argmin_loop_spec [a] l 0 a HP eq_refl).
    - intros [|j] b Hj; simpl in Hj; [injection Hj as <-; now apply lt_irrefl | now destruct j].
    - intros j b Hj. lia.
  Qed.
End Argmin.

Lemma argmin_by_some {A} (lt : A -> A -> bool) l : l <> [] -> exists i, argmin_by lt l = Some i.
Proof. destruct l; [congruence|]. simpl. eauto. Qed.

Lemma argmin_loop_bound {A} (lt : A -> A -> bool) l : forall i best cur, best < i ->
  argmin_loop lt i best cur l < i + length l.
Proof.
  induction l as [|x l IH]; intros i best cur H; simpl; [lia|].
  destruct (lt x cur).
  - specialize (IH (S i) i x). lia.
  - specialize (IH (S i) best cur). lia.
Qed.
Lemma argmin_by_bound {A} (lt : A -> A -> bool) l i : argmin_by lt l = Some i -> i < length l.
Proof.
  destruct l; [discriminate|]. intros H; injection H as <-.
  pose proof (argmin_loop_bound lt l 1 0 a ltac:(lia)). simpl. lia.
Qed.

Lemma insert_by_perm {A} (lt : A -> A -> bool) a l : Permutation (a :: l) (insert_by lt a l).
Proof.
  induction l as [|b l IH]; simpl; [reflexivity|].
  destruct (lt b a); [|reflexivity].
  rewrite perm_swap. now constructor.
Qed.
Lemma isort_by_perm {A} (lt : A -> A -> bool) l : Permutation l (isort_by lt l).
Proof.
  induction l as [|b l IH]; simpl; [reflexivity|].
  rewrite <- insert_by_perm. now constructor.
Qed.
