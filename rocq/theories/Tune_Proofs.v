From Coq Require Import Reals List Arith Lia Lra.
From Coq Require Import Sorted Permutation.
From Verif Require Import Util Doe_Model Doe_Spec Doe_Generic Doe_Optim Properties_Doe Tune_Model Tune_Spec.
Import ListNotations.
Local Open Scope R_scope.

(** ** The parallel reduction *)

Definition infinite (o : outcome) : Prop := fst o = None.
(** The first of the smallest values. *)
Definition first_min (l : list outcome) (o : outcome) : Prop :=
  exists l1 l2 v, l = l1 ++ o :: l2 /\ fst o = Some v /\
    (forall a w, In a l1 -> fst a = Some w -> v < w) /\ (forall a w, In a l2 -> fst a = Some w -> v <= w).

Lemma first_min_unique l o o' : first_min l o -> first_min l o' -> o = o'.
Proof.
  intros (l1 & l2 & v & E & V & A & B) (m1 & m2 & w & E' & W & A' & B'). rewrite E in E'. clear E.
  revert m1 E' A A'. induction l1 as [|a l1 IH]; intros [|c m1] E' A A'; cbn in E'; injection E' as H1 H2.
  - exact H1.
  - assert (P : w < v) by (apply (A' o v); [left; congruence|exact V]).
    assert (Q : v <= w) by (apply (B o' w); [rewrite H2; apply in_or_app; right; now left|exact W]). lra.
  - assert (P : v < w) by (apply (A o' w); [left; congruence|exact W]).
    assert (Q : w <= v) by (apply (B' o v); [rewrite <- H2; apply in_or_app; right; now left|exact V]). lra.
  - apply (IH m1 H2).
    + intros; eapply A; [right|]; eassumption.
    + intros; eapply A'; [right|]; eassumption.
Qed.

Lemma reduce_spec n t :
  (Forall infinite (leaves t) /\ fst (reduce n t) = None /\ (In (reduce n t) (leaves t) \/ reduce n t = identity_of n)) \/
  first_min (leaves t) (reduce n t).
Proof.
  induction t as [|o|a IHa b IHb].
  - left. repeat split; [constructor|]. now right.
  - cbn. destruct (fst o) as [v|] eqn:V.
    + right. exists [], [], v. cbn. repeat split; try assumption; intros ? ? [].
    + left. split; [constructor; [exact V|constructor]|]. split; [first [exact V|reflexivity]|]. left. now left.
  - cbn [leaves reduce]. unfold best_of. destruct IHa as [(Fa & Na & Ia)|Ma], IHb as [(Fb & Nb & Ib)|Mb].
    + left. rewrite Nb. cbn [below]. split; [apply Forall_app; now split|]. split; [exact Na|]. destruct Ia as [Ia|Ia]; [left; apply in_or_app; now left|now right].
    + right. destruct Mb as (l1 & l2 & v & E & V & A & B). rewrite V, Na. cbn [below].
      exists (leaves a ++ l1), l2, v. rewrite E, <- app_assoc. repeat split; try assumption.
      intros c w Hc W. apply in_app_or in Hc. destruct Hc as [Hc|Hc]; [|eauto]. rewrite Forall_forall in Fa. rewrite (Fa c Hc) in W. discriminate W.
    + right. destruct Ma as (l1 & l2 & v & E & V & A & B). rewrite V, Nb. cbn [below].
      exists l1, (l2 ++ leaves b), v. rewrite E, <- app_assoc. repeat split; try assumption.
      intros c w Hc W. apply in_app_or in Hc. destruct Hc as [Hc|Hc]; [eauto|]. rewrite Forall_forall in Fb. rewrite (Fb c Hc) in W. discriminate W.
    + right. destruct Ma as (l1 & l2 & v & E & V & A & B), Mb as (m1 & m2 & w & E' & W & A' & B'). rewrite V, W. cbn [below].
      destruct (Rlt_dec w v) as [Lt|Ge].
      * exists (leaves a ++ m1), m2, w. rewrite E', <- app_assoc. repeat split; try assumption.
        intros c z Hc Z. apply in_app_or in Hc. destruct Hc as [Hc|Hc]; [|eauto]. rewrite E in Hc. apply in_app_or in Hc.
        destruct Hc as [Hc|[<-|Hc]]; [specialize (A c z Hc Z); lra| |specialize (B c z Hc Z); lra]. rewrite V in Z. injection Z as <-. exact Lt.
      * exists l1, (l2 ++ leaves b), v. rewrite E, <- app_assoc. repeat split; try assumption.
        intros c z Hc Z. apply in_app_or in Hc. destruct Hc as [Hc|Hc]; [eauto|]. rewrite E' in Hc. apply in_app_or in Hc.
        destruct Hc as [Hc|[<-|Hc]]; [specialize (A' c z Hc Z); lra| |specialize (B' c z Hc Z); lra]. rewrite W in Z. injection Z as <-. lra.
Qed.

Lemma first_min_in l o : first_min l o -> In o l.
Proof. intros (l1 & l2 & v & -> & _). apply in_or_app. right. now left. Qed.
Lemma first_min_le l o : first_min l o -> forall a w, In a l -> fst a = Some w -> exists v, fst o = Some v /\ v <= w.
Proof.
  intros (l1 & l2 & v & -> & V & A & B) a w Ha W. exists v. split; [exact V|]. apply in_app_or in Ha.
  destruct Ha as [Ha|[<-|Ha]]; [specialize (A a w Ha W); lra| |eauto]. rewrite V in W. injection W as <-. lra.
Qed.

(** If one of the results is finite, every schedule gives the same, first best, result. *)
Lemma reduce_sched n t t' : leaves t = leaves t' -> (exists o v, In o (leaves t) /\ fst o = Some v) -> reduce n t = reduce n t'.
Proof.
  intros E (o & v & I & V).
  assert (G : forall s, leaves s = leaves t -> first_min (leaves s) (reduce n s)).
  { intros s Es. destruct (reduce_spec n s) as [(F & _)|M]; [|exact M]. rewrite Es, Forall_forall in F. specialize (F o I). unfold infinite in F. congruence. }
  apply (first_min_unique (leaves t)); [now apply G|]. rewrite E. now apply G.
Qed.

Lemma reduce_length n t k : Forall (fun o => length (snd o) = k) (leaves t) -> n = k -> length (snd (reduce n t)) = k.
Proof.
  intros F E. destruct (reduce_spec n t) as [(_ & _ & [I|I])|M].
  - rewrite Forall_forall in F. now apply F.
  - rewrite I. cbn. rewrite repeat_length. exact E.
  - apply first_min_in in M. rewrite Forall_forall in F. now apply F.
Qed.

(** ** Lists *)

Lemma broadcast_length {A} dim (l b : list A) : broadcast dim l = Some b -> length b = dim.
Proof.
  unfold broadcast. destruct l as [|a [|c l]].
  - destruct (Nat.eqb_spec (length (@nil A)) dim); [|discriminate]. intros H. injection H as <-. assumption.
  - intros H. injection H as <-. apply repeat_length.
  - destruct (Nat.eqb_spec (length (a :: c :: l)) dim); [|discriminate]. intros H. injection H as <-. assumption.
Qed.
Lemma broadcast_component {A} dim (l b : list A) : broadcast dim l = Some b -> forall i, (i < dim)%nat -> nth_error b i = component l i.
Proof.
  unfold broadcast, component. destruct l as [|a [|c l]].
  - destruct (Nat.eqb_spec (length (@nil A)) dim); [|discriminate]. intros H. injection H as <-. reflexivity.
  - intros H. injection H as <-. intros i Hi. revert i Hi. induction dim as [|d IH]; intros i Hi; [lia|]. destruct i; [reflexivity|]. cbn. apply IH. lia.
  - destruct (Nat.eqb_spec (length (a :: c :: l)) dim); [|discriminate]. intros H. injection H as <-. reflexivity.
Qed.
Lemma broadcast_self {A} (l : list A) : (length l = 1 \/ True)%nat -> broadcast (length l) l = Some l.
Proof.
  intros _. unfold broadcast. destruct l as [|a [|c l]]; [reflexivity|reflexivity|]. now rewrite Nat.eqb_refl.
Qed.
Lemma broadcast_ok {A} dim (l : list A) : length l = 1%nat \/ length l = dim -> exists b, broadcast dim l = Some b.
Proof.
  unfold broadcast. destruct l as [|a [|c l]]; cbn; intros [H|H]; try discriminate; try (subst dim; cbn); eauto. rewrite Nat.eqb_refl. eauto.
Qed.
Lemma broadcast_forall {A} (P : A -> Prop) dim l b : broadcast dim l = Some b -> Forall P l -> Forall P b.
Proof.
  unfold broadcast. destruct l as [|a [|c l]].
  - destruct (Nat.eqb_spec (length (@nil A)) dim); [|discriminate]. intros H. injection H as <-. trivial.
  - intros H. injection H as <-. intros F. inversion F; subst. clear F. induction dim; cbn; constructor; auto.
  - destruct (Nat.eqb_spec (length (a :: c :: l)) dim); [|discriminate]. intros H. injection H as <-. trivial.
Qed.

Lemma nth_error_update (l : list R) i x j : (i < length l)%nat ->
  nth_error (firstn i l ++ x :: skipn (S i) l) j = if Nat.eqb j i then Some x else nth_error l j.
Proof.
  revert i j. induction l as [|a l IH]; intros i j Hi; [cbn in Hi; lia|]. destruct i as [|i].
  - cbn [firstn skipn app]. destruct j; reflexivity.
  - cbn [firstn skipn app]. destruct j as [|j]; [reflexivity|]. cbn [nth_error].
    cbn in Hi. change (nth_error (firstn i l ++ x :: skipn (S i) l) j = if Nat.eqb j i then Some x else nth_error l j). apply IH. lia.
Qed.
Lemma update_length (l : list R) i x : (i < length l)%nat -> length (firstn i l ++ x :: skipn (S i) l) = length l.
Proof. intros H. rewrite app_length. cbn [length]. rewrite firstn_length, skipn_length. lia. Qed.

Lemma set_all_length a : forall v l r, set_all a v l = Some r -> length r = length l.
Proof.
  induction a as [|i a IH]; intros [|x v] l r H; cbn [set_all] in H; try (injection H as <-; reflexivity).
  destruct (Nat.ltb_spec i (length l)); [|discriminate]. rewrite (IH _ _ _ H). now apply update_length.
Qed.
Lemma set_all_other a : forall v l r j, set_all a v l = Some r -> ~ In j a -> nth_error r j = nth_error l j.
Proof.
  induction a as [|i a IH]; intros [|x v] l r j H N; cbn [set_all] in H; try (injection H as <-; reflexivity).
  destruct (Nat.ltb_spec i (length l)); [|discriminate]. rewrite (IH _ _ _ j H); [|intros I; apply N; now right].
  rewrite nth_error_update by assumption. destruct (Nat.eqb_spec j i); [|reflexivity]. exfalso. apply N. left. congruence.
Qed.
Lemma set_all_active a : forall v l r, set_all a v l = Some r -> NoDup a -> length v = length a ->
  forall k i, nth_error a k = Some i -> nth_error r i = nth_error v k.
Proof.
  induction a as [|j a IH]; intros [|x v] l r H ND L k i K; cbn in L; try discriminate; [destruct k; discriminate K|].
  cbn [set_all] in H. destruct (Nat.ltb_spec j (length l)); [|discriminate]. inversion ND as [|? ? N1 N2]; subst. destruct k as [|k].
  - cbn in K. injection K as ->. rewrite (set_all_other _ _ _ _ i H N1). rewrite nth_error_update by assumption. rewrite Nat.eqb_refl. reflexivity.
  - cbn in K. cbn [nth_error]. eapply IH; eauto.
Qed.
Lemma set_all_ok a : forall v l, (forall i, In i a -> (i < length l)%nat) -> exists r, set_all a v l = Some r.
Proof.
  induction a as [|i a IH]; intros [|x v] l H; cbn [set_all]; eauto. destruct (Nat.ltb_spec i (length l)) as [Lt|Ge].
  - apply IH. intros j Hj. rewrite update_length by assumption. apply H. now right.
  - specialize (H i (or_introl eq_refl)). lia.
Qed.

(** Setting every component in order gives the values themselves. *)
Lemma list_ext {A} (l m : list A) : length l = length m -> (forall i, (i < length l)%nat -> nth_error l i = nth_error m i) -> l = m.
Proof.
  revert m. induction l as [|a l IH]; intros [|b m] L H; try discriminate; [reflexivity|].
  pose proof (H O ltac:(cbn; lia)) as H0. cbn in H0. injection H0 as ->. f_equal. apply IH; [cbn in L; lia|].
  intros i Hi. apply (H (S i)). cbn. lia.
Qed.
Lemma nth_error_seq s n k : (k < n)%nat -> nth_error (seq s n) k = Some (s + k)%nat.
Proof.
  revert s k. induction n as [|n IH]; intros s k H; [lia|]. destruct k; cbn; [f_equal; lia|]. rewrite IH by lia. f_equal. lia.
Qed.
Lemma set_all_seq v l : length v = length l -> set_all (seq 0 (length l)) v l = Some v.
Proof.
  intros L. destruct (set_all_ok (seq 0 (length l)) v l) as [r E]. { intros i I. apply in_seq in I. lia. }
  rewrite E. f_equal. pose proof (set_all_length _ _ _ _ E) as Lr. apply list_ext; [lia|]. intros i Hi.
  apply (set_all_active _ _ _ _ E); [apply seq_NoDup|rewrite seq_length; exact L|]. rewrite nth_error_seq by lia. reflexivity.
Qed.

Lemma select_length a : forall l r, select a l = Some r -> length r = length a.
Proof.
  induction a as [|i a IH]; intros l r H; cbn in H; [injection H as <-; reflexivity|].
  destruct (nth_error l i); [|discriminate]. cbn in H. destruct (select a l) eqn:E; [|discriminate]. cbn in H. injection H as <-. cbn. f_equal. eauto.
Qed.
Lemma select_nth a : forall l r k i, select a l = Some r -> nth_error a k = Some i -> nth_error r k = nth_error l i.
Proof.
  induction a as [|j a IH]; intros l r k i H K; cbn in H; [destruct k; discriminate K|].
  destruct (nth_error l j) eqn:Ej; [|discriminate]. cbn in H. destruct (select a l) eqn:E; [|discriminate]. cbn in H. injection H as <-.
  destruct k; cbn in K |- *; [injection K as <-; congruence|eauto].
Qed.
Lemma select_ok a : forall l, (forall i, In i a -> (i < length l)%nat) -> exists r, select a l = Some r.
Proof.
  induction a as [|i a IH]; intros l H; cbn; [eauto|]. destruct (nth_error l i) eqn:E.
  - cbn. destruct (IH l) as [rr ->]. { intros j Hj. apply H. now right. } cbn. eauto.
  - exfalso. apply nth_error_None in E. specialize (H i (or_introl eq_refl)). lia.
Qed.
Lemma select_in a l r i : select a l = Some r -> In i a -> (i < length l)%nat.
Proof.
  revert l r. induction a as [|j a IH]; intros l r H I; cbn in H; [destruct I|].
  destruct (nth_error l j) eqn:Ej; [|discriminate]. cbn in H. destruct (select a l) eqn:E; [|discriminate].
  destruct I as [->|I]; [|eauto]. apply nth_error_Some. congruence.
Qed.
Lemma select_seq l : select (seq 0 (length l)) l = Some l.
Proof.
  destruct (select_ok (seq 0 (length l)) l) as [r E]. { intros i I. apply in_seq in I. lia. }
  rewrite E. f_equal. pose proof (select_length _ _ _ E) as L. rewrite seq_length in L. apply list_ext; [exact L|].
  intros i Hi. apply (select_nth _ _ _ _ _ E). rewrite nth_error_seq by lia. reflexivity.
Qed.

(** ** Logarithms *)
Lemma ln10 : 0 < ln 10. Proof. rewrite <- ln_1. apply ln_increasing; lra. Qed.
Lemma log10_le x y : 0 < x -> x <= y -> log10 x <= log10 y.
Proof.
  intros P L. unfold log10. apply Rmult_le_compat_r; [left; apply Rinv_0_lt_compat, ln10|].
  destruct L as [L|<-]; [left; now apply ln_increasing|lra].
Qed.
Lemma log10_lt x y : 0 < x -> x < y -> log10 x < log10 y.
Proof. intros P L. unfold log10. apply Rmult_lt_compat_r; [apply Rinv_0_lt_compat, ln10|]. now apply ln_increasing. Qed.
Lemma pow10_log10 x : 0 < x -> pow10 (log10 x) = x.
Proof.
  intros P. unfold pow10, log10, Rpower. replace (ln x / ln 10 * ln 10) with (ln x) by (field; pose proof ln10; lra). now apply exp_ln.
Qed.
Lemma pow10_le x y : x <= y -> pow10 x <= pow10 y.
Proof. intros [L|<-]; [|lra]. left. unfold pow10. apply Rpower_lt; lra. Qed.
Lemma within_pow lo up v : 0 < lo -> 0 < up -> within (log10 lo, log10 up) v -> within (lo, up) (pow10 v).
Proof.
  intros L U [A B]. cbn in A, B. apply pow10_le in A, B. rewrite pow10_log10 in A by exact L. rewrite pow10_log10 in B by exact U. split; assumption.
Qed.
Lemma pow10_1 : pow10 1 = 10. Proof. unfold pow10. apply Rpower_1. lra. Qed.
Lemma pow10_log10s l : Forall (fun v => 0 < v) l -> map pow10 (map log10 l) = l.
Proof. induction 1 as [|v l P F IH]; [reflexivity|]. cbn. rewrite pow10_log10 by exact P. now f_equal. Qed.

Definition log_bounds (b : bounds_t) : bounds_t := map (fun p => (log10 (fst p), log10 (snd p))) b.
Lemma log_bounds_length b : length (log_bounds b) = length b. Proof. apply map_length. Qed.
Lemma log_bounds_le b : sound_bounds b -> Forall (fun p => fst p <= snd p) (log_bounds b).
Proof. induction 1 as [|p b [P Q] F IH]; cbn; constructor; [cbn; now apply log10_le|exact IH]. Qed.

(** ** The starts *)

Lemma gen_ranges_spec b : forall u r, gen_ranges b u = Some r -> Forall (fun v => 0 <= v < 1) u -> Forall2 within b r.
Proof.
  induction b as [|[lo up] b IH]; intros u r H U; cbn in H; [injection H as <-; constructor|].
  destruct u as [|v u]; [discriminate|]. destruct (Rlt_dec lo up) as [L|]; [|discriminate]. destruct (gen_ranges b u) eqn:E; [|discriminate].
  injection H as <-. inversion U as [|? ? Hv Hu]; subst. constructor; [|eauto]. unfold within. cbn.
  assert (0 <= v * (up - lo)) by (apply Rmult_le_pos; lra). assert (v * (up - lo) <= 1 * (up - lo)) by (apply Rmult_le_compat_r; lra). lra.
Qed.
Lemma gen_ranges_ok b : forall u, Forall (fun p => fst p < snd p) b -> (length b <= length u)%nat -> exists r, gen_ranges b u = Some r.
Proof.
  induction b as [|[lo up] b IH]; intros u F L; cbn; [eauto|]. destruct u as [|v u]; [cbn in L; lia|]. inversion F as [|? ? H F']; subst. cbn in H.
  destruct (Rlt_dec lo up); [|contradiction]. destruct (IH u F') as [rr ->]; [cbn in L; lia|]. cbn. eauto.
Qed.
Lemma Forall2_len {A B} (P : A -> B -> Prop) l m : Forall2 P l m -> length l = length m.
Proof. induction 1; cbn; congruence. Qed.
Lemma assign_rows_same n rows : Forall (fun r => length r = n) rows -> assign_rows n rows = Some rows.
Proof.
  induction 1 as [|r rs E F IH]; [reflexivity|]. cbn. unfold assign_row. rewrite <- E at 1. rewrite broadcast_self by now right.
  cbn. rewrite IH. reflexivity.
Qed.
Lemma assign_row_same n r : length r = n -> assign_row n r = Some r.
Proof. intros <-. apply broadcast_self. now right. Qed.

Lemma multistart_rows n x b : Forall (fun p => fst p <= snd p) b -> shape n (length b) x -> cube x ->
  Forall (fun r => Forall2 within b r) (scale_sample R_arith b x) /\ length (scale_sample R_arith b x) = n.
Proof.
  intros B [Lx Sx] C. split.
  - apply (C39_exact_partial b x B). apply Forall_forall. intros r Hr. unfold cube in C. rewrite Forall_forall in Sx, C. split; [now apply Sx|now apply C].
  - unfold scale_sample. now rewrite map_length.
Qed.

Section Start.
  Context (n : nat) (t0 : list R) (b : bounds_t) (u : list R) (rnd : nat -> nat -> list R) (sw : nat -> nat -> list (nat * nat)).
  Hypothesis Len : length t0 = length b.
  Hypothesis Sound : sound_bounds b.
  Hypothesis U : Forall (fun v => 0 <= v < 1) u.
  Hypothesis D : forall t j, (j < length b)%nat -> unit_draws n (rnd t j).

  Lemma multistart_spec starts lb : prepare_multistart n t0 b u rnd sw = Some (starts, lb) ->
    lb = log_bounds b /\ exists others, starts = map log10 t0 :: others /\ length others = n /\ Forall (fun r => Forall2 within lb r) others.
  Proof.
    unfold prepare_multistart. fold (log_bounds b). destruct n as [|[|m]] eqn:En.
    - intros H. injection H as <- <-. split; [reflexivity|]. exists []. repeat split. constructor.
    - destruct (gen_ranges (log_bounds b) u) as [v|] eqn:E; [|discriminate]. cbn. apply gen_ranges_spec in E; [|exact U].
      rewrite assign_row_same by (rewrite Len, <- log_bounds_length; symmetry; eapply Forall2_len; eassumption). cbn.
      intros H. injection H as <- <-. split; [reflexivity|]. exists [v]. repeat split. constructor; [exact E|constructor].
    - destruct (maximin_lhs _ _ _ _ _ _) as [x|] eqn:E; [|discriminate].
      assert (Dl : forall t j, (j < length (log_bounds b))%nat -> unit_draws (S (S m)) (rnd t j)) by (intros; apply D; rewrite <- log_bounds_length; assumption).
      pose proof (C35_maximin_latin (S (S m)) (length (log_bounds b)) false rnd sw x ltac:(lia) Dl E) as [Sh _].
      assert (C : cube x).
      { destruct (C39_normalized_partial (S (S m)) (length (log_bounds b)) (rnd O) rnd (sw O) sw (fun _ _ => ([], 0)) false ltac:(lia) (Dl O) Dl) as (_ & _ & _ & K & _).
        apply K. exact E. }
      destruct (multistart_rows (S (S m)) x (log_bounds b) (log_bounds_le b Sound) Sh C) as [F L].
      rewrite assign_rows_same.
      + cbn. intros H. injection H as <- <-. split; [reflexivity|]. exists (scale_sample R_arith (log_bounds b) x). repeat split; assumption.
      + eapply Forall_impl; [|exact F]. intros r Hr. cbv beta. apply Forall2_len in Hr. rewrite Len, <- log_bounds_length. congruence.
  Qed.

  Lemma multistart_ok : (n = 1%nat -> strict_bounds b /\ (length b <= length u)%nat) -> exists p, prepare_multistart n t0 b u rnd sw = Some p.
  Proof.
    intros S1. unfold prepare_multistart. fold (log_bounds b). destruct n as [|[|m]] eqn:En.
    - eauto.
    - destruct (S1 eq_refl) as [St Lu]. destruct (gen_ranges_ok (log_bounds b) u) as [v E].
      + clear - St. induction St as [|p b [P Q] F IH]; cbn; constructor; [cbn; now apply log10_lt|exact IH].
      + now rewrite log_bounds_length.
      + rewrite E. cbn. apply gen_ranges_spec in E; [|exact U].
        rewrite assign_row_same by (rewrite Len, <- log_bounds_length; symmetry; eapply Forall2_len; eassumption). cbn. eauto.
    - destruct (maximin_lhs R_arith (S (S m)) (length (log_bounds b)) false rnd sw) as [x|] eqn:E.
      + idtac.
        assert (Dl : forall t j, (j < length (log_bounds b))%nat -> unit_draws (S (S m)) (rnd t j)) by (intros; apply D; rewrite <- log_bounds_length; assumption).
        pose proof (C35_maximin_latin (S (S m)) (length (log_bounds b)) false rnd sw x ltac:(lia) Dl E) as [[Lx Sx] _].
        rewrite assign_rows_same; [cbn; eauto|]. apply Forall_forall. intros r Hr. apply in_map_iff in Hr. destruct Hr as (v & <- & Hv).
        rewrite Forall_forall in Sx. unfold scale_row. rewrite map_length, combine_length, (Sx v Hv), log_bounds_length. lia.
      + exfalso. unfold maximin_lhs in E. destruct (maximin_of_some (classic_lhs R_arith (S (S m)) (length (log_bounds b)) (rnd O) (sw O))
          (map (fun t => classic_lhs R_arith (S (S m)) (length (log_bounds b)) (rnd t) (sw t)) (seq 1 4))) as [x Ex].
        * unfold classic_lhs. rewrite of_columns_length. lia.
        * apply Forall_forall. intros c Hc. apply in_map_iff in Hc. destruct Hc as (t & <- & _). unfold classic_lhs. rewrite of_columns_length. lia.
        * congruence.
  Qed.
End Start.

(** ** Bounds of the active components *)
Lemma Forall2_impl_in {A B} (P Q : A -> B -> Prop) l m : (forall a b, In a l -> P a b -> Q a b) -> Forall2 P l m -> Forall2 Q l m.
Proof. intros H F. induction F as [|a b l m Hab F IH]; constructor; [apply H; [now left|exact Hab]|]. apply IH. intros c d I. apply H. now right. Qed.

Lemma increasing_sorted l : increasing l -> StronglySorted lt l.
Proof.
  induction l as [|a l IH]; intros H; constructor.
  - apply IH. intros i j x y L X Y. apply (H (S i) (S j)); cbn; try assumption. lia.
  - apply Forall_forall. intros x Hx. apply In_nth_error in Hx. destruct Hx as [k K]. apply (H O (S k)); [lia|reflexivity|exact K].
Qed.
Lemma sorted_NoDup l : StronglySorted lt l -> NoDup l.
Proof. induction 1 as [|a l S IH F]; constructor; [|exact IH]. intros I. rewrite Forall_forall in F. specialize (F a I). lia. Qed.

Lemma active_bounds_sorted (b : bounds_t) : forall s a, StronglySorted lt a -> Forall (fun i => s <= i < s + length b)%nat a ->
  Forall2 (fun i p => nth_error b (i - s) = Some p) a
    (map snd (filter (fun p => existsb (Nat.eqb (fst p)) a) (combine (seq s (length b)) b))).
Proof.
  induction b as [|x b IH]; intros s a So F.
  - destruct a as [|i a]; [constructor|]. inversion F as [|? ? H]; subst. cbn in H. lia.
  - cbn [length seq combine filter fst].
    destruct a as [|i a].
    + cbn [existsb]. specialize (IH (S s) [] (SSorted_nil _) (Forall_nil _)). inversion IH. constructor.
    + inversion So as [|? ? So' Fi]; subst. inversion F as [|? ? Hi F']; subst. cbn [length] in *. destruct (Nat.eq_dec i s) as [->|N].
      * cbn [existsb]. rewrite Nat.eqb_refl. cbn [orb map snd]. constructor; [now rewrite Nat.sub_diag|].
        assert (G : filter (fun p : nat * (R * R) => (fst p =? s) || existsb (Nat.eqb (fst p)) a)%bool (combine (seq (S s) (length b)) b) =
                    filter (fun p : nat * (R * R) => existsb (Nat.eqb (fst p)) a) (combine (seq (S s) (length b)) b)).
        { apply filter_ext_in. intros [k p] I. apply in_combine_l in I. apply in_seq in I. cbn. destruct (Nat.eqb_spec k s); [lia|reflexivity]. }
        cbn [existsb fst] in G. rewrite G. clear G.
        assert (Fa : Forall (fun i => S s <= i < S s + length b)%nat a).
        { rewrite Forall_forall in *. intros k Hk. specialize (F' k Hk). specialize (Fi k Hk). lia. }
        specialize (IH (S s) a So' Fa). revert IH. apply Forall2_impl_in.
        intros k p Hk. rewrite Forall_forall in Fa. specialize (Fa k Hk). replace (k - s)%nat with (S (k - S s)) by lia. trivial.
      * assert (Ex : existsb (Nat.eqb s) (i :: a) = false).
        { apply Bool.not_true_is_false. intros H. apply existsb_exists in H. destruct H as (k & Hk & Ek). apply Nat.eqb_eq in Ek. subst k.
          destruct Hk as [->|Hk]; [lia|]. rewrite Forall_forall in Fi. specialize (Fi s Hk). lia. }
        rewrite Ex. 
        assert (Fa : Forall (fun k => S s <= k < S s + length b)%nat (i :: a)).
        { rewrite Forall_forall in *. intros k Hk. specialize (F k Hk). destruct Hk as [->|Hk]; [lia|]. specialize (Fi k Hk). lia. }
        specialize (IH (S s) (i :: a) So Fa). revert IH. apply Forall2_impl_in.
        intros k p Hk. rewrite Forall_forall in Fa. specialize (Fa k Hk). replace (k - s)%nat with (S (k - S s)) by lia. trivial.
Qed.

Lemma active_bounds_inc a (b : bounds_t) : increasing a -> (forall i, In i a -> (i < length b)%nat) ->
  Forall2 (fun i p => nth_error b i = Some p) a (active_bounds a b).
Proof.
  intros Inc Rg. pose proof (active_bounds_sorted b 0 a (increasing_sorted a Inc)) as H.
  specialize (H ltac:(apply Forall_forall; intros i Hi; specialize (Rg i Hi); lia)). unfold active_bounds.
  revert H. apply Forall2_impl_in. intros i p _. now rewrite Nat.sub_0_r.
Qed.
Lemma seq_increasing s n : increasing (seq s n).
Proof.
  intros i j a b L A B. assert (Hi : (i < n)%nat) by (rewrite <- (seq_length n s); apply nth_error_Some; congruence).
  assert (Hj : (j < n)%nat) by (rewrite <- (seq_length n s); apply nth_error_Some; congruence).
  rewrite nth_error_seq in A by exact Hi. rewrite nth_error_seq in B by exact Hj. injection A as <-. injection B as <-. lia.
Qed.
Lemma Forall2_nth {A B} (P : A -> B -> Prop) l m : Forall2 P l m ->
  forall k a, nth_error l k = Some a -> exists b, nth_error m k = Some b /\ P a b.
Proof. induction 1 as [|a b l m H F IH]; intros [|k] c E; try discriminate; cbn in *; [injection E as <-; eauto|eauto]. Qed.
Lemma active_bounds_all (b : bounds_t) : active_bounds (seq 0 (length b)) b = b.
Proof.
  pose proof (active_bounds_inc (seq 0 (length b)) b (seq_increasing 0 _) ltac:(intros i Hi; apply in_seq in Hi; lia)) as H.
  pose proof (Forall2_len _ _ _ H) as L. rewrite seq_length in L. apply list_ext; [now symmetry|].
  intros i Hi. destruct (Forall2_nth _ _ _ H i i) as (p & E & P); [now rewrite nth_error_seq by lia|]. congruence.
Qed.
Lemma active_bounds_in a (b : bounds_t) p : In p (active_bounds a b) -> In p b.
Proof.
  unfold active_bounds. intros H. apply in_map_iff in H. destruct H as ([i q] & <- & H). apply filter_In in H. destruct H as [H _].
  now apply in_combine_r in H.
Qed.
Lemma active_bounds_sound a (b : bounds_t) : sound_bounds b -> sound_bounds (active_bounds a b).
Proof. intros S. apply Forall_forall. intros p H. apply active_bounds_in in H. unfold sound_bounds in S. rewrite Forall_forall in S. now apply S. Qed.
Lemma active_bounds_strict a (b : bounds_t) : strict_bounds b -> strict_bounds (active_bounds a b).
Proof. intros S. apply Forall_forall. intros p H. apply active_bounds_in in H. unfold strict_bounds in S. rewrite Forall_forall in S. now apply S. Qed.
Lemma strict_sound b : strict_bounds b -> sound_bounds b.
Proof. apply Forall_impl. intros p [A B]. lra. Qed.

(** Without repetition there are as many bounds as active components, in any order. *)
Lemma filter_combine {B} (f : nat -> bool) (l : list nat) (m : list B) : length l = length m ->
  length (filter (fun p => f (fst p)) (combine l m)) = length (filter f l).
Proof.
  revert m. induction l as [|a l IH]; intros [|b m] L; try discriminate; [reflexivity|]. cbn. destruct (f a); cbn; rewrite IH; auto.
Qed.
Lemma active_bounds_len a (b : bounds_t) : NoDup a -> (forall i, In i a -> (i < length b)%nat) -> length (active_bounds a b) = length a.
Proof.
  intros ND Rg. unfold active_bounds. rewrite map_length, (filter_combine (fun i => existsb (Nat.eqb i) a)) by apply seq_length.
  apply Permutation_length. apply NoDup_Permutation; [apply NoDup_filter, seq_NoDup|exact ND|].
  intros i. rewrite filter_In, in_seq, existsb_exists. split.
  - intros [_ (j & J & E)]. apply Nat.eqb_eq in E. now subst.
  - intros I. split; [specialize (Rg i I); lia|]. exists i. split; [exact I|apply Nat.eqb_refl].
Qed.

(** ** Results of the optimizations *)
Section Results.
  Context (lik : list R -> option R) (opt : (list R -> option R) -> list R -> bounds_t -> outcome) (dim n : nat) (u : list R)
    (rnd : nat -> nat -> list R) (sw : nat -> nat -> list (nat * nat)) (init : list R) (b : bounds_t) (active : list nat).
  Hypothesis Sound : sound_bounds b.
  Hypothesis U : Forall (fun v => 0 <= v < 1) u.
  Hypothesis D : forall t j, (j < dim)%nat -> unit_draws n (rnd t j).

  Lemma results_inv rs : results lik opt dim n u rnd sw init b active = Some rs ->
    exists theta0 bb t0 p, broadcast dim init = Some theta0 /\ broadcast dim b = Some bb /\ select active theta0 = Some t0 /\
      prepare_multistart n t0 (active_bounds active bb) u rnd sw = Some p /\ length (active_bounds active bb) = length active /\
      rs = map (fun x0 => opt (objective lik theta0 active) x0 (snd p)) (fst p).
  Proof.
    unfold results. destruct (broadcast dim init) as [theta0|]; [|discriminate]. destruct (broadcast dim b) as [bb|]; [|discriminate].
    destruct (select active theta0) as [t0|] eqn:Es; [|discriminate]. destruct (prepare_multistart _ _ _ _ _ _) as [p|] eqn:Ep; [|discriminate].
    destruct (Nat.eqb_spec (length (active_bounds active bb)) (length active)) as [L|]; [|discriminate]. cbn. intros H. injection H as <-.
    exists theta0, bb, t0, p. repeat split; assumption.
  Qed.

  Lemma active_len_dim bb : broadcast dim b = Some bb -> (length (active_bounds active bb) <= dim)%nat.
  Proof.
    intros E. rewrite <- (broadcast_length _ _ _ E). unfold active_bounds. rewrite map_length.
    transitivity (length (combine (seq 0 (length bb)) bb)); [|rewrite combine_length, seq_length; lia].
    generalize (combine (seq 0 (length bb)) bb). intros l. induction l as [|x l IH]; cbn; [lia|]. destruct (existsb _ _); cbn; lia.
  Qed.

  (** Every result of an optimizer that stays within its bounds is in the bounds. *)
  Lemma results_within rs : results lik opt dim n u rnd sw init b active = Some rs -> stays_within opt ->
    exists bb, broadcast dim b = Some bb /\ length rs = S n /\ (forall o, In o rs -> Forall2 within (log_bounds (active_bounds active bb)) (snd o)).
  Proof.
    intros H St. destruct (results_inv rs H) as (theta0 & bb & t0 & [starts lb] & E0 & Eb & Es & Ep & L & ->). cbn [fst snd] in *. exists bb. split; [exact Eb|].
    assert (Sb : sound_bounds (active_bounds active bb)) by (apply active_bounds_sound; exact (broadcast_forall _ _ _ _ Eb Sound)).
    assert (L0 : length t0 = length (active_bounds active bb)) by (rewrite (select_length _ _ _ Es); now symmetry).
    assert (Da : forall t j, (j < length (active_bounds active bb))%nat -> unit_draws n (rnd t j)).
    { intros t j Hj. apply D. pose proof (active_len_dim bb Eb). lia. }
    destruct (multistart_spec n t0 _ u rnd sw L0 Sb U Da starts lb Ep) as (Elb & others & Eo & Lo & Fo). split.
    - rewrite map_length, Eo. cbn. lia.
    - intros o Ho. apply in_map_iff in Ho. destruct Ho as (x0 & <- & Hx). rewrite <- Elb. apply St.
      + rewrite Elb, log_bounds_length. rewrite Eo in Hx. destruct Hx as [<-|Hx]; [now rewrite map_length|].
        rewrite Forall_forall in Fo. specialize (Fo x0 Hx). apply Forall2_len in Fo. rewrite Elb, log_bounds_length in Fo. now symmetry.
      + rewrite Elb. now apply log_bounds_le.
  Qed.

  Lemma results_ok : stays_within opt -> (exists theta0, broadcast dim init = Some theta0) -> (exists bb, broadcast dim b = Some bb) ->
    NoDup active -> (forall i, In i active -> (i < dim)%nat) -> (n = 1%nat -> strict_bounds b /\ (dim <= length u)%nat) ->
    exists rs, results lik opt dim n u rnd sw init b active = Some rs.
  Proof.
    intros St [theta0 E0] [bb Eb] ND Rg S1. unfold results. rewrite E0, Eb.
    destruct (select_ok active theta0) as [t0 Es]. { intros i Hi. rewrite (broadcast_length _ _ _ E0). now apply Rg. } rewrite Es.
    assert (La : length (active_bounds active bb) = length active).
    { apply active_bounds_len; [exact ND|]. intros i Hi. rewrite (broadcast_length _ _ _ Eb). now apply Rg. }
    destruct (multistart_ok n t0 (active_bounds active bb) u rnd sw) as [p ->].
    - rewrite (select_length _ _ _ Es). now symmetry.
    - exact U.
    - intros t j Hj. apply D. pose proof (active_len_dim bb Eb). lia.
    - intros E. destruct (S1 E) as [St1 Lu]. split; [apply active_bounds_strict; exact (broadcast_forall _ _ _ _ Eb St1)|].
      pose proof (active_len_dim bb Eb). lia.
    - rewrite La, Nat.eqb_refl. cbn. eauto.
  Qed.
End Results.
