(** Proofs about [FindResult_Model] against [FindResult_Spec]. *)
From Coq Require Import List Arith Bool Reals Lra Lia.
From Flocq Require Import Core.Raux.
From Verif Require Import F64 Util FindResult_Model FindResult_Spec.
Import ListNotations.
Local Open Scope R_scope.

(** ** Sums of excesses *)
Lemma csum_zip_fold cs : forall tol acc, csum_zip acc cs tol = fold_left fadd (excesses tol cs) acc.
Proof.
  unfold excesses. induction cs as [|c cs IH]; intros [|t tol] acc; simpl; try reflexivity.
  unfold fgt. destruct (flt t c); simpl; apply IH.
Qed.

Lemma cstr_sum_loop_zip cs : forall tol acc, (length cs <= length tol)%nat ->
  cstr_sum_loop acc cs tol = Some (csum_zip acc cs tol).
Proof.
  induction cs as [|c cs IH]; intros [|t tol] acc H; simpl in *; try reflexivity; try lia.
  apply IH; lia.
Qed.

Lemma cstr_sum_violation r tol : r <> [] -> (length (constraints r) <= length tol)%nat ->
  cstr_sum r tol = Some (violation tol (constraints r)).
Proof.
  intros Hr H. destruct r as [|o cs]; [congruence|]. simpl in *.
  now rewrite cstr_sum_loop_zip, csum_zip_fold.
Qed.

Lemma excesses_pos tol cs e : In e (excesses tol cs) -> fnan e = false /\ 0 < ord e.
Proof.
  unfold excesses. rewrite in_flat_map. intros ([c t] & _ & H).
  destruct (flt t c) eqn:E; [|contradiction]. destruct H as [<-|[]].
  destruct (fsub_pos c t E) as [N P].
  rewrite fnan_fabs, ord_fabs by assumption. split; [assumption|].
  rewrite Rabs_pos_eq; lra.
Qed.

Lemma fold_fadd_nonneg es : forall acc, (forall e, In e es -> fnan e = false /\ 0 < ord e) ->
  fnan acc = false -> 0 <= ord acc ->
  fnan (fold_left fadd es acc) = false /\ ord acc <= ord (fold_left fadd es acc) /\
  (es <> [] -> 0 < ord (fold_left fadd es acc)).
Proof.
  induction es as [|e es IH]; intros acc H N A; simpl.
  - repeat split; try assumption; try lra. congruence.
  - destruct (H e (or_introl eq_refl)) as [Ne Pe].
    destruct (fadd_nonneg acc e N Ne A ltac:(lra)) as (N1 & L1 & L2).
    destruct (IH (fadd acc e)) as (N2 & L3 & _); try assumption; try lra.
    { intros e' H'. apply H. now right. }
    repeat split; try assumption; lra.
Qed.

Lemma violation_facts tol cs :
  fnan (violation tol cs) = false /\ 0 <= ord (violation tol cs) /\
  (excesses tol cs <> [] -> 0 < ord (violation tol cs)) /\
  (excesses tol cs = [] -> ord (violation tol cs) = 0).
Proof.
  unfold violation.
  destruct (fold_fadd_nonneg (excesses tol cs) fzero (excesses_pos tol cs)) as (N & L & P).
  - reflexivity.
  - rewrite ord_fzero. lra.
  - rewrite ord_fzero in L. repeat split; try assumption. intros ->. reflexivity.
Qed.

Lemma feasible_excesses cs : forall tol, feasible tol cs <-> excesses tol cs = [].
Proof.
  unfold excesses, feasible, violates.
  induction cs as [|c cs IH]; intros [|t tol]; simpl.
  - split; [reflexivity|]. intros _ [|i] ? ? H; discriminate.
  - split; [reflexivity|]. intros _ [|i] ? ? H; discriminate.
  - split; [reflexivity|]. intros _ [|i] ? ? _ H; discriminate.
  - destruct (flt t c) eqn:E; simpl; split; intro H.
    + exfalso. exact (H 0%nat c t eq_refl eq_refl E).
    + discriminate.
    + apply IH. intros i c' t' Hc Ht. exact (H (S i) c' t' Hc Ht).
    + intros [|i] c' t' Hc Ht; simpl in Hc, Ht.
      * injection Hc as <-. injection Ht as <-. congruence.
      * revert Hc Ht. apply IH. exact H.
Qed.

Lemma feasible_dec tol cs : {feasible tol cs} + {~ feasible tol cs}.
Proof.
  destruct (excesses tol cs) eqn:E.
  - left. now apply feasible_excesses.
  - right. rewrite feasible_excesses. congruence.
Qed.

Lemma feasible_violation tol cs : feasible tol cs <-> ord (violation tol cs) = 0.
Proof.
  rewrite feasible_excesses. pose proof (violation_facts tol cs) as (N & L & P & Z).
  destruct (excesses tol cs).
  - tauto.
  - split; [discriminate|]. intros H. assert (0 < ord (violation tol cs)) by (apply P; discriminate). lra.
Qed.

Lemma infeasible_violation tol cs : ~ feasible tol cs <-> 0 < ord (violation tol cs).
Proof.
  rewrite feasible_violation. pose proof (violation_facts tol cs) as (N & L & _).
  split; intros; lra.
Qed.

(** ** The rank of a row as two reals *)
Definition vio (tol r : list f64) : R := ord (violation tol (constraints r)).
Definition obj (r : list f64) : R := ord (objective r).

Lemma vio_nonneg tol r : 0 <= vio tol r.
Proof. unfold vio. now destruct (violation_facts tol (constraints r)) as (_ & L & _). Qed.

Lemma better_rank tol w r1 r2 : row_ok w r1 -> row_ok w r2 ->
  (better tol r1 r2 <->
   vio tol r1 < vio tol r2 \/ (vio tol r1 = 0 /\ vio tol r2 = 0 /\ obj r1 < obj r2)).
Proof.
  intros [_ N1] [_ N2]. unfold better, vio, obj.
  rewrite !infeasible_violation, !feasible_violation.
  rewrite (flt_ord (objective r1) (objective r2)) by assumption.
  rewrite (flt_ord (violation tol (constraints r1)))
    by (apply (violation_facts tol)).
  pose proof (proj1 (proj2 (violation_facts tol (constraints r1)))).
  pose proof (proj1 (proj2 (violation_facts tol (constraints r2)))).
  split; intros; intuition lra.
Qed.

Lemma better_asym tol w r1 r2 : row_ok w r1 -> row_ok w r2 ->
  better tol r1 r2 -> ~ better tol r2 r1.
Proof.
  intros K1 K2. rewrite (better_rank _ _ _ _ K1 K2), (better_rank _ _ _ _ K2 K1).
  intros; intuition lra.
Qed.

Lemma better_trans tol w r1 r2 r3 : row_ok w r1 -> row_ok w r2 -> row_ok w r3 ->
  better tol r1 r2 -> better tol r2 r3 -> better tol r1 r3.
Proof.
  intros K1 K2 K3.
  rewrite (better_rank _ _ _ _ K1 K2), (better_rank _ _ _ _ K2 K3), (better_rank _ _ _ _ K1 K3).
  pose proof (vio_nonneg tol r1). pose proof (vio_nonneg tol r2). pose proof (vio_nonneg tol r3).
  intros; intuition lra.
Qed.

Lemma not_better_trans tol w r1 r2 r3 : row_ok w r1 -> row_ok w r2 -> row_ok w r3 ->
  ~ better tol r1 r2 -> ~ better tol r2 r3 -> ~ better tol r1 r3.
Proof.
  intros K1 K2 K3.
  rewrite (better_rank _ _ _ _ K1 K2), (better_rank _ _ _ _ K2 K3), (better_rank _ _ _ _ K1 K3).
  pose proof (vio_nonneg tol r1). pose proof (vio_nonneg tol r2). pose proof (vio_nonneg tol r3).
  intros N12 N23 [HH|(A & B & C)].
  - destruct (Rlt_or_le (vio tol r1) (vio tol r2)) as [L|L]; [now apply N12; left|].
    apply N23. left. lra.
  - assert (V2 : vio tol r2 = 0).
    { destruct (Rlt_or_le (vio tol r2) (vio tol r3)); [exfalso; apply N23; now left|].
      destruct (Rlt_or_le (vio tol r1) (vio tol r2)); [exfalso; apply N12; now left|]. lra. }
    destruct (Rlt_or_le (obj r1) (obj r2)) as [L|L]; [apply N12; right; lra|].
    apply N23. right. lra.
Qed.

Lemma better_dec tol w r1 r2 : row_ok w r1 -> row_ok w r2 -> {better tol r1 r2} + {~ better tol r1 r2}.
Proof.
  intros _ _. unfold better.
  destruct (feasible_dec tol (constraints r1)), (feasible_dec tol (constraints r2)).
  - destruct (flt (objective r1) (objective r2)) eqn:E; [left; tauto|right].
    intros [H|[H|H]]; intuition discriminate.
  - left; tauto.
  - right; tauto.
  - destruct (flt (violation tol (constraints r1)) (violation tol (constraints r2))) eqn:E; [left; tauto|right].
    intros [H|[H|H]]; intuition discriminate.
Qed.

(** ** [cstr_min] *)
Lemma row_ok_cons w r : (1 <= w)%nat -> row_ok w r -> exists o cs, r = o :: cs /\ fnan o = false /\ length cs = (w - 1)%nat.
Proof.
  intros Hw [L N]. destruct r as [|o cs]; simpl in *; [lia|].
  exists o, cs. repeat split; try assumption. lia.
Qed.

Lemma cstr_min_spec tol w r1 r2 : (1 <= w)%nat -> (w - 1 <= length tol)%nat ->
  row_ok w r1 -> row_ok w r2 ->
  exists c, cstr_min r1 r2 tol = Some c /\
    (c = Lt <-> better tol r1 r2) /\ (c = Gt <-> better tol r2 r1).
Proof.
  intros Hw Ht K1 K2.
  pose proof (better_rank tol _ _ _ K1 K2) as R12. pose proof (better_rank tol _ _ _ K2 K1) as R21.
  enough (X : exists c, cstr_min r1 r2 tol = Some c /\
    (c = Lt <-> vio tol r1 < vio tol r2 \/ (vio tol r1 = 0 /\ vio tol r2 = 0 /\ obj r1 < obj r2)) /\
    (c = Gt <-> vio tol r2 < vio tol r1 \/ (vio tol r2 = 0 /\ vio tol r1 = 0 /\ obj r2 < obj r1))).
  { destruct X as (c & E & A & B). exists c. rewrite R12, R21. tauto. }
  clear R12 R21.
  destruct (row_ok_cons _ _ Hw K1) as (o1 & cs1 & -> & N1 & L1).
  destruct (row_ok_cons _ _ Hw K2) as (o2 & cs2 & -> & N2 & L2).
  unfold cstr_min, vio, obj. change (objective (o1 :: cs1)) with o1. change (objective (o2 :: cs2)) with o2. simpl constraints.
  assert (OC : obj_cmp (o1 :: cs1) (o2 :: cs2) = Some (Rcompare (ord o1) (ord o2)))
    by (simpl; now apply fcmp_ord).
  destruct (violation_facts tol cs1) as (V1 & P1 & _).
  destruct (violation_facts tol cs2) as (V2 & P2 & _).
  destruct (1 <? length (o1 :: cs1)) eqn:E.
  - rewrite !cstr_sum_violation by (simpl; try congruence; lia). simpl constraints.
    set (v1 := violation tol cs1) in *. set (v2 := violation tol cs2) in *.
    pose proof (flt_ord fzero v1 eq_refl V1) as G1. pose proof (flt_ord fzero v2 eq_refl V2) as G2.
    pose proof (feq_ord v1 fzero V1 eq_refl) as Q1. pose proof (feq_ord v2 fzero V2 eq_refl) as Q2.
    rewrite ord_fzero in *. unfold fgt.
    destruct (flt fzero v1) eqn:F1; destruct (flt fzero v2) eqn:F2; simpl andb.
    + rewrite (fcmp_ord v1 v2 V1 V2).
      exists (Rcompare (ord v1) (ord v2)). split; [reflexivity|].
      assert (0 < ord v1) by now apply G1. assert (0 < ord v2) by now apply G2.
      destruct (Rcompare_spec (ord v1) (ord v2)); split; split; intros; try discriminate; try reflexivity; intuition lra.
    + assert (0 < ord v1) by now apply G1.
      assert (ord v2 = 0). { destruct (Rle_lt_or_eq_dec _ _ P2) as [X|X]; [apply G2 in X; discriminate|lra]. }
      assert (Q1' : feq v1 fzero = false) by (apply feq_ordF; [assumption|reflexivity|rewrite ord_fzero; lra]).
      rewrite Q1'. simpl. exists Gt. split; [reflexivity|].
      split; split; intros; try discriminate; try reflexivity; intuition lra.
    + assert (0 < ord v2) by now apply G2.
      assert (ord v1 = 0). { destruct (Rle_lt_or_eq_dec _ _ P1) as [X|X]; [apply G1 in X; discriminate|lra]. }
      assert (Q1' : feq v1 fzero = true) by now apply Q1.
      assert (Q2' : feq v2 fzero = false) by (apply feq_ordF; [assumption|reflexivity|rewrite ord_fzero; lra]).
      rewrite Q1', Q2'. simpl. exists Lt. split; [reflexivity|].
      split; split; intros; try discriminate; try reflexivity; intuition lra.
    + assert (Z1 : ord v1 = 0). { destruct (Rle_lt_or_eq_dec _ _ P1) as [X|X]; [apply G1 in X; discriminate|lra]. }
      assert (Z2 : ord v2 = 0). { destruct (Rle_lt_or_eq_dec _ _ P2) as [X|X]; [apply G2 in X; discriminate|lra]. }
      rewrite (proj2 Q1 Z1), (proj2 Q2 Z2). cbn [andb]. rewrite OC.
      exists (Rcompare (ord o1) (ord o2)). split; [reflexivity|].
      destruct (Rcompare_spec (ord o1) (ord o2)); split; split; intros; try discriminate; try reflexivity; intuition lra.
  - apply Nat.ltb_ge in E. simpl in E.
    destruct cs1; [|simpl in E; lia]. destruct cs2; [|simpl in L1, L2; lia].
    rewrite OC. exists (Rcompare (ord o1) (ord o2)). split; [reflexivity|].
    unfold violation, excesses. simpl. rewrite !ord_fzero.
    destruct (Rcompare_spec (ord o1) (ord o2)); split; split; intros; try discriminate; try reflexivity; intuition lra.
Qed.

(** ** Uniqueness of the best row *)
Lemma is_best_row_unique tol w rows i j : Forall (row_ok w) rows ->
  is_best_row tol rows i -> is_best_row tol rows j -> i = j.
Proof.
  intros K (r & Hr & Br & Fr) (s & Hs & Bs & Fs).
  destruct (Nat.lt_trichotomy i j) as [L|[E|L]]; [|assumption|].
  - exfalso. apply (Br _ _ Hs). now apply (Fs i).
  - exfalso. apply (Bs _ _ Hr). now apply (Fr j).
Qed.

(** Decidable version of [better] used to reuse the argmin lemma *)
Definition betterb (tol r s : list f64) : bool :=
  match cstr_min r s tol with Some Lt => true | _ => false end.

Lemma betterb_spec tol w r s : (1 <= w)%nat -> (w - 1 <= length tol)%nat -> row_ok w r -> row_ok w s ->
  (betterb tol r s = true <-> better tol r s).
Proof.
  intros Hw Ht Kr Ks. unfold betterb.
  destruct (cstr_min_spec tol w r s Hw Ht Kr Ks) as (c & -> & HL & _).
  destruct c; rewrite <- HL; split; intros; congruence.
Qed.

Lemma betterb_specF tol w r s : (1 <= w)%nat -> (w - 1 <= length tol)%nat -> row_ok w r -> row_ok w s ->
  (betterb tol r s = false <-> ~ better tol r s).
Proof.
  intros Hw Ht Kr Ks. pose proof (betterb_spec tol w r s Hw Ht Kr Ks).
  destruct (betterb tol r s); split; intros; try congruence; intuition congruence.
Qed.

Lemma betterb_argmin tol w rows i : (1 <= w)%nat -> (w - 1 <= length tol)%nat -> Forall (row_ok w) rows ->
  argmin_by (betterb tol) rows = Some i -> is_best_row tol rows i.
Proof.
  intros Hw Ht K H.
  destruct (argmin_by_spec (betterb tol) (row_ok w)) with (l := rows) (i := i) as (m & Hm & Hmin & Hfirst); try assumption.
  - intros a Ka. apply (betterb_specF tol w a a Hw Ht Ka Ka). intro B. exact (better_asym _ _ _ _ Ka Ka B B).
  - intros a b c Ka Kb Kc. rewrite !(betterb_spec tol w) by assumption. eapply better_trans; eauto.
  - intros a b c Ka Kb Kc. rewrite !(betterb_specF tol w) by assumption. eapply not_better_trans; eauto.
  - exists m. split; [assumption|].
    assert (Km : row_ok w m) by (eapply Forall_forall in K; [exact K|eapply nth_error_In; eauto]).
    split.
    + intros j s Hj. assert (Ks : row_ok w s) by (eapply Forall_forall in K; [exact K|eapply nth_error_In; eauto]).
      apply (betterb_specF tol w s m Hw Ht Ks Km). eauto.
    + intros j s Hl Hj. assert (Ks : row_ok w s) by (eapply Forall_forall in K; [exact K|eapply nth_error_In; eauto]).
      apply (betterb_spec tol w m s Hw Ht Km Ks). eauto.
Qed.

(** ** [find_best_result_index_from] *)
(** The incremental search: either no new row is better than the current best, which is returned,
    or the first best of the new rows is returned. *)
Lemma best_from_loop_run tol w : (1 <= w)%nat -> (w - 1 <= length tol)%nat ->
  forall rows i best cur, row_ok w cur -> Forall (row_ok w) rows ->
  exists o, best_from_loop tol i best cur rows = Some o /\
    ((o = best /\ forall r, In r rows -> ~ better tol r cur) \/
     (exists k m, o = Some (i + k)%nat /\ nth_error rows k = Some m /\ better tol m cur /\
        (forall r, In r rows -> ~ better tol r m) /\
        (forall j r, (j < k)%nat -> nth_error rows j = Some r -> better tol m r))).
Proof.
  intros Hw Ht. induction rows as [|r rows IH]; intros i best cur Kc K; simpl.
  - exists best. split; [reflexivity|]. left. split; [reflexivity|]. intros r [].
  - inversion K as [|? ? Kr K']; subst.
    destruct (cstr_min_spec tol w r cur Hw Ht Kr Kc) as (c & E & HL & HG).
    rewrite E.
    assert (Cases : (c = Lt /\ better tol r cur) \/ (c <> Lt /\ ~ better tol r cur)).
    { destruct c; [right|left|right]; rewrite <- HL; intuition discriminate. }
    destruct Cases as [[-> B]|[Nc NB]].
    + destruct (IH (S i) (Some i) r Kr K') as (o & Ho & [[-> H]|(k & m & -> & Hm & Bm & H1 & H2)]).
      * exists (Some i). split; [assumption|]. right. exists 0%nat, r.
        split; [f_equal; lia|]. split; [reflexivity|]. split; [assumption|]. split.
        -- intros s [<-|Hs]; [intro X; exact (better_asym _ _ _ _ Kr Kr X X)|]. now apply H.
        -- intros j s Hj. lia.
      * exists (Some (S i + k)%nat). split; [assumption|]. right. exists (S k), m.
        assert (Km : row_ok w m) by (eapply Forall_forall in K'; [exact K'|eapply nth_error_In; eauto]).
        split; [f_equal; lia|]. split; [assumption|]. split; [exact (better_trans _ _ _ _ _ Km Kr Kc Bm B)|]. split.
        -- intros s [<-|Hs]; [eapply better_asym; eauto | now apply H1].
        -- intros [|j] s Hj Hn; simpl in Hn; [injection Hn as <-; assumption|].
           apply (H2 j); [lia|assumption].
    + replace (match c with Lt => best_from_loop tol (S i) (Some i) r rows
                       | _ => best_from_loop tol (S i) best cur rows end)
        with (best_from_loop tol (S i) best cur rows) by (destruct c; congruence).
      destruct (IH (S i) best cur Kc K') as (o & Ho & [[-> H]|(k & m & -> & Hm & Bm & H1 & H2)]).
      * exists best. split; [assumption|]. left. split; [reflexivity|].
        intros s [<-|Hs]; auto.
      * exists (Some (S i + k)%nat). split; [assumption|]. right. exists (S k), m.
        assert (Km : row_ok w m) by (eapply Forall_forall in K'; [exact K'|eapply nth_error_In; eauto]).
        assert (Bmr : better tol m r).
        { destruct (better_dec tol w m r Km Kr); [assumption|].
          exfalso. eapply not_better_trans with (r1 := m) (r2 := r) (r3 := cur); eauto. }
        split; [f_equal; lia|]. split; [assumption|]. split; [assumption|]. split.
        -- intros s [<-|Hs]; [eapply better_asym; eauto | now apply H1].
        -- intros [|j] s Hj Hn; simpl in Hn; [injection Hn as <-; assumption|].
           apply (H2 j); [lia|assumption].
Qed.

Lemma joined_hconcat : forall y c, length y = length c -> hconcat y c = Some (joined y c).
Proof.
  unfold joined. induction y as [|r y IH]; intros [|s c] H; simpl in *; try discriminate; [reflexivity|].
  now rewrite IH by lia.
Qed.

Lemma joined_length y c : length y = length c -> length (joined y c) = length y.
Proof. intros H. unfold joined. rewrite map_length, combine_length. lia. Qed.

Lemma joined_app y1 c1 y2 c2 : length y1 = length c1 ->
  joined (y1 ++ y2) (c1 ++ c2) = joined y1 c1 ++ joined y2 c2.
Proof.
  unfold joined. revert c1. induction y1 as [|r y1 IH]; intros [|s c1] H; simpl in *; try discriminate; [reflexivity|].
  now rewrite IH by lia.
Qed.

Lemma is_best_row_extend tol w old new cur i : Forall (row_ok w) (old ++ new) ->
  (1 <= w)%nat -> (w - 1 <= length tol)%nat ->
  is_best_row tol old cur ->
  best_from_loop tol 0 None (nth cur old []) new = Some i ->
  is_best_row tol (old ++ new) (match i with None => cur | Some k => length old + k end)%nat.
Proof.
  intros K Hw Ht (r & Hr & Br & Fr) H.
  assert (Kold : Forall (row_ok w) old) by (apply Forall_app in K; tauto).
  assert (Knew : Forall (row_ok w) new) by (apply Forall_app in K; tauto).
  assert (Kin : forall s, In s old -> row_ok w s) by (now apply Forall_forall).
  assert (Kin' : forall s, In s new -> row_ok w s) by (now apply Forall_forall).
  assert (Hc : (cur < length old)%nat) by (apply nth_error_Some; congruence).
  rewrite (nth_error_nth _ _ [] Hr) in H.
  assert (Kr : row_ok w r) by (apply Kin; eapply nth_error_In; eauto).
  destruct (best_from_loop_run tol w Hw Ht new 0%nat None r Kr Knew) as (o & Ho & Cases).
  rewrite H in Ho. injection Ho as <-.
  destruct Cases as [[-> Hnew]|(k & m & -> & Hm & Bm & H1 & H2)].
  - exists r. split; [now rewrite nth_error_app1 by lia|]. split.
    + intros j s Hj. destruct (Nat.lt_ge_cases j (length old)).
      * rewrite nth_error_app1 in Hj by lia. eauto.
      * rewrite nth_error_app2 in Hj by lia. apply Hnew. eapply nth_error_In; eauto.
    + intros j s Hl Hj. rewrite nth_error_app1 in Hj by lia. eauto.
  - simpl. exists m. assert (Km : row_ok w m) by (apply Kin'; eapply nth_error_In; eauto).
    assert (Bold : forall s, In s old -> better tol m s).
    { intros s Hs. destruct (better_dec tol w m s Km (Kin s Hs)); [assumption|].
      exfalso. destruct (In_nth_error _ _ Hs) as [j Hj].
      eapply not_better_trans with (r1 := m) (r2 := s) (r3 := r); eauto. }
    split; [rewrite nth_error_app2 by lia; now rewrite Nat.add_comm, Nat.add_sub|]. split.
    + intros j s Hj. destruct (Nat.lt_ge_cases j (length old)).
      * rewrite nth_error_app1 in Hj by lia. assert (In s old) by (eapply nth_error_In; eauto).
        eapply better_asym; eauto.
      * rewrite nth_error_app2 in Hj by lia. apply H1. eapply nth_error_In; eauto.
    + intros j s Hl Hj. destruct (Nat.lt_ge_cases j (length old)).
      * rewrite nth_error_app1 in Hj by lia. apply Bold. eapply nth_error_In; eauto.
      * rewrite nth_error_app2 in Hj by lia. apply (H2 (j - length old)%nat); [lia|assumption].
Qed.

(** Incremental search keeps "best row of the whole history". *)
Lemma find_best_from_is_best tol w y1 c1 y2 c2 cur :
  (1 <= w)%nat -> (w - 1 <= length tol)%nat ->
  length y1 = length c1 -> length y2 = length c2 ->
  Forall (row_ok w) (joined (y1 ++ y2) (c1 ++ c2)) ->
  is_best_row tol (joined y1 c1) cur ->
  exists i, find_best_result_index_from cur (length y1) (y1 ++ y2) (c1 ++ c2) tol = Some i /\
            is_best_row tol (joined (y1 ++ y2) (c1 ++ c2)) i.
Proof.
  intros Hw Ht L1 L2 K B.
  unfold find_best_result_index_from.
  rewrite joined_hconcat by (rewrite !app_length; lia).
  rewrite joined_app in * by assumption.
  rewrite <- (joined_length y1 c1) by assumption.
  assert (E : (length (joined y1 c1) <=? length (joined y1 c1 ++ joined y2 c2)) = true)
    by (apply Nat.leb_le; rewrite app_length; lia).
  rewrite E.
  rewrite skipn_app, skipn_all, Nat.sub_diag. simpl skipn. rewrite app_nil_l.
  destruct B as (r & Hr & B).
  assert (Hc : (cur < length (joined y1 c1))%nat) by (apply nth_error_Some; congruence).
  rewrite nth_error_app1, Hr by assumption.
  assert (Kr : row_ok w r).
  { apply Forall_app in K. destruct K as [K _]. eapply Forall_forall in K; [exact K|eapply nth_error_In; eauto]. }
  assert (Knew : Forall (row_ok w) (joined y2 c2)) by (apply Forall_app in K; tauto).
  destruct (best_from_loop_run tol w Hw Ht (joined y2 c2) 0%nat None r Kr Knew) as (o & Ho & _).
  rewrite Ho.
  pose proof (is_best_row_extend tol w (joined y1 c1) (joined y2 c2) cur o K Hw Ht) as X.
  rewrite (nth_error_nth _ _ [] Hr) in X.
  specialize (X (ex_intro _ r (conj Hr B)) Ho).
  exists (match o with None => cur | Some k => length (joined y1 c1) + k end)%nat.
  destruct o; split; try reflexivity; exact X.
Qed.

(** ** Full search *)
Lemma fargmin_spec l : l <> [] -> Forall (fun v => fnan v = false) l ->
  exists i m, fargmin l = Some i /\ nth_error l i = Some m /\
   (forall j v, nth_error l j = Some v -> ord m <= ord v) /\
   (forall j v, (j < i)%nat -> nth_error l j = Some v -> ord m < ord v).
Proof.
  intros Hl Hn. unfold fargmin.
  assert (E : existsb fnan l = false).
  { apply not_true_is_false. rewrite existsb_exists. intros (v & Hv & Nv).
    eapply Forall_forall in Hn; [|exact Hv]. congruence. }
  rewrite E. destruct (argmin_by_some flt l Hl) as [i Hi].
  destruct (argmin_by_spec flt (fun v => fnan v = false)) with (l := l) (i := i) as (m & Hm & H1 & H2); try assumption.
  - intros a Na. apply flt_ordF; auto; lra.
  - intros a b c Na Nb Nc. rewrite !flt_ord by assumption. lra.
  - intros a b c Na Nb Nc. rewrite !flt_ordF by assumption. lra.
  - exists i, m. rewrite Forall_forall in Hn.
    assert (Nm : fnan m = false) by (apply Hn; eapply nth_error_In; eauto).
    repeat split; try assumption.
    + intros j v Hj. apply flt_ordF; eauto. apply Hn; eapply nth_error_In; eauto.
    + intros j v Hl' Hj. apply flt_ord; eauto. apply Hn; eapply nth_error_In; eauto.
Qed.

Lemma feas_scan_spec : forall l pre index ybest,
  (forall p, In p (pre ++ l) -> fnan (snd p) = false) ->
  fnan ybest = false ->
  ((ybest = finf /\ index = 0%nat /\ forall p, In p pre -> feq (fst p) fzero = true -> ord (snd p) = ord finf) \/
   (exists p, nth_error pre index = Some p /\ feq (fst p) fzero = true /\ snd p = ybest /\ ord ybest < ord finf /\
     (forall q, In q pre -> feq (fst q) fzero = true -> ord ybest <= ord (snd q)) /\
     (forall j q, (j < index)%nat -> nth_error pre j = Some q -> feq (fst q) fzero = true -> ord ybest < ord (snd q)))) ->
  (feas_scan (length pre) index ybest l = 0%nat /\
    forall p, In p (pre ++ l) -> feq (fst p) fzero = true -> ord (snd p) = ord finf) \/
  (exists p, nth_error (pre ++ l) (feas_scan (length pre) index ybest l) = Some p /\ feq (fst p) fzero = true /\
     ord (snd p) < ord finf /\
     (forall q, In q (pre ++ l) -> feq (fst q) fzero = true -> ord (snd p) <= ord (snd q)) /\
     (forall j q, (j < feas_scan (length pre) index ybest l)%nat -> nth_error (pre ++ l) j = Some q ->
        feq (fst q) fzero = true -> ord (snd p) < ord (snd q))).
Proof.
  induction l as [|[cs o] l IH]; intros pre index ybest Hn Ny Inv.
  - rewrite app_nil_r in *. simpl. destruct Inv as [(-> & -> & H)|(p & Hp & Fp & <- & Hi & H1 & H2)].
    + left. split; [reflexivity|assumption].
    + right. exists p. repeat split; assumption.
  - replace (pre ++ (cs, o) :: l) with ((pre ++ [(cs, o)]) ++ l) in * by (rewrite <- app_assoc; reflexivity).
    simpl feas_scan.
    replace (S (length pre)) with (length (pre ++ [(cs, o)])) by (rewrite app_length; simpl; lia).
    assert (No : fnan o = false).
    { apply (Hn (cs, o)). apply in_or_app. left. apply in_or_app. right. now left. }
    assert (Nb : index = 0%nat \/ (index < length pre)%nat).
    { destruct Inv as [(_ & -> & _)|(p & Hp & _)]; [left; reflexivity|right; apply nth_error_Some; congruence]. }
    destruct (feq cs fzero && flt o ybest) eqn:E.
    + apply andb_true_iff in E. destruct E as [Ec Eo]. apply flt_ord in Eo; [|assumption|assumption].
      apply IH; try assumption. right. exists (cs, o).
      assert (ord ybest <= ord finf) by (rewrite ord_finf; apply ord_bound).
      split; [rewrite nth_error_app2, Nat.sub_diag by lia; reflexivity|].
      split; [assumption|]. split; [reflexivity|]. split; [lra|].
      assert (Pre : forall q, In q pre -> feq (fst q) fzero = true -> ord o < ord (snd q)).
      { intros q Hq Fq. destruct Inv as [(-> & _ & H')|(p & _ & _ & _ & _ & H1 & _)].
        - rewrite (H' q Hq Fq). assumption.
        - pose proof (H1 q Hq Fq). lra. }
      split.
      * intros q Hq Fq. apply in_app_or in Hq. destruct Hq as [Hq|[<-|[]]]; [|simpl; lra].
        apply Rlt_le. auto.
      * intros j q Hj Hq Fq. rewrite nth_error_app1 in Hq by lia. apply Pre; [eapply nth_error_In; eauto|assumption].
    + apply IH; try assumption.
      assert (Last : feq cs fzero = true -> ord ybest <= ord o).
      { intros Ec. rewrite Ec in E. simpl in E. now apply flt_ordF in E. }
      destruct Inv as [(-> & -> & H)|(p & Hp & Fp & Ep & Hi & H1 & H2)].
      * left. split; [reflexivity|]. split; [reflexivity|].
        intros q Hq Fq. apply in_app_or in Hq. destruct Hq as [Hq|[<-|[]]]; [auto|].
        simpl in *. pose proof (Last Fq). pose proof (ord_bound o). rewrite ord_finf in *. lra.
      * right. exists p. assert ((index < length pre)%nat) by (apply nth_error_Some; congruence).
        split; [rewrite nth_error_app1 by lia; assumption|].
        split; [assumption|]. split; [assumption|]. split; [assumption|]. split.
        -- intros q Hq Fq. apply in_app_or in Hq. destruct Hq as [Hq|[<-|[]]]; [auto|]. simpl in *. auto.
        -- intros j q Hj Hq Fq. rewrite nth_error_app1 in Hq by lia. eauto.
Qed.

Lemma find_best_constrained tol w rows y c ycols ccols :
  (1 <= w)%nat -> (w - 1 <= length tol)%nat -> hconcat y c = Some rows -> rows <> [] ->
  Forall (row_ok w) rows -> ((1 <? ycols) || (0 <? ccols) = true) ->
  no_infinite_trap tol rows ->
  exists i, find_best_result_index ycols ccols y c tol = Some i /\ is_best_row tol rows i.
Proof.
  intros Hw Ht HC Hne K Hcols Htrap. unfold find_best_result_index. rewrite Hcols, HC.
  set (c_obj := map (fun r => (csum_zip fzero (tl r) tol, nth 0 r fNaN)) rows).
  assert (Efst : map fst c_obj = map (fun r => violation tol (constraints r)) rows).
  { unfold c_obj. rewrite map_map. apply map_ext. intros r. simpl. apply csum_zip_fold. }
  rewrite Efst. set (vs := map (fun r => violation tol (constraints r)) rows) in *.
  assert (Hvs : vs <> []) by (unfold vs; destruct rows; [congruence|discriminate]).
  assert (Nvs : Forall (fun v => fnan v = false) vs).
  { unfold vs. rewrite Forall_map, Forall_forall. intros r _. apply violation_facts. }
  destruct (fargmin_spec vs Hvs Nvs) as (m & v & -> & Hm & Hmin & Hfirst).
  rewrite (nth_error_nth _ _ fNaN Hm).
  assert (Kin : forall r, In r rows -> row_ok w r) by (now apply Forall_forall).
  assert (Hrow : forall j u, nth_error vs j = Some u -> exists r, nth_error rows j = Some r /\ u = violation tol (constraints r)).
  { intros j u Hj. unfold vs in Hj. rewrite nth_error_map in Hj. destruct (nth_error rows j); [|discriminate].
    injection Hj as <-. eauto. }
  assert (Hvs' : forall j r, nth_error rows j = Some r -> nth_error vs j = Some (violation tol (constraints r))).
  { intros j r Hj. unfold vs. rewrite nth_error_map, Hj. reflexivity. }
  destruct (Hrow _ _ Hm) as (r & Hr & Ev).
  assert (Nv : fnan v = false) by (subst v; apply violation_facts).
  assert (Pv : 0 <= ord v) by (subst v; apply violation_facts).
  unfold fgt. destruct (flt fzero v) eqn:E.
  - apply flt_ord in E; [|reflexivity|assumption]. rewrite ord_fzero in E.
    exists m. split; [reflexivity|]. exists r. split; [assumption|].
    assert (Kr : row_ok w r) by (apply Kin; eapply nth_error_In; eauto). split.
    + intros j s Hj. assert (Ks : row_ok w s) by (apply Kin; eapply nth_error_In; eauto).
      rewrite (better_rank tol w s r Ks Kr). unfold vio. rewrite <- Ev.
      pose proof (Hmin _ _ (Hvs' _ _ Hj)). intuition lra.
    + intros j s Hl Hj. assert (Ks : row_ok w s) by (apply Kin; eapply nth_error_In; eauto).
      rewrite (better_rank tol w r s Kr Ks). unfold vio. rewrite <- Ev.
      pose proof (Hfirst _ _ Hl (Hvs' _ _ Hj)). left. lra.
  - apply flt_ordF in E; [|reflexivity|assumption]. rewrite ord_fzero in E.
    assert (Fr : feasible tol (constraints r)) by (apply feasible_violation; rewrite <- Ev; lra).
    destruct Htrap as [(g & Hg & Fg & Og)|Hno].
    2:{ exfalso. apply (Hno r); [eapply nth_error_In; eauto|assumption]. }
    eexists. split; [reflexivity|].
    assert (Cn : forall j p, nth_error c_obj j = Some p -> exists s, nth_error rows j = Some s /\
              fst p = violation tol (constraints s) /\ snd p = objective s).
    { intros j p Hj. unfold c_obj in Hj. rewrite nth_error_map in Hj. destruct (nth_error rows j) as [s|]; [|discriminate].
      injection Hj as <-. exists s. repeat split. simpl. apply csum_zip_fold. }
    assert (Cr : forall j s, nth_error rows j = Some s -> nth_error c_obj j = Some (violation tol (constraints s), objective s)).
    { intros j s Hj. unfold c_obj. rewrite nth_error_map, Hj. simpl. now rewrite csum_zip_fold. }
    assert (Fz : forall s, feq (violation tol (constraints s)) fzero = true <-> feasible tol (constraints s)).
    { intros s. rewrite feq_ord by (try apply violation_facts; reflexivity). rewrite ord_fzero. symmetry. apply feasible_violation. }
    destruct (feas_scan_spec c_obj [] 0%nat finf) as [(_ & Hinf)|(p & Hp & Fp & Op & H1 & H2)].
    + intros p Hp. simpl in Hp. destruct (In_nth_error _ _ Hp) as [j Hj]. destruct (Cn _ _ Hj) as (s & Hs & _ & ->).
      apply (Kin s); eapply nth_error_In; eauto.
    + reflexivity.
    + left. repeat split. intros p [].
    + exfalso. destruct (In_nth_error _ _ Hg) as [j Hj].
      assert (ord (objective g) = ord finf).
      { apply (Hinf (violation tol (constraints g), objective g)); [exact (nth_error_In _ _ (Cr _ _ Hj))|].
        now apply Fz. }
      apply flt_ord in Og; [lra|apply Kin; assumption|reflexivity].
    + simpl app in *. simpl length in *. destruct (Cn _ _ Hp) as (s & Hs & E1 & E2).
      exists s. split; [assumption|].
      assert (Ks : row_ok w s) by (apply Kin; eapply nth_error_In; eauto).
      rewrite E1 in Fp. rewrite E2 in *. assert (Fs : vio tol s = 0) by (apply feasible_violation; now apply Fz). split.
      * intros j u Hj. assert (Ku : row_ok w u) by (apply Kin; eapply nth_error_In; eauto).
        rewrite (better_rank tol w u s Ku Ks). intros [B|(B1 & B2 & B3)].
        -- pose proof (vio_nonneg tol u). lra.
        -- assert (ord (objective s) <= ord (objective u)).
           { apply (H1 (violation tol (constraints u), objective u)); [eapply nth_error_In; eauto|].
             apply Fz. now apply feasible_violation. }
           unfold obj in B3. lra.
      * intros j u Hl Hj. assert (Ku : row_ok w u) by (apply Kin; eapply nth_error_In; eauto).
        rewrite (better_rank tol w s u Ks Ku).
        destruct (feasible_dec tol (constraints u)) as [Fu|Fu].
        -- right. split; [assumption|]. split; [now apply feasible_violation|].
           apply (H2 j (violation tol (constraints u), objective u)); [assumption|now apply Cr|now apply Fz].
        -- left. apply infeasible_violation in Fu. fold (vio tol u) in Fu. lra.
Qed.

Lemma find_best_unconstrained tol rows : rows <> [] -> Forall (row_ok 1) rows ->
  exists i, find_best_result_index 1 0 rows (map (fun _ => []) rows) tol = Some i /\ is_best_row tol rows i.
Proof.
  intros Hne K. unfold find_best_result_index. simpl orb. cbv iota.
  set (os := map (fun r => nth 0 r fNaN) rows).
  assert (Kin : forall r, In r rows -> row_ok 1 r) by (now apply Forall_forall).
  destruct (fargmin_spec os) as (i & o & -> & Hi & Hmin & Hfirst).
  - unfold os; destruct rows; [congruence|discriminate].
  - unfold os. rewrite Forall_map, Forall_forall. intros r Hr. now apply Kin.
  - unfold os in Hi. rewrite nth_error_map in Hi. destruct (nth_error rows i) as [r|] eqn:Hr; [|discriminate].
    injection Hi as <-.
    assert (Z : forall s, row_ok 1 s -> vio tol s = 0).
    { intros [|x [|? ?]] [L _]; simpl in L; try discriminate. reflexivity. }
    assert (Kr : row_ok 1 r) by (apply Kin; eapply nth_error_In; eauto).
    exists i. split; [reflexivity|]. exists r. split; [assumption|]. split.
    + intros j s Hj. assert (Ks : row_ok 1 s) by (apply Kin; eapply nth_error_In; eauto).
      rewrite (better_rank tol 1 s r Ks Kr), !Z by assumption.
      assert (obj r <= obj s) by (apply (Hmin j); unfold os; rewrite nth_error_map, Hj; reflexivity).
      intuition lra.
    + intros j s Hl Hj. assert (Ks : row_ok 1 s) by (apply Kin; eapply nth_error_In; eauto).
      rewrite (better_rank tol 1 r s Kr Ks), !Z by assumption.
      assert (obj r < obj s) by (apply (Hfirst j); [assumption|]; unfold os; rewrite nth_error_map, Hj; reflexivity).
      intuition lra.
Qed.

Lemma history_rows ycols ccols tol y c : history_ok ycols ccols tol y c ->
  Forall (row_ok (ycols + ccols)) (joined y c).
Proof.
  intros [H1 _ L Hy Hc Ho]. unfold joined. rewrite Forall_map, Forall_forall. intros [r s] Hin.
  rewrite Forall_forall in Hy, Hc, Ho.
  pose proof (in_combine_l _ _ _ _ Hin) as Il. pose proof (in_combine_r _ _ _ _ Hin) as Ir.
  pose proof (Hy r Il) as Lr. pose proof (Ho r Il) as Nr. split.
  - simpl. rewrite app_length, (Hy r Il), (Hc s Ir). reflexivity.
  - simpl. unfold objective in *. destruct r; simpl in *; [lia|assumption].
Qed.

Lemma joined_nil_c y c : length y = length c -> Forall (fun r => length r = 0%nat) c -> joined y c = y.
Proof.
  unfold joined. revert c. induction y as [|r y IH]; intros [|s c] L H; simpl in *; try discriminate; [reflexivity|].
  inversion H; subst. destruct s; [|discriminate]. rewrite app_nil_r. rewrite IH; [reflexivity|lia|assumption].
Qed.

Lemma find_best_correct ycols ccols tol y c : history_ok ycols ccols tol y c -> y <> [] ->
  (ycols + ccols = 1)%nat \/ no_infinite_trap tol (joined y c) ->
  exists i, find_best_result_index ycols ccols y c tol = Some i /\ is_best_row tol (joined y c) i.
Proof.
  intros H Hne Htrap. pose proof (history_rows _ _ _ _ _ H) as K. destruct H as [H1 Ht L Hy Hc Ho].
  destruct ((1 <? ycols) || (0 <? ccols)) eqn:E.
  - destruct Htrap as [X|Htrap].
    { apply orb_true_iff in E. rewrite !Nat.ltb_lt in E. lia. }
    apply (find_best_constrained tol (ycols + ccols)); try assumption; try lia.
    + now apply joined_hconcat.
    + intro X. apply (f_equal (@length _)) in X. rewrite joined_length in X by assumption. destruct y; simpl in *; [congruence|lia].
  - apply orb_false_iff in E. rewrite !Nat.ltb_ge in E.
    assert (ycols = 1%nat) by lia. assert (ccols = 0%nat) by lia. subst.
    rewrite (joined_nil_c y c L Hc) in *.
    destruct (find_best_unconstrained tol y Hne K) as (i & Hi & B).
    exists i. split; [|assumption].
    replace c with (map (fun _ : list f64 => @nil f64) y); [exact Hi|].
    clear -L Hc. revert c L Hc. induction y as [|r y IH]; intros [|s c] L Hc; simpl in *; try discriminate; [reflexivity|].
    inversion Hc; subst. destruct s; [|discriminate]. f_equal. apply IH; [lia|assumption].
Qed.

Lemma history_app_inv ycols ccols tol y1 c1 y2 c2 : length y1 = length c1 -> length y2 = length c2 ->
  history_ok ycols ccols tol (y1 ++ y2) (c1 ++ c2) -> history_ok ycols ccols tol y1 c1.
Proof.
  intros L1 L2 [? ? L Hy Hc Ho]. apply Forall_app in Hy, Hc, Ho. constructor; tauto.
Qed.

Lemma incremental_search ycols ccols tol y1 c1 y2 c2 : length y1 = length c1 -> length y2 = length c2 -> y1 <> [] ->
  history_ok ycols ccols tol (y1 ++ y2) (c1 ++ c2) ->
  (ycols + ccols = 1)%nat \/
   (no_infinite_trap tol (joined y1 c1) /\ no_infinite_trap tol (joined (y1 ++ y2) (c1 ++ c2))) ->
  exists cur i,
    find_best_result_index ycols ccols y1 c1 tol = Some cur /\
    find_best_result_index_from cur (length y1) (y1 ++ y2) (c1 ++ c2) tol = Some i /\
    find_best_result_index ycols ccols (y1 ++ y2) (c1 ++ c2) tol = Some i.
Proof.
  intros L1 L2 Hne H Htrap.
  pose proof (history_rows _ _ _ _ _ H) as K.
  destruct (find_best_correct ycols ccols tol y1 c1) as (cur & Hcur & Bcur).
  { eapply history_app_inv; eauto. } { assumption. } { tauto. }
  destruct (find_best_from_is_best tol (ycols + ccols) y1 c1 y2 c2 cur) as (i & Hi & Bi); try assumption.
  { destruct H; lia. } { destruct H; lia. }
  destruct (find_best_correct ycols ccols tol (y1 ++ y2) (c1 ++ c2)) as (j & Hj & Bj); try assumption.
  { destruct y1; [congruence|discriminate]. } { tauto. }
  assert (i = j) by (eapply is_best_row_unique; eauto). subst j. eauto.
Qed.

(** ** [is_feasible] *)
Lemma is_feasible_correct y c tol ycols ccols : (1 <= ycols)%nat -> length y = ycols -> length c = ccols ->
  (ycols + ccols - 1 <= length tol)%nat ->
  exists b, is_feasible y c tol = Some b /\ (b = true <-> feasible tol (constraints (y ++ c))).
Proof.
  intros H1 Ly Lc Ht. unfold is_feasible.
  destruct (1 <? length (y ++ c)) eqn:E.
  - rewrite cstr_sum_violation.
    + eexists. split; [reflexivity|]. rewrite feq_ord by (try apply violation_facts; reflexivity).
      rewrite ord_fzero. symmetry. apply feasible_violation.
    + intro X. apply (f_equal (@length _)) in X. rewrite app_length in X. simpl in X. lia.
    + unfold constraints. destruct (y ++ c) eqn:X; simpl; [lia|].
      apply (f_equal (@length _)) in X. rewrite app_length in X. simpl in X. lia.
  - exists true. split; [reflexivity|]. split; [|reflexivity]. intros _.
    apply Nat.ltb_ge in E. destruct (y ++ c) as [|? [|? ?]]; simpl in E; try lia;
      intros [|i] ? ? X; discriminate.
Qed.

Lemma feasible_no_nan tol cs : Forall (fun c => fnan c = false) cs -> Forall (fun t => fnan t = false) tol ->
  (feasible tol cs <-> forall i c t, nth_error cs i = Some c -> nth_error tol i = Some t -> fle c t = true).
Proof.
  intros Nc Nt. rewrite Forall_forall in Nc, Nt. unfold feasible, violates.
  split; intros H i c t Hc Ht; specialize (H i c t Hc Ht);
    pose proof (Nc c (nth_error_In _ _ Hc)) as A; pose proof (Nt t (nth_error_In _ _ Ht)) as B.
  - apply fle_ord; try assumption. apply not_true_is_false in H. now apply flt_ordF in H.
  - apply fle_ord in H; try assumption. rewrite flt_ord by assumption. lra.
Qed.

(** ** Statements used by the property file *)
Lemma width_pos ycols ccols tol y c : history_ok ycols ccols tol y c -> (1 <= ycols + ccols)%nat.
Proof. intros [H _ _ _ _ _]. lia. Qed.

Lemma best_is_feasible tol w rows i r g : Forall (row_ok w) rows -> is_best_row tol rows i ->
  nth_error rows i = Some r -> In g rows -> feasible tol (constraints g) -> feasible tol (constraints r).
Proof.
  intros K (r' & Hr' & B & _) Hr Hg Fg. rewrite Hr in Hr'. injection Hr' as <-.
  destruct (feasible_dec tol (constraints r)) as [|N]; [assumption|].
  exfalso. destruct (In_nth_error _ _ Hg) as [j Hj]. apply (B j g Hj). right. left. tauto.
Qed.

Lemma feasible_wins ycols ccols tol y c : history_ok ycols ccols tol y c ->
  (exists r, In r (joined y c) /\ feasible tol (constraints r) /\ flt (objective r) finf = true) ->
  exists i r, find_best_result_index ycols ccols y c tol = Some i /\
    nth_error (joined y c) i = Some r /\ feasible tol (constraints r).
Proof.
  intros H (g & Hg & Fg & Og).
  assert (Hne : y <> []) by (intros ->; destruct Hg).
  destruct (find_best_correct ycols ccols tol y c H Hne) as (i & Hi & B).
  { right. left. eauto. }
  destruct B as (r & Hr & B). exists i, r. split; [assumption|]. split; [assumption|].
  apply (best_is_feasible tol _ (joined y c) i r g (history_rows _ _ _ _ _ H)); try assumption. exists r. auto.
Qed.

Lemma cstr_min_preorder tol w : (1 <= w)%nat -> (w - 1 <= length tol)%nat ->
  (forall r, row_ok w r -> cstr_min r r tol = Some Eq) /\
  (forall r s, row_ok w r -> row_ok w s ->
     exists o, cstr_min r s tol = Some o /\ cstr_min s r tol = Some (CompOpp o)) /\
  (forall r s t, row_ok w r -> row_ok w s -> row_ok w t ->
     cstr_min r s tol <> Some Gt -> cstr_min s t tol <> Some Gt -> cstr_min r t tol <> Some Gt) /\
  (forall r s, row_ok w r -> row_ok w s -> (cstr_min r s tol = Some Lt <-> better tol r s)).
Proof.
  intros Hw Ht. repeat split.
  - intros r K. destruct (cstr_min_spec tol w r r Hw Ht K K) as (c & -> & HL & HG).
    f_equal. destruct c; [reflexivity| |]; exfalso.
    + assert (B : better tol r r) by tauto. exact (better_asym _ _ _ _ K K B B).
    + assert (B : better tol r r) by tauto. exact (better_asym _ _ _ _ K K B B).
  - intros r s K1 K2.
    destruct (cstr_min_spec tol w r s Hw Ht K1 K2) as (c & -> & HL & HG).
    destruct (cstr_min_spec tol w s r Hw Ht K2 K1) as (d & -> & HL' & HG').
    exists c. split; [reflexivity|]. f_equal.
    destruct c, d; simpl; try reflexivity; exfalso; intuition discriminate.
  - intros r s t Kr Ks Kt.
    destruct (cstr_min_spec tol w r s Hw Ht Kr Ks) as (c1 & -> & _ & G1).
    destruct (cstr_min_spec tol w s t Hw Ht Ks Kt) as (c2 & -> & _ & G2).
    destruct (cstr_min_spec tol w r t Hw Ht Kr Kt) as (c3 & -> & _ & G3).
    intros N1 N2 E3. injection E3 as ->.
    apply (not_better_trans tol w t s r Kt Ks Kr); [| |tauto].
    + intro B. apply N2. f_equal. tauto.
    + intro B. apply N1. f_equal. tauto.
  - intros E. destruct (cstr_min_spec tol w r s Hw Ht H H0) as (c & E' & HL & _).
    rewrite E' in E. injection E as ->. tauto.
  - intros B. destruct (cstr_min_spec tol w r s Hw Ht H H0) as (c & -> & HL & _).
    f_equal. tauto.
Qed.

Lemma is_feasible_iff y c tol :
  (1 <= length y)%nat -> (length y + length c - 1 <= length tol)%nat ->
  Forall (fun v => fnan v = false) (constraints (y ++ c)) -> Forall (fun t => fnan t = false) tol ->
  exists b, is_feasible y c tol = Some b /\
   (b = true <-> forall i v t, nth_error (constraints (y ++ c)) i = Some v -> nth_error tol i = Some t ->
                               fle v t = true).
Proof.
  intros H1 H2 Nc Nt.
  destruct (is_feasible_correct y c tol _ _ H1 eq_refl eq_refl H2) as (b & Hb & E).
  exists b. split; [assumption|]. rewrite E. now apply feasible_no_nan.
Qed.

(** Boolean check of [history_ok], to discharge it on concrete histories by computation. *)
Definition history_okb (ycols ccols : nat) (tol : list f64) (y c : list (list f64)) : bool :=
  (1 <=? ycols) && (ycols + ccols - 1 <=? length tol) && (length y =? length c)
  && forallb (fun r => length r =? ycols) y && forallb (fun r => length r =? ccols) c
  && forallb (fun r => negb (fnan (objective r))) y.

Lemma history_okb_sound ycols ccols tol y c : history_okb ycols ccols tol y c = true ->
  history_ok ycols ccols tol y c.
Proof.
  unfold history_okb. rewrite !andb_true_iff, !forallb_forall. intros (((((H1 & H2) & H3) & H4) & H5) & H6).
  constructor.
  - now apply Nat.leb_le.
  - now apply Nat.leb_le.
  - now apply Nat.eqb_eq.
  - apply Forall_forall. intros r Hr. now apply Nat.eqb_eq, H4.
  - apply Forall_forall. intros r Hr. now apply Nat.eqb_eq, H5.
  - apply Forall_forall. intros r Hr. apply negb_true_iff. now apply H6.
Qed.

Definition feasibleb (tol cs : list f64) : bool :=
  match excesses tol cs with [] => true | _ => false end.
Lemma feasibleb_spec tol cs : feasibleb tol cs = true <-> feasible tol cs.
Proof. rewrite feasible_excesses. unfold feasibleb. destruct (excesses tol cs); split; congruence. Qed.
Lemma feasibleb_specF tol cs : feasibleb tol cs = false <-> ~ feasible tol cs.
Proof. rewrite feasible_excesses. unfold feasibleb. destruct (excesses tol cs); split; congruence. Qed.
