(** Properties C01-C05: ranking of results and search of the best one. *)
From Coq Require Import ZArith Reals Lra List Arith Bool.
From Verif Require Import F64 Util FindResult_Model FindResult_Spec FindResult_Proofs.
Import ListNotations.

(** C01. The full search returns the best row of the history: no row is strictly better and all earlier
    rows are strictly worse. Missing for the full claim: nothing when an objective below +infinity exists
    among the feasible rows (or no row is feasible, or there is no constraint). *)
Theorem C01_best_is_optimal : forall ycols ccols tol y c,
  history_ok ycols ccols tol y c -> y <> [] ->
  ycols + ccols = 1 \/ no_infinite_trap tol (joined y c) ->
  exists i, find_best_result_index ycols ccols y c tol = Some i /\ is_best_row tol (joined y c) i.
Proof. exact find_best_correct. Qed.
Print Assumptions C01_best_is_optimal.

(** The best row is unique, so the previous theorem determines the returned index. *)
Theorem C01_best_is_unique : forall ycols ccols tol y c i j,
  history_ok ycols ccols tol y c ->
  is_best_row tol (joined y c) i -> is_best_row tol (joined y c) j -> i = j.
Proof.
  intros ycols ccols tol y c i j H. exact (is_best_row_unique tol _ _ i j (history_rows _ _ _ _ _ H)).
Qed.
Print Assumptions C01_best_is_unique.

(** With constraints, objectives and constraints may be anything, NaN included: the search never fails on a non-empty history. If some
    feasible row has an objective below +infinity, the row found is feasible and no feasible row has a lower objective; if no row is
    feasible, no row has a lower violation. *)
Definition clean (o : f64) : f64 := if fnan o then finf else o.
Lemma clean_nan o : fnan (clean o) = false.
Proof. unfold clean. destruct (fnan o) eqn:N; [reflexivity|exact N]. Qed.
Lemma nan_lt (o b : f64) : fnan o = true -> flt o b = false.
Proof. destruct o; try discriminate. reflexivity. Qed.
Lemma inf_lt (b : f64) : flt finf b = false.
Proof. destruct b as [s|s| |s m e H]; try destruct s; reflexivity. Qed.
Lemma clean_lt o b : flt (clean o) b = flt o b.
Proof. unfold clean. destruct (fnan o) eqn:N; [|reflexivity]. rewrite (nan_lt o b N). apply inf_lt. Qed.
Lemma scan_clean l : forall i index b, feas_scan i index b (map (fun p => (fst p, clean (snd p))) l) = feas_scan i index b l.
Proof.
  induction l as [|[v o] l IH]; intros i index b; [reflexivity|]. cbn [map feas_scan fst snd]. rewrite clean_lt.
  destruct (feq v fzero); cbn [andb]; [|apply IH]. destruct (flt o b) eqn:E; [|apply IH].
  rewrite IH. unfold clean. destruct (fnan o) eqn:N; [|reflexivity]. rewrite (nan_lt o b N) in E. discriminate.
Qed.
Theorem C01_any_values : forall ycols ccols tol y c, 1 < ycols \/ 0 < ccols -> length y = length c -> y <> [] ->
  exists i r, find_best_result_index ycols ccols y c tol = Some i /\ nth_error (joined y c) i = Some r /\
    ((exists s, In s (joined y c) /\ feasible tol (constraints s) /\ flt (objective s) finf = true) ->
       feasible tol (constraints r) /\ flt (objective r) finf = true /\
       forall s, In s (joined y c) -> feasible tol (constraints s) -> flt (objective s) (objective r) = false) /\
    ((forall s, In s (joined y c) -> ~ feasible tol (constraints s)) ->
       forall s, In s (joined y c) -> flt (violation tol (constraints s)) (violation tol (constraints r)) = false).
Proof.
  intros ycols ccols tol y c W L Ne. unfold find_best_result_index.
  replace ((1 <? ycols) || (0 <? ccols)) with true by (symmetry; apply orb_true_iff; rewrite !Nat.ltb_lt; exact W).
  rewrite joined_hconcat by exact L. cbv beta iota zeta.
  assert (Nr : joined y c <> []) by (destruct y, c; try discriminate; congruence).
  set (rows := joined y c) in *. clearbody rows. clear y c L Ne W.
  set (c_obj := map (fun r => (csum_zip fzero (tl r) tol, nth 0 r fNaN)) rows).
  assert (Ec : c_obj = map (fun r => (violation tol (constraints r), objective r)) rows)
    by (apply map_ext; intros r; f_equal; apply csum_zip_fold).
  assert (Efst : map fst c_obj = map (fun r => violation tol (constraints r)) rows) by (rewrite Ec, map_map; reflexivity).
  rewrite Efst. destruct (fargmin_spec (map (fun r => violation tol (constraints r)) rows)) as (m & v & Em & Hm & Hmin & _).
  { destruct rows; [congruence|discriminate]. }
  { apply Forall_map, Forall_forall. intros r _. apply violation_facts. }
  rewrite Em, (nth_error_nth _ _ fNaN Hm). pose proof Hm as Hr. rewrite nth_error_map in Hr.
  destruct (nth_error rows m) as [r|] eqn:Er; [|discriminate]. injection Hr as <-.
  pose proof (violation_facts tol (constraints r)) as (Nv & Pv & _ & _).
  assert (Hmin' : forall s, In s rows -> (ord (violation tol (constraints r)) <= ord (violation tol (constraints s)))%R).
  { intros s Hs. apply In_nth_error in Hs. destruct Hs as [j Hj]. apply (Hmin j). now rewrite nth_error_map, Hj. }
  unfold fgt. destruct (flt fzero (violation tol (constraints r))) eqn:P.
  - exists m, r. split; [reflexivity|]. split; [exact Er|]. apply flt_ord in P; [|reflexivity|exact Nv]. rewrite ord_fzero in P. split.
    + intros (s & Hs & Fs & _). apply feasible_violation in Fs. specialize (Hmin' s Hs). lra.
    + intros _ s Hs. apply flt_ordF; [apply violation_facts|exact Nv|]. apply (Hmin' s Hs).
  - apply flt_ordF in P; [|reflexivity|exact Nv]. rewrite ord_fzero in P.
    assert (Fr : feasible tol (constraints r)) by (apply feasible_violation; lra).
    rewrite <- (scan_clean c_obj).
    assert (Fz : forall s, feq (violation tol (constraints s)) fzero = true <-> feasible tol (constraints s)).
    { intros s. rewrite feq_ord by (try apply violation_facts; reflexivity). rewrite ord_fzero. symmetry. apply feasible_violation. }
    set (cl := map (fun p => (fst p, clean (snd p))) c_obj).
    assert (El : cl = map (fun s => (violation tol (constraints s), clean (objective s))) rows) by (unfold cl; rewrite Ec, map_map; reflexivity).
    destruct (feas_scan_spec cl [] 0 finf) as [(E0 & Hinf)|(p & Hp & Fp & Op & H1 & _)].
    + intros p Hp. cbn [app] in Hp. rewrite El in Hp. apply in_map_iff in Hp. destruct Hp as (s & <- & _). apply clean_nan.
    + reflexivity.
    + left. split; [reflexivity|]. split; [reflexivity|]. intros p [].
    + cbn [length] in E0. rewrite E0. destruct rows as [|r0 rows]; [congruence|]. exists 0, r0. split; [reflexivity|]. split; [reflexivity|]. split.
      * intros (s & Hs & Fs & Os). exfalso.
        assert (Hp : In (violation tol (constraints s), clean (objective s)) ([] ++ cl)) by (rewrite El; exact (in_map _ _ _ Hs)).
        specialize (Hinf _ Hp (proj2 (Fz s) Fs)). cbn [snd] in Hinf. rewrite <- (clean_lt (objective s)) in Os.
        apply flt_ord in Os; [|apply clean_nan|reflexivity]. lra.
      * intros H. exfalso. apply (H r); [eapply nth_error_In; eauto|exact Fr].
    + cbn [app length] in *. pose proof Hp as Hs. set (k := feas_scan 0 0 finf cl) in *. rewrite El, nth_error_map in Hs.
      destruct (nth_error rows k) as [s|] eqn:Es; [|discriminate]. injection Hs as <-. cbn [fst snd] in *.
      exists k, s. split; [reflexivity|]. split; [exact Es|]. split.
      * intros _. split; [now apply Fz|].
        assert (Oi : flt (objective s) finf = true) by (rewrite <- clean_lt; apply flt_ord; [apply clean_nan|reflexivity|exact Op]).
        split; [exact Oi|].
        assert (Ns : fnan (objective s) = false) by (destruct (fnan (objective s)) eqn:N; [rewrite nan_lt in Oi by exact N; discriminate|reflexivity]).
        intros q Hq Fq. rewrite <- clean_lt. apply flt_ordF; [apply clean_nan|exact Ns|].
        assert (In (violation tol (constraints q), clean (objective q)) cl) as I by (rewrite El; exact (in_map _ _ _ Hq)).
        specialize (H1 _ I (proj2 (Fz q) Fq)). cbn [snd] in H1. unfold clean in H1 at 1. rewrite Ns in H1. exact H1.
      * intros H. exfalso. apply (H r); [eapply nth_error_In; eauto|exact Fr].
Qed.
Print Assumptions C01_any_values.
(** A history whose first objective is NaN. *)
Example C01_any_example : find_best_result_index 2 0 [[fNaN; fofZ (-1)]; [fofZ 3; fofZ (-1)]; [fofZ 2; fofZ 4]] [[]; []; []] [fzero] = Some 1.
Proof. vm_compute. reflexivity. Qed.

(** A constrained history: objectives 3, 1, 2; one metamodelled constraint and one function constraint
    with tolerance 0.5: row 1 has the lowest objective but is infeasible, row 2 is the best. *)
Definition ex_tol := [fmake 1 (-1); fmake 1 (-1)].
Definition ex_y := [[fofZ 3; fofZ 0]; [fofZ 1; fofZ 1]; [fofZ 2; fmake 1 (-2)]].
Definition ex_c := [[fofZ (-1)]; [fofZ 0]; [fmake 1 (-1)]].

Example C01_hypotheses_met : history_ok 2 1 ex_tol ex_y ex_c /\ ex_y <> [] /\
  no_infinite_trap ex_tol (joined ex_y ex_c) /\
  find_best_result_index 2 1 ex_y ex_c ex_tol = Some 2.
Proof.
  split; [|split; [discriminate|split; [|vm_compute; reflexivity]]].
  - apply history_okb_sound. vm_compute. reflexivity.
  - left. eexists. split; [left; reflexivity|]. split; [|vm_compute; reflexivity].
    apply feasibleb_spec. vm_compute. reflexivity.
Qed.

(** C02. Finding: when every feasible objective is +infinity the search may return an infeasible point. *)
Theorem C02_infinite_objectives_refuted : exists ycols ccols tol y c i,
  history_ok ycols ccols tol y c /\
  (exists r, In r (joined y c) /\ feasible tol (constraints r)) /\
  find_best_result_index ycols ccols y c tol = Some i /\
  exists r, nth_error (joined y c) i = Some r /\ ~ feasible tol (constraints r).
Proof.
  exists 2, 0, [fzero], [[fofZ 1; fofZ 1]; [finf; fofZ (-1)]], [[]; []], 0.
  split; [|split; [|split; [vm_compute; reflexivity|]]].
  - apply history_okb_sound. vm_compute. reflexivity.
  - eexists. split; [right; left; reflexivity|]. apply feasibleb_spec. vm_compute. reflexivity.
  - eexists. split; [reflexivity|]. apply feasibleb_specF. vm_compute. reflexivity.
Qed.
Print Assumptions C02_infinite_objectives_refuted.

(** C02, partial: with at least one feasible objective below +infinity, the point reported is feasible.
    Missing: the case where all feasible objectives are +infinity, refuted above. *)
Theorem C02_feasible_wins_partial : forall ycols ccols tol y c,
  history_ok ycols ccols tol y c ->
  (exists r, In r (joined y c) /\ feasible tol (constraints r) /\ flt (objective r) finf = true) ->
  exists i r, find_best_result_index ycols ccols y c tol = Some i /\
    nth_error (joined y c) i = Some r /\ feasible tol (constraints r).
Proof. exact feasible_wins. Qed.
Print Assumptions C02_feasible_wins_partial.
(** The best point is infeasible, one of the feasible points has an infinite objective. *)
Definition ex_inf := [[finf; fofZ 0]; [fofZ 1; fofZ 1]; [fofZ 2; fmake 1 (-2)]].
Example C02_example : history_ok 2 1 ex_tol ex_inf ex_c /\ find_best_result_index 2 1 ex_inf ex_c ex_tol = Some 2 /\
  exists r, In r (joined ex_inf ex_c) /\ feasible ex_tol (constraints r) /\ flt (objective r) finf = true.
Proof.
  split; [apply history_okb_sound; vm_compute; reflexivity|]. split; [vm_compute; reflexivity|].
  exists [fofZ 2; fmake 1 (-2); fmake 1 (-1)]. split; [right; right; left; reflexivity|]. split; [|vm_compute; reflexivity].
  apply feasibleb_spec. vm_compute. reflexivity.
Qed.

(** C03. Finding: with infinite feasible objectives (C02) the two searches may differ. *)
Theorem C03_incremental_is_full_refuted : exists ycols ccols tol y1 c1 y2 c2 cur i j,
  length y1 = length c1 /\ length y2 = length c2 /\ y1 <> [] /\
  history_ok ycols ccols tol (y1 ++ y2) (c1 ++ c2) /\
  find_best_result_index ycols ccols y1 c1 tol = Some cur /\
  find_best_result_index_from cur (length y1) (y1 ++ y2) (c1 ++ c2) tol = Some i /\
  find_best_result_index ycols ccols (y1 ++ y2) (c1 ++ c2) tol = Some j /\ i <> j.
Proof.
  exists 2, 0, [fzero], [[fofZ 1; fofZ 1]], [[]], [[finf; fofZ (-1)]], [[]], 0, 1, 0.
  split; [reflexivity|]. split; [reflexivity|]. split; [easy|]. split; [apply history_okb_sound; vm_compute; reflexivity|].
  repeat (split; [vm_compute; reflexivity|]). easy.
Qed.
Print Assumptions C03_incremental_is_full_refuted.

(** C03, partial: searching only the new rows from the current best gives the index of the full search.
    Missing: histories whose feasible objectives are all +infinity, refuted above. *)
Theorem C03_incremental_is_full_partial : forall ycols ccols tol y1 c1 y2 c2,
  length y1 = length c1 -> length y2 = length c2 -> y1 <> [] ->
  history_ok ycols ccols tol (y1 ++ y2) (c1 ++ c2) ->
  ycols + ccols = 1 \/
   (no_infinite_trap tol (joined y1 c1) /\ no_infinite_trap tol (joined (y1 ++ y2) (c1 ++ c2))) ->
  exists cur i,
    find_best_result_index ycols ccols y1 c1 tol = Some cur /\
    find_best_result_index_from cur (length y1) (y1 ++ y2) (c1 ++ c2) tol = Some i /\
    find_best_result_index ycols ccols (y1 ++ y2) (c1 ++ c2) tol = Some i.
Proof. exact incremental_search. Qed.
Print Assumptions C03_incremental_is_full_partial.

(** The incremental search alone needs no assumption on infinities: from the best of the old rows it
    returns the best of all rows. *)
Theorem C03_incremental_is_best : forall ycols ccols tol y1 c1 y2 c2 cur,
  length y1 = length c1 -> length y2 = length c2 ->
  history_ok ycols ccols tol (y1 ++ y2) (c1 ++ c2) ->
  is_best_row tol (joined y1 c1) cur ->
  exists i, find_best_result_index_from cur (length y1) (y1 ++ y2) (c1 ++ c2) tol = Some i /\
            is_best_row tol (joined (y1 ++ y2) (c1 ++ c2)) i.
Proof.
  intros ycols ccols tol y1 c1 y2 c2 cur L1 L2 H.
  exact (find_best_from_is_best tol (ycols + ccols) y1 c1 y2 c2 cur
    (width_pos _ _ _ _ _ H) (ho_tol _ _ _ _ _ H) L1 L2 (history_rows _ _ _ _ _ H)).
Qed.
Print Assumptions C03_incremental_is_best.

Example C03_example :
  find_best_result_index 2 1 (firstn 2 ex_y) (firstn 2 ex_c) ex_tol = Some 0 /\
  find_best_result_index_from 0 2 ex_y ex_c ex_tol = Some 2.
Proof. vm_compute. split; reflexivity. Qed.

(** C04. The comparison of results never panics on rows of equal width with non-NaN objectives and is a
    total preorder: reflexive, antisymmetric under swapping, transitive; and it is the ranking [better]. *)
Theorem C04_total_preorder : forall tol w, 1 <= w -> w - 1 <= length tol ->
  (forall r, row_ok w r -> cstr_min r r tol = Some Eq) /\
  (forall r s, row_ok w r -> row_ok w s ->
     exists o, cstr_min r s tol = Some o /\ cstr_min s r tol = Some (CompOpp o)) /\
  (forall r s t, row_ok w r -> row_ok w s -> row_ok w t ->
     cstr_min r s tol <> Some Gt -> cstr_min s t tol <> Some Gt -> cstr_min r t tol <> Some Gt) /\
  (forall r s, row_ok w r -> row_ok w s -> (cstr_min r s tol = Some Lt <-> better tol r s)).
Proof. exact cstr_min_preorder. Qed.
Print Assumptions C04_total_preorder.

Example C04_example : row_ok 2 [fofZ 1; fNaN] /\ row_ok 2 [fofZ 0; finf] /\
  cstr_min [fofZ 1; fNaN] [fofZ 0; finf] [fzero] = Some Lt.
Proof. repeat split; vm_compute; reflexivity. Qed.

(** C05. Finding: a NaN constraint value counts as satisfied. *)
Theorem C05_nan_constraint_refuted : exists y c tol,
  length y + length c - 1 <= length tol /\ is_feasible y c tol = Some true /\
  exists i v t, nth_error (constraints (y ++ c)) i = Some v /\ nth_error tol i = Some t /\ fle v t = false.
Proof.
  exists [fofZ 1; fNaN], [], [fzero]. split; [simpl; auto|]. split; [vm_compute; reflexivity|].
  exists 0, fNaN, fzero. repeat split; vm_compute; reflexivity.
Qed.
Print Assumptions C05_nan_constraint_refuted.

(** C05, partial: without NaN, declared feasible iff every constraint is at most its tolerance.
    Missing: NaN constraint values, refuted above. *)
Theorem C05_feasible_iff_partial : forall y c tol,
  1 <= length y -> length y + length c - 1 <= length tol ->
  Forall (fun v => fnan v = false) (constraints (y ++ c)) -> Forall (fun t => fnan t = false) tol ->
  exists b, is_feasible y c tol = Some b /\
   (b = true <-> forall i v t, nth_error (constraints (y ++ c)) i = Some v -> nth_error tol i = Some t ->
                               fle v t = true).
Proof. exact is_feasible_iff. Qed.
Print Assumptions C05_feasible_iff_partial.

(** With NaN allowed: declared feasible iff no constraint value exceeds its tolerance. *)
Theorem C05_feasible_no_excess : forall y c tol,
  1 <= length y -> length y + length c - 1 <= length tol ->
  exists b, is_feasible y c tol = Some b /\ (b = true <-> feasible tol (constraints (y ++ c))).
Proof.
  intros y c tol H1 H2. exact (is_feasible_correct y c tol _ _ H1 eq_refl eq_refl H2).
Qed.
Print Assumptions C05_feasible_no_excess.

Example C05_example : is_feasible [fofZ 1; fofZ 0] [fmake 1 (-1)] ex_tol = Some true /\
  is_feasible [fofZ 1; fofZ 0] [fofZ 1] ex_tol = Some false.
Proof. vm_compute. split; reflexivity. Qed.
