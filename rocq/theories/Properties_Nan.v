(** C144: evaluations of the objective that are not numbers. *)
From Coq Require Import ZArith Reals Lra List Arith Bool Lia.
From Verif Require Import F64 Util FindResult_Model FindResult_Spec FindResult_Proofs UpdateData_Model UpdateData_Spec UpdateData_Proofs
  Ego_Model Ego_Spec Ego_Proofs Ego_Run Ego_Examples Properties_FindResult.
Import ListNotations.
Local Open Scope nat_scope.

(** A row whose objective is not a number, with a number instead. *)
Definition numbered (r : list f64) : list f64 := if fnan (objective r) then fzero :: tl r else r.
Definition tame (tol : list f64) (w : nat) (r : list f64) : Prop :=
  length r = w /\ (fnan (objective r) = true -> ~ feasible tol (constraints r)).
Lemma numbered_tl r : tl (numbered r) = tl r.
Proof. unfold numbered. destruct (fnan (objective r)); reflexivity. Qed.
Lemma numbered_ok tol w r : 1 <= w -> tame tol w r -> row_ok w (numbered r).
Proof.
  intros W (L & _). unfold numbered, row_ok. destruct (fnan (objective r)) eqn:N; [|now split].
  split; [|reflexivity]. destruct r; cbn in *; lia.
Qed.
Lemma numbered_better tol w r s : tame tol w r -> tame tol w s -> better tol (numbered r) (numbered s) <-> better tol r s.
Proof.
  intros (_ & R) (_ & S). unfold better, constraints in *. rewrite !numbered_tl. unfold numbered.
  destruct (fnan (objective r)) eqn:Nr; [specialize (R eq_refl)|]; (destruct (fnan (objective s)) eqn:Ns; [specialize (S eq_refl)|]); tauto.
Qed.
Lemma numbered_best tol w rows i : Forall (tame tol w) rows -> is_best_row tol (map numbered rows) i <-> is_best_row tol rows i.
Proof.
  intros F. rewrite Forall_forall in F. assert (T : forall j r, nth_error rows j = Some r -> tame tol w r) by (intros; eapply F, nth_error_In; eauto).
  unfold is_best_row. split.
  - intros (r' & E & A & B). rewrite nth_error_map in E. destruct (nth_error rows i) as [r|] eqn:Er; [|discriminate]. injection E as <-.
    exists r. split; [reflexivity|]. split.
    + intros j s Hj. rewrite <- (numbered_better tol w) by eauto. apply (A j). now rewrite nth_error_map, Hj.
    + intros j s Lj Hj. rewrite <- (numbered_better tol w) by eauto. apply (B j); [exact Lj|]. now rewrite nth_error_map, Hj.
  - intros (r & E & A & B). exists (numbered r). split; [now rewrite nth_error_map, E|]. split.
    + intros j s Hj. rewrite nth_error_map in Hj. destruct (nth_error rows j) as [s'|] eqn:Es; [|discriminate]. injection Hj as <-.
      rewrite (numbered_better tol w) by eauto. eauto.
    + intros j s Lj Hj. rewrite nth_error_map in Hj. destruct (nth_error rows j) as [s'|] eqn:Es; [|discriminate]. injection Hj as <-.
      rewrite (numbered_better tol w) by eauto. eauto.
Qed.
Lemma numbered_cmp tol w r s : 2 <= w -> w - 1 <= length tol -> tame tol w r -> tame tol w s ->
  cstr_min (numbered r) (numbered s) tol = cstr_min r s tol.
Proof.
  intros W Lt Tr Ts. pose proof Tr as (Lr & R). pose proof Ts as (Ls & S).
  destruct (numbered_ok tol w r ltac:(lia) Tr) as (Lr' & Nr'). destruct (numbered_ok tol w s ltac:(lia) Ts) as (Ls' & Ns').
  unfold cstr_min. rewrite Lr, Lr'. destruct (1 <? w) eqn:E; [|apply Nat.ltb_ge in E; lia].
  assert (Q : forall r, length r = w -> cstr_sum r tol = Some (violation tol (constraints r))).
  { intros q Lq. destruct q as [|o cs]; [cbn in Lq; lia|]. apply cstr_sum_violation; [discriminate|]. cbn in *. lia. }
  rewrite !Q by assumption. unfold constraints in *. rewrite !numbered_tl.
  destruct (fgt _ fzero && fgt _ fzero); [reflexivity|].
  destruct (feq (violation tol (tl r)) fzero && feq (violation tol (tl s)) fzero) eqn:F; [|reflexivity].
  apply andb_true_iff in F. destruct F as [Fr Fs].
  assert (Z : forall q, feq (violation tol (tl q)) fzero = true -> feasible tol (tl q)).
  { intros q Hq. apply feasible_violation. apply feq_ord in Hq; [|apply violation_facts|reflexivity]. now rewrite ord_fzero in Hq. }
  unfold numbered. destruct (fnan (objective r)) eqn:Nr; [elim (R eq_refl); now apply Z|].
  destruct (fnan (objective s)) eqn:Ns; [elim (S eq_refl); now apply Z|]. reflexivity.
Qed.
Lemma numbered_loop tol w : 2 <= w -> w - 1 <= length tol -> forall rows i best cur, tame tol w cur -> Forall (tame tol w) rows ->
  best_from_loop tol i best (numbered cur) (map numbered rows) = best_from_loop tol i best cur rows.
Proof.
  intros W Lt rows. induction rows as [|r rows IH]; intros i best cur Tc F; [reflexivity|]. inversion F as [|? ? Tr F']; subst.
  cbn [map best_from_loop]. rewrite (numbered_cmp tol w r cur W Lt Tr Tc). destruct (cstr_min r cur tol) as [[]|]; [| | |reflexivity]; now apply IH.
Qed.
Lemma joined_nil rows : joined rows (map (fun _ => []) rows) = rows.
Proof. unfold joined. induction rows as [|r rows IH]; [reflexivity|]. cbn [combine map fst snd]. rewrite app_nil_r. f_equal. exact IH. Qed.
Lemma full_rows ycols ccols tol y c rows : 1 < ycols \/ 0 < ccols -> length y = length c -> joined y c = rows ->
  find_best_result_index ycols ccols y c tol = find_best_result_index 2 0 rows (map (fun _ => []) rows) tol.
Proof.
  intros W L J. unfold find_best_result_index.
  replace ((1 <? ycols) || (0 <? ccols)) with true by (symmetry; apply orb_true_iff; rewrite !Nat.ltb_lt; exact W).
  rewrite !joined_hconcat by (rewrite ?map_length; congruence). rewrite joined_nil, J. reflexivity.
Qed.
Lemma incr_rows cur offset tol y c rows : length y = length c -> joined y c = rows ->
  find_best_result_index_from cur offset y c tol = find_best_result_index_from cur offset rows (map (fun _ => []) rows) tol.
Proof.
  intros L J. unfold find_best_result_index_from. rewrite !joined_hconcat by (rewrite ?map_length; congruence). now rewrite joined_nil, J.
Qed.

(** C144, partial: with constraints, and objectives that are not numbers at infeasible points only, both searches of the best point give
    the best point. Missing: feasible points, see below. *)
Theorem C144_infeasible_partial : forall tol w y1 c1 y2 c2 cur, 2 <= w -> w - 1 <= length tol ->
  length y1 = length c1 -> length y2 = length c2 ->
  (forall r, In r (joined (y1 ++ y2) (c1 ++ c2)) ->
     length r = w /\ (fnan (objective r) = true -> ~ feasible tol (constraints r))) ->
  is_best_row tol (joined y1 c1) cur ->
  exists i, find_best_result_index_from cur (length y1) (y1 ++ y2) (c1 ++ c2) tol = Some i /\
            is_best_row tol (joined (y1 ++ y2) (c1 ++ c2)) i.
Proof.
  intros tol w y1 c1 y2 c2 cur W Lt L1 L2 T B.
  assert (F : Forall (tame tol w) (joined (y1 ++ y2) (c1 ++ c2))) by (apply Forall_forall; exact T).
  rewrite joined_app in F by assumption. apply Forall_app in F. destruct F as [F1 F2].
  set (r1 := joined y1 c1) in *. set (r2 := joined y2 c2) in *.
  assert (Ln : length r1 = length y1) by (apply joined_length; exact L1).
  destruct (find_best_from_is_best tol w (map numbered r1) (map (fun _ => []) (map numbered r1)) (map numbered r2) (map (fun _ => []) (map numbered r2)) cur) as (i & E & H);
    try lia; try (now rewrite !map_length).
  - rewrite joined_app by (now rewrite !map_length). rewrite !joined_nil. apply Forall_app.
    split; apply Forall_map; eapply Forall_impl; try eassumption; intros; eapply numbered_ok; eauto; lia.
  - rewrite joined_nil. now apply (numbered_best tol w).
  - exists i. rewrite joined_app in * by (rewrite ?map_length; assumption || reflexivity). fold r1 r2. rewrite !joined_nil in H. split.
    + rewrite <- E. rewrite (incr_rows cur (length y1) tol _ _ (r1 ++ r2)) by (rewrite ?app_length; try lia; now apply joined_app).
      rewrite !map_length, Ln. rewrite <- !map_app. unfold find_best_result_index_from.
      rewrite !joined_hconcat by (now rewrite ?map_length). rewrite !joined_nil, map_length.
      destruct (length y1 <=? length (r1 ++ r2)); [|reflexivity]. rewrite nth_error_map.
      destruct (nth_error (r1 ++ r2) cur) as [rc|] eqn:Ec; [|reflexivity]. cbn [option_map]. rewrite skipn_map.
      assert (Fa : Forall (tame tol w) (r1 ++ r2)) by (apply Forall_app; now split).
      rewrite (numbered_loop tol w W Lt); [reflexivity| |].
      * rewrite Forall_forall in Fa. eapply Fa, nth_error_In; eauto.
      * rewrite <- (firstn_skipn (length y1) (r1 ++ r2)) in Fa. apply Forall_app in Fa. apply Fa.
    + rewrite <- map_app in H. apply (proj1 (numbered_best tol w (r1 ++ r2) i (proj2 (Forall_app _ _ _) (conj F1 F2)))). exact H.
Qed.
Print Assumptions C144_infeasible_partial.

(** The initial design of a constrained problem may have objectives that are not numbers anywhere: a run starts, and if some
    feasible point has an objective below infinity its best point is feasible, with no feasible objective lower. *)
Theorem C144_design_partial : forall cfg fobj fcstr doe, 1 < cfg.(c_wy) \/ 0 < cfg.(c_wc) -> doe <> [] ->
  (forall x, length (fobj x) = cfg.(c_wy)) -> (forall x, length (fcstr x) = cfg.(c_wc)) -> 1 <= cfg.(c_wy) ->
  cfg.(c_wy) + cfg.(c_wc) - 1 <= length (run_tol cfg) ->
  exists st r, init cfg fobj fcstr cfg.(c_wx) doe = Some st /\ nth_error (results st) st.(s_best) = Some r /\
    ((exists s, In s (results st) /\ feasible (run_tol cfg) (constraints s) /\ flt (objective s) finf = true) ->
       feasible (run_tol cfg) (constraints r) /\ flt (objective r) finf = true /\
       forall s, In s (results st) -> feasible (run_tol cfg) (constraints s) -> flt (objective s) (objective r) = false).
Proof.
  intros cfg fobj fcstr doe W Ne Wy Wc Py T. unfold init. rewrite Nat.eqb_refl. fold (run_tol cfg).
  change default_cstr_tol with (fdiv fone (fofZ 10000)).
  change (match c_cstr_tol cfg with Some t => t | None => repeat (fdiv fone (fofZ 10000)) (c_wy cfg - 1 + c_wc cfg) end) with (run_tol cfg).
  assert (L : length (map fobj doe) = length (map fcstr doe)) by (now rewrite !map_length).
  destruct (C01_any_values (c_wy cfg) (c_wc cfg) (run_tol cfg) (map fobj doe) (map fcstr doe) W L) as (i & r & E & N & H & _).
  { destruct doe; [congruence|discriminate]. }
  rewrite E. assert (Li : i < length doe).
  { assert (X : i < length (joined (map fobj doe) (map fcstr doe))) by (apply nth_error_Some; congruence).
    rewrite joined_length in X by exact L. now rewrite map_length in X. }
  rewrite !nth_error_map. destruct (nth_error doe i) as [x|] eqn:Ex; [|apply nth_error_None in Ex; lia]. cbn [option_map].
  assert (Fe : exists b, (if c_use_pof cfg then is_feasible (fobj x) (fcstr x) (run_tol cfg) else Some true) = Some b).
  { destruct (c_use_pof cfg); [|now exists true].
    destruct (is_feasible_correct (fobj x) (fcstr x) (run_tol cfg) (c_wy cfg) (c_wc cfg)) as (b & Eb & _); try apply Wy; try apply Wc; try lia.
    now exists b. }
  destruct Fe as (b & ->). unfold update. cbn [s_x s_y s_best]. rewrite Ex, nth_error_map, Ex. cbn [option_map].
  eexists. exists r. split; [reflexivity|]. cbn [s_best set_best_param set_best_cost set_last_best_iter results s_y s_c]. split; [exact N|exact H].
Qed.
Print Assumptions C144_design_partial.

(** C144. Finding: without constraints, a single objective of the initial design that is not a number is a panic. *)
Theorem C144_design_refuted : forall cfg fobj fcstr doe x, cfg.(c_wy) = 1 -> cfg.(c_wc) = 0 ->
  In x doe -> fnan (objective (fobj x)) = true -> init cfg fobj fcstr cfg.(c_wx) doe = None.
Proof.
  intros cfg fobj fcstr doe x Wy Wc I N. unfold init. rewrite Nat.eqb_refl, Wy, Wc. unfold find_best_result_index. cbn [Nat.ltb Nat.leb orb].
  unfold fargmin. replace (existsb fnan (map (fun r => nth 0 r fNaN) (map fobj doe))) with true; [reflexivity|].
  symmetry. apply existsb_exists. exists (objective (fobj x)). split; [|exact N]. rewrite map_map.
  exact (in_map (fun x => nth 0 (fobj x) fNaN) _ _ I).
Qed.
Print Assumptions C144_design_refuted.

Lemma loop_nan tol best cur r rows i : length r = 1 -> fnan (objective r) = true -> best_from_loop tol i best cur (r :: rows) = None.
Proof.
  intros L N. destruct r as [|o [|]]; try discriminate. cbn [objective nth] in N. cbn [best_from_loop]. unfold cstr_min. cbn [length Nat.ltb Nat.leb obj_cmp].
  destruct cur as [|b cur]; [reflexivity|]. destruct o; try discriminate. reflexivity.
Qed.
(** C144. Finding: so is an evaluation of new points: a run of a problem without constraints that goes on panics at the next
    step if the objective is not a number at the points proposed, one of them away from the points already evaluated. *)
Theorem C144_step_refuted : forall cfg fobj fcstr orc cols doe k st fobj' x,
  run_ok cfg fobj fcstr orc cols doe -> cfg.(c_wy) = 1 -> cfg.(c_wc) = 0 -> cfg.(c_trego) = false ->
  reached cfg fobj fcstr orc cols doe k st -> goes_on st ->
  let proposals := b_x (o_batch orc st.(s_iter) 0) in
  In x proposals -> (forall p q, In p (st.(s_x) ++ proposals) -> In q proposals -> near p q -> p = q) -> ~ In x st.(s_x) ->
  (forall p, length (fobj' p) = 1) -> (forall p, In p proposals -> fnan (objective (fobj' p)) = true) ->
  exec_step cfg fobj' fcstr orc st = None.
Proof.
  intros cfg fobj fcstr orc cols doe k st fobj' x (PO & OO & DO) Wy Wc Tr H Go. cbv zeta. intros Ix Far Nx Wf Nan.
  pose proof (reached_inv cfg fobj fcstr orc cols doe PO OO DO k st H) as I.
  apply goes_on_iff in Go. destruct Go as [S Te]. unfold exec_step, terminated. rewrite S, Te. unfold next_iter. rewrite Tr.
  unfold ego_iteration. rewrite (i_retries _ _ I S). cbn [ego_loop].
  destruct OO as [OB _]. pose proof (OB (s_iter st) 0) as B.
  set (b := o_batch orc (s_iter st) 0) in *. pose proof (bo_wx _ _ B) as Wx. pose proof (bo_y _ _ B) as By. pose proof (bo_wy _ _ B) as Bw.
  set (proposals := b_x b) in *. clearbody proposals.
  destruct (scaled_rows fcstr proposals (b_scales b)) as [cd|] eqn:Ec; [|reflexivity].
  assert (Cd : width 0 cd /\ length cd = length proposals).
  { revert cd Ec. generalize (b_scales b). pose proof (po_fcstr _ _ _ PO) as Pf. rewrite Wc in Pf. generalize proposals. clear - Pf.
    intros l. induction l as [|p l IH]; intros [|s ss] cd E; try discriminate.
    - injection E as <-. split; [constructor|reflexivity].
    - cbn [scaled_rows] in E. specialize (Pf p). destruct (fcstr p); [|discriminate]. cbn [scaled] in E.
      destruct (scaled_rows fcstr l ss) as [rs|] eqn:Er; [|discriminate]. injection E as <-. destruct (IH ss rs Er) as [A D].
      split; [constructor; [reflexivity|exact A]|cbn; now rewrite D]. }
  destruct Cd as [Wcd Lcd].
  destruct (update_data_spec (c_wx cfg) (c_wy cfg) (c_wc cfg) (s_x st) (s_y st) (s_c st) proposals (b_y b) cd) as (x' & y' & c' & new & E & P).
  { apply (po_wx _ _ _ PO). } { now symmetry. } { symmetry. exact Lcd. } { apply (i_wx _ _ I). } { exact Wx. } { exact Bw. }
  { now rewrite Wc. }
  rewrite E. cbv beta iota. assert (Np : forall (A B : option state), match proposals with [] => A | _ :: _ => B end = B) by (intros; destruct proposals; [destruct Ix|reflexivity]).
  rewrite Np. clear Np.
  destruct P as (Px & Py & Pc & (Inc & _) & _ & Rej).
  destruct new as [|n0 new].
  { exfalso. apply In_nth_error in Ix. destruct Ix as [i Hi]. assert (Li : i < length proposals) by (apply nth_error_Some; congruence).
    destruct (Rej i Li) as (q & Iq & Nq); [intros []|]. cbn [filter rows_at map] in Iq. rewrite app_nil_r in Iq.
    rewrite (nth_error_nth _ _ _ Hi) in Nq. assert (q = x); [|subst; auto].
    apply Far; [apply in_or_app; now left|eapply nth_error_In; eauto|exact Nq]. }
  set (nw := n0 :: new) in *. assert (K : length nw =? 0 = false) by reflexivity. rewrite K.
  set (rx := rows_at proposals nw) in *. assert (Lr : length rx = length nw) by (unfold rx, rows_at; now rewrite map_length).
  assert (Sx : skipn (length x' - length nw) x' = rx).
  { rewrite Px, app_length, Lr. replace (length (s_x st) + length nw - length nw) with (length (s_x st)) by lia.
    rewrite skipn_app, skipn_all, Nat.sub_diag. reflexivity. }
  rewrite Sx. assert (Oy : overwrite_last (length nw) (map fobj' rx) y' = s_y st ++ map fobj' rx).
  { unfold overwrite_last. rewrite Py, app_length. unfold rows_at. rewrite map_length.
    replace (length (s_y st) + length nw - length nw) with (length (s_y st)) by lia. rewrite firstn_app, firstn_all, Nat.sub_diag. cbn [firstn]. now rewrite app_nil_r. }
  rewrite Oy. unfold find_best_result_index_from.
  assert (Ly : length (s_y st ++ map fobj' rx) = length c').
  { rewrite Pc, !app_length, map_length, Lr. unfold rows_at. rewrite map_length. rewrite (i_y _ _ I), (i_c _ _ I). reflexivity. }
  rewrite joined_hconcat by exact Ly. rewrite joined_length by exact Ly. rewrite app_length, map_length, Lr.
  replace (length (s_y st) + length nw - length nw) with (length (s_y st)) by lia.
  destruct (length (s_y st) <=? _); [|reflexivity]. destruct (nth_error _ (s_best st)) as [cur|]; [|reflexivity].
  assert (Sk : exists r rest, skipn (length (s_y st)) (joined (s_y st ++ map fobj' rx) c') = r :: rest /\ length r = 1 /\ fnan (objective r) = true).
  { rewrite Pc. rewrite joined_app by (now rewrite (i_y _ _ I), (i_c _ _ I)).
    rewrite skipn_app, joined_length by (now rewrite (i_y _ _ I), (i_c _ _ I)). rewrite Nat.sub_diag, skipn_all2 by (rewrite joined_length; [lia|now rewrite (i_y _ _ I), (i_c _ _ I)]).
    unfold rx, nw, rows_at. cbn [map joined combine app skipn fst snd]. eexists. eexists. split; [reflexivity|].
    assert (Ln0 : n0 < length proposals) by (apply Inc; now left).
    assert (Z : nth n0 cd [] = []).
    { destruct (nth_error cd n0) as [v|] eqn:V; [|apply nth_error_None in V; lia]. rewrite (nth_error_nth _ _ _ V).
      unfold width in Wcd. rewrite Forall_forall in Wcd. specialize (Wcd v (nth_error_In _ _ V)). now destruct v. }
    rewrite Z, app_nil_r. split; [apply Wf|]. apply Nan. now apply nth_In. }
  destruct Sk as (r & rest & -> & Lr1 & Nr). rewrite loop_nan by assumption. reflexivity.
Qed.
Print Assumptions C144_step_refuted.

(** The hypotheses are met by a run without constraints: objective x^2, points 3 and 4, then the proposals 2.5 and 2. *)
Definition n_cfg : config := mkConfig 1 1 0 false (fofZ 2) (fmake 1 (-1)) 1 4 (fofZ (-1000)) None true.
Definition n_orc : oracle := ex_orc [[fmake 5 (-1)]; [fofZ 2]].
Definition n_nan (x : row) : row := [if flt (nth 0 x fzero) (fofZ 3) then fNaN else fofZ 9].
Example C144_example : run_ok n_cfg ex_obj (fun _ => []) n_orc 1 ex_doe /\ exists st, reached n_cfg ex_obj (fun _ => []) n_orc 1 ex_doe 0 st /\
  goes_on st /\ exec_step n_cfg n_nan (fun _ => []) n_orc st = None /\ exists st', exec_step n_cfg ex_obj (fun _ => []) n_orc st = Some st'.
Proof.
  split.
  - split; [|split].
    + constructor; try (simpl; lia); try reflexivity. intros x. unfold ex_obj, objective. simpl. destruct (fnan (fmul _ _)) eqn:E; [reflexivity|exact E].
    + split; [|reflexivity]. intros [|i] a; constructor; simpl; try congruence; try reflexivity; unfold width; repeat constructor; simpl; lia.
    + constructor; [discriminate|repeat constructor|now left|intros H; now elim H|now left].
  - destruct (init n_cfg ex_obj (fun _ => []) 1 ex_doe) as [st|] eqn:E.
    2:{ exfalso. assert (X : match init n_cfg ex_obj (fun _ => []) 1 ex_doe with Some _ => true | None => false end = true) by (vm_compute; reflexivity).
        rewrite E in X. discriminate X. }
    exists st. split; [exists st; split; [exact E|reflexivity]|].
    assert (X : match init n_cfg ex_obj (fun _ => []) 1 ex_doe with Some st => goes_onb st &&
       match exec_step n_cfg n_nan (fun _ => []) n_orc st with None => true | _ => false end &&
       match exec_step n_cfg ex_obj (fun _ => []) n_orc st with None => false | _ => true end | None => false end = true) by (vm_compute; reflexivity).
    rewrite E in X. apply andb_true_iff in X. destruct X as [X X3]. apply andb_true_iff in X. destruct X as [X1 X2].
    split; [now apply goes_onb_spec|]. split; [now destruct (exec_step n_cfg n_nan _ _ st)|].
    destruct (exec_step n_cfg ex_obj _ _ st) as [st'|]; [now exists st'|discriminate].
Qed.
(** A constrained design with a first objective that is not a number. *)
Example C144_design_example : exists st, init (mkConfig 1 1 1 false (fofZ 2) (fmake 1 (-1)) 1 4 (fofZ (-1000)) None true)
   (fun x => [if flt (nth 0 x fzero) (fofZ 4) then fNaN else fofZ 9]) ex_cstr 1 ex_doe = Some st /\ st.(s_best) = 1.
Proof.
  set (i := init _ _ _ _ _). assert (X : match i with Some st => s_best st =? 1 | None => false end = true) by (vm_compute; reflexivity).
  destruct i as [st|]; [|discriminate]. exists st. split; [reflexivity|now apply Nat.eqb_eq].
Qed.
