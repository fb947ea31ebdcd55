(** Properties C29 to C33 and C83 to C88: mixed-integer variables. *)
From Coq Require Import ZArith Reals List Bool Arith Lia.
From Flocq Require Import Core.Core IEEE754.BinarySingleNaN.
From Verif Require Import F64 F64_Extra Util FindResult_Model FindResult_Spec FindResult_Proofs UpdateData_Spec UpdateData_Proofs
  Ego_Model Ego_Spec Ego_Proofs Ego_Run Ego_Examples Properties_Ego Mixint_Model Mixint_Spec Mixint_Proofs.
Import ListNotations.
Local Open Scope nat_scope.

(** A specification with one variable of each kind, a second categorical variable and a trailing scalar. *)
Notation ex_types := [Float fzero fone; Int (-3) 7; Ord [fofZ 1; fofZ 4; fofZ 2]; Enum 3; Enum 2; Int 0 9].
Lemma ex_usable : Forall usable ex_types.
Proof.
  assert (F : forall a, is_finite a = true -> finite a) by trivial.
  repeat (apply Forall_cons || apply Forall_nil); simpl; try lia.
  - split; apply F; vm_compute; reflexivity.
  - split; [discriminate|]. repeat (apply Forall_cons || apply Forall_nil); apply F; vm_compute; reflexivity.
Qed.
Notation ex_point := [fmake 1 (-2); fmake 5 (-1); fofZ 3; fofZ 0; fofZ 5; fofZ 5; fofZ (-1); fofZ (-2); fmake 7 (-2)].
Definition finiteb (l : list f64) : bool := forallb is_finite l.
Lemma finiteb_spec l : finiteb l = true -> Forall finite l.
Proof. unfold finiteb. rewrite forallb_forall, Forall_forall. intros H a Ha. exact (H a Ha). Qed.
Lemma ex_point_ok : point_ok ex_types ex_point.
Proof. split; [apply finiteb_spec; vm_compute; reflexivity|reflexivity]. Qed.
Definition eqs (x y : list f64) : bool := forallb (fun p => feq (fst p) (snd p)) (combine x y) && (length x =? length y).

(** C29. Casting relaxed points of the right dimension never panics and gives admissible points: integers are integers,
    ordered values belong to their lists, categorical blocks are masks; continuous variables are unchanged (see
    [nearest], which also gives C31). *)
Theorem C29_admissible : forall ts x, Forall usable ts -> Forall (point_ok ts) x ->
  exists y, cast_to_discrete_values ts x = Some y /\ Forall (admissible ts) y /\ Forall2 (nearest ts) x y.
Proof.
  intros ts x U F. destruct (cast_matrix ts x U F) as (y & E & N). exists y. split; [exact E|]. split; [|exact N].
  clear - N. induction N; constructor; [eapply nearest_admissible; eauto|assumption].
Qed.
Print Assumptions C29_admissible.

Example C29_example : Forall usable ex_types /\ Forall (point_ok ex_types) [ex_point] /\
  option_map (map (fun y => eqs y [fmake 1 (-2); fofZ 3; fofZ 4; fofZ 0; fofZ 1; fofZ 0; fofZ 1; fofZ 0; fofZ 2]))
    (cast_to_discrete_values ex_types [ex_point]) = Some [true].
Proof.
  split; [exact ex_usable|]. split; [apply Forall_cons; [exact ex_point_ok|apply Forall_nil]|]. vm_compute. reflexivity.
Qed.

(** C30. Casting twice is casting once; admissible points are unchanged (as numbers: a list may contain both zeros). *)
Theorem C30_projection : forall ts x y, Forall usable ts -> cast_to_discrete_values ts x = Some y ->
  cast_to_discrete_values ts y = Some y.
Proof. exact cast_matrix_idem. Qed.
Print Assumptions C30_projection.

Theorem C30_admissible_unchanged : forall ts x, Forall usable ts -> Forall (fun r => admissible ts r /\ Forall finite r) x ->
  exists y, cast_to_discrete_values ts x = Some y /\ Forall2 same_numbers x y.
Proof. exact cast_matrix_admissible. Qed.
Print Assumptions C30_admissible_unchanged.

Example C30_example : exists y, admissible ex_types y /\ Forall finite y /\
  (do c <- cast_row ex_types ex_point; Some (length c)) = Some 9.
Proof.
  destruct (cast_spec ex_types ex_usable ex_point (proj1 ex_point_ok) (proj2 ex_point_ok)) as (y & E & N).
  exists y. split; [eapply nearest_admissible; exact N|]. split; [|vm_compute; reflexivity].
  exact (nearest_finite _ _ _ ex_usable N (proj1 ex_point_ok)).
Qed.

(** C31. The cast of a variable is nearest: an integer within one half, an ordered value at minimal computed distance,
    a level of maximal weight. *)
Theorem C31_nearest : forall ts x y, Forall usable ts -> Forall (point_ok ts) x -> cast_to_discrete_values ts x = Some y ->
  Forall2 (nearest ts) x y.
Proof. intros ts x y U F H. destruct (cast_matrix ts x U F) as (y' & E & N). congruence. Qed.
Print Assumptions C31_nearest.

(** In exact arithmetic the ordered value is nearest up to a relative error 2^-51 (the distances are rounded). *)
Theorem C31_nearest_exact : forall v a b, Forall finite v -> finite a ->
  (Rabs (B2R a) <= bpow radix2 1022)%R -> Forall (fun r => Rabs (B2R r) <= bpow radix2 1022)%R v ->
  cast_to_discrete_values [Ord v] [[a]] = Some [[b]] ->
  In b v /\ forall r, In r v -> (Rabs (B2R a - B2R b) <= (1 + bpow radix2 (-51)) * Rabs (B2R a - B2R r))%R.
Proof.
  intros v a b F Fa Ba Bv H. unfold cast_to_discrete_values in H. cbn [mapM cast_row] in H.
  destruct (take_closest v a) as [c|] eqn:E; [|discriminate H]. injection H as <-. split.
  - unfold take_closest in E. destruct (fargmin _) as [i|]; [|discriminate E]. eapply nth_error_In. exact E.
  - now apply take_closest_real.
Qed.
Print Assumptions C31_nearest_exact.

Example C31_example : option_map (map (map (fun b => feq b (fofZ 4)))) (cast_to_discrete_values [Ord [fofZ 1; fofZ 4; fofZ 6]] [[fofZ 3]])
  = Some [[true]].
Proof. vm_compute. reflexivity. Qed.

(** C32. Finding: unfolding reads a scalar variable at its relaxed column. After a categorical variable this panics or
    silently takes the value of another variable. *)
Theorem C32_unfold_panics_refuted : exists ts x y, Forall usable ts /\ folded ts x y /\ Forall finite y /\
  unfold_with_enum_mask ts [y] = None.
Proof.
  exists [Float fzero fone; Enum 2; Float fzero fone], ([fone] ++ (one_hot 2 1) ++ [fone]), [fone; fofZ 1; fone].
  split; [|split; [|split]].
  - assert (F : forall a, is_finite a = true -> finite a) by trivial.
    repeat (apply Forall_cons || apply Forall_nil); simpl; try lia; split; apply F; vm_compute; reflexivity.
  - apply fol_float. apply fol_enum with 1; [apply one_hot_mask; lia|apply (fofZ_correct 1); simpl; lia|].
    apply fol_float, fol_nil.
  - apply finiteb_spec. vm_compute. reflexivity.
  - vm_compute. reflexivity.
Qed.
Print Assumptions C32_unfold_panics_refuted.

Theorem C32_unfold_wrong_value_refuted : exists ts x y x', Forall usable ts /\ folded ts x y /\ Forall finite y /\
  unfold_with_enum_mask ts [y] = Some [x'] /\ eqs x x' = false.
Proof.
  set (x := one_hot 2 0 ++ fofZ 7 :: one_hot 2 1 ++ []).
  destruct (unfold_with_enum_mask [Enum 2; Int 0 9; Enum 2] [[fofZ 0; fofZ 7; fofZ 1]]) as [[|x' [|]]|] eqn:E;
    [| |exfalso|exfalso].
  1: exfalso. 1,3,4: assert (Q : option_map (@length _) (unfold_with_enum_mask [Enum 2; Int 0 9; Enum 2] [[fofZ 0; fofZ 7; fofZ 1]]) = Some 1)
      by (vm_compute; reflexivity); rewrite E in Q; simpl in Q; discriminate Q.
  exists [Enum 2; Int 0 9; Enum 2], x, [fofZ 0; fofZ 7; fofZ 1], x'. split; [|split; [|split; [|split; [exact E|]]]].
  - repeat (apply Forall_cons || apply Forall_nil); simpl; lia.
  - unfold x. apply fol_enum with 0; [apply one_hot_mask; lia|apply (fofZ_correct 0); simpl; lia|]. apply fol_int.
    apply fol_enum with 1; [apply one_hot_mask; lia|apply (fofZ_correct 1); simpl; lia|]. apply fol_nil.
  - apply finiteb_spec. vm_compute. reflexivity.
  - assert (Q : option_map (map (eqs x)) (unfold_with_enum_mask [Enum 2; Int 0 9; Enum 2] [[fofZ 0; fofZ 7; fofZ 1]]) = Some [false])
      by (vm_compute; reflexivity).
    rewrite E in Q. cbn [option_map map] in Q. injection Q as Q. exact Q.
Qed.
Print Assumptions C32_unfold_wrong_value_refuted.

(** C32. Finding: folding reads the block of a categorical variable at the position of the variable, not of its block. *)
Theorem C32_fold_wrong_level_refuted : exists ts x y y', Forall usable ts /\ folded ts x y /\ Forall finite y /\
  fold_with_enum_index ts [x] = Some [y'] /\ eqs y y' = false.
Proof.
  set (x := one_hot 3 2 ++ one_hot 2 0 ++ []).
  destruct (fold_with_enum_index [Enum 3; Enum 2] [x]) as [[|y' [|]]|] eqn:E; [exfalso| |exfalso|exfalso].
  1,3,4: assert (Q : option_map (@length _) (fold_with_enum_index [Enum 3; Enum 2] [x]) = Some 1)
      by (vm_compute; reflexivity); rewrite E in Q; simpl in Q; discriminate Q.
  exists [Enum 3; Enum 2], x, [fofZ 2; fofZ 0], y'. split; [|split; [|split; [|split; [exact E|]]]].
  - repeat (apply Forall_cons || apply Forall_nil); simpl; lia.
  - unfold x. apply fol_enum with 2; [apply one_hot_mask; lia|apply (fofZ_correct 2); simpl; lia|].
    apply fol_enum with 0; [apply one_hot_mask; lia|apply (fofZ_correct 0); simpl; lia|]. apply fol_nil.
  - apply finiteb_spec. vm_compute. reflexivity.
  - assert (Q : option_map (map (eqs [fofZ 2; fofZ 0])) (fold_with_enum_index [Enum 3; Enum 2] [x]) = Some [false])
      by (vm_compute; reflexivity).
    rewrite E in Q. cbn [option_map map] in Q. injection Q as Q. exact Q.
Qed.
Print Assumptions C32_fold_wrong_level_refuted.

(** C32, partial: folding is right when at most one variable has several levels; unfolding is right, and the two
    conversions are inverse, when moreover this variable is the last one. Missing: the other layouts, refuted above. *)
Theorem C32_fold_partial : forall ts x y, Forall usable ts -> one_wide ts ->
  Forall2 (folded ts) x y -> Forall (Forall finite) y ->
  exists y', fold_with_enum_index ts x = Some y' /\ Forall2 same_numbers y y'.
Proof.
  intros ts x y U LO F Fy. unfold fold_with_enum_index. induction F as [|r u x y H F IH].
  - exists []. split; [reflexivity|constructor].
  - inversion Fy; subst. destruct (IH ltac:(assumption)) as (y' & E & S).
    destruct (fold_layout ts U LO r u H ltac:(eapply folded_finite; eauto) [] ltac:(constructor)) as (u' & Eu & Su).
    cbn [length app] in Eu. exists (u' :: y'). cbn [mapM]. change (fold_row ts r) with (fold_row_from 0 0 ts r).
    rewrite Eu, E. split; [reflexivity|]. now constructor.
Qed.
Print Assumptions C32_fold_partial.

Theorem C32_round_trip_partial : forall ts x y, Forall usable ts -> ts <> [] -> last_only ts ->
  Forall2 (folded ts) x y -> Forall (Forall finite) y ->
  unfold_with_enum_mask ts y = Some x /\
  exists y', fold_with_enum_index ts x = Some y' /\ Forall2 same_numbers y y'.
Proof.
  intros ts x y U NE LO F Fy. split.
  - unfold unfold_with_enum_mask. rewrite (continuous_dim ts NE). apply mapM_intro.
    clear Fy. induction F as [|r u x y H F IH]; constructor; [|assumption]. exact (unfold_layout ts U LO r u H []).
  - exact (C32_fold_partial ts x y U (last_only_wide ts LO) F Fy).
Qed.
Print Assumptions C32_round_trip_partial.

Example C32_fold_example : one_wide [Float fzero fone; Enum 3; Int 0 9; Enum 1; Ord [fone]].
Proof. unfold one_wide. simpl. lia. Qed.

Example C32_example : last_only [Float fzero fone; Int 0 9; Enum 3] /\
  folded [Float fzero fone; Int 0 9; Enum 3] (fone :: fofZ 7 :: one_hot 3 2 ++ []) [fone; fofZ 7; fofZ 2].
Proof.
  split.
  - exists [Float fzero fone; Int 0 9], [Enum 3]. split; [reflexivity|]. split; [|simpl; lia].
    repeat (apply Forall_cons || apply Forall_nil); reflexivity.
  - apply fol_float, fol_int. apply fol_enum with 2; [apply one_hot_mask; lia|apply (fofZ_correct 2); simpl; lia|apply fol_nil].
Qed.

(** C33. The relaxed bounds have one row per scalar variable and per level, as computed by the relaxed dimension; every
    point of the domain is within these bounds, and casting a point within the bounds gives a point of the domain, hence
    again within the bounds. *)
Theorem C33_dimension : forall ts, ts <> [] ->
  compute_continuous_dim ts = Some (length (as_continuous_limits ts)) /\
  length (as_continuous_limits ts) = list_sum (map (fun t => match t with Enum n => n | _ => 1 end) ts).
Proof. intros ts NE. rewrite (limits_length ts). split; [exact (continuous_dim ts NE)|reflexivity]. Qed.
Print Assumptions C33_dimension.

Theorem C33_domain_within : forall ts x, Forall usable ts -> in_domain ts x -> within_limits (as_continuous_limits ts) x.
Proof. intros ts x U. exact (domain_within ts U x). Qed.
Print Assumptions C33_domain_within.

Theorem C33_cast_within : forall ts x, Forall usable ts -> Forall (within_limits (as_continuous_limits ts)) x ->
  exists y, cast_to_discrete_values ts x = Some y /\ Forall (in_domain ts) y /\
            Forall (within_limits (as_continuous_limits ts)) y.
Proof. exact cast_matrix_domain. Qed.
Print Assumptions C33_cast_within.

Definition withinb (lims : list (f64 * f64)) (x : list f64) : bool :=
  (length lims =? length x) && forallb (fun p => fle (fst (fst p)) (snd p) && fle (snd p) (snd (fst p))) (combine lims x).
Example C33_example : compute_continuous_dim ex_types = Some 9 /\
  withinb (as_continuous_limits ex_types) [fmake 1 (-2); fmake 5 (-1); fofZ 3; fofZ 0; fmake 1 (-1); fofZ 1; fofZ 1; fofZ 0; fmake 7 (-2)] = true.
Proof. split; vm_compute; reflexivity. Qed.

(** C83. Finding: in mixed-integer runs the same design may be evaluated several times, because the duplicate test is
    made on relaxed points. Here an integer variable: both 2 and 2.25 are added and evaluated at 2. *)
Notation ex_int := [Int 0 9].
Definition ex_eval (x : list f64) : list f64 :=
  match to_discrete_row ex_int x with Some u => ex_obj u | None => ex_obj x end.
Notation orcI := (ex_orc [[fofZ 2]; [fmake 9 (-2)]]).
Lemma I_ok : run_ok cfgA ex_eval ex_cstr orcI 1 ex_doe.
Proof.
  destruct (ex_run_ok ex_cstr false (fmake 1 (-1)) (fofZ (-1000)) 1 4 [[fofZ 2]; [fmake 9 (-2)]]) as (PO & OO & DO);
    [now left|discriminate|repeat constructor|].
  split; [|split; [exact OO|]].
  - destruct PO as [P1 P2 P3 P4 P5 P6]. constructor; try assumption.
    + intros x. unfold ex_eval. destruct (to_discrete_row ex_int x); apply P3.
    + intros x. unfold ex_eval. destruct (to_discrete_row ex_int x); apply P4.
  - destruct DO as [D1 D2 D3 D4 D5]. constructor; try assumption. right.
    left. exists (ex_eval [fofZ 3] ++ ex_cstr [fofZ 3]). split; [left; reflexivity|]. split.
    + apply feasibleb_spec. vm_compute. reflexivity.
    + vm_compute. reflexivity.
Qed.

Lemma Some_inj (A : Type) (a b : A) : Some a = Some b -> a = b.
Proof. congruence. Qed.

Theorem C83_same_design_refuted : exists ts cfg f fobj fcstr orc cols doe k st i j xi xj u,
  Forall usable ts /\ (forall x v, to_discrete_row ts x = Some v -> fobj x = f v) /\
  run_ok cfg fobj fcstr orc cols doe /\ reached cfg fobj fcstr orc cols doe k st /\
  length doe <= i /\ i < j /\ nth_error st.(s_x) i = Some xi /\ nth_error st.(s_x) j = Some xj /\
  to_discrete_row ts xi = Some u /\ to_discrete_row ts xj = Some u /\ st.(s_evals) = length st.(s_x).
Proof.
  destruct (C09_never_panics _ _ _ _ _ _ I_ok 1) as (st & H).
  assert (R : run cfgA ex_eval ex_cstr orcI 1 ex_doe 1 = Some st) by (now apply reached_run).
  assert (Q : option_map (fun s => (s.(s_evals), length s.(s_x),
      match nth_error s.(s_x) 2, nth_error s.(s_x) 3 with
      | Some a, Some b => eqs a [fofZ 2] && eqs b [fmake 9 (-2)] | _, _ => false end))
      (run cfgA ex_eval ex_cstr orcI 1 ex_doe 1) = Some (4, 4, true)) by (vm_compute; reflexivity).
  assert (Q2 : option_map (fun s => option_map (map B2SF) (do a <- nth_error s.(s_x) 2; to_discrete_row ex_int a))
      (run cfgA ex_eval ex_cstr orcI 1 ex_doe 1) = Some (Some (map B2SF [fofZ 2]))) by (vm_compute; reflexivity).
  assert (Q3 : option_map (fun s => option_map (map B2SF) (do a <- nth_error s.(s_x) 3; to_discrete_row ex_int a))
      (run cfgA ex_eval ex_cstr orcI 1 ex_doe 1) = Some (Some (map B2SF [fofZ 2]))) by (vm_compute; reflexivity).
  rewrite R in Q, Q2, Q3. cbn [option_map] in Q, Q2, Q3. apply Some_inj in Q, Q2, Q3. injection Q as Q1 Q4 Q5.
  destruct (nth_error (s_x st) 2) as [xi|] eqn:E2; [|cbn [option_map] in Q2; discriminate Q2].
  destruct (nth_error (s_x st) 3) as [xj|] eqn:E3; [|cbn [option_map] in Q3; discriminate Q3].
  destruct (to_discrete_row ex_int xi) as [u|] eqn:T2; [|cbn [option_map] in Q2; discriminate Q2].
  destruct (to_discrete_row ex_int xj) as [u'|] eqn:T3; [|cbn [option_map] in Q3; discriminate Q3].
  cbn [option_map] in Q2, Q3. apply Some_inj in Q2, Q3.
  assert (Inj : forall a b : list f64, map B2SF a = map B2SF b -> a = b).
  { induction a as [|p a IH]; intros [|q b] Hab; try discriminate Hab; [reflexivity|].
    injection Hab as A B. f_equal; [now apply B2SF_inj|now apply IH]. }
  assert (u' = u) by (apply Inj; congruence). subst u'.
  exists ex_int, cfgA, ex_obj, ex_eval, ex_cstr, orcI, 1, ex_doe, 1, st, 2, 3, xi, xj, u.
  split; [repeat (apply Forall_cons || apply Forall_nil); simpl; lia|].
  split; [intros x v Hv; unfold ex_eval; now rewrite Hv|].
  split; [exact I_ok|]. split; [exact H|]. split; [simpl; lia|]. split; [lia|].
  do 4 (split; [assumption|]). congruence.
Qed.
Print Assumptions C83_same_design_refuted.

(** C83, partial: without discrete variable no added design equals an earlier one. Missing: discrete variables, refuted
    above. *)
Theorem C83_continuous_partial : forall ts cfg fobj fcstr orc cols doe, continuous ts ->
  run_ok cfg fobj fcstr orc cols doe -> forall k st, reached cfg fobj fcstr orc cols doe k st ->
  forall d, objective_input ts st.(s_x) = Some d ->
  forall i j u, i < j -> length doe <= j -> finite_row u -> nth_error d i = Some u -> nth_error d j <> Some u.
Proof.
  intros ts cfg fobj fcstr orc cols doe D R k st H d E i j u L Lj F Hi.
  apply continuous_discrete in D. unfold objective_input in E. rewrite D in E. injection E as <-.
  exact (C82_never_twice cfg fobj fcstr orc cols doe R k st H i j u L Lj F Hi).
Qed.
Print Assumptions C83_continuous_partial.
(** A run with one real variable that adds points. *)
Example C83_example : continuous [Float (fofZ 0) (fofZ 5)] /\ run_ok cfgA ex_eval ex_cstr orcI 1 ex_doe /\
  exists st, reached cfgA ex_eval ex_cstr orcI 1 ex_doe 1 st /\ length ex_doe < length st.(s_x).
Proof.
  split; [apply Forall_cons; [eauto|constructor]|]. split; [exact I_ok|].
  destruct (C09_never_panics _ _ _ _ _ _ I_ok 1) as (st & H). exists st. split; [exact H|].
  assert (R : run cfgA ex_eval ex_cstr orcI 1 ex_doe 1 = Some st) by (now apply reached_run).
  assert (Q : option_map (fun s => length s.(s_x)) (run cfgA ex_eval ex_cstr orcI 1 ex_doe 1) = Some 4) by (vm_compute; reflexivity).
  rewrite R in Q. cbn [option_map] in Q. injection Q as ->. simpl. lia.
Qed.

(** C84. Finding: constraint functions receive the relaxed point, not the user's design. *)
Theorem C84_relaxed_input_refuted : exists ts x d, Forall usable ts /\ last_only ts /\ point_ok ts x /\
  to_discrete_row ts x = Some d /\ constraint_input ts x = Some x /\ length x <> length d.
Proof.
  destruct (to_discrete_row [Int 0 9; Enum 3] [fofZ 2; fofZ 0; fofZ 1; fofZ 0]) as [d|] eqn:E.
  2: { exfalso. assert (Q : option_map (@length _) (to_discrete_row [Int 0 9; Enum 3] [fofZ 2; fofZ 0; fofZ 1; fofZ 0]) = Some 2)
        by (vm_compute; reflexivity). rewrite E in Q. discriminate Q. }
  exists [Int 0 9; Enum 3], [fofZ 2; fofZ 0; fofZ 1; fofZ 0], d.
  split; [repeat (apply Forall_cons || apply Forall_nil); simpl; lia|]. split; [|split; [|split; [exact E|split]]].
  - exists [Int 0 9], [Enum 3]. split; [reflexivity|]. split; [|simpl; lia]. repeat (apply Forall_cons || apply Forall_nil); reflexivity.
  - split; [apply finiteb_spec; vm_compute; reflexivity|reflexivity].
  - unfold constraint_input. change (discrete [Int 0 9; Enum 3]) with true. cbv iota. rewrite E. reflexivity.
  - assert (Q : option_map (@length _) (to_discrete_row [Int 0 9; Enum 3] [fofZ 2; fofZ 0; fofZ 1; fofZ 0]) = Some 2)
        by (vm_compute; reflexivity). rewrite E in Q. simpl in Q. injection Q as Q. rewrite Q. simpl. lia.
Qed.
Print Assumptions C84_relaxed_input_refuted.

(** C84, partial: without discrete variable the constraint functions and the objective receive the same point. *)
Theorem C84_continuous_partial : forall ts x, continuous ts ->
  constraint_input ts x = Some x /\ objective_input ts [x] = Some [x].
Proof. intros ts x D. apply continuous_discrete in D. unfold constraint_input, objective_input. rewrite D. split; reflexivity. Qed.
Print Assumptions C84_continuous_partial.

Example C84_example : continuous [Float fzero fone; Float fzero fone].
Proof. repeat (apply Forall_cons || apply Forall_nil); eauto. Qed.

(** C85. The conversion to the user's design never panics and gives one coordinate per variable. *)
Theorem C85_total : forall ts x, Forall usable ts -> Forall (point_ok ts) x ->
  exists d, objective_input ts x = Some d /\ length d = length x /\ Forall (fun u => length u = length ts) d.
Proof.
  intros ts x U F. unfold objective_input. destruct (discrete ts) eqn:D.
  - destruct (to_discrete_total ts x U F) as (d & E & R). exists d. split; [exact E|]. split.
    + symmetry. eapply Forall2_same_length. exact R.
    + clear - R. induction R; constructor; auto.
  - exists x. split; [reflexivity|]. split; [reflexivity|]. eapply Forall_impl; [|exact F]. intros r Hr.
    apply (floats_same ts (not_discrete ts D) r Hr).
Qed.
Print Assumptions C85_total.

(** C85. Finding: with two categorical variables the objective is evaluated at a wrong level. *)
Theorem C85_wrong_level_refuted : exists ts x c u0 u, Forall usable ts /\ point_ok ts x /\ nearest ts x c /\ folded ts c u0 /\
  objective_input ts [x] = Some [u] /\ eqs u0 u = false.
Proof.
  set (x := one_hot 3 2 ++ one_hot 2 0 ++ []).
  destruct (objective_input [Enum 3; Enum 2] [x]) as [[|u [|]]|] eqn:E; [exfalso| |exfalso|exfalso].
  1,3,4: assert (Q : option_map (@length _) (objective_input [Enum 3; Enum 2] [x]) = Some 1)
      by (vm_compute; reflexivity); rewrite E in Q; simpl in Q; discriminate Q.
  assert (M : forall n k, k < n -> exists wk, nth_error (one_hot n k) k = Some wk /\
            forall wi, In wi (one_hot n k) -> fle wi wk = true).
  { intros n k K. exists fone. split; [rewrite one_hot_nth by assumption; now rewrite Nat.eqb_refl|].
    intros wi Hw. apply In_nth_error in Hw. destruct Hw as (j & Hj).
    assert (J : j < n) by (rewrite <- (one_hot_length n k); apply nth_error_Some; congruence).
    rewrite one_hot_nth in Hj by assumption. injection Hj as <-. destruct (j =? k); vm_compute; reflexivity. }
  exists [Enum 3; Enum 2], x, x, [fofZ 2; fofZ 0], u.
  split; [repeat (apply Forall_cons || apply Forall_nil); simpl; lia|]. split; [|split; [|split; [|split; [exact E|]]]].
  - split; [apply finiteb_spec; vm_compute; reflexivity|reflexivity].
  - unfold x. apply near_enum with 2; [apply one_hot_mask; lia|reflexivity|apply M; lia|].
    apply near_enum with 0; [apply one_hot_mask; lia|reflexivity|apply M; lia|apply near_nil].
  - unfold x. apply fol_enum with 2; [apply one_hot_mask; lia|apply (fofZ_correct 2); simpl; lia|].
    apply fol_enum with 0; [apply one_hot_mask; lia|apply (fofZ_correct 0); simpl; lia|]. apply fol_nil.
  - assert (Q : option_map (map (eqs [fofZ 2; fofZ 0])) (objective_input [Enum 3; Enum 2] [x]) = Some [false])
      by (vm_compute; reflexivity).
    rewrite E in Q. cbn [option_map map] in Q. injection Q as Q. exact Q.
Qed.
Print Assumptions C85_wrong_level_refuted.

(** C85, partial: when at most one variable is categorical with several levels, wherever it is, the objective is evaluated
    at the user's form of a nearest admissible point. Missing: the other layouts. *)
Theorem C85_evaluated_design_partial : forall ts x, Forall usable ts -> one_wide ts -> Forall (point_ok ts) x ->
  exists d, objective_input ts x = Some d /\
    Forall2 (fun r u => exists c u0, nearest ts r c /\ folded ts c u0 /\ same_numbers u0 u) x d.
Proof.
  intros ts x U LO F. unfold objective_input. destruct (discrete ts) eqn:D.
  - exact (to_discrete_layout ts x U LO F).
  - exists x. split; [reflexivity|]. clear - D F. induction F as [|r x Hr F IH]; constructor; [|exact IH].
    exists r, r. destruct (floats_same ts (not_discrete ts D) r Hr) as (A & B & C & _). auto.
Qed.
Print Assumptions C85_evaluated_design_partial.

Example C85_example : option_map (map (fun u => eqs u [fofZ 1; fofZ 3]))
  (objective_input [Enum 3; Int 0 9] [[fofZ 0; fofZ 1; fofZ 0; fmake 5 (-1)]]) = Some [true].
Proof. vm_compute. reflexivity. Qed.

(** C86. The designs reported with the results are those at which the objective was evaluated, row by row, and the
    reported best value is the objective at the reported best design: for every specification, layout and run. *)
Theorem C86_reported_designs : forall ts cfg f fobj fcstr orc doe,
  (forall x u, objective_input ts [x] = Some [u] -> fobj x = f u) ->
  run_ok cfg fobj fcstr orc cfg.(c_wx) doe -> forall k st, reached cfg fobj fcstr orc cfg.(c_wx) doe k st ->
  forall d, result_points ts st.(s_x) = Some d ->
  st.(s_y) = map f d /\
  exists xb ub, st.(s_best_param) = Some xb /\ result_points ts [xb] = Some [ub] /\ st.(s_best_cost) = Some (f ub) /\
    nth_error d st.(s_best) = Some ub.
Proof.
  intros ts cfg f fobj fcstr orc doe HF R k st H d E.
  assert (P : Forall2 (fun x u => objective_input ts [x] = Some [u]) (s_x st) d).
  { unfold result_points, objective_input in *. destruct (discrete ts).
    - apply to_discrete_rows in E. eapply Forall2_imp; [|exact E]. intros x u Hx. unfold to_discrete_row in Hx.
      unfold to_discrete_space, cast_to_discrete_values, fold_with_enum_index. cbn [mapM].
      destruct (cast_row ts x) as [c|]; [|discriminate Hx]. cbn [mapM]. now rewrite Hx.
    - injection E as <-. clear. induction (s_x st); constructor; auto. }
  pose proof (C13_true_objectives _ _ _ _ _ _ R eq_refl k st H) as Y.
  assert (Y' : st.(s_y) = map f d).
  { rewrite Y. clear - P HF. induction P as [|x u xs d Hx P IH]; [reflexivity|]. cbn [map]. now rewrite (HF x u Hx), IH. }
  split; [exact Y'|]. destruct R as (PO & OO & DO).
  destruct (run_best_fields cfg fobj fcstr orc cfg.(c_wx) doe PO OO DO k st H) as (xb & yb & Hx & Hy & Bp & Bc).
  assert (N : forall i x, nth_error (s_x st) i = Some x -> exists u, nth_error d i = Some u /\ objective_input ts [x] = Some [u]).
  { clear - P. induction P as [|x u xs d Hx P IH]; intros [|i] x' Hi; try discriminate Hi.
    - injection Hi as <-. exists u. split; [reflexivity|exact Hx].
    - now apply IH. }
  destruct (N _ _ Hx) as (ub & Hu & Ou). exists xb, ub.
  split; [exact Bp|]. split; [exact Ou|]. split; [|exact Hu].
  rewrite Bc. rewrite Y', nth_error_map, Hu in Hy. cbn [option_map] in Hy. congruence.
Qed.
Print Assumptions C86_reported_designs.

Example C86_example : run_ok cfgA ex_eval ex_cstr orcI 1 ex_doe /\
  (forall x u, objective_input ex_int [x] = Some [u] -> ex_eval x = ex_obj u) /\
  option_map (fun st => option_map (map (fun r => eqs r [fofZ 2])) (result_points ex_int st.(s_x)))
    (run cfgA ex_eval ex_cstr orcI 1 ex_doe 1) = Some (Some [false; false; true; true]).
Proof.
  split; [exact I_ok|]. split; [|vm_compute; reflexivity]. intros x u H. unfold objective_input in H.
  change (discrete ex_int) with true in H. cbv iota in H. apply to_discrete_rows in H. inversion H; subst.
  unfold ex_eval. match goal with E : to_discrete_row _ _ = Some u |- _ => now rewrite E end.
Qed.

(** C87. Predictions of the mixed-integer surrogate (values, variances, gradients, samples) at relaxed points are those
    of the underlying mixture at the cast points: two relaxed points with the same cast get the same prediction. *)
Theorem C87_cast_invariance : forall (A : Type) ts (predictor : list (list f64) -> A) x xc, Forall usable ts ->
  cast_to_discrete_values ts x = Some xc ->
  mixint_predict ts false predictor x = Some (predictor xc) /\
  mixint_predict ts false predictor xc = Some (predictor xc).
Proof. intros A ts predictor x xc U. exact (surrogate_cast_invariant ts predictor x xc U). Qed.
Print Assumptions C87_cast_invariance.

Example C87_example : mixint_predict ex_types false (@length (list f64)) [ex_point] = Some 1.
Proof. vm_compute. reflexivity. Qed.

(** C88. Finding: the ask-and-tell service panics on admissible data when a scalar follows a categorical variable. *)
Theorem C88_service_panics_refuted : exists ts xr x, Forall usable ts /\ Forall2 (folded ts) xr x /\ Forall (Forall finite) x /\
  forall proposals, suggest ts proposals x = None.
Proof.
  destruct C32_unfold_panics_refuted as (ts & x & y & U & F & Fy & E).
  exists ts, [x], [y]. split; [exact U|]. split; [constructor; [exact F|constructor]|]. split; [constructor; [exact Fy|constructor]|].
  intros proposals. unfold suggest. now rewrite E.
Qed.
Print Assumptions C88_service_panics_refuted.

(** C88, partial: when only the last variable may be categorical with several levels, the service returns the user's form
    of a nearest admissible point of each proposal of the solver, which has been given the relaxed form of the data. *)
Theorem C88_service_partial : forall ts (proposals : list (list f64) -> list (list f64)) x xr,
  Forall usable ts -> ts <> [] -> last_only ts ->
  Forall2 (folded ts) xr x -> Forall (point_ok ts) (proposals xr) ->
  exists d, suggest ts proposals x = Some d /\
    Forall2 (fun r u => exists c u0, nearest ts r c /\ folded ts c u0 /\ same_numbers u0 u) (proposals xr) d.
Proof. exact suggest_layout. Qed.
Print Assumptions C88_service_partial.

Example C88_example : option_map (map (fun u => eqs u [fofZ 3; fofZ 1]))
  (suggest [Int 0 9; Enum 3] (fun _ => [[fmake 5 (-1); fofZ 0; fofZ 1; fofZ 0]]) [[fofZ 7; fofZ 2]]) = Some [true].
Proof. vm_compute. reflexivity. Qed.
