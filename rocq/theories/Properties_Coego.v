(** Properties C26 to C28, C80 and C81: the cooperative mode. *)
From Coq Require Import Reals Lra ZArith.
From Coquelicot Require Import Coquelicot.
From Coq Require Import List Arith Bool Lia Permutation Sorted.
From Verif Require Import F64 Util Coego_Model Coego_Spec Coego_Proofs.
Import ListNotations.
Local Open Scope nat_scope.

(** C26. For every dimension, every number of groups and every shuffle of the variables: there are
    [min n_coop xdim] groups of equal length, the padding is at the end of a group, the groups without their padding
    form a partition of the variables, and their sizes differ by at most one. *)
Theorem C26_partition : forall xdim n_coop idx, 1 <= xdim -> 1 <= n_coop -> Permutation idx (seq 0 xdim) ->
  exists rows, random_activity xdim n_coop idx = Some rows /\ length rows = Nat.min n_coop xdim /\
    Permutation (concat (map (members xdim) rows)) (seq 0 xdim) /\
    (forall r, In r rows -> exists a p, r = a ++ p /\ members xdim r = a /\ Forall (fun i => i = xdim) p) /\
    (forall r r', In r rows -> In r' rows ->
       length r = length r' /\ length (members xdim r) <= length (members xdim r') + 1).
Proof. exact activity_partition. Qed.
Print Assumptions C26_partition.
Example C26_example : random_activity 7 3 [4; 0; 6; 2; 5; 1; 3] = Some [[4; 0; 3]; [6; 2; 7]; [5; 1; 7]] /\
  random_activity 6 3 [4; 0; 2; 5; 1; 3] = Some [[4; 0]; [2; 5]; [1; 3]] /\
  random_activity 2 5 [1; 0] = Some [[1]; [0]].
Proof. repeat split; reflexivity. Qed.

(** C27. Writing the values of the variables of a padded group changes exactly these, and reading them back returns
    the values. *)
Theorem C27_partial_update : forall A (x : list A) active pad values,
  NoDup active -> Forall (fun i => i < length x) active -> Forall (fun i => length x <= i) pad ->
  length values = length active ->
  exists x', set_active x (active ++ pad) values = Some x' /\ length x' = length x /\
    (forall k j, nth_error active k = Some j -> nth_error x' j = nth_error values k) /\
    (forall j, ~ In j active -> nth_error x' j = nth_error x j) /\
    get_active x' (active ++ pad) = Some values.
Proof. exact @partial_update. Qed.
Print Assumptions C27_partial_update.
Example C27_example : set_active [10; 20; 30; 40] [3; 1; 4] [7; 8] = Some [10; 8; 30; 7] /\
  get_active [10; 8; 30; 7] [3; 1; 4] = Some [7; 8].
Proof. split; reflexivity. Qed.

(** C28, partial: for a group in increasing order, the gradient handed to the optimizer is the gradient with respect
    to its variables. Missing: groups in another order, refuted below. *)
Theorem C28_increasing_group_partial : forall (F : list R -> R) (x u p g : list R) active, Sorted lt active ->
  Forall (fun i => i < length x) active -> length u = length active ->
  set_active x active u = Some p -> gradient_at F p g ->
  exists c, coop_gradient (length u) g active = Some c /\ length c = length active /\
  forall k, k < length active -> exists G, (forall t, set_active x active (set_nth k t u) = Some (G t)) /\
    is_derive (fun t => F (G t)) (nth k u 0%R) (nth k c 0%R).
Proof. exact gradient_sorted. Qed.
Print Assumptions C28_increasing_group_partial.

Definition lin3 (x : list R) : R := (nth 0 x 0 + 2 * nth 1 x 0 + 5 * nth 2 x 0)%R.
Lemma lin3_gradient a b c : gradient_at lin3 [a; b; c] [1%R; 2%R; 5%R].
Proof.
  split; [reflexivity|]. intros i Hi. unfold lin3.
  destruct i as [|[|[|i]]]; simpl in *; [| | |lia]; auto_derive; trivial; ring.
Qed.
Example C28_example : Sorted lt [0; 2] /\ set_active [0%R; 3%R; 0%R] [0; 2] [4%R; 6%R] = Some [4%R; 3%R; 6%R] /\
  gradient_at lin3 [4%R; 3%R; 6%R] [1%R; 2%R; 5%R] /\
  coop_gradient 2 [1%R; 2%R; 5%R] [0; 2] = Some [1%R; 5%R].
Proof. split; [repeat constructor|]. split; [reflexivity|]. split; [apply lin3_gradient|reflexivity]. Qed.

(** C28. Finding: the components are filtered in increasing order of the variables while the optimizer variables
    follow the shuffled group: for the group (2, 0) of three variables the first component is not the derivative
    with respect to the first optimizer variable. *)
Theorem C28_shuffled_group_refuted : exists xdim n_coop idx rows active (F : list R -> R) x u p g c,
  Permutation idx (seq 0 xdim) /\ random_activity xdim n_coop idx = Some rows /\ In active rows /\
  length x = xdim /\ Forall (fun i => i < xdim) active /\ length u = length active /\
  set_active x active u = Some p /\ gradient_at F p g /\ coop_gradient (length u) g active = Some c /\
  ~ exists G, (forall t, set_active x active (set_nth 0 t u) = Some (G t)) /\
      is_derive (fun t => F (G t)) (nth 0 u 0%R) (nth 0 c 0%R).
Proof.
  exists 3, 1, [2; 0; 1], [[2; 0; 1]], [2; 0; 1], lin3, [0%R; 0%R; 0%R], [6%R; 4%R; 3%R], [4%R; 3%R; 6%R],
    [1%R; 2%R; 5%R], [1%R; 2%R; 5%R].
  split; [apply (perm_trans (l' := [0; 2; 1])); [apply perm_swap|apply perm_skip, perm_swap]|].
  split; [reflexivity|]. split; [now left|]. split; [reflexivity|]. split; [repeat constructor|].
  split; [reflexivity|]. split; [reflexivity|]. split; [apply lin3_gradient|]. split; [reflexivity|].
  intros (G & HG & D).
  assert (E : forall t, lin3 (G t) = (4 + 2 * 3 + 5 * t)%R).
  { intros t. specialize (HG t). cbn in HG. injection HG as <-. reflexivity. }
  assert (D' : is_derive (fun t => lin3 (G t)) 6%R 5%R).
  { eapply is_derive_ext; [intros t; symmetry; apply E|]. auto_derive; [trivial|ring]. }
  cbn [nth] in D. pose proof (is_derive_unique _ _ _ D) as U. pose proof (is_derive_unique _ _ _ D') as U'. lra.
Qed.
Print Assumptions C28_shuffled_group_refuted.

(** C80. The cooperative optimization of the criterion never panics; its proposal lies within the bounds; the
    reported value is the criterion at the proposal, unless every inner optimization failed, in which case the
    proposal is the current best point. *)
Theorem C80_cooperative_proposal : forall limits opt crit xbest ybest n_coop idx rows,
  1 <= length limits -> 1 <= n_coop -> Permutation idx (seq 0 (length limits)) ->
  random_activity (length limits) n_coop idx = Some rows ->
  within limits xbest -> optimizer_ok limits opt -> values_are crit opt ->
  exists v x, optimize_infill opt rows xbest ybest = Some (v, x) /\ within limits x /\
    ((v = ybest /\ x = xbest) \/ v = crit x).
Proof. exact cooperative_proposal. Qed.
Print Assumptions C80_cooperative_proposal.

(** When the inner optimizations succeed, every variable gets the value found for it by the optimization of its
    own group. *)
Theorem C80_every_variable : forall limits opt crit xbest ybest n_coop idx rows v x,
  1 <= length limits -> 1 <= n_coop -> Permutation idx (seq 0 (length limits)) ->
  random_activity (length limits) n_coop idx = Some rows ->
  within limits xbest -> optimizer_ok limits opt -> values_are crit opt ->
  (forall i n ctx a, finite_number (fst (opt i n ctx a)) = true) ->
  optimize_infill opt rows xbest ybest = Some (v, x) ->
  forall j, j < length limits -> exists a k i ctx, In a rows /\ nth_error (members (length limits) a) k = Some j /\
    nth_error x j = nth_error (snd (opt i 1 ctx a)) k.
Proof. exact cooperative_all_groups. Qed.
Print Assumptions C80_every_variable.

(** An optimizer that sets every variable of a group to one; the criterion is constant. *)
Definition c_limits : list (f64 * f64) := repeat (fzero, fofZ 4) 5.
Definition c_opt : optimizer := fun i n ctx a => (fofZ (-3), map (fun _ => fone) (members 5 a)).
Example C80_example : within c_limits (repeat (fofZ 2) 5) /\ optimizer_ok c_limits c_opt /\
  values_are (fun _ => fofZ (-3)) c_opt /\
  match random_activity 5 2 [4; 0; 2; 1; 3] with
  | Some rows =>
      match optimize_infill c_opt rows (repeat (fofZ 2) 5) (fofZ 9) with
      | Some (v, x) => forallb (feq fone) x && feq v (fofZ (-3)) && (length rows =? 2) && (length x =? 5)
      | None => false
      end
  | None => false
  end = true.
Proof.
  assert (B : forall l, In l c_limits -> fle (fst l) fone = true /\ fle fone (snd l) = true).
  { intros l H. apply repeat_spec in H. subst l. split; vm_compute; reflexivity. }
  split; [|split; [|split]].
  - apply within_nth. split; [reflexivity|]. intros j l v El Ev. apply nth_error_In in El. apply nth_error_In in Ev.
    apply repeat_spec in El. apply repeat_spec in Ev. subst. split; vm_compute; reflexivity.
  - intros i n ctx a. cbn [c_opt snd]. split; [apply map_length|]. intros k j l v _ El Ev.
    apply nth_error_In in Ev. apply in_map_iff in Ev. destruct Ev as (_ & <- & _). apply B. eapply nth_error_In, El.
  - intros i n ctx a p _ _. reflexivity.
  - vm_compute. reflexivity.
Qed.

(** C81, partial: without cooperative groups (one group with all variables in order) a constraint function is
    evaluated at the point at which the criterion is evaluated. Missing: cooperative groups, refuted below. *)
Theorem C81_full_group_partial : forall ctx u active, In active (full_activity (length ctx)) -> length u = length ctx ->
  criterion_point ctx active u = Some u /\ function_constraint_point ctx active u = criterion_point ctx active u.
Proof.
  intros ctx u active [<-|[]] L. unfold criterion_point, function_constraint_point. rewrite (set_active_full ctx u L). auto.
Qed.
Print Assumptions C81_full_group_partial.
Example C81_example : forall u : list f64, length u = 3 -> function_constraint_point [fofZ 1; fofZ 2; fofZ 3] [0; 1; 2] u = Some u.
Proof.
  intros u L. destruct (C81_full_group_partial [fofZ 1; fofZ 2; fofZ 3] u [0; 1; 2]) as [A B]; [left; reflexivity|exact L|]. now rewrite B.
Qed.

(** C81. Finding: with cooperative groups a constraint function receives only the variables of the group. *)
Theorem C81_groups_refuted : exists xdim n_coop idx rows active ctx u p,
  Permutation idx (seq 0 xdim) /\ random_activity xdim n_coop idx = Some rows /\ In active rows /\
  length ctx = xdim /\ length u = length (members xdim active) /\
  criterion_point ctx active u = Some p /\ function_constraint_point ctx active u <> Some p.
Proof.
  exists 2, 2, [0; 1], [[0]; [1]], [1], [fone; fone], [fzero], [fone; fzero].
  split; [reflexivity|]. split; [reflexivity|]. split; [right; now left|]. split; [reflexivity|]. split; [reflexivity|].
  split; [reflexivity|]. unfold function_constraint_point. intros E. apply (f_equal (option_map (@length _))) in E.
  discriminate E.
Qed.
Print Assumptions C81_groups_refuted.
