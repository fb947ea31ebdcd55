(** Properties of hyperparameter tuning: C60-C62, C90, C98-C100. *)
From Coq Require Import Reals List Arith Lia Lra.
From Verif Require Import RVec Util Doe_Model Doe_Spec Kern_Model Gp_Model Gp_Spec Gp_Proofs Gp_Exist Properties_Gp Tune_Model Tune_Spec Tune_Proofs.
Import ListNotations.
Local Open Scope R_scope.

Definition in_order (l : list outcome) : tree := fold_right (fun o t => Join (Leaf o) t) Id l.
Definition idle_first (l : list outcome) : tree := Join Id (in_order l).
Lemma in_order_fair : fair in_order.
Proof. intros l. induction l as [|o l IH]; [reflexivity|]. cbn. f_equal. exact IH. Qed.
Lemma idle_first_fair : fair idle_first.
Proof. intros l. apply in_order_fair. Qed.

(** Concrete optimizers used by the examples: the upper or the lower ends of the bounds. *)
Definition to_upper (f : list R -> option R) (x0 : list R) (b : list (R * R)) : option R * list R := (Some 0, map snd b).
Definition to_lower (f : list R -> option R) (x0 : list R) (b : list (R * R)) : option R * list R := (Some 0, map fst b).
Definition failing (f : list R -> option R) (x0 : list R) (b : list (R * R)) : option R * list R := (None, map fst b).
Lemma to_upper_within : stays_within to_upper.
Proof. intros f x0 b _ F. cbn. induction F; cbn; constructor; [unfold within; lra|assumption]. Qed.
Lemma to_lower_within : stays_within to_lower.
Proof. intros f x0 b _ F. cbn. induction F; cbn; constructor; [unfold within; lra|assumption]. Qed.
Lemma failing_within : stays_within failing.
Proof. intros f x0 b _ F. cbn. induction F; cbn; constructor; [unfold within; lra|assumption]. Qed.

(** ** C60: setters *)
(** Setting the initial values or the bounds changes only these, and keeps the mode of a fixed or fully tuned theta. *)
Theorem C60_setters_partial : forall (i b : _) (t : tuning),
  init_of (theta_init i t) = i /\ bounds_of (theta_init i t) = bounds_of t /\ init_of (theta_bounds b t) = init_of t /\
  (forall b0, bounds_of t = Some b0 -> bounds_of (theta_bounds b t) = Some b) /\
  (forall i0, t = Fixed i0 -> theta_init i t = Fixed i /\ theta_bounds b t = t) /\
  (forall i0 b0, t = Full i0 b0 -> theta_init i t = Full i b0 /\ theta_bounds b t = Full i0 b).
Proof.
  intros i b t. destruct t; cbn; repeat split; try discriminate; try reflexivity; try (intros; subst; reflexivity);
    intros; try match goal with H : _ = _ |- _ => injection H; intros; subst end; try reflexivity.
Qed.
Print Assumptions C60_setters_partial.

(** A partially tuned theta becomes fully tuned: components that were to be kept are changed. *)
Theorem C60_active_refuted : exists (lik : list R -> option R) (init : list R) b active,
  choose_theta lik to_upper in_order 2 0 [] (fun _ _ => []) (fun _ _ => []) (Partial init b active) = Some [10; 1] /\
  choose_theta lik to_upper in_order 2 0 [] (fun _ _ => []) (fun _ _ => []) (theta_init init (Partial init b active)) = Some [10; 10] /\
  choose_theta lik to_upper in_order 2 0 [] (fun _ _ => []) (fun _ _ => []) (theta_bounds b (Partial init b active)) = Some [10; 10].
Proof.
  exists (fun _ => Some 0), [1; 1], [(1, 10)], [0%nat].
  assert (P : pow10 (Tune_Model.log10 10) = 10) by (apply pow10_log10; lra).
  repeat split; cbn -[pow10 Tune_Model.log10 IZR]; rewrite P; reflexivity.
Qed.
Print Assumptions C60_active_refuted.

(** ** C61: partial tuning *)
(** Components that are not active keep their initial value: no hypothesis on the optimizer or the scheduler. *)
Theorem C61_inactive : forall lik opt sched dim n u rnd sw init b active th,
  choose_theta lik opt sched dim n u rnd sw (Partial init b active) = Some th ->
  length th = length init /\ forall i, ~ In i active -> nth_error th i = nth_error init i.
Proof.
  intros lik opt sched dim n u rnd sw init b active th H. cbn in H. destruct (results _ _ _ _ _ _ _ _ _ _) as [rs|]; [|discriminate].
  split; [exact (set_all_length _ _ _ _ H)|]. intros i Hi. exact (set_all_other _ _ _ _ i H Hi).
Qed.
Print Assumptions C61_inactive.

(** The best result is among the results, when at least one optimization succeeded. *)
Lemma reduce_best n sched rs : fair sched -> (exists o v, In o rs /\ fst o = Some v) ->
  first_min rs (reduce n (sched rs)).
Proof.
  intros Fa (o & v & I & V). destruct (reduce_spec n (sched rs)) as [(F & _)|M]; rewrite Fa in *; [|exact M].
  rewrite Forall_forall in F. specialize (F o I). unfold infinite in F. congruence.
Qed.

(** Active components, listed in increasing order, are within their own bounds, when at least one optimization succeeded. *)
Theorem C61_own_bounds_partial : forall lik opt sched dim n u rnd sw init b active rs th,
  stays_within opt -> fair sched -> sound_bounds b -> Forall (fun v => 0 <= v < 1) u -> (forall t j, (j < dim)%nat -> unit_draws n (rnd t j)) ->
  increasing active ->
  results lik opt dim n u rnd sw init b active = Some rs -> (exists o v, In o rs /\ fst o = Some v) ->
  choose_theta lik opt sched dim n u rnd sw (Partial init b active) = Some th ->
  forall i, In i active -> exists p v, component b i = Some p /\ nth_error th i = Some v /\ within p v.
Proof.
  intros lik opt sched dim n u rnd sw init b active rs th St Fa So U D Inc Er Ok H i Hi. cbn in H. rewrite Er in H.
  destruct (results_inv _ _ _ _ _ _ _ _ _ _ rs Er) as (theta0 & bb & t0 & p & E0 & Eb & Es & Ep & L & Ers). clear Ers.
  destruct (results_within lik opt dim n u rnd sw init b active So U D rs Er St) as (bb' & Eb' & _ & W). rewrite Eb in Eb'. injection Eb' as <-.
  pose proof (first_min_in _ _ (reduce_best (length active) sched rs Fa Ok)) as I. set (o := reduce _ _) in *. specialize (W o I).
  assert (Rg : forall k, In k active -> (k < length bb)%nat).
  { intros k Hk. rewrite (broadcast_length _ _ _ Eb), <- (broadcast_length _ _ _ E0). exact (select_in _ _ _ _ Es Hk). }
  pose proof (active_bounds_inc active bb Inc Rg) as AB.
  apply In_nth_error in Hi. destruct Hi as [k Hk]. destruct (Forall2_nth _ _ _ AB k i Hk) as (q & Eq & Nq).
  pose proof (map_nth_error (fun p => (Tune_Model.log10 (fst p), Tune_Model.log10 (snd p))) k _ Eq) as Lq. fold (log_bounds (active_bounds active bb)) in Lq.
  destruct (Forall2_nth _ _ _ W k _ Lq) as (v & Ev & Wv).
  exists q, (pow10 v). split; [rewrite <- (broadcast_component _ _ _ Eb i); [exact Nq|]|split].
  - rewrite <- (broadcast_length _ _ _ Eb). apply Rg. eapply nth_error_In; eauto.
  - assert (LV : length (map pow10 (snd o)) = length active).
    { rewrite map_length. apply Forall2_len in W. rewrite log_bounds_length in W. lia. }
    rewrite (set_all_active _ _ _ _ H (sorted_NoDup _ (increasing_sorted _ Inc)) LV k i Hk). now apply map_nth_error.
  - assert (Sq : 0 < fst q <= snd q).
    { pose proof (broadcast_forall _ _ _ _ Eb So) as Sb. rewrite Forall_forall in Sb. apply Sb. apply nth_error_In in Nq. exact Nq. }
    destruct q as [lo up]. cbn in Sq. apply within_pow; [lra|lra|exact Wv].
Qed.
Print Assumptions C61_own_bounds_partial.

(** Full tuning: every component is within its own bounds, when at least one optimization succeeded. *)
Theorem C61_full_bounds_partial : forall lik opt sched dim n u rnd sw init b rs th,
  stays_within opt -> fair sched -> sound_bounds b -> Forall (fun v => 0 <= v < 1) u -> (forall t j, (j < dim)%nat -> unit_draws n (rnd t j)) ->
  results lik opt dim n u rnd sw init b (seq 0 dim) = Some rs -> (exists o v, In o rs /\ fst o = Some v) ->
  choose_theta lik opt sched dim n u rnd sw (Full init b) = Some th ->
  length th = dim /\ forall i, (i < dim)%nat -> exists p v, component b i = Some p /\ nth_error th i = Some v /\ within p v.
Proof.
  intros lik opt sched dim n u rnd sw init b rs th St Fa So U D Er Ok H. cbn in H. rewrite Er in H.
  destruct (results_inv _ _ _ _ _ _ _ _ _ _ rs Er) as (theta0 & bb & t0 & p & E0 & Eb & Es & Ep & L & Ers). clear Ers.
  destruct (results_within lik opt dim n u rnd sw init b _ So U D rs Er St) as (bb' & Eb' & _ & W). rewrite Eb in Eb'. injection Eb' as <-.
  pose proof (first_min_in _ _ (reduce_best dim sched rs Fa Ok)) as I. set (o := reduce _ _) in *. specialize (W o I). clearbody o.
  pose proof (broadcast_length _ _ _ Eb) as Lb.
  assert (AB : active_bounds (seq 0 dim) bb = bb) by (rewrite <- Lb; apply active_bounds_all). rewrite AB in W.
  injection H as <-. split; [rewrite map_length; apply Forall2_len in W; rewrite log_bounds_length in W; lia|].
  intros i Hi. destruct (nth_error bb i) as [q|] eqn:Nq; [|apply nth_error_None in Nq; lia].
  pose proof (map_nth_error (fun p => (Tune_Model.log10 (fst p), Tune_Model.log10 (snd p))) i _ Nq) as Lq. fold (log_bounds bb) in Lq.
  destruct (Forall2_nth _ _ _ W i _ Lq) as (v & Ev & Wv). exists q, (pow10 v).
  split; [now rewrite <- (broadcast_component _ _ _ Eb i Hi)|]. split; [now apply map_nth_error|].
  assert (Sq : 0 < fst q <= snd q).
  { pose proof (broadcast_forall _ _ _ _ Eb So) as Sb. rewrite Forall_forall in Sb. apply Sb. apply nth_error_In in Nq. exact Nq. }
  destruct q as [lo up]. cbn in Sq. apply within_pow; [lra|lra|exact Wv].
Qed.
Print Assumptions C61_full_bounds_partial.

Example C61_example : exists rs th, results (fun _ => Some 0) to_upper 3 0 [] (fun _ _ => []) (fun _ _ => []) [1; 2; 3] [(1, 10); (1, 20); (1, 30)] [0; 2]%nat = Some rs /\
  (exists o v, In o rs /\ fst o = Some v) /\ increasing [0; 2]%nat /\ sound_bounds [(1, 10); (1, 20); (1, 30)] /\
  choose_theta (fun _ => Some 0) to_upper in_order 3 0 [] (fun _ _ => []) (fun _ _ => []) (Partial [1; 2; 3] [(1, 10); (1, 20); (1, 30)] [0; 2]%nat) = Some th /\
  th = [10; 2; 30].
Proof.
  eexists _, _. split; [reflexivity|]. split; [eexists (_, _), _; split; [left; reflexivity|reflexivity]|].
  split; [intros [|[|i]] [|[|j]] a b L A B; cbn in A, B; try lia; try discriminate; try (destruct i; discriminate); try (destruct j; discriminate); injection A as <-; injection B as <-; lia|].
  split; [repeat constructor; cbn; lra|]. split; [reflexivity|].
  cbn -[pow10 Tune_Model.log10 IZR]. rewrite !pow10_log10 by lra. reflexivity.
Qed.

(** With active components listed in another order, components are searched within the bounds of others, whatever the optimizer. *)
Theorem C61_order_refuted : forall lik opt, stays_within opt -> (forall f x0 b, exists v, fst (opt f x0 b) = Some v) ->
  exists th v, choose_theta lik opt in_order 2 0 [] (fun _ _ => []) (fun _ _ => []) (Partial [1; 3] [(1, 2); (3, 4)] [1; 0]%nat) = Some th /\
    nth_error th 0 = Some v /\ ~ within (1, 2) v.
Proof.
  intros lik opt St Fin. unfold choose_theta, results.
  change (broadcast 2 [1; 3]) with (Some [1; 3]). change (broadcast 2 [(1, 2); (3, 4)]) with (Some [(1, 2); (3, 4)]). cbv beta iota zeta.
  change (active_bounds [1; 0]%nat [(1, 2); (3, 4)]) with [(1, 2); (3, 4)]. change (select [1; 0]%nat [1; 3]) with (Some [3; 1]). cbv beta iota zeta.
  cbn [prepare_multistart map fst snd length Nat.eqb negb]. set (f := objective _ _ _). set (x0 := [Tune_Model.log10 3; Tune_Model.log10 1]). set (lb := [(Tune_Model.log10 1, Tune_Model.log10 2); (Tune_Model.log10 3, Tune_Model.log10 4)]).
  pose proof (St f x0 lb eq_refl) as W. destruct (Fin f x0 lb) as [fv Fv]. destruct (opt f x0 lb) as [fo xo]. cbn in Fv. subst fo. cbn [snd] in W.
  cbn [in_order fold_right reduce best_of fst identity_of below snd].
  specialize (W ltac:(constructor; [cbn; apply log10_le; lra|constructor; [cbn; apply log10_le; lra|constructor]])).
  inversion W as [|? v0 ? l0 W0 W' E0 E1]; subst. inversion W' as [|? v1 ? l1 W1 W'' E0 E1]; subst. inversion W''; subst.
  cbn [map set_all length Nat.ltb Nat.leb firstn skipn app]. exists [pow10 v1; pow10 v0], (pow10 v1). split; [reflexivity|]. split; [reflexivity|].
  apply within_pow in W1; [|lra|lra]. unfold within in *. cbn in *. lra.
Qed.
Print Assumptions C61_order_refuted.
Example C61_order_example : stays_within to_lower /\ forall f x0 b, exists v, fst (to_lower f x0 b) = Some v.
Proof. split; [exact to_lower_within|]. intros. eexists. reflexivity. Qed.

(** When every optimization fails, theta may be 10, outside of the bounds. *)
Theorem C61_failed_refuted : exists th v, sound_bounds [(1 / 100, 1)] /\ stays_within failing /\ fair idle_first /\
  choose_theta (fun _ => Some 0) failing idle_first 1 0 [] (fun _ _ => []) (fun _ _ => []) (Full [1 / 10] [(1 / 100, 1)]) = Some th /\
  nth_error th 0 = Some v /\ ~ within (1 / 100, 1) v.
Proof.
  exists [10], 10. split; [repeat constructor; cbn; lra|]. split; [exact failing_within|]. split; [exact idle_first_fair|].
  split; [|split; [reflexivity|unfold within; cbn; lra]].
  cbn -[pow10 Tune_Model.log10 IZR]. rewrite pow10_1. reflexivity.
Qed.
Print Assumptions C61_failed_refuted.

(** ** C62: starts *)
Theorem C62_starts_partial : forall n t0 b u rnd sw starts lb,
  length t0 = length b -> sound_bounds b -> Forall (fun v => 0 <= v < 1) u -> (forall t j, (j < length b)%nat -> unit_draws n (rnd t j)) ->
  prepare_multistart n t0 b u rnd sw = Some (starts, lb) ->
  lb = map (fun p => (ln (fst p) / ln 10, ln (snd p) / ln 10)) b /\ length starts = S n /\
  nth_error starts 0 = Some (map (fun v => ln v / ln 10) t0) /\
  forall i r, (0 < i)%nat -> nth_error starts i = Some r -> Forall2 within lb r.
Proof.
  intros n t0 b u rnd sw starts lb L S U D H. destruct (multistart_spec n t0 b u rnd sw L S U D starts lb H) as (E & others & Eo & Lo & F).
  split; [exact E|]. rewrite Eo. split; [cbn; lia|]. split; [reflexivity|]. intros [|i] r Hi N; [lia|]. cbn in N. rewrite Forall_forall in F.
  apply F. eapply nth_error_In; eauto.
Qed.
Print Assumptions C62_starts_partial.
(** The starts exist when the bounds are strict (only needed for a single random start). *)
Theorem C62_exist_partial : forall n t0 b u rnd sw,
  length t0 = length b -> Forall (fun v => 0 <= v < 1) u -> (forall t j, (j < length b)%nat -> unit_draws n (rnd t j)) ->
  (n = 1%nat -> strict_bounds b /\ (length b <= length u)%nat) -> exists p, prepare_multistart n t0 b u rnd sw = Some p.
Proof. exact multistart_ok. Qed.
Print Assumptions C62_exist_partial.
(** A search space reduced to a point makes a single random start panic, while any other number of starts works. *)
Theorem C62_point_refuted : exists t0 b, length t0 = length b /\ sound_bounds b /\
  (forall u rnd sw, prepare_multistart 1 t0 b u rnd sw = None) /\
  forall n u rnd sw, n <> 1%nat -> Forall (fun v => 0 <= v < 1) u -> (forall t j, (j < length b)%nat -> unit_draws n (rnd t j)) ->
    exists p, prepare_multistart n t0 b u rnd sw = Some p.
Proof.
  exists [1], [(1, 1)]. split; [reflexivity|]. split; [repeat constructor; cbn; lra|]. split.
  - intros u rnd sw. cbn. destruct u as [|v u]; [reflexivity|]. destruct (Rlt_dec _ _) as [L|]; [lra|reflexivity].
  - intros n u rnd sw N U D. apply multistart_ok; try assumption; [reflexivity|]. intros E. contradiction.
Qed.
Print Assumptions C62_point_refuted.
(** The user's guess is not moved into the bounds. *)
Theorem C62_guess_outside_refuted : exists starts lb r, sound_bounds [(1, 10)] /\
  prepare_multistart 0 [1 / 10] [(1, 10)] [] (fun _ _ => []) (fun _ _ => []) = Some (starts, lb) /\ In r starts /\ ~ Forall2 within lb r.
Proof.
  eexists _, _, _. split; [repeat constructor; cbn; lra|]. split; [reflexivity|]. split; [left; reflexivity|].
  intros F. inversion F as [|? ? ? ? W]; subst. destruct W as [W _]. cbn in W.
  pose proof (log10_lt (1 / 10) 1 ltac:(lra) ltac:(lra)). lra.
Qed.
Print Assumptions C62_guess_outside_refuted.
Example C62_example : exists p q, prepare_multistart 1 [1; 2] [(1, 10); (1, 20)] [1 / 2; 1 / 3] (fun _ _ => [0]) (fun _ _ => []) = Some p /\
  prepare_multistart 3 [1; 2] [(1, 10); (1, 20)] [] (fun _ _ => [0; 1 / 2; 1 / 3]) (fun _ _ => []) = Some q.
Proof.
  destruct (multistart_ok 1 [1; 2] [(1, 10); (1, 20)] [1 / 2; 1 / 3] (fun _ _ => [0]) (fun _ _ => [])) as [p P].
  - reflexivity.
  - repeat constructor; lra.
  - intros t j _. split; [reflexivity|]. repeat constructor; lra.
  - intros _. split; [repeat constructor; cbn; lra|cbn; lia].
  - destruct (multistart_ok 3 [1; 2] [(1, 10); (1, 20)] [] (fun _ _ => [0; 1 / 2; 1 / 3]) (fun _ _ => [])) as [q Q].
    + reflexivity.
    + constructor.
    + intros t j _. split; [reflexivity|]. repeat constructor; lra.
    + discriminate.
    + exists p, q. split; assumption.
Qed.

(** ** C98: the result does not depend on the scheduling of threads *)
Theorem C98_schedule_partial : forall lik opt s s' dim n u rnd sw t,
  fair s -> fair s' ->
  (forall b, bounds_of t = Some b -> exists rs, results lik opt dim n u rnd sw (init_of t) b (active_of dim t) = Some rs /\ exists o v, In o rs /\ fst o = Some v) ->
  choose_theta lik opt s dim n u rnd sw t = choose_theta lik opt s' dim n u rnd sw t.
Proof.
  intros lik opt s s' dim n u rnd sw t F F' H.
  assert (G : forall m rs, (exists o v, In o rs /\ fst o = Some v) -> reduce m (s rs) = reduce m (s' rs)).
  { intros m rs Ok. apply reduce_sched; [now rewrite F, F'|]. now rewrite F. }
  destruct t as [i|i b|i b a]; cbn [bounds_of init_of active_of] in H; unfold choose_theta; [reflexivity| |];
    destruct (H b eq_refl) as (rs & -> & Ok); now rewrite G.
Qed.
Print Assumptions C98_schedule_partial.
(** The theta kept is the one of the best optimization, the first of the best ones. *)
Theorem C98_best_partial : forall lik opt sched dim n u rnd sw init b rs th,
  fair sched -> results lik opt dim n u rnd sw init b (seq 0 dim) = Some rs -> (exists o v, In o rs /\ fst o = Some v) ->
  choose_theta lik opt sched dim n u rnd sw (Full init b) = Some th ->
  exists k o v, nth_error rs k = Some o /\ fst o = Some v /\ th = map pow10 (snd o) /\
    forall j p w, nth_error rs j = Some p -> fst p = Some w -> v <= w /\ ((j < k)%nat -> v < w).
Proof.
  intros lik opt sched dim n u rnd sw init b rs th F Er Ok H. cbn in H. rewrite Er in H. injection H as <-.
  destruct (reduce_best dim sched rs F Ok) as (l1 & l2 & v & E & V & A & B). set (o := reduce _ _) in *. clearbody o.
  exists (length l1), o, v. split; [rewrite E, nth_error_app2, Nat.sub_diag by lia; reflexivity|]. split; [exact V|]. split; [reflexivity|].
  intros j p w Hj W. rewrite E in Hj. destruct (Nat.lt_ge_cases j (length l1)) as [Lt|Ge].
  - rewrite nth_error_app1 in Hj by exact Lt. apply nth_error_In in Hj. specialize (A p w Hj W). split; intros; lra.
  - rewrite nth_error_app2 in Hj by exact Ge. split; [|intros; lia]. destruct (j - length l1)%nat as [|m].
    + cbn in Hj. injection Hj as <-. rewrite V in W. injection W as <-. lra.
    + cbn in Hj. apply nth_error_In in Hj. exact (B p w Hj W).
Qed.
Print Assumptions C98_best_partial.
Example C98_example : exists rs, results (fun _ => Some 0) to_upper 2 0 [] (fun _ _ => []) (fun _ _ => []) [1; 1] [(1, 10)] (seq 0 2) = Some rs /\
  (exists o v, In o rs /\ fst o = Some v) /\ fair in_order /\ fair idle_first.
Proof.
  eexists. split; [reflexivity|]. split; [eexists (_, _), _; split; [left; reflexivity|reflexivity]|]. split; [exact in_order_fair|exact idle_first_fair].
Qed.
(** When every optimization fails the result depends on the scheduler. *)
Theorem C98_failed_refuted : exists s s' th th', fair s /\ fair s' /\ th <> th' /\
  choose_theta (fun _ => Some 0) failing s 1 0 [] (fun _ _ => []) (fun _ _ => []) default_tuning = Some th /\
  choose_theta (fun _ => Some 0) failing s' 1 0 [] (fun _ _ => []) (fun _ _ => []) default_tuning = Some th'.
Proof.
  exists in_order, idle_first, [1 / 100], [10]. split; [exact in_order_fair|]. split; [exact idle_first_fair|].
  split; [intros E; injection E; intros; lra|]. split.
  - cbn -[pow10 Tune_Model.log10 IZR]. rewrite pow10_log10 by lra. reflexivity.
  - cbn -[pow10 Tune_Model.log10 IZR]. rewrite pow10_1. reflexivity.
Qed.
Print Assumptions C98_failed_refuted.

(** ** C99: training does not decrease the likelihood *)
Lemma update_same (l : list R) i v : nth_error l i = Some v -> firstn i l ++ v :: skipn (S i) l = l.
Proof. revert i. induction l as [|a l IH]; intros [|i] H; try discriminate; cbn in H; [injection H as ->; reflexivity|]. cbn [firstn skipn app]. f_equal. now apply IH. Qed.
Lemma set_all_select a : forall l r, select a l = Some r -> set_all a r l = Some l.
Proof.
  induction a as [|i a IH]; intros l r H; cbn in H; [injection H as <-; reflexivity|].
  destruct (nth_error l i) as [v|] eqn:E; [|discriminate]. destruct (select a l) as [r'|] eqn:Es; [|discriminate]. injection H as <-.
  cbn [set_all]. assert (Hi : (i < length l)%nat) by (apply nth_error_Some; congruence). apply Nat.ltb_lt in Hi. rewrite Hi.
  rewrite update_same by exact E. now apply IH.
Qed.

Section Improve.
  Context (lik : list R -> option R) (opt : (list R -> option R) -> list R -> bounds_t -> outcome) (sched : list outcome -> tree) (dim n : nat) (u : list R)
    (rnd : nat -> nat -> list R) (sw : nat -> nat -> list (nat * nat)) (init : list R) (b : bounds_t) (active : list nat).
  Hypothesis Hon : honest opt.
  Hypothesis Des : descends opt.
  Hypothesis Fa : fair sched.
  Hypothesis So : sound_bounds b.
  Hypothesis U : Forall (fun v => 0 <= v < 1) u.
  Hypothesis D : forall t j, (j < dim)%nat -> unit_draws n (rnd t j).

  Lemma improve rs theta0 l0 : results lik opt dim n u rnd sw init b active = Some rs -> broadcast dim init = Some theta0 ->
    increasing active -> (forall i, In i active -> exists p v, component b i = Some p /\ component init i = Some v /\ within p v) ->
    lik theta0 = Some l0 ->
    exists th l, set_all active (map pow10 (snd (reduce (length active) (sched rs)))) theta0 = Some th /\ lik th = Some l /\ l0 <= l.
  Proof.
    intros Er E0 Inc Ins L0.
    destruct (results_inv _ _ _ _ _ _ _ _ _ _ rs Er) as (theta0' & bb & t0 & [starts lb] & E0' & Eb & Es & Ep & L & Ers). rewrite E0 in E0'. injection E0' as <-. cbn [fst snd] in Ers.
    assert (Sb : sound_bounds (active_bounds active bb)) by (apply active_bounds_sound; exact (broadcast_forall _ _ _ _ Eb So)).
    assert (Lt : length t0 = length (active_bounds active bb)) by (rewrite (select_length _ _ _ Es); now symmetry).
    assert (Da : forall t j, (j < length (active_bounds active bb))%nat -> unit_draws n (rnd t j)).
    { intros t j Hj. apply D. pose proof (active_len_dim dim b active bb Eb). lia. }
    destruct (multistart_spec n t0 _ u rnd sw Lt Sb U Da starts lb Ep) as (Elb & others & Eo & Lo & Fo).
    assert (Rg : forall k, In k active -> (k < length bb)%nat).
    { intros k Hk. rewrite (broadcast_length _ _ _ Eb), <- (broadcast_length _ _ _ E0). exact (select_in _ _ _ _ Es Hk). }
    pose proof (active_bounds_inc active bb Inc Rg) as AB.
    assert (W0 : Forall2 within (active_bounds active bb) t0).
    { assert (G : forall k q v, nth_error (active_bounds active bb) k = Some q -> nth_error t0 k = Some v -> within q v).
      { intros k q v Hq Hv. destruct (nth_error active k) as [i|] eqn:Hi.
        2:{ apply nth_error_None in Hi. assert (k < length t0)%nat by (apply nth_error_Some; congruence). lia. }
        destruct (Forall2_nth _ _ _ AB k i Hi) as (q' & Eq & Nq). rewrite Hq in Eq. injection Eq as <-.
        rewrite (select_nth _ _ _ _ _ Es Hi) in Hv. pose proof (nth_error_In _ _ Hi) as Ii. destruct (Ins i Ii) as (p & w & Cp & Cw & W).
        assert (Hdim : (i < dim)%nat) by (rewrite <- (broadcast_length _ _ _ Eb); now apply Rg).
        rewrite (broadcast_component _ _ _ Eb i Hdim) in Nq. rewrite (broadcast_component _ _ _ E0 i Hdim) in Hv.
        rewrite Cp in Nq. injection Nq as <-. rewrite Cw in Hv. injection Hv as <-. exact W. }
      revert G Lt. clear. generalize (active_bounds active bb). intros m. revert t0. induction m as [|q m IH]; intros [|v t0] G L; try discriminate; constructor.
      - exact (G O q v eq_refl eq_refl).
      - apply IH; [|cbn in L; lia]. intros k. exact (G (S k)). }
    assert (Pos : Forall (fun v => 0 < v) t0).
    { clear - W0 Sb. induction W0 as [|q v m t W F IH]; constructor; inversion Sb; subst; [|now apply IH]. destruct W. lra. }
    assert (Wl : Forall2 within lb (map Tune_Model.log10 t0)).
    { rewrite Elb. clear - W0 Sb. unfold log_bounds. induction W0 as [|q v m t W F IH]; cbn; constructor; inversion Sb; subst; [|now apply IH].
      destruct W. split; cbn; apply log10_le; lra. }
    set (f := objective lik theta0 active) in *.
    assert (F0 : f (map Tune_Model.log10 t0) = Some (- l0)).
    { unfold f, objective. rewrite pow10_log10s by exact Pos. rewrite (set_all_select _ _ _ Es), L0. reflexivity. }
    destruct (Des f (map Tune_Model.log10 t0) lb (- l0)) as (w & Ew & Lw).
    - rewrite map_length, Elb, log_bounds_length. exact Lt.
    - exact Wl.
    - exact F0.
    - assert (I0 : In (opt f (map Tune_Model.log10 t0) lb) rs) by (rewrite Ers, Eo; left; reflexivity).
      pose proof (reduce_best (length active) sched rs Fa (ex_intro _ _ (ex_intro _ w (conj I0 Ew)))) as M.
      pose proof (first_min_in _ _ M) as I. destruct (first_min_le _ _ M _ _ I0 Ew) as (v & V & Le). set (o := reduce _ _) in *. clearbody o.
      assert (Fv : f (snd o) = Some v).
      { rewrite Ers in I. apply in_map_iff in I. destruct I as (x0 & <- & _). now apply Hon. }
      unfold f, objective in Fv. destruct (set_all _ _ _) as [th|]; [|discriminate]. destruct (lik th) as [l|] eqn:El; [|discriminate].
      injection Fv as Fv. exists th, l. repeat split; [exact El|lra].
  Qed.
End Improve.

(** The likelihood of the trained hyperparameters is at least that of the initial guess, when this is in the search space, for any
    optimizer that never ends above its start and reports true values. *)
Theorem C99_improves : forall lik opt sched dim n u rnd sw t b theta0 l0 th,
  honest opt -> descends opt -> stays_within opt -> fair sched -> sound_bounds b ->
  Forall (fun v => 0 <= v < 1) u -> (forall t j, (j < dim)%nat -> unit_draws n (rnd t j)) ->
  bounds_of t = Some b -> broadcast dim (init_of t) = Some theta0 -> lik theta0 = Some l0 ->
  (forall i b a, t = Partial i b a -> length i = dim /\ increasing a) ->
  (forall i, In i (active_of dim t) -> exists p v, component b i = Some p /\ component (init_of t) i = Some v /\ within p v) ->
  choose_theta lik opt sched dim n u rnd sw t = Some th ->
  exists l, lik th = Some l /\ l0 <= l.
Proof.
  intros lik opt sched dim n u rnd sw t b theta0 l0 th Hon Des St Fa So U D Bt E0 L0 Pt Ins H.
  destruct t as [i|i b0|i b0 a]; cbn [bounds_of init_of active_of] in *; [discriminate| |]; injection Bt as ->.
  - unfold choose_theta in H. destruct (results _ _ _ _ _ _ _ _ _ _) as [rs|] eqn:Er; [|discriminate]. injection H as H.
    destruct (improve lik opt sched dim n u rnd sw i b (seq 0 dim) Hon Des Fa So U D rs theta0 l0 Er E0 (seq_increasing 0 dim) Ins L0) as (th' & l & S & E & Le).
    rewrite seq_length, H in S. pose proof (broadcast_length _ _ _ E0) as Ld.
    assert (L : length th = length theta0).
    { rewrite <- H, map_length, Ld. destruct (results_within lik opt dim n u rnd sw i b _ So U D rs Er St) as (bb & Eb & _ & W).
      apply reduce_length; [|reflexivity]. rewrite Fa. apply Forall_forall. intros o Ho. specialize (W o Ho). apply Forall2_len in W.
      pose proof (broadcast_length _ _ _ Eb) as Lb. rewrite log_bounds_length in W. rewrite <- Lb in W at 1. rewrite active_bounds_all in W. lia. }
    rewrite <- Ld, set_all_seq in S by exact L. injection S as <-. eauto.
  - destruct (Pt i b a eq_refl) as [Li Inc]. unfold choose_theta in H. destruct (results _ _ _ _ _ _ _ _ _ _) as [rs|] eqn:Er; [|discriminate].
    destruct (improve lik opt sched dim n u rnd sw i b a Hon Des Fa So U D rs theta0 l0 Er E0 Inc Ins L0) as (th' & l & S & E & Le).
    assert (Et : theta0 = i) by (rewrite <- Li in E0; rewrite broadcast_self in E0; [congruence|now right]). rewrite Et, H in S. injection S as <-. eauto.
Qed.
Print Assumptions C99_improves.

(** An optimizer that keeps its start when it is in the bounds has the three properties. *)
Definition clamp (p : R * R) (v : R) : R := Rmax (fst p) (Rmin (snd p) v).
Fixpoint clamps (b : list (R * R)) (x : list R) : list R :=
  match b, x with p :: b', v :: x' => clamp p v :: clamps b' x' | _, _ => [] end.
Definition stay (f : list R -> option R) (x0 : list R) (b : list (R * R)) : option R * list R := (f (clamps b x0), clamps b x0).
Lemma clamps_same b x : Forall2 within b x -> clamps b x = x.
Proof.
  induction 1 as [|p v b x [A B] F IH]; [reflexivity|]. cbn. f_equal; [|exact IH]. unfold clamp. rewrite (Rmin_right (snd p) v) by exact B. now apply Rmax_right.
Qed.
Example C99_example : honest stay /\ descends stay /\ stays_within stay.
Proof.
  split; [|split].
  - intros f x0 b v H. exact H.
  - intros f x0 b v _ W H. exists v. unfold stay. cbn. rewrite clamps_same by exact W. split; [exact H|lra].
  - intros f x0 b L F. cbn. revert x0 L. induction F as [|p b P F IH]; intros [|v x0] L; try discriminate; cbn; constructor.
    + unfold within, clamp. split; [apply Rmax_l|]. apply Rmax_lub; [exact P|apply Rmin_l].
    + apply IH. cbn in L. lia.
Qed.

(** ** C100: number of likelihood evaluations *)
(** After the setter the budget of one optimization is defined, at least 25, at least 10 per component unless the user's limit is
    lower, and at most the user's limit when this is at least 25. *)
Theorem C100_budget_partial : forall m n, exists k, eval_budget n (set_max_eval m) = Some k /\ (25 <= k)%nat /\
  ((25 <= m)%nat -> (k <= m)%nat) /\ (k = 25 \/ k = 10 * n \/ k = m)%nat.
Proof.
  intros m n. unfold eval_budget, set_max_eval, min_eval. destruct (Nat.leb_spec 25 (Nat.max 25 m)); [|lia]. eexists. split; [reflexivity|]. lia.
Qed.
Print Assumptions C100_budget_partial.
(** A limit below 25 is documented to be replaced by 1000: it is replaced by 25. *)
Theorem C100_documented_refuted : exists m, (m < 25)%nat /\ set_max_eval m = 25%nat /\ set_max_eval m <> 1000%nat.
Proof. exists 10%nat. split; [lia|]. split; [reflexivity|]. intros H. assert (K : set_max_eval 10 = 25%nat) by reflexivity. rewrite K in H. discriminate H. Qed.
Print Assumptions C100_documented_refuted.

(** ** C90: accepted specifications *)
(** Full tuning with one value or one per component, fixed or partial tuning with one value per component: theta is chosen, has one
    value per component, and training and predictions then work for every kernel as soon as the correlation matrix is positive definite. *)
Theorem C90_accepted_partial : forall lik opt sched dim n u rnd sw t,
  stays_within opt -> fair sched -> (forall b, bounds_of t = Some b -> strict_bounds b /\ (length b = 1 \/ length b = dim)%nat) ->
  Forall (fun v => 0 <= v < 1) u -> (dim <= length u)%nat -> (forall s j, (j < dim)%nat -> unit_draws n (rnd s j)) ->
  (length (init_of t) = dim \/ (length (init_of t) = 1%nat /\ exists i b, t = Full i b)) ->
  (forall i b a, t = Partial i b a -> NoDup a /\ forall k, In k a -> (k < dim)%nat) ->
  exists th, choose_theta lik opt sched dim n u rnd sw t = Some th /\ length th = dim /\
    forall qr mk ck m nx w nugget x y, (1 < m)%nat ->
      positive_definite m (fun i j => if Nat.eqb i j then 1 + nugget else
        kval ck nx dim (fun l => nth l th 0) w (fun c => fst (fst (normalize m x)) i c - fst (fst (normalize m x)) j c)) ->
      exists g, fit qr (fun _ => true) mk ck m nx dim (length th) (fun l => nth l th 0) w nugget x y = Some g /\
        (forall z i, exists v, predict g z i = Some v) /\ (forall z i, exists v, predict_var g z i = Some v) /\
        (forall z c, exists v, predict_jacobian g z c = Some v).
Proof.
  intros lik opt sched dim n u rnd sw t St Fa Bd U Lu D Li Pa.
  assert (G : exists th, choose_theta lik opt sched dim n u rnd sw t = Some th /\ length th = dim).
  { assert (Bi : exists theta0, broadcast dim (init_of t) = Some theta0) by (apply broadcast_ok; destruct Li as [L|[L _]]; auto).
    destruct t as [i|i b|i b a]; cbn [init_of bounds_of] in *.
    - unfold choose_theta. destruct Bi as [th0 ->]. exists i. split; [reflexivity|]. destruct Li as [L|[_ (i' & b & E)]]; [exact L|discriminate E].
    - destruct (Bd b eq_refl) as [Sb Lb]. pose proof (broadcast_ok dim b Lb) as Bb.
      destruct (results_ok lik opt dim n u rnd sw i b (seq 0 dim) U D St Bi Bb (seq_NoDup dim 0)) as [rs Er].
      { intros k Hk. apply in_seq in Hk. lia. } { intros _. split; assumption. }
      unfold choose_theta. rewrite Er. eexists. split; [reflexivity|]. rewrite map_length.
      destruct (results_within lik opt dim n u rnd sw i b _ (strict_sound b Sb) U D rs Er St) as (bb & Eb & _ & W).
      apply reduce_length; [|reflexivity]. rewrite Fa. apply Forall_forall. intros o Ho. specialize (W o Ho). apply Forall2_len in W.
      pose proof (broadcast_length _ _ _ Eb) as Lbb. rewrite log_bounds_length in W. rewrite <- Lbb in W at 1. rewrite active_bounds_all in W. lia.
    - destruct (Bd b eq_refl) as [Sb Lb]. pose proof (broadcast_ok dim b Lb) as Bb. destruct (Pa i b a eq_refl) as [ND Rg].
      destruct (results_ok lik opt dim n u rnd sw i b a U D St Bi Bb ND Rg) as [rs Er]. { intros _. split; assumption. }
      unfold choose_theta. rewrite Er. destruct Li as [L|[_ (i' & b' & E)]]; [|discriminate E].
      destruct (set_all_ok a (map pow10 (snd (reduce (length a) (sched rs)))) i) as [th Eth]. { intros k Hk. rewrite L. now apply Rg. }
      exists th. split; [exact Eth|]. now rewrite (set_all_length _ _ _ _ Eth). }
  destruct G as (th & E & L). exists th. split; [exact E|]. split; [exact L|].
  intros qr mk ck m nx w nugget x y M PD.
  assert (V : value_theta ck (length th) dim (fun l => nth l th 0) = Some (fun l => nth l th 0)).
  { unfold value_theta, theta_row, theta_dot. rewrite L, Nat.eqb_refl. now destruct ck. }
  assert (J : jac_theta ck (length th) dim (fun l => nth l th 0) = Some (fun l => nth l th 0)).
  { unfold jac_theta, theta_row, theta_dot. rewrite L, Nat.eqb_refl. now destruct ck. }
  destruct (proj2 (C53_training_iff qr (fun _ => true) mk ck m nx dim (length th) _ w nugget x y _ V M (fun _ => eq_refl)) PD) as [g Fit].
  exists g. split; [exact Fit|].
  destruct (fit_inv _ _ _ _ _ _ _ _ _ _ _ _ _ g Fit) as (th' & rm & _ & _ & _ & _ & _ & _ & _ & _ & _ & _ & G1 & G2 & G3 & G4 & G5 & G6 & G7 & _).
  split; [|split].
  - intros z i. unfold predict, compute_correlation. rewrite G3, G4, G6, G7, V. eexists. reflexivity.
  - intros z i. unfold predict_var, compute_correlation. rewrite G3, G4, G6, G7, V. destruct (compute_rt_u _ _ _). eexists. reflexivity.
  - intros z c. unfold predict_jacobian. rewrite G3, G4, G6, G7, J. eexists. reflexivity.
Qed.
Print Assumptions C90_accepted_partial.
Example C90_example : strict_bounds [(1, 10)] /\ NoDup [1; 0]%nat /\ Forall (fun v => 0 <= v < 1) [1 / 2; 1 / 3] /\ (forall s j : nat, (j < 2)%nat -> unit_draws 1 [0]).
Proof.
  split; [repeat constructor; cbn; lra|]. split; [repeat constructor; cbn; intuition lia|]. split; [repeat constructor; lra|].
  intros _ _ _. split; [reflexivity|]. repeat constructor; lra.
Qed.

(** The number of components of theta is the requested reduction, which cannot exceed the number of inputs, or the number of inputs. *)
Theorem C90_dimension : forall kpls ncols dim, theta_dim kpls ncols = Some dim <->
  (kpls = None /\ dim = ncols) \/ (kpls = Some dim /\ (dim <= ncols)%nat).
Proof.
  intros [d|] ncols dim; cbn [theta_dim].
  - destruct (Nat.ltb_spec ncols d) as [L|L]; split.
    + discriminate.
    + intros [[E _]|[E K]]; [discriminate|injection E as ->; lia].
    + intros E. injection E as ->. right. split; [reflexivity|exact L].
    + intros [[E _]|[E K]]; [discriminate|exact E].
  - split.
    + intros E. injection E as ->. left. now split.
    + intros [[_ E]|[E _]]; [now subst|discriminate].
Qed.
Print Assumptions C90_dimension.
(** A specification is rejected when the reduction has no component or more components than initial values, if there are several;
    training would have panicked. Any other specification is accepted. *)
Theorem C90_rejected : forall kpls t,
  (check kpls t = false <-> exists d, kpls = Some d /\ (d = 0 \/ 1 < length (init_of t) < d)%nat) /\
  (check kpls t = false -> kpls = Some O \/ forall lik opt sched ncols dim n u rnd sw, theta_dim kpls ncols = Some dim ->
     choose_theta lik opt sched dim n u rnd sw t = None).
Proof.
  intros kpls t. assert (I : check kpls t = false <-> exists d, kpls = Some d /\ (d = 0 \/ 1 < length (init_of t) < d)%nat).
  { destruct kpls as [d|]; cbn [check]; [|split; [discriminate|intros [d [E _]]; discriminate]].
    destruct (Nat.eqb_spec d 0) as [D|D]; cbn [negb andb].
    - split; [intros _; exists d; auto|reflexivity].
    - destruct (Nat.ltb_spec 1 (length (init_of t))) as [A|A], (Nat.ltb_spec (length (init_of t)) d) as [B|B]; cbn [negb andb]; split;
        try discriminate; try reflexivity; try (intros [d' [E F]]; injection E as <-; lia).
      intros _. exists d. split; [reflexivity|lia]. }
  split; [exact I|]. intros H. apply I in H. destruct H as [d [-> H]]. destruct (Nat.eq_dec d 0) as [->|D]; [now left|right].
  intros lik opt sched ncols dim n u rnd sw E. assert (Ed : dim = d) by (apply C90_dimension in E; destruct E as [[E _]|[E _]]; [discriminate|now injection E]).
  subst dim. assert (B : broadcast d (init_of t) = None).
  { destruct H as [H|H]; [lia|]. destruct (init_of t) as [|a [|b l]]; cbn [length] in H; try lia.
    unfold broadcast. destruct (Nat.eqb_spec (length (a :: b :: l)) d) as [K|K]; [cbn [length] in K; lia|reflexivity]. }
  destruct t as [i|i b|i b a]; cbn [init_of] in B; unfold choose_theta, results; rewrite B; reflexivity.
Qed.
Print Assumptions C90_rejected.
Example C90_rejected_example : check (Some 3%nat) (Full [1; 1] [(1, 10)]) = false /\ theta_dim (Some 3%nat) 4 = Some 3%nat.
Proof. split; reflexivity. Qed.

(** One fixed value in dimension 2 is accepted, and training panics for the absolute exponential kernel, on any data. *)
Theorem C90_fixed_refuted : check None (Fixed [1]) = true /\
  forall lik opt sched n u rnd sw, exists th, choose_theta lik opt sched 2 n u rnd sw (Fixed [1]) = Some th /\
    forall qr cond mk m nx w nugget x y, fit qr cond mk Moe_Model.AbsoluteExponential m nx 2 (length th) (fun l => nth l th 0) w nugget x y = None.
Proof.
  split; [reflexivity|]. intros. exists [1]. split; [reflexivity|]. intros. unfold fit. destruct (normalize m x) as [[xd xm] xs].
  destruct (normalize m (fun i _ => y i)) as [[yd ym] ys]. destruct (cross_diff m xd) as [[[rows ind] d]|]; [|reflexivity].
  destruct (Nat.eqb rows 0); reflexivity.
Qed.
Print Assumptions C90_fixed_refuted.
(** One initial value with partial tuning of another component than the first panics. *)
Theorem C90_partial_tuning_refuted : check None (Partial [1] [(1, 10)] [1%nat]) = true /\
  forall lik opt sched n u rnd sw, stays_within opt -> fair sched -> Forall (fun v => 0 <= v < 1) u -> (forall t j, (j < 2)%nat -> unit_draws n (rnd t j)) ->
    choose_theta lik opt sched 2 n u rnd sw (Partial [1] [(1, 10)] [1%nat]) = None.
Proof.
  split; [reflexivity|]. intros lik opt sched n u rnd sw St Fa U D. unfold choose_theta. destruct (results _ _ _ _ _ _ _ _ _ _) as [rs|] eqn:Er; [|reflexivity].
  destruct (results_within lik opt 2 n u rnd sw [1] [(1, 10)] [1%nat] ltac:(constructor; [cbn; lra|constructor]) U D rs Er St) as (bb & Eb & _ & W).
  injection Eb as <-. assert (L : length (snd (reduce (length [1%nat]) (sched rs))) = 1%nat).
  { apply reduce_length; [|reflexivity]. rewrite Fa. apply Forall_forall. intros o Ho. specialize (W o Ho). apply Forall2_len in W. symmetry. exact W. }
  destruct (snd (reduce _ _)) as [|v [|? ?]]; try discriminate L. reflexivity.
Qed.
Print Assumptions C90_partial_tuning_refuted.
(** With a dimension reduction, initial values as long as the input dimension are accepted and training panics. *)
Theorem C90_kpls_refuted : check (Some 1%nat) (Full [1; 1] [(1, 10)]) = true /\ theta_dim (Some 1%nat) 2 = Some 1%nat /\
  forall lik opt sched n u rnd sw, choose_theta lik opt sched 1 n u rnd sw (Full [1; 1] [(1, 10)]) = None.
Proof. split; [reflexivity|]. split; [reflexivity|]. reflexivity. Qed.
Print Assumptions C90_kpls_refuted.
