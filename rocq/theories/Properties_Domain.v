(** The local step of the trust-region mode and the domain of evaluations. *)
From Coq Require Import ZArith List Arith Bool Lia Permutation.
From Verif Require Import F64 Util Coego_Model Coego_Spec Coego_Proofs Inner_Model Inner_Proofs Trego_Model Ego_Model Ego_Spec
  Ego_Proofs Ego_Run Ego_Examples Domain_Model Domain_Proofs.
Import ListNotations.
Local Open Scope nat_scope.

(** An optimizer that returns [x] when the bounds allow it. *)
Definition inb (b : list (f64 * f64)) (x : list f64) : bool :=
  (length b =? length x) && forallb (fun p => fle (fst (fst p)) (snd p) && fle (snd p) (snd (fst p))) (combine b x).
Lemma inb_within b : forall x, inb b x = true <-> within b x.
Proof.
  unfold inb, within. induction b as [|l b IH]; intros [|v x]; cbn; split; intros H; try discriminate; try constructor; try now inversion H.
  - apply andb_prop in H. destruct H as [_ H]. apply andb_prop in H. destruct H as [H _]. now apply andb_prop in H.
  - apply IH. apply andb_prop in H. destruct H as [A H]. apply andb_prop in H. destruct H as [_ H]. now rewrite A, H.
  - inversion H; subst. apply IH in H5. apply andb_prop in H5. destruct H5 as [-> ->], H3 as [-> ->]. reflexivity.
Qed.
Definition to_point (x : list f64) (ctx : list f64) (a : list nat) (b : list (f64 * f64)) (budget : nat) (s : list f64) : outcome :=
  if inb b x then Done (fofZ 7) x else Failed fzero s.
Lemma to_point_ok x : external_ok (fun _ => fofZ 7) (to_point x).
Proof.
  intros ctx a b budget s y u E. unfold to_point in E. destruct (inb b x) eqn:I; [|discriminate]. injection E as <- <-.
  split; [now apply inb_within|reflexivity].
Qed.
Lemma get_active_full {A} (l : list A) : get_active l (seq 0 (length l)) = Some l.
Proof.
  unfold get_active. rewrite strip_all by (apply Forall_forall; intros i H; apply in_seq in H; lia).
  apply select_eq; [now rewrite seq_length|]. intros k j K.
  assert (k < length (seq 0 (length l))) by (apply nth_error_Some; congruence). rewrite seq_length in H.
  assert (j = k); [|now subst]. apply (nth_error_nth _ _ 0) in K. rewrite seq_nth in K by assumption. now subst.
Qed.

Lemma one_group (opt : optimizer) n xb yb y u : opt 0 1 xb (seq 0 n) = (y, u) -> finite_number y = true ->
  length xb = n -> length u = n -> optimize_infill opt (full_activity n) xb yb = Some (y, u).
Proof.
  intros E F <- Lu. unfold optimize_infill, full_activity. cbn [groups attempts]. rewrite E, finite_value_eq, F, (set_active_full xb u Lu). reflexivity.
Qed.
Lemma to_point_opt starts limits x i n ctx s : within limits x -> starts i n (seq 0 (length limits)) = [s] ->
  inner_optimizer (to_point x) starts (fun _ _ rs => Part rs) limits i n ctx (seq 0 (length limits)) = (fofZ 7, x).
Proof.
  intros W S. unfold inner_optimizer, multistart. rewrite get_active_full, S. cbn [map]. unfold to_point.
  rewrite (proj2 (inb_within limits x) W). cbn [report reduce fold_left]. unfold keep, identity. cbn [fst].
  replace (flt (fofZ 7) finf) with true by (vm_compute; reflexivity). reflexivity.
Qed.

(** Every point of the domain is the proposal of some inner optimization. *)
Lemma to_point_proposed limits h x xb : 1 <= length limits -> In xb h -> length xb = length limits -> within limits x -> proposed limits h x.
Proof.
  intros L I Lx W. exists (fun _ => fofZ 7), (to_point x), (fun _ _ _ => [x]), (fun _ _ rs => Part rs), 1, (seq 0 (length limits)),
    (full_activity (length limits)), xb, fzero, (fofZ 7).
  split; [apply to_point_ok|]. split; [reflexivity|]. split; [lia|]. split; [reflexivity|]. split; [now apply full_is_random|].
  split; [exact I|]. apply one_group; [now apply (to_point_opt _ limits x 0 1 xb x)|vm_compute; reflexivity|exact Lx|].
  apply within_nth in W. symmetry. apply W.
Qed.

(** C139, partial: a local step proposes a point of the domain. *)
Theorem C139_domain_partial : forall crit lhs d0 d1 sigma solve sched limits n_coop idx rows xbest ybest,
  external_ok crit solve -> (forall i n rs, schedule_of rs (sched i n rs)) ->
  1 <= length limits -> 1 <= n_coop -> Permutation idx (seq 0 (length limits)) ->
  random_activity (length limits) n_coop idx = Some rows -> within limits xbest ->
  exists v x, local_proposal lhs d0 d1 sigma solve sched limits rows xbest ybest = Some (v, x) /\ within limits x.
Proof.
  intros crit lhs d0 d1 sigma solve sched limits nc idx rows xb yb X S L C P E W.
  destruct (inner_optimizer_ok crit solve (local_starts lhs d0 d1 limits xb) sched limits X S) as [Ok V].
  destruct (cooperative_proposal limits _ crit xb yb nc idx rows L C P E W Ok V) as (v & x & O & Wx & _). exists v, x. auto.
Qed.
Print Assumptions C139_domain_partial.

(** C139, partial: the optimizer is only started in the trust region, the area of radii [d0, d1] around the best point (C20): a
    local step gives the same proposal with any two optimizers that agree from the starts of this area. *)
Lemma attempts_ext (o o' : optimizer) (E : forall i n ctx a, o i n ctx a = o' i n ctx a) i a : forall fuel n st,
  attempts o i n fuel a st = attempts o' i n fuel a st.
Proof. induction fuel as [|fuel IH]; intros n st; [reflexivity|]. cbn [attempts]. destruct st as [[b x] ctx]. rewrite E. destruct (o' i n ctx a). now rewrite IH. Qed.
Lemma groups_ext (o o' : optimizer) (E : forall i n ctx a, o i n ctx a = o' i n ctx a) : forall actives i st,
  groups o i actives st = groups o' i actives st.
Proof.
  induction actives as [|a actives IH]; intros i st; [reflexivity|]. cbn [groups]. rewrite (attempts_ext o o' E).
  destruct (attempts o' i 1 3 a st); [apply IH|reflexivity].
Qed.
Theorem C139_starts_partial : forall lhs d0 d1 sigma solve solve' sched limits rows xbest ybest,
  (forall i n box s, In s (lhs i n box) -> within box s) ->
  (forall ctx a bounds budget s l o area, get_active limits a = Some l -> get_active xbest a = Some o -> local_area d0 d1 o l = Some area ->
     within area s -> solve ctx a bounds budget s = solve' ctx a bounds budget s) ->
  local_proposal lhs d0 d1 sigma solve sched limits rows xbest ybest = local_proposal lhs d0 d1 sigma solve' sched limits rows xbest ybest.
Proof.
  intros lhs d0 d1 sigma solve solve' sched limits rows xb yb W H. unfold local_proposal, optimize_infill.
  rewrite (groups_ext _ (inner_optimizer solve' (local_starts lhs d0 d1 limits xb) sched limits)); [reflexivity|].
  intros i n ctx a. unfold inner_optimizer, multistart. destruct (get_active limits a) as [l|] eqn:El; [|reflexivity].
  cbv beta iota. rewrite (map_ext_in _ (fun s => report (solve' ctx a l (max_eval (length (local_starts lhs d0 d1 limits xb i n a)) (length l)) s)));
    [reflexivity|].
  intros s Is. f_equal. unfold local_starts in Is. rewrite El in Is.
  destruct (get_active xb a) as [o|] eqn:Eo; [|destruct Is]. destruct (local_area d0 d1 o l) as [area|] eqn:Ea; [|destruct Is].
  eapply H; eauto.
Qed.
Print Assumptions C139_starts_partial.

(** C139. Finding: the proposal of a local step can be anywhere in the domain: all starts are in the local area and
    the optimizer respects the bounds it is given, but these are the bounds of the whole domain. The radii are
    the defaults of the library (1e-6, 1), [sigma] is any size of the trust region, the domain is [0, 10] and the
    best point is 5. *)
Theorem C139_region_refuted : forall sigma x, within [(fzero, fofZ 10)] x -> exists crit solve lhs sched area v,
  external_ok crit solve /\ (forall i n rs, schedule_of rs (sched i n rs)) /\
  local_area (fdiv fone (fofZ 1000000)) fone [fofZ 5] [(fzero, fofZ 10)] = Some area /\
  (forall i n box s, In s (lhs i n box) -> within [(fzero, fofZ 10)] s) /\
  (forall i n s, In s (lhs i n area) -> within area s) /\ lhs 0 1 area <> [] /\
  local_proposal lhs (fdiv fone (fofZ 1000000)) fone sigma solve sched [(fzero, fofZ 10)] (full_activity 1) [fofZ 5] (fofZ 9)
    = Some (v, x).
Proof.
  intros sigma x W. exists (fun _ => fofZ 7), (to_point x), (fun _ _ _ => [[fofZ 5]]), (fun _ _ rs => Part rs).
  destruct (local_area (fdiv fone (fofZ 1000000)) fone [fofZ 5] [(fzero, fofZ 10)]) as [area|] eqn:A; [|discriminate A].
  exists area, (fofZ 7). split; [apply to_point_ok|]. split; [reflexivity|]. split; [reflexivity|].
  assert (I : inb area [fofZ 5] = true).
  { transitivity (match local_area (fdiv fone (fofZ 1000000)) fone [fofZ 5] [(fzero, fofZ 10)] with Some a => inb a [fofZ 5] | None => false end);
    [now rewrite A|vm_compute; reflexivity]. }
  split; [intros i n box s [<-|[]]; apply inb_within; vm_compute; reflexivity|].
  split; [intros i n s [<-|[]]; now apply inb_within|]. split; [discriminate|].
  assert (Lx : length x = 1) by (apply within_nth in W; symmetry; apply W).
  apply one_group; [|vm_compute; reflexivity|reflexivity|exact Lx].
  apply (to_point_opt _ [(fzero, fofZ 10)] x 0 1 [fofZ 5] [fofZ 5] W). unfold local_starts.
  change (length [(fzero, fofZ 10)]) with (length [fofZ 5]) at 2. rewrite !get_active_full. now rewrite A.
Qed.
Print Assumptions C139_region_refuted.
Example C139_example : within [(fzero, fofZ 10)] [fofZ 10] /\
  match local_area (fdiv fone (fofZ 1000000)) fone [fofZ 5] [(fzero, fofZ 10)] with
  | Some area => inb area [fofZ 10] | None => true end = false.
Proof. split; [apply inb_within|]; vm_compute; reflexivity. Qed.

(** C140: a run started from a design in the domain only keeps and evaluates points of the domain: it is the same
    run for any two pairs of functions that agree on the domain. *)
Theorem C140_domain : forall cfg limits orc fobj fcstr cols doe, 1 <= length limits ->
  Forall (within limits) (design_points cfg cols doe) ->
  (forall k st, reached cfg fobj fcstr orc cols doe k st ->
     (forall a x, In x (b_x (o_batch orc st.(s_iter) a)) -> proposed limits st.(s_x) x) /\
     (cfg.(c_trego) = true -> proposed limits st.(s_x) (o_local orc st.(s_iter)))) ->
  forall k st, reached cfg fobj fcstr orc cols doe k st -> Forall (within limits) st.(s_x) /\
    forall fobj' fcstr', agree limits fobj fobj' -> agree limits fcstr fcstr' -> reached cfg fobj' fcstr' orc cols doe k st.
Proof. exact run_agree. Qed.
Print Assumptions C140_domain.

(** A trust-region run (global and local steps) on [-100, 100], and functions that differ outside. *)
Definition u_limits : list (f64 * f64) := [(fofZ (-100), fofZ 100)].
Definition u_orc : oracle := mkOracle (fun i a => mkBatch (b_x (o_batch orcU (Nat.min i 9) a)) [[fNaN]] [[fofZ 2]])
  (fun i => o_local orcU (Nat.min i 9)).
Example C140_example : run_ok cfgU ex_obj ex_cstr u_orc 1 ex_doe /\ Forall (within u_limits) (design_points cfgU 1 ex_doe) /\
  (forall k st, reached cfgU ex_obj ex_cstr u_orc 1 ex_doe k st ->
     (forall a x, In x (b_x (o_batch u_orc st.(s_iter) a)) -> proposed u_limits st.(s_x) x) /\
     (cfgU.(c_trego) = true -> proposed u_limits st.(s_x) (o_local u_orc st.(s_iter)))) /\
  agree u_limits ex_obj (fun x => if inb u_limits x then ex_obj x else []) /\
  option_map (fun st => length st.(s_x)) (run cfgU ex_obj ex_cstr u_orc 1 ex_doe 4) = Some 6.
Proof.
  assert (R : run_ok cfgU ex_obj ex_cstr u_orc 1 ex_doe).
  { split; [apply ex_problem; now left|]. split; [|apply ex_design; now left].
    split; [|reflexivity]. intros i a. constructor; simpl; try congruence; try reflexivity; repeat constructor. }
  split; [exact R|]. split.
  { repeat constructor; vm_compute; reflexivity. }
  split; [|split; [|vm_compute; reflexivity]].
  - intros k st H. destruct R as (PO & OO & DO). pose proof (proj1 (run_y _ _ _ _ _ _ PO OO DO k st H)) as E.
    assert (I : In [fofZ 3] (s_x st)) by (rewrite E; left; reflexivity).
    split.
    + intros a x Hx. destruct Hx as [<-|[]]. apply (to_point_proposed _ _ _ [fofZ 3]); auto. apply inb_within.
      set (i := s_iter st). clearbody i. do 10 (destruct i as [|i]; [vm_compute; reflexivity|]). vm_compute; reflexivity.
    + intros _. apply (to_point_proposed _ _ _ [fofZ 3]); auto. apply inb_within.
      set (i := s_iter st). clearbody i. do 10 (destruct i as [|i]; [vm_compute; reflexivity|]). vm_compute; reflexivity.
  - intros x W. apply inb_within in W. now rewrite W.
Qed.
