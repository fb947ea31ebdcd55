(** Specification vocabulary and proofs for the domain of evaluations. *)
From Coq Require Import List Arith Bool Lia Permutation.
From Verif Require Import F64 Util FindResult_Model UpdateData_Model Coego_Model Coego_Spec Coego_Proofs Inner_Model
  Inner_Proofs Trego_Model Ego_Model Ego_Spec Domain_Model.
Import ListNotations.
Local Open Scope nat_scope.

(** [x] is proposed by the inner optimization over groups of variables (one group when not cooperative), with some
    optimizer respecting its bounds, some starts and some scheduling, from a point of the history. *)
Definition proposed (limits : list (f64 * f64)) (history : list (list f64)) (x : list f64) : Prop :=
  exists crit solve starts sched n_coop idx rows xb ybest v,
    external_ok crit solve /\ (forall i n rs, schedule_of rs (sched i n rs)) /\
    1 <= n_coop /\ Permutation idx (seq 0 (length limits)) /\ random_activity (length limits) n_coop idx = Some rows /\
    In xb history /\ optimize_infill (inner_optimizer solve starts sched limits) rows xb ybest = Some (v, x).

(** [f] and [g] agree on the domain. *)
Definition agree (limits : list (f64 * f64)) (f g : list f64 -> list f64) : Prop :=
  forall x, within limits x -> f x = g x.

Lemma proposed_within limits h x : 1 <= length limits -> Forall (within limits) h -> proposed limits h x -> within limits x.
Proof.
  intros L H (crit & solve & starts & sched & nc & idx & rows & xb & yb & v & X & S & C & P & E & I & O).
  rewrite Forall_forall in H. destruct (inner_optimizer_ok crit solve starts sched limits X S) as [Ok V].
  destruct (cooperative_proposal limits _ crit xb yb nc idx rows L C P E (H _ I) Ok V) as (v' & x' & O' & W & _).
  rewrite O in O'. injection O' as <- <-. exact W.
Qed.

Lemma update_loop_rows wx wy wc (P : list f64 -> Prop) xn : forall i x y c app yn cn x' y' c' a,
  update_loop wx wy wc i x y c app xn yn cn = Some (x', y', c', a) -> Forall P x -> Forall P xn -> Forall P x'.
Proof.
  induction xn as [|r xn IH]; intros i x y c app [|yr yn] [|cr cn] x' y' c' a E F Fn; try discriminate.
  - injection E as <- _ _ _. exact F.
  - cbn [update_loop] in E. destruct (is_update_ok x r) as [[|]|]; [| |discriminate].
    + unfold push_row in E. destruct (length r =? wx); [|discriminate]. destruct (length yr =? wy); [|discriminate].
      destruct (length cr =? wc); [|discriminate]. inversion Fn; subst.
      eapply IH; [exact E| |assumption]. apply Forall_app. split; [assumption|now constructor].
    + inversion Fn; subst. eapply IH; eassumption.
Qed.
Lemma update_data_rows wx wy wc (P : list f64 -> Prop) x y c xn yn cn x' y' c' a :
  update_data wx wy wc x y c xn yn cn = Some (x', y', c', a) -> Forall P x -> Forall P xn -> Forall P x'.
Proof. unfold update_data. destruct (_ && _); [apply update_loop_rows|discriminate]. Qed.

Section Run.
Variables (cfg : config) (limits : list (f64 * f64)) (orc : oracle).
Notation inside := (Forall (within limits)).

Lemma scaled_rows_agree fcstr fcstr' : agree limits fcstr fcstr' -> forall xs ss, inside xs ->
  scaled_rows fcstr xs ss = scaled_rows fcstr' xs ss.
Proof.
  intros A xs. induction xs as [|x xs IH]; intros [|s ss] F; try reflexivity. inversion F; subst. cbn [scaled_rows].
  now rewrite (A x), IH.
Qed.
Lemma map_agree f f' xs : agree limits f f' -> inside xs -> map f xs = map f' xs.
Proof. intros A F. apply map_ext_in. rewrite Forall_forall in F. auto. Qed.
Lemma forall_skipn {A} (P : A -> Prop) n l : Forall P l -> Forall P (skipn n l).
Proof. intros F. rewrite <- (firstn_skipn n l) in F. apply Forall_app in F. apply F. Qed.

Lemma ego_loop_agree fobj fcstr fobj' fcstr' (o : nat -> batch) st : agree limits fobj fobj' -> agree limits fcstr fcstr' ->
  inside st.(s_x) -> (forall a, inside (b_x (o a))) -> forall r a,
  ego_loop cfg fobj fcstr o st r a = ego_loop cfg fobj' fcstr' o st r a /\
  forall st', ego_loop cfg fobj fcstr o st r a = Some st' -> inside st'.(s_x).
Proof.
  intros Ao Ac I B r. induction r as [|r IH]; intros a; [split; [reflexivity|discriminate]|].
  cbn [ego_loop]. rewrite <- (scaled_rows_agree fcstr fcstr' Ac (b_x (o a)) (b_scales (o a)) (B a)).
  destruct (scaled_rows fcstr (b_x (o a)) (b_scales (o a))) as [cd|]; [|split; [reflexivity|discriminate]]. cbv zeta.
  destruct (update_data _ _ _ _ _ _ _ _ _) as [[[[x' y'] c'] added]|] eqn:U; [|split; [reflexivity|discriminate]].
  pose proof (update_data_rows _ _ _ (within limits) _ _ _ _ _ _ _ _ _ _ U I (B a)) as I'.
  destruct (b_x (o a)); [split; [reflexivity|discriminate]|].
  destruct (length added =? 0).
  - destruct r as [|r]; [|apply IH]. split; [reflexivity|]. intros st' E. injection E as <-. exact I.
  - rewrite <- (map_agree fobj fobj' _ Ao (forall_skipn _ _ _ I')).
    destruct (find_best_result_index_from _ _ _ _ _) as [best|]; [|split; [reflexivity|discriminate]].
    destruct (nth_error _ best) as [yb|]; [|split; [reflexivity|discriminate]].
    destruct (nth_error c' best) as [cb|]; [|split; [reflexivity|discriminate]].
    destruct (if s_feas st then Some true else _) as [feas|]; split; try reflexivity; try discriminate.
    intros st' E. injection E as <-. exact I'.
Qed.

Lemma trego_step_agree fobj fcstr fobj' fcstr' st : agree limits fobj fobj' -> agree limits fcstr fcstr' ->
  inside st.(s_x) -> within limits (o_local orc st.(s_iter)) ->
  trego_step cfg fobj fcstr orc st = trego_step cfg fobj' fcstr' orc st /\
  forall st', trego_step cfg fobj fcstr orc st = Some st' -> inside st'.(s_x).
Proof.
  intros Ao Ac I W. unfold trego_step. cbv zeta. rewrite <- (Ao _ W), <- (Ac _ W). split; [reflexivity|].
  destruct (update_data _ _ _ _ _ _ _ _ _) as [[[[x' y'] c'] added]|] eqn:U; [|discriminate].
  assert (I' : inside x') by (eapply update_data_rows; [exact U|exact I|now constructor]).
  intros st'. destruct (find_best_result_index_from _ _ _ _ _) as [best|]; [|discriminate].
  destruct (nth_error y' best) as [yb|]; [|discriminate]. destruct (nth_error c' best) as [cb|]; [|discriminate].
  destruct (if s_feas st then Some true else _) as [feas|]; [|discriminate]. intros E. injection E as <-. exact I'.
Qed.

Lemma update_x st st' : update st = Some st' -> s_x st' = s_x st.
Proof.
  unfold update. destruct (nth_error (s_x st) _); [|discriminate]. destruct (nth_error (s_y st) _); [|discriminate].
  intros E. injection E as <-. reflexivity.
Qed.

Lemma exec_step_agree fobj fcstr fobj' fcstr' st : agree limits fobj fobj' -> agree limits fcstr fcstr' ->
  inside st.(s_x) -> (forall a, inside (b_x (o_batch orc st.(s_iter) a))) ->
  (cfg.(c_trego) = true -> within limits (o_local orc st.(s_iter))) ->
  exec_step cfg fobj fcstr orc st = exec_step cfg fobj' fcstr' orc st /\
  forall st', exec_step cfg fobj fcstr orc st = Some st' -> inside st'.(s_x).
Proof.
  intros Ao Ac I B W.
  assert (N : next_iter cfg fobj fcstr orc st = next_iter cfg fobj' fcstr' orc st /\
    forall st', next_iter cfg fobj fcstr orc st = Some st' -> inside st'.(s_x)).
  { unfold next_iter. destruct (c_trego cfg).
    - unfold trego_iteration. destruct (last_success st) as [su|]; [|split; [reflexivity|discriminate]]. cbv zeta.
      set (st1 := set_sigma _ st).
      destruct (is_global_phase _ _ _ _).
      + unfold ego_iteration.
        destruct (ego_loop_agree fobj fcstr fobj' fcstr' (o_batch orc (s_iter st1)) st1 Ao Ac I B (s_retries st1) 0) as [<- H].
        split; [reflexivity|]. intros st'. destruct (ego_loop _ _ _ _ _ _ _) as [st2|]; [|discriminate].
        intros E. injection E as <-. now apply (H st2).
      + destruct (trego_step_agree fobj fcstr fobj' fcstr' st1 Ao Ac I (W eq_refl)) as [<- H].
        split; [reflexivity|]. intros st'. destruct (trego_step _ _ _ _ _) as [st2|]; [|discriminate].
        intros E. injection E as <-. now apply (H st2).
    - unfold ego_iteration. apply ego_loop_agree; assumption. }
  unfold exec_step. destruct (terminated st); [split; [reflexivity|intros st' E; injection E as <-; exact I]|].
  destruct (terminate_internal st); try (split; [reflexivity|intros st' E; injection E as <-; exact I]).
  destruct N as [<- N]. split; [reflexivity|]. intros st'.
  destruct (next_iter cfg fobj fcstr orc st) as [st1|]; [|discriminate]. specialize (N st1 eq_refl).
  destruct (update st1) as [st2|] eqn:U; [|discriminate]. intros E. injection E as <-. cbn [s_x set_iter].
  now rewrite (update_x _ _ U).
Qed.

Lemma exec_last fobj fcstr k : forall st, exec cfg fobj fcstr orc (S k) st =
  (do st1 <- exec cfg fobj fcstr orc k st; exec_step cfg fobj fcstr orc st1).
Proof.
  induction k as [|k IH]; intros st; cbn [exec].
  - destruct (exec_step cfg fobj fcstr orc st); reflexivity.
  - destruct (exec_step cfg fobj fcstr orc st) as [st1|]; [|reflexivity]. now rewrite <- IH.
Qed.

(** The initial design, as points. *)
Definition design_points (cols : nat) (doe : list (list f64)) : list (list f64) :=
  if cols =? cfg.(c_wx) then doe else map (firstn cfg.(c_wx)) doe.

Lemma init_agree fobj fcstr fobj' fcstr' cols doe : agree limits fobj fobj' -> agree limits fcstr fcstr' ->
  inside (design_points cols doe) ->
  init cfg fobj fcstr cols doe = init cfg fobj' fcstr' cols doe /\
  forall st, init cfg fobj fcstr cols doe = Some st -> inside st.(s_x).
Proof.
  intros Ao Ac I. unfold init. fold (design_points cols doe). cbv zeta. rewrite <- (map_agree fcstr fcstr' _ Ac I).
  assert (Y : (if cols =? c_wx cfg then map fobj doe else map (skipn (c_wx cfg)) doe) =
              (if cols =? c_wx cfg then map fobj' doe else map (skipn (c_wx cfg)) doe)).
  { unfold design_points in I. destruct (cols =? c_wx cfg); [now apply map_agree|reflexivity]. }
  rewrite <- Y. split; [reflexivity|]. intros st.
  destruct (find_best_result_index _ _ _ _ _) as [best|]; [|discriminate].
  destruct (nth_error _ best) as [yb|]; [|discriminate]. destruct (nth_error _ best) as [cb|]; [|discriminate].
  destruct (if c_use_pof cfg then _ else _) as [feas|]; [|discriminate]. intros E. apply update_x in E. rewrite E. exact I.
Qed.

Lemma run_agree fobj fcstr cols doe : 1 <= length limits -> inside (design_points cols doe) ->
  (forall k st, reached cfg fobj fcstr orc cols doe k st ->
     (forall a x, In x (b_x (o_batch orc st.(s_iter) a)) -> proposed limits st.(s_x) x) /\
     (cfg.(c_trego) = true -> proposed limits st.(s_x) (o_local orc st.(s_iter)))) ->
  forall k st, reached cfg fobj fcstr orc cols doe k st -> inside st.(s_x) /\
    forall fobj' fcstr', agree limits fobj fobj' -> agree limits fcstr fcstr' -> reached cfg fobj' fcstr' orc cols doe k st.
Proof.
  intros L I H k. induction k as [|k IH]; intros st (st0 & E0 & E).
  - injection E as <-. assert (Ag : forall f, agree limits f f) by (intros f x _; reflexivity).
    split; [now apply (init_agree fobj fcstr fobj fcstr cols doe)|]. intros fobj' fcstr' Ao Ac.
    exists st0. split; [|reflexivity]. now rewrite <- (proj1 (init_agree fobj fcstr fobj' fcstr' cols doe Ao Ac I)).
  - rewrite exec_last in E. destruct (exec cfg fobj fcstr orc k st0) as [st1|] eqn:E1; [|discriminate].
    assert (R1 : reached cfg fobj fcstr orc cols doe k st1) by (exists st0; auto).
    destruct (IH st1 R1) as [I1 A1]. destruct (H k st1 R1) as [Hb Hl].
    assert (B : forall a, inside (b_x (o_batch orc (s_iter st1) a))).
    { intros a. apply Forall_forall. intros x Hx. apply (proposed_within limits (s_x st1)); eauto. }
    assert (W : c_trego cfg = true -> within limits (o_local orc (s_iter st1))).
    { intros T. apply (proposed_within limits (s_x st1)); auto. }
    split.
    + apply (proj2 (exec_step_agree fobj fcstr fobj fcstr st1 (fun _ _ => eq_refl) (fun _ _ => eq_refl) I1 B W) st E).
    + intros fobj' fcstr' Ao Ac. destruct (A1 fobj' fcstr' Ao Ac) as (st0' & E0' & E1').
      exists st0'. split; [exact E0'|]. rewrite exec_last, E1'.
      now rewrite <- (proj1 (exec_step_agree fobj fcstr fobj' fcstr' st1 Ao Ac I1 B W)).
Qed.
End Run.

(** The single group of all variables is the cooperative case with one group. *)
Lemma full_is_random n : 1 <= n -> random_activity n 1 (seq 0 n) = Some (full_activity n).
Proof.
  intros N. unfold random_activity, full_activity. replace (Nat.min 1 n) with 1 by lia.
  rewrite Nat.mod_1_r, Nat.div_1_r. cbn [Nat.eqb]. unfold from_shape_vec, row_of. rewrite seq_length, Nat.mul_1_l, Nat.eqb_refl.
  cbn [seq map Nat.mul skipn]. now rewrite <- (seq_length n 0) at 1; rewrite firstn_all.
Qed.
