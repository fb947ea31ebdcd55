From Coq Require Import ZArith List Arith Bool Lia.
From Verif Require Import F64 Util FindResult_Model FindResult_Spec FindResult_Proofs UpdateData_Model UpdateData_Spec
  UpdateData_Proofs Ego_Model Ego_Spec Ego_Proofs Ego_Run Restart_Model Restart_Spec.
Import ListNotations.

(** ** Counters of one executor round *)
Lemma ego_loop_counters cfg fobj fcstr o : forall retries attempt st st',
  ego_loop cfg fobj fcstr o st retries attempt = Some st' ->
  s_max_iters st' = s_max_iters st /\ s_iter st' = s_iter st.
Proof.
  induction retries as [|r IH]; intros a st st' E; [discriminate|]. cbn [ego_loop] in E. cbv zeta in E.
  destruct (scaled_rows _ _ _) as [c_dat|]; [|discriminate].
  destruct (update_data _ _ _ _ _ _ _ _ _) as [[[[x' y'] c'] ad]|]; [|discriminate].
  destruct (b_x (o a)); [discriminate|]. destruct (length ad =? 0).
  - destruct r; [|eapply IH; eassumption]. injection E as <-. now split.
  - destruct (find_best_result_index_from _ _ _ _ _); [|discriminate].
    destruct (nth_error _ _); [|discriminate]. destruct (nth_error _ _); [|discriminate].
    destruct (if s_feas st then _ else _); [|discriminate]. injection E as <-. now split.
Qed.

Lemma trego_step_counters cfg fobj fcstr orc st st' : trego_step cfg fobj fcstr orc st = Some st' ->
  s_max_iters st' = s_max_iters st /\ s_iter st' = s_iter st.
Proof.
  unfold trego_step. cbv zeta. intros E.
  destruct (update_data _ _ _ _ _ _ _ _ _) as [[[[x' y'] c'] ad]|]; [|discriminate].
  destruct (find_best_result_index_from _ _ _ _ _); [|discriminate].
  destruct (nth_error _ _); [|discriminate]. destruct (nth_error _ _); [|discriminate].
  destruct (if s_feas st then _ else _); [|discriminate]. injection E as <-. now split.
Qed.

Lemma next_iter_counters cfg fobj fcstr orc st st' : next_iter cfg fobj fcstr orc st = Some st' ->
  s_max_iters st' = s_max_iters st /\ s_iter st' = s_iter st.
Proof.
  unfold next_iter, trego_iteration, ego_iteration. cbv zeta. destruct (c_trego cfg).
  - destruct (last_success st) as [s|]; [|discriminate]. destruct (is_global_phase _ _ _ _).
    + destruct (ego_loop _ _ _ _ _ _ _) as [st2|] eqn:E; [|discriminate]. intros X. injection X as <-.
      apply ego_loop_counters in E. exact E.
    + destruct (trego_step _ _ _ _ _) as [st2|] eqn:E; [|discriminate]. intros X. injection X as <-.
      apply trego_step_counters in E. exact E.
  - apply ego_loop_counters.
Qed.

Lemma update_counters st st' : update st = Some st' -> s_max_iters st' = s_max_iters st /\ s_iter st' = s_iter st.
Proof.
  unfold update. destruct (nth_error _ _); [|discriminate]. destruct (nth_error _ _); [|discriminate].
  intros X. injection X as <-. now split.
Qed.

(** Does the executor perform an iteration from [st]? *)
Definition active (st : state) : bool :=
  negb (terminated st) && match terminate_internal st with Running => true | _ => false end.

Lemma exec_step_counters cfg fobj fcstr orc st st' : exec_step cfg fobj fcstr orc st = Some st' ->
  s_max_iters st' = s_max_iters st /\
  (if active st then s_iter st' = S (s_iter st)
   else s_iter st' = s_iter st /\ terminated st' = true /\
        (terminated st = true -> st' = st) /\
        (terminated st = false -> s_status st' = terminate_internal st)).
Proof.
  unfold exec_step, active. destruct (terminated st) eqn:T; simpl.
  - intros X. injection X as <-. repeat split; auto. congruence.
  - destruct (terminate_internal st) eqn:TI.
    + destruct (next_iter _ _ _ _ _) as [s1|] eqn:N; [|discriminate].
      destruct (update s1) as [s2|] eqn:U; [|discriminate]. intros X. injection X as <-. simpl.
      destruct (next_iter_counters _ _ _ _ _ _ N), (update_counters _ _ U). split; congruence.
    + intros X. injection X as <-. simpl. repeat split; congruence.
    + intros X. injection X as <-. simpl. repeat split; congruence.
    + intros X. injection X as <-. simpl. repeat split; congruence.
Qed.

Lemma terminate_max st : terminate_internal st = MaxItersReached -> s_max_iters st <= s_iter st.
Proof.
  unfold terminate_internal. destruct (Nat.leb_spec (s_max_iters st) (s_iter st)); [auto|].
  destruct (fle _ _); discriminate.
Qed.
Lemma active_below st : active st = true -> s_iter st < s_max_iters st.
Proof.
  unfold active, terminate_internal. destruct (terminated st); [discriminate|].
  destruct (Nat.leb_spec (s_max_iters st) (s_iter st)); [discriminate|auto].
Qed.

(** The budget status is only set by the stopping tests. *)
Lemma ego_loop_status cfg fobj fcstr o : forall retries attempt st st',
  ego_loop cfg fobj fcstr o st retries attempt = Some st' -> s_status st = Running -> s_status st' <> MaxItersReached.
Proof.
  induction retries as [|r IH]; intros a st st' E R; [discriminate|]. cbn [ego_loop] in E. cbv zeta in E.
  destruct (scaled_rows _ _ _) as [c_dat|]; [|discriminate].
  destruct (update_data _ _ _ _ _ _ _ _ _) as [[[[x' y'] c'] ad]|]; [|discriminate].
  destruct (b_x (o a)); [discriminate|]. destruct (length ad =? 0).
  - destruct r; [|eapply IH; eassumption]. injection E as <-. simpl. discriminate.
  - destruct (find_best_result_index_from _ _ _ _ _); [|discriminate].
    destruct (nth_error _ _); [|discriminate]. destruct (nth_error _ _); [|discriminate].
    destruct (if s_feas st then _ else _); [|discriminate]. injection E as <-. simpl. congruence.
Qed.
Lemma next_iter_status cfg fobj fcstr orc st st' : next_iter cfg fobj fcstr orc st = Some st' -> s_status st = Running ->
  s_status st' <> MaxItersReached.
Proof.
  unfold next_iter, trego_iteration, ego_iteration. cbv zeta. destruct (c_trego cfg).
  - destruct (last_success st) as [s|]; [|discriminate]. destruct (is_global_phase _ _ _ _).
    + destruct (ego_loop _ _ _ _ _ _ _) as [st2|] eqn:E; [|discriminate]. intros X R. injection X as <-.
      exact (ego_loop_status _ _ _ _ _ _ _ _ E R).
    + destruct (trego_step _ _ _ _ _) as [st2|] eqn:E; [|discriminate]. intros X R. injection X as <-. simpl.
      unfold trego_step in E. cbv zeta in E.
      destruct (update_data _ _ _ _ _ _ _ _ _) as [[[[x' y'] c'] ad]|]; [|discriminate].
      destruct (find_best_result_index_from _ _ _ _ _); [|discriminate].
      destruct (nth_error _ _); [|discriminate]. destruct (nth_error _ _); [|discriminate].
      destruct (if s_feas _ then _ else _); [|discriminate]. injection E as <-. simpl. congruence.
  - apply ego_loop_status.
Qed.
Lemma update_status st st' : update st = Some st' -> s_status st <> MaxItersReached -> s_status st' <> MaxItersReached.
Proof.
  unfold update. destruct (nth_error _ _); [|discriminate]. destruct (nth_error _ _); [|discriminate].
  intros X. injection X as <-. auto.
Qed.

Section HotStart.
Variable H : Type.
Variable cfg : config.
Variables fobj fcstr : row -> row.
Variable orc : H -> oracle.
Variable h_next : H -> state -> state -> H.
Variable h_init : H.
Variable h_finite : H -> bool.
Variables (cols : nat) (doe : mat).

Notation full := (Restart_Model.full H).
Notation disk := (Restart_Model.disk H).
Notation readable := (Restart_Model.readable H h_finite).
Notation save := (Restart_Model.save H h_finite).
Notation round := (Restart_Model.round H cfg fobj fcstr orc h_next h_finite).
Notation rounds := (Restart_Model.rounds H cfg fobj fcstr orc h_next h_finite).
Notation start := (Restart_Model.start H cfg fobj fcstr h_init cols doe).
Notation session := (Restart_Model.session H cfg fobj fcstr orc h_next h_init h_finite cols doe).
Notation killed := (Restart_Model.killed H cfg fobj fcstr orc h_next h_init h_finite cols doe).
Notation fresh := (Restart_Model.fresh H cfg fobj fcstr h_init cols doe).

Lemma round_eq st h d : round ((st, h), d) =
  match exec_step cfg fobj fcstr (orc h) st with
  | Some st' => if active st then let s' := (st', h_next h st st') in Some (s', save s') else Some ((st', h), d)
  | None => None
  end.
Proof.
  unfold Restart_Model.round, active. destruct (exec_step _ _ _ _ _); [|reflexivity].
  destruct (terminated st); [reflexivity|]. simpl. destruct (terminate_internal st); reflexivity.
Qed.

Lemma round_terminated s d : terminated (fst s) = true -> round (s, d) = Some (s, d).
Proof.
  destruct s as [st h]. cbn [fst]. intros T. rewrite round_eq. unfold exec_step, active. rewrite T. reflexivity.
Qed.

Lemma rounds_terminated k : forall s d, terminated (fst s) = true -> rounds k (s, d) = Some (s, d).
Proof.
  induction k as [|k IH]; intros s d T; [reflexivity|]. cbn [Restart_Model.rounds]. rewrite round_terminated by assumption.
  now apply IH.
Qed.

Lemma rounds_snoc k : forall sd, rounds (S k) sd = do x <- rounds k sd; round x.
Proof.
  induction k as [|k IH]; intros sd.
  - cbn [Restart_Model.rounds]. destruct (round sd); reflexivity.
  - change (rounds (S (S k)) sd) with (do x <- round sd; rounds (S k) x).
    change (rounds (S k) sd) with (do x <- round sd; rounds k x). destruct (round sd); [apply IH|reflexivity].
Qed.

(** The disk has no influence on the state. *)
Lemma round_disk s d s' d' : round (s, d) = Some (s', d') -> forall e, exists e', round (s, e) = Some (s', e') /\
  (e' = e \/ (e' = save s' /\ s_iter (fst s') <> 0)).
Proof.
  destruct s as [st h]. rewrite round_eq. intros E e. rewrite round_eq.
  destruct (exec_step _ _ _ _ _) as [st'|] eqn:X; [|discriminate].
  destruct (exec_step_counters _ _ _ _ _ _ X) as [_ C]. destruct (active st).
  - injection E as <- <-. eexists. split; [reflexivity|]. right. split; [reflexivity|]. simpl. lia.
  - injection E as <- <-. eexists. split; [reflexivity|]. now left.
Qed.

(** ** Crash and resume *)
Definition at_round (j : nat) (s : full) : Prop := exists d, session Enabled NoFile j = Some (s, d).
Lemma at_round_fun j s s' : at_round j s -> at_round j s' -> s = s'.
Proof. intros [d E] [d' E']. congruence. Qed.
Lemma at_round_0 s : at_round 0 s <-> fresh = Some s.
Proof.
  unfold at_round, Restart_Model.session. cbn [Restart_Model.start]. split.
  - intros [d E]. destruct fresh; [|discriminate]. cbn in E. congruence.
  - intros ->. eexists. reflexivity.
Qed.
Lemma at_round_S j s : at_round (S j) s -> exists s0, at_round j s0 /\ exists d d', round (s0, d) = Some (s, d').
Proof.
  intros [d E]. unfold Restart_Model.session in E. unfold at_round, Restart_Model.session.
  destruct (start Enabled NoFile) as [s0|]; [|discriminate]. rewrite rounds_snoc in E.
  destruct (rounds j (s0, NoFile)) as [[s1 d1]|]; [|discriminate]. exists s1. split; [eauto|]. exists d1, d. exact E.
Qed.
Lemma at_round_next j s d s' d' : at_round j s -> round (s, d) = Some (s', d') -> at_round (S j) s'.
Proof.
  intros [d0 E] R. unfold at_round, Restart_Model.session in *. destruct (start Enabled NoFile) as [s0|]; [|discriminate].
  rewrite rounds_snoc, E. destruct (round_disk _ _ _ _ R d0) as (e' & -> & _). eauto.
Qed.

Section Crash.
Variable k : nat.
Variable sf : full.
Hypothesis Hend : at_round k sf.
Hypothesis Hterm : terminated (fst sf) = true.
Hypothesis Hread : forall j s, j <= k -> at_round j s -> readable s = true.

Definition good (d : disk) : Prop := d = NoFile \/ exists j s, j <= k /\ at_round j s /\ d = Saved s /\ s_iter (fst s) <> 0.

Lemma at_round_exists j : j <= k -> exists s, at_round j s.
Proof.
  intros L. remember (k - j) as m. revert j L Heqm. induction m as [|m IH]; intros j L E.
  - replace j with k by lia. eauto.
  - destruct (IH (S j)) as (s & A); [lia|lia|]. destruct (at_round_S _ _ A) as (s0 & A0 & _). eauto.
Qed.

Lemma one_round j s d : j <= k -> at_round j s -> good d ->
  exists s' d', round (s, d) = Some (s', d') /\ at_round (Nat.min k (S j)) s' /\ good d'.
Proof.
  intros L A G. destruct (Nat.eq_dec j k) as [->|N].
  - assert (s = sf) by (eapply at_round_fun; eassumption). subst s. exists sf, d.
    rewrite round_terminated by assumption. rewrite Nat.min_l by lia. auto.
  - destruct (at_round_exists (S j)) as (s1 & A1); [lia|]. destruct (at_round_S _ _ A1) as (s0 & A0 & d0 & d1 & R).
    assert (s0 = s) by (eapply at_round_fun; eassumption). subst s0.
    destruct (round_disk _ _ _ _ R d) as (e' & R' & [->|[-> I]]).
    + exists s1, d. rewrite Nat.min_r by lia. auto.
    + exists s1, (save s1). rewrite Nat.min_r by lia. split; [assumption|]. split; [assumption|].
      right. exists (S j), s1. split; [lia|]. split; [assumption|]. split; [|assumption].
      unfold Restart_Model.save. rewrite (Hread (S j)); [reflexivity|lia|assumption].
Qed.

Lemma many_rounds m : forall j s d, j <= k -> at_round j s -> good d ->
  exists s' d', rounds m (s, d) = Some (s', d') /\ at_round (Nat.min k (j + m)) s' /\ good d'.
Proof.
  induction m as [|m IH]; intros j s d L A G.
  - exists s, d. rewrite Nat.add_0_r, Nat.min_r by lia. auto.
  - destruct (one_round j s d L A G) as (s1 & d1 & R & A1 & G1).
    destruct (IH (Nat.min k (S j)) s1 d1) as (s2 & d2 & R2 & A2 & G2); [lia|assumption|assumption|].
    exists s2, d2. cbn [Restart_Model.rounds]. rewrite R. split; [assumption|]. split; [|assumption].
    replace (Nat.min k (j + S m)) with (Nat.min k (Nat.min k (S j) + m)) by lia. exact A2.
Qed.

Lemma good_session m d : good d -> exists j s s' d', start Enabled d = Some s /\ j <= k /\ at_round j s /\
  session Enabled d m = Some (s', d') /\ at_round (Nat.min k (j + m)) s' /\ good d'.
Proof.
  intros G. assert (X : exists j s, start Enabled d = Some s /\ j <= k /\ at_round j s).
  { destruct G as [->|(j & s & L & A & -> & I)].
    - destruct (at_round_exists 0) as (s & A); [lia|]. exists 0, s. split; [|split; [lia|assumption]].
      apply at_round_0 in A. exact A.
    - exists j, s. split; [|auto]. cbn. destruct (s_iter (fst s)); [contradiction|reflexivity]. }
  destruct X as (j & s & Es & L & A). destruct (many_rounds m j s d L A G) as (s' & d' & R & A' & G').
  exists j, s, s', d'. split; [assumption|]. split; [assumption|]. split; [assumption|].
  unfold Restart_Model.session. rewrite Es. auto.
Qed.

Lemma killed_good ks : forall d, good d -> exists d', killed Enabled ks d = Some d' /\ good d'.
Proof.
  induction ks as [|m ks IH]; intros d G; [exists d; auto|].
  destruct (good_session m d G) as (j & s & s' & d' & _ & _ & _ & E & _ & G').
  cbn [Restart_Model.killed]. rewrite E. apply IH. exact G'.
Qed.

Lemma resume_same ks : exists d d', killed Enabled ks NoFile = Some d /\ session Enabled d k = Some (sf, d').
Proof.
  destruct (killed_good ks NoFile (or_introl eq_refl)) as (d & E & G).
  destruct (good_session k d G) as (j & s & s' & d' & _ & L & _ & E' & A & _).
  rewrite Nat.min_l in A by lia. rewrite (at_round_fun _ _ _ A Hend) in E'. eauto.
Qed.
End Crash.

Lemma crash_resume k sf df ks : session Enabled NoFile k = Some (sf, df) -> terminated (fst sf) = true ->
  (forall j s d, j <= k -> session Enabled NoFile j = Some (s, d) -> readable s = true) ->
  exists d d', killed Enabled ks NoFile = Some d /\ session Enabled d k = Some (sf, d').
Proof.
  intros E T R. apply resume_same; [exists df; assumption|assumption|]. intros j s L [d Hd]. eapply R; eassumption.
Qed.

Lemma killed_app mode a : forall b d, killed mode (a ++ b) d = do x <- killed mode a d; killed mode b x.
Proof.
  induction a as [|k a IH]; intros b d; [reflexivity|]. cbn [app Restart_Model.killed].
  destruct (session mode d k) as [[s d1]|]; [|reflexivity]. apply IH.
Qed.

(** ** Extended budget *)
Lemma round_counters s d s' d' : round (s, d) = Some (s', d') ->
  s_max_iters (fst s') = s_max_iters (fst s) /\
  ((active (fst s) = true /\ s_iter (fst s') = S (s_iter (fst s)) /\ d' = save s') \/
   (active (fst s) = false /\ s_iter (fst s') = s_iter (fst s) /\ d' = d /\ terminated (fst s') = true /\
    (s_status (fst s) = Running -> s_status (fst s') = MaxItersReached -> s_max_iters (fst s) <= s_iter (fst s)))).
Proof.
  destruct s as [st h]. rewrite round_eq. destruct (exec_step _ _ _ _ _) as [st'|] eqn:X; [|discriminate].
  destruct (exec_step_counters _ _ _ _ _ _ X) as [M C]. cbn [fst]. destruct (active st).
  - intros E. injection E as <- <-. cbn [fst]. split; [assumption|]. left. auto.
  - destruct C as (C1 & C2 & C3 & C4). intros E. injection E as <- <-. cbn [fst]. split; [assumption|]. right.
    repeat split; auto. intros R MR. apply terminate_max. rewrite <- MR. symmetry. apply C4.
    unfold terminated. now rewrite R.
Qed.

Lemma rounds_counters k : forall s d s' d', rounds k (s, d) = Some (s', d') ->
  s_max_iters (fst s') = s_max_iters (fst s) /\ s_iter (fst s) <= s_iter (fst s') /\
  s_iter (fst s') <= Nat.max (s_iter (fst s)) (s_max_iters (fst s)) /\
  (s_iter (fst s') = s_iter (fst s) /\ d' = d \/
   s_iter (fst s) < s_iter (fst s') /\ exists s1 : full, d' = save s1 /\ s_max_iters (fst s1) = s_max_iters (fst s) /\
      s_iter (fst s1) = s_iter (fst s')).
Proof.
  induction k as [|k IH]; intros s d s' d' E.
  - injection E as <- <-. repeat split; try lia. left. auto.
  - rewrite rounds_snoc in E. destruct (rounds k (s, d)) as [[s0 d0]|] eqn:E0; [|discriminate].
    destruct (IH _ _ _ _ E0) as (A & B & C & D). destruct (round_counters _ _ _ _ E) as (A' & [(P & Q & R)|(P & Q & R & _)]).
    + apply active_below in P. split; [congruence|]. split; [lia|]. split; [lia|]. right. split; [lia|].
      exists s'. repeat split; [assumption|congruence].
    + split; [congruence|]. split; [lia|]. split; [lia|]. subst d0. rewrite Q. exact D.
Qed.

(** A run that stops because of its budget has used all of it. *)
Lemma rounds_exhausted k : forall s d s' d', rounds k (s, d) = Some (s', d') -> s_status (fst s) = Running ->
  s_status (fst s') = MaxItersReached -> s_max_iters (fst s) <= s_iter (fst s').
Proof.
  enough (G : forall k s d s' d', rounds k (s, d) = Some (s', d') -> s_status (fst s) = Running ->
     terminated (fst s') = true -> s_status (fst s') = MaxItersReached -> s_max_iters (fst s') <= s_iter (fst s')).
  { intros s d s' d' E R M. destruct (rounds_counters _ _ _ _ _ E) as (A & _). rewrite <- A.
    apply (G k s d s' d' E R); [|assumption]. unfold terminated. now rewrite M. }
  clear k. induction k as [|k IH]; intros s d s' d' E R T M.
  - injection E as <- <-. congruence.
  - rewrite rounds_snoc in E. destruct (rounds k (s, d)) as [[s0 d0]|] eqn:E0; [|discriminate].
    destruct (terminated (fst s0)) eqn:T0.
    + rewrite round_terminated in E by assumption. injection E as <- <-. eapply IH; eassumption.
    + assert (R0 : s_status (fst s0) = Running) by (unfold terminated in T0; destruct (s_status (fst s0)); congruence).
      destruct (round_counters _ _ _ _ E) as (A & [(P & Q & _)|(P & Q & _ & _ & X)]).
      * (* an iteration never sets the budget status *)
        exfalso. destruct s0 as [st0 h0]. cbn [fst] in *. rewrite round_eq in E.
        destruct (exec_step _ _ _ _ _) as [st1|] eqn:ES; [|discriminate]. rewrite P in E. injection E as <- <-.
        cbn [fst] in *. unfold exec_step in ES. rewrite T0 in ES. unfold active in P. rewrite T0 in P. simpl in P.
        destruct (terminate_internal st0); try discriminate.
        destruct (next_iter _ _ _ _ _) as [n1|] eqn:N; [|discriminate]. destruct (update n1) as [n2|] eqn:U; [|discriminate].
        injection ES as <-. simpl in M. revert M. apply (update_status _ _ U). apply (next_iter_status _ _ _ _ _ _ N R0).
      * specialize (X R0 M). rewrite A, Q. exact X.
Qed.

Lemma extend_session n s k s' d' : s_iter (fst s) <> 0 -> session (Extended n) (Saved s) k = Some (s', d') ->
  rounds k (extend H n s, Saved s) = Some (s', d').
Proof.
  intros I. unfold Restart_Model.session. cbn [Restart_Model.start].
  change (s_iter (fst (extend H n s))) with (s_iter (fst s)). destruct (s_iter (fst s)) eqn:E; [contradiction|].
  intros X. exact X.
Qed.

Lemma session_budget n s k s' d' : s_iter (fst s) <> 0 -> session (Extended n) (Saved s) k = Some (s', d') ->
  s_max_iters (fst s') = s_max_iters (fst s) + n /\
  s_iter (fst s) <= s_iter (fst s') <= Nat.max (s_iter (fst s)) (s_max_iters (fst s) + n) /\
  (s_status (fst s) = Running -> s_status (fst s') = MaxItersReached ->
     s_iter (fst s) <= s_max_iters (fst s) + n -> s_iter (fst s') = s_max_iters (fst s) + n).
Proof.
  intros I E. apply (extend_session n s k s' d' I) in E.
  destruct (rounds_counters _ _ _ _ _ E) as (A & B & C & _). cbn [fst extend] in A, B, C. simpl in A, B, C.
  split; [exact A|]. split; [lia|]. intros R M L.
  pose proof (rounds_exhausted _ _ _ _ _ E R M) as X. simpl in X. lia.
Qed.

Lemma session_disk n s k s' d' : s_iter (fst s) <> 0 -> session (Extended n) (Saved s) k = Some (s', d') ->
  d' = Saved s \/ d' = Unreadable \/
  exists s1 : full, d' = Saved s1 /\ s_max_iters (fst s1) = s_max_iters (fst s) + n /\ s_iter (fst s) < s_iter (fst s1).
Proof.
  intros I E. apply (extend_session n s k s' d' I) in E.
  destruct (rounds_counters _ _ _ _ _ E) as (_ & _ & _ & [(_ & ->)|(L & s1 & -> & M & Q)]); [now left|].
  right. unfold Restart_Model.save. destruct (readable s1); [|now left]. right. exists s1. simpl in *.
  repeat split; [assumption|lia].
Qed.

Lemma session_same_budget s k s' d' : s_iter (fst s) <> 0 -> session Enabled (Saved s) k = Some (s', d') ->
  s_max_iters (fst s') = s_max_iters (fst s).
Proof.
  intros I. unfold Restart_Model.session. cbn [Restart_Model.start]. destruct (s_iter (fst s)); [contradiction|].
  intros E. apply (rounds_counters _ _ _ _ _ E).
Qed.

Lemma session_fresh_budget mode k s' d' : session mode NoFile k = Some (s', d') ->
  s_max_iters (fst s') = cfg.(c_max_iters) /\ s_iter (fst s') <= cfg.(c_max_iters).
Proof.
  unfold Restart_Model.session. cbn [Restart_Model.start]. unfold Restart_Model.fresh.
  destruct (init cfg fobj fcstr cols doe) as [st|] eqn:I; [|discriminate]. intros E.
  destruct (rounds_counters _ _ _ _ _ E) as (A & _ & C & _). cbn [fst] in A, C.
  assert (X : s_max_iters st = cfg.(c_max_iters) /\ s_iter st = 0).
  { unfold init in I. cbv zeta in I. destruct (find_best_result_index _ _ _ _ _); [|discriminate].
    destruct (nth_error _ _); [|discriminate]. destruct (nth_error _ _); [|discriminate].
    destruct (if c_use_pof cfg then _ else _); [|discriminate].
    destruct (update_counters _ _ I) as [U1 U2]. simpl in U1, U2. auto. }
  destruct X as [X1 X2]. split; [congruence|]. lia.
Qed.

Lemma crash_in_save_resume k sf df ks d m s d1 s' d2 p :
  session Enabled NoFile k = Some (sf, df) -> s_status (fst sf) <> Running ->
  (forall j s d, j <= k -> session Enabled NoFile j = Some (s, d) -> all_finite h_finite s) ->
  killed Enabled ks NoFile = Some d -> session Enabled d m = Some (s, d1) -> session Enabled d (S m) = Some (s', d2) ->
  s_iter (fst s) < s_iter (fst s') -> p = BeforeCreate \/ p = AfterWrite ->
  exists d', session Enabled (crash_in_save H h_finite p d1 s') k = Some (sf, d').
Proof.
  intros E T R K S1 S2 L P.
  assert (Tm : terminated (fst sf) = true) by (unfold terminated; destruct (s_status (fst sf)); [contradiction|reflexivity..]).
  assert (Rd : forall j s d, j <= k -> session Enabled NoFile j = Some (s, d) -> readable s = true).
  { intros j s0 d0 Lj X. apply readable_spec. exact (R j s0 d0 Lj X). }
  destruct P as [->| ->]; cbn [crash_in_save].
  - destruct (crash_resume k sf df (ks ++ [m]) E Tm Rd) as (e & d' & X & Y). exists d'.
    rewrite killed_app, K in X. cbn [Restart_Model.killed] in X. rewrite S1 in X. cbn in X. congruence.
  - destruct (crash_resume k sf df (ks ++ [S m]) E Tm Rd) as (e & d' & X & Y). exists d'.
    rewrite killed_app, K in X. cbn [Restart_Model.killed] in X. rewrite S2 in X. cbn in X.
    assert (D : d2 = save s').
    { unfold Restart_Model.session in S1, S2. destruct (start Enabled d) as [s0|]; [|discriminate].
      rewrite rounds_snoc, S1 in S2. destruct (round_counters _ _ _ _ S2) as (_ & [(_ & _ & D)|(_ & Q & _)]); [exact D|lia]. }
    congruence.
Qed.

(** [m] sessions out of those of the list completed an iteration. *)
Lemma killed_budget n ks : forall s s', s_iter (fst s) <> 0 -> killed (Extended n) ks (Saved s) = Some (Saved s') ->
  (forall i, i < length ks -> exists sa sb : full, killed (Extended n) (firstn i ks) (Saved s) = Some (Saved sa) /\
     killed (Extended n) (firstn (S i) ks) (Saved s) = Some (Saved sb) /\ s_iter (fst sa) < s_iter (fst sb)) ->
  s_max_iters (fst s') = s_max_iters (fst s) + length ks * n.
Proof.
  induction ks as [|k ks IH]; intros s s' I E P.
  - injection E as <-. simpl. lia.
  - cbn [Restart_Model.killed] in E. destruct (session (Extended n) (Saved s) k) as [[s1 d1]|] eqn:S1; [|discriminate].
    cbn [snd] in E. destruct (P 0) as (sa & sb & Ea & Eb & L); [simpl; lia|].
    cbn [firstn Restart_Model.killed] in Ea, Eb. injection Ea as <-. rewrite S1 in Eb. injection Eb as ->.
    destruct (session_disk _ _ _ _ _ I S1) as [X|[X|(s2 & X & M & L2)]]; [injection X as ->; lia|discriminate|].
    injection X as <-. rewrite (IH sb s').
    + simpl. lia.
    + lia.
    + assumption.
    + intros i Li. destruct (P (S i)) as (sa & sb' & Ea & Eb & L'); [simpl; lia|].
      cbn [firstn Restart_Model.killed] in Ea, Eb. rewrite S1 in Ea, Eb. eauto.
Qed.
End HotStart.

(** ** Warm start *)
Lemma hconcat_joined : forall (a b : mat), length a = length b -> hconcat a b = Some (joined a b).
Proof.
  induction a as [|r a IH]; intros [|q b] L; try discriminate L; [reflexivity|]. simpl.
  rewrite IH by (simpl in L; lia). reflexivity.
Qed.

Lemma joined_nil (a c : mat) : length a = length c -> width 0 c -> joined a c = a.
Proof.
  revert c. induction a as [|r a IH]; intros [|q c] L W; try discriminate L; [reflexivity|].
  inversion W; subst. unfold joined. simpl. fold (joined a c). rewrite IH; [|simpl in L; lia|assumption].
  destruct q; [|discriminate]. now rewrite app_nil_r.
Qed.

Lemma joined_first w (x y : mat) : length x = length y -> width w x -> map (firstn w) (joined x y) = x.
Proof.
  revert y. induction x as [|r x IH]; intros [|q y] L W; try discriminate L; [reflexivity|].
  inversion W; subst. unfold joined. simpl. fold (joined x y). rewrite IH; [|simpl in L; lia|assumption].
  now rewrite firstn_app, firstn_all, Nat.sub_diag, firstn_O, app_nil_r.
Qed.

Lemma joined_second w (x y : mat) : length x = length y -> width w x -> map (skipn w) (joined x y) = y.
Proof.
  revert y. induction x as [|r x IH]; intros [|q y] L W; try discriminate L; [reflexivity|].
  inversion W; subst. unfold joined. simpl. fold (joined x y). rewrite IH; [|simpl in L; lia|assumption].
  now rewrite skipn_app, skipn_all, Nat.sub_diag, skipn_O.
Qed.

Lemma joined_width a b (x y : mat) : width a x -> width b y -> width (a + b) (joined x y).
Proof.
  revert y. induction x as [|r x IH]; intros [|q y] W V; try (now constructor).
  inversion W; inversion V; subst. unfold joined. simpl. constructor; [apply app_length|]. now apply IH.
Qed.

Section Warm.
Variable cfg : config.
Variables fobj fcstr : row -> row.
Variable orc : oracle.
Variables (cols : nat) (doe : mat).
Hypothesis PO : problem_ok cfg fobj fcstr.
Hypothesis OO : oracle_ok cfg orc.
Hypothesis DO : design_ok cfg fobj fcstr cols doe.

Lemma warm_start_restores k st : reached cfg fobj fcstr orc cols doe k st -> cfg.(c_wc) = 0 ->
  (cfg.(c_wy) = 1 \/ no_infinite_trap (run_tol cfg) (results st)) ->
  exists file st', history_file st = Some file /\ warm_start cfg fobj fcstr file = Some st' /\
    s_x st' = s_x st /\ s_y st' = s_y st /\ s_c st' = s_c st /\ s_best st' = s_best st /\ s_evals st' = 0.
Proof.
  intros H Wc Tr. pose proof (reached_inv cfg fobj fcstr orc cols doe PO OO DO _ _ H) as I.
  destruct (run_consts cfg fobj fcstr orc cols doe PO OO DO _ _ H) as (Tol & _).
  destruct I as [Ix Iy Ic Iwx Iho Ib _ _ _ Id]. pose proof (ho_c _ _ _ _ _ Iho) as WC. rewrite Wc in WC.
  pose proof (ho_y _ _ _ _ _ Iho) as WY. pose proof (po_wx _ _ _ PO) as W1. pose proof (po_wy _ _ _ PO) as W2.
  assert (Lxy : length (s_x st) = length (s_y st)) by congruence.
  set (file := joined (s_x st) (s_y st)).
  assert (Lf : length file = length (s_x st)) by (unfold file, joined; rewrite map_length, combine_length; lia).
  assert (WF : width (c_wx cfg + c_wy cfg) file) by (apply joined_width; assumption).
  assert (EC : s_c st = map fcstr (s_x st)).
  { apply nth_ext with (d := []) (d' := []); [rewrite map_length; congruence|]. intros i Li.
    unfold width in WC. rewrite Forall_forall in WC.
    assert (A : nth i (s_c st) [] = []).
    { apply length_zero_iff_nil. apply WC. now apply nth_In. }
    rewrite A. symmetry. apply length_zero_iff_nil.
    assert (B : In (nth i (map fcstr (s_x st)) []) (map fcstr (s_x st))) by (apply nth_In; rewrite map_length; lia).
    apply in_map_iff in B. destruct B as (x & <- & _). now rewrite (po_fcstr _ _ _ PO). }
  assert (EF : map (fun r => fcstr (firstn (c_wx cfg) r)) file = s_c st).
  { rewrite EC, <- (joined_first (c_wx cfg) (s_x st) (s_y st) Lxy Iwx), map_map. reflexivity. }
  assert (D : design_ok cfg fobj fcstr (c_wx cfg + c_wy cfg) file).
  { constructor.
    - intros E. rewrite E in Lf. simpl in Lf. lia.
    - assumption.
    - now right.
    - intros _. pose proof (ho_obj _ _ _ _ _ Iho) as O. rewrite Forall_forall in O |- *. intros r Hr. apply O.
      rewrite <- (joined_second (c_wx cfg) (s_x st) (s_y st) Lxy Iwx). now apply in_map.
    - destruct Tr as [Tr|Tr]; [left; lia|right].
      replace (c_wx cfg + c_wy cfg =? c_wx cfg) with false by (symmetry; apply Nat.eqb_neq; lia).
      unfold file at 1. rewrite joined_second by assumption. rewrite EF. exact Tr. }
  destruct (init_spec cfg fobj fcstr PO (c_wx cfg + c_wy cfg) file D) as (st' & E & I' & Hx & Hy & Hc & Ht & _ & _ & _ & _ & _ & Hev & _).
  exists file, st'. split.
  { unfold history_file. rewrite hconcat_joined by assumption. rewrite hconcat_joined.
    - f_equal. apply joined_nil; [fold file; congruence|assumption].
    - fold file. congruence. }
  split.
  { unfold warm_start. replace (length (nth 0 file [])) with (c_wx cfg + c_wy cfg); [exact E|].
    symmetry. unfold width in WF. rewrite Forall_forall in WF. apply WF, nth_In. lia. }
  assert (Ex : s_x st' = s_x st).
  { rewrite Hx. unfold doe_x. apply joined_first; assumption. }
  assert (Ey : s_y st' = s_y st).
  { rewrite Hy. unfold doe_y. replace (c_wx cfg + c_wy cfg =? c_wx cfg) with false by (symmetry; apply Nat.eqb_neq; lia).
    apply joined_second; assumption. }
  assert (Ec : s_c st' = s_c st) by (rewrite Hc, <- Hx, Ex; symmetry; exact EC).
  repeat split; try assumption.
  - pose proof (i_best _ _ I') as B'. unfold results in B', Ib. rewrite Ey, Ec, Ht in B'. rewrite Tol in Ib, Iho.
    eapply is_best_row_unique; [|exact B'|exact Ib]. eapply history_rows; exact Iho.
  - rewrite Hev. replace (c_wx cfg + c_wy cfg =? c_wx cfg) with false by (symmetry; apply Nat.eqb_neq; lia). reflexivity.
Qed.
End Warm.

(** ** Configuration *)
Lemma cstr_sum_loop_some cs : forall tol acc, length cs <= length tol -> cstr_sum_loop acc cs tol <> None.
Proof.
  induction cs as [|c cs IH]; intros [|t tol] acc L; simpl in *; try discriminate; try lia. apply IH. lia.
Qed.

Lemma checked_tolerances n_cstr tol coego kpls cfg :
  check_config n_cstr tol coego kpls = true -> cfg.(c_wy) = 1 + n_cstr -> cfg.(c_cstr_tol) = tol ->
  tol = None \/ cfg.(c_wc) = 0 ->
  cfg.(c_wy) + cfg.(c_wc) - 1 <= length (run_tol cfg) /\
  forall y, length y = cfg.(c_wy) + cfg.(c_wc) -> cstr_sum y (run_tol cfg) <> None.
Proof.
  intros C Wy T O. assert (B : n_cstr + c_wc cfg <= length (run_tol cfg)).
  { unfold run_tol. rewrite T. unfold check_config in C. apply andb_prop in C. destruct C as [C _].
    apply negb_true_iff in C. destruct tol as [t|].
    - destruct O as [O|O]; [discriminate|]. destruct (Nat.ltb_spec 0 n_cstr); simpl in C; [|lia].
      apply negb_false_iff, Nat.eqb_eq in C. lia.
    - rewrite repeat_length. lia. }
  split; [lia|]. intros y L. destruct y as [|v y]; [simpl in L; lia|]. simpl in *. apply cstr_sum_loop_some. lia.
Qed.
