(** Consequences of the step analysis for whole runs. *)
From Coq Require Import ZArith List Arith Bool Lia.
From Verif Require Import F64 F64_Extra Util FindResult_Model FindResult_Spec FindResult_Proofs
  UpdateData_Model UpdateData_Spec UpdateData_Proofs Ego_Model Ego_Spec Ego_Proofs.
Import ListNotations.

Section Runs.
Variable cfg : config.
Variables fobj fcstr : row -> row.
Variable orc : oracle.
Variable cols : nat.
Variable doe : mat.
Hypothesis PO : problem_ok cfg fobj fcstr.
Hypothesis OO : oracle_ok cfg orc.
Hypothesis DO : design_ok cfg fobj fcstr cols doe.

Notation Reached := (reached cfg fobj fcstr orc cols doe).
Notation Inv := (inv cfg).

Lemma reached_fun k st st' : Reached k st -> Reached k st' -> st = st'.
Proof. intros (a & Ha & H) (b & Hb & H'). congruence. Qed.

Lemma reached_S k st' : Reached (S k) st' <-> exists st, Reached k st /\ exec_step cfg fobj fcstr orc st = Some st'.
Proof.
  split.
  - intros (st0 & H0 & H). rewrite exec_snoc in H. destruct (exec cfg fobj fcstr orc k st0) eqn:E; [|discriminate].
    eexists. split; [exists st0; split; eassumption|exact H].
  - intros (st & (st0 & H0 & H) & E). exists st0. split; [assumption|]. rewrite exec_snoc, H. exact E.
Qed.

Lemma reached_inv k st : Reached k st -> Inv st.
Proof.
  intros (st0 & H0 & H). destruct (init_spec cfg fobj fcstr PO cols doe DO) as (st1 & H1 & I & _).
  rewrite H0 in H1. injection H1 as <-.
  destruct (exec_some cfg fobj fcstr orc PO OO k st0 I) as (st' & H' & I'). congruence.
Qed.

Lemma reached_exists k : exists st, Reached k st.
Proof.
  destruct (init_spec cfg fobj fcstr PO cols doe DO) as (st1 & H1 & I & _).
  destruct (exec_some cfg fobj fcstr orc PO OO k st1 I) as (st' & H' & _). exists st', st1. tauto.
Qed.

(** Induction on runs. *)
Lemma run_ind (P : nat -> state -> Prop) :
  (forall st, init cfg fobj fcstr cols doe = Some st -> P 0 st) ->
  (forall k st st' px pc, Reached k st -> Inv st -> P k st -> goes_on st -> Inv st' ->
     iterated fobj st st' px pc ->
     ((global_next cfg st /\ global_outcome fcstr orc st st' px pc) \/
      (~ global_next cfg st /\ local_outcome fcstr orc st st' px pc)) -> P (S k) st') ->
  (forall k st r, Reached k st -> Inv st -> P k st -> ~ goes_on st -> r <> Running ->
     (r = st.(s_status) \/ r = terminate_internal st) -> P (S k) (set_status r st)) ->
  forall k st, Reached k st -> P k st.
Proof.
  intros H0 HS HT. induction k as [|k IH]; intros st H.
  - destruct H as (st0 & Hi & H). simpl in H. injection H as <-. auto.
  - apply reached_S in H. destruct H as (st1 & H1 & E). pose proof (reached_inv _ _ H1) as I1.
    destruct (goes_on_dec st1) as [G|G].
    + destruct (exec_step_spec cfg fobj fcstr orc PO OO st1 I1 G) as (st' & px & pc & E' & I' & T & O & _).
      rewrite E in E'. injection E' as <-. eapply HS; eauto.
    + destruct (exec_step_stop cfg fobj fcstr orc st1 I1 G) as (st' & E' & _ & T & r & -> & Hr).
      rewrite E in E'. injection E' as ->. apply HT; auto; [intros ->; discriminate|]. destruct Hr as [[? _]|?]; auto.
Qed.

Lemma init_facts st : init cfg fobj fcstr cols doe = Some st ->
  Inv st /\
  st.(s_x) = doe_x cfg doe /\ st.(s_y) = doe_y cfg fobj cols doe /\ st.(s_c) = map fcstr (doe_x cfg doe) /\
  st.(s_tol) = run_tol cfg /\ st.(s_doe_size) = length doe /\ st.(s_iter) = 0 /\
  st.(s_max_iters) = cfg.(c_max_iters) /\ st.(s_target) = cfg.(c_target) /\ st.(s_status) = Running /\
  st.(s_evals) = (if cols =? cfg.(c_wx) then length doe else 0) /\ st.(s_sigma) = sigma_init /\
  st.(s_last_best_iter) = 0 /\ st.(s_prev_best) = st.(s_best) /\ st.(s_prev_added) = 0 /\ st.(s_prev_ego) = false /\
  (exists xb yb, nth_error st.(s_x) st.(s_best) = Some xb /\ nth_error st.(s_y) st.(s_best) = Some yb /\
     st.(s_best_param) = Some xb /\ st.(s_best_cost) = Some yb) /\
  (st.(s_feas) = true <-> cfg.(c_use_pof) = false \/
     exists r, nth_error (results st) st.(s_best) = Some r /\ feasible st.(s_tol) (constraints r)).
Proof.
  intros H. destruct (init_spec cfg fobj fcstr PO cols doe DO) as (st1 & H1 & X). rewrite H in H1.
  injection H1 as <-. exact X.
Qed.

Lemma run_consts k st : Reached k st -> st.(s_tol) = run_tol cfg /\ st.(s_doe_size) = length doe /\
  st.(s_max_iters) = cfg.(c_max_iters) /\ st.(s_target) = cfg.(c_target).
Proof.
  revert k st. refine (run_ind (fun _ st => _) _ _ _).
  - intros st0 H. destruct (init_facts _ H) as (_ & _ & _ & _ & A & B & _ & C & D & _). repeat split; assumption.
  - intros k0 s0 s1 px pc _ _ (A & B & C & D) _ _ T _. destruct (t_same _ _ _ _ _ T) as (E1 & E2 & E3 & E4).
    repeat split; congruence.
  - intros k0 s0 r _ _ H _ _ _. exact H.
Qed.

Lemma run_best_fields k st : Reached k st ->
  exists xb yb, nth_error st.(s_x) st.(s_best) = Some xb /\ nth_error st.(s_y) st.(s_best) = Some yb /\
     st.(s_best_param) = Some xb /\ st.(s_best_cost) = Some yb.
Proof.
  revert k st. refine (run_ind (fun _ st => _) _ _ _).
  - intros st0 H. assert (X := init_facts _ H). do 16 (destruct X as [_ X]). exact (proj1 X).
  - intros k0 s0 s1 px pc _ _ _ _ _ T _. exact (t_param _ _ _ _ _ T).
  - intros k0 s0 r _ _ H _ _ _. exact H.
Qed.

(** Histories only grow. *)
Lemma run_prefix k d st st' : Reached k st -> Reached (k + d) st' ->
  exists px py pc, st'.(s_x) = st.(s_x) ++ px /\ st'.(s_y) = st.(s_y) ++ py /\ st'.(s_c) = st.(s_c) ++ pc /\
    length py = length px /\ length pc = length px.
Proof.
  intros H. revert st'. induction d as [|d IH]; intros st' H'.
  - rewrite Nat.add_0_r in H'. rewrite (reached_fun _ _ _ H H'). exists [], [], []. rewrite !app_nil_r. repeat split.
  - replace (k + S d) with (S (k + d)) in H' by lia. apply reached_S in H'. destruct H' as (st1 & H1 & E).
    destruct (IH _ H1) as (px & py & pc & Ex & Ey & Ec & L1 & L2). pose proof (reached_inv _ _ H1) as I1.
    destruct (goes_on_dec st1) as [G|G].
    + destruct (exec_step_spec cfg fobj fcstr orc PO OO st1 I1 G) as (st2 & px' & pc' & E' & I' & T & O & _).
      rewrite E in E'. injection E' as <-.
      exists (px ++ px'), (py ++ map fobj px'), (pc ++ pc').
      rewrite (t_x _ _ _ _ _ T), (t_y _ _ _ _ _ T), (t_c _ _ _ _ _ T), Ex, Ey, Ec, !app_assoc, !app_length, map_length.
      pose proof (t_lc _ _ _ _ _ T). repeat split; lia.
    + destruct (exec_step_stop cfg fobj fcstr orc st1 I1 G) as (st2 & E' & _ & T & r & -> & _).
      rewrite E in E'. injection E' as ->. exists px, py, pc. simpl. tauto.
Qed.

Lemma results_prefix k d st st' : Reached k st -> Reached (k + d) st' ->
  exists more, results st' = results st ++ more.
Proof.
  intros H H'. destruct (run_prefix _ _ _ _ H H') as (px & py & pc & _ & Ey & Ec & L1 & L2).
  exists (joined py pc). unfold results. rewrite Ey, Ec. apply joined_app.
  apply (ho_len _ _ _ _ _ (i_ho _ _ (reached_inv _ _ H))).
Qed.

Lemma best_row k st : Reached k st -> exists r, nth_error (results st) st.(s_best) = Some r.
Proof. intros H. destruct (i_best _ _ (reached_inv _ _ H)) as (r & Hr & _). eauto. Qed.

Lemma run_best k st : Reached k st -> is_best_row (run_tol cfg) (results st) st.(s_best).
Proof.
  intros H. destruct (run_consts _ _ H) as (<- & _). apply (i_best _ _ (reached_inv _ _ H)).
Qed.

Lemma run_never_worse k d st st' r r' : Reached k st -> Reached (k + d) st' ->
  nth_error (results st) st.(s_best) = Some r -> nth_error (results st') st'.(s_best) = Some r' ->
  ~ better (run_tol cfg) r r' /\
  (feasible (run_tol cfg) (constraints r) ->
   feasible (run_tol cfg) (constraints r') /\ fle (objective r') (objective r) = true).
Proof.
  intros H H' Hr Hr'. destruct (results_prefix _ _ _ _ H H') as (more & E).
  pose proof (run_best _ _ H') as (b & Hb & Bb & _). rewrite Hr' in Hb. injection Hb as <-.
  assert (Hold : nth_error (results st') (s_best st) = Some r).
  { rewrite E, nth_error_app1; [assumption|]. apply nth_error_Some. congruence. }
  split; [exact (Bb _ _ Hold)|]. intros Fr.
  pose proof (reached_inv _ _ H') as I'. pose proof (i_ho _ _ I') as HO'.
  destruct (run_consts _ _ H') as (Tol & _). rewrite Tol in HO'.
  pose proof (history_rows _ _ _ _ _ HO') as K. fold (results st') in K.
  assert (Fr' : feasible (run_tol cfg) (constraints r')).
  { eapply best_is_feasible; [exact K|exact (run_best _ _ H')|exact Hr'|eapply nth_error_In; exact Hold|exact Fr]. }
  split; [exact Fr'|].
  rewrite Forall_forall in K.
  destruct (K r (nth_error_In _ _ Hold)) as [_ N]. destruct (K r' (nth_error_In _ _ Hr')) as [_ N'].
  apply fle_ord; try assumption.
  destruct (flt (objective r) (objective r')) eqn:F.
  - exfalso. apply (Bb _ _ Hold). left. tauto.
  - apply flt_ordF in F; assumption.
Qed.

Lemma run_y k st : Reached k st ->
  st.(s_x) = doe_x cfg doe ++ skipn (length doe) st.(s_x) /\
  st.(s_y) = doe_y cfg fobj cols doe ++ map fobj (skipn (length doe) st.(s_x)).
Proof.
  assert (Lx : length (doe_x cfg doe) = length doe) by apply map_length.
  revert k st. refine (run_ind (fun _ st => _) _ _ _).
  - intros st0 H. destruct (init_facts _ H) as (_ & -> & -> & _). rewrite <- Lx, skipn_all. simpl.
    rewrite !app_nil_r. split; reflexivity.
  - intros k0 s0 s1 px pc _ I (A & B) _ _ T _. rewrite (t_x _ _ _ _ _ T), (t_y _ _ _ _ _ T).
    assert (L : length doe <= length (s_x s0)).
    { rewrite A, app_length, Lx. lia. }
    rewrite skipn_app. replace (length doe - length (s_x s0)) with 0 by lia. simpl skipn.
    rewrite map_app. rewrite !app_assoc, <- A, <- B. split; reflexivity.
  - intros k0 s0 r _ _ H _ _ _. exact H.
Qed.

Lemma run_y_all k st : cols = cfg.(c_wx) -> Reached k st -> st.(s_y) = map fobj st.(s_x).
Proof.
  intros C H. destruct (run_y _ _ H) as [A B]. rewrite B. rewrite A at 2. rewrite map_app. f_equal.
  unfold doe_y. rewrite (doe_x_eq cfg fobj fcstr cols doe DO), C, Nat.eqb_refl. reflexivity.
Qed.

Lemma run_budget q : (forall i a, length (b_x (orc.(o_batch) i a)) <= q) -> forall k st, Reached k st ->
  length st.(s_x) <= length doe + st.(s_iter) * q /\ st.(s_iter) <= cfg.(c_max_iters) /\
  st.(s_evals) <= (if cols =? cfg.(c_wx) then length doe else 0) + st.(s_iter) * q /\
  st.(s_iter) <= k.
Proof.
  intros Q. assert (Q1 : 1 <= q).
  { specialize (Q 0 0). destruct OO as [OB _]. pose proof (bo_ne _ _ (OB 0 0)).
    destruct (b_x (o_batch orc 0 0)); [congruence|simpl in Q; lia]. }
  refine (run_ind (fun k st => _) _ _ _).
  - intros st0 H. destruct (init_facts _ H) as (_ & -> & _ & _ & _ & _ & -> & _ & _ & _ & -> & _).
    unfold doe_x. rewrite map_length. lia.
  - intros k0 s0 s1 px pc R I (A & B & C & D) G _ T O.
    assert (Lp : length px <= q).
    { destruct O as [[_ [(S1 & _)|(_ & i & idx & cs & _ & _ & _ & _ & Inc & _ & -> & _)]]|[_ (_ & _ & _ & [[-> _]|[-> _]])]]; simpl; try lia.
      - destruct (t_status _ _ _ _ _ T) as [(_ & -> & _)|(S2 & _)]; [simpl; lia|congruence].
      - rewrite rows_at_length. etransitivity; [|apply (Q (s_iter s0) i)].
        destruct Inc as [Bd Mo].
        assert (ND : NoDup idx).
        { apply NoDup_nth_error. intros a b La Eab.
          destruct (Nat.lt_trichotomy a b) as [X|[X|X]]; [|assumption|]; exfalso;
            destruct (nth_error idx a) as [v|] eqn:E1; try (apply nth_error_None in E1; lia).
          - specialize (Mo a b v v X E1 (eq_sym Eab)). lia.
          - specialize (Mo b a v v X (eq_sym Eab) E1). lia. }
        rewrite <- (seq_length (length (b_x (o_batch orc (s_iter s0) i))) 0).
        apply NoDup_incl_length; [assumption|]. intros v Hv. apply in_seq. specialize (Bd v Hv). lia. }
    rewrite (t_x _ _ _ _ _ T), app_length, (t_iter _ _ _ _ _ T).
    destruct (run_consts _ _ R) as (_ & _ & M & _). destruct G as (_ & E & _). rewrite M in E.
    assert (Ev : s_evals s1 <= s_evals s0 + q).
    { destruct (t_status _ _ _ _ _ T) as [S1|S1]; [|lia]. destruct S1 as (_ & _ & _ & _ & _ & _ & -> & _). lia. }
    repeat split; try lia; simpl; lia.
  - intros k0 s0 r R I (A & B & C & D) _ _ _. simpl. repeat split; try assumption. lia.
Qed.

Lemma run_stops k st : Reached k st -> cfg.(c_max_iters) < k -> st.(s_status) <> Running.
Proof.
  enough (G : forall k st, Reached k st -> st.(s_status) = Running -> st.(s_iter) = k /\ k <= cfg.(c_max_iters)).
  { intros H L E. destruct (G _ _ H E). lia. }
  refine (run_ind (fun k st => _) _ _ _).
  - intros st0 H _. destruct (init_facts _ H) as (_ & _ & _ & _ & _ & _ & -> & _). lia.
  - intros k0 s0 s1 px pc R I A G _ T O E. destruct G as (G1 & E' & _). destruct (A G1) as [A1 A2].
    rewrite (t_iter _ _ _ _ _ T). split; [lia|]. destruct (run_consts _ _ R) as (_ & _ & M & _). rewrite M in E'. lia.
  - intros k0 s0 r R I _ _ Hr _ E. simpl in E. congruence.
Qed.

Lemma run_counter k st : Reached k st ->
  st.(s_added) = length st.(s_x) /\ st.(s_added) = length st.(s_y) /\ st.(s_added) = length st.(s_c).
Proof. intros H. destruct (reached_inv _ _ H) as [A B C _ _ _ _ _ _ _]. repeat split; congruence. Qed.

(** A round that performs an iteration, as the relation between two consecutive states. *)
Lemma step_facts k st st' : Reached k st -> Reached (S k) st' -> goes_on st ->
  exists px pc, iterated fobj st st' px pc /\
    ((global_next cfg st /\ global_outcome fcstr orc st st' px pc) \/
     (~ global_next cfg st /\ local_outcome fcstr orc st st' px pc)) /\
    (if cfg.(c_trego) then
       exists s, last_success st = Some s /\
         st'.(s_sigma) = next_sigma fmul cfg.(c_gamma) cfg.(c_beta) st.(s_iter) st.(s_prev_ego) s st.(s_sigma) /\
         st'.(s_prev_ego) = is_global_phase st.(s_iter) cfg.(c_n_local) st.(s_prev_ego) s
     else st'.(s_sigma) = st.(s_sigma) /\ st'.(s_prev_ego) = st.(s_prev_ego)).
Proof.
  intros H H' G. apply reached_S in H'. destruct H' as (s0 & H0 & E). rewrite (reached_fun _ _ _ H0 H) in E.
  destruct (exec_step_spec cfg fobj fcstr orc PO OO st (reached_inv _ _ H) G) as (s1 & px & pc & E' & _ & X).
  rewrite E in E'. injection E' as <-. exists px, pc. exact X.
Qed.

Lemma stop_facts k st st' : Reached k st -> Reached (S k) st' -> ~ goes_on st -> exists r, st' = set_status r st.
Proof.
  intros H H' G. apply reached_S in H'. destruct H' as (s0 & H0 & E). rewrite (reached_fun _ _ _ H0 H) in E.
  destruct (exec_step_stop cfg fobj fcstr orc st (reached_inv _ _ H) G) as (s1 & E' & _ & _ & r & X & _).
  rewrite E in E'. injection E' as <-. eauto.
Qed.

Lemma run_last_added k st st' : Reached k st -> Reached (S k) st' -> goes_on st -> st'.(s_status) <> Converged ->
  st'.(s_prev_added) = length st.(s_x) /\
  st'.(s_added) - st'.(s_prev_added) = length st'.(s_x) - length st.(s_x).
Proof.
  intros H H' G N. destruct (step_facts _ _ _ H H' G) as (px & pc & T & _).
  destruct (run_counter _ _ H) as (A & _). destruct (run_counter _ _ H') as (A' & _).
  destruct (t_status _ _ _ _ _ T) as [(C & _)|(_ & _ & B & C & _)]; [contradiction|]. lia.
Qed.

Lemma run_c k st : Reached k st -> forall i xi ci, nth_error st.(s_x) i = Some xi -> nth_error st.(s_c) i = Some ci ->
  (i < length doe -> ci = fcstr xi) /\
  (ci = fcstr xi \/
   exists it a j s, nth_error (b_x (orc.(o_batch) it a)) j = Some xi /\
     nth_error (b_scales (orc.(o_batch) it a)) j = Some s /\ scaled (fcstr xi) s = Some ci).
Proof.
  revert k st. refine (run_ind (fun _ st => _) _ _ _).
  - intros st0 H i xi ci Hx Hc. destruct (init_facts _ H) as (_ & E & _ & E' & _). rewrite E in Hx. rewrite E' in Hc.
    rewrite nth_error_map, Hx in Hc. simpl in Hc. injection Hc as <-. split; [auto|now left].
  - intros k0 s0 s1 px pc R I IH _ _ T O i xi ci Hx Hc.
    rewrite (t_x _ _ _ _ _ T) in Hx. rewrite (t_c _ _ _ _ _ T) in Hc.
    destruct (run_counter _ _ R) as (A & _ & A').
    destruct (Nat.lt_ge_cases i (length (s_x s0))) as [L|L].
    + rewrite nth_error_app1 in Hx by assumption. rewrite nth_error_app1 in Hc by lia. apply (IH i); assumption.
    + rewrite nth_error_app2 in Hx by assumption. rewrite nth_error_app2 in Hc by lia.
      replace (length (s_c s0)) with (length (s_x s0)) in Hc by lia.
      split.
      { intros L'. exfalso. destruct (i_doe _ _ I) as [_ B]. destruct (run_consts _ _ R) as (_ & D & _). lia. }
      destruct O as [[_ [(S1 & E & _)|(_ & it & idx & cs & _ & _ & _ & _ & Inc & Hcs & -> & -> & _)]]|[_ (_ & E & _)]].
      * subst pc. rewrite (proj2 (nth_error_None _ _)) in Hc by (simpl; lia). discriminate.
      * right. unfold rows_at in Hx, Hc. rewrite nth_error_map in Hx, Hc.
        destruct (nth_error idx (i - length (s_x s0))) as [j|] eqn:Ej; [|discriminate].
        simpl in Hx, Hc. injection Hx as <-. injection Hc as <-.
        set (b := o_batch orc (s_iter s0) it) in *. pose proof (proj1 OO (s_iter s0) it) as BO. fold b in BO.
        assert (Lj : j < length (b_x b)) by (apply Inc; eapply nth_error_In; eassumption).
        destruct (scaled_rows_spec cfg fobj fcstr PO (b_x b) (b_scales b) (bo_s _ _ BO) (bo_ws _ _ BO))
          as (cs' & Hcs' & _ & _ & Hn). rewrite Hcs in Hcs'. injection Hcs' as <-.
        pose proof (bo_s _ _ BO) as Ls.
        destruct (nth_error (b_scales b) j) as [s|] eqn:Es; [|apply nth_error_None in Es; lia].
        destruct (nth_error (b_x b) j) as [xj|] eqn:Exj; [|apply nth_error_None in Exj; lia].
        destruct (Hn j xj s Exj Es) as (r & Hr & Hsc).
        rewrite (nth_error_nth _ _ [] Exj), (nth_error_nth _ _ [] Hr).
        exists (s_iter s0), it, j, s. repeat split; try assumption.
      * left. subst pc. rewrite nth_error_map, Hx in Hc. simpl in Hc. congruence.
  - intros k0 s0 r _ _ H _ _ _. exact H.
Qed.

(** Points added by a run are not near any earlier point of the history. *)
Lemma run_spaced k st : Reached k st -> spaced (doe_x cfg doe) (skipn (length doe) st.(s_x)).
Proof.
  assert (Lx : length (doe_x cfg doe) = length doe) by apply map_length.
  revert k st. refine (run_ind (fun _ st => _) _ _ _).
  - intros st0 H. destruct (init_facts _ H) as (_ & -> & _). rewrite <- Lx, skipn_all. intros [|i] p Hp; discriminate Hp.
  - intros k0 s0 s1 px pc R I IH _ _ T O. destruct (run_y _ _ R) as (A & _).
    assert (L : length doe <= length (s_x s0)) by (rewrite A, app_length, Lx; lia).
    rewrite (t_x _ _ _ _ _ T), skipn_app. replace (length doe - length (s_x s0)) with 0 by lia. simpl skipn at 2.
    set (old := skipn (length doe) (s_x s0)) in *.
    assert (Sp : spaced (s_x s0) px).
    { destruct O as [[_ [(S1 & _)|(_ & i & idx & cs & O)]]|[_ (_ & _ & _ & [[-> _]|[-> N]])]].
      - destruct (t_status _ _ _ _ _ T) as [(_ & -> & _)|(S2 & _)]; [|congruence]. intros [|i] p Hp; discriminate Hp.
      - apply O.
      - intros [|i] p Hp; discriminate Hp.
      - intros [|[|i]] p Hp r Hr; [|discriminate Hp..]. injection Hp as <-. simpl in Hr. rewrite app_nil_r in Hr.
        intros Nr. apply N. exists r. tauto. }
    intros i p Hp r Hr. destruct (Nat.lt_ge_cases i (length old)) as [Li|Li].
    + rewrite nth_error_app1 in Hp by assumption. apply (IH i p Hp). rewrite firstn_app in Hr.
      replace (i - length old) with 0 in Hr by lia. simpl firstn in Hr. rewrite app_nil_r in Hr. exact Hr.
    + rewrite nth_error_app2 in Hp by assumption. apply (Sp (i - length old) p Hp).
      rewrite firstn_app, firstn_all2 in Hr by lia. rewrite app_assoc, <- A in Hr. exact Hr.
  - intros k0 s0 r _ _ H _ _ _. exact H.
Qed.

Lemma run_distances k st : Reached k st -> forall i j p q, i < j -> length doe <= j ->
  nth_error st.(s_x) i = Some p -> nth_error st.(s_x) j = Some q -> ~ near p q.
Proof.
  intros R i j p q L D Hi Hj. destruct (run_y _ _ R) as (A & _). pose proof (run_spaced _ _ R) as S.
  assert (Lx : length (doe_x cfg doe) = length doe) by apply map_length.
  apply (S (j - length doe) q).
  - rewrite A, nth_error_app2, Lx in Hj by lia. exact Hj.
  - assert (E : doe_x cfg doe ++ firstn (j - length doe) (skipn (length doe) (s_x st)) = firstn j (s_x st)).
    { rewrite A at 2. rewrite firstn_app, Lx, (firstn_all2 (doe_x cfg doe)) by (rewrite Lx; lia). reflexivity. }
    rewrite E. apply (nth_error_In (firstn j (s_x st)) i).
    assert (Lj : j < length (s_x st)) by (apply nth_error_Some; congruence).
    rewrite <- Hi. clear - L. revert i j L. induction (s_x st) as [|a l IH]; intros [|i] [|j] L; simpl; try lia; try reflexivity.
    apply IH. lia.
Qed.

Lemma run_feas_monotone k d st st' : Reached k st -> Reached (k + d) st' -> st.(s_feas) = true -> st'.(s_feas) = true.
Proof.
  intros H H' F. revert st' H'. induction d as [|d IH]; intros st' H'.
  - rewrite Nat.add_0_r in H'. now rewrite <- (reached_fun _ _ _ H H').
  - replace (k + S d) with (S (k + d)) in H' by lia. destruct (reached_exists (k + d)) as (s1 & H1).
    specialize (IH _ H1). destruct (goes_on_dec s1) as [G|G].
    + destruct (step_facts _ _ _ H1 H' G) as (px & pc & T & _). apply (t_feas _ _ _ _ _ T). now left.
    + destruct (stop_facts _ _ _ H1 H' G) as (r & ->). exact IH.
Qed.

Lemma run_feas_complete k st : Reached k st ->
  (exists r, In r (results st) /\ feasible (run_tol cfg) (constraints r)) -> st.(s_feas) = true.
Proof.
  intros H. destruct (run_consts _ _ H) as (<- & _). apply (i_feas _ _ (reached_inv _ _ H)).
Qed.

Lemma run_feas_sound k st : cfg.(c_use_pof) = true -> Reached k st -> st.(s_feas) = true ->
  exists r, In r (results st) /\ feasible (run_tol cfg) (constraints r).
Proof.
  intros U. revert k st. refine (run_ind (fun _ st => _) _ _ _).
  - intros st0 H F. destruct (init_facts _ H) as (_ & _ & _ & _ & Tol & _).
    assert (X := init_facts _ H). do 17 (destruct X as [_ X]). apply X in F. rewrite Tol in F.
    destruct F as [F|(r & Hr & Fr)]; [congruence|]. exists r. split; [eapply nth_error_In; eassumption|assumption].
  - intros k0 s0 s1 px pc R I IH G I' T O F. apply (t_feas _ _ _ _ _ T) in F.
    destruct (run_consts _ _ R) as (Tol & _). rewrite Tol in F.
    destruct F as [F|(_ & r & Hr & Fr)].
    + destruct (IH F) as (r & Hr & Fr). exists r. split; [|assumption].
      unfold results. rewrite (t_y _ _ _ _ _ T), (t_c _ _ _ _ _ T), joined_app.
      * apply in_or_app. now left.
      * apply (ho_len _ _ _ _ _ (i_ho _ _ I)).
    + exists r. split; [eapply nth_error_In; eassumption|assumption].
  - intros k0 s0 r _ _ H _ _ _. exact H.
Qed.

Lemma run_last_best_iter k st st' : Reached k st -> Reached (S k) st' -> goes_on st ->
  st'.(s_best) <> st.(s_best) -> length doe < st'.(s_best) ->
  st'.(s_last_best_iter) = S st.(s_iter).
Proof.
  intros H H' G N L. destruct (step_facts _ _ _ H H' G) as (px & pc & T & _).
  destruct (t_status _ _ _ _ _ T) as [(_ & _ & B & _)|(_ & B & _)]; [contradiction|].
  rewrite (t_lbi _ _ _ _ _ T), B. destruct (run_consts _ _ H) as (_ & -> & _).
  apply Nat.ltb_lt in L. rewrite L. apply Nat.eqb_neq in N. rewrite N. simpl. lia.
Qed.

Lemma run_target k st : Reached k st -> st.(s_status) = TargetReached -> fle (get_best_cost st) cfg.(c_target) = true.
Proof.
  revert k st. refine (run_ind (fun _ st => _) _ _ _).
  - intros st0 H E. destruct (init_facts _ H) as (_ & _ & _ & _ & _ & _ & _ & _ & _ & S & _). congruence.
  - intros k0 s0 s1 px pc R I _ G _ T _ E. destruct (t_status _ _ _ _ _ T) as [(S & _)|(S & _)]; congruence.
  - intros k0 s0 r R I IH G Hr O E. simpl in E. subst r.
    change (get_best_cost (set_status TargetReached s0)) with (get_best_cost s0).
    destruct O as [O|O]; [now apply IH|]. unfold terminate_internal in O.
    destruct (run_consts _ _ R) as (_ & _ & _ & <-).
    destruct (s_max_iters s0 <=? s_iter s0); [discriminate|].
    destruct (fle (get_best_cost s0) (s_target s0)); [reflexivity|discriminate].
Qed.

Lemma run_target_value k st : Reached k st -> st.(s_status) = TargetReached ->
  exists yb, nth_error st.(s_y) st.(s_best) = Some yb /\ fle (objective yb) cfg.(c_target) = true.
Proof.
  intros H E. pose proof (run_target _ _ H E) as T. destruct (run_best_fields _ _ H) as (xb & yb & _ & Hy & _ & Hc).
  exists yb. split; [assumption|]. unfold get_best_cost in T. rewrite Hc in T.
  destruct (inv_nth cfg fobj fcstr PO st (s_best st) (reached_inv _ _ H) (inv_best _ _ (reached_inv _ _ H)))
    as (_ & yb' & o & _ & Hy' & Ho). rewrite Hy in Hy'. injection Hy' as <-.
  unfold objective. rewrite (nth_error_nth _ _ _ Ho). rewrite (nth_error_nth _ _ _ Ho) in T. exact T.
Qed.

Lemma run_no_improvement k st st' : Reached k st -> Reached (S k) st' -> goes_on st -> st'.(s_status) <> Converged ->
  st'.(s_best) = st.(s_best) -> st'.(s_last_best_iter) = st.(s_last_best_iter).
Proof.
  intros H H' G N E. destruct (step_facts _ _ _ H H' G) as (px & pc & T & _).
  destruct (t_status _ _ _ _ _ T) as [(C & _)|(_ & B & _)]; [contradiction|].
  rewrite (t_lbi _ _ _ _ _ T), B, E, Nat.eqb_refl, andb_false_r. reflexivity.
Qed.

Lemma scaled_unit c : forall s r, Forall (fun v => v = fone) s -> scaled c s = Some r -> r = c.
Proof.
  induction c as [|a c IH]; intros [|b s] r F H; simpl in H; try congruence.
  inversion F; subst. destruct (scaled c s) as [r'|] eqn:E; [|discriminate]. injection H as <-.
  rewrite fdiv_one, (IH s r'); auto.
Qed.

Lemma run_c_unit : (forall i a, Forall (Forall (fun s => s = fone)) (b_scales (orc.(o_batch) i a))) ->
  forall k st, Reached k st -> st.(s_c) = map fcstr st.(s_x).
Proof.
  intros U k st H. destruct (run_counter _ _ H) as (A & _ & B).
  apply nth_ext with (d := []) (d' := []); [rewrite map_length; congruence|].
  intros i Li. destruct (nth_error (s_c st) i) as [ci|] eqn:Ec; [|apply nth_error_None in Ec; lia].
  destruct (nth_error (s_x st) i) as [xi|] eqn:Ex; [|apply nth_error_None in Ex; lia].
  rewrite (nth_error_nth _ _ _ Ec). erewrite nth_error_nth; [|rewrite nth_error_map, Ex; reflexivity].
  destruct (run_c _ _ H i xi ci Ex Ec) as [_ [E|(it & a & j & s & _ & Hs & Sc)]]; [exact E|].
  apply (scaled_unit _ s); [|assumption]. specialize (U it a). rewrite Forall_forall in U. apply U.
  eapply nth_error_In; eassumption.
Qed.

Lemma run_three_attempts k st st' : Reached k st -> Reached (S k) st' -> goes_on st -> global_next cfg st ->
  ((forall a, a < 3 -> all_near st.(s_x) (b_x (orc.(o_batch) st.(s_iter) a))) ->
     st'.(s_status) = Converged /\ st'.(s_x) = st.(s_x) /\ st'.(s_y) = st.(s_y) /\ st'.(s_c) = st.(s_c) /\
     st'.(s_best) = st.(s_best) /\ st'.(s_evals) = st.(s_evals)) /\
  (~ (forall a, a < 3 -> all_near st.(s_x) (b_x (orc.(o_batch) st.(s_iter) a))) ->
     st'.(s_status) = Running /\ st'.(s_retries) = 3 /\ length st.(s_x) < length st'.(s_x)).
Proof.
  intros H H' G GN. destruct (step_facts _ _ _ H H' G) as (px & pc & T & O & _).
  destruct O as [[_ O]|[N _]]; [|contradiction].
  destruct O as [(S1 & Epc & N)|(S1 & i & idx & cs & Li & Nj & NN & Ne & Inc & Hcs & Hpx & Hpc & _)].
  - split; [|intros X; contradiction]. intros _.
    destruct (t_status _ _ _ _ _ T) as [(_ & Epx & B & _ & _ & _ & E & _)|(S2 & _)]; [|congruence].
    rewrite (t_x _ _ _ _ _ T), (t_y _ _ _ _ _ T), (t_c _ _ _ _ _ T), Epx, Epc. simpl. rewrite !app_nil_r.
    repeat split; assumption.
  - split; [intros X; exfalso; apply NN; apply X; assumption|]. intros _.
    destruct (t_status _ _ _ _ _ T) as [(S2 & _)|(_ & _ & _ & _ & R & _)]; [congruence|].
    split; [assumption|]. split; [assumption|]. rewrite (t_x _ _ _ _ _ T), app_length, Hpx, rows_at_length.
    destruct idx; [congruence|simpl; lia].
Qed.

Lemma prev_flag k st st' : cfg.(c_trego) = true -> Reached k st -> Reached (S k) st' -> goes_on st ->
  (st'.(s_prev_ego) = true <-> global_next cfg st).
Proof.
  intros Tr H H' G. destruct (step_facts _ _ _ H H' G) as (px & pc & _ & _ & S). rewrite Tr in S.
  destruct S as (s & Hs & _ & ->). rewrite (global_next_iff cfg st s (reached_inv _ _ H) Hs), Tr. split.
  - intros E. now right.
  - intros [E|E]; congruence.
Qed.
End Runs.

Lemma reached_run cfg fobj fcstr orc cols doe k st :
  reached cfg fobj fcstr orc cols doe k st <-> run cfg fobj fcstr orc cols doe k = Some st.
Proof.
  unfold reached, run. split.
  - intros (st0 & -> & H). exact H.
  - destruct (init cfg fobj fcstr cols doe) as [st0|]; [|discriminate]. intros H. exists st0. tauto.
Qed.
