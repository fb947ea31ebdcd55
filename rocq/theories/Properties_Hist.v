(** C75, C120: the optimization history and the run record. *)
From Coq Require Import ZArith List Arith Bool Lia.
From Verif Require Import F64 Util FindResult_Model FindResult_Spec FindResult_Proofs UpdateData_Model UpdateData_Spec
  Ego_Model Ego_Spec Ego_Proofs Ego_Run Ego_Examples Properties_Ego Hist_Model.
Import ListNotations.

Section Run.
Variables (cfg : config) (fobj fcstr : row -> row) (orc : oracle) (cols : nat) (doe : mat).
Hypothesis OK : run_ok cfg fobj fcstr orc cols doe.
Notation Reached := (reached cfg fobj fcstr orc cols doe).
Notation Watched := (watch_run cfg fobj fcstr orc cols doe).

(** Row [i] of the history describes the state after [S i] rounds. *)
Definition row_of (h : mat) (i : nat) : Prop := exists st xb yb, Reached (S i) st /\ st.(s_iter) = S i /\
  nth_error st.(s_x) st.(s_best) = Some xb /\ nth_error st.(s_y) st.(s_best) = Some yb /\ nth_error h i = Some (yb ++ xb).

Lemma step_same st h r w : watched_step cfg fobj fcstr orc (st, h, r) = Some w -> exec_step cfg fobj fcstr orc st = Some (fst (fst w)).
Proof.
  unfold watched_step, exec_step. destruct (terminated st); [intros E; injection E as <-; reflexivity|].
  destruct (terminate_internal st); try (intros E; injection E as <-; reflexivity).
  destruct (next_iter cfg fobj fcstr orc st) as [st1|]; [|discriminate]. cbv beta iota.
  destruct (update st1) as [st2|]; [|discriminate]. cbv beta iota.
  destruct (observe h st2); [|discriminate]. intros E; injection E as <-; reflexivity.
Qed.

Lemma observe_update h st1 st2 : update st1 = Some st2 -> exists xb yb,
  nth_error st1.(s_x) st1.(s_best) = Some xb /\ nth_error st1.(s_y) st1.(s_best) = Some yb /\
  st2.(s_x) = st1.(s_x) /\ st2.(s_y) = st1.(s_y) /\ st2.(s_best) = st1.(s_best) /\ st2.(s_iter) = st1.(s_iter) /\
  observe h st2 = Some (h ++ [yb ++ xb]).
Proof.
  unfold update. destruct (nth_error (s_x st1) (s_best st1)) as [xb|] eqn:X; [|discriminate].
  destruct (nth_error (s_y st1) (s_best st1)) as [yb|] eqn:Y; [|discriminate]. intros E. injection E as <-.
  exists xb, yb. do 6 (split; [reflexivity|]).
  unfold observe. destruct h; [|reflexivity]. unfold update. simpl. rewrite X, Y. reflexivity.
Qed.

(** Everything known of a watched run: it is a run, never panics, and its history has one row per iteration. *)
Definition good (k : nat) (w : watched) : Prop := let '(st, h, _) := w in
  Reached k st /\ length h = st.(s_iter) /\ (st.(s_status) = Running -> st.(s_iter) = k) /\ forall i, i < st.(s_iter) -> row_of h i.

Lemma init_run st : init cfg fobj fcstr cols doe = Some st -> st.(s_iter) = 0 /\ st.(s_prev_added) = 0.
Proof.
  unfold init. set (xs := if cols =? _ then doe else _).
  intros H0. repeat match type of H0 with (do x <- ?e; _) = _ => destruct e; [cbv beta iota in H0|discriminate] end.
  unfold update in H0. simpl in H0.
  repeat match type of H0 with context [nth_error ?a ?b] => destruct (nth_error a b); [|discriminate] end.
  match type of H0 with context [if ?b then _ else _] => destruct b end;
  simpl in H0; injection H0 as <-; simpl; split; trivial.
Qed.

Lemma reached_0 st : Reached 0 st <-> init cfg fobj fcstr cols doe = Some st.
Proof. split; [intros (s & E & X); injection X as <-; exact E|intros E; exists st; split; [exact E|reflexivity]]. Qed.

Lemma watched_good k : exists w, Watched k = Some w /\ good k w.
Proof.
  destruct OK as (PO & OO & DO).
  destruct (reached_exists cfg fobj fcstr orc cols doe PO OO DO 0) as (st0 & H0). pose proof (proj1 (reached_0 _) H0) as E0.
  unfold watch_run. rewrite E0. cbv beta iota. destruct (init_run _ E0) as (I0 & _).
  induction k as [|k IH].
  - eexists. split; [reflexivity|]. unfold good. split; [exact H0|]. split; [now rewrite I0|]. split; [intros _; exact I0|].
    rewrite I0. intros i; lia.
  - destruct IH as ([[st h] r] & Ew & G). cbn [watch]. rewrite Ew. cbv beta iota. unfold good in G.
    destruct G as (H & L & S & Rw).
    destruct (reached_exists cfg fobj fcstr orc cols doe PO OO DO (Datatypes.S k)) as (st' & H').
    pose proof H' as H2. rewrite reached_S in H2. destruct H2 as (s1 & H1 & E1).
    rewrite (reached_fun cfg fobj fcstr orc cols doe _ _ _ H1 H) in E1. clear s1 H1.
    unfold watched_step. unfold exec_step in E1. destruct (terminated st) eqn:T.
    + injection E1 as <-. eexists. split; [reflexivity|]. unfold good. split; [exact H'|]. split; [exact L|]. split; [|exact Rw].
      intros Q. unfold terminated in T. rewrite Q in T. discriminate.
    + assert (Q : s_status st = Running) by (unfold terminated in T; destruct (s_status st); congruence || discriminate).
      destruct (terminate_internal st) eqn:TI.
      1: { destruct (next_iter cfg fobj fcstr orc st) as [st1|] eqn:N; [|discriminate].
        destruct (update st1) as [st2|] eqn:U; [|discriminate]. injection E1 as <-.
        destruct (observe_update h _ _ U) as (xb & yb & X & Y & Ex & Ey & Eb & Ei & Eo). rewrite Eo.
        eexists. split; [reflexivity|]. unfold good. cbn [s_iter s_status set_iter].
        pose proof (reached_inv cfg fobj fcstr orc cols doe PO OO DO k st H) as I.
        destruct (next_iter_spec cfg fobj fcstr orc PO OO st I Q) as (st1' & px & pc & N' & P & _). rewrite N in N'. injection N' as <-.
        destruct (p_same _ _ _ _ _ _ P) as (Is & _).
        assert (It : s_iter st2 = k) by (rewrite Ei, Is; exact (S Q)).
        split; [exact H'|]. split; [rewrite app_length, L, It, (S Q); simpl; lia|]. split; [intros _; now rewrite It|].
        rewrite It. intros i Hi. destruct (Nat.eq_dec i k) as [->|Ne].
        { exists (set_iter (Datatypes.S (s_iter st2)) st2), xb, yb. split; [exact H'|]. simpl. rewrite It, Ex, Ey, Eb.
          split; [reflexivity|]. split; [exact X|]. split; [exact Y|]. rewrite nth_error_app2 by (rewrite L, (S Q); lia).
          rewrite L, (S Q), Nat.sub_diag. reflexivity. }
        { destruct (Rw i ltac:(rewrite (S Q); lia)) as (si & xi & yi & A & A' & B & C & D). exists si, xi, yi. repeat split; trivial.
          rewrite nth_error_app1; [exact D|]. rewrite L, (S Q). lia. } }
      all: injection E1 as <-; eexists; (split; [reflexivity|]); unfold good; (split; [exact H'|]); (split; [exact L|]); (split; [discriminate|exact Rw]).
Qed.

(** The record holds the points of the history once each, in order. *)
Definition complete (w : watched) : Prop := let '(st, _, r) := w in
  recorded r = samples st.(s_x) st.(s_y) /\ r.(r_total) = length st.(s_x) /\ length r.(r_search) = st.(s_iter) /\
  map (fun s => fst (fst s)) r.(r_search) = seq 1 st.(s_iter) /\ r.(r_iterations) = (if st.(s_iter) =? 0 then cfg.(c_max_iters) else st.(s_iter)) /\
  Forall (fun s => snd (fst s) = length (snd s)) r.(r_search) /\
  map fst r.(r_initial) = seq 1 (length doe).

Lemma samples_app x y px py : length x = length y -> samples (x ++ px) (y ++ py) = samples x y ++ samples px py.
Proof.
  revert y. induction x as [|a x IH]; destruct y as [|b y]; intros L; try discriminate; [reflexivity|].
  unfold samples in *. simpl in *. rewrite IH by lia. reflexivity.
Qed.

Lemma map_fst_combine {A B} (a : list A) : forall (b : list B), length a = length b -> map fst (combine a b) = a.
Proof. induction a as [|x a IH]; destruct b; simpl; intros L; try discriminate; [reflexivity|]. f_equal. apply IH. lia. Qed.
Lemma map_snd_combine {A B} (a : list A) : forall (b : list B), length a = length b -> map snd (combine a b) = b.
Proof. induction a as [|x a IH]; destruct b; simpl; intros L; try discriminate; [reflexivity|]. f_equal. apply IH. lia. Qed.

Lemma watched_complete k st h r : Watched k = Some (st, h, r) -> st.(s_status) <> Converged -> complete (st, h, r).
Proof.
  pose proof OK as OKd. destruct OKd as (PO & OO & DO).
  destruct (reached_exists cfg fobj fcstr orc cols doe PO OO DO 0) as (st0 & H0). pose proof (proj1 (reached_0 _) H0) as E0.
  revert st h r. induction k as [|k IH]; intros st h r E NC.
  - unfold watch_run in E. rewrite E0 in E. cbv beta iota in E. injection E as <- <- <-. destruct (init_run _ E0) as (I0 & _).
    destruct (C10_counter _ _ _ _ _ _ OK 0 st0 H0) as (A & B & _).
    assert (Ls : length (samples (s_x st0) (s_y st0)) = length (s_x st0)) by (unfold samples; rewrite combine_length, map_length; lia).
    unfold complete, recorded. cbn [init_run_info r_initial r_search r_iterations r_total flat_map]. rewrite I0.
    rewrite app_nil_r, map_snd_combine by (now rewrite seq_length). repeat split; try constructor; try lia.
    rewrite map_fst_combine by (now rewrite seq_length). f_equal. rewrite Ls.
    destruct (run_consts cfg fobj fcstr orc cols doe PO OO DO 0 st0 H0) as (_ & Dz & _).
    rewrite <- Dz. revert E0. unfold init. set (xs := if cols =? _ then doe else _).
    assert (Lx : length xs = length doe) by (unfold xs; destruct (cols =? _); [|rewrite map_length]; reflexivity).
    intros E0. repeat match type of E0 with (do x <- ?e; _) = _ => destruct e; [cbv beta iota in E0|discriminate] end.
    unfold update in E0. simpl in E0.
    repeat match type of E0 with context [nth_error ?a ?b] => destruct (nth_error a b); [|discriminate] end.
    match type of E0 with context [if ?b then _ else _] => destruct b end; simpl in E0; injection E0 as <-; simpl; exact Lx.
  - destruct (watched_good k) as ([[s1 h1] r1] & Ek & G). unfold good in G. destruct G as (H & L & S & _).
    assert (E' : watched_step cfg fobj fcstr orc (s1, h1, r1) = Some (st, h, r)).
    { unfold watch_run in E, Ek. rewrite E0 in E, Ek. cbv beta iota in E, Ek. cbn [watch] in E. rewrite Ek in E. exact E. }
    unfold watched_step in E'. destruct (terminated s1) eqn:T.
    { injection E' as <- <- <-. exact (IH _ _ _ Ek NC). }
    assert (Q : s_status s1 = Running) by (unfold terminated in T; destruct (s_status s1); congruence || discriminate).
    assert (NC1 : s_status s1 <> Converged) by (rewrite Q; discriminate).
    pose proof (IH _ _ _ Ek NC1) as (R1 & R2 & R3 & R4 & R5 & R6 & R7).
    destruct (terminate_internal s1) eqn:TI.
    1: { destruct (next_iter cfg fobj fcstr orc s1) as [st1|] eqn:N; [|discriminate].
      destruct (update st1) as [st2|] eqn:U; [|discriminate].
      destruct (observe_update h1 _ _ U) as (xb & yb & X & Y & Ex & Ey & Eb & Ei & Eo). cbv beta iota in E'. rewrite Eo in E'. injection E' as <- <- <-.
      pose proof (reached_inv cfg fobj fcstr orc cols doe PO OO DO k s1 H) as I.
      destruct (next_iter_spec cfg fobj fcstr orc PO OO s1 I Q) as (st1' & px & pc & N' & P & _). rewrite N in N'. injection N' as <-.
      assert (St : s_status st2 = s_status st1).
      { unfold update in U. rewrite X, Y in U. injection U as <-. reflexivity. }
      simpl in NC. rewrite St in NC.
      destruct (p_same _ _ _ _ _ _ P) as (Is & _). pose proof (p_x _ _ _ _ _ _ P) as Px. pose proof (p_y _ _ _ _ _ _ P) as Py.
      destruct (p_status _ _ _ _ _ _ P) as [(C & _)|(_ & _ & A1 & A2 & _)]; [contradiction|].
      assert (Nd : s_added st1 - s_prev_added st1 = length px) by lia.
      assert (Kx : skipn (length (s_x st1) - length px) (s_x st1) = px).
      { rewrite Px, app_length. replace (length (s_x s1) + length px - length px) with (length (s_x s1) + 0) by lia.
        rewrite Nat.add_0_r, skipn_app, skipn_all, Nat.sub_diag. reflexivity. }
      assert (Ky : skipn (length (s_y st1) - length px) (s_y st1) = map fobj px).
      { rewrite Py, app_length, map_length. replace (length (s_y s1) + length px - length px) with (length (s_y s1)) by lia.
        rewrite skipn_app, skipn_all, Nat.sub_diag. reflexivity. }
      assert (Lxy : length (s_x s1) = length (s_y s1)) by (rewrite (i_x _ _ I), (i_y _ _ I); reflexivity).
      unfold complete, record, update_run_info, recorded. rewrite Nd, Kx, Ky. cbn [r_initial r_search r_iterations r_total s_x s_y s_iter set_iter].
      rewrite Ex, Ey, Ei, Is. rewrite Px, Py, samples_app by exact Lxy.
      rewrite flat_map_app. simpl flat_map. rewrite app_nil_r, app_assoc. unfold recorded in R1. rewrite R1.
      rewrite !app_length, R2, R3. simpl length. split; [reflexivity|]. split; [reflexivity|]. split; [lia|].
      rewrite map_app, R4. simpl map. replace (Datatypes.S (s_iter s1)) with (s_iter s1 + 1) by lia. rewrite seq_app. simpl seq.
      rewrite Nat.add_comm. split; [reflexivity|]. split; [reflexivity|]. split; [|exact R7].
      apply Forall_app. split; [exact R6|]. constructor; [|constructor]. simpl. unfold samples. rewrite combine_length, !map_length. lia. }
    all: injection E' as <- <- <-; repeat split; assumption.
Qed.
End Run.

(** ** C75 *)

(** C75: after any number of rounds the history file has exactly one row per iteration, and the row of an
    iteration holds the outputs and the inputs of the best point after it. *)
Theorem C75_rows : forall cfg fobj fcstr orc cols doe, run_ok cfg fobj fcstr orc cols doe ->
  forall k, exists st h r, watch_run cfg fobj fcstr orc cols doe k = Some (st, h, r) /\
    reached cfg fobj fcstr orc cols doe k st /\ length h = st.(s_iter) /\
    forall i, i < length h -> exists sti xb yb, reached cfg fobj fcstr orc cols doe (S i) sti /\ sti.(s_iter) = S i /\
      nth_error sti.(s_x) sti.(s_best) = Some xb /\ nth_error sti.(s_y) sti.(s_best) = Some yb /\
      nth_error h i = Some (yb ++ xb).
Proof.
  intros cfg fobj fcstr orc cols doe OK k. destruct (watched_good cfg fobj fcstr orc cols doe OK k) as ([[st h] r] & E & G).
  exists st, h, r. destruct G as (G1 & G2 & _ & G3). split; [exact E|]. split; [exact G1|]. split; [exact G2|].
  rewrite G2. intros i Hi. exact (G3 i Hi).
Qed.
Print Assumptions C75_rows.

(** C75, partial: from the first feasible best point on, the objective column never increases. Missing: it may
    increase when the best point becomes feasible, see below. *)
Theorem C75_monotone_partial : forall cfg fobj fcstr orc cols doe, run_ok cfg fobj fcstr orc cols doe ->
  forall k st h r i j ri rj sti res, watch_run cfg fobj fcstr orc cols doe k = Some (st, h, r) ->
  i <= j -> nth_error h i = Some ri -> nth_error h j = Some rj ->
  reached cfg fobj fcstr orc cols doe (S i) sti -> nth_error (results sti) sti.(s_best) = Some res ->
  feasible (run_tol cfg) (constraints res) ->
  fle (objective rj) (objective ri) = true.
Proof.
  intros cfg fobj fcstr orc cols doe OK k st h r i j ri rj sti res E L Hi Hj Hs Hr F.
  destruct (C75_rows _ _ _ _ _ _ OK k) as (st' & h' & r' & E' & _ & _ & G). rewrite E in E'. injection E' as <- <- <-.
  assert (Li : i < length h) by (apply nth_error_Some; congruence). assert (Lj : j < length h) by (apply nth_error_Some; congruence).
  destruct (G i Li) as (si & xi & yi & A1 & A2 & A3 & A4 & A5). destruct (G j Lj) as (sj & xj & yj & B1 & B2 & B3 & B4 & B5).
  rewrite Hi in A5. injection A5 as ->. rewrite Hj in B5. injection B5 as ->.
  assert (si = sti) by (eapply reached_fun; eassumption). subst si.
  destruct OK as (PO & OO & DO).
  assert (Obj : forall kk s x y, reached cfg fobj fcstr orc cols doe kk s -> nth_error (s_x s) (s_best s) = Some x -> nth_error (s_y s) (s_best s) = Some y ->
    exists c, nth_error (results s) (s_best s) = Some (y ++ c) /\ objective (y ++ c) = objective (y ++ x)).
  { intros kk s x y Hs' Hx Hy. pose proof (reached_inv cfg fobj fcstr orc cols doe PO OO DO kk s Hs') as I.
    destruct (inv_nth _ _ _ PO s (s_best s) I (inv_best _ _ I)) as (x' & y' & o & X & Y & O).
    rewrite Hy in Y. injection Y as <-.
    destruct (nth_error (s_c s) (s_best s)) as [c|] eqn:C.
    2: { exfalso. apply nth_error_None in C. rewrite (i_c _ _ I) in C. pose proof (inv_best _ _ I). lia. }
    exists c. split.
    - unfold results, joined. rewrite nth_error_map.
      assert (Z : nth_error (combine (s_y s) (s_c s)) (s_best s) = Some (y, c)).
      { clear -Hy C. revert Hy C. generalize (s_best s) (s_y s) (s_c s). induction n as [|n IHn]; intros [|a l] [|b l']; simpl; try discriminate; intros Hy C.
        - congruence. - now apply IHn. }
      rewrite Z. reflexivity.
    - destruct y; [discriminate|reflexivity]. }
  destruct (Obj _ _ _ _ A1 A3 A4) as (ci & Ci & Oi). destruct (Obj _ _ _ _ B1 B3 B4) as (cj & Cj & Oj).
  rewrite <- Oi, <- Oj. rewrite Hr in Ci. injection Ci as ->.
  replace (S j) with (S i + (j - i)) in B1 by lia.
  destruct (run_never_worse cfg fobj fcstr orc cols doe PO OO DO _ _ _ _ _ _ A1 B1 Hr Cj) as (_ & M).
  apply M. exact F.
Qed.
Print Assumptions C75_monotone_partial.

(** A run from an infeasible design: iteration 0 proposes an infeasible point, iteration 1 a feasible one with a
    larger objective. *)
Definition h_doe : mat := [[fmake 1 (-1)]; [fmake 1 (-2)]].
Definition h_orc : oracle :=
  mkOracle (fun i _ => match i with
                       | 0 => mkBatch [[fofZ (-5)]] [[fNaN]] [[fofZ 2]]
                       | _ => mkBatch [[fofZ 2]] [[fNaN]] [[fofZ 2]]
                       end) (fun _ => [fofZ 3]).
Lemma h_ok : run_ok cfgA ex_obj ex_cstr h_orc 1 h_doe.
Proof.
  split; [apply ex_problem; now left|]. split.
  - split; [|reflexivity]. intros [|i] a; constructor; simpl; try congruence; try reflexivity; repeat constructor.
  - constructor.
    + discriminate.
    + repeat constructor.
    + now left.
    + intros H. exfalso. now apply H.
    + right. right. intros r [<-|[<-|[]]]; apply feasibleb_specF; vm_compute; reflexivity.
Qed.

Definition read_w {A} (f : mat -> A) (o : option watched) : option A :=
  match o with Some (_, h, _) => Some (f h) | None => None end.

(** C75. Finding: the objective column of the history can get worse, when the best point becomes feasible. *)
Theorem C75_worse_refuted : exists cfg fobj fcstr orc cols doe k st h r i ri rj,
  run_ok cfg fobj fcstr orc cols doe /\ watch_run cfg fobj fcstr orc cols doe k = Some (st, h, r) /\
  nth_error h i = Some ri /\ nth_error h (S i) = Some rj /\ flt (objective ri) (objective rj) = true.
Proof.
  destruct (C75_rows _ _ _ _ _ _ h_ok 2) as (st & h & r & E & _ & L & _).
  exists cfgA, ex_obj, ex_cstr, h_orc, 1, h_doe, 2, st, h, r, 0.
  assert (X : read_w (fun h => match h with [a; b] => flt (objective a) (objective b) | _ => false end)
                (watch_run cfgA ex_obj ex_cstr h_orc 1 h_doe 2) = Some true) by (vm_compute; reflexivity).
  rewrite E in X. simpl in X. injection X as X. clear L.
  destruct h as [|a [|b [|c t]]]; try discriminate X.
  exists a, b. split; [exact h_ok|]. split; [exact E|]. split; [reflexivity|]. split; [reflexivity|exact X].
Qed.
Print Assumptions C75_worse_refuted.

Example C75_example : exists st h r, watch_run cfgA ex_obj ex_cstr orcA 1 ex_doe 1 = Some (st, h, r) /\ length h = 1 /\
  reached cfgA ex_obj ex_cstr orcA 1 ex_doe 1 st.
Proof.
  destruct (C75_rows _ _ _ _ _ _ A_ok 1) as (st & h & r & E & H & L & _). exists st, h, r. split; [exact E|]. split; [|exact H].
  rewrite L. apply reached_run in H. refine (read (fun s => s.(s_iter)) _ _ _ H _). vm_compute. reflexivity.
Qed.

(** C75. Finding: a resumed run starts a new history; its file then has fewer rows than the iterations done. *)
Definition short_history (s : state) : bool :=
  match watch cfgA ex_obj ex_cstr h_orc s (init_run_info 0 s) 1 with
  | Some (s', h, _) => (length h =? 1) && (s_iter s' =? 2)
  | None => false
  end.
Theorem C75_resume_refuted : exists cfg fobj fcstr orc cols doe k st r st' h r',
  run_ok cfg fobj fcstr orc cols doe /\ reached cfg fobj fcstr orc cols doe k st /\ goes_on st /\
  watch cfg fobj fcstr orc st r 1 = Some (st', h, r') /\ length h = 1 /\ st'.(s_iter) = 2.
Proof.
  destruct (C09_never_panics _ _ _ _ _ _ h_ok 1) as (st & H).
  pose proof (proj1 (reached_run _ _ _ _ _ _ _ _) H) as Hr.
  exists cfgA, ex_obj, ex_cstr, h_orc, 1, h_doe, 1, st, (init_run_info 0 st).
  assert (G : goes_on st) by (apply goes_onb_spec; refine (read _ _ _ _ Hr _); vm_compute; reflexivity).
  assert (X : short_history st = true) by (refine (read _ _ _ _ Hr _); vm_compute; reflexivity).
  unfold short_history in X. destruct (watch cfgA ex_obj ex_cstr h_orc st (init_run_info 0 st) 1) as [[[st' h] r']|]; [|discriminate X].
  exists st', h, r'. split; [exact h_ok|]. split; [exact H|]. split; [exact G|]. split; [reflexivity|].
  apply andb_true_iff in X. destruct X as [X1 X2]. apply Nat.eqb_eq in X1, X2. now split.
Qed.
Print Assumptions C75_resume_refuted.

(** ** C120 *)

(** C120, partial: as long as the run has not stopped as converged, the record holds exactly the points of the
    run, in order and once each, with their first output; one search iteration per iteration, numbered from 1,
    with their batch sizes; and the totals (before the first iteration, the maximum number of iterations). Missing: the iteration that finds no point, see below. *)
Theorem C120_record_partial : forall cfg fobj fcstr orc cols doe, run_ok cfg fobj fcstr orc cols doe ->
  forall k st h r, watch_run cfg fobj fcstr orc cols doe k = Some (st, h, r) -> st.(s_status) <> Converged ->
  recorded r = combine st.(s_x) (map objective st.(s_y)) /\
  r.(r_total) = length st.(s_x) /\
  map fst r.(r_initial) = seq 1 (length doe) /\
  map (fun s => fst (fst s)) r.(r_search) = seq 1 st.(s_iter) /\
  Forall (fun s => snd (fst s) = length (snd s)) r.(r_search) /\
  r.(r_iterations) = (if st.(s_iter) =? 0 then cfg.(c_max_iters) else st.(s_iter)).
Proof.
  intros cfg fobj fcstr orc cols doe OK k st h r E NC.
  destruct (watched_complete cfg fobj fcstr orc cols doe OK k st h r E NC) as (A & B & C & D & F & G & I).
  repeat split; assumption.
Qed.
Print Assumptions C120_record_partial.

(** C120. Finding: when an iteration finds no new point, the points of the previous batch (here the last one) are
    recorded a second time. *)
Theorem C120_twice_refuted : exists cfg fobj fcstr orc cols doe k st h r,
  run_ok cfg fobj fcstr orc cols doe /\ watch_run cfg fobj fcstr orc cols doe k = Some (st, h, r) /\
  length st.(s_x) = 4 /\ length (recorded r) = 6 /\ r.(r_total) = 6.
Proof.
  destruct (C75_rows _ _ _ _ _ _ A_ok 2) as (st & h & r & E & _).
  exists cfgA, ex_obj, ex_cstr, orcA, 1, ex_doe, 2, st, h, r. split; [exact A_ok|]. split; [exact E|].
  assert (X : match watch_run cfgA ex_obj ex_cstr orcA 1 ex_doe 2 with
     Some (s, _, r) => (length (s_x s), length (recorded r), r_total r) | None => (0, 0, 0) end = (4, 6, 6)) by (vm_compute; reflexivity).
  rewrite E in X. injection X as -> -> ->. now repeat split.
Qed.
Print Assumptions C120_twice_refuted.

Example C120_example : exists st h r, watch_run cfgA ex_obj ex_cstr orcA 1 ex_doe 1 = Some (st, h, r) /\
  st.(s_status) <> Converged /\ length (recorded r) = 4.
Proof.
  destruct (C75_rows _ _ _ _ _ _ A_ok 1) as (st & h & r & E & _). exists st, h, r. split; [exact E|].
  assert (X : match watch_run cfgA ex_obj ex_cstr orcA 1 ex_doe 1 with
     Some (s, _, r) => (match s_status s with Converged => false | _ => true end, length (recorded r)) | None => (false, 0) end = (true, 4)) by (vm_compute; reflexivity).
  rewrite E in X. injection X as X ->. split; [|reflexivity]. intros C. rewrite C in X. discriminate X.
Qed.
