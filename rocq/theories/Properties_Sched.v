(** C73, C74, C116-C119: when surrogates are clustered and tuned, and with which hyperparameters. *)
From Coq Require Import Reals List Arith Bool Lia Lra.
From Verif Require Import F64 Util Ego_Model Ego_Spec Ego_Proofs Ego_Run Ego_Examples Properties_Ego
  Coego_Model Sched_Model Sched_Spec Sched_Proofs.
Import ListNotations.

(** ** A builder used in examples: data is a number, and every tuned hyperparameter becomes that number. The
    likelihood is the opposite of the distance to it. *)
Definition toy_tune (d : R) (t : tuning) : thetas :=
  match t with
  | Fixed i => i
  | Partial i _ a => map (fun p => if existsb (Nat.eqb (fst p)) a then d else snd p) (combine (seq 0 (length i)) i)
  | Full i _ => map (fun _ => d) i
  end.
Definition toy_lk (d : R) (th : thetas) : R := fold_right (fun v a => (a - Rabs (v - d))%R) 0%R th.
Definition toy_gp (d : R) (ts : list tuning) : gp unit :=
  mkGp (map (toy_tune d) ts) (toy_lk d (nth 0 (map (toy_tune d) ts) [])) tt.
Definition toy : trainer R unit :=
  @mkTrainer R unit (fun (d : R) (o : option (list tuning)) => match o with Some ts => toy_gp d ts | None => toy_gp d [Full [0%R] []] end) (fun d ts _ => toy_gp d ts).

Lemma toy_nth (d : R) (a : list nat) (i : thetas) : forall s n, nth_error (map (fun p => if existsb (Nat.eqb (fst p)) a then d else snd p) (combine (seq s (length i)) i)) n =
  match nth_error i n with Some v => Some (if existsb (Nat.eqb (s + n)) a then d else v) | None => None end.
Proof.
  induction i as [|v i IH]; intros s n; [now destruct n|]. destruct n as [|n]; simpl.
  - now rewrite Nat.add_0_r.
  - rewrite IH. now rewrite Nat.add_succ_r.
Qed.

Lemma toy_respects d t : respects t (toy_tune d t).
Proof.
  destruct t as [i|i b a|i b]; simpl; [reflexivity| |apply map_length]. split.
  - rewrite map_length, combine_length, seq_length. lia.
  - intros n N. rewrite toy_nth. destruct (nth_error i n); [|reflexivity]. simpl.
    destruct (existsb (Nat.eqb n) a) eqn:E; [|reflexivity]. apply existsb_exists in E. destruct E as (x & X & Q).
    apply Nat.eqb_eq in Q. subst. contradiction.
Qed.

Lemma toy_honest : honest toy.
Proof.
  constructor.
  - intros d ts. simpl. induction ts; simpl; constructor; [apply toy_respects|assumption].
  - intros d ts k. simpl. induction ts; simpl; constructor; [apply toy_respects|assumption].
  - intros d ts []. reflexivity.
Qed.

Lemma toy_better d t : (toy_lk d (tuning_init t) <= toy_lk d (toy_tune d t))%R.
Proof.
  destruct t as [i|i b a|i b]; simpl; [lra| |].
  - generalize 0 as s. induction i as [|v i IH]; intros s; simpl; [lra|]. specialize (IH (S s)).
    destruct (existsb (Nat.eqb s) a); [|lra]. replace (d - d)%R with 0%R by ring. rewrite Rabs_R0.
    pose proof (Rabs_pos (v - d)). unfold toy_lk in *. lra.
  - induction i as [|v i IH]; simpl; [lra|]. replace (d - d)%R with 0%R by ring. rewrite Rabs_R0.
    pose proof (Rabs_pos (v - d)). unfold toy_lk in *. lra.
Qed.

Lemma toy_improving : improving toy toy_lk.
Proof.
  constructor; [exact toy_honest| |]; intros; simpl; eexists; (split; [reflexivity|]); (split; [reflexivity|]); apply toy_better.
Qed.

(** ** C73 *)

(** C73: the first training of a run always clusters, whatever the configuration. *)
Theorem C73_first : forall q_points q_optmod n_weights recluster, 0 < q_points -> 0 < n_weights ->
  exists optimize, nth_error (iteration_flags 0 q_points q_optmod n_weights recluster) 0 = Some (true, optimize).
Proof.
  intros q m w r Q W. eexists. exact (flags_nth 0 q m w r 0 0 W Q).
Qed.
Print Assumptions C73_first.

(** C73: in every other training of the run, surrogates are clustered again exactly when the test on the
    counters says so, for every point of the batch. *)
Theorem C73_trainings : forall iter q_points q_optmod n_weights recluster j i,
  j < n_weights -> i < q_points -> iter * q_points + i <> 0 ->
  exists optimize, nth_error (iteration_flags iter q_points q_optmod n_weights recluster) (j * q_points + i) = Some (recluster, optimize).
Proof.
  intros iter q m w r j i J I N. rewrite flags_nth by assumption. eexists. unfold make_clustering.
  destruct (Nat.eqb_spec iter 0) as [->|A]; simpl; [|reflexivity].
  destruct (Nat.eqb_spec i 0) as [->|B]; simpl; [|reflexivity]. simpl in N. lia.
Qed.
Print Assumptions C73_trainings.

(** C73: along every run, the test is true exactly with automatic clustering, when the number of points is a
    multiple of ten that the last iteration (or the initial design) has just reached by adding points. *)
Theorem C73_schedule : forall cfg fobj fcstr orc cols doe, run_ok cfg fobj fcstr orc cols doe ->
  forall clusters k st, reached cfg fobj fcstr orc cols doe k st -> goes_on st ->
  (have_to_recluster clusters st.(s_added) st.(s_prev_added) = true <->
   clusters = NbAuto /\ multiple 10 (length st.(s_x)) /\
   (k = 0 \/ exists k0 st0, k = S k0 /\ reached cfg fobj fcstr orc cols doe k0 st0 /\ length st0.(s_x) < length st.(s_x))).
Proof.
  intros cfg fobj fcstr orc cols doe R cl k st H G. rewrite recluster_iff.
  destruct (C10_counter _ _ _ _ _ _ R k st H) as (A & _). rewrite A.
  destruct k as [|k].
  - assert (X : st.(s_prev_added) = 0 /\ length st.(s_x) <> 0).
    { destruct H as (st0 & H0 & E). injection E as <-. destruct R as (_ & _ & DO). pose proof (do_ne _ _ _ _ _ DO) as Ne.
      unfold init in H0. set (xs := if cols =? _ then doe else _) in H0.
      assert (Lx : length xs <> 0) by (unfold xs; destruct (cols =? _); [|rewrite map_length]; destruct doe; simpl; congruence || lia).
      repeat match type of H0 with (do x <- ?e; _) = _ => destruct e; [cbv beta iota in H0|discriminate] end.
      unfold update in H0. simpl in H0.
      repeat match type of H0 with context [nth_error ?a ?b] => destruct (nth_error a b); [|discriminate] end.
      match type of H0 with context [if ?b then _ else _] => destruct b end;
      simpl in H0; injection H0 as <-; simpl; split; trivial. }
    destruct X as [-> N]. split; [intros (? & ? & ? & ?); auto|intros (? & ? & _); repeat split; auto; lia].
  - assert (G' : exists st0, reached cfg fobj fcstr orc cols doe k st0 /\ goes_on st0).
    { destruct R as (PO & OO & DO). destruct (proj1 (reached_S cfg fobj fcstr orc cols doe k st) H) as (st0 & H0 & E).
      exists st0. split; [exact H0|]. destruct (goes_on_dec st0) as [Y|N]; [exact Y|exfalso].
      pose proof (reached_inv cfg fobj fcstr orc cols doe PO OO DO k st0 H0) as I0.
      destruct (exec_step_stop cfg fobj fcstr orc st0 I0 N) as (s1 & E' & _ & T & _).
      rewrite E in E'. injection E' as <-. destruct G as (G & _). unfold terminated in T. rewrite G in T. discriminate. }
    destruct G' as (st0 & H0 & G0).
    assert (NC : st.(s_status) <> Converged) by (destruct G as (-> & _); discriminate).
    destruct (C10_last_added_partial _ _ _ _ _ _ R k st0 st H0 H G0 NC) as (P & _). rewrite P.
    split.
    + intros (E1 & E2 & E3 & E4). repeat split; trivial. right. exists k, st0. now repeat split.
    + intros (E1 & E3 & [Z|(k0 & st1 & Ek & H1 & L)]); [discriminate|]. injection Ek as <-.
      assert (st1 = st0). { destruct H1 as (a & A1 & B1), H0 as (b & A2 & B2). rewrite A1 in A2. injection A2 as <-. rewrite B1 in B2. now injection B2. }
      subst st1. repeat split; trivial. lia.
Qed.
Print Assumptions C73_schedule.

(** ** C74 *)

(** C74, partial: apart from re-clustering, the trainings for the first portfolio weight tune hyperparameters
    exactly when the running number of the point is a multiple of q_optmod. Missing: trainings that re-cluster
    always tune, and trainings for the other portfolio weights never do. *)
Theorem C74_schedule_partial : forall iter q_points q_optmod n_weights i, 0 < n_weights -> i < q_points ->
  exists clustering optimize,
    nth_error (iteration_flags iter q_points q_optmod n_weights false) i = Some (clustering, optimize) /\
    (optimize = true <-> multiple q_optmod (iter * q_points + i)) /\
    (clustering || optimize = true <-> multiple q_optmod (iter * q_points + i)).
Proof.
  intros iter q m w i W I. pose proof (flags_nth iter q m w false 0 i W I) as F. simpl in F. rewrite F.
  eexists _, _. split; [reflexivity|].
  assert (O : optimize_theta iter q m i 0 = true <-> multiple m (iter * q + i))
    by (unfold optimize_theta; rewrite andb_true_r; apply is_multiple_of_iff).
  split; [exact O|]. rewrite orb_true_iff, O. split; [|auto]. intros [C|C]; [|exact C].
  unfold make_clustering in C. rewrite orb_false_r, andb_true_iff, !Nat.eqb_eq in C. destruct C as [-> ->]. exists 0. reflexivity.
Qed.
Print Assumptions C74_schedule_partial.

(** C74: among any q_optmod consecutive proposals there is one that tunes hyperparameters. *)
Theorem C74_often : forall q_points q_optmod recluster n, 0 < q_points -> 0 < q_optmod ->
  exists m, n <= m < n + q_optmod /\
    exists clustering, nth_error (iteration_flags (m / q_points) q_points q_optmod 1 (recluster m)) (m mod q_points) = Some (clustering, true).
Proof.
  intros q o rec n Q O. set (m := ((n + (o - 1)) / o) * o).
  pose proof (Nat.div_mod (n + (o - 1)) o ltac:(lia)) as DM. pose proof (Nat.mod_upper_bound (n + (o - 1)) o ltac:(lia)) as U.
  exists m. split; [unfold m; nia|]. pose proof (Nat.mod_upper_bound m q ltac:(lia)) as Uq.
  pose proof (flags_nth (m / q) q o 1 (rec m) 0 (m mod q) ltac:(lia) Uq) as F. simpl in F. rewrite F. eexists. f_equal. f_equal.
  unfold optimize_theta. rewrite andb_true_r. apply is_multiple_of_iff.
  replace (m / q * q + m mod q) with m by (rewrite Nat.mul_comm; apply Nat.div_mod; lia). eexists. reflexivity.
Qed.
Print Assumptions C74_often.

(** C74: what the flags do. Without cooperative mode, a training that keeps the clustering either searches all
    hyperparameters, or trains with the ones it was given. *)
Theorem C74_effect : forall D K (t : trainer D K) c objective d optimize k inits active,
  c.(c_coego) = false ->
  make_surrogate t c objective d false optimize (Some k) (Some inits) [active] =
  Some (t.(t_train_on) d (map (fun i => if optimize then Full i c.(c_bounds) else Fixed i) inits) k, inits).
Proof.
  intros D K t c obj d opt k inits a C. unfold make_surrogate, groups, group_step, kept_tunings. rewrite C. simpl.
  destruct opt; reflexivity.
Qed.
Print Assumptions C74_effect.
(** Three points at a time, hyperparameters optimized every other point: in the third iteration, at the first and third points. *)
Example C74_example : iteration_flags 2 3 2 1 false = [(false, true); (false, false); (false, true)] /\
  iteration_flags 0 3 2 1 false = [(true, true); (false, false); (false, true)].
Proof. split; reflexivity. Qed.

(** C74. Finding: a training that re-clusters tunes hyperparameters although the running number is not a
    multiple of q_optmod. *)
Theorem C74_recluster_refuted : exists iter q_points q_optmod added prev_added clustering optimize,
  have_to_recluster NbAuto added prev_added = true /\ ~ multiple q_optmod (iter * q_points + 0) /\
  nth_error (iteration_flags iter q_points q_optmod 1 (have_to_recluster NbAuto added prev_added)) 0 = Some (clustering, optimize) /\
  optimize = false /\ clustering = true /\
  (exists g b, make_surrogate toy (mkSconfig NbAuto false (Full [1%R] []) [] 1) true 7%R clustering optimize (Some tt) (Some [[3%R]]) [[0]] = Some (g, b) /\
     g.(g_thetas) <> [[3%R]]).
Proof.
  exists 1, 1, 2, 10, 9, true, false. split; [reflexivity|]. split; [intros (q & E); lia|]. split; [reflexivity|].
  split; [reflexivity|]. split; [reflexivity|]. eexists _, _. split; [cbn; reflexivity|]. simpl. intros E. injection E. lra.
Qed.
Print Assumptions C74_recluster_refuted.

(** ** C116 *)

(** C116, partial: unless a single cluster is tuned cooperatively, a training without tuning uses exactly the
    hyperparameters of the last training that clustered the data, however many trainings with tuning came in
    between. Missing: the hyperparameters of these later trainings are forgotten, see below. *)
Theorem C116_reuse_partial : forall D K (t : trainer D K) c objective before r0 between r surrogates kept,
  honest t -> ~ (c.(c_coego) = true /\ c.(c_clusters) = NbFixed 1) ->
  train_all t c objective (None, None) (before ++ r0 :: between ++ [r]) = Some (surrogates, kept) ->
  r0.(q_clustering) = true -> Forall (fun q => q.(q_clustering) = false) between ->
  r.(q_clustering) = false -> r.(q_optimize) = false ->
  exists g0 g, nth_error surrogates (length before) = Some g0 /\
    nth_error surrogates (length before + S (length between)) = Some g /\ g.(g_thetas) = g0.(g_thetas).
Proof.
  intros D K t c objective before r0 between r surrogates kept H N. intros. eapply reuse_of_clustering; try eassumption.
  destruct (c_coego c); [|reflexivity]. destruct (c_clusters c) as [nb|]; [|reflexivity]. cbn. apply Nat.eqb_neq. intros ->. now apply N.
Qed.
Print Assumptions C116_reuse_partial.

(** C116. Finding: with q_optmod = 2, iteration 3 does not use the hyperparameters tuned by iteration 2. *)
Theorem C116_latest_refuted : exists (t : trainer R unit) c (d : nat -> R) surrogates kept g2 g3,
  honest t /\ c.(c_coego) = false /\ c.(c_clusters) = NbFixed 1 /\
  train_all t c true (None, None) (plain_requests 2 [[0]] d 0 4) = Some (surrogates, kept) /\
  nth_error surrogates 2 = Some g2 /\ nth_error surrogates 3 = Some g3 /\ g3.(g_thetas) <> g2.(g_thetas).
Proof.
  exists toy, (mkSconfig (NbFixed 1) false (Full [1%R] []) [(1, 10)%R] 1), INR.
  eexists _, _, _, _. split; [exact toy_honest|]. split; [reflexivity|]. split; [reflexivity|]. split; [cbn -[INR]; reflexivity|].
  split; [reflexivity|]. split; [reflexivity|]. cbn -[INR]. intros E. injection E as E. simpl in E. lra.
Qed.
Print Assumptions C116_latest_refuted.

(** The four trainings of the previous run are of the kinds clustering, reuse, tuning, reuse. *)
Example C116_kinds : map (fun r => (r.(q_clustering), r.(q_optimize))) (plain_requests 2 [[0]] INR 0 4) =
  [(true, true); (false, false); (false, true); (false, false)].
Proof. reflexivity. Qed.

Definition C116_cfg : sconfig := mkSconfig (NbFixed 1) false (Full [1%R] []) [(1, 10)%R] 1.
Example C116_reuse_example : exists surrogates kept g0 g,
  train_all toy C116_cfg true (None, None) (plain_requests 2 [[0]] INR 0 4) = Some (surrogates, kept) /\
  nth_error surrogates 0 = Some g0 /\ nth_error surrogates 3 = Some g /\ g.(g_thetas) = g0.(g_thetas).
Proof.
  destruct (train_all toy C116_cfg true (None, None) (plain_requests 2 [[0]] INR 0 4)) as [[gs kp]|] eqn:E.
  2: { exfalso. cbn -[INR] in E. discriminate. }
  exists gs, kp.
  destruct (C116_reuse_partial R unit toy C116_cfg true []
      (mkRequest (INR 0) true true [[0]]) [mkRequest (INR 1) false false [[0]]; mkRequest (INR 2) false true [[0]]]
      (mkRequest (INR 3) false false [[0]]) gs kp toy_honest ltac:(intros [F _]; discriminate F) E eq_refl
      ltac:(repeat constructor) eq_refl eq_refl) as (g0 & g & E1 & E2 & E3).
  exists g0, g. split; [reflexivity|]. split; [exact E1|]. split; [exact E2|exact E3].
Qed.

(** ** C117 *)

(** C117, partial: for the objective, if tuning never lowers the likelihood of the hyperparameters it starts
    from, tuning more groups never lowers the likelihood of the surrogate, the surrogate is at least as likely
    as the initial hyperparameters, and the hyperparameters kept are as likely as the surrogate. Missing: the
    constraints. *)
Theorem C117_objective_partial : forall D K (t : trainer D K) lk c d clustering k th groups more,
  improving t lk -> c.(c_coego) = true -> c.(c_clusters) = NbFixed 1 -> (clustering = false -> k <> None) -> groups <> [] ->
  exists g b g' b',
    make_surrogate t c true d clustering true k (Some [th]) groups = Some (g, b) /\
    make_surrogate t c true d clustering true k (Some [th]) (groups ++ more) = Some (g', b') /\
    (lk d th <= g.(g_lkh))%R /\ (g.(g_lkh) <= g'.(g_lkh))%R /\ (exists u, b' = [u] /\ lk d u = g'.(g_lkh)).
Proof. intros. apply coop_objective; assumption. Qed.
Print Assumptions C117_objective_partial.

(** C117. Finding: the surrogate of a constraint is the one tuned on the last group alone; the results of all
    other groups are lost. *)
Theorem C117_constraint_last : forall D K (t : trainer D K) c d optimize k inits groups last g b,
  make_surrogate t c false d false optimize k (Some inits) (groups ++ [last]) = Some (g, b) ->
  make_surrogate t c false d false optimize k (Some inits) [last] = Some (g, b).
Proof. intros D K t c d o k i gs l g b. apply coop_constraint. Qed.
Print Assumptions C117_constraint_last.

(** C117. Finding: for a constraint, tuning a second group gives a less likely surrogate than stopping after the
    first one. *)
Theorem C117_constraint_refuted : exists (t : trainer R unit) lk c d th group1 group2 g b g' b',
  improving t lk /\ c.(c_coego) = true /\ c.(c_clusters) = NbFixed 1 /\
  make_surrogate t c false d false true (Some tt) (Some [th]) [group1] = Some (g, b) /\
  make_surrogate t c false d false true (Some tt) (Some [th]) [group1; group2] = Some (g', b') /\
  (g'.(g_lkh) < g.(g_lkh))%R.
Proof.
  exists toy, toy_lk, (mkSconfig (NbFixed 1) true (Full [1%R] []) [(1, 10)%R] 3), 7%R, [1%R; 1%R; 1%R], [0; 1], [2].
  unfold make_surrogate, groups, group_step, kept_tunings. simpl. eexists _, _, _, _.
  split; [exact toy_improving|]. split; [reflexivity|]. split; [reflexivity|]. split; [reflexivity|].
  split; [reflexivity|]. simpl. replace (7 - 7)%R with 0%R by ring. rewrite Rabs_R0.
  assert (0 < Rabs (1 - 7))%R by (apply Rabs_pos_lt; lra). lra.
Qed.
Print Assumptions C117_constraint_refuted.

Example C117_objective_example : exists g b g' b',
  make_surrogate toy (mkSconfig (NbFixed 1) true (Full [1%R] []) [(1, 10)%R] 3) true 7%R false true (Some tt) (Some [[1%R; 1%R; 1%R]]) [[0; 1]] = Some (g, b) /\
  make_surrogate toy (mkSconfig (NbFixed 1) true (Full [1%R] []) [(1, 10)%R] 3) true 7%R false true (Some tt) (Some [[1%R; 1%R; 1%R]]) ([[0; 1]] ++ [[2]]) = Some (g', b') /\
  (g.(g_lkh) <= g'.(g_lkh))%R.
Proof.
  destruct (C117_objective_partial R unit toy toy_lk (mkSconfig (NbFixed 1) true (Full [1%R] []) [(1, 10)%R] 3) 7%R false (Some tt)
    [1%R; 1%R; 1%R] [[0; 1]] [[2]] toy_improving eq_refl eq_refl ltac:(discriminate) ltac:(discriminate)) as (g & b & g' & b' & E1 & E2 & _ & L & _).
  exists g, b, g', b'. now repeat split.
Qed.

(** ** C118 *)

(** C118, partial: with a given number of clusters, the first search of hyperparameters starts from the value
    the user gave, with all hyperparameters active, in the bounds of the configuration. Missing: a value given
    as fixed is not kept. *)
Theorem C118_start_partial : forall D K (t : trainer D K) c objective d optimize nb g b,
  c.(c_clusters) = NbFixed nb -> c.(c_coego) = false ->
  make_surrogate t c objective d true optimize None None [seq 0 c.(c_dim)] = Some (g, b) ->
  forall v, length v = c.(c_dim) -> (tuning_init c.(c_tuning) = v \/ exists a, tuning_init c.(c_tuning) = [a] /\ v = repeat a c.(c_dim)) ->
  g = t.(t_train) d (Some (repeat (Partial v c.(c_bounds) (seq 0 c.(c_dim))) nb)).
Proof.
  intros D K t c obj d opt nb g b N C E v0 Lv Hv. set (v := broadcast c.(c_dim) (tuning_init c.(c_tuning))) in *.
  assert (Ev : v = v0).
  { unfold v, broadcast. destruct Hv as [->|(a & -> & ->)]; [|reflexivity]. destruct v0 as [|a [|]]; try reflexivity. cbn in Lv. now rewrite <- Lv. }
  assert (St : seq 0 (c_dim c) = strip (seq 0 (c_dim c)) (length v)).
  { rewrite Ev, Lv. symmetry. unfold strip.
    assert (F : forall l, (forall i, In i l -> i < c_dim c) -> filter (fun i => i <? c_dim c) l = l).
    { induction l as [|i l IH]; intros Hl; [reflexivity|]. cbn [filter]. rewrite (proj2 (Nat.ltb_lt _ _) (Hl i (or_introl eq_refl))).
      f_equal. apply IH. intros k Hk. apply Hl. now right. }
    apply F. intros i Hi. apply in_seq in Hi. lia. }
  rewrite St, <- Ev. clear St Ev Hv Lv v0. unfold make_surrogate, groups, group_step in E. rewrite N, C in E. simpl in E.
  rewrite N in E. simpl in E. fold v in E.
  assert (M : forall (f : thetas -> tuning) n, map f (repeat v n) = repeat (f v) n) by (induction n; simpl; congruence).
  rewrite M in E. destruct (g_thetas _) eqn:G; [discriminate|]. injection E as <- _. reflexivity.
Qed.
Print Assumptions C118_start_partial.

(** C118. Finding: hyperparameters given as fixed are tuned. *)
Theorem C118_fixed_refuted : exists (t : trainer R unit) c th d g b,
  honest t /\ c.(c_tuning) = Fixed th /\ c.(c_clusters) = NbFixed 1 /\ c.(c_coego) = false /\ length th = c.(c_dim) /\
  make_surrogate t c true d true true None None [seq 0 c.(c_dim)] = Some (g, b) /\ g.(g_thetas) <> [th].
Proof.
  exists toy, (mkSconfig (NbFixed 1) false (Fixed [1; 2]%R) [(1, 10)%R] 2), [1; 2]%R, 7%R. eexists _, _.
  split; [exact toy_honest|]. do 4 (split; [reflexivity|]). split; [cbn; reflexivity|]. simpl. intros E. injection E. lra.
Qed.
Print Assumptions C118_fixed_refuted.

(** C118. Finding: with automatic clustering the hyperparameter settings of the user have no effect on the first
    surrogate. *)
Theorem C118_auto_ignored : forall D K (t : trainer D K) objective d optimize dim bounds bounds' tuning tuning' g b,
  make_surrogate t (mkSconfig NbAuto false tuning bounds dim) objective d true optimize None None [seq 0 dim] = Some (g, b) ->
  make_surrogate t (mkSconfig NbAuto false tuning' bounds' dim) objective d true optimize None None [seq 0 dim] = Some (g, b).
Proof. intros D K t obj d opt dim b b' tu tu' g r E. exact E. Qed.
Print Assumptions C118_auto_ignored.
(** Two variables, two clusters and one initial value for both variables. *)
Example C118_example : exists g b, make_surrogate toy (mkSconfig (NbFixed 2) false (Full [3%R] []) [(1, 10)%R] 2) true 7%R true true None None [seq 0 2] = Some (g, b) /\
  g = toy.(t_train) 7%R (Some (repeat (Partial [3%R; 3%R] [(1, 10)%R] [0; 1]) 2)).
Proof.
  eexists. eexists. split; [reflexivity|].
  apply (C118_start_partial R unit toy (mkSconfig (NbFixed 2) false (Full [3%R] []) [(1, 10)%R] 2) true 7%R true 2 _ _ eq_refl eq_refl eq_refl [3%R; 3%R]); [reflexivity|].
  right. exists 3%R. split; reflexivity.
Qed.

(** ** C119 *)

(** C119: the default range of hyperparameters is a proper interval of positive numbers, for every dimension
    and kernel. *)
Theorem C119_interval : forall dim spec, (0 < fst (special_bounds dim spec) < snd (special_bounds dim spec))%R.
Proof. exact special_pos. Qed.
Print Assumptions C119_interval.

(** C119: bounds given by the user are used as they are, unless they are the default ones. *)
Theorem C119_given : forall t dim spec bs init, t = Full init bs \/ (exists active, t = Partial init bs active) ->
  bs <> [(1 / 100, 10)%R] -> theta_bounds t dim spec = bs.
Proof.
  intros t dim spec bs init Et N. assert (E : tuning_bounds t = Some bs) by (destruct Et as [->|(a & ->)]; reflexivity). unfold theta_bounds. rewrite E. destruct bs as [|[x y] [|b' l]]; [reflexivity| |reflexivity].
  cbn [fst snd]. destruct (Req_EM_T x (fst default_bounds)) as [E1|]; [|reflexivity].
  destruct (Req_EM_T y (snd default_bounds)) as [E2|]; [|reflexivity].
  exfalso. apply N. subst. reflexivity.
Qed.
Print Assumptions C119_given.

(** C119: otherwise the range is the usual one below ten inputs, and from ten on that of distances of points drawn in a cube. *)
Theorem C119_default : forall t dim spec,
  (exists th, t = Fixed th) \/ (exists init, t = Full init [(1 / 100, 10)%R]) \/ (exists init active, t = Partial init [(1 / 100, 10)%R] active) ->
  theta_bounds t dim spec =
    [if dim <? 10 then (1 / 100, 10)%R
     else (sqrt 12 / (10 * sqrt (2 * INR dim + 49 / 25 * sqrt (28 / 5 * INR dim))),
           100 * sqrt 12 / sqrt (2 * INR dim - 49 / 25 * sqrt (28 / 5 * INR dim)))%R].
Proof.
  intros t dim spec H. assert (E : tuning_bounds t = None \/ tuning_bounds t = Some [default_bounds])
    by (destruct H as [(th & ->)|[(i & ->)|(i & a & ->)]]; cbn; auto).
  transitivity [special_bounds dim spec].
  2: { rewrite special_value. unfold special_bounds. destruct (Nat.ltb_spec dim 10) as [L|L]; [reflexivity|].
       unfold widen, default_bounds, cs_sqexp, cs_absexp, cs_m32, fst, snd.
       assert (P12 : (0 < sqrt 12)%R) by (apply sqrt_lt_R0; lra).
       assert (Dd : (10 <= INR dim)%R) by (replace 10%R with (INR 10) by (simpl; lra); apply le_INR; exact L).
       replace (2 * (9 / 5 + 1) * INR dim)%R with (28 / 5 * INR dim)%R by field. replace (196 / 100)%R with (49 / 25)%R by field.
       assert (S : (sqrt (28 / 5 * INR dim) <= INR dim)%R).
       { apply Rsqr_incr_0_var; [|lra]. rewrite Rsqr_sqrt by lra. unfold Rsqr. nra. }
       assert (Sp : (0 < sqrt (28 / 5 * INR dim))%R) by (apply sqrt_lt_R0; lra).
       assert (Q1 : (0 < sqrt (2 * INR dim + 49 / 25 * sqrt (28 / 5 * INR dim)))%R) by (apply sqrt_lt_R0; lra).
       assert (Q2 : (0 < sqrt (2 * INR dim - 49 / 25 * sqrt (28 / 5 * INR dim)))%R) by (apply sqrt_lt_R0; lra).
       do 2 f_equal; field; repeat split; lra. }
  clear H. destruct E as [E|E]; unfold theta_bounds; rewrite E; [reflexivity|].
  cbv beta. destruct (Req_EM_T (fst default_bounds) (fst default_bounds)); [|congruence].
  destruct (Req_EM_T (snd default_bounds) (snd default_bounds)); [|congruence]. reflexivity.
Qed.
Print Assumptions C119_default.

(** C119. Finding: the default range never depends on the kernel. *)
Theorem C119_kernel_independent : forall dim spec spec', special_bounds dim spec = special_bounds dim spec'.
Proof. intros. rewrite special_value, (special_value dim spec'). reflexivity. Qed.
Print Assumptions C119_kernel_independent.

Theorem C119_kernel_refuted : exists dim spec spec', dim >= 10 /\ spec <> spec' /\ infl_absexp <> infl_m52 /\
  spec = mkCorr false true false false /\ spec' = mkCorr false false false true /\
  special_bounds dim spec = special_bounds dim spec'.
Proof.
  exists 10, (mkCorr false true false false), (mkCorr false false false true).
  split; [lia|]. split; [discriminate|]. split; [intros E; injection E; lra|]. split; [reflexivity|]. split; [reflexivity|].
  apply C119_kernel_independent.
Qed.
Print Assumptions C119_kernel_refuted.

(** A run whose first iteration brings the number of points to ten. *)
Definition orc10 := ex_orc (map (fun z => [fofZ z]) [5; 6; 7; 8; 9; 10; 11; 12]%Z).
Example C73_example : exists st, reached cfgA ex_obj ex_cstr orc10 1 ex_doe 1 st /\ goes_on st /\
  have_to_recluster NbAuto st.(s_added) st.(s_prev_added) = true.
Proof.
  assert (OK : run_ok cfgA ex_obj ex_cstr orc10 1 ex_doe) by (apply ex_run_ok; [now left|discriminate|repeat constructor]).
  destruct (C09_never_panics _ _ _ _ _ _ OK 1) as (st & H). exists st. split; [exact H|]. apply reached_run in H.
  split; [apply goes_onb_spec; refine (read _ _ _ _ H _); vm_compute; reflexivity|].
  refine (read (fun s => have_to_recluster NbAuto s.(s_added) s.(s_prev_added)) _ _ _ H _); vm_compute; reflexivity.
Qed.
