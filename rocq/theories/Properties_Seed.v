(** C147: a seed makes runs reproducible. *)
From Coq Require Import ZArith Reals Lra List Arith Bool Lia Permutation.
From Verif Require Import F64 Util FindResult_Model UpdateData_Model Ego_Model Coego_Model Seed_Model Seed_Proofs.
From Verif Require Doe_Model Tune_Model Moe_Model Sched_Model Misc_Model.
Import ListNotations.

(** ** A small world
    A generator is a number. A mixture of one cluster does not depend on the generator, a mixture of several does. The optimizer of
    hyperparameters returns its start, with a value that makes the largest start win. Points below 3 are in the first cluster. *)
Definition toy (search : f64 -> list (Moe_Model.mixture (nat * Z) (list R)) -> row) : external Z (nat * Z) (list R) :=
  mkExternal (fun v => v) (fun g => (g, g + 1)%Z) (fun g => if (g =? 0)%Z then [1 / 4]%R else [3 / 4]%R)
    (fun _ _ _ => []) (fun _ _ _ => []) (fun n g => (seq 0 n, g))
    fst (fun g n _ => Moe_Model.Ok (n, if n =? 1 then 0%Z else g))
    (fun g x => if fst (fst g) =? 1 then [fone] else if flt (nth 0 x fzero) (fofZ 3) then [fone; fzero] else [fzero; fone])
    (fun _ _ _ => fzero) (fun _ _ _ _ => None)
    (fun _ x0 _ => (Some (- hd 0 x0)%R, x0)) (fun rs => fold_right (fun o t => Tune_Model.Join (Tune_Model.Leaf o) t) Tune_Model.Id rs)
    (fun _ _ _ th => th) (fun th => th) (fun _ => 0%R) (fun _ _ _ _ => (1, Moe_Model.Hard)) (fun _ _ _ => []) []
    (fun _ n => map (fun i => [fofZ (Z.of_nat i)]) (seq 0 n))
    (fun w _ _ ms _ _ => (search w ms, [], Some [fzero]))
    (fun _ _ _ _ _ => []) (fun xs => map Some (seq 0 (length xs))).

Definition toy_setup (clusters n_start n_doe : nat) (weights : list f64) : setup :=
  mkSetup (Some 42%Z) (Sched_Model.NbFixed clusters) Moe_Model.Hard (Moe_Model.Specs true false false true false false false) n_start
    (Sched_Model.Full [1%R] [(1, 10)%R]) [(1, 10)%R] 1 None 1 1 weights 0 n_doe None.
Definition toy_cfg : config := mkConfig 1 1 0 false fone fone 1 5 (fofZ (-100)) None false.
Definition toy_entropy (b r : Z) (order : list nat -> list nat) : entropy Z := mkEntropy b 0%Z (fun _ _ => r) order.
Definition toy_run (search : f64 -> list (Moe_Model.mixture (nat * Z) (list R)) -> row) (clusters n_start n_doe : nat) (weights : list f64)
    (e : entropy Z) (k : nat) : option state :=
  run (toy search) e (toy_setup clusters n_start n_doe weights) toy_cfg (fun x => x) (fun _ => []) k.

Lemma toy_run_eq search clusters n_start n_doe weights e k : toy_run search clusters n_start n_doe weights e k =
  run (toy search) e (toy_setup clusters n_start n_doe weights) toy_cfg (fun x => x) (fun _ => []) k.
Proof. reflexivity. Qed.

(** The [i]-th point of the history of a run is [v]. *)
Definition point_is (i : nat) (v : f64) (r : option state) : bool :=
  match r with Some st => match nth_error st.(s_x) i with Some [u] => feq u v | _ => false end | None => false end.

(** Reads the generator of the mixture. *)
Definition search_gmm (_ : f64) (ms : list (Moe_Model.mixture (nat * Z) (list R))) : row :=
  match ms with m :: _ => [fofZ (10 + snd (fst (Moe_Model.mx_gmx m)))] | [] => [] end.

(** Reads the weight given to the variance. *)
Definition search_weight (w : f64) (_ : list (Moe_Model.mixture (nat * Z) (list R))) : row := [fadd (fofZ 10) w].
(** Reads the hyperparameters. *)
Definition search_theta (_ : f64) (ms : list (Moe_Model.mixture (nat * Z) (list R))) : row :=
  match ms with
  | m :: _ => match Moe_Model.mx_experts m with
              | th :: _ => [if Rlt_dec (hd 0%R th) (Tune_Model.pow10 (1 / 2)) then fofZ 10 else fofZ 11]
              | [] => [] end
  | [] => [] end.

Lemma log10_1 : Tune_Model.log10 1 = 0%R.
Proof. unfold Tune_Model.log10. rewrite ln_1. unfold Rdiv. lra. Qed.
Lemma log10_10 : Tune_Model.log10 10 = 1%R.
Proof. unfold Tune_Model.log10. field. intro H. assert (0 < ln 10)%R by (rewrite <- ln_1; apply ln_increasing; lra). lra. Qed.

Lemma toy_theta v lik rnd sw : (0 < v)%R ->
  Tune_Model.choose_theta lik (fun _ x0 _ => (Some (- hd 0 x0)%R, x0))
    (fun rs => fold_right (fun o t => Tune_Model.Join (Tune_Model.Leaf o) t) Tune_Model.Id rs) 1 1 [v] rnd sw
    (Tune_Model.Partial [1%R] [(1, 10)%R] [0%nat]) = Some [Tune_Model.pow10 v].
Proof.
  intros V. unfold Tune_Model.choose_theta, Tune_Model.results, Tune_Model.broadcast. cbn [length Nat.eqb].
  unfold Tune_Model.active_bounds. cbn [length seq combine filter existsb fst snd Nat.eqb orb map Tune_Model.select nth_error].
  unfold Tune_Model.prepare_multistart. cbn [repeat length seq combine filter fst snd Nat.eqb orb map]. rewrite log10_1, log10_10. cbn [Tune_Model.gen_ranges].
  destruct (Rlt_dec 0 1) as [_|N]; [|exfalso; lra]. unfold Tune_Model.assign_row, Tune_Model.broadcast. cbn [length Nat.eqb].
  cbn [negb Nat.eqb length map fst snd hd fold_right Tune_Model.reduce Tune_Model.identity_of repeat].
  replace (0 + v * (1 - 0))%R with v by lra. unfold Tune_Model.best_of, Tune_Model.identity_of. cbn [fst snd Tune_Model.below].
  destruct (Rlt_dec (- v) (- 0)) as [_|N]; [|exfalso; lra]. reflexivity.
Qed.

(** The surrogate of the first iteration, for five points. *)
Lemma toy_outputs f v ws n p b a0 a1 a2 a3 a4 y0 y1 y2 y3 y4 e : (0 < v)%R -> (forall p r, x_uniforms (toy f) (e_starts e p r) = [v]) ->
  exists ks, train_outputs (toy f) e (toy_setup 1 1 n ws) toy_cfg p (true, b) [[0%nat]] [[a0]; [a1]; [a2]; [a3]; [a4]]
    [[y0]; [y1]; [y2]; [y3]; [y4]] [(None, None)] =
  Some ([Moe_Model.Mixture Moe_Model.Hard [[Tune_Model.pow10 v]] ((1%nat, 0%Z), fone)], ks).
Proof.
  intros V U.
  assert (X : forall p m c r, train_expert (toy f) e (toy_setup 1 1 n ws) p m c (Tune_Model.Partial [1%R] [(1, 10)%R] [0%nat]) r =
                Moe_Model.Ok [Tune_Model.pow10 v]).
  { intros p0 m c r. unfold train_expert. rewrite U. unfold toy. cbn [x_lik x_opt x_sched toy_setup z_dim z_n_start x_draws x_swaps].
    rewrite toy_theta by exact V. reflexivity. }
  assert (L : Moe_Model.hard_cluster [fone] = 0%nat) by (vm_compute; reflexivity).
  assert (T : forall k, train_mixture (toy f) e (toy_setup 1 1 n ws) toy_cfg k
              (Some [Sched_Model.Partial [1%R] [(1, 10)%R] [0%nat]]) ([[a0]; [a1]; [a2]; [a3]; [a4]], [y0; y1; y2; y3; y4]) =
            Moe_Model.Ok (Moe_Model.Mixture Moe_Model.Hard [[Tune_Model.pow10 v]] ((1%nat, 0%Z), fone))).
  { intros k. unfold train_mixture, mixture_with. unfold Moe_Model.train_with at 1.
    cbn [params_of toy_setup z_clusters z_recomb z_specs clusters_of Moe_Model.p_nclusters Moe_Model.p_recomb Moe_Model.p_gmx map tuning_of].
    cbn [toy x_gmm_fit Nat.eqb Moe_Model.bind]. unfold Moe_Model.train_on_clusters. cbn [fst snd toy x_gm_clusters x_resp x_cv Nat.eqb map].
    rewrite L. cbn [Moe_Model.sort_by_cluster Moe_Model.rows_of combine map fst snd app].
    replace (Moe_Model.sort_by_cluster 1 _ _) with (Some [[[a0; y0]; [a1; y1]; [a2; y2]; [a3; y3]; [a4; y4]]]) by reflexivity.
    replace (Moe_Model.check_number_of_points _ _ _ _) with true by reflexivity.
    cbn [length Moe_Model.train_experts Nat.ltb Nat.leb andb]. unfold Moe_Model.find_best_expert.
    replace (Moe_Model.best_models _ _ _ _) with (Some (Moe_Model.Constant, Moe_Model.SquaredExponential)) by reflexivity.
    cbn [params_of toy_setup Moe_Model.p_sparse Moe_Model.p_tunings map tuning_of nth_error length Nat.ltb Nat.leb Nat.eqb andb]. rewrite X. reflexivity. }
  eexists. unfold train_outputs. cbn [toy_setup z_n_cstr seq mapM nth_error column].
  unfold Sched_Model.train_once, Sched_Model.make_surrogate, Sched_Model.initial_thetas.
  cbn [Sched_Model.groups Sched_Model.q_actives Sched_Model.q_data Sched_Model.q_clustering Sched_Model.q_optimize fst snd].
  unfold Sched_Model.group_step. cbn [toy_setup sconfig_of Sched_Model.c_clusters Sched_Model.c_dim Sched_Model.c_tuning Sched_Model.c_bounds Sched_Model.c_coego
    z_clusters z_dim z_tuning z_bounds z_coop Sched_Model.n_or_else_one Sched_Model.tuning_init Sched_Model.broadcast repeat fst snd
    Sched_Model.l_best Sched_Model.l_lkh map Sched_Model.t_train trainer_of andb length].
  replace (strip [0] 1) with [0] by reflexivity. rewrite T. cbn. reflexivity.
Qed.

(** What is used of the state after the initial design. *)
Definition fresh (st : state) : bool :=
  (s_iter st =? 0) && (s_retries st =? 3) && negb (terminated st) &&
  match terminate_internal st with Running => true | _ => false end &&
  match s_x st, s_y st with
  | [[_]; [_]; [_]; [_]; [_]], [[_]; [_]; [_]; [_]; [_]] => true
  | _, _ => false end.
Definition accepts (u : f64) (st : state) : bool :=
  match ego_loop toy_cfg (fun x => x) (fun _ => []) (fun _ => mkBatch [[u]] [[fzero]] [[]]) st 1 0 with
  | Some st' => negb (terminated st') && point_is 5 u (option_map (fun s => set_iter (S (s_iter s)) s) (update st'))
  | None => false end.

Lemma toy_select f v e w u rc p st : (0 < v)%R -> (forall p r, x_uniforms (toy f) (e_starts e p r) = [v]) ->
  f w [Moe_Model.Mixture Moe_Model.Hard [[Tune_Model.pow10 v]] ((1%nat, 0%Z), fone)] = [u] -> fresh st = true ->
  exists h', select_next_points (toy f) e (toy_setup 1 1 5 [w]) toy_cfg p rc st (mkHidden [(None, None)] None 42%Z) =
    Some (mkBatch [[u]] [[fzero]] [[]], h').
Proof.
  intros V U F B. unfold fresh in B. rewrite !andb_true_iff in B. destruct B as [[[[I Rt] T] TI] S].
  apply Nat.eqb_eq in I. unfold select_next_points. cbn [toy_setup z_weights batches z_q z_optmod seq map]. cbv zeta. rewrite I.
  cbn [batch_of b_x b_y b_scales length app h_kept h_activity h_rng].
  destruct (s_x st) as [|[|a0 []] [|[|a1 []] [|[|a2 []] [|[|a3 []] [|[|a4 []] []]]]]]; try discriminate S.
  destruct (s_y st) as [|[|y0 []] [|[|y1 []] [|[|y2 []] [|[|y3 []] [|[|y4 []] []]]]]]; try discriminate S.
  cbn [app]. replace (actives toy_cfg (mkHidden [(None, None)] None 42%Z)) with [[0]] by reflexivity.
  replace (Sched_Model.make_clustering _ _ _) with true by (destruct rc; reflexivity).
  match goal with |- context [train_outputs _ _ _ _ ?p (true, ?b) _ _ _ _] =>
    destruct (toy_outputs f v [w] 5 p b a0 a1 a2 a3 a4 y0 y1 y2 y3 y4 e V U) as [ks K] end.
  first [rewrite K | unfold toy_setup in K; rewrite K]. cbn [fst snd sub_rng toy x_gen x_seed x_search]. rewrite F. cbn [app fst snd]. eexists. reflexivity.
Qed.

(** The first iteration in this world: the new point is the one proposed from the surrogate. *)
Lemma toy_first f v e w u : (0 < v)%R -> (forall p r, x_uniforms (toy f) (e_starts e p r) = [v]) ->
  f w [Moe_Model.Mixture Moe_Model.Hard [[Tune_Model.pow10 v]] ((1%nat, 0%Z), fone)] = [u] ->
  option_map (fun sh => accepts u (fst sh)) (begin (toy f) e (toy_setup 1 1 5 [w]) toy_cfg (fun x => x) (fun _ => [])) = Some true ->
  point_is 5 u (toy_run f 1 1 5 [w] e 1) = true.
Proof.
  intros V U F A. unfold toy_run, run.
  assert (B : option_map (fun sh => fresh (fst sh)) (begin (toy f) e (toy_setup 1 1 5 [w]) toy_cfg (fun x => x) (fun _ => [])) = Some true)
    by (vm_compute; reflexivity).
  assert (C : option_map snd (begin (toy f) e (toy_setup 1 1 5 [w]) toy_cfg (fun x => x) (fun _ => [])) = Some (mkHidden [(None, None)] None 42%Z))
    by (vm_compute; reflexivity).
  destruct (begin (toy f) _ _ _ _ _) as [[st h]|]; [|discriminate A]. cbn [option_map fst snd] in A, B, C.
  injection C as ->. injection B as B. injection A as A.
  pose proof (fun rc p => toy_select f v e w u rc p st V U F B) as Sel.
  unfold fresh in B. rewrite !andb_true_iff in B. destruct B as [[[[I Rt] T] TI] _].
  apply Nat.eqb_eq in I, Rt. apply negb_true_iff in T. cbn [rounds round]. rewrite T.
  destruct (terminate_internal st); try discriminate TI. unfold iteration. cbn [toy_cfg c_trego]. unfold global_step. rewrite Rt.
  cbn [attempts]. cbv zeta. match goal with |- context [select_next_points _ _ _ _ ?p ?rc st _] => destruct (Sel rc p) as [h' H'] end.
  first [rewrite H' | unfold toy_cfg in H'; rewrite H']. cbn [fst snd]. unfold accepts in A.
  destruct (ego_loop _ _ _ _ st 1 0) as [st'|]; [|discriminate A]. apply andb_true_iff in A. destruct A as [T' A].
  apply negb_true_iff in T'. rewrite T'. cbn [fst snd]. cbn [draw_activity toy_setup z_coop].
  destruct (update st') as [st2|]; [|discriminate A]. exact A.
Qed.

Lemma points_differ i u v r r' : feq u v = false -> point_is i u r = true -> point_is i v r' = true ->
  exists st st', r = Some st /\ r' = Some st' /\ nth_error st.(s_x) i <> nth_error st'.(s_x) i.
Proof.
  intros N P Q. unfold point_is in P, Q. destruct r as [st|]; [|discriminate]. destruct r' as [st'|]; [|discriminate].
  exists st, st'. repeat split. intros H. rewrite H in P. destruct (nth_error (s_x st') i) as [[|a [|]]|]; try discriminate.
  destruct (feq_nan _ _ P) as [Na Nu]. destruct (feq_nan _ _ Q) as [_ Nv].
  apply (feq_ord _ _ Na Nu) in P. apply (feq_ord _ _ Na Nv) in Q. apply (feq_ordF _ _ Nu Nv) in N. congruence.
Qed.

(** ** The property *)

(** A hash map lists its entries in some order. *)
Definition possible {rng} (e : entropy rng) : Prop := forall l, Permutation l (e.(e_order) l).

(** Whatever the entropy of the operating system, the run goes through the same states. *)
Definition reproducible {rng G E} (x : external rng G E) (s : setup) (cfg : config) (fobj fcstr : row -> row) : Prop :=
  forall e e' k, possible e -> possible e' -> run x e s cfg fobj fcstr k = run x e' s cfg fobj fcstr k.

(** C147, proved part: a run with a seed is reproducible when surrogates have one cluster (whose fit does not depend on the generator), the
    hyperparameters are not tuned from exactly one random start, and the portfolio is not used. *)
Theorem C147_seeded_partial {rng G E} (x : external rng G E) (s : setup) (cfg : config) (fobj fcstr : row -> row) :
  s.(z_seed) <> None -> s.(z_clusters) = Sched_Model.NbFixed 1 -> s.(z_n_start) <> 1%nat -> (length s.(z_weights) <= 1)%nat ->
  (forall g g' d, x.(x_gmm_fit) g 1 d = x.(x_gmm_fit) g' 1 d) ->
  reproducible x s cfg fobj fcstr.
Proof. intros Hs Hc Hn Hw Hg e e' k _ _. apply run_same; auto. Qed.

(** The initial state (design, evaluations, groups of variables, generator) only depends on the seed, in every configuration. *)
Theorem C147_design {rng G E} (x : external rng G E) (e e' : entropy rng) (s : setup) (cfg : config) (fobj fcstr : row -> row) :
  s.(z_seed) <> None -> begin x e s cfg fobj fcstr = begin x e' s cfg fobj fcstr.
Proof. intros H. unfold begin. now rewrite (rng_same x e e' s H). Qed.

(** Suggestions asked twice to the same service (which keeps the generator of its builder) are the same, with any number of clusters. *)
Theorem C147_suggest_partial {rng G E} (x : external rng G E) (e e' : entropy rng) (s : setup) (cfg : config) (st : state) :
  s.(z_seed) <> None -> e.(e_builder) = e'.(e_builder) -> s.(z_n_start) <> 1%nat -> (length s.(z_weights) <= 1)%nat ->
  suggest x e s cfg st = suggest x e' s cfg st.
Proof. intros Hs Hb Hn Hw. apply suggest_same; auto. Qed.

(** These runs are runs of the optimizer in the sense of the other properties. *)
Theorem C147_run {rng G E} (x : external rng G E) (e : entropy rng) (s : setup) (cfg : config) (fobj fcstr : row -> row) k st :
  run x e s cfg fobj fcstr k = Some st ->
  exists cols doe st0 orc, init cfg fobj fcstr cols doe = Some st0 /\ exec cfg fobj fcstr orc k st0 = Some st.
Proof. apply run_exec. Qed.

(** With several clusters, two runs with the same seed may evaluate different points: the generator of the clustering is not seeded. *)
Theorem C147_clusters_refuted : exists (x : external Z (nat * Z) (list R)) (s : setup) (cfg : config) (fobj fcstr : row -> row) e e' st st',
  s.(z_seed) <> None /\ s.(z_clusters) = Sched_Model.NbFixed 2 /\ s.(z_n_start) = 0%nat /\ length s.(z_weights) = 1%nat /\
  possible e /\ possible e' /\ run x e s cfg fobj fcstr 1 = Some st /\ run x e' s cfg fobj fcstr 1 = Some st' /\ st.(s_x) <> st'.(s_x).
Proof.
  destruct (points_differ 6 (fofZ 10) (fofZ 11) (toy_run search_gmm 2 0 6 [fone] (toy_entropy 0 0 (fun l => l)) 1)
              (toy_run search_gmm 2 0 6 [fone] (toy_entropy 1 0 (fun l => l)) 1)) as (st & st' & A & B & D);
    [vm_compute; reflexivity|vm_compute; reflexivity|vm_compute; reflexivity|].
  exists (toy search_gmm), (toy_setup 2 0 6 [fone]), toy_cfg, (fun x => x), (fun _ => []), (toy_entropy 0 0 (fun l => l)), (toy_entropy 1 0 (fun l => l)), st, st'.
  split; [discriminate|]. do 3 (split; [reflexivity|]). do 2 (split; [intros l; apply Permutation_refl|]).
  rewrite toy_run_eq in A, B. split; [exact A|]. split; [exact B|]. intros H. apply D. now rewrite H.
Qed.

(** The same world, where the clusters do not depend on the generator but their number does. *)
Definition toy_auto : external Z (nat * Z) (list R) :=
  let t := toy (fun _ ms => match ms with m :: _ => [fofZ (10 + Z.of_nat (fst (fst (Moe_Model.mx_gmx m))))] | [] => [] end) in
  mkExternal t.(x_seed) t.(x_gen) t.(x_uniforms) t.(x_draws) t.(x_swaps) t.(x_shuffled) t.(x_gm_clusters)
    (fun _ n _ => Moe_Model.Ok (n, 0%Z)) t.(x_resp) t.(x_cv) t.(x_lik) t.(x_opt) t.(x_sched) t.(x_expert) t.(x_theta) t.(x_lkh)
    (fun g _ _ _ => (if (g =? 0)%Z then 1 else 2, Moe_Model.Hard)) t.(x_factor_errors) t.(x_factors) t.(x_doe) t.(x_search)
    t.(x_search_local) t.(x_dbscan).
Definition auto_setup : setup :=
  let t := toy_setup 1 0 6 [fone] in
  mkSetup t.(z_seed) Sched_Model.NbAuto t.(z_recomb) t.(z_specs) t.(z_n_start) t.(z_tuning) t.(z_bounds) t.(z_dim) t.(z_coop)
    t.(z_q) t.(z_optmod) t.(z_weights) t.(z_n_cstr) t.(z_n_doe) t.(z_doe).

(** With an automatic number of clusters, likewise, even when the clusters themselves do not depend on the generator: their number does. *)
Theorem C147_auto_refuted : exists (x : external Z (nat * Z) (list R)) (s : setup) (cfg : config) (fobj fcstr : row -> row) e e' st st',
  s.(z_seed) <> None /\ s.(z_clusters) = Sched_Model.NbAuto /\ s.(z_n_start) = 0%nat /\ length s.(z_weights) = 1%nat /\
  (forall g g' n d, x.(x_gmm_fit) g n d = x.(x_gmm_fit) g' n d) /\
  possible e /\ possible e' /\ run x e s cfg fobj fcstr 1 = Some st /\ run x e' s cfg fobj fcstr 1 = Some st' /\ st.(s_x) <> st'.(s_x).
Proof.
  destruct (points_differ 6 (fofZ 11) (fofZ 12) (run toy_auto (toy_entropy 0 0 (fun l => l)) auto_setup toy_cfg (fun x => x) (fun _ => []) 1)
              (run toy_auto (toy_entropy 1 0 (fun l => l)) auto_setup toy_cfg (fun x => x) (fun _ => []) 1)) as (st & st' & A & B & D);
    [vm_compute; reflexivity|vm_compute; reflexivity|vm_compute; reflexivity|].
  exists toy_auto, auto_setup, toy_cfg, (fun x => x), (fun _ => []), (toy_entropy 0 0 (fun l => l)), (toy_entropy 1 0 (fun l => l)), st, st'.
  split; [discriminate|]. do 4 (split; [reflexivity|]). do 2 (split; [intros l; apply Permutation_refl|]).
  split; [exact A|]. split; [exact B|]. intros H. apply D. now rewrite H.
Qed.

(** With one random start for the hyperparameters, likewise: that start is drawn from the entropy. *)
Theorem C147_starts_refuted : exists (x : external Z (nat * Z) (list R)) (s : setup) (cfg : config) (fobj fcstr : row -> row) e e' st st',
  s.(z_seed) <> None /\ s.(z_clusters) = Sched_Model.NbFixed 1 /\ s.(z_n_start) = 1%nat /\ length s.(z_weights) = 1%nat /\
  (forall g g' d, x.(x_gmm_fit) g 1 d = x.(x_gmm_fit) g' 1 d) /\
  possible e /\ possible e' /\ run x e s cfg fobj fcstr 1 = Some st /\ run x e' s cfg fobj fcstr 1 = Some st' /\ st.(s_x) <> st'.(s_x).
Proof.
  destruct (points_differ 5 (fofZ 10) (fofZ 11) (toy_run search_theta 1 1 5 [fone] (toy_entropy 0 0 (fun l => l)) 1)
              (toy_run search_theta 1 1 5 [fone] (toy_entropy 0 1 (fun l => l)) 1)) as (st & st' & A & B & D).
  - vm_compute; reflexivity.
  - apply (toy_first search_theta (1 / 4)); [lra|reflexivity| |vm_compute; reflexivity].
    cbn [search_theta Moe_Model.mx_experts hd]. destruct (Rlt_dec _ _) as [_|N]; [reflexivity|]. exfalso. apply N.
    unfold Tune_Model.pow10. apply Rpower_lt; lra.
  - apply (toy_first search_theta (3 / 4)); [lra|reflexivity| |vm_compute; reflexivity].
    cbn [search_theta Moe_Model.mx_experts hd]. destruct (Rlt_dec _ _) as [N|_]; [|reflexivity]. exfalso.
    assert (Tune_Model.pow10 (1 / 2) < Tune_Model.pow10 (3 / 4))%R by (unfold Tune_Model.pow10; apply Rpower_lt; lra). lra.
  - exists (toy search_theta), (toy_setup 1 1 5 [fone]), toy_cfg, (fun x => x), (fun _ => []), (toy_entropy 0 0 (fun l => l)), (toy_entropy 0 1 (fun l => l)), st, st'.
    split; [discriminate|]. do 3 (split; [reflexivity|]). split; [reflexivity|]. do 2 (split; [intros l; apply Permutation_refl|]).
    rewrite toy_run_eq in A, B. split; [exact A|]. split; [exact B|]. intros H. apply D. now rewrite H.
Qed.

(** With the portfolio, likewise: proposals are evaluated in the order of a hash map. *)
Theorem C147_order_refuted : exists (x : external Z (nat * Z) (list R)) (s : setup) (cfg : config) (fobj fcstr : row -> row) e e' st st',
  s.(z_seed) <> None /\ s.(z_clusters) = Sched_Model.NbFixed 1 /\ s.(z_n_start) = 0%nat /\ s.(z_q) = 1%nat /\ (1 < length s.(z_weights))%nat /\
  (forall g g' d, x.(x_gmm_fit) g 1 d = x.(x_gmm_fit) g' 1 d) /\
  possible e /\ possible e' /\ run x e s cfg fobj fcstr 1 = Some st /\ run x e' s cfg fobj fcstr 1 = Some st' /\ st.(s_x) <> st'.(s_x).
Proof.
  destruct (points_differ 5 (fofZ 11) (fofZ 12) (toy_run search_weight 1 0 5 [fone; fofZ 2] (toy_entropy 0 0 (fun l => l)) 1)
              (toy_run search_weight 1 0 5 [fone; fofZ 2] (toy_entropy 0 0 (@rev nat)) 1)) as (st & st' & A & B & D);
    [vm_compute; reflexivity|vm_compute; reflexivity|vm_compute; reflexivity|].
  exists (toy search_weight), (toy_setup 1 0 5 [fone; fofZ 2]), toy_cfg, (fun x => x), (fun _ => []), (toy_entropy 0 0 (fun l => l)), (toy_entropy 0 0 (@rev nat)), st, st'.
  split; [discriminate|]. do 3 (split; [reflexivity|]). split; [cbn; lia|]. split; [reflexivity|].
  split; [intros l; apply Permutation_refl|]. split; [intros l; apply Permutation_rev|].
  rewrite toy_run_eq in A, B. split; [exact A|]. split; [exact B|]. intros H. apply D. now rewrite H.
Qed.

(** The hypotheses of [C147_seeded_partial] hold of a run that evaluates new points. *)
Example C147_example : reproducible (toy search_gmm) (toy_setup 1 0 5 [fone]) toy_cfg (fun x => x) (fun _ => []).
Proof. apply C147_seeded_partial; [discriminate|reflexivity|discriminate|cbn; lia|reflexivity]. Qed.
Example C147_example_run : point_is 5 (fofZ 10) (toy_run search_gmm 1 0 5 [fone] (toy_entropy 7 8 (@rev nat)) 1) = true.
Proof. vm_compute. reflexivity. Qed.

Print Assumptions C147_seeded_partial.
Print Assumptions C147_design.
Print Assumptions C147_suggest_partial.
Print Assumptions C147_run.
Print Assumptions C147_clusters_refuted.
Print Assumptions C147_auto_refuted.
Print Assumptions C147_starts_refuted.
Print Assumptions C147_order_refuted.
