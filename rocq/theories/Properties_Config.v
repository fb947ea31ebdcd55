(** C159 and C160: the options given to the optimizer, in Rust and in Python. *)
From Coq Require Import String ZArith List Bool Lia Permutation.
From Flocq Require Import IEEE754.BinarySingleNaN.
From Verif Require Import F64 Util FindResult_Model Mixint_Model Py_Model Coego_Model Coego_Spec Config_Model Config_Spec Config_Proofs.
From Verif Require Properties_Coego Moe_Model Mixint_Proofs.
Import ListNotations.
Local Open Scope nat_scope.

(** C159. Whatever the sequence of builder calls, each option of an accepted configuration is the last value given for it, its documented default if
    none was given; the variables are those of the search space. *)
Theorem C159_options : forall tuning calls xtypes k, build tuning calls xtypes = Valid k ->
  k_max_iters k = last_given says_max_iters 20 calls /\ k_n_start k = last_given says_n_start 20 calls /\
  k_n_doe k = last_given says_n_doe 0 calls /\ k_n_cstr k = last_given says_n_cstr 0 calls /\
  k_cstr_tol k = last_given says_cstr_tol None calls /\ k_doe k = last_given says_doe None calls /\
  k_q_ei k = last_given says_qei KrigingBeliever calls /\ k_q_optmod k = last_given says_q_optmod 1 calls /\
  k_q_points k = last_given says_q_points 1 calls /\ k_criterion k = last_given says_criterion (Standard SLogEI) calls /\
  k_optimizer k = last_given says_optimizer Slsqp calls /\ k_target k = last_given says_target f64_min calls /\
  k_outdir k = last_given says_outdir None calls /\ k_warm_start k = last_given says_warm_start false calls /\
  k_hot_start k = last_given says_hot_start HotDisabled calls /\ k_xtypes k = xtypes /\ k_seed k = last_given says_seed None calls /\
  k_trego k = last_given says_trego false calls /\ coego_of k = last_given says_coego CoegoDisabled calls /\
  k_cstr_infill k = last_given says_cstr_infill false calls /\ k_cstr_strategy k = last_given says_cstr_strategy MeanConstraint calls /\
  gc_regr (k_gp k) = last_given says_regr 1 (gp_calls calls) /\ gc_corr (k_gp k) = last_given says_corr 1 (gp_calls calls) /\
  gc_kpls (k_gp k) = last_given says_kpls None (gp_calls calls) /\
  gc_clusters (k_gp k) = last_given says_clusters (Moe_Model.Fixed 1) (gp_calls calls) /\
  gc_recomb (k_gp k) = last_given says_recomb (Moe_Model.Smooth (Some fone)) (gp_calls calls) /\
  gc_tuning (k_gp k) = last_given says_tuning tuning (gp_calls calls) /\
  gc_n_start (k_gp k) = last_given says_gp_n_start 10 (gp_calls calls) /\ gc_max_eval (k_gp k) = last_given says_max_eval 50 (gp_calls calls).
Proof.
  intros tuning calls xtypes k H. unfold build in H.
  set (c := fold_left apply_call calls (default_conf tuning)) in *.
  assert (E : k = apply_call c (Xtypes xtypes)).
  { unfold check in H. destruct (k_cstr_tol _); repeat match type of H with context [if ?b then _ else _] => destruct b end;
      try discriminate H; congruence. }
  assert (G : k_gp c = fold_left gp_apply (gp_calls calls) (default_gp tuning)) by apply fold_gp.
  assert (P : forall V (proj : econf -> V) says, (forall k0 o, proj (apply_call k0 o) = match says o with Some v => v | None => proj k0 end) ->
    proj c = last_given says (proj (default_conf tuning)) calls) by (intros; apply fold_last; assumption).
  assert (Q : forall V (proj : gp_conf -> V) says, (forall k0 o, proj (gp_apply k0 o) = match says o with Some v => v | None => proj k0 end) ->
    proj (k_gp c) = last_given says (proj (default_gp tuning)) (gp_calls calls)) by (intros; rewrite G; apply fold_last; assumption).
  subst k. clearbody c.
  assert (X : forall V (proj : econf -> V), (forall k0 t, proj (apply_call k0 (Xtypes t)) = proj k0) -> proj (apply_call c (Xtypes xtypes)) = proj c)
    by (intros; auto).
  rewrite (X _ k_gp) by (intros []; reflexivity).
  repeat apply conj; try (destruct c; reflexivity);
    (rewrite X by (intros []; reflexivity); apply P; intros [] []; try reflexivity; destruct s; reflexivity) ||
    (apply Q; intros [] []; reflexivity).
Qed.
Print Assumptions C159_options.

(** C159. The order of the calls for different options does not matter. *)
Theorem C159_order : forall tuning before a b after xtypes, same_option a b = false ->
  build tuning (before ++ a :: b :: after) xtypes = build tuning (before ++ b :: a :: after) xtypes.
Proof.
  intros tuning before a b after xtypes H. unfold build. rewrite !fold_left_app. cbn [fold_left]. rewrite swap_calls by exact H. reflexivity.
Qed.
Print Assumptions C159_order.

(** C159. A configuration is accepted exactly when the tolerances, if given with metamodelled constraints, are as many as these, and the cooperative
    optimization is not combined with the reduction of dimension. *)
Theorem C159_check : forall tuning calls xtypes,
  (exists k, build tuning calls xtypes = Valid k) <->
  ((forall t, last_given says_cstr_tol None calls = Some t -> last_given says_n_cstr 0 calls = 0 \/ length t = last_given says_n_cstr 0 calls) /\
   (last_given says_coego CoegoDisabled calls = CoegoDisabled \/ last_given says_kpls None (gp_calls calls) = None)).
Proof.
  intros tuning calls xtypes. unfold build.
  set (c := fold_left apply_call calls (default_conf tuning)).
  assert (T : k_cstr_tol c = last_given says_cstr_tol None calls)
    by (apply (fold_last apply_call k_cstr_tol says_cstr_tol); intros [] []; try reflexivity; destruct s; reflexivity).
  assert (N : k_n_cstr c = last_given says_n_cstr 0 calls)
    by (apply (fold_last apply_call k_n_cstr says_n_cstr); intros [] []; try reflexivity; destruct s; reflexivity).
  assert (C : coego_of c = last_given says_coego CoegoDisabled calls)
    by (apply (fold_last apply_call coego_of says_coego); intros [] []; try reflexivity; destruct s; reflexivity).
  assert (K : gc_kpls (k_gp c) = last_given says_kpls None (gp_calls calls)).
  { unfold c. rewrite fold_gp. apply (fold_last gp_apply gc_kpls says_kpls). intros [] []; reflexivity. }
  rewrite <- T, <- N, <- C, <- K. clear T N C K. clearbody c. unfold coego_of.
  assert (E : k_cstr_tol (apply_call c (Xtypes xtypes)) = k_cstr_tol c /\ k_n_cstr (apply_call c (Xtypes xtypes)) = k_n_cstr c /\
    k_coego_on (apply_call c (Xtypes xtypes)) = k_coego_on c /\ k_gp (apply_call c (Xtypes xtypes)) = k_gp c)
    by (destruct c; repeat split; reflexivity).
  destruct E as (E1 & E2 & E3 & E4). unfold check. rewrite E1, E2, E3, E4. clear E1 E2 E3 E4.
  generalize (apply_call c (Xtypes xtypes)). intros v.
  assert (W : (exists k, (if k_coego_on c && match gc_kpls (k_gp c) with Some _ => true | None => false end then CoegoWithKpls else Valid v) = Valid k) <->
    ((if k_coego_on c then CoegoEnabled (k_n_coop c) else CoegoDisabled) = CoegoDisabled \/ gc_kpls (k_gp c) = None)).
  { destruct (k_coego_on c), (gc_kpls (k_gp c)); cbn [andb].
    - split; [intros [k H]; discriminate H|intros [H|H]; discriminate H].
    - split; [intros _; right; reflexivity|intros _; eexists; reflexivity].
    - split; [intros _; left; reflexivity|intros _; eexists; reflexivity].
    - split; [intros _; left; reflexivity|intros _; eexists; reflexivity]. }
  destruct (k_cstr_tol c) as [t|].
  - destruct ((0 <? k_n_cstr c) && negb (length t =? k_n_cstr c)) eqn:B.
    + apply andb_true_iff in B. destruct B as [B1 B2]. apply Nat.ltb_lt in B1. apply negb_true_iff, Nat.eqb_neq in B2.
      split; [intros [k H]; discriminate H|]. intros [H _]. destruct (H t eq_refl); lia.
    + rewrite W. split; [|intros [_ H]; exact H]. intros H. split; [|exact H]. intros t' Ht. injection Ht as <-.
      apply andb_false_iff in B. destruct B as [B|B]; [apply Nat.ltb_ge in B; left; lia|apply negb_false_iff, Nat.eqb_eq in B; right; exact B].
  - rewrite W. split; [|intros [_ H]; exact H]. intros H. split; [|exact H]. intros t Ht. discriminate Ht.
Qed.
Print Assumptions C159_check.

(** C159, finding: a cooperative optimization with no group is accepted, and every run then stops with a panic when the groups are made. *)
Theorem C159_run_refuted : forall tuning xtypes, exists k, build tuning [Coego (CoegoEnabled 0)] xtypes = Valid k /\
  forall idx, initial_groups k idx = None.
Proof.
  intros tuning xtypes. eexists. split; [reflexivity|]. intros idx. reflexivity.
Qed.
Print Assumptions C159_run_refuted.

(** C159. Otherwise an accepted configuration makes its groups, which share out the variables. *)
Theorem C159_run_partial : forall tuning calls xtypes k idx, build tuning calls xtypes = Valid k -> xtypes <> [] ->
  last_given says_coego CoegoDisabled calls <> CoegoEnabled 0 -> Permutation idx (seq 0 (length xtypes)) ->
  exists groups, initial_groups k idx = Some groups /\
    forall n, last_given says_coego CoegoDisabled calls = CoegoEnabled n ->
      length groups = Nat.min n (length xtypes) /\ Permutation (concat (map (members (length xtypes)) groups)) (seq 0 (length xtypes)).
Proof.
  intros tuning calls xtypes k idx H Hx Hc Hp.
  destruct (C159_options tuning calls xtypes k H) as (_ & _ & _ & _ & _ & _ & _ & _ & _ & _ & _ & _ & _ & _ & _ & X & _ & _ & C & _).
  rewrite <- C in *. unfold coego_of in *. unfold initial_groups. rewrite X. destruct (k_coego_on k).
  - assert (L : 1 <= length xtypes) by (destruct xtypes; [congruence|cbn; lia]).
    assert (N : 1 <= k_n_coop k) by (destruct (k_n_coop k); [congruence|lia]).
    destruct (Properties_Coego.C26_partition (length xtypes) (k_n_coop k) idx L N Hp) as (rows & R & R1 & R2 & _).
    exists rows. split; [exact R|]. intros n E. injection E as <-. split; assumption.
  - exists []. split; [reflexivity|]. intros n E. discriminate E.
Qed.
Print Assumptions C159_run_partial.

(** C159, a concrete case: repeated and withdrawn options. *)
Example C159_example :
  let calls := [MaxIters 5; Coego (CoegoEnabled 3); ConfigureGp [GKpls 2; GRegr 7]; Doe [[fone]]; MaxIters 9; ConfigureGp [GNoKpls]; DefaultDoe;
    Strategy SEI; Criterion 4; NCstr 1; CstrTol [fone]] in
  exists k, build (TFull [fone] []) calls [Float fzero fone; Float fzero fone] = Valid k /\
    k_max_iters k = 9 /\ k_doe k = None /\ gc_kpls (k_gp k) = None /\ gc_regr (k_gp k) = 7 /\ k_criterion k = UserCriterion 4 /\
    coego_of k = CoegoEnabled 3 /\ initial_groups k [1; 0] = Some [[1]; [0]] /\
    build (TFull [fone] []) (calls ++ [NCstr 2]) [Float fzero fone] = BadTolerances 1 2.
Proof. cbv zeta. eexists. split; [reflexivity|]. repeat split; reflexivity. Qed.

(** C160. When a minimization starts from Python, each option of the run is the one given to the constructor. *)
Theorem C160_options_partial : forall tuning init bounds tol p max_iters n_fcstr xtypes k,
  py_minimize tuning init bounds tol p max_iters n_fcstr xtypes = Some k ->
  k_max_iters k = max_iters /\ k_n_start k = y_n_start p /\ k_n_doe k = y_n_doe p /\ k_n_cstr k = y_n_cstr p /\
  k_cstr_tol k = Some (match y_cstr_tol p with Some t => t | None => repeat tol (y_n_cstr p + n_fcstr) end) /\
  k_doe k = y_doe p /\ k_q_ei k = y_qei p /\ k_q_optmod k = y_q_optmod p /\ k_q_points k = y_q_points p /\
  k_criterion k = Standard (y_strategy p) /\ k_optimizer k = y_optimizer p /\ k_target k = y_target p /\ k_outdir k = y_outdir p /\
  k_warm_start k = y_warm_start p /\
  k_hot_start k = match y_hot_start p with None => HotDisabled | Some 0 => HotEnabled | Some n => HotExtended n end /\
  k_xtypes k = xtypes /\ k_seed k = y_seed p /\ k_trego k = y_trego p /\
  coego_of k = (match y_n_coop p with 0 => CoegoDisabled | n => CoegoEnabled n end) /\
  k_cstr_infill k = y_cstr_infill p /\ k_cstr_strategy k = y_cstr_strategy p /\
  gc_regr (k_gp k) = c_regr (y_gp p) /\ gc_corr (k_gp k) = c_corr (y_gp p) /\ gc_kpls (k_gp k) = c_kpls (y_gp p) /\
  gc_clusters (k_gp k) = (if Z.ltb 0 (c_nclusters (y_gp p)) then Moe_Model.Fixed (Z.to_nat (c_nclusters (y_gp p)))
    else if Z.eqb (c_nclusters (y_gp p)) 0 then Moe_Model.Auto None else Moe_Model.Auto (Some (Z.to_nat (- c_nclusters (y_gp p))))) /\
  gc_recomb (k_gp k) = (match c_recomb (y_gp p) with PyHard => Moe_Model.Hard | PySmooth => Moe_Model.Smooth (Some fone) end) /\
  (c_bounds (y_gp p) = None -> gc_tuning (k_gp k) = TFull (match c_init (y_gp p) with Some i => i | None => [init] end) [bounds]) /\
  (forall b, c_bounds (y_gp p) = Some b -> exists bs, gc_tuning (k_gp k) = TFull (match c_init (y_gp p) with Some i => i | None => [init] end) bs /\
     Forall2 (fun v lu => nth_error v 0 = Some (fst lu) /\ nth_error v 1 = Some (snd lu)) b bs) /\
  gc_n_start (k_gp k) = Z.to_nat (Z.max (c_nstart (y_gp p)) 0) /\ gc_max_eval (k_gp k) = c_maxeval (y_gp p).
Proof.
  intros tuning init bounds tol p max_iters n_fcstr xtypes k H. unfold py_minimize in H.
  destruct (py_calls init bounds tol p (Some max_iters) n_fcstr (y_doe p)) as [calls|] eqn:E; [|discriminate H]. 
  destruct (build tuning calls xtypes) as [k'| |] eqn:B; [|discriminate H|discriminate H]. injection H as ->.
  pose proof (C159_options tuning calls xtypes k B) as O.
  unfold py_calls, egor_settings in E.
  destruct (regr_bits (c_regr (y_gp p))) as [r|] eqn:Er; [|discriminate E].
  destruct (corr_bits (c_corr (y_gp p))) as [q|] eqn:Eq; [|discriminate E].
  destruct (base_tuning init bounds (y_gp p)) as [t|] eqn:Et; [|discriminate E].
  cbn [nth_error m_tunings m_regr m_corr m_kpls m_nclusters m_recomb m_nstart m_maxeval] in E.
  apply (f_equal (fun o => match o with Some a => a | None => calls end)) in E. cbv beta iota in E. subst calls.
  unfold regr_bits in Er. destruct (c_regr (y_gp p) <? 8); [|discriminate Er]. injection Er as <-.
  unfold corr_bits in Eq. destruct (c_corr (y_gp p) <? 16); [|discriminate Eq]. injection Eq as <-.
  assert (L : forall V (says : call -> option V) d a, (forall v, says (Doe v) = None) -> (forall v, says (Outdir v) = None) ->
    (forall v, says (Seed v) = None) ->
    last_given says d (a ++ given Doe (y_doe p) ++ given Outdir (y_outdir p) ++ given Seed (y_seed p)) = last_given says d a).
  { intros V says d a H1 H2 H3. unfold last_given. rewrite flat_map_app. f_equal.
    rewrite !flat_map_app. destruct (y_doe p), (y_outdir p), (y_seed p); cbn; rewrite ?H1, ?H2, ?H3; apply app_nil_r. }
  assert (G : forall a, gp_calls (a ++ given Doe (y_doe p) ++ given Outdir (y_outdir p) ++ given Seed (y_seed p)) = gp_calls a).
  { intros a. unfold gp_calls. rewrite !flat_map_app. destruct (y_doe p), (y_outdir p), (y_seed p); cbn; apply app_nil_r. }
  rewrite G in O.
  do 5 (destruct O as [? O]). destruct O as [Od O]. do 6 (destruct O as [? O]). destruct O as [Oo O]. do 3 (destruct O as [? O]).
  destruct O as [Os O]. repeat match type of O with _ /\ _ => destruct O as [? O] end.
  rewrite L in * by reflexivity.
  assert (Cl : gc_clusters (k_gp k) = n_clusters (c_nclusters (y_gp p))) by assumption.
  repeat apply conj; try assumption.
  - rewrite Od. destruct (y_doe p), (y_outdir p), (y_seed p); reflexivity.
  - rewrite Oo. destruct (y_doe p), (y_outdir p), (y_seed p); reflexivity.
  - rewrite Os. destruct (y_doe p), (y_outdir p), (y_seed p); reflexivity.
  - match goal with C : coego_of k = _ |- _ => rewrite C end. destruct (y_n_coop p); reflexivity.
  - rewrite Cl. unfold n_clusters. destruct (c_nclusters (y_gp p)); reflexivity.
  - intros Eb. unfold base_tuning in Et. rewrite Eb in Et. injection Et as <-.
    match goal with C : gc_tuning (k_gp k) = _ |- _ => rewrite C end. destruct (c_init (y_gp p)); reflexivity.
  - intros b Eb. unfold base_tuning in Et. rewrite Eb in Et.
    destruct (mapM _ b) as [bs|] eqn:Em; [|discriminate Et]. injection Et as <-. exists bs. split.
    + match goal with C : gc_tuning (k_gp k) = _ |- _ => rewrite C end. destruct (c_init (y_gp p)); reflexivity.
    + apply Mixint_Proofs.mapM_inv in Em. clear -Em. induction Em as [|v lu b bs Hv _ IH]; constructor; [|exact IH]. cbv beta in Hv.
      destruct (nth_error v 0) as [l|]; [|discriminate Hv]. destruct (nth_error v 1) as [u|]; [|discriminate Hv].
      injection Hv as <-. split; reflexivity.
Qed.
Print Assumptions C160_options_partial.

(** C160. The documented options are accepted as long as the constraints are all metamodelled or all functions. *)
Theorem C160_accepts_partial : forall tuning init bounds tol p max_iters n_fcstr xtypes,
  c_regr (y_gp p) < 8 -> c_corr (y_gp p) < 16 ->
  (forall b, c_bounds (y_gp p) = Some b -> Forall (fun v => 2 <= length v) b) ->
  documented_tolerances (y_n_cstr p) n_fcstr (y_cstr_tol p) -> y_n_cstr p = 0 \/ n_fcstr = 0 ->
  y_n_coop p = 0 \/ c_kpls (y_gp p) = None ->
  py_minimize tuning init bounds tol p max_iters n_fcstr xtypes <> None.
Proof.
  intros tuning init bounds tol p max_iters n_fcstr xtypes Hr Hc Hb Ht Hn Hk H. unfold py_minimize in H.
  destruct (py_calls_some init bounds tol p (Some max_iters) n_fcstr (y_doe p) Hr Hc Hb) as [calls E]. rewrite E in H.
  destruct (py_calls_say init bounds tol p (Some max_iters) n_fcstr (y_doe p) calls E) as (S1 & S2 & S3 & S4).
  destruct (proj2 (C159_check tuning calls xtypes)) as [k B]; [|rewrite B in H; discriminate H].
  rewrite S1, S2, S3, S4. split.
  - intros t Et. injection Et as <-. destruct Hn as [Hn|Hn]; [left; exact Hn|right]. subst n_fcstr.
    unfold cstr_tol, documented_tolerances in *. destruct (y_cstr_tol p); [|rewrite repeat_length]; lia.
  - destruct Hk as [Hk|Hk]; [left; rewrite Hk; reflexivity|right; exact Hk].
Qed.
Print Assumptions C160_accepts_partial.

(** C160, finding: with both kinds of constraints the documented tolerances, given or by default, are rejected: no such problem can be minimized with
    them, whatever the other options. *)
Theorem C160_constraints_refuted : forall tuning init bounds tol p max_iters n_fcstr xtypes,
  0 < y_n_cstr p -> 0 < n_fcstr -> documented_tolerances (y_n_cstr p) n_fcstr (y_cstr_tol p) ->
  py_minimize tuning init bounds tol p max_iters n_fcstr xtypes = None.
Proof.
  intros tuning init bounds tol p max_iters n_fcstr xtypes Hn Hf Ht. unfold py_minimize.
  destruct (py_calls init bounds tol p (Some max_iters) n_fcstr (y_doe p)) as [calls|] eqn:E; [|reflexivity].
  destruct (py_calls_say init bounds tol p (Some max_iters) n_fcstr (y_doe p) calls E) as (S1 & S2 & _ & _).
  destruct (build tuning calls xtypes) as [k| |] eqn:B; [exfalso|reflexivity|reflexivity].
  destruct (proj1 (C159_check tuning calls xtypes) (ex_intro _ k B)) as [C _]. rewrite S1, S2 in C.
  destruct (C _ eq_refl) as [C1|C1]; [lia|]. unfold cstr_tol, documented_tolerances in *.
  destruct (y_cstr_tol p); [|rewrite repeat_length in C1]; lia.
Qed.
Print Assumptions C160_constraints_refuted.

(** C160, finding: no other tolerances work. If they are accepted, the first ranking of new points against the best one reads past them and panics,
    whatever the values. *)
Theorem C160_no_tolerances_refuted : forall tuning init bounds tol p max_iters n_fcstr xtypes k,
  0 < y_n_cstr p -> 0 < n_fcstr -> py_minimize tuning init bounds tol p max_iters n_fcstr xtypes = Some k ->
  forall current offset y_data c_data, Forall (fun r => length r = 1 + y_n_cstr p) y_data -> Forall (fun r => length r = n_fcstr) c_data ->
  offset < length y_data -> find_best_result_index_from current offset y_data c_data (run_tolerances tol k n_fcstr) = None.
Proof.
  intros tuning init bounds tol p max_iters n_fcstr xtypes k Hn Hf H current offset y c Hy Hc Ho.
  pose proof (C160_options_partial tuning init bounds tol p max_iters n_fcstr xtypes k H) as O.
  destruct O as (_ & _ & _ & On & Ot & _). unfold run_tolerances. rewrite Ot. fold (cstr_tol tol (y_cstr_tol p) (y_n_cstr p) n_fcstr).
  assert (L : length (cstr_tol tol (y_cstr_tol p) (y_n_cstr p) n_fcstr) = y_n_cstr p).
  { unfold py_minimize in H.
    destruct (py_calls init bounds tol p (Some max_iters) n_fcstr (y_doe p)) as [calls|] eqn:E; [|discriminate H].
    destruct (py_calls_say init bounds tol p (Some max_iters) n_fcstr (y_doe p) calls E) as (S1 & S2 & _ & _).
    destruct (build tuning calls xtypes) as [k'| |] eqn:B; [|discriminate H|discriminate H].
    destruct (proj1 (C159_check tuning calls xtypes) (ex_intro _ k' B)) as [C _]. rewrite S1, S2 in C.
    destruct (C _ eq_refl) as [C1|C1]; [lia|exact C1]. }
  revert L. generalize (cstr_tol tol (y_cstr_tol p) (y_n_cstr p) n_fcstr). intros t L. unfold find_best_result_index_from.
  destruct (hconcat y c) as [all|] eqn:E; [|reflexivity].
  destruct (hconcat_rows (1 + y_n_cstr p) n_fcstr y c all Hy Hc E) as [La Fa].
  destruct (offset <=? length all); [|reflexivity]. destruct (nth_error all current) as [cur|]; [|reflexivity].
  destruct (skipn offset all) as [|r rows] eqn:Es.
  { apply (f_equal (@length _)) in Es. rewrite skipn_length in Es. cbn in Es. lia. }
  assert (Hr : length r = 1 + y_n_cstr p + n_fcstr).
  { rewrite Forall_forall in Fa. apply Fa. rewrite <- (firstn_skipn offset all), Es. apply in_or_app. right. left. reflexivity. }
  cbn [best_from_loop]. unfold cstr_min. destruct r as [|o cs]; [discriminate Hr|]. cbn [length] in Hr |- *.
  replace (1 <? S (length cs)) with true by (symmetry; apply Nat.ltb_lt; lia).
  cbn [cstr_sum]. rewrite cstr_sum_short by lia. reflexivity.
Qed.
Print Assumptions C160_no_tolerances_refuted.

(** C160, concrete cases: default options with one metamodelled constraint, with one constraint function, and with both. *)
Definition example_py (n_cstr : nat) (t : option (list f64)) : py_egor :=
  mkPy (GpConfig 1 1 None 1 PySmooth None None 10 50) n_cstr t 20 0 None SLogEI false MeanConstraint 1 KrigingBeliever Slsqp false 0 1 f64_min None false
    (Some 3) (Some 42).
Example C160_example :
  let min n t f := py_minimize (TFull [fone] []) fone (fzero, fone) fzero (example_py n t) 7 f [Float fzero fone] in
  (exists k, min 1 None 0 = Some k /\ k_max_iters k = 7 /\ k_hot_start k = HotExtended 3 /\ k_seed k = Some 42) /\
  (exists k, min 0 None 1 = Some k /\ k_cstr_tol k = Some [fzero]) /\
  min 1 None 1 = None /\ min 1 (Some [fone; fone]) 1 = None /\
  (exists k, min 1 (Some [fone]) 1 = Some k /\ find_best_result_index_from 0 1 [[fone; fzero]; [fzero; fzero]] [[fzero]; [fzero]] (run_tolerances fzero k 1) = None).
Proof.
  cbv zeta. repeat apply conj; try reflexivity; try (eexists; split; [reflexivity|]); repeat split; reflexivity.
Qed.
