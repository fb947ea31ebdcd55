(** What a run takes from the entropy of the operating system. *)
From Coq Require Import ZArith Reals List Arith Bool Lia FunctionalExtensionality.
From Verif Require Import F64 Util FindResult_Model UpdateData_Model Ego_Model Coego_Model Seed_Model.
From Verif Require Doe_Model Tune_Model Moe_Model Sched_Model Misc_Model.
Import ListNotations.

Lemma bind_ext {A B} (a : option A) (f g : A -> option B) : (forall v, f v = g v) -> (do v <- a; f v) = (do v <- a; g v).
Proof. intros H. destruct a; cbn; auto. Qed.

Lemma mapM_ext {A B} (f g : A -> option B) l : (forall a, f a = g a) -> mapM f l = mapM g l.
Proof. intros H. induction l as [|a l IH]; cbn; [reflexivity|]. rewrite H. destruct (g a); cbn; [|reflexivity]. now rewrite IH. Qed.

(** The draws of a single start are only used when there is one. *)
Lemma multistart_no_draw n t0 b u u' rnd sw : n <> 1%nat ->
  Tune_Model.prepare_multistart n t0 b u rnd sw = Tune_Model.prepare_multistart n t0 b u' rnd sw.
Proof. intros N. destruct n as [|[|n]]; [reflexivity|congruence|reflexivity]. Qed.

Lemma theta_no_draw lik opt sched dim n u u' rnd sw t : n <> 1%nat ->
  Tune_Model.choose_theta lik opt sched dim n u rnd sw t = Tune_Model.choose_theta lik opt sched dim n u' rnd sw t.
Proof.
  intros N. destruct t as [i|i b|i b a]; cbn [Tune_Model.choose_theta]; [reflexivity| |];
    unfold Tune_Model.results; destruct (Tune_Model.broadcast dim i) as [t0|]; cbn; try reflexivity;
    destruct (Tune_Model.broadcast dim b) as [b0|]; cbn; try reflexivity;
    destruct (Tune_Model.select _ t0) as [t1|]; cbn; try reflexivity; now rewrite (multistart_no_draw n t1 _ u u').
Qed.

Section Same.
Context {rng G E : Type} (x : external rng G E) (e e' : entropy rng) (s : setup) (cfg : config) (fobj fcstr : row -> row).
Hypothesis Hstart : s.(z_n_start) <> 1%nat.
Hypothesis Hgmm : e.(e_builder) = e'.(e_builder) \/
  (s.(z_clusters) = Sched_Model.NbFixed 1 /\ forall g g' d, x.(x_gmm_fit) g 1 d = x.(x_gmm_fit) g' 1 d).

Lemma expert_same p : train_expert x e s p = train_expert x e' s p.
Proof.
  do 4 (apply functional_extensionality; intros ?). unfold train_expert.
  now rewrite (theta_no_draw _ _ _ _ _ (x_uniforms x (e_starts e p x3)) (x_uniforms x (e_starts e' p x3))).
Qed.

Lemma params_clusters ts : s.(z_clusters) = Sched_Model.NbFixed 1 ->
  Moe_Model.p_nclusters (params_of (G := G) s ts) = Moe_Model.Fixed 1.
Proof. intros H. unfold params_of. cbn. now rewrite H. Qed.

(** With one cluster there is no second training. *)
Lemma on_clusters_one r r' ps dim xt yt g rc p : Moe_Model.p_nclusters ps = Moe_Model.Fixed 1 ->
  Moe_Model.train_on_clusters x.(x_gm_clusters) x.(x_resp) x.(x_cv) (train_expert x e s p) x.(x_factor_errors) x.(x_factors) r ps dim xt yt g rc =
  Moe_Model.train_on_clusters x.(x_gm_clusters) x.(x_resp) x.(x_cv) (train_expert x e' s p) x.(x_factor_errors) x.(x_factors) r' ps dim xt yt g rc.
Proof.
  intros H. rewrite expert_same. unfold Moe_Model.train_on_clusters. rewrite H. cbn [Moe_Model.is_multi Nat.ltb Nat.leb]. reflexivity.
Qed.

Lemma train_same p ts d : train_mixture x e s cfg p ts d = train_mixture x e' s cfg p ts d.
Proof.
  destruct Hgmm as [B|[C Gm]]; unfold train_mixture, mixture_with.
  - now rewrite expert_same, B.
  - unfold Moe_Model.train_with at 1. unfold Moe_Model.train_with at 2. rewrite (params_clusters ts C). cbn [Moe_Model.p_gmx params_of].
    destruct (match Moe_Model.p_recomb (params_of s ts) with
              | Moe_Model.Hard => Some (Moe_Model.rows_of (fst d) (snd d))
              | Moe_Model.Smooth None => if Moe_Model.is_multi (Moe_Model.Fixed 1) then option_map snd (Moe_Model.extract_part (Moe_Model.rows_of (fst d) (snd d)) 5) else Some (Moe_Model.rows_of (fst d) (snd d))
              | _ => Some (Moe_Model.rows_of (fst d) (snd d)) end) as [td|]; [|reflexivity].
    rewrite (Gm (e_builder e) (e_builder e') td). destruct (x_gmm_fit x (e_builder e') 1 td) as [g| |]; [|reflexivity|reflexivity].
    cbn [Moe_Model.bind]. apply on_clusters_one. now apply params_clusters.
Qed.

Lemma train_on_same p ts d m : train_mixture_on x e s cfg p ts d m = train_mixture_on x e' s cfg p ts d m.
Proof.
  destruct Hgmm as [B|[C Gm]]; unfold train_mixture_on.
  - unfold mixture_with. now rewrite expert_same, B.
  - apply on_clusters_one. now apply params_clusters.
Qed.

Lemma trainer_same p : trainer_of x e s cfg p = trainer_of x e' s cfg p.
Proof.
  unfold trainer_of. f_equal.
  - do 2 (apply functional_extensionality; intros ?). now rewrite train_same.
  - do 3 (apply functional_extensionality; intros ?). destruct x2; [|reflexivity]. now rewrite train_on_same.
Qed.

Lemma outputs_same p f a xt yt ks : train_outputs x e s cfg p f a xt yt ks = train_outputs x e' s cfg p f a xt yt ks.
Proof.
  unfold train_outputs. erewrite (mapM_ext _ _ (seq 0 (S (z_n_cstr s)))); [reflexivity|].
  intros k. cbv beta. destruct (nth_error ks k); [|reflexivity]. cbn. destruct (column k yt); [|reflexivity]. cbn. now rewrite trainer_same.
Qed.

Lemma batch_same p w st fl : forall h b, batch_of x e s cfg p w st fl h b = batch_of x e' s cfg p w st fl h b.
Proof.
  induction fl as [|f fl IH]; intros h b; cbn [batch_of]; [reflexivity|]. rewrite outputs_same.
  destruct (train_outputs x e' s cfg _ f _ _ _ _) as [t|]; cbn; [|reflexivity].
  destruct (sub_rng x (h_rng h)) as [r1 g1]. destruct (sub_rng x g1) as [r2 g2].
  destruct (x_search x w r1 r2 (fst t) st (actives cfg h)) as [[xn sc] [y|]]; [|reflexivity]. apply IH.
Qed.

Lemma batches_same p ws rc st : forall j h, batches x e s cfg p j ws rc st h = batches x e' s cfg p j ws rc st h.
Proof.
  induction ws as [|w ws IH]; intros j h; cbn [batches]; [reflexivity|]. cbv zeta. rewrite batch_same.
  destruct (batch_of x e' s cfg _ w st _ h _) as [r|]; cbn; [|reflexivity]. now rewrite IH.
Qed.

Lemma batches_length en p ws rc st : forall j h r, batches x en s cfg p j ws rc st h = Some r -> length (fst r) = length ws.
Proof.
  induction ws as [|w ws IH]; intros j h r; cbn [batches]; [intros H; injection H as <-; reflexivity|]. cbv zeta.
  destruct (batch_of x en s cfg _ w st _ h _) as [q|]; cbn; [|discriminate].
  destruct (batches x en s cfg p (S j) ws rc st (snd q)) as [rs|] eqn:Eq; cbn; [|discriminate].
  intros H. injection H as <-. cbn. now rewrite (IH _ _ _ Eq).
Qed.

Hypothesis Hweights : (length s.(z_weights) <= 1)%nat \/ forall l, e.(e_order) l = e'.(e_order) l.

Lemma select_same p rc st h : select_next_points x e s cfg p rc st h = select_next_points x e' s cfg p rc st h.
Proof.
  unfold select_next_points. rewrite batches_same. destruct (batches x e' s cfg p 0 (z_weights s) rc st h) as [r|] eqn:Eq; [|reflexivity]. cbv beta iota.
  destruct (fst r) as [|b [|b' bs]] eqn:Er; [reflexivity|reflexivity|].
  destruct Hweights as [L|O]; [exfalso; apply batches_length in Eq; rewrite Er in Eq; cbn in Eq; lia|].
  apply bind_ext. intros v. cbv zeta. now rewrite O.
Qed.

Lemma attempts_same n : forall a st h, attempts x e s cfg fobj fcstr n a st h = attempts x e' s cfg fobj fcstr n a st h.
Proof.
  induction n as [|n IH]; intros a st h; cbn [attempts]; [reflexivity|]. cbv zeta. rewrite select_same.
  apply bind_ext. intros r. apply bind_ext. intros st'.
  destruct (terminated st'); [|reflexivity]. destruct n; [reflexivity|apply IH].
Qed.

Lemma iteration_same st h : iteration x e s cfg fobj fcstr st h = iteration x e' s cfg fobj fcstr st h.
Proof.
  unfold iteration, global_step, local_step. destruct (c_trego cfg); [|apply attempts_same].
  apply bind_ext. intros v. cbv zeta. destruct (is_global_phase _ _ _ _); [now rewrite attempts_same|]. now rewrite outputs_same.
Qed.

Lemma round_same sh : round x e s cfg fobj fcstr sh = round x e' s cfg fobj fcstr sh.
Proof. destruct sh as [st h]. cbn [round]. now rewrite iteration_same. Qed.

Lemma rounds_same k : forall sh, rounds x e s cfg fobj fcstr k sh = rounds x e' s cfg fobj fcstr k sh.
Proof. induction k as [|k IH]; intros sh; cbn [rounds]; [reflexivity|]. rewrite round_same. apply bind_ext. apply IH. Qed.

Hypothesis Hseed : s.(z_seed) <> None.

Lemma rng_same : initial_rng x e s = initial_rng x e' s.
Proof. unfold initial_rng. destruct (z_seed s); [reflexivity|congruence]. Qed.

Lemma run_same k : run x e s cfg fobj fcstr k = run x e' s cfg fobj fcstr k.
Proof.
  unfold run, begin. rewrite rng_same. apply bind_ext. intros sh. now rewrite rounds_same.
Qed.

Lemma suggest_same st : suggest x e s cfg st = suggest x e' s cfg st.
Proof. unfold suggest. now rewrite select_same, rng_same. Qed.
End Same.

(** ** The run is one of [Ego_Model] *)
Section Refines.
Context {rng G E : Type} (x : external rng G E) (e : entropy rng) (s : setup) (cfg : config) (fobj fcstr : row -> row).

Lemma loop_shift (o : nat -> batch) st r : forall a, ego_loop cfg fobj fcstr o st r (S a) = ego_loop cfg fobj fcstr (fun i => o (S i)) st r a.
Proof.
  induction r as [|r IH]; intros a; cbn [ego_loop]; [reflexivity|].
  destruct (scaled_rows fcstr (b_x (o (S a))) (b_scales (o (S a)))); cbn; [|reflexivity].
  destruct (update_data _ _ _ _ _ _ _ _ _) as [[[[x' y'] c'] added]|]; cbn; [|reflexivity].
  destruct (b_x (o (S a))); [reflexivity|]. destruct (length added =? 0); [|reflexivity]. destruct r; [reflexivity|]. apply IH.
Qed.

Lemma loop_const (o : nat -> batch) st r b : o 0 = b -> terminated st = false ->
  match ego_loop cfg fobj fcstr (fun _ => b) st 1 0 with
  | None => ego_loop cfg fobj fcstr o st (S r) 0 = None
  | Some st' => if terminated st' then
                  ego_loop cfg fobj fcstr o st (S r) 0 =
                  (match r with 0 => Some st' | S _ => ego_loop cfg fobj fcstr o st r 1 end)
                else ego_loop cfg fobj fcstr o st (S r) 0 = Some st'
  end.
Proof.
  intros <- T. cbn [ego_loop].
  destruct (scaled_rows fcstr (b_x (o 0)) (b_scales (o 0))) as [c_dat|]; cbn; [|reflexivity].
  destruct (update_data _ _ _ _ _ _ _ _ _) as [[[[x' y'] c'] added]|]; cbn; [|reflexivity].
  destruct (b_x (o 0)); [reflexivity|]. destruct (length added =? 0).
  - cbn. now destruct r.
  - destruct (find_best_result_index_from _ _ _ _ _) as [bi|]; cbn; [|reflexivity].
    destruct (nth_error (overwrite_last _ _ _) bi) as [yb|]; cbn; [|reflexivity].
    destruct (nth_error c' bi) as [cb|]; cbn; [|reflexivity].
    destruct (if s_feas st then Some true else is_feasible yb cb (s_tol st)) as [fe|]; cbn; [|reflexivity].
    unfold terminated in *. cbn. now rewrite T.
Qed.

Lemma attempts_loop n : forall a st h st' h', terminated st = false -> attempts x e s cfg fobj fcstr n a st h = Some (st', h') ->
  exists o, ego_loop cfg fobj fcstr o st n 0 = Some st'.
Proof.
  induction n as [|n IH]; intros a st h st' h' T; cbn [attempts]; [discriminate|]. cbv zeta.
  destruct (select_next_points x e s cfg _ _ st h) as [r|]; [|discriminate].
  destruct (ego_loop cfg fobj fcstr (fun _ => fst r) st 1 0) as [st1|] eqn:E1; [|discriminate].
  destruct (terminated st1) eqn:T1.
  - destruct n as [|n].
    + intros H. injection H as <- _. exists (fun _ => fst r). exact E1.
    + intros H. destruct (IH _ _ _ _ _ T H) as [o O]. exists (fun i => match i with 0 => fst r | S j => o j end).
      pose proof (loop_const (fun i => match i with 0 => fst r | S j => o j end) st (S n) (fst r) eq_refl T) as L.
      rewrite E1, T1 in L. rewrite L, loop_shift. exact O.
  - intros H. injection H as <- _. exists (fun _ => fst r).
    pose proof (loop_const (fun _ => fst r) st n (fst r) eq_refl T) as L. now rewrite E1, T1 in L.
Qed.

Lemma round_step st h st' h' : round x e s cfg fobj fcstr (st, h) = Some (st', h') ->
  exists orc, exec_step cfg fobj fcstr orc st = Some st'.
Proof.
  cbn [round]. unfold exec_step. destruct (terminated st) eqn:T; [intros H; injection H as <- _; exists (mkOracle (fun _ _ => mkBatch [] [] []) (fun _ => [])); reflexivity|].
  destruct (terminate_internal st); try (intros H; injection H as <- _; exists (mkOracle (fun _ _ => mkBatch [] [] []) (fun _ => [])); reflexivity).
  destruct (iteration x e s cfg fobj fcstr st h) as [[st1 h1]|] eqn:Ei; cbn; [|discriminate].
  destruct (draw_activity x s cfg h1) as [h2|]; cbn; [|discriminate].
  destruct (update st1) as [st2|] eqn:Eu; cbn; [|discriminate]. intros H. injection H as <- _.
  cut (exists orc, next_iter cfg fobj fcstr orc st = Some st1).
  { intros [orc O]. exists orc. rewrite O. cbn. rewrite Eu. reflexivity. }
  unfold iteration, next_iter, trego_iteration, ego_iteration in *. destruct (c_trego cfg).
  - destruct (last_success st) as [su|]; [|discriminate]. cbv zeta in Ei |- *.
    set (st0 := set_sigma _ st) in *. assert (T0 : terminated st0 = false) by exact T.
    destruct (is_global_phase _ _ _ _).
    + destruct (global_step x e s cfg fobj fcstr st0 h) as [[st3 h3]|] eqn:Eg; [|discriminate]. injection Ei as <- <-.
      unfold global_step in Eg. apply (attempts_loop _ _ _ _ _ _ T0) in Eg. destruct Eg as [o O].
      exists (mkOracle (fun _ => o) (fun _ => [])). cbn [o_batch]. rewrite O. reflexivity.
    + destruct (local_step x e s cfg fobj fcstr st0 h) as [[st3 h3]|] eqn:Eg; [|discriminate]. injection Ei as <- <-.
      unfold local_step in Eg. destruct (train_outputs x e s cfg _ _ _ _ _ _) as [t|]; [|discriminate].
      destruct (sub_rng x (h_rng h)) as [r1 g1]. destruct (sub_rng x g1) as [r2 g2]. cbv zeta in Eg.
      set (xl := x_search_local _ _ _ _ _ _) in Eg. exists (mkOracle (fun _ _ => mkBatch [] [] []) (fun _ => xl)).
      destruct (trego_step cfg fobj fcstr (mkOracle (fun _ _ => mkBatch [] [] []) (fun _ => xl)) st0) as [st4|]; [|discriminate].
      injection Eg as <- _. reflexivity.
  - unfold global_step in Ei. apply (attempts_loop _ _ _ _ _ _ T) in Ei. destruct Ei as [o O].
    exists (mkOracle (fun _ => o) (fun _ => [])). exact O.
Qed.

Lemma next_iter_ext orc orc' st : o_batch orc (s_iter st) = o_batch orc' (s_iter st) -> o_local orc (s_iter st) = o_local orc' (s_iter st) ->
  next_iter cfg fobj fcstr orc st = next_iter cfg fobj fcstr orc' st.
Proof.
  intros B L. unfold next_iter, trego_iteration, ego_iteration, trego_step. cbn [s_iter set_sigma]. now rewrite B, L.
Qed.

Lemma exec_step_ext orc orc' st : o_batch orc (s_iter st) = o_batch orc' (s_iter st) -> o_local orc (s_iter st) = o_local orc' (s_iter st) ->
  exec_step cfg fobj fcstr orc st = exec_step cfg fobj fcstr orc' st.
Proof. intros B L. unfold exec_step. now rewrite (next_iter_ext orc orc' st B L). Qed.

Lemma loop_iter o st r : forall a st', ego_loop cfg fobj fcstr o st r a = Some st' -> s_iter st' = s_iter st.
Proof.
  induction r as [|r IH]; intros a st'; cbn [ego_loop]; [discriminate|].
  destruct (scaled_rows fcstr (b_x (o a)) (b_scales (o a))); cbn; [|discriminate].
  destruct (update_data _ _ _ _ _ _ _ _ _) as [[[[x' y'] c'] added]|]; cbn; [|discriminate].
  destruct (b_x (o a)); [discriminate|]. destruct (length added =? 0).
  - destruct r; [intros H; injection H as <-; reflexivity|apply IH].
  - destruct (find_best_result_index_from _ _ _ _ _) as [bi|]; cbn; [|discriminate].
    destruct (nth_error (overwrite_last _ _ _) bi) as [yb|]; cbn; [|discriminate].
    destruct (nth_error c' bi) as [cb|]; cbn; [|discriminate].
    destruct (if s_feas st then Some true else is_feasible yb cb (s_tol st)) as [fe|]; cbn; [|discriminate].
    intros H. injection H as <-. reflexivity.
Qed.

Lemma local_iter orc st st' : trego_step cfg fobj fcstr orc st = Some st' -> s_iter st' = s_iter st.
Proof.
  unfold trego_step. cbv zeta. destruct (update_data _ _ _ _ _ _ _ _ _) as [[[[x' y'] c'] added]|]; [|discriminate].
  destruct (find_best_result_index_from _ _ _ _ _) as [bi|]; [|discriminate].
  destruct (nth_error y' bi) as [yb|]; [|discriminate].
  destruct (nth_error c' bi) as [cb|]; [|discriminate].
  destruct (if s_feas st then Some true else is_feasible yb cb (s_tol st)) as [fe|]; [|discriminate].
  intros H. injection H as <-. reflexivity.
Qed.

Lemma step_iter orc st st' : exec_step cfg fobj fcstr orc st = Some st' ->
  (terminated st' = true) \/ s_iter st' = S (s_iter st).
Proof.
  unfold exec_step. destruct (terminated st) eqn:T; [intros H; injection H as <-; now left|].
  destruct (terminate_internal st); try (intros H; injection H as <-; now left).
  destruct (next_iter cfg fobj fcstr orc st) as [st1|] eqn:En; cbn; [|discriminate].
  destruct (update st1) as [st2|] eqn:Eu; cbn; [|discriminate]. intros H. injection H as <-. right. cbn. f_equal.
  transitivity (s_iter st1).
  - unfold update in Eu. destruct (nth_error (s_x st1) _); cbn in Eu; [|discriminate]. destruct (nth_error (s_y st1) _); cbn in Eu; [|discriminate].
    injection Eu as <-. reflexivity.
  - unfold next_iter, trego_iteration, ego_iteration in En. destruct (c_trego cfg); [|now apply loop_iter in En].
    destruct (last_success st); [|discriminate]. cbv zeta in En. destruct (is_global_phase _ _ _ _).
    + destruct (ego_loop _ _ _ _ _ _ _) eqn:El in En; cbn in En; [|discriminate]. injection En as <-. apply loop_iter in El. exact El.
    + destruct (trego_step _ _ _ _ _) eqn:El in En; cbn in En; [|discriminate]. injection En as <-. apply local_iter in El. exact El.
Qed.

Lemma exec_terminated orc k st : terminated st = true -> exec cfg fobj fcstr orc k st = Some st.
Proof. intros T. induction k as [|k IH]; cbn [exec]; [reflexivity|]. unfold exec_step. rewrite T. cbn. exact IH. Qed.

Lemma exec_ext orc orc' k : forall st, (forall i, s_iter st <= i -> o_batch orc i = o_batch orc' i /\ o_local orc i = o_local orc' i) ->
  exec cfg fobj fcstr orc k st = exec cfg fobj fcstr orc' k st.
Proof.
  induction k as [|k IH]; intros st H; cbn [exec]; [reflexivity|]. rewrite (exec_step_ext orc orc' st); try apply H; try lia.
  destruct (exec_step cfg fobj fcstr orc' st) as [st1|] eqn:Es; cbn; [|reflexivity].
  destruct (step_iter _ _ _ Es) as [T|I]; [now rewrite !exec_terminated|]. apply IH. intros i Hi. apply H. lia.
Qed.

(** The oracle [a] at iteration [i], the oracle [b] at the others. *)
Definition at_iter (i : nat) (a b : oracle) : oracle :=
  mkOracle (fun j => if j =? i then o_batch a j else o_batch b j) (fun j => if j =? i then o_local a j else o_local b j).

Lemma rounds_exec k : forall st h st' h', rounds x e s cfg fobj fcstr k (st, h) = Some (st', h') ->
  exists orc, exec cfg fobj fcstr orc k st = Some st'.
Proof.
  induction k as [|k IH]; intros st h st' h'; cbn [rounds].
  - intros H. injection H as <- _. exists (mkOracle (fun _ _ => mkBatch [] [] []) (fun _ => [])). reflexivity.
  - destruct (round x e s cfg fobj fcstr (st, h)) as [[st1 h1]|] eqn:Er; [|discriminate]. intros H.
    destruct (round_step _ _ _ _ Er) as [a A]. destruct (IH _ _ _ _ H) as [b B]. exists (at_iter (s_iter st) a b). cbn [exec].
    rewrite (exec_step_ext _ a st); try (cbn; now rewrite Nat.eqb_refl). rewrite A.
    destruct (step_iter _ _ _ A) as [T|I].
    + rewrite exec_terminated by exact T. rewrite <- B. symmetry. now apply exec_terminated.
    + rewrite <- B. apply exec_ext. intros i Hi. cbn. replace (i =? s_iter st) with false; [now split|]. symmetry. apply Nat.eqb_neq. lia.
Qed.

Lemma run_exec k st' : run x e s cfg fobj fcstr k = Some st' ->
  exists cols doe st orc, init cfg fobj fcstr cols doe = Some st /\ exec cfg fobj fcstr orc k st = Some st'.
Proof.
  unfold run, begin. set (p := match z_doe s with Some d => d | None => _ end). destruct p as [cols doe].
  destruct (init cfg fobj fcstr cols doe) as [st|] eqn:Ei; [|discriminate].
  destruct (draw_activity x s cfg _) as [h|]; [|discriminate].
  destruct (rounds x e s cfg fobj fcstr k (st, h)) as [[st1 h1]|] eqn:Er; [|discriminate]. intros H. injection H as <-.
  destruct (rounds_exec _ _ _ _ _ Er) as [orc O]. now exists cols, doe, st, orc.
Qed.
End Refines.
