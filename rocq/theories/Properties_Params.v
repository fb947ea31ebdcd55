(** C161: the options given to the builders of Gaussian processes and of sparse Gaussian processes. *)
From Coq Require Import Reals List Bool Lia Lra.
From Verif Require Import Tune_Model Params_Model Config_Spec.
From Verif Require Sgp_Model Config_Proofs.
Import ListNotations.
Local Open Scope nat_scope.

(** What the calls say. A tuning says the initial values, whether they are fixed, the bounds when they are not, and the tuned components. *)
Section Says.
  Context {M C : Type}.
  Definition says_mean (o : gpp_call M C) := match o with CMean m => Some m | _ => None end.
  Definition says_corr_model (o : gpp_call M C) := match o with CCorr c => Some c | _ => None end.
  Definition says_reduction (o : gpp_call M C) := match o with CKpls d => Some d | _ => None end.
  Definition says_starts (o : gpp_call M C) := match o with CNStart n => Some n | _ => None end.
  Definition says_evals (o : gpp_call M C) := match o with CMaxEval n => Some (Nat.max 25 n) | _ => None end.
  Definition says_nugget (o : gpp_call M C) := match o with CNugget v => Some v | _ => None end.
  Definition says_init (o : gpp_call M C) := match o with CThetaInit i => Some i | CTuning t => Some (init_of t) | _ => None end.
  Definition is_fixed (t : tuning) : bool := match t with Fixed _ => true | _ => false end.
  Definition says_fixed (o : gpp_call M C) := match o with CTuning t => Some (is_fixed t) | _ => None end.
  Definition says_bounds (o : gpp_call M C) := match o with CThetaBounds b => Some b | CTuning t => bounds_of t | _ => None end.
  Definition says_tuned (dim : nat) (o : gpp_call M C) := match o with CTuning t => Some (active_of dim t) | _ => None end.
  Definition changes_theta (o : gpp_call M C) := match o with CThetaInit _ | CThetaBounds _ => true | _ => false end.
End Says.
Definition says_method {C} (o : @sgpp_call C) := match o with QMethod m => Some m | _ => None end.
Definition says_inducings {C} (o : @sgpp_call C) := match o with QInducings z => Some (Located z) | QNInducings n => Some (Randomized n) | _ => None end.
Definition says_noise {C} (o : @sgpp_call C) := match o with QNoise t => Some t | _ => None end.
Definition says_sgp_seed {C} (o : @sgpp_call C) := match o with QSeed s => Some s | _ => None end.
Definition surrogate_calls {C} (calls : list (@sgpp_call C)) : list (gpp_call unit C) :=
  flat_map (fun o => match o with QGp o' => [o'] | _ => [] end) calls.

Lemma last_given_snoc {O V} (says : O -> option V) d calls o :
  last_given says d (calls ++ [o]) = match says o with Some v => v | None => last_given says d calls end.
Proof.
  unfold last_given. rewrite flat_map_app. cbn [flat_map]. destruct (says o); cbn [app].
  - apply last_last.
  - rewrite app_nil_r. reflexivity.
Qed.

(** The state after the calls, from any start: used for both builders. *)
Lemma builder_theta {M C} (p0 : gpp M C) calls i0 b0 : p_tuning p0 = Full i0 b0 ->
  let t := p_tuning (fold_left gpp_apply calls p0) in
  init_of t = last_given says_init i0 calls /\ is_fixed t = last_given says_fixed false calls /\
  bounds_of t = (if last_given says_fixed false calls then None else Some (last_given says_bounds b0 calls)).
Proof.
  intros H. cbv zeta. induction calls as [|o calls IH] using rev_ind.
  - cbn [fold_left]. rewrite H. repeat split; reflexivity.
  - rewrite fold_left_app. cbn [fold_left]. rewrite !last_given_snoc. destruct IH as (I1 & I2 & I3).
    destruct (fold_left gpp_apply calls p0) as [t m c k s e v]. cbn [p_tuning] in *.
    destruct o; cbn [gpp_apply p_tuning says_init says_fixed says_bounds]; try (repeat split; assumption).
    + rewrite <- I2 in *. destruct t; cbn in *; repeat split; try reflexivity; exact I3.
    + rewrite <- I2 in *. destruct t; cbn in *; repeat split; try reflexivity; exact I1.
    + destruct t0; repeat split; reflexivity.
Qed.

(** C161. Whatever the sequence of builder calls of a Gaussian process, each option is the last value given for it, its default otherwise: for the
    hyperparameters, the initial values, whether they are fixed, and the bounds when they are not. *)
Theorem C161_options : forall (M C : Type) eps (mean : M) (corr : C) calls,
  let p := gp_params eps mean corr calls in
  p_mean p = last_given says_mean mean calls /\ p_corr p = last_given says_corr_model corr calls /\
  p_kpls p = last_given says_reduction None calls /\ p_n_start p = last_given says_starts 10 calls /\
  p_max_eval p = last_given says_evals 1000 calls /\ p_nugget p = last_given says_nugget (100 * eps)%R calls /\
  init_of (p_tuning p) = last_given says_init [1 / 10]%R calls /\ is_fixed (p_tuning p) = last_given says_fixed false calls /\
  bounds_of (p_tuning p) = (if last_given says_fixed false calls then None else Some (last_given says_bounds [(1 / 100, 10)]%R calls)).
Proof.
  intros M C eps mean corr calls. cbv zeta. unfold gp_params.
  apply conj; [apply (Config_Proofs.fold_last gpp_apply p_mean says_mean); intros [] []; reflexivity|].
  apply conj; [apply (Config_Proofs.fold_last gpp_apply p_corr says_corr_model); intros [] []; reflexivity|].
  apply conj; [apply (Config_Proofs.fold_last gpp_apply p_kpls says_reduction); intros [] []; reflexivity|].
  apply conj; [apply (Config_Proofs.fold_last gpp_apply p_n_start says_starts); intros [] []; reflexivity|].
  apply conj; [apply (Config_Proofs.fold_last gpp_apply p_max_eval says_evals); intros [] []; reflexivity|].
  apply conj; [apply (Config_Proofs.fold_last gpp_apply p_nugget says_nugget); intros [] []; reflexivity|].
  exact (builder_theta (new_gpp eps mean corr) calls [1 / 10]%R [(1 / 100, 10)]%R eq_refl).
Qed.
Print Assumptions C161_options.

(** C161. The same for a sparse Gaussian process, whose default upper bound is larger. *)
Theorem C161_sparse : forall (C : Type) eps (corr : C) z calls,
  let p := sgp_params eps corr z calls in let g := surrogate_calls calls in
  q_method p = last_given says_method MFitc calls /\ q_z p = last_given says_inducings z calls /\
  q_noise p = last_given says_noise (Sgp_Model.NoiseOptimized (1 / 100) (100 * eps, 10 ^ 10))%R calls /\ q_seed p = last_given says_sgp_seed None calls /\
  p_corr (q_gp p) = last_given says_corr_model corr g /\ p_kpls (q_gp p) = last_given says_reduction None g /\
  p_n_start (q_gp p) = last_given says_starts 10 g /\ p_max_eval (q_gp p) = last_given says_evals 1000 g /\
  p_nugget (q_gp p) = last_given says_nugget (100 * eps)%R g /\
  init_of (p_tuning (q_gp p)) = last_given says_init [1 / 10]%R g /\ is_fixed (p_tuning (q_gp p)) = last_given says_fixed false g /\
  bounds_of (p_tuning (q_gp p)) = (if last_given says_fixed false g then None else Some (last_given says_bounds [(1 / 100, 100)]%R g)).
Proof.
  intros C eps corr z calls. cbv zeta. unfold sgp_params.
  apply conj; [apply (Config_Proofs.fold_last sgpp_apply q_method says_method); intros [] []; reflexivity|].
  apply conj; [apply (Config_Proofs.fold_last sgpp_apply q_z says_inducings); intros [] []; reflexivity|].
  apply conj; [apply (Config_Proofs.fold_last sgpp_apply q_noise says_noise); intros [] []; reflexivity|].
  apply conj; [apply (Config_Proofs.fold_last sgpp_apply q_seed says_sgp_seed); intros [] []; reflexivity|].
  set (g0 := q_gp (new_sgpp eps corr z)).
  assert (G : q_gp (fold_left sgpp_apply calls (new_sgpp eps corr z)) = fold_left gpp_apply (surrogate_calls calls) g0).
  { unfold g0. generalize (new_sgpp eps corr z). induction calls as [|o calls IH]; intros p; [reflexivity|].
    cbn [fold_left]. rewrite IH. unfold surrogate_calls. cbn [flat_map]. rewrite fold_left_app. f_equal. destruct p, o; reflexivity. }
  rewrite G.
  apply conj; [apply (Config_Proofs.fold_last (@gpp_apply unit C) p_corr says_corr_model); intros [] []; reflexivity|].
  apply conj; [apply (Config_Proofs.fold_last (@gpp_apply unit C) p_kpls says_reduction); intros [] []; reflexivity|].
  apply conj; [apply (Config_Proofs.fold_last (@gpp_apply unit C) p_n_start says_starts); intros [] []; reflexivity|].
  apply conj; [apply (Config_Proofs.fold_last (@gpp_apply unit C) p_max_eval says_evals); intros [] []; reflexivity|].
  apply conj; [apply (Config_Proofs.fold_last (@gpp_apply unit C) p_nugget says_nugget); intros [] []; reflexivity|].
  exact (builder_theta g0 (surrogate_calls calls) [1 / 10]%R [(1 / 100, 100)]%R eq_refl).
Qed.
Print Assumptions C161_sparse.

(** C161. Parameters are accepted exactly when the reduced dimension is not null and, if several initial values are given, not larger than their number. *)
Theorem C161_check : forall (M C : Type) eps (mean : M) (corr : C) calls,
  gp_accepted (gp_params eps mean corr calls) = true <->
  forall d, last_given says_reduction None calls = Some d ->
    d <> 0 /\ (length (last_given says_init [1 / 10]%R calls) <= 1 \/ d <= length (last_given says_init [1 / 10]%R calls)).
Proof.
  intros M C eps mean corr calls. destruct (C161_options M C eps mean corr calls) as (_ & _ & K & _ & _ & _ & I & _).
  rewrite <- K, <- I. unfold gp_accepted, check. destruct (p_kpls (gp_params eps mean corr calls)) as [d|].
  - rewrite andb_true_iff, !negb_true_iff, andb_false_iff, Nat.eqb_neq, !Nat.ltb_ge. split.
    + intros H d' E. injection E as <-. exact H.
    + intros H. exact (H d eq_refl).
  - split; [intros _ d E; discriminate E|reflexivity].
Qed.
Print Assumptions C161_check.

(** C161, finding: the components chosen for tuning are forgotten when initial values or bounds are given after them: all the components are then
    tuned, whatever the choice. *)
Theorem C161_tuned_refuted : forall (M C : Type) eps (mean : M) (corr : C) init bounds active init' bounds' dim, active <> seq 0 dim ->
  let with_init := gp_params eps mean corr [CTuning (Partial init bounds active); CThetaInit init'] in
  let with_bounds := gp_params eps mean corr [CTuning (Partial init bounds active); CThetaBounds bounds'] in
  p_tuning with_init = Full init' bounds /\ p_tuning with_bounds = Full init bounds' /\
  active_of dim (p_tuning with_init) = seq 0 dim /\ active_of dim (p_tuning with_bounds) = seq 0 dim /\
  last_given (says_tuned dim) (seq 0 dim) [CTuning (Partial init bounds active); @CThetaInit M C init'] = active.
Proof. intros. repeat split; reflexivity. Qed.
Print Assumptions C161_tuned_refuted.

(** C161. The tuned components are the last given if no initial values nor bounds are given after components to tune. *)
Theorem C161_tuned_partial : forall (M C : Type) eps (mean : M) (corr : C) calls dim,
  (forall before init bounds active after, calls = before ++ CTuning (Partial init bounds active) :: after -> existsb changes_theta after = false) ->
  active_of dim (p_tuning (gp_params eps mean corr calls)) = last_given (says_tuned dim) (seq 0 dim) calls.
Proof.
  intros M C eps mean corr calls dim. unfold gp_params. induction calls as [|o calls IH] using rev_ind; [reflexivity|]. intros H.
  rewrite fold_left_app, last_given_snoc. cbn [fold_left].
  assert (H' : forall before init bounds active after, calls = before ++ CTuning (Partial init bounds active) :: after ->
    existsb changes_theta after = false).
  { intros before init bounds active after E. specialize (H before init bounds active (after ++ [o])).
    rewrite E, <- app_assoc in H. specialize (H eq_refl). rewrite existsb_app in H. apply orb_false_iff in H. apply H. }
  specialize (IH H').
  assert (Q : forall i b a, p_tuning (fold_left gpp_apply calls (new_gpp eps mean corr)) = Partial i b a -> changes_theta o = false).
  { intros i b a E.
    assert (X : exists before after, calls = before ++ CTuning (Partial i b a) :: after).
    { clear -E. revert E. induction calls as [|c calls IH] using rev_ind; [intros E; discriminate E|]. rewrite fold_left_app. cbn [fold_left].
      destruct (fold_left gpp_apply calls (new_gpp eps mean corr)) as [t m' c' k s e v]. cbn [p_tuning] in IH.
      assert (Y : t = Partial i b a -> exists before after, calls ++ [c] = before ++ CTuning (Partial i b a) :: after).
      { intros Et. destruct (IH Et) as (x & y & ->). exists x, (y ++ [c]). rewrite <- app_assoc. reflexivity. }
      destruct c; cbn [gpp_apply p_tuning]; intros E; try exact (Y E).
      - destruct t; discriminate E.
      - destruct t; discriminate E.
      - subst. exists calls, []. reflexivity. }
    destruct X as (x & y & ->). specialize (H x i b a (y ++ [o])). rewrite <- app_assoc in H. specialize (H eq_refl).
    rewrite existsb_app in H. apply orb_false_iff in H. destruct H as [_ H]. cbn in H. rewrite orb_false_r in H. exact H. }
  destruct (fold_left gpp_apply calls (new_gpp eps mean corr)) as [t m' c' k s e v]. cbn [p_tuning] in *.
  destruct o; cbn [gpp_apply p_tuning says_tuned]; try exact IH; try reflexivity.
  - destruct t; cbn in *; try exact IH. discriminate (Q _ _ _ eq_refl).
  - destruct t; cbn in *; try exact IH. discriminate (Q _ _ _ eq_refl).
Qed.
Print Assumptions C161_tuned_partial.

(** C161, a concrete case: bounds given before a fixed value are ignored, initial values given after it are used; components to tune given last. *)
Example C161_example : forall eps : R,
  let fixed := gp_params eps tt tt [CThetaBounds [(1, 2)]%R; CTuning (Fixed [1; 1]%R); CThetaInit [2; 3]%R; CThetaBounds [(5, 6)]%R; CMaxEval 7; CKpls (Some 2)] in
  p_tuning fixed = Fixed [2; 3]%R /\ p_max_eval fixed = 25 /\ gp_accepted fixed = true /\
  active_of 2 (p_tuning (gp_params eps tt tt [CThetaInit [2; 3]%R; CTuning (Partial [1; 1]%R [(1, 2)]%R [1])])) = [1] /\
  active_of 2 (p_tuning (gp_params eps tt tt [CTuning (Partial [1; 1]%R [(1, 2)]%R [1]); CThetaInit [2; 3]%R])) = [0; 1] /\
  gp_accepted (gp_params eps tt tt [CThetaInit [2; 3]%R; CKpls (Some 3)]) = false.
Proof. intros eps. cbv zeta. repeat split; reflexivity. Qed.
