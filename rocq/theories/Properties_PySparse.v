(** Sparse processes built from Python: property C165. *)
From Coq Require Import List Arith Bool ZArith Lia.
From Verif Require Import F64 Util Moe_Model Moe_Spec Moe_Proofs Moe_Train Expert_Model PySparse_Model Properties_Expert.
From Verif Require Py_Model Rng_Model Mixint_Proofs.
Import ListNotations.

(** What the documentation says of the options: the inducing points given, or as many points of the training set as asked for; the flags
    1, 2, 4 and 8 of the correlations; the initial value and the pairs of bounds, or the default ones. *)
Definition wanted_inducings (g : sparse_gpmix) (z : Rng_Model.inducings (list f64)) : Prop :=
  match z with
  | Rng_Model.Located p => g_z g = Some p
  | Rng_Model.Randomized n => g_z g = None /\ g_nz g = Some n
  end.
Definition flag (c : corr_kind) : nat :=
  match c with SquaredExponential => 1 | AbsoluteExponential => 2 | Matern32 => 4 | Matern52 => 8 end.
Definition wanted_tuning (default_init : f64) (default_bounds : f64 * f64) (g : sparse_gpmix) (t : Py_Model.theta_tuning) : Prop :=
  exists init bounds, t = Py_Model.TFull init bounds /\
    match g_init g with Some i => init = i | None => init = [default_init] end /\
    match g_bounds g with
    | Some b => Forall2 (fun v p => exists rest, v = fst p :: snd p :: rest) b bounds
    | None => bounds = [default_bounds]
    end.

Lemma tuning_wanted di db g t : sparse_tuning di db g = Some t -> wanted_tuning di db g t.
Proof.
  unfold sparse_tuning, wanted_tuning. intros H. destruct (g_bounds g) as [b|].
  - destruct (mapM _ b) as [bs|] eqn:E; [|discriminate H]. injection H as <-. apply Mixint_Proofs.mapM_inv in E.
    eexists. exists bs. split; [reflexivity|]. split; [destruct (g_init g); reflexivity|].
    clear - E. induction E as [|v p b bs H E IH]; constructor; [|exact IH]. destruct v as [|l [|u v]]; try discriminate H.
    cbn [nth_error] in H. injection H as <-. now exists v.
  - injection H as <-. destruct (g_init g); eexists; eexists; (split; [reflexivity|]); split; reflexivity.
Qed.

Section Sparse.
Context (di : f64) (db : f64 * f64).
Context {G : Type} (gm_clusters : G -> nat) (gmm_fit : nat -> list (list f64) -> res G) (resp : G * f64 -> list f64 -> list f64)
  (cv : list (list f64) -> mean_kind -> corr_kind -> f64)
  (fits : expert Py_Model.theta_tuning (Rng_Model.inducings (list f64)) -> list (list f64) -> bool)
  (best_nclusters : nat -> list (list f64) -> list f64 -> nat * recombination)
  (factor_errors : list (expert Py_Model.theta_tuning (Rng_Model.inducings (list f64)) * list (list f64)) -> G -> list (list f64) -> list f64)
  (factors : list f64).
Notation fit := (sparse_fit di db gm_clusters gmm_fit resp cv fits best_nclusters factor_errors factors).

(** Every process of the trained model has the options given to the builder. *)
Theorem C165_settings g dim xt yt m c e rows : length yt = length xt -> fit g dim xt yt = Some m -> nth_error (mx_experts m) c = Some (e, rows) ->
  x_mean e = Constant /\ g_corr g < 16 /\ Nat.land (g_corr g) (flag (x_corr e)) = flag (x_corr e) /\
  (exists z, x_type e = SparseGp (g_method g) z /\ wanted_inducings g z) /\
  x_n_start e = g_nstart g /\ x_kpls e = g_kpls g /\ wanted_tuning di db g (x_tuning e) /\ evals_within e 1000.
Proof.
  intros Hl H Hc. unfold sparse_fit in H. destruct (sparse_inducings g) as [z|] eqn:Ez; [|discriminate H].
  destruct (sparse_tuning di db g) as [t|] eqn:Et; [|discriminate H]. destruct (sparse_specs (g_corr g)) as [sp|] eqn:Es; [|discriminate H].
  destruct (train_settings _ _ _ _ _ _ _ _ _ _ _ _ _ _ _ _ _) as [m'| |] eqn:Em; try discriminate H. injection H as ->.
  destruct (C150_sparse_partial (Py_Model.TFull [di] [db]) gm_clusters gmm_fit resp cv fits best_nclusters factor_errors factors
    (MixtureSettings (SparseGp (g_method g) z) (g_nstart g) gp_cobyla_max_eval (g_kpls g)) (g_method g) z (Fixed 1) Hard sp [t] dim xt yt m c e rows
    eq_refl Hl Em Hc) as (_ & A1 & _ & A2 & A3 & A4 & A5 & A6 & A7).
  cbn [m_n_start m_kpls m_max_eval nth_error length] in *. injection A6 as A6. subst t.
  unfold sparse_specs in Es. destruct (Nat.ltb_spec (g_corr g) 16) as [L|]; [|discriminate Es]. injection Es as <-.
  split; [exact A1|]. split; [exact L|]. split.
  { clear - A2 L. revert A2 L. generalize (g_corr g). intros n A2 L.
    destruct (x_corr e); cbn [allows_corr s_sqexp s_absexp s_m32 s_m52] in A2; revert A2;
      do 16 (destruct n as [|n]; [vm_compute; intros Q; first [reflexivity|discriminate Q]|]); exfalso; clear - L; lia. }
  split; [exists z; split; [exact A3|]|].
  { unfold sparse_inducings in Ez. unfold wanted_inducings. destruct (g_z g) as [p|]; [injection Ez as <-; reflexivity|].
    destruct (g_nz g) as [n|]; [|discriminate Ez]. injection Ez as <-. split; reflexivity. }
  split; [exact A4|]. split; [exact A5|]. split; [now apply tuning_wanted|].
  specialize (A7 ltac:(lia)). unfold gp_cobyla_max_eval in A7. specialize (A7 ltac:(lia)). apply A7.
Qed.

(** Without inducing points, with unknown flags or with a row of bounds of less than two numbers, an exception. *)
Theorem C165_refused g dim xt yt :
  g_z g = None /\ g_nz g = None \/ 16 <= g_corr g \/ (exists b v, g_bounds g = Some b /\ In v b /\ length v < 2) -> fit g dim xt yt = None.
Proof.
  intros H. unfold sparse_fit. destruct (sparse_inducings g) as [z|] eqn:Ez; [|reflexivity].
  destruct (sparse_tuning di db g) as [t|] eqn:Et; [|reflexivity]. destruct (sparse_specs (g_corr g)) as [sp|] eqn:Es; [|reflexivity]. exfalso.
  destruct H as [[A B]|[L|(b & v & Hb & Hv & Lv)]].
  - unfold sparse_inducings in Ez. rewrite A, B in Ez. discriminate Ez.
  - unfold sparse_specs in Es. destruct (Nat.ltb_spec (g_corr g) 16); [lia|discriminate Es].
  - apply tuning_wanted in Et. destruct Et as (i & bs & _ & _ & F). rewrite Hb in F. clear - F Hv Lv.
    induction F as [|w p b bs (r & ->) F IH]; [contradiction|]. destruct Hv as [<-|Hv]; [cbn in Lv; lia|now apply IH].
Qed.
(** With inducing points, at least one flag and complete bounds the call gives a model of one process, as soon as the clustering in one
    cluster and the training of the process succeed. *)
Theorem C165_accepts g dim xt yt gm : length yt = length xt -> g_z g <> None \/ g_nz g <> None -> 1 <= g_corr g < 16 ->
  (forall b v, g_bounds g = Some b -> In v b -> 2 <= length v) ->
  gmm_fit 1 (rows_of xt yt) = Ok gm -> gm_clusters gm = 1 -> (forall e rows, fits e rows = true) ->
  exists m, fit g dim xt yt = Some m /\ length (mx_experts m) = 1.
Proof.
  intros Hl Hz Hc Hb Hg H1 Hf. unfold sparse_fit.
  assert (Ez : exists z, sparse_inducings g = Some z).
  { unfold sparse_inducings. destruct (g_z g), (g_nz g); try (eexists; reflexivity). destruct Hz; congruence. }
  destruct Ez as [z ->].
  assert (Et : exists t, sparse_tuning di db g = Some t).
  { unfold sparse_tuning. destruct (g_bounds g) as [b|]; [|eexists; reflexivity]. specialize (Hb b).
    assert (Em : exists bs, mapM (fun v : list f64 => do l <- nth_error v 0; do u <- nth_error v 1; Some (l, u)) b = Some bs).
    { induction b as [|v b IH]; [eexists; reflexivity|]. cbn [mapM]. pose proof (Hb v eq_refl (or_introl eq_refl)) as L.
      destruct v as [|l [|u v]]; cbn in L; try lia. destruct IH as [bs Eb]; [|rewrite Eb; eexists; reflexivity].
      intros w _ Hw. apply (Hb w eq_refl). now right. } clear Hb.
    destruct Em as [bs ->]. eexists; reflexivity. }
  destruct Et as [t ->]. unfold sparse_specs. destruct (Nat.ltb_spec (g_corr g) 16) as [_|]; [|lia].
  set (sp := Specs true false false _ _ _ _).
  assert (Ac : exists k, allows_corr sp k = true).
  { assert (Q : Nat.testbit (g_corr g) 0 = true \/ Nat.testbit (g_corr g) 1 = true \/ Nat.testbit (g_corr g) 2 = true \/ Nat.testbit (g_corr g) 3 = true).
    { clear - Hc. revert Hc. generalize (g_corr g). intros n Hc. destruct n as [|n]; [lia|].
      do 15 (destruct n as [|n]; [vm_compute; tauto|]). lia. }
    destruct Q as [Q|[Q|[Q|Q]]]; [exists SquaredExponential|exists AbsoluteExponential|exists Matern32|exists Matern52]; exact Q. }
  destruct Ac as [k Ak].
  unfold train_settings, train, train_with. cbn [p_nclusters p_recomb p_gmx]. rewrite Hg. cbn [bind]. unfold train_on_clusters. cbn [fst].
  rewrite H1. rewrite sort_spec.
  2: { unfold rows_of. rewrite !map_length, combine_length. lia. }
  cbn [seq map]. unfold check_number_of_points. cbn [length Nat.ltb Nat.leb]. cbn [train_experts length]. cbn [Nat.ltb Nat.leb andb].
  set (rows := rows_with 0 _ _). unfold find_best_expert. cbn [p_specs p_sparse p_tunings is_sparse m_type].
  destruct (best_models_some sp (length rows) dim (cv rows) Constant k eq_refl Ak) as [[mean corr] Eb]. rewrite Eb.
  assert (Em : mean = Constant).
  { assert (I : In (mean, corr) (candidates sp)).
    { unfold best_models in Eb. change (allowed_means sp) with [Constant] in Eb.
      destruct (allowed_corrs sp) as [|c0 [|c1 cs]] eqn:Ec.
      - destruct (min_by _) as [i|]; [|discriminate Eb]. now apply nth_error_In in Eb.
      - injection Eb as <- <-. unfold candidates. change (allowed_means sp) with [Constant]. rewrite Ec. now left.
      - destruct (min_by _) as [i|]; [|discriminate Eb]. now apply nth_error_In in Eb. }
    apply candidates_in in I. destruct I as [I _]. destruct mean; [reflexivity|discriminate I|discriminate I]. }
  subst mean. cbn [nth_error]. rewrite Hf. cbn [bind]. eexists. split; reflexivity.
Qed.
End Sparse.
Print Assumptions C165_accepts.
Print Assumptions C165_settings.
Print Assumptions C165_refused.

(** One cluster of three points, a Matern 3/2 process with five inducing points picked at random, three starts and given bounds. *)
Definition ex_g : sparse_gpmix := SparseGpMix 4 None (Some [[fofZ 1; fofZ 2]]) (Some 1) 3 (Some 5) None Vfe.
Definition ex_fit (g : sparse_gpmix) := sparse_fit (fofZ 1) (fofZ 0, fofZ 9) (fun _ : unit => 1) (fun _ _ => Ok tt) (fun _ _ => [fone]) (fun _ _ _ => fone)
  (fun _ _ => true) (fun _ _ _ => (1, Hard)) (fun _ _ _ => []) [] g 1 (map (fun v => [fofZ v]) [-3; 2; -1; 4; -2; 5; 6]%Z) (map fofZ [0; 1; 2; 3; 4; 5; 6]%Z).
Example C165_example : match ex_fit ex_g with
  | Some m => map (fun x => let '(e, rows) := x in (x_corr e, x_type e, x_n_start e, x_kpls e, length rows)) (mx_experts m) =
      [(Matern32, SparseGp Vfe (Rng_Model.Randomized 5), 3, Some 1, 7)]
  | None => False
  end /\ ex_fit (SparseGpMix 4 None None None 3 None None Vfe) = None.
Proof. split; vm_compute; reflexivity. Qed.
Example C165_accepts_example : (g_z ex_g <> None \/ g_nz ex_g <> None) /\ 1 <= g_corr ex_g < 16 /\
  (forall b v, g_bounds ex_g = Some b -> In v b -> 2 <= length v) /\ exists m, ex_fit ex_g = Some m /\ length (mx_experts m) = 1.
Proof.
  assert (A : g_z ex_g <> None \/ g_nz ex_g <> None) by (right; discriminate).
  assert (B : forall b v, g_bounds ex_g = Some b -> In v b -> 2 <= length v).
  { intros b v E I. cbn [ex_g g_bounds] in E. assert (Eb : b = [[fofZ 1; fofZ 2]]) by congruence. subst b. destruct I as [<-|[]]. cbn. lia. }
  assert (C : 1 <= g_corr ex_g < 16) by (cbn; lia).
  split; [exact A|]. split; [exact C|]. split; [exact B|]. unfold ex_fit. apply (C165_accepts _ _ _ _ _ _ _ _ _ _ ex_g 1 _ _ tt); trivial.
Qed.
