(** C142, C143: smoothing factor and failures of the training of mixtures. *)
From Coq Require Import ZArith Reals List Arith Lia Bool Permutation Lra.
From Flocq Require Import Core.Core IEEE754.BinarySingleNaN.
From Verif Require Import F64 Util Moe_Model Moe_Spec Moe_Proofs Moe_Train Mix_Model Mix_Proofs Properties_Moe.
Import ListNotations.
Local Open Scope nat_scope.

(** ** C142: the smoothing factor *)

(** There are twenty factors, from 0.1 to 2.1, equally spaced up to rounding. *)
Theorem C142_factors : length scale_factors = 20 /\
  (forall i f, nth_error scale_factors i = Some f ->
     fle (fabs (fsub f (fdiv (fofZ (19 + 20 * Z.of_nat i)) (fofZ 190)))) (fdiv fone (fofZ 1000000000000000)) = true) /\
  (forall f, In f scale_factors -> fle (fdiv fone (fofZ 10)) f = true /\ fle f (fdiv (fofZ 21) (fofZ 10)) = true).
Proof.
  split; [reflexivity|]. split.
  - intros i f H. assert (Hi : i < 20) by (change 20 with (length scale_factors); apply nth_error_Some; congruence).
    assert (Q : forallb (fun i => match nth_error scale_factors i with Some f =>
       fle (fabs (fsub f (fdiv (fofZ (19 + 20 * Z.of_nat i)) (fofZ 190)))) (fdiv fone (fofZ 1000000000000000)) | None => false end) (seq 0 20) = true)
      by (vm_compute; reflexivity).
    rewrite forallb_forall in Q. specialize (Q i). rewrite H in Q. apply Q. apply in_seq. lia.
  - intros f H. assert (Q : forallb (fun f => fle (fdiv fone (fofZ 10)) f && fle f (fdiv (fofZ 21) (fofZ 10))) scale_factors = true)
      by (vm_compute; reflexivity).
    rewrite forallb_forall in Q. now apply andb_true_iff, Q.
Qed.
Print Assumptions C142_factors.

(** With a fixed number of clusters above one and smooth recombination without a factor, the mixture trained on all the data uses
    the factor with the least error on the validation rows of a mixture whose clusters were fitted on the other rows; when all errors
    are below 1e-6 the factor is one. Missing: automatic number of clusters, and experts that have not seen the validation rows. *)
Theorem C142_factor_partial : forall (G E T : Type) gm_clusters gmm_fit resp cv train_expert best_nclusters norm predict
    kpls (p : params G T) dim xt yt (m : mixture G E) nb,
  p_nclusters p = Fixed nb -> 1 < nb -> p_recomb p = Smooth None -> p_gmx p = None ->
  fit_mixture gm_clusters gmm_fit resp cv train_expert best_nclusters norm predict kpls p dim xt yt = Ok m ->
  exists f test held g experts,
    mx_recomb m = Smooth (Some f) /\ snd (mx_gmx m) = f /\
    extract_part (rows_of xt yt) 5 = Some (test, held) /\ gmm_fit nb held = Ok g /\
    length experts = gm_clusters g /\
    (forall c e, nth_error experts c = Some e -> exists mean corr tuning, In tuning (p_tunings p) /\
       train_expert mean corr tuning (cluster_rows resp (g, fone) xt yt c) = Ok e) /\
    let error a := fdiv (norm (map (fun r => fsub (predict experts (g, a) (removelast r)) (last r fzero)) test))
                        (norm (concat (map (@removelast f64) test))) in
    ((In f scale_factors /\ forall a, In a scale_factors -> flt (error a) (error f) = false) \/
     (f = fone /\ forall a, In a scale_factors -> flt (error a) (fdiv fone (fofZ 1000000)) = true)).
Proof.
  intros G E T gm_clusters gmm_fit resp cv train_expert best_nclusters norm predict kpls p dim xt yt m nb N Nb R Gm H.
  unfold fit_mixture in H. apply bind_ok in H. destruct H as (u & _ & H).
  destruct (length yt =? length xt) eqn:Hl; [|discriminate]. apply Nat.eqb_eq in Hl.
  destruct (train_smooth _ _ _ _ _ _ _ _ p dim xt yt m nb Hl N Nb R Gm H) as (f & test & held & g & experts & A & B & C & D & Le & Tr & F).
  exists f, test, held, g, experts. repeat (split; [assumption|]). split.
  - intros c e Hc. specialize (Tr c e Hc). unfold trained, find_best_expert in Tr.
    destruct (best_models _ _ _ _) as [[mean corr]|]; [|discriminate]. set (ti := if p_sparse p then 0 else _) in Tr.
    destruct (nth_error (p_tunings p) ti) as [tuning|] eqn:Et.
    + exists mean, corr, tuning. split; [eapply nth_error_In; eauto|].
      destruct (p_sparse p); [destruct mean; try discriminate|]; exact Tr.
    + destruct (p_sparse p); [destruct mean; discriminate|discriminate].
  - intros error. apply factor_spec with (r := None) in F; [|exact R|rewrite N; cbn; apply Nat.eqb_neq; lia].
    destruct F as [(i & e & He & Hf & Hmin)|[-> L]]; [left|right].
    + split; [eapply nth_error_In; eauto|]. intros a Ha. rewrite nth_error_map, Hf in He. injection He as <-.
      apply (Hmin (error a)). exact (in_map _ _ _ Ha).
    + split; [reflexivity|]. intros a Ha. apply L. exact (in_map (factor_error norm predict experts g test) _ _ Ha).
Qed.
Print Assumptions C142_factor_partial.

Definition t_fit best (norm : list f64 -> f64) (predict : list (mean_kind * corr_kind * list (list f64)) -> unit * f64 -> list f64 -> f64) k :=
  @fit_mixture unit (mean_kind * corr_kind * list (list f64)) unit (fun _ => k) (fun _ _ => Ok tt)
  (fun _ x => match x with v :: _ => if flt v fzero then [fone; fzero; fzero] else if flt v (fofZ 5) then [fzero; fone; fzero] else [fzero; fzero; fone] | [] => [] end)
  (fun _ _ _ => fone) (fun mean c _ rows => Ok (mean, c, rows)) best norm predict.
Definition t_x : list (list f64) := map (fun z => [fofZ z]) [-3; 2; -1; 4; -2; 5; 6; 3; 7]%Z.
Definition t_y : list f64 := map fofZ [0; 1; 2; 3; 4; 5; 6; 7; 8]%Z.
(** Some norm: the sum of the absolute values. *)
Definition t_norm (l : list f64) : f64 := fold_right (fun v s => fadd (fabs v) s) fzero l.
(** Some mixture whose predictions are best with the tenth factor. *)
Definition t_predict (_ : list (mean_kind * corr_kind * list (list f64))) (g : unit * f64) (_ : list f64) : f64 := fsub (snd g) (nth 10 scale_factors fzero).
Definition t_p n r ts : params unit unit := Params false n r ex_specs ts None.
Definition ok {A} (r : res A) (f : A -> bool) : bool := match r with Ok a => f a | _ => false end.
Lemma ok_ex {A} (r : res A) f : ok r f = true -> exists a, r = Ok a /\ f a = true.
Proof. destruct r; try discriminate. intros H. now exists a. Qed.
Definition factor_of (m : mixture unit (mean_kind * corr_kind * list (list f64))) : f64 := snd (mx_gmx m).
Lemma feq_same (a b : f64) : B2SF a = B2SF b -> a = b.
Proof. apply B2SF_inj. Qed.

Definition two_rows : list (list f64) := map (fun z => [fofZ z]) [0; -3; -1; 4; -2; 0; 6; 5; 7]%Z.
Definition out_rows : list f64 := map fofZ [0; 1; 2; 3; 4; 0; 6; 7; 8]%Z.
Example C142_example : exists m, t_fit (fun _ _ _ => (3, Hard)) t_norm t_predict 3 None (t_p (Fixed 3) (Smooth None) [tt]) 1 t_x out_rows = Ok m /\
  feq (factor_of m) (nth 10 scale_factors fzero) = true.
Proof. apply ok_ex. vm_compute. reflexivity. Qed.

(** Finding: with an automatic number of clusters the factor of a smooth mixture is never optimized, it is one. *)
Theorem C142_auto_one : forall (G E T : Type) gm_clusters gmm_fit resp cv train_expert best_nclusters norm predict
    kpls (p : params G T) dim xt yt (m : mixture G E) mx k,
  p_nclusters p = Auto mx -> p_gmx p = None ->
  best_nclusters (match mx with Some n => n | None => length xt / 10 + 1 end) xt yt = (k, Smooth None) ->
  fit_mixture gm_clusters gmm_fit resp cv train_expert best_nclusters norm predict kpls p dim xt yt = Ok m ->
  mx_recomb m = Smooth None /\ snd (mx_gmx m) = fone.
Proof.
  intros G E T gm_clusters gmm_fit resp cv train_expert best_nclusters norm predict kpls p dim xt yt m mx k N Gm B H.
  unfold fit_mixture in H. apply bind_ok in H. destruct H as (u & _ & H).
  destruct (length yt =? length xt) eqn:Hl; [|discriminate]. apply Nat.eqb_eq in Hl. eapply train_auto; eauto.
Qed.
Print Assumptions C142_auto_one.
(** Three clusters and smooth recombination are selected; the factor in use is one, whereas the same training with three clusters
    asked for uses another one. *)
Theorem C142_auto_refuted : exists xt yt m m',
  let best := fun _ _ _ => (3, Smooth None) in
  t_fit best t_norm t_predict 3 None (t_p (Auto None) (Smooth None) [tt]) 1 xt yt = Ok m /\ factor_of m = fone /\
  t_fit best t_norm t_predict 3 None (t_p (Fixed 3) (Smooth None) [tt]) 1 xt yt = Ok m' /\ feq (factor_of m') (nth 10 scale_factors fzero) = true /\
  feq (factor_of m') fone = false.
Proof.
  exists t_x, out_rows.
  destruct (ok_ex (t_fit (fun _ _ _ => (3, Smooth None)) t_norm t_predict 3 None (t_p (Auto None) (Smooth None) [tt]) 1 t_x out_rows) (fun _ => true)) as (m & H & _);
    [vm_compute; reflexivity|].
  destruct (ok_ex (t_fit (fun _ _ _ => (3, Smooth None)) t_norm t_predict 3 None (t_p (Fixed 3) (Smooth None) [tt]) 1 t_x out_rows)
    (fun m => feq (factor_of m) (nth 10 scale_factors fzero) && negb (feq (factor_of m) fone))) as (m' & H' & Q); [vm_compute; reflexivity|].
  apply andb_true_iff in Q. destruct Q as [Q1 Q2]. apply negb_true_iff in Q2.
  exists m, m'. cbv zeta. split; [exact H|]. split; [|split; [exact H'|split; [exact Q1|exact Q2]]].
  eapply C142_auto_one in H; [apply H| | |]; reflexivity.
Qed.
Print Assumptions C142_auto_refuted.

(** Finding: every validation row is a training row of one of the experts whose errors are compared. *)
Theorem C142_held_out_refuted : forall (G : Type) (gm_clusters : G -> nat) resp (g : G) xt yt test held r,
  length yt = length xt -> 1 <= gm_clusters g -> (forall x, length (resp (g, fone) x) = gm_clusters g) ->
  extract_part (rows_of xt yt) 5 = Some (test, held) -> In r test ->
  exists c, c < gm_clusters g /\ In r (cluster_rows resp (g, fone) xt yt c).
Proof.
  intros G gm_clusters resp g xt yt test held r Hl K R H I.
  assert (Ir : In r (rows_of xt yt)).
  { unfold extract_part in H. destruct (range32 _ _) as [rg|]; [|discriminate]. cbn in H.
    destruct (select (rows_of xt yt) (map toN32 rg)) as [t|] eqn:Q; [|discriminate].
    destruct (select _ (filter _ _)); [|discriminate]. injection H as -> _.
    unfold select in Q. clear -Q I. revert test Q I. generalize (map toN32 rg). intros l. induction l as [|i l IH]; intros test Q I.
    - injection Q as <-. destruct I.
    - cbn in Q. destruct (nth_error (rows_of xt yt) i) as [v|] eqn:V; [|discriminate].
      destruct (mapM _ l) as [t'|]; [|discriminate]. injection Q as <-. destruct I as [<-|I]; [eapply nth_error_In; eauto|eauto]. }
  pose proof (clusters_partition gm_clusters resp (g, fone) xt yt Hl K R) as P.
  apply Permutation_sym in P. apply (Permutation_in _ P) in Ir. apply in_concat in Ir. destruct Ir as (l & Il & Ir).
  apply in_map_iff in Il. destruct Il as (c & <- & Ic). apply in_seq in Ic. exists c. cbn in Ic. split; [lia|exact Ir].
Qed.
Print Assumptions C142_held_out_refuted.

(** Finding: errors are divided by the norm of the validation inputs. When these are null and no factor predicts exactly, all errors
    are infinite and the factor is 0.1, whatever the predictions. *)
Theorem C142_null_inputs_refuted : exists xt yt m, let predict := t_predict in
  t_fit (fun _ _ _ => (3, Hard)) t_norm predict 3 None (t_p (Fixed 3) (Smooth None) [tt]) 1 xt yt = Ok m /\
  feq (factor_of m) (fdiv fone (fofZ 10)) = true /\
  exists test held, extract_part (rows_of xt yt) 5 = Some (test, held) /\
    forall experts, flt
      (t_norm (map (fun r => fsub (predict experts (tt, nth 10 scale_factors fzero) (removelast r)) (last r fzero)) test))
      (t_norm (map (fun r => fsub (predict experts (tt, fdiv fone (fofZ 10)) (removelast r)) (last r fzero)) test)) = true.
Proof.
  exists two_rows, (map fofZ [0; 1; 2; 3; 4; 1; 6; 7; 8]%Z).
  destruct (ok_ex (t_fit (fun _ _ _ => (3, Hard)) t_norm t_predict 3 None (t_p (Fixed 3) (Smooth None) [tt]) 1 two_rows (map fofZ [0; 1; 2; 3; 4; 1; 6; 7; 8]%Z))
    (fun m => feq (factor_of m) (fdiv fone (fofZ 10)))) as (m & H & Q); [vm_compute; reflexivity|].
  exists m. cbv zeta. split; [exact H|]. split; [exact Q|].
  destruct (extract_part (rows_of two_rows (map fofZ [0; 1; 2; 3; 4; 1; 6; 7; 8]%Z)) 5) as [[test held]|] eqn:Ex.
  2:{ exfalso. assert (X : match extract_part (rows_of two_rows (map fofZ [0; 1; 2; 3; 4; 1; 6; 7; 8]%Z)) 5 with Some _ => true | None => false end = true)
      by (vm_compute; reflexivity). rewrite Ex in X. discriminate X. }
  exists test, held. split; [reflexivity|]. intros experts.
  assert (X : match extract_part (rows_of two_rows (map fofZ [0; 1; 2; 3; 4; 1; 6; 7; 8]%Z)) 5 with Some (test, _) =>
    flt (t_norm (map (fun r => fsub (t_predict [] (tt, nth 10 scale_factors fzero) (removelast r)) (last r fzero)) test))
      (t_norm (map (fun r => fsub (t_predict [] (tt, fdiv fone (fofZ 10)) (removelast r)) (last r fzero)) test)) | None => false end = true)
    by (vm_compute; reflexivity).
  rewrite Ex in X. exact X.
Qed.
Print Assumptions C142_null_inputs_refuted.

(** ** C143: training a mixture does not panic *)

(** It does not when there are as many tunings as clusters or a single one, some trend and some correlation are allowed, inputs and
    outputs are as many, below 2^24, and the errors of the smoothing factors are numbers; the fit of the clusters gives the requested
    number of clusters or fails with an error, and so does the training of experts. Missing: the other parameters, see below. *)
Theorem C143_returns_partial : forall (G E T : Type) gm_clusters gmm_fit resp cv train_expert best_nclusters norm predict
    kpls (p : params G T) dim xt yt,
  (forall n d, gmm_fit n d <> Panic) -> (forall n d g, gmm_fit n d = Ok g -> gm_clusters g = n) ->
  (forall mean corr t rows, train_expert mean corr t rows <> Panic) ->
  (forall ex g test a, fnan (factor_error norm predict ex g test a) = false) ->
  length yt = length xt -> (Z.of_nat (length xt) < 16777216)%Z ->
  (exists mean, allows (p_specs p) mean = true) -> (exists corr, allows_corr (p_specs p) corr = true) -> p_gmx p = None ->
  match p_nclusters p with
  | Fixed nb => 1 <= nb /\ (length (p_tunings p) = nb \/ length (p_tunings p) = 1)
  | Auto _ => length (p_tunings p) = 1
  end ->
  fit_mixture (E := E) gm_clusters gmm_fit resp cv train_expert best_nclusters norm predict kpls p dim xt yt <> Panic.
Proof.
  intros G E T gm_clusters gmm_fit resp cv train_expert best_nclusters norm predict kpls p dim xt yt
    H1 H2 H3 H4 Hl Hb [m A] [c B] Gm S.
  assert (S' : sizes_ok p) by (unfold sizes_ok; destruct (p_nclusters p); lia).
  set (errors := fun experts g test => map (factor_error norm predict experts g test) scale_factors).
  assert (K : forall (a : unit), (if length yt =? length xt then
     train gm_clusters gmm_fit resp cv train_expert best_nclusters errors scale_factors p dim xt yt else Panic) <> Panic).
  { intros _. rewrite Hl, Nat.eqb_refl. apply (train_ok gm_clusters gmm_fit resp cv train_expert best_nclusters errors scale_factors) with (m := m) (c := c); auto.
    - intros ex g test. split; [|unfold errors; now rewrite map_length].
      apply Forall_forall. intros e I. unfold errors in I. apply in_map_iff in I. destruct I as (a & <- & _). apply H4.
    - discriminate. }
  unfold fit_mixture, check. rewrite (sizes_check p S'). destruct kpls as [[|d]|]; [discriminate|exact (K tt)|exact (K tt)].
Qed.
Print Assumptions C143_returns_partial.
Example C143_example : exists m, t_fit (fun _ _ _ => (3, Hard)) t_norm t_predict 3 (Some 1) (t_p (Fixed 3) (Smooth None) [tt]) 1 t_x t_y = Ok m.
Proof.
  destruct (ok_ex (t_fit (fun _ _ _ => (3, Hard)) t_norm t_predict 3 (Some 1) (t_p (Fixed 3) (Smooth None) [tt]) 1 t_x t_y) (fun _ => true)) as (m & H & _);
    [vm_compute; reflexivity|now exists m].
Qed.

(** Finding: numbers of clusters and of tunings that do not fit together are a panic instead of an error. *)
Theorem C143_sizes_refuted : forall (G E T : Type) gm_clusters gmm_fit resp cv train_expert best_nclusters norm predict
    kpls (p : params G T) dim xt yt nb,
  p_nclusters p = Fixed nb -> length (p_tunings p) <> nb -> (length (p_tunings p) = 1 -> nb = 0) -> kpls <> Some 0 ->
  fit_mixture (E := E) gm_clusters gmm_fit resp cv train_expert best_nclusters norm predict kpls p dim xt yt = Panic.
Proof.
  intros G E T gm_clusters gmm_fit resp cv train_expert best_nclusters norm predict kpls p dim xt yt nb N L1 L2 K.
  unfold fit_mixture, check. assert (C : check_ref p = false).
  { unfold check_ref. rewrite N. cbn [is_multi]. destruct ((1 <? nb) && (length (p_tunings p) =? 1)) eqn:Q.
    - apply andb_true_iff in Q. destruct Q as [Q1 Q2]. apply Nat.ltb_lt in Q1. apply Nat.eqb_eq in Q2. lia.
    - apply Nat.eqb_neq. lia. }
  rewrite C. destruct kpls as [[|d]|]; [congruence|reflexivity|reflexivity].
Qed.
Print Assumptions C143_sizes_refuted.

Definition panics {A} (r : res A) : bool := match r with Panic => true | _ => false end.
Lemma panics_eq {A} (r : res A) : panics r = true -> r = Panic.
Proof. now destruct r. Qed.
(** Finding: with an automatic number of clusters and two tunings, three clusters panic; with one tuning the same training succeeds. *)
Theorem C143_auto_refuted : exists xt yt m, length yt = length xt /\
  t_fit (fun _ _ _ => (3, Hard)) t_norm t_predict 3 None (t_p (Auto None) Hard [tt; tt]) 1 xt yt = Panic /\
  t_fit (fun _ _ _ => (3, Hard)) t_norm t_predict 3 None (t_p (Auto None) Hard [tt]) 1 xt yt = Ok m.
Proof.
  destruct (ok_ex (t_fit (fun _ _ _ => (3, Hard)) t_norm t_predict 3 None (t_p (Auto None) Hard [tt]) 1 t_x t_y) (fun _ => true)) as (m & H & _);
    [vm_compute; reflexivity|].
  exists t_x, t_y, m. split; [reflexivity|]. split; [apply panics_eq; vm_compute; reflexivity|exact H].
Qed.
Print Assumptions C143_auto_refuted.
(** Finding: validation rows that are null and exactly predicted with one of the factors give an error 0/0, which is a panic. *)
Theorem C143_null_inputs_refuted : exists xt yt test held, length yt = length xt /\
  extract_part (rows_of xt yt) 5 = Some (test, held) /\ Forall (fun r => map (feq fzero) r = [true; true]) test /\
  t_fit (fun _ _ _ => (3, Hard)) t_norm t_predict 3 None (t_p (Fixed 3) (Smooth None) [tt]) 1 xt yt = Panic.
Proof.
  exists two_rows, out_rows.
  assert (X : match extract_part (rows_of two_rows out_rows) 5 with Some (test, _) =>
     forallb (fun r => match map (feq fzero) r with [true; true] => true | _ => false end) test | None => false end = true) by (vm_compute; reflexivity).
  destruct (extract_part (rows_of two_rows out_rows) 5) as [[test held]|]; [|discriminate].
  exists test, held. split; [reflexivity|]. split; [reflexivity|]. split.
  - apply Forall_forall. intros r I. rewrite forallb_forall in X. specialize (X r I).
    destruct (map (feq fzero) r) as [|[] [|[] [|]]]; try discriminate X. reflexivity.
  - apply panics_eq. vm_compute. reflexivity.
Qed.
Print Assumptions C143_null_inputs_refuted.
