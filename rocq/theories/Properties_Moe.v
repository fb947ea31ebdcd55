(** Mixtures of experts: properties C41-C50 and C89. *)
From Coq Require Import ZArith Reals Lra Lia.
From Coquelicot Require Import Coquelicot.
From Coq Require Import List Arith Bool Permutation.
From Flocq Require Import IEEE754.BinarySingleNaN.
From Verif Require Import F64 Util RVec Gmx_Model Gmx_Spec Gmx_Proofs Moe_Model Moe_Spec Moe_Proofs Moe_Train.
Import ListNotations.
Local Open Scope nat_scope.

(** ** C41: the validation split *)

(** Below 2^24 rows the split succeeds, the test part is one row out of [q] in order, the training part is made of the
    other rows in order, and both together contain every row exactly once. *)
Theorem C41_split_partial : forall (A : Type) (data : list A) (q : nat),
  1 <= q -> (Z.of_nat (length data) < 16777216)%Z -> (Z.of_nat q < 16777216)%Z ->
  exists test train, extract_part data q = Some (test, train) /\
    test = rows_at (fun i => Nat.eqb (i mod q) 0) data /\
    train = rows_at (fun i => negb (Nat.eqb (i mod q) 0)) data /\
    Permutation (test ++ train) data.
Proof.
  intros A data q Q Hn Hq. do 2 eexists. split; [exact (extract_spec data q Q Hn Hq)|].
  repeat split. apply rows_split.
Qed.
Print Assumptions C41_split_partial.
Example C41_example : extract_part (seq 0 12) 5 = Some ([0; 5; 10], [1; 2; 3; 4; 6; 7; 8; 9; 11]).
Proof. vm_compute. reflexivity. Qed.

(** The indexes of the test part go through single precision: with more than 2^24 rows, some row is in both parts. *)
Theorem C41_row_in_both_parts_refuted : exists (data : list nat) test train r,
  NoDup data /\ extract_part data 5 = Some (test, train) /\ In r test /\ In r train.
Proof.
  destruct big_split as (test & train & E & A & B). exists (seq 0 big), test, train, row_twice.
  split; [apply seq_NoDup|]. exact (conj E (conj A B)).
Qed.
Print Assumptions C41_row_in_both_parts_refuted.

(** ** C42: clusters partition the rows *)
Theorem C42_clusters : forall (A : Type) (n : nat) (data : list A) (labels : list nat),
  length labels = length data -> Forall (fun l => l < n) labels ->
  exists groups, sort_by_cluster n data labels = Some groups /\ length groups = n /\
    (forall c, c < n -> nth_error groups c = Some (rows_with c data labels)) /\
    (forall c g r, nth_error groups c = Some g -> In r g ->
       exists i, nth_error data i = Some r /\ nth_error labels i = Some c) /\
    Permutation (concat groups) data.
Proof.
  intros A n data labels Hl Hf. eexists. split; [exact (sort_spec n data labels Hl)|].
  split; [now rewrite map_length, seq_length|].
  assert (N : forall c, c < n -> nth_error (map (fun c => rows_with c data labels) (seq 0 n)) c = Some (rows_with c data labels)).
  { intros c Hc. rewrite nth_error_map, nth_seq by exact Hc. reflexivity. }
  split; [exact N|]. split; [|now apply rows_with_perm].
  intros c g r Hg Hr. assert (Hc : c < n).
  { assert (L : c < length (map (fun c => rows_with c data labels) (seq 0 n))) by (apply nth_error_Some; congruence).
    now rewrite map_length, seq_length in L. }
  rewrite (N c Hc) in Hg. injection Hg as <-. now apply rows_with_in in Hr.
Qed.
Print Assumptions C42_clusters.
Example C42_example : sort_by_cluster 3 [10; 11; 12; 13; 14] [2; 0; 2; 0; 0] = Some [[11; 13; 14]; []; [10; 12]].
Proof. reflexivity. Qed.

(** A successful training: one expert per cluster, trained on exactly the rows of its cluster, each training row being
    in exactly one of them; the clusters are those of the mixture kept in the result. *)
Theorem C42_training : forall (G E T : Type) gm_clusters gmm_fit resp cv train_expert best_nclusters factor_errors factors
    (p : params G T) dim xt yt (m : mixture G E),
  length yt = length xt ->
  (forall g x, length (resp g x) = gm_clusters (fst g)) -> (forall g, 1 <= gm_clusters g) ->
  train gm_clusters gmm_fit resp cv train_expert best_nclusters factor_errors factors p dim xt yt = Ok m ->
  length (mx_experts m) = gm_clusters (fst (mx_gmx m)) /\
  (forall c e, nth_error (mx_experts m) c = Some e ->
     exists mean corr tuning, In tuning (p_tunings p) /\
       train_expert mean corr tuning (cluster_rows resp (mx_gmx m) xt yt c) = Ok e) /\
  Permutation (concat (map (cluster_rows resp (mx_gmx m) xt yt) (seq 0 (length (mx_experts m))))) (rows_of xt yt).
Proof.
  intros G E T gm_clusters gmm_fit resp cv train_expert best_nclusters factor_errors factors p dim xt yt m Hl R K H.
  destruct (train_spec _ _ _ _ _ _ _ _ _ _ _ _ _ Hl H) as ((A & B & _) & _).
  split; [exact A|]. split.
  - intros c e Hc. assert (Lc : c < gm_clusters (fst (mx_gmx m))) by (rewrite <- A; apply nth_error_Some; congruence).
    destruct (B c Lc) as (e' & Hc' & Tr). rewrite Hc in Hc'. injection Hc' as <-.
    unfold trained, find_best_expert in Tr. destruct (best_models _ _ _ _) as [[mean corr]|]; [|discriminate].
    set (ti := if p_sparse p then 0 else _) in Tr.
    destruct (nth_error (p_tunings p) ti) as [tuning|] eqn:Et.
    + exists mean, corr, tuning. split; [eapply nth_error_In; eauto|].
      destruct (p_sparse p); [destruct mean; try discriminate|]; exact Tr.
    + destruct (p_sparse p); [destruct mean; discriminate|discriminate].
  - rewrite A. now apply clusters_partition.
Qed.
Print Assumptions C42_training.

(** A small training: one feature, two clusters (negative and non-negative inputs); an expert is the list of its rows
    and the chosen models. *)
Definition ex_resp (g : unit * f64) (x : list f64) : list f64 :=
  match x with v :: _ => if flt v fzero then [fone; fzero] else [fzero; fone] | [] => [fone; fzero] end.
Definition ex_train (p : params unit unit) (dim : nat) (xt : list (list f64)) (yt : list f64) :
    res (mixture unit (mean_kind * corr_kind * list (list f64))) :=
  train (fun _ => 2) (fun _ _ => Ok tt) ex_resp (fun _ _ _ => fone) (fun m c _ rows => Ok (m, c, rows))
    (fun _ _ _ => (2, Hard)) (fun _ _ _ => [fone; fzero; fone]) [fmake 1 (-3); fmake 1 (-1); fone] p dim xt yt.
Definition ex_specs : specs := Specs true true false true false false false.
Definition ex_x : list (list f64) := map (fun z => [fofZ z]) [-3; 2; -1; 4; -2; 5; 6]%Z.
Definition ex_y : list f64 := map fofZ [0; 1; 2; 3; 4; 5; 6]%Z.
Definition shape (r : res (mixture unit (mean_kind * corr_kind * list (list f64)))) : option (list (mean_kind * nat) * option Z) :=
  match r with
  | Ok m => Some (map (fun e => (fst (fst e), length (snd e))) (mx_experts m),
                  match mx_recomb m with Smooth (Some f) => Some (Btrunc (fmul (fofZ 8) f)) | _ => None end)
  | _ => None
  end.
Example C42_training_example :
  shape (ex_train (Params false (Fixed 2) (Smooth None) ex_specs [tt] None) 1 ex_x ex_y) =
  Some ([(Constant, 3); (Constant, 4)], Some 4%Z).
Proof. vm_compute. reflexivity. Qed.

(** ** C43: hard recombination *)

(** With as many responsibilities as experts and no NaN among them, the prediction of each point of a batch is that of
    the expert of the first cluster of maximal responsibility, for values, variances and gradients alike. *)
Theorem C43_hard : forall (G E V : Type) resp (pred : E -> list f64 -> V) (m : mixture G E) xs,
  (forall x, In x xs -> length (resp (mx_gmx m) x) = length (mx_experts m) /\ numbers (resp (mx_gmx m) x)) ->
  mx_experts m <> [] ->
  exists vs, predict_hard resp pred m xs = Some vs /\ length vs = length xs /\
    forall i x, nth_error xs i = Some x ->
      exists c e, first_max (resp (mx_gmx m) x) c /\ nth_error (mx_experts m) c = Some e /\
                  nth_error vs i = Some (pred e x).
Proof.
  intros G E V resp pred m xs R NE.
  assert (Q : forall x, In x xs -> exists c e, argmax (resp (mx_gmx m) x) = Some c /\ first_max (resp (mx_gmx m) x) c /\
              nth_error (mx_experts m) c = Some e).
  { intros x Hx. destruct (R x Hx) as [L N]. destruct (argmax_spec (resp (mx_gmx m) x)) as (c & Hc & Fc).
    - intros E0. rewrite E0 in L. destruct (mx_experts m); [congruence|discriminate].
    - exact N.
    - pose proof (argmax_bound _ _ Hc) as B. rewrite L in B.
      destruct (nth_error (mx_experts m) c) as [e|] eqn:Ee; [|apply nth_error_None in Ee; lia]. now exists c, e. }
  clear R NE. unfold predict_hard. induction xs as [|x xs IH]; simpl.
  - exists []. repeat split. intros [|i] x Hx; discriminate.
  - destruct (Q x (or_introl eq_refl)) as (c & e & Hc & Fc & He). unfold hard_cluster at 1. rewrite Hc, He.
    destruct IH as (vs & -> & L & H); [intros; apply Q; now right|].
    exists (pred e x :: vs). split; [reflexivity|]. split; [simpl; lia|].
    intros [|i] y Hy; simpl in Hy.
    + injection Hy as <-. exists c, e. now repeat split.
    + destruct (H i y Hy) as (c' & e' & A & B & C). exists c', e'. now repeat split.
Qed.
Print Assumptions C43_hard.
Example C43_example :
  option_map (map Btrunc) (predict_hard ex_resp (fun e (x : list f64) => fadd (fofZ e) (hd fzero x))
     (Mixture Hard [100%Z; 200%Z] (tt, fone)) [[fofZ 3]; [fofZ (-7)]]) = Some [203; 93]%Z.
Proof. vm_compute. reflexivity. Qed.

(** After training, a training point is predicted by an expert whose training set contains this point. *)
Theorem C43_training_point : forall (G E T : Type) gm_clusters gmm_fit resp cv train_expert best_nclusters factor_errors factors
    (p : params G T) dim xt yt (m : mixture G E) i x y,
  length yt = length xt ->
  (forall g x, length (resp g x) = gm_clusters (fst g)) -> (forall g, 1 <= gm_clusters g) ->
  train gm_clusters gmm_fit resp cv train_expert best_nclusters factor_errors factors p dim xt yt = Ok m ->
  nth_error xt i = Some x -> nth_error yt i = Some y ->
  forall (V : Type) (pred : E -> list f64 -> V),
  exists e mean corr tuning rows,
    predict_hard resp pred m [x] = Some [pred e x] /\
    train_expert mean corr tuning rows = Ok e /\ In (x ++ [y]) rows.
Proof.
  intros G E T gm_clusters gmm_fit resp cv train_expert best_nclusters factor_errors factors p dim xt yt m i x y
    Hl R K H Hx Hy V pred.
  destruct (C42_training _ _ _ _ _ _ _ _ _ _ _ _ _ _ _ _ Hl R K H) as (A & B & _).
  set (c := hard_cluster (resp (mx_gmx m) x)).
  assert (Lc : c < length (mx_experts m)).
  { rewrite A, <- (R (mx_gmx m) x). apply hard_cluster_bound. intros E0. specialize (R (mx_gmx m) x). specialize (K (fst (mx_gmx m))).
    rewrite E0 in R. simpl in R. lia. }
  destruct (nth_error (mx_experts m) c) as [e|] eqn:Ee; [|apply nth_error_None in Ee; lia].
  destruct (B c e Ee) as (mean & corr & tuning & _ & Tr). exists e, mean, corr, tuning, (cluster_rows resp (mx_gmx m) xt yt c).
  split; [unfold predict_hard; simpl; fold c; now rewrite Ee|]. split; [exact Tr|].
  apply rows_with_in. exists i. split.
  - unfold rows_of. rewrite nth_error_map. rewrite (nth_error_combine xt yt i x y Hx Hy). reflexivity.
  - unfold labels_of. rewrite nth_error_map, Hx. reflexivity.
Qed.
Print Assumptions C43_training_point.

(** In real arithmetic the comparison of responsibilities is that of the weighted densities, at every point: the expert
    used is that of the cluster of largest weighted density, even where responsibilities do not sum to one. *)
Theorem C43_density : forall g x i k, good_mixture g -> gm_k g <> 1 -> i < gm_k g -> k < gm_k g ->
  ((probas g x i <= probas g x k)%R <-> (gm_w g i * density g x i <= gm_w g k * density g x k)%R).
Proof.
  intros g x i k G N Hi Hk. pose proof eps_pos as Ep.
  destruct (Rlt_le_dec (total g x) eps64) as [T|T].
  - rewrite !probas_far by assumption. tauto.
  - rewrite !probas_norm by assumption. assert (P : (0 < / total g x)%R) by (apply Rinv_0_lt_compat; lra).
    split; intros H.
    + apply Rmult_le_reg_r with (/ total g x)%R; assumption.
    + apply Rmult_le_compat_r; [lra|exact H].
Qed.
Print Assumptions C43_density.

(** ** C44: smooth recombination *)
Theorem C44_convex : forall g ex x,
  sumn (gm_k g) (probas g x) = 1%R ->
  (forall lo hi, (forall i, i < gm_k g -> (lo <= ex_val (ex i) x <= hi)%R) -> (lo <= smooth_val g ex x <= hi)%R) /\
  (forall hi, (forall i, i < gm_k g -> (0 <= ex_var (ex i) x <= hi)%R) -> (0 <= smooth_var g ex x <= hi)%R) /\
  smooth_valvar g ex x = (smooth_val g ex x, smooth_var g ex x).
Proof.
  intros g ex x S. split; [|split; [|reflexivity]].
  - intros lo hi B. now apply smooth_val_bounds.
  - intros hi B. split.
    + apply smooth_var_nonneg. intros i Hi. now apply B.
    + now apply smooth_var_bounds.
Qed.
Print Assumptions C44_convex.

(** ** Two clusters in the plane or on the line, for the examples below *)
Definition two (d : nat) (a : R) : gmixture :=
  gmx_new 2 d (fun _ => / 2)%R (fun k i => if Nat.eqb k 1 && Nat.eqb i 0 then a else 0%R) (fun _ i j => if Nat.eqb i j then 1%R else 0%R).
Lemma two_good d a : good_mixture (two d a).
Proof.
  unfold good_mixture, two, gmx_new. cbn [gm_k gm_d gm_w gm_mu gm_chol gm_h gm_logdet].
  split; [lia|]. split; [intros; lra|]. split; [cbn [sumn]; lra|].
  split; [intros k i _ _; rewrite Nat.eqb_refl; lra|]. split; [lra|reflexivity].
Qed.
Lemma exp_pow_nat (a : R) n : exp (INR n * a) = (exp a ^ n)%R.
Proof.
  induction n as [|n IH]; [simpl; rewrite Rmult_0_l; apply exp_0|].
  rewrite S_INR. replace ((INR n + 1) * a)%R with (a + INR n * a)%R by ring. rewrite exp_plus, IH. reflexivity.
Qed.
Lemma exp_neg_small : (exp (-180) < eps64)%R.
Proof.
  assert (H : (6 <= exp 5)%R) by (pose proof (exp_ineq1 5); lra).
  assert (E : exp 180 = (exp 5 ^ 36)%R) by (rewrite <- exp_pow_nat; f_equal; simpl; lra).
  assert (P : (6 ^ 36 <= exp 5 ^ 36)%R) by (apply pow_incr; lra).
  replace (-180)%R with (- (180))%R by lra. rewrite exp_Ropp. unfold eps64. apply Rinv_lt_contravar; [|rewrite E; lra].
  apply Rmult_lt_0_compat; [lra|apply exp_pos].
Qed.
Lemma sqrt_2pi : (1 <= sqrt (2 * PI) <= 3)%R.
Proof.
  pose proof PI_4. pose proof PI2_1. unfold PI2 in *.
  split.
  - rewrite <- sqrt_1 at 1. apply sqrt_le_1_alt. lra.
  - rewrite <- (sqrt_square 3) by lra. apply sqrt_le_1_alt. lra.
Qed.
Lemma two_density_line a x k : density (two 1 a) x k = (/ sqrt (2 * PI) * exp (- / 2 * ((x 0%nat - (if Nat.eqb k 1 then a else 0)) * (x 0%nat - (if Nat.eqb k 1 then a else 0)))))%R.
Proof.
  unfold density, normal_density, two, gmx_new. cbn [gm_k gm_d gm_w gm_mu gm_chol gm_h gm_logdet sumn prodn Nat.eqb].
  rewrite sqrt_1. rewrite andb_true_r. f_equal.
  - rewrite pow_1. field. pose proof sqrt_2pi. lra.
  - f_equal. field.
Qed.
Lemma two_density_plane a x k : density (two 2 a) x k = (/ (sqrt (2 * PI) * sqrt (2 * PI)) * exp (- / 2 * ((x 0%nat - (if Nat.eqb k 1 then a else 0)) * (x 0%nat - (if Nat.eqb k 1 then a else 0)) + x 1%nat * x 1%nat)))%R.
Proof.
  unfold density, normal_density, two, gmx_new. cbn [gm_k gm_d gm_w gm_mu gm_chol gm_h gm_logdet sumn prodn Nat.eqb].
  rewrite sqrt_1. rewrite andb_true_r, andb_false_r. f_equal.
  - field. pose proof sqrt_2pi. lra.
  - f_equal. field.
Qed.
Lemma exp2_bounds : (/ 9 <= exp (-2) < 1)%R.
Proof.
  split.
  - replace (-2)%R with (- (2))%R by lra. rewrite exp_Ropp. apply Rinv_le_contravar; [apply exp_pos|].
    replace 2%R with (1 + 1)%R by lra. rewrite exp_plus. pose proof exp_le_3. pose proof (exp_pos 1).
    apply Rle_trans with (3 * 3)%R; [apply Rmult_le_compat; lra|lra].
  - rewrite <- exp_0. apply exp_increasing. lra.
Qed.
Lemma exp_min10 : (exp min10 <= / 308)%R.
Proof.
  replace min10 with (- (307))%R by (unfold min10; lra). rewrite exp_Ropp. apply Rinv_le_contravar; [lra|]. pose proof (exp_ineq1 307). lra.
Qed.
(** Clusters at (0,0) and (2,0), seen from the origin. *)
Definition origin : nat -> R := fun _ => 0%R.
Lemma two_weights :
  exists u, (/ 18 <= u /\ (gm_w (two 2 2) 0 * density (two 2 2) origin 0) = u /\
   (gm_w (two 2 2) 1 * density (two 2 2) origin 1) = u * exp (-2))%R.
Proof.
  exists (/ 2 * / (sqrt (2 * PI) * sqrt (2 * PI)))%R. rewrite !two_density_plane. unfold origin.
  cbn [Nat.eqb two gmx_new gm_w]. pose proof sqrt_2pi as S. split.
  - rewrite <- Rinv_mult. apply Rinv_le_contravar; [nra|].
    apply Rle_trans with (2 * (3 * 3))%R; [|lra]. apply Rmult_le_compat_l; [lra|]. apply Rmult_le_compat; lra.
  - split; rewrite <- Rmult_assoc.
    + replace (- / 2 * ((0 - 0) * (0 - 0) + 0 * 0))%R with 0%R by field. rewrite exp_0. ring.
    + do 2 f_equal. field.
Qed.
Lemma two_regular : regular (two 2 2) origin.
Proof.
  right. destruct two_weights as (u & U & E0 & E1). pose proof exp2_bounds as B. pose proof exp_min10 as M. change (exp min10) with (exp (-307)) in M.
  assert (Q : (/ 162 <= u * exp (-2))%R).
  { apply Rle_trans with (/ 18 * / 9)%R; [lra|apply Rmult_le_compat; lra]. }
  split.
  - intros k Hk. cbn [two gmx_new gm_k] in Hk. destruct k as [|[|k]]; [rewrite E0; lra|rewrite E1; lra|lia].
  - unfold mix_density. change (gm_k (two 2 2)) with 2. cbn [sumn]. rewrite E0, E1. unfold eps64. lra.
Qed.
Example C44_example : sumn (gm_k (two 2 2)) (probas (two 2 2) origin) = 1%R.
Proof. apply probas_sum_regular; [apply two_good|apply two_regular]. Qed.

(** ** C45: responsibilities *)

(** The constructor makes a mixture the theorems below apply to, and setting the smoothing factor keeps it so:
    the density of a cluster is then the normal density for the new factor. *)
Theorem C45_constructed : forall k d w mu chol h,
  (1 <= k)%nat -> (forall i, (i < k)%nat -> 0 < w i)%R -> sumn k w = 1%R ->
  (forall c i, (c < k)%nat -> (i < d)%nat -> 0 < chol c i i)%R -> (0 < h)%R ->
  good_mixture (gmx_new k d w mu chol) /\
  forall g, good_mixture g -> good_mixture (gmx_heaviside g h) /\
    forall x c, (c < gm_k g)%nat ->
      pdf (gmx_heaviside g h) x c = normal_density (gm_d g) (gm_mu g c) (gm_chol g c) h x.
Proof.
  intros k d w mu chol h K W S C H. split.
  - unfold good_mixture, gmx_new. cbn [gm_k gm_d gm_w gm_mu gm_chol gm_h gm_logdet]. repeat split; trivial. lra.
  - intros g G.
    assert (G' : good_mixture (gmx_heaviside g h)).
    { destruct G as (K' & W' & S' & C' & H' & L'). unfold good_mixture, gmx_heaviside.
      cbn [gm_k gm_d gm_w gm_mu gm_chol gm_h gm_logdet]. repeat split; trivial. }
    split; [exact G'|]. intros x c Hc. rewrite (pdf_density _ x c G' Hc). reflexivity.
Qed.
Print Assumptions C45_constructed.

(** Far from all clusters the responsibilities are not normalized: for two unit clusters at 0 and 1 on the line, their
    sum at 20 is below 2^-52. *)
Theorem C45_far_away_refuted : exists g x, good_mixture g /\ (sumn (gm_k g) (probas g x) < / 4503599627370496)%R.
Proof.
  change (/ 4503599627370496)%R with eps64.
  exists (two 1 1), (fun _ => 20%R). split; [apply two_good|].
  assert (B : forall k, (density (two 1 1) (fun _ => 20%R) k <= exp (-180))%R).
  { intros k. rewrite two_density_line. pose proof sqrt_2pi as S. pose proof (exp_pos (-180)).
    rewrite <- (Rmult_1_l (exp (-180))). apply Rmult_le_compat.
    - left. apply Rinv_0_lt_compat. lra.
    - left. apply exp_pos.
    - rewrite <- Rinv_1. apply Rinv_le_contravar; lra.
    - destruct (Nat.eqb k 1); left; apply exp_increasing; lra. }
  assert (M : (mix_density (two 1 1) (fun _ => 20%R) < eps64)%R).
  { pose proof (B 0). pose proof (B 1). pose proof exp_neg_small. unfold mix_density, two, gmx_new. cbn [gm_k sumn gm_w].
    fold (two 1 1). unfold two, gmx_new in *. lra. }
  rewrite probas_sum_far; [exact M|apply two_good|discriminate|exact M].
Qed.
Print Assumptions C45_far_away_refuted.

(** Everywhere positive. The sum is one wherever every weighted density is above exp(-307) and their sum above 2^-52;
    with the sum above 2^-52 only, the error is at most k exp(-307) 2^52; where the sum is below 2^-52 the
    responsibilities are the unnormalized weighted densities and the sum is their tiny sum. *)
Theorem C45_distribution_partial : forall g x, good_mixture g ->
  (forall k, k < gm_k g -> (0 < probas g x k)%R) /\
  (regular g x -> sumn (gm_k g) (probas g x) = 1%R) /\
  (gm_k g <> 1 -> (mix_density g x < / 4503599627370496)%R -> sumn (gm_k g) (probas g x) = mix_density g x) /\
  ((/ 4503599627370496 + INR (gm_k g) * exp (-307) <= mix_density g x)%R ->
   (1 <= sumn (gm_k g) (probas g x) <= 1 + INR (gm_k g) * exp (-307) / / 4503599627370496)%R).
Proof.
  intros g x G. change (/ 4503599627370496)%R with eps64. replace (-307)%R with min10 by (unfold min10; lra). repeat split.
  - intros k _. apply probas_pos.
  - now apply probas_sum_regular.
  - intros N M. now apply probas_sum_far.
  - destruct (total_bounds g x G) as [A B]. apply probas_sum_near; [exact G|lra].
  - destruct (total_bounds g x G) as [A B]. apply probas_sum_near; [exact G|lra].
Qed.
Print Assumptions C45_distribution_partial.
Example C45_example : regular (two 2 2) origin /\ sumn 2 (probas (two 2 2) origin) = 1%R /\ good_mixture (gmx_heaviside (two 2 2) (1 / 2)).
Proof.
  split; [apply two_regular|]. split.
  - destruct (C45_distribution_partial (two 2 2) origin (two_good 2 2)) as (_ & S & _). exact (S two_regular).
  - destruct (C45_constructed 1 1 (fun _ => 1%R) (fun _ _ => 0%R) (fun _ _ _ => 1%R) (1 / 2)) as [_ H]; [lia|intros; lra|cbn; lra|intros; lra|lra|].
    apply H. apply two_good.
Qed.

(** ** C47: derivatives of the responsibilities *)

(** The returned derivatives are, at every point, those of the normalized weighted densities and sum to zero over the
    clusters; where the responsibilities themselves are normalized, they are the derivatives of the responsibilities. *)
Theorem C47_quotient : forall g x j, good_mixture g -> j < gm_d g ->
  (forall k, k < gm_k g -> partial (fun y => gm_w g k * density g y k / mix_density g y)%R x j (dprobas g x k j)) /\
  sumn (gm_k g) (fun k => dprobas g x k j) = 0%R /\
  (regular g x -> forall k, k < gm_k g -> partial (fun y => probas g y k) x j (dprobas g x k j)).
Proof.
  intros g x j G Hj. split; [|split].
  - intros k Hk. now apply ratio_partial.
  - now apply dprobas_sum.
  - intros R k Hk. now apply probas_partial.
Qed.
Print Assumptions C47_quotient.
Example C47_example : good_mixture (two 2 2) /\ regular (two 2 2) origin.
Proof. split; [apply two_good|apply two_regular]. Qed.

(** ** C46: gradients of the smooth recombination *)

(** Right part: the gradient of the value; with one cluster, the gradient of the variance. *)
Theorem C46_gradients_partial : forall g ex x, good_mixture g -> regular g x ->
  (forall i, i < gm_k g -> depends (gm_d g) (ex_val (ex i)) /\ gradient (gm_d g) (ex_val (ex i)) x (ex_grad (ex i) x)) ->
  (forall i, i < gm_k g -> depends (gm_d g) (ex_var (ex i)) /\ gradient (gm_d g) (ex_var (ex i)) x (ex_vgrad (ex i) x)) ->
  gradient (gm_d g) (smooth_val g ex) x (smooth_grad g ex x) /\
  (gm_k g = 1 -> 1 <= gm_d g -> exists v, smooth_vgrad g ex x = Some v /\ gradient (gm_d g) (smooth_var g ex) x v).
Proof.
  intros g ex x G R V W. split.
  - apply smooth_grad_correct; try assumption; intros i Hi; now apply V.
  - intros K D. destruct (smooth_vgrad_single g ex x K D) as (v & E & H). exists v. split; [exact E|].
    intros j Hj. rewrite (H j Hj). apply true_vgrad_correct; try assumption; intros i Hi; now apply W.
Qed.
Print Assumptions C46_gradients_partial.

(** Wrong part: with at least two clusters, the gradient of the variance panics unless there are as many features as
    clusters, whatever the mixture, the experts and the point. *)
Theorem C46_variance_gradient_panics_refuted : forall g ex x, 2 <= gm_k g -> gm_d g <> gm_k g -> smooth_vgrad g ex x = None.
Proof. exact smooth_vgrad_panics. Qed.
Print Assumptions C46_variance_gradient_panics_refuted.

(** With as many features as clusters it returns a value that is not the gradient: clusters at (0,0) and (2,0), experts of
    constant variance 1, at the origin. *)
Definition flat : expert := Expert (fun _ => 0%R) (fun _ => 1%R) (fun _ _ => 0%R) (fun _ _ => 0%R).
Theorem C46_variance_gradient_value_refuted : exists g ex x v,
  good_mixture g /\ regular g x /\
  (forall i, i < gm_k g -> depends (gm_d g) (ex_var (ex i)) /\ gradient (gm_d g) (ex_var (ex i)) x (ex_vgrad (ex i) x)) /\
  smooth_vgrad g ex x = Some v /\ ~ gradient (gm_d g) (smooth_var g ex) x v.
Proof.
  set (g := two 2 2). set (ex := fun _ : nat => flat).
  assert (G : good_mixture g) by apply two_good.
  assert (R : regular g origin) by apply two_regular.
  assert (W : forall i, i < gm_k g -> depends (gm_d g) (ex_var (ex i)) /\
     gradient (gm_d g) (ex_var (ex i)) origin (ex_vgrad (ex i) origin)).
  { intros i _. split; [intros x y _; reflexivity|]. intros j _. unfold partial, ex, flat. simpl. apply derive_const. }
  destruct (smooth_vgrad_square g ex origin) as (v & E & H); [unfold g; simpl; lia|reflexivity|].
  exists g, ex, origin, v. split; [exact G|]. split; [exact R|]. split; [exact W|]. split; [exact E|].
  intros Gr. specialize (Gr 0 ltac:(unfold g; simpl; lia)).
  assert (T : partial (smooth_var g ex) origin 0 (true_vgrad g ex origin 0)).
  { apply true_vgrad_correct; try assumption; try (intros i Hi; now apply W). unfold g; simpl; lia. }
  assert (Q : v 0 = true_vgrad g ex origin 0) by (eapply derive_unique; eauto).
  rewrite (H 0) in Q by (unfold g; simpl; lia).
  set (S := sumn (gm_k g) _) in Q. assert (Z : S = 0%R) by lra. revert Z. unfold S. clear.
  change (gm_k g) with 2. cbn [sumn]. unfold ex, flat. cbn [ex_var]. rewrite !Rmult_1_r.
  destruct two_weights as (u & U & E0 & E1). pose proof exp2_bounds as B.
  set (q := exp (-2)) in *.
  assert (M : mix_density g origin = (u + u * q)%R).
  { unfold mix_density. change (gm_k g) with 2. cbn [sumn]. fold g in E0, E1. rewrite E0, E1. lra. }
  assert (Pm : (0 < u + u * q)%R) by (assert (0 < u * q)%R by (apply Rmult_lt_0_compat; lra); lra).
  assert (P0 : probas g origin 0 = (u / (u + u * q))%R).
  { rewrite probas_regular; [|apply two_good|unfold g; simpl; lia|apply two_regular]. rewrite M. fold g in E0. now rewrite E0. }
  assert (P1 : probas g origin 1 = (u * q / (u + u * q))%R).
  { rewrite probas_regular; [|apply two_good|unfold g; simpl; lia|apply two_regular]. rewrite M. fold g in E1. now rewrite E1. }
  assert (D : dprobas g origin 1 0 = (2 * (u * q) * u / ((u + u * q) * (u + u * q)))%R).
  { unfold dprobas. cbv zeta. change (gm_k g) with 2. cbn [sumn].
    rewrite !pdf_density by (apply two_good || (unfold g; simpl; lia)). fold g in E0, E1.
    change (gm_d g) with 2. cbn [sumn].
    assert (Pr : forall c i, precision g c i 0 = if Nat.eqb i 0 then 1%R else 0%R).
    { intros c i. unfold precision, g, two, gmx_new. cbn [gm_d gm_chol sumn Nat.eqb]. destruct i as [|[|i]]; simpl; ring. }
    rewrite !Pr. cbn [Nat.eqb]. change (origin 0) with 0%R. change (origin 1) with 0%R.
    assert (Mu : gm_mu g 0 0 = 0%R /\ gm_mu g 0 1 = 0%R /\ gm_mu g 1 0 = 2%R /\ gm_mu g 1 1 = 0%R /\ gm_h g = 1%R) by (repeat split; reflexivity).
    destruct Mu as (-> & -> & -> & -> & ->).
    replace (- gm_w g 0 * density g origin 0)%R with (- u)%R by (rewrite <- E0; ring).
    replace (- gm_w g 1 * density g origin 1)%R with (- (u * q))%R by (rewrite <- E1; ring).
    rewrite E0, E1. field. lra. }
  rewrite D, P0, P1. intros Z.
  assert (F : ((u / (u + u * q) - u * q / (u + u * q)) * (2 * (u * q) * u / ((u + u * q) * (u + u * q))))%R =
              (2 * u * u * u * q * (1 - q) * / ((u + u * q) * (u + u * q) * (u + u * q)))%R) by (field; lra).
  rewrite F in Z.
  assert (Pos : (0 < 2 * u * u * u * q * (1 - q) * / ((u + u * q) * (u + u * q) * (u + u * q)))%R).
  { apply Rmult_lt_0_compat; [repeat (apply Rmult_lt_0_compat; try lra)|].
    apply Rinv_0_lt_compat. repeat apply Rmult_lt_0_compat; lra. }
  lra.
Qed.
Print Assumptions C46_variance_gradient_value_refuted.

(** The error, for any mixture of as many clusters as features: the responsibility of cluster j (the feature) is used in
    place of that of each cluster. *)
Theorem C46_variance_gradient_error_partial : forall g ex x, good_mixture g -> regular g x ->
  (forall i, i < gm_k g -> depends (gm_d g) (ex_var (ex i)) /\ gradient (gm_d g) (ex_var (ex i)) x (ex_vgrad (ex i) x)) ->
  2 <= gm_k g -> gm_d g = gm_k g ->
  exists v l, smooth_vgrad g ex x = Some v /\ gradient (gm_d g) (smooth_var g ex) x l /\
  forall j, j < gm_d g ->
    v j = (l j + 2 * sumn (gm_k g) (fun i => (probas g x j - probas g x i) * dprobas g x i j * ex_var (ex i) x))%R.
Proof.
  intros g ex x G R W K D. destruct (smooth_vgrad_square g ex x K D) as (v & E & H).
  exists v, (true_vgrad g ex x). split; [exact E|]. split; [|exact H].
  apply true_vgrad_correct; try assumption; intros i Hi; now apply W.
Qed.
Print Assumptions C46_variance_gradient_error_partial.
(** Two clusters in the plane: the gradient of the value is right and the error on the one of the variance is known. *)
Example C46_example : let ex := fun _ : nat => flat in
  gradient 2 (smooth_val (two 2 2) ex) origin (smooth_grad (two 2 2) ex origin) /\
  exists v l, smooth_vgrad (two 2 2) ex origin = Some v /\ gradient 2 (smooth_var (two 2 2) ex) origin l.
Proof.
  intros ex.
  assert (V : forall i, i < gm_k (two 2 2) -> depends (gm_d (two 2 2)) (ex_val (ex i)) /\ gradient (gm_d (two 2 2)) (ex_val (ex i)) origin (ex_grad (ex i) origin)).
  { intros i _. split; [intros x y _; reflexivity|]. intros j _. unfold partial, ex, flat. simpl. apply derive_const. }
  assert (W : forall i, i < gm_k (two 2 2) -> depends (gm_d (two 2 2)) (ex_var (ex i)) /\ gradient (gm_d (two 2 2)) (ex_var (ex i)) origin (ex_vgrad (ex i) origin)).
  { intros i _. split; [intros x y _; reflexivity|]. intros j _. unfold partial, ex, flat. simpl. apply derive_const. }
  split; [exact (proj1 (C46_gradients_partial (two 2 2) ex origin (two_good 2 2) two_regular V W))|].
  destruct (C46_variance_gradient_error_partial (two 2 2) ex origin (two_good 2 2) two_regular W ltac:(simpl; lia) eq_refl) as (v & l & E & L & _).
  exists v, l. split; [exact E|exact L].
Qed.

(** ** C48: choice of the expert of a cluster *)

(** The expert of each cluster of a trained mixture is trained with an allowed trend and correlation whose error is not
    above that of any other allowed pair, and below that of every earlier pair; its hyperparameter tuning is the single
    one given or that of its cluster. *)
Theorem C48_best : forall (G E T : Type) gm_clusters gmm_fit resp cv train_expert best_nclusters factor_errors factors
    (p : params G T) dim xt yt (m : mixture G E) c e,
  length yt = length xt ->
  train gm_clusters gmm_fit resp cv train_expert best_nclusters factor_errors factors p dim xt yt = Ok m ->
  nth_error (mx_experts m) c = Some e ->
  let rows := cluster_rows resp (mx_gmx m) xt yt c in
  let error t r := compute_error (length rows) dim t (cv rows t r) in
  (forall t r, allows (p_specs p) t = true -> allows_corr (p_specs p) r = true -> fnan (error t r) = false) ->
  exists mean corr tuning, train_expert mean corr tuning rows = Ok e /\
    allows (p_specs p) mean = true /\ allows_corr (p_specs p) corr = true /\
    (forall t r, allows (p_specs p) t = true -> allows_corr (p_specs p) r = true ->
       (ord (error mean corr) <= ord (error t r))%R /\
       (earlier (t, r) (mean, corr) -> (ord (error mean corr) < ord (error t r))%R)) /\
    (p_sparse p = false -> nth_error (p_tunings p) (if Nat.eqb (length (p_tunings p)) 1 then 0 else c) = Some tuning) /\
    (p_sparse p = true -> mean = Constant).
Proof.
  intros G E T gm_clusters gmm_fit resp cv train_expert best_nclusters factor_errors factors p dim xt yt m c e Hl H Hc rows error N.
  destruct (train_spec _ _ _ _ _ _ _ _ _ _ _ _ _ Hl H) as ((A & B & _) & _).
  assert (Lc : c < gm_clusters (fst (mx_gmx m))) by (rewrite <- A; apply nth_error_Some; congruence).
  destruct (B c Lc) as (e' & Hc' & Tr). rewrite Hc in Hc'. injection Hc' as <-. fold rows in Tr.
  unfold trained, find_best_expert in Tr.
  destruct (best_models _ _ _ _) as [[mean corr]|] eqn:Bm; [|discriminate].
  destruct (best_models_spec _ _ _ _ _ _ Bm N) as (A1 & A2 & A3).
  set (ti := if p_sparse p then 0 else _) in Tr.
  destruct (nth_error (p_tunings p) ti) as [tuning|] eqn:Et.
  - exists mean, corr, tuning. split; [destruct (p_sparse p); [destruct mean; try discriminate|]; exact Tr|].
    split; [exact A1|]. split; [exact A2|]. split; [exact A3|]. split.
    + intros F. unfold ti in Et. rewrite F in Et. destruct (Nat.eqb (length (p_tunings p)) 1) eqn:L1.
      * destruct c; exact Et.
      * rewrite andb_false_r in Et. exact Et.
    + intros F. rewrite F in Tr. destruct mean; [reflexivity|discriminate|discriminate].
  - destruct (p_sparse p); [destruct mean; discriminate|discriminate].
Qed.
Print Assumptions C48_best.

(** A choice exists as soon as one pair is allowed, and it is by errors only: NaN errors aside, no panic. *)
Theorem C48_exists : forall s n dim cv t r, allows s t = true -> allows_corr s r = true ->
  exists mean corr, best_models s n dim cv = Some (mean, corr).
Proof. intros s n dim cv t r A B. destruct (best_models_some s n dim cv t r A B) as [[a b] H]. now exists a, b. Qed.
Print Assumptions C48_exists.
Example C48_example :
  best_models (Specs true true false true false true true) 9 1
    (fun t r => match t, r with Linear, Matern32 => fofZ 2 | Linear, Matern52 => fofZ 2 | _, _ => fofZ 3 end) = Some (Linear, Matern32).
Proof. vm_compute. reflexivity. Qed.

(** ** C49: eligibility of the trends *)

(** In dimension 2 and above, no number of samples is enough: linear and quadratic trends get an infinite error, and a
    constant trend is retained whenever it is allowed with a finite error, even if every other trend has a zero
    cross-validation error. *)
Theorem C49_no_sample_is_enough_refuted : forall dim, 2 <= dim -> forall n cv,
  (forall t r, t <> Constant -> compute_error n dim t (cv t r) = finf) /\
  (forall s mean corr, allows s Constant = true -> (forall r, is_finite (cv Constant r) = true) ->
     best_models s n dim cv = Some (mean, corr) -> mean = Constant).
Proof.
  intros dim D n cv.
  assert (I : forall t r, t <> Constant -> compute_error n dim t (cv t r) = finf).
  { intros t r Ht. unfold compute_error. cbv zeta. assert (M : Nat.min n 5 <= 5) by apply Nat.le_min_r.
    destruct t; [congruence| |].
    - destruct (Nat.ltb_spec (Nat.min n 5) (3 * dim)); [reflexivity|lia].
    - destruct (Nat.ltb_spec (Nat.min n 5) (4 * dim)); [reflexivity|lia]. }
  split; [exact I|]. intros s mean corr A F B.
  assert (N : forall t r, fnan (compute_error n dim t (cv t r)) = false).
  { intros t r. destruct t; [|rewrite I; [reflexivity|discriminate]|rewrite I; [reflexivity|discriminate]].
    unfold compute_error. now apply finite_not_nan. }
  destruct (best_models_spec _ _ _ _ _ _ B) as (_ & Ac & Min); [intros; apply N|].
  destruct (Min Constant corr A Ac) as [_ St].
  destruct mean; [reflexivity|exfalso|exfalso].
  - assert (L : earlier (Constant, corr) (Linear, corr)) by (left; simpl; lia). specialize (St L).
    rewrite I in St by discriminate. destruct (Min Constant corr A Ac) as [Le _]. rewrite I in Le by discriminate.
    unfold compute_error in Le. rewrite ord_finf, (ord_fin _ (F corr)) in Le. pose proof (ord_inf_gt _ (F corr)). lra.
  - assert (L : earlier (Constant, corr) (Quadratic, corr)) by (left; simpl; lia). specialize (St L).
    rewrite I in St by discriminate. destruct (Min Constant corr A Ac) as [Le _]. rewrite I in Le by discriminate.
    unfold compute_error in Le. rewrite ord_finf, (ord_fin _ (F corr)) in Le. pose proof (ord_inf_gt _ (F corr)). lra.
Qed.
Print Assumptions C49_no_sample_is_enough_refuted.
Example C49_refuted_example :
  best_models (Specs true true true true false false false) 1000 2
    (fun t _ => match t with Constant => fofZ 1000000 | _ => fzero end) = Some (Constant, SquaredExponential).
Proof. vm_compute. reflexivity. Qed.

(** In dimension 1, four samples are enough for all trends and three for linear ones. *)
Theorem C49_one_dimension_partial : forall n t r (cv : mean_kind -> corr_kind -> f64),
  (match t with Constant => 0 | Linear => 3 | Quadratic => 4 end) <= n -> compute_error n 1 t (cv t r) = cv t r.
Proof.
  intros n t r cv H. unfold compute_error. cbv zeta. destruct t; [reflexivity| |].
  - destruct (Nat.ltb_spec (Nat.min n 5) (3 * 1)) as [L|L]; [|reflexivity]. apply Nat.min_lt_iff in L. lia.
  - destruct (Nat.ltb_spec (Nat.min n 5) (4 * 1)) as [L|L]; [|reflexivity]. apply Nat.min_lt_iff in L. lia.
Qed.
Print Assumptions C49_one_dimension_partial.

(** ** C50: cluster sizes *)

(** A training succeeds with fewer points in a cluster than coefficients in the only allowed trend: dimension 4, linear
    trend (5 coefficients), two clusters of three points. *)
Definition lin_specs : specs := Specs false true false true false false false.
Definition wide_x : list (list f64) := map (fun z => [fofZ z; fone; fofZ (z * z); fzero]) [-3; -2; -1; 1; 2; 3]%Z.
Definition wide_y : list f64 := map fofZ [0; 1; 2; 3; 4; 5]%Z.
Definition wide_params : params unit unit := Params false (Fixed 2) Hard lin_specs [tt] None.
Theorem C50_too_few_points_refuted : exists dim p xt yt m c,
  ex_train p dim xt yt = Ok m /\ 1 < length (mx_experts m) /\ c < length (mx_experts m) /\
  length yt = length xt /\ Forall (fun x => length x = dim) xt /\
  allows (p_specs p) Constant = false /\ allows (p_specs p) Quadratic = false /\
  length (cluster_rows ex_resp (mx_gmx m) xt yt c) < coefficients Linear dim.
Proof.
  destruct (ex_train wide_params 4 wide_x wide_y) as [m| |] eqn:Er.
  - exists 4, wide_params, wide_x, wide_y, m, 0. split; [exact Er|].
    assert (L : length (mx_experts m) = 2).
    { change 2 with (match ex_train wide_params 4 wide_x wide_y with Ok m => length (mx_experts m) | _ => 2 end). now rewrite Er. }
    rewrite L. split; [lia|]. split; [lia|]. split; [reflexivity|].
    split; [unfold wide_x; simpl; repeat apply Forall_cons; try reflexivity; apply Forall_nil|].
    split; [reflexivity|]. split; [reflexivity|].
    assert (Q : forall g, length (cluster_rows ex_resp g wide_x wide_y 0) = 3) by (intros g; vm_compute; reflexivity).
    rewrite Q. simpl. lia.
  - exfalso. assert (F : (match ex_train wide_params 4 wide_x wide_y with Ok _ => true | _ => false end) = true) by (vm_compute; reflexivity).
    rewrite Er in F. discriminate F.
  - exfalso. assert (F : (match ex_train wide_params 4 wide_x wide_y with Ok _ => true | _ => false end) = true) by (vm_compute; reflexivity).
    rewrite Er in F. discriminate F.
Qed.
Print Assumptions C50_too_few_points_refuted.

(** What is guaranteed with several clusters: three points in each, and rows times columns (not rows) at least the
    number of coefficients of each allowed trend; hence enough points for a constant trend, and for a quadratic trend
    half the dimension plus one. *)
Theorem C50_cluster_sizes_partial : forall (G E T : Type) gm_clusters gmm_fit resp cv train_expert best_nclusters factor_errors factors
    (p : params G T) dim xt yt (m : mixture G E) c,
  length yt = length xt ->
  train gm_clusters gmm_fit resp cv train_expert best_nclusters factor_errors factors p dim xt yt = Ok m ->
  1 < length (mx_experts m) -> c < length (mx_experts m) ->
  let n := length (cluster_rows resp (mx_gmx m) xt yt c) in
  3 <= n /\
  (forall t, allows (p_specs p) t = true -> coefficients t dim <= n * (dim + 1)) /\
  (allows (p_specs p) Quadratic = true -> dim + 2 <= 2 * n + 1).
Proof.
  intros G E T gm_clusters gmm_fit resp cv train_expert best_nclusters factor_errors factors p dim xt yt m c Hl H K Hc n.
  destruct (train_spec _ _ _ _ _ _ _ _ _ _ _ _ _ Hl H) as ((A & _ & B) & _). rewrite A in K, Hc.
  destruct (B K c Hc) as [B1 B2]. fold n in B1, B2. split; [exact B1|]. split; [exact B2|].
  intros Q. specialize (B2 Quadratic Q). unfold coefficients in B2.
  assert (D : (dim + 1) * (dim + 2) <= 2 * ((dim + 1) * (dim + 2) / 2) + 1).
  { pose proof (Nat.div_mod ((dim + 1) * (dim + 2)) 2 ltac:(lia)). pose proof (Nat.mod_upper_bound ((dim + 1) * (dim + 2)) 2 ltac:(lia)). lia. }
  nia.
Qed.
Print Assumptions C50_cluster_sizes_partial.
Example C50_example : shape (ex_train wide_params 4 wide_x wide_y) = Some ([(Linear, 3); (Linear, 3)], None).
Proof. vm_compute. reflexivity. Qed.
(** Two rows in a cluster are refused. *)
Example C50_small_cluster : shape (ex_train (Params false (Fixed 2) Hard ex_specs [tt] None) 1 (tl ex_x) (tl ex_y)) = None.
Proof. vm_compute. reflexivity. Qed.

(** ** C89: the announced smoothing factor is the one in use *)

(** A mixture trained without a given clustering applies the factor its recombination mode announces; with a fixed number
    of clusters above one, smooth recombination always announces a factor; the mode is the requested one. *)
Theorem C89_trained_partial : forall (G E T : Type) gm_clusters gmm_fit resp cv train_expert best_nclusters factor_errors factors
    (p : params G T) dim xt yt (m : mixture G E),
  length yt = length xt ->
  train gm_clusters gmm_fit resp cv train_expert best_nclusters factor_errors factors p dim xt yt = Ok m ->
  (p_gmx p = None -> snd (mx_gmx m) = factor_of (mx_recomb m)) /\
  (forall nb, p_nclusters p = Fixed nb ->
     match p_recomb p with
     | Smooth None => mx_recomb m = Smooth None /\ nb <= 1 \/ exists f, mx_recomb m = Smooth (Some f)
     | r => mx_recomb m = r
     end).
Proof.
  intros G E T gm_clusters gmm_fit resp cv train_expert best_nclusters factor_errors factors p dim xt yt m Hl H.
  destruct (train_spec _ _ _ _ _ _ _ _ _ _ _ _ _ Hl H) as (_ & A & B & _ & D). split; [exact A|].
  intros nb N. destruct (D nb N) as [R|(R & f & F)].
  - destruct (p_recomb p) as [|[f|]]; [exact R|exact R|]. left. split; [exact R|]. specialize (B R).
    rewrite N in B. simpl in B. apply Nat.ltb_ge in B. exact B.
  - rewrite R. right. now exists f.
Qed.
Print Assumptions C89_trained_partial.
(** A factor of 3, shown in eighths. *)
Example C89_example : option_map snd (shape (ex_train (Params false (Fixed 2) (Smooth (Some (fofZ 3))) ex_specs [tt] None) 1 ex_x ex_y)) = Some (Some 24%Z).
Proof. vm_compute. reflexivity. Qed.

(** Changing the recombination afterwards announces the new factor but keeps applying the old one. *)
Theorem C89_set_recombination_refuted : forall (G E : Type) (m : mixture G E) f,
  mx_recomb (set_recombination m (Smooth (Some f))) = Smooth (Some f) /\
  mx_gmx (set_recombination m (Smooth (Some f))) = mx_gmx m.
Proof. intros; now split. Qed.
(** The mode announced afterwards is the requested one, with the factor 1 when a smooth one is requested without factor, and
    the experts are kept. *)
Theorem C89_announced : forall (G E : Type) (m : mixture G E) r,
  mx_recomb (set_recombination m r) <> Smooth None /\
  (r <> Smooth None -> mx_recomb (set_recombination m r) = r) /\
  (r = Smooth None -> mx_recomb (set_recombination m r) = Smooth (Some fone)) /\
  mx_experts (set_recombination m r) = mx_experts m.
Proof. intros G E m [|[f|]]; repeat split; (discriminate || (intros C; now elim C) || reflexivity). Qed.
Print Assumptions C89_announced.
(** So a factor differing from the applied one exists for every mixture. *)
Theorem C89_factor_refuted : forall (G E : Type) (m : mixture G E), exists f,
  snd (mx_gmx (set_recombination m (Smooth (Some f)))) <> factor_of (mx_recomb (set_recombination m (Smooth (Some f)))).
Proof.
  intros G E m. destruct (feq (snd (mx_gmx m)) fone) eqn:H.
  - exists fzero. cbn [set_recombination mx_gmx mx_recomb factor_of]. intros C. rewrite C in H.
    assert (Q : feq fzero fone = false) by (vm_compute; reflexivity). congruence.
  - exists fone. cbn [set_recombination mx_gmx mx_recomb factor_of]. intros C. rewrite C in H.
    assert (Q : feq fone fone = true) by (vm_compute; reflexivity). congruence.
Qed.
Print Assumptions C89_factor_refuted.

(** Training with a given clustering ignores the requested factor. *)
Theorem C89_given_clustering_refuted : exists p xt yt m f,
  ex_train p 1 xt yt = Ok m /\ p_recomb p = Smooth (Some f) /\ mx_recomb m = Smooth (Some f) /\ snd (mx_gmx m) <> f.
Proof.
  set (p := Params false (Fixed 2) (Smooth (Some (fofZ 7))) ex_specs [tt] (Some (tt, fone))).
  destruct (ex_train p 1 ex_x ex_y) as [m| |] eqn:Er.
  - exists p, ex_x, ex_y, m, (fofZ 7). split; [exact Er|]. split; [reflexivity|].
    assert (R : match ex_train p 1 ex_x ex_y with Ok m => mx_recomb m = Smooth (Some (fofZ 7)) /\ mx_gmx m = (tt, fone) | _ => True end).
    { rewrite Er. destruct (train_spec _ _ _ _ _ _ _ _ p 1 ex_x ex_y m eq_refl Er) as (_ & _ & _ & A & B). split; [|now apply A].
      destruct (B 2 eq_refl) as [B2|(B2 & _)]; [exact B2|discriminate B2]. }
    rewrite Er in R. destruct R as [R1 R2]. split; [exact R1|]. rewrite R2. cbn [snd].
    intros C. assert (Q : feq fone (fofZ 7) = feq fone fone) by (now rewrite <- C). vm_compute in Q. discriminate Q.
  - exfalso. assert (F : (match ex_train p 1 ex_x ex_y with Ok _ => true | _ => false end) = true) by (vm_compute; reflexivity).
    rewrite Er in F. discriminate F.
  - exfalso. assert (F : (match ex_train p 1 ex_x ex_y with Ok _ => true | _ => false end) = true) by (vm_compute; reflexivity).
    rewrite Er in F. discriminate F.
Qed.
Print Assumptions C89_given_clustering_refuted.

(** Training calls itself at most once, so it terminates: any further level is never reached. *)
Theorem C89_training_depth : forall (G E T : Type) gm_clusters gmm_fit resp cv train_expert best_nclusters factor_errors factors
    (p : params G T) dim xt yt (deeper : params G T -> res (mixture G E)),
  train gm_clusters gmm_fit resp cv train_expert best_nclusters factor_errors factors p dim xt yt =
  train_with gm_clusters gmm_fit resp cv train_expert best_nclusters factor_errors factors
    (fun p' => train_with gm_clusters gmm_fit resp cv train_expert best_nclusters factor_errors factors deeper p' dim xt yt)
    p dim xt yt.
Proof. intros. apply train_two_levels. Qed.
Print Assumptions C89_training_depth.
