(** Training and hard recombination of mixtures of experts.
    Source: crates/moe/src/{algorithm,clustering,gaussian_mixture,parameters,expertise_macros}.rs.
    Oracles (arguments of the definitions): the fit of the Gaussian mixture model (linfa-clustering),
    the responsibilities in floating point, the training and predictions of an expert, the
    cross-validation errors and the automatic choice of the number of clusters. *)
From Coq Require Import ZArith Reals List Arith Lia Bool.
From Flocq Require Import Core.Core IEEE754.BinarySingleNaN.
From Verif Require Import F64 Util.
Import ListNotations.
Local Open Scope nat_scope.

(** Outcome of a fallible function: a value, an error returned to the caller, or a panic. *)
Inductive res (A : Type) : Type := Ok (a : A) | Err | Panic.
Arguments Ok {A} a. Arguments Err {A}. Arguments Panic {A}.
Definition bind {A B} (r : res A) (f : A -> res B) : res B :=
  match r with Ok a => f a | Err => Err | Panic => Panic end.

(** ** extract_part *)

(** Rust [f32]: binary32, rounding to nearest even. *)
Definition f32 : Set := binary_float 24 128.
Global Instance f32_prec : FLX.Prec_gt_0 24. Proof. reflexivity. Qed.
Global Instance f32_emax : Prec_lt_emax 24 128. Proof. reflexivity. Qed.
(** Rust [n as f32] on [usize]. *)
Definition ofN32 (n : nat) : f32 := binary_normalize 24 128 f32_prec f32_emax mode_NE (Z.of_nat n) 0 false.
(** Rust [v as usize] / [to_usize] on a finite non-negative [f32]: truncation. *)
Definition toN32 (v : f32) : nat := Z.to_nat (Btrunc v).
(** [ceil] followed by [to_usize] of a finite non-negative [f32]. *)
Definition ceilN32 (v : f32) : nat :=
  let t := toN32 v in if Beqb (ofN32 t) v then t else S t.

(** ndarray [Array1::range(0., b, step)]: ceil((b - 0) / step) elements, the i-th being 0 + step * i,
    all in [f32]. [None]: the number of elements is not a number of elements ([to_usize] fails). *)
Definition range32 (b step : f32) : option (list f32) :=
  let len := Bdiv mode_NE (Bminus mode_NE b (B754_zero false)) step in
  if is_finite len
  then Some (map (fun i => Bplus mode_NE (B754_zero false) (Bmult mode_NE step (ofN32 i))) (seq 0 (ceilN32 len)))
  else None.

(** ndarray [select(Axis(0), indices)]: panics on an index out of range. *)
Definition select {A} (data : list A) (idx : list nat) : option (list A) := mapM (nth_error data) idx.

(** algorithm.rs:1111-1121, extract_part. [i % 0] panics; so does a zero step before it. *)
Definition extract_part {A} (data : list A) (quantile : nat) : option (list A * list A) :=
  let nsamples := length data in
  do r <- range32 (ofN32 nsamples) (ofN32 quantile);
  do data_test <- select data (map toN32 r);
  do data_train <- select data (filter (fun i => negb (Nat.eqb (i mod quantile) 0)) (seq 0 nsamples));
  Some (data_test, data_train).

(** ** sort_by_cluster *)

(** clustering.rs:33-56: for each cluster number, the rows with that label, in order.
    [data.row(k)] panics when there are more labels than rows. *)
Definition sort_by_cluster {A} (n_clusters : nat) (data : list A) (labels : list nat) : option (list (list A)) :=
  mapM (fun n =>
    select data (map fst (filter (fun p => Nat.eqb (snd p) n) (combine (seq 0 (length labels)) labels))))
    (seq 0 n_clusters).

(** ** Hard recombination *)

(** ndarray-stats [argmax] on one row: an error when a NaN is met or the row is empty, otherwise the
    first of the largest elements. *)
Definition argmax (l : list f64) : option nat :=
  if existsb fnan l then None else argmin_by (fun a b => flt b a) l.

(** gaussian_mixture.rs:305-316, predict_inplace, one row of responsibilities: [argmax().unwrap_or(0)]. *)
Definition hard_cluster (resp : list f64) : nat := match argmax resp with Some c => c | None => 0 end.

(** types.rs:17-28, Recombination. *)
Inductive recombination := Hard | Smooth (f : option f64).

(** algorithm.rs:430-442, GpMixture: recombination mode, experts, mixture. The Gaussian mixture is seen as a
    fitted part of type G and its heaviside factor (gaussian_mixture.rs:39). *)
Record mixture (G E : Type) := Mixture {
  mx_recomb : recombination;
  mx_experts : list E;
  mx_gmx : G * f64 }.
Arguments Mixture {G E}. Arguments mx_recomb {G E}. Arguments mx_experts {G E}. Arguments mx_gmx {G E}.

(** algorithm.rs:879-888 predict_hard, 894-910 predict_var_hard, 915-935 predict_valvar_hard, 942-959
    predict_gradients_hard, 965-981, 986-1005: for each row the expert of its cluster is applied to
    this row alone. [pred] is any of value, variance, their pair, gradients. *)
Definition predict_hard {G E V} (resp : G * f64 -> list f64 -> list f64) (pred : E -> list f64 -> V)
    (m : mixture G E) (xs : list (list f64)) : option (list V) :=
  mapM (fun x => do e <- nth_error (mx_experts m) (hard_cluster (resp (mx_gmx m) x)); Some (pred e x)) xs.

(** ** Choice of the expert of a cluster *)
Inductive mean_kind := Constant | Linear | Quadratic.
Inductive corr_kind := SquaredExponential | AbsoluteExponential | Matern32 | Matern52.
(** types.rs:43-104, RegressionSpec and CorrelationSpec: sets of allowed models. *)
Record specs := Specs {
  s_const : bool; s_lin : bool; s_quad : bool;
  s_sqexp : bool; s_absexp : bool; s_m32 : bool; s_m52 : bool }.

Definition allow {A} (b : bool) (a : A) : list A := if b then [a] else [].
(** algorithm.rs:218-238. *)
Definition allowed_means (s : specs) : list mean_kind :=
  allow (s_const s) Constant ++ allow (s_lin s) Linear ++ allow (s_quad s) Quadratic.
Definition allowed_corrs (s : specs) : list corr_kind :=
  allow (s_sqexp s) SquaredExponential ++ allow (s_absexp s) AbsoluteExponential ++
  allow (s_m32 s) Matern32 ++ allow (s_m52 s) Matern52.

(** expertise_macros.rs:14-51, compute_error: [cv] is the mean cross-validation error (lines 32-49). *)
Definition compute_error (nsamples input_dim : nat) (m : mean_kind) (cv : f64) : f64 :=
  let n_fold := Nat.min nsamples 5 in
  match m with
  | Quadratic => if n_fold <? 4 * input_dim then finf else cv
  | Linear => if n_fold <? 3 * input_dim then finf else cv
  | Constant => cv
  end.

(** expertise_macros.rs:53-130, compute_errors: the candidates, in order. *)
Definition candidates (s : specs) : list (mean_kind * corr_kind) :=
  flat_map (fun m => map (fun c => (m, c)) (allowed_corrs s)) (allowed_means s).

(** [min_by(|a, b| a.partial_cmp(b).unwrap_or(Equal))]: the first element is kept unless it compares
    Greater with a later one. *)
Definition min_by (l : list f64) : option nat :=
  argmin_by (fun a cur => match fcmp cur a with Some Gt => true | _ => false end) l.

(** algorithm.rs:241-258, the retained pair of models; [None]: the unwrap of an empty minimum panics. *)
Definition best_models (s : specs) (nsamples dim : nat) (cv : mean_kind -> corr_kind -> f64) :
    option (mean_kind * corr_kind) :=
  match allowed_means s, allowed_corrs s with
  | [m], [c] => Some (m, c)
  | _, _ =>
      let cands := candidates s in
      do i <- min_by (map (fun p => compute_error nsamples dim (fst p) (cv (fst p) (snd p))) cands);
      nth_error cands i
  end.

(** algorithm.rs:261-345: full or sparse model; a sparse model accepts constant trends only. The index of the
    hyperparameter tuning is 0 when a single one is given for several clusters (lines 301-306); for sparse
    models always 0 (line 337). [train] is the training of the expert. *)
Definition find_best_expert {E T} (sparse : bool) (s : specs) (tunings : list T) (nc : nat)
    (dim : nat) (cluster : list (list f64)) (cv : list (list f64) -> mean_kind -> corr_kind -> f64)
    (train : mean_kind -> corr_kind -> T -> list (list f64) -> res E) : res E :=
  match best_models s (length cluster) dim (cv cluster) with
  | None => Panic
  | Some (m, c) =>
      let ti := if sparse then 0 else if (0 <? nc) && Nat.eqb (length tunings) 1 then 0 else nc in
      let go := match nth_error tunings ti with Some t => train m c t cluster | None => Panic end in
      if sparse then match m with Constant => go | _ => Err end else go
  end.

(** algorithm.rs:381-405, check_number_of_points: [cluster.len()] is the number of elements of the
    two-dimensional array, rows times columns. *)
Definition check_number_of_points (clusters : list (list (list f64))) (ncols : nat) (dim : nat) (s : specs) : bool :=
  if 1 <? length clusters then
    let min_number_point :=
      if s_quad s then (dim + 1) * (dim + 2) / 2 else if s_lin s then dim + 1 else 1 in
    forallb (fun c => negb (length c * ncols <? min_number_point)) clusters
  else true.

(** ** Training *)
(** parameters.rs:24-39, NbClusters. *)
Inductive nb_clusters := Fixed (nb : nat) | Auto (mx : option nat).
(** parameters.rs:75-92. *)
Definition is_mono (n : nb_clusters) : bool := match n with Fixed nb => Nat.eqb nb 1 | Auto _ => false end.
Definition is_multi (n : nb_clusters) : bool := match n with Fixed nb => 1 <? nb | Auto _ => false end.

(** parameters.rs:110-138, GpMixtureValidParams (the fields used here). *)
Record params (G T : Type) := Params {
  p_sparse : bool; p_nclusters : nb_clusters; p_recomb : recombination; p_specs : specs;
  p_tunings : list T; p_gmx : option (G * f64) }.
Arguments Params {G T}. Arguments p_sparse {G T}. Arguments p_nclusters {G T}. Arguments p_recomb {G T}.
Arguments p_specs {G T}. Arguments p_tunings {G T}. Arguments p_gmx {G T}.

(** parameters.rs:342-362, check_ref without the kpls test: [false] is the panic on sizes. *)
Definition check_ref {G T} (p : params G T) : bool :=
  if is_multi (p_nclusters p) && Nat.eqb (length (p_tunings p)) 1 then true
  else match p_nclusters p with Fixed nb => Nat.eqb nb (length (p_tunings p)) | Auto _ => true end.

Section Train.
  Context {G E T : Type}.
  (** Oracles: see the header. [gm_clusters] is the number of clusters of a fitted mixture. *)
  Context (gm_clusters : G -> nat) (gmm_fit : nat -> list (list f64) -> res G)
          (resp : G * f64 -> list f64 -> list f64)
          (cv : list (list f64) -> mean_kind -> corr_kind -> f64)
          (train_expert : mean_kind -> corr_kind -> T -> list (list f64) -> res E)
          (best_nclusters : nat -> list (list f64) -> list f64 -> nat * recombination)
          (factor_errors : list E -> G -> list (list f64) -> list f64)
          (factors : list f64).

  (** algorithm.rs:353-378, optimize_heaviside_factor: [factors] is linspace(0.1, 2.1, 20) and
      [factor_errors] the prediction errors on the test part for each of them; [argmin] and [max] of
      ndarray-stats fail on a NaN, hence a panic. *)
  Definition optimize_heaviside_factor (p : params G T) (experts : list E) (g : G) (test : list (list f64)) : option f64 :=
    match p_recomb p with
    | Hard => Some fone
    | Smooth _ =>
        if is_mono (p_nclusters p) then Some fone
        else
          let errors := factor_errors experts g test in
          if existsb fnan errors then None
          else
            do i <- argmin_by (fun a b => flt a b) errors;
            do j <- argmax errors;
            do mx <- nth_error errors j;
            if flt mx (fmake 4722366482869645 (-72)) then Some fone else nth_error factors i
    end.

  (** algorithm.rs:60-68 [fit], 72-138 [train] and 144-205 [train_on_clusters]. The training rows are x with y as
      last column (lines 83-87, 151-155). *)
  Definition rows_of (xt : list (list f64)) (yt : list f64) : list (list f64) :=
    map (fun p => fst p ++ [snd p]) (combine xt yt).

  Fixpoint train_experts (p : params G T) (nb : nat) (dim : nat) (nc : nat) (cls : list (list (list f64))) : res (list E) :=
    match cls with
    | [] => Ok []
    | c :: cls' =>
        if (1 <? nb) && (length c <? 3) then Err
        else bind (find_best_expert (p_sparse p) (p_specs p) (p_tunings p) nc dim c cv train_expert)
               (fun e => bind (train_experts p nb dim (S nc) cls') (fun es => Ok (e :: es)))
    end.

  Definition train_on_clusters (retrain : params G T -> res (mixture G E)) (p : params G T) (dim : nat)
      (xt : list (list f64)) (yt : list f64) (g : G * f64) (recomb : recombination) : res (mixture G E) :=
    let data := rows_of xt yt in
    let labels := map (fun x => hard_cluster (resp g x)) xt in
    match sort_by_cluster (gm_clusters (fst g)) data labels with
    | None => Panic
    | Some clusters =>
        if check_number_of_points clusters (dim + 1) dim (p_specs p) then
          bind (train_experts p (length clusters) dim 0 clusters) (fun experts =>
            match recomb with
            | Smooth None =>
                if is_multi (p_nclusters p) then
                  match extract_part data 5 with
                  | None => Panic
                  | Some (test, _) =>
                      match optimize_heaviside_factor p experts (fst g) test with
                      | None => Panic
                      | Some f =>
                          let p' := Params (p_sparse p) (Fixed (gm_clusters (fst g))) (Smooth (Some f)) (p_specs p)
                                      (p_tunings p) (p_gmx p) in
                          if check_ref p' then retrain p' else Panic
                      end
                  end
                else Ok (Mixture recomb experts g)
            | _ => Ok (Mixture recomb experts g)
            end)
        else Err
    end.

  Definition train_with (retrain : params G T -> res (mixture G E)) (p : params G T) (dim : nat)
      (xt : list (list f64)) (yt : list f64) : res (mixture G E) :=
    let data := rows_of xt yt in
    let (n_clusters, recomb) :=
      match p_nclusters p with
      | Auto mx => best_nclusters (match mx with Some m => m | None => length xt / 10 + 1 end) xt yt
      | Fixed nb => (nb, p_recomb p)
      end in
    let training :=
      match recomb with
      | Smooth None => if is_multi (p_nclusters p) then option_map snd (extract_part data 5) else Some data
      | _ => Some data
      end in
    match training with
    | None => Panic
    | Some td =>
        bind (match p_gmx p with
              | Some g => Ok g
              | None =>
                  bind (gmm_fit n_clusters td) (fun g =>
                    Ok (g, match recomb with Smooth (Some f) => f | _ => fone end))
              end)
          (fun g => train_on_clusters retrain p dim xt yt g recomb)
    end.

  (** The recursion of [train] through [train_on_clusters] (line 196) is at most one level deep, the second call
      having [Smooth (Some _)]; a third call is modelled by a panic and proved never to happen. *)
  Definition train (p : params G T) (dim : nat) (xt : list (list f64)) (yt : list f64) : res (mixture G E) :=
    train_with (fun p' => train_with (fun _ => Panic) p' dim xt yt) p dim xt yt.
End Train.

(** algorithm.rs:632-639, set_recombination. *)
Definition set_recombination {G E} (m : mixture G E) (r : recombination) : mixture G E :=
  Mixture (match r with Smooth None => Smooth (Some fone) | _ => r end) (mx_experts m) (mx_gmx m).
