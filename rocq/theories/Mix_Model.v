(** Validation of the parameters of a mixture and entry point of its training. *)
From Coq Require Import ZArith List Arith Bool.
From Verif Require Import F64 Util Moe_Model.
Import ListNotations.
Local Open Scope nat_scope.

(** crates/moe/src/parameters.rs:338-367 [check_ref], [check]: a projection on no component is an error, numbers of clusters and
    of tunings that do not fit together are a panic. *)
Definition check {G T} (kpls : option nat) (p : params G T) : res unit :=
  match kpls with
  | Some 0 => Err
  | _ => if check_ref p then Ok tt else Panic
  end.

(** algorithm.rs:363, [Array1::linspace(0.1, 2.1, 20)]: ndarray computes [start + step * i] with [step = (end - start) / 19]. *)
Definition scale_factors : list f64 :=
  let a := fdiv fone (fofZ 10) in
  let step := fdiv (fsub (fdiv (fofZ 21) (fofZ 10)) a) (fofZ 19) in
  map (fun i => fadd a (fmul step (fofZ (Z.of_nat i)))) (seq 0 20).

(** algorithm.rs:364-369, error of one factor on the validation rows, whose last column is the output: [norm l] is the square root of
    the sum of the squares, [predict] the smooth prediction of one row. *)
Definition factor_error {G E} (norm : list f64 -> f64) (predict : list E -> G * f64 -> list f64 -> f64)
    (experts : list E) (g : G) (test : list (list f64)) (f : f64) : f64 :=
  fdiv (norm (map (fun r => fsub (predict experts (g, f) (removelast r)) (last r fzero)) test))
       (norm (concat (map (@removelast f64) test))).

(** linfa's [Fit::fit] on unchecked parameters: [check] then algorithm.rs:60-68 [fit]; the concatenation of inputs and outputs
    (algorithm.rs:80-84) panics when there are not as many inputs as outputs. *)
Definition fit_mixture {G E T} (gm_clusters : G -> nat) (gmm_fit : nat -> list (list f64) -> res G)
    (resp : G * f64 -> list f64 -> list f64) (cv : list (list f64) -> mean_kind -> corr_kind -> f64)
    (train_expert : mean_kind -> corr_kind -> T -> list (list f64) -> res E)
    (best_nclusters : nat -> list (list f64) -> list f64 -> nat * recombination)
    (norm : list f64 -> f64) (predict : list E -> G * f64 -> list f64 -> f64)
    (kpls : option nat) (p : params G T) (dim : nat) (xt : list (list f64)) (yt : list f64) : res (mixture G E) :=
  bind (check kpls p) (fun _ =>
    if length yt =? length xt
    then train gm_clusters gmm_fit resp cv train_expert best_nclusters
           (fun experts g test => map (factor_error norm predict experts g test) scale_factors) scale_factors p dim xt yt
    else Panic).
