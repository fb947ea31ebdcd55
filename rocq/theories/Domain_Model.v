(** Model of the proposal of a local (trust-region) step. *)
From Coq Require Import List Arith Bool.
From Verif Require Import F64 Util Coego_Model Inner_Model Trego_Model.
Import ListNotations.
Local Open Scope nat_scope.

(** trego.rs:52-75 [multistart]: the starts of a group are sampled in the local area of its variables. [lhs i n
    area] is the design drawn for group [i], attempt [n]. *)
Definition local_starts (lhs : nat -> nat -> list (f64 * f64) -> list (list f64)) (d0 d1 : f64)
    (limits : list (f64 * f64)) (origin : list f64) (i n : nat) (a : list nat) : list (list f64) :=
  match get_active limits a, get_active origin a with
  | Some l, Some o => match local_area d0 d1 o l with Some area => lhs i n area | None => [] end
  | _, _ => []
  end.

(** trego.rs:84-150, the proposal of [trego_step]: the optimization of the criterion over the whole domain, started
    in the local area around the best point. [d0 d1] are [config.trego.d]; the current size [sigma] of the trust
    region is only used in a debug message (trego.rs:156-161). *)
Definition local_proposal (lhs : nat -> nat -> list (f64 * f64) -> list (list f64)) (d0 d1 sigma : f64)
    (solve : list f64 -> list nat -> list (f64 * f64) -> nat -> list f64 -> outcome)
    (sched : nat -> nat -> list (f64 * list f64) -> cut) (limits : list (f64 * f64)) (rows : list (list nat))
    (xbest : list f64) (ybest : f64) : option (f64 * list f64) :=
  optimize_infill (inner_optimizer solve (local_starts lhs d0 d1 limits xbest) sched limits) rows xbest ybest.
