(** Specification vocabulary for the cooperative mode. *)
From Coq Require Import Reals.
From Coquelicot Require Import Coquelicot.
From Coq Require Import List Arith Bool Permutation.
From Verif Require Import F64 Util Coego_Model.
Import ListNotations.
Local Open Scope nat_scope.

(** The real variables of a group: its indices below the dimension. *)
Definition members (dim : nat) (g : list nat) : list nat := filter (fun i => i <? dim) g.

(** A point within the bounds. *)
Definition within (limits : list (f64 * f64)) (x : list f64) : Prop :=
  Forall2 (fun l v => fle (fst l) v = true /\ fle v (snd l) = true) limits x.

(** A finite number: neither NaN nor infinite. *)
Definition finite_number (v : f64) : bool := Flocq.IEEE754.BinarySingleNaN.is_finite v.

(** When it succeeds, the inner optimizer returns as many values as the group has variables, within their
    bounds. *)
Definition optimizer_ok (limits : list (f64 * f64)) (opt : optimizer) : Prop :=
  forall i n ctx a, let u := snd (opt i n ctx a) in finite_number (fst (opt i n ctx a)) = true ->
    length u = length (members (length limits) a) /\
    forall k j l v, nth_error (members (length limits) a) k = Some j -> nth_error limits j = Some l ->
      nth_error u k = Some v -> fle (fst l) v = true /\ fle v (snd l) = true.

(** [p] has the values [u] for the variables of group [a] and those of [ctx] elsewhere. *)
Definition assembled (ctx : list f64) (a : list nat) (u p : list f64) : Prop :=
  length p = length ctx /\
  (forall k j, nth_error (members (length ctx) a) k = Some j -> nth_error p j = nth_error u k) /\
  (forall j, ~ In j a -> nth_error p j = nth_error ctx j).

(** A finite value returned by the inner optimizer is the criterion at the assembled point. *)
Definition values_are (crit : list f64 -> f64) (opt : optimizer) : Prop :=
  forall i n ctx a p, finite_number (fst (opt i n ctx a)) = true -> assembled ctx a (snd (opt i n ctx a)) p ->
    fst (opt i n ctx a) = crit p.

(** [g] is the gradient of [F] at [x]: its [i]-th component is the derivative along the [i]-th variable. *)
Definition gradient_at (F : list R -> R) (x g : list R) : Prop :=
  length g = length x /\
  forall i, i < length x -> is_derive (fun t => F (set_nth i t x)) (nth i x 0%R) (nth i g 0%R).
