(** What it means for a model to know more observations. *)
From Coq Require Import Reals Arith.
From Verif Require Import RVec Moe_Model Kern_Model Gp_Model.
Local Open Scope R_scope.

(** The first n1 of n2 observations are the n1 observations. *)
Definition inputs_extended (n1 n2 nx : nat) (x1 x2 : mat) : Prop :=
  (n1 <= n2)%nat /\ forall i j, (i < n1)%nat -> (j < nx)%nat -> x2 i j = x1 i j.
Definition outputs_extended (n1 : nat) (y1 y2 : vec) : Prop := forall i, (i < n1)%nat -> y2 i = y1 i.
(** The models correlate any two points of the user's space, here at the distance d, in the same way. *)
Definition same_correlation (nx : nat) (ck1 : corr_kind) (h1 : nat) (th1 : vec) (w1 : mat) (s1 : vec)
    (ck2 : corr_kind) (h2 : nat) (th2 : vec) (w2 : mat) (s2 : vec) : Prop :=
  forall d : vec, kval ck1 nx h1 th1 w1 (fun c => d c / s1 c) = kval ck2 nx h2 th2 w2 (fun c => d c / s2 c).
