(** Words used by the statements about scheduling of clustering and tuning. *)
From Coq Require Import Reals List Arith Bool.
From Verif Require Import Sched_Model.
Import ListNotations.

(** What a training must do with a tuning: fixed hyperparameters are used as they are, a partial tuning
    leaves the components that are not active as they were. *)
Definition respects (t : tuning) (th : thetas) : Prop :=
  match t with
  | Fixed i => th = i
  | Partial i _ active => length th = length i /\ forall n, ~ In n active -> nth_error th n = nth_error i n
  | Full i _ => length th = length i
  end.

(** A builder that respects the tunings it is given and keeps the clustering it is given. *)
Record honest {D K} (t : trainer D K) : Prop := {
  h_train : forall d ts, Forall2 respects ts (t.(t_train) d (Some ts)).(g_thetas);
  h_on : forall d ts k, Forall2 respects ts (t.(t_train_on) d ts k).(g_thetas);
  h_keep : forall d ts k, (t.(t_train_on) d ts k).(g_clust) = k }.

(** A builder of a single expert whose tuning never lowers the likelihood [lk d theta] of the
    hyperparameters it starts from. *)
Record improving {D K} (t : trainer D K) (lk : D -> thetas -> R) : Prop := {
  i_honest : honest t;
  i_train : forall d t0, exists th, (t.(t_train) d (Some [t0])).(g_thetas) = [th] /\
            (t.(t_train) d (Some [t0])).(g_lkh) = lk d th /\ (lk d (tuning_init t0) <= lk d th)%R;
  i_on : forall d t0 k, exists th, (t.(t_train_on) d [t0] k).(g_thetas) = [th] /\
         (t.(t_train_on) d [t0] k).(g_lkh) = lk d th /\ (lk d (tuning_init t0) <= lk d th)%R }.

(** [n] is a multiple of [m]. *)
Definition multiple (m n : nat) : Prop := exists q, n = q * m.

(** Requests made by successive iterations, the first being iteration [from], when points are proposed one
    by one without portfolio and without automatic clustering; [d] gives the training data. *)
Fixpoint plain_requests {D} (q_optmod : nat) (actives : list (list nat)) (d : nat -> D) (from n : nat) : list (request D) :=
  match n with
  | 0 => []
  | S n => map (fun f => mkRequest (d from) (fst f) (snd f) actives) (iteration_flags from 1 q_optmod 1 false)
           ++ plain_requests q_optmod actives d (S from) n
  end.
