(** Model of the Python functions [sampling] and [lhs], python/src/sampling.rs. [None] is a panic (an exception in Python). *)
From Coq Require Import List.
From Verif Require Import Util F64 Mixint_Model Entry_Model Py_Model.
Import ListNotations.
Local Notation mat := (list (list f64)).

(** sampling.rs:11-19 [Sampling]. *)
Inductive py_sampling := PyLhs | PyFullFactorial | PyRandom | PyLhsClassic | PyLhsCentered | PyLhsMaximin | PyLhsCenteredMaximin.
(** crates/doe/src/lhs.rs:19-33 [LhsKind] and the methods of crates/doe: a continuous method, with the seed it is given. *)
Inductive lhs_kind := Classic | Centered | Maximin | CenteredMaximin | Optimized.
Inductive method := MLhs (k : lhs_kind) (seed : option nat) | MFullFactorial | MRandom (seed : option nat).

(** sampling.rs:46-63 with [MixintContext::create_lhs_sampling], [create_ffact_sampling] and [create_rand_sampling],
    crates/ego/src/gpmix/mixint.rs:815-859; [LhsKind::default()] is [Optimized] (lhs.rs:31). *)
Definition method_of (s : py_sampling) (seed : option nat) : method :=
  match s with
  | PyLhs => MLhs Optimized seed
  | PyLhsClassic => MLhs Classic seed
  | PyLhsMaximin => MLhs Maximin seed
  | PyLhsCentered => MLhs Centered seed
  | PyLhsCenteredMaximin => MLhs CenteredMaximin seed
  | PyFullFactorial => MFullFactorial
  | PyRandom => MRandom seed
  end.

Section Sampling.
  (** [SamplingMethod::sample] of the continuous methods, for the limits and the number of points: see Doe_Model. *)
  Variable sample : method -> list (f64 * f64) -> nat -> mat.

  (** sampling.rs:37-66 [sampling]. *)
  Definition sampling (s : py_sampling) (d : domain) (n : nat) (seed : option nat) : option mat :=
    do ts <- parse d;
    context_sample ts (sample (method_of s seed) (as_continuous_limits ts) n).
  (** sampling.rs:81-88 [lhs]. *)
  Definition lhs (d : domain) (n : nat) (seed : option nat) : option mat := sampling PyLhs d n seed.
End Sampling.
