(** Entry points of mixed-integer surrogates and contexts: crates/ego/src/gpmix/mixint.rs. *)
From Coq Require Import List.
From Verif Require Import Util F64 Mixint_Model.
Import ListNotations.
Local Notation mat := (list (list f64)).

(** [MixintGpMixture::predict], [predict_var], [predict_valvar], mixint.rs:589-621; [predictor] is the method of the decorated
    mixture, [None] when it panics or fails. *)
Definition surrogate_predict {A : Type} (ts : list xtype) (fold : bool) (predictor : mat -> option A) (x : mat) : option A :=
  do xc <- surrogate_input ts fold x; predictor xc.
(** [PredictInplace for MixintGpMixture], mixint.rs:767-778, through which linfa's [predict] goes. *)
Definition linfa_predict {A : Type} (ts : list xtype) (fold : bool) (predictor : mat -> option A) (x : mat) : option A := predictor x.
(** [MixintContext], mixint.rs:796-871, which works in folded space: the sample of [create_*_sampling] ([doe]: the continuous
    sample), and the points the surrogate of [create_surrogate] is trained on when it is given this sample. *)
Definition context_sample (ts : list xtype) (doe : mat) : option mat := mixint_sample ts true doe.
Definition context_training (ts : list xtype) (x : mat) : option mat := surrogate_input ts true x.
