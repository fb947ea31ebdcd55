(** Specification vocabulary for restarts. *)
From Coq Require Import ZArith List Arith Bool.
From Flocq Require Import IEEE754.BinarySingleNaN.
From Verif Require Import F64 Util Ego_Model Restart_Model.
Import ListNotations.

(** Every number of a state is finite: inputs, outputs, constraints, best point, tolerances, target, size. *)
Definition numbers (st : state) : list f64 :=
  concat (s_x st) ++ concat (s_y st) ++ concat (s_c st) ++
  match s_best_param st with Some r => r | None => [] end ++
  match s_best_cost st with Some r => r | None => [] end ++
  s_tol st ++ [s_target st; s_sigma st].

Definition all_finite {H} (h_finite : H -> bool) (s : state * H) : Prop :=
  Forall (fun v => is_finite v = true) (numbers (fst s)) /\ h_finite (snd s) = true.

Lemma forallb_concat (f : f64 -> bool) (m : mat) : forallb (forallb f) m = forallb f (concat m).
Proof. induction m as [|r m IH]; [reflexivity|]. simpl. now rewrite forallb_app, IH. Qed.

Lemma readable_spec {H} (h_finite : H -> bool) s : readable H h_finite s = true <-> all_finite h_finite s.
Proof.
  destruct s as [st h]. unfold readable, all_finite, numbers, finite_row_b. cbn [fst snd].
  split.
  - intros E. rewrite !andb_true_iff in E. destruct E as ((((((((A & B) & C) & D) & F) & G) & I) & J) & K).
    change (forallb (forallb is_finite) (s_x st) = true) in A. change (forallb (forallb is_finite) (s_y st) = true) in B.
    change (forallb (forallb is_finite) (s_c st) = true) in C.
    split; [|exact K]. apply Forall_forall. apply (forallb_forall is_finite). rewrite !forallb_app, <- !forallb_concat.
    simpl. rewrite !andb_true_iff. split; [exact A|]. split; [exact B|]. split; [exact C|].
    split; [destruct (s_best_param st); [exact D|reflexivity]|].
    split; [destruct (s_best_cost st); [exact F|reflexivity]|].
    split; [exact G|]. split; [exact I|]. split; [exact J|reflexivity].
  - intros [E K]. rewrite Forall_forall in E. apply (forallb_forall is_finite) in E. rewrite !forallb_app, <- !forallb_concat in E.
    simpl in E. rewrite !andb_true_iff in E. destruct E as (A & B & C & D & F & G & I & J & _).
    rewrite !andb_true_iff. repeat split; try assumption.
    + destruct (s_best_param st); assumption.
    + destruct (s_best_cost st); assumption.
Qed.
