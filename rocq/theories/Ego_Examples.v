(** Concrete runs used to show that the hypotheses of the theorems are met and to refute false claims. *)
From Coq Require Import ZArith List Arith Bool Lia.
From Verif Require Import F64 Util FindResult_Model FindResult_Spec FindResult_Proofs
  UpdateData_Model UpdateData_Spec Ego_Model Ego_Spec Ego_Proofs Ego_Run.
Import ListNotations.

(** One variable, objective x^2 (made a number everywhere), one constraint function. *)
Definition ex_obj (x : row) : row :=
  let v := fmul (nth 0 x fzero) (nth 0 x fzero) in [if fnan v then finf else v].
Definition ex_cstr (x : row) : row := [fsub fone (nth 0 x fzero)].
Definition ex_cstr_bad (x : row) : row := [fabs (nth 0 x fzero)].
Definition ex_cfg (trego : bool) (beta target : f64) (n_local iters : nat) : config :=
  mkConfig 1 1 1 trego (fofZ 2) beta n_local iters target None true.
Definition ex_doe : mat := [[fofZ 3]; [fofZ 4]].

(** Iteration 0 proposes [first]; afterwards only points of the initial design. *)
Definition ex_orc (first : mat) : oracle :=
  mkOracle (fun i _ => match i with
                       | 0 => mkBatch first (map (fun _ => [fNaN]) first) (map (fun _ => [fofZ 2]) first)
                       | S _ => mkBatch [[fofZ 3]] [[fNaN]] [[fofZ 2]]
                       end)
           (fun _ => [fofZ 3]).

Lemma ex_problem fc trego beta target n_local iters : fc = ex_cstr \/ fc = ex_cstr_bad ->
  problem_ok (ex_cfg trego beta target n_local iters) ex_obj fc.
Proof.
  intros F. constructor; try (simpl; lia); try reflexivity.
  - intros x. unfold ex_obj, objective. simpl. destruct (fnan (fmul _ _)) eqn:E; [reflexivity|exact E].
  - intros x. destruct F as [-> | ->]; reflexivity.
Qed.

Lemma ex_oracle trego beta target n_local iters first : first <> [] -> Forall (fun r => length r = 1) first ->
  oracle_ok (ex_cfg trego beta target n_local iters) (ex_orc first).
Proof.
  intros Ne W. split; [|reflexivity]. intros [|i] a; constructor; simpl; try congruence; try (now rewrite map_length);
    try assumption; try reflexivity; unfold width; try (now repeat constructor);
    rewrite Forall_map, Forall_forall; intros; simpl; lia.
Qed.

Lemma ex_design fc trego beta target n_local iters : fc = ex_cstr \/ fc = ex_cstr_bad ->
  design_ok (ex_cfg trego beta target n_local iters) ex_obj fc 1 ex_doe.
Proof.
  intros F. constructor.
  - discriminate.
  - repeat constructor.
  - now left.
  - intros H. exfalso. now apply H.
  - right. destruct F as [-> | ->].
    + left. exists (ex_obj [fofZ 3] ++ ex_cstr [fofZ 3]). split; [left; reflexivity|]. split.
      * apply feasibleb_spec. vm_compute. reflexivity.
      * vm_compute. reflexivity.
    + right. intros r [<-|[<-|[]]]; apply feasibleb_specF; vm_compute; reflexivity.
Qed.

Lemma ex_run_ok fc trego beta target n_local iters first : fc = ex_cstr \/ fc = ex_cstr_bad ->
  first <> [] -> Forall (fun r => length r = 1) first ->
  run_ok (ex_cfg trego beta target n_local iters) ex_obj fc (ex_orc first) 1 ex_doe.
Proof. intros F N W. split; [now apply ex_problem|]. split; [now apply ex_oracle|now apply ex_design]. Qed.

(** Run A: plain EGO; iteration 0 adds 2.5 and 2, iteration 1 converges. *)
Definition cfgA := ex_cfg false (fmake 1 (-1)) (fofZ (-1000)) 1 4.
Definition orcA := ex_orc [[fmake 5 (-1)]; [fofZ 2]].
Definition runA := run cfgA ex_obj ex_cstr orcA 1 ex_doe.
Lemma A_ok : run_ok cfgA ex_obj ex_cstr orcA 1 ex_doe.
Proof. apply ex_run_ok; [now left|discriminate|repeat constructor]. Qed.

(** Run B: iteration 0 adds only 2, which becomes the best point. *)
Definition orcB := ex_orc [[fofZ 2]].
Definition runB := run cfgA ex_obj ex_cstr orcB 1 ex_doe.
Lemma B_ok : run_ok cfgA ex_obj ex_cstr orcB 1 ex_doe.
Proof. apply ex_run_ok; [now left|discriminate|repeat constructor]. Qed.

(** Run C: a target that the infeasible initial points reach. *)
Definition cfgC := ex_cfg false (fmake 1 (-1)) (fofZ 100) 1 4.
Definition runC := run cfgC ex_obj ex_cstr_bad orcB 1 ex_doe.
Lemma C_ok : run_ok cfgC ex_obj ex_cstr_bad orcB 1 ex_doe.
Proof. apply ex_run_ok; [now right|discriminate|repeat constructor]. Qed.

(** Run T: trust region with beta = 2^-10; every local step fails. *)
Definition cfgT := ex_cfg true (fmake 1 (-10)) (fofZ (-1000)) 2000 2000.
Definition orcT := ex_orc [[fofZ 5]].
Definition runT := run cfgT ex_obj ex_cstr orcT 1 ex_doe.
Lemma T_ok : run_ok cfgT ex_obj ex_cstr orcT 1 ex_doe.
Proof. apply ex_run_ok; [now left|discriminate|repeat constructor]. Qed.

(** Run U: trust region, a global step at every second iteration. *)
Definition cfgU := ex_cfg true (fmake 3 (-2)) (fofZ (-1000)) 1 6.
Definition orcU : oracle :=
  mkOracle (fun i _ => mkBatch [[fofZ (5 + Z.of_nat i)]] [[fNaN]] [[fofZ 2]]) (fun i => [fofZ (-5 - Z.of_nat i)]).
Definition runU := run cfgU ex_obj ex_cstr orcU 1 ex_doe.
Lemma U_ok : run_ok cfgU ex_obj ex_cstr orcU 1 ex_doe.
Proof.
  split; [apply ex_problem; now left|]. split; [|apply ex_design; now left].
  split; [|reflexivity]. intros i a. constructor; simpl; try congruence; try reflexivity; repeat constructor.
Qed.

(** Reading a run. *)
Lemma read {A} (f : state -> A) o st v : o = Some st -> option_map f o = Some v -> f st = v.
Proof. intros -> H. simpl in H. congruence. Qed.

Definition goes_onb (st : state) : bool :=
  match s_status st, terminate_internal st with Running, Running => true | _, _ => false end.
Lemma goes_onb_spec st : goes_onb st = true -> goes_on st.
Proof. rewrite goes_on_iff. unfold goes_onb. destruct (s_status st), (terminate_internal st); try discriminate. tauto. Qed.
