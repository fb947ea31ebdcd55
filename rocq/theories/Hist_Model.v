(** Model of what a run writes about itself: the optimization history of the observer
    (crates/ego/src/egor.rs) and the run record (crates/ego/src/utils/run_recorder.rs). *)
From Coq Require Import ZArith List Arith Bool.
From Verif Require Import F64 Util FindResult_Model FindResult_Spec UpdateData_Model Ego_Model.
Import ListNotations.

(** egor.rs:353-393 [observe_iter], the rows of the history file: best costs then best parameters. The first
    observation works on an updated copy of the state. Missing fields panic ([unwrap]). *)
Definition observe (h : mat) (st : state) : option mat :=
  do s <- match h with [] => update st | _ => Some st end;
  do bp <- s.(s_best_param);
  do bc <- s.(s_best_cost);
  Some (h ++ [bc ++ bp]).

(** run_recorder.rs:62-77 and 86-93, the fields that depend on the run: numbered initial samples (location and
    first output), search iterations (number, batch size, samples), number of iterations, total of samples. *)
Notation sample := (row * f64)%type.
Record run_data : Type := mkRunData {
  r_initial : list (nat * sample);
  r_search : list (nat * nat * list sample);
  r_iterations : nat;
  r_total : nat }.

(** Rows of inputs and first outputs, [Zip::from(xdata.rows()).and(ydata.rows())]. *)
Definition samples (x y : mat) : list sample := combine x (map objective y).

(** run_recorder.rs:95-147 [init_run_info], called at egor_solver.rs:331-339. *)
Definition init_run_info (max_iters : nat) (st : state) : run_data :=
  let s := samples st.(s_x) st.(s_y) in
  mkRunData (combine (seq 1 (length s)) s) [] max_iters (length st.(s_x)).

(** run_recorder.rs:150-171 [update_run_info]. *)
Definition update_run_info (r : run_data) (n_iter : nat) (x y : mat) : run_data :=
  mkRunData r.(r_initial) (r.(r_search) ++ [(length r.(r_search) + 1, length x, samples x y)]) n_iter (r.(r_total) + length x).

(** egor_solver.rs:398-415: end of [next_iter]; the record gets the last [added - prev_added] points. *)
Definition record (r : run_data) (st : state) : run_data :=
  let n_added := st.(s_added) - st.(s_prev_added) in
  update_run_info r (st.(s_iter) + 1) (skipn (length st.(s_x) - n_added) st.(s_x)) (skipn (length st.(s_y) - n_added) st.(s_y)).

(** One round of the executor ([exec_step] of Ego_Model) with the observer and the recorder. *)
Definition watched : Type := (state * mat * run_data)%type.
Definition watched_step (cfg : config) (fobj fcstr : row -> row) (orc : oracle) (w : watched) : option watched :=
  let '(st, h, r) := w in
  if terminated st then Some w
  else match terminate_internal st with
       | Running =>
           do st1 <- next_iter cfg fobj fcstr orc st;
           do st2 <- update st1;
           do h' <- observe h st2;
           Some (set_iter (S st2.(s_iter)) st2, h', record r st1)
       | s => Some (set_status s st, h, r)
       end.

(** [k] rounds from a given state; the observer starts without rows. *)
Fixpoint watch (cfg : config) (fobj fcstr : row -> row) (orc : oracle) (st : state) (r : run_data) (k : nat) : option watched :=
  match k with
  | 0 => Some (st, [], r)
  | S k => do w <- watch cfg fobj fcstr orc st r k; watched_step cfg fobj fcstr orc w
  end.

(** A run watched from its beginning. *)
Definition watch_run (cfg : config) (fobj fcstr : row -> row) (orc : oracle) (cols : nat) (doe : mat) (k : nat) : option watched :=
  do st <- init cfg fobj fcstr cols doe; watch cfg fobj fcstr orc st (init_run_info cfg.(c_max_iters) st) k.

(** All samples of a record, in order. *)
Definition recorded (r : run_data) : list sample := map snd r.(r_initial) ++ flat_map snd r.(r_search).
