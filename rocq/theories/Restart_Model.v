(** Model of warm start, hot start (checkpoints, restarts, crashes) and of the configuration check. *)
From Coq Require Import ZArith List Arith Bool.
From Flocq Require Import IEEE754.BinarySingleNaN.
From Verif Require Import F64 Util FindResult_Model UpdateData_Model Ego_Model.
Import ListNotations.

(** crates/ego/src/egor.rs:356: the history file written by the observer after each iteration: one row
    x | y | c per point. *)
Definition history_file (st : state) : option mat :=
  do xy <- hconcat st.(s_x) st.(s_y); hconcat xy st.(s_c).

(** crates/ego/src/solver/egor_solver.rs:192-226: [init] when [warm_start] finds the history file. *)
Definition warm_start (cfg : config) (fobj fcstr : row -> row) (file : mat) : option state :=
  init cfg fobj fcstr (length (nth 0 file [])) file.

(** crates/ego/src/utils/hot_start.rs:15-24 [HotStartMode]; [Disabled] does not use checkpoints. *)
Inductive hot_start := Enabled | Extended (n : nat).

(** hot_start.rs:26-38: [From<Option<u64>>]. *)
Definition hot_start_of (v : option nat) : option hot_start :=
  match v with
  | None => None
  | Some 0 => Some Enabled
  | Some (S n) => Some (Extended (S n))
  end.

Section HotStart.
(** [H] is the rest of the solver state (random generator, clusterings, hyperparameters, infill data, activity):
    all of it is serialized (egor_state.rs:24-105). The proposals depend on it; it evolves in any way. *)
Variable H : Type.
Variable cfg : config.
Variables fobj fcstr : row -> row.
Variable orc : H -> oracle.
Variable h_next : H -> state -> state -> H.
Variable h_init : H.
(** Numbers of [H] are all finite. *)
Variable h_finite : H -> bool.
Variables (cols : nat) (doe : mat).

Definition full : Type := (state * H)%type.

(** serde_json writes NaN and infinities as [null], which it refuses to read back as a number: a checkpoint is
    readable when all its numbers are finite. *)
Definition finite_row_b (r : row) : bool := forallb is_finite r.
Definition readable (s : full) : bool :=
  let (st, h) := s in
  forallb finite_row_b st.(s_x) && forallb finite_row_b st.(s_y) && forallb finite_row_b st.(s_c) &&
  match st.(s_best_param) with Some r => finite_row_b r | None => true end &&
  match st.(s_best_cost) with Some r => finite_row_b r | None => true end &&
  finite_row_b st.(s_tol) && is_finite st.(s_target) && is_finite st.(s_sigma) && h_finite h.

(** The checkpoint file: absent, with content that does not parse (empty, truncated or with a [null]), or
    holding a state. Simplification: the JSON text is not modelled; a strict prefix of it never parses. *)
Inductive disk := NoFile | Unreadable | Saved (s : full).

(** hot_start.rs:91-103 [save], completed. *)
Definition save (s : full) : disk := if readable s then Saved s else Unreadable.

(** hot_start.rs:91-103: what is on disk if the process dies in [save]: before the file is created, after
    [File::create] truncated it, in the middle of [write_all], or after it. *)
Inductive save_crash := BeforeCreate | AfterCreate | InWrite | AfterWrite.
Definition crash_in_save (p : save_crash) (d : disk) (s : full) : disk :=
  match p with
  | BeforeCreate => d
  | AfterCreate => Unreadable
  | InWrite => Unreadable
  | AfterWrite => save s
  end.

(** egor_state.rs:332-334 [extend_max_iters] (a u64 addition, not wrapped here). *)
Definition extend (n : nat) (s : full) : full :=
  (set_max_iters ((fst s).(s_max_iters) + n) (fst s), snd s).

(** hot_start.rs:110-133 [load] and the start of argmin's [Executor::run]: [init] is called when there is no
    checkpoint or when its iteration number is 0; an unreadable file is an error ([None]). *)
Definition fresh : option full := do st <- init cfg fobj fcstr cols doe; Some (st, h_init).
Definition start (mode : hot_start) (d : disk) : option full :=
  match d with
  | NoFile => fresh
  | Unreadable => None
  | Saved s =>
      let s' := match mode with Enabled => s | Extended n => extend n s end in
      if (fst s').(s_iter) =? 0 then fresh else Some s'
  end.

(** One round of the executor loop; the checkpoint is saved at the end of each iteration
    ([CheckpointingFrequency::Always]), not when the stopping tests end the loop. *)
Definition round (sd : full * disk) : option (full * disk) :=
  let '((st, h), d) := sd in
  do st' <- exec_step cfg fobj fcstr (orc h) st;
  if terminated st then Some ((st', h), d)
  else match terminate_internal st with
       | Running => let s' := (st', h_next h st st') in Some (s', save s')
       | _ => Some ((st', h), d)
       end.

Fixpoint rounds (k : nat) (sd : full * disk) : option (full * disk) :=
  match k with
  | 0 => Some sd
  | S k' => do sd' <- round sd; rounds k' sd'
  end.

(** [Egor::run] (egor.rs:231-271) with hot start, stopped after [k] rounds. *)
Definition session (mode : hot_start) (d : disk) (k : nat) : option (full * disk) :=
  do s <- start mode d; rounds k (s, d).

(** A sequence of sessions, each killed after the given number of rounds (between two checkpoint writes):
    what remains is the disk. *)
Fixpoint killed (mode : hot_start) (ks : list nat) (d : disk) : option disk :=
  match ks with
  | [] => Some d
  | k :: ks' => do r <- session mode d k; killed mode ks' (snd r)
  end.
End HotStart.

Arguments NoFile {H}. Arguments Unreadable {H}. Arguments Saved {H} s.

(** crates/ego/src/solver/egor_config.rs:444-466 [check]: is the configuration accepted?
    [n_cstr] metamodelled constraints, given tolerances, CoEGO activated, KPLS dimension. *)
Definition check_config (n_cstr : nat) (cstr_tol : option row) (coego : bool) (kpls : option nat) : bool :=
  negb ((0 <? n_cstr) && match cstr_tol with Some t => negb (length t =? n_cstr) | None => false end) &&
  negb (coego && match kpls with Some _ => true | None => false end).
