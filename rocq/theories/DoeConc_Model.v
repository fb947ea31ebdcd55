(** Sampling methods share their random generator behind a lock ([RngRef], lhs.rs:35 and random.rs:17): calls as sequences of
    critical sections, and threads that make such calls on one method or on its clones. *)
From Coq Require Import List Arith Bool ZArith.
From Verif Require Import Util Doe_Model.
Import ListNotations.

(** What a critical section does: it ends and gives the generator back, panics, or never ends. *)
Inductive outcome (X G : Type) := Done (x : X) (g : G) | Crash | Hang.
Arguments Done {X G}. Arguments Crash {X G}. Arguments Hang {X G}.

(** A call in progress: it has returned, has panicked, never ends, or waits for the lock ([self.rng.write().unwrap()]) to run its next
    critical section. What is computed between two sections depends on nothing shared. *)
Inductive call (G X : Type) :=
| Return (r : X)
| Fail
| Stuck
| Critical (f : G -> outcome (call G X) G).
Arguments Return {G X}. Arguments Fail {G X}. Arguments Stuck {G X}. Arguments Critical {G X}.

(** [std::sync::RwLock] (standard library): free with the generator, poisoned by a panic of its holder, or held by a thread that never gives it
    back. *)
Inductive lock (G : Type) := Free (g : G) | Poisoned | Held.
Arguments Free {G}. Arguments Poisoned {G}. Arguments Held {G}.

(** One step of a call: [None] when it is over or blocked. [write()] gives an error on a poisoned lock, which [unwrap] turns into a panic. *)
Definition step {G X} (c : call G X) (l : lock G) : option (call G X * lock G) :=
  match c with
  | Critical f =>
      match l with
      | Free g => match f g with
                  | Done c' g' => Some (c', Free g')
                  | Crash => Some (Fail, Poisoned)
                  | Hang => Some (Stuck, Held)
                  end
      | Poisoned => Some (Fail, Poisoned)
      | Held => None
      end
  | _ => None
  end.

(** Threads with one call each; a schedule tells which thread runs next. A thread that cannot run lets the others run. *)
Definition run_one {G X} (i : nat) (s : list (call G X) * lock G) : list (call G X) * lock G :=
  match nth_error (fst s) i with
  | Some c => match step c (snd s) with Some (c', l') => (set_nth i c' (fst s), l') | None => s end
  | None => s
  end.
Fixpoint run {G X} (schedule : list nat) (s : list (call G X) * lock G) : list (call G X) * lock G :=
  match schedule with [] => s | i :: rest => run rest (run_one i s) end.

Section Sampling.
  Context {A G : Type} (ar : arith A).
  Local Notation mat := (list (list A)).

  (** What is drawn from the generator: the uniform numbers and the exchanges of [shuffle] for a classic design (lhs.rs:236-257), the
      exchanges for a centered one (259-274), the coordinates of a random one (random.rs:66-72), two different rows among [n] (lhs.rs:193-197;
      [None]: never ends) and a uniform number (lhs.rs:157). *)
  Record draws := mkDraws {
    d_classic : nat -> nat -> G -> (nat -> list A) * (nat -> list (nat * nat)) * G;
    d_centered : nat -> nat -> G -> (nat -> list (nat * nat)) * G;
    d_random : nat -> nat -> G -> (nat -> nat -> A) * G;
    d_pair : nat -> G -> option (nat * nat * G);
    d_unif : G -> A * G }.
  Context (D : draws).

  (** lhs.rs:236-257, 259-274 and random.rs:66-72: the lock is taken once and kept until the design is built. *)
  Definition classic_section (ns nx : nat) (g : G) : mat * G :=
    let '(rnd, sw, g') := d_classic D ns nx g in (classic_lhs ar ns nx rnd sw, g').
  Definition centered_section (ns nx : nat) (g : G) : mat * G :=
    let '(sw, g') := d_centered D ns nx g in (centered_lhs ar ns nx sw, g').
  Definition random_section (ns nx : nat) (g : G) : mat * G :=
    let '(rnd, g') := d_random D ns nx g in (random_sample ns nx rnd, g').
  Definition once (f : G -> mat * G) (k : mat -> call G mat) : call G mat :=
    Critical (fun g => let (m, g') := f g in Done (k m) g').

  (** lhs.rs:276-298: a section for each candidate; the comparisons are outside. *)
  Fixpoint candidates (f : G -> mat * G) (n : nat) (acc : list mat) (k : list mat -> call G mat) : call G mat :=
    match n with 0 => k (rev acc) | S n' => once f (fun m => candidates f n' (m :: acc) k) end.
  Definition maximin_end (l : list mat) : call G mat :=
    match l with
    | first :: cands => match maximin_of ar first cands with Some m => Return m | None => Fail end
    | [] => Fail
    end.
  Definition maximin_call (f : G -> mat * G) : call G mat := candidates f 5 [] maximin_end.

  (** lhs.rs:139-168: an inner iteration takes the lock for the [j_range = 20] exchanges and the acceptance; [gen_range(0..0)] panics. *)
  Fixpoint d_pairs (j ns : nat) (g : G) : option (list (nat * nat) * G) :=
    match j with
    | 0 => Some ([], g)
    | S j' => do p <- d_pair D ns g; do r <- d_pairs j' ns (snd p); Some (fst p :: fst r, snd r)
    end.
  Definition inner_section (nx ns i : nat) (s : ese (A := A)) (g : G) : outcome (ese (A := A)) G :=
    if ns =? 0 then Crash
    else match d_pairs 20 ns g with
         | None => Hang
         | Some (ps, g1) =>
             let (u, g2) := d_unif D g1 in
             match ese_inner ar nx i (ps, u) s with Some s' => Done s' g2 | None => Crash end
         end.
  Fixpoint inner_calls (nx ns n i : nat) (s : ese (A := A)) (k : ese (A := A) -> call G mat) : call G mat :=
    match n with
    | 0 => k s
    | S n' => Critical (fun g => match inner_section nx ns i s g with
                                 | Done s' g' => Done (inner_calls nx ns n' (S i) s' k) g'
                                 | Crash => Crash
                                 | Hang => Hang
                                 end)
    end.
  (** lhs.rs:133-185. *)
  Fixpoint outer_calls (nx ns inner n : nat) (s : ese (A := A)) : call G mat :=
    match n with
    | 0 => Return (e_best s)
    | S n' => inner_calls nx ns inner 0 (mk_ese (e_own s) (e_best s) (e_phip s) (e_phip_best s) (e_t s) 0 0)
        (fun s' => outer_calls nx ns inner n'
          (mk_ese (e_own s') (e_best s') (e_phip s') (e_phip_best s') (ese_temperature ar inner s') (e_acpt s') (e_imp s')))
    end.
  (** lhs.rs:78-84. *)
  Definition optimized_call (ns nx : nat) : call G mat :=
    once (classic_section ns nx) (fun m => outer_calls nx ns (Nat.min (20 * nx) 100) (Nat.min (3 * nx / 2) 30) (ese_start ar m)).

  (** The methods: lhs.rs:71-86 and random.rs:66-72; a request is a method, a number of points and the dimension of the space. *)
  Inductive method := Classic | Centered | Maximin | CenteredMaximin | Optimized | RandomPoints.
  Definition sample_call (m : method) (ns nx : nat) : call G mat :=
    match m with
    | Classic => once (classic_section ns nx) Return
    | Centered => once (centered_section ns nx) Return
    | Maximin => maximin_call (classic_section ns nx)
    | CenteredMaximin => maximin_call (centered_section ns nx)
    | Optimized => optimized_call ns nx
    | RandomPoints => once (random_section ns nx) Return
    end.
End Sampling.

(** [Clone] of a method (lhs.rs:40, random.rs:13) copies the [Arc], so that a clone uses the same lock; [new_with_rng] makes a new lock
    (lhs.rs:94-103, random.rs:43-51). A method is the number of its lock, [locks] the states of all locks. *)
Definition clone_method (m : nat) : nat := m.
Definition new_method {G} (g : G) (locks : list (lock G)) : nat * list (lock G) := (length locks, locks ++ [Free g]).
(** A call made to its end (at most [fuel] sections) on the method [m]. *)
Definition sample_on {G X} (fuel : nat) (c : call G X) (m : nat) (locks : list (lock G)) : option X * list (lock G) :=
  match nth_error locks m with
  | Some l =>
      let (cs, l') := run (repeat 0 fuel) ([c], l) in
      (match cs with [Return r] => Some r | _ => None end, set_nth m l' locks)
  | None => (None, locks)
  end.
