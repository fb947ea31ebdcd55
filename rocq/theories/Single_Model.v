(** Conversions to double precision in the training of Gaussian processes: crates/gp/src/optimization.rs:171-174 and its uses.

    Memory is a function from addresses to bytes. Processes are generic in the type [F] of numbers, f32 or f64: [size]
    is the number of bytes of [F]. Elements of arrays and vectors are contiguous; a pair is stored as its first
    component followed by its second one (the layout used by the compiler for two numbers of the same type). Numbers
    are stored with the least significant byte first. *)
From Coq Require Import List ZArith.
From Flocq Require Import IEEE754.Binary IEEE754.Bits.
Import ListNotations.
Local Open Scope Z_scope.

Definition memory := Z -> Z.
(** The [k] bytes at address [p]. *)
Fixpoint load (k : nat) (m : memory) (p : Z) : Z :=
  match k with O => 0 | S k' => m p + 256 * load k' m (p + 1) end.

(** optimization.rs:171-174 [into_f64]: eight bytes are read at the address of the number, whatever its type. The same
    cast is in optimization.rs:91, algorithm.rs:894 and sparse_algorithm.rs:305-330, 553. *)
Definition into_f64 (m : memory) (p : Z) : binary64 := b64_of_bits (load 8 m p).

(** optimization.rs:134: the start given to the optimizer, from an array of [n] numbers at address [p]. *)
Definition start_values (size : Z) (m : memory) (p : Z) (n : nat) : list binary64 :=
  map (fun i => into_f64 m (p + size * Z.of_nat i)) (seq 0 n).
(** optimization.rs:136-139: the bounds given to the optimizer, from a vector of [n] pairs at address [p]. *)
Definition bounds_values (size : Z) (m : memory) (p : Z) (n : nat) : list (binary64 * binary64) :=
  map (fun i => let q := p + 2 * size * Z.of_nat i in (into_f64 m q, into_f64 m (q + size))) (seq 0 n).
(** algorithm.rs:893-896: the value minimized by the optimizer, from the likelihood at address [p]; [Bopp] keeps the
    bits of numbers that are not NaN. *)
Definition objective_value (m : memory) (p : Z) : binary64 := b64_opp (into_f64 m p).
