(** The pseudo-random generator of the library and the seed it gives to sparse experts.

    [Xoshiro256Plus] comes from the crate rand_xoshiro 0.6 and [gen] from rand 0.8.5 (Cargo.lock:1931-1933, 2000-2002), which are
    not in /repo: the definitions below follow these crates and are checked on the first outputs of their documentation. *)
From Coq Require Import NArith List Arith Bool.
From Verif Require Import Util Sgp_Model.
Import ListNotations.
Local Open Scope N_scope.

(** Machine words of 64 bits. *)
Definition w64 (x : N) : N := x mod 2 ^ 64.
Definition rotl (x k : N) : N := N.lor (w64 (N.shiftl x k)) (N.shiftr x (64 - k)).

(** rand_xoshiro, splitmix64.rs: [next_u64]; the state is the first component. *)
Definition splitmix (x : N) : N * N :=
  let x := w64 (x + 0x9e3779b97f4a7c15) in
  let z := w64 (N.lxor x (N.shiftr x 30) * 0xbf58476d1ce4e5b9) in
  let z := w64 (N.lxor z (N.shiftr z 27) * 0x94d049bb133111eb) in
  (x, N.lxor z (N.shiftr z 31)).

(** rand_xoshiro, xoshiro256plus.rs: the state, [next_u64], [next_u32] (upper bits) and [seed_from_u64]. *)
Record xoshiro := mkXo { x0 : N; x1 : N; x2 : N; x3 : N }.
Definition next_u64 (g : xoshiro) : N * xoshiro :=
  let r := w64 (x0 g + x3 g) in
  let t := w64 (N.shiftl (x1 g) 17) in
  let s2 := N.lxor (x2 g) (x0 g) in
  let s3 := N.lxor (x3 g) (x1 g) in
  let s1 := N.lxor (x1 g) s2 in
  let s0 := N.lxor (x0 g) s3 in
  (r, mkXo s0 s1 (N.lxor s2 t) (rotl s3 45)).
Definition next_u32 (g : xoshiro) : N * xoshiro := let (r, g') := next_u64 g in (N.shiftr r 32, g').
Definition seed_from_u64 (seed : N) : xoshiro :=
  let (s, a) := splitmix (w64 seed) in let (s, b) := splitmix s in let (s, c) := splitmix s in let (_, d) := splitmix s in
  mkXo a b c d.

(** rand, distributions/other.rs: a boolean is the sign of a word of 32 bits; an optional value is absent when a first boolean is false. *)
Definition gen_bool (g : xoshiro) : bool * xoshiro := let (r, g') := next_u32 g in (2 ^ 31 <=? r, g').
Definition gen_option_u64 (g : xoshiro) : option N * xoshiro :=
  let (b, g1) := gen_bool g in if b then let (v, g2) := next_u64 g1 in (Some v, g2) else (None, g1).

(** crates/moe/src/algorithm.rs:330-333: the seed of a sparse expert, [let seed = self.rng().gen()] given to
    [seed(Option<u64>)] (crates/moe/src/surrogates.rs:60-64), so that an [Option<u64>] is drawn. [rng()] is a copy of the
    generator of the parameters (crates/moe/src/parameters.rs:219-221). *)
Definition expert_seed (rng : xoshiro) : option N := fst (gen_option_u64 rng).

(** crates/gp/src/sparse_parameters.rs:38-43. *)
Inductive inducings (A : Type) := Randomized (n : nat) | Located (z : list A).
Arguments Randomized {A} n. Arguments Located {A} z.

(** crates/gp/src/sparse_algorithm.rs:456-463: the inducing points. [entropy] is the generator [from_entropy] gives; [shuffle g n] the order in
    which [shuffle] (rand 0.8.5, seq/mod.rs) leaves the [n] first integers. *)
Definition choose_inducings {A} (shuffle : xoshiro -> nat -> list nat) (spec : inducings A) (seed : option N) (entropy : xoshiro)
  (xt : list A) : option (list A) :=
  let g := match seed with Some s => seed_from_u64 s | None => entropy end in
  match spec with
  | Randomized n => make_inducings n xt (shuffle g (length xt))
  | Located z => Some z
  end.

(** crates/moe/src/algorithm.rs:214-345 on the rows of a cluster, and crates/gp/src/sparse_algorithm.rs:422-640 for the training once the inducing
    points are chosen: [select] is the selection of the correlation model, [starts] the starting points of the tuning drawn
    from the operating system when there is one start (crates/gp/src/optimization.rs:44-53), [train] everything else. Simplified: the training is a function of these. *)
Definition sparse_expert {A M T} (shuffle : xoshiro -> nat -> list nat) (train : list A -> list A -> option T -> option M)
  (spec : inducings A) (n_start : nat) (rng entropy : xoshiro) (starts : T) (xt : list A) : option M :=
  do z <- choose_inducings shuffle spec (expert_seed rng) entropy xt;
  train xt z (if Nat.eqb n_start 1 then Some starts else None).

(** crates/moe/src/algorithm.rs:142-205: one expert for each cluster, each with the same copy of the generator; [entropies] and [starts] are
    what the operating system gives for each of them. *)
Fixpoint sparse_experts {A M T} (shuffle : xoshiro -> nat -> list nat) (train : list A -> list A -> option T -> option M)
  (spec : inducings A) (n_start : nat) (rng : xoshiro) (os : nat -> xoshiro * T) (i : nat) (clusters : list (list A)) : option (list M) :=
  match clusters with
  | [] => Some []
  | xt :: rest => do m <- sparse_expert shuffle train spec n_start rng (fst (os i)) (snd (os i)) xt;
                  do ms <- sparse_experts shuffle train spec n_start rng os (S i) rest; Some (m :: ms)
  end.

(** python/src/sparse_gp_mix.rs:164-168: the generator of the parameters. *)
Definition params_rng (seed : option N) (entropy : xoshiro) : xoshiro :=
  match seed with Some s => seed_from_u64 s | None => entropy end.
