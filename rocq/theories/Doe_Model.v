(** Designs of experiments: crates/doe/src/{lhs,full_factorial,random,traits,utils}.rs.

    The code is generic in a float type; so is the model, over a record of operations instantiated below by the reals
    and by IEEE doubles. Random draws are arguments: every theorem is for all draws. Matrices are lists of rows. [None]
    is a panic. Simplification: sums are left to right (ndarray sums in several lanes, which matters only for
    rounding, and no theorem on doubles depends on a sum). *)
From Coq Require Import Reals ZArith List Bool Arith.
From Verif Require Import F64 Util.
Import ListNotations.
Local Open Scope nat_scope.

(** The operations of [linfa::Float] used by the crate. [lit n d] is a decimal literal [n/d]. *)
Record arith (A : Type) : Type := {
  ofZ : Z -> A; lit : Z -> positive -> A;
  add : A -> A -> A; sub : A -> A -> A; mul : A -> A -> A; div : A -> A -> A;
  pow : A -> A -> A; sqrt : A -> A; opp : A -> A; absv : A -> A;
  ltb : A -> A -> bool; leb : A -> A -> bool; isnan : A -> bool }.
Arguments ofZ {A}. Arguments lit {A}. Arguments add {A}. Arguments sub {A}. Arguments mul {A}. Arguments div {A}.
Arguments pow {A}. Arguments sqrt {A}. Arguments opp {A}. Arguments absv {A}. Arguments ltb {A}. Arguments leb {A}.
Arguments isnan {A}.

Definition R_arith : arith R := {|
  ofZ := IZR; lit := fun n d => (IZR n / IZR (Zpos d))%R;
  add := Rplus; sub := Rminus; mul := Rmult; div := Rdiv; pow := Rpower; sqrt := R_sqrt.sqrt; opp := Ropp; absv := Rabs;
  ltb := fun a b => if Rlt_dec a b then true else false; leb := fun a b => if Rle_dec a b then true else false;
  isnan := fun _ => false |}.

(** [powf] and [sqrt] of doubles are parameters: no theorem on doubles depends on them. *)
Definition f64_arith (pw : f64 -> f64 -> f64) (sq : f64 -> f64) : arith f64 := {|
  ofZ := fofZ; lit := fun n d => fdiv (fofZ n) (fofZ (Zpos d));
  add := fadd; sub := fsub; mul := fmul; div := fdiv; pow := pw; sqrt := sq; opp := fneg; absv := fabs;
  ltb := flt; leb := fle; isnan := fnan |}.

Section Generic.
  Context {A : Type} (ar : arith A).
  Local Notation zero := (ar.(ofZ) 0).
  Local Notation one := (ar.(ofZ) 1).
  Local Notation row := (list A).
  Local Notation mat := (list (list A)).
  Definition ofN (n : nat) : A := ar.(ofZ) (Z.of_nat n).
  Definition sum (l : row) : A := fold_left ar.(add) l zero.

  (** ndarray [Array::linspace(0., 1., n)] (external dependency): [start + step * i], [step = (b - a) / (n - 1)]. *)
  Definition linspace (n : nat) : row :=
    let step := if n <=? 1 then zero else ar.(div) (ar.(sub) one zero) (ofN (n - 1)) in
    map (fun i => ar.(add) zero (ar.(mul) step (ofN i))) (seq 0 n).

  (** [slice::shuffle] (external dependency): a sequence of swaps; all sequences of swaps are considered. *)
  Definition swap (i j : nat) (l : row) : row :=
    match nth_error l i, nth_error l j with Some a, Some b => set_nth i b (set_nth j a l) | _, _ => l end.
  Definition shuffle (sw : list (nat * nat)) (l : row) : row := fold_left (fun l p => swap (fst p) (snd p) l) sw l.

  (** A matrix from its columns. *)
  Definition of_columns (ns : nat) (cols : list row) : mat :=
    map (fun i => map (fun col => nth i col zero) cols) (seq 0 ns).

  (** [_classic_lhs], lhs.rs:236-257. [rnd j] is the column of uniform draws of variable [j] (in [0, 1)), [sw j] the
      swaps of its shuffle. *)
  Definition classic_column (ns : nat) (rnd : row) : row :=
    let cut := linspace (ns + 1) in
    let a := firstn ns cut in let b := skipn 1 cut in
    map (fun p => ar.(add) (ar.(mul) (fst p) (ar.(sub) (snd (snd p)) (fst (snd p)))) (fst (snd p)))
        (combine rnd (combine a b)).
  Definition classic_lhs (ns nx : nat) (rnd : nat -> row) (sw : nat -> list (nat * nat)) : mat :=
    of_columns ns (map (fun j => shuffle (sw j) (classic_column ns (rnd j))) (seq 0 nx)).

  (** [_centered_lhs], lhs.rs:259-274: the same array is shuffled again for each variable. *)
  Definition centers (ns : nat) : row :=
    let cut := linspace (ns + 1) in
    map (fun p => ar.(div) (ar.(add) (fst p) (snd p)) (ar.(ofZ) 2)) (combine (firstn ns cut) (skipn 1 cut)).
  Fixpoint centered_columns (nx : nat) (j : nat) (c : row) (sw : nat -> list (nat * nat)) : list row :=
    match nx with
    | 0 => []
    | S nx' => let c' := shuffle (sw j) c in c' :: centered_columns nx' (S j) c' sw
    end.
  Definition centered_lhs (ns nx : nat) (sw : nat -> list (nat * nat)) : mat :=
    of_columns ns (centered_columns nx 0 (centers ns) sw).

  (** [l2_dist] of ndarray-stats (external dependency). *)
  Definition sq_dist (a b : row) : A :=
    sum (map (fun p => ar.(mul) (ar.(sub) (fst p) (snd p)) (ar.(sub) (fst p) (snd p))) (combine a b)).
  Definition dist (a b : row) : A := ar.(sqrt) (sq_dist a b).

  (** [pdist], utils.rs:7-26, and a row of [cdist], utils.rs:28-55. *)
  Fixpoint pdist (x : mat) : row :=
    match x with [] => [] | r :: x' => map (dist r) x' ++ pdist x' end.
  Definition cdist_row (a : row) (xb : mat) : row := map (dist a) xb.

  (** ndarray-stats [min] and [argmin]: errors (unwrapped: panics) on an empty array or a NaN. *)
  Definition argmin (l : row) : option nat :=
    if existsb ar.(isnan) l then None else argmin_by ar.(ltb) l.
  Definition min_of (l : row) : option A := do i <- argmin l; nth_error l i.

  (** [_phip], lhs.rs:187-189. *)
  Definition phip (x : mat) (p : A) : A :=
    ar.(pow) (sum (map (fun v => ar.(pow) v (ar.(opp) p)) (pdist x))) (ar.(div) one p).

  (** The choice of two distinct rows, lhs.rs:193-197, from a stream of draws in [0..nrows): [fuel] bounds the number of
      draws looked at, [None] means that the loop is still running. *)
  Fixpoint other_row (fuel : nat) (i1 : nat) (draws : nat -> nat) : option nat :=
    match fuel with
    | 0 => None
    | S f => if draws 0 =? i1 then other_row f i1 (fun k => draws (S k)) else Some (draws 0)
    end.

  Definition swap_entries (x : mat) (i1 i2 k : nat) : option mat :=
    do r1 <- nth_error x i1; do r2 <- nth_error x i2;
    do v1 <- nth_error r1 k; do v2 <- nth_error r2 k;
    Some (set_nth i1 (set_nth k v2 r1) (set_nth i2 (set_nth k v1 r2) x)).
  (** The rows other than [i1] and [i2], lhs.rs:199-206. *)
  Definition rest (x : mat) (i1 i2 : nat) : mat :=
    map snd (filter (fun p => negb ((fst p =? i1) || (fst p =? i2))) (combine (seq 0 (length x)) x)).

  (** [_phip_swap], lhs.rs:191-234, for the rows [i1] and [i2] drawn. *)
  Definition phip_swap (x : mat) (k : nat) (ph p : A) (i1 i2 : nat) : option (mat * A) :=
    let x_rest := rest x i1 i2 in
    do r1 <- nth_error x i1; do r2 <- nth_error x i2;
    do v1 <- nth_error r1 k; do v2 <- nth_error r2 k;
    do col <- mapM (fun r => nth_error r k) x_rest;
    let dist1 := cdist_row r1 x_rest in
    let dist2 := cdist_row r2 x_rest in
    let sqd v w := ar.(mul) (ar.(sub) w v) (ar.(sub) w v) in
    let m1 := map (sqd v1) col in
    let m2 := map (sqd v2) col in
    let map2 f a b := map (fun q => f (fst q) (snd q)) (combine a b) in
    let half := ar.(div) (ar.(opp) p) (ar.(ofZ) 2) in
    let d1 := map (fun v => ar.(pow) v half) (map2 ar.(add) (map2 ar.(sub) (map (fun v => ar.(mul) v v) dist1) m1) m2) in
    let d2 := map (fun v => ar.(pow) v half) (map2 ar.(sub) (map2 ar.(add) (map (fun v => ar.(mul) v v) dist2) m1) m2) in
    let dist1p := map (fun v => ar.(pow) v (ar.(opp) p)) dist1 in
    let dist2p := map (fun v => ar.(pow) v (ar.(opp) p)) dist2 in
    let res := ar.(add) (sum (map2 ar.(sub) d1 dist1p)) (sum (map2 ar.(sub) d2 dist2p)) in
    do x' <- swap_entries x i1 i2 k;
    Some (x', ar.(pow) (ar.(add) (ar.(pow) ph p) res) (ar.(div) one p)).

  (** The state of the ESE loop, lhs.rs:120-185. *)
  Record ese := mk_ese { e_own : mat; e_best : mat; e_phip : A; e_phip_best : A; e_t : A; e_acpt : nat; e_imp : nat }.

  (** Draws of one inner iteration: the pairs of rows of the [j_range] swaps and the uniform number of the threshold. *)
  Definition inner_draws : Type := (list (nat * nat)) * A.

  (** One inner iteration [i], lhs.rs:139-168. *)
  Definition ese_inner (nx i : nat) (d : inner_draws) (s : ese) : option ese :=
    let p := ar.(ofZ) 10 in
    let modulo := (i + 1) mod nx in
    do l <- mapM (fun q => phip_swap s.(e_own) modulo s.(e_phip) p (fst q) (snd q)) (fst d);
    do k <- argmin (map snd l);
    do best <- nth_error l k;
    let '(x_try, phip_try) := best in
    if ar.(leb) (ar.(sub) phip_try s.(e_phip)) (ar.(mul) s.(e_t) (snd d)) then
      if ar.(ltb) phip_try s.(e_phip_best)
      then Some (mk_ese x_try x_try phip_try phip_try s.(e_t) (S s.(e_acpt)) (S s.(e_imp)))
      else Some (mk_ese x_try s.(e_best) phip_try s.(e_phip_best) s.(e_t) (S s.(e_acpt)) s.(e_imp))
    else Some s.

  Fixpoint ese_inner_loop (nx n i : nat) (draws : nat -> inner_draws) (s : ese) : option ese :=
    match n with
    | 0 => Some s
    | S n' => do s' <- ese_inner nx i (draws i) s; ese_inner_loop nx n' (S i) draws s'
    end.

  (** The temperature update, lhs.rs:169-183. (The acceptance rates are doubles in the code, of type [A] here.) *)
  Definition ese_temperature (inner_loop : nat) (s : ese) : A :=
    let p_accpt := ar.(div) (ofN s.(e_acpt)) (ofN inner_loop) in
    let p_imp := ar.(div) (ofN s.(e_imp)) (ofN inner_loop) in
    let tenth := ar.(lit) 1 10 in
    if ar.(ltb) (ar.(lit) 1 1000) (ar.(sub) s.(e_phip) s.(e_phip_best)) then
      if ar.(leb) tenth p_accpt && ar.(ltb) p_imp p_accpt then ar.(mul) s.(e_t) (ar.(lit) 8 10)
      else if ar.(leb) tenth p_accpt && ar.(ltb) (ar.(absv) (ar.(sub) p_imp p_accpt)) (ar.(lit) 1 4503599627370496) then s.(e_t)
      else ar.(div) s.(e_t) (ar.(lit) 8 10)
    else if ar.(leb) p_accpt tenth then ar.(div) s.(e_t) (ar.(lit) 7 10)
    else ar.(mul) s.(e_t) (ar.(lit) 9 10).

  (** One outer iteration, lhs.rs:135-184. *)
  Definition ese_outer (nx inner_loop : nat) (draws : nat -> inner_draws) (s : ese) : option ese :=
    do s' <- ese_inner_loop nx inner_loop 0 draws (mk_ese s.(e_own) s.(e_best) s.(e_phip) s.(e_phip_best) s.(e_t) 0 0);
    Some (mk_ese s'.(e_own) s'.(e_best) s'.(e_phip) s'.(e_phip_best) (ese_temperature inner_loop s') s'.(e_acpt) s'.(e_imp)).

  Fixpoint ese_outer_loop (nx inner_loop n o : nat) (draws : nat -> nat -> inner_draws) (s : ese) : option ese :=
    match n with
    | 0 => Some s
    | S n' => do s' <- ese_outer nx inner_loop (draws o) s; ese_outer_loop nx inner_loop n' (S o) draws s'
    end.

  Definition ese_start (lhs : mat) : ese :=
    let ph := phip lhs (ar.(ofZ) 10) in
    mk_ese lhs lhs ph ph (ar.(mul) (ar.(lit) 5 1000) ph) 0 0.

  (** [_maximin_ese], lhs.rs:120-185. *)
  Definition maximin_ese (nx : nat) (lhs : mat) (outer_loop inner_loop : nat) (draws : nat -> nat -> inner_draws) : option mat :=
    do s <- ese_outer_loop nx inner_loop outer_loop 0 draws (ese_start lhs); Some s.(e_best).

  (** [LhsKind::Optimized], lhs.rs:78-84: [(1.5 * nx as f64) as usize] is [3 * nx / 2]. *)
  Definition optimized_lhs (ns nx : nat) (rnd : nat -> row) (sw : nat -> list (nat * nat)) (draws : nat -> nat -> inner_draws) : option mat :=
    maximin_ese nx (classic_lhs ns nx rnd sw) (Nat.min (3 * nx / 2) 30) (Nat.min (20 * nx) 100) draws.

  (** [_maximin_lhs], lhs.rs:276-298: [cands] are the successive designs drawn. *)
  Fixpoint maximin_loop (best : mat) (max_dist : A) (cands : list mat) : option mat :=
    match cands with
    | [] => Some best
    | c :: cands' =>
        do d_min <- min_of (pdist c);
        if ar.(ltb) max_dist d_min then maximin_loop c d_min cands' else maximin_loop best max_dist cands'
    end.
  Definition maximin_of (first : mat) (cands : list mat) : option mat :=
    do d <- min_of (pdist first); maximin_loop first d cands.

  (** The designs drawn by [_maximin_lhs] with [max_iters = 5] (lhs.rs:76-77): draw [t] uses [rnd t], [sw t]. *)
  Definition maximin_lhs (ns nx : nat) (centered : bool) (rnd : nat -> nat -> row) (sw : nat -> nat -> list (nat * nat)) : option mat :=
    let design t := if centered then centered_lhs ns nx (sw t) else classic_lhs ns nx (rnd t) (sw t) in
    maximin_of (design 0) (map design (seq 1 4)).

  (** [Random::normalized_sample], random.rs: the uniform draws. *)
  Definition random_sample (ns nx : nat) (rnd : nat -> nat -> A) : mat :=
    map (fun i => map (fun j => rnd i j) (seq 0 nx)) (seq 0 ns).

  (** [SamplingMethod::sample], traits.rs:23-28; [xlimits] is the list of (lower, upper). *)
  Definition scale_row (xlimits : list (A * A)) (u : row) : row :=
    map (fun p => ar.(add) (ar.(mul) (fst p) (ar.(sub) (snd (snd p)) (fst (snd p)))) (fst (snd p))) (combine u xlimits).
  Definition scale_sample (xlimits : list (A * A)) (m : mat) : mat := map (scale_row xlimits) m.

  (** The value of level [i] out of [n] in [FullFactorial], full_factorial.rs:66-70. *)
  Definition level_value (n i : nat) : A := if 1 <? n then ar.(div) (ofN i) (ofN (n - 1)) else ofN i.
End Generic.

(** ** Full factorial: the numbers of levels and the indexes of the levels *)

(** The choice of the variable that receives one more level, full_factorial.rs:53-54: [argmax] of ndarray-stats is the
    first largest. *)
Definition weakest {A : Type} (ar : arith A) (num : list nat) : option nat :=
  let weight := ar.(div) (ar.(ofZ) 1) (ofN ar (length num)) in
  let score n := ar.(sub) weight (ar.(div) (ofN ar n) (ofN ar (list_sum num))) in
  argmin_by (fun a b => ar.(ltb) b a) (map score num).
Definition prod (num : list nat) : nat := fold_left Nat.mul num 1.
(** The loop, full_factorial.rs:52-56, with fuel. *)
Fixpoint levels_loop {A : Type} (ar : arith A) (fuel ns : nat) (num : list nat) : option (list nat) :=
  if prod num <? ns then
    match fuel with
    | 0 => None
    | S f => do ind <- weakest ar num; do n <- nth_error num ind; levels_loop ar f ns (set_nth ind (S n) num)
    end
  else Some num.
(** [ns] steps always suffice: each step increases the product (proved). *)
Definition levels {A : Type} (ar : arith A) (nx ns : nat) : option (list nat) := levels_loop ar ns ns (repeat 1 nx).

(** A column of level indexes, full_factorial.rs:60-80: [n] levels, each repeated [level_repeat] times, the whole
    repeated [range_repeat] times. *)
Definition ff_chunk (n level_repeat : nat) : list nat := flat_map (fun i => repeat i level_repeat) (seq 0 n).
Definition ff_column (n level_repeat range_repeat : nat) : list nat :=
  flat_map (fun _ => ff_chunk n level_repeat) (seq 0 range_repeat).
Fixpoint ff_columns (num : list nat) (level_repeat range_repeat : nat) : list (list nat) :=
  match num with
  | [] => []
  | n :: num' => let lr := level_repeat / n in ff_column n lr range_repeat :: ff_columns num' lr (range_repeat * n)
  end.
Definition ff_index (num : list nat) : list (list nat) :=
  let cols := ff_columns num (prod num) 1 in
  map (fun i => map (fun col => nth i col 0) cols) (seq 0 (prod num)).

(** [FullFactorial::normalized_sample], full_factorial.rs:43-81. *)
Definition full_factorial {A : Type} (ar : arith A) (nx ns : nat) : option (list (list A)) :=
  do num <- levels ar nx ns;
  Some (map (fun r => map (fun p => level_value ar (fst p) (snd p)) (combine num r)) (firstn ns (ff_index num))).
