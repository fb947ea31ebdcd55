(** The facade over the optimizers of the infill criterion: its options, and the constraints it gives to the algorithms. Numbers are reals, points are of
    any type, [None] is a panic. *)
From Coq Require Import Reals List Bool.
From Verif Require Import Util.
Import ListNotations.
Local Open Scope R_scope.

Section Opt.
  Context {X : Type}.

  (** crates/ego/src/optimizers/optimizer.rs:11-15 [Algorithm]. *)
  Inductive algorithm := ACobyla | ASlsqp.
  (** optimizer.rs:19-31 [Optimizer], without the objective and the bounds. [o_scales] is the field [scale_cstr] of the user data. *)
  Record optimizer := mkOpt { o_algo : algorithm; o_cons : list (X -> R); o_tol : option (list R); o_scales : list R; o_max_eval : nat;
    o_xinit : option X; o_ftol_abs : option R; o_ftol_rel : option R }.
  (** optimizer.rs:34-54 [new]. *)
  Definition new_opt (algo : algorithm) (cons : list (X -> R)) (scales : list R) : optimizer := mkOpt algo cons None scales 2000 None None None.
  (** optimizer.rs:56-74, the setters. *)
  Inductive opt_call := FtolAbs (v : R) | FtolRel (v : R) | SetMaxEval (n : nat) | Xinit (x : X).
  Definition opt_apply (o : optimizer) (c : opt_call) : optimizer :=
    let '(mkOpt a co t s m x fa fr) := o in
    match c with
    | FtolAbs v => mkOpt a co t s m x (Some v) fr
    | FtolRel v => mkOpt a co t s m x fa (Some v)
    | SetMaxEval n => mkOpt a co t s n x fa fr
    | Xinit x' => mkOpt a co t s m (Some x') fa fr
    end.
  (** optimizer.rs:129-132: the tolerances of [minimize]. *)
  Definition opt_tolerances (o : optimizer) : list R := match o_tol o with Some t => t | None => repeat 0 (length (o_cons o)) end.
  (** optimizer.rs:146-154 and 192-200: constraint [i] as given to the algorithm. Cobyla wants it not negative, Slsqp not positive. *)
  Definition given_value (o : optimizer) (i : nat) (x : X) : option R :=
    do f <- nth_error (o_cons o) i;
    do t <- nth_error (opt_tolerances o) i;
    do s <- nth_error (o_scales o) i;
    Some (match o_algo o with ACobyla => - f x + t / s | ASlsqp => f x - t / s end).
  Definition given_allows (o : optimizer) (i : nat) (x : X) : Prop :=
    match given_value o i x with Some v => match o_algo o with ACobyla => 0 <= v | ASlsqp => v <= 0 end | None => False end.

  (** solver_infill_optim.rs:148-203 and solver_impl.rs:704, 716-741: the constraints of the problem. [models] are the values of the surrogates used as
      constraints (mean or upper trust bound), [funcs] the constraint functions; each is divided by its scale. With the constrained criterion the
      surrogates are not constraints, but the scales still start with theirs. *)
  Fixpoint scaled (fs : list (X -> R)) (scales : list R) : list (X -> R) :=
    match fs, scales with f :: fs', s :: ss => (fun x => f x / s) :: scaled fs' ss | _, _ => [] end.
  Definition constraints (cstr_infill : bool) (models funcs : list (X -> R)) (scale_m scale_f : list R) : list (X -> R) :=
    (if cstr_infill then [] else scaled models scale_m) ++ scaled funcs scale_f.
  (** solver_infill_optim.rs:217-224: the optimizer of one start. *)
  Definition inner_optimizer (algo : algorithm) (cstr_infill : bool) (models funcs : list (X -> R)) (scale_m scale_f : list R) (calls : list opt_call) :
      optimizer :=
    fold_left opt_apply calls (new_opt algo (constraints cstr_infill models funcs scale_m scale_f) (scale_m ++ scale_f)).
  (** The points the algorithm is asked to stay in. *)
  Definition inner_allows (o : optimizer) (x : X) : Prop := forall i, (i < length (o_cons o))%nat -> given_allows o i x.
End Opt.
Arguments optimizer : clear implicits.
Arguments opt_call : clear implicits.
