(** Model of the Python bindings, [python/src]: translation of the domain, of the Gaussian process settings and of the
    search of the best result into calls of the Rust crates. [None] is a panic (an exception in Python). *)
From Coq Require Import ZArith List Bool.
From Flocq Require Import IEEE754.BinarySingleNaN.
From Verif Require Import F64 Util FindResult_Model Mixint_Model.
From Verif Require Moe_Model.
Import ListNotations.
Local Open Scope nat_scope.

(** ** Domain *)

(** python/src/types.rs:118-124 [XType] and 129-136 [XSpec]; only the number of tags is kept. *)
Inductive kind := KFloat | KInt | KOrd | KEnum.
Record xspec := XSpec { sp_kind : kind; sp_limits : list f64; sp_tags : nat }.

(** python/src/domain.rs:6-10 [Domain]; a numpy array is given by its number of columns and its rows. *)
Inductive domain := Xlists (l : list (list f64)) | Xrows (cols : nat) (l : list (list f64)) | Xspecs (l : list xspec).

(** Rust [a as i32] on [f64]: truncation towards zero, saturating, NaN gives 0. *)
Definition i32_min : Z := (- 2147483648)%Z.
Definition i32_max : Z := 2147483647%Z.
Definition as_i32 (a : f64) : Z :=
  match a with
  | B754_nan => 0
  | B754_infinity true => i32_min
  | B754_infinity false => i32_max
  | _ => Z.max i32_min (Z.min i32_max (Btrunc a))
  end%Z.

(** domain.rs:14-20 [is_empty]. *)
Definition is_empty (d : domain) : bool :=
  match d with
  | Xlists l => match l with [] => true | _ => false end
  | Xrows cols l => match l with [] => true | _ => Nat.eqb cols 0 end
  | Xspecs l => match l with [] => true | _ => false end
  end.

(** domain.rs:49-62, the limits of a real variable. *)
Definition xtype_of_row (v : list f64) : option xtype := do a <- nth_error v 0; do b <- nth_error v 1; Some (Float a b).

(** domain.rs:64-80 [xtypes_from_xspecs], one variable. *)
Definition xtype_of_spec (s : xspec) : option xtype :=
  match sp_kind s with
  | KFloat => do a <- nth_error (sp_limits s) 0; do b <- nth_error (sp_limits s) 1; Some (Float a b)
  | KInt => do a <- nth_error (sp_limits s) 0; do b <- nth_error (sp_limits s) 1; Some (Int (as_i32 a) (as_i32 b))
  | KOrd => Some (Ord (sp_limits s))
  | KEnum =>
      if Nat.eqb (sp_tags s) 0 then do a <- nth_error (sp_limits s) 0; do n <- as_index a; Some (Enum n)
      else Some (Enum (sp_tags s))
  end.

(** domain.rs:33-47 [parse]. *)
Definition parse (d : domain) : option (list xtype) :=
  if is_empty d then None
  else match d with
       | Xlists l => mapM xtype_of_row l
       | Xrows _ l => mapM xtype_of_row l
       | Xspecs l => mapM xtype_of_spec l
       end.

(** ** Gaussian process settings *)

Inductive py_recombination := PyHard | PySmooth.

(** python/src/gp_config.rs:9-67 [GpConfig]; [isize] fields are integers. *)
Record gp_config := GpConfig {
  c_regr : nat; c_corr : nat; c_kpls : option nat; c_nclusters : Z; c_recomb : py_recombination;
  c_init : option (list f64); c_bounds : option (list (list f64)); c_nstart : Z; c_maxeval : nat }.

(** crates/gp/src/parameters.rs:14-33 [ThetaTuning], without [Partial] which the bindings never build. *)
Inductive theta_tuning := TFixed (init : list f64) | TFull (init : list f64) (bounds : list (f64 * f64)).
Definition t_init (t : theta_tuning) : list f64 := match t with TFixed i => i | TFull i _ => i end.

(** What the crates receive: the settings of crates/moe/src/parameters.rs:110-138 used by the bindings. [m_tunings] is
    the list given to [theta_tunings] (one element with [Egor], whose configuration takes one tuning). *)
Record settings := Settings {
  m_regr : nat; m_corr : nat; m_kpls : option nat; m_nclusters : Moe_Model.nb_clusters; m_recomb : Moe_Model.recombination;
  m_tunings : list theta_tuning; m_nstart : nat; m_maxeval : nat }.

(** crates/moe/src/types.rs, [from_bits(..).unwrap()]: unknown bits panic; three regression and four correlation flags. *)
Definition regr_bits (b : nat) : option nat := if b <? 8 then Some b else None.
Definition corr_bits (b : nat) : option nat := if b <? 16 then Some b else None.

(** python/src/egor.rs:427-433 and gp_mix.rs:197-201. *)
Definition n_clusters (n : Z) : Moe_Model.nb_clusters :=
  match Z.compare n 0 with
  | Gt => Moe_Model.Fixed (Z.to_nat n)
  | Eq => Moe_Model.Auto None
  | Lt => Moe_Model.Auto (Some (Z.to_nat (- n)))
  end.

Section Defaults.
  (** crates/gp/src/parameters.rs:49-51, [DEFAULT_INIT] and [DEFAULT_BOUNDS]; gp/src/algorithm.rs:37, [GP_COBYLA_MAX_EVAL]. *)
  Context (default_init : f64) (default_bounds : f64 * f64) (cobyla_max_eval : nat).

  (** egor.rs:482-497 and gp_mix.rs:182-195: [v[0]], [v[1]] panic on short rows. *)
  Definition base_tuning (c : gp_config) : option theta_tuning :=
    let t := match c_init c with
             | Some i => TFull i [default_bounds]
             | None => TFull [default_init] [default_bounds]
             end in
    match c_bounds c with
    | None => Some t
    | Some b =>
        do bs <- mapM (fun v => do l <- nth_error v 0; do u <- nth_error v 1; Some (l, u)) b;
        Some (TFull (t_init t) bs)
    end.

  (** gp_mix.rs:171-240, the settings given to the mixture by [GpMix.fit]; the setting [max_eval] is never passed, the
      default of crates/moe/src/parameters.rs:153 is used. *)
  Definition gpmix_settings (c : gp_config) : option settings :=
    do t <- base_tuning c;
    let nc := n_clusters (c_nclusters c) in
    let '(t', n_start) := if Z.ltb (c_nstart c) 0 then (TFixed (t_init t), 0) else (t, Z.to_nat (c_nstart c)) in
    let tunings := match nc with Moe_Model.Fixed nb => repeat t' nb | _ => [t'] end in
    do r <- regr_bits (c_regr c);
    do k <- corr_bits (c_corr c);
    Some (Settings r k (c_kpls c) nc
            (match c_recomb c with PyHard => Moe_Model.Hard | PySmooth => Moe_Model.Smooth None end)
            tunings n_start cobyla_max_eval).

  (** egor.rs:475-480 [recombination] and 499-538 [apply_config], the Gaussian process part. *)
  Definition egor_settings (c : gp_config) : option settings :=
    do r <- regr_bits (c_regr c);
    do k <- corr_bits (c_corr c);
    do t <- base_tuning c;
    Some (Settings r k (c_kpls c) (n_clusters (c_nclusters c))
            (match c_recomb c with PyHard => Moe_Model.Hard | PySmooth => Moe_Model.Smooth (Some fone) end)
            [t] (Z.to_nat (Z.max (c_nstart c) 0)) (c_maxeval c)).
End Defaults.

(** ** Best result *)

(** egor.rs:465-473 [cstr_tol]; [default_tol] is [DEFAULT_CSTR_TOL]. *)
Definition cstr_tol (default_tol : f64) (user : option (list f64)) (n_cstr n_fcstr : nat) : list f64 :=
  match user with Some t => t | None => repeat default_tol (n_cstr + n_fcstr) end.

(** egor.rs:380-386 [get_result_index]: [c_doe] is built with as many rows as [y_doe] has columns. *)
Definition get_result_index (default_tol : f64) (user : option (list f64)) (n_cstr : nat) (ycols : nat)
           (y_doe : list (list f64)) : option nat :=
  let n_fcstrs := 0 in
  let c_doe := repeat ([] : list f64) ycols in
  find_best_result_index ycols n_fcstrs y_doe c_doe (cstr_tol default_tol user n_cstr n_fcstrs).

(** egor.rs:402-425 [get_result]: the rows of the index; a row out of range panics. *)
Definition get_result (default_tol : f64) (user : option (list f64)) (n_cstr : nat) (ycols : nat)
           (x_doe y_doe : list (list f64)) : option (list f64 * list f64) :=
  do i <- get_result_index default_tol user n_cstr ycols y_doe;
  do x <- nth_error x_doe i;
  do y <- nth_error y_doe i;
  Some (x, y).
