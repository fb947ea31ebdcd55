(** Model of the infill criteria and of the objective and constraints given to the inner optimizer of an iteration:
    crates/ego/src/criteria/ei.rs, crates/ego/src/criteria/wb2.rs, crates/ego/src/utils/cstr_pof.rs,
    crates/ego/src/utils/logei_helper.rs, crates/ego/src/utils/misc.rs and crates/ego/src/solver/solver_computations.rs.
    f64 arithmetic is replaced by real arithmetic; exp, log, expm1, log1p and erfc are the exact functions.
    A point of dimension n is a function of which only the values at indexes below n are used. A panic is [None]. *)
From Coq Require Import Reals Lra Lia Arith.
From Coquelicot Require Import Coquelicot.
From Coq Require Import List Bool.
From Verif Require Import RVec Normal.
Import ListNotations.
Local Open Scope R_scope.
Definition vec := nat -> R.

(** [f64::EPSILON] and [f64::MIN]. *)
Definition EPS : R := / 2 ^ 52.
Definition F64_MIN : R := - ((2 - EPS) * 2 ^ 1023).

(** The part of the trait MixtureGpSurrogate used by the criteria (crates/moe/src/surrogates.rs:71-119), on a batch of one
    point. [None] is an [Err]. *)
Record surrogate := { s_predict : vec -> option R; s_valvar : vec -> option (R * R); s_grad : vec -> option vec;
  s_valvar_grad : vec -> option (vec * vec) }.

Definition rlt (a b : R) : bool := if Rlt_dec a b then true else false.
Definition unwrap_or (o : option R) (d : R) : R := match o with Some v => v | None => d end.

(** ei.rs:22-48, [ExpectedImprovement::value]. *)
Definition ei_value (m : surrogate) (fmin : R) (weight : option R) (x : vec) : R :=
  match s_valvar m x with
  | Some (p, s) =>
      if rlt s EPS then 0
      else let k := unwrap_or weight 1 in
           let sigma := k * sqrt s in
           let args0 := (fmin - p) / sigma in
           let args1 := args0 * norm_cdf args0 in
           let args2 := norm_pdf args0 in
           sigma * (args1 + args2)
  | None => 0
  end.

(** ei.rs:52-88, [ExpectedImprovement::grad]. *)
Definition ei_grad (m : surrogate) (fmin : R) (weight : option R) (x : vec) : option vec :=
  match s_valvar m x with
  | Some (p, s) =>
      if rlt s EPS then Some (fun _ => 0)
      else let diff_y := fmin - p in
           let k := unwrap_or weight 1 in
           let sigma := sqrt s in
           let arg := (fmin - p) / (k * sigma) in
           match s_valvar_grad m x with
           | Some (y', var') => Some (fun j =>
               let sig' := k * var' j / (2 * sigma) in
               let arg' := y' j / (- k * sigma) - diff_y * (sig' / (k * sigma * k * sigma)) in
               let factor := k * sigma * (- arg / sqrt (2 * PI)) * exp (- (arg * arg) / 2) in
               let arg1 := y' j * - norm_cdf arg in
               let arg2 := diff_y * norm_pdf arg * arg' in
               let arg3 := sig' * norm_pdf arg in
               let arg4 := factor * arg' in
               arg1 + arg2 + arg3 + arg4)
           | None => None
           end
  | None => Some (fun _ => 0)
  end.

(** logei_helper.rs:9-20. *)
Definition erfcx (u : R) : R := exp (u * u) * erfc u.
Definition log1mexp (x : R) : R :=
  if rlt (- ln 2) x then ln (- (exp x - 1)) else ln (1 + - exp x).
(** logei_helper.rs:22-37, [log_ei_helper]; LOG_2PI_OVER_2 and LOG_PI_OVER_2_ALL_OVER_2 are the exact values, INV_SQRT_EPSILON
    is 1e6. *)
Definition log_ei_helper (u : R) : R :=
  if rlt (-1) u then ln (norm_pdf u + u * norm_cdf u)
  else let log_phi_u := - / 2 * u * u - ln (2 * PI) / 2 in
       let log_term := if rlt (- 1000000) u
                       then log1mexp (ln (erfcx (- (/ sqrt 2) * u) * Rabs u) + ln (PI / 2) / 2)
                       else -2 * ln (Rabs u) in
       log_phi_u + log_term.
(** logei_helper.rs:39-57. *)
Definition log1mexp_prime (w : R) : R := - exp w / (1 - exp w).
Definition w_and_w_prime (u : R) : R * R :=
  let z := - (/ sqrt 2) * u in
  let v := erfcx z in
  let v' := 2 * z * v - 2 / sqrt PI in
  (ln (v * Rabs u) + ln (PI / 2) / 2, v' * - (/ sqrt 2) / v + 1 / u).
Definition log1mexp_w_derivative (u : R) : R := let (w, w') := w_and_w_prime u in log1mexp_prime w * w'.
(** logei_helper.rs:59-75, [d_log_ei_helper]. *)
Definition d_log_ei_helper (u : R) : R :=
  if rlt (-1) u then norm_cdf u / exp (log_ei_helper u)
  else - u + (if rlt (- 1000000) u then log1mexp_w_derivative u else -2 / u).

(** ei.rs:106-133, [LogExpectedImprovement::value]. *)
Definition logei_value (m : surrogate) (fmin : R) (x : vec) : R :=
  match s_valvar m x with
  | Some (p, s) =>
      if rlt s EPS then F64_MIN
      else let sigma := sqrt s in
           let u := (fmin - p) / sigma in
           log_ei_helper u + ln sigma
  | None => F64_MIN
  end.
(** ei.rs:137-170, [LogExpectedImprovement::grad]. *)
Definition logei_grad (m : surrogate) (fmin : R) (x : vec) : option vec :=
  match s_valvar m x with
  | Some (p, s) =>
      if rlt s EPS then Some (fun _ => F64_MIN)
      else let diff_y := fmin - p in
           let sigma := sqrt s in
           let arg := diff_y / sigma in
           match s_valvar_grad m x with
           | Some (y', var') => Some (fun j =>
               let sig' := var' j / (2 * sigma) in
               let arg' := y' j / (- sigma) - diff_y * (sig' / (sigma * sigma)) in
               d_log_ei_helper arg * arg' + sig' / sigma)
           | None => None
           end
  | None => Some (fun _ => F64_MIN)
  end.

(** wb2.rs:23-37, [WB2Criterion::value]; [own] is the scale stored in the criterion (Some 1 for WB2, None for WB2S). *)
Definition wb2_value (own : option R) (m : surrogate) (fmin : R) (weight scale : option R) (x : vec) : option R :=
  let sc := match scale with Some s => s | None => unwrap_or own 1 end in
  match s_predict m x with Some p => Some (sc * ei_value m fmin weight x - p) | None => None end.
(** wb2.rs:41-53, [WB2Criterion::grad]. *)
Definition wb2_grad (own : option R) (m : surrogate) (fmin : R) (weight scale : option R) (x : vec) : option vec :=
  let sc := match scale with Some s => s | None => unwrap_or own 1 end in
  match ei_grad m fmin weight x, s_grad m x with
  | Some g, Some y' => Some (fun j => g j * sc - y' j)
  | _, _ => None
  end.

(** The criteria a configuration can select (criteria/mod.rs). *)
Inductive criterion := EI | LogEI | WB2 (own : option R).
Definition is_logei (c : criterion) : bool := match c with LogEI => true | _ => false end.
Definition crit_value (c : criterion) (m : surrogate) (fmin : R) (weight scale : option R) (x : vec) : option R :=
  match c with
  | EI => Some (ei_value m fmin weight x)
  | LogEI => Some (logei_value m fmin x)
  | WB2 own => wb2_value own m fmin weight scale x
  end.
Definition crit_grad (c : criterion) (m : surrogate) (fmin : R) (weight scale : option R) (x : vec) : option vec :=
  match c with
  | EI => ei_grad m fmin weight x
  | LogEI => logei_grad m fmin x
  | WB2 own => wb2_grad own m fmin weight scale x
  end.

(** cstr_pof.rs:9-24, [pof]. *)
Definition pof (m : surrogate) (tol : R) (x : vec) : R :=
  match s_valvar m x with
  | Some (p, s) => if rlt s EPS then 0 else norm_cdf ((tol - p) / sqrt s)
  | None => 0
  end.
(** cstr_pof.rs:28-49, [pof_grad]. *)
Definition pof_grad (m : surrogate) (tol : R) (x : vec) : option vec :=
  match s_valvar m x with
  | Some (p, s) =>
      if rlt s EPS then Some (fun _ => 0)
      else let sigma := sqrt s in
           let arg := (tol - p) / sigma in
           match s_valvar_grad m x with
           | Some (y', var') => Some (fun j =>
               let sig' := var' j / (2 * sigma) in
               let arg' := y' j / (- sigma) + sig' * p / (sigma * sigma) in
               norm_pdf arg * arg')
           | None => None
           end
  | None => Some (fun _ => 0)
  end.
(** cstr_pof.rs:51-60, [pofs], and 62-71, [logpofs]. Each constraint model comes with its tolerance (zip). *)
Definition pofs (cs : list (surrogate * R)) (x : vec) : R :=
  fold_left (fun acc c => acc * pof (fst c) (snd c) x) cs 1.
Definition logpofs (cs : list (surrogate * R)) (x : vec) : R :=
  fold_left (fun acc c => acc + ln (Rmax (pof (fst c) (snd c) x) EPS)) cs 0.
(** All results, or [None] if one of them panics. *)
Fixpoint all_some {A B} (f : A -> option B) (l : list A) : option (list B) :=
  match l with
  | [] => Some []
  | a :: r => match f a, all_some f r with Some b, Some bs => Some (b :: bs) | _, _ => None end
  end.
(** cstr_pof.rs:73-101, [pofs_grad]: for each constraint, its gradient times the product of the other probabilities. *)
Definition others_product (vals : list R) (i : nat) : R :=
  fold_left (fun acc jv => if Nat.eqb (fst jv) i then acc else acc * snd jv) (combine (seq 0 (length vals)) vals) 1.
Definition pofs_grad (cs : list (surrogate * R)) (x : vec) : option vec :=
  let vals := map (fun c => pof (fst c) (snd c) x) cs in
  match all_some (fun c => pof_grad (fst c) (snd c) x) cs with
  | Some grads => Some (fun j =>
      fold_left (fun acc ig => acc + snd ig j * others_product vals (fst ig)) (combine (seq 0 (length grads)) grads) 0)
  | None => None
  end.
(** cstr_pof.rs:103-107, [logpof_grad], and 109-118, [logpofs_grad]. *)
Definition logpof_grad (m : surrogate) (tol : R) (x : vec) : option vec :=
  match pof_grad m tol x with
  | Some num => Some (fun j => num j / Rmax (pof m tol x) EPS)
  | None => None
  end.
Definition logpofs_grad (cs : list (surrogate * R)) (x : vec) : option vec :=
  match all_some (fun c => logpof_grad (fst c) (snd c) x) cs with
  | Some grads => Some (fun j => fold_left (fun acc g => acc + g j) grads 0)
  | None => None
  end.

(** solver_computations.rs:356-374, [eval_infill_obj]. *)
Definition infill_obj (c : criterion) (m : surrogate) (fmin scale scale_ic weight : R) (x : vec) : option R :=
  match crit_value c m fmin (Some weight) (Some scale_ic) x with Some v => Some (- v / scale) | None => None end.
(** solver_computations.rs:378-393, [eval_grad_infill_obj]: the weight is not passed to the criterion. *)
Definition infill_obj_grad (c : criterion) (m : surrogate) (fmin scale scale_ic : R) (x : vec) : option vec :=
  match crit_grad c m fmin None (Some scale_ic) x with Some g => Some (fun j => - g j / scale) | None => None end.
(** solver_computations.rs:398-424, [eval_infill_obj_with_cstrs]. *)
Definition constrained_obj (c : criterion) (m : surrogate) (cs : list (surrogate * R)) (fmin scale scale_ic : R)
  (feasibility : bool) (weight : R) (x : vec) : option R :=
  match (if feasibility then infill_obj c m fmin scale scale_ic weight x
         else Some (if is_logei c then 0 else -1)) with
  | Some v => Some (if is_logei c then v - logpofs cs x else v * pofs cs x)
  | None => None
  end.
(** solver_computations.rs:428-474, [eval_grad_infill_obj_with_cstrs]. *)
Definition constrained_obj_grad (c : criterion) (m : surrogate) (cs : list (surrogate * R)) (fmin scale scale_ic : R)
  (feasibility : bool) (weight : R) (x : vec) : option vec :=
  match cs with
  | [] => infill_obj_grad c m fmin scale scale_ic x
  | _ :: _ =>
      if is_logei c then
        match (if feasibility then infill_obj_grad c m fmin scale scale_ic x else Some (fun _ => 0)), logpofs_grad cs x with
        | Some g, Some l => Some (fun j => g j - l j)
        | _, _ => None
        end
      else
        match infill_obj_grad c m fmin scale scale_ic x with (* computed in both cases, lines 445-449 *)
        | None => None
        | Some g0 =>
            match (if feasibility then
                     match infill_obj c m fmin scale scale_ic weight x with Some v => Some (v, g0) | None => None end
                   else Some (-1, fun _ => 0)), pofs_grad cs x with
            | Some (v, g), Some pg => Some (fun j => g j * pofs cs x + pg j * v)
            | _, _ => None
            end
        end
  end.

(** solver_computations.rs:196-220, [mean_cstr], all components being active: value and gradient. *)
Definition mean_cstr (m : surrogate) (scale : R) (x : vec) : option R :=
  match s_predict m x with Some p => Some (p / scale) | None => None end.
Definition mean_cstr_grad (m : surrogate) (scale : R) (x : vec) : option vec :=
  match s_grad m x with Some g => Some (fun j => g j / scale) | None => None end.
(** coego.rs:22, CSTR_DOUBT. *)
Definition CSTR_DOUBT : R := 3.
(** solver_computations.rs:224-258, [upper_trust_bound_cstr], all components being active: value and gradient. The derivative
    of the variance with respect to the first component is used for every component (line 242). *)
Definition utb_cstr (m : surrogate) (scale : R) (x : vec) : option R :=
  match s_valvar m x with Some (p, v) => Some ((p + CSTR_DOUBT * sqrt v) / scale) | None => None end.
Definition utb_cstr_grad (m : surrogate) (scale : R) (x : vec) : option vec :=
  match s_valvar m x, s_valvar_grad m x with
  | Some (_, v), Some (y', var') =>
      let sigma := sqrt v in
      let sigma' := if rlt sigma EPS then 0 else var' O / (2 * sigma) in
      Some (fun j => (y' j + CSTR_DOUBT * sigma') / scale)
  | _, _ => None
  end.
(** solver_impl.rs:716-741: a constraint function of the user, given to the optimizer divided by its scale. The user function
    returns its value and writes its gradient in the buffer of the optimizer; the buffer is not divided by the scale. *)
Definition fcstr (f : vec -> R) (scale : R) (x : vec) : R := f x / scale.
Definition fcstr_grad (fgrad : vec -> vec) (scale : R) (x : vec) : vec := fgrad x.

(** wb2.rs:69-93, [compute_wb2s_scale]; the argmax is the first index of the greatest value. *)
Fixpoint argmax_from (best : R) (bi i : nat) (l : list R) : nat :=
  match l with [] => bi | v :: r => if rlt best v then argmax_from v i (S i) r else argmax_from best bi (S i) r end.
Definition argmax (l : list R) : option nat := match l with [] => None | v :: r => Some (argmax_from v 0 1 r) end.
Definition wb2s_scale (m : surrogate) (fmin : R) (weight : option R) (points : list vec) : option R :=
  let eis := map (ei_value m fmin weight) points in
  match argmax eis with
  | Some i =>
      match nth_error points i, nth_error eis i with
      | Some xi, Some eimax =>
          match s_predict m xi with
          | Some p => Some (if rlt (100 * EPS) (Rabs eimax) then 100 * Rabs p / eimax else 1)
          | None => None
          end
      | _, _ => None
      end
  | None => None
  end.

(** [QuantileExt::max] of a list of reals, [None] when it is empty. *)
Fixpoint max_from (best : R) (l : list R) : R :=
  match l with [] => best | v :: r => max_from (if rlt best v then v else best) r end.
Definition list_max (l : list R) : option R := match l with [] => None | v :: r => Some (max_from v r) end.
(** solver_computations.rs:297-351, [compute_infill_obj_scale], [cstr_infill] telling whether the criterion is constrained.
    Reals are neither NaN nor infinite, so that no value is replaced. *)
Definition infill_obj_scale (c : criterion) (m : surrogate) (cs : list (surrogate * R)) (cstr_infill : bool)
  (fmin scale_ic weight : R) (points : list vec) : option R :=
  match all_some (infill_obj c m fmin 1 scale_ic weight) points with
  | Some vals =>
      let vals := if cstr_infill
        then map (fun vx => if is_logei c then fst vx - logpofs cs (snd vx) else fst vx * pofs cs (snd vx)) (combine vals points)
        else vals in
      let scale := unwrap_or (list_max (map Rabs vals)) 1 in
      Some (if rlt scale (100 * EPS) then 1 else scale)
  | None => None
  end.
(** misc.rs:10-28, [compute_cstr_scales], for one constraint. *)
Definition cstr_scale (m : surrogate) (points : list vec) : option R :=
  match all_some (s_predict m) points with Some ps => Some (unwrap_or (list_max (map Rabs ps)) 1) | None => None end.

(** solver_computations.rs:261-292, [compute_virtual_point]. Rows of y_data hold the objective followed by the constraints;
    the argmin is the first index of the least objective. [var] is the prediction of the variance ([predict_var]). *)
Inductive qei := KrigingBeliever | KrigingBelieverLowerBound | KrigingBelieverUpperBound | ConstantLiarMinimum.
Fixpoint argmin_from (best : R) (bi i : nat) (l : list R) : nat :=
  match l with [] => bi | v :: r => if rlt v best then argmin_from v i (S i) r else argmin_from best bi (S i) r end.
Definition virtual_point (q : qei) (n_cstr : nat) (x : vec) (ydata : list (list R)) (m : surrogate) (cs : list surrogate) :
  option (list R) :=
  match q with
  | ConstantLiarMinimum =>
      match all_some (fun r => nth_error r 0) ydata with
      | Some (o :: os) =>
          match nth_error ydata (argmin_from o 0 1 os) with
          | Some row => all_some (nth_error row) (seq 0 (S n_cstr))
          | None => None
          end
      | _ => None
      end
  | _ =>
      match s_predict m x, s_valvar m x, all_some (fun c => s_predict c x) cs with
      | Some p, Some (_, v), Some ps =>
          let conf := match q with KrigingBelieverLowerBound => -3 | KrigingBelieverUpperBound => 3 | _ => 0 end in
          Some (p + conf * sqrt v :: ps)
      | _, _, _ => None
      end
  end.
