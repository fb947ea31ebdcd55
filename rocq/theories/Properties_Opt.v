(** C162: the tolerances of the constraints in the optimization of the infill criterion. *)
From Coq Require Import Reals List Bool Lia Lra.
From Verif Require Import Util Opt_Model.
Import ListNotations.
Local Open Scope R_scope.

(** The points the user allows: each constraint, approximated by a surrogate or given as a function, is not above its tolerance. *)
Definition user_allows {X} (models funcs : list (X -> R)) (tol : list R) (x : X) : Prop := Forall2 (fun f t => f x <= t) (models ++ funcs) tol.

Lemma scaled_length {X} (fs : list (X -> R)) : forall ss, length ss = length fs -> length (scaled fs ss) = length fs.
Proof. induction fs as [|f fs IH]; intros [|s ss] H; cbn in *; try lia. rewrite IH; lia. Qed.
Lemma scaled_app {X} (fs gs : list (X -> R)) : forall ss rs, length ss = length fs -> scaled fs ss ++ scaled gs rs = scaled (fs ++ gs) (ss ++ rs).
Proof. induction fs as [|f fs IH]; intros [|s ss] rs H; cbn in *; try lia; [reflexivity|]. rewrite IH by lia. reflexivity. Qed.
Lemma scaled_nth {X} (fs : list (X -> R)) : forall ss i g, nth_error (scaled fs ss) i = Some g ->
  exists f s, nth_error fs i = Some f /\ nth_error ss i = Some s /\ g = (fun x => f x / s).
Proof.
  induction fs as [|f fs IH]; intros [|s ss] [|i] g H; cbn in H; try discriminate H.
  - injection H as <-. exists f, s. repeat split.
  - destruct (IH ss i g H) as (f' & s' & H1 & H2 & H3). exists f', s'. repeat split; assumption.
Qed.
Lemma div_le_0 v s : 0 < s -> (v / s <= 0 <-> v <= 0).
Proof.
  intros Hs. split; intros H.
  - apply Rnot_lt_le. intros P. assert (0 < v / s) by (apply Rdiv_lt_0_compat; lra). lra.
  - apply Rmult_le_reg_r with s; [lra|]. unfold Rdiv. rewrite Rmult_assoc, Rinv_l by lra. lra.
Qed.
Lemma fold_cons {X} (calls : list (opt_call X)) : forall o, let o' := fold_left opt_apply calls o in
  o_algo o' = o_algo o /\ o_cons o' = o_cons o /\ o_tol o' = o_tol o /\ o_scales o' = o_scales o.
Proof.
  induction calls as [|c calls IH]; intros o; [repeat split|]. cbv zeta. cbn [fold_left]. destruct (IH (opt_apply o c)) as (H1 & H2 & H3 & H4).
  rewrite H1, H2, H3, H4. destruct o, c; repeat split.
Qed.
Lemma in_nth {A} (l : list A) (P : A -> Prop) : (forall i a, nth_error l i = Some a -> P a) <-> Forall P l.
Proof.
  split; intros H.
  - apply Forall_forall. intros a Ha. destruct (In_nth_error l a Ha) as [i Hi]. exact (H i a Hi).
  - intros i a Hi. rewrite Forall_forall in H. exact (H a (nth_error_In l i Hi)).
Qed.

(** A list of scaled constraints whose scales, among those of the user data, are all positive. *)
Lemma allows_zero {X} algo (cons : list (X -> R)) scales (calls : list (opt_call X)) fs ss x : cons = scaled fs ss -> length ss = length fs ->
  Forall (fun s => 0 < s) ss -> Forall (fun s => 0 < s) scales -> (length fs <= length scales)%nat ->
  (inner_allows (fold_left opt_apply calls (new_opt algo cons scales)) x <-> Forall (fun f => f x <= 0) fs).
Proof.
  intros -> L Hp Hs Hl. destruct (fold_cons calls (new_opt algo (scaled fs ss) scales)) as (H1 & H2 & H3 & H4).
  set (o := fold_left opt_apply calls (new_opt algo (scaled fs ss) scales)) in *. clearbody o. cbn in H1, H2, H3, H4.
  assert (V : forall i f, nth_error fs i = Some f -> (given_allows o i x <-> f x <= 0)).
  { intros i f E. assert (Hi : (i < length fs)%nat) by (apply nth_error_Some; congruence).
    destruct (nth_error (scaled fs ss) i) as [g|] eqn:Eg; [|apply nth_error_None in Eg; rewrite scaled_length in Eg by exact L; lia].
    destruct (scaled_nth fs ss i g Eg) as (f' & s & E1 & E2 & E3). rewrite E in E1. injection E1 as <-.
    destruct (nth_error scales i) as [r|] eqn:Er; [|apply nth_error_None in Er; lia].
    assert (Et : nth_error (opt_tolerances o) i = Some 0).
    { unfold opt_tolerances. rewrite H3, H2, scaled_length by exact L. clear -Hi. revert Hi. generalize (length fs). intros n. revert i.
      induction n as [|n IH]; intros [|i] Hi; cbn; try lia; [reflexivity|]. apply IH. lia. }
    assert (Ps : 0 < s) by (rewrite Forall_forall in Hp; exact (Hp s (nth_error_In ss i E2))).
    unfold given_allows, given_value. rewrite H2, Eg, Et, H4, Er, H1, E3. pose proof (div_le_0 (f x) s Ps) as D.
    replace (0 / r) with 0 by (unfold Rdiv; ring). destruct algo; rewrite <- D; lra. }
  unfold inner_allows. rewrite H2, scaled_length by exact L. rewrite <- in_nth. split.
  - intros H i f E. apply (proj1 (V i f E)). apply H. apply nth_error_Some. congruence.
  - intros H i Hi. destruct (nth_error fs i) as [f|] eqn:E; [|apply nth_error_None in E; lia]. apply (V i f E). exact (H i f E).
Qed.

(** C162. Whatever the algorithm, its options and the positive scales, the points the optimizer is asked to stay in are those where all the
    constraints are not positive, or all the constraint functions when the criterion takes the surrogates of the constraints into account. *)
Theorem C162_constraints_partial : forall X algo cstr_infill (models funcs : list (X -> R)) scale_m scale_f calls x,
  length scale_m = length models -> length scale_f = length funcs -> Forall (fun s => 0 < s) scale_m -> Forall (fun s => 0 < s) scale_f ->
  (inner_allows (inner_optimizer algo cstr_infill models funcs scale_m scale_f calls) x <->
   Forall (fun f => f x <= 0) (if cstr_infill then funcs else models ++ funcs)).
Proof.
  intros X algo cstr_infill models funcs scale_m scale_f calls x L1 L2 P1 P2. unfold inner_optimizer.
  apply (allows_zero algo (constraints cstr_infill models funcs scale_m scale_f) (scale_m ++ scale_f) calls
    (if cstr_infill then funcs else models ++ funcs) (if cstr_infill then scale_f else scale_m ++ scale_f)).
  - unfold constraints. destruct cstr_infill; [reflexivity|]. apply scaled_app. exact L1.
  - destruct cstr_infill; [exact L2|]. rewrite !app_length. lia.
  - destruct cstr_infill; [exact P2|]. apply Forall_app. split; assumption.
  - apply Forall_app. split; assumption.
  - destruct cstr_infill; rewrite !app_length; lia.
Qed.
Print Assumptions C162_constraints_partial.

(** C162. So with tolerances that are not negative, it stays in the points the user allows. *)
Theorem C162_inside_partial : forall X algo (models funcs : list (X -> R)) scale_m scale_f calls tol x,
  length scale_m = length models -> length scale_f = length funcs -> Forall (fun s => 0 < s) scale_m -> Forall (fun s => 0 < s) scale_f ->
  length tol = length (models ++ funcs) -> Forall (fun t => 0 <= t) tol ->
  inner_allows (inner_optimizer algo false models funcs scale_m scale_f calls) x -> user_allows models funcs tol x.
Proof.
  intros X algo models funcs scale_m scale_f calls tol x L1 L2 P1 P2 L H0 H.
  apply (C162_constraints_partial X algo false models funcs scale_m scale_f calls x L1 L2 P1 P2) in H. unfold user_allows.
  revert tol L H0. generalize dependent (models ++ funcs). intros fs H. induction H as [|f fs Hf _ IH]; intros [|t tol] L H0; try discriminate L;
    constructor; inversion H0; subst; [lra|]. apply IH; [cbn in L; lia|assumption].
Qed.
Print Assumptions C162_inside_partial.

(** C162, finding: the tolerances of the user are not used. For all tolerances but zero, with any algorithm, options and positive scales, there are
    constraints for which the points the optimizer is asked to stay in are not those the user allows. *)
Theorem C162_tolerances_refuted : forall algo n_models n_funcs scale_m scale_f calls tol,
  length scale_m = n_models -> length scale_f = n_funcs -> Forall (fun s => 0 < s) scale_m -> Forall (fun s => 0 < s) scale_f ->
  length tol = (n_models + n_funcs)%nat -> Exists (fun t => t <> 0) tol ->
  exists models funcs : list (unit -> R), length models = n_models /\ length funcs = n_funcs /\
    ~ (inner_allows (inner_optimizer algo false models funcs scale_m scale_f calls) tt <-> user_allows models funcs tol tt).
Proof.
  intros algo nm nf scale_m scale_f calls tol L1 L2 P1 P2 L He.
  destruct (Exists_dec (fun t => 0 < t) tol (fun t => Rlt_dec 0 t)) as [Hp|Hn].
  - exists (map (fun t _ => t) (firstn nm tol)), (map (fun t _ => t) (skipn nm tol)).
    assert (A : map (fun (t : R) (_ : unit) => t) (firstn nm tol) ++ map (fun t _ => t) (skipn nm tol) = map (fun t _ => t) tol)
      by (rewrite <- map_app, firstn_skipn; reflexivity).
    assert (B1 : length (map (fun (t : R) (_ : unit) => t) (firstn nm tol)) = nm) by (rewrite map_length, firstn_length; lia).
    assert (B2 : length (map (fun (t : R) (_ : unit) => t) (skipn nm tol)) = nf) by (rewrite map_length, skipn_length; lia).
    split; [exact B1|]. split; [exact B2|]. intros H.
    rewrite (C162_constraints_partial unit algo false _ _ scale_m scale_f calls tt) in H by (congruence || assumption).
    unfold user_allows in H. cbn [app] in H. rewrite A in H.
    assert (U : Forall2 (fun (f : unit -> R) t => f tt <= t) (map (fun t _ => t) tol) tol) by (clear; induction tol; constructor; [lra|assumption]).
    apply H in U. rewrite Forall_map in U. clear -U Hp. induction Hp as [t tol Ht|t tol _ IH]; inversion U; subst; [lra|auto].
  - exists (repeat (fun _ => 0) nm), (repeat (fun _ => 0) nf). rewrite !repeat_length. split; [reflexivity|]. split; [reflexivity|]. intros H.
    rewrite (C162_constraints_partial unit algo false _ _ scale_m scale_f calls tt) in H by (rewrite ?repeat_length; assumption).
    unfold user_allows in H. rewrite <- repeat_app in H.
    assert (U : Forall (fun f : unit -> R => f tt <= 0) (repeat (fun _ => 0) (nm + nf))).
    { apply Forall_forall. intros f Hf. apply repeat_spec in Hf. subst. lra. }
    apply H in U. clear -U He Hn. revert tol He Hn U. generalize (nm + nf)%nat. intros n.
    induction n as [|n IH]; intros [|t tol] He Hn U; cbn in U; inversion U; subst; [inversion He|].
    inversion He; subst; [|eapply IH; eauto]. destruct (Rtotal_order t 0) as [Q|[Q|Q]]; [lra|contradiction|apply Hn; left; lra].
Qed.
Print Assumptions C162_tolerances_refuted.

(** C162, a concrete case: a constraint equal to 0.05 with the tolerance 0.1. *)
Example C162_example :
  user_allows [fun x : R => x - 1] [fun x => - x] [1 / 10; 1 / 10] (21 / 20) /\
  ~ inner_allows (inner_optimizer ASlsqp false [fun x : R => x - 1] [fun x => - x] [2] [3] [FtolRel (1 / 10000); Xinit 0]) (21 / 20) /\
  inner_allows (inner_optimizer ACobyla false [fun x : R => x - 1] [fun x => - x] [2] [3] [FtolRel (1 / 10000); Xinit 0]) (1 / 2).
Proof.
  repeat split.
  - unfold user_allows. cbn [app]. repeat constructor; lra.
  - rewrite C162_constraints_partial; try reflexivity; try (repeat constructor; lra). cbn [app]. intros H. inversion H; subst. lra.
  - rewrite C162_constraints_partial; try reflexivity; try (repeat constructor; lra).
Qed.
