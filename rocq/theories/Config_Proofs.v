From Coq Require Import String ZArith List Bool Lia.
From Verif Require Import F64 Util Mixint_Model Py_Model Coego_Model Config_Model Config_Spec.
From Verif Require Import FindResult_Model.
From Verif Require Moe_Model.
Import ListNotations.
Local Open Scope nat_scope.

Lemma last_cons {V} : forall (l : list V) a d, last (a :: l) d = last l a.
Proof.
  induction l as [|b l IH]; intros a d; [reflexivity|].
  change (last (a :: b :: l) d) with (last (b :: l) d). rewrite IH, IH. reflexivity.
Qed.

Lemma fold_last {K O V} (ap : K -> O -> K) (proj : K -> V) (says : O -> option V) :
  (forall k o, proj (ap k o) = match says o with Some v => v | None => proj k end) ->
  forall calls k, proj (fold_left ap calls k) = last_given says (proj k) calls.
Proof.
  intros H calls. induction calls as [|o calls IH]; intros k; [reflexivity|].
  cbn [fold_left]. rewrite IH, H. unfold last_given. cbn [flat_map].
  destruct (says o); [rewrite <- app_comm_cons, last_cons|]; reflexivity.
Qed.

Lemma fold_gp : forall calls k, k_gp (fold_left apply_call calls k) = fold_left gp_apply (gp_calls calls) (k_gp k).
Proof.
  induction calls as [|o calls IH]; intros k; [reflexivity|].
  cbn [fold_left]. rewrite IH. unfold gp_calls. cbn [flat_map]. rewrite fold_left_app. f_equal.
  destruct k, o; try reflexivity. destruct s; reflexivity.
Qed.

Lemma swap_calls : forall k a b, same_option a b = false -> apply_call (apply_call k a) b = apply_call (apply_call k b) a.
Proof.
  intros k a b H. destruct k; destruct a; destruct b; cbn in H; try discriminate H; try reflexivity;
    repeat match goal with s : coego_status |- _ => destruct s end; reflexivity.
Qed.

Lemma cstr_sum_short : forall cs tol acc, length tol < length cs -> cstr_sum_loop acc cs tol = None.
Proof.
  induction cs as [|c cs IH]; intros [|t tol] acc H; cbn in *; try reflexivity; try lia. apply IH. lia.
Qed.

Lemma mapM_defined {A B} (f : A -> option B) l : (forall a, In a l -> f a <> None) -> exists bs, mapM f l = Some bs.
Proof.
  induction l as [|a l IH]; intros H; [eexists; reflexivity|]. cbn.
  destruct (f a) as [b|] eqn:E; [|exfalso; exact (H a (or_introl eq_refl) E)].
  destruct IH as [bs ->]; [intros x Hx; apply H; right; exact Hx|]. eexists. reflexivity.
Qed.

Lemma py_calls_some : forall init bounds tol p mi nf doe, c_regr (y_gp p) < 8 -> c_corr (y_gp p) < 16 ->
  (forall b, c_bounds (y_gp p) = Some b -> Forall (fun v => 2 <= length v) b) -> exists calls, py_calls init bounds tol p mi nf doe = Some calls.
Proof.
  intros init bounds tol p mi nf doe Hr Hc Hb. unfold py_calls, egor_settings, regr_bits, corr_bits.
  apply Nat.ltb_lt in Hr. apply Nat.ltb_lt in Hc. rewrite Hr, Hc.
  assert (B : exists t, base_tuning init bounds (y_gp p) = Some t).
  { unfold base_tuning. destruct (c_bounds (y_gp p)) as [b|]; [|eexists; reflexivity]. specialize (Hb b eq_refl).
    assert (M : exists bs, mapM (fun v : list f64 => do l <- nth_error v 0; do u <- nth_error v 1; Some (l, u)) b = Some bs).
    { apply mapM_defined. intros v Hv. rewrite Forall_forall in Hb. specialize (Hb v Hv).
      destruct v as [|l [|u v]]; cbn in Hb; try lia. cbn. congruence. }
    destruct M as [bs M]. rewrite M. eexists. reflexivity. }
  destruct B as [t B]. rewrite B. eexists. reflexivity.
Qed.

Lemma py_calls_say : forall init bounds tol p mi nf doe calls, py_calls init bounds tol p mi nf doe = Some calls ->
  last_given says_n_cstr 0 calls = y_n_cstr p /\ last_given says_cstr_tol None calls = Some (cstr_tol tol (y_cstr_tol p) (y_n_cstr p) nf) /\
  last_given says_coego CoegoDisabled calls = (if y_n_coop p =? 0 then CoegoDisabled else CoegoEnabled (y_n_coop p)) /\
  last_given says_kpls None (gp_calls calls) = c_kpls (y_gp p).
Proof.
  intros init bounds tol p mi nf doe calls E. unfold py_calls, egor_settings in E.
  destruct (regr_bits (c_regr (y_gp p))) as [r|]; [|discriminate E].
  destruct (corr_bits (c_corr (y_gp p))) as [q|]; [|discriminate E].
  destruct (base_tuning init bounds (y_gp p)) as [t|]; [|discriminate E].
  cbn [nth_error m_tunings m_regr m_corr m_kpls m_nclusters m_recomb m_nstart m_maxeval] in E.
  apply (f_equal (fun o => match o with Some a => a | None => calls end)) in E. cbv beta iota in E. subst calls.
  destruct doe, (y_outdir p), (y_seed p); repeat split; reflexivity.
Qed.

Lemma hconcat_rows : forall a b (y c : list (list f64)) all, Forall (fun r => length r = a) y -> Forall (fun r => length r = b) c ->
  hconcat y c = Some all -> length all = length y /\ Forall (fun r => length r = a + b) all.
Proof.
  intros a b y. induction y as [|r y IH]; intros [|s c] all Hy Hc H; cbn in H; try discriminate H.
  - injection H as <-. split; constructor.
  - destruct (hconcat y c) as [l|] eqn:E; [|discriminate H]. injection H as <-.
    inversion Hy; subst. inversion Hc; subst. destruct (IH c l) as [IH1 IH2]; try assumption.
    split; [cbn; lia|]. constructor; [rewrite app_length; lia|exact IH2].
Qed.
