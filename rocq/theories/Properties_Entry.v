(** Entry points of surrogates: properties C135 and C137. *)
From Coq Require Import ZArith Reals Lra Lia Arith.
From Flocq Require Import IEEE754.BinarySingleNaN.
From Coq Require Import List Bool.
From Verif Require Import Util F64 Mixint_Model Mixint_Spec Mixint_Proofs Entry_Model Properties_Mixint.
From Verif Require RVec Gp_Model Gp_Proofs Gmx_Model Moe_Model Gp_Exist.
Import ListNotations.
Local Notation mat := (list (list f64)).

(** ** C135: prediction entry points agree *)
(** Values and variances predicted together are those predicted separately: Gaussian process, smooth and hard mixtures. *)
Theorem C135_gp : forall g x i m v, Gp_Model.predict_valvar g x i = Some (m, v) <-> Gp_Model.predict g x i = Some m /\ Gp_Model.predict_var g x i = Some v.
Proof.
  intros g x i m v. unfold Gp_Model.predict_valvar, Gp_Model.predict, Gp_Model.predict_var.
  destruct (Gp_Model.compute_correlation g (fun a => Gp_Model.xnorm g (x a)) i) as [corr|].
  - cbv zeta. destruct (Gp_Model.compute_rt_u g (Gp_Model.xnorm g (x i)) corr) as [rt u]. split.
    + intros H. injection H as <- <-. split; reflexivity.
    + intros [A B]. injection A as <-. injection B as <-. reflexivity.
  - split; [discriminate|]. intros [A _]. discriminate A.
Qed.
Print Assumptions C135_gp.
Theorem C135_smooth : forall g ex x, Gmx_Model.smooth_valvar g ex x = (Gmx_Model.smooth_val g ex x, Gmx_Model.smooth_var g ex x).
Proof. reflexivity. Qed.
Print Assumptions C135_smooth.
Theorem C135_hard : forall (G E : Type) resp (val var : E -> list f64 -> f64) (m : Moe_Model.mixture G E) xs,
  Moe_Model.predict_hard resp (fun e x => (val e x, var e x)) m xs =
  match Moe_Model.predict_hard resp val m xs, Moe_Model.predict_hard resp var m xs with
  | Some a, Some b => Some (combine a b)
  | _, _ => None
  end.
Proof.
  intros G E resp val var m xs. unfold Moe_Model.predict_hard. induction xs as [|x xs IH]; cbn [mapM]; [reflexivity|].
  destruct (nth_error _ _) as [e|]; [|reflexivity]. rewrite IH. clear IH. repeat (match goal with |- context [mapM ?f xs] => destruct (mapM f xs); [|try reflexivity] end); reflexivity.
Qed.
Print Assumptions C135_hard.

(** linfa's [predict] agrees with the surrogate's own [predict] at the relaxed points that are already discrete... *)
Theorem C135_linfa_partial : forall (A : Type) ts (predictor : mat -> option A) x xc, Forall usable ts ->
  cast_to_discrete_values ts x = Some xc ->
  surrogate_predict ts false predictor x = linfa_predict ts false predictor xc /\
  surrogate_predict ts false predictor xc = linfa_predict ts false predictor xc.
Proof.
  intros A ts predictor x xc U C. unfold surrogate_predict, surrogate_input, linfa_predict. rewrite C, (C30_projection ts x xc U C). split; reflexivity.
Qed.
Print Assumptions C135_linfa_partial.
(** ... but not elsewhere: an integer variable at 2.75 with a model predicting its input, and a categorical variable given by its level
    with a model expecting the three relaxed columns. *)
Definition identity_model (x : mat) : option (list f64) := mapM (fun r => nth_error r 0) x.
Definition three_columns (x : mat) : option (list f64) := mapM (fun r => if length r =? 3 then nth_error r 0 else None) x.
Definition is_val (o : option (list f64)) (a : f64) : bool := match o with Some [b] => feq b a | _ => false end.
Theorem C135_linfa_refuted : exists (ts : list xtype) (x : mat), Forall usable ts /\ Forall (point_ok ts) x /\
  is_val (surrogate_predict ts false identity_model x) (fofZ 3) = true /\ is_val (linfa_predict ts false identity_model x) (fofZ 3) = false /\
  is_val (linfa_predict ts false identity_model x) (fmake 11 (-2)) = true.
Proof.
  exists [Int 0 10], [[fmake 11 (-2)]]. split; [repeat constructor; simpl; lia|]. split.
  - constructor; [|constructor]. split; [constructor; [|constructor]|reflexivity]. vm_compute. reflexivity.
  - split; [|split]; vm_compute; reflexivity.
Qed.
Print Assumptions C135_linfa_refuted.
Theorem C135_folded_refuted : exists (ts : list xtype) (r u : list f64), Forall usable ts /\ in_domain ts r /\ folded ts r u /\
  is_val (surrogate_predict ts true three_columns [u]) fzero = true /\ linfa_predict ts true three_columns [u] = None.
Proof.
  exists [Enum 3], (one_hot 3 1 ++ []), [fofZ 1]. split; [repeat constructor; simpl; lia|].
  split; [apply dom_enum with 1; [apply one_hot_mask; lia|constructor]|].
  split; [apply fol_enum with 1; [apply one_hot_mask; lia|apply (fofZ_correct 1); simpl; lia|constructor]|].
  split; [vm_compute; reflexivity|]. reflexivity.
Qed.
Print Assumptions C135_folded_refuted.
Example C135_example : exists xc, cast_to_discrete_values [Int 0 10] [[fmake 11 (-2)]] = Some xc /\ is_val (identity_model xc) (fofZ 3) = true.
Proof. eexists. split; [reflexivity|]. vm_compute. reflexivity. Qed.

(** ** C137: samples of mixed-integer contexts *)
(** The samples in relaxed space are in the domain, and nearest to the continuous sample. *)
Theorem C137_relaxed : forall ts doe, Forall usable ts -> Forall (within_limits (as_continuous_limits ts)) doe ->
  exists s, mixint_sample ts false doe = Some s /\ Forall (in_domain ts) s /\ (Forall (point_ok ts) doe -> Forall2 (nearest ts) doe s).
Proof.
  intros ts doe U W. destruct (cast_matrix_domain ts doe U W) as (y & E & D & _). exists y. unfold mixint_sample. rewrite E.
  split; [reflexivity|]. split; [exact D|]. intros P. exact (C31_nearest ts doe y U P E).
Qed.
Print Assumptions C137_relaxed.
(** Folding of an admissible point when only the last variable may have several columns. *)
Lemma fold_last ts : Forall usable ts -> last_only ts -> forall x, admissible ts x -> Forall finite x ->
  forall pre, Forall finite pre -> exists y, fold_row_from (length pre) (length pre) ts (pre ++ x) = Some y /\ folded ts x y.
Proof.
  induction ts as [|t ts IH]; intros U LO x A Fx pre Fp.
  - inversion A; subst. exists []. split; [reflexivity|constructor].
  - inversion U as [|? ? Ut Us]; subst.
    assert (LO' : last_only ts).
    { destruct (last_only_cons t ts LO) as [->|(_ & L)]; [|exact L]. exists [], []. simpl. repeat split; [constructor|lia]. }
    assert (Scal : forall a x0, admissible ts x0 -> Forall finite (a :: x0) ->
        exists y0, (do b <- nth_error (pre ++ a :: x0) (length pre);
                  do r <- fold_row_from (S (length pre)) (S (length pre)) ts (pre ++ a :: x0); Some (b :: r)) = Some (a :: y0)
          /\ folded ts x0 y0).
    { intros a x0 A0 Fin. inversion Fin; subst.
      destruct (IH Us LO' x0 A0 ltac:(assumption) (pre ++ [a])) as (y0 & E & S).
      { apply Forall_app. split; [assumption|]. now constructor. }
      rewrite app_length in E. simpl length in E. rewrite Nat.add_1_r, <- app_assoc in E. simpl app in E.
      rewrite nth_error_pre, E. exists y0. split; [reflexivity|exact S]. }
    inversion A as [|lo hi a ts0 x0 A0|lo hi z a ts0 x0 Z A0|v a ts0 x0 I A0|n k m ts0 x0 Hm A0]; subst; cbn [fold_row_from].
    + destruct (Scal a x0 A0 Fx) as (y0 & E & Fo). eexists. split; [exact E|]. now constructor.
    + destruct (Scal a x0 A0 Fx) as (y0 & E & Fo). eexists. split; [exact E|]. now constructor.
    + destruct (Scal a x0 A0 Fx) as (y0 & E & Fo). eexists. split; [exact E|]. now constructor.
    + pose proof (proj1 (proj2 Hm)) as Lm. apply Forall_app in Fx. destruct Fx as (Fm & Fx0).
      rewrite !app_length, Lm. rewrite (proj2 (Nat.ltb_ge _ _)) by lia.
      rewrite skipn_app, skipn_all, Nat.sub_diag. cbn [skipn app].
      destruct (firstn_mask n k m x0 Hm) as (-> & _). rewrite (fargmax_mask n k m Hm).
      assert (Ik : is_integer (fofZ (Z.of_nat k)) (Z.of_nat k)).
      { apply fofZ_correct. destruct Ut as (_ & Un). destruct Hm as (K & _). lia. }
      destruct (last_only_cons _ ts LO) as [->|(W1 & _)].
      * inversion A0; subst. cbn [fold_row_from]. eexists. split; [reflexivity|]. econstructor; [eassumption|exact Ik|constructor].
      * cbn [width] in W1. destruct (IH Us LO' x0 A0 Fx0 (pre ++ m)) as (y0 & E & S); [apply Forall_app; now split|].
        rewrite app_length, Lm, W1, Nat.add_1_r, <- app_assoc in E. rewrite W1, Nat.add_1_r, E. eexists. split; [reflexivity|]. rewrite <- W1. econstructor; [exact Hm|exact Ik|exact S].
Qed.
(** Samples of a context are designs as the user sees them, and the surrogate trained on them is given exactly the nearest admissible
    relaxed points of the continuous sample, when only the last variable is categorical with several levels. *)
Theorem C137_context_partial : forall ts doe, Forall usable ts -> ts <> [] -> last_only ts ->
  Forall (point_ok ts) doe -> Forall (within_limits (as_continuous_limits ts)) doe ->
  exists s xt, context_sample ts doe = Some s /\ context_training ts s = Some xt /\
    Forall2 (nearest ts) doe xt /\ Forall (in_domain ts) xt /\ Forall2 (folded ts) xt s.
Proof.
  intros ts doe U NE LO P W. destruct (cast_matrix_domain ts doe U W) as (c & E & D & _).
  pose proof (C31_nearest ts doe c U P E) as N.
  assert (FF : Forall (Forall finite) c).
  { clear - U N P. induction N as [|r y x c N Ns IH]; [constructor|]. inversion P as [|? ? (Fr & _) P']; subst. constructor; [|now apply IH].
    exact (nearest_finite ts r y U N Fr). }
  assert (AA : Forall (admissible ts) c).
  { clear - N. induction N; constructor; [eapply nearest_admissible; eassumption|assumption]. }
  assert (Fo : exists s, fold_with_enum_index ts c = Some s /\ Forall2 (folded ts) c s).
  { apply (mapM_rel (fold_row ts) (fun r => admissible ts r /\ Forall finite r)).
    - intros r (Ar & Fr). destruct (fold_last ts U LO r Ar Fr [] ltac:(constructor)) as (y & Ey & Fy). exists y. split; [exact Ey|exact Fy].
    - clear - AA FF. induction AA; [constructor|]. inversion FF; subst. constructor; auto. }
  destruct Fo as (s & Es & Fo). exists s, c. unfold context_sample, mixint_sample, context_training, surrogate_input. rewrite E, Es.
  split; [reflexivity|].
  assert (Un : unfold_with_enum_mask ts s = Some c).
  { unfold unfold_with_enum_mask. rewrite (continuous_dim ts NE). apply mapM_intro. clear - Fo U LO.
    induction Fo as [|r u x y H F IH]; constructor; [|assumption]. exact (unfold_layout ts U LO r u H []). }
  rewrite Un. split; [exact (C30_projection ts doe c U E)|]. split; [exact N|]. split; [exact D|exact Fo].
Qed.
Print Assumptions C137_context_partial.
(** Finding: with a scalar variable after a categorical one, training a surrogate of the context on a sample of the context panics. *)
Theorem C137_context_refuted : exists ts doe s, Forall usable ts /\ Forall (point_ok ts) doe /\ Forall (within_limits (as_continuous_limits ts)) doe /\
  context_sample ts doe = Some s /\ context_training ts s = None.
Proof.
  set (ts := [Enum 2; Float fzero fone]). set (doe := [[fone; fzero; fone]]).
  destruct (context_sample ts doe) as [s|] eqn:E.
  - exists ts, doe, s. split; [|split; [|split; [|split; [exact E|]]]].
    + repeat constructor; simpl; try lia; reflexivity.
    + constructor; [|constructor]. split; [|reflexivity]. repeat constructor.
    + constructor; [|constructor]. repeat constructor.
    + assert (Q : match context_sample ts doe with Some s => match context_training ts s with None => true | _ => false end | None => false end = true) by (vm_compute; reflexivity).
      rewrite E in Q. destruct (context_training ts s); [discriminate Q|reflexivity].
  - exfalso. assert (Q : match context_sample ts doe with Some _ => true | None => false end = true) by (vm_compute; reflexivity). rewrite E in Q. discriminate Q.
Qed.
Print Assumptions C137_context_refuted.
(** Finding: with two categorical variables, the sampled level of the second one is not that of the nearest admissible point. *)
Theorem C137_level_refuted : exists ts doe s c u, Forall usable ts /\ Forall (point_ok ts) doe /\ Forall (within_limits (as_continuous_limits ts)) doe /\
  mixint_sample ts false doe = Some [c] /\ folded ts c u /\ context_sample ts doe = Some [s] /\ eqs u s = false.
Proof.
  set (ts := [Enum 3; Enum 2]). set (doe := [[fzero; fzero; fone; fone; fzero]]).
  destruct (context_sample ts doe) as [[|s [|]]|] eqn:E.
  1,3,4: exfalso; assert (Q : option_map (@length _) (context_sample ts doe) = Some 1) by (vm_compute; reflexivity); rewrite E in Q; simpl in Q; discriminate Q.
  exists ts, doe, s, (one_hot 3 2 ++ one_hot 2 0 ++ []), [fofZ 2; fofZ 0]. split; [|split; [|split; [|split; [|split; [|split; [exact E|]]]]]].
  - repeat constructor; simpl; lia.
  - constructor; [|constructor]. split; [|reflexivity]. repeat constructor.
  - constructor; [|constructor]. repeat constructor.
  - reflexivity.
  - apply fol_enum with 2; [apply one_hot_mask; lia|apply (fofZ_correct 2); simpl; lia|].
    apply fol_enum with 0; [apply one_hot_mask; lia|apply (fofZ_correct 0); simpl; lia|constructor].
  - assert (Q : match context_sample ts doe with Some [s] => eqs [fofZ 2; fofZ 0] s | _ => true end = false) by (vm_compute; reflexivity).
    rewrite E in Q. exact Q.
Qed.
Print Assumptions C137_level_refuted.
Example C137_example : last_only [Float fzero fone; Int 0 5; Enum 3] /\
  match context_sample [Float fzero fone; Int 0 5; Enum 3] [[fone; fmake 9 (-2); fzero; fone; fzero]] with
  | Some [s] => eqs s [fone; fofZ 2; fofZ 1] | _ => false end = true.
Proof.
  split; [|vm_compute; reflexivity]. exists [Float fzero fone; Int 0 5], [Enum 3]. repeat split; [repeat constructor|simpl; lia].
Qed.
