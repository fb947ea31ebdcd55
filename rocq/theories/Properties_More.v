(** C157: adding observations does not make predictions less certain. *)
From Coq Require Import Reals Lra Lia Arith.
From Coquelicot Require Import Coquelicot.
From Coq Require Import List Bool FunctionalExtensionality.
From Verif Require Import RVec Moe_Model Kern_Model Kern_Spec Kern_Proofs Kern_Pd Gp_Model Gp_Spec Gp_Lin Gp_Proofs Gp_Grad Gp_Inv Gp_Exist
  Lik_Proofs Pd_Proofs More_Spec More_Proofs Properties_Gp Properties_Pd.
Import ListNotations.
Local Open Scope R_scope.

(** Two models with the same trend, the same nugget and the same correlation of any two points, the second trained on more observations: the
    variance predicted by the second, relative to its process variance, is nowhere larger. *)
Theorem C157_relative_partial : forall qr1 cond1 qr2 cond2 mk ck1 ck2 n1 n2 nx h1 h2 nt1 nt2 theta1 theta2 th1 th2 w1 w2 nugget x1 x2 y1 y2 g1 g2,
  fit qr1 cond1 mk ck1 n1 nx h1 nt1 theta1 w1 nugget x1 y1 = Some g1 ->
  fit qr2 cond2 mk ck2 n2 nx h2 nt2 theta2 w2 nugget x2 y2 = Some g2 ->
  value_theta ck1 nt1 h1 theta1 = Some th1 -> value_theta ck2 nt2 h2 theta2 = Some th2 ->
  (forall l, (l < h1)%nat -> 0 <= th1 l) -> (forall l, (l < h2)%nat -> 0 <= th2 l) -> 0 <= nugget ->
  is_qr n1 (trend_size mk nx) (i_ft (g_in g1)) (qr1 n1 (trend_size mk nx) (i_ft (g_in g1))) ->
  is_qr n2 (trend_size mk nx) (i_ft (g_in g2)) (qr2 n2 (trend_size mk nx) (i_ft (g_in g2))) ->
  inputs_extended n1 n2 nx x1 x2 ->
  same_correlation nx ck1 h1 th1 w1 (g_xstd g1) ck2 h2 th2 w2 (g_xstd g2) ->
  forall x' i, exists v1 v2, predict_var g1 x' i = Some v1 /\ predict_var g2 x' i = Some v2 /\
    v2 * i_sigma2 (g_in g1) <= v1 * i_sigma2 (g_in g2).
Proof.
  intros qr1 cond1 qr2 cond2 mk ck1 ck2 n1 n2 nx h1 h2 nt1 nt2 theta1 theta2 th1 th2 w1 w2 nugget x1 x2 y1 y2 g1 g2
    F1 F2 V1 V2 T1 T2 Nu Q1 Q2 (N & EX) SC x' i.
  destruct (C125_variance _ _ _ _ _ _ _ _ _ _ _ _ _ g1 th1 F1 V1 T1 Nu Q1 x' i) as (m1 & U1 & _ & P1 & _).
  destruct (C125_variance _ _ _ _ _ _ _ _ _ _ _ _ _ g2 th2 F2 V2 T2 Nu Q2 x' i) as (m2 & _ & _ & P2 & M2).
  eexists. eexists. split; [exact P1|]. split; [exact P2|].
  pose proof (sigma2_nonneg _ _ _ _ _ _ _ _ _ _ _ _ _ _ F1) as S1. pose proof (sigma2_nonneg _ _ _ _ _ _ _ _ _ _ _ _ _ _ F2) as S2.
  assert (D1 : forall c, 0 < g_xstd g1 c) by exact (xstd_pos _ _ _ _ _ _ _ _ _ _ _ _ _ _ F1).
  assert (D2 : forall c, 0 < g_xstd g2 c) by exact (xstd_pos _ _ _ _ _ _ _ _ _ _ _ _ _ _ F2).
  assert (X1 : forall j c, fst (fst (normalize n1 x1)) j c = (x1 j c - g_xmean g1 c) / g_xstd g1 c) by exact (xd_eq _ _ _ _ _ _ _ _ _ _ _ _ _ _ F1).
  assert (X2 : forall j c, fst (fst (normalize n2 x2)) j c = (x2 j c - g_xmean g2 c) / g_xstd g2 c) by exact (xd_eq _ _ _ _ _ _ _ _ _ _ _ _ _ _ F2).
  match type of M2 with forall mu', unbiased _ _ _ _ mu' -> sq_error _ ?R2' ?r2' _ <= _ =>
    match type of P1 with _ = Some (_ * sq_error _ ?R1' ?r1' _) =>
      assert (E : sq_error n2 R2' r2' (fun j => if Nat.ltb j n1 then m1 j else 0) = sq_error n1 R1' r1' m1)
    end end.
  { apply sq_error_extended; [exact N| |].
    - intros a b Ha Hb. cbv beta. destruct (Nat.eqb a b); [reflexivity|].
      etransitivity; [|etransitivity; [symmetry; exact (SC (fun c => x1 a c - x1 b c))|]].
      + apply kval_ext. intros c Hc. f_equal. rewrite !X2, !EX by assumption. field. specialize (D2 c). lra.
      + apply kval_ext. intros c Hc. f_equal. rewrite !X1. field. specialize (D1 c). lra.
    - intros a Ha. cbv beta.
      etransitivity; [|etransitivity; [symmetry; exact (SC (fun c => x' i c - x1 a c))|]].
      + apply kval_ext. intros c Hc. f_equal. rewrite !X2, xnorm_eq, !EX by assumption. field. specialize (D2 c). lra.
      + apply kval_ext. intros c Hc. f_equal. rewrite !X1, xnorm_eq. field. specialize (D1 c). lra. }
  assert (U2 : unbiased n2 (trend_size mk nx) (fun j => trend_val mk nx (fst (fst (normalize n2 x2)) j)) (trend_val mk nx (xnorm g2 (x' i)))
    (fun j => if Nat.ltb j n1 then m1 j else 0)).
  { apply (unbiased_extended n1 n2 _ (fun j => trend_val mk nx (fst (fst (normalize n2 x2)) j))); [exact N|reflexivity|].
    refine (unbiased_affine mk nx n1 _ _ _ _ m1 (fun c => g_xstd g1 c / g_xstd g2 c) (fun c => (g_xmean g1 c - g_xmean g2 c) / g_xstd g2 c) _ _ U1).
    - intros a c Ha Hc. rewrite X1, X2, EX by assumption. field. specialize (D1 c). specialize (D2 c). lra.
    - intros c Hc. rewrite !xnorm_eq. field. specialize (D1 c). specialize (D2 c). lra. }
  specialize (M2 _ U2). rewrite E in M2.
  match type of M2 with ?a <= ?b => replace (i_sigma2 (g_in g2) * a * i_sigma2 (g_in g1)) with (i_sigma2 (g_in g1) * i_sigma2 (g_in g2) * a) by ring;
    replace (i_sigma2 (g_in g1) * b * i_sigma2 (g_in g2)) with (i_sigma2 (g_in g1) * i_sigma2 (g_in g2) * b) by ring end.
  apply Rmult_le_compat_l; [now apply Rmult_le_pos|exact M2].
Qed.
(** The variance itself may grow: when the outputs are first all the same, the predicted variance is zero everywhere, and one observation of a different
    output makes it positive everywhere. *)
Theorem C157_variance_refuted : forall qr1 cond1 qr2 cond2 ck n1 n2 nx h nt theta th w nugget x1 x2 y1 y2 g1 g2 a,
  fit qr1 cond1 Constant ck n1 nx h nt theta w nugget x1 y1 = Some g1 ->
  fit qr2 cond2 Constant ck n2 nx h nt theta w nugget x2 y2 = Some g2 ->
  value_theta ck nt h theta = Some th -> (forall l, (l < h)%nat -> 0 <= th l) -> 0 < nugget ->
  is_qr n1 (trend_size Constant nx) (i_ft (g_in g1)) (qr1 n1 (trend_size Constant nx) (i_ft (g_in g1))) ->
  is_qr n2 (trend_size Constant nx) (i_ft (g_in g2)) (qr2 n2 (trend_size Constant nx) (i_ft (g_in g2))) ->
  (forall i, (i < n1)%nat -> y1 i = a) -> inputs_extended n1 n2 nx x1 x2 -> outputs_extended n1 y1 y2 ->
  (exists i, (i < n2)%nat /\ y2 i <> a) ->
  forall x' i, exists v2, predict_var g1 x' i = Some 0 /\ predict_var g2 x' i = Some v2 /\ 0 < v2.
Proof.
  intros qr1 cond1 qr2 cond2 ck n1 n2 nx h nt theta th w nugget x1 x2 y1 y2 g1 g2 a F1 F2 V T Nu Q1 Q2 Ha _ OE (k & Hk & Hy) x' i.
  destruct (C92_constant_data _ _ _ _ _ _ _ _ _ _ _ _ _ _ a F1 Q1 Ha x' i) as [_ P1].
  destruct (C125_variance _ _ _ _ _ _ _ _ _ _ _ _ _ g2 th F2 V T ltac:(lra) Q2 x' i) as (m2 & U2 & _ & P2 & _).
  eexists. split; [exact P1|]. split; [exact P2|]. apply Rmult_lt_0_compat.
  - apply (sigma2_pos _ _ _ _ _ _ _ _ _ _ _ _ g2 th F2 V T Nu). exists k. split; [exact Hk|].
    pose proof (n_pos _ _ _ _ _ _ _ _ _ _ _ _ _ _ F1) as N1. rewrite (OE O) by lia. now rewrite (Ha O) by lia.
  - exact (sq_error_pos _ _ _ _ _ _ th T Nu _ _ _ U2).
Qed.

(** Observations at 0 and 2, then at 0, 2 and 1. *)
Definition ex_more : mat := fun i _ => nth i [0; 2; 1] 0.
Definition ex_fit (n : nat) (theta : R) (y : vec) := fit qr1 (fun _ => true) Constant AbsoluteExponential n 1 1 1 (fun _ => theta) (fun _ _ => 1) (1 / 10) ex_more y.
Lemma ex_trained n theta y : (1 < n)%nat -> 0 <= theta -> exists g, ex_fit n theta y = Some g.
Proof. intros N H. apply (C124_trains _ _ _ _ _ _ _ _ _ _ _ _ _ (fun _ => theta)); [reflexivity|exact N|intros; exact H|lra|reflexivity]. Qed.
Example C157_refuted_example : forall v, v <> 0 -> exists g1 g2, ex_fit 2 1 (fun _ => 0) = Some g1 /\ ex_fit 3 1 (fun i => if Nat.eqb i 2 then v else 0) = Some g2 /\
  forall x' i, exists v2, predict_var g1 x' i = Some 0 /\ predict_var g2 x' i = Some v2 /\ 0 < v2.
Proof.
  intros v Hv. destruct (ex_trained 2 1 (fun _ => 0) ltac:(lia) ltac:(lra)) as [g1 F1].
  destruct (ex_trained 3 1 (fun i => if Nat.eqb i 2 then v else 0) ltac:(lia) ltac:(lra)) as [g2 F2].
  exists g1, g2. split; [exact F1|]. split; [exact F2|].
  apply (C157_variance_refuted _ _ _ _ _ _ _ _ _ _ _ (fun _ => 1) _ _ _ _ _ _ g1 g2 0 F1 F2);
    [reflexivity|intros; lra|lra|exact (qr1_trained _ _ _ _ _ _ _ _ _ _ _ _ F1)|exact (qr1_trained _ _ _ _ _ _ _ _ _ _ _ _ F2)|reflexivity| | |].
  - split; [lia|reflexivity].
  - intros [|[|i]] Hi; [reflexivity|reflexivity|lia].
  - exists 2%nat. split; [lia|exact Hv].
Qed.
(** Correlation exp(-|x - x'|) in both models. *)
Definition ex_std (n : nat) : R := snd (normalize n ex_more) O.
Example C157_relative_example : forall y1 y2, exists g1 g2, ex_fit 2 (ex_std 2) y1 = Some g1 /\ ex_fit 3 (ex_std 3) y2 = Some g2 /\
  forall x' i, exists v1 v2, predict_var g1 x' i = Some v1 /\ predict_var g2 x' i = Some v2 /\ v2 * i_sigma2 (g_in g1) <= v1 * i_sigma2 (g_in g2).
Proof.
  intros y1 y2.
  assert (P : forall n, 0 < ex_std n).
  { intros n. unfold ex_std. destruct (normalize n ex_more) as [[a b] c] eqn:E. exact (normalize_std_pos n _ a b c O E). }
  destruct (ex_trained 2 (ex_std 2) y1 ltac:(lia) ltac:(generalize (P 2%nat); lra)) as [g1 F1].
  destruct (ex_trained 3 (ex_std 3) y2 ltac:(lia) ltac:(generalize (P 3%nat); lra)) as [g2 F2].
  exists g1, g2. split; [exact F1|]. split; [exact F2|].
  assert (S1 : g_xstd g1 O = ex_std 2).
  { destruct (fit_inv _ _ _ _ _ _ _ _ _ _ _ _ _ _ F1) as (th & r_mx & ET & N1 & ER & EC & Eft & Err & Eco & EB & EG & ES & E0 & Ex & Eh & Ent & Em & Ec & Eth & Ew & Exd & Exm & Exs & Eym & Eys & Elk). now rewrite Exs. }
  assert (S2 : g_xstd g2 O = ex_std 3).
  { destruct (fit_inv _ _ _ _ _ _ _ _ _ _ _ _ _ _ F2) as (th & r_mx & ET & N1 & ER & EC & Eft & Err & Eco & EB & EG & ES & E0 & Ex & Eh & Ent & Em & Ec & Eth & Ew & Exd & Exm & Exs & Eym & Eys & Elk). now rewrite Exs. }
  apply (C157_relative_partial _ _ _ _ _ _ _ _ _ _ _ _ _ _ _ _ (fun _ => ex_std 2) (fun _ => ex_std 3) _ _ _ _ _ _ _ g1 g2 F1 F2);
    [reflexivity|reflexivity|intros; generalize (P 2%nat); lra|intros; generalize (P 3%nat); lra|lra|exact (qr1_trained _ _ _ _ _ _ _ _ _ _ _ _ F1)|exact (qr1_trained _ _ _ _ _ _ _ _ _ _ _ _ F2)| |].
  - split; [lia|reflexivity].
  - intros d. cbn [kval]. unfold absexp_value, abs_theta_w. cbn [sumn]. f_equal. f_equal. rewrite S1, S2.
    pose proof (P 2%nat) as P2. pose proof (P 3%nat) as P3. unfold Rdiv. rewrite !Rabs_mult, !(Rabs_pos_eq (/ _)) by (left; now apply Rinv_0_lt_compat).
    rewrite (Rabs_pos_eq 1) by lra. field. lra.
Qed.
Print Assumptions C157_relative_partial.
Print Assumptions C157_variance_refuted.
