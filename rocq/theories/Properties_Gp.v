(** Gaussian processes: properties C51-C59 and C91-C97. *)
From Coq Require Import Reals Lra Lia Arith.
From Coquelicot Require Import Coquelicot.
From Coq Require Import List Bool.
From Verif Require Import RVec Moe_Model Kern_Model Kern_Spec Kern_Proofs Gp_Model Gp_Spec Gp_Lin Gp_Proofs Gp_Grad Gp_Inv Gp_Exist.
Import ListNotations.
Local Open Scope R_scope.

(** ** C51: normalization *)
(** Whatever the data, denormalizing gives them back, columns have mean 0, and sample variance 1 unless constant; constant
    columns become 0. *)
Theorem C51_normalization : forall (n : nat) (x : mat), (1 < n)%nat ->
  exists xd xm xs, normalize n x = (xd, xm, xs) /\
    (forall i j, xd i j * xs j + xm j = x i j) /\
    (forall j, 0 < xs j) /\
    (forall j, sumn n (fun i => xd i j) = 0) /\
    (forall j, (exists i k, (i < n)%nat /\ (k < n)%nat /\ x i j <> x k j) -> sumn n (fun i => xd i j * xd i j) / (INR n - 1) = 1) /\
    (forall j, (forall i k, (i < n)%nat -> (k < n)%nat -> x i j = x k j) -> forall i, (i < n)%nat -> xd i j = 0).
Proof.
  intros n x N. destruct (normalize n x) as [[xd xm] xs] eqn:E. exists xd, xm, xs. split; [reflexivity|].
  split; [intros i j; exact (normalize_back n x xd xm xs i j E)|].
  split; [intros j; exact (normalize_std_pos n x xd xm xs j E)|].
  split; [intros j; apply (normalize_mean n x xd xm xs j); [lia|exact E]|]. split.
  - intros j H. rewrite (normalize_var n x xd xm xs j N E H). apply lt_INR in N. simpl in N. field. lra.
  - intros j H i Hi. apply (normalize_const n x xd xm xs j N E); [|exact Hi]. intros k Hk. apply H; lia.
Qed.
Print Assumptions C51_normalization.
Example C51_example : forall j, fst (fst (normalize 2 two_x)) 1%nat j = sqrt 2 / 2.
Proof. intros j. rewrite two_d. cbn. field. Qed.

(** ** C52: pairs of observations *)
Theorem C52_difference_matrix : forall (n : nat) (x : mat), (0 < n)%nat ->
  exists rows ind d, cross_diff n x = Some (rows, ind, d) /\ (2 * rows = n * (n - 1))%nat /\
    (forall r, (r < rows)%nat -> (fst (ind r) < snd (ind r) < n)%nat) /\
    (forall k i, (k < i < n)%nat -> exists! r, (r < rows)%nat /\ ind r = (k, i)) /\
    (forall r j, (r < rows)%nat -> d r j = Rabs (x (fst (ind r)) j - x (snd (ind r)) j)).
Proof.
  intros n x N. destruct (cross_diff_spec n x N) as [rows [ind [d [E [R' [[P1 P2] D]]]]]]. exists rows, ind, d. auto.
Qed.
Print Assumptions C52_difference_matrix.
Example C52_example : exists d, option_map (fun t => (fst (fst t), map (snd (fst t)) (seq 0 6))) (cross_diff 4 d) =
  Some (6, [(0, 1); (0, 2); (0, 3); (1, 2); (1, 3); (2, 3)])%nat.
Proof. exists (fun i _ => INR i). reflexivity. Qed.

(** ** C53: correlation matrix *)
(** For any values rxx on the pairs enumerated from observations, and any nugget. *)
Theorem C53_correlation_matrix : forall (n : nat) (x : mat) (k : corr_kind) (nx h : nat) (theta : vec) (w : mat) (nugget : R) rows ind d,
  cross_diff n x = Some (rows, ind, d) -> (0 < n)%nat ->
  let r_mx := corr_matrix rows ind (fun r => kval k nx h theta w (d r)) nugget in
  (forall i, (i < n)%nat -> r_mx i i = 1 + nugget) /\
  (forall i j, (i < n)%nat -> (j < n)%nat -> r_mx i j = r_mx j i) /\
  (forall i j, (i < n)%nat -> (j < n)%nat -> i <> j -> r_mx i j = kval k nx h theta w (fun c => x i c - x j c)).
Proof.
  intros n x k nx h theta w nugget rows ind d E N r_mx.
  destruct (cross_diff_spec n x N) as [rows' [ind' [d' [E' [R' [[HB HU] HD]]]]]]. rewrite E in E'. injection E' as <- <- <-.
  destruct (corr_matrix_spec n rows ind (fun r => kval k nx h theta w (d r)) nugget (conj HB HU)) as [CD CO]. fold r_mx in CD, CO.
  assert (V : forall i j, (i < j < n)%nat -> r_mx i j = kval k nx h theta w (fun c => x i c - x j c) /\ r_mx j i = kval k nx h theta w (fun c => x i c - x j c)).
  { intros i j H. destruct (HU i j H) as [r [[Hr Er] _]]. destruct (CO r Hr) as [C1 C2]. rewrite Er in C1, C2. cbn [fst snd] in C1, C2. rewrite C1, C2.
    assert (K : kval k nx h theta w (d r) = kval k nx h theta w (fun c => x i c - x j c)).
    { apply kval_ext. intros c _. rewrite HD by exact Hr. rewrite Er. cbn [fst snd]. now rewrite Rabs_Rabsolu. }
    rewrite K. auto. }
  split; [intros; apply CD|]. split.
  - intros i j Hi Hj. destruct (lt_eq_lt_dec i j) as [[H| ->]|H]; [|reflexivity|].
    + destruct (V i j ltac:(lia)) as [-> ->]. reflexivity.
    + destruct (V j i ltac:(lia)) as [-> ->]. reflexivity.
  - intros i j Hi Hj Ne. destruct (lt_eq_lt_dec i j) as [[H|H]|H]; [|contradiction|].
    + apply V. lia.
    + destruct (V j i ltac:(lia)) as [_ ->]. apply kval_ext. intros c _. apply Rabs_minus_sym.
Qed.
Print Assumptions C53_correlation_matrix.
(** The matrix used by a successful training is positive definite, and training on two or more points fails only if it is not
    positive definite or the trend is reported as ill-conditioned. *)
Theorem C53_training_iff : forall qr cond mk ck n nx h nt theta w nugget x y th,
  value_theta ck nt h theta = Some th -> (1 < n)%nat -> (forall m, cond m = true) ->
  ((exists g, fit qr cond mk ck n nx h nt theta w nugget x y = Some g) <->
   positive_definite n (fun i j => if Nat.eqb i j then 1 + nugget else
     kval ck nx h th w (fun c => fst (fst (normalize n x)) i c - fst (fst (normalize n x)) j c))).
Proof.
  intros qr cond mk ck n nx h nt theta w nugget x y th ET N1 HC.
  assert (E : (fun i j => if Nat.eqb i j then 1 + nugget else
     kval ck nx h th w (fun c => fst (fst (normalize n x)) i c - fst (fst (normalize n x)) j c)) = Rmx ck n nx h nt theta w nugget x).
  { unfold Rmx, theta_used. rewrite ET. reflexivity. }
  rewrite E. split.
  - intros [g Fit]. exact (fit_pd _ _ _ _ _ _ _ _ _ _ _ _ _ g Fit).
  - intros PD. apply (fit_succeeds _ _ _ _ _ _ _ _ _ _ _ _ _ th ET N1 PD). intros L. apply HC.
Qed.
Print Assumptions C53_training_iff.
Example C53_example : exists g, two_fit 2 = Some g.
Proof. apply two_trained. Qed.

(** ** C54: kernels *)
(** Values are the documented products; with hyperparameters that are not negative they lie in (0, 1]; they are 1 at
    distance 0 and do not depend on the signs of the differences. *)
Theorem C54_kernels : forall (k : corr_kind) (nx h : nat) (theta : nat -> R) (w : nat -> nat -> R) (d e : nat -> R),
  kval k nx h theta w d = documented_kernel k nx h theta w d /\
  ((forall l, (l < h)%nat -> 0 <= theta l) -> 0 < kval k nx h theta w d <= 1) /\
  ((forall j, (j < nx)%nat -> d j = 0) -> kval k nx h theta w d = 1) /\
  ((forall j, (j < nx)%nat -> e j = d j \/ e j = - d j) -> kval k nx h theta w e = kval k nx h theta w d).
Proof.
  intros k nx h theta w d e. split; [apply kval_documented|]. split; [intros T; now apply kval_bounds|]. split; [apply kval_zero|].
  intros H. apply kval_ext. intros j Hj. destruct (H j Hj) as [->|E]; [reflexivity|]. rewrite E. apply Rabs_Ropp.
Qed.
Print Assumptions C54_kernels.
Example C54_example : kval SquaredExponential 1 1 (fun _ => 1) (fun _ _ => 1) (fun _ => sqrt 2) = exp (-1).
Proof. cbn [kval]. rewrite sqexp_one. f_equal. rewrite sqrt_sqrt by lra. field. Qed.
(** With a negative hyperparameter the absolute exponential exceeds 1. *)
Example C54_negative_theta : 1 < kval AbsoluteExponential 1 1 (fun _ => -1) (fun _ _ => 1) (fun _ => 1).
Proof.
  cbn [kval]. unfold absexp_value, abs_theta_w. cbn [sumn]. rewrite Rabs_R1. apply Rle_lt_trans with (exp 0); [rewrite exp_0; lra|]. apply exp_increasing. lra.
Qed.

(** ** C55: jacobians of kernels *)
Theorem C55_jacobian : forall (k : corr_kind) (nx h : nat) (theta : nat -> R) (w : nat -> nat -> R) (x y : nat -> R) (j : nat),
  (j < nx)%nat -> (k = AbsoluteExponential -> x j <> y j) ->
  partial (fun z => kval k nx h theta w (differences z y)) x j (kjac k nx h theta w (differences x y) j).
Proof. intros k nx h theta w x y j Hj S. now apply kval_partial. Qed.
Print Assumptions C55_jacobian.
(** The exception is needed: there is no derivative. *)
Theorem C55_abs_no_derivative : forall (nx h : nat) (theta : nat -> R) (w : nat -> nat -> R) (x y : nat -> R) (j : nat),
  (j < nx)%nat -> x j = y j -> sumn h (fun l => Rabs (w j l) * theta l) <> 0 ->
  ~ exists l, partial (fun z => kval AbsoluteExponential nx h theta w (differences z y)) x j l.
Proof. intros nx h theta w x y j. exact (absexp_no_partial nx h theta w x y j). Qed.
Print Assumptions C55_abs_no_derivative.
Example C55_example : partial (fun z => kval SquaredExponential 1 1 (fun _ => 1) (fun _ _ => 1) (differences z (fun _ => 0)))
  (fun _ => 1) O (- exp (- / 2)).
Proof.
  eapply partial_eq; [apply C55_jacobian; [lia|discriminate]|]. cbn [kjac]. unfold sqexp_jac. rewrite sqexp_one. unfold differences, sq_theta_w. cbn [sumn].
  replace (- ((1 - 0) * (1 - 0)) / 2) with (- / 2) by field. ring.
Qed.

(** ** C56: trends *)
(** The basis is made of all monomials of degree at most 0, 1 or 2, each once; its jacobian is its derivative. *)
Theorem C56_trend : forall (m : mean_kind) (n : nat), exists ms,
  NoDup ms /\ (forall mo, In mo ms <-> in_basis m n mo) /\
  length ms = match m with Constant => 1 | Linear => 1 + n | Quadratic => 1 + n + n * (n + 1) / 2 end%nat /\
  forall x, trend_row m n x = map (mono_val x) ms.
Proof.
  intros m n. exists (monos m n). split; [apply monos_nodup|]. split; [apply monos_in|]. split; [apply monos_length|]. intros x. apply trend_row_monos.
Qed.
Print Assumptions C56_trend.
Theorem C56_jacobian : forall (m : mean_kind) (n : nat) (x : nat -> R),
  length (trend_jac m n x) = length (trend_row m n x) /\
  (forall i j, (i < length (trend_row m n x))%nat ->
     partial (fun z => nth i (trend_row m n z) 0) x j (nth i (trend_jac m n x) (fun _ => 0) j)).
Proof.
  intros m n x. split; [|intros i j Hi; now apply trend_partial].
  rewrite trend_length. rewrite <- (map_length (fun g => g O) (trend_jac m n x)), trend_jac_monos. apply map_length.
Qed.
Print Assumptions C56_jacobian.
Example C56_example : trend_row Quadratic 2 (fun i => match i with O => 3 | _ => 5 end) = [1; 3; 5; 3 * 3; 5 * 3; 5 * 5].
Proof. reflexivity. Qed.

(** ** C57: interpolation *)
(** The training outputs y are predicted at the training inputs x up to the nugget times the weight of the observation. *)
Theorem C57_interpolation : forall qr cond mk ck n nx h nt theta w nugget x y g,
  fit qr cond mk ck n nx h nt theta w nugget x y = Some g ->
  is_qr n (trend_size mk nx) (i_ft (g_in g)) (qr n (trend_size mk nx) (i_ft (g_in g))) ->
  (forall i, (i < n)%nat -> predict g x i = Some (y i - nugget * i_gamma (g_in g) i * g_ystd g)) /\
  (nugget = 0 -> forall i, (i < n)%nat -> predict g x i = Some (y i) /\ predict_var g x i = Some 0).
Proof.
  intros qr cond mk ck n nx h nt theta w nugget x y g Fit QR.
  pose proof (fun i => interpolation _ _ _ _ _ _ _ _ _ _ _ _ _ _ Fit i) as I. split; [exact I|].
  intros Z i Hi. split; [rewrite I by exact Hi; f_equal; rewrite Z; ring|].
  apply (interpolation_var _ _ _ _ _ _ _ _ _ _ _ _ _ _ Fit QR); assumption.
Qed.
Print Assumptions C57_interpolation.
Example C57_example : exists g, two_fit 2 = Some g /\ predict g two_x 1 = Some 2 /\ predict_var g two_x 1 = Some 0.
Proof.
  destruct (two_trained 2) as [g Fit]. exists g. split; [exact Fit|].
  destruct (C57_interpolation _ _ _ _ _ _ _ _ _ _ _ _ _ _ Fit (qr1_trained _ _ _ _ _ _ _ _ _ _ _ _ Fit)) as [_ I].
  destruct (I eq_refl 1%nat ltac:(lia)) as [A B]. rewrite A, B. split; [f_equal; unfold two_y; cbn; ring|reflexivity].
Qed.

(** ** C58: variances are not negative *)
Theorem C58_gp_variance : forall g x i v, predict_var g x i = Some v -> 0 <= v.
Proof.
  intros g x i v. unfold predict_var. destruct (compute_correlation g _ i); [|discriminate]. destruct (compute_rt_u g _ _) as [rt u].
  intros H. injection H as <-. cbv zeta. destruct (Rlt_dec _ 0); lra.
Qed.
Print Assumptions C58_gp_variance.
Theorem C58_gp_valvar : forall g x i m v, predict_valvar g x i = Some (m, v) -> 0 <= v /\ predict g x i = Some m /\ predict_var g x i = Some v.
Proof.
  intros g x i m v. unfold predict_valvar, predict, predict_var. destruct (compute_correlation g _ i); [|discriminate]. destruct (compute_rt_u g _ _) as [rt u].
  intros H. injection H as <- <-. split; [destruct (Rlt_dec _ 0); lra|]. auto.
Qed.
Print Assumptions C58_gp_valvar.

(** ** C59: gradients *)
Theorem C59_mean_gradient : forall qr cond mk ck n nx h nt theta w nugget x y g,
  fit qr cond mk ck n nx h nt theta w nugget x y = Some g ->
  forall (z : vec) (c : nat), (c < nx)%nat ->
  (ck = AbsoluteExponential -> forall i, (i < n)%nat -> z c <> x i c) ->
  (ck = SquaredExponential \/ nt = h) ->
  exists l, predict_jacobian g z c = Some l /\ partial (mean_at g) z c l.
Proof.
  intros qr cond mk ck n nx h nt theta w nugget x y g Fit z c Hc S D.
  apply (mean_gradient _ _ _ _ _ _ _ _ _ _ _ _ _ _ Fit z c Hc S).
  destruct (fit_inv _ _ _ _ _ _ _ _ _ _ _ _ _ _ Fit) as (th & r_mx & ET & _).
  destruct D as [->| ->]; [now exists th|]. exists theta. destruct ck; cbn [jac_theta]; unfold theta_row, theta_dot; now rewrite !Nat.eqb_refl.
Qed.
Print Assumptions C59_mean_gradient.
Theorem C59_var_gradient : forall qr cond mk ck n nx h nt theta w nugget x y g,
  fit qr cond mk ck n nx h nt theta w nugget x y = Some g ->
  is_qr n (trend_size mk nx) (i_ft (g_in g)) (qr n (trend_size mk nx) (i_ft (g_in g))) ->
  forall (z : vec) (c : nat), (c < nx)%nat ->
  (ck = AbsoluteExponential -> forall i, (i < n)%nat -> z c <> x i c) ->
  (ck = SquaredExponential \/ nt = h) ->
  exists l, predict_var_gradients_single g z c = Some l /\ (0 < var_at g z -> partial (var_at g) z c l).
Proof.
  intros qr cond mk ck n nx h nt theta w nugget x y g Fit QR z c Hc S D.
  apply (var_gradient _ _ _ _ _ _ _ _ _ _ _ _ _ _ Fit z c Hc S); [|exact QR].
  destruct (fit_inv _ _ _ _ _ _ _ _ _ _ _ _ _ _ Fit) as (th & r_mx & ET & _).
  destruct D as [->| ->]; [now exists th|]. exists theta. destruct ck; cbn [jac_theta]; unfold theta_row, theta_dot; now rewrite !Nat.eqb_refl.
Qed.
Print Assumptions C59_var_gradient.

(** With one hyperparameter for several components, Matern processes can be trained but their gradients panic. *)
Theorem C59_single_theta_refuted : exists g, fit qr1 (fun _ => true) Constant Matern52 2 2 2 1 (fun _ => 1) (fun i j => if Nat.eqb i j then 1 else 0) 1 two_x (two_y 2) = Some g /\
  (exists v, predict g two_x 0 = Some v) /\ (forall z c, predict_jacobian g z c = None) /\ (forall z c, predict_var_gradients_single g z c = None).
Proof.
  destruct (fit_succeeds qr1 (fun _ => true) Constant Matern52 2 2 2 1 (fun _ => 1) (fun i j => if Nat.eqb i j then 1 else 0) 1 two_x (two_y 2) (fun _ => 1)) as [g Fit].
  - reflexivity.
  - lia.
  - set (Rm := Rmx _ _ _ _ _ _ _ _ _). intros v Hv.
    assert (D : forall i, Rm i i = 2) by (intros i; unfold Rm, Rmx; rewrite Nat.eqb_refl; ring).
    assert (B : forall i j, i <> j -> 0 < Rm i j <= 1).
    { intros i j N. unfold Rm, Rmx. destruct (Nat.eqb_spec i j); [contradiction|]. apply kval_bounds. intros l _. cbn. lra. }
    assert (Sy : Rm 1%nat O = Rm O 1%nat) by (apply (Rmx_sym Matern52 2 2 2 1 (fun _ => 1) (fun i j => if Nat.eqb i j then 1 else 0) 1 two_x); lia).
    specialize (B O 1%nat ltac:(lia)). unfold dot, mv. cbn [sumn]. rewrite !D, Sy. set (q := Rm O 1%nat) in *. clearbody q.
    set (a := v O) in *. set (b := v 1%nat) in *.
    replace (0 + a * (0 + 2 * a + q * b) + b * (0 + q * a + 2 * b)) with (a * a * (2 - q) + b * b * (2 - q) + q * ((a + b) * (a + b))) by ring.
    assert (P : 0 < a * a + b * b).
    { destruct Hv as [i [Hi Nz]]. destruct i as [|[|i]]; [| |lia].
      - fold a in Nz. pose proof (Rsqr_pos_lt a Nz) as P. pose proof (Rle_0_sqr b) as Q. unfold Rsqr in *. lra.
      - fold b in Nz. pose proof (Rsqr_pos_lt b Nz) as P. pose proof (Rle_0_sqr a) as Q. unfold Rsqr in *. lra. }
    pose proof (Rle_0_sqr (a + b)) as S. unfold Rsqr in S. pose proof (Rmult_le_pos q ((a + b) * (a + b)) ltac:(lra) S).
    assert (0 < (a * a + b * b) * (2 - q)) by (apply Rmult_lt_0_compat; lra). lra.
  - reflexivity.
  - exists g. split; [exact Fit|]. split; [rewrite (predict_eq _ _ _ _ _ _ _ _ _ _ _ _ _ _ Fit); eexists; reflexivity|].
    destruct (fit_inv _ _ _ _ _ _ _ _ _ _ _ _ _ _ Fit) as (th & r_mx & ET & N1 & ER & EC & Eft & Err & Eco & EB & EG & ES & E0 & Ex & Eh & Ent & Em & Ec & Eth & Ew & Exd & Exm & Exs & Eym & Eys & Elk).
    split; intros z c; [unfold predict_jacobian|unfold predict_var_gradients_single]; rewrite Ec, Ent, Eh; reflexivity.
Qed.
Print Assumptions C59_single_theta_refuted.

(** The function returning derivatives with respect to one component. For a squared exponential process with a constant trend
    its result is 2 / theta_k times the derivative. *)
Theorem C59_kth_partial : forall qr cond n nx theta w nugget x y g,
  fit qr cond Constant SquaredExponential n nx nx nx theta w nugget x y = Some g -> identity w nx ->
  forall z k, (k < nx)%nat -> theta k <> 0 ->
  exists l, partial (mean_at g) z k l /\ predict_kth_derivatives g (fun _ => z) k 0 = Some (2 / theta k * l).
Proof.
  intros qr cond n nx theta w nugget x y g Fit Id z k Hk Nz.
  destruct (C59_mean_gradient _ _ _ _ _ _ _ _ _ _ _ _ _ _ Fit z k Hk) as [l [E P]]; [discriminate|now left|].
  destruct (kth_factor _ _ _ _ _ _ _ _ _ _ Fit Id z k Hk) as [s [K J]]. exists l. split; [exact P|]. rewrite K. f_equal.
  rewrite E in J. injection J as ->. field. exact Nz.
Qed.
Print Assumptions C59_kth_partial.
Lemma two_gradient g : two_fit 2 = Some g -> exists l, l <> 0 /\ predict_jacobian g (fun _ => 1) 0 = Some l.
Proof.
  intros Fit. destruct (two_gamma 2 g ltac:(lra) Fit) as [G0 G1]. pose proof exp_m1 as Q. pose proof (sqrt_lt_R0 2 ltac:(lra)) as S.
  destruct (fit_inv _ _ _ _ _ _ _ _ _ _ _ _ _ _ Fit) as (th & r_mx & ET & N1 & ER & EC & Eft & Err & Eco & EB & EG & ES & E0 & Ex & Eh & Ent & Em & Ec & Eth & Ew & Exd & Exm & Exs & Eym & Eys & Elk).
  pose proof (ystd_pos _ _ _ _ _ _ _ _ _ _ _ _ _ _ Fit) as YP. pose proof (xstd_pos _ _ _ _ _ _ _ _ _ _ _ _ _ _ Fit O) as XP.
  unfold predict_jacobian. rewrite Ec, Ent, Eh, Eth, Em, Ex, E0. cbn [jac_theta theta_row Nat.eqb]. eexists. split; [|reflexivity].
  unfold mv at 1. cbn [trend_size trend_row length sumn]. unfold tr, trend_der at 1. cbn [trend_jac nth].
  unfold mv, corr_jac. cbn [sumn]. rewrite Ec, Ex, Eh, Ew, Exd, G0, G1. cbn [kjac]. unfold sqexp_jac. rewrite !sqexp_one. unfold differences.
  rewrite !two_d. unfold xnorm. rewrite Exm. destruct (normalize_two 2 two_x ltac:(lra) ltac:(reflexivity) O O) as [_ [EM _]]. rewrite EM.
  unfold sq_theta_w. cbn [sumn INR]. set (q := exp (-1)) in *.
  replace ((1 - 2 / 2) / g_xstd g O - (sqrt 2 * 0 - sqrt 2 / 2)) with (sqrt 2 / 2) by (field; lra).
  replace ((1 - 2 / 2) / g_xstd g O - (sqrt 2 * 1 - sqrt 2 / 2)) with (- (sqrt 2 / 2)) by (field; lra).
  replace (- (- (sqrt 2 / 2) * - (sqrt 2 / 2)) / 2) with (- (sqrt 2 / 2 * (sqrt 2 / 2)) / 2) by field.
  pose proof (exp_pos (- (sqrt 2 / 2 * (sqrt 2 / 2)) / 2)) as EP. set (e := exp (- (sqrt 2 / 2 * (sqrt 2 / 2)) / 2)) in *. clearbody e.
  match goal with |- ?l <> 0 => replace l with (sqrt 2 * sqrt 2 / 2 / (1 - q) * e * g_ystd g / g_xstd g O) by (field; lra) end.
  rewrite sqrt_sqrt by lra. apply Rgt_not_eq. unfold Rdiv.
  repeat apply Rmult_lt_0_compat; try lra; apply Rinv_0_lt_compat; lra.
Qed.
(** So it is not the derivative, even with one input and one hyperparameter equal to 1. *)
Theorem C59_kth_refuted : exists g z l, two_fit 2 = Some g /\ predict_kth_derivatives g (fun _ => z) 0 0 = Some l /\ ~ partial (mean_at g) z 0 l.
Proof.
  destruct (two_trained 2) as [g Fit]. destruct (two_gradient g Fit) as [l [Nz E]].
  destruct (C59_kth_partial _ _ _ _ _ _ _ _ _ _ Fit) with (z := fun _ : nat => 1) (k := O) as [l' [P K]].
  - intros i j Hi Hj. destruct (Nat.eqb_spec i j); [reflexivity|lia].
  - lia.
  - lra.
  - exists g, (fun _ => 1), (2 / 1 * l'). split; [exact Fit|]. split; [exact K|]. intros P2.
    destruct (C59_mean_gradient _ _ _ _ _ _ _ _ _ _ _ _ _ _ Fit (fun _ => 1) O ltac:(lia)) as [l2 [E2 P3]]; [discriminate|now left|].
    rewrite E in E2. injection E2 as <-. pose proof (derive_unique _ _ _ _ P P3). pose proof (derive_unique _ _ _ _ P2 P3). lra.
Qed.
Print Assumptions C59_kth_refuted.

(** ** C91: predictions are best linear unbiased predictions *)
(** In normalized units, the predicted mean is a weighted sum of the outputs that is exact on the trend functions, and no such
    sum has a smaller mean squared error; the predicted variance is that error times the process variance. *)
Theorem C91_best_linear_unbiased : forall qr cond mk ck n nx h nt theta w nugget x y g th,
  fit qr cond mk ck n nx h nt theta w nugget x y = Some g ->
  is_qr n (trend_size mk nx) (i_ft (g_in g)) (qr n (trend_size mk nx) (i_ft (g_in g))) ->
  value_theta ck nt h theta = Some th ->
  let xd := fst (fst (normalize n x)) in
  let Rm := fun i j => if Nat.eqb i j then 1 + nugget else kval ck nx h th w (fun c => xd i c - xd j c) in
  let Fm := fun i => trend_val mk nx (xd i) in
  forall x' i,
  let r := fun j => kval ck nx h th w (fun c => xnorm g (x' i) c - xd j c) in
  let f := trend_val mk nx (xnorm g (x' i)) in
  exists mu, unbiased n (trend_size mk nx) Fm f mu /\
    predict g x' i = Some (dot n mu (fun k => (y k - g_ymean g) / g_ystd g) * g_ystd g + g_ymean g) /\
    predict_var g x' i = Some (Rmax 0 (i_sigma2 (g_in g) * sq_error n Rm r mu)) /\
    (forall mu', unbiased n (trend_size mk nx) Fm f mu' -> sq_error n Rm r mu <= sq_error n Rm r mu').
Proof.
  intros qr cond mk ck n nx h nt theta w nugget x y g th Fit QR ET xd Rm Fm x' i r f.
  assert (TH : theta_used ck h nt theta = th) by (unfold theta_used; now rewrite ET).
  destruct (blup _ _ _ _ _ _ _ _ _ _ _ _ _ _ Fit QR (xnorm g (x' i))) as [mu [U [P [V M]]]]. exists mu.
  assert (ER : Rmx ck n nx h nt theta w nugget x = Rm) by (unfold Rmx, Rm, theta_used; now rewrite ET).
  assert (Er : rvec ck n nx h nt theta w x (xnorm g (x' i)) = r) by (unfold rvec, r, theta_used; now rewrite ET).
  rewrite ER, Er in *. split; [exact U|]. split; [|split; [|exact M]].
  - rewrite (predict_eq _ _ _ _ _ _ _ _ _ _ _ _ _ _ Fit), Er, P. do 3 f_equal. apply dot_ext; [reflexivity|].
    intros k Hk. apply (yd_eq _ _ _ _ _ _ _ _ _ _ _ _ _ _ Fit).
  - rewrite (predict_var_eq _ _ _ _ _ _ _ _ _ _ _ _ _ _ Fit), Er. cbv zeta. rewrite V. f_equal.
    destruct (Rlt_dec _ 0); [rewrite Rmax_left by lra|rewrite Rmax_right by lra]; reflexivity.
Qed.
Print Assumptions C91_best_linear_unbiased.

(** ** C92: data that follow the trend are predicted exactly everywhere *)
Theorem C92_constant_data : forall qr cond mk ck n nx h nt theta w nugget x y g a,
  fit qr cond mk ck n nx h nt theta w nugget x y = Some g ->
  is_qr n (trend_size mk nx) (i_ft (g_in g)) (qr n (trend_size mk nx) (i_ft (g_in g))) ->
  (forall i, (i < n)%nat -> y i = a) ->
  forall x' i, predict g x' i = Some a /\ predict_var g x' i = Some 0.
Proof.
  intros qr cond mk ck n nx h nt theta w nugget x y g a Fit QR. exact (constant_data _ _ _ _ _ _ _ _ _ _ _ _ _ _ Fit QR a).
Qed.
Print Assumptions C92_constant_data.
Theorem C92_affine_data : forall qr cond mk ck n nx h nt theta w nugget x y g a0 (a : vec),
  fit qr cond mk ck n nx h nt theta w nugget x y = Some g ->
  is_qr n (trend_size mk nx) (i_ft (g_in g)) (qr n (trend_size mk nx) (i_ft (g_in g))) ->
  mk <> Constant -> (forall i, (i < n)%nat -> y i = a0 + sumn nx (fun j => a j * x i j)) ->
  forall x' i, predict g x' i = Some (a0 + sumn nx (fun j => a j * x' i j)) /\ predict_var g x' i = Some 0.
Proof.
  intros qr cond mk ck n nx h nt theta w nugget x y g a0 a Fit QR. exact (affine_data _ _ _ _ _ _ _ _ _ _ _ _ _ _ Fit QR a0 a).
Qed.
Print Assumptions C92_affine_data.
Example C92_example : exists g, two_fit 0 = Some g /\ predict g (fun _ _ => 7) 0 = Some 0.
Proof.
  destruct (two_trained 0) as [g Fit]. exists g. split; [exact Fit|].
  apply (C92_constant_data _ _ _ _ _ _ _ _ _ _ _ _ _ _ 0 Fit (qr1_trained _ _ _ _ _ _ _ _ _ _ _ _ Fit)). intros i _. unfold two_y. ring.
Qed.

(** ** C93: output units *)
(** Training on a y + b, a <> 0, with the same hyperparameters gives predictions a m + b and variances a^2 v. *)
Theorem C93_output_units : forall qr qr' cond cond' mk ck n nx h nt theta w nugget x y y' g g' a b,
  fit qr cond mk ck n nx h nt theta w nugget x y = Some g ->
  fit qr' cond' mk ck n nx h nt theta w nugget x y' = Some g' ->
  is_qr n (trend_size mk nx) (i_ft (g_in g)) (qr n (trend_size mk nx) (i_ft (g_in g))) ->
  is_qr n (trend_size mk nx) (i_ft (g_in g')) (qr' n (trend_size mk nx) (i_ft (g_in g'))) ->
  a <> 0 -> (forall i, (i < n)%nat -> y' i = a * y i + b) ->
  forall x' i m v, predict g x' i = Some m -> predict_var g x' i = Some v ->
    predict g' x' i = Some (a * m + b) /\ predict_var g' x' i = Some (a * a * v).
Proof.
  intros qr qr' cond cond' mk ck n nx h nt theta w nugget x y y' g g' a b Fit Fit' QR QR' Ha Hy x' i m v.
  exact (units_equivariance _ _ _ _ _ _ _ _ _ _ _ _ _ _ _ _ _ _ Fit Fit' QR QR' a b Ha Hy x' i m v).
Qed.
Print Assumptions C93_output_units.
(** The likelihood is the same, hence so is its maximization over the hyperparameters; outputs not all equal. *)
Theorem C93_likelihood : forall qr qr' cond cond' mk ck n nx h nt theta w nugget x y y' g g' a b,
  fit qr cond mk ck n nx h nt theta w nugget x y = Some g ->
  fit qr' cond' mk ck n nx h nt theta w nugget x y' = Some g' ->
  is_qr n (trend_size mk nx) (i_ft (g_in g)) (qr n (trend_size mk nx) (i_ft (g_in g))) ->
  is_qr n (trend_size mk nx) (i_ft (g_in g')) (qr' n (trend_size mk nx) (i_ft (g_in g'))) ->
  a <> 0 -> (forall i, (i < n)%nat -> y' i = a * y i + b) ->
  (exists i k, (i < n)%nat /\ (k < n)%nat /\ y i <> y k) -> g_lkh g' = g_lkh g.
Proof.
  intros qr qr' cond cond' mk ck n nx h nt theta w nugget x y y' g g' a b Fit Fit' QR QR' Ha Hy [i [k [Hi [Hk Ne]]]].
  apply (units_likelihood _ _ _ _ _ _ _ _ _ _ _ _ _ _ _ _ _ _ Fit Fit' QR QR' a b Ha Hy).
  intros Z. apply Ne. destruct (fit_inv _ _ _ _ _ _ _ _ _ _ _ _ _ _ Fit) as (th & r_mx & ET & N1 & _).
  pose proof (proj1 (std_zero n y N1) Z) as C. now rewrite (C i Hi), (C k Hk).
Qed.
Print Assumptions C93_likelihood.
Example C93_example : exists g g', two_fit 2 = Some g /\ two_fit 6 = Some g' /\ (forall i, two_y 6 i = 3 * two_y 2 i + 0) /\
  exists m v, predict g (fun _ _ => 1) 0 = Some m /\ predict_var g (fun _ _ => 1) 0 = Some v.
Proof.
  destruct (two_trained 2) as [g Fit]. destruct (two_trained 6) as [g' Fit']. exists g, g'. split; [exact Fit|]. split; [exact Fit'|].
  split; [intros i; unfold two_y; ring|]. rewrite (predict_eq _ _ _ _ _ _ _ _ _ _ _ _ _ _ Fit), (predict_var_eq _ _ _ _ _ _ _ _ _ _ _ _ _ _ Fit).
  do 2 eexists. split; reflexivity.
Qed.

(** ** C94: order of observations *)
Theorem C94_order : forall qr qr' cond cond' mk ck n nx h nt theta w nugget x y (s : nat -> nat) g g',
  fit qr cond mk ck n nx h nt theta w nugget x y = Some g ->
  fit qr' cond' mk ck n nx h nt theta w nugget (fun i => x (s i)) (fun i => y (s i)) = Some g' ->
  is_qr n (trend_size mk nx) (i_ft (g_in g)) (qr n (trend_size mk nx) (i_ft (g_in g))) ->
  is_qr n (trend_size mk nx) (i_ft (g_in g')) (qr' n (trend_size mk nx) (i_ft (g_in g'))) ->
  permutes n s ->
  forall x' i, predict g' x' i = predict g x' i /\ predict_var g' x' i = predict_var g x' i.
Proof.
  intros qr qr' cond cond' mk ck n nx h nt theta w nugget x y s g g' Fit Fit' QR QR' P.
  exact (order_invariance _ _ _ _ _ _ _ _ _ _ _ _ _ _ _ _ _ _ Fit Fit' QR QR' P).
Qed.
Print Assumptions C94_order.
Example C94_example : permutes 2 (fun i => 1 - i)%nat /\ (exists g, two_fit 2 = Some g) /\
  exists g', fit qr1 (fun _ => true) Constant SquaredExponential 2 1 1 1 (fun _ => 1) (fun _ _ => 1) 0
    (fun i => two_x (1 - i)%nat) (fun i => two_y 2 (1 - i)%nat) = Some g'.
Proof. split; [exact swap_permutes|]. split; [apply two_trained|apply two_swapped]. Qed.

(** ** C95: input units *)
(** With all columns mapped by increasing affine functions, training succeeds with the same likelihood, and predictions at mapped
    points are the same; columns must not be constant. *)
Theorem C95_input_units : forall qr cond mk ck n nx h nt theta w nugget x y (a b : vec) g,
  fit qr cond mk ck n nx h nt theta w nugget x y = Some g ->
  (forall j, 0 < a j) -> (forall j, exists i k, (i < n)%nat /\ (k < n)%nat /\ x i j <> x k j) ->
  exists g', fit qr cond mk ck n nx h nt theta w nugget (fun i j => a j * x i j + b j) y = Some g' /\ g_lkh g' = g_lkh g /\
    forall (x' : mat) i, predict g' (fun i j => a j * x' i j + b j) i = predict g x' i /\
      predict_var g' (fun i j => a j * x' i j + b j) i = predict_var g x' i.
Proof.
  intros qr cond mk ck n nx h nt theta w nugget x y a b g Fit Ha Hv.
  exact (input_units _ _ _ _ _ _ _ _ _ _ _ _ _ _ _ _ Fit Ha Hv).
Qed.
Print Assumptions C95_input_units.
Example C95_example : forall j, exists i k, (i < 2)%nat /\ (k < 2)%nat /\ two_x i j <> two_x k j.
Proof. intros j. exists 0%nat, 1%nat. split; [lia|]. split; [lia|]. unfold two_x. cbn. lra. Qed.

(** ** C96: points of a batch are predicted independently *)
Theorem C96_batch : forall qr cond mk ck n nx h nt theta w nugget x y g,
  fit qr cond mk ck n nx h nt theta w nugget x y = Some g ->
  forall (xa xb : mat) i k, (forall j, (j < nx)%nat -> xa i j = xb k j) ->
  (exists m, predict g xa i = Some m) /\ predict g xa i = predict g xb k /\ predict_var g xa i = predict_var g xb k.
Proof.
  intros qr cond mk ck n nx h nt theta w nugget x y g Fit xa xb i k H.
  assert (Z : forall j, (j < nx)%nat -> xnorm g (xa i) j = xnorm g (xb k) j) by (intros j Hj; unfold xnorm; now rewrite H).
  assert (Er : forall l, (l < n)%nat -> rvec ck n nx h nt theta w x (xnorm g (xa i)) l = rvec ck n nx h nt theta w x (xnorm g (xb k)) l).
  { intros l _. unfold rvec. apply kval_ext. intros j Hj. now rewrite Z. }
  assert (Ef : forall l, (l < trend_size mk nx)%nat -> fvec mk nx (xnorm g (xa i)) l = fvec mk nx (xnorm g (xb k)) l).
  { intros l _. unfold fvec, trend_val. f_equal. apply trend_ext. exact Z. }
  rewrite !(predict_eq _ _ _ _ _ _ _ _ _ _ _ _ _ _ Fit), !(predict_var_eq _ _ _ _ _ _ _ _ _ _ _ _ _ _ Fit).
  split; [eexists; reflexivity|]. split.
  - f_equal. f_equal. f_equal. f_equal; apply dot_ext; auto.
  - f_equal. cbv zeta. rewrite (mse_ext _ _ _ _ _ _ _ _ Er Ef). reflexivity.
Qed.
Print Assumptions C96_batch.

(** ** C97: covariance of predictions *)
(** The covariance of two predictions is symmetric; that of a point with itself is the variance before clamping at zero. *)
Theorem C97_covariance : forall qr cond mk ck n nx h nt theta w nugget x y g,
  fit qr cond mk ck n nx h nt theta w nugget x y = Some g ->
  forall m (x' : mat) i k, (i < m)%nat -> (k < m)%nat ->
  (exists c, compute_covariance g m x' i k = Some c /\ compute_covariance g m x' k i = Some c) /\
  (exists v, compute_covariance g m x' i i = Some v /\ predict_var g x' i = Some (Rmax 0 v)).
Proof.
  intros qr cond mk ck n nx h nt theta w nugget x y g Fit m x' i k Hi Hk.
  split.
  - eexists. rewrite !(covariance_eq _ _ _ _ _ _ _ _ _ _ _ _ _ _ Fit) by assumption. split; [reflexivity|]. do 2 f_equal. f_equal; [|apply dot_comm].
    f_equal; [|apply dot_comm]. apply kval_ext. intros; apply Rabs_minus_sym.
  - eexists. rewrite (covariance_eq _ _ _ _ _ _ _ _ _ _ _ _ _ _ Fit) by assumption. split; [reflexivity|].
    rewrite (predict_var_eq _ _ _ _ _ _ _ _ _ _ _ _ _ _ Fit). cbv zeta. f_equal. unfold mse_of.
    rewrite (kval_zero ck nx h _ w _) by (intros; ring).
    destruct (Rlt_dec _ 0); [rewrite Rmax_left by lra|rewrite Rmax_right by lra]; reflexivity.
Qed.
Print Assumptions C97_covariance.
(** The process trained on (0, 0) and (2, 2) satisfies the hypotheses of C58, C59, C91, C96 and C97. *)
Example C58_C97_example : exists g c v, two_fit 2 = Some g /\ compute_covariance g 2 two_x 0 1 = Some c /\ compute_covariance g 2 two_x 1 0 = Some c /\
  predict_var g two_x 0 = Some v /\ 0 <= v.
Proof.
  destruct (two_trained 2) as [g Fit]. destruct (C97_covariance _ _ _ _ _ _ _ _ _ _ _ _ _ g Fit 2 two_x 0 1 ltac:(lia) ltac:(lia)) as [[c [C1 C2]] [v [_ V]]].
  exists g, c, (Rmax 0 v). split; [exact Fit|]. split; [exact C1|]. split; [exact C2|]. split; [exact V|]. exact (C58_gp_variance g two_x 0 _ V).
Qed.
Example C59_example : exists g l l', two_fit 2 = Some g /\ predict_jacobian g (fun _ => 1) 0 = Some l /\ partial (mean_at g) (fun _ => 1) 0 l /\
  predict_var_gradients_single g (fun _ => 1) 0 = Some l' /\ (0 < var_at g (fun _ => 1) -> partial (var_at g) (fun _ => 1) 0 l').
Proof.
  destruct (two_trained 2) as [g Fit]. exists g.
  destruct (C59_mean_gradient _ _ _ _ _ _ _ _ _ _ _ _ _ g Fit (fun _ => 1) 0 ltac:(lia) ltac:(discriminate) ltac:(now left)) as [l [L1 L2]].
  destruct (C59_var_gradient _ _ _ _ _ _ _ _ _ _ _ _ _ g Fit (qr1_trained _ _ _ _ _ _ _ _ _ _ _ _ Fit) (fun _ => 1) 0 ltac:(lia) ltac:(discriminate) ltac:(now left)) as [l' [L3 L4]].
  exists l, l'. auto.
Qed.
Example C91_example : exists g mu, two_fit 2 = Some g /\ sumn 2 mu = 1 /\
  predict g (fun _ _ => 1) 0 = Some (dot 2 mu (fun k => (two_y 2 k - g_ymean g) / g_ystd g) * g_ystd g + g_ymean g).
Proof.
  destruct (two_trained 2) as [g Fit]. exists g.
  destruct (C91_best_linear_unbiased _ _ _ _ _ _ _ _ _ _ _ _ _ g (fun _ => 1) Fit (qr1_trained _ _ _ _ _ _ _ _ _ _ _ _ Fit) eq_refl (fun _ _ => 1) 0)
    as (mu & U & P & _). exists mu. split; [exact Fit|]. split; [|exact P]. specialize (U O ltac:(cbn; lia)). unfold dot in U. cbn in U. cbn. lra.
Qed.
Example C96_example : exists g, two_fit 2 = Some g /\ predict g two_x 1 = predict g (fun _ _ => 2) 7.
Proof.
  destruct (two_trained 2) as [g Fit]. exists g. split; [exact Fit|].
  apply (C96_batch _ _ _ _ _ _ _ _ _ _ _ _ _ g Fit two_x (fun _ _ => 2) 1 7). intros j _. unfold two_x. cbn. ring.
Qed.
