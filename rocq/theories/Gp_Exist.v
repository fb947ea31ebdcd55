(** When training succeeds, and a trained process. *)
From Coq Require Import Reals Lra Lia Arith FunctionalExtensionality.
From Coquelicot Require Import Coquelicot.
From Coq Require Import List Bool.
From Verif Require Import RVec Moe_Model Kern_Model Kern_Spec Kern_Proofs Gp_Model Gp_Spec Gp_Lin Gp_Proofs Gp_Grad Gp_Inv.
Import ListNotations.
Local Open Scope R_scope.

Section Exist.
  Context (qr : nat -> nat -> mat -> mat * mat) (cond : mat -> bool).
  Context (mk : mean_kind) (ck : corr_kind) (n nx h nt : nat) (theta : vec) (w : mat) (nugget : R) (x : mat) (y : vec).
  Local Notation Rm := (Rmx ck n nx h nt theta w nugget x).
  Local Notation xd := (fst (fst (normalize n x))).

  Lemma fit_pd g : fit qr cond mk ck n nx h nt theta w nugget x y = Some g -> positive_definite n Rm.
  Proof.
    intros Fit v [i [Hi Nz]].
    assert (E : dot n v (mv n Rm v) = dot n (mv n (tr (i_chol (g_in g))) v) (mv n (tr (i_chol (g_in g))) v)).
    { rewrite <- dot_mv. apply dot_ext; [reflexivity|]. intros k Hk. now apply (R_LLt _ _ _ _ _ _ _ _ _ _ _ _ _ _ Fit). }
    rewrite E. destruct (Rle_lt_or_eq_dec 0 _ (dot_nonneg n (mv n (tr (i_chol (g_in g))) v))) as [|Z]; [assumption|].
    exfalso. apply Nz. apply (Lt_inj _ _ _ _ _ _ _ _ _ _ _ _ _ _ Fit); [|exact Hi].
    intros k Hk. now apply (dot_zero n (mv n (tr (i_chol (g_in g))) v)).
  Qed.

  (** Training succeeds on two points or more with a positive definite correlation matrix, unless the trend is
      reported as ill-conditioned. *)
  Lemma fit_succeeds th : value_theta ck nt h theta = Some th -> (1 < n)%nat -> positive_definite n Rm ->
    (forall L, cond (snd (qr n (trend_size mk nx) (fun i j => fsub n L (fun k => trend_val mk nx (xd k) j) i))) = true) ->
    exists g, fit qr cond mk ck n nx h nt theta w nugget x y = Some g.
  Proof.
    intros ET N1 PD HC. unfold fit. destruct (normalize n x) as [[xd' xm] xs] eqn:EX. destruct (normalize n (fun i _ => y i)) as [[yd' ym] ys].
    destruct (cross_diff_spec n xd' ltac:(lia)) as [rows [ind [d [EC [HR [HP HD]]]]]]. rewrite EC.
    destruct (Nat.eqb_spec rows 0) as [Z|_]; [subst; destruct n as [|[|?]]; cbn in HR; lia|]. rewrite ET.
    assert (ER : forall i j, (i < n)%nat -> (j < n)%nat ->
              corr_matrix rows ind (fun r => kval ck nx h th w (d r)) nugget i j = Rm i j).
    { intros i j Hi Hj. unfold Rmx, theta_used. rewrite ET, EX. cbn [fst].
      destruct (corr_matrix_spec n rows ind (fun r => kval ck nx h th w (d r)) nugget HP) as [CD CO].
      destruct (Nat.eqb_spec i j) as [->|N]; [apply CD|].
      destruct HP as [HB HU]. destruct (Nat.lt_ge_cases i j) as [Lt|Ge].
      - destruct (HU i j ltac:(lia)) as [r [[Hr E] _]]. destruct (CO r Hr) as [C1 _]. rewrite E in C1. cbn [fst snd] in C1. rewrite C1.
        apply kval_ext. intros c _. rewrite HD by exact Hr. rewrite E. cbn [fst snd]. now rewrite Rabs_Rabsolu.
      - destruct (HU j i ltac:(lia)) as [r [[Hr E] _]]. destruct (CO r Hr) as [_ C1]. rewrite E in C1. cbn [fst snd] in C1. rewrite C1.
        apply kval_ext. intros c _. rewrite HD by exact Hr. rewrite E. cbn [fst snd]. rewrite Rabs_Rabsolu. apply Rabs_minus_sym. }
    set (A := corr_matrix rows ind _ nugget) in *. destruct (cholesky_complete n A) as [L EL].
    { intros i j Hi Hj. rewrite !ER by assumption. now apply Rmx_sym. }
    { intros v Hv. specialize (PD v Hv). replace (dot n v (mv n A v)) with (dot n v (mv n Rm v)); [exact PD|].
      apply dot_ext; [reflexivity|]. intros i Hi. apply sumn_ext. intros j Hj. now rewrite ER. }
    cbn zeta. unfold reduced_likelihood. rewrite EL. specialize (HC L). cbn [fst] in HC.
    destruct (qr n (trend_size mk nx) _) as [q rr]. cbn [snd] in HC. rewrite HC. cbn [negb]. eexists. reflexivity.
  Qed.
End Exist.

(** ** A factorization for one column *)
Definition qr1 (n p : nat) (A : mat) : mat * mat :=
  let s := sqrt (dot n (fun i => A i O) (fun i => A i O)) in (fun i _ => A i O / s, fun _ _ => s).
Lemma qr1_ok n A : (exists i, (i < n)%nat /\ A i O <> 0) -> is_qr n 1 A (qr1 n 1 A).
Proof.
  intros [i0 [Hi0 Nz]]. set (s := sqrt (dot n (fun i => A i O) (fun i => A i O))).
  assert (P : 0 < dot n (fun i => A i O) (fun i => A i O)).
  { destruct (Rle_lt_or_eq_dec 0 _ (dot_nonneg n (fun i => A i O))) as [H|H]; [exact H|].
    exfalso. apply Nz. exact (dot_zero n (fun i => A i O) (eq_sym H) i0 Hi0). }
  assert (S : 0 < s) by now apply sqrt_lt_R0.
  assert (S2 : s * s = dot n (fun i => A i O) (fun i => A i O)) by (apply sqrt_sqrt; lra).
  split; [|split; [|split]].
  - intros i j Hi Hj. assert (j = O) by lia. subst. cbn. fold s. field. lra.
  - intros j l Hj Hl. assert (j = O) by lia. assert (l = O) by lia. subst. cbn [qr1 fst Nat.eqb]. fold s.
    rewrite (sumn_ext n _ (fun i => A i O * A i O / (s * s))) by (intros; field; lra).
    rewrite sumn_div. change (sumn n (fun i => A i O * A i O)) with (dot n (fun i => A i O) (fun i => A i O)).
    rewrite <- S2. field. lra.
  - intros i j Hi Hj H. lia.
  - intros i Hi. cbn. fold s. lra.
Qed.
(** It is a factorization of the constant trend of any trained process. *)
Lemma qr1_trained cond ck n nx h nt theta w nugget x y g : fit qr1 cond Constant ck n nx h nt theta w nugget x y = Some g ->
  is_qr n (trend_size Constant nx) (i_ft (g_in g)) (qr1 n (trend_size Constant nx) (i_ft (g_in g))).
Proof.
  intros Fit. change (trend_size Constant nx) with 1%nat. apply qr1_ok.
  destruct (fit_inv _ _ _ _ _ _ _ _ _ _ _ _ _ _ Fit) as (th & r_mx & ET & N1 & _).
  assert (D : (exists i, (i < n)%nat /\ i_ft (g_in g) i O <> 0) \/ forall i, (i < n)%nat -> i_ft (g_in g) i O = 0).
  { clear. induction n as [|n [[i [H N]]|IH]].
    - right. intros; lia.
    - left. exists i. split; [lia|exact N].
    - destruct (Req_dec (i_ft (g_in g) n O) 0) as [E|E].
      + right. intros i Hi. destruct (Nat.eq_dec i n) as [->|]; [exact E|]. apply IH. lia.
      + left. exists n. split; [lia|exact E]. }
  destruct D as [D|D]; [exact D|]. exfalso.
  pose proof (ft_solves _ _ _ _ _ _ _ _ _ _ _ _ _ _ Fit O O ltac:(lia)) as F. unfold Fmx in F. rewrite trend_first in F.
  unfold mv in F. rewrite sumn_zero in F; [lra|]. intros k Hk. rewrite D by exact Hk. ring.
Qed.

(** ** Two points *)
(** Inputs 0 and 2 with outputs 0 and v. *)
Definition two_x : mat := fun i _ => 2 * INR i.
Definition two_y (v : R) : vec := fun i => v * INR i.
Definition two_fit (v : R) : option gp :=
  fit qr1 (fun _ => true) Constant SquaredExponential 2 1 1 1 (fun _ => 1) (fun _ _ => 1) 0 two_x (two_y v).

Lemma mean_two v : mean_axis 2 (two_y v) = v / 2.
Proof. unfold mean_axis, two_y. cbn. field. Qed.
Lemma std_two v : 0 < v -> std_axis 2 (two_y v) = v / sqrt 2.
Proof.
  intros V. unfold std_axis. rewrite mean_two. unfold two_y. cbn. pose proof (sqrt_lt_R0 2 ltac:(lra)) as S.
  replace ((0 + (v * 0 - v / 2) * (v * 0 - v / 2) + (v * 1 - v / 2) * (v * 1 - v / 2)) / (1 + 1 - 1)) with (v * v / 2) by field.
  rewrite sqrt_div_alt by lra. rewrite sqrt_square by lra. reflexivity.
Qed.
Lemma normalize_two v (m : mat) : 0 < v -> (forall i j, m i j = two_y v i) ->
  forall i j, fst (fst (normalize 2 m)) i j = (two_y v i - v / 2) / (v / sqrt 2) /\
    snd (fst (normalize 2 m)) j = v / 2 /\ snd (normalize 2 m) j = v / sqrt 2.
Proof.
  intros V H i j. pose proof (sqrt_lt_R0 2 ltac:(lra)) as S. unfold normalize. cbn [fst snd].
  assert (M : mean_axis 2 (fun i => m i j) = v / 2).
  { rewrite <- mean_two. f_equal. apply functional_extensionality. intros; apply H. }
  assert (D : std_axis 2 (fun i => m i j) = v / sqrt 2).
  { rewrite <- (std_two v V). f_equal. apply functional_extensionality. intros; apply H. }
  rewrite M, D, H. assert (P : 0 < v / sqrt 2) by (apply Rdiv_lt_0_compat; lra).
  destruct (Req_EM_T (v / sqrt 2) 0); [lra|]. auto.
Qed.
Lemma two_d i j : fst (fst (normalize 2 two_x)) i j = sqrt 2 * INR i - sqrt 2 / 2.
Proof.
  destruct (normalize_two 2 two_x ltac:(lra) ltac:(reflexivity) i j) as [-> _]. unfold two_y.
  pose proof (sqrt_lt_R0 2 ltac:(lra)) as S. replace (2 / 2) with 1 by field.
  field. lra.
Qed.
Lemma sqexp_one t : sqexp_value 1 1 (fun _ => 1) (fun _ _ => 1) t = exp (- (t O * t O) / 2).
Proof. unfold sqexp_value, sq_theta_w. cbn. f_equal. field. Qed.
Definition two_R := Rmx SquaredExponential 2 1 1 1 (fun _ => 1) (fun _ _ => 1) 0 two_x.
Lemma two_R_eq i j : (i < 2)%nat -> (j < 2)%nat -> two_R i j = if Nat.eqb i j then 1 else exp (-1).
Proof.
  intros Hi Hj. unfold two_R, Rmx. destruct (Nat.eqb_spec i j) as [|N]; [ring|].
  cbn [kval]. change (theta_used SquaredExponential 1 1 (fun _ => 1)) with (fun _ : nat => 1). rewrite sqexp_one. rewrite !two_d.
  f_equal. assert (S : sqrt 2 * sqrt 2 = 2) by (apply sqrt_sqrt; lra).
  replace (- ((sqrt 2 * INR i - sqrt 2 / 2 - (sqrt 2 * INR j - sqrt 2 / 2)) * (sqrt 2 * INR i - sqrt 2 / 2 - (sqrt 2 * INR j - sqrt 2 / 2))) / 2)
    with (- ((INR i - INR j) * (INR i - INR j)) * (sqrt 2 * sqrt 2) / 2) by field.
  rewrite S. destruct i as [|[|i]], j as [|[|j]]; try lia; cbn; field.
Qed.
Lemma exp_m1 : 0 < exp (-1) < 1.
Proof. split; [apply exp_pos|]. rewrite <- exp_0. apply exp_increasing. lra. Qed.
Lemma pd2 M : (forall i j, (i < 2)%nat -> (j < 2)%nat -> M i j = if Nat.eqb i j then 1 else exp (-1)) -> positive_definite 2 M.
Proof.
  intros E v [i [Hi N]]. unfold dot, mv. cbn [sumn]. rewrite !E by lia. cbn [Nat.eqb]. pose proof exp_m1 as Q. set (q := exp (-1)) in *.
  replace (0 + v O * (0 + 1 * v O + q * v 1%nat) + v 1%nat * (0 + q * v O + 1 * v 1%nat)) with
    ((v O + q * v 1%nat) * (v O + q * v 1%nat) + (1 - q * q) * (v 1%nat * v 1%nat)) by ring.
  assert (Q2 : 0 < 1 - q * q) by nra.
  pose proof (Rle_0_sqr (v O + q * v 1%nat)) as A. unfold Rsqr in A. pose proof (Rle_0_sqr (v 1%nat)) as B. unfold Rsqr in B.
  destruct (Req_dec (v 1%nat) 0) as [Z|Z].
  - assert (v O <> 0) by (destruct i as [|[|i]]; [exact N|contradiction|lia]). rewrite Z.
    pose proof (Rsqr_pos_lt (v O) H) as P. unfold Rsqr in P. lra.
  - pose proof (Rsqr_pos_lt (v 1%nat) Z) as P. unfold Rsqr in P. pose proof (Rmult_lt_0_compat _ _ Q2 P). lra.
Qed.
Lemma two_pd : positive_definite 2 two_R.
Proof. apply pd2. exact two_R_eq. Qed.
Lemma two_trained v : exists g, two_fit v = Some g.
Proof. apply (fit_succeeds _ _ _ _ _ _ _ _ _ _ _ _ _ (fun _ => 1)); [reflexivity|lia|exact two_pd|reflexivity]. Qed.

(** The same points in the other order. *)
Lemma swap_permutes : permutes 2 (fun i => 1 - i)%nat.
Proof. split; intros; lia. Qed.
Lemma two_swapped v : exists g, fit qr1 (fun _ => true) Constant SquaredExponential 2 1 1 1 (fun _ => 1) (fun _ _ => 1) 0
  (fun i => two_x (1 - i)%nat) (fun i => two_y v (1 - i)%nat) = Some g.
Proof.
  apply (fit_succeeds _ _ _ _ _ _ _ _ _ _ _ _ _ (fun _ => 1)); [reflexivity|lia| |reflexivity]. apply pd2. intros i j Hi Hj.
  transitivity (two_R (1 - i)%nat (1 - j)%nat).
  - unfold two_R, Rmx. rewrite (normalize_perm 2 (fun i => 1 - i)%nat swap_permutes two_x). cbn [fst].
    destruct (Nat.eqb_spec i j), (Nat.eqb_spec (1 - i) (1 - j)); try lia; reflexivity.
  - rewrite two_R_eq by lia. destruct (Nat.eqb_spec i j), (Nat.eqb_spec (1 - i) (1 - j)); try lia; reflexivity.
Qed.

(** Its weights. *)
Lemma two_gamma v g : 0 < v -> two_fit v = Some g ->
  i_gamma (g_in g) O = - (sqrt 2 / 2 / (1 - exp (-1))) /\ i_gamma (g_in g) 1%nat = sqrt 2 / 2 / (1 - exp (-1)).
Proof.
  intros V Fit. pose proof exp_m1 as Q. pose proof (sqrt_lt_R0 2 ltac:(lra)) as S.
  destruct (mean_unique _ _ _ _ _ _ _ _ _ _ _ _ _ _ Fit (qr1_trained _ _ _ _ _ _ _ _ _ _ _ _ Fit) (fun _ => 0)
    (fun i => (2 * INR i - 1) * (sqrt 2 / 2 / (1 - exp (-1))))) as [A _].
  - split.
    + intros i Hi. fold two_R. cbv beta.
      destruct (normalize_two v (fun i _ => two_y v i) V ltac:(reflexivity) i O) as [-> _].
      unfold mv. rewrite (sumn_zero (trend_size Constant 1)) by (intros; ring). cbn [sumn]. rewrite !two_R_eq by lia.
      unfold two_y. destruct i as [|[|i]]; [| |lia]; cbn [INR Nat.eqb]; field; repeat split; lra.
    + intros j Hj. assert (j = O) by (cbn in Hj; lia). subst. unfold mv, tr, Fmx. cbn. ring.
  - rewrite <- (A O), <- (A 1%nat) by lia. cbn. split; ring.
Qed.

(** ** The k-th derivatives of a squared exponential process with a constant trend *)
Section Kth.
  Context (qr : nat -> nat -> mat -> mat * mat) (cond : mat -> bool).
  Context (n nx : nat) (theta : vec) (w : mat) (nugget : R) (x : mat) (y : vec) (g : gp).
  Hypothesis Fit : fit qr cond Constant SquaredExponential n nx nx nx theta w nugget x y = Some g.
  Hypothesis Id : identity w nx.
  Lemma kth_factor z k : (k < nx)%nat -> exists s,
    predict_kth_derivatives g (fun _ => z) k O = Some (2 * theta k * s) /\
    predict_jacobian g z k = Some (theta k * theta k * s).
  Proof.
    intros Hk. destruct (fit_inv _ _ _ _ _ _ _ _ _ _ _ _ _ _ Fit) as (t0 & r_mx & ET & N1 & ER & EC & Eft & Err & Eco & EB & EG & ES & E0 & Ex & Eh & Ent & Em & Ec & Eth & Ew & Exd & Exm & Exs & Eym & Eys & Elk).
    assert (TH : theta_used SquaredExponential nx nx theta = theta).
    { unfold theta_used. cbn. unfold theta_row. now rewrite Nat.eqb_refl. }
    exists (- sumn n (fun j => (xnorm g z k - fst (fst (normalize n x)) j k) * rvec SquaredExponential n nx nx nx theta w x (xnorm g z) j * i_gamma (g_in g) j) * g_ystd g / g_xstd g k).
    split.
    - unfold predict_kth_derivatives. cbn zeta. destruct (correlation_row _ _ _ _ _ _ _ _ _ _ _ _ _ _ Fit (fun a => xnorm g z) O) as [corr [EqC HC]].
      rewrite EqC. rewrite Ent, Em, Ex, E0, Eth, Exd. destruct (Nat.leb_spec nx k); [lia|].
      f_equal. rewrite (sumn_zero (trend_size Constant nx)).
      2:{ intros j Hj. destruct j; [|cbn in Hj; lia]. unfold trend_der. cbn. ring. }
      rewrite (sumn_ext n _ (fun j => (xnorm g z k - fst (fst (normalize n x)) j k) * rvec SquaredExponential n nx nx nx theta w x (xnorm g z) j * i_gamma (g_in g) j)).
      2:{ intros j Hj. now rewrite HC. }
      unfold Rdiv. ring.
    - unfold predict_jacobian. rewrite Ent, Em, Ex, E0, Eth, Ec, Eh. cbn [jac_theta]. unfold theta_row. rewrite Nat.eqb_refl. cbn zeta.
      f_equal. unfold mv at 1. rewrite (sumn_zero (trend_size Constant nx)).
      2:{ intros j Hj. destruct j; [|cbn in Hj; lia]. unfold tr, trend_der. cbn. ring. }
      unfold mv, tr, corr_jac. rewrite Ec, Ex, Eh, Ew, Exd.
      rewrite (sumn_ext n _ (fun j => - (theta k * theta k) * ((xnorm g z k - fst (fst (normalize n x)) j k) * rvec SquaredExponential n nx nx nx theta w x (xnorm g z) j * i_gamma (g_in g) j))).
      2:{ intros j Hj. cbn [kjac]. unfold sqexp_jac, rvec. rewrite TH. cbn [kval].
          assert (SW : sq_theta_w nx theta w k = theta k * theta k).
          { unfold sq_theta_w. rewrite (sumn_only nx _ k Hk).
            - rewrite Id by exact Hk. rewrite Nat.eqb_refl. ring.
            - intros l Hl Nl. rewrite Id by assumption. destruct (Nat.eqb_spec k l); [congruence|]. ring. }
          rewrite SW. unfold differences. ring. }
      rewrite sumn_scal_l. unfold Rdiv. ring.
  Qed.
End Kth.
