(** Lemmas on kernels and trends. *)
From Coq Require Import Reals Lra Lia Arith.
From Coquelicot Require Import Coquelicot.
From Coq Require Import List Bool.
From Verif Require Import RVec Moe_Model Kern_Model Kern_Spec.
Import ListNotations.
Local Open Scope R_scope.

Lemma signum_abs t : signum t * Rabs t = t.
Proof. unfold signum. destruct (Rlt_dec t 0); [rewrite Rabs_left by lra|rewrite Rabs_pos_eq by lra]; lra. Qed.
Lemma sqrt3 : sqrt 3 * sqrt 3 = 3. Proof. apply sqrt_sqrt. lra. Qed.
Lemma sqrt5 : sqrt 5 * sqrt 5 = 5. Proof. apply sqrt_sqrt. lra. Qed.

(** ** Functions of an absolute value *)
Lemma derive_abs (t : R) : t <> 0 -> is_derive Rabs t (signum t).
Proof.
  intros N. unfold signum. destruct (Rlt_dec t 0) as [L|L].
  - apply is_derive_Reals. replace (-1)%R with (- (1))%R by lra. now apply Rabs_derive_2.
  - apply is_derive_Reals. apply Rabs_derive_1. lra.
Qed.
Lemma derive_of_abs (g g' : R -> R) (t : R) : (forall s, is_derive g s (g' s)) -> g' 0 = 0 ->
  is_derive (fun t => g (Rabs t)) t (signum t * g' (Rabs t)).
Proof.
  intros H H0. destruct (Req_dec t 0) as [->|N].
  - rewrite Rabs_R0, H0, Rmult_0_r. apply is_derive_Reals. intros eps He.
    assert (H0' : is_derive g 0 0) by (rewrite <- H0 at 2; apply H).
    apply is_derive_Reals in H0'. destruct (H0' eps He) as [del Hd]. exists del.
    intros x Hx Hl. rewrite Rplus_0_l, Rabs_R0.
    specialize (Hd (Rabs x)). rewrite Rplus_0_l in Hd.
    assert (A : Rabs ((g (Rabs x) - g 0) / Rabs x - 0) < eps).
    { apply Hd; [now apply Rabs_no_R0|now rewrite Rabs_Rabsolu]. }
    rewrite Rminus_0_r in A |- *. unfold Rdiv in *. rewrite Rabs_mult in A |- *.
    rewrite !Rabs_inv in A |- *. now rewrite Rabs_Rabsolu in A.
  - apply (derive_comp g Rabs); [now apply derive_abs|apply H].
Qed.

(** One factor of each Matern kernel. *)
Definition phi32 (c t : R) : R := (1 + sqrt 3 * c * Rabs t) * exp (- (sqrt 3 * c * Rabs t)).
Definition dphi32 (c t : R) : R := - 3 * c * c * t * exp (- (sqrt 3 * c * Rabs t)).
Definition phi52 (c t : R) : R :=
  (1 + sqrt 5 * c * Rabs t + 5 / 3 * (c * c * t * t)) * exp (- (sqrt 5 * c * Rabs t)).
Definition dphi52 (c t : R) : R := - (5 / 3) * c * c * t * (1 + sqrt 5 * c * Rabs t) * exp (- (sqrt 5 * c * Rabs t)).

Lemma derive_lin (a b t : R) : is_derive (fun s => a + b * s) t b.
Proof. eapply derive_eq; [apply derive_plus; [apply derive_const|apply derive_scal_l, derive_id]|]. lra. Qed.
Lemma derive_expl (b t : R) : is_derive (fun s => exp (- (b * s))) t (- b * exp (- (b * t))).
Proof.
  apply (derive_exp (fun s => - (b * s))). apply derive_opp. eapply derive_eq; [apply derive_scal_l, derive_id|]. lra.
Qed.
Lemma phi32_derive c t : is_derive (phi32 c) t (dphi32 c t).
Proof.
  set (g := fun s => (1 + sqrt 3 * c * s) * exp (- (sqrt 3 * c * s))).
  set (g' := fun s => - 3 * c * c * s * exp (- (sqrt 3 * c * s))).
  eapply derive_eq.
  - apply (derive_of_abs g g').
    + intros s. unfold g, g'. eapply derive_eq; [apply derive_mult; [apply derive_lin|apply derive_expl]|].
      replace (- 3) with (- (sqrt 3 * sqrt 3)) by (rewrite sqrt3; lra). ring.
    + unfold g'. ring.
  - unfold g', dphi32. transitivity (- 3 * c * c * (signum t * Rabs t) * exp (- (sqrt 3 * c * Rabs t))); [ring|now rewrite signum_abs].
Qed.
Lemma phi52_derive c t : is_derive (phi52 c) t (dphi52 c t).
Proof.
  set (g := fun s => (1 + sqrt 5 * c * s + 5 / 3 * (c * c) * (s * s)) * exp (- (sqrt 5 * c * s))).
  set (g' := fun s => - (5 / 3) * c * c * s * (1 + sqrt 5 * c * s) * exp (- (sqrt 5 * c * s))).
  apply derive_ext with (fun t => g (Rabs t)).
  { intros s. unfold g, phi52. rewrite <- Rabs_mult. rewrite (Rabs_pos_eq (s * s)) by apply Rle_0_sqr. do 2 f_equal. ring. }
  eapply derive_eq.
  - apply (derive_of_abs g g').
    + intros s. unfold g, g'. eapply derive_eq.
      { apply derive_mult; [|apply derive_expl]. apply derive_plus; [apply derive_lin|].
        apply derive_scal_l. apply derive_mult; apply derive_id. }
      transitivity ((10 / 3 - sqrt 5 * sqrt 5 - 5 / 3 * sqrt 5 * c * s) * c * c * s * exp (- (sqrt 5 * c * s))); [field|].
      rewrite sqrt5. field.
    + unfold g'. ring.
  - unfold g', dphi52.
    transitivity (- (5 / 3) * c * c * (signum t * Rabs t) * (1 + sqrt 5 * c * Rabs t) * exp (- (sqrt 5 * c * Rabs t))); [ring|now rewrite signum_abs].
Qed.

(** ** Products over pairs *)
Lemma prod_out2 n h (f : nat -> nat -> R) j k : (j < n)%nat -> (k < h)%nat ->
  prodn n (fun p => prodn h (f p)) =
  f j k * prodn n (fun p => prodn h (fun l => if negb (Nat.eqb l k) || negb (Nat.eqb p j) then f p l else 1)).
Proof.
  intros Hj Hk. rewrite (prodn_out n _ j Hj). rewrite (prodn_out h (f j) k Hk).
  rewrite (prodn_out n (fun p => prodn h (fun l => if negb (Nat.eqb l k) || negb (Nat.eqb p j) then f p l else 1)) j Hj).
  rewrite Rmult_assoc. f_equal. f_equal.
  - apply prodn_ext. intros l Hl. rewrite Nat.eqb_refl. simpl. rewrite orb_false_r. now destruct (Nat.eqb l k).
  - apply prodn_ext. intros p Hp. destruct (Nat.eqb_spec p j); [reflexivity|]. apply prodn_ext. intros l Hl.
    simpl. now rewrite orb_true_r.
Qed.
Lemma derive_prod2 n h (f : nat -> nat -> R -> R) x (dj : nat -> R) j : (j < n)%nat ->
  (forall l, (l < h)%nat -> is_derive (f j l) x (dj l)) ->
  (forall p l, (p < n)%nat -> p <> j -> is_derive (f p l) x 0) ->
  is_derive (fun t => prodn n (fun p => prodn h (fun l => f p l t))) x
    (sumn h (fun k => dj k * prodn n (fun p => prodn h (fun l =>
       if negb (Nat.eqb l k) || negb (Nat.eqb p j) then f p l x else 1)))).
Proof.
  intros Hj D Z.
  eapply derive_eq.
  - apply derive_prodn. intros p Hp. apply derive_prodn with (d := fun l => if Nat.eqb p j then dj l else 0).
    intros l Hl. destruct (Nat.eqb_spec p j) as [->|N]; [now apply D|now apply Z].
  - cbv beta. rewrite (sumn_only n _ j Hj).
    + rewrite Nat.eqb_refl. rewrite <- sumn_scal_r. apply sumn_ext. intros k Hk. rewrite Rmult_assoc. f_equal.
      rewrite (prodn_out n (fun p => prodn h (fun l => if negb (Nat.eqb l k) || negb (Nat.eqb p j) then f p l x else 1)) j Hj).
      f_equal.
      * apply prodn_ext. intros l Hl. rewrite Nat.eqb_refl. simpl. rewrite orb_false_r. now destruct (Nat.eqb l k).
      * apply prodn_ext. intros p Hp. destruct (Nat.eqb_spec p j); [reflexivity|]. apply prodn_ext. intros l Hl.
        simpl. now rewrite orb_true_r.
    + intros p Hp N. destruct (Nat.eqb_spec p j); [contradiction|].
      rewrite (sumn_zero h); [ring|]. intros l Hl. ring.
Qed.

Section Kernels.
  Context (nx h : nat) (theta : nat -> R) (w : nat -> nat -> R).
  Local Notation tw := (tw theta w).

  Lemma m32_phi d : m32_value nx h theta w d = prodn nx (fun j => prodn h (fun l => phi32 (tw j l) (d j))).
  Proof.
    unfold m32_value, m32_a, m32_b. rewrite sumn_swap, <- sumn_scal_l, exp_sumn, <- prodn_mult.
    apply prodn_ext. intros j Hj. rewrite <- sumn_scal_l, exp_sumn, <- prodn_mult. apply prodn_ext. intros l Hl.
    unfold phi32. do 2 f_equal. ring.
  Qed.
  Lemma m52_phi d : m52_value nx h theta w d = prodn nx (fun j => prodn h (fun l => phi52 (tw j l) (d j))).
  Proof.
    unfold m52_value, m52_a, m52_b. rewrite sumn_swap, <- sumn_scal_l, exp_sumn, <- prodn_mult.
    apply prodn_ext. intros j Hj. rewrite <- sumn_scal_l, exp_sumn, <- prodn_mult. apply prodn_ext. intros l Hl.
    unfold phi52. do 2 f_equal. ring.
  Qed.

  Lemma abs_theta_tw j : abs_theta_w h theta w j = sumn h (fun l => tw j l).
  Proof. apply sumn_ext. intros l _. unfold Kern_Model.tw. ring. Qed.

  (** The derivative of one row with respect to component j of x, differences being x - y. *)
  Lemma diff_upd x y j t i : differences (upd x j t) y i = if Nat.eqb i j then t - y j else x i - y i.
  Proof. unfold differences, upd. destruct (Nat.eqb_spec i j) as [->|]; reflexivity. Qed.
  Lemma diff_derive x y j i : is_derive (fun t => differences (upd x j t) y i) (x j) (if Nat.eqb i j then 1 else 0).
  Proof.
    unfold differences. eapply derive_eq; [apply derive_minus; [apply derive_upd|apply derive_const]|].
    destruct (Nat.eqb i j); lra.
  Qed.

  Lemma sqexp_partial x y j : (j < nx)%nat ->
    partial (fun z => sqexp_value nx h theta w (differences z y)) x j (sqexp_jac nx h theta w (differences x y) j).
  Proof.
    intros Hj. unfold partial, sqexp_value. eapply derive_eq.
    - apply derive_exp. apply derive_scal_l. apply derive_sumn with (d := fun i => if Nat.eqb i j then 2 * (x j - y j) * sq_theta_w h theta w j else 0).
      intros i Hi. eapply derive_eq.
      + apply derive_scal_r. apply derive_mult; apply diff_derive.
      + cbv beta; rewrite !diff_upd. destruct (Nat.eqb_spec i j) as [->|]; ring.
    - rewrite (sumn_only nx _ j Hj).
      2:{ intros i Hi N. destruct (Nat.eqb_spec i j); [contradiction|reflexivity]. }
      rewrite Nat.eqb_refl. unfold sqexp_jac, sqexp_value.
      rewrite (sumn_ext nx (fun i => differences (upd x j (x j)) y i * differences (upd x j (x j)) y i * sq_theta_w h theta w i)
                 (fun i => differences x y i * differences x y i * sq_theta_w h theta w i)).
      2:{ intros i _. unfold differences. now rewrite upd_id. }
      unfold differences at 3. field.
  Qed.

  Lemma absexp_partial x y j : (j < nx)%nat -> x j <> y j ->
    partial (fun z => absexp_value nx h theta w (differences z y)) x j (absexp_jac nx h theta w (differences x y) j).
  Proof.
    intros Hj N. unfold partial, absexp_value. eapply derive_eq.
    - apply derive_exp. apply derive_opp. apply derive_sumn with (d := fun i => if Nat.eqb i j then signum (x j - y j) * abs_theta_w h theta w j else 0).
      intros i Hi. destruct (Nat.eqb_spec i j) as [->|Ne].
      + apply derive_scal_r. eapply derive_eq.
        * apply (derive_comp Rabs (fun t => differences (upd x j t) y j)); [apply diff_derive|]. apply derive_abs.
          rewrite diff_upd, Nat.eqb_refl. lra.
        * rewrite diff_upd, Nat.eqb_refl. ring.
      + apply derive_ext with (fun _ => Rabs (x i - y i) * abs_theta_w h theta w i); [|apply derive_const].
        intros t. rewrite diff_upd. destruct (Nat.eqb_spec i j); [contradiction|reflexivity].
    - rewrite (sumn_only nx _ j Hj).
      2:{ intros i Hi Ne. destruct (Nat.eqb_spec i j); [contradiction|reflexivity]. }
      rewrite Nat.eqb_refl. unfold absexp_jac, absexp_value.
      rewrite (sumn_ext nx (fun i => Rabs (differences (upd x j (x j)) y i) * abs_theta_w h theta w i)
                 (fun i => Rabs (differences x y i) * abs_theta_w h theta w i)).
      2:{ intros i _. unfold differences. now rewrite upd_id. }
      rewrite (sumn_ext h (fun l => theta l * Rabs (w j l)) (fun l => Rabs (w j l) * theta l)) by (intros; ring).
      fold (abs_theta_w h theta w j). unfold differences at 2. ring.
  Qed.

  (** Otherwise the absolute exponential kernel has no derivative, unless component j does not matter. *)
  Lemma absexp_no_partial x y j : (j < nx)%nat -> x j = y j -> abs_theta_w h theta w j <> 0 ->
    ~ exists l, partial (fun z => absexp_value nx h theta w (differences z y)) x j l.
  Proof.
    intros Hj E N [l H]. unfold partial in H.
    set (c := abs_theta_w h theta w j) in *.
    set (rest := sumn nx (fun i => if Nat.eqb i j then 0 else Rabs (x i - y i) * abs_theta_w h theta w i)).
    assert (V : forall t, absexp_value nx h theta w (differences (upd x j t) y) = exp (- (Rabs (t - y j) * c + rest))).
    { intros t. unfold absexp_value. do 2 f_equal.
      transitivity (sumn nx (fun i => (if Nat.eqb i j then Rabs (t - y j) * c else 0) + (if Nat.eqb i j then 0 else Rabs (x i - y i) * abs_theta_w h theta w i))).
      - apply sumn_ext. intros i _. rewrite diff_upd. unfold c. destruct (Nat.eqb_spec i j) as [->|]; ring.
      - rewrite sumn_plus. f_equal. rewrite (sumn_only nx _ j Hj); [now rewrite Nat.eqb_refl|].
        intros i _ Ni. destruct (Nat.eqb_spec i j); [contradiction|reflexivity]. }
    apply (derive_ext _ _ _ _ V) in H.
    (* then |t - y j| would be differentiable at y j *)
    assert (D : is_derive (fun t => Rabs (t - y j)) (x j) ((- (l * / exp (- (Rabs (x j - y j) * c + rest)))) / c)).
    { apply derive_ext with (fun t => (- ln (exp (- (Rabs (t - y j) * c + rest))) - rest) / c).
      { intros t. rewrite ln_exp. field. exact N. }
      unfold Rdiv. apply derive_scal_r. eapply derive_eq.
      - apply derive_minus; [apply derive_opp|apply derive_const].
        apply (derive_comp ln (fun t => exp (- (Rabs (t - y j) * c + rest)))); [exact H|].
        apply is_derive_Reals. apply derivable_pt_lim_ln. apply exp_pos.
      - ring. }
    set (m := - (l * _) / c) in D. clearbody m. rewrite E in D. clear - D.
    apply is_derive_Reals in D. destruct (D (/2)) as [del Hd]; [lra|].
    pose proof (cond_pos del) as P.
    assert (A : Rabs ((Rabs (y j + del / 2 - y j) - Rabs (y j - y j)) / (del / 2) - m) < /2).
    { apply Hd; [lra|]. rewrite Rabs_pos_eq; lra. }
    assert (B : Rabs ((Rabs (y j + - (del / 2) - y j) - Rabs (y j - y j)) / (- (del / 2)) - m) < /2).
    { apply Hd; [lra|]. rewrite Rabs_left; lra. }
    replace (y j + del / 2 - y j) with (del / 2) in A by lra. replace (y j + - (del / 2) - y j) with (- (del / 2)) in B by lra.
    replace (y j - y j) with 0 in A, B by lra. rewrite Rabs_R0 in A, B. rewrite Rabs_Ropp in B.
    rewrite (Rabs_pos_eq (del / 2)) in A, B by lra.
    replace ((del / 2 - 0) / (del / 2)) with 1 in A by (field; lra).
    replace ((del / 2 - 0) / - (del / 2)) with (-1) in B by (field; lra).
    apply Rabs_def2 in A. apply Rabs_def2 in B. lra.
  Qed.

  Lemma exp_prod2 (d : nat -> R) s :
    exp (- s * sumn h (fun l => sumn nx (fun j => Rabs (d j) * tw j l))) =
    prodn nx (fun p => prodn h (fun l => exp (- (s * tw p l * Rabs (d p))))).
  Proof.
    rewrite sumn_swap, <- sumn_scal_l, exp_sumn. apply prodn_ext. intros j Hj.
    rewrite <- sumn_scal_l, exp_sumn. apply prodn_ext. intros l Hl. f_equal. ring.
  Qed.

  Lemma m32_partial x y j : (j < nx)%nat ->
    partial (fun z => m32_value nx h theta w (differences z y)) x j (m32_jac nx h theta w (differences x y) j).
  Proof.
    intros Hj. apply (partial_ext (fun z => prodn nx (fun p => prodn h (fun l => phi32 (tw p l) (differences z y p))))).
    { intros z. symmetry. apply m32_phi. }
    unfold partial. eapply derive_eq.
    - apply (derive_prod2 nx h (fun p l t => phi32 (tw p l) (differences (upd x j t) y p)) (x j)
               (fun l => dphi32 (tw j l) (differences x y j)) j Hj).
      + intros l Hl. eapply derive_eq.
        * apply (derive_comp (phi32 (tw j l)) (fun t => differences (upd x j t) y j)); [apply diff_derive|apply phi32_derive].
        * rewrite Nat.eqb_refl, diff_upd, Nat.eqb_refl. unfold differences. ring.
      + intros p l Hp N. apply derive_ext with (fun _ => phi32 (tw p l) (x p - y p)); [|apply derive_const].
        intros t. rewrite diff_upd. destruct (Nat.eqb_spec p j); [contradiction|reflexivity].
    - cbv beta. set (d := differences x y). unfold m32_jac, m32_db, m32_da.
      rewrite abs_theta_tw. rewrite <- (sumn_scal_l h (m32_b nx h theta w d)).
      replace (- sqrt 3 * sumn h (fun l => tw j l) * signum (d j) * m32_b nx h theta w d * m32_a nx h theta w d)
        with (sumn h (fun l => tw j l) * (- sqrt 3 * signum (d j) * m32_b nx h theta w d * m32_a nx h theta w d)) by ring.
      rewrite <- sumn_scal_r, <- sumn_plus. apply sumn_ext. intros k Hk.
      set (P := m32_term nx h theta w d j k).
      assert (A : m32_a nx h theta w d = (1 + sqrt 3 * tw j k * Rabs (d j)) * P).
      { unfold m32_a, P, m32_term.
        rewrite (prod_out2 nx h (fun j l => 1 + sqrt 3 * tw j l * Rabs (d j)) j k Hj Hk). f_equal.
        apply prodn_ext. intros p Hp. apply prodn_ext. intros l Hl. destruct (_ || _); [ring|reflexivity]. }
      assert (B : m32_b nx h theta w d = exp (- (sqrt 3 * tw j k * Rabs (d j))) *
                prodn nx (fun p => prodn h (fun l => if negb (Nat.eqb l k) || negb (Nat.eqb p j) then exp (- (sqrt 3 * tw p l * Rabs (d p))) else 1))).
      { unfold m32_b. rewrite exp_prod2.
        exact (prod_out2 nx h (fun p l => exp (- (sqrt 3 * tw p l * Rabs (d p)))) j k Hj Hk). }
      assert (C : prodn nx (fun p => prodn h (fun l => if negb (Nat.eqb l k) || negb (Nat.eqb p j) then phi32 (tw p l) (differences (upd x j (x j)) y p) else 1)) =
                P * prodn nx (fun p => prodn h (fun l => if negb (Nat.eqb l k) || negb (Nat.eqb p j) then exp (- (sqrt 3 * tw p l * Rabs (d p))) else 1))).
      { unfold P, m32_term. rewrite <- prodn_mult. apply prodn_ext. intros p Hp. rewrite <- prodn_mult. apply prodn_ext. intros l Hl.
        destruct (_ || _); [|ring]. unfold phi32, d. unfold differences. rewrite upd_id. f_equal. f_equal. ring. }
      rewrite C. rewrite A.
      set (E := prodn nx (fun p => prodn h (fun l => if negb (Nat.eqb l k) || negb (Nat.eqb p j) then exp _ else 1))) in *.
      unfold dphi32. rewrite B. set (e := exp (- (sqrt 3 * tw j k * Rabs (d j)))).
      change (differences x y j) with (d j). fold e.
      transitivity (- (sqrt 3 * sqrt 3) * tw j k * tw j k * (signum (d j) * Rabs (d j)) * e * P * E); [rewrite sqrt3, signum_abs; ring|ring].
  Qed.

  Lemma m52_partial x y j : (j < nx)%nat ->
    partial (fun z => m52_value nx h theta w (differences z y)) x j (m52_jac nx h theta w (differences x y) j).
  Proof.
    intros Hj. apply (partial_ext (fun z => prodn nx (fun p => prodn h (fun l => phi52 (tw p l) (differences z y p))))).
    { intros z. symmetry. apply m52_phi. }
    unfold partial. eapply derive_eq.
    - apply (derive_prod2 nx h (fun p l t => phi52 (tw p l) (differences (upd x j t) y p)) (x j)
               (fun l => dphi52 (tw j l) (differences x y j)) j Hj).
      + intros l Hl. eapply derive_eq.
        * apply (derive_comp (phi52 (tw j l)) (fun t => differences (upd x j t) y j)); [apply diff_derive|apply phi52_derive].
        * rewrite Nat.eqb_refl, diff_upd, Nat.eqb_refl. unfold differences. ring.
      + intros p l Hp N. apply derive_ext with (fun _ => phi52 (tw p l) (x p - y p)); [|apply derive_const].
        intros t. rewrite diff_upd. destruct (Nat.eqb_spec p j); [contradiction|reflexivity].
    - cbv beta. set (d := differences x y). unfold m52_jac, m52_db, m52_da.
      rewrite abs_theta_tw. rewrite <- (sumn_scal_l h (m52_b nx h theta w d)).
      replace (- sqrt 5 * sumn h (fun l => tw j l) * signum (d j) * m52_b nx h theta w d * m52_a nx h theta w d)
        with (sumn h (fun l => tw j l) * (- sqrt 5 * signum (d j) * m52_b nx h theta w d * m52_a nx h theta w d)) by ring.
      rewrite <- sumn_scal_r, <- sumn_plus. apply sumn_ext. intros k Hk.
      set (P := m52_term nx h theta w d j k).
      assert (S : forall p, Rabs (d p) * Rabs (d p) = d p * d p).
      { intros p. rewrite <- Rabs_mult. apply Rabs_pos_eq, Rle_0_sqr. }
      assert (A : m52_a nx h theta w d = (1 + sqrt 5 * tw j k * Rabs (d j) + 5 / 3 * (tw j k * tw j k * d j * d j)) * P).
      { unfold m52_a, P, m52_term.
        rewrite (prod_out2 nx h (fun j l => 1 + sqrt 5 * tw j l * Rabs (d j) + 5 / 3 * (tw j l * tw j l * d j * d j)) j k Hj Hk). f_equal.
        apply prodn_ext. intros p Hp. apply prodn_ext. intros l Hl. destruct (_ || _); [|reflexivity].
        cbv zeta. replace (5 / 3 * (tw p l * Rabs (d p)) * (tw p l * Rabs (d p))) with (5 / 3 * (tw p l * tw p l * (Rabs (d p) * Rabs (d p)))) by ring.
        rewrite S. ring. }
      assert (B : m52_b nx h theta w d = exp (- (sqrt 5 * tw j k * Rabs (d j))) *
                prodn nx (fun p => prodn h (fun l => if negb (Nat.eqb l k) || negb (Nat.eqb p j) then exp (- (sqrt 5 * tw p l * Rabs (d p))) else 1))).
      { unfold m52_b. rewrite exp_prod2.
        exact (prod_out2 nx h (fun p l => exp (- (sqrt 5 * tw p l * Rabs (d p)))) j k Hj Hk). }
      assert (C : prodn nx (fun p => prodn h (fun l => if negb (Nat.eqb l k) || negb (Nat.eqb p j) then phi52 (tw p l) (differences (upd x j (x j)) y p) else 1)) =
                P * prodn nx (fun p => prodn h (fun l => if negb (Nat.eqb l k) || negb (Nat.eqb p j) then exp (- (sqrt 5 * tw p l * Rabs (d p))) else 1))).
      { unfold P, m52_term. rewrite <- prodn_mult. apply prodn_ext. intros p Hp. rewrite <- prodn_mult. apply prodn_ext. intros l Hl.
        destruct (_ || _); [|ring]. unfold phi52. replace (differences (upd x j (x j)) y p) with (d p) by (unfold d, differences; now rewrite upd_id).
        f_equal. cbv zeta. replace (5 / 3 * (tw p l * Rabs (d p)) * (tw p l * Rabs (d p))) with (5 / 3 * (tw p l * tw p l * (Rabs (d p) * Rabs (d p)))) by ring.
        rewrite S. ring. }
      rewrite C. rewrite A.
      set (E := prodn nx (fun p => prodn h (fun l => if negb (Nat.eqb l k) || negb (Nat.eqb p j) then exp _ else 1))) in *.
      unfold dphi52. rewrite B. set (e := exp (- (sqrt 5 * tw j k * Rabs (d j)))).
      change (differences x y j) with (d j). fold e.
      transitivity ((- (sqrt 5 * sqrt 5) + 10 / 3) * tw j k * tw j k * (signum (d j) * Rabs (d j)) * e * P * E -
         5 / 3 * sqrt 5 * tw j k * tw j k * tw j k * signum (d j) * (Rabs (d j) * Rabs (d j)) * e * P * E).
      + rewrite sqrt5.
        replace (5 / 3 * sqrt 5 * tw j k * tw j k * tw j k * signum (d j) * (Rabs (d j) * Rabs (d j)) * e * P * E)
          with (5 / 3 * sqrt 5 * tw j k * tw j k * tw j k * (signum (d j) * Rabs (d j)) * Rabs (d j) * e * P * E) by ring.
        rewrite signum_abs. field.
      + rewrite S. field.
  Qed.

  (** ** Values *)
  Hypothesis theta_nonneg : forall l, (l < h)%nat -> 0 <= theta l.
  Lemma tw_nonneg j l : (l < h)%nat -> 0 <= tw j l.
  Proof. intros Hl. apply Rmult_le_pos; [now apply theta_nonneg|apply Rabs_pos]. Qed.
  Lemma exp_le1 a : a <= 0 -> exp a <= 1.
  Proof. intros [H|H]; [rewrite <- exp_0; left; now apply exp_increasing|rewrite H, exp_0; lra]. Qed.

  Lemma phi32_bounds c t : 0 <= c -> 0 < phi32 c t <= 1.
  Proof.
    intros Hc. assert (S : 0 <= sqrt 3) by apply sqrt_pos.
    assert (Z : 0 <= sqrt 3 * c * Rabs t) by (repeat apply Rmult_le_pos; auto using Rabs_pos).
    unfold phi32. set (z := sqrt 3 * c * Rabs t) in *. pose proof (exp_pos (- z)). split.
    - apply Rmult_lt_0_compat; lra.
    - destruct (Req_dec z 0) as [->|N].
      + rewrite Ropp_0, exp_0. lra.
      + rewrite exp_Ropp. apply Rmult_le_reg_r with (exp z); [apply exp_pos|].
        rewrite Rmult_assoc, Rinv_l, Rmult_1_r, Rmult_1_l by (pose proof (exp_pos z); lra).
        left. now apply exp_ineq1.
  Qed.
  Lemma exp_ineq2 z : 0 <= z -> 1 + z + z * z / 3 <= exp z.
  Proof.
    intros Hz.
    assert (E : (1 + z / 2) * (1 + z / 2) <= exp (z / 2) * exp (z / 2)).
    { assert (1 + z / 2 <= exp (z / 2)).
      { destruct (Req_dec z 0) as [->|N]; [replace (0 / 2) with 0 by lra; rewrite exp_0; lra|]. left. apply exp_ineq1. lra. }
      apply Rmult_le_compat; lra. }
    (* a quarter is not enough: use thirds *)
    assert (F : (1 + z / 3) * (1 + z / 3) * (1 + z / 3) <= exp (z / 3) * exp (z / 3) * exp (z / 3)).
    { assert (1 + z / 3 <= exp (z / 3)).
      { destruct (Req_dec z 0) as [->|N]; [replace (0 / 3) with 0 by lra; rewrite exp_0; lra|]. left. apply exp_ineq1. lra. }
      assert (0 <= 1 + z / 3) by lra. apply Rmult_le_compat; try lra; [apply Rmult_le_pos; lra|apply Rmult_le_compat; lra]. }
    replace (exp z) with (exp (z / 3) * exp (z / 3) * exp (z / 3)) by (rewrite <- !exp_plus; f_equal; field).
    apply Rle_trans with (2 := F).
    assert (0 <= z * z * z) by (repeat apply Rmult_le_pos; lra).
    replace ((1 + z / 3) * (1 + z / 3) * (1 + z / 3)) with (1 + z + z * z / 3 + z * z * z / 27) by field. lra.
  Qed.
  Lemma phi52_bounds c t : 0 <= c -> 0 < phi52 c t <= 1.
  Proof.
    intros Hc. assert (S : 0 <= sqrt 5) by apply sqrt_pos.
    assert (Z : 0 <= sqrt 5 * c * Rabs t) by (repeat apply Rmult_le_pos; auto using Rabs_pos).
    assert (Q : 5 / 3 * (c * c * t * t) = (sqrt 5 * c * Rabs t) * (sqrt 5 * c * Rabs t) / 3).
    { replace ((sqrt 5 * c * Rabs t) * (sqrt 5 * c * Rabs t)) with ((sqrt 5 * sqrt 5) * c * c * (Rabs t * Rabs t)) by ring.
      rewrite sqrt5, <- Rabs_mult, (Rabs_pos_eq (t * t)) by apply Rle_0_sqr. field. }
    unfold phi52. rewrite Q. set (z := sqrt 5 * c * Rabs t) in *. pose proof (exp_pos (- z)).
    assert (0 <= z * z) by apply Rle_0_sqr. split.
    - apply Rmult_lt_0_compat; lra.
    - rewrite exp_Ropp. apply Rmult_le_reg_r with (exp z); [apply exp_pos|].
      rewrite Rmult_assoc, Rinv_l, Rmult_1_r, Rmult_1_l by (pose proof (exp_pos z); lra). now apply exp_ineq2.
  Qed.

  Lemma kval_bounds k d : 0 < kval k nx h theta w d <= 1.
  Proof.
    destruct k; cbn [kval].
    - split; [apply exp_pos|]. apply exp_le1.
      assert (0 <= sumn nx (fun j => d j * d j * sq_theta_w h theta w j)); [|lra].
      apply sumn_nonneg. intros j _. apply Rmult_le_pos; [apply Rle_0_sqr|]. apply sumn_nonneg. intros; apply Rle_0_sqr.
    - split; [apply exp_pos|]. apply exp_le1.
      assert (0 <= sumn nx (fun j => Rabs (d j) * abs_theta_w h theta w j)); [|lra].
      apply sumn_nonneg. intros j _. apply Rmult_le_pos; [apply Rabs_pos|]. apply sumn_nonneg. intros l Hl.
      apply Rmult_le_pos; [apply Rabs_pos|now apply theta_nonneg].
    - rewrite m32_phi. assert (B : forall j, 0 < prodn h (fun l => phi32 (tw j l) (d j)) <= 1).
      { intros j. split; [apply prodn_pos|apply prodn_le1]; intros; apply phi32_bounds, tw_nonneg; assumption. }
      split; [apply prodn_pos|apply prodn_le1]; intros; apply B.
    - rewrite m52_phi. assert (B : forall j, 0 < prodn h (fun l => phi52 (tw j l) (d j)) <= 1).
      { intros j. split; [apply prodn_pos|apply prodn_le1]; intros; apply phi52_bounds, tw_nonneg; assumption. }
      split; [apply prodn_pos|apply prodn_le1]; intros; apply B.
  Qed.
End Kernels.

Lemma kval_ext k nx h theta w d e : (forall j, (j < nx)%nat -> Rabs (d j) = Rabs (e j)) ->
  kval k nx h theta w d = kval k nx h theta w e.
Proof.
  intros H.
  assert (S : forall j, (j < nx)%nat -> d j * d j = e j * e j).
  { intros j Hj. rewrite <- (Rabs_pos_eq (d j * d j)), <- (Rabs_pos_eq (e j * e j)) by apply Rle_0_sqr. rewrite !Rabs_mult, H; auto. }
  destruct k; cbn [kval].
  - unfold sqexp_value. f_equal. f_equal. apply sumn_ext. intros j Hj. now rewrite S.
  - unfold absexp_value. f_equal. f_equal. apply sumn_ext. intros j Hj. now rewrite H.
  - rewrite !m32_phi. apply prodn_ext. intros j Hj. apply prodn_ext. intros l _. unfold phi32. now rewrite H.
  - rewrite !m52_phi. apply prodn_ext. intros j Hj. apply prodn_ext. intros l _. unfold phi52. rewrite H by exact Hj.
    f_equal. f_equal. rewrite !Rmult_assoc. now rewrite S.
Qed.
Lemma kval_zero k nx h theta w d : (forall j, (j < nx)%nat -> d j = 0) -> kval k nx h theta w d = 1.
Proof.
  intros H. rewrite (kval_ext k nx h theta w d (fun _ => 0)) by (intros j Hj; now rewrite H).
  destruct k; cbn [kval].
  - unfold sqexp_value. rewrite sumn_zero; [rewrite Rmult_0_r; apply exp_0|]. intros; ring.
  - unfold absexp_value. rewrite sumn_zero; [rewrite Ropp_0; apply exp_0|]. intros; rewrite Rabs_R0; ring.
  - rewrite m32_phi. apply prodn_1. intros j _. apply prodn_1. intros l _. unfold phi32.
    rewrite Rabs_R0, Rmult_0_r, Ropp_0, exp_0. ring.
  - rewrite m52_phi. apply prodn_1. intros j _. apply prodn_1. intros l _. unfold phi52.
    rewrite Rabs_R0, Rmult_0_r, Ropp_0, exp_0. ring.
Qed.

(** ** Trends *)
Definition monos (k : mean_kind) (n : nat) : list monomial :=
  match k with
  | Constant => [One]
  | Linear => One :: map Comp (seq 0 n)
  | Quadratic => (One :: map Comp (seq 0 n)) ++ flat_map (fun i => map (fun a => Times i (i + a)) (seq 0 (n - i))) (seq 0 n)
  end.
Definition mono_grad (x : nat -> R) (m : monomial) (c : nat) : R :=
  match m with
  | One => 0
  | Comp i => if Nat.eqb c i then 1 else 0
  | Times i j => (if Nat.eqb c i then x j else 0) + (if Nat.eqb c j then x i else 0)
  end.
Lemma map_flat_map {A B C} (f : B -> C) (g : A -> list B) l : map f (flat_map g l) = flat_map (fun a => map f (g a)) l.
Proof. induction l as [|a l IH]; simpl; [reflexivity|]. now rewrite map_app, IH. Qed.
Lemma flat_map_ext' {A B} (f g : A -> list B) l : (forall a, f a = g a) -> flat_map f l = flat_map g l.
Proof. intros H. induction l as [|a l IH]; simpl; [reflexivity|]. now rewrite H, IH. Qed.
Lemma seq_map_add k m : seq k m = map (fun a => (k + a)%nat) (seq 0 m).
Proof. revert k. induction m as [|m IH]; intros k; simpl; [reflexivity|]. f_equal; [lia|]. rewrite IH, <- seq_shift, map_map. apply map_ext. intros; lia. Qed.
Lemma trend_row_monos k n x : trend_row k n x = map (mono_val x) (monos k n).
Proof.
  destruct k; cbn [trend_row monos].
  - reflexivity.
  - cbn [map mono_val]. f_equal. rewrite map_map. reflexivity.
  - rewrite map_app. f_equal.
    + cbn [map mono_val]. f_equal. rewrite map_map. reflexivity.
    + rewrite map_flat_map. apply flat_map_ext'. intros i. rewrite (seq_map_add i), !map_map. apply map_ext. intros a.
      cbn [mono_val]. ring.
Qed.
Lemma trend_jac_monos k n x c : map (fun g => g c) (trend_jac k n x) = map (fun m => mono_grad x m c) (monos k n).
Proof.
  destruct k; cbn [trend_jac monos].
  - reflexivity.
  - cbn [map mono_grad]. f_equal. rewrite !map_map. reflexivity.
  - rewrite !map_app. f_equal.
    + cbn [map mono_grad]. f_equal. rewrite !map_map. reflexivity.
    + rewrite !map_flat_map. apply flat_map_ext'. intros i. rewrite !map_map. apply map_ext. intros a. cbn [mono_grad].
      destruct (Nat.ltb_spec c i) as [L|L].
      * destruct (Nat.eqb_spec c i), (Nat.eqb_spec c (i + a)); try lia. ring.
      * destruct (Nat.eqb_spec c i), (Nat.eqb_spec (c - i) 0), (Nat.eqb_spec c (i + a)), (Nat.eqb_spec a (c - i)); try lia; reflexivity.
Qed.
Lemma mono_derive x m j : partial (fun z => mono_val z m) x j (mono_grad x m j).
Proof.
  unfold partial. destruct m as [|i|i k]; cbn [mono_val mono_grad].
  - apply derive_const.
  - rewrite Nat.eqb_sym. apply derive_upd.
  - eapply derive_eq; [apply derive_mult; apply derive_upd|]. cbv beta. rewrite !upd_id.
    rewrite (Nat.eqb_sym j i), (Nat.eqb_sym j k). destruct (Nat.eqb i j), (Nat.eqb k j); ring.
Qed.
Lemma nth_app_fun (l : list (nat -> R)) c i d : nth i l (fun _ => d) c = nth i (map (fun g => g c) l) d.
Proof. revert i. induction l as [|a l IH]; intros [|i]; simpl; auto. Qed.
Lemma trend_length k n x : length (trend_row k n x) = length (monos k n).
Proof. now rewrite trend_row_monos, map_length. Qed.
Lemma trend_partial k n x i j : (i < length (trend_row k n x))%nat ->
  partial (fun z => nth i (trend_row k n z) 0) x j (nth i (trend_jac k n x) (fun _ => 0) j).
Proof.
  rewrite trend_length. intros Hi. apply (partial_ext (fun z => mono_val z (nth i (monos k n) One))).
  { intros z. rewrite trend_row_monos. rewrite (nth_indep _ 0 (mono_val z One)) by now rewrite map_length.
    symmetry. apply map_nth. }
  eapply partial_eq; [apply mono_derive|].
  rewrite nth_app_fun, trend_jac_monos. rewrite (nth_indep _ 0 (mono_grad x One j)) by now rewrite map_length.
  symmetry. apply (map_nth (fun m => mono_grad x m j)).
Qed.
Lemma length_flat_map_sum {A} (f : nat -> list A) (l : list nat) : length (flat_map f l) = list_sum (map (fun i => length (f i)) l).
Proof. induction l as [|a l IH]; simpl; [reflexivity|]. now rewrite app_length, IH. Qed.
Lemma sum_seq_down n : (2 * list_sum (map (fun i => n - i) (seq 0 n)) = n * (n + 1))%nat.
Proof.
  enough (H : forall k, (k <= n -> 2 * list_sum (map (fun i => n - i) (seq (n - k) k)) = k * (k + 1))%nat).
  { specialize (H n (le_n n)). now rewrite Nat.sub_diag in H. }
  induction k as [|k IH]; intros Hk; [reflexivity|]. cbn [seq map list_sum fold_right].
  change (fold_right Init.Nat.add 0%nat (map (fun i => (n - i)%nat) (seq (S (n - S k)) k))) with (list_sum (map (fun i => (n - i)%nat) (seq (S (n - S k)) k))).
  replace (S (n - S k)) with (n - k)%nat by lia. specialize (IH ltac:(lia)). lia.
Qed.
Lemma monos_length k n : length (monos k n) = match k with Constant => 1 | Linear => 1 + n | Quadratic => 1 + n + n * (n + 1) / 2 end%nat.
Proof.
  destruct k; cbn [monos].
  - reflexivity.
  - cbn [length]. now rewrite map_length, seq_length.
  - rewrite app_length. cbn [length]. rewrite map_length, seq_length, length_flat_map_sum.
    rewrite (map_ext _ (fun i => n - i)%nat) by (intros i; now rewrite map_length, seq_length).
    rewrite <- (sum_seq_down n). rewrite (Nat.mul_comm 2), Nat.div_mul by lia. reflexivity.
Qed.
Lemma NoDup_app_intro {A} (l m : list A) : NoDup l -> NoDup m -> (forall z, In z l -> In z m -> False) -> NoDup (l ++ m).
Proof.
  induction 1 as [|a l Ha N IH]; intros Hm D; simpl; [exact Hm|]. constructor.
  - rewrite in_app_iff. intros [H|H]; [now apply Ha|]. exact (D a (or_introl eq_refl) H).
  - apply IH; [exact Hm|]. intros z Hz. apply D. now right.
Qed.
Lemma nodup_flat_map {A B} (f : A -> list B) l : NoDup l -> (forall a, NoDup (f a)) ->
  (forall a b z, In z (f a) -> In z (f b) -> a = b) -> NoDup (flat_map f l).
Proof.
  intros N Hf D. induction N as [|a l Ha N IH]; simpl; [constructor|].
  apply NoDup_app_intro; auto. intros z Hz H. apply in_flat_map in H as [b [Hb Hz']]. now rewrite (D a b z Hz Hz') in Ha.
Qed.
Lemma monos_nodup k n : NoDup (monos k n).
Proof.
  assert (L : NoDup (One :: map Comp (seq 0 n))).
  { constructor; [intros H; apply in_map_iff in H as [? [? _]]; discriminate|]. apply FinFun.Injective_map_NoDup; [|apply seq_NoDup].
    intros a b H. now injection H. }
  destruct k; cbn [monos]; [repeat constructor; intros []|exact L|].
  apply NoDup_app_intro; [exact L| |].
  - apply nodup_flat_map; [apply seq_NoDup| |].
    + intros i. apply FinFun.Injective_map_NoDup; [|apply seq_NoDup]. intros a b H. injection H. lia.
    + intros a b z Ha Hb. apply in_map_iff in Ha as [? [<- _]]. apply in_map_iff in Hb as [? [E _]]. now injection E.
  - intros z Hz H. apply in_flat_map in H as [i [_ H]]. apply in_map_iff in H as [a [<- _]].
    destruct Hz as [Hz|Hz]; [discriminate|]. apply in_map_iff in Hz as [? [Hz _]]. discriminate.
Qed.
Lemma monos_in k n m : In m (monos k n) <-> in_basis k n m.
Proof.
  assert (L : In m (One :: map Comp (seq 0 n)) <-> match m with One => True | Comp i => (i < n)%nat | Times _ _ => False end).
  { split.
    - intros [<-|H]; [exact I|]. apply in_map_iff in H as [i [<- H]]. apply in_seq in H. lia.
    - destruct m as [|i|i j]; [now left| |intros []]. intros H. right. apply in_map. apply in_seq. lia. }
  destruct k; cbn [monos].
  - split.
    + intros [<-|[]]. exact I.
    + destruct m as [|i|i j]; simpl; [now left|intros [[H|H] _]; discriminate|intros [H _]; discriminate].
  - rewrite L. destruct m as [|i|i j]; simpl; split; auto; try tauto. intros [H _]; discriminate.
  - rewrite in_app_iff, L, in_flat_map. destruct m as [|i|i j]; simpl.
    + tauto.
    + split; [intros [H|[k [_ H]]]; [tauto|apply in_map_iff in H as [? [H _]]; discriminate]|tauto].
    + split.
      * intros [[]|[k [Hk H]]]. apply in_seq in Hk. apply in_map_iff in H as [a [E Ha]]. apply in_seq in Ha. injection E. intros. subst. split; [reflexivity|lia].
      * intros [_ H]. right. exists i. split; [apply in_seq; lia|]. apply in_map_iff. exists (j - i)%nat. split; [f_equal; lia|apply in_seq; lia].
Qed.

(** ** Documented form *)
Lemma kval_documented k nx h theta w d : kval k nx h theta w d = documented_kernel k nx h theta w d.
Proof.
  unfold documented_kernel. destruct k; cbn [kval profile].
  - unfold sqexp_value. rewrite <- sumn_scal_l, exp_sumn. apply prodn_ext. intros j _. unfold sq_theta_w.
    rewrite <- (sumn_scal_l h (d j * d j)), <- sumn_scal_l, exp_sumn. apply prodn_ext. intros l _. f_equal.
    transitivity (- (theta l * theta l * (Rabs (w j l * d j) * Rabs (w j l * d j))) / 2); [|field].
    rewrite <- Rabs_mult, Rabs_pos_eq by apply Rle_0_sqr. field.
  - unfold absexp_value. rewrite <- sumn_opp, exp_sumn. apply prodn_ext. intros j _. unfold abs_theta_w.
    rewrite <- (sumn_scal_l h (Rabs (d j))), <- sumn_opp, exp_sumn. apply prodn_ext. intros l _. f_equal. rewrite Rabs_mult. ring.
  - rewrite m32_phi. apply prodn_ext. intros j _. apply prodn_ext. intros l _. unfold phi32, tw. rewrite Rabs_mult.
    f_equal; [ring|f_equal; ring].
  - rewrite m52_phi. apply prodn_ext. intros j _. apply prodn_ext. intros l _. unfold phi52, tw. rewrite Rabs_mult.
    f_equal; [|f_equal; ring].
    assert (S : Rabs (d j) * Rabs (d j) = d j * d j) by (rewrite <- Rabs_mult; apply Rabs_pos_eq, Rle_0_sqr).
    transitivity (1 + sqrt 5 * (theta l * Rabs (w j l)) * Rabs (d j) + 5 / 3 * (theta l * Rabs (w j l) * (theta l * Rabs (w j l)) * (Rabs (d j) * Rabs (d j)))); [rewrite S; ring|ring].
Qed.
