(** Proofs about models which know more observations. *)
From Coq Require Import Reals Lra Lia Arith.
From Coquelicot Require Import Coquelicot.
From Coq Require Import List Bool.
From Verif Require Import RVec Moe_Model Kern_Model Kern_Spec Kern_Proofs Kern_Pd Gp_Model Gp_Spec Gp_Lin Gp_Proofs Gp_Grad Gp_Inv Gp_Exist
  Lik_Proofs Pd_Proofs More_Spec.
Import ListNotations.
Local Open Scope R_scope.

Lemma trend_size_monos mk nx : trend_size mk nx = length (monos mk nx).
Proof. unfold trend_size. now rewrite trend_row_monos, map_length. Qed.
Lemma trend_val_mono mk nx v j : (j < trend_size mk nx)%nat -> trend_val mk nx v j = mono_val v (nth j (monos mk nx) One).
Proof.
  intros H. unfold trend_val. rewrite trend_row_monos. rewrite (nth_indep _ 0 (mono_val v One)).
  - apply map_nth.
  - now rewrite map_length, <- trend_size_monos.
Qed.
Lemma unbiased_monos mk nx n (X : mat) z mu :
  unbiased n (trend_size mk nx) (fun i => trend_val mk nx (X i)) (trend_val mk nx z) mu <->
  forall m, in_basis mk nx m -> sumn n (fun i => mono_val (X i) m * mu i) = mono_val z m.
Proof.
  split; intros U.
  - intros m Hm. apply monos_in in Hm. destruct (In_nth _ _ One Hm) as (j & Hj & E). rewrite <- trend_size_monos in Hj.
    specialize (U j Hj). rewrite trend_val_mono, E in U by exact Hj. rewrite <- U. unfold dot. apply sumn_ext. intros i Hi.
    rewrite trend_val_mono, E by exact Hj. reflexivity.
  - intros j Hj. rewrite trend_val_mono by exact Hj. rewrite <- (U (nth j (monos mk nx) One)).
    + unfold dot. apply sumn_ext. intros i Hi. rewrite trend_val_mono by exact Hj. reflexivity.
    + apply monos_in, nth_In. now rewrite <- trend_size_monos.
Qed.

(** Unbiased weights stay unbiased when the inputs are normalized otherwise. *)
Lemma unbiased_affine mk nx n (X X' : mat) z z' mu (a b : vec) :
  (forall i c, (i < n)%nat -> (c < nx)%nat -> X' i c = a c * X i c + b c) -> (forall c, (c < nx)%nat -> z' c = a c * z c + b c) ->
  unbiased n (trend_size mk nx) (fun i => trend_val mk nx (X i)) (trend_val mk nx z) mu ->
  unbiased n (trend_size mk nx) (fun i => trend_val mk nx (X' i)) (trend_val mk nx z') mu.
Proof.
  intros HX Hz U. rewrite unbiased_monos in U |- *. intros m Hm.
  assert (U1 : sumn n mu = 1).
  { specialize (U One I). cbn [mono_val] in U. rewrite <- U. apply sumn_ext. intros; ring. }
  assert (UC : forall c, in_basis mk nx (Comp c) -> sumn n (fun i => X i c * mu i) = z c) by (intros c Hc; exact (U (Comp c) Hc)).
  destruct m as [|c|c d]; cbn [mono_val] in *.
  - etransitivity; [|exact U1]. apply sumn_ext. intros; ring.
  - destruct Hm as [Hk Hc]. rewrite Hz by exact Hc.
    rewrite (sumn_ext n _ (fun i => a c * (X i c * mu i) + b c * mu i)) by (intros i Hi; rewrite HX by assumption; ring).
    rewrite sumn_plus, !sumn_scal_l, U1, (UC c) by (split; assumption). ring.
  - destruct Hm as [Hk Hc]. rewrite !Hz by lia.
    rewrite (sumn_ext n _ (fun i => a c * a d * (X i c * X i d * mu i) + (a c * b d * (X i c * mu i) + (b c * a d * (X i d * mu i) + b c * b d * mu i))))
      by (intros i Hi; rewrite !HX by lia; ring).
    rewrite !sumn_plus, !sumn_scal_l, U1, (UC c), (UC d) by (split; [now right|lia]).
    specialize (U (Times c d) (conj Hk Hc)). cbn [mono_val] in U. rewrite U. ring.
Qed.

Section Pair.
  Context (qr : nat -> nat -> mat -> mat * mat) (cond : mat -> bool).
  Context (mk : mean_kind) (ck : corr_kind) (n nx h nt : nat) (theta : vec) (w : mat) (nugget : R) (x : mat) (y : vec) (g : gp).
  Hypothesis Fit : fit qr cond mk ck n nx h nt theta w nugget x y = Some g.
  Lemma xd_eq i c : fst (fst (normalize n x)) i c = (x i c - g_xmean g c) / g_xstd g c.
  Proof.
    destruct (fit_inv _ _ _ _ _ _ _ _ _ _ _ _ _ _ Fit) as (th & r_mx & ET & N1 & ER & EC & Eft & Err & Eco & EB & EG & ES & E0 & Ex & Eh & Ent & Em & Ec & Eth & Ew & Exd & Exm & Exs & Eym & Eys & Elk).
    rewrite Exm, Exs. reflexivity.
  Qed.
  Lemma xnorm_eq v c : xnorm g v c = (v c - g_xmean g c) / g_xstd g c.
  Proof. reflexivity. Qed.
End Pair.

Lemma sq_error_extended n1 n2 (R1 R2 : mat) r1 r2 mu : (n1 <= n2)%nat ->
  (forall i j, (i < n1)%nat -> (j < n1)%nat -> R2 i j = R1 i j) -> (forall i, (i < n1)%nat -> r2 i = r1 i) ->
  sq_error n2 R2 r2 (fun i => if Nat.ltb i n1 then mu i else 0) = sq_error n1 R1 r1 mu.
Proof.
  intros N ER Er. unfold sq_error, dot, mv.
  rewrite (sumn_prefix n2 n1 (fun i => (if Nat.ltb i n1 then mu i else 0) * r2 i)).
  2: exact N. 2: { intros i Hi. destruct (Nat.ltb_spec i n1); [lia|ring]. }
  rewrite (sumn_prefix n2 n1 (fun i => (if Nat.ltb i n1 then mu i else 0) * _)).
  2: exact N. 2: { intros i Hi. destruct (Nat.ltb_spec i n1); [lia|ring]. }
  f_equal; [f_equal; f_equal|].
  - apply sumn_ext. intros i Hi. rewrite Er by exact Hi. destruct (Nat.ltb_spec i n1); [reflexivity|lia].
  - apply sumn_ext. intros i Hi. destruct (Nat.ltb_spec i n1); [|lia]. f_equal.
    rewrite (sumn_prefix n2 n1).
    + apply sumn_ext. intros j Hj. rewrite ER by assumption. destruct (Nat.ltb_spec j n1); [reflexivity|lia].
    + exact N.
    + intros j Hj. destruct (Nat.ltb_spec j n1); [lia|ring].
Qed.
Lemma unbiased_extended n1 n2 p (F1 F2 : mat) f mu : (n1 <= n2)%nat ->
  (forall i j, (i < n1)%nat -> (j < p)%nat -> F2 i j = F1 i j) ->
  unbiased n1 p F1 f mu -> unbiased n2 p F2 f (fun i => if Nat.ltb i n1 then mu i else 0).
Proof.
  intros N EF U j Hj. rewrite <- (U j Hj). unfold dot. rewrite (sumn_prefix n2 n1).
  - apply sumn_ext. intros i Hi. rewrite EF by assumption. destruct (Nat.ltb_spec i n1); [reflexivity|lia].
  - exact N.
  - intros i Hi. destruct (Nat.ltb_spec i n1); [lia|ring].
Qed.

Lemma nonzero_entry n (v : vec) : dot n v v <> 0 -> exists i, (i < n)%nat /\ v i <> 0.
Proof.
  unfold dot. induction n as [|n IH]; cbn [sumn]; intros H; [lra|].
  destruct (Req_dec (v n) 0) as [Z|Z]; [|exists n; split; [lia|exact Z]].
  destruct IH as (i & Hi & Hv); [rewrite Z in H; intros E; apply H; rewrite E; ring|]. exists i. split; [lia|exact Hv].
Qed.
Lemma sq_error_nugget ck nx h th w n (X : mat) z nugget mu : (forall l, (l < h)%nat -> 0 <= th l) ->
  nugget * dot n mu mu <= sq_error n (fun i j => if Nat.eqb i j then 1 + nugget else kval ck nx h th w (fun c => X i c - X j c))
    (fun j => kval ck nx h th w (fun c => z c - X j c)) mu.
Proof.
  intros T. pose proof (blocks ck nx h th w T 1 n (fun _ => z) X (fun _ => 1) mu) as B. unfold sq_error. cbn [sumn] in B. rewrite K_one in B.
  assert (E1 : dot n mu (fun j => 0 + 1 * kval ck nx h th w (fun c => z c - X j c)) = dot n mu (fun j => kval ck nx h th w (fun c => z c - X j c))).
  { apply dot_ext; [reflexivity|]. intros j Hj. ring. }
  rewrite E1 in B.
  assert (E2 : dot n mu (mv n (fun i j => if Nat.eqb i j then 1 + nugget else kval ck nx h th w (fun c => X i c - X j c)) mu) =
    dot n mu (mv n (fun i j => kval ck nx h th w (fun c => X i c - X j c)) mu) + nugget * dot n mu mu).
  { rewrite <- diag_quad. apply dot_ext; [reflexivity|]. intros a Ha. apply sumn_ext. intros b Hb. f_equal.
    destruct (Nat.eqb_spec a b) as [->|]; [|ring]. rewrite (kval_zero ck nx h th w (fun c => X b c - X b c)) by (intros; ring). ring. }
  lra.
Qed.
Section Positive.
  Context (qr : nat -> nat -> mat -> mat * mat) (cond : mat -> bool).
  Context (ck : corr_kind) (n nx h nt : nat) (theta : vec) (w : mat) (nugget : R) (x : mat) (y : vec) (g : gp) (th : vec).
  Hypothesis Fit : fit qr cond Constant ck n nx h nt theta w nugget x y = Some g.
  Hypothesis QR : is_qr n (trend_size Constant nx) (i_ft (g_in g)) (qr n (trend_size Constant nx) (i_ft (g_in g))).
  Hypothesis ET : value_theta ck nt h theta = Some th.
  Hypothesis T : forall l, (l < h)%nat -> 0 <= th l.
  Hypothesis Nu : 0 < nugget.
  Lemma sigma2_pos : (exists i, (i < n)%nat /\ y i <> y O) -> 0 < i_sigma2 (g_in g).
  Proof.
    intros (k & Hk & Hy). rewrite (sigma2_quad _ _ _ _ _ _ _ _ _ _ _ _ _ _ Fit).
    pose proof (ystd_pos _ _ _ _ _ _ _ _ _ _ _ _ _ _ Fit) as Yp. pose proof (n_pos _ _ _ _ _ _ _ _ _ _ _ _ _ _ Fit) as Np.
    assert (0 < INR n) by (apply lt_0_INR; lia).
    apply Rmult_lt_0_compat; [|now apply Rmult_lt_0_compat]. apply Rdiv_lt_0_compat; [|assumption].
    apply Rmx_pd; [unfold theta_used; now rewrite ET|exact Nu|]. apply nonzero_entry. intros Z.
    pose proof (dot_zero _ _ Z) as G. apply Hy.
    assert (YD : forall i, (i < n)%nat -> (y i - g_ymean g) / g_ystd g = i_beta (g_in g) O).
    { intros i Hi. rewrite <- (yd_eq _ _ _ _ _ _ _ _ _ _ _ _ _ _ Fit i).
      rewrite <- (kriging_gamma _ _ _ _ _ _ _ _ _ _ _ _ _ _ Fit i Hi).
      assert (Z1 : mv n (Rmx ck n nx h nt theta w nugget x) (i_gamma (g_in g)) i = 0).
      { unfold mv. apply sumn_zero. intros j Hj. rewrite G by exact Hj. ring. }
      rewrite Z1. unfold mv, trend_size, Fmx, trend_val. cbn. ring. }
    assert (E : (y k - g_ymean g) / g_ystd g = (y O - g_ymean g) / g_ystd g) by (rewrite !YD by lia; reflexivity).
    apply (f_equal (fun t => t * g_ystd g)) in E. unfold Rdiv in E. rewrite !Rmult_assoc, Rinv_l, !Rmult_1_r in E by lra. lra.
  Qed.
  Lemma sq_error_pos (X : mat) z mu : unbiased n (trend_size Constant nx) (fun i => trend_val Constant nx (X i)) (trend_val Constant nx z) mu ->
    0 < sq_error n (fun i j => if Nat.eqb i j then 1 + nugget else kval ck nx h th w (fun c => X i c - X j c))
      (fun j => kval ck nx h th w (fun c => z c - X j c)) mu.
  Proof.
    intros U. eapply Rlt_le_trans; [|apply sq_error_nugget; exact T]. apply Rmult_lt_0_compat; [exact Nu|].
    destruct (Rle_lt_or_eq_dec 0 (dot n mu mu) (dot_nonneg n mu)) as [|Z]; [assumption|]. symmetry in Z. pose proof (dot_zero _ _ Z) as M.
    specialize (U O ltac:(unfold trend_size; cbn; lia)). unfold dot in U. rewrite sumn_zero in U.
    - unfold trend_val in U. cbn in U. lra.
    - intros i Hi. rewrite M by exact Hi. ring.
  Qed.
End Positive.
