(** Lemmas on the training and prediction of Gaussian processes. *)
From Coq Require Import Reals Lra Lia Arith.
From Coquelicot Require Import Coquelicot.
From Coq Require Import List Bool.
From Verif Require Import RVec Moe_Model Kern_Model Kern_Spec Kern_Proofs Gp_Model Gp_Spec Gp_Lin.
Import ListNotations.
Local Open Scope R_scope.

(** ** Normalization *)
Lemma mean_center n v : (0 < n)%nat -> sumn n (fun i => v i - mean_axis n v) = 0.
Proof.
  intros H. rewrite sumn_minus, sumn_const. unfold mean_axis. field. apply not_0_INR. lia.
Qed.
Lemma std_sq n v : (1 < n)%nat ->
  std_axis n v * std_axis n v = sumn n (fun i => (v i - mean_axis n v) * (v i - mean_axis n v)) / (INR n - 1).
Proof.
  intros H. apply sqrt_sqrt. apply Rmult_le_pos; [apply sumn_nonneg; intros; apply Rle_0_sqr|].
  left. apply Rinv_0_lt_compat. apply lt_INR in H. simpl in H. lra.
Qed.
Lemma std_zero n v : (1 < n)%nat -> std_axis n v = 0 <-> forall i, (i < n)%nat -> v i = mean_axis n v.
Proof.
  intros H. assert (N : 0 < INR n - 1) by (apply lt_INR in H; simpl in H; lra). split.
  - intros Z i Hi. pose proof (std_sq n v H) as S. rewrite Z, Rmult_0_l in S.
    assert (D : dot n (fun i => v i - mean_axis n v) (fun i => v i - mean_axis n v) = 0).
    { unfold dot. apply (Rmult_eq_reg_r (/ (INR n - 1))); [|apply Rinv_neq_0_compat; lra]. rewrite Rmult_0_l. symmetry. exact S. }
    pose proof (dot_zero n _ D i Hi). simpl in H0. lra.
  - intros Hv. unfold std_axis. rewrite sumn_zero; [unfold Rdiv; rewrite Rmult_0_l; apply sqrt_0|].
    intros i Hi. rewrite (Hv i Hi). ring.
Qed.
Lemma normalize_std n x xd xm xs j : normalize n x = (xd, xm, xs) -> xs j <> 0.
Proof. intros H. injection H as <- <- <-. destruct (Req_EM_T _ 0); lra. Qed.
Lemma normalize_std_pos n x xd xm xs j : normalize n x = (xd, xm, xs) -> 0 < xs j.
Proof.
  intros H. injection H as <- <- <-. destruct (Req_EM_T _ 0); [lra|]. pose proof (sqrt_pos (sumn n (fun i => (x i j - mean_axis n (fun i => x i j)) * (x i j - mean_axis n (fun i => x i j))) / (INR n - 1))).
  unfold std_axis in *. lra.
Qed.
Lemma normalize_back n x xd xm xs i j : normalize n x = (xd, xm, xs) -> xd i j * xs j + xm j = x i j.
Proof. intros H. pose proof (normalize_std n x xd xm xs j H). injection H as <- <- <-. field. exact H0. Qed.
Lemma normalize_mean n x xd xm xs j : (0 < n)%nat -> normalize n x = (xd, xm, xs) -> sumn n (fun i => xd i j) = 0.
Proof.
  intros N H. injection H as <- <- <-. rewrite sumn_div.
  rewrite (mean_center n (fun i => x i j) N). unfold Rdiv. ring.
Qed.
Lemma normalize_var n x xd xm xs j : (1 < n)%nat -> normalize n x = (xd, xm, xs) ->
  (exists i k, (i < n)%nat /\ (k < n)%nat /\ x i j <> x k j) -> sumn n (fun i => xd i j * xd i j) = INR n - 1.
Proof.
  intros N H [a [b [Ha [Hb Ne]]]]. injection H as <- <- <-.
  set (v := fun i => x i j). assert (S : std_axis n v <> 0).
  { intros Z. pose proof (proj1 (std_zero n v N) Z) as Z'. apply Ne. change (v a = v b). now rewrite (Z' a Ha), (Z' b Hb). }
  change (std_axis n (fun i => x i j)) with (std_axis n v). change (mean_axis n (fun i => x i j)) with (mean_axis n v).
  destruct (Req_EM_T (std_axis n v) 0); [contradiction|].
  rewrite (sumn_ext n _ (fun i => (v i - mean_axis n v) * (v i - mean_axis n v) / (std_axis n v * std_axis n v))).
  2:{ intros i Hi. change (x i j) with (v i). field. exact S. }
  rewrite sumn_div. pose proof (std_sq n v N) as Q.
  assert (P : 0 < INR n - 1) by (apply lt_INR in N; simpl in N; lra).
  assert (Q0 : std_axis n v * std_axis n v <> 0) by (apply Rmult_integral_contrapositive; split; exact S).
  replace (sumn n (fun i => (v i - mean_axis n v) * (v i - mean_axis n v))) with (std_axis n v * std_axis n v * (INR n - 1)).
  - field. exact S.
  - rewrite Q. field. lra.
Qed.
Lemma normalize_const n x xd xm xs j : (1 < n)%nat -> normalize n x = (xd, xm, xs) ->
  (forall i, (i < n)%nat -> x i j = x O j) -> forall i, (i < n)%nat -> xd i j = 0.
Proof.
  intros N H C i Hi. injection H as <- <- <-.
  assert (M : mean_axis n (fun i => x i j) = x O j).
  { unfold mean_axis. rewrite (sumn_ext n _ (fun _ => x O j)) by exact C. rewrite sumn_const. field. apply not_0_INR. lia. }
  rewrite M, (C i Hi). unfold Rdiv. ring.
Qed.

(** ** Difference matrix *)
Definition idx0 (n k : nat) : nat := list_sum (map (fun k' => n - k' - 1)%nat (seq 0 k)).
Definition row_of (n k i : nat) : nat := (idx0 n k + (i - k - 1))%nat.
Lemma idx0_S n k : idx0 n (S k) = (idx0 n k + (n - k - 1))%nat.
Proof. unfold idx0. rewrite seq_S, map_app, list_sum_app. simpl. lia. Qed.
Lemma idx0_total n : (2 * idx0 n (n - 1) = n * (n - 1))%nat.
Proof.
  enough (H : forall k, (k < n)%nat -> (2 * idx0 n k + k * k + k = 2 * k * n)%nat).
  { destruct n as [|n]; [reflexivity|]. specialize (H n ltac:(lia)). replace (S n - 1)%nat with n by lia. nia. }
  induction k as [|k IH]; intros Hk; [reflexivity|]. rewrite idx0_S. specialize (IH ltac:(lia)). nia.
Qed.
Lemma idx0_mono n k k' : (k <= k')%nat -> (idx0 n k <= idx0 n k')%nat.
Proof. induction 1 as [|k' _ IH]; [lia|]. rewrite idx0_S. lia. Qed.

Lemma cross_ind_loop (n k base : nat) ind0 m : (m <= n - (k + 1))%nat ->
  forall r, fold_left (fun ind i => set1 ind (base + i - k - 1) (k, i)) (seq (k + 1) m) ind0 r =
  if Nat.leb base r && Nat.ltb r (base + m) then (k, r - base + k + 1)%nat else ind0 r.
Proof.
  induction m as [|m IH]; intros Hm r.
  - cbn [seq fold_left]. destruct (Nat.leb_spec base r), (Nat.ltb_spec r (base + 0)); try reflexivity; lia.
  - rewrite seq_S, fold_left_app. cbn [fold_left]. unfold set1 at 1. rewrite IH by lia.
    destruct (Nat.eqb_spec r (base + (k + 1 + m) - k - 1)) as [->|N].
    + destruct (Nat.leb_spec base (base + (k + 1 + m) - k - 1)), (Nat.ltb_spec (base + (k + 1 + m) - k - 1) (base + S m)); cbn [andb]; try lia. f_equal. lia.
    + destruct (Nat.leb_spec base r), (Nat.ltb_spec r (base + m)), (Nat.ltb_spec r (base + S m)); cbn [andb]; try lia; reflexivity.
Qed.
Lemma cross_inv n x k : (k <= n - 1)%nat ->
  let c := fold_left (cross_step n x) (seq 0 k) (mkcross 0 (fun _ => (0, 0)%nat) (fun _ _ => 0)) in
  c_idx c = idx0 n k /\
  (forall k' i, (k' < k)%nat -> (k' < i < n)%nat -> c_ind c (row_of n k' i) = (k', i) /\ forall j, c_d c (row_of n k' i) j = x k' j - x i j).
Proof.
  induction k as [|k IH]; intros Hk; cbv zeta.
  - split; [reflexivity|]. intros; lia.
  - rewrite seq_S, fold_left_app. cbn [fold_left Nat.add]. specialize (IH ltac:(lia)). cbv zeta in IH.
    set (c := fold_left _ (seq 0 k) _) in *. destruct IH as [I R]. unfold cross_step. cbn [c_idx c_ind c_d]. rewrite I. split.
    + now rewrite idx0_S.
    + intros k' i Hk' Hi. rewrite (cross_ind_loop n k) by lia.
      destruct (Nat.eq_dec k' k) as [->|N].
      * unfold row_of. destruct (Nat.leb_spec (idx0 n k) (idx0 n k + (i - k - 1))); [|lia].
        replace (n - (k + 1))%nat with (n - k - 1)%nat by lia.
        destruct (Nat.ltb_spec (idx0 n k + (i - k - 1)) (idx0 n k + (n - k - 1))); [|lia]. cbn [andb]. split; [f_equal; lia|].
        intros j. do 2 f_equal. lia.
      * assert (L : (row_of n k' i < idx0 n k)%nat).
        { unfold row_of. pose proof (idx0_mono n (S k') k ltac:(lia)) as M. rewrite idx0_S in M. lia. }
        destruct (Nat.leb_spec (idx0 n k) (row_of n k' i)); [lia|]. cbn [andb]. apply R; lia.
Qed.
Lemma row_surj n r k : (r < idx0 n k)%nat -> (k <= n - 1)%nat -> exists k' i, (k' < k)%nat /\ (k' < i < n)%nat /\ r = row_of n k' i.
Proof.
  induction k as [|k IH]; intros H Hk; [unfold idx0 in H; simpl in H; lia|].
  destruct (Nat.lt_ge_cases r (idx0 n k)) as [L|L].
  - destruct IH as [k' [i [A [B C]]]]; [exact L|lia|]. exists k', i. repeat split; auto; lia.
  - rewrite idx0_S in H. exists k, (r - idx0 n k + k + 1)%nat. split; [lia|]. split; [lia|]. unfold row_of. lia.
Qed.
Lemma row_lt n k i : (k < i < n)%nat -> (row_of n k i < idx0 n (n - 1))%nat.
Proof. intros H. unfold row_of. pose proof (idx0_mono n (S k) (n - 1) ltac:(lia)) as M. rewrite idx0_S in M. lia. Qed.

Lemma cross_diff_spec n x : (0 < n)%nat -> exists rows ind d, cross_diff n x = Some (rows, ind, d) /\
  (2 * rows = n * (n - 1))%nat /\ pairs_once n rows ind /\
  (forall r j, (r < rows)%nat -> d r j = Rabs (x (fst (ind r)) j - x (snd (ind r)) j)).
Proof.
  intros Hn. unfold cross_diff. destruct (Nat.eqb_spec n 0); [lia|].
  destruct (cross_inv n x (n - 1) (le_n _)) as [I R]. set (c := fold_left _ _ _) in *.
  assert (T : (n * (n - 1) / 2 = idx0 n (n - 1))%nat).
  { rewrite <- idx0_total, (Nat.mul_comm 2). now apply Nat.div_mul. }
  exists (n * (n - 1) / 2)%nat, (c_ind c), (fun r j => Rabs (c_d c r j)). split; [reflexivity|].
  rewrite T. split; [apply idx0_total|]. split; [split|].
  - intros r Hr. destruct (row_surj n r (n - 1) Hr (le_n _)) as [k [i [A [B ->]]]]. destruct (R k i A B) as [-> _]. simpl. lia.
  - intros k i Hk. exists (row_of n k i). split.
    + split; [now apply row_lt|]. apply R; lia.
    + intros r [Hr E]. destruct (row_surj n r (n - 1) Hr (le_n _)) as [k' [i' [A [B ->]]]]. destruct (R k' i' A B) as [E' _].
      rewrite E' in E. now injection E as -> ->.
  - intros r j Hr. destruct (row_surj n r (n - 1) Hr (le_n _)) as [k [i [A [B ->]]]]. destruct (R k i A B) as [-> D]. now rewrite D.
Qed.

(** ** Correlation matrix *)
Lemma corr_matrix_spec n rows ind rxx nugget : pairs_once n rows ind ->
  (forall i, corr_matrix rows ind rxx nugget i i = 1 + nugget) /\
  (forall r, (r < rows)%nat -> corr_matrix rows ind rxx nugget (fst (ind r)) (snd (ind r)) = rxx r /\
                               corr_matrix rows ind rxx nugget (snd (ind r)) (fst (ind r)) = rxx r).
Proof.
  intros [B U]. unfold corr_matrix.
  enough (H : forall m, (m <= rows)%nat -> let M := fold_left (fun r i => let ij := ind i in set2 (set2 r (fst ij) (snd ij) (rxx i)) (snd ij) (fst ij) (rxx i))
    (seq 0 m) (fun i j => let v := if Nat.eqb i j then 1 else 0 in v + v * nugget) in
    (forall i, M i i = 1 + nugget) /\ (forall r, (r < m)%nat -> M (fst (ind r)) (snd (ind r)) = rxx r /\ M (snd (ind r)) (fst (ind r)) = rxx r)).
  { exact (H rows (le_n _)). }
  induction m as [|m IH]; intros Hm; cbv zeta.
  - cbn [seq fold_left]. split; [|intros; lia]. intros i. rewrite Nat.eqb_refl. ring.
  - rewrite seq_S, fold_left_app. cbn [fold_left Nat.add]. specialize (IH ltac:(lia)). cbv zeta in IH.
    set (M := fold_left _ (seq 0 m) _) in *. destruct IH as [D V].
    pose proof (B m ltac:(lia)) as Bm. split.
    + intros i. unfold set2. destruct (Nat.eqb_spec i (fst (ind m))), (Nat.eqb_spec i (snd (ind m))); cbn [andb]; try lia; apply D.
    + intros r Hr. pose proof (B r ltac:(lia)) as Br.
      destruct (Nat.eq_dec r m) as [->|N].
      * unfold set2. rewrite !Nat.eqb_refl. cbn [andb]. split; [|reflexivity]. now destruct (_ && _).
      * assert (X : ind r <> ind m).
        { intros E. destruct (U (fst (ind m)) (snd (ind m)) Bm) as [q [_ Q]]. apply N.
          rewrite <- (Q r), <- (Q m); [reflexivity| |]; (split; [lia|]); [now destruct (ind m)|rewrite E; now destruct (ind m)]. }
        assert (X' : ~ (fst (ind r) = fst (ind m) /\ snd (ind r) = snd (ind m))).
        { intros [E1 E2]. apply X. destruct (ind r), (ind m). simpl in *. congruence. }
        destruct (V r ltac:(lia)) as [V1 V2]. unfold set2.
        destruct (Nat.eqb_spec (fst (ind r)) (snd (ind m))), (Nat.eqb_spec (snd (ind r)) (fst (ind m))),
                 (Nat.eqb_spec (fst (ind r)) (fst (ind m))), (Nat.eqb_spec (snd (ind r)) (snd (ind m))); cbn [andb]; try lia; auto.
Qed.

(** ** What a successful fit contains *)

Lemma value_theta_row ck nt h theta th : value_theta ck nt h theta = Some th -> theta_row nt h theta = Some th.
Proof.
  destruct ck; cbn [value_theta]; auto. unfold theta_dot, theta_row. destruct (Nat.eqb nt h); [auto|discriminate].
Qed.
Lemma jac_value_theta ck nt h theta th : jac_theta ck nt h theta = Some th -> value_theta ck nt h theta = Some th.
Proof.
  destruct ck; cbn [value_theta jac_theta]; auto; unfold theta_dot, theta_row;
    destruct (Nat.eqb nt h); auto; destruct (Nat.eqb nt 1); discriminate.
Qed.

Section Trained.
  Context (qr : nat -> nat -> mat -> mat * mat) (cond : mat -> bool).
  Context (mk : mean_kind) (ck : corr_kind) (n nx h nt : nat) (theta : vec) (w : mat) (nugget : R) (x : mat) (y : vec) (g : gp).
  Hypothesis Fit : fit qr cond mk ck n nx h nt theta w nugget x y = Some g.
  Local Notation p := (trend_size mk nx).
  Local Notation xd := (fst (fst (normalize n x))).
  Local Notation yd := (fun i => fst (fst (normalize n (fun i _ => y i))) i O).
  Local Notation L := (i_chol (g_in g)).
  Local Notation ft := (i_ft (g_in g)).
  Local Notation rr := (i_rr (g_in g)).
  Local Notation beta := (i_beta (g_in g)).
  Local Notation gamma := (i_gamma (g_in g)).

  Lemma fit_inv : exists th r_mx,
    value_theta ck nt h theta = Some th /\ (1 < n)%nat /\
    (forall i j, (i < n)%nat -> (j < n)%nat -> r_mx i j = if Nat.eqb i j then 1 + nugget else kval ck nx h th w (fun c => xd i c - xd j c)) /\
    cholesky n r_mx = Some L /\
    ft = (fun i j => fsub n L (fun k => trend_val mk nx (xd k) j) i) /\
    rr = snd (qr n p ft) /\
    cond rr = true /\
    beta = bsub p rr (mv n (tr (fst (qr n p ft))) (fsub n L yd)) /\
    gamma = bsub n (tr L) (fun i => fsub n L yd i - mv p ft beta i) /\
    i_sigma2 (g_in g) = dot n (fun i => fsub n L yd i - mv p ft beta i) (fun i => fsub n L yd i - mv p ft beta i) / INR n * g_ystd g * g_ystd g /\
    g_n g = n /\ g_nx g = nx /\ g_h g = h /\ g_nt g = nt /\ g_mean g = mk /\ g_corr g = ck /\ g_theta g = theta /\ g_w g = w /\
    g_x g = xd /\ g_xmean g = snd (fst (normalize n x)) /\ g_xstd g = snd (normalize n x) /\
    g_ymean g = snd (fst (normalize n (fun i _ => y i))) O /\ g_ystd g = snd (normalize n (fun i _ => y i)) O /\
    g_lkh g = - INR n * (log10 (dot n (fun i => fsub n L yd i - mv p ft beta i) (fun i => fsub n L yd i - mv p ft beta i) / INR n) + sumn n (fun i => log10 (L i i)) * 2 / INR n).
  Proof.
    revert Fit. unfold fit. destruct (normalize n x) as [[xd' xm] xs] eqn:EX. destruct (normalize n (fun i _ => y i)) as [[yd' ym] ys] eqn:EY.
    cbn [fst snd]. destruct (cross_diff n xd') as [[[rows ind] d]|] eqn:EC; [|discriminate].
    destruct (Nat.eqb_spec rows 0) as [|NR]; [discriminate|].
    destruct (value_theta ck nt h theta) as [th|] eqn:ET; [|discriminate].
    unfold reduced_likelihood. destruct (cholesky n _) as [L'|] eqn:ECh; [|discriminate].
    destruct (qr n p (fun i j => fsub n L' (fun k => trend_val mk nx (xd' k) j) i)) as [q r'] eqn:EQ.
    destruct (cond r') eqn:ECo; [|discriminate]. cbn [negb]. intros H. injection H as <-. cbn.
    assert (N0 : (0 < n)%nat).
    { destruct n; [|lia]. discriminate EC. }
    destruct (cross_diff_spec n xd' N0) as [rows' [ind' [d' [EC' [HR [HP HD]]]]]]. rewrite EC in EC'. injection EC' as <- <- <-.
    exists th, (corr_matrix rows ind (fun r => kval ck nx h th w (d r)) nugget). rewrite EQ. cbn [fst snd].
    assert (N1 : (1 < n)%nat) by (destruct n as [|[|?]]; lia).
    split; [reflexivity|]. split; [exact N1|]. split.
    { intros i j Hi Hj. destruct (corr_matrix_spec n rows ind (fun r => kval ck nx h th w (d r)) nugget HP) as [CD CO].
      destruct (Nat.eqb_spec i j) as [->|N]; [apply CD|].
      destruct HP as [HB HU]. destruct (Nat.lt_ge_cases i j) as [Lt|Ge].
      - destruct (HU i j ltac:(lia)) as [r [[Hr E] _]]. destruct (CO r Hr) as [C1 _]. rewrite E in C1. cbn [fst snd] in C1. rewrite C1.
        apply kval_ext. intros c _. rewrite HD by exact Hr. rewrite E. cbn [fst snd]. now rewrite Rabs_Rabsolu.
      - destruct (HU j i ltac:(lia)) as [r [[Hr E] _]]. destruct (CO r Hr) as [_ C1]. rewrite E in C1. cbn [fst snd] in C1. rewrite C1.
        apply kval_ext. intros c _. rewrite HD by exact Hr. rewrite E. cbn [fst snd]. rewrite Rabs_Rabsolu. apply Rabs_minus_sym. }
    repeat (split; [first [reflexivity|exact ECh|exact ECo]|]). reflexivity.
  Qed.

  Definition theta_used : vec := match value_theta ck nt h theta with Some th => th | None => theta end.
  Definition Rmx : mat := fun i j => if Nat.eqb i j then 1 + nugget else kval ck nx h theta_used w (fun c => xd i c - xd j c).
  Definition Fmx : mat := fun i => trend_val mk nx (xd i).

  Lemma Rmx_sym : symmetric n Rmx.
  Proof.
    intros i j _ _. unfold Rmx. rewrite (Nat.eqb_sym j i). destruct (Nat.eqb i j); [reflexivity|].
    apply kval_ext. intros c _. apply Rabs_minus_sym.
  Qed.
  Lemma chol_ok : lower n L /\ (forall i, (i < n)%nat -> 0 < L i i) /\ factor n L Rmx.
  Proof.
    destruct fit_inv as (th & r_mx & ET & N1 & ER & EC & Eft & Err & Eco & EB & EG & ES & E0 & Ex & Eh & Ent & Em & Ec & Eth & Ew & Exd & Exm & Exs & Eym & Eys & Elk).
    assert (E : forall i j, (i < n)%nat -> (j < n)%nat -> r_mx i j = Rmx i j).
    { intros i j Hi Hj. rewrite ER by assumption. unfold Rmx, theta_used. now rewrite ET. }
    destruct (cholesky_correct n r_mx L) as [A [B C]].
    - intros i j Hi Hj. rewrite !E by assumption. now apply Rmx_sym.
    - exact EC.
    - split; [exact A|split; [exact B|]]. intros i j Hi Hj. rewrite C by assumption. now apply E.
  Qed.
  Lemma chol_reg : regular n L.
  Proof. destruct chol_ok as [_ [B _]]. intros i Hi. specialize (B i Hi). lra. Qed.
  Lemma R_LLt v i : (i < n)%nat -> mv n Rmx v i = mv n L (mv n (tr L) v) i.
  Proof.
    intros Hi. rewrite mv_mv. apply sumn_ext. intros j Hj. destruct chol_ok as [_ [_ F]]. now rewrite <- (F i j Hi Hj).
  Qed.
  Lemma ft_solves j i : (i < n)%nat -> mv n L (fun k => ft k j) i = Fmx i j.
  Proof.
    intros Hi. destruct fit_inv as (th & r_mx & ET & N1 & ER & EC & Eft & Err & Eco & EB & EG & ES & E0 & Ex & Eh & Ent & Em & Ec & Eth & Ew & Exd & Exm & Exs & Eym & Eys & Elk).
    rewrite (mv_ext n L (fun k => ft k j) (fsub n L (fun k => Fmx k j))) by (intros k Hk; now rewrite Eft).
    exact (fsub_solves n L (fun k => Fmx k j) (proj1 chol_ok) chol_reg i Hi).
  Qed.

  Hypothesis QR : is_qr n p ft (qr n p ft).

  Lemma rr_upper : upper p rr. Proof. destruct fit_inv as (th & r_mx & ET & N1 & ER & EC & Eft & Err & Eco & EB & EG & ES & E0 & Ex & Eh & Ent & Em & Ec & Eth & Ew & Exd & Exm & Exs & Eym & Eys & Elk). rewrite Err. apply QR. Qed.
  Lemma rr_regular : regular p rr. Proof. destruct fit_inv as (th & r_mx & ET & N1 & ER & EC & Eft & Err & Eco & EB & EG & ES & E0 & Ex & Eh & Ent & Em & Ec & Eth & Ew & Exd & Exm & Exs & Eym & Eys & Elk). rewrite Err. apply QR. Qed.
  Lemma ft_qr v i : (i < n)%nat -> mv p ft v i = mv p (fst (qr n p ft)) (mv p rr v) i.
  Proof.
    intros Hi. destruct fit_inv as (th & r_mx & ET & N1 & ER & EC & Eft & Err & Eco & EB & EG & ES & E0 & Ex & Eh & Ent & Em & Ec & Eth & Ew & Exd & Exm & Exs & Eym & Eys & Elk). rewrite mv_mv. rewrite Err.
    apply sumn_ext. intros j Hj. now rewrite (proj1 QR i j Hi Hj).
  Qed.
  (** ft^t ft = rr^t rr *)
  Lemma gram v j : (j < p)%nat -> mv n (tr ft) (mv p ft v) j = mv p (tr rr) (mv p rr v) j.
  Proof.
    intros Hj. destruct fit_inv as (th & r_mx & ET & N1 & ER & EC & Eft & Err & Eco & EB & EG & ES & E0 & Ex & Eh & Ent & Em & Ec & Eth & Ew & Exd & Exm & Exs & Eym & Eys & Elk).
    destruct QR as [Q1 [Q2 _]]. set (q := fst (qr n p ft)) in *.
    transitivity (sumn p (fun k => rr k j * sumn n (fun i => q i k * mv p ft v i))).
    - unfold mv at 1. unfold tr at 1.
      transitivity (sumn n (fun i => sumn p (fun k => rr k j * (q i k * mv p ft v i)))).
      + apply sumn_ext. intros i Hi. rewrite <- (Q1 i j Hi Hj), <- sumn_scal_r. rewrite Err. apply sumn_ext. intros; fold q; ring.
      + rewrite sumn_swap. apply sumn_ext. intros k _. now rewrite sumn_scal_l.
    - apply sumn_ext. intros k Hk. unfold tr at 1. f_equal.
      transitivity (sumn n (fun i => q i k * mv p q (mv p rr v) i)).
      { apply sumn_ext. intros i Hi. now rewrite ft_qr. }
      transitivity (sumn p (fun l => sumn n (fun i => q i k * q i l) * mv p rr v l)).
      { change (mv n (tr q) (mv p q (mv p rr v)) k = sumn p (fun l => sumn n (fun i => q i k * q i l) * mv p rr v l)). rewrite mv_mv. reflexivity. }
      rewrite (sumn_only p _ k Hk).
      + rewrite Q2, Nat.eqb_refl by assumption. ring.
      + intros l Hl N. rewrite Q2 by assumption. destruct (Nat.eqb_spec k l); [lia|ring].
  Qed.

  (** The universal kriging system. *)
  Lemma kriging_gamma i : (i < n)%nat -> mv n Rmx gamma i + mv p Fmx beta i = yd i.
  Proof.
    intros Hi. rewrite R_LLt by exact Hi.
    destruct fit_inv as (th & r_mx & ET & N1 & ER & EC & Eft & Err & Eco & EB & EG & ES & E0 & Ex & Eh & Ent & Em & Ec & Eth & Ew & Exd & Exm & Exs & Eym & Eys & Elk).
    rewrite (mv_ext n L (mv n (tr L) gamma) (fun i => fsub n L yd i - mv p ft beta i)).
    - rewrite mv_minus, fsub_solves; [|apply chol_ok|apply chol_reg|exact Hi].
      enough (E : mv n L (mv p ft beta) i = mv p Fmx beta i) by (rewrite E; ring).
      rewrite mv_mv. apply sumn_ext. intros j Hj. f_equal. now apply ft_solves.
    - intros j Hj. rewrite EG at 1. apply bsub_solves; [apply upper_tr, chol_ok|apply regular_tr, chol_reg|exact Hj].
  Qed.
  Lemma kriging_orth j : (j < p)%nat -> mv n (tr Fmx) gamma j = 0.
  Proof.
    intros Hj. destruct fit_inv as (th & r_mx & ET & N1 & ER & EC & Eft & Err & Eco & EB & EG & ES & E0 & Ex & Eh & Ent & Em & Ec & Eth & Ew & Exd & Exm & Exs & Eym & Eys & Elk).
    assert (LG : forall i, (i < n)%nat -> mv n (tr L) gamma i = fsub n L yd i - mv p ft beta i).
    { intros i Hi. rewrite EG at 1. apply bsub_solves; [apply upper_tr, chol_ok|apply regular_tr, chol_reg|exact Hi]. }
    transitivity (dot n gamma (mv n L (fun k => ft k j))).
    { unfold mv at 1, dot. apply sumn_ext. intros i Hi. unfold tr. rewrite ft_solves by exact Hi. ring. }
    rewrite dot_mv. rewrite (dot_ext n _ (fun k => ft k j) (fun i => fsub n L yd i - mv p ft beta i) (fun k => ft k j) LG) by reflexivity.
    transitivity (mv n (tr ft) (fsub n L yd) j - mv n (tr ft) (mv p ft beta) j).
    { rewrite <- mv_minus. unfold dot, mv at 2, tr. apply sumn_ext. intros; ring. }
    rewrite gram by exact Hj.
    rewrite (mv_ext p (tr rr) (mv p rr beta) (mv n (tr (fst (qr n p ft))) (fsub n L yd))).
    2:{ intros k Hk. rewrite EB. apply bsub_solves; [apply rr_upper|apply rr_regular|exact Hk]. }
    apply Rminus_diag_eq. rewrite mv_mv. apply sumn_ext. intros i Hi. f_equal. unfold tr. rewrite Err.
    rewrite <- (proj1 QR i j Hi Hj). apply sumn_ext. intros; ring.
  Qed.
  Lemma ft_inj v : (forall i, (i < n)%nat -> mv p ft v i = 0) -> forall j, (j < p)%nat -> v j = 0.
  Proof.
    intros H. apply (upper_inj p rr v rr_upper rr_regular).
    assert (Z : forall j, (j < p)%nat -> mv p (tr rr) (mv p rr v) j = 0).
    { intros j Hj. rewrite <- gram by exact Hj. apply sumn_zero. intros i Hi. rewrite H by exact Hi. ring. }
    apply (fsub_inj p (tr rr)); [apply lower_tr, rr_upper|apply regular_tr, rr_regular|exact Z].
  Qed.
  Lemma Lt_inj v : (forall i, (i < n)%nat -> mv n (tr L) v i = 0) -> forall i, (i < n)%nat -> v i = 0.
  Proof. apply upper_inj; [apply upper_tr, chol_ok|apply regular_tr, chol_reg]. Qed.

  (** The system has no other solution. *)
  Lemma kriging_unique ga be :
    (forall i, (i < n)%nat -> mv n Rmx ga i + mv p Fmx be i = yd i) -> (forall j, (j < p)%nat -> mv n (tr Fmx) ga j = 0) ->
    (forall i, (i < n)%nat -> ga i = gamma i) /\ (forall j, (j < p)%nat -> be j = beta j).
  Proof.
    intros H1 H2. set (dg := fun i => ga i - gamma i). set (db := fun j => be j - beta j).
    assert (D1 : forall i, (i < n)%nat -> mv n Rmx dg i + mv p Fmx db i = 0).
    { intros i Hi. unfold dg, db. rewrite !mv_minus. pose proof (H1 i Hi) as A. pose proof (kriging_gamma i Hi) as B. cbv beta in A, B. lra. }
    assert (D2 : forall j, (j < p)%nat -> mv n (tr Fmx) dg j = 0).
    { intros j Hj. unfold dg. rewrite mv_minus, H2, kriging_orth by exact Hj. lra. }
    assert (Z : dot n (mv n (tr L) dg) (mv n (tr L) dg) = 0).
    { rewrite <- (dot_mv n n L dg (mv n (tr L) dg)).
      rewrite (dot_ext n dg _ dg (fun i => - mv p Fmx db i)).
      - transitivity (- dot n dg (mv p Fmx db)).
        + unfold dot. rewrite <- sumn_opp. apply sumn_ext. intros; ring.
        + rewrite dot_mv. unfold dot. rewrite (sumn_zero p); [ring|]. intros j Hj. rewrite D2 by exact Hj. ring.
      - reflexivity.
      - intros i Hi. rewrite <- R_LLt by exact Hi. pose proof (D1 i Hi). lra. }
    assert (G0 : forall i, (i < n)%nat -> dg i = 0).
    { apply Lt_inj. intros i Hi. now apply (dot_zero n (mv n (tr L) dg)). }
    assert (B0 : forall j, (j < p)%nat -> db j = 0).
    { apply ft_inj. intros i Hi. apply (fsub_inj n L (mv p ft db)); [apply chol_ok|apply chol_reg| |exact Hi].
      intros k Hk. rewrite mv_mv.
      rewrite (sumn_ext p _ (fun j => Fmx k j * db j)).
      - pose proof (D1 k Hk) as A. rewrite (mv_ext n Rmx dg (fun _ => 0)) in A by exact G0.
        unfold mv at 1 in A. rewrite (sumn_zero n) in A by (intros; ring). rewrite Rplus_0_l in A. exact A.
      - intros j Hj. f_equal. now apply ft_solves. }
    split; [intros i Hi; specialize (G0 i Hi); unfold dg in G0; lra|intros j Hj; specialize (B0 j Hj); unfold db in B0; lra].
  Qed.

  (** ** Predictions *)
  Lemma theta_eq : value_theta (g_corr g) (g_nt g) (g_h g) (g_theta g) = Some theta_used.
  Proof.
    destruct fit_inv as (th & r_mx & ET & N1 & ER & EC & Eft & Err & Eco & EB & EG & ES & E0 & Ex & Eh & Ent & Em & Ec & Eth & Ew & Exd & Exm & Exs & Eym & Eys & Elk).
    rewrite Eh, Ent, Ec, Eth. unfold theta_used. now rewrite ET.
  Qed.
  Lemma correlation_row xs i : (exists corr, compute_correlation g xs i = Some corr /\
    forall j, (j < n)%nat -> corr j = kval ck nx h theta_used w (fun c => xs i c - xd j c)).
  Proof.
    unfold compute_correlation. rewrite theta_eq. eexists. split; [reflexivity|].
    destruct fit_inv as (th & r_mx & ET & N1 & ER & EC & Eft & Err & Eco & EB & EG & ES & E0 & Ex & Eh & Ent & Em & Ec & Eth & Ew & Exd & Exm & Exs & Eym & Eys & Elk).
    intros j Hj. rewrite E0, Ex, Eh, Ec, Ew, Exd. f_equal. unfold pairwise_differences.
    rewrite Nat.div_add_l, (Nat.div_small j n), Nat.add_0_r by lia. rewrite Nat.add_comm, Nat.mod_add, Nat.mod_small by lia. reflexivity.
  Qed.

  (** Prediction in normalized coordinates. *)
  Definition rvec (xn : vec) : vec := fun j => kval ck nx h theta_used w (fun c => xn c - xd j c).
  Definition fvec (xn : vec) : vec := trend_val mk nx xn.
  Lemma predict_eq x' i : predict g x' i =
    Some ((dot p (fvec (xnorm g (x' i))) beta + dot n (rvec (xnorm g (x' i))) gamma) * g_ystd g + g_ymean g).
  Proof.
    unfold predict. destruct (correlation_row (fun a => xnorm g (x' a)) i) as [corr [-> HC]].
    destruct fit_inv as (th & r_mx & ET & N1 & ER & EC & Eft & Err & Eco & EB & EG & ES & E0 & Ex & Eh & Ent & Em & Ec & Eth & Ew & Exd & Exm & Exs & Eym & Eys & Elk).
    rewrite E0, Ex, Em. do 2 f_equal. f_equal. f_equal. apply dot_ext; [exact HC|reflexivity].
  Qed.
  Definition rt_of (r : vec) : vec := fsub n L r.
  Definition u_of (r f : vec) : vec := fsub p (tr rr) (fun j => mv n (tr ft) (rt_of r) j - f j).
  Definition mse_of (r f : vec) : R := 1 - dot n (rt_of r) (rt_of r) + dot p (u_of r f) (u_of r f).
  Lemma predict_var_eq x' i : predict_var g x' i =
    Some (let v := i_sigma2 (g_in g) * mse_of (rvec (xnorm g (x' i))) (fvec (xnorm g (x' i))) in if Rlt_dec v 0 then 0 else v).
  Proof.
    unfold predict_var. destruct (correlation_row (fun a => xnorm g (x' a)) i) as [corr [-> HC]].
    destruct fit_inv as (th & r_mx & ET & N1 & ER & EC & Eft & Err & Eco & EB & EG & ES & E0 & Ex & Eh & Ent & Em & Ec & Eth & Ew & Exd & Exm & Exs & Eym & Eys & Elk).
    unfold compute_rt_u. rewrite E0, Ex, Em. cbv zeta.
    assert (ERt : forall k, fsub n L corr k = rt_of (rvec (xnorm g (x' i))) k).
    { intros k. apply fsub_ext; [reflexivity|exact HC]. }
    assert (EU : forall k, fsub p (tr rr) (fun j => mv n (tr ft) (fsub n L corr) j - trend_val mk nx (xnorm g (x' i)) j) k = u_of (rvec (xnorm g (x' i))) (fvec (xnorm g (x' i))) k).
    { intros k. apply fsub_ext; [reflexivity|]. intros j _. f_equal. apply mv_ext. intros; apply ERt. }
    assert (EM : 1 - dot n (fsub n L corr) (fsub n L corr) +
       dot p (fsub p (tr rr) (fun j => mv n (tr ft) (fsub n L corr) j - trend_val mk nx (xnorm g (x' i)) j))
             (fsub p (tr rr) (fun j => mv n (tr ft) (fsub n L corr) j - trend_val mk nx (xnorm g (x' i)) j)) =
       mse_of (rvec (xnorm g (x' i))) (fvec (xnorm g (x' i)))).
    { unfold mse_of. f_equal; [f_equal|]; apply dot_ext; intros; auto. }
    now rewrite EM.
  Qed.
  Lemma valvar_eq x' i : predict_valvar g x' i =
    match predict g x' i, predict_var g x' i with Some a, Some b => Some (a, b) | _, _ => None end.
  Proof. unfold predict_valvar, predict, predict_var. now destruct (compute_correlation g (fun a => xnorm g (x' a)) i). Qed.

  Lemma xnorm_train i : xnorm g (x i) = xd i.
  Proof.
    destruct fit_inv as (th & r_mx & ET & N1 & ER & EC & Eft & Err & Eco & EB & EG & ES & E0 & Ex & Eh & Ent & Em & Ec & Eth & Ew & Exd & Exm & Exs & Eym & Eys & Elk).
    unfold xnorm. rewrite Exm, Exs. reflexivity.
  Qed.
  Lemma rvec_train i j : (i < n)%nat -> (j < n)%nat -> rvec (xd i) j = Rmx i j - (if Nat.eqb i j then nugget else 0).
  Proof.
    intros Hi Hj. unfold rvec, Rmx. destruct (Nat.eqb_spec i j) as [->|N]; [|ring].
    rewrite kval_zero; [ring|]. intros c _. ring.
  Qed.
  Lemma y_back i : yd i * g_ystd g + g_ymean g = y i.
  Proof.
    destruct fit_inv as (th & r_mx & ET & N1 & ER & EC & Eft & Err & Eco & EB & EG & ES & E0 & Ex & Eh & Ent & Em & Ec & Eth & Ew & Exd & Exm & Exs & Eym & Eys & Elk).
    rewrite Eym, Eys. destruct (normalize n (fun i _ => y i)) as [[a b] c] eqn:E. cbn [fst snd].
    apply (normalize_back n (fun i _ => y i) a b c i O E).
  Qed.
  Lemma ystd_pos : 0 < g_ystd g.
  Proof.
    destruct fit_inv as (th & r_mx & ET & N1 & ER & EC & Eft & Err & Eco & EB & EG & ES & E0 & Ex & Eh & Ent & Em & Ec & Eth & Ew & Exd & Exm & Exs & Eym & Eys & Elk).
    rewrite Eys. destruct (normalize n (fun i _ => y i)) as [[a b] c] eqn:E. cbn [snd]. exact (normalize_std_pos n _ a b c O E).
  Qed.
  Lemma xstd_pos c : 0 < g_xstd g c.
  Proof.
    destruct fit_inv as (th & r_mx & ET & N1 & ER & EC & Eft & Err & Eco & EB & EG & ES & E0 & Ex & Eh & Ent & Em & Ec & Eth & Ew & Exd & Exm & Exs & Eym & Eys & Elk).
    rewrite Exs. destruct (normalize n x) as [[a b] s] eqn:E. cbn [snd]. exact (normalize_std_pos n _ a b s c E).
  Qed.
  Lemma interpolation i : (i < n)%nat -> predict g x i = Some (y i - nugget * gamma i * g_ystd g).
  Proof.
    intros Hi. rewrite predict_eq, xnorm_train. f_equal. rewrite <- (y_back i).
    assert (A : dot n (rvec (xd i)) gamma = mv n Rmx gamma i - nugget * gamma i).
    { unfold dot. rewrite (sumn_ext n _ (fun j => Rmx i j * gamma j - (if Nat.eqb i j then nugget * gamma i else 0))).
      - rewrite sumn_minus. f_equal. rewrite (sumn_only n _ i Hi); [now rewrite Nat.eqb_refl|].
        intros j _ N. destruct (Nat.eqb_spec i j); [lia|reflexivity].
      - intros j Hj. rewrite rvec_train by assumption. destruct (Nat.eqb_spec i j) as [->|]; ring. }
    rewrite A. pose proof (kriging_gamma i Hi) as K. cbv beta in K. rewrite <- K.
    change (dot p (fvec (xd i)) beta) with (mv p Fmx beta i). ring.
  Qed.
  Lemma interpolation_var i : (i < n)%nat -> nugget = 0 -> predict_var g x i = Some 0.
  Proof.
    intros Hi N0. rewrite predict_var_eq, xnorm_train. cbv zeta.
    assert (RT : forall k, (k < n)%nat -> rt_of (rvec (xd i)) k = L i k).
    { intros k Hk. symmetry. apply (fsub_unique n L (rvec (xd i)) (fun k => L i k) (proj1 chol_ok) chol_reg); [|exact Hk].
      intros j Hj. destruct chol_ok as [_ [_ F]]. rewrite rvec_train, N0 by assumption.
      unfold mv. rewrite <- (F i j Hi Hj). destruct (Nat.eqb i j); [|rewrite Rminus_0_r; apply sumn_ext; intros; ring].
      rewrite Rminus_0_r. apply sumn_ext; intros; ring. }
    assert (U0 : forall k, (k < p)%nat -> u_of (rvec (xd i)) (fvec (xd i)) k = 0).
    { intros k Hk. unfold u_of. symmetry. apply (fsub_unique p (tr rr) _ (fun _ => 0)).
      - apply lower_tr, rr_upper.
      - apply regular_tr, rr_regular.
      - intros j Hj. transitivity 0; [apply sumn_zero; intros; ring|]. symmetry. apply Rminus_diag_eq.
        transitivity (mv n L (fun k => ft k j) i); [|now apply ft_solves].
        unfold mv, tr. apply sumn_ext. intros q Hq. rewrite RT by exact Hq. ring.
      - exact Hk. }
    assert (M : mse_of (rvec (xd i)) (fvec (xd i)) = 0).
    { unfold mse_of. rewrite (dot_ext n _ _ (fun k => L i k) (fun k => L i k) RT RT).
      rewrite (dot_ext p _ _ (fun _ => 0) (fun _ => 0) U0 U0).
      destruct chol_ok as [_ [_ F]]. unfold dot. rewrite (F i i Hi Hi). unfold Rmx. rewrite Nat.eqb_refl, N0.
      rewrite sumn_zero; [ring|]. intros; ring. }
    rewrite M, Rmult_0_r. now destruct (Rlt_dec 0 0).
  Qed.
  Lemma sigma2_nonneg : 0 <= i_sigma2 (g_in g).
  Proof.
    destruct fit_inv as (th & r_mx & ET & N1 & ER & EC & Eft & Err & Eco & EB & EG & ES & E0 & Ex & Eh & Ent & Em & Ec & Eth & Ew & Exd & Exm & Exs & Eym & Eys & Elk). rewrite ES.
    pose proof ystd_pos. repeat apply Rmult_le_pos; try lra; [apply dot_nonneg|]. left. apply Rinv_0_lt_compat, lt_0_INR. lia.
  Qed.

  (** ** Variance *)
  (** Solutions of the systems with matrices R and F^t R^-1 F. *)
  Lemma rt_dot r r' z : (forall i, (i < n)%nat -> mv n Rmx z i = r i) -> dot n (rt_of r) (rt_of r') = dot n z r'.
  Proof.
    intros Hz. assert (E : forall i, (i < n)%nat -> rt_of r i = mv n (tr L) z i).
    { intros i Hi. symmetry. apply (fsub_unique n L r _ (proj1 chol_ok) chol_reg); [|exact Hi]. intros j Hj. rewrite <- R_LLt by exact Hj. now apply Hz. }
    rewrite (dot_ext n _ _ (mv n (tr L) z) (rt_of r') E) by reflexivity. rewrite <- dot_mv.
    apply dot_ext; [reflexivity|]. intros i Hi. apply fsub_solves; [apply chol_ok|apply chol_reg|exact Hi].
  Qed.
  (** R has an inverse. *)
  Definition Rsolve (r : vec) : vec := bsub n (tr L) (fsub n L r).
  Lemma Rsolve_ok r i : (i < n)%nat -> mv n Rmx (Rsolve r) i = r i.
  Proof.
    intros Hi. rewrite R_LLt by exact Hi.
    rewrite (mv_ext n L _ (fsub n L r)).
    - apply fsub_solves; [apply chol_ok|apply chol_reg|exact Hi].
    - intros j Hj. apply bsub_solves; [apply upper_tr, chol_ok|apply regular_tr, chol_reg|exact Hj].
  Qed.
  Lemma Rsolve_tr r i : (i < n)%nat -> mv n (tr L) (Rsolve r) i = rt_of r i.
  Proof. intros Hi. apply bsub_solves; [apply upper_tr, chol_ok|apply regular_tr, chol_reg|exact Hi]. Qed.
  (** Columns of R^-1 F. *)
  Definition RF (j : nat) : vec := Rsolve (fun i => Fmx i j).
  Lemma RF_tr j i : (i < n)%nat -> mv n (tr L) (RF j) i = ft i j.
  Proof.
    intros Hi. unfold RF. rewrite Rsolve_tr by exact Hi. destruct fit_inv as (th & r_mx & ET & N1 & ER & EC & Eft & Err & Eco & EB & EG & ES & E0 & Ex & Eh & Ent & Em & Ec & Eth & Ew & Exd & Exm & Exs & Eym & Eys & Elk).
    rewrite Eft. reflexivity.
  Qed.
  Lemma r_RF r j : dot n r (RF j) = mv n (tr ft) (rt_of r) j.
  Proof.
    rewrite (dot_ext n r (RF j) (mv n L (rt_of r)) (RF j)).
    - rewrite dot_comm, dot_mv. unfold dot, mv at 2, tr at 2. apply sumn_ext. intros i Hi. now rewrite RF_tr.
    - intros i Hi. symmetry. apply fsub_solves; [apply chol_ok|apply chol_reg|exact Hi].
    - reflexivity.
  Qed.
  Definition Bmx : mat := fun j l => sumn n (fun i => Fmx i j * RF l i).
  Lemma Bmx_gram j l : Bmx j l = sumn n (fun i => ft i j * ft i l).
  Proof.
    change (dot n (fun i => Fmx i j) (RF l) = sumn n (fun i => ft i j * ft i l)). rewrite r_RF.
    unfold mv, tr. apply sumn_ext. intros i Hi. rewrite Rmult_comm. f_equal.
    destruct fit_inv as (th & r_mx & ET & N1 & ER & EC & Eft & Err & Eco & EB & EG & ES & E0 & Ex & Eh & Ent & Em & Ec & Eth & Ew & Exd & Exm & Exs & Eym & Eys & Elk). rewrite Eft. reflexivity.
  Qed.
  Lemma Bmx_sym : symmetric p Bmx.
  Proof. intros j l _ _. rewrite !Bmx_gram. apply sumn_ext. intros; ring. Qed.
  Lemma Bmx_mv v j : mv p Bmx v j = mv n (tr ft) (mv p ft v) j.
  Proof. rewrite mv_mv. apply sumn_ext. intros l _. now rewrite Bmx_gram. Qed.
  Lemma Bmx_pd : positive_definite p Bmx.
  Proof.
    intros v [i [Hi Hv]]. rewrite (dot_ext p v _ v (mv n (tr ft) (mv p ft v))) by (intros; auto using Bmx_mv).
    rewrite dot_mv. change (tr (tr ft)) with (fun i j => ft i j). change (mv p (fun i0 j => ft i0 j) v) with (mv p ft v).
    destruct (dot_nonneg n (mv p ft v)) as [P|Z]; [exact P|]. exfalso. apply Hv.
    apply (ft_inj v); [|exact Hi]. intros k Hk. now apply (dot_zero n (mv p ft v)).
  Qed.
  Lemma u_dot r f r' f' z : (forall j, (j < p)%nat -> mv p Bmx z j = f j - dot n r (RF j)) ->
    dot p (u_of r f) (u_of r' f') = dot p z (fun j => f' j - dot n r' (RF j)).
  Proof.
    intros Hz.
    assert (Lo : lower p (tr rr)) by apply lower_tr, rr_upper. assert (Re : regular p (tr rr)) by apply regular_tr, rr_regular.
    assert (E : forall j, (j < p)%nat -> u_of r f j = - mv p rr z j).
    { intros j Hj. unfold u_of. symmetry. apply (fsub_unique p (tr rr) _ (fun j => - mv p rr z j) Lo Re); [|exact Hj].
      intros k Hk. rewrite <- r_RF.
      transitivity (- mv p (tr rr) (mv p rr z) k).
      - unfold mv at 1 3. rewrite <- sumn_opp. apply sumn_ext. intros; ring.
      - rewrite <- gram, <- Bmx_mv, Hz by exact Hk. ring. }
    rewrite (dot_ext p _ _ (fun j => - mv p rr z j) (u_of r' f') E) by reflexivity.
    transitivity (- dot p (mv p rr z) (u_of r' f')).
    { unfold dot. rewrite <- sumn_opp. apply sumn_ext. intros; ring. }
    change (mv p rr z) with (mv p (tr (tr rr)) z). rewrite <- dot_mv. unfold dot at 1. rewrite <- sumn_opp. apply sumn_ext.
    intros j Hj. unfold u_of. rewrite fsub_solves by assumption. rewrite <- r_RF. ring.
  Qed.
End Trained.
