(** Characterization of predictions by linear systems, and what follows: constant and affine data, changes of units,
    order of the observations. *)
From Coq Require Import Reals Lra Lia Arith FunctionalExtensionality.
From Coquelicot Require Import Coquelicot.
From Coq Require Import List Bool Permutation.
From Verif Require Import RVec Moe_Model Kern_Model Kern_Spec Kern_Proofs Gp_Model Gp_Spec Gp_Lin Gp_Proofs Gp_Grad.
Import ListNotations.
Local Open Scope R_scope.

(** ** Sums over a permutation *)
Lemma sumn_list n f : sumn n f = fold_right Rplus 0 (map f (seq 0 n)).
Proof.
  induction n as [|n IH]; [reflexivity|]. rewrite seq_S, map_app, fold_right_app. cbn [sumn map fold_right Nat.add]. rewrite IH.
  rewrite Rplus_0_r. generalize (map f (seq 0 n)). induction l as [|a l IHl]; simpl; [lra|]. rewrite <- IHl. lra.
Qed.
Lemma fold_perm l m : Permutation l m -> fold_right Rplus 0 l = fold_right Rplus 0 m.
Proof. induction 1; simpl; lra. Qed.
Lemma permutes_perm n s : permutes n s -> Permutation (map s (seq 0 n)) (seq 0 n).
Proof.
  intros [B I]. apply NoDup_Permutation_bis.
  - enough (H : forall l, NoDup l -> (forall i, In i l -> (i < n)%nat) -> NoDup (map s l)).
    { apply H; [apply seq_NoDup|]. intros i Hi. apply in_seq in Hi. lia. }
    induction 1 as [|a l Ha N IH]; intros Hl; simpl; constructor.
    + intros H. apply in_map_iff in H as [b [E Hb]]. apply I in E; [subst; contradiction|apply Hl; now right|apply Hl; now left].
    + apply IH. intros i Hi. apply Hl. now right.
  - rewrite map_length. lia.
  - intros i Hi. apply in_map_iff in Hi as [k [<- Hk]]. apply in_seq in Hk. apply in_seq. specialize (B k). lia.
Qed.
Lemma sumn_perm n s f : permutes n s -> sumn n (fun i => f (s i)) = sumn n f.
Proof.
  intros P. rewrite !sumn_list. transitivity (fold_right Rplus 0 (map f (map s (seq 0 n)))); [now rewrite map_map|].
  apply fold_perm. apply Permutation_map. now apply permutes_perm.
Qed.
Lemma permutes_surj n s : permutes n s -> forall j, (j < n)%nat -> exists i, (i < n)%nat /\ s i = j.
Proof.
  intros P j Hj. assert (H : In j (map s (seq 0 n))).
  { apply (Permutation_in j (Permutation_sym (permutes_perm n s P))). apply in_seq. lia. }
  apply in_map_iff in H as [i [E Hi]]. apply in_seq in Hi. exists i. split; [lia|exact E].
Qed.


Section Char.
  Context (qr : nat -> nat -> mat -> mat * mat) (cond : mat -> bool).
  Context (mk : mean_kind) (ck : corr_kind) (n nx h nt : nat) (theta : vec) (w : mat) (nugget : R) (x : mat) (y : vec) (g : gp).
  Hypothesis Fit : fit qr cond mk ck n nx h nt theta w nugget x y = Some g.
  Local Notation p := (trend_size mk nx).
  Local Notation xd := (fst (fst (normalize n x))).
  Local Notation yd := (fun i => fst (fst (normalize n (fun i _ => y i))) i O).
  Local Notation L := (i_chol (g_in g)).
  Local Notation beta := (i_beta (g_in g)).
  Local Notation gamma := (i_gamma (g_in g)).
  Local Notation Rm := (Rmx ck n nx h nt theta w nugget x).
  Local Notation Fm := (Fmx mk n nx x).
  Local Notation rvec := (rvec ck n nx h nt theta w x).
  Local Notation fvec := (fvec mk nx).
  Hypothesis QR : is_qr n p (i_ft (g_in g)) (qr n p (i_ft (g_in g))).

  Lemma mean_exists : kriging_mean n p Rm Fm yd beta gamma.
  Proof.
    split; [apply (kriging_gamma _ _ _ _ _ _ _ _ _ _ _ _ _ _ Fit)|apply (kriging_orth _ _ _ _ _ _ _ _ _ _ _ _ _ _ Fit QR)].
  Qed.
  Lemma mean_unique be ga : kriging_mean n p Rm Fm yd be ga ->
    (forall i, (i < n)%nat -> ga i = gamma i) /\ (forall j, (j < p)%nat -> be j = beta j).
  Proof. intros [H1 H2]. apply (kriging_unique _ _ _ _ _ _ _ _ _ _ _ _ _ _ Fit QR); assumption. Qed.
  Lemma predict_char be ga : kriging_mean n p Rm Fm yd be ga -> forall x' i,
    predict g x' i = Some ((dot p (fvec (xnorm g (x' i))) be + dot n (rvec (xnorm g (x' i))) ga) * g_ystd g + g_ymean g).
  Proof.
    intros H x' i. destruct (mean_unique be ga H) as [Hg Hb]. rewrite (predict_eq _ _ _ _ _ _ _ _ _ _ _ _ _ _ Fit).
    do 2 f_equal. f_equal. f_equal; apply dot_ext; auto; intros; symmetry; auto.
  Qed.
  Lemma sigma2_char be ga : kriging_mean n p Rm Fm yd be ga ->
    i_sigma2 (g_in g) = dot n ga (mv n Rm ga) / INR n * g_ystd g * g_ystd g.
  Proof.
    intros H. destruct (mean_unique be ga H) as [Hg Hb].
    destruct (fit_inv _ _ _ _ _ _ _ _ _ _ _ _ _ _ Fit) as (t0 & r_mx & ET & N1 & ER & EC & Eft & Err & Eco & EB & EG & ES & E0 & Ex & Eh & Ent & Em & Ec & Eth & Ew & Exd & Exm & Exs & Eym & Eys & Elk).
    rewrite ES. do 3 f_equal.
    assert (LG : forall i, (i < n)%nat -> mv n (tr L) gamma i = fsub n L yd i - mv p (i_ft (g_in g)) beta i).
    { intros i Hi. rewrite EG at 1. apply bsub_solves; [apply upper_tr, (chol_ok _ _ _ _ _ _ _ _ _ _ _ _ _ _ Fit)|apply regular_tr, (chol_reg _ _ _ _ _ _ _ _ _ _ _ _ _ _ Fit)|exact Hi]. }
    rewrite (dot_ext n _ _ (mv n (tr L) gamma) (mv n (tr L) gamma)) by (intros; symmetry; auto).
    rewrite <- dot_mv. apply dot_ext; [intros; symmetry; auto|]. intros i Hi.
    rewrite <- (R_LLt _ _ _ _ _ _ _ _ _ _ _ _ _ _ Fit) by exact Hi. apply mv_ext. intros; symmetry; auto.
  Qed.
  Lemma Rm_inj v : (forall i, (i < n)%nat -> mv n Rm v i = 0) -> forall i, (i < n)%nat -> v i = 0.
  Proof.
    intros H. assert (Z : dot n (mv n (tr L) v) (mv n (tr L) v) = 0).
    { rewrite <- dot_mv. apply sumn_zero. intros i Hi. rewrite <- (R_LLt _ _ _ _ _ _ _ _ _ _ _ _ _ _ Fit), H by exact Hi. ring. }
    apply (Lt_inj _ _ _ _ _ _ _ _ _ _ _ _ _ _ Fit). intros i Hi. now apply (dot_zero n (mv n (tr L) v)).
  Qed.
  Lemma var_unique r f m : kriging_var n p Rm Fm r f m -> m = mse_of mk n nx g r f.
  Proof.
    intros (z & X & b & Hz & HX & Hb & ->). unfold mse_of.
    assert (EX : forall j i, (j < p)%nat -> (i < n)%nat -> X j i = RF mk n nx x g j i).
    { intros j i Hj Hi. apply Rminus_diag_uniq. apply (Rm_inj (fun i => X j i - RF mk n nx x g j i)); [|exact Hi].
      intros k Hk. rewrite mv_minus, HX by assumption. unfold RF. rewrite (Rsolve_ok _ _ _ _ _ _ _ _ _ _ _ _ _ _ Fit) by exact Hk. ring. }
    assert (EA : forall j, (j < p)%nat -> dot n r (X j) = dot n r (RF mk n nx x g j)).
    { intros j Hj. apply dot_ext; [reflexivity|]. intros; now apply EX. }
    rewrite (rt_dot _ _ _ _ _ _ _ _ _ _ _ _ _ _ Fit r r z Hz). rewrite (dot_comm n r z).
    rewrite (u_dot _ _ _ _ _ _ _ _ _ _ _ _ _ _ Fit QR r f r f b).
    - f_equal. apply dot_ext; [reflexivity|]. intros j Hj. now rewrite EA.
    - intros j Hj. rewrite <- EA, <- Hb by exact Hj. apply sumn_ext. intros l Hl. f_equal.
      apply sumn_ext. intros i Hi. now rewrite EX.
  Qed.
  Lemma var_exists r f : kriging_var n p Rm Fm r f (mse_of mk n nx g r f).
  Proof.
    set (Bm := Bmx mk n nx x g). set (X := RF mk n nx x g).
    destruct (cholesky_complete p Bm) as [C HC].
    { apply (Bmx_sym _ _ _ _ _ _ _ _ _ _ _ _ _ _ Fit). }
    { apply (Bmx_pd _ _ _ _ _ _ _ _ _ _ _ _ _ _ Fit QR). }
    destruct (cholesky_correct p Bm C) as [Lo [Di Fa]]; [apply (Bmx_sym _ _ _ _ _ _ _ _ _ _ _ _ _ _ Fit)|exact HC|].
    assert (Re : regular p C) by (intros i Hi; specialize (Di i Hi); lra).
    set (a := fun j => f j - dot n r (X j)). set (b := bsub p (tr C) (fsub p C a)).
    assert (HB : forall j, (j < p)%nat -> mv p Bm b j = a j).
    { intros j Hj. transitivity (mv p C (mv p (tr C) b) j).
      - rewrite mv_mv. apply sumn_ext. intros l Hl. unfold tr. now rewrite <- (Fa j l Hj Hl).
      - rewrite (mv_ext p C _ (fsub p C a)); [now apply fsub_solves|].
        intros k Hk. apply bsub_solves; [now apply upper_tr|now apply regular_tr|exact Hk]. }
    exists (Rsolve n g r), X, b. split; [|split; [|split]].
    - intros i Hi. now apply (Rsolve_ok _ _ _ _ _ _ _ _ _ _ _ _ _ _ Fit).
    - intros j i Hj Hi. exact (Rsolve_ok _ _ _ _ _ _ _ _ _ _ _ _ _ _ Fit (fun i => Fmx mk n nx x i j) i Hi).
    - exact HB.
    - unfold mse_of. rewrite (rt_dot _ _ _ _ _ _ _ _ _ _ _ _ _ _ Fit r r (Rsolve n g r)), (dot_comm n r).
      2:{ intros i Hi. now apply (Rsolve_ok _ _ _ _ _ _ _ _ _ _ _ _ _ _ Fit). }
      now rewrite (u_dot _ _ _ _ _ _ _ _ _ _ _ _ _ _ Fit QR r f r f b HB).
  Qed.

  (** The prediction is the best linear unbiased predictor. *)
  Lemma blup z : let r := rvec z in let f := fvec z in exists mu,
    unbiased n p Fm f mu /\
    dot p f beta + dot n r gamma = dot n mu yd /\
    mse_of mk n nx g r f = sq_error n Rm r mu /\
    (forall mu', unbiased n p Fm f mu' -> sq_error n Rm r mu <= sq_error n Rm r mu').
  Proof.
    intros r f. destruct (var_exists r f) as (v & X & b & Hv & HX & Hb & HM).
    set (mu := fun i => v i + sumn p (fun j => b j * X j i)).
    assert (RS : forall (A B : vec), dot n A (mv n Rm B) = dot n (mv n Rm A) B).
    { intros A B. rewrite dot_mv. apply dot_ext; [|reflexivity]. intros i Hi. apply sumn_ext. intros j Hj. unfold tr.
      now rewrite (Rmx_sym ck n nx h nt theta w nugget x i j). }
    assert (RM : forall i, (i < n)%nat -> mv n Rm mu i = r i + mv p Fm b i).
    { intros i Hi. unfold mu. rewrite mv_plus, Hv by exact Hi. f_equal. unfold mv.
      rewrite (sumn_ext n _ (fun k => sumn p (fun j => b j * (Rm i k * X j k)))) by (intros; rewrite <- sumn_scal_l; apply sumn_ext; intros; ring).
      rewrite sumn_swap. apply sumn_ext. intros j Hj. rewrite sumn_scal_l. change (sumn n (fun k => Rm i k * X j k)) with (mv n Rm (X j) i).
      rewrite HX by assumption. ring. }
    assert (FX : forall j, (j < p)%nat -> dot n (fun i => Fm i j) v = dot n r (X j)).
    { intros j Hj. rewrite (dot_ext n (fun i => Fm i j) v (mv n Rm (X j)) v) by (auto; intros; symmetry; auto).
      rewrite <- RS, dot_comm. apply dot_ext; auto. }
    assert (UN : unbiased n p Fm f mu).
    { intros j Hj. unfold mu, dot.
      rewrite (sumn_ext n _ (fun i => Fm i j * v i + sumn p (fun l => Fm i j * X l i * b l))).
      2:{ intros i Hi. rewrite Rmult_plus_distr_l, <- sumn_scal_l. f_equal. apply sumn_ext. intros; ring. }
      rewrite sumn_plus. change (sumn n (fun i => Fm i j * v i)) with (dot n (fun i => Fm i j) v). rewrite FX by exact Hj.
      rewrite sumn_swap. rewrite (sumn_ext p _ (fun l => dot n (fun i => Fm i j) (X l) * b l)).
      2:{ intros l Hl. now rewrite sumn_scal_r. }
      rewrite Hb by exact Hj. ring. }
    assert (FB : forall (d : vec), dot n d (mv p Fm b) = sumn p (fun j => b j * dot n (fun i => Fm i j) d)).
    { intros d. rewrite dot_mv, dot_comm. apply sumn_ext. intros j Hj. f_equal. }
    assert (QM : sq_error n Rm r mu = 1 - dot n mu r + sumn p (fun j => b j * f j)).
    { unfold sq_error. rewrite (dot_ext n mu (mv n Rm mu) mu (fun i => r i + mv p Fm b i)) by auto.
      rewrite (sumn_ext p (fun j => b j * f j) (fun j => b j * dot n (fun i => Fm i j) mu)) by (intros j Hj; now rewrite UN).
      rewrite <- FB. unfold dot. rewrite (sumn_ext n (fun i => mu i * (r i + mv p Fm b i)) (fun i => mu i * r i + mu i * mv p Fm b i)) by (intros; ring).
      rewrite sumn_plus. ring. }
    exists mu. split; [exact UN|]. split; [|split].
    - destruct mean_exists as [K1 K2].
      rewrite (dot_ext n mu yd mu (fun i => mv n Rm gamma i + mv p Fm beta i)) by (auto; intros i Hi; symmetry; now apply K1).
      transitivity (dot n mu (mv n Rm gamma) + dot n mu (mv p Fm beta)).
      2:{ unfold dot. rewrite <- sumn_plus. apply sumn_ext. intros; ring. }
      rewrite RS. rewrite (dot_ext n (mv n Rm mu) gamma (fun i => r i + mv p Fm b i) gamma) by auto.
      rewrite (dot_mv n p Fm mu beta).
      rewrite (dot_ext p (mv n (tr Fm) mu) beta f beta).
      2:{ intros j Hj. rewrite <- (UN j Hj). apply sumn_ext. intros; reflexivity. }
      2:{ reflexivity. }
      assert (Z : dot n (mv p Fm b) gamma = 0).
      { rewrite dot_comm, dot_mv. apply sumn_zero. intros j Hj. rewrite K2 by exact Hj. ring. }
      transitivity (dot n r gamma + dot n (mv p Fm b) gamma + dot p f beta); [rewrite Z; ring|].
      f_equal. unfold dot. rewrite <- sumn_plus. apply sumn_ext. intros; ring.
    - assert (MR : dot n mu r = dot n r v + sumn p (fun j => b j * dot n r (X j))).
      { unfold mu, dot at 1.
        rewrite (sumn_ext n _ (fun i => r i * v i + sumn p (fun j => b j * (r i * X j i)))).
        2:{ intros i Hi. rewrite Rmult_plus_distr_r, <- sumn_scal_r. f_equal; [ring|]. apply sumn_ext. intros; ring. }
        rewrite sumn_plus, sumn_swap. f_equal. apply sumn_ext. intros j Hj. now rewrite sumn_scal_l. }
      rewrite HM, QM, MR.
      assert (EB : dot p b (fun j => f j - dot n r (X j)) = sumn p (fun j => b j * f j) - sumn p (fun j => b j * dot n r (X j))).
      { unfold dot at 1. rewrite <- sumn_minus. apply sumn_ext. intros; ring. }
      rewrite EB. ring.
    - intros mu' UN'. set (d := fun i => mu' i - mu i).
      assert (E : sq_error n Rm r mu' = sq_error n Rm r mu + dot n d (mv n Rm d)).
      { assert (FD : dot n d (mv p Fm b) = 0).
        { rewrite FB. apply sumn_zero. intros j Hj. unfold d, dot.
          rewrite (sumn_ext n _ (fun i => Fm i j * mu' i - Fm i j * mu i)) by (intros; ring). rewrite sumn_minus.
          change (b j * (dot n (fun i => Fm i j) mu' - dot n (fun i => Fm i j) mu) = 0). rewrite UN, UN' by exact Hj. ring. }
        assert (DM : dot n d (mv n Rm mu) = dot n d r).
        { rewrite (dot_ext n d (mv n Rm mu) d (fun i => r i + mv p Fm b i)) by auto.
          transitivity (dot n d r + dot n d (mv p Fm b)); [|rewrite FD; ring]. unfold dot. rewrite <- sumn_plus. apply sumn_ext. intros; ring. }
        assert (SM : dot n mu (mv n Rm d) = dot n d (mv n Rm mu)) by (rewrite RS, dot_comm; reflexivity).
        assert (EX : dot n mu' (mv n Rm mu') = dot n mu (mv n Rm mu) + dot n mu (mv n Rm d) + dot n d (mv n Rm mu) + dot n d (mv n Rm d)).
        { unfold dot. rewrite <- !sumn_plus. apply sumn_ext. intros i Hi.
          rewrite (mv_ext n Rm mu' (fun k => mu k + d k)) by (intros; unfold d; ring). rewrite mv_plus.
          assert (Hd : mu' i = mu i + d i) by (unfold d; ring). rewrite Hd. ring. }
        assert (ER : dot n mu' r = dot n mu r + dot n d r).
        { unfold dot. rewrite <- sumn_plus. apply sumn_ext. intros; unfold d; ring. }
        unfold sq_error. rewrite EX, ER, SM, DM. ring. }
      rewrite E. assert (0 <= dot n d (mv n Rm d)); [|lra].
      rewrite (dot_ext n d (mv n Rm d) d (mv n L (mv n (tr L) d))).
      2:{ reflexivity. } 2:{ intros i Hi. now apply (R_LLt _ _ _ _ _ _ _ _ _ _ _ _ _ _ Fit). }
      rewrite dot_mv. apply dot_nonneg.
  Qed.

  (** Data that the trend reproduces. *)
  Lemma trend_exact be : (forall i, (i < n)%nat -> dot p (fvec (xd i)) be = yd i) -> forall x' i,
    predict g x' i = Some (dot p (fvec (xnorm g (x' i))) be * g_ystd g + g_ymean g) /\ predict_var g x' i = Some 0.
  Proof.
    intros H x' i. assert (K : kriging_mean n p Rm Fm yd be (fun _ => 0)).
    { split.
      - intros k Hk. unfold mv at 1. rewrite (sumn_zero n) by (intros; ring). rewrite Rplus_0_l. now apply H.
      - intros j Hj. apply sumn_zero. intros; ring. }
    split.
    - rewrite (predict_char be _ K). do 2 f_equal. f_equal. unfold dot at 2. rewrite (sumn_zero n) by (intros; ring). ring.
    - rewrite (predict_var_eq _ _ _ _ _ _ _ _ _ _ _ _ _ _ Fit). cbv zeta. rewrite (sigma2_char be _ K).
      unfold dot. rewrite (sumn_zero n (fun _ => _)) by (intros; ring). unfold Rdiv. rewrite !Rmult_0_l. now destruct (Rlt_dec 0 0).
  Qed.
End Char.

(** ** Constant and affine data *)
Lemma trend_first mk nx v : trend_val mk nx v O = 1.
Proof. destruct mk; reflexivity. Qed.
Lemma trend_size_pos mk nx : (0 < trend_size mk nx)%nat.
Proof. destruct mk; unfold trend_size; cbn; lia. Qed.
Lemma trend_comp mk nx v j : mk <> Constant -> (j < nx)%nat -> trend_val mk nx v (S j) = v j.
Proof.
  intros N Hj. assert (A : nth j (map v (seq 0 nx)) 0 = v j).
  { rewrite (nth_indep _ 0 (v O)) by now rewrite map_length, seq_length. rewrite map_nth, seq_nth by exact Hj. reflexivity. }
  destruct mk; [congruence| |]; unfold trend_val; cbn [trend_row nth app]; [exact A|].
  rewrite app_nth1 by (rewrite map_length, seq_length; exact Hj). exact A.
Qed.
Lemma trend_size_ge mk nx : mk <> Constant -> (1 + nx <= trend_size mk nx)%nat.
Proof.
  intros N. unfold trend_size. rewrite trend_length, monos_length. destruct mk; [congruence|lia|].
  generalize (nx * (nx + 1) / 2)%nat. lia.
Qed.
Lemma dot_affine mk nx v (b0 : R) (bj : vec) : mk <> Constant ->
  dot (trend_size mk nx) (trend_val mk nx v) (fun k => match k with O => b0 | S j => if Nat.ltb j nx then bj j else 0 end) =
  b0 + sumn nx (fun j => v j * bj j).
Proof.
  intros N. unfold dot. rewrite (sumn_prefix _ (S nx)).
  - rewrite sumn_S. rewrite trend_first, Rmult_1_l. f_equal. apply sumn_ext. intros j Hj.
    rewrite trend_comp by assumption. destruct (Nat.ltb_spec j nx); [reflexivity|lia].
  - now apply trend_size_ge.
  - intros [|k] Hk; [lia|]. destruct (Nat.ltb_spec k nx); [lia|ring].
Qed.
Lemma dot_const mk nx v b0 : dot (trend_size mk nx) (trend_val mk nx v) (fun k => match k with O => b0 | S _ => 0 end) = b0.
Proof.
  unfold dot. rewrite (sumn_prefix _ 1).
  - cbn [sumn]. rewrite trend_first. ring.
  - apply trend_size_pos.
  - intros [|k] Hk; [lia|ring].
Qed.

Section Data.
  Context (qr : nat -> nat -> mat -> mat * mat) (cond : mat -> bool).
  Context (mk : mean_kind) (ck : corr_kind) (n nx h nt : nat) (theta : vec) (w : mat) (nugget : R) (x : mat) (y : vec) (g : gp).
  Hypothesis Fit : fit qr cond mk ck n nx h nt theta w nugget x y = Some g.
  Hypothesis QR : is_qr n (trend_size mk nx) (i_ft (g_in g)) (qr n (trend_size mk nx) (i_ft (g_in g))).
  Local Notation yd := (fun i => fst (fst (normalize n (fun i _ => y i))) i O).
  Local Notation xd := (fst (fst (normalize n x))).

  Lemma yd_eq i : yd i = (y i - g_ymean g) / g_ystd g.
  Proof.
    pose proof (ystd_pos _ _ _ _ _ _ _ _ _ _ _ _ _ _ Fit). rewrite <- (y_back _ _ _ _ _ _ _ _ _ _ _ _ _ _ Fit i). field. lra.
  Qed.
  Lemma constant_data a : (forall i, (i < n)%nat -> y i = a) -> forall x' i, predict g x' i = Some a /\ predict_var g x' i = Some 0.
  Proof.
    intros Ha x' i. pose proof (ystd_pos _ _ _ _ _ _ _ _ _ _ _ _ _ _ Fit).
    destruct (trend_exact _ _ _ _ _ _ _ _ _ _ _ _ _ _ Fit QR (fun k => match k with O => (a - g_ymean g) / g_ystd g | S _ => 0 end)) with (x' := x') (i := i) as [A B].
    - intros k Hk. unfold fvec. rewrite dot_const, yd_eq, Ha by exact Hk. reflexivity.
    - split; [|exact B]. rewrite A. f_equal. unfold fvec. rewrite dot_const. field. lra.
  Qed.
  Lemma affine_data a0 (a : vec) : mk <> Constant -> (forall i, (i < n)%nat -> y i = a0 + sumn nx (fun j => a j * x i j)) ->
    forall x' i, predict g x' i = Some (a0 + sumn nx (fun j => a j * x' i j)) /\ predict_var g x' i = Some 0.
  Proof.
    intros N Ha x' i. pose proof (ystd_pos _ _ _ _ _ _ _ _ _ _ _ _ _ _ Fit) as YP.
    assert (XP := xstd_pos _ _ _ _ _ _ _ _ _ _ _ _ _ _ Fit).
    set (b0 := (a0 + sumn nx (fun j => a j * g_xmean g j) - g_ymean g) / g_ystd g).
    set (bj := fun j => a j * g_xstd g j / g_ystd g).
    assert (K : forall v : vec, b0 + sumn nx (fun j => xnorm g v j * bj j) = (a0 + sumn nx (fun j => a j * v j) - g_ymean g) / g_ystd g).
    { intros v. unfold b0. rewrite (sumn_ext nx (fun j => xnorm g v j * bj j) (fun j => (a j * v j - a j * g_xmean g j) / g_ystd g)).
      - rewrite (sumn_div nx (g_ystd g) (fun j => a j * v j - a j * g_xmean g j)), (sumn_minus nx (fun j => a j * v j) (fun j => a j * g_xmean g j)).
        set (s1 := sumn nx _). set (s2 := sumn nx _). field. lra.
      - intros j _. unfold xnorm, bj. specialize (XP j). field. lra. }
    destruct (trend_exact _ _ _ _ _ _ _ _ _ _ _ _ _ _ Fit QR (fun k => match k with O => b0 | S j => if Nat.ltb j nx then bj j else 0 end)) with (x' := x') (i := i) as [A B].
    - intros k Hk. unfold fvec. rewrite (dot_affine mk nx _ b0 bj N).
      rewrite <- (xnorm_train _ _ _ _ _ _ _ _ _ _ _ _ _ _ Fit k), K, yd_eq, Ha by exact Hk. reflexivity.
    - split; [|exact B]. rewrite A. f_equal. unfold fvec. rewrite (dot_affine mk nx _ b0 bj N), K. field. lra.
  Qed.
End Data.

Lemma likelihood_chol qr cond n p fx r_mx y ys l inn : reduced_likelihood qr cond n p fx r_mx y ys = Some (l, inn) -> cholesky n r_mx = Some (i_chol inn).
Proof.
  unfold reduced_likelihood. destruct (cholesky n r_mx); [|discriminate]. destruct (qr _ _ _) as [q rr]. destruct (negb (cond rr)); [discriminate|].
  intros H. injection H as _ <-. reflexivity.
Qed.

(** ** Two trainings *)
(** Same inputs, outputs in other units. *)
Section Units.
  Context (qr qr' : nat -> nat -> mat -> mat * mat) (cond cond' : mat -> bool).
  Context (mk : mean_kind) (ck : corr_kind) (n nx h nt : nat) (theta : vec) (w : mat) (nugget : R) (x : mat) (y y' : vec) (g g' : gp).
  Hypothesis Fit : fit qr cond mk ck n nx h nt theta w nugget x y = Some g.
  Hypothesis Fit' : fit qr' cond' mk ck n nx h nt theta w nugget x y' = Some g'.
  Hypothesis QR : is_qr n (trend_size mk nx) (i_ft (g_in g)) (qr n (trend_size mk nx) (i_ft (g_in g))).
  Hypothesis QR' : is_qr n (trend_size mk nx) (i_ft (g_in g')) (qr' n (trend_size mk nx) (i_ft (g_in g'))).
  Context (a b : R).
  Hypothesis Ha : a <> 0.
  Hypothesis Hy : forall i, (i < n)%nat -> y' i = a * y i + b.
  Local Notation yd := (fun i => fst (fst (normalize n (fun i _ => y i))) i O).
  Local Notation yd' := (fun i => fst (fst (normalize n (fun i _ => y' i))) i O).

  Lemma xnorm_same z : xnorm g' z = xnorm g z.
  Proof.
    destruct (fit_inv _ _ _ _ _ _ _ _ _ _ _ _ _ _ Fit) as (t0 & r_mx & ET & N1 & ER & EC & Eft & Err & Eco & EB & EG & ES & E0 & Ex & Eh & Ent & Em & Ec & Eth & Ew & Exd & Exm & Exs & Eym & Eys & Elk).
    destruct (fit_inv _ _ _ _ _ _ _ _ _ _ _ _ _ _ Fit') as (t0' & r_mx' & ET' & N1' & ER' & EC' & Eft' & Err' & Eco' & EB' & EG' & ES' & E0' & Ex' & Eh' & Ent' & Em' & Ec' & Eth' & Ew' & Exd' & Exm' & Exs' & Eym' & Eys' & Elk').
    unfold xnorm. now rewrite Exm, Exs, Exm', Exs'.
  Qed.
  Lemma ymean' : g_ymean g' = a * g_ymean g + b.
  Proof.
    destruct (fit_inv _ _ _ _ _ _ _ _ _ _ _ _ _ _ Fit) as (t0 & r_mx & ET & N1 & ER & EC & Eft & Err & Eco & EB & EG & ES & E0 & Ex & Eh & Ent & Em & Ec & Eth & Ew & Exd & Exm & Exs & Eym & Eys & Elk).
    destruct (fit_inv _ _ _ _ _ _ _ _ _ _ _ _ _ _ Fit') as (t0' & r_mx' & ET' & N1' & ER' & EC' & Eft' & Err' & Eco' & EB' & EG' & ES' & E0' & Ex' & Eh' & Ent' & Em' & Ec' & Eth' & Ew' & Exd' & Exm' & Exs' & Eym' & Eys' & Elk').
    rewrite Eym, Eym'. cbn. unfold mean_axis. rewrite (sumn_ext n (fun i => y' i) (fun i => a * y i + b)) by exact Hy.
    rewrite (sumn_plus n (fun i => a * y i) (fun _ => b)), (sumn_scal_l n a y), (sumn_const n b). change (sumn n (fun i => y i)) with (sumn n y). field. apply not_0_INR. lia.
  Qed.
  Lemma std_scaled : (1 < n)%nat -> std_axis n y' = Rabs a * std_axis n y.
  Proof.
    intros N. assert (M : mean_axis n y' = a * mean_axis n y + b).
    { unfold mean_axis. rewrite (sumn_ext n y' (fun i => a * y i + b)) by exact Hy. rewrite (sumn_plus n (fun i => a * y i) (fun _ => b)), (sumn_scal_l n a y), (sumn_const n b). change (sumn n (fun i => y i)) with (sumn n y). field. apply not_0_INR. lia. }
    unfold std_axis. rewrite M.
    rewrite (sumn_ext n (fun i => (y' i - (a * mean_axis n y + b)) * (y' i - (a * mean_axis n y + b))) (fun i => a * a * ((y i - mean_axis n y) * (y i - mean_axis n y)))).
    2:{ intros i Hi. rewrite Hy by exact Hi. ring. }
    rewrite sumn_scal_l. unfold Rdiv. rewrite Rmult_assoc. rewrite sqrt_mult_alt by apply Rle_0_sqr. f_equal.
    change (a * a) with (Rsqr a). apply sqrt_Rsqr_abs.
  Qed.
  Lemma ystd' : std_axis n y <> 0 -> g_ystd g' = Rabs a * g_ystd g.
  Proof.
    destruct (fit_inv _ _ _ _ _ _ _ _ _ _ _ _ _ _ Fit) as (t0 & r_mx & ET & N1 & ER & EC & Eft & Err & Eco & EB & EG & ES & E0 & Ex & Eh & Ent & Em & Ec & Eth & Ew & Exd & Exm & Exs & Eym & Eys & Elk).
    destruct (fit_inv _ _ _ _ _ _ _ _ _ _ _ _ _ _ Fit') as (t0' & r_mx' & ET' & N1' & ER' & EC' & Eft' & Err' & Eco' & EB' & EG' & ES' & E0' & Ex' & Eh' & Ent' & Em' & Ec' & Eth' & Ew' & Exd' & Exm' & Exs' & Eym' & Eys' & Elk').
    intros S. rewrite Eys, Eys'. cbn [normalize snd]. change (fun i => y i) with y. change (fun i => y' i) with y'.
    rewrite std_scaled by exact N1. destruct (Req_EM_T (std_axis n y) 0); [contradiction|].
    destruct (Req_EM_T (Rabs a * std_axis n y) 0) as [E|]; [|reflexivity].
    apply Rmult_integral in E as [E|E]; [|contradiction]. exfalso. now apply (Rabs_no_R0 a).
  Qed.
  Lemma n_gt1 : (1 < n)%nat.
  Proof. now destruct (fit_inv _ _ _ _ _ _ _ _ _ _ _ _ _ _ Fit) as (t0 & r_mx & ET & N1 & _). Qed.
  Lemma const_case : std_axis n y = 0 -> exists k, forall i, (i < n)%nat -> y i = k.
  Proof. intros S. exists (mean_axis n y). now apply (std_zero n y n_gt1). Qed.
  Lemma scaled_solution be ga : std_axis n y <> 0 ->
    kriging_mean n (trend_size mk nx) (Rmx ck n nx h nt theta w nugget x) (Fmx mk n nx x) yd be ga ->
    kriging_mean n (trend_size mk nx) (Rmx ck n nx h nt theta w nugget x) (Fmx mk n nx x) yd' (fun j => a / Rabs a * be j) (fun i => a / Rabs a * ga i).
  Proof.
    intros S [H1 H2]. split.
    - intros i Hi. rewrite !mv_scal. rewrite <- Rmult_plus_distr_l, H1 by exact Hi. cbv beta.
      rewrite (yd_eq _ _ _ _ _ _ _ _ _ _ _ _ _ _ Fit), (yd_eq _ _ _ _ _ _ _ _ _ _ _ _ _ _ Fit'), ymean', (ystd' S), Hy by exact Hi.
      pose proof (ystd_pos _ _ _ _ _ _ _ _ _ _ _ _ _ _ Fit). field. split; [lra|now apply Rabs_no_R0].
    - intros j Hj. rewrite mv_scal, H2 by exact Hj. ring.
  Qed.
  Lemma units_equivariance x' i v s : predict g x' i = Some v -> predict_var g x' i = Some s ->
    predict g' x' i = Some (a * v + b) /\ predict_var g' x' i = Some (a * a * s).
  Proof.
    intros HV HS. destruct (Req_dec (std_axis n y) 0) as [S|S].
    - destruct (const_case S) as [k Hk].
      destruct (constant_data _ _ _ _ _ _ _ _ _ _ _ _ _ _ Fit QR k Hk x' i) as [A B]. rewrite A in HV. rewrite B in HS. injection HV as <-. injection HS as <-.
      destruct (constant_data _ _ _ _ _ _ _ _ _ _ _ _ _ _ Fit' QR' (a * k + b)) with (x' := x') (i := i) as [A' B'].
      + intros j Hj. now rewrite Hy, Hk.
      + split; [exact A'|]. now rewrite B', Rmult_0_r.
    - pose proof (mean_exists _ _ _ _ _ _ _ _ _ _ _ _ _ _ Fit QR) as K. pose proof (scaled_solution _ _ S K) as K'.
      assert (A0 : Rabs a <> 0) by now apply Rabs_no_R0.
      rewrite (predict_char _ _ _ _ _ _ _ _ _ _ _ _ _ _ Fit QR _ _ K) in HV. injection HV as <-.
      rewrite (predict_char _ _ _ _ _ _ _ _ _ _ _ _ _ _ Fit' QR' _ _ K'), xnorm_same, ymean', (ystd' S). split.
      + f_equal. rewrite (dot_comm _ _ (fun j => a / Rabs a * _)), (dot_comm _ _ (fun i => a / Rabs a * _)).
        rewrite (dot_comm _ _ (i_beta (g_in g))), (dot_comm _ _ (i_gamma (g_in g))). unfold dot.
        rewrite (sumn_ext _ (fun i0 => a / Rabs a * i_beta (g_in g) i0 * _) (fun i0 => a / Rabs a * (i_beta (g_in g) i0 * fvec mk nx (xnorm g (x' i)) i0))) by (intros; ring).
        rewrite (sumn_ext _ (fun i0 => a / Rabs a * i_gamma (g_in g) i0 * _) (fun i0 => a / Rabs a * (i_gamma (g_in g) i0 * rvec ck n nx h nt theta w x (xnorm g (x' i)) i0))) by (intros; ring).
        rewrite !sumn_scal_l. field. exact A0.
      + rewrite (predict_var_eq _ _ _ _ _ _ _ _ _ _ _ _ _ _ Fit) in HS. injection HS as <-.
        rewrite (predict_var_eq _ _ _ _ _ _ _ _ _ _ _ _ _ _ Fit'), xnorm_same. cbv zeta.
        pose proof (var_exists _ _ _ _ _ _ _ _ _ _ _ _ _ _ Fit QR (rvec ck n nx h nt theta w x (xnorm g (x' i))) (fvec mk nx (xnorm g (x' i)))) as V.
        rewrite <- (var_unique _ _ _ _ _ _ _ _ _ _ _ _ _ _ Fit' QR' _ _ _ V). set (m := mse_of mk n nx g _ _).
        rewrite (sigma2_char _ _ _ _ _ _ _ _ _ _ _ _ _ _ Fit QR _ _ K), (sigma2_char _ _ _ _ _ _ _ _ _ _ _ _ _ _ Fit' QR' _ _ K'), (ystd' S).
        set (R' := Rmx ck n nx h nt theta w nugget x). set (ga := i_gamma (g_in g)).
        assert (E : dot n (fun i0 => a / Rabs a * ga i0) (mv n R' (fun i0 => a / Rabs a * ga i0)) = a * a / (Rabs a * Rabs a) * dot n ga (mv n R' ga)).
        { unfold dot. rewrite <- sumn_scal_l. apply sumn_ext. intros j Hj. rewrite mv_scal. field. exact A0. }
        assert (N0 : INR n <> 0) by (apply not_0_INR; pose proof n_gt1; lia).
        replace (dot n (fun i0 => a / Rabs a * ga i0) (mv n R' (fun i0 => a / Rabs a * ga i0)) / INR n * (Rabs a * g_ystd g) * (Rabs a * g_ystd g) * m)
          with (a * a * (dot n ga (mv n R' ga) / INR n * g_ystd g * g_ystd g * m)) by (rewrite E; field; auto).
        set (q := dot n ga (mv n R' ga) / INR n * g_ystd g * g_ystd g * m).
        assert (P : 0 < a * a) by (apply Rsqr_pos_lt; exact Ha).
        destruct (Rlt_dec q 0), (Rlt_dec (a * a * q) 0); try lra; [f_equal; ring| | |f_equal]; exfalso.
        * apply n0. replace 0 with (a * a * 0) by ring. now apply Rmult_lt_compat_l.
        * apply n0. apply Rmult_lt_reg_l with (a * a); [exact P|lra].
  Qed.
  (** The likelihood is the same: the tuning of hyperparameters does not depend on output units. *)
  Lemma units_likelihood : std_axis n y <> 0 -> g_lkh g' = g_lkh g.
  Proof.
    intros S. pose proof (mean_exists _ _ _ _ _ _ _ _ _ _ _ _ _ _ Fit QR) as K. pose proof (scaled_solution _ _ S K) as K'.
    pose proof (sigma2_char _ _ _ _ _ _ _ _ _ _ _ _ _ _ Fit QR _ _ K) as C1. pose proof (sigma2_char _ _ _ _ _ _ _ _ _ _ _ _ _ _ Fit' QR' _ _ K') as C2.
    pose proof (ystd_pos _ _ _ _ _ _ _ _ _ _ _ _ _ _ Fit) as P. pose proof (ystd_pos _ _ _ _ _ _ _ _ _ _ _ _ _ _ Fit') as P'.
    assert (EL : i_chol (g_in g') = i_chol (g_in g)).
    { revert Fit Fit'. clear. unfold fit. destruct (normalize n x) as [[xd xm] xs]. destruct (normalize n (fun i _ => y i)) as [[? ?] ?], (normalize n (fun i _ => y' i)) as [[? ?] ?].
      destruct (cross_diff n xd) as [[[rows ind] d]|]; [|discriminate]. destruct (Nat.eqb rows 0); [discriminate|].
      destruct (value_theta ck nt h theta); [|discriminate].
      destruct (reduced_likelihood qr _ _ _ _ _ _ _) as [[? ?]|] eqn:E1; [|discriminate].
      destruct (reduced_likelihood qr' _ _ _ _ _ _ _) as [[? ?]|] eqn:E2; [|discriminate].
      intros A B. injection A as <-. injection B as <-. cbn [g_in]. apply likelihood_chol in E1. apply likelihood_chol in E2. congruence. }
    destruct (fit_inv _ _ _ _ _ _ _ _ _ _ _ _ _ _ Fit) as (t0 & r_mx & ET & N1 & ER & EC & Eft & Err & Eco & EB & EG & ES & E0 & Ex & Eh & Ent & Em & Ec & Eth & Ew & Exd & Exm & Exs & Eym & Eys & Elk).
    destruct (fit_inv _ _ _ _ _ _ _ _ _ _ _ _ _ _ Fit') as (t0' & r_mx' & ET' & N1' & ER' & EC' & Eft' & Err' & Eco' & EB' & EG' & ES' & E0' & Ex' & Eh' & Ent' & Em' & Ec' & Eth' & Ew' & Exd' & Exm' & Exs' & Eym' & Eys' & Elk').
    rewrite Elk, Elk', EL. do 2 f_equal. f_equal.
    rewrite ES in C1. rewrite ES' in C2.
    apply Rmult_eq_reg_r in C1; [|lra]. apply Rmult_eq_reg_r in C1; [|lra].
    apply Rmult_eq_reg_r in C2; [|lra]. apply Rmult_eq_reg_r in C2; [|lra].
    rewrite EL in C2. etransitivity; [exact C2|]. symmetry. etransitivity; [exact C1|]. f_equal.
    unfold dot. apply sumn_ext. intros j Hj. rewrite mv_scal.
    assert (A0 : Rabs a <> 0) by now apply Rabs_no_R0.
    assert (Q : a / Rabs a * (a / Rabs a) = 1).
    { replace (a / Rabs a * (a / Rabs a)) with (a * a / (Rabs a * Rabs a)) by (field; exact A0).
      rewrite <- Rabs_mult, (Rabs_pos_eq (a * a)) by apply Rle_0_sqr. field. exact Ha. }
    transitivity ((a / Rabs a * (a / Rabs a)) * (i_gamma (g_in g) j * mv n (Rmx ck n nx h nt theta w nugget x) (i_gamma (g_in g)) j)); [rewrite Q; ring|ring].
  Qed.
End Units.

(** Observations in another order. *)
Section Order.
  Context (qr qr' : nat -> nat -> mat -> mat * mat) (cond cond' : mat -> bool).
  Context (mk : mean_kind) (ck : corr_kind) (n nx h nt : nat) (theta : vec) (w : mat) (nugget : R) (x : mat) (y : vec) (s : nat -> nat) (g g' : gp).
  Hypothesis Fit : fit qr cond mk ck n nx h nt theta w nugget x y = Some g.
  Hypothesis Fit' : fit qr' cond' mk ck n nx h nt theta w nugget (fun i => x (s i)) (fun i => y (s i)) = Some g'.
  Hypothesis QR : is_qr n (trend_size mk nx) (i_ft (g_in g)) (qr n (trend_size mk nx) (i_ft (g_in g))).
  Hypothesis QR' : is_qr n (trend_size mk nx) (i_ft (g_in g')) (qr' n (trend_size mk nx) (i_ft (g_in g'))).
  Hypothesis Perm : permutes n s.
  Local Notation p := (trend_size mk nx).

  Lemma mean_perm v : mean_axis n (fun i => v (s i)) = mean_axis n v.
  Proof. unfold mean_axis. f_equal. now apply sumn_perm. Qed.
  Lemma std_perm v : std_axis n (fun i => v (s i)) = std_axis n v.
  Proof.
    unfold std_axis. rewrite mean_perm. do 2 f_equal.
    exact (sumn_perm n s (fun i => (v i - mean_axis n v) * (v i - mean_axis n v)) Perm).
  Qed.
  Lemma normalize_perm (m : mat) : normalize n (fun i => m (s i)) =
    (fun i => fst (fst (normalize n m)) (s i), snd (fst (normalize n m)), snd (normalize n m)).
  Proof.
    unfold normalize. cbn [fst snd].
    assert (M : forall j, mean_axis n (fun i => m (s i) j) = mean_axis n (fun i => m i j)) by (intros j; exact (mean_perm (fun i => m i j))).
    assert (S : forall j, std_axis n (fun i => m (s i) j) = std_axis n (fun i => m i j)) by (intros j; exact (std_perm (fun i => m i j))).
    f_equal; [f_equal|].
    - apply functional_extensionality. intros i. apply functional_extensionality. intros j. now rewrite M, S.
    - apply functional_extensionality. intros j. now rewrite M.
    - apply functional_extensionality. intros j. now rewrite S.
  Qed.
  Lemma order_invariance x' i : predict g' x' i = predict g x' i /\ predict_var g' x' i = predict_var g x' i.
  Proof.
    destruct (fit_inv _ _ _ _ _ _ _ _ _ _ _ _ _ _ Fit) as (t0 & r_mx & ET & N1 & ER & EC & Eft & Err & Eco & EB & EG & ES & E0 & Ex & Eh & Ent & Em & Ec & Eth & Ew & Exd & Exm & Exs & Eym & Eys & Elk).
    destruct (fit_inv _ _ _ _ _ _ _ _ _ _ _ _ _ _ Fit') as (t0' & r_mx' & ET' & N1' & ER' & EC' & Eft' & Err' & Eco' & EB' & EG' & ES' & E0' & Ex' & Eh' & Ent' & Em' & Ec' & Eth' & Ew' & Exd' & Exm' & Exs' & Eym' & Eys' & Elk').
    pose proof (normalize_perm x) as NX. pose proof (normalize_perm (fun i _ => y i)) as NY. cbv beta in NY.
    assert (XN : forall z, xnorm g' z = xnorm g z).
    { intros z. unfold xnorm. rewrite Exm, Exs, Exm', Exs', NX. reflexivity. }
    assert (YM : g_ymean g' = g_ymean g) by (rewrite Eym, Eym', NY; reflexivity).
    assert (YS : g_ystd g' = g_ystd g) by (rewrite Eys, Eys', NY; reflexivity).
    set (R1 := Rmx ck n nx h nt theta w nugget x). set (F1 := Fmx mk n nx x).
    set (R2 := Rmx ck n nx h nt theta w nugget (fun i => x (s i))). set (F2 := Fmx mk n nx (fun i => x (s i))).
    assert (ER2 : forall i j, (i < n)%nat -> (j < n)%nat -> R2 i j = R1 (s i) (s j)).
    { intros a b Ha Hb. unfold R2, R1, Rmx. rewrite NX. cbn [fst].
      destruct (Nat.eqb_spec a b) as [->|Nab]; [now rewrite Nat.eqb_refl|].
      destruct (Nat.eqb_spec (s a) (s b)) as [E|]; [|reflexivity]. exfalso. apply Nab. now apply Perm. }
    assert (EF2 : forall i j, F2 i j = F1 (s i) j).
    { intros a b. unfold F2, F1, Fmx. now rewrite NX. }
    assert (ERv : forall z i, rvec ck n nx h nt theta w (fun i => x (s i)) z i = rvec ck n nx h nt theta w x z (s i)).
    { intros z k. unfold rvec. now rewrite NX. }
    assert (MR : forall v i, (i < n)%nat -> mv n R2 (fun k => v (s k)) i = mv n R1 v (s i)).
    { intros v k Hk. unfold mv. rewrite <- (sumn_perm n s (fun j => R1 (s k) j * v j) Perm). apply sumn_ext. intros j Hj. now rewrite ER2. }
    assert (MD : forall u v, dot n (fun k => u (s k)) (fun k => v (s k)) = dot n u v).
    { intros u v. exact (sumn_perm n s (fun j => u j * v j) Perm). }
    pose proof (mean_exists _ _ _ _ _ _ _ _ _ _ _ _ _ _ Fit QR) as K.
    assert (K' : kriging_mean n p R2 F2 (fun i => fst (fst (normalize n (fun i _ => y (s i)))) i O) (i_beta (g_in g)) (fun i => i_gamma (g_in g) (s i))).
    { destruct K as [K1 K2]. split.
      - intros k Hk. rewrite MR by exact Hk. rewrite NY. cbn [fst]. rewrite <- (K1 (s k)) by now apply Perm. f_equal.
        unfold mv. apply sumn_ext. intros j Hj. now rewrite EF2.
      - intros j Hj. rewrite <- (K2 j Hj). unfold mv, tr.
        rewrite <- (sumn_perm n s (fun i => Fmx mk n nx x i j * i_gamma (g_in g) i) Perm). apply sumn_ext. intros k Hk. now rewrite EF2. }
    split.
    - rewrite (predict_char _ _ _ _ _ _ _ _ _ _ _ _ _ _ Fit QR _ _ K), (predict_char _ _ _ _ _ _ _ _ _ _ _ _ _ _ Fit' QR' _ _ K').
      rewrite XN, YM, YS. do 4 f_equal.
      rewrite (dot_ext n _ _ (fun k => rvec ck n nx h nt theta w x (xnorm g (x' i)) (s k)) (fun k => i_gamma (g_in g) (s k))) by (intros; auto). apply MD.
    - rewrite (predict_var_eq _ _ _ _ _ _ _ _ _ _ _ _ _ _ Fit), (predict_var_eq _ _ _ _ _ _ _ _ _ _ _ _ _ _ Fit'). cbv zeta. rewrite XN.
      set (r := rvec ck n nx h nt theta w x (xnorm g (x' i))). set (f := fvec mk nx (xnorm g (x' i))).
      set (r2 := rvec ck n nx h nt theta w (fun i => x (s i)) (xnorm g (x' i))).
      assert (V2 : kriging_var n p R2 F2 r2 f (mse_of mk n nx g r f)).
      { destruct (var_exists _ _ _ _ _ _ _ _ _ _ _ _ _ _ Fit QR r f) as (z & X & b & Hz & HX & Hb & HM). rewrite HM.
        assert (DR : forall v, dot n r2 (fun k => v (s k)) = dot n r v).
        { intros v. rewrite <- (MD r v). apply dot_ext; [intros; apply ERv|reflexivity]. }
        exists (fun k => z (s k)), (fun j k => X j (s k)), b. split; [|split; [|split]].
        - intros k Hk. rewrite MR by exact Hk. unfold r2. rewrite ERv. apply Hz. now apply Perm.
        - intros j k Hj Hk. rewrite (MR (X j)) by exact Hk. rewrite EF2. apply HX; [exact Hj|now apply Perm].
        - intros j Hj. rewrite DR, <- Hb by exact Hj. apply sumn_ext. intros l Hl. f_equal.
          rewrite <- (MD (fun i => Fmx mk n nx x i j) (X l)). apply dot_ext; [intros; apply EF2|reflexivity].
        - rewrite DR. f_equal. apply dot_ext; [reflexivity|]. intros j Hj. now rewrite DR. }
      rewrite <- (var_unique _ _ _ _ _ _ _ _ _ _ _ _ _ _ Fit' QR' _ _ _ V2).
      rewrite (sigma2_char _ _ _ _ _ _ _ _ _ _ _ _ _ _ Fit QR _ _ K), (sigma2_char _ _ _ _ _ _ _ _ _ _ _ _ _ _ Fit' QR' _ _ K'), YS.
      assert (E : dot n (fun i => i_gamma (g_in g) (s i)) (mv n R2 (fun i => i_gamma (g_in g) (s i))) = dot n (i_gamma (g_in g)) (mv n R1 (i_gamma (g_in g)))).
      { rewrite <- (MD (i_gamma (g_in g)) (mv n R1 (i_gamma (g_in g)))). apply dot_ext; [reflexivity|]. intros k Hk. now rewrite MR. }
      fold R2. rewrite E. reflexivity.
  Qed.
End Order.

(** Inputs in other units: every column is mapped by t -> a t + b with a > 0. *)
Section InputUnits.
  Context (qr : nat -> nat -> mat -> mat * mat) (cond : mat -> bool).
  Context (mk : mean_kind) (ck : corr_kind) (n nx h nt : nat) (theta : vec) (w : mat) (nugget : R) (x : mat) (y : vec) (a b : vec) (g : gp).
  Hypothesis Fit : fit qr cond mk ck n nx h nt theta w nugget x y = Some g.
  Hypothesis Ha : forall j, 0 < a j.
  Hypothesis Hv : forall j, exists i k, (i < n)%nat /\ (k < n)%nat /\ x i j <> x k j.
  Definition scaled (m : mat) : mat := fun i j => a j * m i j + b j.

  Lemma normalize_scaled : normalize n (scaled x) =
    (fst (fst (normalize n x)), fun j => a j * snd (fst (normalize n x)) j + b j, fun j => a j * snd (normalize n x) j).
  Proof.
    assert (N1 : (1 < n)%nat) by now destruct (fit_inv _ _ _ _ _ _ _ _ _ _ _ _ _ _ Fit) as (t0 & r_mx & ET & N1 & _).
    assert (M : forall j, mean_axis n (fun i => scaled x i j) = a j * mean_axis n (fun i => x i j) + b j).
    { intros j. unfold mean_axis, scaled. rewrite (sumn_plus n (fun i => a j * x i j) (fun _ => b j)), (sumn_scal_l n (a j) (fun i => x i j)), (sumn_const n (b j)). field. apply not_0_INR. lia. }
    assert (S : forall j, std_axis n (fun i => scaled x i j) = a j * std_axis n (fun i => x i j)).
    { intros j. unfold std_axis. rewrite M. unfold scaled.
      rewrite (sumn_ext n _ (fun i => a j * a j * ((x i j - mean_axis n (fun i => x i j)) * (x i j - mean_axis n (fun i => x i j))))) by (intros; ring).
      rewrite sumn_scal_l. unfold Rdiv. rewrite Rmult_assoc, sqrt_mult_alt by apply Rle_0_sqr. f_equal. apply sqrt_square. left. apply Ha. }
    assert (Z : forall j, std_axis n (fun i => x i j) <> 0).
    { intros j E. destruct (Hv j) as [i [k [Hi [Hk N]]]]. apply N. pose proof (proj1 (std_zero n (fun i => x i j) N1) E) as C. cbv beta in C.
      now rewrite (C i Hi), (C k Hk). }
    assert (Z' : forall j, a j * std_axis n (fun i => x i j) <> 0).
    { intros j E. apply Rmult_integral in E as [E|E]; [specialize (Ha j); lra|now apply (Z j)]. }
    unfold normalize. cbn [fst snd]. f_equal; [f_equal|].
    - apply functional_extensionality. intros i. apply functional_extensionality. intros j. rewrite M, S.
      destruct (Req_EM_T (a j * _) 0) as [E|_]; [now apply Z' in E|]. destruct (Req_EM_T (std_axis n _) 0) as [E|_]; [now apply Z in E|].
      unfold scaled. specialize (Ha j). specialize (Z j). field. split; [exact Z|lra].
    - apply functional_extensionality. intros j. now rewrite M.
    - apply functional_extensionality. intros j. rewrite S.
      destruct (Req_EM_T (a j * _) 0) as [E|_]; [now apply Z' in E|]. destruct (Req_EM_T (std_axis n _) 0) as [E|_]; [now apply Z in E|]. reflexivity.
  Qed.
  (** The training on scaled inputs succeeds with the same likelihood and predicts the same at scaled points. *)
  Lemma input_units : exists g', fit qr cond mk ck n nx h nt theta w nugget (scaled x) y = Some g' /\ g_lkh g' = g_lkh g /\
    forall x' i, predict g' (scaled x') i = predict g x' i /\ predict_var g' (scaled x') i = predict_var g x' i.
  Proof.
    pose proof (xstd_pos _ _ _ _ _ _ _ _ _ _ _ _ _ _ Fit) as XP.
    pose proof normalize_scaled as NS. pose proof Fit as Fit0. revert Fit0 XP NS. clear Fit. unfold fit. intros Fit0 XP NS. rewrite NS. revert Fit0 XP. destruct (normalize n x) as [[xd xm] xs] eqn:EX. cbn [fst snd].
    destruct (normalize n (fun i _ => y i)) as [[yd ym] ys]. destruct (cross_diff n xd) as [[[rows ind] d]|]; [|discriminate].
    destruct (Nat.eqb rows 0); [discriminate|]. destruct (value_theta ck nt h theta) as [th|]; [|discriminate].
    destruct (reduced_likelihood _ _ _ _ _ _ _ _) as [[lk inn]|]; [|discriminate]. intros H XP. injection H as <-. cbn [g_xstd] in XP.
    eexists. split; [reflexivity|]. split; [reflexivity|]. intros x' i.
    assert (N : forall v : vec, xnorm (mkgp n nx h nt mk ck theta w xd (fun j => a j * xm j + b j) (fun j => a j * xs j) (ym O) (ys O) lk inn) (fun j => a j * v j + b j) =
               xnorm (mkgp n nx h nt mk ck theta w xd xm xs (ym O) (ys O) lk inn) v).
    { intros v. apply functional_extensionality. intros j. unfold xnorm. cbn. specialize (Ha j). specialize (XP j). field. lra. }
    assert (N' : (fun c => xnorm (mkgp n nx h nt mk ck theta w xd (fun j => a j * xm j + b j) (fun j => a j * xs j) (ym O) (ys O) lk inn) (scaled x' c)) =
                 (fun c => xnorm (mkgp n nx h nt mk ck theta w xd xm xs (ym O) (ys O) lk inn) (x' c))).
    { apply functional_extensionality. intros c. apply N. }
    unfold predict, predict_var. cbv zeta beta. rewrite N'. pose proof (N (x' i)) as Ni. change (fun j => a j * x' i j + b j) with (scaled x' i) in Ni.
    rewrite Ni. split; reflexivity.
  Qed.
End InputUnits.

(** ** Dependence on the components of a point *)
Lemma trend_ext mk nx (u v : vec) : (forall j, (j < nx)%nat -> u j = v j) -> trend_row mk nx u = trend_row mk nx v.
Proof.
  intros H. assert (M : map u (seq 0 nx) = map v (seq 0 nx)).
  { apply map_ext_in. intros j Hj. apply in_seq in Hj. apply H. lia. }
  destruct mk; cbn [trend_row]; [reflexivity|now rewrite M|]. rewrite M. f_equal.
  assert (F : forall l, (forall k, In k l -> (k < nx)%nat) ->
    flat_map (fun k => map (fun j => u j * u k) (seq k (nx - k))) l = flat_map (fun k => map (fun j => v j * v k) (seq k (nx - k))) l).
  { induction l as [|k l IH]; intros Hl; cbn [flat_map]; [reflexivity|]. f_equal.
    - apply map_ext_in. intros j Hj. apply in_seq in Hj. specialize (Hl k (or_introl eq_refl)). rewrite !H by lia. reflexivity.
    - apply IH. intros k' Hk'. apply Hl. now right. }
  apply F. intros k Hk. apply in_seq in Hk. lia.
Qed.
Lemma mse_ext mk n nx g r r' f f' : (forall l, (l < n)%nat -> r l = r' l) -> (forall l, (l < trend_size mk nx)%nat -> f l = f' l) ->
  mse_of mk n nx g r f = mse_of mk n nx g r' f'.
Proof.
  intros Hr Hf. assert (Rt : forall i, (i < n)%nat -> rt_of n g r i = rt_of n g r' i) by (intros i Hi; apply fsub_ext; auto).
  assert (U : forall i, (i < trend_size mk nx)%nat -> u_of mk n nx g r f i = u_of mk n nx g r' f' i).
  { intros i Hi. apply fsub_ext; auto. intros j Hj. rewrite Hf by exact Hj. f_equal. now apply mv_ext. }
  unfold mse_of. f_equal; [f_equal|]; apply dot_ext; auto.
Qed.
Section Cov.
  Context (qr : nat -> nat -> mat -> mat * mat) (cond : mat -> bool).
  Context (mk : mean_kind) (ck : corr_kind) (n nx h nt : nat) (theta : vec) (w : mat) (nugget : R) (x : mat) (y : vec) (g : gp).
  Hypothesis Fit : fit qr cond mk ck n nx h nt theta w nugget x y = Some g.
  Local Notation rv z := (rvec ck n nx h nt theta w x (xnorm g z)).
  Local Notation fv z := (fvec mk nx (xnorm g z)).
  Lemma covariance_eq m (x' : mat) i k : (i < m)%nat -> (k < m)%nat -> compute_covariance g m x' i k =
    Some (i_sigma2 (g_in g) * (kval ck nx h (theta_used ck h nt theta) w (fun c => xnorm g (x' i) c - xnorm g (x' k) c)
      - dot n (rt_of n g (rv (x' i))) (rt_of n g (rv (x' k)))
      + dot (trend_size mk nx) (u_of mk n nx g (rv (x' i)) (fv (x' i))) (u_of mk n nx g (rv (x' k)) (fv (x' k))))).
  Proof.
    intros Hi Hk. unfold compute_covariance.
    destruct (correlation_row _ _ _ _ _ _ _ _ _ _ _ _ _ _ Fit (fun a => xnorm g (x' a)) i) as [ci [Ei HCi]].
    destruct (correlation_row _ _ _ _ _ _ _ _ _ _ _ _ _ _ Fit (fun a => xnorm g (x' a)) k) as [ck' [Ek HCk]].
    rewrite Ei, Ek, (theta_eq _ _ _ _ _ _ _ _ _ _ _ _ _ _ Fit).
    destruct (fit_inv _ _ _ _ _ _ _ _ _ _ _ _ _ _ Fit) as (t0 & r_mx & ET & N1 & ER & EC & Eft & Err & Eco & EB & EG & ES & E0 & Ex & Eh & Ent & Em & Ec & Eth & Ew & Exd & Exm & Exs & Eym & Eys & Elk).
    unfold compute_rt_u. rewrite E0, Ex, Eh, Em, Ec, Ew. cbn zeta. f_equal. f_equal.
    assert (Ri : forall j, (j < n)%nat -> fsub n (i_chol (g_in g)) ci j = rt_of n g (rv (x' i)) j) by (intros j Hj; apply fsub_ext; auto).
    assert (Rk : forall j, (j < n)%nat -> fsub n (i_chol (g_in g)) ck' j = rt_of n g (rv (x' k)) j) by (intros j Hj; apply fsub_ext; auto).
    f_equal; [f_equal|].
    - apply kval_ext. intros c _. unfold pairwise_differences.
      assert (D : ((i * m + k) / m = i)%nat) by (rewrite Nat.div_add_l, Nat.div_small; lia).
      assert (M : ((i * m + k) mod m = k)%nat) by (rewrite Nat.add_comm, Nat.mod_add, Nat.mod_small; lia).
      now rewrite D, M.
    - now apply dot_ext.
    - apply dot_ext; intros j Hj; apply fsub_ext; auto; intros l Hl; (f_equal; now apply mv_ext).
  Qed.
End Cov.
