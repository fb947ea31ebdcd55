From Coq Require Import Reals Lra Lia Arith.
From Coquelicot Require Import Coquelicot.
From Coq Require Import List Bool Permutation FunctionalExtensionality.
From Verif Require Import RVec Util Moe_Model Kern_Model Kern_Spec Kern_Proofs Gp_Model Gp_Spec Gp_Lin Tune_Model Sgp_Model Sgp_Spec.
Import ListNotations.
Local Open Scope R_scope.

Lemma eye_sum n i (b : vec) : (i < n)%nat -> sumn n (fun k => eye i k * b k) = b i.
Proof.
  intros Hi. rewrite (sumn_only n (fun k => eye i k * b k) i Hi).
  - unfold eye. rewrite Nat.eqb_refl. ring.
  - intros j _ N. unfold eye. destruct (Nat.eqb_spec i j); [congruence|ring].
Qed.
Lemma eye_sym i j : eye i j = eye j i.
Proof. unfold eye. now rewrite Nat.eqb_sym. Qed.

Lemma lower_inv_mv m U b : lower m U -> regular m U -> forall i, (i < m)%nat -> mv m (lower_inv m U) b i = fsub m U b i.
Proof.
  intros Lo Re. apply fsub_unique; [exact Lo|exact Re|]. intros i Hi. rewrite mv_mv.
  transitivity (sumn m (fun k => eye i k * b k)); [|now apply eye_sum]. apply sumn_ext. intros k Hk. f_equal.
  exact (fsub_solves m U (fun l => eye l k) Lo Re i Hi).
Qed.

(** ** Sums of products *)
Lemma gram_quad m P (k : vec) :
  sumn m (fun i => sumn m (fun j => sumn m (fun q => P q j * P q i) * k j) * k i) = dot m (mv m P k) (mv m P k).
Proof.
  transitivity (dot m k (mv m (tr P) (mv m P k))).
  - unfold dot. apply sumn_ext. intros i Hi. rewrite Rmult_comm. f_equal. rewrite mv_mv. apply sumn_ext. intros j Hj. f_equal.
    apply sumn_ext. intros q Hq. unfold tr. ring.
  - rewrite dot_mv. reflexivity.
Qed.
Lemma quad_form m (U B : mat) (k : vec) :
  sumn m (fun i => sumn m (fun j => sumn m (fun q => sumn m (fun r => U r j * B r q) * U q i) * k j) * k i) =
  sumn m (fun q => sumn m (fun r => B r q * mv m U k r) * mv m U k q).
Proof.
  transitivity (sumn m (fun i => sumn m (fun q => sumn m (fun r => B r q * mv m U k r) * (U q i * k i)))).
  - apply sumn_ext. intros i _. rewrite <- (sumn_scal_r m (k i)).
    transitivity (sumn m (fun j => sumn m (fun q => sumn m (fun r => U r j * B r q) * U q i * k j * k i))).
    { apply sumn_ext. intros j _. rewrite <- !sumn_scal_r. reflexivity. }
    rewrite sumn_swap. apply sumn_ext. intros q _.
    transitivity (sumn m (fun j => sumn m (fun r => U r j * B r q * (U q i * k j * k i)))).
    { apply sumn_ext. intros j _. rewrite sumn_scal_r. ring. }
    rewrite sumn_swap. rewrite <- sumn_scal_r. apply sumn_ext. intros r _. unfold mv. rewrite <- sumn_scal_l, <- sumn_scal_r.
    apply sumn_ext. intros j _. ring.
  - rewrite sumn_swap. apply sumn_ext. intros q _. unfold mv at 2. rewrite sumn_scal_l. reflexivity.
Qed.
Lemma dot_minus_l n a b c : dot n (fun i => a i - b i) c = dot n a c - dot n b c.
Proof. unfold dot. rewrite <- sumn_minus. apply sumn_ext. intros; ring. Qed.

(** ** The solver built from a Cholesky factor *)
Section Chol.
  Context (m : nat) (A : mat) (l : mat).
  Hypothesis Sy : symmetric m A.
  Hypothesis Ch : cholesky m A = Some l.
  Definition asol (b : vec) : vec := bsub m (tr l) (fsub m l b).
  Lemma ch_lower : lower m l. Proof. apply (cholesky_correct m A l Sy Ch). Qed.
  Lemma ch_regular : regular m l.
  Proof. intros i Hi. pose proof (proj1 (proj2 (cholesky_correct m A l Sy Ch)) i Hi). lra. Qed.
  Lemma ch_mv x i : (i < m)%nat -> mv m A x i = mv m l (mv m (tr l) x) i.
  Proof.
    intros Hi. rewrite mv_mv. unfold mv. apply sumn_ext. intros k Hk. f_equal. symmetry.
    exact (proj2 (proj2 (cholesky_correct m A l Sy Ch)) i k Hi Hk).
  Qed.
  Lemma asol_solves b : solves m A (asol b) b.
  Proof.
    intros i Hi. rewrite ch_mv by exact Hi. unfold asol.
    rewrite (mv_ext m l _ (fsub m l b)).
    - apply fsub_solves; [exact ch_lower|exact ch_regular|exact Hi].
    - intros j Hj. apply bsub_solves; [apply upper_tr, ch_lower|apply regular_tr, ch_regular|exact Hj].
  Qed.
  Lemma tr_solution x b : solves m A x b -> forall i, (i < m)%nat -> mv m (tr l) x i = fsub m l b i.
  Proof.
    intros H. apply fsub_unique; [exact ch_lower|exact ch_regular|]. intros i Hi. rewrite <- ch_mv by exact Hi. now apply H.
  Qed.
  Lemma asol_unique x b : solves m A x b -> forall i, (i < m)%nat -> x i = asol b i.
  Proof.
    intros H. unfold asol. apply bsub_unique; [apply upper_tr, ch_lower|apply regular_tr, ch_regular|]. now apply tr_solution.
  Qed.
  (** b^T A^-1 c *)
  Lemma asol_dot x b c : solves m A x c -> dot m b x = dot m (fsub m l b) (fsub m l c).
  Proof.
    intros H. transitivity (dot m (mv m l (fsub m l b)) x).
    - apply dot_ext; [|reflexivity]. intros i Hi. symmetry. apply fsub_solves; [exact ch_lower|exact ch_regular|exact Hi].
    - rewrite dot_comm, dot_mv. rewrite dot_comm. apply dot_ext; [reflexivity|]. now apply tr_solution.
  Qed.
End Chol.

(** ** Conditioning through a low rank matrix *)
Section Woodbury.
  Context (m n : nat) (V : mat) (nu : vec) (l : mat).
  Hypothesis Nu : forall j, (j < n)%nat -> nu j <> 0.
  Definition Am : mat := fun i j => eye i j + sumn n (fun k => V i k * (1 / nu k) * V j k).
  Hypothesis Ch : cholesky m Am = Some l.
  Lemma Am_sym : symmetric m Am.
  Proof. intros i j _ _. unfold Am. rewrite eye_sym. f_equal. apply sumn_ext. intros; ring. Qed.
  Definition gram : mat := fun i j => dot m (fun k => V k i) (fun k => V k j).
  Definition Cm : mat := plus_diag gram nu.

  Lemma Cm_mv w j : (j < n)%nat -> mv n Cm w j = dot m (fun k => V k j) (mv n V w) + nu j * w j.
  Proof.
    intros Hj. unfold mv at 1, Cm, plus_diag.
    transitivity (sumn n (fun i => gram j i * w i) + sumn n (fun i => eye j i * (nu j * w i))).
    - rewrite <- sumn_plus. apply sumn_ext. intros i Hi. unfold eye. destruct (Nat.eqb_spec j i) as [->|]; ring.
    - rewrite (eye_sum n j (fun i => nu j * w i) Hj). f_equal. rewrite dot_mv. unfold dot, mv, tr, gram, dot. apply sumn_ext. intros i Hi.
      f_equal. apply sumn_ext. intros; ring.
  Qed.
  Lemma Am_mv g i : (i < m)%nat -> mv m Am g i = g i + mv n V (fun j => 1 / nu j * dot m (fun k => V k j) g) i.
  Proof.
    intros Hi. unfold mv at 1, Am.
    transitivity (sumn m (fun k => eye i k * g k) + sumn m (fun k => sumn n (fun q => V i q * (1 / nu q) * V k q) * g k)).
    - rewrite <- sumn_plus. apply sumn_ext. intros; ring.
    - rewrite (eye_sum m i g Hi). f_equal. unfold mv.
      transitivity (sumn m (fun k => sumn n (fun q => V i q * (1 / nu q) * V k q * g k))).
      + apply sumn_ext. intros k _. now rewrite <- sumn_scal_r.
      + rewrite sumn_swap. apply sumn_ext. intros q _. unfold dot. rewrite <- !sumn_scal_l. apply sumn_ext. intros; ring.
  Qed.

  (** Solving C w = r through A. *)
  Lemma woodbury_sol w r : solves n Cm w r ->
    solves m Am (mv n V w) (mv n V (fun j => 1 / nu j * r j)) /\
    forall j, (j < n)%nat -> w j = 1 / nu j * (r j - dot m (fun k => V k j) (mv n V w)).
  Proof.
    intros H. assert (E : forall j, (j < n)%nat -> w j = 1 / nu j * (r j - dot m (fun k => V k j) (mv n V w))).
    { intros j Hj. specialize (H j Hj). rewrite Cm_mv in H by exact Hj. rewrite <- H. field. now apply Nu. }
    split; [|exact E]. intros i Hi. rewrite Am_mv by exact Hi.
    rewrite (mv_ext n V w (fun j => 1 / nu j * (r j - dot m (fun k => V k j) (mv n V w))) i E) at 1.
    rewrite <- mv_plus. apply mv_ext. intros j Hj. ring.
  Qed.
  Lemma woodbury_ex r : exists w, solves n Cm w r.
  Proof.
    set (g := asol m l (mv n V (fun j => 1 / nu j * r j))).
    exists (fun j => 1 / nu j * (r j - dot m (fun k => V k j) g)). intros j Hj. rewrite Cm_mv by exact Hj.
    assert (E : forall i, (i < m)%nat -> mv n V (fun j => 1 / nu j * (r j - dot m (fun k => V k j) g)) i = g i).
    { intros i Hi. pose proof (asol_solves m Am l Am_sym Ch (mv n V (fun j => 1 / nu j * r j)) i Hi) as S. fold g in S. rewrite Am_mv in S by exact Hi.
      rewrite (mv_ext n V _ (fun j => 1 / nu j * r j - 1 / nu j * dot m (fun k => V k j) g)) by (intros; ring). rewrite mv_minus. lra. }
    rewrite (dot_ext m _ (mv n V (fun j => 1 / nu j * (r j - dot m (fun k => V k j) g))) (fun k => V k j) g); [|reflexivity|exact E].
    field. now apply Nu.
  Qed.

  Context (s : vec) (y : vec).
  Definition cs : vec := fun j => dot m (fun k => V k j) s.
  Definition ya : vec := fun j => 1 / nu j * y j.

  Lemma woodbury_c w : solves n Cm w cs -> solves m Am (fun i => s i - mv n V w i) s /\
    forall j, (j < n)%nat -> w j = 1 / nu j * dot m (fun k => V k j) (fun i => s i - mv n V w i).
  Proof.
    intros H. destruct (woodbury_sol w cs H) as [S E]. split.
    - intros i Hi. rewrite mv_minus, (S i Hi). rewrite Am_mv by exact Hi. unfold cs. ring.
    - intros j Hj. rewrite (E j Hj) at 1. unfold cs. f_equal. unfold dot. rewrite <- sumn_minus. apply sumn_ext. intros; ring.
  Qed.
  Lemma woodbury_mean w : solves n Cm w cs -> dot n w y = dot m (fsub m l s) (fsub m l (mv n V ya)).
  Proof.
    intros H. destruct (woodbury_c w H) as [S E]. rewrite dot_comm with (n := m), <- (asol_dot m Am l Am_sym Ch _ (mv n V ya) s S).
    rewrite dot_comm with (n := m). rewrite dot_mv. apply sumn_ext. intros j Hj. rewrite (E j Hj) at 1. unfold ya.
    change (mv m (tr V) (fun i => s i - mv n V w i) j) with (dot m (fun k => V k j) (fun i => s i - mv n V w i)). ring.
  Qed.
  Lemma woodbury_var w : solves n Cm w cs -> dot n w cs = dot m s s - dot m (fsub m l s) (fsub m l s).
  Proof.
    intros H. destruct (woodbury_c w H) as [S E].
    assert (F : dot n w cs = dot m s (mv n V w)).
    { rewrite dot_mv. rewrite dot_comm. apply dot_ext; [|reflexivity]. intros j Hj. unfold cs, dot, mv, tr. apply sumn_ext. intros; ring. }
    rewrite F. rewrite <- (asol_dot m Am l Am_sym Ch _ s s S). unfold dot. rewrite <- sumn_minus. apply sumn_ext. intros; ring.
  Qed.
  (** y^T C^-1 y *)
  Lemma woodbury_lik w : solves n Cm w y ->
    dot n y w = sumn n (fun i => ya i * y i) - dot m (fsub m l (mv n V ya)) (fsub m l (mv n V ya)).
  Proof.
    intros H. destruct (woodbury_sol w y H) as [S E]. change (fun j => 1 / nu j * y j) with ya in S. rewrite <- (asol_dot m Am l Am_sym Ch _ (mv n V ya) _ S).
    rewrite dot_comm with (n := m), dot_mv, dot_comm with (n := n). unfold dot at 1 2. rewrite <- sumn_minus. apply sumn_ext. intros j Hj.
    rewrite (E j Hj) at 1. unfold ya. change (mv m (tr V) (mv n V w) j) with (dot m (fun k => V k j) (mv n V w)). ring.
  Qed.
  Lemma Am_pd : (forall j, (j < n)%nat -> 0 < nu j) -> positive_definite m Am.
  Proof.
    intros Pos v (i & Hi & Ni).
    assert (E : dot m v (mv m Am v) = dot m v v + sumn n (fun j => 1 / nu j * (dot m (fun k => V k j) v * dot m (fun k => V k j) v))).
    { rewrite (dot_ext m v (mv m Am v) v (fun i => v i + mv n V (fun j => 1 / nu j * dot m (fun k => V k j) v) i)); [|reflexivity|intros; now apply Am_mv].
      transitivity (dot m v v + dot m v (mv n V (fun j => 1 / nu j * dot m (fun k => V k j) v))).
      - unfold dot. rewrite <- sumn_plus. apply sumn_ext. intros; ring.
      - f_equal. rewrite dot_mv. unfold dot at 1. apply sumn_ext. intros j Hj. unfold mv, tr. fold (dot m (fun k => V k j) v). unfold dot. ring. }
    rewrite E. assert (P : 0 < dot m v v).
    { destruct (dot_nonneg m v) as [P|Z]; [exact P|]. exfalso. apply Ni. apply (dot_zero m v); [now symmetry|exact Hi]. }
    assert (Q : 0 <= sumn n (fun j => 1 / nu j * (dot m (fun k => V k j) v * dot m (fun k => V k j) v))).
    { apply sumn_nonneg. intros j Hj. apply Rmult_le_pos; [|apply Rle_0_sqr]. left. apply Rdiv_lt_0_compat; [lra|now apply Pos]. }
    lra.
  Qed.
End Woodbury.

Definition fitc_core (m n : nat) (sigma2 noise nugget : R) (y : vec) (u v : mat) : option (R * woodbury) :=
    let ui := lower_inv m u in
    let nu := fun j => sigma2 - sumn m (fun k => v k j * v k j) + noise in
    let beta := fun j => 1 / nu j in
    let a := fun i j => eye i j + sumn n (fun k => v i k * beta k * v j k) in
    match cholesky m a with
    | None => None
    | Some l =>
      let li := lower_inv m l in
      let ya := fun i => y i * beta i in
      let b := fun i => sumn n (fun j => sumn m (fun k => li i k * v k j) * ya j) in
      let term1 := sumn n (fun j => ln (nu j)) in
      let term2 := 2 * sumn m (fun k => ln (l k k)) in
      let term3 := sumn n (fun i => ya i * y i) in
      let term4 := - sumn m (fun i => b i * b i) in
      let li_ui := fun i j => sumn m (fun k => li i k * ui k j) in
      Some (- (1 / 2) * (term1 + term2 + term3 + term4),
            mkw (fun i => sumn m (fun k => li_ui k i * b k))
                (fun i j => sumn m (fun k => ui k i * ui k j) - sumn m (fun k => li_ui k i * li_ui k j)))
    end.
Lemma fitc_unfold ck m n nx h theta w sigma2 noise nugget z x y :
  fitc ck m n nx h theta w sigma2 noise nugget z x y =
  match cholesky m (fun i j => compute_k ck nx h theta w sigma2 z z i j + eye i j * nugget) with
  | None => None
  | Some u => fitc_core m n sigma2 noise nugget y u (fun i j => sumn m (fun k => lower_inv m u i k * compute_k ck nx h theta w sigma2 z x k j))
  end.
Proof. reflexivity. Qed.
Definition vfe_core (m n : nat) (sigma2 noise nugget : R) (y : vec) (u v : mat) : option (R * woodbury) :=
    let ui := lower_inv m u in
    let beta := 1 / Rmax noise nugget in
    let a := fun i j => sumn n (fun k => v i k * v j k) * beta in
    match cholesky m (fun i j => eye i j + a i j) with
    | None => None
    | Some l =>
      let li := lower_inv m l in
      let b := fun i => sumn n (fun j => sumn m (fun k => li i k * v k j) * y j) * beta in
      let term1 := - INR n * ln beta in
      let term2 := 2 * sumn m (fun k => ln (l k k)) in
      let term3 := beta * sumn n (fun i => y i * y i) in
      let term4 := - sumn m (fun i => b i * b i) in
      let term5 := INR n * beta * sigma2 in
      let term6 := - sumn m (fun i => a i i) in
      let li_ui := fun i j => sumn m (fun k => li i k * ui k j) in
      let bi := fun i j => eye i j + sumn m (fun k => li k i * li k j) in
      Some (- (1 / 2) * (term1 + term2 + term3 + term4 + term5 + term6),
            mkw (fun i => sumn m (fun k => li_ui k i * b k))
                (fun i j => sumn m (fun q => sumn m (fun k => ui k i * bi k q) * ui q j)))
    end.
Lemma vfe_unfold ck m n nx h theta w sigma2 noise nugget z x y :
  vfe ck m n nx h theta w sigma2 noise nugget z x y =
  match cholesky m (fun i j => compute_k ck nx h theta w sigma2 z z i j + eye i j * nugget) with
  | None => None
  | Some u => vfe_core m n sigma2 noise nugget y u (fun i j => sumn m (fun k => lower_inv m u i k * compute_k ck nx h theta w sigma2 z x k j))
  end.
Proof. reflexivity. Qed.

Section Sparse.
  Context (ck : corr_kind) (m n nx h : nat) (theta : vec) (w : mat) (sigma2 noise nugget : R) (z x : mat) (y : vec).
  Let K := prior ck nx h theta w sigma2.
  Let Kz := prior_z ck nx h theta w sigma2 nugget z.
  Definition kz (p : vec) : vec := fun k => K (z k) p.

  Lemma compute_k_prior a b i j : compute_k ck nx h theta w sigma2 a b i j = K (a i) (b j).
  Proof. unfold compute_k, K, prior. rewrite kval_documented. unfold differences. ring. Qed.
  Lemma prior_sym a b : K a b = K b a.
  Proof.
    unfold K, prior. rewrite <- !kval_documented. f_equal. apply kval_ext. intros c _. apply Rabs_minus_sym.
  Qed.
  Lemma kmm_eq : (fun i j => compute_k ck nx h theta w sigma2 z z i j + eye i j * nugget) = Kz.
  Proof.
    apply functional_extensionality. intros i. apply functional_extensionality. intros j. rewrite compute_k_prior. unfold Kz, prior_z, K, eye.
    destruct (Nat.eqb i j); ring.
  Qed.
  Lemma Kz_sym : symmetric m Kz.
  Proof. intros i j _ _. unfold Kz, prior_z. fold K. rewrite prior_sym, Nat.eqb_sym. reflexivity. Qed.

  Section Factor.
    Context (u : mat).
    Hypothesis Ch : cholesky m Kz = Some u.
    Definition ui := lower_inv m u.
    (** Covariances with the inducing points after whitening. *)
    Definition white (p : vec) : vec := mv m ui (kz p).
    Lemma white_fsub p i : (i < m)%nat -> white p i = fsub m u (kz p) i.
    Proof. apply lower_inv_mv; [exact (ch_lower m Kz u Kz_sym Ch)|exact (ch_regular m Kz u Kz_sym Ch)]. Qed.
    Lemma nystrom_white a b q : nystrom m Kz (kz a) (kz b) q -> q = dot m (white a) (white b).
    Proof.
      intros (t & S & ->). rewrite (asol_dot m Kz u Kz_sym Ch t (kz a) (kz b) S).
      apply dot_ext; intros i Hi; symmetry; now apply white_fsub.
    Qed.
    Lemma white_nystrom a b : nystrom m Kz (kz a) (kz b) (dot m (white a) (white b)).
    Proof.
      exists (asol m u (kz b)). pose proof (asol_solves m Kz u Kz_sym Ch (kz b)) as S. split; [exact S|].
      rewrite (asol_dot m Kz u Kz_sym Ch _ (kz a) (kz b) S). apply dot_ext; intros i Hi; now apply white_fsub.
    Qed.
    Definition Vm : mat := fun i j => white (x j) i.
    Lemma Vm_code i j : sumn m (fun k => ui i k * compute_k ck nx h theta w sigma2 z x k j) = Vm i j.
    Proof. unfold Vm, white, mv, kz. apply sumn_ext. intros k _. now rewrite compute_k_prior. Qed.

    (** The data used by predictions. *)
    Section Data.
      Context (nu : vec) (l : mat).
      Hypothesis ChA : cholesky m (Am n Vm nu) = Some l.
      Let li := lower_inv m l.
      Let lo := ch_lower m (Am n Vm nu) l (Am_sym m n Vm nu) ChA.
      Let re := ch_regular m (Am n Vm nu) l (Am_sym m n Vm nu) ChA.
      Definition li_ui : mat := fun i j => sumn m (fun k => lower_inv m l i k * ui k j).
      Lemma li_ui_mv p i : (i < m)%nat -> mv m li_ui (kz p) i = fsub m l (white p) i.
      Proof.
        intros Hi. transitivity (mv m li (white p) i); [|now apply lower_inv_mv]. unfold white. rewrite mv_mv. reflexivity.
      Qed.
      Definition bvec : vec := fun i => sumn n (fun j => sumn m (fun k => lower_inv m l i k * Vm k j) * ya nu y j).
      Lemma bvec_fsub i : (i < m)%nat -> bvec i = fsub m l (mv n Vm (ya nu y)) i.
      Proof. intros Hi. rewrite <- (lower_inv_mv m l _ lo re i Hi). rewrite mv_mv. reflexivity. Qed.
      Lemma predict_code p : sumn m (fun k => compute_k ck nx h theta w sigma2 (fun _ => p) z O k * sumn m (fun q => li_ui q k * bvec q)) =
        dot m (fsub m l (white p)) (fsub m l (mv n Vm (ya nu y))).
      Proof.
        transitivity (dot m (kz p) (mv m (tr li_ui) bvec)).
        - apply sumn_ext. intros k _. rewrite compute_k_prior. f_equal. apply prior_sym.
        - rewrite dot_mv. apply dot_ext; [|exact bvec_fsub]. intros i Hi. now apply li_ui_mv.
      Qed.
      Lemma fitc_quad p : sumn m (fun i => sumn m (fun k => (sumn m (fun q => ui q k * ui q i) - sumn m (fun q => li_ui q k * li_ui q i)) * kz p k) * kz p i) =
        dot m (white p) (white p) - dot m (fsub m l (white p)) (fsub m l (white p)).
      Proof.
        transitivity (dot m (mv m ui (kz p)) (mv m ui (kz p)) - dot m (mv m li_ui (kz p)) (mv m li_ui (kz p))).
        - rewrite <- !gram_quad, <- sumn_minus. apply sumn_ext. intros i _. rewrite <- Rmult_minus_distr_r. f_equal. rewrite <- sumn_minus.
          apply sumn_ext. intros; ring.
        - f_equal. apply dot_ext; intros i Hi; now apply li_ui_mv.
      Qed.
      Lemma vfe_quad p : sumn m (fun i => sumn m (fun k => sumn m (fun q => sumn m (fun r => ui r k * (eye r q + sumn m (fun t => lower_inv m l t r * lower_inv m l t q))) * ui q i) * kz p k) * kz p i) =
        dot m (white p) (white p) + dot m (fsub m l (white p)) (fsub m l (white p)).
      Proof.
        set (bi := fun r q => eye r q + sumn m (fun t => lower_inv m l t r * lower_inv m l t q)).
        etransitivity; [exact (quad_form m ui bi (kz p))|]. fold (white p).
        transitivity (sumn m (fun q => white p q * white p q) + dot m (mv m li (white p)) (mv m li (white p))).
        - rewrite <- gram_quad, <- sumn_plus. apply sumn_ext. intros q Hq. rewrite <- Rmult_plus_distr_r. f_equal. unfold bi.
          rewrite <- (eye_sum m q (white p) Hq) at 1. rewrite <- sumn_plus. apply sumn_ext. intros r _. rewrite (eye_sym q r). subst li. ring.
        - f_equal. apply dot_ext; intros i Hi; now apply lower_inv_mv.
      Qed.
    End Data.
  End Factor.

  (** ** What training returns *)
  Definition fnu (u : mat) : vec := fun j => sigma2 - dot m (white u (x j)) (white u (x j)) + noise.
  Definition vnu : vec := fun _ => Rmax noise nugget.
  Lemma sgp_kx g p k : s_corr g = ck -> s_nx g = nx -> s_h g = h -> s_theta g = theta -> s_w g = w -> s_sigma2 g = sigma2 -> s_z g = z ->
    compute_k (s_corr g) (s_nx g) (s_h g) (s_theta g) (s_w g) (s_sigma2 g) (s_z g) (fun _ => p) k O = kz p k.
  Proof. intros -> -> -> -> -> -> ->. rewrite compute_k_prior. reflexivity. Qed.

  Lemma fitc_build g : sgp_build Fitc ck m n nx h theta w sigma2 noise nugget z x y = Some g ->
    exists u l, cholesky m Kz = Some u /\ cholesky m (Am n (Vm u) (fnu u)) = Some l /\
      (forall p, sgp_predict g p = dot m (fsub m l (white u p)) (fsub m l (mv n (Vm u) (ya (fnu u) y)))) /\
      (forall p, sgp_raw_var g p = sigma2 - (dot m (white u p) (white u p) - dot m (fsub m l (white u p)) (fsub m l (white u p)))) /\
      s_lkh g = - (1 / 2) * (sumn n (fun j => ln (fnu u j)) + 2 * sumn m (fun k => ln (l k k)) +
        (dot n (ya (fnu u) y) y - dot m (fsub m l (mv n (Vm u) (ya (fnu u) y))) (fsub m l (mv n (Vm u) (ya (fnu u) y))))) /\
      s_noise g = noise.
  Proof.
    unfold sgp_build, sgp_likelihood. rewrite fitc_unfold, kmm_eq. destruct (cholesky m Kz) as [u|] eqn:Ch; [|discriminate].
    fold (ui u).
    assert (EV : (fun i j => sumn m (fun k => ui u i k * compute_k ck nx h theta w sigma2 z x k j)) = Vm u).
    { apply functional_extensionality. intros i. apply functional_extensionality. intros j. apply Vm_code. }
    rewrite EV. unfold fitc_core. fold (ui u). cbv zeta.
    change (fun i j => eye i j + sumn n (fun k => Vm u i k * (1 / (sigma2 - sumn m (fun k0 => Vm u k0 k * Vm u k0 k) + noise)) * Vm u j k)) with (Am n (Vm u) (fnu u)).
    destruct (cholesky m (Am n (Vm u) (fnu u))) as [l|] eqn:ChA; [|discriminate].
    intros E. assert (E1 := f_equal (fun o => match o with Some v => v | None => g end) E). cbv beta iota in E1. rewrite <- E1. clear E E1. exists u, l.
    assert (EY : (fun i => y i * (1 / (sigma2 - sumn m (fun k => Vm u k i * Vm u k i) + noise))) = ya (fnu u) y).
    { apply functional_extensionality. intros j. unfold ya. change (sumn m (fun k => Vm u k j * Vm u k j)) with (dot m (white u (x j)) (white u (x j))).
      unfold fnu. ring. }
    split; [reflexivity|]. split; [exact ChA|]. split; [|split; [|split; [|reflexivity]]].
    - intros p. unfold sgp_predict. cbn [s_corr s_m s_nx s_h s_theta s_w s_sigma2 s_z s_wd wd_vec]. rewrite <- (predict_code u (fnu u) l ChA p).
      apply sumn_ext. intros k _. f_equal. apply sumn_ext. intros q _. f_equal. unfold bvec. apply sumn_ext. intros j _. f_equal.
      exact (f_equal (fun f => f j) EY).
    - intros p. unfold sgp_raw_var. cbn [s_corr s_m s_nx s_h s_theta s_w s_sigma2 s_z s_wd wd_inv]. f_equal. rewrite <- (fitc_quad u (fnu u) l ChA p).
      apply sumn_ext. intros i _. rewrite compute_k_prior. fold (kz p i). f_equal. apply sumn_ext. intros k _. rewrite compute_k_prior. fold (kz p k). f_equal.
    - cbn [s_lkh].
      assert (EB : sumn m (fun i => sumn n (fun j => sumn m (fun k => lower_inv m l i k * Vm u k j) * (y j * (1 / (sigma2 - sumn m (fun k => Vm u k j * Vm u k j) + noise)))) *
          sumn n (fun j => sumn m (fun k => lower_inv m l i k * Vm u k j) * (y j * (1 / (sigma2 - sumn m (fun k => Vm u k j * Vm u k j) + noise))))) =
        dot m (fsub m l (mv n (Vm u) (ya (fnu u) y))) (fsub m l (mv n (Vm u) (ya (fnu u) y)))).
      { apply sumn_ext. intros i Hi. rewrite <- (bvec_fsub u (fnu u) l ChA i Hi). unfold bvec.
        f_equal; apply sumn_ext; intros j _; f_equal; exact (f_equal (fun f => f j) EY). }
      rewrite EB. f_equal. 
      replace (sumn n (fun i => y i * (1 / (sigma2 - sumn m (fun k => Vm u k i * Vm u k i) + noise)) * y i)) with (dot n (ya (fnu u) y) y).
      2:{ apply sumn_ext. intros j _. f_equal. symmetry. exact (f_equal (fun f => f j) EY). }
      replace (sumn n (fun j => ln (sigma2 - sumn m (fun k => Vm u k j * Vm u k j) + noise))) with (sumn n (fun j => ln (fnu u j))) by reflexivity.
      ring.
  Qed.

  Lemma vfe_build g : sgp_build Vfe ck m n nx h theta w sigma2 noise nugget z x y = Some g ->
    exists u l, cholesky m Kz = Some u /\ cholesky m (Am n (Vm u) vnu) = Some l /\
      (forall p, sgp_predict g p = dot m (fsub m l (white u p)) (fsub m l (mv n (Vm u) (ya vnu y)))) /\
      (forall p, sgp_raw_var g p = sigma2 - (dot m (white u p) (white u p) + dot m (fsub m l (white u p)) (fsub m l (white u p)))) /\
      s_lkh g = - (1 / 2) * (- INR n * ln (1 / Rmax noise nugget) + 2 * sumn m (fun k => ln (l k k)) +
        (dot n (ya vnu y) y - dot m (fsub m l (mv n (Vm u) (ya vnu y))) (fsub m l (mv n (Vm u) (ya vnu y)))) +
        1 / Rmax noise nugget * (INR n * sigma2 - sumn n (fun j => dot m (white u (x j)) (white u (x j))))) /\
      s_noise g = noise.
  Proof.
    unfold sgp_build, sgp_likelihood. rewrite vfe_unfold, kmm_eq. destruct (cholesky m Kz) as [u|] eqn:Ch; [|discriminate].
    fold (ui u).
    assert (EV : (fun i j => sumn m (fun k => ui u i k * compute_k ck nx h theta w sigma2 z x k j)) = Vm u).
    { apply functional_extensionality. intros i. apply functional_extensionality. intros j. apply Vm_code. }
    rewrite EV. unfold vfe_core. fold (ui u). cbv zeta.
    assert (EA : (fun i j => eye i j + sumn n (fun k => Vm u i k * Vm u j k) * (1 / Rmax noise nugget)) = Am n (Vm u) vnu).
    { apply functional_extensionality. intros i. apply functional_extensionality. intros j. unfold Am, vnu. f_equal. rewrite <- sumn_scal_r. apply sumn_ext. intros; ring. }
    rewrite EA. destruct (cholesky m (Am n (Vm u) vnu)) as [l|] eqn:ChA; [|discriminate].
    intros E. assert (E1 := f_equal (fun o => match o with Some v => v | None => g end) E). cbv beta iota in E1. rewrite <- E1. clear E E1. exists u, l.
    assert (EB : forall i, sumn n (fun j => sumn m (fun k => lower_inv m l i k * Vm u k j) * y j) * (1 / Rmax noise nugget) = bvec u vnu l i).
    { intros i. unfold bvec. rewrite <- sumn_scal_r. apply sumn_ext. intros j _. unfold ya, vnu. ring. }
    split; [reflexivity|]. split; [exact ChA|]. split; [|split; [|split; [|reflexivity]]].
    - intros p. unfold sgp_predict. cbn [s_corr s_m s_nx s_h s_theta s_w s_sigma2 s_z s_wd wd_vec]. rewrite <- (predict_code u vnu l ChA p).
      apply sumn_ext. intros k _. f_equal. apply sumn_ext. intros q _. f_equal. apply EB.
    - intros p. unfold sgp_raw_var. cbn [s_corr s_m s_nx s_h s_theta s_w s_sigma2 s_z s_wd wd_inv]. f_equal. rewrite <- (vfe_quad u vnu l ChA p).
      apply sumn_ext. intros i _. rewrite compute_k_prior. fold (kz p i). f_equal. apply sumn_ext. intros k _. rewrite compute_k_prior. fold (kz p k). f_equal.
    - cbn [s_lkh]. f_equal.
      replace (sumn m (fun i => sumn n (fun j => sumn m (fun k => lower_inv m l i k * Vm u k j) * y j) * (1 / Rmax noise nugget) *
          (sumn n (fun j => sumn m (fun k => lower_inv m l i k * Vm u k j) * y j) * (1 / Rmax noise nugget))))
        with (dot m (fsub m l (mv n (Vm u) (ya vnu y))) (fsub m l (mv n (Vm u) (ya vnu y)))).
      2:{ apply sumn_ext. intros i Hi. rewrite EB, (bvec_fsub u vnu l ChA i Hi). reflexivity. }
      replace (1 / Rmax noise nugget * sumn n (fun i => y i * y i)) with (dot n (ya vnu y) y).
      2:{ unfold dot, ya, vnu. rewrite <- sumn_scal_l. apply sumn_ext. intros; ring. }
      replace (sumn m (fun i => sumn n (fun k => Vm u i k * Vm u i k) * (1 / Rmax noise nugget)))
        with (1 / Rmax noise nugget * sumn n (fun j => dot m (white u (x j)) (white u (x j)))).
      2:{ rewrite sumn_scal_r, sumn_swap, Rmult_comm. reflexivity. }
      ring.
  Qed.
End Sparse.
