(** Specification vocabulary and proofs for the inner optimization. *)
From Coq Require Import Reals Lra.
From Flocq Require Import Core BinarySingleNaN.
From Coq Require Import List Arith Bool Lia Permutation.
From Verif Require Import F64 F64_Extra Util Coego_Model Coego_Spec Coego_Proofs Inner_Model.
Import ListNotations.
Local Open Scope nat_scope.

(** A scheduling is any way to cut the runs, in order. *)
Definition schedule_of (rs : list (f64 * list f64)) (c : cut) : Prop := runs_of c = rs.

(** What is assumed of the external optimizer: a successful run returns a point in the bounds it was given, and
    the value of the criterion at the point assembled from it. *)
Definition external_ok (crit : list f64 -> f64)
    (solve : list f64 -> list nat -> list (f64 * f64) -> nat -> list f64 -> outcome) : Prop :=
  forall ctx a b budget s y u, solve ctx a b budget s = Done y u ->
    within b u /\ forall p, assembled ctx a u p -> y = crit p.

Lemma keep_ok a b : fnan (fst a) = false -> fnan (fst (keep a b)) = false.
Proof. unfold keep. destruct (flt (fst b) (fst a)) eqn:E; auto. intros _. apply (flt_nan _ _ E). Qed.
Lemma fold_ok rs : forall a, fnan (fst a) = false -> fnan (fst (fold_left keep rs a)) = false.
Proof. induction rs as [|r rs IH]; simpl; intros a N; auto using keep_ok. Qed.

Lemma ord_le_inf (a : f64) : fnan a = false -> (ord a <= ord finf)%R.
Proof.
  intros N. pose proof bpow1024_pos. destruct (is_finite a) eqn:F.
  - pose proof (ord_inf_gt a F) as B. rewrite (ord_fin a F). rewrite ord_finf. lra.
  - destruct a as [s|[|]| |s m e X]; try discriminate; unfold finf, ord; lra.
Qed.

Lemma keep_assoc a b r : fnan (fst a) = false -> fnan (fst r) = false ->
  forall d, keep (keep a b) r = keep a (keep (keep (identity d) b) r).
Proof.
  intros Na Nr d. destruct a as [a xa], b as [b xb], r as [r xr]. unfold keep, identity. cbn [fst snd] in *.
  pose proof (ord_le_inf r Nr) as Ir. pose proof (ord_le_inf a Na) as Ia.
  assert (Ni : fnan finf = false) by reflexivity.
  destruct (fnan b) eqn:Nb.
  - assert (Fb : forall c, flt b c = false).
    { intros c. destruct (flt b c) eqn:E; [|reflexivity]. apply flt_nan in E. destruct E; congruence. }
    rewrite !Fb. cbn [fst].
    destruct (flt r finf) eqn:E1; cbn [fst]; [destruct (flt r a); reflexivity|].
    apply flt_ordF in E1; auto. destruct (flt r a) eqn:E2; [apply flt_ord in E2; auto; lra|].
    destruct (flt finf a) eqn:E3; [apply flt_ord in E3; auto; lra|reflexivity].
  - pose proof (ord_le_inf b Nb) as Ib.
    destruct (flt b a) eqn:E1, (flt b finf) eqn:E2, (flt r a) eqn:E3, (flt r finf) eqn:E4, (flt r b) eqn:E5, (flt finf a) eqn:E6;
      repeat (cbn [fst]; rewrite ?E1, ?E2, ?E3, ?E4, ?E5, ?E6; cbn iota); try reflexivity; exfalso;
      repeat match goal with
      | H : flt _ _ = true |- _ => apply flt_ord in H; try assumption
      | H : flt _ _ = false |- _ => apply flt_ordF in H; try assumption
      end; lra.
Qed.

Lemma fold_keep d rs : forall a, fnan (fst a) = false ->
  fold_left keep rs a = keep a (fold_left keep rs (identity d)).
Proof.
  induction rs as [|b rs IH]; intros a Na.
  - cbn. unfold keep, identity. cbn [fst]. destruct (flt finf (fst a)) eqn:E; [|reflexivity].
    exfalso. pose proof (ord_le_inf _ Na). apply flt_ord in E; auto. lra.
  - cbn [fold_left]. rewrite (IH (keep a b)) by now apply keep_ok.
    rewrite (IH (keep (identity d) b)) by now apply keep_ok.
    apply keep_assoc; [assumption|now apply fold_ok].
Qed.

Lemma reduce_fold d c : reduce d c = fold_left keep (runs_of c) (identity d).
Proof.
  induction c as [rs|l IHl r IHr]; [reflexivity|]. cbn [reduce runs_of]. rewrite IHl, IHr, fold_left_app.
  symmetry. apply fold_keep. now apply fold_ok.
Qed.

(** The fold keeps the first of the least values. *)
Lemma fold_first rs : forall a, fnan (fst a) = false ->
  (fold_left keep rs a = a /\ forall r, In r rs -> fnan (fst r) = false -> fle (fst a) (fst r) = true) \/
  exists k r, nth_error rs k = Some r /\ fold_left keep rs a = r /\ flt (fst r) (fst a) = true /\
    forall k' r', nth_error rs k' = Some r' -> fnan (fst r') = false ->
      fle (fst r) (fst r') = true /\ (k' < k -> flt (fst r) (fst r') = true).
Proof.
  induction rs as [|b rs IH]; intros a Na; [left; split; [reflexivity|intros r []]|].
  cbn [fold_left]. pose proof (keep_ok a b Na) as Nk.
  destruct (IH (keep a b) Nk) as [(E & L)|(k & r & K & E & Lt & H)].
  - unfold keep in *. destruct (flt (fst b) (fst a)) eqn:Eb.
    + right. exists 0, b. split; [reflexivity|]. split; [exact E|]. split; [exact Eb|].
      intros k' r' K' N'. split; [|lia]. destruct k' as [|k']; cbn [nth_error] in K'; [injection K' as <-|apply nth_error_In in K'; now apply L].
      apply fle_ord; auto. lra.
    + left. split; [exact E|]. intros r [->|Hr] N; [|now apply L]. apply fle_ord; auto. now apply flt_ordF.
  - right. exists (S k), r. split; [exact K|]. split; [exact E|].
    assert (Nr : fnan (fst r) = false) by apply (flt_nan _ _ Lt).
    assert (La : flt (fst r) (fst a) = true /\ (fnan (fst b) = false -> flt (fst r) (fst b) = true)).
    { unfold keep in Lt. destruct (flt (fst b) (fst a)) eqn:Eb.
      - pose proof (flt_nan _ _ Eb) as [Nb _]. split; [|auto]. apply flt_ord; auto. apply flt_ord in Eb; auto.
        apply flt_ord in Lt; auto. lra.
      - split; [exact Lt|]. intros Nb. apply flt_ord; auto. apply flt_ordF in Eb; auto. apply flt_ord in Lt; auto. lra. }
    split; [apply La|]. intros [|k'] r' K' N'.
    + injection K' as <-. pose proof (proj2 La N') as X. split; [|auto]. apply fle_ord; auto. apply flt_ord in X; auto. lra.
    + destruct (H k' r' K' N') as [A B]. split; [exact A|]. intros; apply B; lia.
Qed.

Lemma best_run d os c : schedule_of (map report os) c ->
  ((forall y x, In (Done y x) os -> flt y finf = false) /\ reduce d c = identity d) \/
  exists k y x, nth_error os k = Some (Done y x) /\ reduce d c = (y, x) /\ flt y finf = true /\
    forall k' y' x', nth_error os k' = Some (Done y' x') -> fnan y' = false ->
      fle y y' = true /\ (k' < k -> flt y y' = true).
Proof.
  intros S. unfold schedule_of in S. assert (R : reduce d c = fold_left keep (map report os) (identity d)) by (rewrite reduce_fold; now rewrite S). rewrite R. clear R.
  destruct (fold_first (map report os) (identity d) eq_refl) as [(E & L)|(k & r & K & E & Lt & H)].
  - left. split; [|exact E]. intros y x Hy. destruct (flt y finf) eqn:F; [|reflexivity].
    pose proof (flt_nan _ _ F) as [N _]. specialize (L (y, x) (in_map report _ _ Hy) N). cbn [fst identity] in L.
    apply fle_ord in L; auto. apply flt_ord in F; auto. lra.
  - right. rewrite nth_error_map in K. destruct (nth_error os k) as [o|] eqn:Ko; [|discriminate]. injection K as <-.
    destruct o as [y x|y x]; cbn [report fst identity] in *.
    + exists k, y, x. split; [exact Ko|]. split; [exact E|]. split; [exact Lt|].
      intros k' y' x' K' N'. apply (H k' (y', x')); [|exact N']. now rewrite nth_error_map, K'.
    + discriminate Lt.
Qed.

Lemma select_some {A} (x : list A) idx : Forall (fun i => i < length x) idx ->
  exists r, select x idx = Some r /\ length r = length idx /\
    forall k j, nth_error idx k = Some j -> nth_error r k = nth_error x j.
Proof.
  induction 1 as [|i idx Li _ (r & E & L & H)]; [exists []; split; [reflexivity|]; split; [reflexivity|]; intros [|k] j K; discriminate|].
  cbn [select]. destruct (nth_error x i) as [v|] eqn:V; [|apply nth_error_None in V; lia].
  rewrite E. exists (v :: r). split; [reflexivity|]. split; [cbn; congruence|]. intros [|k] j K; cbn in *.
  - injection K as <-. now rewrite V.
  - now apply H.
Qed.

Lemma inner_some solve sched starts limits i n ctx a : exists b,
  inner_optimizer solve starts sched limits i n ctx a =
    reduce (length b) (sched i n (map (fun s => report (solve ctx a b (max_eval (length (starts i n a)) (length b)) s)) (starts i n a))) /\
    length b = length (members (length limits) a) /\
    forall k j, nth_error (members (length limits) a) k = Some j -> nth_error b k = nth_error limits j.
Proof.
  destruct (select_some limits (strip a (length limits))) as (b & E & L & H).
  { apply Forall_forall. intros j Hj. apply filter_In in Hj. now apply Nat.ltb_lt. }
  exists b. unfold inner_optimizer, multistart, get_active. rewrite E. auto.
Qed.

Lemma inner_optimizer_ok crit solve starts sched limits : external_ok crit solve ->
  (forall i n rs, schedule_of rs (sched i n rs)) ->
  optimizer_ok limits (inner_optimizer solve starts sched limits) /\
    values_are crit (inner_optimizer solve starts sched limits).
Proof.
  intros X S.
  assert (H : forall i n ctx a, finite_number (fst (inner_optimizer solve starts sched limits i n ctx a)) = true ->
    exists b budget s, solve ctx a b budget s = Done (fst (inner_optimizer solve starts sched limits i n ctx a)) (snd (inner_optimizer solve starts sched limits i n ctx a)) /\
    length b = length (members (length limits) a) /\
    forall k j, nth_error (members (length limits) a) k = Some j -> nth_error b k = nth_error limits j).
  { intros i n ctx a F. destruct (inner_some solve sched starts limits i n ctx a) as (b & E & L & B).
    rewrite E in *. set (budget := max_eval (length (starts i n a)) (length b)) in *.
    destruct (best_run (length b) (map (solve ctx a b budget) (starts i n a)) (sched i n (map (fun s => report (solve ctx a b budget s)) (starts i n a)))) as [(_ & R)|(k & y & x & K & R & _)].
    - rewrite map_map. apply S.
    - rewrite R in F. discriminate F.
    - rewrite nth_error_map in K. destruct (nth_error (starts i n a) k) as [s|]; [|discriminate].
      exists b, budget, s. rewrite R. split; [now injection K|]. auto. }
  split.
  - intros i n ctx a u F. destruct (H i n ctx a F) as (b & budget & s & E & L & B).
    destruct (X _ _ _ _ _ _ _ E) as [W _]. apply within_nth in W. destruct W as [Lu W]. fold u in Lu, W. split; [congruence|].
    intros k j l v K J V. apply (W k); [|exact V]. now rewrite (B k j K).
  - intros i n ctx a p F As. destruct (H i n ctx a F) as (b & budget & s & E & L & B).
    destruct (X _ _ _ _ _ _ _ E) as [_ V]. now apply V.
Qed.

(** Both algorithms are given the same constraint, "the value is at most zero", when the scale is a number other
    than zero. *)
Lemma zero_over (s : f64) : fnan s = false -> feq s fzero = false -> exists b, fdiv fzero s = B754_zero b.
Proof.
  intros N Z. destruct s as [b|b| |b m e H]; [destruct b; discriminate Z|eexists; reflexivity|discriminate N|eexists; reflexivity].
Qed.
Lemma same_constraint (s c : f64) : fnan s = false -> feq s fzero = false -> 
  fle fzero (cobyla_constraint fzero s c) = fle c fzero /\ fle (slsqp_constraint fzero s c) fzero = fle c fzero.
Proof.
  intros N Z. destruct (zero_over s N Z) as (b & E). unfold cobyla_constraint, slsqp_constraint. rewrite E.
  destruct c as [[|]|[|]| |[|] m e H], b; split; reflexivity.
Qed.
