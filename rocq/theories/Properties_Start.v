(** C66, C67 and C116: starting points of the inner optimizations. *)
From Coq Require Import Reals Lra Lia List Arith Bool ZArith Permutation Sorted.
From Flocq Require Import Core.Core IEEE754.BinarySingleNaN.
From Verif Require Import F64 F64_Round Util Doe_Spec Doe_Model Doe_Generic Doe_Real Doe_Optim Properties_Doe Coego_Model Start_Model Start_Spec Start_Proofs.
Import ListNotations.
Local Open Scope nat_scope.
Local Notation RA := R_arith.

(** ** C66 Middle points *)
(** In any arithmetic, hence in double precision: every start is the computed midpoint of two samples, and no other sample and no
    earlier start is at a smaller computed distance of it than its first generator. *)
Theorem C66_computed : forall (A : Type) (ar : arith A) sm x xl xu n_max s t p, start_points ar sm x xl xu n_max = s -> nth_error s t = Some p ->
  let dist := dist ar sm (range ar xl xu) in
  exists i j xi xj, j < i /\ nth_error x i = Some xi /\ nth_error x j = Some xj /\ p = middle ar xi xj /\
    (forall k xk, nth_error x k = Some xk -> k <> i -> k <> j -> ltb ar (dist xk p) (dist xi p) = false) /\
    (forall t' q, t' < t -> nth_error s t' = Some q -> ltb ar (dist q p) (dist xi p) = false).
Proof.
  intros A ar sm x xl xu m s t p <- H. unfold start_points in *. set (xr := range ar xl xu) in *. cbv zeta.
  destruct (pick_spec ar sm x xr m (sort_pairs ar (pairs ar sm x xr)) []) as (ps & qs & E & S & G). rewrite E in H |- *. cbn [app] in *.
  destruct (goods_nth _ _ _ _ _ _ _ _ _ G H) as (((i, j), d) & P & Gd). cbn [app] in Gd.
  destruct Gd as (E1 & E2 & E3). cbn [fst snd] in *.
  assert (I : In (i, j, d) (pairs ar sm x xr)).
  { apply (Permutation_in _ (Permutation_sym (sort_perm ar _))). eapply subseq_in; [exact S|]. eapply nth_error_In; eauto. }
  apply in_map_iff in I. destruct I as ((i', j') & I1 & I2). injection I1 as -> -> _. apply pair_indices_in in I2.
  exists i, j, (nth i x []), (nth j x []). split; [lia|]. split; [apply nth_error_nth'; lia|]. split; [apply nth_error_nth'; lia|].
  split; [exact E1|]. split.
  - intros k xk K Ki Kj. assert (k < length x) by (apply nth_error_Some; congruence).
    rewrite <- (nth_error_nth x k [] K). now apply E2.
  - intros t' q T Hq. apply E3. apply nth_error_In with t'. clear - T Hq. revert t t' T Hq.
    induction qs as [|a qs IH]; intros t t' T Hq; [now destruct t'|]. destruct t as [|t]; [lia|]. destruct t' as [|t']; [exact Hq|].
    cbn in *. apply IH; trivial. lia.
Qed.

(** In exact arithmetic: distances to the two generators are equal, and pairs are considered by increasing distance. *)
Theorem C66_exact : forall box x n_max s, Forall (fun r => length r = length box) x ->
  start_points RA (sum RA) x (map fst box) (map snd box) n_max = s ->
  exists g : list (nat * nat), length g = length s /\
  (forall t p, nth_error s t = Some p -> exists i j xi xj, nth_error g t = Some (i, j) /\ j < i /\
    nth_error x i = Some xi /\ nth_error x j = Some xj /\
    is_middle xi xj p /\ distance box xi p = distance box xj p /\
    (forall k xk, nth_error x k = Some xk -> k <> i -> k <> j -> (distance box xi p <= distance box xk p)%R) /\
    (forall t' q, t' < t -> nth_error s t' = Some q -> (distance box xi p <= distance box q p)%R)) /\
  (forall t t' i j i' j' xi xj xi' xj', t < t' -> nth_error g t = Some (i, j) -> nth_error g t' = Some (i', j') ->
    nth_error x i = Some xi -> nth_error x j = Some xj -> nth_error x i' = Some xi' -> nth_error x j' = Some xj' ->
    (distance box xi xj <= distance box xi' xj')%R).
Proof.
  intros box x m s W <-. unfold start_points. set (xr := range RA (map fst box) (map snd box)).
  destruct (pick_spec RA (sum RA) x xr m (sort_pairs RA (pairs RA (sum RA) x xr)) []) as (ps & qs & E & S & G). rewrite E. cbn [app].
  rewrite Forall_forall in W.
  assert (I : forall p, In p ps -> exists i j, p = (i, j, dist RA (sum RA) xr (nth i x []) (nth j x [])) /\ j < i < length x).
  { intros p Hp. assert (I : In p (pairs RA (sum RA) x xr)).
    { apply (Permutation_in _ (Permutation_sym (sort_perm RA _))). eapply subseq_in; eauto. }
    apply in_map_iff in I. destruct I as ((i', j') & I1 & I2). apply pair_indices_in in I2. exists i', j'. split; [now symmetry|exact I2]. }
  assert (Ln : forall i, i < length x -> length (nth i x []) = length box) by (intros i Hi; apply W, nth_In; lia).
  assert (Lq : forall q, In q qs -> length q = length box).
  { intros q Hq. apply In_nth_error in Hq. destruct Hq as (t & Hq). destruct (goods_nth _ _ _ _ _ _ _ _ _ G Hq) as (p & P & (Gd & _)).
    destruct (I p) as (i & j & -> & B); [eapply nth_error_In; eauto|]. cbn [fst snd] in Gd. subst q.
    rewrite middle_length; [apply Ln; lia|]. rewrite !Ln; lia. }
  exists (map fst ps). split; [rewrite map_length; eapply goods_length; eauto|]. split.
  - intros t p H. destruct (goods_nth _ _ _ _ _ _ _ _ _ G H) as (q & P & Gd). cbn [app] in Gd.
    destruct (I q) as (i & j & -> & B); [eapply nth_error_In; eauto|]. destruct Gd as (E1 & E2 & E3). cbn [fst snd] in *.
    assert (Lp : length p = length box) by (apply Lq; eapply nth_error_In; eauto).
    exists i, j, (nth i x []), (nth j x []). rewrite nth_error_map, P. split; [reflexivity|]. split; [lia|].
    split; [apply nth_error_nth'; lia|]. split; [apply nth_error_nth'; lia|].
    split; [subst p; apply middle_R; rewrite !Ln; lia|]. split; [subst p; apply middle_same_distance; apply Ln; lia|].
    split.
    + intros k xk K Ki Kj. assert (Kl : k < length x) by (apply nth_error_Some; congruence).
      specialize (E2 k Kl Ki Kj). rewrite (nth_error_nth x k [] K) in E2. unfold xr in E2.
      assert (length xk = length box) by (apply W; eapply nth_error_In; eauto).
      rewrite !dist_R in E2; trivial; [|apply Ln; lia]. cbn [ltb R_arith] in E2. destruct (Rlt_dec _ _); [discriminate|lra].
    + intros t' q T Hq. specialize (E3 q).
      assert (Iq : In q (firstn t qs)).
      { apply nth_error_In with t'. clear - T Hq. revert t t' T Hq.
        induction qs as [|a qs IH]; intros t t' T Hq; [now destruct t'|]. destruct t as [|t]; [lia|]. destruct t' as [|t']; [exact Hq|].
        cbn in *. apply IH; trivial. lia. }
      specialize (E3 Iq). unfold xr in E3.
      assert (length q = length box) by (apply Lq; eapply nth_error_In; eauto).
      rewrite !dist_R in E3; trivial; [|apply Ln; lia]. cbn [ltb R_arith] in E3. destruct (Rlt_dec _ _); [discriminate|lra].
  - intros t t' i j i' j' xi xj xi' xj' T H H' X1 X2 X3 X4. rewrite nth_error_map in H, H'.
    destruct (nth_error ps t) as [p|] eqn:P; [|discriminate]. destruct (nth_error ps t') as [p'|] eqn:P'; [|discriminate].
    pose proof (sorted_nth le_key ps t t' p p' (subseq_sorted _ _ _ S (sort_sorted _)) T P P') as L.
    destruct (I p) as (a & b & -> & B); [eapply nth_error_In; eauto|]. destruct (I p') as (a' & b' & -> & B'); [eapply nth_error_In; eauto|].
    cbn in H, H'. injection H as -> ->. injection H' as -> ->. unfold le_key in L. cbn [snd] in L. unfold xr in L.
    rewrite !dist_R in L by (apply Ln; lia).
    rewrite (nth_error_nth x i [] X1), (nth_error_nth x j [] X2), (nth_error_nth x i' [] X3), (nth_error_nth x j' [] X4) in L. exact L.
Qed.

(** Nothing is missed: with no maximal number, or when it is not reached, the midpoint of every pair is a start, or some other sample
    or start is strictly closer to it. *)
Theorem C66_complete : forall box x n_max s, Forall (fun r => length r = length box) x ->
  start_points RA (sum RA) x (map fst box) (map snd box) n_max = s -> (forall m, n_max = Some m -> length s < m) ->
  forall i j xi xj p, j < i -> nth_error x i = Some xi -> nth_error x j = Some xj -> is_middle xi xj p ->
  In p s \/ (exists k xk, k <> i /\ k <> j /\ nth_error x k = Some xk /\ (distance box xk p < distance box xi p)%R) \/
  (exists q, In q s /\ (distance box q p < distance box xi p)%R).
Proof.
  intros box x m s W <- F i j xi xj p L Xi Xj M. rewrite Forall_forall in W.
  assert (Li : length xi = length box) by (apply W; eapply nth_error_In; eauto).
  assert (Lj : length xj = length box) by (apply W; eapply nth_error_In; eauto).
  assert (Ep : p = middle RA xi xj).
  { destruct M as (M1 & M2). apply nth_ext with (d := 0%R) (d' := 0%R); [rewrite middle_length; lia|].
    intros c C. destruct (middle_R xi xj) as (_ & M3); [lia|].
    destruct (nth_error xi c) as [u|] eqn:U; [|apply nth_error_None in U; lia].
    destruct (nth_error xj c) as [v|] eqn:V; [|apply nth_error_None in V; lia].
    rewrite (nth_error_nth _ _ _ (M2 c u v U V)), (nth_error_nth _ _ _ (M3 c u v U V)). reflexivity. }
  assert (Lp : length p = length box) by (subst p; rewrite middle_length; lia).
  unfold start_points in *. set (xr := range RA (map fst box) (map snd box)) in *.
  set (l := sort_pairs RA (pairs RA (sum RA) x xr)) in *.
  assert (Il : i < length x) by (apply nth_error_Some; congruence).
  assert (I : In (i, j, dist RA (sum RA) xr xi xj) l).
  { apply (Permutation_in _ (sort_perm RA _)). apply in_map_iff. exists (i, j). split; [|apply pair_indices_in; lia].
    cbn [fst snd]. now rewrite (nth_error_nth x i [] Xi), (nth_error_nth x j [] Xj). }
  assert (Fl : full m (pick RA (sum RA) x xr m l [])) by (destruct m as [m|]; cbn; auto).
  pose proof (pick_complete RA (sum RA) x xr m l [] i j _ Fl I) as C. cbv zeta in C.
  rewrite (nth_error_nth x i [] Xi), (nth_error_nth x j [] Xj), <- Ep in C. destruct C as [C|[(k & K1 & K2 & K3 & K4)|(q & Q1 & Q2)]].
  - now left.
  - right; left. exists k, (nth k x []). split; [exact K2|]. split; [exact K3|]. split; [now apply nth_error_nth'|].
    unfold xr in K4. rewrite !dist_R in K4; trivial; [|apply W, nth_In; lia]. cbn [ltb R_arith] in K4. destruct (Rlt_dec _ _); [assumption|discriminate].
  - right; right. exists q. split; [exact Q1|].
    assert (Lq : length q = length box).
    { apply In_nth_error in Q1. destruct Q1 as (t & Q1).
      destruct (C66_computed R RA (sum RA) x (map fst box) (map snd box) m _ t q eq_refl Q1) as (a & b & xa & xb & _ & Xa & Xb & -> & _).
      rewrite middle_length; [apply W; eapply nth_error_In; eauto|]. rewrite !W; trivial; eapply nth_error_In; eauto. }
    unfold xr in Q2. rewrite !dist_R in Q2; trivial. cbn [ltb R_arith] in Q2. destruct (Rlt_dec _ _); [assumption|discriminate].
Qed.

(** Starts are within the domain when the samples are. *)
Theorem C66_inside : forall box x n_max p, Forall (inside box) x -> In p (start_points RA (sum RA) x (map fst box) (map snd box) n_max) -> inside box p.
Proof.
  intros box x m p W H. apply In_nth_error in H. destruct H as (t & H). rewrite Forall_forall in W.
  destruct (C66_computed R RA (sum RA) x _ _ m _ t p eq_refl H) as (i & j & xi & xj & _ & Xi & Xj & -> & _).
  apply middle_inside; apply W; eapply nth_error_In; eauto.
Qed.

(** The same in double precision, for bounds below 2^1022, whatever the order of the sums and the square root. *)
Definition inside64 (box : list (f64 * f64)) (p : list f64) : Prop :=
  Forall2 (fun l v => fle (fst l) v = true /\ fle v (snd l) = true) box p.
Definition moderate (l : f64 * f64) : Prop :=
  is_finite (fst l) = true /\ is_finite (snd l) = true /\ (Rabs (B2R (fst l)) <= bpow radix2 1021 /\ Rabs (B2R (snd l)) <= bpow radix2 1021)%R.
Lemma fle_fin a b v : is_finite a = true -> is_finite b = true -> fle a v = true -> fle v b = true ->
  is_finite v = true /\ (B2R a <= B2R v <= B2R b)%R.
Proof.
  intros Fa Fb L U. unfold fle in *.
  assert (Fv : is_finite v = true).
  { destruct v as [s|[|]| |s m e H]; trivial; destruct a as [sa|[|]| |[|] ma ea Ha]; try discriminate Fa; try discriminate L;
    destruct b as [sb|[|]| |[|] mb eb Hb]; try discriminate Fb; discriminate U. }
  split; [exact Fv|]. rewrite Bleb_correct in L, U by assumption.
  destruct (Rle_bool_spec (B2R a) (B2R v)); [|discriminate]. destruct (Rle_bool_spec (B2R v) (B2R b)); [|discriminate]. split; assumption.
Qed.
Lemma two_F : isf (fofZ 2) 2.
Proof. split; [vm_compute; reflexivity|]. vm_compute. lra. Qed.
Lemma middle_value l v w : moderate l -> fle (fst l) v = true -> fle v (snd l) = true -> fle (fst l) w = true -> fle w (snd l) = true ->
  fle (fst l) (fdiv (fadd v w) (fofZ 2)) = true /\ fle (fdiv (fadd v w) (fofZ 2)) (snd l) = true.
Proof.
  intros (F1 & F2 & B1 & B2) V1 V2 W1 W2.
  destruct (fle_fin _ _ v F1 F2 V1 V2) as (Fv & Hv). destruct (fle_fin _ _ w F1 F2 W1 W2) as (Fw & Hw).
  set (lo := B2R (fst l)) in *. set (up := B2R (snd l)) in *.
  assert (P : (bpow radix2 1023 = 4 * bpow radix2 1021)%R) by (change 1023%Z with (2 + 1021)%Z; rewrite bpow_plus; reflexivity).
  assert (Q : (0 < bpow radix2 1021)%R) by apply bpow_gt_0.
  assert (B1' : (- bpow radix2 1021 <= lo <= bpow radix2 1021)%R) by (now apply Rabs_le_inv).
  assert (B2' : (- bpow radix2 1021 <= up <= bpow radix2 1021)%R) by (now apply Rabs_le_inv).
  assert (I1 : isf (fadd v w) (rnd64 (B2R v + B2R w))).
  { apply fadd_R; [split; auto|split; auto|]. unfold small. apply Rabs_le. lra. }
  assert (R1 : (2 * lo <= rnd64 (B2R v + B2R w))%R) by (apply rnd_ge; [apply fmt_2, fmt|lra]).
  assert (R2 : (rnd64 (B2R v + B2R w) <= 2 * up)%R) by (apply rnd_le_fmt; [apply fmt_2, fmt|lra]).
  set (r := rnd64 (B2R v + B2R w)) in *.
  destruct (fdiv_R _ _ _ _ I1 two_F) as (F3 & E3); [lra|unfold small; apply Rabs_le; lra|].
  unfold fle. rewrite !Bleb_correct by assumption. rewrite E3.
  split; apply Rle_bool_true; [apply rnd_ge; [apply fmt|unfold lo in *; lra]|apply rnd_le_fmt; [apply fmt|unfold up in *; lra]].
Qed.
Theorem C66_inside_doubles : forall pw sq sm box x xl xu n_max p, Forall moderate box -> Forall (inside64 box) x ->
  In p (start_points (f64_arith pw sq) sm x xl xu n_max) -> inside64 box p.
Proof.
  intros pw sq sm box x xl xu m p M W H. apply In_nth_error in H. destruct H as (t & H). rewrite Forall_forall in W.
  destruct (C66_computed f64 (f64_arith pw sq) sm x _ _ m _ t p eq_refl H) as (i & j & xi & xj & _ & Xi & Xj & -> & _).
  apply nth_error_In, W in Xi. apply nth_error_In, W in Xj. clear - M Xi Xj. unfold inside64 in *.
  revert xi xj Xi Xj. induction M as [|l box Ml M IH]; intros xi xj Xi Xj; inversion Xi as [|? v ? a [V1 V2]]; inversion Xj as [|? w ? b [W1 W2]]; subst; [constructor|].
  change (middle (f64_arith pw sq) (v :: a) (w :: b)) with (fdiv (fadd v w) (fofZ 2) :: middle (f64_arith pw sq) a b).
  constructor; [now apply middle_value|]. now apply IH.
Qed.

(** The requested number is not exceeded, nor the number of pairs. *)
Theorem C66_number : forall (A : Type) (ar : arith A) sm x xl xu m, 1 <= m -> length (start_points ar sm x xl xu (Some m)) <= m.
Proof. intros A ar sm x xl xu m H. unfold start_points. apply pick_length. cbn. lia. Qed.

(** ** C67 Number of starting points *)
Lemma select_total {A} (x : list A) idx : Forall (fun i => i < length x) idx -> exists r, select x idx = Some r /\ Forall2 (fun i v => nth_error x i = Some v) idx r.
Proof.
  induction 1 as [|i idx Hi F IH]; [exists []; split; [reflexivity|constructor]|]. destruct IH as (r & E & G). cbn [select].
  destruct (nth_error x i) as [v|] eqn:V; [|apply nth_error_None in V; lia]. rewrite E. exists (v :: r). split; [reflexivity|]. now constructor.
Qed.
Lemma get_active_total {A} (x : list A) active : exists r, get_active x active = Some r /\ restricted x active r.
Proof.
  unfold get_active, restricted, strip. apply select_total. apply Forall_forall. intros i Hi. apply filter_In in Hi.
  destruct Hi as (_ & Hi). now apply Nat.ltb_lt in Hi.
Qed.
Lemma restricted_length {A} (x : list A) active r : restricted x active r -> length r = length (filter (fun i => Nat.ltb i (length x)) active).
Proof. intros H. unfold restricted in H. induction H; cbn; congruence. Qed.
Lemma restricted_inside box p active box' p' : inside box p -> restricted box active box' -> restricted p active p' -> inside box' p'.
Proof.
  intros I H1 H2. unfold restricted in *. rewrite (inside_length _ _ I) in H2. revert p' H2.
  induction H1 as [|i l idx ls E H1 IH]; intros p' H2; inversion H2 as [|? v ? vs E']; subst; [constructor|].
  constructor; [|now apply IH]. clear - I E E'. unfold inside in I. revert i E E'. induction I as [|a b box p Hab I IH]; intros [|i] E E'; try discriminate.
  - cbn in E, E'. now injection E as ->; injection E' as ->.
  - cbn in E, E'. eauto.
Qed.
Lemma mapM_all {A B} (f : A -> option B) (P : A -> B -> Prop) l : (forall a, In a l -> exists b, f a = Some b /\ P a b) ->
  exists r, mapM f l = Some r /\ Forall2 P l r.
Proof.
  induction l as [|a l IH]; intros H; [exists []; split; [reflexivity|constructor]|].
  destruct (H a) as (b & E & Pb); [now left|]. destruct IH as (r & Er & Pr); [intros; apply H; now right|].
  cbn [mapM]. rewrite E, Er. exists (b :: r). split; [reflexivity|]. now constructor.
Qed.
Lemma F2_length {A B} (P : A -> B -> Prop) l r : Forall2 P l r -> length l = length r.
Proof. induction 1; cbn; congruence. Qed.

Definition good_draws (n nx : nat) (d : draws) : Prop := forall t j, j < nx -> unit_draws n (d_rnd d t j).

Lemma lhs_rows xlimits n d : 2 <= n -> exists s, lhs RA xlimits n d = Some s /\ length s = n /\
  (good_draws n (length xlimits) (d n) -> Forall (fun l => fst l <= snd l)%R xlimits -> Forall (inside xlimits) s).
Proof.
  intros N. unfold lhs.
  set (design := fun t => if false then centered_lhs RA n (length xlimits) (d_sw (d n) t) else classic_lhs RA n (length xlimits) (d_rnd (d n) t) (d_sw (d n) t)).
  assert (L : forall t, length (design t) = n) by (intros t; apply of_columns_length).
  destruct (maximin_of_some (design 0) (map design (seq 1 4))) as (x & E).
  - rewrite L. exact N.
  - apply Forall_forall. intros c Hc. apply in_map_iff in Hc. destruct Hc as (t & <- & _). rewrite L. exact N.
  - assert (Em : maximin_lhs RA n (length xlimits) false (d_rnd (d n)) (d_sw (d n)) = Some x) by exact E. rewrite Em.
    exists (scale_sample RA xlimits x). split; [reflexivity|].
    assert (I : exists t, x = design t).
    { apply maximin_of_in in E. destruct E as [<-|E]; [eauto|]. apply in_map_iff in E. destruct E as (t & <- & _). eauto. }
    destruct I as (t & ->). split; [unfold scale_sample; now rewrite map_length|].
    intros G B. apply (C39_exact_partial xlimits _ B).
    assert (C : cube (classic_lhs RA n (length xlimits) (d_rnd (d n) t) (d_sw (d n) t)))
      by (apply (latin_cube n (length xlimits)); [lia|apply C34_classic; [lia|auto]|apply classic_R; [lia|auto]]).
    assert (La : shape n (length xlimits) (classic_lhs RA n (length xlimits) (d_rnd (d n) t) (d_sw (d n) t))) by (apply C34_classic; [lia|auto]).
    destruct La as (_ & La). unfold cube in C. rewrite Forall_forall in La, C |- *. intros r Hr. split; [now apply La|now apply C].
Qed.

(** Starts of the global step: exactly as many as requested, in the domain. *)
Theorem C67_global_partial : forall box xtrain indices n_start active d, 1 <= n_start -> xtrain <> [] -> Forall (inside box) xtrain ->
  Permutation indices (seq 0 (length xtrain)) ->
  exists s, middle_multistart RA (sum RA) box xtrain indices n_start active d = Some s /\ length s = n_start /\
    exists box', restricted box active box' /\ ((forall n, good_draws n (length box') (d n)) -> Forall (inside box') s).
Proof.
  intros box xtrain idx ns active d N Ne W P. unfold middle_multistart.
  destruct (get_active_total box active) as (box' & E1 & R1). rewrite E1.
  set (n := Nat.max (length xtrain / 10) 2).
  assert (Li : length idx = length xtrain) by (rewrite (Permutation_length P); apply seq_length).
  destruct (select_total xtrain (firstn n idx)) as (sel & E2 & R2).
  { apply Forall_forall. intros i Hi. assert (In i idx) by (rewrite <- (firstn_skipn n idx); apply in_or_app; now left).
    assert (In i (seq 0 (length xtrain))) by (eapply Permutation_in; eauto). apply in_seq in H0. lia. }
  rewrite E2.
  assert (Ls : 1 <= length sel).
  { rewrite <- (F2_length _ _ _ R2), firstn_length, Li. destruct xtrain; [congruence|]. cbn [length]. unfold n. lia. }
  destruct sel as [|s0 sel0]; [cbn in Ls; lia|]. set (sel := s0 :: sel0) in *.
  assert (Ws : Forall (inside box) sel).
  { clear - W R2. rewrite Forall_forall in W. apply Forall_forall. intros p Hp. apply W. induction R2 as [|i v is vs E R2 IH]; [destruct Hp|].
    destruct Hp as [<-|Hp]; [eapply nth_error_In; eauto|auto]. }
  destruct (mapM_all (fun r => get_active r active) (fun r r' => restricted r active r') sel) as (xt & E3 & R3).
  { intros a _. apply get_active_total. }
  rewrite E3.
  assert (Wt : Forall (inside box') xt).
  { clear - Ws R3 R1. induction R3 as [|r r' l l' H R3 IH]; [constructor|]. inversion Ws; subst. constructor; [|auto].
    eapply restricted_inside; eauto. }
  set (mid := start_points RA (sum RA) xt (map fst box') (map snd box') (Some ns)).
  assert (Lm : length mid <= ns) by (now apply C66_number).
  assert (Wm : Forall (inside box') mid) by (apply Forall_forall; intros p Hp; eapply C66_inside; eauto).
  destruct (ns - length mid =? 0) eqn:Q.
  - apply Nat.eqb_eq in Q. exists mid. split; [reflexivity|]. split; [lia|]. exists box'. split; [exact R1|]. intros _. exact Wm.
  - apply Nat.eqb_neq in Q. destruct (lhs_rows box' (Nat.max (ns - length mid) 3) d) as (s & E4 & L4 & I4); [lia|].
    rewrite E4. exists (mid ++ firstn (ns - length mid) s). split; [reflexivity|]. split; [rewrite app_length, firstn_length, L4; lia|].
    exists box'. split; [exact R1|]. intros G.
    assert (B : Forall (fun l => fst l <= snd l)%R box').
    { destruct xt as [|p xt0]; [exfalso; apply F2_length in R3; cbn in R3; lia|]. inversion Wt as [|? ? I]; subst. clear - I. unfold inside in I.
      induction I; constructor; [lra|assumption]. }
    apply Forall_app. split; [exact Wm|]. apply Forall_forall. intros p Hp.
    assert (F : Forall (inside box') s) by (apply I4; auto). rewrite Forall_forall in F. apply F.
    rewrite <- (firstn_skipn (ns - length mid) s). apply in_or_app. now left.
Qed.

(** Starts of the local step of a trust region: two or more, in the intersection of the domain and of the trust region. *)
Theorem C67_local_partial : forall box origin lower upper n_start active d, 2 <= n_start -> (0 <= lower)%R -> (0 <= upper)%R -> inside box origin ->
  exists s, local_multistart RA Rmax Rmin box origin lower upper n_start active d = Some s /\ length s = n_start /\
    exists box' origin', restricted box active box' /\ restricted origin active origin' /\
      (good_draws n_start (length box') (d n_start) -> Forall (fun p => inside box' p /\
         Forall2 (fun o v => o - lower <= v <= o + upper)%R origin' p) s).
Proof.
  intros box origin lo up ns active d N L0 U0 W. unfold local_multistart.
  destruct (get_active_total box active) as (box' & E1 & R1). rewrite E1.
  destruct (get_active_total origin active) as (origin' & E2 & R2). rewrite E2.
  pose proof (restricted_inside _ _ _ _ _ W R1 R2) as W'.
  set (area := local_area RA Rmax Rmin box' origin' lo up).
  destruct (lhs_rows area ns d N) as (s & E & L & I). exists s. split; [exact E|]. split; [exact L|]. exists box', origin'.
  split; [exact R1|]. split; [exact R2|]. intros G.
  assert (La : length area = length box').
  { unfold area, local_area. rewrite map_length, combine_length, (inside_length _ _ W'). lia. }
  rewrite La in I. specialize (I G).
  assert (A : Forall (fun l => fst l <= snd l)%R area /\ forall p, inside area p -> inside box' p /\ Forall2 (fun o v => o - lo <= v <= o + up)%R origin' p).
  { unfold area. clear - W' L0 U0. unfold inside in *. induction W' as [|l o box origin H W IH].
    - split; [constructor|]. intros p Hp. inversion Hp; subst. split; constructor.
    - destruct IH as (IH1 & IH2).
      change (local_area RA Rmax Rmin (l :: box) (o :: origin) lo up) with
        ((Rmax (fst l) (o - lo), Rmin (snd l) (o + up)) :: local_area RA Rmax Rmin box origin lo up)%R.
      split.
      + constructor; [|exact IH1]. cbn [fst snd]. unfold Rmax, Rmin. destruct (Rle_dec _ _), (Rle_dec _ _); lra.
      + intros p Hp. inversion Hp as [|? v ? p' Hv Hp']; subst. cbn [fst snd] in Hv. destruct (IH2 _ Hp') as (Q1 & Q2).
        pose proof (Rmax_l (fst l) (o - lo)). pose proof (Rmax_r (fst l) (o - lo)). pose proof (Rmin_l (snd l) (o + up)). pose proof (Rmin_r (snd l) (o + up)).
        split; constructor; trivial; lra. }
  destruct A as (A1 & A2). specialize (I A1). rewrite Forall_forall in I |- *. intros p Hp. apply A2. now apply I.
Qed.

(** Starts of the global step when the picking of middle points is disabled: two or more, in the domain. *)
Theorem C67_lhs_partial : forall box n_start active d, 2 <= n_start -> Forall (fun l => fst l <= snd l)%R box ->
  exists s, lhs_multistart RA box n_start active d = Some s /\ length s = n_start /\
    exists box', restricted box active box' /\ (good_draws n_start (length box') (d n_start) -> Forall (inside box') s).
Proof.
  intros box ns active d N O. unfold lhs_multistart. destruct (get_active_total box active) as (box' & -> & R1).
  destruct (lhs_rows box' ns d N) as (s & E & L & I). exists s. split; [exact E|]. split; [exact L|]. exists box'. split; [exact R1|].
  intros G. apply (I G). clear - O R1. unfold restricted in R1. induction R1 as [|i l idx ls E H1 IH]; constructor; [|exact IH].
  rewrite Forall_forall in O. apply O. eapply nth_error_In. exact E.
Qed.
(** One start: the local step panics, and so does the global one when the picking of middle points is disabled. *)
Theorem C67_one_start_refuted : forall box origin lower upper active d,
  local_multistart RA Rmax Rmin box origin lower upper 1 active d = None /\ lhs_multistart RA box 1 active d = None.
Proof.
  intros box origin lo up active d. unfold local_multistart, lhs_multistart.
  destruct (get_active_total box active) as (box' & -> & _). destruct (get_active_total origin active) as (origin' & -> & _).
  split; reflexivity.
Qed.
(** No start requested: one is provided. *)
Definition no_draws : nat -> @draws R := fun _ => {| d_rnd := fun _ _ => []; d_sw := fun _ _ => [] |}.
Theorem C67_zero_refuted : exists box xtrain s, Forall (inside box) xtrain /\
  middle_multistart RA (sum RA) box xtrain (seq 0 (length xtrain)) 0 (seq 0 (length box)) no_draws = Some s /\ length s = 1.
Proof.
  exists [(0, 1)%R], [[0]; [1]]%R, [[1 / 2]]%R. split; [|split; [|reflexivity]].
  - repeat constructor; cbn [fst snd]; lra.
  - cbn -[start_points]. unfold start_points, pairs, pair_indices, sort_pairs. cbn -[range dist middle sum].
    unfold no_sample_closer, no_start_closer. cbn -[range dist middle sum].
    cbn [middle map2 map combine fst snd add div ofZ R_arith]. do 4 f_equal. unfold middle, map2. cbn. repeat f_equal; try lra. 
Qed.

(** Three samples 0, 1 and 3 of [0, 4]: the midpoint 1.5 of the ends is discarded, the starts are 0.5 and 2. *)
Definition same_rows (a b : list (list f64)) : bool :=
  (length a =? length b) && forallb (fun p => (length (fst p) =? length (snd p)) && forallb (fun q => feq (fst q) (snd q)) (combine (fst p) (snd p))) (combine a b).
Example C66_example : same_rows (start_points (f64_arith (fun a _ => a) (Bsqrt mode_NE)) (fold_right fadd fzero)
  [[fofZ 0]; [fofZ 1]; [fofZ 3]] [fofZ 0] [fofZ 4] (Some 5)) [[fmake 1 (-1)]; [fofZ 2]] = true.
Proof. vm_compute. reflexivity. Qed.
Example C66_hypotheses : Forall (inside [(0, 4)]%R) [[0]; [1]; [3]]%R /\ Forall moderate [(fofZ 0, fofZ 4)] /\
  Forall (inside64 [(fofZ 0, fofZ 4)]) [[fofZ 0]; [fofZ 1]; [fofZ 3]].
Proof.
  split; [repeat constructor; cbn; lra|]. split.
  - constructor; [|constructor]. assert (B : forall z, (Z.abs z <= 2 ^ 52)%Z -> (Rabs (IZR z) <= bpow radix2 1021)%R).
    { intros z Hz. rewrite <- abs_IZR. apply Rle_trans with (IZR (2 ^ 52)); [now apply IZR_le|].
      change (IZR (2 ^ 52)) with (bpow radix2 52). apply bpow_le. lia. }
    split; [vm_compute; reflexivity|]. split; [vm_compute; reflexivity|]. cbn [fst snd].
    replace (B2R (fofZ 0)) with 0%R by (vm_compute; lra). replace (B2R (fofZ 4)) with 4%R by (vm_compute; lra). split; [apply (B 0%Z); lia|apply (B 4%Z); lia].
  - assert (K : forall z, fle (fofZ 0) (fofZ z) = true /\ fle (fofZ z) (fofZ 4) = true -> inside64 [(fofZ 0, fofZ 4)] [fofZ z]) by (intros z H; constructor; [exact H|constructor]).
    constructor; [apply K; vm_compute; split; reflexivity|]. constructor; [apply K; vm_compute; split; reflexivity|].
    constructor; [apply K; vm_compute; split; reflexivity|constructor].
Qed.
Definition zero_draws : nat -> @draws R := fun n => {| d_rnd := fun _ _ => repeat 0%R n; d_sw := fun _ _ => [] |}.
Example C67_example : (forall n nx, good_draws n nx (zero_draws n)) /\
  exists s, middle_multistart RA (sum RA) [(0, 4); (0, 2)]%R [[0; 1]; [1; 1]; [3; 2]]%R [2; 0; 1] 5 [1; 0] zero_draws = Some s /\ length s = 5.
Proof.
  split.
  - intros n nx t j _. split; [apply repeat_length|]. apply Forall_forall. intros u Hu. apply repeat_spec in Hu. subst u. lra.
  - destruct (C67_global_partial [(0, 4); (0, 2)]%R [[0; 1]; [1; 1]; [3; 2]]%R [2; 0; 1] 5 [1; 0] zero_draws) as (s & E & L & _); eauto; try lia; try discriminate.
    + repeat constructor; cbn; lra.
    + cbn. apply (Permutation_trans (perm_swap 0 2 [1])). apply perm_skip. apply perm_swap.
Qed.

Print Assumptions C66_computed.
Print Assumptions C66_exact.
Print Assumptions C66_complete.
Print Assumptions C66_inside.
Print Assumptions C66_inside_doubles.
Print Assumptions C66_number.
Print Assumptions C67_global_partial.
Print Assumptions C67_local_partial.
Print Assumptions C67_lhs_partial.
Print Assumptions C67_one_start_refuted.
Print Assumptions C67_zero_refuted.
