(** Gradients of mixed-integer surrogates: property C146. *)
From Coq Require Import ZArith Reals Lra Lia Arith.
From Flocq Require Import Core IEEE754.BinarySingleNaN.
From Coq Require Import List Bool.
From Verif Require Import Util F64 Mixint_Model Mixint_Spec Mixint_Proofs Properties_Mixint.
From Verif Require Properties_CritF64.
Import ListNotations.
Local Open Scope nat_scope.
Local Notation row := (list f64).
Local Notation mat := (list (list f64)).

Lemma set_nth_app {A} (p : list A) : forall j v l, length p = j -> set_nth j v (p ++ l) = p ++ set_nth 0 v l.
Proof. induction p as [|a p IH]; intros j v l <-; [reflexivity|]. cbn [length app set_nth]. f_equal. now apply IH. Qed.

(** The cast of a row made of a part for each variable. *)
Lemma cast_split pre : forall x y rest, cast_row pre x = Some y -> length x = dimension pre ->
  forall ts, cast_row (pre ++ ts) (x ++ rest) = (do t <- cast_row ts rest; Some (y ++ t)).
Proof.
  induction pre as [|t pre IH]; intros x y rest E L ts.
  - destruct x; [|discriminate]. cbn in E. injection E as <-. cbn [app]. destruct (cast_row ts rest); reflexivity.
  - rewrite dimension_cons in L. destruct t as [lo hi|lo hi|v|n]; cbn [width] in L; cbn [app cast_row] in E |- *.
    + destruct x as [|a x]; [cbn in L; lia|]. cbn [app]. destruct (cast_row pre x) as [c|] eqn:Ec; [|discriminate]. injection E as <-.
      rewrite (IH x c rest Ec) by (cbn in L; lia). destruct (cast_row ts rest); reflexivity.
    + destruct x as [|a x]; [cbn in L; lia|]. cbn [app]. destruct (cast_row pre x) as [c|] eqn:Ec; [|discriminate]. injection E as <-.
      rewrite (IH x c rest Ec) by (cbn in L; lia). destruct (cast_row ts rest); reflexivity.
    + destruct x as [|a x]; [cbn in L; lia|]. cbn [app]. destruct (take_closest v a) as [b|]; [|discriminate].
      destruct (cast_row pre x) as [c|] eqn:Ec; [|discriminate]. injection E as <-.
      rewrite (IH x c rest Ec) by (cbn in L; lia). destruct (cast_row ts rest); reflexivity.
    + destruct (Nat.ltb_spec (length x) n) as [C|C]; [discriminate|]. rewrite app_length.
      destruct (Nat.ltb_spec (length x + length rest) n) as [C'|_]; [lia|].
      assert (F : firstn n (x ++ rest) = firstn n x) by (rewrite firstn_app; replace (n - length x) with 0 by lia; now rewrite app_nil_r).
      assert (S : skipn n (x ++ rest) = skipn n x ++ rest) by (rewrite skipn_app; replace (n - length x) with 0 by lia; reflexivity).
      rewrite F, S. destruct (fargmax (firstn n x)) as [m|]; [|discriminate]. destruct (cast_row pre (skipn n x)) as [c|] eqn:Ec; [|discriminate].
      injection E as <-. rewrite (IH _ c rest Ec) by (rewrite skipn_length; lia). destruct (cast_row ts rest); [|reflexivity]. now rewrite app_assoc.
Qed.
Lemma dimension_app pre ts : dimension (pre ++ ts) = dimension pre + dimension ts.
Proof. unfold dimension. rewrite map_app, list_sum_app. reflexivity. Qed.

(** The cast of a point in front of one scalar variable. *)
Lemma cast_at pre t post x : Forall usable (pre ++ t :: post) -> width t = 1 -> point_ok (pre ++ t :: post) x ->
  exists xp a xs yp ys, x = xp ++ a :: xs /\ length xp = dimension pre /\ length yp = dimension pre /\
    (forall b, cast_row (pre ++ t :: post) (xp ++ b :: xs) =
       match t with Float _ _ => Some (yp ++ b :: ys) | Int _ _ => Some (yp ++ fround b :: ys)
       | Ord v => do c <- take_closest v b; Some (yp ++ c :: ys) | Enum _ => cast_row (pre ++ t :: post) (xp ++ b :: xs) end).
Proof.
  intros U W [F L]. rewrite dimension_app, dimension_cons, W in L.
  assert (E : x = firstn (dimension pre) x ++ skipn (dimension pre) x) by (symmetry; apply firstn_skipn).
  destruct (skipn (dimension pre) x) as [|a xs] eqn:S; [apply (f_equal (@length _)) in S; rewrite skipn_length in S; cbn in S; lia|].
  set (xp := firstn (dimension pre) x) in *. assert (Lp : length xp = dimension pre) by (unfold xp; rewrite firstn_length; lia).
  rewrite E in F, L. apply Forall_app in F. destruct F as [Fp Fs]. apply Forall_cons_iff in Fs. destruct Fs as [Fa Fs].
  rewrite app_length in L. cbn [length] in L. apply Forall_app in U. destruct U as [Up Us]. apply Forall_cons_iff in Us. destruct Us as [Ut Us].
  destruct (cast_spec pre Up xp Fp Lp) as (yp & Ep & _). destruct (cast_spec post Us xs Fs ltac:(lia)) as (ys & Es & _).
  exists xp, a, xs, yp, ys. split; [exact E|]. split; [exact Lp|]. split; [now rewrite (cast_length _ _ _ Ep)|].
  intros b. destruct t as [lo hi|lo hi|v|n]; try reflexivity; rewrite (cast_split pre xp yp (b :: xs) Ep Lp); cbn [cast_row]; rewrite Es.
  - reflexivity.
  - reflexivity.
  - destruct (take_closest v b); reflexivity.
Qed.

(** C146, partial: as a function of a continuous variable, the prediction is that of the underlying mixture at the cast point,
    whose gradient is the one returned. *)
Theorem C146_continuous_partial : forall (A B : Type) (value : mat -> A) (gradient : mat -> B) pre lo hi post x,
  let ts := pre ++ Float lo hi :: post in let j := dimension pre in
  Forall usable ts -> point_ok ts x ->
  exists xc, cast_row ts x = Some xc /\ nth_error xc j = nth_error x j /\
    mixint_predict ts false gradient [x] = Some (gradient [xc]) /\
    forall v, mixint_predict ts false value [set_nth j v x] = Some (value [set_nth j v xc]).
Proof.
  intros A B value gradient pre lo hi post x ts j U P. destruct (cast_at pre (Float lo hi) post x U eq_refl P) as (xp & a & xs & yp & ys & E & Lp & Lyp & C).
  fold ts in C. exists (yp ++ a :: ys). subst x. unfold mixint_predict, surrogate_input, cast_to_discrete_values. cbn [mapM]. rewrite (C a).
  split; [reflexivity|]. split; [|split; [reflexivity|]].
  - unfold j. rewrite !nth_error_app2 by lia. now rewrite Lp, Lyp, Nat.sub_diag.
  - intros v. unfold j. rewrite (set_nth_app xp _ v (a :: xs) Lp), (set_nth_app yp _ v (a :: ys) Lyp). cbn [set_nth mapM]. now rewrite (C v).
Qed.
Print Assumptions C146_continuous_partial.

Lemma fround_near (v w : f64) (z : Z) : finite v -> finite w -> (z <> 0)%Z -> (Rabs (B2R v - IZR z) < / 2)%R -> (Rabs (B2R w - IZR z) < / 2)%R ->
  fround v = fround w.
Proof.
  intros Fv Fw Nz Cv Cw.
  assert (K : forall u : f64, (Rabs (B2R u - IZR z) < / 2)%R -> B2R (fround u) = IZR z).
  { intros u Cu. rewrite fround_B2R. f_equal. apply Znearest_imp. exact Cu. }
  assert (I : IZR z <> 0%R) by (intros H; apply Nz; now apply eq_IZR).
  apply B2R_inj; [..|rewrite !K; trivial].
  - apply is_finite_strict_B2R. now rewrite K.
  - apply is_finite_strict_B2R. now rewrite K.
Qed.

(** Finding: as a function of an integer variable, the prediction is constant around each integer (but 0, that has two
    representations), so its derivative is null, while the gradient returned is that of the underlying mixture at the integer. *)
Theorem C146_integer_refuted : forall (A B : Type) (value : mat -> A) (gradient : mat -> B) pre lo hi post x a z,
  let ts := pre ++ Int lo hi :: post in let j := dimension pre in
  Forall usable ts -> point_ok ts x -> (z <> 0)%Z -> nth_error x j = Some a -> (Rabs (B2R a - IZR z) < / 2)%R ->
  exists xc, cast_row ts x = Some xc /\ (exists c, nth_error xc j = Some c /\ is_integer c z) /\
    mixint_predict ts false gradient [x] = Some (gradient [xc]) /\
    forall v, finite v -> (Rabs (B2R v - IZR z) < / 2)%R -> mixint_predict ts false value [set_nth j v x] = Some (value [xc]).
Proof.
  intros A B value gradient pre lo hi post x a0 z ts j U P Nz Ea Ca.
  destruct (cast_at pre (Int lo hi) post x U eq_refl P) as (xp & a & xs & yp & ys & E & Lp & Lyp & C).
  fold ts in C. subst x. assert (a0 = a) by (unfold j in Ea; rewrite nth_error_app2, Lp, Nat.sub_diag in Ea by lia; now injection Ea). subst a0.
  assert (Fa : finite a) by (destruct P as [F _]; apply Forall_app in F; destruct F as [_ F]; now apply Forall_cons_iff in F).
  exists (yp ++ fround a :: ys). unfold mixint_predict, surrogate_input, cast_to_discrete_values. cbn [mapM]. rewrite (C a).
  split; [reflexivity|]. split; [|split; [reflexivity|]].
  - exists (fround a). split; [unfold j; now rewrite nth_error_app2, Lyp, Nat.sub_diag by lia|].
    rewrite <- (Znearest_imp (Z.leb 0) (B2R a) z Ca). apply fround_is_integer. exact Fa.
  - intros v Fv Cv. unfold j. rewrite (set_nth_app xp _ v (a :: xs) Lp). cbn [set_nth mapM]. rewrite (C v).
    now rewrite (fround_near v a z Fv Fa Nz Cv Ca).
Qed.
Print Assumptions C146_integer_refuted.

(** A value near [c], among the ordered values [v]: at most half as far from [c] as from each other one. *)
Definition near (v : row) (c w : f64) : Prop := forall r, In r v -> B2R r <> B2R c -> (2 * Rabs (B2R w - B2R c) <= Rabs (B2R w - B2R r))%R.
Definition moderate (r : f64) : Prop := (Rabs (B2R r) <= bpow radix2 1022)%R.

Lemma closest_near v c w : Forall finite v -> Forall moderate v -> In c v -> finite w -> moderate w -> near v c w ->
  exists i d, take_closest v w = Some d /\ nth_error v i = Some d /\ B2R d = B2R c /\ forall k r, k < i -> nth_error v k = Some r -> B2R r <> B2R c.
Proof.
  intros F Mv Ic Fw Mw Hn. assert (NE : v <> []) by (intros ->; contradiction).
  destruct (take_closest_spec v w NE F (finite_not_nan w Fw)) as (i & d & E & Hi & H1 & H2). exists i, d.
  pose proof (take_closest_real v w d F Fw E Mw Mv c Ic) as D.
  assert (P : (bpow radix2 (-51) <= / 2)%R) by (change (/ 2)%R with (bpow radix2 (-1)); apply bpow_le; lia).
  assert (Id : In d v) by (eapply nth_error_In; eauto).
  assert (Ed : B2R d = B2R c).
  { destruct (Req_dec (B2R d) (B2R c)) as [Q|Q]; [exact Q|exfalso]. specialize (Hn d Id Q).
    pose proof (Rabs_pos (B2R w - B2R c)) as P1.
    assert (B : ((1 + bpow radix2 (-51)) * Rabs (B2R w - B2R c) <= 3 / 2 * Rabs (B2R w - B2R c))%R) by (apply Rmult_le_compat_r; lra).
    assert (Z : (Rabs (B2R w - B2R c) = 0)%R) by lra. assert (Zd : (Rabs (B2R w - B2R d) = 0)%R) by (pose proof (Rabs_pos (B2R w - B2R d)); lra).
    assert (A0 : forall t, (Rabs t = 0 -> t = 0)%R) by (intros t Ht; destruct (Req_dec t 0) as [Z0|Z0]; [exact Z0|exfalso; exact (Rabs_no_R0 t Z0 Ht)]).
    apply A0 in Z, Zd. apply Q. lra. }
  split; [exact E|]. split; [exact Hi|]. split; [exact Ed|]. intros k r Hk Hr Q. specialize (H2 k r Hk Hr).
  rewrite Forall_forall in F. rewrite (dist_ext w d r) in H2; [lra|now apply F|apply F; eapply nth_error_In; eauto|congruence].
Qed.

(** Finding: as a function of an ordered variable, the prediction is constant around each value. *)
Theorem C146_ordered_refuted : forall (A B : Type) (value : mat -> A) (gradient : mat -> B) pre v post x a c,
  let ts := pre ++ Ord v :: post in let j := dimension pre in
  Forall usable ts -> point_ok ts x -> Forall moderate v -> In c v -> nth_error x j = Some a -> moderate a -> near v c a ->
  exists xc, cast_row ts x = Some xc /\ (exists d, nth_error xc j = Some d /\ B2R d = B2R c) /\
    mixint_predict ts false gradient [x] = Some (gradient [xc]) /\
    forall w, finite w -> moderate w -> near v c w -> mixint_predict ts false value [set_nth j w x] = Some (value [xc]).
Proof.
  intros A B value gradient pre v post x a0 c ts j U P Mv Ic Ea Ma Na.
  destruct (cast_at pre (Ord v) post x U eq_refl P) as (xp & a & xs & yp & ys & E & Lp & Lyp & C).
  fold ts in C. subst x. assert (a0 = a) by (unfold j in Ea; rewrite nth_error_app2, Lp, Nat.sub_diag in Ea by lia; now injection Ea). subst a0.
  assert (Fa : finite a) by (destruct P as [F _]; apply Forall_app in F; destruct F as [_ F]; now apply Forall_cons_iff in F).
  assert (Fv : Forall finite v) by (apply Forall_app in U; destruct U as [_ U]; apply Forall_cons_iff in U; apply U).
  destruct (closest_near v c a Fv Mv Ic Fa Ma Na) as (i & d & Ed & Hi & Hd & Hf).
  exists (yp ++ d :: ys). unfold mixint_predict, surrogate_input, cast_to_discrete_values. cbn [mapM]. rewrite (C a), Ed.
  split; [reflexivity|]. split; [|split; [reflexivity|]].
  - exists d. split; [|exact Hd]. unfold j. now rewrite nth_error_app2, Lyp, Nat.sub_diag by lia.
  - intros w Fw Mw Nw. unfold j. rewrite (set_nth_app xp _ w (a :: xs) Lp). cbn [set_nth mapM]. rewrite (C w).
    destruct (closest_near v c w Fv Mv Ic Fw Mw Nw) as (i' & d' & Ed' & Hi' & Hd' & Hf'). rewrite Ed'.
    assert (i = i').
    { destruct (Nat.lt_trichotomy i i') as [Q|[Q|Q]]; [exfalso; exact (Hf' i d Q Hi Hd)|exact Q|exfalso; exact (Hf i' d' Q Hi' Hd')]. }
    subst i'. rewrite Hi in Hi'. injection Hi' as <-. reflexivity.
Qed.
Print Assumptions C146_ordered_refuted.

(** Column [m] of a group is the strictly greatest one. *)
Definition greatest (m : nat) (g : row) : Prop :=
  exists top, nth_error g m = Some top /\ forall k v, nth_error g k = Some v -> k <> m -> (B2R v < B2R top)%R.

Lemma argmax_greatest g m : Forall finite g -> greatest m g -> fargmax g = Some m.
Proof.
  intros F (top & Et & H). assert (NE : g <> []) by (intros ->; destruct m; discriminate Et).
  destruct (fargmax_spec g NE) as (i & b & E & Eb & H1 & _).
  { eapply Forall_impl; [|exact F]. intros v Fv. now apply finite_not_nan. }
  rewrite E. f_equal. destruct (Nat.eq_dec i m) as [Q|Q]; [exact Q|exfalso]. specialize (H i b Eb Q). specialize (H1 m top Et).
  rewrite Forall_forall in F. rewrite !ord_fin in H1 by (apply F; eapply nth_error_In; eauto). lra.
Qed.

Lemma set_nth_split {A} (g : list A) : forall k v s, k < length g -> set_nth k v (g ++ s) = set_nth k v g ++ s.
Proof. induction g as [|a g IH]; intros [|k] v s H; cbn in *; try lia; [reflexivity|]. f_equal. apply IH. lia. Qed.
Lemma set_nth_len {A} (g : list A) : forall k v, length (set_nth k v g) = length g.
Proof. induction g as [|a g IH]; intros [|k] v; cbn; try reflexivity. now rewrite IH. Qed.
Lemma set_nth_shift {A} (p : list A) : forall k v l, set_nth (length p + k) v (p ++ l) = p ++ set_nth k v l.
Proof. induction p as [|a p IH]; intros k v l; [reflexivity|]. cbn [length app set_nth Nat.add]. f_equal. apply IH. Qed.
Lemma set_nth_forall {A} (P : A -> Prop) (g : list A) : forall k v, P v -> Forall P g -> Forall P (set_nth k v g).
Proof. induction g as [|a g IH]; intros [|k] v Hv H; cbn; try assumption; inversion H; subst; constructor; auto. Qed.

(** Finding: as a function of a column of a categorical variable, the prediction is constant as long as the same column is the greatest. *)
Theorem C146_categorical_refuted : forall (A B : Type) (value : mat -> A) (gradient : mat -> B) pre n post x m,
  let ts := pre ++ Enum n :: post in let j := dimension pre in
  Forall usable ts -> point_ok ts x -> greatest m (firstn n (skipn j x)) ->
  exists xc, cast_row ts x = Some xc /\ firstn n (skipn j xc) = one_hot n m /\
    mixint_predict ts false gradient [x] = Some (gradient [xc]) /\
    forall k w, k < n -> finite w -> greatest m (set_nth k w (firstn n (skipn j x))) ->
      mixint_predict ts false value [set_nth (j + k) w x] = Some (value [xc]).
Proof.
  intros A B value gradient pre n post x m ts j U P G. destruct P as [F L]. unfold ts in L. rewrite dimension_app, dimension_cons in L. cbn [width] in L.
  unfold j in *. set (xp := firstn (dimension pre) x). set (g := firstn n (skipn (dimension pre) x)) in *. set (xs := skipn n (skipn (dimension pre) x)).
  assert (E : x = xp ++ g ++ xs) by (unfold xp, g, xs; now rewrite firstn_skipn, firstn_skipn).
  assert (Lp : length xp = dimension pre) by (unfold xp; rewrite firstn_length; lia).
  assert (Lg : length g = n) by (unfold g; rewrite firstn_length, skipn_length; lia).
  assert (Ls : length xs = dimension post) by (unfold xs; rewrite !skipn_length; lia).
  clearbody xp g xs. subst x. apply Forall_app in F. destruct F as [Fp F]. apply Forall_app in F. destruct F as [Fg Fs].
  unfold ts in U. apply Forall_app in U. destruct U as [Up Us]. apply Forall_cons_iff in Us. destruct Us as [_ Us].
  destruct (cast_spec pre Up xp Fp Lp) as (yp & Ep & _). destruct (cast_spec post Us xs Fs Ls) as (ys & Es & _).
  assert (Lyp : length yp = dimension pre) by (rewrite (cast_length _ _ _ Ep); exact Lp).
  assert (C : forall g', length g' = n -> Forall finite g' -> greatest m g' -> cast_row ts (xp ++ g' ++ xs) = Some (yp ++ one_hot n m ++ ys)).
  { intros g' L' F' G'. unfold ts. rewrite (cast_split pre xp yp (g' ++ xs) Ep Lp). cbn [cast_row].
    destruct (Nat.ltb_spec (length (g' ++ xs)) n) as [Q|_]; [rewrite app_length in Q; lia|].
    rewrite firstn_app, L', Nat.sub_diag, firstn_all2, app_nil_r by lia. rewrite (argmax_greatest g' m F' G').
    rewrite skipn_app, L', Nat.sub_diag, skipn_all2 by lia. cbn [skipn app]. rewrite Es. reflexivity. }
  exists (yp ++ one_hot n m ++ ys). unfold mixint_predict, surrogate_input, cast_to_discrete_values. cbn [mapM]. rewrite (C g Lg Fg G).
  split; [reflexivity|]. split; [|split; [reflexivity|]].
  - rewrite skipn_app, <- Lyp, Nat.sub_diag, skipn_all. cbn [skipn app].
    rewrite firstn_app, one_hot_length, Nat.sub_diag, firstn_all2 by (rewrite one_hot_length; lia). now rewrite app_nil_r.
  - intros k w Hk Fw Gw. rewrite <- Lp, set_nth_shift, set_nth_split by lia. cbn [mapM].
    rewrite C; [reflexivity|now rewrite set_nth_len|now apply set_nth_forall|exact Gw].
Qed.
Print Assumptions C146_categorical_refuted.

Lemma unfold_length ts : forall i u x y, unfold_row_from i u ts x = Some y -> length y = dimension ts.
Proof.
  induction ts as [|t ts IH]; intros i u x y E; cbn [unfold_row_from] in E; [injection E as <-; reflexivity|]. rewrite dimension_cons.
  destruct t as [lo hi|lo hi|v|n]; cbn [width].
  1-3: (destruct (nth_error x u) as [a|]; [|discriminate]; destruct (unfold_row_from _ _ ts x) eqn:R; [|discriminate]; injection E as <-;
        cbn [length]; rewrite (IH _ _ _ _ R); lia).
  destruct (nth_error x i) as [a|]; [|discriminate]. destruct (as_index a) as [k|]; [|discriminate]. destruct (k <? n); [|discriminate].
  destruct (unfold_row_from _ _ ts x) eqn:R; [|discriminate]. injection E as <-. rewrite app_length, one_hot_length, (IH _ _ _ _ R). lia.
Qed.
Lemma mapM_single {A B} (f : A -> option B) a r : mapM f [a] = Some r -> exists b, f a = Some b /\ r = [b].
Proof. cbn [mapM]. destruct (f a) as [b|]; [|discriminate]. intros E. injection E as <-. eauto. Qed.

(** Finding: in folded space (one column per variable) the gradient has a column for each level of the categorical variables, not a
    column for each variable of the points. *)
Theorem C146_folded_refuted : forall (gradient : mat -> mat) ts x g,
  (forall m, map (@length _) (gradient m) = map (@length _) m) -> length x = length ts -> dimension ts <> length ts ->
  mixint_predict ts true gradient [x] = Some g -> exists r, g = [r] /\ length r = dimension ts /\ length r <> length x.
Proof.
  intros gradient ts x g H L D E. unfold mixint_predict, surrogate_input, unfold_with_enum_mask in E.
  destruct (compute_continuous_dim ts); [|discriminate]. destruct (mapM (unfold_row_from 0 0 ts) [x]) as [u|] eqn:Eu; [|discriminate].
  destruct (mapM_single _ _ _ Eu) as (b & Eb & ->). destruct (cast_to_discrete_values ts [b]) as [xc|] eqn:Ec; [|discriminate].
  destruct (mapM_single _ _ _ Ec) as (c & Ecc & ->). injection E as E. pose proof (H [c]) as H1. rewrite E in H1.
  destruct g as [|r [|]]; try discriminate H1. injection H1 as H1. exists r. split; [reflexivity|].
  rewrite H1, (cast_length _ _ _ Ecc), (unfold_length _ _ _ _ _ Eb). split; [reflexivity|]. now rewrite L.
Qed.
Print Assumptions C146_folded_refuted.

(** The model f(x) = x, with gradient 1, of an integer variable between 0 and 10, at 3.25; and a categorical variable of 3 levels. *)
Example C146_example :
  let ts := [Int 0 10] in Forall usable ts /\ point_ok ts [fmake 13 (-2)] /\ (Rabs (B2R (fmake 13 (-2)) - IZR 3) < / 2)%R /\
  (exists c, mixint_predict ts false (fun m : mat => map (fun _ : row => [fone]) m) [[fmake 13 (-2)]] = Some [[fone]] /\
     is_integer c 3 /\ forall v, finite v -> (Rabs (B2R v - 3) < / 2)%R -> mixint_predict ts false (fun m : mat => m) [[v]] = Some [[c]]) /\
  option_map (map (@length f64)) (mixint_predict [Enum 3] true (fun m : mat => m) [[fone]]) = Some [3].
Proof.
  cbv zeta. assert (U : Forall usable [Int 0 10]) by (repeat constructor; simpl; lia).
  assert (P : point_ok [Int 0 10] [fmake 13 (-2)]) by (split; [repeat constructor; vm_compute; reflexivity|reflexivity]).
  assert (V : B2R (fmake 13 (-2)) = (13 / 4)%R).
  { replace (B2R (fmake 13 (-2))) with (F2R (Defs.Float radix2 7318349394477056 (-51))); [|reflexivity].
    unfold F2R. cbn [Fnum Fexp bpow]. change (Z.pow_pos radix2 51) with 2251799813685248%Z. lra. }
  assert (N : (Rabs (B2R (fmake 13 (-2)) - IZR 3) < / 2)%R) by (rewrite V; apply Rabs_def1; lra).
  split; [exact U|]. split; [exact P|]. split; [exact N|]. split.
  - destruct (C146_integer_refuted _ _ (fun m : mat => m) (fun m : mat => map (fun _ : row => [fone]) m) [] 0 10 [] _ _ 3 U P ltac:(lia) eq_refl N)
      as (xc & Ec & (c & Nc & Ic) & G & C). exists c. split; [|split; [exact Ic|]].
    + exact G.
    + intros v Fv Cv. specialize (C v Fv Cv). change (dimension []) with 0 in *. cbn [set_nth app] in C. rewrite C. do 2 f_equal.
      apply cast_length in Ec. destruct xc as [|c' [|]]; [discriminate Ec| |discriminate Ec]. cbn in Nc. now injection Nc as ->.
  - vm_compute. reflexivity.
Qed.

(** Ordered values 1, 4 and 16, at 5 and at every point of [10/3; 6]; a categorical variable of 3 levels at (0, 2, 1), whose third column moves up to 2. *)
Example C146_levels_example :
  let v := [fofZ 1; fofZ 4; fofZ 16] in
  (forall (A : Type) (value : mat -> A) w, finite w -> (10 / 3 <= B2R w <= 6)%R ->
     mixint_predict [Ord v] false value [[w]] = Some (value [[fofZ 4]])) /\
  mixint_predict [Ord v] false (fun m : mat => map (fun _ : row => [fone]) m) [[fofZ 5]] = Some [[fone]] /\
  (forall (A : Type) (value : mat -> A) w, finite w -> (B2R w < 2)%R ->
     mixint_predict [Enum 3] false value [[fofZ 0; fofZ 2; w]] = Some (value [one_hot 3 1])).
Proof.
  cbv zeta. assert (V : forall z, (Z.abs z < 2 ^ 53)%Z -> finite (fofZ z) /\ B2R (fofZ z) = IZR z).
  { intros z Hz. exact (Properties_CritF64.fofZ_R z Hz). }
  destruct (V 0%Z ltac:(lia)) as [F0 E0]. destruct (V 1%Z ltac:(lia)) as [F1 E1]. destruct (V 2%Z ltac:(lia)) as [F2 E2]. destruct (V 4%Z ltac:(lia)) as [F4 E4].
  destruct (V 5%Z ltac:(lia)) as [F5 E5]. destruct (V 16%Z ltac:(lia)) as [F16 E16].
  assert (B : (100 <= bpow radix2 1022)%R) by (apply Rle_trans with (bpow radix2 10); [simpl; lra|apply bpow_le; lia]).
  assert (M : forall w, (-100 <= B2R w <= 100)%R -> moderate w) by (intros w Hw; unfold moderate; apply Rle_trans with 100%R; [apply Rabs_le; lra|exact B]).
  assert (N : forall w, (10 / 3 <= B2R w <= 6)%R -> near [fofZ 1; fofZ 4; fofZ 16] (fofZ 4) w).
  { intros w Hw r [<-|[<-|[<-|[]]]] Q; [|contradiction|]; rewrite ?E1, ?E4, ?E16; unfold Rabs; repeat destruct Rcase_abs; lra. }
  assert (C : forall w, finite w -> (10 / 3 <= B2R w <= 6)%R -> cast_row [Ord [fofZ 1; fofZ 4; fofZ 16]] [w] = Some [fofZ 4]).
  { intros w Fw Hw. cbn [cast_row].
    destruct (closest_near [fofZ 1; fofZ 4; fofZ 16] (fofZ 4) w) as (i & d & Ed & Hi & Hd & _);
      [repeat (constructor; [assumption|]); constructor|repeat (constructor; [apply M; rewrite ?E1, ?E4, ?E16; lra|]); constructor|simpl; tauto|assumption|apply M; lra|now apply N|].
    rewrite Ed. destruct i as [|[|[|i]]]; cbn [nth_error] in Hi; [assert (Q : fofZ 1 = d) by congruence|assert (Q : fofZ 4 = d) by congruence|assert (Q : fofZ 16 = d) by congruence|destruct i; discriminate Hi]; rewrite <- Q in *; [exfalso; lra|reflexivity|exfalso; lra]. }
  split; [|split].
  - intros A value w Fw Hw. unfold mixint_predict, surrogate_input, cast_to_discrete_values. cbn [mapM]. now rewrite (C w Fw Hw).
  - unfold mixint_predict, surrogate_input, cast_to_discrete_values. cbn [mapM]. rewrite (C (fofZ 5) F5); [reflexivity|lra].
  - intros A value w Fw Hw.
    destruct (C146_categorical_refuted A A value value [] 3 [] [fofZ 0; fofZ 2; fofZ 1] 1) as (xc & Ec & Hm & _ & K).
    + constructor; [cbn; lia|constructor].
    + split; [repeat (constructor; [assumption|]); constructor|reflexivity].
    + change (dimension []) with 0. cbn [skipn firstn]. exists (fofZ 2). split; [reflexivity|]. intros [|[|[|k]]] u Hu Q; cbn [nth_error] in Hu; [|exfalso; now apply Q| |destruct k; discriminate Hu]; apply (f_equal (fun o => match o with Some t => t | None => u end)) in Hu; cbv beta iota in Hu; rewrite <- Hu; rewrite ?E0, ?E1, E2; lra.
    + change (dimension []) with 0 in *. cbn [skipn] in *. specialize (K 2 w ltac:(lia) Fw). cbn [Nat.add set_nth firstn app] in K. rewrite K.
      * do 2 f_equal. assert (L : length xc = 3) by (rewrite (cast_length _ _ _ Ec); reflexivity). rewrite firstn_all2 in Hm by lia. now rewrite Hm.
      * exists (fofZ 2). split; [reflexivity|]. intros [|[|[|k]]] u Hu Q; cbn [nth_error] in Hu; [|exfalso; now apply Q| |destruct k; discriminate Hu]; apply (f_equal (fun o => match o with Some t => t | None => u end)) in Hu; cbv beta iota in Hu; rewrite <- Hu; rewrite ?E0, ?E1, E2; lra.
Qed.
