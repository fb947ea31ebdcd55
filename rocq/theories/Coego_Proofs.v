From Coq Require Import Reals.
From Coquelicot Require Import Coquelicot.
From Coq Require Import List Arith Bool Lia Permutation Sorted.
From Verif Require Import F64 Util Coego_Model Coego_Spec.
Import ListNotations.
Local Open Scope nat_scope.

(** ** Partial updates *)
Lemma assign_some {A} (x : list A) i v : i < length x -> assign x i v = Some (set_nth i v x).
Proof. intros L. unfold assign. destruct (Nat.ltb_spec i (length x)); [reflexivity|lia]. Qed.

Lemma set_active_spec {A} active : forall (values x : list A), NoDup active -> Forall (fun i => i < length x) active ->
  length values = length active -> exists x', set_active x active values = Some x' /\ length x' = length x /\
  (forall k j, nth_error active k = Some j -> nth_error x' j = nth_error values k) /\
  (forall j, ~ In j active -> nth_error x' j = nth_error x j) /\
  forall pad, set_active x (active ++ pad) values = Some x'.
Proof.
  induction active as [|i active IH]; intros [|v values] x ND F L; try discriminate L.
  - exists x. split; [reflexivity|]. split; [reflexivity|]. split; [intros [|k] j E; discriminate|].
    split; [reflexivity|]. intros pad. destruct pad; reflexivity.
  - inversion ND as [|? ? Ni ND']; subst. inversion F as [|? ? Fi F']; subst. simpl.
    rewrite assign_some by assumption.
    destruct (IH values (set_nth i v x)) as (x' & E & Lx & G & O & P); [assumption| |simpl in L; lia|].
    { eapply Forall_impl; [|exact F']. intros a. simpl. now rewrite set_nth_length. }
    exists x'. split; [assumption|]. split; [now rewrite set_nth_length in Lx|]. split; [|split; [|exact P]].
    + intros [|k] j E'; simpl in E'.
      * injection E' as <-. rewrite O by assumption. now apply set_nth_eq.
      * now apply G.
    + intros j N. rewrite O by (intros H; apply N; now right). apply set_nth_neq. intros ->. apply N. now left.
Qed.

Lemma strip_app a b n : strip (a ++ b) n = strip a n ++ strip b n.
Proof. apply filter_app. Qed.
Lemma strip_all a n : Forall (fun i => i < n) a -> strip a n = a.
Proof.
  induction 1 as [|i a L _ IH]; [reflexivity|]. simpl. destruct (Nat.ltb_spec i n); [|lia]. now f_equal.
Qed.
Lemma strip_none a n : Forall (fun i => n <= i) a -> strip a n = [].
Proof. induction 1 as [|i a L _ IH]; [reflexivity|]. simpl. destruct (Nat.ltb_spec i n); [lia|]. assumption. Qed.

Lemma select_eq {A} (x : list A) idx values :
  length values = length idx -> (forall k j, nth_error idx k = Some j -> nth_error x j = nth_error values k) ->
  select x idx = Some values.
Proof.
  revert values. induction idx as [|i idx IH]; intros [|v values] L H; try discriminate L; [reflexivity|].
  simpl. rewrite (H 0 i eq_refl). simpl. rewrite (IH values); [reflexivity|simpl in L; lia|].
  intros k j E. exact (H (S k) j E).
Qed.

Lemma partial_update {A} (x : list A) active pad values :
  NoDup active -> Forall (fun i => i < length x) active -> Forall (fun i => length x <= i) pad ->
  length values = length active ->
  exists x', set_active x (active ++ pad) values = Some x' /\ length x' = length x /\
    (forall k j, nth_error active k = Some j -> nth_error x' j = nth_error values k) /\
    (forall j, ~ In j active -> nth_error x' j = nth_error x j) /\
    get_active x' (active ++ pad) = Some values.
Proof.
  intros ND F P L. destruct (set_active_spec active values x ND F L) as (x' & _ & Lx & G & O & E).
  exists x'. split; [apply E|]. split; [exact Lx|]. split; [exact G|]. split; [exact O|].
  unfold get_active. rewrite strip_app, Lx, strip_all, (strip_none pad), app_nil_r by assumption.
  now apply select_eq.
Qed.

(** ** Random activity *)
Lemma from_shape_vec_some n size l : length l = n * size ->
  from_shape_vec n size l = Some (map (fun i => row_of size i l) (seq 0 n)).
Proof. intros E. unfold from_shape_vec. now rewrite E, Nat.eqb_refl. Qed.

Lemma skipn_skipn {A} a : forall b (l : list A), skipn a (skipn b l) = skipn (b + a) l.
Proof.
  induction b as [|b IH]; intros l; [reflexivity|]. destruct l as [|v l]; [destruct a; reflexivity|]. apply IH.
Qed.

Lemma concat_rows size : forall n l, length l = n * size -> concat (map (fun i => row_of size i l) (seq 0 n)) = l.
Proof.
  induction n as [|n IH]; intros l L.
  - destruct l; [reflexivity|discriminate].
  - simpl. rewrite <- seq_shift, map_map.
    rewrite (map_ext _ (fun i => row_of size i (skipn size l))).
    + rewrite IH by (rewrite skipn_length; simpl in L; lia). unfold row_of. simpl. apply firstn_skipn.
    + intros i. unfold row_of. rewrite skipn_skipn. reflexivity.
Qed.

Lemma row_of_length size n l i : length l = n * size -> i < n -> length (row_of size i l) = size.
Proof.
  intros L Li. unfold row_of. rewrite firstn_length, skipn_length, L.
  assert ((i + 1) * size <= n * size) by (apply Nat.mul_le_mono_r; lia). lia.
Qed.

Lemma row_of_incl size i l x : In x (row_of size i l) -> In x l.
Proof.
  unfold row_of. intros H. rewrite <- (firstn_skipn (i * size) l). apply in_or_app. right.
  rewrite <- (firstn_skipn size (skipn (i * size) l)). apply in_or_app. now left.
Qed.

Lemma concat_app2 {A B} (f g : A -> list B) l :
  Permutation (concat (map (fun i => f i ++ g i) l)) (concat (map f l) ++ concat (map g l)).
Proof.
  induction l as [|a l IH]; [reflexivity|]. simpl. rewrite IH. rewrite <- !app_assoc.
  apply Permutation_app_head. rewrite !app_assoc. apply Permutation_app_tail. apply Permutation_app_comm.
Qed.

Lemma concat_singles (l : list nat) : forall n, length l <= n ->
  concat (map (fun i => if i <? length l then [nth i l 0] else []) (seq 0 n)) = l.
Proof.
  intros n. revert l. induction n as [|n IH]; intros l L.
  - destruct l; [reflexivity|simpl in L; lia].
  - simpl. rewrite <- seq_shift, map_map. destruct l as [|a l].
    + simpl. clear. induction (seq 0 n); [reflexivity|]. simpl. assumption.
    + simpl. f_equal. etransitivity; [|apply (IH l); simpl in L; lia]. reflexivity.
Qed.

Lemma activity_partition xdim n_coop idx : 1 <= xdim -> 1 <= n_coop -> Permutation idx (seq 0 xdim) ->
  exists rows, random_activity xdim n_coop idx = Some rows /\ length rows = Nat.min n_coop xdim /\
    Permutation (concat (map (members xdim) rows)) (seq 0 xdim) /\
    (forall r, In r rows -> exists a p, r = a ++ p /\ members xdim r = a /\ Forall (fun i => i = xdim) p) /\
    (forall r r', In r rows -> In r' rows ->
       length r = length r' /\ length (members xdim r) <= length (members xdim r') + 1).
Proof.
  intros X C P. pose proof (Permutation_length P) as L. rewrite seq_length in L.
  assert (IN : forall x, In x idx -> x < xdim).
  { intros x H. apply (Permutation_in _ P) in H. apply in_seq in H. lia. }
  unfold random_activity. set (g := Nat.min n_coop xdim). assert (G : 1 <= g <= xdim) by (unfold g; lia).
  destruct g as [|g0] eqn:Eg; [lia|]. rewrite <- Eg in *. clear Eg g0. clearbody g. clear C.
  pose proof (Nat.div_mod xdim g ltac:(lia)) as DM. pose proof (Nat.mod_upper_bound xdim g ltac:(lia)) as MB.
  destruct (Nat.eqb_spec (xdim mod g) 0) as [E0|N0].
  - set (q := xdim / g) in *. assert (Lq : length idx = g * q) by lia.
    rewrite from_shape_vec_some by assumption. eexists. split; [reflexivity|].
    split; [now rewrite map_length, seq_length|].
    assert (M : forall i, members xdim (row_of q i idx) = row_of q i idx).
    { intros i. apply (strip_all _ xdim). apply Forall_forall. intros x H. apply IN. eapply row_of_incl, H. }
    split; [|split].
    + rewrite map_map. rewrite (map_ext _ (fun i => row_of q i idx)) by exact M. now rewrite concat_rows.
    + intros r H. apply in_map_iff in H. destruct H as (i & <- & _). exists (row_of q i idx), [].
      rewrite app_nil_r. auto.
    + intros r r' H H'. apply in_map_iff in H. destruct H as (i & <- & Hi). apply in_map_iff in H'.
      destruct H' as (j & <- & Hj). apply in_seq in Hi. apply in_seq in Hj. rewrite !M.
      rewrite !(row_of_length q g) by (try assumption; lia). lia.
  - set (q := xdim / g) in *. set (rem := xdim mod g) in *. replace (q + 1 - 1) with q by lia.
    assert (Lc : g * q <= length idx) by lia.
    rewrite from_shape_vec_some by (rewrite firstn_length; lia).
    assert (Ll : length (skipn (g * q) idx) = rem) by (rewrite skipn_length; lia).
    rewrite Ll, Nat.eqb_refl. eexists. split; [reflexivity|]. split; [now rewrite map_length, seq_length|].
    set (fill := firstn (g * q) idx). set (last := skipn (g * q) idx) in *.
    assert (Lf : length fill = g * q) by (unfold fill; rewrite firstn_length; lia).
    set (mk := fun i => nth i (map (fun i0 => row_of q i0 fill) (seq 0 g)) [] ++ [if i <? rem then nth i last 0 else xdim]).
    assert (MK : forall i, i < g -> mk i = row_of q i fill ++ [if i <? rem then nth i last 0 else xdim]).
    { intros i Hi. unfold mk. f_equal. rewrite (nth_indep _ [] (row_of q 0 fill)) by (rewrite map_length, seq_length; lia).
      rewrite (map_nth (fun i0 => row_of q i0 fill)). now rewrite seq_nth. }
    assert (INf : forall x, In x fill -> x < xdim).
    { intros x H. apply IN. rewrite <- (firstn_skipn (g * q) idx). apply in_or_app. now left. }
    assert (INl : forall i, i < rem -> nth i last 0 < xdim).
    { intros i H. apply IN. rewrite <- (firstn_skipn (g * q) idx). apply in_or_app. right. apply nth_In. change (i < length last). lia. }
    assert (M1 : forall i, members xdim (row_of q i fill) = row_of q i fill).
    { intros i. apply (strip_all _ xdim). apply Forall_forall. intros x H. apply INf. eapply row_of_incl, H. }
    assert (M : forall i, i < g -> members xdim (mk i) = row_of q i fill ++ if i <? rem then [nth i last 0] else []).
    { intros i Hi. rewrite MK by assumption. unfold members. rewrite filter_app. fold (members xdim (row_of q i fill)).
      rewrite M1. f_equal. simpl. destruct (Nat.ltb_spec i rem) as [Lt|Ge].
      - destruct (Nat.ltb_spec (nth i last 0) xdim); [reflexivity|]. specialize (INl i Lt). lia.
      - destruct (Nat.ltb_spec xdim xdim); [lia|reflexivity]. }
    split; [|split].
    + rewrite map_map. rewrite (map_ext_in _ (fun i => row_of q i fill ++ if i <? rem then [nth i last 0] else []))
        by (intros i Hi; apply in_seq in Hi; apply M; lia).
      rewrite concat_app2, concat_rows by assumption. rewrite <- Ll, concat_singles by lia.
      unfold fill, last. now rewrite firstn_skipn.
    + intros r H. apply in_map_iff in H. destruct H as (i & <- & Hi). apply in_seq in Hi.
      change (exists a p, mk i = a ++ p /\ members xdim (mk i) = a /\ Forall (fun i => i = xdim) p).
      rewrite M by lia. rewrite MK by lia. destruct (Nat.ltb_spec i rem).
      * exists (row_of q i fill ++ [nth i last 0]), []. rewrite app_nil_r. auto.
      * exists (row_of q i fill), [xdim]. rewrite app_nil_r. auto.
    + intros r r' H H'. apply in_map_iff in H. destruct H as (i & <- & Hi). apply in_map_iff in H'.
      destruct H' as (j & <- & Hj). apply in_seq in Hi. apply in_seq in Hj. fold (mk i) (mk j).
      rewrite !M by lia. rewrite !MK by lia. rewrite !app_length, !(row_of_length q g) by (try assumption; lia).
      destruct (i <? rem), (j <? rem); simpl; lia.
Qed.

(** ** Gradient of the active variables *)
Lemma enumerate_filter_sorted {A} (g : list A) (d : A) : forall active off, Sorted lt active ->
  Forall (fun i => off <= i < off + length g) active ->
  map snd (filter (fun p => existsb (Nat.eqb (fst p)) active) (combine (seq off (length g)) g)) =
  map (fun i => nth (i - off) g d) active.
Proof.
  induction g as [|a g IH]; intros active off S F.
  - destruct active as [|i active]; [reflexivity|]. inversion F; subst. simpl in *. lia.
  - assert (SS : StronglySorted lt active) by (apply Sorted_StronglySorted; [intros x y z; apply Nat.lt_trans|assumption]).
    destruct active as [|i active].
    + clear. simpl. induction (combine (seq (S off) (length g)) g); [reflexivity|]. simpl. assumption.
    + inversion SS as [|? ? SS' Lt]; subst. inversion F as [|? ? Fi F']; subst. inversion S as [|? ? S' _]; subst.
      simpl combine. cbn [filter fst]. destruct (Nat.eq_dec i off) as [->|N].
      * cbn [existsb]. rewrite Nat.eqb_refl. cbn [orb map snd]. rewrite Nat.sub_diag. cbn [nth]. f_equal.
        transitivity (map (fun i => nth (i - Datatypes.S off) g d) active).
        -- rewrite <- (IH active (Datatypes.S off)).
           ++ f_equal. apply filter_ext_in. intros [k v] Hin. apply in_combine_l in Hin. apply in_seq in Hin.
              cbn [fst existsb]. destruct (Nat.eqb_spec k off); [lia|reflexivity].
           ++ assumption.
           ++ rewrite Forall_forall in *. intros x Hx. specialize (Lt x Hx). specialize (F' x Hx). simpl in F'. lia.
        -- apply map_ext_in. intros x Hx. rewrite Forall_forall in Lt. specialize (Lt x Hx).
           replace (x - off) with (Datatypes.S (x - Datatypes.S off)) by lia. reflexivity.
      * assert (NE : existsb (Nat.eqb off) (i :: active) = false).
        { apply not_true_iff_false. intros H. apply existsb_exists in H. destruct H as (x & Hx & E).
          apply Nat.eqb_eq in E. subst x. destruct Hx as [->|Hx]; [congruence|].
          rewrite Forall_forall in Lt. specialize (Lt _ Hx). lia. }
        rewrite NE. rewrite (IH (i :: active) (Datatypes.S off)).
        -- apply map_ext_in. intros x Hx. assert (off < x).
           { destruct Hx as [<-|Hx]; [lia|]. rewrite Forall_forall in Lt. specialize (Lt _ Hx). lia. }
           replace (x - off) with (Datatypes.S (x - Datatypes.S off)) by lia. reflexivity.
        -- assumption.
        -- rewrite Forall_forall in *. intros x Hx. assert (off < x).
           { destruct Hx as [<-|Hx]; [lia|]. specialize (Lt _ Hx). lia. }
           specialize (F x Hx). simpl in F. lia.
Qed.

Lemma coop_gradient_sorted {A} (g : list A) (d : A) active : Sorted lt active -> Forall (fun i => i < length g) active ->
  coop_gradient (length active) g active = Some (map (fun i => nth i g d) active).
Proof.
  intros S F. unfold coop_gradient, enumerate. cbv zeta. rewrite (enumerate_filter_sorted g d active 0).
  - rewrite map_length, Nat.eqb_refl. f_equal. apply map_ext. intros i. now rewrite Nat.sub_0_r.
  - assumption.
  - eapply Forall_impl; [|exact F]. simpl. lia.
Qed.

Lemma list_ext_nth {A} (a b : list A) : (forall i, nth_error a i = nth_error b i) -> a = b.
Proof.
  revert b. induction a as [|x a IH]; intros [|y b] H; [reflexivity|specialize (H 0); discriminate..|].
  pose proof (H 0) as H0. injection H0 as ->. f_equal. apply IH. intros i. exact (H (S i)).
Qed.

Lemma sorted_nodup active : Sorted lt active -> NoDup active.
Proof.
  intros S. apply Sorted_StronglySorted in S; [|intros x y z; apply Nat.lt_trans].
  induction S as [|i active S IH F]; constructor; [|assumption]. intros H. rewrite Forall_forall in F.
  specialize (F _ H). lia.
Qed.

Lemma gradient_sorted (F : list R -> R) (x u p g : list R) active : Sorted lt active ->
  Forall (fun i => i < length x) active -> length u = length active ->
  set_active x active u = Some p -> gradient_at F p g ->
  exists c, coop_gradient (length u) g active = Some c /\ length c = length active /\
  forall k, k < length active -> exists G, (forall t, set_active x active (set_nth k t u) = Some (G t)) /\
    is_derive (fun t => F (G t)) (nth k u 0%R) (nth k c 0%R).
Proof.
  intros S Fa L E [Lg Hg]. pose proof (sorted_nodup _ S) as ND.
  destruct (set_active_spec active u x ND Fa L) as (p' & E' & Lp & Gp & Op & _).
  rewrite E in E'. injection E' as <-. rewrite L.
  exists (map (fun i => nth i g 0%R) active). split.
  { apply coop_gradient_sorted; [assumption|]. now rewrite Lg, Lp. }
  split; [apply map_length|]. intros k Lk.
  set (j := nth k active 0). assert (Ej : nth_error active k = Some j) by (apply nth_error_nth'; assumption).
  exists (fun t => set_nth j t p). split.
  - intros t. destruct (set_active_spec active (set_nth k t u) x ND Fa) as (q & Eq & Lq & Gq & Oq & _);
      [now rewrite set_nth_length|].
    rewrite Eq. f_equal. apply list_ext_nth. intros i.
    destruct (in_dec Nat.eq_dec i active) as [I|I].
    + apply In_nth_error in I. destruct I as (m & Em). rewrite (Gq m i Em). destruct (Nat.eq_dec m k) as [->|N].
      * rewrite Ej in Em. injection Em as <-. rewrite !set_nth_eq; [reflexivity| |lia].
        rewrite Lp. rewrite Forall_forall in Fa. apply Fa. eapply nth_error_In, Ej.
      * rewrite !set_nth_neq; [symmetry; now apply Gp| |congruence].
        intros <-. apply N. eapply NoDup_nth_error; [exact ND| |congruence].
        apply nth_error_Some. congruence.
    + rewrite Oq by assumption. rewrite set_nth_neq; [symmetry; now apply Op|].
      intros <-. apply I. eapply nth_error_In, Ej.
  - assert (Lj : j < length p).
    { rewrite Lp. rewrite Forall_forall in Fa. apply Fa. eapply nth_error_In, Ej. }
    specialize (Hg j Lj). specialize (Gp k j Ej).
    assert (Ev : nth j p 0%R = nth k u 0%R).
    { rewrite (nth_error_nth' p 0%R Lj) in Gp. symmetry in Gp. apply (nth_error_nth _ _ 0%R) in Gp. congruence. }
    rewrite <- Ev. replace (nth k (map (fun i => nth i g 0%R) active) 0%R) with (nth j g 0%R); [exact Hg|].
    symmetry. apply nth_error_nth. rewrite nth_error_map, Ej. reflexivity.
Qed.

(** ** The loop over the groups *)
Lemma members_incl dim a j : In j (members dim a) -> In j a /\ j < dim.
Proof. intros H. apply filter_In in H. destruct H as [H L]. apply Nat.ltb_lt in L. auto. Qed.

Lemma set_active_assembled (x : list f64) dim a p u : length x = dim -> NoDup (members dim a) -> a = members dim a ++ p ->
  Forall (fun i => i = dim) p -> length u = length (members dim a) ->
  exists x', set_active x a u = Some x' /\ assembled x a u x'.
Proof.
  intros Lx ND Ea Fp Lu. set (m := members dim a) in *.
  destruct (partial_update x m p u ND) as (x' & E & L & G & O & _).
  - apply Forall_forall. intros j H. apply members_incl in H. lia.
  - eapply Forall_impl; [|exact Fp]. simpl. lia.
  - assumption.
  - exists x'. rewrite Ea. split; [exact E|]. rewrite <- Ea. split; [exact L|]. split.
    + rewrite Lx. exact G.
    + intros j N. apply O. intros H. apply N. now apply members_incl in H.
Qed.

Definition group_ok (dim : nat) (a : list nat) : Prop :=
  NoDup (members dim a) /\ exists p, a = members dim a ++ p /\ Forall (fun i => i = dim) p.

Lemma within_nth limits x : within limits x <-> length limits = length x /\
  forall j l v, nth_error limits j = Some l -> nth_error x j = Some v -> fle (fst l) v = true /\ fle v (snd l) = true.
Proof.
  unfold within. split.
  - induction 1 as [|l v limits x H _ [IL IH]]; [split; [reflexivity|intros [|j] ? ? E; discriminate]|].
    split; [simpl; congruence|]. intros [|j] l' v' E E'; simpl in *; [injection E as <-; injection E' as <-; exact H|eauto].
  - intros [L H]. revert x L H. induction limits as [|l limits IH]; intros [|v x] L H; try discriminate L; constructor.
    + exact (H 0 l v eq_refl eq_refl).
    + apply IH; [simpl in L; congruence|]. intros j l' v' E E'. exact (H (S j) l' v' E E').
Qed.

Lemma assembled_within limits ctx a u p : within limits ctx -> group_ok (length limits) a ->
  length u = length (members (length limits) a) ->
  (forall k j l v, nth_error (members (length limits) a) k = Some j -> nth_error limits j = Some l ->
      nth_error u k = Some v -> fle (fst l) v = true /\ fle v (snd l) = true) ->
  assembled ctx a u p -> within limits p.
Proof.
  intros W G Lu B (L & Ag & O). apply within_nth in W. destruct W as [WL W]. apply within_nth. split; [congruence|].
  intros j l v El Ev. destruct (in_dec Nat.eq_dec j (members (length limits) a)) as [I|I].
  - apply In_nth_error in I. destruct I as (k & Ek). apply (B k j l v Ek El). rewrite <- Ev. symmetry. apply Ag.
    now rewrite <- WL.
  - apply (W j l v El). rewrite <- Ev. symmetry. apply O. intros H. apply I. apply filter_In. split; [assumption|].
    apply Nat.ltb_lt. apply nth_error_Some. congruence.
Qed.

Lemma finite_value_eq v : finite_value v = finite_number v.
Proof. destruct v as [[]|[]| |[] ? ? ?]; reflexivity. Qed.

Section Groups.
Variable limits : list (f64 * f64).
Variable opt : optimizer.
Variable crit : list f64 -> f64.
Hypothesis OK : optimizer_ok limits opt.
Hypothesis VA : values_are crit opt.
Variables (xbest : list f64) (ybest : f64).

Definition step_ok (st : f64 * list f64 * list f64) : Prop :=
  let '(v, x, ctx) := st in ctx = x /\ within limits x /\ ((v = ybest /\ x = xbest) \/ v = crit x).

Lemma attempts_ok i a : group_ok (length limits) a -> forall fuel n st, step_ok st ->
  exists st', attempts opt i n fuel a st = Some st' /\ step_ok st' /\
    (st' = st \/ exists m, n <= m < n + fuel /\ finite_number (fst (opt i m (snd st) a)) = true /\
       assembled (snd st) a (snd (opt i m (snd st) a)) (snd (fst st'))).
Proof.
  intros Ga. induction fuel as [|fuel IH]; intros n st Hs; [exists st; simpl; auto|].
  destruct st as [[v x] ctx]. destruct Hs as (-> & W & V). cbn [attempts].
  destruct (opt i n x a) as [w u] eqn:Eo. rewrite finite_value_eq. destruct (finite_number w) eqn:Fw.
  - pose proof (OK i n x a) as H. cbv zeta in H. rewrite Eo in H. cbn [fst snd] in H. destruct (H Fw) as [Lu B].
    assert (Lx : length x = length limits) by (apply within_nth in W; symmetry; apply W).
    destruct Ga as (ND & p & Ea & Fp). destruct (set_active_assembled x (length limits) a p u Lx ND Ea Fp Lu) as (x' & -> & As).
    exists (w, x', x'). split; [reflexivity|]. split.
    + split; [reflexivity|]. split.
      * eapply assembled_within; try eassumption. split; eauto.
      * right. pose proof (VA i n x a x') as X. rewrite Eo in X. cbn [fst snd] in X. now apply X.
    + right. exists n. cbn [fst snd]. rewrite Eo. cbn [fst snd]. split; [lia|]. auto.
  - destruct (IH (S n) (v, x, x)) as (st' & E & S' & H); [split; auto|]. exists st'. split; [exact E|].
    split; [exact S'|]. destruct H as [H|(m & Lm & H)]; [now left|]. right. exists m. split; [lia|exact H].
Qed.

Lemma groups_ok actives : Forall (group_ok (length limits)) actives -> forall i st, step_ok st ->
  exists st', groups opt i actives st = Some st' /\ step_ok st' /\
    forall j, (forall a, In a actives -> ~ In j a) -> nth_error (snd (fst st')) j = nth_error (snd (fst st)) j.
Proof.
  induction 1 as [|a actives Ga _ IH]; intros i st Hs; [exists st; simpl; auto|].
  cbn [groups]. destruct (attempts_ok i a Ga 3 1 st Hs) as (st1 & -> & S1 & H1).
  destruct (IH (S i) st1 S1) as (st2 & E2 & S2 & H2). exists st2. split; [exact E2|]. split; [exact S2|].
  intros j N. rewrite H2 by (intros b Hb; apply N; now right). destruct H1 as [->|(m & _ & _ & _ & _ & O)]; [reflexivity|].
  rewrite O by (apply N; now left). destruct st as [[v x] ctx], Hs as (-> & _). reflexivity.
Qed.
End Groups.

Lemma NoDup_concat_in {A} (l : list (list A)) a : NoDup (concat l) -> In a l -> NoDup a.
Proof.
  induction l as [|b l IH]; [contradiction|]. simpl. intros ND [->|H].
  - clear IH. induction a as [|x a IHa]; [constructor|]. inversion ND; subst. constructor; [|now apply IHa].
    intros H. apply H1. apply in_or_app. now left.
  - apply IH; [|assumption]. clear IH. induction b as [|x b IHb]; [assumption|]. inversion ND; subst. auto.
Qed.

Lemma activity_groups xdim n_coop idx rows : 1 <= xdim -> 1 <= n_coop -> Permutation idx (seq 0 xdim) ->
  random_activity xdim n_coop idx = Some rows -> Forall (group_ok xdim) rows.
Proof.
  intros X C P E. destruct (activity_partition xdim n_coop idx X C P) as (rows' & E' & _ & Pm & Sh & _).
  rewrite E in E'. injection E' as <-. apply Forall_forall. intros a Ha. split.
  - eapply NoDup_concat_in; [|apply in_map; exact Ha].
    eapply Permutation_NoDup; [apply Permutation_sym; exact Pm|apply seq_NoDup].
  - destruct (Sh a Ha) as (b & p & Eq & Em & F). exists p. rewrite Em. auto.
Qed.

Lemma cooperative_proposal limits opt crit xbest ybest n_coop idx rows :
  1 <= length limits -> 1 <= n_coop -> Permutation idx (seq 0 (length limits)) ->
  random_activity (length limits) n_coop idx = Some rows ->
  within limits xbest -> optimizer_ok limits opt -> values_are crit opt ->
  exists v x, optimize_infill opt rows xbest ybest = Some (v, x) /\ within limits x /\
    ((v = ybest /\ x = xbest) \/ v = crit x).
Proof.
  intros X C P E W OK VA. pose proof (activity_groups _ _ _ _ X C P E) as G.
  destruct (groups_ok limits opt crit OK VA xbest ybest rows G 0 (ybest, xbest, xbest)) as (((v & x) & c) & E1 & (-> & W' & V) & _).
  - split; [reflexivity|]. split; [exact W|]. now left.
  - exists v, x. unfold optimize_infill. rewrite E1. auto.
Qed.

(** Every group gets its optimized values: if all attempts succeed, each variable comes from its own group. *)
Lemma groups_values limits opt crit (OK : optimizer_ok limits opt) (VA : values_are crit opt) xbest ybest :
  (forall i n ctx a, finite_number (fst (opt i n ctx a)) = true) ->
  forall actives, Forall (group_ok (length limits)) actives -> NoDup (concat (map (members (length limits)) actives)) ->
  forall i st st', step_ok limits crit xbest ybest st -> groups opt i actives st = Some st' ->
  forall a k j, In a actives -> nth_error (members (length limits) a) k = Some j ->
  exists i' ctx, nth_error (snd (fst st')) j = nth_error (snd (opt i' 1 ctx a)) k.
Proof.
  intros Fin actives G. induction G as [|b actives Gb G IH]; intros ND i st st' Hs E a k j Ha Hk; [contradiction|].
  cbn [groups] in E. destruct (attempts_ok limits opt crit OK VA xbest ybest i b Gb 3 1 st Hs) as (st1 & E1 & S1 & H1).
  rewrite E1 in E. cbn [map concat] in ND.
  assert (ND' : NoDup (concat (map (members (length limits)) actives))).
  { clear - ND. induction (members (length limits) b) as [|x m IHm]; [assumption|]. inversion ND; subst. auto. }
  destruct Ha as [->|Ha].
  - destruct (groups_ok limits opt crit OK VA xbest ybest actives G (S i) st1 S1) as (st2 & E2 & _ & O).
    rewrite E2 in E. injection E as <-.
    assert (Hj : In j (members (length limits) a)) by (eapply nth_error_In, Hk).
    rewrite O.
    + cbn [attempts] in E1. destruct st as [[v x] ctx]. destruct (opt i 1 ctx a) as [w u] eqn:Eo.
      pose proof (Fin i 1 ctx a) as Fw. rewrite Eo in Fw. cbn [fst] in Fw. rewrite finite_value_eq, Fw in E1.
      destruct (set_active x a u) as [x'|] eqn:Es; [|discriminate]. injection E1 as <-. cbn [fst snd].
      exists i, ctx. rewrite Eo. cbn [snd]. destruct Hs as (-> & W & _).
      destruct Gb as (NDa & p & Ea & Fp). pose proof (OK i 1 x a) as H. cbv zeta in H. rewrite Eo in H. cbn [fst snd] in H. specialize (H Fw).
      assert (Lx : length x = length limits) by (apply within_nth in W; symmetry; apply W).
      destruct (set_active_assembled x (length limits) a p u Lx NDa Ea Fp (proj1 H)) as (x'' & E'' & _ & As & _).
      rewrite Es in E''. injection E'' as <-. apply As. now rewrite Lx.
    + intros c Hc Hjc. clear - ND Hj Hc Hjc. assert (Hm : In j (concat (map (members (length limits)) actives))).
      { apply in_concat. exists (members (length limits) c). split; [now apply in_map|]. apply filter_In.
        split; [assumption|]. apply members_incl in Hj. now apply Nat.ltb_lt. }
      induction (members (length limits) a) as [|x m IHm]; [contradiction|]. inversion ND; subst.
      destruct Hj as [->|Hj]; [|auto]. apply H1. apply in_or_app. now right.
  - exact (IH ND' (S i) st1 st' S1 E a k j Ha Hk).
Qed.

Lemma cooperative_all_groups limits opt crit xbest ybest n_coop idx rows v x :
  1 <= length limits -> 1 <= n_coop -> Permutation idx (seq 0 (length limits)) ->
  random_activity (length limits) n_coop idx = Some rows ->
  within limits xbest -> optimizer_ok limits opt -> values_are crit opt ->
  (forall i n ctx a, finite_number (fst (opt i n ctx a)) = true) ->
  optimize_infill opt rows xbest ybest = Some (v, x) ->
  forall j, j < length limits -> exists a k i ctx, In a rows /\ nth_error (members (length limits) a) k = Some j /\
    nth_error x j = nth_error (snd (opt i 1 ctx a)) k.
Proof.
  intros X C P E W OK VA Fin Eo j Lj. pose proof (activity_groups _ _ _ _ X C P E) as G.
  destruct (activity_partition _ n_coop idx X C P) as (rows' & E' & _ & Pm & _). rewrite E in E'. injection E' as <-.
  assert (Hj : In j (concat (map (members (length limits)) rows))).
  { eapply Permutation_in; [apply Permutation_sym; exact Pm|]. apply in_seq. lia. }
  apply in_concat in Hj. destruct Hj as (m & Hm & Hj). apply in_map_iff in Hm. destruct Hm as (a & <- & Ha).
  apply In_nth_error in Hj. destruct Hj as (k & Hk).
  unfold optimize_infill in Eo. destruct (groups opt 0 rows (ybest, xbest, xbest)) as [[[v0 x0] c0]|] eqn:Eg; [|discriminate].
  injection Eo as <- <-.
  assert (ND : NoDup (concat (map (members (length limits)) rows)))
    by (eapply Permutation_NoDup; [apply Permutation_sym; exact Pm|apply seq_NoDup]).
  assert (S0 : step_ok limits crit xbest ybest (ybest, xbest, xbest)) by (split; [reflexivity|]; split; [exact W|now left]).
  destruct (groups_values limits opt crit OK VA xbest ybest Fin rows G ND 0 _ _ S0 Eg a k j Ha Hk) as (i & ctx & H).
  exists a, k, i, ctx. auto.
Qed.

Lemma set_active_full (ctx u : list f64) : length u = length ctx -> set_active ctx (seq 0 (length ctx)) u = Some u.
Proof.
  intros L. destruct (set_active_spec (seq 0 (length ctx)) u ctx) as (x' & E & Lx & G & _).
  - apply seq_NoDup.
  - apply Forall_forall. intros i H. apply in_seq in H. lia.
  - now rewrite seq_length.
  - rewrite E. f_equal. apply list_ext_nth. intros i. destruct (Nat.lt_ge_cases i (length ctx)) as [Li|Li].
    + apply G. rewrite nth_error_nth' with (d := 0) by (rewrite seq_length; lia). now rewrite seq_nth.
    + rewrite !(proj2 (nth_error_None _ _)); [reflexivity|lia|lia].
Qed.
