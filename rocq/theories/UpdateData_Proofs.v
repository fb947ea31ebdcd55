(** Proofs about [UpdateData_Model]. *)
From Coq Require Import ZArith List Arith Bool Lia Reals Lra.
From Verif Require Import F64 Util UpdateData_Model UpdateData_Spec.
Import ListNotations.

Lemma l1_loop_spec a : forall b acc, length a = length b ->
  l1_loop acc a b = Some (fold_left fadd (map (fun p : f64 * f64 => fabs (fsub (fst p) (snd p))) (combine a b)) acc).
Proof.
  induction a as [|u a IH]; intros [|v b] acc H; simpl in *; try discriminate; [reflexivity|].
  apply IH. lia.
Qed.

Lemma l1_dist_spec a b : a <> [] -> length a = length b -> l1_dist a b = Some (l1 a b).
Proof. intros Ha H. unfold l1_dist. destruct a; [congruence|]. now apply l1_loop_spec. Qed.

Lemma is_update_ok_spec w xd xn : (1 <= w) -> width w xd -> length xn = w ->
  exists b, is_update_ok xd xn = Some b /\ (b = true <-> forall r, In r xd -> ~ near r xn).
Proof.
  intros Hw W L. induction xd as [|r xd IH]; simpl.
  - exists true. split; [reflexivity|]. split; [intros _ r []|reflexivity].
  - inversion W as [|? ? Lr W']; subst. destruct (IH W') as (b & Hb & E).
    rewrite l1_dist_spec by (try congruence; intros ->; simpl in *; lia).
    change update_tol with (fmake 100 (-52)).
    destruct (flt (l1 r xn) (fmake 100 (-52))) eqn:F.
    + exists false. split; [reflexivity|]. split; [discriminate|].
      intros H. exfalso. apply (H r (or_introl eq_refl)). exact F.
    + exists b. split; [assumption|]. rewrite E. split; intros H.
      * intros s [<-|Hs]; [unfold near; congruence|auto].
      * intros s Hs. apply H. now right.
Qed.

(** What one call does, from an arbitrary point of the loop. *)
Definition loop_post (x y c xn yn cn : list (list f64)) (idx : nat)
  (x' y' c' : list (list f64)) (new : list nat) : Prop :=
  x' = x ++ rows_at xn new /\ y' = y ++ rows_at yn new /\ c' = c ++ rows_at cn new /\
  increasing_below (length xn) new /\
  (forall k i, nth_error new k = Some i ->
     forall r, In r (x ++ rows_at xn (firstn k new)) -> ~ near r (nth i xn [])) /\
  (forall i, i < length xn -> ~ In i new ->
     exists r, In r (x ++ rows_at xn (filter (fun j => j <? i) new)) /\ near r (nth i xn [])).

Lemma rows_at_shift l r idx : rows_at (r :: l) (map S idx) = rows_at l idx.
Proof. unfold rows_at. rewrite map_map. reflexivity. Qed.

Lemma filter_map_S i l : filter (fun j => j <? S i) (map S l) = map S (filter (fun j => j <? i) l).
Proof.
  induction l as [|a l IH]; simpl; [reflexivity|].
  change (S a <? S i) with (a <? i). destruct (a <? i); simpl; now rewrite IH.
Qed.

Lemma increasing_shift n new : increasing_below n new -> increasing_below (S n) (map S new).
Proof.
  intros [H1 H2]. split.
  - intros i Hi. apply in_map_iff in Hi. destruct Hi as (j & <- & Hj). specialize (H1 j Hj). lia.
  - intros a b i j L Ha Hb. rewrite nth_error_map in Ha, Hb.
    destruct (nth_error new a) eqn:Ea; [|discriminate]. destruct (nth_error new b) eqn:Eb; [|discriminate].
    injection Ha as <-. injection Hb as <-. specialize (H2 a b _ _ L Ea Eb). lia.
Qed.

Lemma increasing_cons n new : increasing_below n new -> increasing_below (S n) (0 :: map S new).
Proof.
  intros H. pose proof (increasing_shift _ _ H) as [H1 H2]. split.
  - intros i [<-|Hi]; [lia|auto].
  - intros [|a] [|b] i j L Ha Hb; try lia; simpl in Ha, Hb.
    + injection Ha as <-. rewrite nth_error_map in Hb. destruct (nth_error new b); [|discriminate].
      injection Hb as <-. lia.
    + apply (H2 a b); [lia|assumption|assumption].
Qed.

Lemma firstn_map {A B} (f : A -> B) k l : firstn k (map f l) = map f (firstn k l).
Proof. revert l; induction k; intros [|a l]; simpl; try reflexivity. now rewrite IHk. Qed.

Lemma update_loop_spec wx wy wc : 1 <= wx -> forall xn yn cn x y c idx app,
  length xn = length yn -> length xn = length cn ->
  width wx x -> width wx xn -> width wy yn -> width wc cn ->
  exists x' y' c' new,
    update_loop wx wy wc idx x y c app xn yn cn = Some (x', y', c', app ++ map (fun i => idx + i) new) /\
    loop_post x y c xn yn cn idx x' y' c' new.
Proof.
  intros Hw. induction xn as [|xr xn IH]; intros [|yr yn] [|cr cn] x y c idx app Ly Lc Wx Wxn Wyn Wcn;
    simpl in Ly, Lc; try discriminate.
  - exists x, y, c, []. simpl. rewrite app_nil_r. split; [reflexivity|].
    unfold loop_post, rows_at. simpl. rewrite !app_nil_r. repeat split.
    + intros i [].
    + intros [|a] b i j _ Ha; discriminate.
    + intros [|k] i Hk; discriminate.
    + intros i Hi. lia.
  - inversion Wxn as [|? ? Lxr Wxn']; subst. inversion Wyn as [|? ? Lyr Wyn']; subst. inversion Wcn as [|? ? Lcr Wcn']; subst.
    simpl update_loop.
    destruct (is_update_ok_spec (length xr) x xr Hw Wx eq_refl) as (b & -> & Hb).
    destruct b.
    + unfold push_row. rewrite !Nat.eqb_refl.
      destruct (IH yn cn (x ++ [xr]) (y ++ [yr]) (c ++ [cr]) (S idx) (app ++ [idx]))
        as (x' & y' & c' & new & Hrun & Hx & Hy & Hc & Hinc & Hacc & Hrej); try assumption; try lia.
      { apply Forall_app. split; [assumption|]. constructor; [reflexivity|constructor]. }
      exists x', y', c', (0 :: map S new). rewrite Hrun. split.
      { f_equal. f_equal. rewrite <- app_assoc. simpl. rewrite map_map. f_equal. f_equal. { lia. }
        apply map_ext. intros; lia. }
      rewrite <- !app_assoc in *. simpl in *.
      assert (E : forall l r k, rows_at (r :: l) (0 :: map S k) = r :: rows_at l k)
        by (intros; unfold rows_at; simpl; now rewrite map_map).
      unfold loop_post. rewrite !E. repeat split; try assumption.
      * destruct (increasing_cons _ _ Hinc) as [A _]. exact A.
      * destruct (increasing_cons _ _ Hinc) as [_ A]. exact A.
      * intros [|k] i Hk r Hr; simpl in Hk.
        -- injection Hk as <-. simpl in *. rewrite app_nil_r in Hr. now apply Hb.
        -- rewrite nth_error_map in Hk. destruct (nth_error new k) eqn:Ek; [|discriminate].
           injection Hk as <-. simpl. apply (Hacc k n Ek).
           rewrite <- app_assoc. simpl in Hr. rewrite firstn_map in Hr.
           fold (rows_at (xr :: xn) (map S (firstn k new))) in Hr. rewrite rows_at_shift in Hr. exact Hr.
      * intros [|i] Hi Hn; [exfalso; apply Hn; now left|].
        simpl. destruct (Hrej i) as (r & Hr & Nr).
        { simpl in Hi. lia. }
        { intro X. apply Hn. right. now apply in_map. }
        exists r. split; [|assumption].
        rewrite <- app_assoc in Hr. simpl in Hr.
        replace (nth 0 (xr :: xn) []) with xr by reflexivity.
        change (filter (fun j : nat => j <? S i) (map S new)) with (filter (fun j : nat => j <? S i) (map S new)).
        rewrite filter_map_S. fold (rows_at (xr :: xn) (map S (filter (fun j => j <? i) new))).
        rewrite rows_at_shift. exact Hr.
    + destruct (IH yn cn x y c (S idx) app)
        as (x' & y' & c' & new & Hrun & Hx & Hy & Hc & Hinc & Hacc & Hrej); try assumption; try lia.
      exists x', y', c', (map S new). rewrite Hrun. split.
      { f_equal. f_equal. f_equal. rewrite map_map. apply map_ext. intros; lia. }
      unfold loop_post. rewrite !rows_at_shift. repeat split; try assumption.
      * destruct (increasing_shift _ _ Hinc) as [A _]. exact A.
      * destruct (increasing_shift _ _ Hinc) as [_ A]. exact A.
      * intros k i Hk r Hr. rewrite nth_error_map in Hk. destruct (nth_error new k) eqn:Ek; [|discriminate].
        injection Hk as <-. simpl. apply (Hacc k n Ek). rewrite firstn_map, rows_at_shift in Hr. exact Hr.
      * intros [|i] Hi Hn.
        -- simpl.
           assert (X : ~ forall r, In r x -> ~ near r xr) by (rewrite <- Hb; discriminate).
           assert (Dec : forall l, {exists r, In r l /\ near r xr} + {forall r, In r l -> ~ near r xr}).
           { induction l as [|s l IHl]; [right; intros r []|].
             destruct IHl as [Ex|N]; [left; destruct Ex as (r & H1 & H2); exists r; split; [now right|assumption]|].
             destruct (bool_dec (flt (l1 s xr) (fmake 100 (-52))) true) as [T|F].
             - left. exists s. split; [now left|exact T].
             - right. intros r [<-|Hr]; [exact F|auto]. }
           destruct (Dec x) as [(r & Hr & Nr)|N]; [|contradiction].
           exists r. split; [apply in_or_app; now left|assumption].
        -- simpl. destruct (Hrej i) as (r & Hr & Nr).
           { simpl in Hi. lia. }
           { intro Y. apply Hn. now apply in_map. }
           exists r. split; [|assumption]. rewrite filter_map_S, rows_at_shift. exact Hr.
Qed.

Lemma update_data_spec wx wy wc x y c xn yn cn : 1 <= wx ->
  length xn = length yn -> length xn = length cn ->
  width wx x -> width wx xn -> width wy yn -> width wc cn ->
  exists x' y' c' new,
    update_data wx wy wc x y c xn yn cn = Some (x', y', c', new) /\
    loop_post x y c xn yn cn 0 x' y' c' new.
Proof.
  intros Hw Ly Lc Wx Wxn Wyn Wcn. unfold update_data.
  rewrite <- Ly, <- Lc, !Nat.eqb_refl. simpl.
  destruct (update_loop_spec wx wy wc Hw xn yn cn x y c 0 []) as (x' & y' & c' & new & H & P); try assumption.
  exists x', y', c', new. rewrite H. simpl. split; [|assumption].
  replace (map (fun i => i) new) with new by (symmetry; apply map_id). reflexivity.
Qed.

Lemma l1_self a : finite_row a -> fnan (l1 a a) = false /\ ord (l1 a a) = 0%R.
Proof.
  intros F. unfold l1.
  assert (G : forall acc, fnan acc = false -> ord acc = 0%R ->
     let s := fold_left fadd (map (fun p : f64 * f64 => fabs (fsub (fst p) (snd p))) (combine a a)) acc in
     fnan s = false /\ ord s = 0%R).
  { induction F as [|v a Fv F IH]; intros acc N Z; simpl; [split; assumption|].
    destruct (fsub_diag v Fv) as [N1 Z1].
    destruct (fadd_zero_zero acc (fabs (fsub v v))) as [N2 Z2]; try assumption.
    - now rewrite fnan_fabs.
    - rewrite ord_fabs, Z1 by assumption. apply Rabs_R0.
    - apply IH; assumption. }
  apply G; [reflexivity|apply ord_fzero].
Qed.

Lemma update_tol_pos : fnan (fmake 100 (-52)) = false /\ (0 < ord (fmake 100 (-52)))%R.
Proof.
  assert (N : fnan (fmake 100 (-52)) = false) by (vm_compute; reflexivity).
  split; [assumption|]. rewrite <- ord_fzero. apply flt_ord; [reflexivity|assumption|].
  vm_compute. reflexivity.
Qed.

Lemma near_self a : finite_row a -> near a a.
Proof.
  intros F. destruct (l1_self a F) as [N Z]. destruct update_tol_pos as [N' P].
  unfold near. apply flt_ord; try assumption. lra.
Qed.

Lemma rows_at_In l idx i : In i idx -> i < length l -> In (nth i l []) (rows_at l idx).
Proof. intros H _. unfold rows_at. apply in_map_iff. eauto. Qed.

Lemma no_duplicates wx wy wc x y c xn yn cn x' y' c' new : 1 <= wx ->
  length xn = length yn -> length xn = length cn ->
  width wx x -> width wx xn -> width wy yn -> width wc cn ->
  update_data wx wy wc x y c xn yn cn = Some (x', y', c', new) ->
  (forall i, In i new -> finite_row (nth i xn []) -> ~ In (nth i xn []) x) /\
  (forall i j, In i new -> In j new -> finite_row (nth i xn []) -> nth i xn [] = nth j xn [] -> i = j).
Proof.
  intros Hw Ly Lc Wx Wxn Wyn Wcn H.
  destruct (update_data_spec wx wy wc x y c xn yn cn) as (x1 & y1 & c1 & new1 & H1 & P); try assumption.
  rewrite H in H1. injection H1 as <- <- <- <-.
  destruct P as (_ & _ & _ & [Hlt Hinc] & Hacc & _). split.
  - intros i Hi F Hin. destruct (In_nth_error _ _ Hi) as [k Hk].
    apply (Hacc k i Hk (nth i xn [])); [apply in_or_app; now left|now apply near_self].
  - intros i j Hi Hj F E.
    destruct (In_nth_error _ _ Hi) as [k Hk]. destruct (In_nth_error _ _ Hj) as [m Hm].
    assert (Lt : forall a b u v, a < b -> nth_error new a = Some u -> nth_error new b = Some v ->
              nth u xn [] = nth v xn [] -> finite_row (nth u xn []) -> False).
    { intros a b u v Lab Ha Hb Euv Fu.
      apply (Hacc b v Hb (nth u xn [])).
      - apply in_or_app. right. unfold rows_at. apply in_map_iff. exists u. split; [reflexivity|].
        assert (Hn : nth_error (firstn b new) a = Some u).
        { clear -Lab Ha. revert b new Lab Ha. induction a; intros [|b] [|z new] L H; simpl in *; try lia; try discriminate; auto.
          apply IHa; [lia|assumption]. }
        eapply nth_error_In; eauto.
      - rewrite <- Euv. now apply near_self. }
    destruct (Nat.lt_trichotomy k m) as [L|[->|L]].
    + exfalso. eapply (Lt k m); eauto.
    + congruence.
    + exfalso. eapply (Lt m k); eauto. now rewrite <- E.
Qed.
