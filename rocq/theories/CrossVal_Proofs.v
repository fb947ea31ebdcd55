(** Folds of the cross-validation. *)
From Coq Require Import Reals Lra List Arith Bool Lia Permutation.
From Verif Require Import Util Misc_Model CrossVal_Model.
Import ListNotations.
Local Open Scope nat_scope.

Section Folds.
  Context {A : Type}.
  Implicit Types rows l : list A.

  Lemma chunks_concat s : 1 <= s -> forall fuel rows, length rows <= fuel -> concat (chunks fuel s rows) = rows.
  Proof.
    intros Hs. induction fuel as [|fuel IH]; intros [|a rows] L; cbn [chunks concat length] in *; try reflexivity; [lia|].
    rewrite IH by (rewrite skipn_length; cbn [length]; lia). apply firstn_skipn.
  Qed.
  Lemma chunks_nth s : 1 <= s -> forall i fuel rows, length rows <= fuel -> i * s < length rows ->
    nth_error (chunks fuel s rows) i = Some (firstn s (skipn (i * s) rows)).
  Proof.
    intros Hs. induction i as [|i IH]; intros [|fuel] [|a rows] L B; cbn [length] in *; try lia; cbn [chunks nth_error]; [reflexivity|].
    rewrite IH by (rewrite skipn_length; cbn [length]; lia). f_equal. f_equal.
    rewrite <- (firstn_skipn s (a :: rows)) at 2. replace (S i * s) with (s + i * s) by lia.
    generalize (a :: rows). clear. intros l. revert l. induction s as [|s IH]; intros l; [reflexivity|].
    destruct l as [|b l]; [cbn; now rewrite !skipn_nil|]. cbn [skipn firstn Nat.add app].
    assert (E : forall n (x y : list A), skipn (length x + n) (x ++ y) = skipn n y).
    { clear. intros n x y. induction x; cbn; auto. }
    rewrite (firstn_skipn s l).
    assert (E2 : forall n m (x : list A), skipn n (skipn m x) = skipn (m + n) x).
    { clear. intros n m. induction m as [|m IH]; intros x; [reflexivity|]. destruct x as [|b x]; [now rewrite !skipn_nil|]. cbn. apply IH. }
    apply E2.
  Qed.
  Lemma chunks_firstn s k rows : k * s <= length rows -> concat (map (fun i => firstn s (skipn (i * s) rows)) (seq 0 k)) = firstn (k * s) rows.
  Proof.
    induction k as [|k IH]; intros L; [reflexivity|]. rewrite seq_S, map_app, concat_app, IH by lia. cbn [map concat Nat.add]. rewrite app_nil_r.
    replace (S k * s) with (k * s + s) by lia. clear IH. assert (L' : k * s + s <= length rows) by lia. clear L. revert L'. generalize (k * s). intros n L.
    rewrite <- (firstn_skipn n rows) at 3. rewrite firstn_app, firstn_length, Nat.min_l by lia.
    rewrite firstn_firstn, Nat.min_r by lia. f_equal. f_equal. lia.
  Qed.

  Lemma set_nth_app (x y : list (list A)) a b : set_nth (length x) a (x ++ b :: y) = x ++ a :: y.
  Proof. induction x as [|c x IH]; cbn; [reflexivity|]. now rewrite IH. Qed.
  Lemma swap_first_perm i (cs : list (list A)) : Permutation (swap_first i cs) cs.
  Proof.
    destruct cs as [|a t]; [reflexivity|]. cbn [swap_first]. destruct (nth_error t i) as [b|] eqn:E; [|reflexivity].
    apply nth_error_split in E. destruct E as (x & y & -> & <-). rewrite set_nth_app.
    transitivity (b :: a :: x ++ y); [constructor; symmetry; apply Permutation_middle|].
    transitivity (a :: b :: x ++ y); [apply perm_swap|]. constructor. apply Permutation_middle.
  Qed.
  Lemma swap_first_nth i (cs : list (list A)) c : nth_error cs (S i) = Some c ->
    nth_error (swap_first i cs) 0 = Some c /\ forall j, i < j -> nth_error (swap_first i cs) (S j) = nth_error cs (S j).
  Proof.
    destruct cs as [|a t]; [discriminate|]. cbn [nth_error swap_first]. intros ->. split; [reflexivity|]. intros j J. cbn [nth_error]. apply set_nth_neq. lia.
  Qed.

  Lemma concat_perm (x y : list (list A)) : Permutation x y -> Permutation (concat x) (concat y).
  Proof.
    induction 1; cbn; [reflexivity|now apply Permutation_app_head| |etransitivity; eauto].
    rewrite !app_assoc. apply Permutation_app_tail, Permutation_app_comm.
  Qed.

  Lemma fold_loop_spec (cs0 : list (list A)) todo : forall i cs, Permutation cs cs0 -> 2 <= length cs0 -> i + todo <= length cs0 ->
    (0 < todo -> nth_error cs 0 = nth_error cs0 i) -> (forall j, i < j -> nth_error cs j = nth_error cs0 j) ->
    exists folds, fold_loop todo i cs = Some folds /\ map (fun f => Some (snd f)) folds = map (nth_error cs0) (seq i todo) /\
      Forall (fun f => Permutation (snd f ++ fst f) (concat cs0)) folds.
  Proof.
    induction todo as [|todo IH]; intros i cs P L B H0 Hj; cbn [fold_loop]; [exists []; repeat split; constructor|].
    specialize (H0 ltac:(lia)). pose proof (Permutation_length P) as Lc. destruct cs as [|valid [|c2 cs]]; cbn [length] in Lc; try lia.
    assert (Q : exists rest, fold_loop todo (S i) (if todo =? 0 then valid :: c2 :: cs else swap_first i (valid :: c2 :: cs)) = Some rest /\
      map (fun f => Some (snd f)) rest = map (nth_error cs0) (seq (S i) todo) /\ Forall (fun f => Permutation (snd f ++ fst f) (concat cs0)) rest).
    { destruct (Nat.eqb_spec todo 0) as [->|Nz]; [exists []; repeat split; constructor|]. destruct (nth_error cs0 (S i)) as [c|] eqn:C; [|apply nth_error_None in C; lia].
      destruct (swap_first_nth i (valid :: c2 :: cs) c) as (S0 & Sj); [rewrite Hj by lia; exact C|]. apply IH.
      - etransitivity; [apply swap_first_perm|exact P].
      - exact L.
      - lia.
      - intros _. now rewrite S0.
      - intros [|j] J; [lia|]. rewrite Sj by lia. apply Hj. lia. }
    destruct Q as (rest & -> & M & F). eexists. split; [reflexivity|]. cbn [seq map snd tl]. split; [rewrite M, <- H0; reflexivity|].
    constructor; [|exact F]. cbn [fst snd]. transitivity (concat (valid :: c2 :: cs)); [reflexivity|]. now apply concat_perm.
  Qed.

  Lemma map_Some_inj {B} (x y : list B) : map Some x = map Some y -> x = y.
  Proof. revert y. induction x as [|a x IH]; intros [|b y] E; cbn in E; try discriminate; [reflexivity|]. injection E as -> E. f_equal. now apply IH. Qed.

  Lemma linfa_fold_spec k rows : 2 <= k <= length rows ->
    exists folds, linfa_fold k rows = Some folds /\
      map snd folds = map (fun i => firstn (length rows / k) (skipn (i * (length rows / k)) rows)) (seq 0 k) /\
      Forall (fun f => Permutation (snd f ++ fst f) rows) folds.
  Proof.
    intros (K & L). unfold linfa_fold. destruct (Nat.eqb_spec k 0); [lia|]. set (s := length rows / k).
    assert (Hs : 1 <= s) by (apply Nat.div_le_lower_bound; lia). assert (Ks : k * s <= length rows) by (apply Nat.mul_div_le; lia).
    destruct (Nat.eqb_spec s 0); [lia|]. set (cs := chunks (length rows) s rows).
    assert (N : forall i, i < k -> nth_error cs i = Some (firstn s (skipn (i * s) rows))).
    { intros i I. apply chunks_nth; [exact Hs|lia|]. nia. }
    assert (Lc : k <= length cs).
    { assert (Q : nth_error cs (k - 1) <> None) by (rewrite N by lia; discriminate). apply nth_error_Some in Q. lia. }
    destruct (fold_loop_spec cs k 0 cs) as (folds & E & M & F); [reflexivity|lia|lia|reflexivity|reflexivity|].
    exists folds. split; [exact E|]. assert (C : concat cs = rows) by (apply chunks_concat; [exact Hs|lia]). rewrite C in F. split; [|exact F].
    apply map_Some_inj. rewrite map_map, M, map_map. apply map_ext_in. intros i I. apply in_seq in I. apply N. lia.
  Qed.
  Lemma linfa_fold_none k rows : k <= 1 \/ length rows < k -> linfa_fold k rows = None.
  Proof.
    intros H. unfold linfa_fold. destruct (Nat.eqb_spec k 0); [reflexivity|]. destruct (Nat.eqb_spec (length rows / k) 0) as [|Nz]; [reflexivity|].
    destruct H as [H|H]; [|now rewrite Nat.div_small in Nz]. assert (k = 1) as -> by lia. rewrite Nat.div_1_r in Nz |- *.
    destruct rows as [|a rows]; [now cbn in Nz|]. cbn [length chunks fold_loop]. change (S (length rows)) with (length (a :: rows)). rewrite firstn_all, skipn_all.
    destruct (length rows); reflexivity.
  Qed.

  Lemma split4 i s rows : 1 <= i -> i * s + s <= length rows ->
    exists f m b t, rows = f ++ m ++ b ++ t /\ length f = s /\ length m = i * s - s /\ length b = s.
  Proof.
    intros I L. exists (firstn s rows), (firstn (i * s - s) (skipn s rows)), (firstn s (skipn (i * s - s) (skipn s rows))), (skipn s (skipn (i * s - s) (skipn s rows))).
    rewrite !firstn_skipn, !firstn_length, !skipn_length. repeat split; try nia.
  Qed.
  Lemma swap_blocks_eq i s (f m b t : list A) : 1 <= i -> length f = s -> length m = i * s - s -> length b = s ->
    swap_blocks i s (f ++ m ++ b ++ t) = b ++ m ++ f ++ t.
  Proof.
    intros I Lf Lm Lb. unfold swap_blocks. destruct (Nat.eqb_spec i 0); [lia|].
    assert (Z : forall (x y : list A) n, length x = n -> skipn n (x ++ y) = y) by (intros x y q <-; rewrite skipn_app, skipn_all, Nat.sub_diag; reflexivity).
    assert (Y : forall (x y : list A) n, length x = n -> firstn n (x ++ y) = x) by (intros x y q <-; rewrite firstn_app, firstn_all, Nat.sub_diag, app_nil_r; reflexivity).
    assert (E1 : skipn (i * s) (f ++ m ++ b ++ t) = b ++ t) by (rewrite app_assoc; apply Z; rewrite app_length; nia).
    assert (E2 : skipn (i * s + s) (f ++ m ++ b ++ t) = t) by (rewrite !app_assoc; apply Z; rewrite !app_length; nia).
    rewrite E1, E2, (Y b t s Lb), (Z f _ s Lf), (Y m _ _ Lm), (Y f _ s Lf). reflexivity.
  Qed.

  Lemma iter_loop_spec s rows todo : forall i, (i + todo) * s <= length rows ->
    snd (iter_fold_loop todo i s rows) = rows /\ length (fst (iter_fold_loop todo i s rows)) = todo /\
    Forall2 (fun tr j => Permutation (firstn s (skipn (j * s) rows) ++ tr) rows) (fst (iter_fold_loop todo i s rows)) (seq i todo).
  Proof.
    induction todo as [|todo IH]; intros i L; cbn [iter_fold_loop]; [repeat split; constructor|].
    assert (Sw : swap_blocks i s (swap_blocks i s rows) = rows /\ Permutation (firstn s (skipn (i * s) rows) ++ skipn s (swap_blocks i s rows)) rows).
    { destruct (Nat.eq_dec i 0) as [->|Nz]; [split; [reflexivity|]; cbn [swap_blocks Nat.eqb Nat.mul skipn]; now rewrite firstn_skipn|].
      destruct (split4 i s rows ltac:(lia) ltac:(nia)) as (f & m & b & t & -> & Lf & Lm & Lb).
      rewrite (swap_blocks_eq i s f m b t) by (assumption || lia). split; [now rewrite swap_blocks_eq by (assumption || lia)|].
      assert (Z : forall (x y : list A) n, length x = n -> skipn n (x ++ y) = y) by (intros x y q <-; rewrite skipn_app, skipn_all, Nat.sub_diag; reflexivity).
      assert (Y : forall (x y : list A) n, length x = n -> firstn n (x ++ y) = x) by (intros x y q <-; rewrite firstn_app, firstn_all, Nat.sub_diag, app_nil_r; reflexivity).
      assert (E1 : skipn (i * s) (f ++ m ++ b ++ t) = b ++ t) by (rewrite app_assoc; apply Z; rewrite app_length; nia).
      rewrite E1, (Y b t s Lb), (Z b _ s Lb).
      transitivity (b ++ (f ++ m) ++ t); [apply Permutation_app_head; rewrite !app_assoc; apply Permutation_app_tail, Permutation_app_comm|].
      rewrite !app_assoc. apply Permutation_app_tail. rewrite <- app_assoc. apply Permutation_app_comm. }
    destruct Sw as (Sw & Pm). rewrite Sw. destruct (IH (S i) ltac:(lia)) as (R & Ln & F). destruct (iter_fold_loop todo (S i) s rows) as (trains, rows2).
    cbn [fst snd length seq] in *. split; [exact R|]. split; [lia|]. now constructor.
  Qed.
End Folds.

Lemma combine_app_left {A B} (x : list A) (y z : list B) : length x = length y -> combine x (y ++ z) = combine x y.
Proof. revert y. induction x as [|a x IH]; intros [|b y] L; cbn in *; try discriminate; [reflexivity|]. f_equal. apply IH. lia. Qed.
Lemma combine_snd {A B} (x : list A) (y : list B) : length x = length y -> map snd (combine x y) = y.
Proof. revert y. induction x as [|a x IH]; intros [|b y] L; cbn in *; try discriminate; [reflexivity|]. f_equal. apply IH. lia. Qed.

Lemma iter_fold_spec {A} k (rows : list A) : 1 <= k <= length rows ->
  exists folds, iter_fold k rows = Some (folds, rows) /\
    map snd folds = map (fun i => firstn (length rows / k) (skipn (i * (length rows / k)) rows)) (seq 0 k) /\
    Forall (fun f => Permutation (snd f ++ fst f) rows) folds.
Proof.
  intros (K & L). unfold iter_fold. destruct (Nat.eqb_spec k 0); [lia|]. destruct (Nat.ltb_spec (length rows) k); [lia|]. cbn [orb].
  set (s := length rows / k). assert (Hs : 1 <= s) by (apply Nat.div_le_lower_bound; lia). assert (Ks : k * s <= length rows) by (apply Nat.mul_div_le; lia).
  destruct (iter_loop_spec s rows k 0 ltac:(lia)) as (Er & Ln & F). destruct (iter_fold_loop k 0 s rows) as (trains, rows'). cbn [fst snd] in *. subst rows'.
  eexists. split; [reflexivity|]. set (ch := map (fun i => firstn s (skipn (i * s) rows)) (seq 0 k)).
  assert (C : exists rest, chunks (length rows) s rows = ch ++ rest).
  { exists (skipn k (chunks (length rows) s rows)). rewrite <- (firstn_skipn k (chunks (length rows) s rows)) at 1. f_equal.
    assert (N : forall i, i < k -> nth_error (chunks (length rows) s rows) i = Some (firstn s (skipn (i * s) rows))).
    { intros i I. apply chunks_nth; [exact Hs|lia|]. nia. }
    assert (Gen : forall k cs (h : nat -> list A), (forall i, i < k -> nth_error cs i = Some (h i)) -> firstn k cs = map h (seq 0 k)).
    2: { now apply Gen. }
    clear. induction k as [|k IH]; intros cs h N; [reflexivity|]. destruct cs as [|c cs]; [specialize (N 0 ltac:(lia)); discriminate|].
    cbn [firstn seq map]. pose proof (N 0 ltac:(lia)) as N0. injection N0 as ->. f_equal. rewrite <- seq_shift, map_map. apply IH. intros i I. apply (N (S i)). lia. }
  destruct C as (rest & ->). assert (Lc : length trains = length ch) by (unfold ch; now rewrite map_length, seq_length).
  rewrite (combine_app_left _ _ _ Lc). split; [now apply combine_snd|]. unfold ch.
  clear - F. induction F as [|tr j trains js P F IH]; cbn [map combine]; constructor; [exact P|exact IH].
Qed.

Lemma valid_rows {A} k (rows : list A) (folds : list (list A * list A)) : 1 <= k ->
  map snd folds = map (fun i => firstn (length rows / k) (skipn (i * (length rows / k)) rows)) (seq 0 k) ->
  length folds = k /\ concat (map snd folds) = firstn (length rows - length rows mod k) rows.
Proof.
  intros K M. split; [apply (f_equal (@length _)) in M; now rewrite !map_length, seq_length in M|]. rewrite M, chunks_firstn by (apply Nat.mul_div_le; lia).
  f_equal. pose proof (Nat.div_mod (length rows) k ltac:(lia)). lia.
Qed.
