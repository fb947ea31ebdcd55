(** C156: cross-validation predicts every training point once, with a model that has not seen it. *)
From Coq Require Import Reals Lra List Arith Bool Lia Permutation.
From Verif Require Import Util Misc_Model CrossVal_Model CrossVal_Proofs.
Import ListNotations.
Local Open Scope nat_scope.

(** A fold is a pair (training rows, validation rows). It holds its validation rows out when the two together are the data. *)
Definition holds_out {A} (rows : list A) (f : list A * list A) : Prop := Permutation (snd f ++ fst f) rows.
(** Every row is validated once. *)
Definition each_once {A} (rows : list A) (folds : list (list A * list A)) : Prop := Permutation (concat (map snd folds)) rows.

(** Whatever the data and the number of folds (at least two, at most one per row), there are as many folds as asked, none is empty, each
    holds its validation rows out, and the rows validated are the first ones, once each, up to the remainder of the division; so that all rows
    are validated once when the number of folds divides the number of rows, as in leave-one-out. *)
Theorem C156_folds_partial {A} (k : nat) (rows : list A) : 2 <= k <= length rows ->
  exists folds, linfa_fold k rows = Some folds /\ length folds = k /\
    Forall (fun f => holds_out rows f /\ length (snd f) = length rows / k /\ 1 <= length (snd f)) folds /\
    concat (map snd folds) = firstn (length rows - length rows mod k) rows /\
    (length rows mod k = 0 -> each_once rows folds).
Proof.
  intros K. destruct (linfa_fold_spec k rows K) as (folds & E & M & F). destruct (valid_rows k rows folds ltac:(lia) M) as (L & C).
  exists folds. split; [exact E|]. split; [exact L|]. split; [|split; [exact C|]].
  - apply Forall_forall. intros f I. rewrite Forall_forall in F. split; [exact (F f I)|].
    assert (Hv : In (snd f) (map snd folds)) by now apply in_map. rewrite M in Hv. apply in_map_iff in Hv. destruct Hv as (i & Ei & Ii). apply in_seq in Ii.
    assert (B : k * (length rows / k) <= length rows) by (apply Nat.mul_div_le; lia). assert (1 <= length rows / k) by (apply Nat.div_le_lower_bound; lia).
    rewrite <- Ei, firstn_length, skipn_length. assert (i * (length rows / k) + length rows / k <= length rows) by nia. lia.
  - intros Z. unfold each_once. rewrite C, Z, Nat.sub_0_r, firstn_all. reflexivity.
Qed.

(** No model is trained on a row it is validated on. *)
Theorem C156_unseen {A} (k : nat) (rows : list A) folds : NoDup rows -> linfa_fold k rows = Some folds ->
  Forall (fun f => forall r, In r (snd f) -> ~ In r (fst f)) folds.
Proof.
  intros Nd E. destruct (le_lt_dec 2 k) as [K|K]; [|rewrite linfa_fold_none in E by lia; discriminate].
  destruct (le_lt_dec k (length rows)) as [K'|K']; [|rewrite linfa_fold_none in E by lia; discriminate].
  destruct (linfa_fold_spec k rows (conj K K')) as (folds' & E' & _ & F). rewrite E in E'. injection E' as <-.
  eapply Forall_impl; [|exact F]. intros f P r I1 I2. apply Permutation_sym in P. apply (Permutation_NoDup P) in Nd. revert Nd I1 I2. clear.
  generalize (snd f) (fst f). induction l as [|a l IH]; intros l' Nd I1 I2; [destruct I1|]. cbn in Nd. inversion Nd as [|? ? Na Nd']. subst.
  destruct I1 as [->|I1]; [apply Na, in_or_app; now right|]. now apply (IH l').
Qed.

(** Leave-one-out: a fold for each row, in order. *)
Theorem C156_leave_one_out {A} (rows : list A) : 2 <= length rows ->
  exists folds, linfa_fold (length rows) rows = Some folds /\ map snd folds = map (fun r => [r]) rows /\ Forall (holds_out rows) folds.
Proof.
  intros L. destruct (linfa_fold_spec (length rows) rows ltac:(lia)) as (folds & E & M & F). exists folds. split; [exact E|]. split; [|exact F].
  rewrite M, Nat.div_same by lia. clear. induction rows as [|a rows IH]; [reflexivity|]. cbn [length seq map Nat.mul skipn firstn]. f_equal.
  rewrite <- seq_shift, map_map. rewrite <- IH. apply map_ext. intros i. replace (S i * 1) with (S (i * 1)) by lia. reflexivity.
Qed.

(** Otherwise the last rows, as many as the remainder of the division, are never validated: no score depends on what is predicted there. *)
Theorem C156_ignored_refuted {X} (h h' : list (X * R) -> X -> R) (k : nat) (rows : list (X * R)) :
  (forall train r, In r (firstn (length rows - length rows mod k) rows) -> h train (fst r) = h' train (fst r)) ->
  q2_k h k rows = q2_k h' k rows.
Proof.
  intros H. unfold q2_k. destruct (le_lt_dec 2 k) as [K|K]; [|now rewrite linfa_fold_none by lia].
  destruct (le_lt_dec k (length rows)) as [K'|K']; [|now rewrite linfa_fold_none by lia].
  destruct (linfa_fold_spec k rows (conj K K')) as (folds & -> & M & _). destruct (valid_rows k rows folds ltac:(lia) M) as (_ & C). cbv beta iota.
  f_equal. apply map_ext_in. intros f I. unfold scored. f_equal. apply map_ext_in. intros r Ir. apply H. rewrite <- C. apply in_concat. exists (snd f). split; [now apply in_map|exact Ir].
Qed.
(** The score compares the output of every row validated with the prediction, at its input, of the model trained on the training rows of the fold. *)
Fixpoint total {B} (f : B -> R) (l : list B) : R := match l with [] => 0%R | b :: l' => (f b + total f l')%R end.
Theorem C156_score {X} (h : list (X * R) -> X -> R) (k : nat) (rows : list (X * R)) folds : linfa_fold k rows = Some folds ->
  let m := (total snd rows / INR (length rows))%R in
  let err := total (fun f => total (fun r => (snd r - h (fst f) (fst r)) ^ 2)%R (snd f)) folds in
  let var := total (fun f => total (fun r => (snd r - m) ^ 2)%R (snd f)) folds in
  (var <> 0%R -> q2_k h k rows = Some (1 - err / var)%R) /\ (var = 0%R -> q2_k h k rows = None).
Proof.
  intros E m err var. unfold q2_k. rewrite E. unfold q2_score.
  assert (T : forall B (f : B -> R) l, sumR (map f l) = total f l) by (intros B f l; induction l as [|b l IH]; cbn; [reflexivity|]; unfold sumR in IH; now rewrite IH).
  assert (Te : forall B (f f' : B -> R) l, (forall b, f b = f' b) -> total f l = total f' l) by (intros B f f' l H; induction l as [|b l IH]; cbn; [reflexivity|]; now rewrite H, IH).
  assert (Em : mean (map snd rows) = m) by (unfold mean, m; now rewrite map_length, T).
  assert (Ev : tss (mean (map snd rows)) (map (scored h) folds) = var).
  { unfold tss. rewrite map_map, T. apply Te. intros f. cbn [scored f_targets]. rewrite map_map, T. apply Te. intros r. rewrite Em. ring. }
  assert (Ee : press (map (scored h) folds) = err).
  { unfold press. rewrite map_map, T. apply Te. intros f. cbn [scored f_targets f_pred]. unfold sq_diffs.
    etransitivity; [|apply T]. f_equal. generalize (snd f). intros l. induction l as [|r l IH]; [reflexivity|]. cbn [map combine fst snd]. rewrite IH. f_equal. ring. }
  cbv beta iota zeta. rewrite Ev. rewrite Ee. split; intros Z; destruct (Req_EM_T var 0); now try contradiction.
Qed.
Definition ex_rows : list (nat * R) := [(0, 0%R); (1, 1%R); (2, 0%R); (3, 1%R); (4, 0%R)].
Definition ex_surrogate (e : R) (train : list (nat * R)) (x : nat) : R := match x with 1 | 3 => 1%R | 4 => e | _ => 0%R end.
Theorem C156_perfect_refuted : forall e : R, exists (h : list (nat * R) -> nat -> R) (rows : list (nat * R)),
  q2_k h 2 rows = Some 1%R /\ exists x y, In (x, y) rows /\ forall train, h train x = (y + e)%R.
Proof.
  intros e. exists (ex_surrogate e), ex_rows. split.
  - assert (E : linfa_fold 2 ex_rows = Some [([(2, 0%R); (3, 1%R); (4, 0%R)], [(0, 0%R); (1, 1%R)]); ([(0, 0%R); (1, 1%R); (4, 0%R)], [(2, 0%R); (3, 1%R)])]) by reflexivity.
    unfold q2_k. rewrite E. cbn [map scored fst snd ex_surrogate ex_rows]. unfold q2_score, tss, press, sq_diffs, mean, sumR, scored. cbn [map combine ex_surrogate fold_right fst snd f_targets f_pred length].
    replace (INR 5) with 5%R by (cbn [INR]; lra). destruct (Req_EM_T _ _) as [Z|Z]; [exfalso; lra|]. f_equal.
    match goal with |- (1 - ?a / ?b)%R = _ => replace a with 0%R by lra end. unfold Rdiv. rewrite Rmult_0_l. lra.
  - exists 4, 0%R. split; [do 4 right; now left|]. intros train. cbn. lra.
Qed.

(** A number of folds below two or above the number of rows panics (zero means leave-one-out for the command-line tool only). *)
Theorem C156_panics_refuted {A} (k : nat) (rows : list A) :
  (k <= 1 \/ length rows < k -> linfa_fold k rows = None) /\ (k = 0 \/ length rows < k -> iter_fold k rows = None).
Proof.
  split; [apply linfa_fold_none|]. intros H. unfold iter_fold. destruct (Nat.eqb_spec k 0); [reflexivity|].
  destruct (Nat.ltb_spec (length rows) k); [reflexivity|lia].
Qed.
Theorem C156_tool_partial {A} (kfold : nat) (rows : list A) : 2 <= length rows -> kfold <> 1 -> kfold <= length rows ->
  exists folds, linfa_fold (gpqa_folds kfold (length rows)) rows = Some folds /\ length folds = (if kfold =? 0 then length rows else kfold).
Proof.
  intros L N B. unfold gpqa_folds. destruct (Nat.eqb_spec kfold 0) as [->|Z].
  - destruct (C156_folds_partial (length rows) rows ltac:(lia)) as (folds & E & Ln & _). eauto.
  - destruct (C156_folds_partial kfold rows ltac:(lia)) as (folds & E & Ln & _). eauto.
Qed.

(** The folds of the selection of trends and correlations have the same properties, and the data are left as they were. *)
Theorem C156_selection_partial {A} (k : nat) (rows : list A) : 1 <= k <= length rows ->
  exists folds, iter_fold k rows = Some (folds, rows) /\ length folds = k /\ Forall (holds_out rows) folds /\
    concat (map snd folds) = firstn (length rows - length rows mod k) rows /\ (length rows mod k = 0 -> each_once rows folds).
Proof.
  intros K. destruct (iter_fold_spec k rows K) as (folds & E & M & F). destruct (valid_rows k rows folds ltac:(lia) M) as (L & C).
  exists folds. split; [exact E|]. split; [exact L|]. split; [exact F|]. split; [exact C|]. intros Z. unfold each_once. rewrite C, Z, Nat.sub_0_r, firstn_all. reflexivity.
Qed.

Example C156_example :
  linfa_fold 3 [1; 2; 3; 4; 5; 6; 7] = Some [([3; 4; 5; 6; 7], [1; 2]); ([1; 2; 5; 6; 7], [3; 4]); ([1; 2; 3; 4; 7], [5; 6])] /\
  iter_fold 3 [1; 2; 3; 4; 5; 6; 7] = Some ([([3; 4; 5; 6; 7], [1; 2]); ([1; 2; 5; 6; 7], [3; 4]); ([3; 4; 1; 2; 7], [5; 6])], [1; 2; 3; 4; 5; 6; 7]) /\
  linfa_fold 3 [1; 2; 3] = Some [([2; 3], [1]); ([1; 3], [2]); ([1; 2], [3])].
Proof. vm_compute. repeat split. Qed.
Print Assumptions C156_folds_partial.
Print Assumptions C156_unseen.
Print Assumptions C156_leave_one_out.
Print Assumptions C156_ignored_refuted.
Print Assumptions C156_score.
Print Assumptions C156_perfect_refuted.
Print Assumptions C156_panics_refuted.
Print Assumptions C156_tool_partial.
Print Assumptions C156_selection_partial.
