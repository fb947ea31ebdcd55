(** C68, C69, C76, C121, C122: sorting of rows, quality metrics, portfolio selection. *)
From Coq Require Import Reals List Arith Bool Permutation Sorted Lra Lia.
From Verif Require Import Util Misc_Model Misc_Proofs.
Import ListNotations.

(** ** C68: sorting rows *)

(** A strict weak order, as [less_than] must be. *)
Definition strict_order (lt : nat -> nat -> bool) : Prop :=
  (forall a, lt a a = false) /\
  (forall a b c, lt a b = true -> lt b c = true -> lt a c = true) /\
  (forall a b c, lt a b = false -> lt b c = false -> lt a c = false).

(** The sorted indices are a permutation of all row numbers, in increasing order, rows that compare equal keep
    their order. *)
Theorem C68_sorted n lt : strict_order lt ->
  Permutation (seq 0 n) (sort_axis_by n lt) /\
  forall i j a b, i < j -> nth_error (sort_axis_by n lt) i = Some a -> nth_error (sort_axis_by n lt) j = Some b ->
    lt b a = false /\ (lt a b = false -> a < b).
Proof.
  intros (I & T & N). split; [apply isort_by_perm|].
  intros i j a b L Ha Hb.
  assert (B : before lt a b) by (apply (ssorted_nth _ _ (isort_sorted lt I T N _ (seq_sorted n 0)) i j a b L Ha Hb)).
  destruct B as [B|[B C]]; [|now split]. split; [now apply (asym lt I T)|congruence].
Qed.
Print Assumptions C68_sorted.

(** A vector of indices is accepted exactly when each row number appears once. *)
Theorem C68_accepted v : from_indices v = Some v <-> Permutation (seq 0 (length v)) v.
Proof.
  unfold from_indices. rewrite <- correct_ok. destruct (correct v); split; intros H; congruence.
Qed.
Print Assumptions C68_accepted.

(** Every other vector is refused. *)
Theorem C68_refused v : from_indices v <> Some v -> from_indices v = None.
Proof. unfold from_indices. destruct (correct v); congruence. Qed.
Print Assumptions C68_refused.

(** Applying an accepted permutation of the right length gives the same rows, none lost or duplicated, row [r] of
    the result being the row the permutation names. *)
Theorem C68_permute {A} (rows : list A) v perm : from_indices v = Some perm -> length perm = length rows ->
  exists out, permute_axis rows perm = Some out /\ Permutation rows out /\
    forall r i, nth_error perm r = Some i -> nth_error out r = nth_error rows i.
Proof.
  intros F L. assert (v = perm) as -> by (unfold from_indices in F; destruct (correct v); congruence).
  apply C68_accepted in F. unfold permute_axis. rewrite L, Nat.eqb_refl.
  destruct (mapM_nth_error_some rows perm) as [out E].
  { intros i Hi. apply (Permutation_in i (Permutation_sym F)), in_seq in Hi. lia. }
  exists out. split; [exact E|]. split.
  - destruct (mapM_perm rows _ _ F out E) as (o & Eo & P).
    rewrite L in Eo. generalize (mapM_seq rows []). simpl. rewrite Eo. intros [= ->]. exact P.
  - intros r i Hr. destruct (mapM_nth _ _ _ E r i Hr) as (b & Hb & Hi). congruence.
Qed.
Print Assumptions C68_permute.

(** Permuting with a permutation of another size panics. *)
Theorem C68_size {A} (rows : list A) perm : permute_axis rows perm <> None -> length rows = length perm.
Proof. unfold permute_axis. destruct (Nat.eqb_spec (length rows) (length perm)); [auto|congruence]. Qed.
Print Assumptions C68_size.

(** End to end: sorting rows by a strict order on them. *)
Theorem C68_rows {A} (rows : list A) (less : A -> A -> bool) d :
  let lt i j := less (nth i rows d) (nth j rows d) in
  strict_order lt ->
  exists out, permute_axis rows (sort_axis_by (length rows) lt) = Some out /\ Permutation rows out /\
    StronglySorted (fun a b => less b a = false) out.
Proof.
  intros lt S. destruct (C68_sorted (length rows) lt S) as [P O].
  set (perm := sort_axis_by (length rows) lt) in *.
  assert (Lp : length perm = length rows) by (rewrite <- (Permutation_length P); apply seq_length).
  destruct (C68_permute rows perm perm) as (out & E & Po & R).
  { apply C68_accepted. now rewrite Lp. }
  { exact Lp. }
  exists out. split; [exact E|]. split; [exact Po|].
  assert (G : forall i j a b, i < j -> nth_error out i = Some a -> nth_error out j = Some b -> less b a = false).
  { intros i j a b L Ha Hb.
    assert (Lo : length out = length perm) by (rewrite <- (Permutation_length Po); congruence).
    destruct (nth_error perm i) as [p|] eqn:Ep;
      [|apply nth_error_None in Ep; assert (i < length out) by (apply nth_error_Some; congruence); lia].
    destruct (nth_error perm j) as [q|] eqn:Eq;
      [|apply nth_error_None in Eq; assert (j < length out) by (apply nth_error_Some; congruence); lia].
    destruct (O i j p q L Ep Eq) as [H _]. unfold lt in H.
    rewrite (R i p Ep) in Ha. rewrite (R j q Eq) in Hb.
    rewrite (nth_error_nth rows p d Ha), (nth_error_nth rows q d Hb) in H. exact H. }
  clear - G. induction out as [|a out IH]; constructor.
  - apply IH. intros i j x y L Hx Hy. apply (G (S i) (S j) x y); auto; lia.
  - apply Forall_forall. intros b Hb. apply In_nth_error in Hb as [j Hj]. apply (G 0 (S j) a b); auto; lia.
Qed.
Print Assumptions C68_rows.

Definition ex_rows : list (nat * nat) := [(3, 0); (1, 1); (3, 2); (2, 3)].
Definition ex_lt (i j : nat) : bool := fst (nth i ex_rows (0, 0)) <? fst (nth j ex_rows (0, 0)).
Example C68_strict : strict_order ex_lt.
Proof.
  unfold strict_order, ex_lt. split; [|split].
  - intros a. apply Nat.ltb_irrefl.
  - intros a b c. rewrite !Nat.ltb_lt. lia.
  - intros a b c. rewrite !Nat.ltb_ge. lia.
Qed.
Example C68_example : permute_axis ex_rows (sort_axis_by 4 ex_lt) = Some [(1, 1); (2, 3); (3, 0); (3, 2)].
Proof. reflexivity. Qed.
Example C68_duplicate : from_indices [0; 2; 2] = None /\ from_indices [0; 3; 1] = None /\ from_indices [2; 0; 1] = Some [2; 0; 1].
Proof. now split. Qed.

(** ** C76: selecting from a portfolio *)

(** The clustering labels one entry per proposal; the representatives come in any order. *)
Definition representatives (labels : list (option nat)) (indices : list nat) : Prop :=
  Permutation (first_members [] 0 labels) indices.

(** A proposal that has at least one point. *)
Definition nonempty_batch {A I} (p : proposal A I) : Prop := p.(p_x) <> [] /\ p.(p_y) <> [] /\ p.(p_c) <> [].

(** Proposal [k] suggests the point [x] with outputs [y] and constraint values [c]. *)
Definition proposes {A I} (portfolio : list (proposal A I)) k x y c : Prop :=
  exists p, nth_error portfolio k = Some p /\ nth_error p.(p_x) 0 = Some x /\ nth_error p.(p_y) 0 = Some y /\ nth_error p.(p_c) 0 = Some c.

(** The rows selected come from the proposals [ks]: inputs, outputs and constraints line up. *)
Definition comes_from {A I} (portfolio : list (proposal A I)) (ks : list nat) (xs ys cs : list (list A)) : Prop :=
  length xs = length ks /\ length ys = length ks /\ length cs = length ks /\
  forall r k, nth_error ks r = Some k -> exists x y c,
    nth_error xs r = Some x /\ nth_error ys r = Some y /\ nth_error cs r = Some c /\ proposes portfolio k x y c.

Lemma mapM_total {A B} (f : A -> option B) l : (forall a, In a l -> f a <> None) -> exists bs, mapM f l = Some bs.
Proof.
  induction l as [|a l IH]; intros H; simpl; [eauto|].
  destruct IH as [bs ->]; [firstorder|]. destruct (f a) eqn:E; [eauto|]. elim (H a (or_introl eq_refl) E).
Qed.

Lemma rep_lt labels indices : representatives labels indices -> forall i, In i indices -> i < length labels.
Proof.
  intros P i Hi. apply (Permutation_in i (Permutation_sym P)) in Hi.
  apply first_members_in in Hi as (c & k & -> & Hk & _). apply nth_error_Some. simpl. congruence.
Qed.

(** Whatever the clustering, the selection succeeds and returns distinct proposals, each with its own outputs and
    constraint values; at least one is returned, and no two of the same cluster. *)
Theorem C76_selection {A I} (portfolio : list (proposal A I)) labels indices :
  portfolio <> [] -> (forall p, In p portfolio -> nonempty_batch p) ->
  length labels = length portfolio -> representatives labels indices ->
  exists xs ys cs v info ks,
    select_from_portfolio indices portfolio = Some (xs, ys, cs, v, info) /\
    comes_from portfolio ks xs ys cs /\ ks <> [] /\ NoDup ks /\
    forall k k' l, In k ks -> In k' ks -> nth_error labels k = Some (Some l) -> nth_error labels k' = Some (Some l) -> k = k'.
Proof.
  intros Ne NB Ll Rep. unfold select_from_portfolio.
  destruct portfolio as [|p0 rest] eqn:Ep; [congruence|]. rewrite <- Ep in *.
  assert (E0 : nth_error portfolio 0 = Some p0) by now rewrite Ep.
  rewrite E0.
  destruct (mapM_total (fun p => nth_error p.(p_x) 0) portfolio) as [firsts ->].
  { intros p Hp. destruct (NB p Hp) as (X & _ & _). now destruct (p_x p). }
  destruct (1 <? length indices) eqn:G.
  - set (f := fun i : nat => _).
    destruct (mapM_total f indices) as [rows Er].
    { intros i Hi. unfold f. generalize (rep_lt _ _ Rep i Hi). rewrite Ll. intros Hl.
      destruct (nth_error portfolio i) as [p|] eqn:E; [|apply nth_error_None in E; lia].
      destruct (NB p (nth_error_In _ _ E)) as (X & Y & C).
      destruct (p_x p), (p_y p), (p_c p); simpl; congruence. }
    rewrite Er. do 5 eexists. exists indices. split; [reflexivity|].
    assert (Lr := mapM_length _ _ _ Er). split; [|split; [|split]].
    + split; [now rewrite map_length|]. split; [now rewrite map_length|]. split; [now rewrite map_length|].
      intros r k Hk. destruct (mapM_nth _ _ _ Er r k Hk) as ([[x y] c] & Hr & Hf).
      exists x, y, c. rewrite !nth_error_map, Hr. repeat (split; [reflexivity|]).
      unfold f in Hf. unfold proposes. destruct (nth_error portfolio k) as [p|]; [|discriminate Hf].
      exists p. split; [reflexivity|].
      destruct (nth_error (p_x p) 0); [|discriminate Hf]. destruct (nth_error (p_y p) 0); [|discriminate Hf].
      destruct (nth_error (p_c p) 0); [|discriminate Hf]. injection Hf as <- <- <-. auto.
    + intros ->. discriminate G.
    + apply (Permutation_NoDup Rep), first_members_nodup.
    + intros k k' l Hk Hk' Lk Lk'.
      apply (Permutation_in k (Permutation_sym Rep)), first_members_in in Hk as (c & j & -> & Hj & _ & F).
      apply (Permutation_in k' (Permutation_sym Rep)), first_members_in in Hk' as (c' & j' & -> & Hj' & _ & F').
      simpl in *. assert (c = l) as -> by congruence. assert (c' = l) as -> by congruence.
      destruct (lt_eq_lt_dec j j') as [[H|H]|H]; [|exact H|].
      * now elim (F' _ H).
      * now elim (F _ H).
  - destruct (NB p0 (nth_error_In _ _ E0)) as (X & Y & C).
    destruct (p_x p0) as [|x xs] eqn:Ex; [congruence|]. destruct (p_y p0) as [|y ys] eqn:Ey; [congruence|].
    destruct (p_c p0) as [|c cs] eqn:Ec; [congruence|]. simpl.
    do 5 eexists. exists [0]. split; [reflexivity|]. split; [|split; [|split]].
    + split; [reflexivity|]. split; [reflexivity|]. split; [reflexivity|].
      intros [|r] k Hk; [|now destruct r]. injection Hk as <-. exists x, y, c. repeat (split; [reflexivity|]).
      exists p0. rewrite Ex, Ey, Ec. auto.
    + discriminate.
    + repeat constructor. intros [].
    + intros k k' l [<-|[]] [<-|[]] _ _. reflexivity.
Qed.
Print Assumptions C76_selection.

(** With two clusters or more, every cluster is represented, by its first proposal. *)
Theorem C76_every_cluster {A I} (portfolio : list (proposal A I)) labels indices xs ys cs v info k l :
  length labels = length portfolio -> representatives labels indices -> 1 < length indices ->
  select_from_portfolio indices portfolio = Some (xs, ys, cs, v, info) ->
  nth_error labels k = Some (Some l) -> (forall k', k' < k -> nth_error labels k' <> Some (Some l)) ->
  exists r x y c, nth_error xs r = Some x /\ nth_error ys r = Some y /\ nth_error cs r = Some c /\ proposes portfolio k x y c.
Proof.
  intros Ll Rep G H Hk F.
  assert (Hin : In k indices).
  { apply (Permutation_in k Rep), first_members_in. exists l, k. auto. }
  unfold select_from_portfolio in H. apply Nat.ltb_lt in G. rewrite G in H.
  destruct (nth_error portfolio 0) as [p0|]; [|discriminate H].
  destruct (mapM _ portfolio); [|discriminate H].
  set (f := fun i : nat => _) in H.
  destruct (mapM f indices) as [rows|] eqn:Er; [|discriminate H]. injection H as <- <- <- <- <-.
  apply In_nth_error in Hin as [r Hr]. destruct (mapM_nth _ _ _ Er r k Hr) as ([[x y] c] & Hx & Hf).
  exists r, x, y, c. rewrite !nth_error_map, Hx. repeat (split; [reflexivity|]).
  unfold f in Hf. unfold proposes. destruct (nth_error portfolio k) as [p|]; [|discriminate Hf].
  exists p. split; [reflexivity|].
  destruct (nth_error (p_x p) 0); [|discriminate Hf]. destruct (nth_error (p_y p) 0); [|discriminate Hf].
  destruct (nth_error (p_c p) 0); [|discriminate Hf]. injection Hf as <- <- <-. auto.
Qed.
Print Assumptions C76_every_cluster.

Definition ex_portfolio : list (proposal nat nat) :=
  map (fun k => mkProposal nat nat [[k; k]] [[10 + k]] [[20 + k]] (30 + k) k) [1; 2; 3; 4; 5].
Definition ex_labels : list (option nat) := [None; Some 1; Some 0; Some 1; Some 0].
Example C76_two_clusters : representatives ex_labels [2; 1] /\ 1 < length [2; 1] /\
  select_from_portfolio [2; 1] ex_portfolio = Some ([[3; 3]; [2; 2]], [[13]; [12]], [[23]; [22]], 31, 1).
Proof. split; [apply perm_swap|split; [simpl; lia|reflexivity]]. Qed.

(** ** C122: no proposal is thrown away *)

(** The infill value and data returned belong to a returned point: false. With several clusters they are those of
    the first proposal, which need not be selected. *)
Theorem C122_value_refuted : exists (portfolio : list (proposal nat nat)) labels indices xs ys cs v info,
  length labels = length portfolio /\ representatives labels indices /\
  select_from_portfolio indices portfolio = Some (xs, ys, cs, v, info) /\
  forall k p, nth_error portfolio k = Some p -> In (nth 0 p.(p_x) []) xs -> p.(p_val) <> v.
Proof.
  exists ex_portfolio, ex_labels, [2; 1]. do 5 eexists. split; [reflexivity|]. split; [apply perm_swap|]. split; [reflexivity|].
  intros [|[|[|[|[|k]]]]] p Hp; simpl in Hp; try (injection Hp as <-; simpl; intros [H|[H|[]]]; discriminate).
  now destruct k.
Qed.
Print Assumptions C122_value_refuted.

(** They are those of the first proposal, always. *)
Theorem C122_value_partial {A I} (portfolio : list (proposal A I)) indices xs ys cs v info :
  select_from_portfolio indices portfolio = Some (xs, ys, cs, v, info) ->
  exists p0, nth_error portfolio 0 = Some p0 /\ v = p0.(p_val) /\ info = p0.(p_info).
Proof.
  unfold select_from_portfolio. destruct (nth_error portfolio 0) as [p0|]; [|discriminate].
  destruct (mapM _ portfolio); [|discriminate]. match goal with |- match ?e with _ => _ end = _ -> _ => destruct e; [|discriminate] end.
  intros [= _ _ _ <- <-]. now exists p0.
Qed.
Print Assumptions C122_value_partial.

(** When at most one cluster is found, the selection is the first proposal even if others are far from it; a
    proposal taken for noise by the clustering is dropped when there are several clusters. *)
Theorem C122_noise_refuted : exists (portfolio : list (proposal nat nat)) labels indices xs ys cs v info k,
  length labels = length portfolio /\ representatives labels indices /\
  select_from_portfolio indices portfolio = Some (xs, ys, cs, v, info) /\
  nth_error labels k = Some None /\ forall p, nth_error portfolio k = Some p -> ~ In (nth 0 p.(p_x) []) xs.
Proof.
  exists ex_portfolio, ex_labels, [2; 1]. do 5 eexists. exists 0. split; [reflexivity|]. split; [apply perm_swap|]. split; [reflexivity|].
  split; [reflexivity|]. intros p [= <-]. simpl. intros [H|[H|[]]]; discriminate H.
Qed.
Print Assumptions C122_noise_refuted.

(** ** C69: metrics *)
Local Open Scope R_scope.

(** A fold with one prediction and one variance per target. *)
Definition fold_ok (f : fold) : Prop := length f.(f_pred) = length f.(f_targets) /\ length f.(f_var) = length f.(f_targets) /\
  forall v, In v f.(f_var) -> 0 <= v.

Theorem C69_coverage_range q f : f.(f_targets) <> [] -> fold_ok f -> 0 <= coverage q f <= 1.
Proof.
  intros N (Lp & Lv & _). unfold coverage. set (P := fun r => _). set (rows := combine _ _).
  assert (LR : (length rows = length f.(f_targets))%nat) by (unfold rows; rewrite !combine_length, Lp, Lv; lia).
  assert (Pos : 0 < INR (length f.(f_targets))) by (apply lt_0_INR; destruct (f_targets f); [congruence|simpl; lia]).
  assert (LE : INR (length (filter P rows)) <= INR (length f.(f_targets))) by (apply le_INR; rewrite <- LR; apply filter_len).
  split.
  - apply Rmult_le_pos; [apply pos_INR|left; now apply Rinv_0_lt_compat].
  - apply Rmult_le_reg_r with (INR (length f.(f_targets))); [exact Pos|]. unfold Rdiv. rewrite Rmult_assoc, Rinv_l by lra. lra.
Qed.
Print Assumptions C69_coverage_range.

(** Wider intervals cover at least as much. *)
Theorem C69_coverage_monotone q q' f : f.(f_targets) <> [] -> q <= q' -> coverage q f <= coverage q' f.
Proof.
  intros N L. unfold coverage. apply Rmult_le_compat_r.
  - left. apply Rinv_0_lt_compat, lt_0_INR. destruct (f_targets f); [congruence|simpl; lia].
  - apply le_INR, filter_length_le. intros [t [m v]] _. cbn [fst snd].
    assert (S : sqrt v * q <= sqrt v * q') by (apply Rmult_le_compat_l; [apply sqrt_pos|exact L]).
    unfold inside.
    destruct (Rle_dec (m - sqrt v * q) t), (Rle_dec t (m + sqrt v * q)); simpl; try discriminate.
    destruct (Rle_dec (m - sqrt v * q') t), (Rle_dec t (m + sqrt v * q')); simpl; auto; lra.
Qed.
Print Assumptions C69_coverage_monotone.

(** All targets in their interval gives one, none zero. *)
Theorem C69_coverage_one q f : f.(f_targets) <> [] -> fold_ok f ->
  (coverage q f = 1 <-> forall i t m v, nth_error f.(f_targets) i = Some t -> nth_error f.(f_pred) i = Some m ->
                          nth_error f.(f_var) i = Some v -> m - sqrt v * q <= t <= m + sqrt v * q).
Proof.
  intros N (Lp & Lv & _). unfold coverage. set (P := fun r => _). set (rows := combine _ _).
  assert (LR : (length rows = length f.(f_targets))%nat) by (unfold rows; rewrite !combine_length, Lp, Lv; lia).
  assert (Pos : 0 < INR (length f.(f_targets))) by (apply lt_0_INR; destruct (f_targets f); [congruence|simpl; lia]).
  assert (PS : forall r, P r = true <-> fst (snd r) - sqrt (snd (snd r)) * q <= fst r <= fst (snd r) + sqrt (snd (snd r)) * q).
  { intros r. unfold P, inside. rewrite andb_true_iff. destruct (Rle_dec _ _), (Rle_dec _ _); intuition congruence. }
  assert (NR : forall i t m v, nth_error rows i = Some (t, (m, v)) <->
    nth_error f.(f_targets) i = Some t /\ nth_error f.(f_pred) i = Some m /\ nth_error f.(f_var) i = Some v).
  { assert (NC : forall A B (a : list A) (b : list B) i x y, nth_error (combine a b) i = Some (x, y) <-> nth_error a i = Some x /\ nth_error b i = Some y).
    { induction a as [|a0 a IH]; intros [|b0 b] [|i] x y; simpl; try (intuition congruence); apply IH. }
    intros i t m v. unfold rows. now rewrite !NC. }
  assert (FULL : (length (filter P rows) = length rows)%nat <-> forall r, In r rows -> P r = true).
  { clear. induction rows as [|r rows IH]; simpl; [tauto|]. destruct (P r) eqn:E; simpl.
    - split; [intros H r' [<-|Hr]; [exact E|apply IH; [lia|exact Hr]]|]. intros H. f_equal. apply IH. auto.
    - split; [generalize (filter_len P rows); intros; lia|]. intros H. rewrite (H r) in E by auto. discriminate E. }
  assert (ONE : INR (length (filter P rows)) / INR (length (f_targets f)) = 1 <-> (length (filter P rows) = length rows)%nat).
  { split; intros H.
    - apply INR_eq. rewrite LR. apply Rmult_eq_reg_r with (/ INR (length (f_targets f))); [|apply Rinv_neq_0_compat; lra].
      unfold Rdiv in H. rewrite H, Rinv_r; lra.
    - rewrite H, LR. unfold Rdiv. apply Rinv_r. lra. }
  rewrite ONE, FULL. split.
  - intros H i t m v Ht Hm Hv. apply (PS (t, (m, v))), H, nth_error_In with i, NR. auto.
  - intros H [t [m v]] Hr. apply In_nth_error in Hr as [i Hi]. apply PS. apply NR in Hi as (A & B & C). now apply (H i).
Qed.
Print Assumptions C69_coverage_one.

Lemma press_nonneg folds : 0 <= press folds.
Proof. apply sumR_nonneg. intros x Hx. apply in_map_iff in Hx as (f & <- & _). apply sumR_nonneg, sq_diffs_nonneg. Qed.
Lemma tss_nonneg m folds : 0 <= tss m folds.
Proof.
  apply sumR_nonneg. intros x Hx. apply in_map_iff in Hx as (f & <- & _). apply sumR_nonneg.
  intros y Hy. apply in_map_iff in Hy as (t & <- & _). generalize (Rle_0_sqr (t - m)). unfold Rsqr. lra.
Qed.

(** Q2 is at most one... *)
Theorem C69_q2_le yt folds q : q2_score yt folds = Some q -> q <= 1.
Proof.
  unfold q2_score. destruct (Req_EM_T _ _) as [_|N]; [discriminate|]. intros [= <-].
  generalize (press_nonneg folds) (tss_nonneg (mean yt) folds). intros P T.
  assert (0 < / tss (mean yt) folds) by (apply Rinv_0_lt_compat; lra).
  assert (0 <= press folds / tss (mean yt) folds) by (apply Rmult_le_pos; lra). lra.
Qed.
Print Assumptions C69_q2_le.

(** ... and equals one exactly when every prediction equals its target. *)
Theorem C69_q2_exact yt folds q : q2_score yt folds = Some q -> (forall f, In f folds -> fold_ok f) ->
  (q = 1 <-> forall f, In f folds -> f.(f_pred) = f.(f_targets)).
Proof.
  unfold q2_score. destruct (Req_EM_T _ _) as [_|N]; [discriminate|]. intros [= <-] OK.
  assert (Q : 1 - press folds / tss (mean yt) folds = 1 <-> press folds = 0).
  { split; intros H.
    - apply Rmult_eq_reg_r with (/ tss (mean yt) folds); [|now apply Rinv_neq_0_compat]. unfold Rdiv in H. lra.
    - rewrite H. unfold Rdiv. lra. }
  rewrite Q. clear Q. unfold press. split.
  - intros Z f Hf. symmetry. apply sq_diffs_zero; [now destruct (OK f Hf)|].
    apply sumR_zero; [apply sq_diffs_nonneg|].
    apply (sumR_zero _ ltac:(intros x Hx; apply in_map_iff in Hx as (g & <- & _); apply sumR_nonneg, sq_diffs_nonneg) Z).
    apply in_map_iff. eauto.
  - intros H. clear N. induction folds as [|f folds IH]; simpl; [reflexivity|].
    rewrite IH; [|intros; apply OK; now right|intros; apply H; now right].
    rewrite (H f (or_introl eq_refl)).
    assert (Z : sumR (sq_diffs (f_targets f) (f_targets f)) = 0); [|lra].
    clear. induction (f_targets f) as [|t l IH]; simpl; [reflexivity|]. fold (sumR (sq_diffs l l)).
    unfold sq_diffs in IH. rewrite IH. lra.
Qed.
Print Assumptions C69_q2_exact.

(** It is not a number, or infinite, exactly when all validation targets equal the mean of the training targets. *)
Theorem C69_q2_defined yt folds : q2_score yt folds = None <-> forall f t, In f folds -> In t f.(f_targets) -> t = mean yt.
Proof.
  unfold q2_score. destruct (Req_EM_T _ _) as [Z|N].
  - split; [intros _|reflexivity]. intros f t Hf Ht.
    assert (SQ : forall g x, In x (map (fun t => (t - mean yt) * (t - mean yt)) (f_targets g)) -> 0 <= x).
    { intros g x Hx. apply in_map_iff in Hx as (u & <- & _). generalize (Rle_0_sqr (u - mean yt)). unfold Rsqr. lra. }
    assert (E : sumR (map (fun t => (t - mean yt) * (t - mean yt)) (f_targets f)) = 0).
    { apply (sumR_zero _ ltac:(intros x Hx; apply in_map_iff in Hx as (g & <- & _); apply sumR_nonneg, SQ) Z).
      apply in_map_iff. now exists f. }
    assert (E' : (t - mean yt) * (t - mean yt) = 0).
    { apply (sumR_zero _ (SQ f) E). apply in_map_iff. now exists t. }
    apply Rmult_integral in E'. lra.
  - split; [discriminate|]. intros H. elim N. clear N. unfold tss.
    induction folds as [|f folds IH]; simpl; [reflexivity|].
    rewrite IH by (intros g t Hg; apply H; now right).
    assert (E : sumR (map (fun t => (t - mean yt) * (t - mean yt)) (f_targets f)) = 0); [|lra].
    assert (Hf : forall t, In t (f_targets f) -> t = mean yt) by (intros; apply (H f); auto; now left).
    clear - Hf. induction (f_targets f) as [|t l IH]; simpl; [reflexivity|].
    fold (sumR (map (fun t => (t - mean yt) * (t - mean yt)) l)). rewrite IH by (intros; apply Hf; now right).
    rewrite (Hf t) by now left. lra.
Qed.
Print Assumptions C69_q2_defined.

(** The predictive variance adequacy is never negative, and zero exactly when the standardized squared errors
    average to one. *)
Theorem C69_pva folds p : pva_score folds = Some p ->
  let standardized f := map (fun r => (fst (fst r) - snd (fst r)) * (fst (fst r) - snd (fst r)) / snd r)
                            (combine (combine f.(f_targets) f.(f_pred)) f.(f_var)) in
  0 <= p /\ (p = 0 <-> sumR (map (fun f => sumR (standardized f)) folds) / INR (length (flat_map f_targets folds)) = 1).
Proof.
  intros H standardized. revert H. rewrite (map_ext (fun f => sumR (standardized f)) std_sq).
  2:{ intros f. unfold standardized, std_sq, sq_diffs. f_equal. generalize (f_var f) as l. generalize (combine (f_targets f) (f_pred f)) as m.
      induction m as [|a m IH]; intros [|v l]; try reflexivity. cbn [map combine fst snd]. f_equal. apply IH. }
  unfold pva_score. destruct (Rlt_dec _ _) as [P|]; [|discriminate]. intros [= <-].
  split; [apply Rabs_pos|]. set (v := _ / _) in *. split.
  - intros Z. destruct (Req_dec (ln v) 0) as [E|E]; [|now elim (Rabs_no_R0 _ E)].
    rewrite <- (exp_ln v P), E. apply exp_0.
  - intros ->. rewrite ln_1. apply Rabs_R0.
Qed.
Print Assumptions C69_pva.

Lemma levels_range a : In a levels -> 2 / 100 <= a <= 98 / 100.
Proof.
  unfold levels. rewrite in_map_iff. intros (i & <- & Hi). apply in_seq in Hi.
  assert (0 <= INR i <= 19). { split; [apply pos_INR|]. replace 19 with (INR 19) by (simpl; lra). apply le_INR. lia. }
  lra.
Qed.

(** The integrated absolute error is in [0, 1]. *)
Theorem C69_iae_range ppf folds : folds <> [] -> (forall f, In f folds -> f.(f_targets) <> [] /\ fold_ok f) ->
  0 <= iae_score ppf folds <= 1.
Proof.
  intros N OK. unfold iae_score. apply mean_bounds; [exact N|]. intros f Hf. destruct (OK f Hf) as [Nf Of].
  unfold iae_alpha. apply mean_bounds; [discriminate|]. intros a Ha. apply levels_range in Ha.
  generalize (C69_coverage_range (ppf (1 - a / 2)) f Nf Of). intros C. split; [apply Rabs_pos|apply Rabs_le; lra].
Qed.
Print Assumptions C69_iae_range.

Definition ex_fold1 : fold := mkFold [1; 2] [1; 3] [1; 1].
Definition ex_fold2 : fold := mkFold [4] [4] [1].
Example C69_folds_ok : (forall f, In f [ex_fold1; ex_fold2] -> f.(f_targets) <> [] /\ fold_ok f).
Proof.
  intros f [<-|[<-|[]]]; (split; [discriminate|split; [reflexivity|split; [reflexivity|]]]);
  intros v Hv; simpl in Hv; intuition lra.
Qed.
Example C69_q2_example : q2_score [1; 2; 4] [ex_fold1; ex_fold2] = Some (11 / 14).
Proof.
  unfold q2_score, tss, press, mean, sq_diffs. cbn [ex_fold1 ex_fold2 f_targets f_pred map combine sumR fold_right length fst snd INR].
  destruct (Req_EM_T _ _) as [E|E]; [exfalso; lra|]. f_equal.
  match goal with |- 1 - _ / ?d = _ => replace d with (14 / 3) by lra end. lra.
Qed.
Example C69_pva_example : exists p, pva_score [ex_fold1; ex_fold2] = Some p.
Proof.
  unfold pva_score, std_sq, sq_diffs. cbn [ex_fold1 ex_fold2 f_targets f_pred f_var map combine sumR fold_right length fst snd flat_map app INR].
  destruct (Rlt_dec _ _) as [|N]; [eauto|]. elim N. lra.
Qed.

(** ** C121: the calibration score of a leave-one-out run *)

Lemma single_coverage q t m v : coverage q (mkFold [t] [m] [v]) = 0 \/ coverage q (mkFold [t] [m] [v]) = 1.
Proof. unfold coverage. simpl. destruct (inside _ _ _); simpl; [right|left]; lra. Qed.

(** A score of zero means calibrated and can be reached: false with the default leave-one-out folds. Each fold has a
    single point, its coverage is zero or one, so that the score is at least 0.24 whatever the model. *)
Theorem C121_leave_one_out_refuted ppf folds : folds <> [] ->
  (forall f, In f folds -> exists t m v, f = mkFold [t] [m] [v]) -> 24 / 100 <= iae_score ppf folds.
Proof.
  intros N S. unfold iae_score. apply (mean_bounds _ _ (24 / 100) (iae_score ppf folds + 1 + fold_right (fun f a => Rabs (iae_alpha ppf levels f) + a) 0 folds + Rabs (iae_score ppf folds))); [exact N|].
  intros f Hf. split.
  - destruct (S f Hf) as (t & m & v & ->). unfold iae_alpha.
    assert (L : sumR (map (fun a => Rmin a (1 - a)) levels) <= sumR (map (fun a => Rabs (coverage (ppf (1 - a / 2)) (mkFold [t] [m] [v]) - (1 - a))) levels)).
    { apply sumR_le. intros a Ha. apply levels_range in Ha.
      destruct (single_coverage (ppf (1 - a / 2)) t m v) as [-> | ->].
      - rewrite Rabs_left1 by lra. apply Rle_trans with (1 - a); [apply Rmin_r|lra].
      - rewrite Rabs_right by lra. apply Rle_trans with a; [apply Rmin_l|lra]. }
    assert (M : 24 / 100 * 20 <= sumR (map (fun a => Rmin a (1 - a)) levels)).
    { unfold levels. cbn [seq map sumR fold_right INR].
      repeat first [rewrite Rmin_left by lra | rewrite Rmin_right by lra]. lra. }
    replace (INR (length levels)) with 20 by (unfold levels; rewrite map_length, seq_length; simpl; lra).
    match type of L with _ <= ?s => set (S1 := s) in * end. lra.
  - assert (A : Rabs (iae_alpha ppf levels f) <= fold_right (fun f a => Rabs (iae_alpha ppf levels f) + a) 0 folds).
    { clear - Hf. induction folds as [|g l IH]; [destruct Hf|]. simpl.
      assert (0 <= fold_right (fun f a => Rabs (iae_alpha ppf levels f) + a) 0 l).
      { clear. induction l as [|h l IH]; simpl; [lra|]. generalize (Rabs_pos (iae_alpha ppf levels h)). lra. }
      destruct Hf as [<-|Hf]; [lra|]. generalize (IH Hf) (Rabs_pos (iae_alpha ppf levels g)). lra. }
    generalize (Rle_abs (iae_alpha ppf levels f)) (Rle_abs (- iae_score ppf folds)). rewrite Rabs_Ropp. lra.
Qed.
Print Assumptions C121_leave_one_out_refuted.

(** What holds: the score is at least the calibration error of the coverages averaged over the folds, those handed
    out for plotting. *)
Theorem C121_score_partial ppf folds : folds <> [] ->
  sumR (map (fun p => Rabs (fst p - (1 - snd p))) (combine (plot_deltas ppf folds) levels)) / INR (length levels) <= iae_score ppf folds.
Proof.
  intros N. unfold iae_score, iae_alpha, plot_deltas.
  assert (P : 0 < INR (length folds)) by (apply lt_0_INR; destruct folds; [congruence|simpl; lia]).
  assert (Q : 0 < INR (length levels)) by (apply lt_0_INR; unfold levels; rewrite map_length, seq_length; lia).
  set (ls := levels) in *. clearbody ls.
  set (c := fun a f => coverage (ppf (1 - a / 2)) f).
  apply Rmult_le_reg_r with (INR (length ls)); [exact Q|]. unfold Rdiv at 1. rewrite Rmult_assoc, Rinv_l, Rmult_1_r by lra.
  replace (sumR (map (fun f => sumR (map (fun a => Rabs (coverage (ppf (1 - a / 2)) f - (1 - a))) ls) / INR (length ls)) folds) /
    INR (length folds) * INR (length ls))
    with (sumR (map (fun f => sumR (map (fun a => Rabs (c a f - (1 - a))) ls)) folds) / INR (length folds)).
  2:{ assert (E : sumR (map (fun f => sumR (map (fun a => Rabs (coverage (ppf (1 - a / 2)) f - (1 - a))) ls) / INR (length ls)) folds) =
                  sumR (map (fun f => sumR (map (fun a => Rabs (c a f - (1 - a))) ls)) folds) / INR (length ls)).
      { apply sumR_div. }
      rewrite E. field. lra. }
  apply le_div; [exact P|].
  clear Q. induction ls as [|a ls IH].
  - simpl. rewrite Rmult_0_l. apply sumR_nonneg. intros x Hx. apply in_map_iff in Hx as (f & <- & _). lra.
  - cbn [map combine fst snd].
    match goal with |- sumR (?h :: ?t) * _ <= _ => change (sumR (h :: t)) with (h + sumR t) end.
    match goal with |- _ <= ?r => change r with
      (sumR (map (fun f => Rabs (c a f - (1 - a)) + sumR (map (fun a0 => Rabs (c a0 f - (1 - a0))) ls)) folds)) end.
    rewrite sumR_plus, Rmult_plus_distr_r. apply Rplus_le_compat; [|exact IH].
    rewrite <- (Rabs_pos_eq (INR (length folds))) at 2 by lra. rewrite <- Rabs_mult.
    replace ((sumR (map (coverage (ppf (1 - a / 2))) folds) / INR (length folds) - (1 - a)) * INR (length folds))
      with (sumR (map (fun f => c a f - (1 - a)) folds)).
    + clear. induction folds as [|f l IHl]; simpl; [rewrite Rabs_R0; lra|].
      eapply Rle_trans; [apply Rabs_triang|]. apply Rplus_le_compat_l, IHl.
    + assert (E2 : sumR (map (fun f => c a f - (1 - a)) folds) = sumR (map (coverage (ppf (1 - a / 2))) folds) - INR (length folds) * (1 - a)).
      { clear. induction folds as [|f l IHl]; [simpl; lra|]. cbn [map length]. rewrite S_INR. unfold sumR in *. cbn [fold_right]. rewrite IHl. unfold c. lra. }
      rewrite E2. field. lra.
Qed.
Print Assumptions C121_score_partial.

Example C121_example : (forall f, In f [mkFold [1] [1] [1]; mkFold [2] [5] [1]] -> exists t m v, f = mkFold [t] [m] [v]).
Proof. intros f [<-|[<-|[]]]; eauto. Qed.
