(** Proofs about the training of mixtures: split, experts, clusters, smoothing factor. *)
From Coq Require Import ZArith Reals List Arith Lia Bool Permutation Lra Sorted.
From Flocq Require Import Core.Core IEEE754.BinarySingleNaN Mult_error.
From Verif Require Import F64 Util Moe_Model Moe_Spec Moe_Proofs.
Import ListNotations.
Local Open Scope nat_scope.

(** ** The split beyond 2^24 rows *)
Section Big.
Local Notation fexp32 := (SpecFloat.fexp 24 128).
Local Notation rnd32 := (round radix2 fexp32 (round_mode mode_NE)).
Local Existing Instance valid32.
Local Existing Instance mono32.
Local Open Scope Z_scope.
Lemma fmt_even z : Z.abs z <= 16777216 -> generic_format radix2 fexp32 (IZR (2 * z)).
Proof.
  intros H. rewrite mult_IZR, Rmult_comm. change 2%R with (bpow radix2 1).
  apply (mult_bpow_pos_exact_FLT radix2 (SpecFloat.emin 24 128) 24); [now apply fmtZ32|lia].
Qed.
Definition big : nat := Z.to_nat 16777230.
Definition row_twice : nat := Z.to_nat 16777224.
Lemma big_Z : Z.of_nat big = 16777230. Proof. apply Z2Nat.id. lia. Qed.
Lemma row_twice_Z : Z.of_nat row_twice = 16777224. Proof. apply Z2Nat.id. lia. Qed.
Opaque big row_twice.
Lemma big_range : exists r, range32 (ofN32 big) (ofN32 5) = Some r /\
  Forall (fun k => k < big)%nat (map toN32 r) /\ In row_twice (map toN32 r).
Proof.
  unfold range32.
  assert (B : INR big = IZR 16777230) by (rewrite INR_IZR_INZ; now rewrite big_Z).
  assert (F5 : INR 5 = 5%R) by (simpl; lra).
  assert (Hb : is32 (ofN32 big) (IZR 16777230)).
  { destruct (ofN32_R big) as [F E]; [rewrite B; lra|]. split; [exact F|]. rewrite E, B. apply rnd32_id. apply (fmt_even 8388615). lia. }
  assert (H5 : is32 (ofN32 5) 5%R) by (rewrite <- F5; apply ofN32_exact; simpl; lia).
  assert (L : is32 (Bdiv mode_NE (Bminus mode_NE (ofN32 big) (B754_zero false)) (ofN32 5)) (IZR 3355446)).
  { assert (X := div32 _ _ _ _ (sub0_32 _ _ Hb ltac:(lra)) H5 ltac:(lra) ltac:(lra)).
    replace (16777230 / 5)%R with (IZR 3355446) in X by lra. rewrite rnd32_id in X by (apply fmtZ32; lia). exact X. }
  pose proof L as [F _]. rewrite F. eexists. split; [reflexivity|].
  assert (C : Z.of_nat (ceilN32 (Bdiv mode_NE (Bminus mode_NE (ofN32 big) (B754_zero false)) (ofN32 5))) = 3355446).
  { rewrite (ceilN32_R _ _ L) by lra. apply Zceil_IZR. }
  set (len := ceilN32 _) in *. clearbody len. rewrite map_map.
  assert (El : forall i, (i < len)%nat -> is32 (Bmult mode_NE (ofN32 5) (ofN32 i)) (rnd32 (5 * INR i)) /\
     (0 <= rnd32 (5 * INR i) <= 16777226)%R).
  { intros i Hi. assert (Zi : Z.of_nat i <= 3355445) by lia.
    assert (Ri : (0 <= INR i <= 3355445)%R) by (split; [apply pos_INR|now apply INR_le_Z]).
    split; [apply mul32; [exact H5|apply ofN32_exact; lia|lra]|]. split.
    - apply (rnd32_ge _ 0); [lia|lra].
    - assert (G : generic_format radix2 fexp32 (IZR 16777226)) by (apply (fmt_even 8388613); lia).
      rewrite <- (rnd32_id _ G). apply round_le; auto with typeclass_instances. lra. }
  split.
  - apply Forall_forall. intros k Hk. apply in_map_iff in Hk. destruct Hk as (i & <- & Hi). apply in_seq in Hi.
    destruct (El i ltac:(lia)) as [M [P U]].
    assert (A := add0_32 _ _ M ltac:(lra)). apply Nat2Z.inj_lt. rewrite (toN32_R _ _ A P).
    rewrite big_Z. rewrite Ztrunc_floor by exact P.
    apply Z.le_lt_trans with 16777226; [|lia]. apply le_IZR. eapply Rle_trans; [apply Zfloor_lb|exact U].
  - assert (Ex : exists i, Z.of_nat i = 3355445) by (exists (Z.to_nat 3355445); apply Z2Nat.id; lia).
    destruct Ex as [i Hi]. apply in_map_iff. exists i. split; [|apply in_seq; lia].
    apply Nat2Z.inj. rewrite row_twice_Z. unfold toN32, ofN32. rewrite Hi.
    assert (X : Btrunc (Bplus mode_NE (B754_zero false)
        (Bmult mode_NE (binary_normalize 24 128 f32_prec f32_emax mode_NE (Z.of_nat 5) 0 false)
           (binary_normalize 24 128 f32_prec f32_emax mode_NE 3355445 0 false))) = 16777224) by (vm_compute; reflexivity).
    rewrite X. apply Z2Nat.id. lia.
Qed.
End Big.

Lemma nth_seq n k : k < n -> nth_error (seq 0 n) k = Some k.
Proof.
  intros H. rewrite (nth_error_nth' _ 0) by now rewrite seq_length. now rewrite seq_nth.
Qed.
Lemma select_seq n idx : Forall (fun k => k < n) idx -> select (seq 0 n) idx = Some idx.
Proof.
  intros H. unfold select. rewrite (mapM_some _ (fun k => k)); [now rewrite map_id|].
  intros k Hk. rewrite Forall_forall in H. apply nth_seq. now apply H.
Qed.
Lemma big_split : exists test train,
  extract_part (seq 0 big) 5 = Some (test, train) /\ In row_twice test /\ In row_twice train.
Proof.
  unfold extract_part. rewrite seq_length. destruct big_range as (r & -> & Hr & Hin).
  rewrite (select_seq _ _ Hr).
  rewrite select_seq.
  2:{ apply Forall_forall. intros k Hk. apply filter_In in Hk. destruct Hk as [Hk _]. apply in_seq in Hk. lia. }
  do 2 eexists. split; [reflexivity|]. split; [exact Hin|].
  pose proof big_Z as Bz. pose proof row_twice_Z as Rz.
  apply filter_In. split; [apply in_seq; lia|].
  assert (Ex : exists k, row_twice = 5 * k + 4).
  { exists (row_twice / 5). pose proof (Nat.div_mod row_twice 5 ltac:(lia)) as D.
    assert (M : Z.of_nat (row_twice mod 5) = 4%Z) by (rewrite Nat2Z.inj_mod, Rz; reflexivity). lia. }
  destruct Ex as [k Ek]. rewrite (Nat.mul_comm 5 k) in Ek.
  revert Ek. generalize row_twice. intros rt ->.
  rewrite Nat.add_comm, Nat.mod_add by lia. reflexivity.
Qed.

(** ** Choice of models *)
Definition all12 : list (mean_kind * corr_kind) :=
  flat_map (fun m => map (fun c => (m, c)) [SquaredExponential; AbsoluteExponential; Matern32; Matern52])
           [Constant; Linear; Quadratic].
Lemma candidates_filter s : candidates s = filter (fun p => allows s (fst p) && allows_corr s (snd p)) all12.
Proof. destruct s as [[] [] [] [] [] [] []]; reflexivity. Qed.
Lemma all12_sorted : StronglySorted earlier all12.
Proof.
  unfold all12. simpl. repeat (apply SSorted_cons || apply SSorted_nil || apply Forall_cons || apply Forall_nil);
  unfold earlier; simpl; lia.
Qed.
Lemma all12_in p : In p all12.
Proof. destruct p as [[] []]; unfold all12; simpl; tauto. Qed.
Lemma filter_sorted {A} (R : A -> A -> Prop) p l : StronglySorted R l -> StronglySorted R (filter p l).
Proof.
  induction 1 as [|a l H IH F]; simpl; [constructor|]. destruct (p a); [|exact IH]. constructor; [exact IH|].
  apply Forall_forall. intros x Hx. apply filter_In in Hx. rewrite Forall_forall in F. now apply F.
Qed.
Lemma sorted_nth {A} (R : A -> A -> Prop) l : StronglySorted R l -> forall i j a b,
  i < j -> nth_error l i = Some a -> nth_error l j = Some b -> R a b.
Proof.
  induction 1 as [|x l H IH F]; intros i j a b L Hi Hj; [now destruct i|].
  destruct j as [|j]; [lia|]. simpl in Hj. destruct i as [|i]; simpl in Hi.
  - injection Hi as ->. rewrite Forall_forall in F. apply F. eapply nth_error_In; eauto.
  - apply (IH i j); auto; lia.
Qed.
Lemma earlier_asym p q : earlier p q -> earlier q p -> False.
Proof. unfold earlier. lia. Qed.
Lemma candidates_in s p : In p (candidates s) <-> allows s (fst p) = true /\ allows_corr s (snd p) = true.
Proof. rewrite candidates_filter, filter_In, andb_true_iff. pose proof (all12_in p). tauto. Qed.
Lemma candidates_sorted s : StronglySorted earlier (candidates s).
Proof. rewrite candidates_filter. apply filter_sorted, all12_sorted. Qed.

Definition scores (s : specs) (n dim : nat) (cv : mean_kind -> corr_kind -> f64) : list f64 :=
  map (fun p => compute_error n dim (fst p) (cv (fst p) (snd p))) (candidates s).

Lemma best_models_cases s n dim cv : best_models s n dim cv =
  match candidates s with
  | [p] => Some p
  | _ => do i <- min_by (scores s n dim cv); nth_error (candidates s) i
  end \/ candidates s = [].
Proof.
  destruct (candidates s) as [|p l] eqn:E; [now right|]. left. unfold best_models, scores. cbv zeta.
  assert (C : candidates s = flat_map (fun m => map (fun c => (m, c)) (allowed_corrs s)) (allowed_means s)) by reflexivity.
  rewrite E in C. rewrite E.
  destruct (allowed_means s) as [|m [|m' ms]]; [discriminate| |].
  - destruct (allowed_corrs s) as [|c [|c' cs]]; simpl in C; [discriminate| |].
    + injection C as -> ->. reflexivity.
    + injection C as -> ->. reflexivity.
  - destruct (allowed_corrs s) as [|c [|c' cs]]; simpl in C.
    + induction ms; simpl in C; [discriminate|exact (IHms C)].
    + injection C as -> ->. reflexivity.
    + injection C as -> ->. reflexivity.
Qed.

Lemma best_models_none s n dim cv : candidates s = [] -> best_models s n dim cv = None.
Proof.
  intros B. unfold best_models. cbv zeta. rewrite B. simpl.
  destruct (allowed_means s) as [|m0 [|m1 ms]] eqn:E1; try reflexivity.
  destruct (allowed_corrs s) as [|c0 [|c1 cs]] eqn:E2; try reflexivity.
  unfold candidates in B. rewrite E1, E2 in B. discriminate B.
Qed.
Lemma best_models_spec s n dim cv m c : best_models s n dim cv = Some (m, c) ->
  (forall m' c', allows s m' = true -> allows_corr s c' = true -> fnan (compute_error n dim m' (cv m' c')) = false) ->
  allows s m = true /\ allows_corr s c = true /\
  forall m' c', allows s m' = true -> allows_corr s c' = true ->
    (ord (compute_error n dim m (cv m c)) <= ord (compute_error n dim m' (cv m' c')))%R /\
    (earlier (m', c') (m, c) -> (ord (compute_error n dim m (cv m c)) < ord (compute_error n dim m' (cv m' c')))%R).
Proof.
  intros H N.
  assert (G : exists i, nth_error (candidates s) i = Some (m, c) /\ first_min (scores s n dim cv) i).
  { destruct (best_models_cases s n dim cv) as [B|B].
    - rewrite H in B. destruct (candidates s) as [|p [|p' l]] eqn:E.
      + simpl in B. unfold scores in B. rewrite E in B. simpl in B. discriminate.
      + injection B as <-. exists 0. split; [reflexivity|]. unfold scores. rewrite E. simpl.
        eexists. split; [reflexivity|]. split.
        * intros [|j] w Hw; simpl in Hw; [injection Hw as <-; lra|now destruct j].
        * intros j w Hj. lia.
      + assert (Nl : numbers (scores s n dim cv)).
        { unfold numbers, scores. apply Forall_forall. intros v Hv. apply in_map_iff in Hv. destruct Hv as ([m0 c0] & <- & Hp).
          apply candidates_in in Hp. apply N; apply Hp. }
        destruct (min_by_spec (scores s n dim cv)) as (i & Hi & Fi); [unfold scores; rewrite E; discriminate|exact Nl|].
        rewrite Hi in B. exists i. split; [now symmetry|exact Fi].
    - rewrite (best_models_none s n dim cv B) in H. discriminate. }
  destruct G as (i & Hi & v & Hv & Hmin & Hfirst).
  assert (Ev : v = compute_error n dim m (cv m c)).
  { unfold scores in Hv. rewrite nth_error_map, Hi in Hv. simpl in Hv. congruence. }
  subst v. assert (In (m, c) (candidates s)) as Hin by (eapply nth_error_In; eauto). apply candidates_in in Hin.
  destruct Hin as [Hm Hc]. simpl in Hm, Hc. split; [exact Hm|]. split; [exact Hc|]. intros m' c' Am Ac.
  assert (Hin : In (m', c') (candidates s)) by (apply candidates_in; now split).
  apply In_nth_error in Hin. destruct Hin as [j Hj].
  assert (Sj : nth_error (scores s n dim cv) j = Some (compute_error n dim m' (cv m' c'))).
  { unfold scores. rewrite nth_error_map, Hj. reflexivity. }
  split; [now apply (Hmin j)|]. intros E. apply (Hfirst j); [|exact Sj].
  destruct (Nat.lt_trichotomy j i) as [L|[->|L]]; [exact L| |].
  - rewrite Hi in Hj. injection Hj as -> ->. exfalso. now apply (earlier_asym _ _ E).
  - exfalso. eapply earlier_asym; [exact E|]. eapply (sorted_nth earlier _ (candidates_sorted s) i j); eauto.
Qed.

Lemma min_by_some l : l <> [] -> exists i, min_by l = Some i /\ i < length l.
Proof.
  intros H. unfold min_by. destruct (argmin_by_some (fun a cur : f64 => match fcmp cur a with Some Gt => true | _ => false end) l H) as [i Hi].
  exists i. split; [exact Hi|]. now apply argmin_by_bound in Hi.
Qed.
Lemma best_models_some s n dim cv m c : allows s m = true -> allows_corr s c = true -> exists p, best_models s n dim cv = Some p.
Proof.
  intros Hm Hc. assert (Hin : In (m, c) (candidates s)) by (apply candidates_in; now split).
  destruct (best_models_cases s n dim cv) as [B|B]; [|rewrite B in Hin; destruct Hin].
  rewrite B. destruct (candidates s) as [|p [|p' l]] eqn:E; [destruct Hin|now eexists|].
  destruct (min_by_some (scores s n dim cv)) as (i & -> & L).
  { unfold scores. rewrite E. discriminate. }
  unfold scores in L. rewrite map_length, E in L. destruct (nth_error (p :: p' :: l) i) as [q|] eqn:Q; [now exists q|].
  apply nth_error_None in Q. lia.
Qed.

(** ** Training *)
Section Train.
  Context {G E T : Type}.
  Context (gm_clusters : G -> nat) (gmm_fit : nat -> list (list f64) -> res G)
          (resp : G * f64 -> list f64 -> list f64)
          (cv : list (list f64) -> mean_kind -> corr_kind -> f64)
          (train_expert : mean_kind -> corr_kind -> T -> list (list f64) -> res E)
          (best_nclusters : nat -> list (list f64) -> list f64 -> nat * recombination)
          (factor_errors : list E -> G -> list (list f64) -> list f64)
          (factors : list f64).
  Notation train_on_clusters' := (train_on_clusters gm_clusters resp cv train_expert factor_errors factors).
  Notation train_with' := (train_with gm_clusters gmm_fit resp cv train_expert best_nclusters factor_errors factors).
  Notation train' := (train gm_clusters gmm_fit resp cv train_expert best_nclusters factor_errors factors).

  Notation labels_of := (labels_of resp).
  Notation cluster_rows := (cluster_rows resp).

  Lemma rows_of_length xt yt : length yt = length xt -> length (rows_of xt yt) = length xt.
  Proof. intros H. unfold rows_of. rewrite map_length, combine_length. lia. Qed.

  (** One expert per cluster, trained on the rows of the cluster. *)
  Definition trained (p : params G T) (dim : nat) (c : nat) (rows : list (list f64)) (e : E) : Prop :=
    find_best_expert (p_sparse p) (p_specs p) (p_tunings p) c dim rows cv train_expert = Ok e.

  Lemma train_experts_spec p nb dim cls : forall nc es, train_experts cv train_expert p nb dim nc cls = Ok es ->
    length es = length cls /\
    forall i rows, nth_error cls i = Some rows -> exists e, nth_error es i = Some e /\
      trained p dim (nc + i) rows e /\ (1 < nb -> 3 <= length rows).
  Proof.
    induction cls as [|c cls IH]; intros nc es H; simpl in H.
    - injection H as <-. split; [reflexivity|]. intros [|i] rows Hi; discriminate.
    - destruct ((1 <? nb) && (length c <? 3)) eqn:L; [discriminate|].
      unfold bind in H. destruct (find_best_expert _ _ _ _ _ _ _ _) as [e| |] eqn:F; try discriminate.
      destruct (train_experts cv train_expert p nb dim (S nc) cls) as [es'| |] eqn:Q; try discriminate.
      injection H as <-. destruct (IH _ _ Q) as [Hl Hi]. split; [simpl; lia|].
      intros [|i] rows R; simpl in R.
      + injection R as <-. exists e. split; [reflexivity|]. rewrite Nat.add_0_r. split; [exact F|].
        intros N. apply andb_false_iff in L. destruct L as [L|L]; [apply Nat.ltb_ge in L; lia|apply Nat.ltb_ge in L; lia].
      + destruct (Hi i rows R) as (e' & A & B & C). exists e'. split; [exact A|]. rewrite Nat.add_succ_r. now split.
  Qed.

  (** What a successful training on clusters gives, when it does not retrain. *)
  Definition well_trained (p : params G T) (dim : nat) (xt : list (list f64)) (yt : list f64) (m : mixture G E) : Prop :=
    let g := mx_gmx m in
    let k := gm_clusters (fst g) in
    length (mx_experts m) = k /\
    (forall c, c < k -> exists e, nth_error (mx_experts m) c = Some e /\ trained p dim c (cluster_rows g xt yt c) e) /\
    (1 < k -> forall c, c < k -> 3 <= length (cluster_rows g xt yt c) /\
       forall t, allows (p_specs p) t = true -> coefficients t dim <= length (cluster_rows g xt yt c) * (dim + 1)).

  Lemma check_points_spec clusters dim s t c : check_number_of_points clusters (dim + 1) dim s = true ->
    1 < length clusters -> In c clusters -> allows s t = true -> coefficients t dim <= length c * (dim + 1) \/ length c = 0.
  Proof.
    intros H L Hc A. unfold check_number_of_points in H. apply Nat.ltb_lt in L. rewrite L in H.
    rewrite forallb_forall in H. specialize (H c Hc). apply negb_true_iff, Nat.ltb_ge in H.
    assert (Q : dim + 1 <= (dim + 1) * (dim + 2) / 2) by (apply Nat.div_le_lower_bound; nia).
    destruct t; simpl in A |- *.
    - destruct (Nat.eq_dec (length c) 0); [now right|left; nia].
    - left. rewrite A in H. destruct (s_quad s); lia.
    - left. rewrite A in H. exact H.
  Qed.

  Lemma train_on_clusters_spec retrain p dim xt yt g recomb m : length yt = length xt ->
    train_on_clusters' retrain p dim xt yt g recomb = Ok m ->
    (well_trained p dim xt yt m /\ mx_gmx m = g /\ mx_recomb m = recomb /\ (recomb = Smooth None -> is_multi (p_nclusters p) = false)) \/
    (recomb = Smooth None /\ is_multi (p_nclusters p) = true /\
     exists f, retrain (Params (p_sparse p) (Fixed (gm_clusters (fst g))) (Smooth (Some f)) (p_specs p) (p_tunings p) (p_gmx p)) = Ok m).
  Proof.
    intros Hl H. unfold train_on_clusters in H. cbv zeta in H.
    assert (Ll : length (map (fun x => hard_cluster (resp g x)) xt) = length (rows_of xt yt)) by (rewrite map_length, rows_of_length; auto).
    rewrite (sort_spec _ _ _ Ll) in H.
    set (cls := map _ (seq 0 (gm_clusters (fst g)))) in H.
    assert (Lc : length cls = gm_clusters (fst g)) by (unfold cls; now rewrite map_length, seq_length).
    assert (Nc : forall c, c < gm_clusters (fst g) -> nth_error cls c = Some (cluster_rows g xt yt c)).
    { intros c Hc. unfold cls. rewrite nth_error_map, nth_seq by exact Hc. reflexivity. }
    destruct (check_number_of_points cls (dim + 1) dim (p_specs p)) eqn:C; [|discriminate].
    unfold bind in H. destruct (train_experts cv train_expert p (length cls) dim 0 cls) as [es| |] eqn:Q; try discriminate.
    destruct (train_experts_spec _ _ _ _ _ _ Q) as [Le He].
    assert (W : forall r, well_trained p dim xt yt (Mixture r es g)).
    { intros r. unfold well_trained. simpl. rewrite Le, Lc. split; [reflexivity|]. split.
      - intros c Hc. destruct (He c _ (Nc c Hc)) as (e & A & B & _). now exists e.
      - intros K c Hc. destruct (He c _ (Nc c Hc)) as (e & A & B & D). rewrite Lc in D. specialize (D K). split; [exact D|].
        intros t At. destruct (check_points_spec cls dim (p_specs p) t (cluster_rows g xt yt c) C ltac:(lia)) as [X|X]; auto; [|lia].
        eapply nth_error_In. now apply Nc. }
    destruct recomb as [|[f|]].
    - injection H as <-. left. split; [apply W|]. simpl. repeat split. discriminate.
    - injection H as <-. left. split; [apply W|]. simpl. repeat split. discriminate.
    - destruct (is_multi (p_nclusters p)) eqn:M.
      + destruct (extract_part (rows_of xt yt) 5) as [[test tr]|]; [|discriminate].
        destruct (optimize_heaviside_factor _ _ _ _ _ _) as [f|]; [|discriminate].
        destruct (check_ref _); [|discriminate]. right. repeat split. now exists f.
      + injection H as <-. left. split; [apply W|]. simpl. repeat split.
  Qed.

  Lemma train_with_smooth_some k k' p dim xt yt : (forall f, p_recomb p = Smooth f -> f <> None) ->
    (exists nb, p_nclusters p = Fixed nb) -> train_with' k p dim xt yt = train_with' k' p dim xt yt.
  Proof.
    intros R [nb N]. unfold train_with. rewrite N. cbv zeta iota.
    destruct (match p_recomb p with Smooth None => _ | _ => _ end) as [td|]; [|reflexivity].
    unfold bind. destruct (match p_gmx p with Some g => _ | None => _ end) as [g| |]; try reflexivity.
    unfold train_on_clusters. cbv zeta.
    destruct (sort_by_cluster _ _ _); [|reflexivity]. destruct (check_number_of_points _ _ _ _); [|reflexivity].
    unfold bind. destruct (train_experts _ _ _ _ _ _ _); try reflexivity.
    destruct (p_recomb p) as [|[f|]] eqn:Er; try reflexivity. now destruct (R None eq_refl).
  Qed.
  Lemma train_with_ext k k' p dim xt yt :
    (forall p' f nb, p_recomb p' = Smooth (Some f) -> p_nclusters p' = Fixed nb -> k p' = k' p') ->
    train_with' k p dim xt yt = train_with' k' p dim xt yt.
  Proof.
    intros K. unfold train_with. cbv zeta.
    destruct (match p_nclusters p with Fixed nb => _ | Auto mx => _ end) as [nc r].
    destruct (match r with Hard => _ | Smooth _ => _ end) as [td|]; [|reflexivity].
    unfold bind. destruct (match p_gmx p with Some g => _ | None => _ end) as [g| |]; try reflexivity.
    unfold train_on_clusters. cbv zeta.
    destruct (sort_by_cluster _ _ _); [|reflexivity]. destruct (check_number_of_points _ _ _ _); [|reflexivity].
    unfold bind. destruct (train_experts _ _ _ _ _ _ _); try reflexivity.
    destruct r as [|[f|]]; try reflexivity. destruct (is_multi _); [|reflexivity].
    destruct (extract_part _ _) as [[t d]|]; [|reflexivity].
    destruct (optimize_heaviside_factor _ _ _ _ _ _) as [f|]; [|reflexivity].
    destruct (check_ref _); [|reflexivity]. eapply K; reflexivity.
  Qed.
  (** The third call modelled by a panic never happens. *)
  Lemma train_two_levels k p dim xt yt :
    train' p dim xt yt = train_with' (fun p' => train_with' k p' dim xt yt) p dim xt yt.
  Proof.
    apply train_with_ext. intros p' f nb R N. apply train_with_smooth_some; [|now exists nb].
    rewrite R. intros o Ho. injection Ho as <-. discriminate.
  Qed.

  Lemma train_with_spec k p dim xt yt m : length yt = length xt -> train_with' k p dim xt yt = Ok m ->
    (well_trained p dim xt yt m /\ (p_gmx p = None -> snd (mx_gmx m) = factor_of (mx_recomb m)) /\
     (forall nb, p_nclusters p = Fixed nb -> mx_recomb m = p_recomb p) /\
     (mx_recomb m = Smooth None -> is_multi (p_nclusters p) = false) /\
     (forall g, p_gmx p = Some g -> mx_gmx m = g)) \/
    (is_multi (p_nclusters p) = true /\ p_recomb p = Smooth None /\
     exists f nb, k (Params (p_sparse p) (Fixed nb) (Smooth (Some f)) (p_specs p) (p_tunings p) (p_gmx p)) = Ok m).
  Proof.
    intros Hl H. unfold train_with in H. cbv zeta in H.
    destruct (match p_nclusters p with Fixed nb => _ | Auto mx => _ end) as [nc r] eqn:N.
    assert (Nr : forall nb, p_nclusters p = Fixed nb -> r = p_recomb p) by (intros nb E0; rewrite E0 in N; congruence).
    destruct (match r with Hard => _ | Smooth _ => _ end) as [td|]; [|discriminate].
    unfold bind in H at 1.
    destruct (match p_gmx p with Some g => _ | None => _ end) as [g| |] eqn:Eg; try discriminate.
    destruct (train_on_clusters_spec _ _ _ _ _ _ _ _ Hl H) as [(W & A & B & C)|(A & B & f & Hf)].
    - left. split; [exact W|]. split; [|split; [|split]].
      + intros E0. rewrite E0 in Eg. unfold bind in Eg. destruct (gmm_fit nc td); try discriminate. injection Eg as <-.
        rewrite A, B. destruct r as [|[f|]]; reflexivity.
      + intros nb E0. rewrite B. now apply (Nr nb).
      + intros E0. apply C. congruence.
      + intros g' E0. rewrite E0 in Eg. injection Eg as <-. exact A.
    - right. split; [exact B|]. split.
      + destruct (p_nclusters p) as [nb|] eqn:P; [|discriminate]. rewrite <- A. symmetry. now apply (Nr nb).
      + exists f, (gm_clusters (fst g)). exact Hf.
  Qed.

  (** Parameters used for the final training: the given ones, or with the optimized smoothing factor. *)
  Definition same_models (p q : params G T) : Prop :=
    p_sparse q = p_sparse p /\ p_specs q = p_specs p /\ p_tunings q = p_tunings p /\ p_gmx q = p_gmx p.
  Lemma well_trained_same p q dim xt yt m : same_models p q -> well_trained q dim xt yt m -> well_trained p dim xt yt m.
  Proof.
    intros (A & B & C & _) W. unfold well_trained, trained in *. cbv zeta in *. rewrite A, B, C in W. exact W.
  Qed.

  Lemma train_spec p dim xt yt m : length yt = length xt -> train' p dim xt yt = Ok m ->
    well_trained p dim xt yt m /\
    (p_gmx p = None -> snd (mx_gmx m) = factor_of (mx_recomb m)) /\
    (mx_recomb m = Smooth None -> is_multi (p_nclusters p) = false) /\
    (forall g, p_gmx p = Some g -> mx_gmx m = g) /\
    (forall nb, p_nclusters p = Fixed nb -> mx_recomb m = p_recomb p \/ (p_recomb p = Smooth None /\ exists f, mx_recomb m = Smooth (Some f))).
  Proof.
    intros Hl H. unfold train in H.
    destruct (train_with_spec _ _ _ _ _ _ Hl H) as [(W & A & B & C & D)|(A & B & f & nb & Hf)].
    - split; [exact W|]. split; [exact A|]. split; [exact C|]. split; [exact D|]. intros nb E0. left. now apply (B nb).
    - destruct (train_with_spec _ _ _ _ _ _ Hl Hf) as [(W & A' & B' & C' & D')|(_ & X & _)]; [|simpl in X; discriminate].
      simpl in *. split; [apply (well_trained_same p _ dim xt yt m) in W; [exact W|repeat split]|].
      split; [exact A'|]. specialize (B' nb eq_refl). split; [intros E0; congruence|]. split; [exact D'|].
      intros nb' _. right. split; [exact B|]. now exists f.
  Qed.

  (** The clusters partition the training rows. *)
  Lemma clusters_partition g xt yt : length yt = length xt -> 1 <= gm_clusters (fst g) ->
    (forall x, length (resp g x) = gm_clusters (fst g)) ->
    Permutation (concat (map (cluster_rows g xt yt) (seq 0 (gm_clusters (fst g))))) (rows_of xt yt).
  Proof.
    intros Hl K R. unfold Moe_Spec.cluster_rows. apply rows_with_perm.
    - unfold Moe_Spec.labels_of. now rewrite map_length, rows_of_length.
    - unfold Moe_Spec.labels_of. apply Forall_forall. intros c Hc. apply in_map_iff in Hc. destruct Hc as (x & <- & _).
      rewrite <- (R x). apply hard_cluster_bound. intros E0. specialize (R x). rewrite E0 in R. simpl in R. lia.
  Qed.
End Train.

Lemma nth_error_combine {A B} (a : list A) (b : list B) i x y :
  nth_error a i = Some x -> nth_error b i = Some y -> nth_error (combine a b) i = Some (x, y).
Proof.
  revert b i; induction a as [|u a IH]; intros [|v b] [|i] H1 H2; simpl in *; try discriminate.
  - congruence.
  - now apply IH.
Qed.
