(** Proofs about scheduling of clustering and tuning. *)
From Coq Require Import Reals List Arith Bool Lia Lra.
From Verif Require Import Util Coego_Model Sched_Model Sched_Spec.
Import ListNotations.

Lemma is_multiple_of_iff n d : is_multiple_of n d = true <-> multiple d n.
Proof.
  unfold is_multiple_of, multiple. destruct (Nat.eqb_spec d 0) as [->|N].
  - rewrite Nat.eqb_eq. split; [intros ->; exists 0; reflexivity|intros (q & ->); lia].
  - rewrite Nat.eqb_eq. rewrite Nat.mod_divide by exact N. unfold Nat.divide. split; intros (q & ->); exists q; reflexivity.
Qed.

Lemma recluster_iff n added prev : have_to_recluster n added prev = true <->
  n = NbAuto /\ added <> 0 /\ multiple 10 added /\ prev < added.
Proof.
  assert (A : is_auto n = true <-> n = NbAuto) by (destruct n; cbn; split; congruence).
  unfold have_to_recluster. rewrite !andb_true_iff, A, negb_true_iff, Nat.eqb_neq, Nat.eqb_eq, Nat.ltb_lt.
  rewrite Nat.mod_divide by lia. unfold multiple, Nat.divide. split; intros H; intuition lia.
Qed.

Lemma flags_nth iter q m w rec j i : j < w -> i < q ->
  nth_error (iteration_flags iter q m w rec) (j * q + i) =
  Some (make_clustering (iter =? 0) i rec, optimize_theta iter q m i j).
Proof.
  intros J I. unfold iteration_flags.
  assert (G : forall l a, a < length l ->
    nth_error (flat_map (fun j => map (fun i => (make_clustering (iter =? 0) i rec, optimize_theta iter q m i j)) (seq 0 q)) l) (a * q + i)
    = Some (make_clustering (iter =? 0) i rec, optimize_theta iter q m i (nth a l 0))).
  { induction l as [|b l IH]; intros a A; simpl in A; [lia|]. simpl flat_map. destruct a as [|a].
    - rewrite nth_error_app1 by (rewrite map_length, seq_length; lia). simpl.
      apply (map_nth_error (fun i0 => _) i). rewrite (nth_error_nth' _ 0) by (rewrite seq_length; lia).
      now rewrite seq_nth by lia.
    - rewrite nth_error_app2 by (rewrite map_length, seq_length; simpl; lia). rewrite map_length, seq_length.
      replace (S a * q + i - q) with (a * q + i) by lia. rewrite IH by lia. reflexivity. }
  rewrite G by (rewrite seq_length; exact J). now rewrite seq_nth by exact J.
Qed.

Lemma flags_length iter q m w rec : length (iteration_flags iter q m w rec) = w * q.
Proof.
  unfold iteration_flags. rewrite <- (seq_length w 0) at 2. induction (seq 0 w); [reflexivity|].
  simpl. rewrite app_length, map_length, seq_length, IHl. reflexivity.
Qed.

Section Facts.
Context {D K : Type}.
Implicit Types (t : trainer D K) (c : sconfig).

(** Without cooperative tuning of a single cluster. *)
Lemma step_plain t c obj d clu opt k s a s' : c.(c_coego) && is_mono c.(c_clusters) = false ->
  group_step t c obj d clu opt k s a = Some s' ->
  exists g, s'.(l_model) = Some g /\
    (if clu then s'.(l_best) = g.(g_thetas)
     else s'.(l_best) = s.(l_best) /\ exists k', k = Some k' /\ g = t.(t_train_on) d (kept_tunings c opt a s.(l_best)) k').
Proof.
  intros NC E. unfold group_step in E. rewrite NC in E. destruct clu.
  - destruct (g_thetas (t_train t d _)) eqn:T; [discriminate|]. injection E as <-. eexists. split; [reflexivity|]. symmetry. exact T.
  - destruct k as [k|]; [|discriminate]. injection E as <-. eexists. split; [reflexivity|]. split; [reflexivity|].
    exists k. now split.
Qed.

Lemma groups_last t c obj d clu opt k l : forall s a s', groups t c obj d clu opt k s (l ++ [a]) = Some s' ->
  exists s1, groups t c obj d clu opt k s l = Some s1 /\ group_step t c obj d clu opt k s1 a = Some s'.
Proof.
  induction l as [|b l IH]; intros s a s' E.
  - exists s. split; [reflexivity|]. simpl in E. destruct (group_step t c obj d clu opt k s a); [exact E|discriminate].
  - simpl in E |- *. destruct (group_step t c obj d clu opt k s b) as [s2|]; [|discriminate]. apply IH. exact E.
Qed.

Lemma groups_app t c obj d clu opt k l : forall s l', groups t c obj d clu opt k s (l ++ l') =
  match groups t c obj d clu opt k s l with Some s1 => groups t c obj d clu opt k s1 l' | None => None end.
Proof.
  induction l as [|b l IH]; intros s l'; [reflexivity|].
  simpl. destruct (group_step t c obj d clu opt k s b) as [s2|]; [|reflexivity]. apply IH.
Qed.

Lemma groups_kept t c obj d opt k l : c.(c_coego) && is_mono c.(c_clusters) = false ->
  forall s s', groups t c obj d false opt k s l = Some s' -> s'.(l_best) = s.(l_best).
Proof.
  intros NC. induction l as [|a l IH]; intros s s' E; [injection E as <-; reflexivity|].
  simpl in E. destruct (group_step t c obj d false opt k s a) as [s1|] eqn:S1; [|discriminate].
  destruct (step_plain _ _ _ _ _ _ _ _ _ _ NC S1) as (g & _ & B & _). rewrite (IH _ _ E). exact B.
Qed.

(** When the clustering is kept, hyperparameters kept for the next training are those that were given. *)
Lemma make_kept t c obj d opt k inits actives g best : c.(c_coego) && is_mono c.(c_clusters) = false ->
  make_surrogate t c obj d false opt k (Some inits) actives = Some (g, best) -> best = inits.
Proof.
  intros NC E. unfold make_surrogate in E. destruct (groups _ _ _ _ _ _ _ _ _) as [s|] eqn:S1; [|discriminate].
  destruct (l_model s); [|discriminate]. injection E as _ <-. apply (groups_kept _ _ _ _ _ _ _ NC) in S1. exact S1.
Qed.

Lemma make_clustered t c obj d opt k inits actives g best : c.(c_coego) && is_mono c.(c_clusters) = false ->
  make_surrogate t c obj d true opt k inits actives = Some (g, best) -> best = g.(g_thetas).
Proof.
  intros NC E. unfold make_surrogate in E. destruct (groups _ _ _ _ _ _ _ _ _) as [s|] eqn:S1; [|discriminate].
  destruct (l_model s) as [g'|] eqn:M; [|discriminate]. injection E as -> <-.
  destruct actives as [|a0 l0] eqn:A; [injection S1 as <-; discriminate|].
  assert (X : exists l a, a0 :: l0 = l ++ [a]) by (exists (removelast (a0 :: l0)), (last (a0 :: l0) []); apply app_removelast_last; discriminate).
  destruct X as (l & a & X). rewrite X in S1. apply groups_last in S1. destruct S1 as (s1 & _ & S2).
  destruct (step_plain _ _ _ _ _ _ _ _ _ _ NC S2) as (g' & M' & B). rewrite M in M'. injection M' as <-. exact B.
Qed.

Lemma fixed_thetas t ts d k : honest t -> (t.(t_train_on) d (map Fixed ts) k).(g_thetas) = ts.
Proof.
  intros H. pose proof (h_on _ H d (map Fixed ts) k) as F. remember (g_thetas _) as l. clear Heql.
  revert l F. induction ts as [|x ts IH]; intros l F; inversion F; subst; [reflexivity|].
  simpl in H2. subst. f_equal. now apply IH.
Qed.

(** Without tuning the surrogate has exactly the hyperparameters that were kept. *)
Lemma make_reuse t c obj d k inits actives g best : honest t ->
  c.(c_coego) && is_mono c.(c_clusters) = false ->
  make_surrogate t c obj d false false k (Some inits) actives = Some (g, best) -> g.(g_thetas) = inits.
Proof.
  intros H NC E. unfold make_surrogate in E. destruct (groups _ _ _ _ _ _ _ _ _) as [s|] eqn:S1; [|discriminate].
  destruct (l_model s) as [g'|] eqn:M; [|discriminate]. injection E as -> <-.
  destruct actives as [|a0 l0] eqn:A; [injection S1 as <-; discriminate|].
  assert (X : exists l a, a0 :: l0 = l ++ [a]) by (exists (removelast (a0 :: l0)), (last (a0 :: l0) []); apply app_removelast_last; discriminate).
  destruct X as (l & a & X). rewrite X in S1. apply groups_last in S1. destruct S1 as (s1 & S0 & S2).
  destruct (step_plain _ _ _ _ _ _ _ _ _ _ NC S2) as (g' & M' & B & k' & _ & Eg). rewrite M in M'. injection M' as <-.
  rewrite Eg. unfold kept_tunings. rewrite fixed_thetas by exact H. apply (groups_kept _ _ _ _ _ _ _ NC) in S0. exact S0.
Qed.

Lemma train_all_app t c obj rs1 : forall s rs2 gs s', train_all t c obj s (rs1 ++ rs2) = Some (gs, s') ->
  exists g1 s1 g2, train_all t c obj s rs1 = Some (g1, s1) /\ train_all t c obj s1 rs2 = Some (g2, s') /\ gs = g1 ++ g2.
Proof.
  induction rs1 as [|r rs IH]; intros s rs2 gs s' E; [exists [], s, gs; now split|].
  simpl in E |- *. destruct (train_once t c obj s r) as [[g s1]|]; [|discriminate]. simpl in E |- *.
  destruct (train_all t c obj s1 (rs ++ rs2)) as [[l sl]|] eqn:T; [|discriminate]. injection E as <- <-.
  destruct (IH _ _ _ _ T) as (g1 & s2 & g2 & E1 & E2 & ->). rewrite E1. exists (g :: g1), s2, g2. now repeat split.
Qed.

Lemma train_all_length t c obj rs : forall s gs s', train_all t c obj s rs = Some (gs, s') -> length gs = length rs.
Proof.
  induction rs as [|r rs IH]; intros s gs s' E; [injection E as <- <-; reflexivity|].
  simpl in E. destruct (train_once t c obj s r) as [[g s1]|]; [|discriminate]. simpl in E.
  destruct (train_all t c obj s1 rs) as [[l sl]|] eqn:T; [|discriminate]. injection E as <- <-.
  simpl. f_equal. eapply IH, T.
Qed.

Lemma train_all_kept t c obj rs : c.(c_coego) && is_mono c.(c_clusters) = false ->
  Forall (fun r => r.(q_clustering) = false) rs ->
  forall k th gs s', train_all t c obj (k, Some th) rs = Some (gs, s') -> snd s' = Some th.
Proof.
  intros NC. induction rs as [|r rs IH]; intros F k th gs s' E; [injection E as <- <-; reflexivity|].
  inversion F as [|? ? Fr Frs]; subst. simpl in E. destruct (train_once t c obj (k, Some th) r) as [[g s1]|] eqn:T1; [|discriminate].
  simpl in E. destruct (train_all t c obj s1 rs) as [[l sl]|] eqn:T; [|discriminate]. injection E as _ <-.
  unfold train_once in T1. rewrite Fr in T1. simpl fst in T1. simpl snd in T1.
  destruct (make_surrogate t c obj _ false _ k (Some th) _) as [[g' b]|] eqn:M; [|discriminate].
  simpl in T1. injection T1 as _ <-. apply (make_kept _ _ _ _ _ _ _ _ _ _ NC) in M. subst b. eapply IH; eassumption.
Qed.

(** The reused hyperparameters are those of the last training that clustered. *)
Lemma reuse_of_clustering t c obj rs0 r0 rs1 r gs s' :
  honest t -> c.(c_coego) && is_mono c.(c_clusters) = false ->
  train_all t c obj (None, None) (rs0 ++ r0 :: rs1 ++ [r]) = Some (gs, s') ->
  r0.(q_clustering) = true -> Forall (fun q => q.(q_clustering) = false) rs1 ->
  r.(q_clustering) = false -> r.(q_optimize) = false ->
  exists g0 g, nth_error gs (length rs0) = Some g0 /\ nth_error gs (length rs0 + S (length rs1)) = Some g /\
    g.(g_thetas) = g0.(g_thetas).
Proof.
  intros H NC E C0 F C O. apply train_all_app in E. destruct E as (g1 & s1 & g2 & E1 & E2 & ->).
  simpl in E2. destruct (train_once t c obj s1 r0) as [[g0 s2]|] eqn:T0; [|discriminate]. simpl in E2.
  destruct (train_all t c obj s2 (rs1 ++ [r])) as [[l sl]|] eqn:T; [|discriminate]. injection E2 as <- <-.
  apply train_all_app in T. destruct T as (g3 & s3 & g4 & E3 & E4 & ->).
  simpl in E4. destruct (train_once t c obj s3 r) as [[g s4]|] eqn:T4; [|discriminate]. injection E4 as <- <-.
  exists g0, g. rewrite <- (train_all_length _ _ _ _ _ _ _ E1), <- (train_all_length _ _ _ _ _ _ _ E3).
  split; [rewrite nth_error_app2, Nat.sub_diag by lia; reflexivity|].
  split. { rewrite nth_error_app2 by lia. replace (length g1 + S (length g3) - length g1) with (S (length g3)) by lia.
    simpl. rewrite nth_error_app2, Nat.sub_diag by lia. reflexivity. }
  unfold train_once in T0. rewrite C0 in T0. destruct (make_surrogate t c obj _ true _ _ _ _) as [[g0' b0]|] eqn:M0; [|discriminate].
  simpl in T0. injection T0 as -> <-. apply (make_clustered _ _ _ _ _ _ _ _ _ _ NC) in M0. subst b0.
  pose proof (train_all_kept _ _ _ _ NC F _ _ _ _ E3) as K3. destruct s3 as [k3 th3]. simpl in K3. subst th3.
  unfold train_once in T4. rewrite C, O in T4. simpl fst in T4. simpl snd in T4.
  destruct (make_surrogate t c obj _ false false _ _ _) as [[g' b]|] eqn:M; [|discriminate].
  simpl in T4. injection T4 as -> _. eapply make_reuse; eassumption.
Qed.

(** ** Cooperative tuning. *)

Lemma better_true l b : better l b = true <-> match b with None => True | Some v => (v < l)%R end.
Proof. destruct b as [b|]; simpl; [destruct (Rlt_dec b l); split; auto; discriminate|now split]. Qed.

(** Invariant of the objective: the best hyperparameters are a single row whose likelihood is at most that of
    the current model. *)
Definition coop_inv (lk : D -> thetas -> R) (d : D) (s : lstate (K := K)) : Prop :=
  exists th, s.(l_best) = [th] /\
    match s.(l_model) with
    | None => s.(l_lkh) = None
    | Some g => exists v, s.(l_lkh) = Some v /\ lk d th = v /\ g.(g_lkh) = v
    end.

Lemma kept_single c a th : c.(c_coego) = true ->
  kept_tunings c true a [th] = [Partial th c.(c_bounds) (strip a (length th))].
Proof. intros C. unfold kept_tunings. rewrite C. reflexivity. Qed.

Lemma coop_step t lk c d clu k s a : improving t lk -> c.(c_coego) = true -> c.(c_clusters) = NbFixed 1 ->
  (clu = false -> k <> None) -> coop_inv lk d s ->
  exists s' g, group_step t c true d clu true k s a = Some s' /\ coop_inv lk d s' /\ s'.(l_model) = Some g /\
    (forall g0, s.(l_model) = Some g0 -> (g0.(g_lkh) <= g.(g_lkh))%R) /\
    (s.(l_model) = None -> forall th, s.(l_best) = [th] -> (lk d th <= g.(g_lkh))%R).
Proof.
  intros IM C M Hk (th & B & I). unfold group_step. rewrite C, M, B. simpl is_mono. simpl andb. cbv beta.
  assert (G : exists g tun th', (if clu then
      let tunings := Some (map (fun i => Partial i (c_bounds c) (strip a (length i))) [th]) in
      let g := t_train t d tunings in
      match g_thetas g with [] => None | _ => Some (g, tunings, g_thetas g) end
    else do k <- k; let ts := kept_tunings c true a [th] in Some (t_train_on t d ts k, Some ts, [th])) =
    Some (g, tun, if clu then [th'] else [th]) /\ g_thetas g = [th'] /\ g_lkh g = lk d th' /\ (lk d th <= lk d th')%R).
  { destruct clu.
    - simpl. destruct (i_train _ _ IM d (Partial th (c_bounds c) (strip a (length th)))) as (th' & E1 & E2 & E3).
      rewrite E1. eexists _, _, th'. split; [reflexivity|]. repeat split; assumption.
    - destruct k as [k|]; [|exfalso; now apply Hk]. rewrite kept_single by exact C. simpl.
      destruct (i_on _ _ IM d (Partial th (c_bounds c) (strip a (length th))) k) as (th' & E1 & E2 & E3).
      eexists _, _, th'. split; [reflexivity|]. repeat split; assumption. }
  destruct G as (g & tun & th' & E & Gt & Gl & L).
  match goal with |- exists s' g, (do r <- ?e; _) = Some s' /\ _ => replace e with (Some (g, tun, if clu then [th'] else [th])) by (symmetry; exact E) end.
  simpl. rewrite Gt.
  destruct (l_model s) as [g0|] eqn:Mo.
  - destruct I as (v & Lv & Lt & Gv). rewrite Lv. rewrite Gl. cbn [better]. destruct (Rlt_dec v (lk d th')) as [Q|Q]; simpl.
    + eexists _, g. split; [reflexivity|]. split; [|split; [reflexivity|split]].
      * exists th'. simpl. split; [reflexivity|]. exists (lk d th'). now repeat split.
      * intros g1 X. injection X as <-. lra.
      * discriminate.
    + eexists _, g. split; [reflexivity|]. split; [|split; [reflexivity|split]].
      * exists (if clu then th' else th). simpl. split; [now destruct clu|]. exists v. repeat split.
        { destruct clu; lra. } { lra. }
      * intros g1 X. injection X as <-. lra.
      * discriminate.
  - rewrite I. simpl. eexists _, g. split; [reflexivity|]. split; [|split; [reflexivity|split]].
    + exists th'. simpl. split; [reflexivity|]. exists (g_lkh g). now repeat split.
    + discriminate.
    + intros _ th0 X. injection X as <-. lra.
Qed.

Lemma coop_groups t lk c d clu k : improving t lk -> c.(c_coego) = true -> c.(c_clusters) = NbFixed 1 ->
  (clu = false -> k <> None) ->
  forall l s, coop_inv lk d s ->
  exists s', groups t c true d clu true k s l = Some s' /\ coop_inv lk d s' /\
    (forall g0, s.(l_model) = Some g0 -> exists g, s'.(l_model) = Some g /\ (g0.(g_lkh) <= g.(g_lkh))%R) /\
    (s.(l_model) = None -> l <> [] -> exists g, s'.(l_model) = Some g /\
       forall th, s.(l_best) = [th] -> (lk d th <= g.(g_lkh))%R).
Proof.
  intros IM C M Hk. induction l as [|a l IH]; intros s I.
  - exists s. repeat split; try assumption; [|congruence]. intros g0 G. exists g0. split; [exact G|lra].
  - simpl. destruct (coop_step t lk c d clu k s a IM C M Hk I) as (s1 & g1 & E1 & I1 & M1 & L1 & F1). rewrite E1.
    destruct (IH s1 I1) as (s2 & E2 & I2 & L2 & _). exists s2. split; [exact E2|]. split; [exact I2|].
    destruct (L2 _ M1) as (g & G2 & L). split.
    + intros g0 G0. exists g. split; [exact G2|]. specialize (L1 _ G0). lra.
    + intros N _. exists g. split; [exact G2|]. intros th B. specialize (F1 N th B). lra.
Qed.

(** Objective: the more groups are tuned, the higher the likelihood of the surrogate. *)
Lemma coop_objective t lk c d clu k th l l' : improving t lk -> c.(c_coego) = true -> c.(c_clusters) = NbFixed 1 ->
  (clu = false -> k <> None) -> l <> [] ->
  exists g b g' b', make_surrogate t c true d clu true k (Some [th]) l = Some (g, b) /\
    make_surrogate t c true d clu true k (Some [th]) (l ++ l') = Some (g', b') /\
    (lk d th <= g.(g_lkh))%R /\ (g.(g_lkh) <= g'.(g_lkh))%R /\ (exists u, b' = [u] /\ lk d u = g'.(g_lkh)).
Proof.
  intros IM C M Hk Ne. unfold make_surrogate. simpl initial_thetas.
  assert (I0 : coop_inv lk d (mkLstate [th] None None None)) by (exists th; split; reflexivity).
  rewrite groups_app.
  destruct (coop_groups t lk c d clu k IM C M Hk l _ I0) as (s1 & E1 & I1 & _ & F1). rewrite E1.
  destruct (F1 eq_refl Ne) as (g & G & L). rewrite G.
  destruct (coop_groups t lk c d clu k IM C M Hk l' _ I1) as (s2 & E2 & I2 & L2 & _). rewrite E2.
  destruct (L2 _ G) as (g' & G' & L'). rewrite G'. exists g, (l_best s1), g', (l_best s2).
  split; [reflexivity|]. split; [reflexivity|]. split; [apply L; reflexivity|]. split; [exact L'|].
  destruct I2 as (u & B & X). rewrite G' in X. destruct X as (v & _ & X1 & X2). exists u. split; [exact B|]. now rewrite X1, X2.
Qed.

(** Constraints, clustering kept: hyperparameters are not carried from group to group. *)
Lemma coop_constraint_step t c d opt k s a s' : group_step t c false d false opt k s a = Some s' -> s'.(l_best) = s.(l_best).
Proof.
  unfold group_step. destruct k as [k|]; [|discriminate]. simpl.
  destruct (c_coego c && is_mono (c_clusters c)).
  - destruct (g_thetas _); [discriminate|]. rewrite andb_false_r. intros E. injection E as <-. reflexivity.
  - intros E. injection E as <-. reflexivity.
Qed.

Lemma coop_constraint_groups t c d opt k l : forall s s', groups t c false d false opt k s l = Some s' -> s'.(l_best) = s.(l_best).
Proof.
  induction l as [|a l IH]; intros s s' E; [injection E as <-; reflexivity|].
  simpl in E. destruct (group_step t c false d false opt k s a) as [s1|] eqn:S1; [|discriminate].
  rewrite (IH _ _ E). eapply coop_constraint_step, S1.
Qed.

Lemma coop_constraint t c d opt k inits l a g b :
  make_surrogate t c false d false opt k (Some inits) (l ++ [a]) = Some (g, b) ->
  make_surrogate t c false d false opt k (Some inits) [a] = Some (g, b).
Proof.
  unfold make_surrogate. simpl initial_thetas. intros E.
  destruct (groups t c false d false opt k _ (l ++ [a])) as [s|] eqn:G; [|discriminate].
  apply groups_last in G. destruct G as (s1 & G1 & G2). pose proof (coop_constraint_groups _ _ _ _ _ _ _ _ G1) as B. simpl in B.
  simpl groups. unfold group_step in G2 |- *. destruct k as [k|]; [|discriminate]. simpl in G2 |- *. rewrite B in G2.
  destruct (c_coego c && is_mono (c_clusters c)).
  - destruct (g_thetas _) eqn:T; [discriminate|]. rewrite andb_false_r in G2. simpl. injection G2 as <-. exact E.
  - injection G2 as <-. exact E.
Qed.
End Facts.

(** ** Bounds. *)
Lemma widen_default b p i : (fst p = 1 / 100 -> snd p = 10 -> 1 / 100 <= fst i -> snd i <= 10 ->
  fst (widen b p i) = 1 / 100 /\ snd (widen b p i) = 10)%R.
Proof.
  intros F S Fi Si. destruct b; simpl; [|now split]. rewrite F, S. split; [apply Rmin_left|apply Rmax_left]; assumption.
Qed.

Lemma special_value dim s : special_bounds dim s = special_bounds dim (mkCorr false false false false).
Proof.
  unfold special_bounds.
  set (p := widen (cs_m32 s) _ _). 
  assert (P : (fst p = 1 / 100 /\ snd p = 10)%R).
  { unfold p. repeat match goal with |- context [widen ?b ?q ?i] =>
      lazymatch q with context [widen] => fail | _ =>
        let H := fresh "H" in
        assert (H : (fst (widen b q i) = 1 / 100 /\ snd (widen b q i) = 10)%R);
        [apply widen_default; try (simpl; lra); tauto|generalize dependent (widen b q i); intros] end end. assumption. }
  destruct P as [P1 P2]. rewrite P1, P2. reflexivity.
Qed.

Lemma special_pos dim s : (0 < fst (special_bounds dim s) < snd (special_bounds dim s))%R.
Proof.
  rewrite special_value. unfold special_bounds. destruct (Nat.ltb_spec dim 10) as [L|L]; [simpl; lra|].
  unfold widen, default_bounds, cs_sqexp, cs_absexp, cs_m32, fst, snd.
  set (d := INR dim). assert (Dd : (10 <= d)%R) by (unfold d; replace 10%R with (INR 10) by (simpl; lra); apply le_INR; exact L).
  replace (2 * (9 / 5 + 1) * d)%R with (28 / 5 * d)%R by field.
  set (i := (196 / 100 * sqrt (28 / 5 * d))%R).
  assert (S0 : (0 < sqrt (28 / 5 * d))%R) by (apply sqrt_lt_R0; lra).
  assert (I1 : (i < 2 * d)%R).
  { unfold i. assert (sqrt (28 / 5 * d) < d)%R; [|lra]. rewrite <- (sqrt_square d) at 2 by lra.
    apply sqrt_lt_1_alt. split; [lra|]. nra. }
  assert (I0 : (0 < i)%R) by (unfold i; lra).
  set (a := sqrt (2 * d - i)). set (b := sqrt (2 * d + i)).
  assert (A0 : (0 < a)%R) by (apply sqrt_lt_R0; lra).
  assert (AB : (a < b)%R) by (apply sqrt_lt_1_alt; lra).
  set (sd := (1 / sqrt 12)%R). assert (SD : (0 < sd)%R) by (unfold sd; apply Rdiv_lt_0_compat; [lra|apply sqrt_lt_R0; lra]).
  assert (P1 : (0 < sd * a * (1 / 100))%R) by (apply Rmult_lt_0_compat; [apply Rmult_lt_0_compat; lra|lra]).
  assert (P2 : (sd * a * (1 / 100) < sd * b * 10)%R).
  { assert (sd * a < sd * b)%R by (apply Rmult_lt_compat_l; lra). assert (0 < sd * a)%R by (apply Rmult_lt_0_compat; lra). lra. }
  split; [apply Rdiv_lt_0_compat; lra|]. set (u := (sd * a * (1 / 100))%R) in *. set (v := (sd * b * 10)%R) in *.
  unfold Rdiv. rewrite !Rmult_1_l. apply Rinv_lt_contravar; [|exact P2]. apply Rmult_lt_0_compat; lra.
Qed.
