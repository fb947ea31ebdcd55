(** Proofs about the smoothing factor chosen by the training of a mixture and about its failures. *)
From Coq Require Import ZArith Reals List Arith Lia Bool Permutation Lra.
From Flocq Require Import Core.Core IEEE754.BinarySingleNaN.
From Verif Require Import F64 Util Moe_Model Moe_Spec Moe_Proofs Moe_Train Mix_Model.
Import ListNotations.
Local Open Scope nat_scope.

Lemma no_nan l : existsb fnan l = false -> numbers l.
Proof.
  intros N. apply Forall_forall. intros v Hv. destruct (fnan v) eqn:Q; [|reflexivity].
  assert (X : existsb fnan l = true) by (apply existsb_exists; exists v; auto). congruence.
Qed.
Lemma argmin_first (l : list f64) i : numbers l -> argmin_by (fun a b => flt a b) l = Some i ->
  exists e, nth_error l i = Some e /\ forall e', In e' l -> flt e' e = false.
Proof.
  intros F H.
  destruct (argmin_by_spec (fun a b : f64 => flt a b) (fun v => fnan v = false)) with (l := l) (i := i) as (m & Hm & H1 & H2); try assumption.
  - intros a Na. apply flt_ordF; auto; lra.
  - intros a b c Na Nb Nc. rewrite !flt_ord by assumption. lra.
  - intros a b c Na Nb Nc. rewrite !flt_ordF by assumption. lra.
  - exists m. split; [exact Hm|]. intros e' I. apply In_nth_error in I. destruct I as [j J]. eapply H1; eauto.
Qed.
Lemma limit_eq : fmake 4722366482869645 (-72) = fdiv fone (fofZ 1000000).
Proof. apply B2SF_inj. vm_compute. reflexivity. Qed.

Section Factor.
Context {G E T : Type} (factor_errors : list E -> G -> list (list f64) -> list f64) (factors : list f64).
Lemma factor_spec (p : params G T) experts g test f r : p_recomb p = Smooth r -> is_mono (p_nclusters p) = false ->
  optimize_heaviside_factor factor_errors factors p experts g test = Some f ->
  let errors := factor_errors experts g test in
  (exists i e, nth_error errors i = Some e /\ nth_error factors i = Some f /\ forall e', In e' errors -> flt e' e = false) \/
  (f = fone /\ forall e', In e' errors -> flt e' (fdiv fone (fofZ 1000000)) = true).
Proof.
  intros R M H errors. unfold optimize_heaviside_factor in H. rewrite R, M in H. fold errors in H.
  destruct (existsb fnan errors) eqn:N; [discriminate|]. apply no_nan in N.
  destruct (argmin_by (fun a b => flt a b) errors) as [i|] eqn:Ei; [|discriminate].
  destruct (argmax errors) as [j|] eqn:Ej; [|discriminate].
  destruct (nth_error errors j) as [mx|] eqn:Em; [|discriminate].
  rewrite limit_eq in H. destruct (flt mx (fdiv fone (fofZ 1000000))) eqn:L.
  - right. injection H as <-. split; [reflexivity|]. intros e' I.
    assert (Ne : errors <> []) by (destruct errors; [destruct I|discriminate]).
    destruct (argmax_spec errors Ne N) as (c & Ec & w & Hw & Hm & _). rewrite Ej in Ec. injection Ec as <-.
    rewrite Em in Hw. injection Hw as <-. pose proof I as I'. apply In_nth_error in I. destruct I as [k K].
    assert (A := Hm k e' K). unfold numbers in N. rewrite Forall_forall in N.
    assert (Nm : fnan mx = false) by (apply N; eapply nth_error_In; eauto).
    assert (Nf : fnan (fdiv fone (fofZ 1000000)) = false) by (vm_compute; reflexivity).
    apply flt_ord in L; [|assumption|assumption]. apply flt_ord; auto. lra.
  - left. destruct (argmin_first _ _ N Ei) as (e & He & Hmin). exists i, e. auto.
Qed.
End Factor.

Lemma bind_ok {A B} (r : res A) (f : A -> res B) b : bind r f = Ok b -> exists a, r = Ok a /\ f a = Ok b.
Proof. destruct r; try discriminate. intros H. now exists a. Qed.
Lemma bind_panic {A B} (r : res A) (f : A -> res B) : r <> Panic -> (forall a, r = Ok a -> f a <> Panic) -> bind r f <> Panic.
Proof. intros H K. destruct r; [now apply K|discriminate|congruence]. Qed.

Section Train.
Context {G E T : Type} (gm_clusters : G -> nat) (gmm_fit : nat -> list (list f64) -> res G)
  (resp : G * f64 -> list f64 -> list f64) (cv : list (list f64) -> mean_kind -> corr_kind -> f64)
  (train_expert : mean_kind -> corr_kind -> T -> list (list f64) -> res E)
  (best_nclusters : nat -> list (list f64) -> list f64 -> nat * recombination)
  (factor_errors : list E -> G -> list (list f64) -> list f64) (factors : list f64).
Local Notation train' := (train gm_clusters gmm_fit resp cv train_expert best_nclusters factor_errors factors).
Local Notation train_with' := (@train_with G E T gm_clusters gmm_fit resp cv train_expert best_nclusters factor_errors factors).
Local Notation train_on' := (@train_on_clusters G E T gm_clusters resp cv train_expert factor_errors factors).
Local Notation trained' := (trained cv train_expert).

Lemma clusters_of g xt yt : length yt = length xt ->
  sort_by_cluster (gm_clusters (fst g)) (rows_of xt yt) (map (fun x => hard_cluster (resp g x)) xt) =
  Some (map (cluster_rows resp g xt yt) (seq 0 (gm_clusters (fst g)))).
Proof. intros Hl. rewrite sort_spec; [reflexivity|]. rewrite map_length, rows_of_length; auto. Qed.

Lemma train_smooth p dim xt yt m nb :
  length yt = length xt -> p_nclusters p = Fixed nb -> 1 < nb -> p_recomb p = Smooth None -> p_gmx p = None ->
  train' p dim xt yt = Ok m ->
  exists f test held g experts,
    mx_recomb m = Smooth (Some f) /\ snd (mx_gmx m) = f /\
    extract_part (rows_of xt yt) 5 = Some (test, held) /\ gmm_fit nb held = Ok g /\
    length experts = gm_clusters g /\
    (forall c e, nth_error experts c = Some e -> trained' p dim c (cluster_rows resp (g, fone) xt yt c) e) /\
    optimize_heaviside_factor factor_errors factors p experts g test = Some f.
Proof.
  intros Hl N Nb R Gm H.
  assert (M : is_multi (p_nclusters p) = true) by (rewrite N; now apply Nat.ltb_lt).
  unfold train in H. unfold train_with in H at 1. rewrite N, R in H. rewrite N in M. rewrite M in H. rewrite Gm in H.
  cbv zeta in H. destruct (extract_part (rows_of xt yt) 5) as [[test held]|] eqn:Ep; [|discriminate].
  cbn [option_map snd] in H. apply bind_ok in H. destruct H as (g' & Eg & H). apply bind_ok in Eg. destruct Eg as (g & Eg & Q).
  injection Q as <-. unfold train_on_clusters in H at 1. cbv zeta in H. rewrite clusters_of in H by exact Hl.
  destruct (check_number_of_points _ _ _ _); [|discriminate]. apply bind_ok in H. destruct H as (experts & Ex & H).
  rewrite N, M, Ep in H. cbn [fst] in H.
  destruct (optimize_heaviside_factor factor_errors factors p experts g test) as [f|] eqn:Ef; [|discriminate].
  destruct (check_ref _); [|discriminate].
  destruct (train_with_spec _ _ _ _ _ _ _ _ _ _ _ _ _ _ Hl H) as [(_ & A & B & _)|(_ & X & _)]; [|cbn in X; discriminate].
  cbn in A, B. specialize (B _ eq_refl). rewrite B in A. cbn in A.
  destruct (train_experts_spec _ _ _ _ _ _ _ _ Ex) as [Le He]. rewrite map_length, seq_length in Le. cbn [fst] in Le.
  exists f, test, held, g, experts. split; [exact B|]. split; [now apply A|]. split; [reflexivity|]. split; [exact Eg|].
  split; [exact Le|]. split; [|exact Ef].
  intros c e Hc. assert (Lc : c < gm_clusters g) by (rewrite <- Le; apply nth_error_Some; congruence).
  destruct (He c (cluster_rows resp (g, fone) xt yt c)) as (e' & He' & Tr & _).
  { rewrite nth_error_map, nth_seq by exact Lc. reflexivity. }
  rewrite Hc in He'. injection He' as <-. exact Tr.
Qed.

Lemma train_auto p dim xt yt m mx k :
  length yt = length xt -> p_nclusters p = Auto mx -> p_gmx p = None ->
  best_nclusters (match mx with Some n => n | None => length xt / 10 + 1 end) xt yt = (k, Smooth None) ->
  train' p dim xt yt = Ok m -> mx_recomb m = Smooth None /\ snd (mx_gmx m) = fone.
Proof.
  intros Hl N Gm B H. destruct (train_spec _ _ _ _ _ _ _ _ _ _ _ _ _ Hl H) as (_ & A & _).
  unfold train in H. unfold train_with in H at 1. rewrite N, B in H. cbv zeta in H. cbn [is_multi] in H.
  apply bind_ok in H. destruct H as (g & _ & H). unfold train_on_clusters in H at 1. cbv zeta in H.
  destruct (sort_by_cluster _ _ _); [|discriminate]. destruct (check_number_of_points _ _ _ _); [|discriminate].
  apply bind_ok in H. destruct H as (ex & _ & H). rewrite N in H. cbn [is_multi] in H. injection H as <-.
  specialize (A Gm). cbn in A. split; [reflexivity|exact A].
Qed.

(** ** Failures *)
Hypothesis gmm_total : forall n d, gmm_fit n d <> Panic.
Hypothesis gmm_size : forall n d g, gmm_fit n d = Ok g -> gm_clusters g = n.
Hypothesis expert_total : forall m c t rows, train_expert m c t rows <> Panic.
Hypothesis errors_ok : forall ex g test, numbers (factor_errors ex g test) /\ length (factor_errors ex g test) = length factors.
Hypothesis factors_ok : factors <> [].

Lemma candidates_some s m c : allows s m = true -> allows_corr s c = true -> candidates s <> [].
Proof.
  intros A B. unfold candidates.
  assert (In m (allowed_means s)) by (unfold allowed_means, allow; destruct m; cbn in A; rewrite A; rewrite ?in_app_iff; cbn; auto).
  assert (In c (allowed_corrs s)) by (unfold allowed_corrs, allow; destruct c; cbn in B; rewrite B; rewrite ?in_app_iff; cbn; auto).
  intros Q. assert (I : In (m, c) []); [|destruct I]. rewrite <- Q. apply in_flat_map. exists m. split; [assumption|].
  apply in_map_iff. eauto.
Qed.
Lemma best_models_some s n dim e m c : allows s m = true -> allows_corr s c = true -> exists r, best_models s n dim e = Some r.
Proof.
  intros A B. pose proof (candidates_some s m c A B) as C. unfold best_models.
  assert (X : exists r, (do i <- min_by (map (fun p => compute_error n dim (fst p) (e (fst p) (snd p))) (candidates s)); nth_error (candidates s) i) = Some r).
  { unfold min_by. set (lt := fun a cur : f64 => _). set (l := map _ _).
    destruct (argmin_by_some lt l) as [i Hi].
    { unfold l. destruct (candidates s); [congruence|discriminate]. }
    rewrite Hi. cbn. apply argmin_by_bound in Hi. unfold l in Hi. rewrite map_length in Hi.
    destruct (nth_error (candidates s) i) as [r|] eqn:Q; [now exists r|]. apply nth_error_None in Q. lia. }
  destruct (allowed_means s) as [|? [|? ?]]; try exact X. destruct (allowed_corrs s) as [|? [|? ?]]; try exact X. now eexists.
Qed.
Lemma expert_ok (p : params G T) m c nc dim rows : allows (p_specs p) m = true -> allows_corr (p_specs p) c = true ->
  1 <= length (p_tunings p) -> (length (p_tunings p) = 1 \/ nc < length (p_tunings p)) ->
  find_best_expert (p_sparse p) (p_specs p) (p_tunings p) nc dim rows cv train_expert <> Panic.
Proof.
  intros A B L1 L2. unfold find_best_expert.
  destruct (best_models_some (p_specs p) (length rows) dim (cv rows) m c A B) as [[m' c'] ->].
  set (ti := if p_sparse p then 0 else _).
  assert (Lt : ti < length (p_tunings p)).
  { unfold ti. destruct (p_sparse p); [lia|]. destruct ((0 <? nc) && (length (p_tunings p) =? 1)) eqn:Q; [lia|].
    destruct L2 as [L2|L2]; [|exact L2]. rewrite L2, Nat.eqb_refl, andb_true_r in Q. apply Nat.ltb_ge in Q. lia. }
  destruct (nth_error (p_tunings p) ti) as [t|] eqn:Q; [|apply nth_error_None in Q; lia].
  destruct (p_sparse p); [destruct m'|]; try discriminate; apply expert_total.
Qed.
Lemma experts_ok (p : params G T) m c nb dim cls : allows (p_specs p) m = true -> allows_corr (p_specs p) c = true ->
  1 <= length (p_tunings p) -> forall nc, (length (p_tunings p) = 1 \/ nc + length cls <= length (p_tunings p)) ->
  train_experts cv train_expert p nb dim nc cls <> Panic.
Proof.
  intros A B L1. induction cls as [|r cls IH]; intros nc L2; cbn [train_experts]; [discriminate|].
  destruct ((1 <? nb) && (length r <? 3)); [discriminate|]. cbn [length] in L2.
  apply bind_panic; [apply (expert_ok p m c); auto; lia|]. intros e _.
  apply bind_panic; [apply IH; lia|]. discriminate.
Qed.
Lemma factor_ok (p : params G T) ex g test : exists f, optimize_heaviside_factor factor_errors factors p ex g test = Some f.
Proof.
  unfold optimize_heaviside_factor. destruct (p_recomb p); [now eexists|]. destruct (is_mono _); [now eexists|].
  destruct (errors_ok ex g test) as [N L]. set (errors := factor_errors ex g test) in *. rewrite existsb_nan by exact N.
  assert (Ne : errors <> []) by (intros Q; rewrite Q in L; destruct factors; [congruence|discriminate]).
  destruct (argmin_by_some (fun a b => flt a b) errors Ne) as [i Hi]. rewrite Hi.
  destruct (argmax_spec errors Ne N) as (j & Hj & w & Hw & _). rewrite Hj, Hw.
  destruct (flt w _); [now eexists|]. apply argmin_by_bound in Hi. rewrite L in Hi.
  destruct (nth_error factors i) as [fa|] eqn:Q; [now exists fa|]. apply nth_error_None in Q. lia.
Qed.

Definition sizes_ok (p : params G T) : Prop :=
  match p_nclusters p with
  | Fixed nb => length (p_tunings p) = nb /\ 1 <= nb \/ length (p_tunings p) = 1 /\ 1 < nb
  | Auto _ => length (p_tunings p) = 1
  end.
Lemma sizes_check p : sizes_ok p -> check_ref p = true.
Proof.
  unfold sizes_ok, check_ref. destruct (p_nclusters p) as [nb|]; [|reflexivity]. cbn [is_multi].
  intros [[-> _]|[-> L]].
  - destruct ((1 <? nb) && (nb =? 1)); [reflexivity|apply Nat.eqb_refl].
  - apply Nat.ltb_lt in L. now rewrite L.
Qed.

Lemma train_with_ok k p m c dim xt yt : length yt = length xt -> (Z.of_nat (length xt) < 16777216)%Z ->
  allows (p_specs p) m = true -> allows_corr (p_specs p) c = true -> p_gmx p = None -> sizes_ok p ->
  (forall p', p_specs p' = p_specs p -> p_gmx p' = None -> sizes_ok p' -> p_recomb p' <> Smooth None -> k p' <> Panic) ->
  train_with' k p dim xt yt <> Panic.
Proof.
  intros Hl Hb A B Gm S K. unfold train_with. cbv zeta.
  destruct (match p_nclusters p with Fixed nb => _ | Auto mx => _ end) as [nc r] eqn:N.
  assert (Ex : exists test held, extract_part (rows_of xt yt) 5 = Some (test, held)).
  { do 2 eexists. apply extract_spec; [lia| |reflexivity]. rewrite rows_of_length by exact Hl. exact Hb. }
  destruct Ex as (test & held & Ex).
  assert (Td : exists td, match r with Smooth None => if is_multi (p_nclusters p) then option_map snd (extract_part (rows_of xt yt) 5) else Some (rows_of xt yt) | _ => Some (rows_of xt yt) end = Some td).
  { rewrite Ex. destruct r as [|[f|]]; [now eexists|now eexists|destruct (is_multi _); now eexists]. }
  destruct Td as (td & ->). rewrite Gm.
  apply bind_panic.
  { apply bind_panic; [apply gmm_total|discriminate]. }
  intros g Eg. apply bind_ok in Eg. destruct Eg as (g0 & Eg & Q). apply gmm_size in Eg.
  assert (Sz : gm_clusters (fst g) = nc) by (injection Q as <-; exact Eg). clear Q.
  unfold train_on_clusters. cbv zeta. rewrite clusters_of by exact Hl.
  destruct (check_number_of_points _ _ _ _); [|discriminate].
  assert (L1 : 1 <= length (p_tunings p)).
  { unfold sizes_ok in S. destruct (p_nclusters p); lia. }
  assert (L2 : length (p_tunings p) = 1 \/ 0 + nc <= length (p_tunings p)).
  { unfold sizes_ok in S. destruct (p_nclusters p); [injection N as <- _; lia|now left]. }
  apply bind_panic.
  { apply (experts_ok p m c); auto. rewrite map_length, seq_length, Sz. exact L2. }
  intros ex _. destruct r as [|[f|]]; [discriminate|discriminate|].
  destruct (is_multi (p_nclusters p)) eqn:M; [|discriminate]. rewrite Ex.
  destruct (factor_ok p ex (fst g) test) as [f ->].
  set (p' := Params _ _ _ _ _ _).
  assert (S' : sizes_ok p').
  { unfold sizes_ok, p'. cbn. unfold sizes_ok in S. destruct (p_nclusters p) as [nb|]; [|discriminate].
    injection N as <- _. rewrite Sz. exact S. }
  rewrite (sizes_check p' S'). apply K; [reflexivity|exact Gm|exact S'|discriminate].
Qed.
Lemma train_ok p m c dim xt yt : length yt = length xt -> (Z.of_nat (length xt) < 16777216)%Z ->
  allows (p_specs p) m = true -> allows_corr (p_specs p) c = true -> p_gmx p = None -> sizes_ok p ->
  train' p dim xt yt <> Panic.
Proof.
  intros Hl Hb A B Gm S. rewrite (train_two_levels gm_clusters gmm_fit resp cv train_expert best_nclusters factor_errors factors (fun _ => Err)).
  apply (train_with_ok _ p m c); auto. intros p' P1 P2 P3 P4. apply (train_with_ok _ p' m c); auto; try (now rewrite P1).
Qed.
End Train.
