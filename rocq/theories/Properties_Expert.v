(** C150: experts are trained with the settings of the mixture. *)
From Coq Require Import List Arith Bool Lia ZArith.
From Verif Require Import F64 Util Moe_Model Moe_Spec Moe_Proofs Moe_Train Expert_Model.
Import ListNotations.

(** The tuning meant for cluster [c]: the only one given, or the one at its rank. *)
Definition tuning_for {T} (ts : list T) (c : nat) : option T := match ts with [t] => Some t | _ => nth_error ts c end.

(** An optimization of the hyperparameters, whatever the number of components, uses at least 25 evaluations and no more than the given maximum
    (or 25), nor than ten for each component (or 25). *)
Definition evals_within {T I} (e : expert T I) (max_eval : nat) : Prop :=
  forall dim, exists n, allowed_evals dim e = Some n /\ 25 <= n <= Nat.max 25 max_eval /\ n <= Nat.max 25 (10 * dim).

(** [e] follows the settings [s] with the tunings [ts], for cluster [c]. *)
Definition follows {T I} (s : mixture_settings I) (ts : list T) (c : nat) (e : expert T I) : Prop :=
  x_type e = m_type s /\ x_n_start e = m_n_start s /\ x_kpls e = m_kpls s /\ tuning_for ts c = Some (x_tuning e) /\ evals_within e (m_max_eval s).

Section Experts.
Context {T I G : Type} (dt : T) (gm_clusters : G -> nat) (gmm_fit : nat -> list (list f64) -> res G) (resp : G * f64 -> list f64 -> list f64)
  (cv : list (list f64) -> mean_kind -> corr_kind -> f64) (fits : expert T I -> list (list f64) -> bool)
  (best_nclusters : nat -> list (list f64) -> list f64 -> nat * recombination)
  (factor_errors : list (expert T I * list (list f64)) -> G -> list (list f64) -> list f64) (factors : list f64).
Notation trains := (train_settings dt gm_clusters gmm_fit resp cv fits best_nclusters factor_errors factors).

Lemma expert_spec s nc r sp ts dim xt yt m c x : length yt = length xt -> trains s nc r sp ts dim xt yt = Ok m ->
  nth_error (mx_experts m) c = Some x ->
  exists mean corr t, nth_error ts (if is_sparse (m_type s) then 0 else if (0 <? c) && Nat.eqb (length ts) 1 then 0 else c) = Some t /\
    (is_sparse (m_type s) = true -> mean = Constant) /\ (allows sp mean = true /\ allows_corr sp corr = true) /\
    x = (expert_params dt s mean corr t, cluster_rows resp (mx_gmx m) xt yt c).
Proof.
  intros Hl H Hc. destruct (train_spec _ _ _ _ _ _ _ _ _ _ _ _ _ Hl H) as ((A & B & _) & _).
  assert (Lc : c < gm_clusters (fst (mx_gmx m))) by (rewrite <- A; apply nth_error_Some; congruence).
  destruct (B c Lc) as (e' & Hc' & Tr). rewrite Hc in Hc'. injection Hc' as <-. unfold trained, find_best_expert in Tr.
  cbn [p_specs p_sparse p_tunings] in Tr. destruct (best_models _ _ _ _) as [[mean corr]|] eqn:Bm; [|discriminate].
  assert (Al : allows sp mean = true /\ allows_corr sp corr = true).
  { assert (Im : In (mean, corr) (candidates sp)).
    { assert (Im : forall l i, nth_error l i = Some (mean, corr) -> In (mean, corr) l) by (intros l i; apply nth_error_In).
      unfold best_models in Bm. destruct (allowed_means sp) as [|m0 [|m1 ms]] eqn:Em; [| |].
      - destruct (min_by _) as [i|]; [|discriminate]. exact (Im _ _ Bm).
      - destruct (allowed_corrs sp) as [|c0 [|c1 cs]] eqn:Ec.
        + destruct (min_by _) as [i|]; [|discriminate]. exact (Im _ _ Bm).
        + injection Bm as -> ->. unfold candidates. rewrite Em, Ec. now left.
        + destruct (min_by _) as [i|]; [|discriminate]. exact (Im _ _ Bm).
      - destruct (min_by _) as [i|]; [|discriminate]. exact (Im _ _ Bm). }
    unfold candidates in Im. rewrite in_flat_map in Im. destruct Im as (u & Iu & Hu). apply in_map_iff in Hu. destruct Hu as (v & E & Iv).
    injection E as -> ->. destruct sp as [k l q s32 a b c52]. unfold allowed_means, allowed_corrs in *. cbn in *. split.
    - destruct k, l, q; cbn in Iu; intuition (subst; reflexivity).
    - destruct s32, a, b, c52; cbn in Iv; intuition (subst; reflexivity). }
  destruct (nth_error ts _) as [t|] eqn:Et; [|destruct (is_sparse (m_type s)); [destruct mean|]; discriminate].
  exists mean, corr, t. split; [exact eq_refl|]. split.
  - intros F. rewrite F in Tr. destruct mean; [reflexivity|discriminate|discriminate].
  - split; [exact Al|]. destruct (is_sparse (m_type s)); [destruct mean; try discriminate|]; destruct (fits _ _); try discriminate; now injection Tr.
Qed.

(** C150 for full processes: each expert is trained on the rows of its cluster and follows the settings of the mixture. *)
Theorem C150_full_partial s nc r sp ts dim xt yt m c e rows : m_type s = FullGp -> length yt = length xt ->
  trains s nc r sp ts dim xt yt = Ok m -> nth_error (mx_experts m) c = Some (e, rows) ->
  rows = cluster_rows resp (mx_gmx m) xt yt c /\ allows sp (x_mean e) = true /\ allows_corr sp (x_corr e) = true /\ follows s ts c e.
Proof.
  intros Ht Hl H Hc. destruct (expert_spec _ _ _ _ _ _ _ _ _ _ _ Hl H Hc) as (mean & corr & t & Et & _ & Al & E).
  injection E as -> ->. unfold expert_params. rewrite Ht in Et |- *. cbn [is_sparse] in Et.
  split; [reflexivity|]. split; [exact (proj1 Al)|]. split; [exact (proj2 Al)|]. unfold follows. rewrite Ht.
  cbn [set_tuning set_kpls set_max_eval set_n_start new_expert x_type x_n_start x_kpls x_tuning x_max_eval x_mean].
  split; [reflexivity|]. split; [reflexivity|]. split; [reflexivity|]. split.
  - destruct ts as [|a [|b ts]]; cbn [length Nat.eqb tuning_for] in *; [rewrite andb_false_r in Et; exact Et| |rewrite andb_false_r in Et; exact Et].
    destruct c; exact Et.
  - intros d. unfold allowed_evals. cbn [set_tuning set_kpls set_max_eval set_n_start new_expert x_max_eval].
    unfold gp_cobyla_min_eval. destruct (Nat.ltb_spec (Nat.max 25 (m_max_eval s)) 25); [lia|]. eexists. split; [reflexivity|]. lia.
Qed.

(** For sparse processes: the method, the inducing points, the number of starts, the reduced dimension and the first tuning. *)
Theorem C150_sparse_partial s method z nc r sp ts dim xt yt m c e rows : m_type s = SparseGp method z -> length yt = length xt ->
  trains s nc r sp ts dim xt yt = Ok m -> nth_error (mx_experts m) c = Some (e, rows) ->
  rows = cluster_rows resp (mx_gmx m) xt yt c /\ x_mean e = Constant /\ s_const sp = true /\ allows_corr sp (x_corr e) = true /\ x_type e = SparseGp method z /\
  x_n_start e = m_n_start s /\ x_kpls e = m_kpls s /\ nth_error ts 0 = Some (x_tuning e) /\
  (length ts <= 1 -> 1000 <= m_max_eval s -> follows s ts c e).
Proof.
  intros Ht Hl H Hc. destruct (expert_spec _ _ _ _ _ _ _ _ _ _ _ Hl H Hc) as (mean & corr & t & Et & Cm & Al & E).
  injection E as -> ->. unfold expert_params. rewrite Ht in Et, Cm |- *. cbn [is_sparse] in Et, Cm. specialize (Cm eq_refl). subst mean.
  cbn [set_tuning set_kpls set_method set_n_start new_expert x_type x_n_start x_kpls x_tuning x_max_eval x_mean].
  do 2 (split; [reflexivity|]). split; [exact (proj1 Al)|]. split; [exact (proj2 Al)|]. do 3 (split; [reflexivity|]). split; [exact Et|]. intros L M. unfold follows. rewrite Ht.
  cbn [set_tuning set_kpls set_method set_n_start new_expert x_type x_n_start x_kpls x_tuning x_max_eval x_mean].
  do 3 (split; [reflexivity|]). split; [destruct ts as [|a [|b ts]]; [discriminate|exact Et|cbn in L; lia]|].
  intros d. unfold allowed_evals. cbn [set_tuning set_kpls set_method set_n_start new_expert x_max_eval]. unfold gp_cobyla_min_eval, gp_cobyla_max_eval.
  destruct (Nat.ltb_spec 1000 25); [lia|]. eexists. split; [reflexivity|]. lia.
Qed.

(** A sparse mixture without the constant trend is never trained. *)
Theorem C150_trend_refuted s method z nc r sp ts dim xt yt m : m_type s = SparseGp method z -> s_const sp = false -> length yt = length xt ->
  (forall g, 1 <= gm_clusters g) -> trains s nc r sp ts dim xt yt <> Ok m.
Proof.
  intros Ht Hs Hl Hg H. pose proof (train_spec _ _ _ _ _ _ _ _ _ _ _ _ _ Hl H) as ((A & _) & _).
  destruct (mx_experts m) as [|[e rows] l] eqn:Em; [specialize (Hg (fst (mx_gmx m))); cbn [length] in A; lia|].
  destruct (C150_sparse_partial s method z nc r sp ts dim xt yt m 0 e rows Ht Hl H) as (_ & _ & C & _); [now rewrite Em|]. congruence.
Qed.

(** The maximum number of evaluations is not used by sparse processes: below 1000 it is exceeded. *)
Theorem C150_max_eval_refuted s method z nc r sp ts dim xt yt m c e rows : m_type s = SparseGp method z -> length yt = length xt ->
  trains s nc r sp ts dim xt yt = Ok m -> nth_error (mx_experts m) c = Some (e, rows) ->
  m_max_eval s < 1000 -> ~ evals_within e (m_max_eval s).
Proof.
  intros Ht Hl H Hc L W. destruct (expert_spec _ _ _ _ _ _ _ _ _ _ _ Hl H Hc) as (mean & corr & t & Et & Cm & Al & E).
  injection E as -> ->. destruct (W 100) as (n & A & B). revert A. unfold expert_params, allowed_evals. rewrite Ht.
  cbn [set_tuning set_kpls set_method set_n_start new_expert x_max_eval]. unfold gp_cobyla_min_eval, gp_cobyla_max_eval.
  destruct (Nat.ltb_spec 1000 25); [lia|]. intros A. injection A as <-. lia.
Qed.
End Experts.

(** ** Examples: two clusters (negative and non-negative inputs), tunings are numbers *)
Definition ex_resp (g : unit * f64) (x : list f64) : list f64 :=
  match x with v :: _ => if flt v fzero then [fone; fzero] else [fzero; fone] | [] => [fone; fzero] end.
Definition ex_trains (s : mixture_settings nat) (sp : specs) (ts : list nat) : res (mixture unit (expert nat nat * list (list f64))) :=
  train_settings 0 (fun _ => 2) (fun _ _ => Ok tt) ex_resp (fun _ _ _ => fone) (fun _ _ => true) (fun _ _ _ => (2, Hard)) (fun _ _ _ => []) []
    s (Moe_Model.Fixed 2) Hard sp ts 1 (map (fun v => [fofZ v]) [-3; 2; -1; 4; -2; 5; 6]%Z) (map fofZ [0; 1; 2; 3; 4; 5; 6]%Z).
Definition ex_specs : specs := Specs true false false true false false false.
Definition seen (r : res (mixture unit (expert nat nat * list (list f64)))) : option (list (nat * nat * nat * option nat * option nat)) :=
  match r with
  | Ok m => Some (map (fun x => let '(e, rows) := x in (length rows, x_tuning e, x_n_start e, x_kpls e, allowed_evals 200 e)) (mx_experts m))
  | _ => None
  end.

(** A mixture of full processes with two tunings and at most 30 evaluations: the hypotheses of [C150_full_partial] hold. *)
Example C150_full_example : seen (ex_trains (MixtureSettings FullGp 3 30 (Some 1)) ex_specs [7; 8]) =
  Some [(3, 7, 3, Some 1, Some 30); (4, 8, 3, Some 1, Some 30)].
Proof. vm_compute. reflexivity. Qed.
(** The same with sparse processes: the first tuning is used for both clusters, and up to 1000 evaluations are allowed. *)
Example C150_sparse_example : seen (ex_trains (MixtureSettings (SparseGp Vfe 5) 3 30 (Some 1)) ex_specs [7; 8]) =
  Some [(3, 7, 3, Some 1, Some 1000); (4, 7, 3, Some 1, Some 1000)].
Proof. vm_compute. reflexivity. Qed.

(** With several tunings, the expert of the second cluster of a sparse mixture is trained with that of the first one. *)
Theorem C150_tunings_refuted : exists (s : mixture_settings nat) sp ts m e rows,
  is_sparse (m_type s) = true /\ 1000 <= m_max_eval s /\ length ts = 2 /\ s_const sp = true /\
  ex_trains s sp ts = Ok m /\ nth_error (mx_experts m) 1 = Some (e, rows) /\ ~ follows s ts 1 e.
Proof.
  assert (H : seen (ex_trains (MixtureSettings (SparseGp Vfe 5) 3 1000 (Some 1)) ex_specs [7; 8]) =
    Some [(3, 7, 3, Some 1, Some 1000); (4, 7, 3, Some 1, Some 1000)]) by (vm_compute; reflexivity).
  destruct (ex_trains _ _ _) as [m| |] eqn:Em; cbn [seen] in H; try discriminate H.
  destruct (mx_experts m) as [|[e0 r0] [|[e rows] l]] eqn:Ex; cbn [map] in H; try discriminate H.
  exists (MixtureSettings (SparseGp Vfe 5) 3 1000 (Some 1)), ex_specs, [7; 8], m, e, rows.
  split; [reflexivity|]. split; [apply Nat.le_refl|]. split; [reflexivity|]. split; [reflexivity|]. split; [exact Em|]. split; [now rewrite Ex|].
  intros (_ & _ & _ & A & _). cbn in A. injection A as A. assert (B : x_tuning e = 7) by congruence. congruence.
Qed.

Print Assumptions C150_full_partial.
Print Assumptions C150_sparse_partial.
Print Assumptions C150_trend_refuted.
Print Assumptions C150_max_eval_refuted.
Print Assumptions C150_tunings_refuted.
