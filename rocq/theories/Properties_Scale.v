(** C148: constraint functions without a value, or with an infinite one, at some points. *)
From Coq Require Import ZArith Reals Lra List Arith Bool Lia.
From Flocq Require Import Core BinarySingleNaN.
From Verif Require Import F64 F64_Round F64_Extra Util FindResult_Model FindResult_Spec FindResult_Proofs UpdateData_Model UpdateData_Spec UpdateData_Proofs
  Ego_Model Ego_Spec Ego_Proofs Ego_Run Ego_Examples Properties_FindResult Properties_Ego Scale_Model.
Import ListNotations.
Local Open Scope nat_scope.

Lemma fcmp_nan a b : fnan a = true \/ fnan b = true -> fcmp a b = None.
Proof. destruct a, b; cbn; intros [H|H]; try discriminate; reflexivity. Qed.
Lemma fcmp_some a b : fnan a = false -> fnan b = false -> exists c, fcmp a b = Some c /\ (c = Gt <-> (ord b < ord a)%R).
Proof.
  intros A B. rewrite (fcmp_ord a b A B). eexists. split; [reflexivity|].
  destruct (Rcompare_spec (ord a) (ord b)); split; intros; try discriminate; try reflexivity; lra.
Qed.
Lemma max_loop_spec l : forall acc, fnan acc = false -> (forall v, In v l -> fnan v = false) ->
  exists m, max_loop acc l = Some m /\ fnan m = false /\ (m = acc \/ In m l) /\ (ord acc <= ord m)%R /\ forall v, In v l -> (ord v <= ord m)%R.
Proof.
  induction l as [|v l IH]; intros acc Na Nl; [exists acc; cbn; repeat split; try tauto; try lra; intros ? []|].
  cbn [max_loop]. destruct (fcmp_some v acc (Nl v (or_introl eq_refl)) Na) as (c & -> & Hc).
  destruct (IH (match c with Gt => v | _ => acc end)) as (m & E & Nm & Im & Am & Vm).
  { destruct c; [exact Na|exact Na|apply Nl; now left]. }
  { intros w Hw. apply Nl. now right. }
  exists m. split; [exact E|]. split; [exact Nm|].
  assert (Q : ((match c with Gt => v | _ => acc end = acc /\ ord v <= ord acc) \/ (match c with Gt => v | _ => acc end = v /\ ord acc < ord v))%R).
  { destruct c; [left|left|right]; (split; [reflexivity|]); try (apply Rnot_lt_le; intros X; apply Hc in X; discriminate). now apply Hc. }
  destruct Q as [[Q H]|[Q H]]; rewrite Q in *.
  - split; [destruct Im; [now left|right; now right]|]. split; [exact Am|]. intros w [<-|Hw]; [lra|now apply Vm].
  - split; [destruct Im as [->|]; [right; now left|right; now right]|]. split; [lra|]. intros w [<-|Hw]; [lra|now apply Vm].
Qed.
Lemma max_loop_nan l : forall acc, fnan acc = true \/ (exists v, In v l /\ fnan v = true) -> l <> [] -> max_loop acc l = None.
Proof.
  induction l as [|v l IH]; intros acc H N; [congruence|]. cbn [max_loop].
  destruct (fnan acc) eqn:A; [now rewrite fcmp_nan by tauto|].
  destruct (fnan v) eqn:V; [now rewrite fcmp_nan by tauto|].
  destruct (fcmp_some v acc V A) as (c & -> & _). destruct H as [H|(w & [<-|Hw] & Nw)]; try congruence.
  apply IH; [right; now exists w|intros ->; destruct Hw].
Qed.
Lemma fmaximum_spec l : l <> [] -> (forall v, In v l -> fnan v = false) ->
  exists m, fmaximum l = Some m /\ fnan m = false /\ In m l /\ forall v, In v l -> fle v m = true.
Proof.
  intros N H. destruct l as [|a l]; [congruence|]. unfold fmaximum.
  destruct (max_loop_spec (a :: l) a (H a (or_introl eq_refl)) H) as (m & E & Nm & Im & _ & V).
  exists m. repeat split; try assumption; [destruct Im as [->|]; [now left|assumption]|].
  intros v Hv. apply (fle_ord v m (H v Hv) Nm). now apply V.
Qed.
Lemma fmaximum_nan l v : In v l -> fnan v = true -> fmaximum l = None.
Proof. intros I N. destruct l as [|a l]; [reflexivity|]. unfold fmaximum. apply max_loop_nan; [right; now exists v|discriminate]. Qed.
Lemma mapM_none {A B} (f : A -> option B) l a : In a l -> f a = None -> mapM f l = None.
Proof.
  induction l as [|b l IH]; intros I N; [destruct I|]. cbn [mapM]. destruct I as [<-|I]; [now rewrite N|].
  destruct (f b); [|reflexivity]. now rewrite (IH I N).
Qed.
Lemma mapM_exists {A B} (f : A -> option B) l : (forall a, In a l -> exists b, f a = Some b) -> exists m, mapM f l = Some m.
Proof.
  induction l as [|a l IH]; intros H; [now exists []|]. cbn [mapM]. destruct (H a (or_introl eq_refl)) as (b & ->).
  destruct IH as (m & ->); [intros x Hx; apply H; now right|]. now exists (b :: m).
Qed.
Lemma nth_in_width j (r : row) : j < length r -> In (nth j r fNaN) r.
Proof. intros. now apply nth_In. Qed.
Lemma fle_fone_abs v s : fnan v = false -> flt fzero s = true -> flt s finf = true -> fle (fabs v) s = true -> fle (fabs (fdiv v s)) fone = true.
Proof.
  intros Nv Z I L. destruct (flt_nan _ _ Z) as [_ Ns].
  apply (flt_ord fzero s eq_refl Ns) in Z. rewrite ord_fzero in Z. apply (flt_ord s finf Ns eq_refl) in I. rewrite ord_finf in I.
  assert (Nav : fnan (fabs v) = false) by now rewrite fnan_fabs.
  apply (fle_ord (fabs v) s Nav Ns) in L. rewrite (ord_fabs v Nv) in L.
  assert (Fs : is_finite s = true).
  { destruct s as [| [] | |]; try reflexivity; try discriminate; exfalso; unfold ord in Z, I; pose proof bpow1024_pos; lra. }
  assert (Fv : is_finite v = true).
  { destruct v as [| [] | |]; try reflexivity; try discriminate; exfalso; unfold ord in L at 1; pose proof bpow1024_pos as P;
      [rewrite Rabs_Ropp in L|]; rewrite Rabs_pos_eq in L by lra; lra. }
  rewrite (ord_fin s Fs) in *. rewrite (ord_fin v Fv) in L.
  assert (Q : (Rabs (B2R v / B2R s) <= 1)%R).
  { unfold Rdiv. rewrite Rabs_mult, (Rabs_pos_eq (/ B2R s)) by (apply Rlt_le, Rinv_0_lt_compat; exact Z).
    apply (Rmult_le_reg_r (B2R s)); [exact Z|]. rewrite Rmult_assoc, Rinv_l by lra. lra. }
  destruct (fdiv_R v s (B2R v) (B2R s)) as [Fq Eq].
  { split; [exact Fv|reflexivity]. } { split; [exact Fs|reflexivity]. } { lra. } { apply small_le. lra. }
  assert (Nq : fnan (fdiv v s) = false) by now apply finite_not_nan.
  apply (fle_ord (fabs (fdiv v s)) fone); [now rewrite fnan_fabs|reflexivity|]. rewrite (ord_fabs _ Nq), (ord_fin _ Fq), Eq.
  rewrite (ord_fin fone eq_refl), B2R_fone. apply abs_round_le_generic; [apply valid64|typeclasses eauto|apply fmt_1|exact Q].
Qed.

(** C148, partial: the scaling factors exist exactly when the constraint functions are numbers at all the points sampled;
    each is then the largest absolute value of its constraint, and positive finite ones bring these values into [-1, 1].
    Missing: points where a constraint function is not a number, or infinite, see below. *)
Theorem C148_scales_partial : forall wc fcstr points, points <> [] -> (forall p, In p points -> length (fcstr p) = wc) ->
  ((exists s, fcstr_scales wc fcstr points = Some s) <-> forall p v, In p points -> In v (fcstr p) -> fnan v = false) /\
  forall s, fcstr_scales wc fcstr points = Some s -> length s = wc /\
    forall j sj, nth_error s j = Some sj ->
      (exists p, In p points /\ nth_error (map fabs (fcstr p)) j = Some sj) /\
      forall p v, In p points -> nth_error (fcstr p) j = Some v -> fle (fabs v) sj = true /\
        (flt fzero sj = true -> flt sj finf = true -> fle (fabs (fdiv v sj)) fone = true).
Proof.
  intros wc fcstr points Ne W.
  assert (Sc : forall j, j < wc -> (forall p v, In p points -> In v (fcstr p) -> fnan v = false) ->
     exists m, fcstr_scale (map fcstr points) j = Some m /\ fnan m = false /\ (exists p, In p points /\ m = fabs (nth j (fcstr p) fNaN)) /\
       forall p, In p points -> fle (fabs (nth j (fcstr p) fNaN)) m = true).
  { intros j Lj Num. unfold fcstr_scale. rewrite map_map.
    destruct (fmaximum_spec (map (fun x => fabs (nth j (fcstr x) fNaN)) points)) as (m & E & Nm & Im & V).
    { destruct points; [congruence|discriminate]. }
    { intros v Hv. apply in_map_iff in Hv. destruct Hv as (p & <- & Ip). rewrite fnan_fabs. apply (Num p); [exact Ip|].
      apply nth_In. now rewrite (W p Ip). }
    exists m. split; [exact E|]. split; [exact Nm|]. split.
    - apply in_map_iff in Im. destruct Im as (p & <- & Ip). now exists p.
    - intros p Ip. apply V. apply in_map_iff. now exists p. }
  assert (Iff : (exists s, fcstr_scales wc fcstr points = Some s) <-> forall p v, In p points -> In v (fcstr p) -> fnan v = false).
  { split.
    - intros (s & E) p v Ip Iv. destruct (fnan v) eqn:N; [|reflexivity]. exfalso. apply In_nth_error in Iv. destruct Iv as (j & Ej).
      assert (Lj : j < wc) by (rewrite <- (W p Ip); apply nth_error_Some; congruence).
      unfold fcstr_scales in E. rewrite (mapM_none _ _ j) in E; [discriminate|apply in_seq; lia|].
      unfold fcstr_scale. rewrite map_map. apply (fmaximum_nan _ (fabs v)); [|now rewrite fnan_fabs].
      apply in_map_iff. exists p. split; [|exact Ip]. now rewrite (nth_error_nth _ _ fNaN Ej).
    - intros Num. apply mapM_exists. intros j Hj. apply in_seq in Hj. destruct (Sc j ltac:(lia) Num) as (m & E & _). now exists m. }
  split; [exact Iff|]. intros s E. pose proof (proj1 Iff (ex_intro _ s E)) as Num.
  assert (Ls : length s = wc) by (unfold fcstr_scales in E; rewrite (mapM_length _ _ _ E); apply seq_length).
  split; [exact Ls|]. intros j sj Ej.
  assert (Lj : j < wc) by (rewrite <- Ls; apply nth_error_Some; congruence).
  destruct (Sc j Lj Num) as (m & Em & Nm & (p & Ip & Pm) & V).
  assert (sj = m).
  { unfold fcstr_scales in E. assert (X : nth_error (seq 0 wc) j = Some j).
    { rewrite (nth_error_nth' _ 0) by now rewrite seq_length. now rewrite seq_nth. }
    destruct (mapM_nth _ _ _ E j j X) as (b & Hb & Nb). congruence. }
  subst sj. split.
  - exists p. split; [exact Ip|]. rewrite nth_error_map, (nth_error_nth' _ fNaN) by now rewrite (W p Ip). cbn [option_map]. now rewrite Pm.
  - intros q v Iq Eq. pose proof (V q Iq) as L. rewrite (nth_error_nth _ _ fNaN Eq) in L. split; [exact L|].
    intros Z I. apply fle_fone_abs; try assumption. apply (Num q); [exact Iq|]. eapply nth_error_In; eauto.
Qed.
Print Assumptions C148_scales_partial.

(** What the global steps of a run propose: at least one point each time, of the right dimensions, with points to sample. *)
Definition proposals_ok (cfg : config) (ps : nat -> nat -> list proposal) : Prop :=
  forall i a, ps i a <> [] /\
    forall p, In p (ps i a) -> length (p_x p) = cfg.(c_wx) /\ length (p_y p) = cfg.(c_wy) /\ p_points p <> [].

(** C148, partial: if the constraint functions are numbers at the points sampled, the run goes on whatever they are
    at the points evaluated, and its best point is the best one, points being ranked by the constraints known to be violated.
    Missing: constraint functions that are not numbers at sampled points, and evaluated ones not being ranked as violated, see below. *)
Theorem C148_run_partial : forall cfg fobj fcstr ps loc cols doe, problem_ok cfg fobj fcstr -> design_ok cfg fobj fcstr cols doe ->
  proposals_ok cfg ps -> (forall i, length (loc i) = cfg.(c_wx)) ->
  (forall i a p q v, In p (ps i a) -> In q (p_points p) -> In v (fcstr q) -> fnan v = false) ->
  forall k, exists st, reached cfg fobj fcstr (oracle_of cfg.(c_wc) fcstr ps loc) cols doe k st /\
    is_best_row (run_tol cfg) (results st) st.(s_best).
Proof.
  intros cfg fobj fcstr ps loc cols doe PO DO Ps Lo Num k.
  assert (OO : oracle_ok cfg (oracle_of (c_wc cfg) fcstr ps loc)).
  { split; [|exact Lo]. intros i a. destruct (Ps i a) as [Ne H]. cbn [oracle_of o_batch]. unfold batch_of.
    assert (Sc : forall p, In p (ps i a) -> exists s, fcstr_scales (c_wc cfg) fcstr (p_points p) = Some s /\ length s = c_wc cfg).
    { intros p Ip. destruct (H p Ip) as (_ & _ & Np).
      destruct (C148_scales_partial (c_wc cfg) fcstr (p_points p) Np) as [[_ X] Y].
      { intros q _. apply (po_fcstr _ _ _ PO). }
      destruct X as (s & Es). { intros q v Iq Iv. exact (Num i a p q v Ip Iq Iv). }
      exists s. split; [exact Es|]. now apply Y. }
    destruct (mapM_exists (fun p => fcstr_scales (c_wc cfg) fcstr (p_points p)) (ps i a)) as (m & Em).
    { intros p Ip. destruct (Sc p Ip) as (s & Es & _). now exists s. }
    rewrite Em. constructor; cbn [b_x b_y b_scales].
    - destruct (ps i a); [congruence|discriminate].
    - now rewrite !map_length.
    - rewrite map_length. now apply mapM_length in Em.
    - unfold width. rewrite Forall_map, Forall_forall. intros p Ip. now apply H.
    - unfold width. rewrite Forall_map, Forall_forall. intros p Ip. now apply H.
    - apply Forall_forall. intros s Is. apply In_nth_error in Is. destruct Is as (j & Ej).
      assert (Lj : j < length (ps i a)) by (rewrite <- (mapM_length _ _ _ Em); apply nth_error_Some; congruence).
      destruct (nth_error (ps i a) j) as [p|] eqn:Ep; [|apply nth_error_None in Ep; lia].
      destruct (mapM_nth _ _ _ Em j p Ep) as (b & Hb & Nb). replace b with s in * by congruence.
      destruct (Sc p (nth_error_In _ _ Ep)) as (s' & Es & Ls). assert (s = s') by congruence. subst. lia. }
  assert (RO : run_ok cfg fobj fcstr (oracle_of (c_wc cfg) fcstr ps loc) cols doe) by (split; [exact PO|split; assumption]).
  destruct (C09_never_panics _ _ _ _ _ _ RO k) as (st & R). exists st. split; [exact R|].
  now apply (C11_best_of_history _ _ _ _ _ _ RO k st R).
Qed.
Print Assumptions C148_run_partial.

(** C148. Finding: a constraint function that is not a number at one of the points sampled by the first attempt of a global step
    makes the run panic, even if none of its evaluations is concerned. *)
Theorem C148_sampled_refuted : forall cfg fobj fcstr ps loc st p q v, cfg.(c_trego) = false -> goes_on st ->
  (forall x, length (fcstr x) = cfg.(c_wc)) ->
  In p (ps st.(s_iter) 0) -> In q (p_points p) -> In v (fcstr q) -> fnan v = true ->
  exec_step cfg fobj fcstr (oracle_of cfg.(c_wc) fcstr ps loc) st = None.
Proof.
  intros cfg fobj fcstr ps loc st p q v Tr Go W Ip Iq Iv Nv.
  apply goes_on_iff in Go. destruct Go as [S Te]. unfold exec_step, terminated. rewrite S, Te. unfold next_iter. rewrite Tr.
  unfold ego_iteration. destruct (s_retries st) as [|r]; [reflexivity|]. cbn [ego_loop oracle_of o_batch batch_of b_x b_scales].
  rewrite (mapM_none _ _ p Ip).
  - destruct (ps (s_iter st) 0); [destruct Ip|]. reflexivity.
  - destruct (fcstr_scales (c_wc cfg) fcstr (p_points p)) as [s|] eqn:E; [|reflexivity]. exfalso.
    destruct (C148_scales_partial (c_wc cfg) fcstr (p_points p)) as [[X _] _].
    { intros H. rewrite H in Iq. destruct Iq. } { intros; apply W. }
    specialize (X (ex_intro _ s E) q v Iq Iv). congruence.
Qed.
Print Assumptions C148_sampled_refuted.

(** C148. Finding: an infinite constraint function at one of the points sampled cancels the constraint: whatever finite value
    it has at the point proposed, the value stored is zero, so that it is violated for no tolerance that is not negative. *)
Theorem C148_infinite_refuted : forall wc fcstr points s x q j c, points <> [] -> (forall x, length (fcstr x) = wc) ->
  fcstr_scales wc fcstr points = Some s ->
  In q points -> nth_error (map fabs (fcstr q)) j = Some finf ->
  nth_error (fcstr x) j = Some c -> is_finite c = true ->
  exists stored z, scaled (fcstr x) s = Some stored /\ nth_error stored j = Some z /\ feq z fzero = true /\
    forall t, fle fzero t = true -> ~ violates z t.
Proof.
  intros wc fcstr points s x q j c Ne W E Iq Eq Ec Fc.
  destruct (C148_scales_partial wc fcstr points Ne (fun p _ => W p)) as [_ Y]. destruct (Y s E) as [Ls V].
  assert (Lj : j < length s) by (rewrite Ls, <- (W x); apply nth_error_Some; congruence).
  destruct (nth_error s j) as [sj|] eqn:Ej; [|apply nth_error_None in Ej; lia].
  destruct (V j sj Ej) as [_ B]. rewrite nth_error_map in Eq. destruct (nth_error (fcstr q) j) as [w|] eqn:Ew; [|discriminate].
  injection Eq as Ew'. destruct (B q w Iq Ew) as [Le _]. rewrite Ew' in Le.
  assert (sj = finf). { destruct sj as [| [] | |]; try discriminate; reflexivity. }
  subst sj. assert (Sc : forall cs s, length cs = length s -> exists r, scaled cs s = Some r /\ forall j c sj, nth_error cs j = Some c -> nth_error s j = Some sj -> nth_error r j = Some (fdiv c sj)).
  { intros cs. induction cs as [|a cs IH]; intros [|b ss] L; try discriminate.
    - exists []. split; [reflexivity|]. intros [|?]; discriminate.
    - destruct (IH ss ltac:(cbn in L; lia)) as (r & Er & Hr). exists (fdiv a b :: r). cbn [scaled]. rewrite Er. split; [reflexivity|].
      intros [|n] c' sj H1 H2; cbn in *; [congruence|eauto]. }
  destruct (Sc (fcstr x) s) as (r & Er & Hr). { now rewrite W, Ls. }
  exists r, (fdiv c finf). split; [exact Er|]. split; [now apply Hr|].
  destruct c as [sg| | |sg m e Hb]; try discriminate Fc; (split; [now destruct sg|]).
  - intros t Ht Hv. destruct (fle_nan _ _ Ht) as [_ Nt]. unfold violates in Hv. apply (flt_ord t (fdiv (B754_zero sg) finf) Nt eq_refl) in Hv.
    apply (fle_ord fzero t eq_refl Nt) in Ht. change (ord (fdiv (B754_zero sg) finf)) with 0%R in Hv. rewrite ord_fzero in Ht. lra.
  - intros t Ht Hv. destruct (fle_nan _ _ Ht) as [_ Nt]. unfold violates in Hv. apply (flt_ord t (fdiv (B754_finite sg m e Hb) finf) Nt eq_refl) in Hv.
    apply (fle_ord fzero t eq_refl Nt) in Ht. change (ord (fdiv (B754_finite sg m e Hb) finf)) with 0%R in Hv. rewrite ord_fzero in Ht. lra.
Qed.
Print Assumptions C148_infinite_refuted.

(** C148. Finding: at every point of a run, if the constraints of a point are not numbers and its objective is lower than the others, it is
    the point reported, whatever points are known to satisfy the constraints. *)
Theorem C148_reported_refuted : forall cfg fobj fcstr orc cols doe k st i r, run_ok cfg fobj fcstr orc cols doe ->
  reached cfg fobj fcstr orc cols doe k st -> nth_error (results st) i = Some r ->
  (forall c, In c (constraints r) -> fnan c = true) ->
  (forall j s, j <> i -> nth_error (results st) j = Some s -> flt (objective r) (objective s) = true) ->
  st.(s_best) = i.
Proof.
  intros cfg fobj fcstr orc cols doe k st i r RO R Er Nan Low.
  destruct (C11_best_of_history _ _ _ _ _ _ RO k st R) as [(b & Eb & Best & _) _].
  destruct (Nat.eq_dec (s_best st) i) as [|D]; [assumption|]. exfalso. apply (Best i r Er).
  assert (Fr : feasible (run_tol cfg) (constraints r)).
  { intros n c t Hc Ht V. unfold violates in V. destruct (flt_nan _ _ V) as [_ Nc]. rewrite (Nan c) in Nc; [discriminate|]. eapply nth_error_In; eauto. }
  destruct (feasibleb (run_tol cfg) (constraints b)) eqn:Fb.
  - apply feasibleb_spec in Fb. left. split; [exact Fr|]. split; [exact Fb|]. now apply (Low (s_best st)).
  - apply feasibleb_specF in Fb. right. left. now split.
Qed.
Print Assumptions C148_reported_refuted.

(** One variable, objective x^2, the constraint 1 - x <= 0 having no value for negative x. *)
Definition half_cstr (x : row) : row := [if flt (nth 0 x fzero) fzero then fNaN else fsub fone (nth 0 x fzero)].
Definition half_cfg : config := ex_cfg false fone fninf 0 3.
Definition half_doe : mat := [[fofZ 3]; [fofZ (-1)]].
Definition half_ps (sampled : f64) (i a : nat) : list proposal := [mkProposal [fofZ 2] [fNaN] [[fofZ 5]; [sampled]]].
Definition half_orc (sampled : f64) : oracle := oracle_of 1 half_cstr (half_ps sampled) (fun _ => [fofZ 2]).
Lemma half_problem : problem_ok half_cfg ex_obj half_cstr.
Proof.
  constructor; try (cbn; lia); try reflexivity.
  intros x. unfold ex_obj, objective. simpl. destruct (fnan (fmul _ _)) eqn:E; [reflexivity|exact E].
Qed.
Lemma half_design : design_ok half_cfg ex_obj half_cstr 1 half_doe.
Proof.
  constructor; [discriminate|repeat constructor|now left|intros H; exfalso; now apply H|].
  right. left. exists (ex_obj [fofZ 3] ++ half_cstr [fofZ 3]). split; [left; reflexivity|]. split.
  - apply feasibleb_spec. vm_compute. reflexivity.
  - vm_compute. reflexivity.
Qed.
Definition half_run (sampled : f64) (k : nat) : option state :=
  do st <- init half_cfg ex_obj half_cstr 1 half_doe; exec half_cfg ex_obj half_cstr (half_orc sampled) k st.
(** The point at -1, whose constraint has no value, is reported although 3, then 2, satisfy it; a sampled negative point is a panic. *)
Example C148_example : problem_ok half_cfg ex_obj half_cstr /\ design_ok half_cfg ex_obj half_cstr 1 half_doe /\
  proposals_ok half_cfg (half_ps fone) /\
  option_map (fun st => (length st.(s_x), st.(s_best))) (half_run fone 0) = Some (2, 1) /\
  option_map (fun st => (length st.(s_x), st.(s_best))) (half_run fone 1) = Some (3, 1) /\
  (match half_run fone 1 with Some st => forallb (fun b => b) (map (fun r => feasibleb (run_tol half_cfg) (constraints r)) (results st)) | None => false end) = true /\
  half_run (fofZ (-3)) 1 = None /\
  option_map (fun s => feq (nth 0 s fNaN) (fofZ 4)) (fcstr_scales 1 half_cstr [[fofZ 5]; [fone]]) = Some true.
Proof.
  split; [exact half_problem|]. split; [exact half_design|]. split.
  { intros i a. split; [discriminate|]. intros p [<-|[]]. now repeat split. }
  repeat split; vm_compute; reflexivity.
Qed.
(** An infinite value at a sampled point cancels the constraint: 1000 is stored as 0. *)
Example C148_infinite_example :
  let g (x : row) := [if flt (nth 0 x fzero) fone then finf else nth 0 x fzero] in
  (do s <- fcstr_scales 1 g [[fofZ 5]; [fzero]]; do r <- scaled (g [fofZ 1000]) s; Some (feq (nth 0 r fNaN) fzero)) = Some true.
Proof. vm_compute. reflexivity. Qed.
