(** Trust region: size, schedule and local area. *)
From Coq Require Import ZArith List Arith Bool Lia Reals Lra.
From Flocq Require Import Core.Core IEEE754.BinarySingleNaN.
From Verif Require Import F64 F64_Extra Util FindResult_Spec Ego_Model Ego_Spec Ego_Proofs Ego_Run Trego_Model.
Import ListNotations.

(** ** Size in exact arithmetic *)
Fixpoint sigmas {T} (mul : T -> T -> T) (gamma beta : T) (iter : nat) (l : list (bool * bool)) (sigma : T) : T :=
  match l with
  | [] => sigma
  | (prev_ego, success) :: l' =>
      sigmas mul gamma beta (S iter) l' (next_sigma mul gamma beta iter prev_ego success sigma)
  end.

Definition successes (l : list (bool * bool)) : nat := length (filter snd l).
Definition failed_locals (l : list (bool * bool)) : nat :=
  length (filter (fun o : bool * bool => negb (fst o) && negb (snd o)) l).

Lemma sigmas_pos gamma beta l : forall iter sigma, (0 < iter)%nat ->
  sigmas Rmult gamma beta iter l sigma = (sigma * gamma ^ successes l * beta ^ failed_locals l)%R.
Proof.
  induction l as [|[pe su] l IH]; intros iter sigma H; simpl.
  - unfold successes, failed_locals. simpl. lra.
  - rewrite IH by lia. unfold next_sigma, successes, failed_locals. destruct iter; [lia|]. simpl.
    destruct pe, su; simpl; ring.
Qed.

Lemma sigmas_closed gamma beta o l sigma :
  sigmas Rmult gamma beta 0 (o :: l) sigma = (sigma * gamma ^ successes l * beta ^ failed_locals l)%R.
Proof.
  destruct o as [pe su]. simpl. rewrite sigmas_pos by lia. unfold next_sigma. simpl.
  destruct pe, su; reflexivity.
Qed.

(** ** Size in a run *)
Section Runs.
Variable cfg : config.
Variables fobj fcstr : row -> row.
Variable orc : oracle.
Variable cols : nat.
Variable doe : mat.
Hypothesis PO : problem_ok cfg fobj fcstr.
Hypothesis OO : oracle_ok cfg orc.
Hypothesis DO : design_ok cfg fobj fcstr cols doe.
Notation Reached := (reached cfg fobj fcstr orc cols doe).

Lemma success_value k st : Reached k st -> exists yb yp,
  nth_error st.(s_y) st.(s_best) = Some yb /\ nth_error st.(s_y) st.(s_prev_best) = Some yp /\
  last_success st = Some (flt (objective yb) (fsub (objective yp) (fmul st.(s_sigma) st.(s_sigma)))).
Proof.
  intros H. pose proof (reached_inv cfg fobj fcstr orc cols doe PO OO DO _ _ H) as I.
  destruct (inv_nth _ _ _ PO st (s_best st) I (inv_best _ _ I)) as (xb & yb & b & _ & Hb & Hb0).
  destruct (inv_nth _ _ _ PO st (s_prev_best st) I (i_prev _ _ I)) as (xp & yp & p & _ & Hp & Hp0).
  exists yb, yp. split; [assumption|]. split; [assumption|].
  unfold last_success. rewrite Hb, Hp, Hb0, Hp0. unfold objective.
  rewrite (nth_error_nth _ _ _ Hb0), (nth_error_nth _ _ _ Hp0). reflexivity.
Qed.

Lemma sigma_step k st st' : cfg.(c_trego) = true -> Reached k st -> Reached (S k) st' -> goes_on st ->
  exists yb yp success,
    nth_error st.(s_y) st.(s_best) = Some yb /\ nth_error st.(s_y) st.(s_prev_best) = Some yp /\
    success = flt (objective yb) (fsub (objective yp) (fmul st.(s_sigma) st.(s_sigma))) /\
    (st.(s_iter) = 0 -> st'.(s_sigma) = st.(s_sigma)) /\
    (st.(s_iter) <> 0 -> success = true -> st'.(s_sigma) = fmul st.(s_sigma) cfg.(c_gamma)) /\
    (st.(s_iter) <> 0 -> success = false -> st.(s_prev_ego) = false ->
       st'.(s_sigma) = fmul st.(s_sigma) cfg.(c_beta)) /\
    (st.(s_iter) <> 0 -> success = false -> st.(s_prev_ego) = true -> st'.(s_sigma) = st.(s_sigma)).
Proof.
  intros T H H' G. destruct (step_facts cfg fobj fcstr orc cols doe PO OO DO _ _ _ H H' G) as (px & pc & _ & _ & S).
  rewrite T in S. destruct S as (s & Hs & E & _). destruct (success_value _ _ H) as (yb & yp & Hb & Hp & Hs').
  rewrite Hs in Hs'. injection Hs' as ->. exists yb, yp, (flt (objective yb) (fsub (objective yp) (fmul st.(s_sigma) st.(s_sigma)))).
  do 3 (split; [first [assumption|reflexivity]|]).
  rewrite E. unfold next_sigma. destruct (s_iter st); simpl.
  - rewrite andb_false_r. repeat split; congruence.
  - rewrite andb_true_r. split; [congruence|]. destruct (s_prev_ego st); simpl; repeat split; intros;
      repeat match goal with [E0 : flt _ _ = _ |- _] => rewrite E0 end; try reflexivity; congruence.
Qed.

Lemma sigma_positive k st : Reached k st -> fnan cfg.(c_gamma) = false -> (1 / 2 < ord cfg.(c_gamma))%R ->
  fnan cfg.(c_beta) = false -> (1 / 2 < ord cfg.(c_beta))%R ->
  fnan st.(s_sigma) = false /\ (0 < ord st.(s_sigma))%R.
Proof.
  intros H Ng Hg Nb Hb. revert st H. induction k as [|k IH]; intros st H.
  - destruct H as (st0 & Hi & H). simpl in H. injection H as <-.
    assert (X := init_facts cfg fobj fcstr cols doe PO DO _ Hi). do 11 (destruct X as [_ X]). destruct X as [-> _].
    assert (N : fnan sigma_init = false) by (vm_compute; reflexivity). split; [assumption|].
    rewrite <- ord_fzero. apply flt_ord; [reflexivity|assumption|]. vm_compute. reflexivity.
  - destruct (reached_exists cfg fobj fcstr orc cols doe PO OO DO k) as (st0 & H0). destruct (IH _ H0) as [N P].
    destruct (goes_on_dec st0) as [G|G].
    + destruct (step_facts cfg fobj fcstr orc cols doe PO OO DO _ _ _ H0 H G) as (px & pc & _ & _ & S).
      destruct (c_trego cfg); [|destruct S as [-> _]; tauto].
      destruct S as (s & _ & -> & _). unfold next_sigma.
      destruct (negb (s_prev_ego st0) && negb (s_iter st0 =? 0)), (negb (s_iter st0 =? 0)), s;
        try (split; assumption); apply fmul_pos; assumption.
    + destruct (stop_facts cfg fobj fcstr orc cols doe PO OO DO _ _ _ H0 H G) as (r & ->). split; assumption.
Qed.

Lemma sigma_step' k st st' : cfg.(c_trego) = true -> Reached k st -> Reached (S k) st' -> goes_on st ->
  (st.(s_iter) = 0 -> st'.(s_sigma) = st.(s_sigma)) /\
  (st.(s_iter) <> 0 -> sufficient_decrease st -> st'.(s_sigma) = fmul st.(s_sigma) cfg.(c_gamma)) /\
  (st.(s_iter) <> 0 -> ~ sufficient_decrease st -> st.(s_prev_ego) = false ->
     st'.(s_sigma) = fmul st.(s_sigma) cfg.(c_beta)) /\
  (st.(s_iter) <> 0 -> ~ sufficient_decrease st -> st.(s_prev_ego) = true -> st'.(s_sigma) = st.(s_sigma)).
Proof.
  intros T H H' G. destruct (sigma_step k st st' T H H' G) as (yb & yp & s & Hb & Hp & -> & A & B & C & D).
  assert (E : sufficient_decrease st <-> flt (objective yb) (fsub (objective yp) (fmul (s_sigma st) (s_sigma st))) = true).
  { unfold sufficient_decrease. split; [|eauto]. intros (yb' & yp' & Hb' & Hp' & F). congruence. }
  repeat split; auto.
  - intros N S. apply B; [assumption|]. now apply E.
  - intros N S. apply C; [assumption|]. apply not_true_is_false. now rewrite <- E.
  - intros N S. apply D; [assumption|]. apply not_true_is_false. now rewrite <- E.
Qed.

(** ** Schedule *)
Lemma global_when_multiple k st : cfg.(c_trego) = true -> Reached k st ->
  st.(s_iter) mod (1 + cfg.(c_n_local)) = 0 -> global_next cfg st.
Proof.
  intros T H M. right. now left.
Qed.

Lemma global_recurrent k st : cfg.(c_trego) = true -> Reached k st ->
  exists j st', j <= cfg.(c_n_local) /\ Reached (k + j) st' /\ (~ goes_on st' \/ global_next cfg st').
Proof.
  intros T H. set (m := 1 + c_n_local cfg).
  assert (Hm : m <> 0) by (unfold m; lia).
  assert (Hj : exists j, j < m /\ (s_iter st + j) mod m = 0).
  { pose proof (Nat.mod_upper_bound (s_iter st) m Hm) as B. destruct (Nat.eq_dec (s_iter st mod m) 0) as [E|E].
    - exists 0. rewrite Nat.add_0_r. split; [lia|assumption].
    - exists (m - s_iter st mod m). split; [lia|].
      rewrite (Nat.div_mod (s_iter st) m Hm) at 1.
      replace (m * (s_iter st / m) + s_iter st mod m + (m - s_iter st mod m)) with ((s_iter st / m + 1) * m) by lia.
      apply Nat.mod_mul. assumption. }
  destruct Hj as (j & Lj & Ej).
  assert (D : forall i, i <= j -> (exists i' s', i' <= i /\ Reached (k + i') s' /\ ~ goes_on s') \/
     exists s', Reached (k + i) s' /\ s_iter s' = s_iter st + i).
  { induction i as [|i IH]; intros Li.
    - right. exists st. rewrite !Nat.add_0_r. split; [assumption|reflexivity].
    - destruct (IH ltac:(lia)) as [(i' & s' & L & X)|(s' & H1 & E1)]; [left; exists i', s'; split; [lia|exact X]|].
      destruct (goes_on_dec s') as [G|G]; [|left; exists i, s'; split; [lia|tauto]].
      destruct (reached_exists cfg fobj fcstr orc cols doe PO OO DO (k + S i)) as (s2 & H2).
      right. exists s2. split; [assumption|]. replace (k + S i) with (S (k + i)) in H2 by lia.
      destruct (step_facts cfg fobj fcstr orc cols doe PO OO DO _ _ _ H1 H2 G) as (px & pc & Tt & _).
      rewrite (t_iter _ _ _ _ _ Tt). lia. }
  unfold m in Lj. destruct (D j (le_n _)) as [(i' & s' & L & R & G)|(s' & R & E)].
  - exists i', s'. split; [lia|]. tauto.
  - exists j, s'. split; [lia|]. split; [assumption|]. right. eapply global_when_multiple; [assumption|exact R|].
    rewrite E. exact Ej.
Qed.

Lemma global_step_outcome k st st' : Reached k st -> Reached (S k) st' -> goes_on st -> global_next cfg st ->
  exists px pc, st'.(s_x) = st.(s_x) ++ px /\ st'.(s_c) = st.(s_c) ++ pc /\ global_outcome fcstr orc st st' px pc.
Proof.
  intros H H' G N. destruct (step_facts cfg fobj fcstr orc cols doe PO OO DO _ _ _ H H' G) as (px & pc & T & O & _).
  exists px, pc. split; [apply (t_x _ _ _ _ _ T)|]. split; [apply (t_c _ _ _ _ _ T)|].
  destruct O as [[_ O]|[N' _]]; [exact O|contradiction].
Qed.

Lemma multiple_is_global k st st' : cfg.(c_trego) = true ->
  Reached k st -> Reached (S k) st' -> goes_on st -> st.(s_iter) mod (1 + cfg.(c_n_local)) = 0 ->
  exists px pc, st'.(s_x) = st.(s_x) ++ px /\ st'.(s_c) = st.(s_c) ++ pc /\ global_outcome fcstr orc st st' px pc.
Proof.
  intros T H H' G M. exact (global_step_outcome k st st' H H' G (global_when_multiple k st T H M)).
Qed.

Lemma recurrent_global k st : cfg.(c_trego) = true -> Reached k st ->
  exists j st', j <= cfg.(c_n_local) /\ Reached (k + j) st' /\
    (~ goes_on st' \/
     forall st'', Reached (S (k + j)) st'' ->
       exists px pc, st''.(s_x) = st'.(s_x) ++ px /\ st''.(s_c) = st'.(s_c) ++ pc /\
         global_outcome fcstr orc st' st'' px pc).
Proof.
  intros T H. destruct (global_recurrent k st T H) as (j & st' & L & R & X). exists j, st'.
  split; [assumption|]. split; [assumption|]. destruct (goes_on_dec st') as [G|G]; [|now left].
  destruct X as [X|X]; [contradiction|]. right. intros st'' R'. exact (global_step_outcome _ _ _ R R' G X).
Qed.
End Runs.

(** ** Local area *)
Lemma local_side_spec d0 d1 lo up xb : is_finite xb = true -> fnan lo = false -> fnan up = false ->
  fnan d0 = false -> fnan d1 = false -> (0 <= ord d0)%R -> (0 <= ord d1)%R ->
  fle lo xb = true -> fle xb up = true ->
  let (a, b) := local_side d0 d1 lo up xb in
  fle lo a = true /\ fle a xb = true /\ fle xb b = true /\ fle b up = true /\
  fle (fsub xb d0) a = true /\ fle b (fadd xb d1) = true.
Proof.
  intros Fx Nl Nu N0 N1 H0 H1 L U. pose proof (finite_not_nan _ Fx) as Nx.
  apply fle_ord in L; try assumption. apply fle_ord in U; try assumption.
  destruct (fsub_le xb d0 Fx N0 H0) as [Ns Ls]. destruct (fadd_ge xb d1 Fx N1 H1) as [Na La].
  unfold local_side. destruct (fmax_ord lo (fsub xb d0) Nl Ns) as [Nm Em].
  destruct (fmin_ord up (fadd xb d1) Nu Na) as [Nn En].
  repeat split; apply fle_ord; try assumption; rewrite ?Em, ?En;
    unfold Rmax, Rmin; destruct (Rle_dec _ _); lra.
Qed.

Lemma local_area_spec d0 d1 : fnan d0 = false -> fnan d1 = false -> (0 <= ord d0)%R -> (0 <= ord d1)%R ->
  forall origin xlimits, length origin = length xlimits ->
  (forall i xb lo up, nth_error origin i = Some xb -> nth_error xlimits i = Some (lo, up) ->
     is_finite xb = true /\ fnan lo = false /\ fnan up = false /\ fle lo xb = true /\ fle xb up = true) ->
  exists area, local_area d0 d1 origin xlimits = Some area /\ length area = length xlimits /\
   forall i xb lo up, nth_error origin i = Some xb -> nth_error xlimits i = Some (lo, up) ->
     exists a b, nth_error area i = Some (a, b) /\
       fle lo a = true /\ fle a xb = true /\ fle xb b = true /\ fle b up = true /\
       fle (fsub xb d0) a = true /\ fle b (fadd xb d1) = true.
Proof.
  intros N0 N1 H0 H1. induction origin as [|xb o IH]; intros [|[lo up] l] L H; simpl in L; try discriminate.
  - exists []. repeat split. intros [|i]; discriminate.
  - destruct (IH l ltac:(lia)) as (area & E & La & X).
    { intros i. apply (H (S i)). }
    simpl. rewrite E. eexists. split; [reflexivity|]. split; [simpl; lia|].
    intros [|i] x' lo' up' Ho Hl; simpl in Ho, Hl.
    + injection Ho as <-. injection Hl as <- <-. destruct (H 0 xb lo up eq_refl eq_refl) as (F & A & B & C & D).
      pose proof (local_side_spec d0 d1 lo up xb F A B N0 N1 H0 H1 C D) as S.
      destruct (local_side d0 d1 lo up xb) as [a b]. exists a, b. split; [reflexivity|exact S].
    + simpl. eauto.
Qed.
