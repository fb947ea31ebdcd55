From Coq Require Import ZArith List Arith Bool Lia.
From Verif Require Import F64 Util FindResult_Model FindResult_Spec FindResult_Proofs
  UpdateData_Model UpdateData_Spec UpdateData_Proofs Ego_Model Ego_Spec.
Import ListNotations.

Ltac optinv H := match type of H with
  | match ?e with _ => _ end = Some _ => let E := fresh "E" in destruct e eqn:E; [|discriminate]
  end.

Lemma goes_on_iff st : goes_on st <-> s_status st = Running /\ terminate_internal st = Running.
Proof.
  unfold goes_on, terminate_internal, get_best_cost, best_value.
  assert (E : match s_best_cost st with Some c => nth 0 c finf | None => finf end =
              match s_best_cost st with Some (v :: _) => v | _ => finf end)
    by (destruct (s_best_cost st) as [[|]|]; reflexivity).
  rewrite E. clear E. destruct (Nat.leb_spec (s_max_iters st) (s_iter st)).
  - split; [intros (_ & L & _); lia|intros [_ D]; discriminate].
  - destruct (fle _ _); split.
    + intros (_ & _ & D). discriminate.
    + intros [_ D]. discriminate.
    + intros (R & _). now split.
    + intros [R _]. now repeat split.
Qed.

Section Run.
Variable cfg : config.
Variables fobj fcstr : row -> row.
Variable orc : oracle.
Hypothesis PO : problem_ok cfg fobj fcstr.
Let wx := cfg.(c_wx).
Let wy := cfg.(c_wy).
Let wc := cfg.(c_wc).

(** The state invariant. *)
Record inv (st : state) : Prop := {
  i_x : length st.(s_x) = st.(s_added);
  i_y : length st.(s_y) = st.(s_added);
  i_c : length st.(s_c) = st.(s_added);
  i_wx : width wx st.(s_x);
  i_ho : history_ok wy wc st.(s_tol) st.(s_y) st.(s_c);
  i_best : is_best_row st.(s_tol) (results st) st.(s_best);
  i_prev : st.(s_prev_best) < st.(s_added);
  i_feas : (exists r, In r (results st) /\ feasible st.(s_tol) (constraints r)) -> st.(s_feas) = true;
  i_retries : st.(s_status) = Running -> st.(s_retries) = 3;
  i_doe : 1 <= st.(s_doe_size) <= st.(s_added)
}.

(** What a step that keeps running does to the state: points [px] with constraint rows [pc] are appended. *)
Record extended (st st' : state) (px pc : mat) (ev : nat) : Prop := {
  e_x : st'.(s_x) = st.(s_x) ++ px;
  e_y : st'.(s_y) = st.(s_y) ++ map fobj px;
  e_c : st'.(s_c) = st.(s_c) ++ pc;
  e_lc : length pc = length px;
  e_wx : width wx px;
  e_wc : width wc pc;
  e_added : st'.(s_added) = st.(s_added) + length px;
  e_padded : st'.(s_prev_added) = st.(s_added);
  e_prev : st'.(s_prev_best) = st.(s_best);
  e_best : is_best_row st.(s_tol) (results st') st'.(s_best);
  e_feas : st'.(s_feas) = true <-> st.(s_feas) = true \/
             exists r, nth_error (results st') st'.(s_best) = Some r /\ feasible st.(s_tol) (constraints r);
  e_retries : st'.(s_retries) = 3;
  e_evals : st'.(s_evals) = st.(s_evals) + ev;
  e_same : st'.(s_iter) = st.(s_iter) /\ st'.(s_max_iters) = st.(s_max_iters) /\
    st'.(s_doe_size) = st.(s_doe_size) /\ st'.(s_tol) = st.(s_tol) /\ st'.(s_target) = st.(s_target) /\
    st'.(s_last_best_iter) = st.(s_last_best_iter) /\ st'.(s_status) = st.(s_status) /\
    st'.(s_sigma) = st.(s_sigma) /\ st'.(s_prev_ego) = st.(s_prev_ego)
}.

Lemma scaled_spec c : forall s, length c <= length s -> exists r, scaled c s = Some r /\ length r = length c.
Proof.
  induction c as [|a c IH]; intros [|b s] H; simpl in *; try lia; eauto.
  destruct (IH s) as (r & -> & L); [lia|]. eexists; split; [reflexivity|]. simpl; lia.
Qed.

Lemma scaled_rows_spec xs : forall ss, length ss = length xs -> Forall (fun s => wc <= length s) ss ->
  exists cs, scaled_rows fcstr xs ss = Some cs /\ length cs = length xs /\ width wc cs /\
   (forall i x s, nth_error xs i = Some x -> nth_error ss i = Some s ->
      exists r, nth_error cs i = Some r /\ scaled (fcstr x) s = Some r).
Proof.
  induction xs as [|x xs IH]; intros [|s ss] L F; simpl in *; try lia.
  - eexists; split; [reflexivity|]. repeat split; [constructor|]. intros [|i]; discriminate.
  - inversion F; subst. destruct (scaled_spec (fcstr x) s) as (r & Hr & Lr).
    { rewrite (po_fcstr _ _ _ PO). assumption. }
    destruct (IH ss) as (cs & -> & Lc & W & N); [lia|assumption|]. rewrite Hr.
    eexists; split; [reflexivity|]. repeat split.
    + simpl; lia.
    + constructor; [|assumption]. rewrite Lr. apply (po_fcstr _ _ _ PO).
    + intros [|i] x' s' H H'; simpl in *; [|eauto]. injection H as <-. injection H' as <-. eauto.
Qed.

Lemma width_app w (a b : mat) : width w a -> width w b -> width w (a ++ b).
Proof. apply Forall_app_iff || (intros; apply Forall_app; tauto). Qed.

Lemma rows_at_length l idx : length (rows_at l idx) = length idx.
Proof. apply map_length. Qed.

Lemma rows_at_width w l idx : width w l -> increasing_below (length l) idx -> width w (rows_at l idx).
Proof.
  intros W [B _]. unfold width, rows_at. rewrite Forall_map, Forall_forall. intros i Hi.
  unfold width in W. rewrite Forall_forall in W. apply W. apply nth_In. auto.
Qed.

Lemma map_fobj_width px : width wy (map fobj px).
Proof. unfold width. rewrite Forall_map, Forall_forall. intros. apply (po_fobj _ _ _ PO). Qed.

Lemma map_fobj_num px : Forall (fun r => fnan (objective r) = false) (map fobj px).
Proof. rewrite Forall_map, Forall_forall. intros. apply (po_num _ _ _ PO). Qed.

Lemma history_extend tol y c px pc : history_ok wy wc tol y c -> length pc = length px -> width wc pc ->
  history_ok wy wc tol (y ++ map fobj px) (c ++ pc).
Proof.
  intros [H1 H2 H3 H4 H5 H6] L W. constructor; try assumption.
  - rewrite !app_length, map_length. lia.
  - apply Forall_app. split; [assumption|apply map_fobj_width].
  - apply Forall_app. split; assumption.
  - apply Forall_app. split; [assumption|apply map_fobj_num].
Qed.

(** Row [i] of the joined results. *)
Lemma joined_nth y c i r s : nth_error y i = Some r -> nth_error c i = Some s ->
  nth_error (joined y c) i = Some (r ++ s).
Proof.
  intros Hy Hc. unfold joined. rewrite nth_error_map.
  assert (E : nth_error (combine y c) i = Some (r, s)).
  { revert c i Hy Hc. induction y as [|a y IH]; intros [|b c] [|i] Hy Hc; simpl in *; try discriminate.
    - congruence.
    - auto. }
  now rewrite E.
Qed.

Lemma best_lt tol y c i : length y = length c -> is_best_row tol (joined y c) i -> i < length y.
Proof.
  intros L (r & Hr & _). assert (i < length (joined y c)) by (apply nth_error_Some; congruence).
  rewrite joined_length in * by assumption. assumption.
Qed.

(** The end of both kinds of steps: new best row and feasibility flag. *)
Lemma step_end tol y c px pc cur : history_ok wy wc tol y c ->
  is_best_row tol (joined y c) cur -> length pc = length px -> width wc pc ->
  forall off, (off = length y \/ (px = [] /\ off <= length y)) ->
  exists best yb cb, find_best_result_index_from cur off (y ++ map fobj px) (c ++ pc) tol = Some best /\
    is_best_row tol (joined (y ++ map fobj px) (c ++ pc)) best /\
    nth_error (y ++ map fobj px) best = Some yb /\ nth_error (c ++ pc) best = Some cb /\
    exists b, is_feasible yb cb tol = Some b /\ (b = true <-> feasible tol (constraints (yb ++ cb))).
Proof.
  intros HO B L W off Hoff. pose proof (history_extend _ _ _ _ _ HO L W) as HO'.
  pose proof (ho_len _ _ _ _ _ HO) as Ly. pose proof (ho_len _ _ _ _ _ HO') as Ly'.
  assert (X : exists best, find_best_result_index_from cur off (y ++ map fobj px) (c ++ pc) tol = Some best /\
    is_best_row tol (joined (y ++ map fobj px) (c ++ pc)) best).
  { destruct Hoff as [->|[-> Hoff]].
    - apply (find_best_from_is_best tol (wy + wc)); try assumption.
      + apply (width_pos _ _ _ _ _ HO).
      + apply (ho_tol _ _ _ _ _ HO).
      + rewrite map_length. lia.
      + apply (history_rows _ _ _ _ _ HO').
    - destruct pc; [|discriminate]. simpl map. rewrite !app_nil_r in *.
      exists cur. split; [|assumption].
      unfold find_best_result_index_from.
      rewrite joined_hconcat by assumption.
      rewrite joined_length by assumption. apply Nat.leb_le in Hoff. rewrite Hoff.
      destruct B as (r & Hr & Br & Fr). rewrite Hr.
      pose proof (history_rows _ _ _ _ _ HO) as K.
      assert (Sk : forall s, In s (skipn off (joined y c)) -> In s (joined y c)).
      { intros s Hs. rewrite <- (firstn_skipn off (joined y c)). apply in_or_app. now right. }
      enough (G : forall l i best, (forall s, In s l -> In s (joined y c)) ->
                 best_from_loop tol i best r l = Some best).
      { rewrite G by assumption. reflexivity. }
      induction l as [|s l IH]; intros i best Hl; simpl; [reflexivity|].
      rewrite Forall_forall in K.
      assert (Ks : row_ok (wy + wc) s) by (apply K, Hl; now left).
      assert (Kr : row_ok (wy + wc) r) by (apply K; eapply nth_error_In; eassumption).
      destruct (cstr_min_preorder tol (wy + wc) (width_pos _ _ _ _ _ HO) (ho_tol _ _ _ _ _ HO)) as (_ & T & _ & Bt).
      destruct (T s r Ks Kr) as (o & Ho & _). rewrite Ho.
      assert (o <> Lt).
      { intros ->. apply Bt in Ho; try assumption. destruct (In_nth_error _ _ (Hl s (or_introl eq_refl))) as [j Hj].
        apply (Br j s Hj Ho). }
      destruct o; [|congruence|]; apply IH; intros; apply Hl; now right. }
  destruct X as (best & F & B').
  pose proof (best_lt _ _ _ _ Ly' B') as Lt.
  destruct (nth_error (y ++ map fobj px) best) as [yb|] eqn:Eb; [|apply nth_error_None in Eb; lia].
  destruct (nth_error (c ++ pc) best) as [cb|] eqn:Ec; [|apply nth_error_None in Ec; lia].
  exists best, yb, cb. repeat split; try assumption.
  destruct HO' as [h1 h2 h3 h4 h5 h6]. rewrite Forall_forall in h4, h5.
  apply (is_feasible_correct yb cb tol wy wc); try assumption.
  - apply h4. eapply nth_error_In; eassumption.
  - apply h5. eapply nth_error_In; eassumption.
Qed.

(** [overwrite_last] replaces exactly the appended virtual rows by the evaluations. *)
Lemma overwrite_spec y (v new : mat) k : length v = k -> overwrite_last k new (y ++ v) = y ++ new.
Proof.
  intros H. unfold overwrite_last. rewrite app_length, H, Nat.add_sub.
  rewrite firstn_app, Nat.sub_diag, firstn_all. simpl. now rewrite app_nil_r.
Qed.

Lemma skipn_tail {A} (x v : list A) k : length v = k -> skipn (length (x ++ v) - k) (x ++ v) = v.
Proof.
  intros H. rewrite app_length, H, Nat.add_sub, skipn_app, skipn_all, Nat.sub_diag. reflexivity.
Qed.

(** The end of a global step that accepted the rows [new] of its batch. *)
Definition ego_finish (st : state) (x' y' c' : mat) (k : nat) : option state :=
  let x_to_eval := skipn (length x' - k) x' in
  let y_actual := map fobj x_to_eval in
  let y'' := overwrite_last k y_actual y' in
  do best <- find_best_result_index_from st.(s_best) (length y'' - k) y'' c' st.(s_tol);
  do yb <- nth_error y'' best;
  do cb <- nth_error c' best;
  do feas <- (if st.(s_feas) then Some true else is_feasible yb cb st.(s_tol));
  Some (set_prev_added st.(s_added) (set_added (st.(s_added) + k) (set_retries 3
        (set_prev_best st.(s_best) (set_best best (set_x x' (set_y y'' (set_c c'
        (set_feas feas (set_evals (st.(s_evals) + k) st)))))))))).

Lemma feas_flag st yb cb b P : is_feasible yb cb st.(s_tol) = Some b -> (b = true <-> P) ->
  exists f, (if st.(s_feas) then Some true else is_feasible yb cb st.(s_tol)) = Some f /\
       (f = true <-> st.(s_feas) = true \/ P).
Proof.
  intros H E. destruct (s_feas st); eexists; split; try reflexivity; try eassumption; intuition congruence.
Qed.

Lemma ego_finish_spec st bx yv cs new : inv st -> width wx bx -> length cs = length bx -> width wc cs ->
  length yv = length bx ->
  increasing_below (length bx) new ->
  exists st', ego_finish st (st.(s_x) ++ rows_at bx new) (st.(s_y) ++ rows_at yv new) (st.(s_c) ++ rows_at cs new)
                (length new) = Some st' /\
    extended st st' (rows_at bx new) (rows_at cs new) (length new) /\
    st'.(s_best_param) = st.(s_best_param) /\ st'.(s_best_cost) = st.(s_best_cost).
Proof.
  intros I Wbx Lcs Wcs Lyv Hinc. unfold ego_finish. cbv zeta.
  rewrite skipn_tail by apply rows_at_length.
  rewrite overwrite_spec by apply rows_at_length.
  assert (Wpc : width wc (rows_at cs new)).
  { apply rows_at_width; [assumption|]. rewrite Lcs. assumption. }
  assert (Lpc : length (rows_at cs new) = length (rows_at bx new)) by (now rewrite !rows_at_length).
  destruct (step_end st.(s_tol) st.(s_y) st.(s_c) (rows_at bx new) (rows_at cs new) st.(s_best)
      (i_ho _ I) (i_best _ I) Lpc Wpc (length st.(s_y)) (or_introl eq_refl))
      as (best & yb & cb & F & Bst & Hyb & Hcb & fb & Hfb & Efb).
  replace (length (s_y st ++ map fobj (rows_at bx new)) - length new) with (length st.(s_y))
    by (rewrite app_length, map_length, rows_at_length; lia).
  rewrite F, Hyb, Hcb.
  pose proof (joined_nth _ _ _ _ _ Hyb Hcb) as Hj.
  destruct (feas_flag st yb cb fb _ Hfb Efb) as (f & -> & Ef).
  eexists; split; [reflexivity|]. split; [|split; reflexivity].
  constructor; simpl; try reflexivity; try assumption.
  - apply rows_at_width; assumption.
  - now rewrite rows_at_length.
  - rewrite Ef. unfold results; simpl. rewrite Hj. split.
    + intros [?|?]; [now left|right]. eexists; split; [reflexivity|assumption].
    + intros [?|(r0 & E1 & E2)]; [now left|right; injection E1 as <-; exact E2].
  - repeat split.
Qed.

(** One attempt of a global step. *)
Lemma ego_attempt (o : nat -> batch) st r a : inv st -> batch_ok cfg (o a) ->
  exists cs new, scaled_rows fcstr (b_x (o a)) (b_scales (o a)) = Some cs /\
    length cs = length (b_x (o a)) /\ width wc cs /\
    increasing_below (length (b_x (o a))) new /\
    ((new = [] /\ all_near st.(s_x) (b_x (o a)) /\
      ego_loop cfg fobj fcstr o st (S r) a =
        match r with 0 => Some (set_status Converged (set_retries 0 st))
                   | S _ => ego_loop cfg fobj fcstr o st r (S a) end) \/
     (new <> [] /\ (~ all_near st.(s_x) (b_x (o a)) /\ spaced st.(s_x) (rows_at (b_x (o a)) new)) /\
      ego_loop cfg fobj fcstr o st (S r) a =
        ego_finish st (st.(s_x) ++ rows_at (b_x (o a)) new) (st.(s_y) ++ rows_at (b_y (o a)) new)
                   (st.(s_c) ++ rows_at cs new) (length new))).
Proof.
  intros I [Bne By Bs Bwx Bwy Bws]. set (b := o a) in *.
  destruct (scaled_rows_spec (b_x b) (b_scales b) Bs Bws) as (cs & Hcs & Lcs & Wcs & _).
  destruct (update_data_spec wx wy wc st.(s_x) st.(s_y) st.(s_c) (b_x b) (b_y b) cs
                (po_wx _ _ _ PO) (eq_sym By) (eq_sym Lcs) (i_wx _ I) Bwx Bwy Wcs)
      as (x' & y' & c' & new & HU & Hx & Hy & Hc & Hinc & Hdist & Hrej).
  exists cs, new. do 4 (split; [assumption|]).
  assert (EQ : ego_loop cfg fobj fcstr o st (S r) a =
     if length new =? 0 then
       match r with 0 => Some (set_status Converged (set_retries 0 st))
                  | S _ => ego_loop cfg fobj fcstr o st r (S a) end
     else ego_finish st x' y' c' (length new)).
  { cbn [ego_loop]. fold b. rewrite Hcs. fold wx wy wc. rewrite HU.
    destruct (b_x b) eqn:Eb; [congruence|]. reflexivity. }
  destruct new as [|i0 new'].
  - left. split; [reflexivity|]. split; [|exact EQ]. intros p Hp.
    destruct (In_nth _ _ [] Hp) as (i & Li & Hi). destruct (Hrej i Li (fun h => h)) as (q & Hq & Nq).
    exists q. simpl in Hq. unfold rows_at in Hq. simpl in Hq. rewrite app_nil_r in Hq. rewrite <- Hi. tauto.
  - right. split; [congruence|]. split; [split|].
    + intros N. destruct (N (nth i0 (b_x b) [])) as (q & Hq & Nq).
      * apply nth_In. apply Hinc. now left.
      * apply (Hdist 0 i0 eq_refl q); [apply in_or_app; now left|assumption].
    + intros k p Hk r0 Hr. unfold rows_at in Hk. rewrite nth_error_map in Hk.
      destruct (nth_error (i0 :: new') k) as [i|] eqn:Ek; [|discriminate]. injection Hk as <-.
      apply (Hdist k i Ek). unfold rows_at in Hr. rewrite firstn_map in Hr. exact Hr.
    + rewrite EQ, Hx, Hy, Hc. reflexivity.
Qed.

(** One global step, from attempt [a], with [S r] attempts left. *)
Lemma ego_loop_spec (o : nat -> batch) st : inv st -> (forall a, batch_ok cfg (o a)) ->
  forall r a, exists st', ego_loop cfg fobj fcstr o st (S r) a = Some st' /\
   ((st' = set_status Converged (set_retries 0 st) /\
     forall i, i <= r -> all_near st.(s_x) (b_x (o (a + i)))) \/
    (exists i idx cs, i <= r /\ (forall j, j < i -> all_near st.(s_x) (b_x (o (a + j)))) /\
       (~ all_near st.(s_x) (b_x (o (a + i))) /\ spaced st.(s_x) (rows_at (b_x (o (a + i))) idx)) /\
       idx <> [] /\ increasing_below (length (b_x (o (a + i)))) idx /\
       scaled_rows fcstr (b_x (o (a + i))) (b_scales (o (a + i))) = Some cs /\
       extended st st' (rows_at (b_x (o (a + i))) idx) (rows_at cs idx) (length idx) /\
       st'.(s_best_param) = st.(s_best_param) /\ st'.(s_best_cost) = st.(s_best_cost))).
Proof.
  intros I BO. induction r as [|r IH]; intros a.
  1: destruct (ego_attempt o st 0 a I (BO a)) as (cs & new & Hcs & Lcs & Wcs & Hinc & [(En & N & EQ)|(En & N & EQ)]); rewrite EQ.
  3: destruct (ego_attempt o st (S r) a I (BO a)) as (cs & new & Hcs & Lcs & Wcs & Hinc & [(En & N & EQ)|(En & N & EQ)]); rewrite EQ.
  - eexists; split; [reflexivity|]. left. split; [reflexivity|]. intros i Hi.
    replace i with 0 by lia. now rewrite Nat.add_0_r.
  - destruct (ego_finish_spec st (b_x (o a)) (b_y (o a)) cs new I (bo_wx _ _ (BO a)) Lcs Wcs (bo_y _ _ (BO a)) Hinc)
      as (st' & H & X).
    exists st'. split; [exact H|]. right. exists 0, new, cs. rewrite Nat.add_0_r.
    split; [lia|]. split; [lia|]. tauto.
  - destruct (IH (S a)) as (st' & H & [[E N']|(i & idx & cs' & Li & N' & X)]).
    + exists st'. split; [exact H|]. left. split; [assumption|]. intros [|i] Hi.
      * now rewrite Nat.add_0_r.
      * replace (a + S i) with (S a + i) by lia. apply N'. lia.
    + exists st'. split; [exact H|]. right. exists (S i), idx, cs'.
      replace (a + S i) with (S a + i) by lia. split; [lia|]. split; [|exact X].
      intros [|j] Hj; [now rewrite Nat.add_0_r|]. replace (a + S j) with (S a + j) by lia. apply N'. lia.
  - destruct (ego_finish_spec st (b_x (o a)) (b_y (o a)) cs new I (bo_wx _ _ (BO a)) Lcs Wcs (bo_y _ _ (BO a)) Hinc)
      as (st' & H & X).
    exists st'. split; [exact H|]. right. exists 0, new, cs. rewrite Nat.add_0_r.
    split; [lia|]. split; [lia|]. tauto.
Qed.

(** One local step. *)
Lemma trego_step_spec st : inv st -> length (orc.(o_local) st.(s_iter)) = wx -> st.(s_retries) = 3 ->
  exists st' px, trego_step cfg fobj fcstr orc st = Some st' /\
    ((px = [] /\ exists r, In r st.(s_x) /\ near r (orc.(o_local) st.(s_iter))) \/
     (px = [orc.(o_local) st.(s_iter)] /\ ~ exists r, In r st.(s_x) /\ near r (orc.(o_local) st.(s_iter)))) /\
    extended st st' px (map fcstr px) 1 /\
    st'.(s_best_param) = st.(s_best_param) /\ st'.(s_best_cost) = st.(s_best_cost).
Proof.
  intros I Lx HR. set (xn := orc.(o_local) st.(s_iter)) in *.
  assert (W1 : forall w (v : row), length v = w -> width w [v]) by (intros; repeat constructor; assumption).
  destruct (update_data_spec wx wy wc st.(s_x) st.(s_y) st.(s_c) [xn] [fobj xn] [fcstr xn]
                (po_wx _ _ _ PO) eq_refl eq_refl (i_wx _ I) (W1 _ _ Lx)
                (W1 _ _ (po_fobj _ _ _ PO xn)) (W1 _ _ (po_fcstr _ _ _ PO xn)))
      as (x' & y' & c' & new & HU & Hx & Hy & Hc & Hinc & Hdist & Hrej).
  assert (Hnew : new = [] \/ new = [0]).
  { destruct new as [|i0 new]; [now left|right]. destruct Hinc as [B M].
    assert (i0 = 0) by (specialize (B i0 (or_introl eq_refl)); simpl in B; lia). subst.
    destruct new as [|i1 new]; [reflexivity|].
    assert (i1 = 0) by (specialize (B i1 (or_intror (or_introl eq_refl))); simpl in B; lia). subst.
    specialize (M 0 1 0 0 ltac:(lia) eq_refl eq_refl). lia. }
  set (px := match new with [] => [] | _ => [xn] end).
  assert (Hx' : x' = st.(s_x) ++ px) by (destruct Hnew as [-> | ->]; exact Hx).
  assert (Hy' : y' = st.(s_y) ++ map fobj px) by (destruct Hnew as [-> | ->]; exact Hy).
  assert (Hc' : c' = st.(s_c) ++ map fcstr px) by (destruct Hnew as [-> | ->]; exact Hc).
  assert (Ln : length new = length px) by (destruct Hnew as [-> | ->]; reflexivity).
  assert (Wpx : width wx px) by (destruct Hnew as [-> | ->]; [constructor|now apply W1]).
  assert (Wpc : width wc (map fcstr px)).
  { unfold width. rewrite Forall_map, Forall_forall. intros. apply (po_fcstr _ _ _ PO). }
  assert (Lpc : length (map fcstr px) = length px) by apply map_length.
  destruct (step_end st.(s_tol) st.(s_y) st.(s_c) px (map fcstr px) st.(s_best)
      (i_ho _ I) (i_best _ I) Lpc Wpc (length y' - 1))
      as (best & yb & cb & F & Bst & Hyb & Hcb & fb & Hfb & Efb).
  { rewrite Hy', app_length, map_length. destruct Hnew as [-> | ->]; simpl; [right; split; [reflexivity|lia]|left; lia]. }
  unfold trego_step. fold xn wx wy wc. rewrite HU.
  rewrite Hx', Hc'. rewrite Hy' in F |- *. rewrite F, Hyb, Hcb.
  pose proof (joined_nth _ _ _ _ _ Hyb Hcb) as Hj.
  destruct (feas_flag st yb cb fb _ Hfb Efb) as (f & -> & Ef).
  eexists; exists px; split; [reflexivity|]. split; [|split; [|split; reflexivity]].
  - destruct Hnew as [-> | ->]; [left|right]; (split; [reflexivity|]).
    + destruct (Hrej 0 ltac:(simpl; lia) (fun h => h)) as (q & Hq & Nq).
      unfold rows_at in Hq. simpl in Hq. rewrite app_nil_r in Hq. exists q. tauto.
    + intros (q & Hq & Nq). apply (Hdist 0 0 eq_refl q); [apply in_or_app; now left|exact Nq].
  - constructor; simpl; try reflexivity; try assumption.
    + now rewrite Ln.
    + rewrite Ef. unfold results; simpl. rewrite Hj. split.
      * intros [?|?]; [now left|right]. eexists; split; [reflexivity|assumption].
      * intros [?|(r0 & E1 & E2)]; [now left|right; injection E1 as <-; exact E2].
    + repeat split.
Qed.

(** Steps preserve the invariant. *)
Lemma extended_inv st st' px pc ev : inv st -> extended st st' px pc ev -> inv st'.
Proof.
  intros I X. destruct X as [X1 X2 X3 X4 X5 X6 X7 X8 X9 X10 X11 X12 X13 (S1 & S2 & S3 & S4 & S5 & S6 & S7 & S8 & S9)].
  assert (HO' : history_ok wy wc (s_tol st) (s_y st') (s_c st')).
  { rewrite X2, X3. apply history_extend; [apply (i_ho _ I)|assumption|assumption]. }
  destruct I as [I1 I2 I3 I4 I5 I6 I7 I8 I9 I10].
  constructor.
  - rewrite X1, X7, app_length. lia.
  - rewrite X2, X7, app_length, map_length. lia.
  - rewrite X3, X7, app_length. lia.
  - rewrite X1. apply Forall_app. split; assumption.
  - now rewrite S4.
  - now rewrite S4.
  - rewrite X9, X7. pose proof (best_lt _ _ _ _ (ho_len _ _ _ _ _ I5) I6). lia.
  - rewrite S4. intros (r & Hr & Fr). apply X11. right.
    destruct X10 as (b & Hb & Bb). exists b. split; [assumption|].
    apply (best_is_feasible (s_tol st) (wy + wc) (results st') (s_best st') b r); try assumption.
    + apply (history_rows _ _ _ _ _ HO').
    + exists b. tauto.
  - auto.
  - rewrite S3, X7. lia.
Qed.

Lemma converged_inv st : inv st -> inv (set_status Converged (set_retries 0 st)).
Proof. intros [I1 I2 I3 I4 I5 I6 I7 I8 I9 I10]. constructor; simpl; try assumption. discriminate. Qed.

(** The outcome of one iteration of the executor, [px] being the points appended. *)
Record iterated (st st' : state) (px pc : mat) : Prop := {
  t_x : st'.(s_x) = st.(s_x) ++ px;
  t_y : st'.(s_y) = st.(s_y) ++ map fobj px;
  t_c : st'.(s_c) = st.(s_c) ++ pc;
  t_lc : length pc = length px;
  t_iter : st'.(s_iter) = S st.(s_iter);
  t_best : is_best_row st.(s_tol) (results st') st'.(s_best);
  t_feas : st'.(s_feas) = true <-> st.(s_feas) = true \/
     (st'.(s_status) = Running /\
      exists r, nth_error (results st') st'.(s_best) = Some r /\ feasible st.(s_tol) (constraints r));
  t_param : exists xb yb, nth_error st'.(s_x) st'.(s_best) = Some xb /\ nth_error st'.(s_y) st'.(s_best) = Some yb /\
     st'.(s_best_param) = Some xb /\ st'.(s_best_cost) = Some yb;
  t_lbi : st'.(s_last_best_iter) =
    if (st.(s_doe_size) <? st'.(s_best)) && negb (st'.(s_best) =? st'.(s_prev_best))
    then st.(s_iter) + 1 else st.(s_last_best_iter);
  t_same : st'.(s_max_iters) = st.(s_max_iters) /\
    st'.(s_doe_size) = st.(s_doe_size) /\ st'.(s_tol) = st.(s_tol) /\ st'.(s_target) = st.(s_target);
  t_status :
    (st'.(s_status) = Converged /\ px = [] /\ st'.(s_best) = st.(s_best) /\ st'.(s_prev_best) = st.(s_prev_best) /\
     st'.(s_added) = st.(s_added) /\ st'.(s_prev_added) = st.(s_prev_added) /\ st'.(s_evals) = st.(s_evals) /\
     st'.(s_retries) = 0) \/
    (st'.(s_status) = Running /\ st'.(s_prev_best) = st.(s_best) /\ st'.(s_added) = st.(s_added) + length px /\
     st'.(s_prev_added) = st.(s_added) /\ st'.(s_retries) = 3 /\
     st.(s_evals) + length px <= st'.(s_evals) <= st.(s_evals) + Nat.max 1 (length px))
}.

Lemma inv_nth st i : inv st -> i < st.(s_added) ->
  exists xb yb o, nth_error st.(s_x) i = Some xb /\ nth_error st.(s_y) i = Some yb /\ nth_error yb 0 = Some o.
Proof.
  intros I H. destruct (nth_error (s_x st) i) as [xb|] eqn:Ex.
  2: { apply nth_error_None in Ex. rewrite (i_x _ I) in Ex. lia. }
  destruct (nth_error (s_y st) i) as [yb|] eqn:Ey.
  2: { apply nth_error_None in Ey. rewrite (i_y _ I) in Ey. lia. }
  pose proof (ho_y _ _ _ _ _ (i_ho _ I)) as W. rewrite Forall_forall in W.
  pose proof (W yb (nth_error_In _ _ Ey)) as L. pose proof (po_wy _ _ _ PO) as P. fold wy in P.
  destruct yb as [|o yb]; simpl in L; [lia|]. exists xb, (o :: yb), o. repeat split; reflexivity.
Qed.

Lemma inv_best st : inv st -> st.(s_best) < st.(s_added).
Proof. intros I. rewrite <- (i_y _ I). apply (best_lt _ _ _ _ (ho_len _ _ _ _ _ (i_ho _ I)) (i_best _ I)). Qed.

Lemma last_success_some st : inv st -> exists s, last_success st = Some s.
Proof.
  intros I. destruct (inv_nth st (s_best st) I (inv_best _ I)) as (xb & yb & b & _ & Hb & Hb0).
  destruct (inv_nth st (s_prev_best st) I (i_prev _ I)) as (xp & yp & p & _ & Hp & Hp0).
  unfold last_success. rewrite Hb, Hp, Hb0, Hp0. eauto.
Qed.

(** Changes of the trust-region fields keep the invariant. *)
Lemma inv_set_sigma v st : inv st -> inv (set_sigma v st).
Proof. intros [I1 I2 I3 I4 I5 I6 I7 I8 I9 I10]. constructor; assumption. Qed.
Lemma inv_set_prev_ego v st : inv st -> inv (set_prev_ego v st).
Proof. intros [I1 I2 I3 I4 I5 I6 I7 I8 I9 I10]. constructor; assumption. Qed.

Lemma update_some st : inv st -> exists xb yb st', update st = Some st' /\
  nth_error st.(s_x) st.(s_best) = Some xb /\ nth_error st.(s_y) st.(s_best) = Some yb /\
  st' = set_best_param (Some xb) (set_best_cost (Some yb) (set_last_best_iter
    (if (st.(s_doe_size) <? st.(s_best)) && negb (st.(s_best) =? st.(s_prev_best))
     then st.(s_iter) + 1 else st.(s_last_best_iter)) st)).
Proof.
  intros I. destruct (inv_nth st (s_best st) I (inv_best _ I)) as (xb & yb & b & Hx & Hb & Hb0).
  unfold update. rewrite Hx, Hb. do 3 eexists. split; [reflexivity|]. split; [reflexivity|]. split; [reflexivity|].
  destruct (s_doe_size st <? s_best st), (s_best st =? s_prev_best st); reflexivity.
Qed.

Lemma update_inv st st' : inv st -> update st = Some st' -> inv (set_iter (S st'.(s_iter)) st').
Proof.
  intros I H. destruct (update_some st I) as (xb & yb & st1 & H1 & _ & _ & E). rewrite H in H1.
  injection H1 as <-. subst st'. destruct I as [I1 I2 I3 I4 I5 I6 I7 I8 I9 I10]. constructor; assumption.
Qed.

Section Step.
Hypothesis OO : oracle_ok cfg orc.

Lemma ego_iteration_spec st : inv st -> st.(s_status) = Running ->
  exists st', ego_iteration cfg fobj fcstr orc st = Some st' /\ inv st' /\
   ((st' = set_status Converged (set_retries 0 st) /\
     forall i, i < 3 -> all_near st.(s_x) (b_x (orc.(o_batch) st.(s_iter) i))) \/
    exists px pc, extended st st' px pc (length px) /\ global_outcome fcstr orc st st' px pc).
Proof.
  intros I R. destruct OO as [OB _].
  destruct (ego_loop_spec (o_batch orc (s_iter st)) st I (OB _) 2 0) as (st' & H & X).
  unfold ego_iteration. rewrite (i_retries _ I R). exists st'. split; [exact H|].
  destruct X as [[E N]|(i & idx & cs & Li & N & (NN & Sp) & Ne & Inc & Hcs & X & _)].
  - subst st'. split; [now apply converged_inv|]. left. split; [reflexivity|]. intros i Hi. apply (N i). lia.
  - simpl in *. split; [eapply extended_inv; eassumption|]. right. do 2 eexists.
    rewrite rows_at_length. split; [exact X|].
    right. split.
    { destruct (e_same _ _ _ _ _ X) as (_ & _ & _ & _ & _ & _ & E & _). congruence. }
    exists i, idx, cs. split; [lia|]. do 5 (split; [assumption|]). split; [reflexivity|]. split; [reflexivity|].
    rewrite rows_at_length. split; [apply (e_evals _ _ _ _ _ X)|exact Sp].
Qed.

(** The intermediate state between [next_iter] and [update]. *)
Record stepped (st st' : state) (px pc : mat) : Prop := {
  p_inv : inv st';
  p_x : st'.(s_x) = st.(s_x) ++ px;
  p_y : st'.(s_y) = st.(s_y) ++ map fobj px;
  p_c : st'.(s_c) = st.(s_c) ++ pc;
  p_lc : length pc = length px;
  p_feas : st'.(s_feas) = true <-> st.(s_feas) = true \/
     (st'.(s_status) = Running /\
      exists r, nth_error (results st') st'.(s_best) = Some r /\ feasible st.(s_tol) (constraints r));
  p_same : st'.(s_iter) = st.(s_iter) /\ st'.(s_max_iters) = st.(s_max_iters) /\
    st'.(s_doe_size) = st.(s_doe_size) /\ st'.(s_tol) = st.(s_tol) /\ st'.(s_target) = st.(s_target) /\
    st'.(s_last_best_iter) = st.(s_last_best_iter);
  p_status :
    (st'.(s_status) = Converged /\ px = [] /\ st'.(s_best) = st.(s_best) /\ st'.(s_prev_best) = st.(s_prev_best) /\
     st'.(s_added) = st.(s_added) /\ st'.(s_prev_added) = st.(s_prev_added) /\ st'.(s_evals) = st.(s_evals) /\
     st'.(s_retries) = 0) \/
    (st'.(s_status) = Running /\ st'.(s_prev_best) = st.(s_best) /\ st'.(s_added) = st.(s_added) + length px /\
     st'.(s_prev_added) = st.(s_added) /\ st'.(s_retries) = 3 /\
     st.(s_evals) + length px <= st'.(s_evals) <= st.(s_evals) + Nat.max 1 (length px))
}.

Lemma extended_stepped st st' px pc ev : inv st -> st.(s_status) = Running ->
  extended st st' px pc ev -> length px <= ev <= Nat.max 1 (length px) -> stepped st st' px pc.
Proof.
  intros I R X Hev. pose proof (extended_inv _ _ _ _ _ I X) as I'.
  destruct X as [X1 X2 X3 X4 X5 X6 X7 X8 X9 X10 X11 X12 X13 (S1 & S2 & S3 & S4 & S5 & S6 & S7 & S8 & S9)].
  constructor; try assumption.
  - rewrite X11. assert (s_status st' = Running) by congruence. intuition.
  - intuition.
  - right. repeat split; try assumption; try congruence; lia.
Qed.

Lemma converged_stepped st : inv st -> stepped st (set_status Converged (set_retries 0 st)) [] [].
Proof.
  intros I. pose proof (converged_inv _ I) as I'. constructor; simpl; try assumption; try (now rewrite app_nil_r); try reflexivity.
  - split; [intros ->; now left|]. intros [H|[H _]]; [assumption|discriminate].
  - repeat split.
  - left. repeat split.
Qed.

Lemma stepped_sigma st st' px pc v : stepped (set_sigma v st) st' px pc -> stepped st st' px pc.
Proof. intros [A B C D E F G H]. constructor; assumption. Qed.

Lemma stepped_prev_ego st st' px pc v : stepped st st' px pc -> stepped st (set_prev_ego v st') px pc.
Proof. intros [A B C D E F G H]. constructor; try assumption. now apply inv_set_prev_ego. Qed.

Lemma global_next_iff st s : inv st -> last_success st = Some s ->
  (global_next cfg st <-> cfg.(c_trego) = false \/ is_global_phase (s_iter st) (c_n_local cfg) (s_prev_ego st) s = true).
Proof.
  intros I Hs. unfold global_next, is_global_phase.
  assert (E : sufficient_decrease st <-> s = true).
  { unfold last_success in Hs. unfold sufficient_decrease.
    destruct (nth_error (s_y st) (s_best st)) as [yb|]; [|discriminate].
    destruct (nth_error (s_y st) (s_prev_best st)) as [yp|]; [|discriminate].
    destruct (nth_error yb 0) as [b|] eqn:Eb; [|discriminate].
    destruct (nth_error yp 0) as [q|] eqn:Eq; [|discriminate]. injection Hs as <-.
    unfold objective. split.
    - intros (yb' & yp' & E1 & E2 & F). injection E1 as <-. injection E2 as <-.
      rewrite (nth_error_nth _ _ _ Eb), (nth_error_nth _ _ _ Eq) in F. exact F.
    - intros F. exists yb, yp. rewrite (nth_error_nth _ _ _ Eb), (nth_error_nth _ _ _ Eq). auto. }
  rewrite orb_true_iff, andb_true_iff, Nat.eqb_eq, E. tauto.
Qed.

Lemma next_iter_spec st : inv st -> st.(s_status) = Running ->
  exists st' px pc, next_iter cfg fobj fcstr orc st = Some st' /\ stepped st st' px pc /\
    ((global_next cfg st /\ global_outcome fcstr orc st st' px pc) \/ (~ global_next cfg st /\ local_outcome fcstr orc st st' px pc)) /\
    (if cfg.(c_trego) then
       exists s, last_success st = Some s /\
         st'.(s_sigma) = next_sigma fmul cfg.(c_gamma) cfg.(c_beta) st.(s_iter) st.(s_prev_ego) s st.(s_sigma) /\
         st'.(s_prev_ego) = is_global_phase st.(s_iter) cfg.(c_n_local) st.(s_prev_ego) s
     else st'.(s_sigma) = st.(s_sigma) /\ st'.(s_prev_ego) = st.(s_prev_ego)).
Proof.
  intros I R. unfold next_iter. destruct (c_trego cfg) eqn:T.
  - unfold trego_iteration. destruct (last_success_some st I) as (s & Hs). rewrite Hs. cbv zeta.
    set (sg := next_sigma _ _ _ _ _ _ _). pose proof (inv_set_sigma sg _ I) as I1.
    destruct (is_global_phase (s_iter st) (c_n_local cfg) (s_prev_ego st) s) eqn:G.
    + destruct (ego_iteration_spec (set_sigma sg st) I1 R) as (st' & -> & _ & [[-> N]|(px & pc & X & O)]).
      * exists (set_prev_ego true (set_status Converged (set_retries 0 (set_sigma sg st)))), [], [].
        split; [reflexivity|]. split.
        { apply stepped_prev_ego, (stepped_sigma _ _ _ _ sg), converged_stepped; assumption. }
        split; [left; split; [apply (global_next_iff st s I Hs); now right|left; repeat split; exact N]|]. exists s. split; [reflexivity|split; [reflexivity|simpl; now rewrite G]].
      * exists (set_prev_ego true st'), px, pc. split; [reflexivity|]. split.
        { apply stepped_prev_ego, (stepped_sigma _ _ _ _ sg). eapply extended_stepped; [eassumption|exact R|exact X|lia]. }
        split; [left; split; [apply (global_next_iff st s I Hs); now right|exact O]|]. exists s. split; [reflexivity|]. split; [|simpl; now rewrite G].
        destruct (e_same _ _ _ _ _ X) as (_ & _ & _ & _ & _ & _ & _ & E & _). exact E.
    + destruct (trego_step_spec (set_sigma sg st) I1 (proj2 OO _) (i_retries _ I R)) as (st' & px & -> & O & X & _).
      exists (set_prev_ego false st'), px, (map fcstr px). split; [reflexivity|]. split.
      { apply stepped_prev_ego, (stepped_sigma _ _ _ _ sg). eapply extended_stepped; [eassumption|exact R|exact X|].
        destruct O as [[-> _]|[-> _]]; simpl; lia. }
      destruct (e_same _ _ _ _ _ X) as (_ & _ & _ & _ & _ & _ & E1 & E & _). split.
      { right. split.
        - intros X'. apply (global_next_iff st s I Hs) in X'. destruct X'; congruence.
        - split; [simpl in *; congruence|]. split; [reflexivity|]. split; [apply (e_evals _ _ _ _ _ X)|]. exact O. }
      exists s. split; [reflexivity|]. split; [|simpl; now rewrite G]. exact E.
  - destruct (ego_iteration_spec st I R) as (st' & -> & _ & [[-> N]|(px & pc & X & O)]).
    + do 3 eexists. split; [reflexivity|]. split; [now apply converged_stepped|]. split; [|split; reflexivity].
      left. split; [now left|left; repeat split; exact N].
    + exists st', px, pc. split; [reflexivity|]. split; [eapply extended_stepped; try eassumption; lia|].
      split; [left; split; [now left|exact O]|].
      destruct (e_same _ _ _ _ _ X) as (_ & _ & _ & _ & _ & _ & _ & E & E'). split; assumption.
Qed.

Lemma exec_step_spec st : inv st -> goes_on st ->
  exists st' px pc, exec_step cfg fobj fcstr orc st = Some st' /\ inv st' /\ iterated st st' px pc /\
    ((global_next cfg st /\ global_outcome fcstr orc st st' px pc) \/ (~ global_next cfg st /\ local_outcome fcstr orc st st' px pc)) /\
    (if cfg.(c_trego) then
       exists s, last_success st = Some s /\
         st'.(s_sigma) = next_sigma fmul cfg.(c_gamma) cfg.(c_beta) st.(s_iter) st.(s_prev_ego) s st.(s_sigma) /\
         st'.(s_prev_ego) = is_global_phase st.(s_iter) cfg.(c_n_local) st.(s_prev_ego) s
     else st'.(s_sigma) = st.(s_sigma) /\ st'.(s_prev_ego) = st.(s_prev_ego)).
Proof.
  intros I GO. apply goes_on_iff in GO. destruct GO as [R T]. destruct (next_iter_spec st I R) as (st1 & px & pc & H & P & O & S).
  unfold exec_step, terminated. rewrite R, T, H.
  destruct P as [PI Px Py Pc Plc Pf (S1 & S2 & S3 & S4 & S5 & S6) Ps].
  destruct (update_some st1 PI) as (xb & yb & st2 & HU & Hx & Hy & E). rewrite HU.
  pose proof (update_inv _ _ PI HU) as I'.
  exists (set_iter (Datatypes.S (s_iter st2)) st2), px, pc. split; [reflexivity|]. split; [assumption|].
  subst st2. split; [|split].
  - constructor; simpl; try assumption.
    + now rewrite S1.
    + rewrite <- S4. apply (i_best _ PI).
    + exists xb, yb. repeat split; assumption.
    + now rewrite S3, S6, S1.
    + repeat split; assumption.
  - destruct O as [[G [O|O]]|[G O]]; [left; split; [assumption|now left]|left; split; [assumption|now right]|right; split; assumption].
  - exact S.
Qed.

Lemma exec_step_stop st : inv st -> ~ goes_on st ->
  exists st', exec_step cfg fobj fcstr orc st = Some st' /\ inv st' /\ terminated st' = true /\
    (exists r, st' = set_status r st /\ ((r = st.(s_status) /\ r <> Running) \/ r = terminate_internal st)).
Proof.
  intros I N. unfold exec_step, terminated.
  assert (J : forall r, r <> Running -> inv (set_status r st)).
  { intros r Hr. destruct I as [I1 I2 I3 I4 I5 I6 I7 I8 I9 I10]. constructor; simpl; try assumption. congruence. }
  assert (Self : st = set_status st.(s_status) st) by (destruct st; reflexivity).
  destruct (s_status st) eqn:R.
  - destruct (terminate_internal st) eqn:T; [exfalso; apply N; apply goes_on_iff; split; assumption|..];
      (eexists; split; [reflexivity|]; split; [apply J; discriminate|split; [reflexivity|eexists; split; [reflexivity|now right]]]).
  - eexists; split; [reflexivity|]. split; [assumption|]. rewrite R. split; [reflexivity|eexists; split; [exact Self|left; split; [reflexivity|discriminate]]].
  - eexists; split; [reflexivity|]. split; [assumption|]. rewrite R. split; [reflexivity|eexists; split; [exact Self|left; split; [reflexivity|discriminate]]].
  - eexists; split; [reflexivity|]. split; [assumption|]. rewrite R. split; [reflexivity|eexists; split; [exact Self|left; split; [reflexivity|discriminate]]].
Qed.

Lemma goes_on_dec st : goes_on st \/ ~ goes_on st.
Proof.
  rewrite goes_on_iff. destruct (s_status st); [|right; intros [? _]; discriminate..].
  destruct (terminate_internal st); [left; split; reflexivity|right; intros [_ ?]; discriminate..].
Qed.

Lemma exec_snoc k : forall st, exec cfg fobj fcstr orc (S k) st =
  do st1 <- exec cfg fobj fcstr orc k st; exec_step cfg fobj fcstr orc st1.
Proof.
  induction k as [|k IH]; intros st.
  - simpl. destruct (exec_step cfg fobj fcstr orc st); reflexivity.
  - cbn [exec] in IH |- *. destruct (exec_step cfg fobj fcstr orc st) as [st1|]; [|reflexivity]. apply IH.
Qed.

Lemma exec_some k st : inv st -> exists st', exec cfg fobj fcstr orc k st = Some st' /\ inv st'.
Proof.
  intros I. induction k as [|k (st1 & H & I1)].
  - exists st. split; [reflexivity|assumption].
  - rewrite exec_snoc, H. destruct (goes_on_dec st1) as [G|G].
    + destruct (exec_step_spec st1 I1 G) as (st' & ? & ? & E & I' & _). eauto.
    + destruct (exec_step_stop st1 I1 G) as (st' & E & I' & _). eauto.
Qed.
End Step.

(** The state produced by [init]. *)
Section Init.
Variable cols : nat.
Variable doe : mat.
Hypothesis DO : design_ok cfg fobj fcstr cols doe.

Definition doe_x : mat := map (firstn wx) doe.
Definition doe_y : mat := if cols =? wx then map fobj doe else map (skipn wx) doe.

Lemma doe_x_eq : doe_x = if cols =? wx then doe else map (firstn wx) doe.
Proof.
  unfold doe_x. destruct (cols =? wx) eqn:E; [|reflexivity]. apply Nat.eqb_eq in E.
  pose proof (do_w _ _ _ _ _ DO) as W. rewrite E in W.
  clear DO. induction W as [|r l Hr W IH]; simpl; [reflexivity|]. rewrite IH, firstn_all2 by (apply Nat.eq_le_incl; exact Hr). reflexivity.
Qed.

Lemma init_spec : exists st, init cfg fobj fcstr cols doe = Some st /\ inv st /\
  st.(s_x) = doe_x /\ st.(s_y) = doe_y /\ st.(s_c) = map fcstr doe_x /\
  st.(s_tol) = run_tol cfg /\ st.(s_doe_size) = length doe /\ st.(s_iter) = 0 /\
  st.(s_max_iters) = cfg.(c_max_iters) /\ st.(s_target) = cfg.(c_target) /\ st.(s_status) = Running /\
  st.(s_evals) = (if cols =? wx then length doe else 0) /\ st.(s_sigma) = sigma_init /\
  st.(s_last_best_iter) = 0 /\ st.(s_prev_best) = st.(s_best) /\ st.(s_prev_added) = 0 /\ st.(s_prev_ego) = false /\
  (exists xb yb, nth_error st.(s_x) st.(s_best) = Some xb /\ nth_error st.(s_y) st.(s_best) = Some yb /\
     st.(s_best_param) = Some xb /\ st.(s_best_cost) = Some yb) /\
  (st.(s_feas) = true <-> cfg.(c_use_pof) = false \/
     exists r, nth_error (results st) st.(s_best) = Some r /\ feasible st.(s_tol) (constraints r)).
Proof.
  pose proof (do_w _ _ _ _ _ DO) as W. pose proof (do_cols _ _ _ _ _ DO) as Cc. fold wx wy in Cc.
  assert (Wy1 : 1 <= wy) by apply (po_wy _ _ _ PO).
  assert (Wxd : width wx doe_x).
  { unfold doe_x, width. rewrite Forall_map. unfold width in W. rewrite Forall_forall in W |- *. intros r Hr.
    rewrite firstn_length, (W r Hr). lia. }
  assert (Wyd : width wy doe_y).
  { unfold doe_y. destruct (cols =? wx) eqn:E; [apply map_fobj_width|]. apply Nat.eqb_neq in E.
    unfold width. rewrite Forall_map. unfold width in W. rewrite Forall_forall in W |- *. intros r Hr.
    rewrite skipn_length, (W r Hr). lia. }
  assert (Nyd : Forall (fun r => fnan (objective r) = false) doe_y).
  { unfold doe_y. destruct (cols =? wx) eqn:E; [apply map_fobj_num|]. apply Nat.eqb_neq in E.
    rewrite Forall_map. apply (do_num _ _ _ _ _ DO E). }
  assert (Lx : length doe_x = length doe) by apply map_length.
  assert (Ly : length doe_y = length doe) by (unfold doe_y; destruct (cols =? wx); apply map_length).
  assert (Lc : length (map fcstr doe_x) = length doe) by (now rewrite map_length).
  assert (HO : history_ok wy wc (run_tol cfg) doe_y (map fcstr doe_x)).
  { constructor; try assumption.
    - apply (po_tol _ _ _ PO).
    - congruence.
    - rewrite Forall_map, Forall_forall. intros. apply (po_fcstr _ _ _ PO). }
  assert (Dn : 1 <= length doe) by (pose proof (do_ne _ _ _ _ _ DO); destruct doe; [congruence|simpl; lia]).
  assert (Ne : doe_y <> []) by (intros E; rewrite E in Ly; simpl in Ly; lia).
  destruct (find_best_correct wy wc (run_tol cfg) doe_y (map fcstr doe_x) HO Ne) as (best & Hb & Bb).
  { pose proof (do_trap _ _ _ _ _ DO) as T. fold wx wy wc in T. unfold doe_x. rewrite map_map. exact T. }
  pose proof (best_lt _ _ _ _ (ho_len _ _ _ _ _ HO) Bb) as Lb.
  destruct (nth_error doe_x best) as [xb|] eqn:Ex; [|apply nth_error_None in Ex; lia].
  destruct (nth_error doe_y best) as [yb|] eqn:Ey; [|apply nth_error_None in Ey; lia].
  destruct (nth_error (map fcstr doe_x) best) as [cb|] eqn:Ec; [|apply nth_error_None in Ec; lia].
  pose proof (joined_nth _ _ _ _ _ Ey Ec) as Hj.
  destruct (is_feasible_correct yb cb (run_tol cfg) wy wc) as (fb & Hfb & Efb).
  { assumption. }
  { pose proof (ho_y _ _ _ _ _ HO) as Q. rewrite Forall_forall in Q. apply Q. eapply nth_error_In; eassumption. }
  { pose proof (ho_c _ _ _ _ _ HO) as Q. rewrite Forall_forall in Q. apply Q. eapply nth_error_In; eassumption. }
  { apply (po_tol _ _ _ PO). }
  assert (Hf : exists f, (if c_use_pof cfg then is_feasible yb cb (run_tol cfg) else Some true) = Some f /\
     (f = true <-> c_use_pof cfg = false \/ feasible (run_tol cfg) (constraints (yb ++ cb)))).
  { destruct (c_use_pof cfg); eexists; split; try reflexivity; try eassumption; intuition congruence. }
  destruct Hf as (f & Hf & Ef).
  unfold init. cbv zeta. unfold default_cstr_tol. fold (run_tol cfg). fold wx wy wc. rewrite <- doe_x_eq. fold doe_y.
  replace (if cols =? wx then wy else cols - wx) with wy.
  2: { destruct (cols =? wx) eqn:E; [reflexivity|]. apply Nat.eqb_neq in E. lia. }
  rewrite Hb, Ey, Ec, Hf. unfold update. simpl. rewrite Ex, Ey.
  eexists. split; [reflexivity|]. split.
  - constructor; simpl; try assumption; try reflexivity; try lia.
    unfold results; simpl. intros (r & Hr & Fr). apply Ef. right.
    eapply best_is_feasible; [apply (history_rows _ _ _ _ _ HO)|exact Bb|exact Hj|exact Hr|exact Fr].
  - simpl. repeat match goal with |- _ /\ _ => split end; try reflexivity.
    + rewrite Nat.eqb_refl. destruct (length doe <? best); reflexivity.
    + exists xb, yb. repeat split; assumption.
    + unfold results; simpl. split.
      { intros Hft. apply Ef in Hft. destruct Hft as [?|?]; [now left|right].
        exists (yb ++ cb). split; assumption. }
      intros [?|(r & Hr & Fr)]; apply Ef; [now left|right].
      rewrite Hj in Hr. injection Hr as <-. exact Fr.
Qed.
End Init.
End Run.
