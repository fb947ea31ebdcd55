(** Python bindings (C130 - C132). *)
From Coq Require Import Reals Lra.
From Coq Require Import ZArith List Bool Lia.
From Flocq Require Import Core BinarySingleNaN.
From Verif Require Import F64 Util FindResult_Model FindResult_Spec FindResult_Proofs Mixint_Model Mixint_Proofs Py_Model Py_Proofs.
From Verif Require Moe_Model.
Import ListNotations.
Local Open Scope nat_scope.

(** ** C130: the result obtained from the evaluations is their best point. *)

(** It is when there is no constraint or when there are as many evaluations as columns (objective and constraints).
    Missing: every other number of evaluations of a constrained problem. *)
Theorem C130_best_partial : forall default_tol user n_cstr x y,
  let ycols := 1 + n_cstr in
  let tol := match user with Some t => t | None => repeat default_tol n_cstr end in
  n_cstr = 0 \/ length y = 1 + n_cstr ->
  n_cstr <= length tol -> y <> [] -> length x = length y ->
  (forall r, In r y -> length r = 1 + n_cstr /\ fnan (objective r) = false) ->
  n_cstr = 0 \/ no_infinite_trap tol y ->
  exists i xo yo, get_result_index default_tol user n_cstr ycols y = Some i /\ is_best_row tol y i /\
    nth_error x i = Some xo /\ nth_error y i = Some yo /\ get_result default_tol user n_cstr ycols x y = Some (xo, yo).
Proof.
  intros d user nc x y ycols tol Hrows Htol Hy Hlen Hr Htrap.
  assert (Et : cstr_tol d user nc 0 = tol) by (unfold cstr_tol, tol; now rewrite Nat.add_0_r).
  assert (H : history_ok ycols 0 tol y (repeat [] (length y))).
  { constructor; unfold ycols; try lia.
    - now rewrite repeat_length.
    - apply Forall_forall. intros r Hin. apply Hr, Hin.
    - apply Forall_forall. intros r Hin. apply repeat_spec in Hin. now subst r.
    - apply Forall_forall. intros r Hin. apply Hr, Hin. }
  assert (Hn : ycols + 0 = 1 \/ no_infinite_trap tol (joined y (repeat [] (length y)))).
  { rewrite joined_empty. unfold ycols. destruct Htrap; [left; lia|auto]. }
  destruct (find_best_correct _ _ _ _ _ H Hy Hn) as (i & Ei & Hi). rewrite joined_empty in Hi.
  assert (Eg : get_result_index d user nc ycols y = Some i).
  { unfold get_result_index. rewrite Et. rewrite <- Ei. destruct Hrows as [->|E].
    - reflexivity.
    - unfold ycols. now rewrite <- E. }
  assert (Hlt : i < length y).
  { destruct Hi as (r & E & _). apply nth_error_Some. congruence. }
  destruct (nth_error x i) as [xo|] eqn:Ex; [|apply nth_error_None in Ex; lia].
  destruct (nth_error y i) as [yo|] eqn:Ey; [|apply nth_error_None in Ey; lia].
  exists i, xo, yo. repeat (split; [first [assumption|reflexivity]|]). unfold get_result. now rewrite Eg, Ex, Ey.
Qed.

(** With constraints, any other number of evaluations raises. *)
Theorem C130_raises : forall default_tol user n_cstr x y,
  n_cstr <> 0 -> length y <> 1 + n_cstr ->
  get_result_index default_tol user n_cstr (1 + n_cstr) y = None /\
  get_result default_tol user n_cstr (1 + n_cstr) x y = None.
Proof.
  intros d user nc x y Hc Hy.
  assert (E : get_result_index d user nc (1 + nc) y = None).
  { unfold get_result_index, find_best_result_index. replace (1 <? 1 + nc) with true by (symmetry; apply Nat.ltb_lt; lia).
    rewrite hconcat_none; [reflexivity|]. now rewrite repeat_length. }
  split; [exact E|]. unfold get_result. now rewrite E.
Qed.

(** Three evaluations of one objective and one constraint. *)
Definition y_c : list (list f64) := [[fofZ 3; fofZ 0]; [fofZ 1; fofZ 1]; [fofZ 2; fofZ (-1)]].
Theorem C130_constrained_refuted : exists y tol, length tol = 1 /\
  (forall r, In r y -> length r = 2 /\ fnan (objective r) = false) /\ is_best_row tol y 2 /\
  get_result_index fzero (Some tol) 1 2 y = None.
Proof.
  exists y_c, [fzero]. split; [reflexivity|]. split; [|split; [|vm_compute; reflexivity]].
  - intros r Hr. assert (X : forallb (fun r => Nat.eqb (length r) 2 && negb (fnan (objective r))) y_c = true) by (vm_compute; reflexivity).
    rewrite forallb_forall in X. specialize (X r Hr). apply andb_true_iff in X as [A B].
    apply Nat.eqb_eq in A. apply negb_true_iff in B. auto.
  - destruct (find_best_correct 2 0 [fzero] y_c (repeat [] 3)) as (i & Ei & Hi).
    + apply history_okb_sound. vm_compute. reflexivity.
    + intro X; discriminate X.
    + right. left. exists [fofZ 2; fofZ (-1)]. split; [right; right; left; reflexivity|].
      split; [|vm_compute; reflexivity]. apply feasibleb_spec. vm_compute. reflexivity.
    + assert (E : find_best_result_index 2 0 y_c (repeat [] 3) [fzero] = Some 2) by (vm_compute; reflexivity).
      rewrite E in Ei. injection Ei as <-. change (repeat [] 3) with (repeat ([] : list f64) (length y_c)) in Hi.
      now rewrite joined_empty in Hi.
Qed.

(** Without constraint; and with one constraint and two evaluations. *)
Example C130_case :
  get_result_index fzero None 0 1 [[fofZ 3]; [fofZ 1]; [fofZ 2]] = Some 1 /\
  get_result_index fzero (Some [fzero]) 1 2 [[fofZ 1; fofZ 1]; [fofZ 2; fofZ (-1)]] = Some 1 /\
  no_infinite_trap [fzero] [[fofZ 1; fofZ 1]; [fofZ 2; fofZ (-1)]].
Proof.
  split; [vm_compute; reflexivity|]. split; [vm_compute; reflexivity|]. left. exists [fofZ 2; fofZ (-1)].
  split; [right; left; reflexivity|]. split; [|vm_compute; reflexivity]. apply feasibleb_spec. vm_compute. reflexivity.
Qed.

Print Assumptions C130_best_partial.
Print Assumptions C130_raises.
Print Assumptions C130_constrained_refuted.

(** ** C131: the Gaussian process settings have their documented effects. *)

(** The documented meaning of the settings: a positive number of clusters is used as is, 0 asks for an automatic one and
    [-n] for an automatic one up to [n]; the smoothing factor is optimized; hyperparameters start from the given values,
    within the given bounds, one bound being a pair of numbers; they are not optimized when [n_start] is negative. *)
Definition clusters_documented (n : Z) (nc : Moe_Model.nb_clusters) : Prop :=
  ((0 < n)%Z /\ exists k, n = Z.of_nat k /\ nc = Moe_Model.Fixed k) \/
  (n = 0%Z /\ nc = Moe_Model.Auto None) \/
  ((n < 0)%Z /\ exists k, n = (- Z.of_nat k)%Z /\ nc = Moe_Model.Auto (Some k)).
Definition recombination_documented (r : py_recombination) (m : Moe_Model.recombination) : Prop :=
  match r with PyHard => m = Moe_Model.Hard | PySmooth => m = Moe_Model.Smooth None end.
Definition tuning_documented (di : f64) (db : f64 * f64) (c : gp_config) (t : theta_tuning) : Prop :=
  let init := match c_init c with Some i => i | None => [di] end in
  if (c_nstart c <? 0)%Z then t = TFixed init
  else exists bounds, t = TFull init bounds /\
         match c_bounds c with
         | None => bounds = [db]
         | Some b => Forall2 (fun (r : list f64) p => exists rest, r = fst p :: snd p :: rest) b bounds
         end.
Definition config_ok (c : gp_config) : Prop :=
  c_regr c < 8 /\ c_corr c < 16 /\ match c_bounds c with None => True | Some b => forall r, In r b -> length r = 2 end.

Lemma clusters_ok n : clusters_documented n (n_clusters n).
Proof.
  unfold clusters_documented, n_clusters. destruct (Z.compare_spec n 0) as [->|H|H].
  - right; left; auto.
  - right; right. split; auto. exists (Z.to_nat (- n)). split; [lia|reflexivity].
  - left. split; auto. exists (Z.to_nat n). split; [lia|reflexivity].
Qed.

Lemma base_ok di db c : config_ok c -> exists bounds, base_tuning di db c =
    Some (TFull (match c_init c with Some i => i | None => [di] end) bounds) /\
    match c_bounds c with
    | None => bounds = [db]
    | Some b => Forall2 (fun (r : list f64) p => exists rest, r = fst p :: snd p :: rest) b bounds
    end.
Proof.
  intros (_ & _ & H). unfold base_tuning. destruct (c_bounds c) as [b|].
  - destruct (mapM_forall2 (fun v => do l <- nth_error v 0; do u <- nth_error v 1; Some (l, u))
                (fun (r : list f64) p => exists rest, r = fst p :: snd p :: rest) b) as (bs & E & F).
    + intros r Hr. specialize (H r Hr). destruct r as [|l [|u r]]; try discriminate H. exists (l, u). split; [reflexivity|].
      exists r. reflexivity.
    + exists bs. rewrite E. split; [destruct (c_init c); reflexivity|exact F].
  - exists [db]. split; [destruct (c_init c); reflexivity|reflexivity].
Qed.

Lemma bits_ok c : config_ok c -> regr_bits (c_regr c) = Some (c_regr c) /\ corr_bits (c_corr c) = Some (c_corr c).
Proof.
  intros (H1 & H2 & _). unfold regr_bits, corr_bits. apply Nat.ltb_lt in H1, H2. now rewrite H1, H2.
Qed.

(** Settings given to a mixture. Missing: the limit on likelihood evaluations. *)
Theorem C131_gpmix_partial : forall di db mx c, config_ok c ->
  exists s, gpmix_settings di db mx c = Some s /\
    m_regr s = c_regr c /\ m_corr s = c_corr c /\ m_kpls s = c_kpls c /\
    clusters_documented (c_nclusters c) (m_nclusters s) /\ recombination_documented (c_recomb c) (m_recomb s) /\
    m_tunings s <> [] /\ (forall k, m_nclusters s = Moe_Model.Fixed k -> length (m_tunings s) = k) /\
    (forall t, In t (m_tunings s) -> tuning_documented di db c t) /\
    ((0 <= c_nstart c)%Z -> Z.of_nat (m_nstart s) = c_nstart c).
Proof.
  intros di db mx c Hc. destruct (base_ok di db c Hc) as (bounds & E & Hb). destruct (bits_ok c Hc) as [E1 E2].
  unfold gpmix_settings. rewrite E, E1, E2.
  destruct (Z.ltb_spec (c_nstart c) 0) as [Hn|Hn].
  - eexists. split; [reflexivity|]. cbn [m_regr m_corr m_kpls m_nclusters m_recomb m_tunings m_nstart t_init].
    split; [reflexivity|]. split; [reflexivity|]. split; [reflexivity|]. split; [apply clusters_ok|].
    split; [destruct (c_recomb c); reflexivity|].
    pose proof (clusters_ok (c_nclusters c)) as Hk.
    split; [|split; [|split; [|intros X; lia]]].
    + destruct (n_clusters (c_nclusters c)) as [nb|o]; [|intro X; discriminate X].
      destruct Hk as [[Hp (k & Ek & En)]|[[_ En]|[_ (k & _ & En)]]]; try discriminate En. injection En as ->.
      destruct k; [lia|intro X; discriminate X].
    + intros k Ek. rewrite Ek. apply repeat_length.
    + intros t Ht. unfold tuning_documented. apply Z.ltb_lt in Hn. rewrite Hn.
      destruct (n_clusters (c_nclusters c)); [now apply repeat_spec in Ht|destruct Ht as [<-|[]]; reflexivity].
  - eexists. split; [reflexivity|]. cbn [m_regr m_corr m_kpls m_nclusters m_recomb m_tunings m_nstart t_init].
    split; [reflexivity|]. split; [reflexivity|]. split; [reflexivity|]. split; [apply clusters_ok|].
    split; [destruct (c_recomb c); reflexivity|].
    pose proof (clusters_ok (c_nclusters c)) as Hk.
    split; [|split; [|split; [|intros _; lia]]].
    + destruct (n_clusters (c_nclusters c)) as [nb|o]; [|intro X; discriminate X].
      destruct Hk as [[Hp (k & Ek & En)]|[[_ En]|[_ (k & _ & En)]]]; try discriminate En. injection En as ->.
      destruct k; [lia|intro X; discriminate X].
    + intros k Ek. rewrite Ek. apply repeat_length.
    + intros t Ht. unfold tuning_documented. replace (c_nstart c <? 0)%Z with false by (symmetry; apply Z.ltb_ge; lia).
      assert (t = TFull (match c_init c with Some i => i | None => [di] end) bounds).
      { destruct (n_clusters (c_nclusters c)); [now apply repeat_spec in Ht|destruct Ht as [<-|[]]; reflexivity]. }
      subst t. exists bounds. auto.
Qed.

(** Settings of the optimizer. Missing: negative [n_start] and the smooth recombination. *)
Theorem C131_egor_partial : forall di db c, config_ok c ->
  exists s t, egor_settings di db c = Some s /\
    m_regr s = c_regr c /\ m_corr s = c_corr c /\ m_kpls s = c_kpls c /\ m_maxeval s = c_maxeval c /\
    clusters_documented (c_nclusters c) (m_nclusters s) /\
    (c_recomb c = PyHard -> m_recomb s = Moe_Model.Hard) /\
    m_tunings s = [t] /\
    ((0 <= c_nstart c)%Z -> tuning_documented di db c t /\ Z.of_nat (m_nstart s) = c_nstart c).
Proof.
  intros di db c Hc. destruct (base_ok di db c Hc) as (bounds & E & Hb). destruct (bits_ok c Hc) as [E1 E2].
  unfold egor_settings. rewrite E, E1, E2. eexists _, _. split; [reflexivity|].
  cbn [m_regr m_corr m_kpls m_nclusters m_recomb m_tunings m_nstart m_maxeval].
  split; [reflexivity|]. split; [reflexivity|]. split; [reflexivity|]. split; [reflexivity|]. split; [apply clusters_ok|].
  split; [intros ->; reflexivity|]. split; [reflexivity|]. intros Hn. split.
  - unfold tuning_documented. replace (c_nstart c <? 0)%Z with false by (symmetry; apply Z.ltb_ge; lia). exists bounds. auto.
  - rewrite Z.max_l by lia. lia.
Qed.

Definition cfg_a : gp_config := GpConfig 1 9 None 3 PySmooth (Some [fone; fone]) (Some [[fzero; fone]; [fone; finf]]) 5 70.
Example C131_case : config_ok cfg_a /\
  option_map (fun s => (m_nclusters s, length (m_tunings s), m_nstart s)) (gpmix_settings fone (fzero, fone) 1000 cfg_a) =
    Some (Moe_Model.Fixed 3, 3, 5).
Proof.
  split; [|vm_compute; reflexivity]. split; [simpl; lia|]. split; [simpl; lia|]. intros r [<-|[<-|[]]]; reflexivity.
Qed.

(** The limit on likelihood evaluations given to a mixture is ignored. *)
Theorem C131_max_eval_refuted : exists c, config_ok c /\
  forall di db, exists s, gpmix_settings di db 1000 c = Some s /\ m_maxeval s <> c_maxeval c.
Proof.
  exists cfg_a. split; [apply C131_case|]. intros di db. eexists. split; [reflexivity|]. simpl. lia.
Qed.

(** A negative [n_start] does not disable the optimization of hyperparameters by the optimizer. *)
Theorem C131_n_start_refuted : exists c, config_ok c /\ (c_nstart c < 0)%Z /\
  forall di db, exists s init bounds, egor_settings di db c = Some s /\ m_tunings s = [TFull init bounds].
Proof.
  exists (GpConfig 1 1 None 1 PyHard (Some [fone]) None (-1) 50). split; [|split; [reflexivity|]].
  - split; [simpl; lia|]. split; [simpl; lia|]. exact I.
  - intros di db. eexists _, _, _. split; reflexivity.
Qed.

(** The optimizer does not optimize the smoothing factor: it is set to one. *)
Theorem C131_smooth_refuted : exists c, config_ok c /\ c_recomb c = PySmooth /\
  forall di db, exists s, egor_settings di db c = Some s /\ m_recomb s = Moe_Model.Smooth (Some fone).
Proof.
  exists cfg_a. split; [apply C131_case|]. split; [reflexivity|]. intros di db. eexists. split; reflexivity.
Qed.

Print Assumptions C131_gpmix_partial.
Print Assumptions C131_egor_partial.
Print Assumptions C131_max_eval_refuted.
Print Assumptions C131_n_start_refuted.
Print Assumptions C131_smooth_refuted.

(** ** C132: the domain described in Python is the one explored. *)

(** Each variable has exactly the values of its description. Missing: non-integer limits of integer variables on the
    wrong side of zero and limits beyond 32 bits. *)
Theorem C132_domain_partial : forall specs, specs <> [] -> (forall s, In s specs -> well_described s) ->
  exists ts, parse (Xspecs specs) = Some ts /\ Forall2 (fun s t => forall v, type_admits t v <-> spec_admits s v) specs ts.
Proof.
  intros specs Hne H. unfold parse. destruct specs as [|s0 specs]; [congruence|]. cbn [is_empty].
  apply mapM_forall2. intros s Hs. apply spec_correct, H, Hs.
Qed.

(** Real variables given by their limits. *)
Theorem C132_rows : forall l, l <> [] -> (forall r, In r l -> length r = 2) ->
  forall d, d = Xlists l \/ d = Xrows 2 l ->
  exists ts, parse d = Some ts /\ Forall2 (fun r t => exists a b, r = [a; b] /\ t = Float a b) l ts.
Proof.
  intros l Hne H d Hd.
  assert (E : parse d = mapM xtype_of_row l) by (destruct Hd as [->| ->]; destruct l as [|r l]; [congruence|reflexivity|congruence|reflexivity]).
  rewrite E. apply mapM_forall2. intros r Hr. specialize (H r Hr). destruct r as [|a [|b [|c r]]]; try discriminate H.
  exists (Float a b). split; [reflexivity|]. exists a, b. auto.
Qed.

Definition specs_a : list xspec :=
  [XSpec KFloat [fofZ 0; fmake 5 (-1)] 0; XSpec KInt [fmake (-5) (-1); fmake 7 (-1)] 0; XSpec KOrd [fofZ 1; fofZ 4] 0;
   XSpec KEnum [] 3; XSpec KEnum [fofZ 2] 0].
(** The value of a double whose double is the integer [k]. *)
Lemma half_value (a : f64) k : match B2SF a with
    | SpecFloat.S754_finite s m e => Z.eqb e (-51) && Z.eqb (if s then Z.neg m else Z.pos m) (k * 2 ^ 50)
    | _ => false end = true -> B2R a = (IZR k / 2)%R.
Proof.
  destruct a as [s|s| |s m e B]; cbn [B2SF]; try (intro X; discriminate X).
  intros X. apply andb_true_iff in X as [X1 X2]. apply Z.eqb_eq in X1, X2. subst e.
  unfold B2R. replace (cond_Zopp s (Z.pos m)) with (k * 2 ^ 50)%Z by (destruct s; auto).
  unfold F2R. cbn [Fnum Fexp]. rewrite mult_IZR. change (bpow radix2 (-51)) with (/ IZR (2 ^ 51))%R.
  replace (2 ^ 51)%Z with (2 * 2 ^ 50)%Z by reflexivity. rewrite mult_IZR.
  assert (0 < IZR (2 ^ 50))%R by (apply IZR_lt; reflexivity). field. lra.
Qed.

Example C132_case : specs_a <> [] /\ (forall s, In s specs_a -> well_described s) /\
  parse (Xspecs specs_a) = Some [Float (fofZ 0) (fmake 5 (-1)); Int (-2) 3; Ord [fofZ 1; fofZ 4]; Enum 3; Enum 2].
Proof.
  split; [intro X; discriminate X|]. split.
  2: { assert (E1 : as_i32 (fmake (-5) (-1)) = (-2)%Z) by (vm_compute; reflexivity).
       assert (E2 : as_i32 (fmake 7 (-1)) = 3%Z) by (vm_compute; reflexivity).
       assert (E3 : as_index (fofZ 2) = Some 2) by (vm_compute; reflexivity).
       unfold parse, specs_a. cbn [is_empty mapM]. unfold xtype_of_spec. cbn [sp_kind sp_limits sp_tags nth_error Nat.eqb].
       rewrite E1, E2, E3. reflexivity. }
  intros s [<-|[<-|[<-|[<-|[<-|[]]]]]].
  - unfold well_described. cbn [sp_kind sp_limits]. eauto.
  - unfold well_described. cbn [sp_kind sp_limits]. exists (fmake (-5) (-1)), (fmake 7 (-1)).
    assert (Ea : B2R (fmake (-5) (-1)) = (-5 / 2)%R) by (apply half_value; vm_compute; reflexivity).
    assert (Eb : B2R (fmake 7 (-1)) = (7 / 2)%R) by (apply half_value; vm_compute; reflexivity).
    rewrite Ea, Eb. split; [reflexivity|]. split; [vm_compute; reflexivity|]. split; [vm_compute; reflexivity|].
    split; [lra|]. split; [lra|]. split; right; lra.
  - exact I.
  - left. simpl. lia.
  - right. exists (fofZ 2), 2. split; [reflexivity|]. apply (fofZ_correct 2). lia.
Qed.

(** Limits beyond 32 bits: the integer 2147483648 is never among the values of the variable. *)
Theorem C132_large_refuted : forall a b : f64, fle a (fofZ 2147483648) = true -> fle (fofZ 2147483648) b = true ->
  spec_admits (XSpec KInt [a; b] 0) (fofZ 2147483648) /\
  exists t, parse (Xspecs [XSpec KInt [a; b] 0]) = Some [t] /\ ~ type_admits t (fofZ 2147483648).
Proof.
  intros a b Ha Hb. assert (W : is_int (fofZ 2147483648) 2147483648) by (apply (fofZ_correct 2147483648); lia).
  split; [exists a, b, 2147483648%Z; repeat split; trivial; apply W|].
  exists (Int (as_i32 a) (as_i32 b)). split; [reflexivity|]. intros (k & K & B).
  assert (k = 2147483648%Z) by (apply eq_IZR; rewrite <- (proj2 K); apply W). subst k.
  assert (as_i32 b <= 2147483647)%Z; [|lia]. unfold as_i32, i32_min, i32_max. destruct b as [|[]| |]; lia.
Qed.
Print Assumptions C132_large_refuted.

(** An integer variable with limits 0.5 and 3 may take the value 0. *)
Theorem C132_integer_refuted : exists a b ts t, parse (Xspecs [XSpec KInt [a; b] 0]) = Some ts /\ ts = [t] /\
  type_admits t fzero /\ flt fzero a = true /\ flt a b = true.
Proof.
  exists (fmake 1 (-1)), (fofZ 3), [Int 0 3], (Int 0 3). split; [vm_compute; reflexivity|]. split; [reflexivity|].
  split; [|split; vm_compute; reflexivity]. exists 0%Z. split; [split; reflexivity|lia].
Qed.

(** Whatever is given, an accepted domain has at least one variable, and one variable for each row, list or specification. *)
Definition given (d : domain) : nat := match d with Xlists l => length l | Xrows _ l => length l | Xspecs l => length l end.
Lemma mapM_len {A B} (f : A -> option B) l l' : mapM f l = Some l' -> length l' = length l.
Proof.
  revert l'. induction l as [|a l IH]; intros l' H; cbn [mapM] in H; [injection H as <-; reflexivity|].
  destruct (f a); [|discriminate H]. destruct (mapM f l); [|discriminate H]. injection H as <-. cbn [length]. f_equal. now apply IH.
Qed.
Theorem C132_nonempty : forall d ts, parse d = Some ts -> length ts = given d /\ 0 < length ts.
Proof.
  intros d ts H. unfold parse in H. destruct (is_empty d) eqn:E; [discriminate H|].
  assert (L : length ts = given d) by (destruct d; apply mapM_len in H; exact H). split; [exact L|]. rewrite L.
  destruct d as [[|]|c [|]|[|]]; try discriminate E; cbn [given length]; lia.
Qed.

Print Assumptions C132_nonempty.
Print Assumptions C132_domain_partial.
Print Assumptions C132_rows.
Print Assumptions C132_integer_refuted.
