(** Full factorial designs. *)
From Coq Require Import Reals Lra ZArith List Bool Arith Lia Permutation.
From Flocq Require Import Core.Core IEEE754.BinarySingleNaN.
From Verif Require Import F64 F64_Extra F64_Round Util Doe_Model Doe_Spec Doe_Generic Doe_Real Doe_F64.
Import ListNotations.
Local Open Scope nat_scope.
Local Arguments bpow : simpl never.

(** ** Products *)
Lemma prod_acc l : forall a, fold_left Nat.mul l a = a * fold_left Nat.mul l 1.
Proof.
  induction l as [|n l IH]; intros a; cbn [fold_left]; [lia|]. rewrite (IH (a * n)), (IH (1 * n)). lia.
Qed.
Lemma prod_cons n l : prod (n :: l) = n * prod l.
Proof. unfold prod. cbn [fold_left]. rewrite prod_acc. lia. Qed.
Lemma prod_grid l : prod l = grid_size l.
Proof. induction l as [|n l IH]; [reflexivity|]. rewrite prod_cons, IH. reflexivity. Qed.
Lemma prod_pos l : Forall (fun n => 1 <= n) l -> 1 <= prod l.
Proof. induction 1 as [|n l N _ IH]; [unfold prod; simpl; lia|]. rewrite prod_cons. nia. Qed.
Lemma prod_set l : forall i n, Forall (fun n => 1 <= n) l -> nth_error l i = Some n -> prod l < prod (set_nth i (S n) l).
Proof.
  induction l as [|m l IH]; intros [|i] n F H; try discriminate; inversion F as [|? ? M F']; subst; cbn [set_nth nth_error] in *; rewrite !prod_cons.
  - injection H as ->. pose proof (prod_pos _ F'). nia.
  - specialize (IH i n F' H). nia.
Qed.
Lemma prod_in l n : Forall (fun n => 1 <= n) l -> In n l -> n <= prod l.
Proof.
  induction 1 as [|m l M F IH]; [intros []|]. rewrite prod_cons. pose proof (prod_pos _ F). intros [->|H']; [nia|]. specialize (IH H'). nia.
Qed.
Lemma sum_prod l : Forall (fun n => 1 <= n) l -> list_sum l < length l + prod l.
Proof.
  induction 1 as [|n l N F IH]; [unfold prod; simpl; lia|]. rewrite prod_cons. change (list_sum (n :: l)) with (n + list_sum l). simpl length.
  pose proof (prod_pos _ F). nia.
Qed.
Lemma sum_in l n : In n l -> n <= list_sum l.
Proof.
  induction l as [|m l IH]; [intros []|]. change (list_sum (m :: l)) with (m + list_sum l).
  intros [->|H]; [lia|]. specialize (IH H). lia.
Qed.

(** ** The variable chosen has the smallest number of levels *)
Lemma argmin_loop_map {A B} (lt : A -> A -> bool) (lt' : B -> B -> bool) (f : A -> B) l :
  forall i best cur, (forall a b, In a (cur :: l) -> In b (cur :: l) -> lt' (f a) (f b) = lt a b) ->
  argmin_loop lt' i best (f cur) (map f l) = argmin_loop lt i best cur l.
Proof.
  induction l as [|x l IH]; intros i best cur H; cbn [map argmin_loop]; [reflexivity|].
  rewrite H by (simpl; tauto). destruct (lt x cur); apply IH; intros a b Ha Hb; apply H; simpl in *; tauto.
Qed.
Lemma argmin_by_map {A B} (lt : A -> A -> bool) (lt' : B -> B -> bool) (f : A -> B) l :
  (forall a b, In a l -> In b l -> lt' (f a) (f b) = lt a b) -> argmin_by lt' (map f l) = argmin_by lt l.
Proof. intros H. destruct l as [|a l]; [reflexivity|]. cbn [map argmin_by]. f_equal. now apply argmin_loop_map. Qed.

Definition good_weakest {A} (ar : arith A) (bound : Z) : Prop :=
  forall num, num <> [] -> Forall (fun n => 1 <= n) num -> (Z.of_nat (list_sum num) <= bound)%Z ->
    weakest ar num = argmin_by Nat.ltb num.

Lemma weakest_R bound : good_weakest R_arith bound.
Proof.
  intros num Ne F _. unfold weakest. apply argmin_by_map. intros a b Ha Hb. cbn [ltb sub div ofZ R_arith]. rewrite !ofN_R.
  assert (P : (0 < INR (list_sum num))%R).
  { apply lt_0_INR. pose proof (sum_in _ _ Ha). rewrite Forall_forall in F. specialize (F a Ha). lia. }
  set (s := INR (list_sum num)) in *. set (w := (1 / INR (length num))%R).
  destruct (Rlt_dec (w - INR b / s) (w - INR a / s)) as [L|L].
  - symmetry. apply Nat.ltb_lt. apply INR_lt. assert (H : (INR a / s < INR b / s)%R) by lra.
    apply Rmult_lt_reg_r with (2 := H). now apply Rinv_0_lt_compat.
  - symmetry. apply Nat.ltb_ge. apply INR_le. assert (H : (INR b / s <= INR a / s)%R) by lra.
    apply Rmult_le_reg_r with (2 := H). now apply Rinv_0_lt_compat.
Qed.

Local Open Scope R_scope.
Lemma ratio_err a s : (a <= s)%nat -> (1 <= s)%nat -> Rabs (rnd64 (INR a / INR s) - INR a / INR s) <= 2 * uro /\ 0 <= rnd64 (INR a / INR s) <= 1.
Proof.
  intros L S. assert (P : 0 < INR s) by (apply lt_0_INR; lia). pose proof (pos_INR a). assert (INR a <= INR s) by now apply le_INR.
  assert (T : 0 <= INR a / INR s <= 1).
  { split; [apply Rmult_le_pos; [lra|]; apply Rlt_le, Rinv_0_lt_compat; lra|].
    apply Rmult_le_reg_r with (INR s); [lra|]. unfold Rdiv. rewrite Rmult_assoc, Rinv_l by lra. lra. }
  set (t := INR a / INR s) in *. pose proof uro_pos. split; [|split; [apply rnd_ge|apply rnd_le_fmt]; try lra; [apply fmt_0|apply fmt_1]].
  destruct (Rle_or_lt (bpow radix2 (-1022)) t) as [B|B].
  - pose proof (rel_err t) as E. rewrite (Rabs_pos_eq t) in E by lra. specialize (E B). pose proof dlt_bounds. nra.
  - (* tiny: both are below 2^-1022 *)
    assert (F : format64 (bpow radix2 (-1022))) by (apply generic_format_bpow; unfold SpecFloat.fexp, SpecFloat.emin; lia).
    assert (rnd64 t <= bpow radix2 (-1022)) by (apply rnd_le_fmt; [exact F|lra]).
    assert (0 <= rnd64 t) by (apply rnd_ge; [apply fmt_0|lra]).
    assert (bpow radix2 (-1022) <= uro) by (apply bpow_le; lia). apply Rabs_le. lra.
Qed.

Section F.
  Context (pw : f64 -> f64 -> f64) (sq : f64 -> f64).
  Local Notation FA := (f64_arith pw sq).
  Lemma weakest_F : good_weakest FA (2 ^ 49).
  Proof.
    intros num Ne F Hs. unfold weakest. apply argmin_by_map. intros a b Ha Hb. cbn [ltb sub div ofZ f64_arith].
    rewrite Forall_forall in F. pose proof (F a Ha) as A1. pose proof (F b Hb) as B1.
    pose proof (sum_in _ _ Ha) as A2. pose proof (sum_in _ _ Hb) as B2. set (s := list_sum num) in *.
    assert (Ln : (1 <= length num)%nat) by (destruct num; [congruence|simpl; lia]).
    assert (Ls : (length num <= s)%nat).
    { unfold s. clear - F. induction num as [|n l IH]; [simpl; lia|]. change (list_sum (n :: l)) with (n + list_sum l)%nat. simpl length.
      assert (length l <= list_sum l)%nat by (apply IH; intros; apply F; now right). specialize (F n (or_introl eq_refl)).
      unfold list_sum in *. lia. }
    assert (Nf : forall k, (k <= s)%nat -> isf (ofN FA k) (INR k)) by (intros; apply ofN_F; lia).
    assert (Ip : forall k, (1 <= k)%nat -> 0 < INR k) by (intros; apply lt_0_INR; lia).
    assert (W : isf (fdiv (fofZ 1) (ofN FA (length num))) (rnd64 (1 / INR (length num)))).
    { apply fdiv_R; [apply one_F|apply Nf; lia|apply not_0_INR; lia|]. apply small_le. pose proof (Ip _ Ln).
      rewrite Rabs_pos_eq; [|apply Rmult_le_pos; [lra|]; apply Rlt_le, Rinv_0_lt_compat; lra].
      apply Rmult_le_reg_r with (INR (length num)); [lra|]. unfold Rdiv. rewrite Rmult_assoc, Rinv_l by lra. apply le_INR in Ln. change (INR 1) with 1 in Ln. lra. }
    pose proof (ratio_err 1 (length num) Ln Ln) as (_ & W01). change (INR 1) with 1 in W01. set (w := rnd64 (1 / INR (length num))) in *.
    assert (Q : forall k, (k <= s)%nat -> isf (fdiv (ofN FA k) (ofN FA s)) (rnd64 (INR k / INR s))).
    { intros k K. pose proof (Ip s ltac:(lia)). pose proof (pos_INR k). assert (INR k <= INR s) by now apply le_INR. apply fdiv_R; [now apply Nf|now apply Nf|lra|]. apply small_le.
      rewrite Rabs_pos_eq; [|apply Rmult_le_pos; [lra|]; apply Rlt_le, Rinv_0_lt_compat; lra].
      apply Rmult_le_reg_r with (INR s); [lra|]. unfold Rdiv. rewrite Rmult_assoc, Rinv_l by lra. lra. }
    assert (Sc : forall k, (k <= s)%nat -> isf (fsub (fdiv (fofZ 1) (ofN FA (length num))) (fdiv (ofN FA k) (ofN FA s))) (rnd64 (w - rnd64 (INR k / INR s)))).
    { intros k K. apply fsub_R; [exact W|now apply Q|]. apply small_le.
      pose proof (ratio_err k s K ltac:(lia)) as (_ & R01). apply Rabs_le. lra. }
    assert (Er : forall k, (k <= s)%nat -> Rabs (rnd64 (w - rnd64 (INR k / INR s)) - (w - INR k / INR s)) <= 4 * uro).
    { intros k K. pose proof (ratio_err k s K ltac:(lia)) as (E & R01). set (q := rnd64 (INR k / INR s)) in *.
      pose proof (sub_err w q (fmt_rnd _) (fmt_rnd _)) as E2.
      assert (A : Rabs (w - q) <= 1) by (apply Rabs_le; lra). pose proof dlt_bounds. pose proof uro_pos.
      assert (dlt * Rabs (w - q) <= uro * 1) by (apply Rmult_le_compat; try lra; apply Rabs_pos).
      apply Rabs_le_inv in E, E2. apply Rabs_le. lra. }
    assert (Gap : 8 * uro < 1 / INR s).
    { pose proof (Ip s ltac:(lia)). apply Rmult_lt_reg_r with (INR s); [lra|]. replace (1 / INR s * INR s) with 1 by (field; lra).
      assert (INR s <= bpow radix2 49).
      { rewrite INR_IZR_INZ. change (bpow radix2 49) with (IZR (2 ^ 49)). now apply IZR_le. }
      apply Rle_lt_trans with (8 * uro * bpow radix2 49); [apply Rmult_le_compat_l; [pose proof uro_pos; lra|assumption]|].
      change 8 with (bpow radix2 3). unfold uro. rewrite <- !bpow_plus. change (bpow radix2 (3 + -53 + 49)) with (/ 2). lra. }
    assert (Mono : forall k l, (k < l)%nat -> (l <= s)%nat -> rnd64 (w - rnd64 (INR l / INR s)) < rnd64 (w - rnd64 (INR k / INR s))).
    { intros k l K L. pose proof (Er k ltac:(lia)) as E1. pose proof (Er l L) as E2. apply Rabs_le_inv in E1, E2.
      assert (G : INR l / INR s - INR k / INR s >= 1 / INR s).
      { pose proof (Ip s ltac:(lia)). replace (INR l / INR s - INR k / INR s) with ((INR l - INR k) / INR s) by (field; lra).
        apply Rle_ge. apply Rmult_le_compat_r; [apply Rlt_le, Rinv_0_lt_compat; lra|]. apply le_INR in K. rewrite S_INR in K. lra. }
      lra. }
    destruct (Sc a A2) as (Fa & Va). destruct (Sc b B2) as (Fb & Vb).
    set (sa := fsub _ (fdiv (ofN FA a) _)) in *. set (sb := fsub _ (fdiv (ofN FA b) _)) in *.
    destruct (a <? b)%nat eqn:E.
    - apply Nat.ltb_lt in E. apply flt_ord; try now apply finite_not_nan. rewrite !ord_fin by assumption. rewrite Va, Vb. now apply Mono.
    - apply Nat.ltb_ge in E. apply flt_ordF; try now apply finite_not_nan. rewrite !ord_fin by assumption. rewrite Va, Vb.
      destruct (Nat.eq_dec a b) as [->|Ne']; [apply Rle_refl|]. apply Rlt_le, Mono; lia.
  Qed.
End F.

Local Open Scope nat_scope.
Lemma min_spec num i : argmin_by Nat.ltb num = Some i -> exists m, nth_error num i = Some m /\ forall a, In a num -> m <= a.
Proof.
  intros H. destruct (argmin_by_spec Nat.ltb (fun _ => True)) with (l := num) (i := i) as (m & E & M & _).
  - intros a _. apply Nat.ltb_irrefl.
  - intros a b c _ _ _ H1 H2. apply Nat.ltb_lt in H1, H2. apply Nat.ltb_lt. lia.
  - intros a b c _ _ _ H1 H2. apply Nat.ltb_ge in H1, H2. apply Nat.ltb_ge. lia.
  - apply Forall_forall. auto.
  - exact H.
  - exists m. split; [exact E|]. intros a Ha. apply In_nth_error in Ha. destruct Ha as (j & Ha). apply M in Ha. apply Nat.ltb_ge in Ha. exact Ha.
Qed.
Lemma in_set_nth {A} (l : list A) i v a : In a (set_nth i v l) -> a = v \/ In a l.
Proof. revert i. induction l as [|b l IH]; intros [|i]; simpl; try tauto; [intros [<-|H]; tauto|intros [<-|H]; [tauto|]; destruct (IH _ H); tauto]. Qed.
Lemma set_nth_length' {A} (l : list A) i v : length (set_nth i v l) = length l.
Proof. revert i. induction l as [|b l IH]; intros [|i]; simpl; congruence. Qed.

Lemma levels_loop_spec {A} (ar : arith A) bound (G : good_weakest ar bound) nx ns fuel : 1 <= nx -> (Z.of_nat nx + Z.of_nat ns <= bound)%Z ->
  forall num, balanced nx num -> (forall n, In n num -> n <= Nat.max 1 ns) -> ns <= prod num + fuel ->
  exists num', levels_loop ar fuel ns num = Some num' /\ balanced nx num' /\ (forall n, In n num' -> n <= Nat.max 1 ns) /\ ns <= prod num'.
Proof.
  intros N Hb. induction fuel as [|f IH]; intros num B Mx L; cbn [levels_loop].
  - destruct (prod num <? ns) eqn:E; [apply Nat.ltb_lt in E; lia|]. exists num. split; [reflexivity|]. split; [exact B|]. split; [exact Mx|lia].
  - destruct (prod num <? ns) eqn:E; [|apply Nat.ltb_ge in E; exists num; auto].
    apply Nat.ltb_lt in E. destruct B as (Ln & F & D).
    assert (Ne : num <> []) by (intros ->; simpl in Ln; lia).
    rewrite G; [|exact Ne|exact F|pose proof (sum_prod _ F); lia].
    destruct (argmin_by_some Nat.ltb num Ne) as (i & Ei). rewrite Ei. destruct (min_spec _ _ Ei) as (m & Em & M). rewrite Em.
    apply IH.
    + split; [now rewrite set_nth_length'|]. split.
      * apply Forall_forall. intros a Ha. apply in_set_nth in Ha. rewrite Forall_forall in F. destruct Ha as [->|Ha]; [lia|now apply F].
      * assert (Im : In m num) by (eapply nth_error_In; eauto).
        intros a b Ha Hb'. apply in_set_nth in Ha, Hb'. destruct Ha as [->|Ha]; destruct Hb' as [->|Hb']; try lia.
        -- specialize (M b Hb'). lia.
        -- specialize (D a m Ha Im). lia.
        -- now apply D.
    + intros a Ha. apply in_set_nth in Ha. destruct Ha as [->|Ha]; [|now apply Mx].
      pose proof (prod_in _ _ F (nth_error_In _ _ Em)). lia.
    + pose proof (prod_set _ _ _ F Em). lia.
Qed.
Lemma levels_spec {A} (ar : arith A) bound (G : good_weakest ar bound) nx ns : 1 <= nx -> (Z.of_nat nx + Z.of_nat ns <= bound)%Z ->
  exists num, levels ar nx ns = Some num /\ balanced nx num /\ (forall n, In n num -> n <= Nat.max 1 ns) /\ ns <= prod num.
Proof.
  intros N B. unfold levels. apply (levels_loop_spec ar bound G nx ns ns N B).
  - split; [apply repeat_length|]. split.
    + apply Forall_forall. intros a Ha. apply repeat_spec in Ha. lia.
    + intros a b Ha Hb. apply repeat_spec in Ha, Hb. lia.
  - intros a Ha. apply repeat_spec in Ha. lia.
  - assert (1 <= prod (repeat 1 nx)); [|lia]. apply prod_pos. apply Forall_forall. intros a Ha. apply repeat_spec in Ha. lia.
Qed.

(** ** The indexes of the levels are the mixed-radix digits of the row number *)
Fixpoint digits (num : list nat) (r : nat) : list nat :=
  match num with [] => [] | n :: num' => (r / prod num') mod n :: digits num' r end.

Lemma chunk_nth lr : 1 <= lr -> forall n s r, r < n * lr -> nth r (flat_map (fun i => repeat i lr) (seq s n)) 0 = s + r / lr.
Proof.
  intros L. induction n as [|n IH]; intros s r R; [lia|]. cbn [seq flat_map].
  destruct (Nat.lt_ge_cases r lr) as [H|H].
  - rewrite app_nth1 by (rewrite repeat_length; lia). rewrite Nat.div_small by lia.
    rewrite (nth_indep _ 0 s) by (rewrite repeat_length; lia). rewrite nth_repeat. lia.
  - rewrite app_nth2 by (rewrite repeat_length; lia). rewrite repeat_length, IH by lia.
    replace r with ((r - lr) + 1 * lr) at 2 by lia. rewrite Nat.div_add by lia. lia.
Qed.
Lemma chunk_length n lr : length (ff_chunk n lr) = n * lr.
Proof.
  unfold ff_chunk. generalize 0. induction n as [|n IH]; intros s; cbn [seq flat_map]; [reflexivity|].
  rewrite app_length, repeat_length, IH. lia.
Qed.
Lemma column_nth n lr rr : 1 <= lr -> 1 <= n -> forall s r, r < n * lr * rr ->
  nth r (flat_map (fun _ => ff_chunk n lr) (seq s rr)) 0 = (r / lr) mod n.
Proof.
  intros L N. induction rr as [|rr IH]; intros s r R; [lia|]. cbn [seq flat_map].
  destruct (Nat.lt_ge_cases r (n * lr)) as [H|H].
  - rewrite app_nth1 by (rewrite chunk_length; lia). unfold ff_chunk. rewrite chunk_nth by assumption.
    rewrite Nat.mod_small; [reflexivity|]. apply Nat.div_lt_upper_bound; lia.
  - rewrite app_nth2 by (rewrite chunk_length; lia). rewrite chunk_length, IH by lia.
    replace r with ((r - n * lr) + n * lr) at 2 by lia. rewrite Nat.div_add by lia.
    replace ((r - n * lr) / lr + n) with ((r - n * lr) / lr + 1 * n) by lia. now rewrite Nat.mod_add by lia.
Qed.
Lemma columns_digits num : Forall (fun n => 1 <= n) num -> forall rr r, 1 <= rr -> r < prod num * rr ->
  map (fun col => nth r col 0) (ff_columns num (prod num) rr) = digits num r.
Proof.
  induction 1 as [|n num N F IH]; intros rr r P R; cbn [ff_columns map digits]; [reflexivity|].
  rewrite prod_cons in *. pose proof (prod_pos _ F) as Pp.
  replace (n * prod num / n) with (prod num) by (rewrite Nat.mul_comm, Nat.div_mul; lia).
  f_equal.
  - unfold ff_column. apply column_nth; try assumption.
  - apply IH; nia.
Qed.
Lemma index_digits num : Forall (fun n => 1 <= n) num -> ff_index num = map (digits num) (seq 0 (prod num)).
Proof.
  intros F. unfold ff_index. apply map_ext_in. intros r Hr. apply in_seq in Hr. apply columns_digits; [exact F|lia|lia].
Qed.

Lemma digits_length num r : length (digits num r) = length num.
Proof. induction num as [|n num IH]; simpl; congruence. Qed.
Lemma digits_range num r : Forall (fun n => 1 <= n) num -> Forall2 (fun n d => d < n) num (digits num r).
Proof. induction 1 as [|n num N F IH]; cbn [digits]; constructor; [apply Nat.mod_upper_bound; lia|exact IH]. Qed.
Lemma digits_mod num : Forall (fun n => 1 <= n) num -> forall k m r, k = m * prod num -> digits num (r + k) = digits num r.
Proof.
  induction 1 as [|n num N F IH]; intros k m r E; cbn [digits]; [reflexivity|]. pose proof (prod_pos _ F). rewrite prod_cons in E.
  f_equal.
  - replace k with (m * n * prod num) by lia. rewrite Nat.div_add by lia. now rewrite Nat.mod_add by lia.
  - apply (IH k (m * n)). lia.
Qed.
Lemma digits_lex num : Forall (fun n => 1 <= n) num -> forall r r', r < r' -> r' < prod num ->
  exists k u v, firstn k (digits num r) = firstn k (digits num r') /\
    nth_error (digits num r) k = Some u /\ nth_error (digits num r') k = Some v /\ u < v.
Proof.
  induction 1 as [|n num N F IH]; intros r r' L B; [unfold prod in B; simpl in B; lia|].
  pose proof (prod_pos _ F) as P. rewrite prod_cons in B. set (p := prod num) in *.
  assert (R1 : r' / p < n) by (apply Nat.div_lt_upper_bound; lia).
  assert (R2 : r / p <= r' / p) by (apply Nat.div_le_mono; lia).
  cbn [digits]. fold p. rewrite !Nat.mod_small by lia.
  destruct (Nat.eq_dec (r / p) (r' / p)) as [E|Ne].
  - pose proof (Nat.div_mod r p ltac:(lia)) as D. pose proof (Nat.div_mod r' p ltac:(lia)) as D'.
    pose proof (Nat.mod_upper_bound r' p ltac:(lia)) as U'.
    destruct (IH (r mod p) (r' mod p)) as (k & u & v & E1 & E2 & E3 & Lt); [lia|lia|].
    exists (S k), u, v. cbn [firstn nth_error].
    assert (M : forall q, digits num (q mod p) = digits num q).
    { intros q. rewrite (Nat.div_mod q p ltac:(lia)) at 2. rewrite Nat.add_comm. symmetry.
      apply (digits_mod num F _ (q / p)). unfold p. lia. }
    rewrite !M in *. split; [now f_equal; [exact E|]|auto]. 
  - exists 0, (r / p), (r' / p). cbn [firstn nth_error]. repeat split; lia.
Qed.
Lemma digits_all num : Forall (fun n => 1 <= n) num -> forall idx, Forall2 (fun n d => d < n) num idx ->
  exists r, r < prod num /\ digits num r = idx.
Proof.
  induction 1 as [|n num N F IH]; intros idx H; inversion H as [|? d ? idx' Hd H']; subst.
  - exists 0. unfold prod. simpl. split; [lia|reflexivity].
  - destruct (IH idx' H') as (r & R & E). pose proof (prod_pos _ F) as P. exists (r + d * prod num). rewrite prod_cons. split; [nia|].
    cbn [digits]. f_equal.
    + rewrite Nat.div_add by lia. rewrite (Nat.div_small r) by lia. simpl. now apply Nat.mod_small.
    + rewrite <- E. now apply (digits_mod num F _ d).
Qed.

(** ** The design *)
Section Design.
  Context {A : Type} (ar : arith A) (bound : Z) (G : good_weakest ar bound).
  Definition values (num idx : list nat) : list A := map (fun p => level_value ar (fst p) (snd p)) (combine num idx).

  Lemma ff_spec nx ns : 1 <= nx -> (Z.of_nat nx + Z.of_nat ns <= bound)%Z ->
    exists num x, full_factorial ar nx ns = Some x /\ balanced nx num /\ (forall n, In n num -> n <= Nat.max 1 ns) /\ ns <= prod num /\ length x = ns /\
      (forall r, r < ns -> nth_error x r = Some (values num (digits num r))).
  Proof.
    intros N B. destruct (levels_spec ar bound G nx ns N B) as (num & E & Bal & Mx & L).
    unfold full_factorial. rewrite E. eexists num, _. split; [reflexivity|]. split; [exact Bal|]. split; [exact Mx|]. split; [exact L|].
    destruct Bal as (_ & F & _). rewrite (index_digits num F). split.
    - rewrite map_length, firstn_length, map_length, seq_length. lia.
    - intros r R. rewrite nth_error_map, nth_error_firstn, nth_error_map, seq_nth_error by lia. reflexivity.
  Qed.

  Lemma values_nth num idx k n d : nth_error num k = Some n -> nth_error idx k = Some d -> nth_error (values num idx) k = Some (level_value ar n d).
  Proof. intros Hn Hd. unfold values. rewrite nth_error_map, (nth_error_combine _ _ k n d) by assumption. reflexivity. Qed.
  Lemma values_firstn num idx k : firstn k (values num idx) = values num (firstn k idx).
  Proof.
    unfold values. rewrite firstn_map. f_equal. revert idx k. induction num as [|n num IH]; intros [|d idx] [|k]; simpl; try reflexivity. now rewrite IH.
  Qed.

  Lemma ff_lex (lt : A -> A -> Prop) ns num x : balanced (length num) num -> ns <= prod num -> length x = ns ->
    (forall n i j, In n num -> i < j -> j < n -> lt (level_value ar n i) (level_value ar n j)) ->
    (forall r, r < ns -> nth_error x r = Some (values num (digits num r))) -> lexicographic lt x.
  Proof.
    intros (_ & F & _) L Lx Mono X r r' a b R Ha Hb.
    assert (R' : r' < ns) by (rewrite <- Lx; apply nth_error_Some; congruence).
    rewrite X in Ha, Hb by lia. apply some_inj in Ha, Hb. subst a b.
    destruct (digits_lex num F r r' R ltac:(lia)) as (k & u & v & E & Hu & Hv & Lt).
    assert (K : k < length num).
    { assert (k < length (digits num r)) by (apply nth_error_Some; congruence).
      rewrite digits_length in H. exact H. }
    destruct (nth_error num k) as [n|] eqn:En; [|apply nth_error_None in En; lia].
    exists k, (level_value ar n u), (level_value ar n v). rewrite !values_firstn, E. split; [reflexivity|].
    split; [now apply values_nth|]. split; [now apply values_nth|].
    apply Mono; [eapply nth_error_In; eauto|exact Lt|].
    pose proof (digits_range num r' F) as H2. clear - H2 En Hv. revert k En Hv. generalize dependent (digits num r').
    intros idx H2. induction H2 as [|m d num idx Hd H2 IH]; intros [|k] En Hv; try discriminate; simpl in *; [congruence|eauto].
  Qed.

  Lemma ff_grid (Q : nat -> A -> Prop) ns num x : balanced (length num) num -> ns <= prod num -> length x = ns ->
    (forall n i, In n num -> i < n -> Q n (level_value ar n i)) ->
    (forall r, r < ns -> nth_error x r = Some (values num (digits num r))) -> Forall (fun r => Forall2 Q num r) x.
  Proof.
    intros (_ & F & _) L Lx HQ X. apply Forall_forall. intros row Hr. apply In_nth_error in Hr. destruct Hr as (r & Hr).
    assert (R : r < ns) by (rewrite <- Lx; apply nth_error_Some; congruence).
    rewrite X in Hr by exact R. apply some_inj in Hr. subst row.
    pose proof (digits_range num r F) as H2. clear - H2 HQ. generalize dependent (digits num r). intros idx H2.
    unfold values. induction H2 as [|n d num idx Hd H2 IH]; simpl; constructor.
    - apply HQ; [now left|exact Hd].
    - apply IH. intros. apply HQ; [now right|assumption].
  Qed.

  Lemma ff_all num x : balanced (length num) num -> length x = prod num ->
    (forall r, r < prod num -> nth_error x r = Some (values num (digits num r))) ->
    forall idx, Forall2 (fun n i => i < n) num idx -> In (values num idx) x.
  Proof.
    intros (_ & F & _) Lx X idx H. destruct (digits_all num F idx H) as (r & R & <-). eapply nth_error_In, X, R.
  Qed.
End Design.

(** ** Values of the levels *)
Lemma level_R n i : i < n -> level_value R_arith n i = level n i.
Proof.
  intros I. unfold level_value, level. destruct (1 <? n) eqn:E.
  - apply Nat.ltb_lt in E. rewrite (proj2 (Nat.eqb_neq n 1)) by lia. now rewrite !ofN_R.
  - apply Nat.ltb_ge in E. rewrite (proj2 (Nat.eqb_eq n 1)) by lia. rewrite ofN_R. replace i with 0 by lia. reflexivity.
Qed.
Lemma level_R_mono n i j : i < j -> j < n -> (level_value R_arith n i < level_value R_arith n j)%R.
Proof.
  intros I J. rewrite !level_R by lia. unfold level. rewrite (proj2 (Nat.eqb_neq n 1)) by lia.
  apply Rmult_lt_compat_r; [apply Rinv_0_lt_compat, lt_0_INR; lia|]. now apply lt_INR.
Qed.
Lemma level_R_unit n i : i < n -> (0 <= level n i <= 1)%R.
Proof.
  intros I. unfold level. destruct (Nat.eqb n 1) eqn:E; [lra|]. apply Nat.eqb_neq in E.
  assert (P : (0 < INR (n - 1))%R) by (apply lt_0_INR; lia). pose proof (pos_INR i). assert (INR i <= INR (n - 1))%R by (apply le_INR; lia). split.
  - apply Rmult_le_pos; [lra|]. apply Rlt_le, Rinv_0_lt_compat. lra.
  - apply Rmult_le_reg_r with (INR (n - 1)); [lra|]. unfold Rdiv. rewrite Rmult_assoc, Rinv_l by lra. lra.
Qed.

Section FV.
  Context (pw : f64 -> f64 -> f64) (sq : f64 -> f64).
  Local Notation FA := (f64_arith pw sq).
  Lemma level_F n i : i < n -> (Z.of_nat n <= 2 ^ 53)%Z -> isf (level_value FA n i) (rnd64 (level n i)).
  Proof.
    intros I N. unfold level_value, level. destruct (1 <? n) eqn:E.
    - apply Nat.ltb_lt in E. rewrite (proj2 (Nat.eqb_neq n 1)) by lia. cbn [div f64_arith].
      apply fdiv_R; [apply ofN_F; lia|apply ofN_F; lia|apply not_0_INR; lia|].
      pose proof (level_R_unit n i I) as U. unfold level in U. rewrite (proj2 (Nat.eqb_neq n 1)) in U by lia.
      apply small_le. rewrite Rabs_pos_eq; lra.
    - apply Nat.ltb_ge in E. rewrite (proj2 (Nat.eqb_eq n 1)) by lia. replace i with 0 by lia.
      rewrite rnd_fmt by apply fmt_0. apply zero_F.
  Qed.
  Lemma level_F_mono n i j : i < j -> j < n -> (Z.of_nat n <= 2 ^ 49)%Z -> (rnd64 (level n i) < rnd64 (level n j))%R.
  Proof.
    intros I J N. unfold level. rewrite (proj2 (Nat.eqb_neq n 1)) by lia.
    destruct (ratio_err i (n - 1)) as (E1 & _); try lia. destruct (ratio_err j (n - 1)) as (E2 & _); try lia.
    apply Rabs_le_inv in E1, E2.
    assert (P : (0 < INR (n - 1))%R) by (apply lt_0_INR; lia).
    assert (Gap : (8 * uro < 1 / INR (n - 1))%R).
    { apply Rmult_lt_reg_r with (INR (n - 1)); [lra|]. replace (1 / INR (n - 1) * INR (n - 1))%R with 1%R by (field; lra).
      assert (INR (n - 1) <= bpow radix2 49)%R.
      { rewrite INR_IZR_INZ. change (bpow radix2 49) with (IZR (2 ^ 49)). apply IZR_le. lia. }
      apply Rle_lt_trans with (8 * uro * bpow radix2 49)%R; [apply Rmult_le_compat_l; [pose proof uro_pos; lra|assumption]|].
      change 8%R with (bpow radix2 3). unfold uro. rewrite <- !bpow_plus. change (bpow radix2 (3 + -53 + 49)) with (/ 2)%R. lra. }
    assert (G : (INR j / INR (n - 1) - INR i / INR (n - 1) >= 1 / INR (n - 1))%R).
    { replace (INR j / INR (n - 1) - INR i / INR (n - 1))%R with ((INR j - INR i) / INR (n - 1))%R by (field; lra).
      apply Rle_ge, Rmult_le_compat_r; [apply Rlt_le, Rinv_0_lt_compat; lra|]. apply le_INR in I. rewrite S_INR in I. lra. }
    pose proof uro_pos. lra.
  Qed.
End FV.
