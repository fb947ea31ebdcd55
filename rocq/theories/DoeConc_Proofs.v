(** Threads that share a sampling method: invariants of all schedules. *)
From Coq Require Import Reals Lra List Arith Bool ZArith Lia Permutation.
From Verif Require Import Util F64 Doe_Model Doe_Spec Doe_Generic Doe_Real Doe_Optim DoeConc_Model DoeConc_Spec.
Import ListNotations.
Local Open Scope nat_scope.

Section Sound.
  Context {G X : Type}.
  (** At most [n] sections are left, none of which panics or hangs, and the result satisfies [P]. *)
  Fixpoint sound (P : X -> Prop) (n : nat) (c : call G X) : Prop :=
    match c with
    | Return r => P r
    | Critical f => match n with 0 => False | S n' => forall g, exists c' g', f g = Done c' g' /\ sound P n' c' end
    | _ => False
    end.

  Lemma sound_ret P n r : sound P n (Return r) <-> P r.
  Proof. destruct n; reflexivity. Qed.
  Lemma sound_more P n : forall m c, n <= m -> sound P n c -> sound P m c.
  Proof.
    induction n as [|n IH]; intros m c L H; destruct c; cbn in *; try contradiction; [destruct m; exact H|destruct m; exact H|].
    destruct m as [|m]; [lia|]. cbn. intros g. destruct (H g) as (c' & g' & E & S'). exists c', g'. split; [exact E|]. apply IH; [lia|exact S'].
  Qed.

  Lemma nth_set (l : list (call G X)) i j c : nth_error (set_nth i c l) j = if Nat.eqb i j then (match nth_error l j with Some _ => Some c | None => None end) else nth_error l j.
  Proof.
    revert i j. induction l as [|a l IH]; intros [|i] [|j]; cbn; try reflexivity; [now destruct (Nat.eqb i j)|apply IH].
  Qed.

  Lemma run_sound (P : nat -> X -> Prop) sched : forall (cs : list (call G X)) g (b : nat -> nat),
    (forall i c, nth_error cs i = Some c -> sound (P i) (b i) c) ->
    exists g', snd (run sched (cs, Free g)) = Free g' /\ length (fst (run sched (cs, Free g))) = length cs /\
      forall i c, nth_error (fst (run sched (cs, Free g))) i = Some c -> sound (P i) (b i - count_occ Nat.eq_dec sched i) c.
  Proof.
    induction sched as [|k sched IH]; intros cs g b H; cbn [run].
    - exists g. split; [reflexivity|]. split; [reflexivity|]. intros i c I. cbn [count_occ]. rewrite Nat.sub_0_r. now apply H.
    - assert (E : exists cs1 g1, run_one k (cs, Free g) = (cs1, Free g1) /\ length cs1 = length cs /\
        forall i c, nth_error cs1 i = Some c -> sound (P i) (if Nat.eqb k i then b i - 1 else b i) c).
      { unfold run_one. cbn [fst snd]. destruct (nth_error cs k) as [c|] eqn:K.
        - pose proof (H k c K) as Sc. destruct c as [r| | |f]; cbn [step].
          + exists cs, g. split; [reflexivity|]. split; [reflexivity|]. intros i c I. destruct (Nat.eqb_spec k i) as [<-|]; [|now apply H].
            rewrite K in I. injection I as <-. apply sound_ret. now apply sound_ret in Sc.
          + destruct (b k); contradiction.
          + destruct (b k); contradiction.
          + destruct (b k) as [|n] eqn:B; [contradiction|]. cbn in Sc. destruct (Sc g) as (c' & g' & -> & S').
            exists (set_nth k c' cs), g'. split; [reflexivity|]. split; [clear; revert k; induction cs as [|a cs IH]; intros [|k]; cbn; congruence|].
            intros i c I. rewrite nth_set in I. destruct (Nat.eqb_spec k i) as [<-|]; [|now apply H].
            rewrite K in I. injection I as <-. rewrite B. cbn. rewrite Nat.sub_0_r. exact S'.
        - exists cs, g. split; [reflexivity|]. split; [reflexivity|]. intros i c I. destruct (Nat.eqb_spec k i) as [<-|]; [congruence|now apply H]. }
      destruct E as (cs1 & g1 & -> & L1 & H1). destruct (IH cs1 g1 _ H1) as (g' & A & B & C). exists g'. split; [exact A|]. split; [congruence|].
      intros i c I. specialize (C i c I). cbn [count_occ]. destruct (Nat.eqb_spec k i) as [->|Ne].
      + destruct (Nat.eq_dec i i) as [_|]; [|congruence]. eapply sound_more; [|exact C]. lia.
      + destruct (Nat.eq_dec k i) as [|_]; [congruence|]. exact C.
  Qed.
End Sound.

(** ** The calls in exact arithmetic *)
Section Calls.
  Context {G : Type} (D : draws (A := R) (G := G)).
  Local Notation mat := (list (list R)).

  Lemma once_sound P n (f : G -> mat * G) (k : mat -> call G mat) : (forall g, sound P n (k (fst (f g)))) -> sound (G := G) P (S n) (once f k).
  Proof.
    intros H. unfold once. cbn [sound]. intros g. specialize (H g). destruct (f g) as (m, g') eqn:E. cbn [fst] in H.
    exists (k m), g'. split; [reflexivity|exact H].
  Qed.
  Lemma candidates_sound P (Q : mat -> Prop) (f : G -> mat * G) n (k : list mat -> call G mat) : (forall g, Q (fst (f g))) -> (forall l, length l = n -> Forall Q l -> sound (G := G) P 0 (k l)) ->
    sound P n (candidates f n [] k).
  Proof.
    intros HQ. assert (H : forall m acc, Forall Q acc -> (forall l, length l = m + length acc -> Forall Q l -> sound (G := G) P 0 (k l)) -> sound P m (candidates f m acc k)).
    { induction m as [|m IH]; intros acc Fa Hk; cbn [candidates].
      - apply Hk; [now rewrite rev_length|]. now apply Forall_rev.
      - apply once_sound. intros g. apply IH; [constructor; [apply HQ|exact Fa]|]. intros l L. apply Hk. cbn [length] in L. lia. }
    intros Hk. apply H; [constructor|]. intros l L. apply Hk. cbn [length] in L. lia.
  Qed.

  (** Pairs of different rows are drawn. *)
  Definition pairs_ok : Prop := forall n g, 2 <= n -> exists i j g', d_pair D n g = Some (i, j, g') /\ i < n /\ j < n /\ i <> j.
  Lemma pairs_draw (H : pairs_ok) n j : 2 <= n -> forall g, exists ps g', d_pairs D j n g = Some (ps, g') /\ length ps = j /\
    Forall (fun q => fst q < n /\ snd q < n /\ fst q <> snd q) ps.
  Proof.
    intros N. induction j as [|j IH]; intros g; cbn [d_pairs]; [exists [], g; auto|].
    destruct (H n g N) as (a & b & g1 & -> & A1 & B1 & Ne). cbn [fst snd]. destruct (IH g1) as (ps & g2 & -> & L & F). cbn [fst snd].
    exists ((a, b) :: ps), g2. split; [reflexivity|]. split; [cbn; lia|]. constructor; [cbn; tauto|exact F].
  Qed.

  Section Ese.
    Context (H : pairs_ok) (n nx : nat) (N : 2 <= n) (Nx : 1 <= nx) (lhs : mat) (Sh : shape n nx lhs) (Dv : distinct_values lhs).
    Lemma inner_sound P k : forall m b i s, good lhs s -> (forall s', good lhs s' -> sound (G := G) P b (k s')) -> sound P (m + b) (inner_calls R_arith D nx n m i s k).
    Proof.
      induction m as [|m IH]; intros b i s Gs Hk; cbn [inner_calls Nat.add]; [now apply Hk|].
      cbn [sound]. intros g. unfold inner_section. rewrite (proj2 (Nat.eqb_neq n 0)) by lia.
      destruct (pairs_draw H n 20 N g) as (ps & g1 & -> & L & F). destruct (d_unif D g1) as (u, g2).
      destruct (inner_good n nx lhs Sh Nx Dv i (ps, u) s Gs) as (s' & -> & G').
      - cbn [fst]. destruct ps; [discriminate|discriminate].
      - exact F.
      - eexists _, g2. split; [reflexivity|]. now apply IH.
    Qed.
    Lemma outer_sound inner m : forall s, good lhs s -> sound (G := G) (fun x => same_columns lhs x /\ (criterion x <= criterion lhs)%R) (m * inner) (outer_calls R_arith D nx n inner m s).
    Proof.
      induction m as [|m IH]; intros s Gs; cbn [outer_calls].
      - cbn [Nat.mul sound]. destruct Gs as (F & _ & _ & C). split; [apply F|exact C].
      - cbn [Nat.mul]. apply inner_sound; [exact Gs|]. intros s' G'. apply IH. exact G'.
    Qed.
  End Ese.
End Calls.

Section Methods.
  Context {G : Type} (D : draws (A := R) (G := G)).
  Lemma classic_columns_ok (H : draws_ok D) n nx g : 1 <= n -> columns_from n nx (in_section n) (fst (classic_section R_arith D n nx g)).
  Proof.
    intros N. unfold classic_section. destruct H as (H & _). specialize (H n nx g). destruct (d_classic D n nx g) as ((rnd, sw), g').
    cbn [fst] in *. now apply classic_R.
  Qed.
  Lemma centered_columns_ok n nx g : 1 <= n -> columns_from n nx (in_section n) (fst (centered_section R_arith D n nx g)).
  Proof. intros N. unfold centered_section. destruct (d_centered D n nx g) as (sw, g'). cbn [fst]. now apply centered_R. Qed.

  Lemma maximin_sound (f : G -> list (list R) * G) n nx : 2 <= n -> (forall g, columns_from n nx (in_section n) (fst (f g))) ->
    sound (fun x => latin n nx x /\ best_of (fun y => exists g, y = fst (f g)) x) 5 (maximin_call R_arith f).
  Proof.
    intros N H. unfold maximin_call.
    apply candidates_sound with (Q := fun y => exists g, y = fst (f g)); [eauto|].
    intros [|first cands] L F; [discriminate|]. unfold maximin_end.
    assert (Fc : Forall (columns_from n nx (in_section n)) (first :: cands)).
    { eapply Forall_impl; [|exact F]. intros y (g & ->). apply H. }
    assert (Lr : forall c, In c (first :: cands) -> 2 <= length c).
    { intros c C. rewrite Forall_forall in Fc. destruct (Fc c C) as ((Ln & _) & _). lia. }
    destruct (maximin_of_some first cands) as (m & E).
    - apply Lr. now left.
    - apply Forall_forall. intros c C. apply Lr. now right.
    - rewrite E. cbn [sound]. pose proof (maximin_of_spec _ _ _ E) as Sp. apply maximin_of_in in E. rewrite Forall_forall in Fc.
      split; [apply columns_latin; [lia|]; now apply Fc|]. exists (first :: cands). repeat split; [exact L|exact F|exact E|exact Sp].
  Qed.

  Lemma sound_imp {X} (P Q : X -> Prop) b : forall c, (forall x, P x -> Q x) -> sound (G := G) P b c -> sound Q b c.
  Proof.
    induction b as [|b IH]; intros c I S; destruct c; cbn in *; try contradiction; auto.
    intros h. destruct (S h) as (c' & g' & E & S'). exists c', g'. split; [exact E|now apply IH].
  Qed.

  Lemma sample_sound (H : draws_ok D) m n nx : 2 <= n -> 1 <= nx -> sound (result_ok D m n nx) (1 + 30 * 100) (sample_call R_arith D m n nx).
  Proof.
    intros N Nx. destruct m; cbn [sample_call]; unfold result_ok; cbv zeta.
    - eapply sound_more; [|apply (once_sound _ 0)]; [lia|]. intros g. cbn [sound]. split; [apply columns_latin; [lia|]; now apply classic_columns_ok; [|lia]|eauto].
    - eapply sound_more; [|apply (once_sound _ 0)]; [lia|]. intros g. cbn [sound]. split; [apply columns_latin; [lia|]; apply centered_columns_ok; lia|eauto].
    - eapply sound_more; [|apply maximin_sound]; [lia|exact N|]. intros g. apply classic_columns_ok; [exact H|lia].
    - eapply sound_more; [|apply maximin_sound]; [lia|exact N|]. intros g. apply centered_columns_ok. lia.
    - unfold optimized_call. apply once_sound. intros g. pose proof (classic_columns_ok H n nx g ltac:(lia)) as C.
      assert (Ex : exists g0, fst (classic_section R_arith D n nx g) = fst (classic_section R_arith D n nx g0)) by eauto.
      set (lhs := fst (classic_section R_arith D n nx g)) in *. clearbody lhs.
      assert (S1 : sound (G := G) (fun x => same_columns lhs x /\ (criterion x <= criterion lhs)%R) (Nat.min (3 * nx / 2) 30 * Nat.min (20 * nx) 100)
        (outer_calls R_arith D nx n (Nat.min (20 * nx) 100) (Nat.min (3 * nx / 2) 30) (ese_start R_arith lhs))).
      { apply outer_sound; [exact (proj2 H)|exact N|exact Nx|apply C|now apply (columns_distinct n nx); [lia|]|].
        unfold good, from, ese_start. cbn [e_own e_best e_phip e_phip_best]. rewrite phip_R.
        repeat split; try apply same_columns_refl. apply Rle_refl. }
      eapply sound_imp; [|eapply sound_more; [|exact S1]; apply Nat.mul_le_mono; apply Nat.le_min_r].
      intros x (Sc & Cr). split; [apply columns_latin; [lia|]; eapply columns_from_same; eauto|]. exists lhs. auto.
    - eapply sound_more; [|apply (once_sound _ 0)]; [lia|]. intros g. cbn [sound]. unfold random_section. destruct (d_random D n nx g) as (rnd, g'). cbn [fst].
      split; [unfold random_sample; now rewrite map_length, seq_length|]. apply Forall_forall. intros r I. apply in_map_iff in I. destruct I as (i & <- & _).
      now rewrite map_length, seq_length.
  Qed.
End Methods.

(** ** Calls made of one section *)
Section Atomic.
  Context {G X : Type}.
  Definition atomic (c : call G X) : Prop := exists f, c = Critical f /\ forall g, exists r g', f g = Done (Return r) g'.
  Definition over (c : call G X) : Prop := exists r, c = Return r.

  Lemma over_noop i (s : list (call G X) * lock G) c : nth_error (fst s) i = Some c -> over c -> run_one i s = s.
  Proof. intros E (r & ->). unfold run_one. rewrite E. destruct s. reflexivity. Qed.
  Lemma atomic_run i cs g c : nth_error cs i = Some c -> atomic c -> exists r g', run_one i (cs, Free g) = (set_nth i (Return r) cs, Free (G := G) g').
  Proof.
    intros E (f & -> & H). unfold run_one. cbn [fst snd]. rewrite E. cbn [step]. destruct (H g) as (r & g' & ->). eauto.
  Qed.
  Lemma over_noops i k (s : list (call G X) * lock G) c : nth_error (fst s) i = Some c -> over c -> run (repeat i k) s = s.
  Proof. intros E O. induction k as [|k IH]; cbn [repeat run]; [reflexivity|]. rewrite (over_noop i s c E O). exact IH. Qed.
  Lemma run_app a b (s : list (call G X) * lock G) : run (a ++ b) s = run b (run a s).
  Proof. revert s. induction a as [|i a IH]; intros s; cbn [app run]; [reflexivity|apply IH]. Qed.

  Fixpoint firsts (n : nat) (done : list nat) (sched : list nat) : list nat :=
    match sched with
    | [] => []
    | i :: rest => if existsb (Nat.eqb i) done || (n <=? i) then firsts n done rest else i :: firsts n (i :: done) rest
    end.
  Lemma in_existsb i l : existsb (Nat.eqb i) l = true <-> In i l.
  Proof.
    rewrite existsb_exists. split; [intros (x & I & E); apply Nat.eqb_eq in E; now subst|]. intros I. exists i. split; [exact I|apply Nat.eqb_refl].
  Qed.
  Lemma firsts_run n sched : forall done cs g, length cs = n ->
    (forall i c, nth_error cs i = Some c -> (In i done /\ over c) \/ (~ In i done /\ atomic c)) ->
    run sched (cs, Free g) = run (firsts n done sched) (cs, Free (G := G) g).
  Proof.
    induction sched as [|i sched IH]; intros done cs g L H; cbn [run firsts]; [reflexivity|].
    destruct (existsb (Nat.eqb i) done) eqn:E; cbn [orb].
    - apply in_existsb in E. destruct (nth_error cs i) as [c|] eqn:C.
      + destruct (H i c C) as [(_ & O)|(No & _)]; [|contradiction]. rewrite (over_noop i (cs, Free g) c C O). now apply IH.
      + unfold run_one at 1. cbn [fst]. rewrite C. now apply IH.
    - assert (Ni : ~ In i done) by (intros I; apply in_existsb in I; congruence). destruct (n <=? i) eqn:B.
      + apply Nat.leb_le in B. unfold run_one at 1. cbn [fst]. rewrite (proj2 (nth_error_None cs i)) by lia. now apply IH.
      + apply Nat.leb_gt in B. cbn [run]. destruct (nth_error cs i) as [c|] eqn:C; [|apply nth_error_None in C; lia].
        destruct (H i c C) as [(I & _)|(_ & At)]; [contradiction|]. destruct (atomic_run i cs g c C At) as (r & g' & ->).
        apply IH.
        * rewrite <- L. clear. revert i. induction cs as [|a cs IH]; intros [|i]; cbn; congruence.
        * intros j d J. rewrite nth_set in J. destruct (Nat.eqb_spec i j) as [<-|Ne].
          -- rewrite C in J. injection J as <-. left. split; [now left|]. now exists r.
          -- destruct (H j d J) as [(I & O)|(I & O)]; [left; split; [now right|exact O]|right; split; [intros [T|T]; congruence|exact O]].
  Qed.
  Lemma firsts_spec n sched : forall done, NoDup (firsts n done sched) /\
    (forall i, In i (firsts n done sched) <-> In i sched /\ i < n /\ ~ In i done).
  Proof.
    induction sched as [|k sched IH]; intros done; cbn [firsts].
    - split; [constructor|]. intros i. cbn. tauto.
    - destruct (existsb (Nat.eqb k) done || (n <=? k)) eqn:E.
      + destruct (IH done) as (Nd & Hi). split; [exact Nd|]. intros i. rewrite Hi. cbn [In]. split; [tauto|]. intros ([->|I] & B & No); [|tauto].
        exfalso. apply orb_true_iff in E. destruct E as [E|E]; [now apply in_existsb in E|apply Nat.leb_le in E; lia].
      + apply orb_false_iff in E. destruct E as (E1 & E2). apply Nat.leb_gt in E2. assert (Nk : ~ In k done) by (intros I; apply in_existsb in I; congruence).
        destruct (IH (k :: done)) as (Nd & Hi). split.
        * constructor; [|exact Nd]. rewrite Hi. cbn [In]. tauto.
        * intros i. cbn [In]. rewrite Hi. cbn [In]. destruct (Nat.eq_dec k i) as [->|]; tauto.
  Qed.
  Lemma blocks_run k order : 1 <= k -> forall cs g, NoDup order ->
    (forall i, In i order -> exists c, nth_error cs i = Some c /\ atomic c) ->
    run (flat_map (fun i => repeat i k) order) (cs, Free g) = run order (cs, Free (G := G) g).
  Proof.
    intros K. induction order as [|i order IH]; intros cs g Nd H; cbn [flat_map run]; [reflexivity|].
    destruct (H i (or_introl eq_refl)) as (c & C & At). destruct (atomic_run i cs g c C At) as (r & g' & E).
    rewrite run_app. destruct k as [|k]; [lia|]. cbn [repeat run]. rewrite E.
    assert (R : nth_error (fst (set_nth i (Return r) cs, Free (G := G) g')) i = Some (Return r)).
    { cbn [fst]. rewrite nth_set, Nat.eqb_refl, C. reflexivity. }
    rewrite (over_noops i k _ _ R); [|now exists r]. inversion Nd as [|? ? Ni Nd']. subst. apply IH; [exact Nd'|].
    intros j J. destruct (H j (or_intror J)) as (d & Dj & Aj). exists d. split; [|exact Aj]. rewrite nth_set.
    destruct (Nat.eqb_spec i j) as [->|]; [contradiction|exact Dj].
  Qed.

  Lemma atomic_schedules cs g sched : Forall atomic cs -> (forall i, i < length cs -> In i sched) ->
    exists order, Permutation order (seq 0 (length cs)) /\
      forall k, 1 <= k -> run sched (cs, Free g) = run (flat_map (fun i => repeat i k) order) (cs, Free (G := G) g).
  Proof.
    intros At Ha. rewrite Forall_forall in At. set (n := length cs) in *. destruct (firsts_spec n sched []) as (Nd & Hi).
    exists (firsts n [] sched). split.
    - apply NoDup_Permutation; [exact Nd|apply seq_NoDup|]. intros i. rewrite Hi, in_seq. cbn. specialize (Ha i). lia || (split; [lia|]; intros; split; [apply Ha; lia|split; [lia|tauto]]).
    - intros k K. rewrite blocks_run; [|exact K|exact Nd|].
      + apply firsts_run; [reflexivity|]. intros i c C. right. split; [intros []|]. apply At. eapply nth_error_In; eauto.
      + intros i I. apply Hi in I. destruct (nth_error cs i) as [c|] eqn:C; [|apply nth_error_None in C; lia]. exists c. split; [reflexivity|]. apply At. eapply nth_error_In; eauto.
  Qed.
End Atomic.

Lemma sample_atomic {A G} (ar : arith A) (D : draws (A := A) (G := G)) m ns nx :
  m = Classic \/ m = Centered \/ m = RandomPoints -> atomic (sample_call ar D m ns nx).
Proof.
  intros [->|[->| ->]]; cbn [sample_call]; unfold once; (eexists; split; [reflexivity|]); intros g; cbv beta.
  - destruct (classic_section ar D ns nx g) as (r, g'). eauto.
  - destruct (centered_section ar D ns nx g) as (r, g'). eauto.
  - destruct (random_section D ns nx g) as (r, g'). eauto.
Qed.
Lemma sample_critical {A G} (ar : arith A) (D : draws (A := A) (G := G)) m ns nx : exists f, sample_call ar D m ns nx = Critical f.
Proof. destruct m; cbn; eexists; reflexivity. Qed.

(** ** After a panic or an endless section *)
Lemma poisoned_run {G X} sched : forall (cs : list (call G X)) i f, nth_error cs i = Some (Critical f) -> In i sched ->
  nth_error (fst (run sched (cs, Poisoned))) i = Some Fail.
Proof.
  assert (Keep : forall sched (cs : list (call G X)) i, nth_error cs i = Some Fail -> nth_error (fst (run sched (cs, Poisoned))) i = Some Fail).
  { clear. induction sched as [|k sched IH]; intros cs i E; cbn [run]; [exact E|]. unfold run_one at 1. cbn [fst snd].
    destruct (nth_error cs k) as [c|] eqn:C; [|now apply IH]. destruct c; cbn [step]; try (now apply IH). apply IH. rewrite nth_set.
    destruct (Nat.eqb_spec k i) as [<-|]; [now rewrite E|exact E]. }
  induction sched as [|k sched IH]; intros cs i f E I; [destruct I|]. cbn [run]. unfold run_one at 1. cbn [fst snd].
  destruct (Nat.eq_dec k i) as [->|Ne].
  - rewrite E. cbn [step]. apply Keep. rewrite nth_set, Nat.eqb_refl, E. reflexivity.
  - destruct I as [I|I]; [congruence|]. destruct (nth_error cs k) as [c|] eqn:C; [|now apply (IH _ _ f)].
    destruct c; cbn [step]; try (now apply (IH _ _ f)). apply (IH _ _ f); [|exact I]. rewrite nth_set.
    destruct (Nat.eqb_spec k i) as [|]; [congruence|exact E].
Qed.
Lemma held_run {G X} sched (cs : list (call G X)) : run sched (cs, Held) = (cs, Held).
Proof.
  induction sched as [|k sched IH]; cbn [run]; [reflexivity|]. unfold run_one at 1. cbn [fst snd].
  destruct (nth_error cs k) as [c|]; [|exact IH]. destruct c; cbn [step]; exact IH.
Qed.
