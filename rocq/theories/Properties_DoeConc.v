(** C154, C155: sampling methods used by several threads, and clones of sampling methods. *)
From Coq Require Import Reals Lra List Arith Bool ZArith Lia Permutation.
From Flocq Require Import Core BinarySingleNaN.
From Verif Require Import Util F64 Doe_Model Doe_Spec Doe_Real DoeConc_Model DoeConc_Spec DoeConc_Proofs.
Import ListNotations.
Local Open Scope nat_scope.

(** ** C154: threads that share a sampling method each get a design *)

(** Any number of threads, any requests of at least two points, any schedule: the lock is free whenever no section runs, no call panics, a
    call that has returned has returned a design of the requested size and kind, and a thread that has had its turn often enough has
    returned, whatever the others do. *)
Theorem C154_threads_partial {G} (D : draws (A := R) (G := G)) (g : G) (reqs : list request) (sched : list nat) :
  draws_ok D -> Forall (fun r : request => 2 <= snd (fst r) /\ 1 <= snd r) reqs ->
  let s := run sched (map (fun r : request => sample_call R_arith D (fst (fst r)) (snd (fst r)) (snd r)) reqs, Free g) in
  (exists g', snd s = Free g') /\
  forall i m n nx, nth_error reqs i = Some (m, n, nx) ->
    exists c, nth_error (fst s) i = Some c /\
      ((exists x, c = Return x /\ result_ok D m n nx x) \/ (exists f, c = Critical f /\ count_occ Nat.eq_dec sched i < 1 + 30 * 100)).
Proof.
  intros Dk Rq.
  assert (Sd : forall m n nx, 2 <= n -> 1 <= nx -> sound (result_ok D m n nx) (1 + 30 * 100) (sample_call R_arith D m n nx)).
  { intros m n nx N Nx. exact (sample_sound D Dk m n nx N Nx). }
  revert Sd. generalize (1 + 30 * 100). intros b Sd s.
  set (P := fun i x => match nth_error reqs i with Some (m, n, nx) => result_ok D m n nx x | None => False end).
  destruct (run_sound P sched (map (fun r : request => sample_call R_arith D (fst (fst r)) (snd (fst r)) (snd r)) reqs) g (fun _ => b)) as (g' & E & L & H).
  { intros i c I. rewrite nth_error_map in I. unfold P. destruct (nth_error reqs i) as [((m, n), nx)|] eqn:Q; cbn [option_map] in I; [|discriminate I]. injection I as <-.
    cbn [fst snd]. rewrite Forall_forall in Rq. destruct (Rq _ (nth_error_In _ _ Q)) as (N & Nx). cbn [fst snd] in N, Nx. now apply Sd. }
  fold s in E, L, H. split; [eauto|]. intros i m n nx Q. destruct (nth_error (fst s) i) as [c|] eqn:C.
  2: { apply nth_error_None in C. rewrite L, map_length in C. apply nth_error_None in C. congruence. }
  exists c. split; [reflexivity|]. specialize (H i c C). cbv beta in H. destruct c as [x| | |f].
  - left. exists x. split; [reflexivity|]. apply sound_ret in H. unfold P in H. now rewrite Q in H.
  - destruct (b - count_occ Nat.eq_dec sched i); contradiction H.
  - destruct (b - count_occ Nat.eq_dec sched i); contradiction H.
  - right. exists f. split; [reflexivity|]. destruct (b - count_occ Nat.eq_dec sched i) eqn:B; [contradiction H|lia].
Qed.

(** Classic, centered and random designs, in any arithmetic: whatever the schedule, the calls give what they would have given one after the
    other, in some order. *)
Theorem C154_sequential_partial {A G} (ar : arith A) (D : draws (A := A) (G := G)) (g : G) (reqs : list request) (sched : list nat) :
  Forall (fun r : request => fst (fst r) = Classic \/ fst (fst r) = Centered \/ fst (fst r) = RandomPoints) reqs ->
  (forall i, i < length reqs -> In i sched) ->
  let calls := map (fun r : request => sample_call ar D (fst (fst r)) (snd (fst r)) (snd r)) reqs in
  exists order, Permutation order (seq 0 (length reqs)) /\
    forall k, 1 <= k -> run sched (calls, Free g) = run (in_turn k order) (calls, Free g).
Proof.
  intros F Ha calls. assert (L : length calls = length reqs) by apply map_length. rewrite <- L. unfold in_turn. apply atomic_schedules.
  - unfold calls. apply Forall_map. rewrite Forall_forall in F |- *. intros r I. apply sample_atomic. now apply F.
  - rewrite L. exact Ha.
Qed.

(** Maximin designs take the lock once for each candidate, so two calls made at the same time share the candidates out. *)
Definition toy : draws (A := f64) (G := nat) := {|
  d_classic := fun n nx g => (fun _ => [fzero; fmake (Z.of_nat g) (-4)], fun _ => [], S g);
  d_centered := fun n nx g => (fun _ => [], S g);
  d_random := fun n nx g => (fun _ _ => fzero, S g);
  d_pair := fun n g => if 2 <=? n then Some (0, 1, S g) else None;
  d_unif := fun g => (fzero, S g) |}.
Definition ar64 : arith f64 := f64_arith (fun a _ => a) (fun a => Bsqrt mode_NE a).
Definition seen (s : list (call nat (list (list f64))) * lock nat) : list (option (list (list Z))) :=
  map (option_map (map (map (fun v => Btrunc (fmul (fofZ 32) v))))) (designs s).

Lemma seen_return s i m : nth_error (seen s) i = Some (Some m) -> exists c, nth_error (fst s) i = Some c /\ over c.
Proof.
  unfold seen, designs. rewrite nth_error_map, nth_error_map. destruct (nth_error (fst s) i) as [[r| | |f]|]; cbn; try discriminate.
  intros _. eexists. split; [reflexivity|]. now exists r.
Qed.
Lemma more_turns i a b s m : nth_error (seen (run (repeat i a) s)) i = Some (Some m) -> run (repeat i (a + b)) s = run (repeat i a) s.
Proof.
  intros E. rewrite repeat_app, run_app. destruct (seen_return _ _ _ E) as (c & C & O). now apply (over_noops i b _ c).
Qed.
Lemma two_turns i j a b s m m' : nth_error (seen (run (repeat i a) s)) i = Some (Some m) ->
  nth_error (seen (run (repeat i a ++ repeat j a) s)) j = Some (Some m') ->
  run (in_turn (a + b) [i; j]) s = run (in_turn a [i; j]) s.
Proof.
  intros E1 E2. unfold in_turn. cbn [flat_map]. rewrite !app_nil_r, run_app, (more_turns i a b s m E1).
  rewrite run_app in E2. rewrite (more_turns j a b _ m' E2). now rewrite <- run_app.
Qed.
Theorem C154_interleaved_refuted :
  exists (D : draws (A := f64) (G := nat)) (g : nat) (reqs : list request) (sched : list nat),
    Forall (fun r : request => 2 <= snd (fst r) /\ 1 <= snd r) reqs /\
    let s := (map (fun r : request => sample_call ar64 D (fst (fst r)) (snd (fst r)) (snd r)) reqs, Free g) in
    (forall x, In x (designs (run sched s)) -> x <> None) /\
    forall order k, Permutation order (seq 0 (length reqs)) -> designs (run sched s) <> designs (run (in_turn k order) s).
Proof.
  exists toy, 0, [(Maximin, 2, 1); (Maximin, 2, 1)], [0; 1; 0; 1; 0; 1; 0; 1; 0; 1]. split; [repeat constructor|]. cbn [map length seq fst snd].
  set (s := ([sample_call ar64 toy Maximin 2 1; sample_call ar64 toy Maximin 2 1], Free 0)). cbv zeta. split.
  - assert (E : forallb (fun x => match x with Some _ => true | None => false end) (designs (run [0; 1; 0; 1; 0; 1; 0; 1; 0; 1] s)) = true) by (vm_compute; reflexivity).
    rewrite forallb_forall in E. intros x I ->. specialize (E _ I). discriminate E.
  - intros order k Pm E.
    assert (Q : seen (run (in_turn k order) s) = [Some [[0%Z]; [24%Z]]; Some [[0%Z]; [25%Z]]]).
    { unfold seen. rewrite <- E. vm_compute. reflexivity. }
    clear E. assert (O : order = [0; 1] \/ order = [1; 0]).
    { apply Permutation_length_2_inv. now symmetry. }
    destruct (le_lt_dec 5 k) as [K|K].
    + replace k with (5 + (k - 5)) in Q by lia. destruct O as [-> | ->].
      * rewrite (two_turns 0 1 5 (k - 5) s [[0%Z]; [20%Z]] [[0%Z]; [25%Z]]) in Q; [|vm_compute; reflexivity|vm_compute; reflexivity].
        assert (X : seen (run (in_turn 5 [0; 1]) s) = [Some [[0%Z]; [20%Z]]; Some [[0%Z]; [25%Z]]]) by (vm_compute; reflexivity). rewrite X in Q. discriminate Q.
      * rewrite (two_turns 1 0 5 (k - 5) s [[0%Z]; [20%Z]] [[0%Z]; [25%Z]]) in Q; [|vm_compute; reflexivity|vm_compute; reflexivity].
        assert (X : seen (run (in_turn 5 [1; 0]) s) = [Some [[0%Z]; [25%Z]]; Some [[0%Z]; [20%Z]]]) by (vm_compute; reflexivity). rewrite X in Q. discriminate Q.
    + assert (T : forall k', k' < 5 -> forallb (fun x => match x with Some _ => true | None => false end) (seen (run (in_turn k' order) s)) = false).
      { intros k' K'. destruct O as [-> | ->]; do 5 (destruct k' as [|k']; [vm_compute; reflexivity|]); lia. }
      specialize (T k K). rewrite Q in T. discriminate T.
Qed.

(** A request of an optimized design without any point panics while it holds the lock: from then on every other call on the method or on a
    clone panics, of whatever kind and size it is. *)
Theorem C154_poison_refuted {A G} (ar : arith A) (D : draws (A := A) (G := G)) (g : G) (nx : nat) (m : method) (n' nx' : nat) (rest : list nat) :
  1 <= nx -> In 1 rest ->
  nth_error (fst (run ([0; 0] ++ rest) ([sample_call ar D Optimized 0 nx; sample_call ar D m n' nx'], Free g))) 1 = Some Fail.
Proof.
  intros Nx I. rewrite run_app. destruct (sample_critical ar D m n' nx') as (f & ->).
  assert (E : run [0; 0] ([sample_call ar D Optimized 0 nx; Critical f], Free g) = ([Fail; Critical f], Poisoned)).
  { cbn [sample_call]. unfold optimized_call, once. cbn [run]. unfold run_one at 2. cbn [fst snd nth_error step].
    destruct (classic_section ar D 0 nx g) as (x, g1). cbn [set_nth]. unfold run_one. cbn [fst snd nth_error].
    destruct (Nat.min (3 * nx / 2) 30) as [|o] eqn:Eo.
    { exfalso. assert (1 <= 3 * nx / 2) by (apply Nat.div_le_lower_bound; lia). lia. }
    cbn [outer_calls]. destruct (Nat.min (20 * nx) 100) as [|i] eqn:Ei; [lia|]. reflexivity. }
  rewrite E. now apply poisoned_run with (f := f).
Qed.

(** With one point, it looks for two different rows and never finds them: it never returns, and as it holds the lock, no other call
    begins. *)
Theorem C154_hang_refuted {A G} (ar : arith A) (D : draws (A := A) (G := G)) (g : G) (nx : nat) (c : call G (list (list A))) (rest : list nat) :
  1 <= nx -> (forall h, d_pair D 1 h = None) ->
  fst (run ([0; 0] ++ rest) ([sample_call ar D Optimized 1 nx; c], Free g)) = [Stuck; c].
Proof.
  intros Nx Hp. rewrite run_app.
  assert (E : run [0; 0] ([sample_call ar D Optimized 1 nx; c], Free g) = ([Stuck; c], Held)).
  { cbn [sample_call]. unfold optimized_call, once. cbn [run]. unfold run_one at 2. cbn [fst snd nth_error step].
    destruct (classic_section ar D 1 nx g) as (x, g1). cbn [set_nth]. unfold run_one. cbn [fst snd nth_error].
    destruct (Nat.min (3 * nx / 2) 30) as [|o] eqn:Eo.
    { exfalso. assert (1 <= 3 * nx / 2) by (apply Nat.div_le_lower_bound; lia). lia. }
    cbn [outer_calls]. destruct (Nat.min (20 * nx) 100) as [|i] eqn:Ei; [lia|]. cbn [inner_calls step]. unfold inner_section. cbn [Nat.eqb d_pairs].
    rewrite Hp. reflexivity. }
  rewrite E, held_run. reflexivity.
Qed.

(** Non-vacuity: a generator whose draws are as required; two threads. *)
Definition toyR : draws (A := R) (G := nat) := {|
  d_classic := fun n nx g => (fun _ => repeat (/ INR (2 + g))%R n, fun _ => [(0, g)], S g);
  d_centered := fun n nx g => (fun _ => [(1, g)], S g);
  d_random := fun n nx g => (fun i j => (/ INR (2 + g + i + j))%R, S g);
  d_pair := fun n g => if 2 <=? n then Some (0, 1, S g) else None;
  d_unif := fun g => (/ INR (2 + g), S g)%R |}.
Example C154_example :
  draws_ok toyR /\ (forall h, d_pair toyR 1 h = None) /\
  seen (run [0; 1; 0; 1; 0; 0; 0] ([sample_call ar64 toy Maximin 2 1; sample_call ar64 toy Classic 2 1], Free 5)) = [Some [[0%Z]; [26%Z]]; Some [[0%Z]; [22%Z]]].
Proof.
  split; [|split; [reflexivity|vm_compute; reflexivity]]. split.
  - intros n nx g j _. cbn [toyR d_classic fst]. split; [apply repeat_length|]. apply Forall_forall. intros u U. apply repeat_spec in U. subst u.
    assert (B : (1 < INR (2 + g))%R) by (rewrite plus_INR; cbn [INR]; pose proof (pos_INR g); lra). split.
    + left. apply Rinv_0_lt_compat. lra.
    + rewrite <- Rinv_1. apply Rinv_lt_contravar; lra.
  - intros n g N. cbn [toyR d_pair]. rewrite (proj2 (Nat.leb_le 2 n) N). exists 0, 1, (S g). split; [reflexivity|lia].
Qed.

(** ** C155: a clone of a seeded sampling method draws the same designs *)

(** The clone shares the generator of the original: what one draws, the other does not draw any more. *)
Theorem C155_clone_refuted :
  exists (D : draws (A := f64) (G := nat)) (g : nat),
    let (m, locks) := new_method g ([] : list (lock nat)) in
    let c := sample_call ar64 D Classic 2 1 in
    exists x y, session 1 [(m, c); (clone_method m, c)] locks = [Some x; Some y] /\
      session 1 [(m, c)] locks = [Some x] /\ x <> y.
Proof.
  exists toy, 5. cbn [new_method length app]. set (c := sample_call ar64 toy Classic 2 1).
  assert (E : forall b, map (option_map (map (map (fun v => Btrunc (fmul (fofZ 32) v))))) (session 1 ((0, c) :: if b : bool then [(clone_method 0, c)] else []) [Free 5]) =
    Some [[0%Z]; [21%Z]] :: if b then [Some [[0%Z]; [22%Z]]] else []) by (intros [|]; vm_compute; reflexivity).
  pose proof (E true) as E1. cbv iota in E1. clear E.
  assert (Sx : exists x l, session 1 [(0, c)] [Free 5] = [x] /\ session 1 [(0, c); (clone_method 0, c)] [Free 5] = x :: l).
  { cbn [session]. destruct (sample_on 1 c 0 [Free 5]) as (x, l). eauto. }
  destruct Sx as (x & l & S1 & S2). rewrite S2, S1. rewrite S2 in E1. destruct x as [x|]; [|discriminate E1]. destruct l as [|[y|] [|]]; try discriminate E1.
  exists x, y. split; [reflexivity|]. split; [reflexivity|]. intros ->. cbn in E1. congruence.
Qed.

Lemma sample_other {G X} fuel (c : call G X) m m' locks : m <> m' -> nth_error (snd (sample_on fuel c m locks)) m' = nth_error locks m'.
Proof.
  intros Ne. unfold sample_on. destruct (nth_error locks m) as [l|]; [|reflexivity]. destruct (run (repeat 0 fuel) ([c], l)) as (cs, l'). cbn [snd].
  revert m m' Ne. clear. induction locks as [|a locks IH]; intros [|m] [|m'] Ne; cbn; try reflexivity; [congruence|apply IH; congruence].
Qed.
Lemma sample_same {G X} fuel (c : call G X) m m' locks locks' : nth_error locks m = nth_error locks' m' ->
  fst (sample_on fuel c m locks) = fst (sample_on fuel c m' locks') /\
  nth_error (snd (sample_on fuel c m locks)) m = nth_error (snd (sample_on fuel c m' locks')) m'.
Proof.
  intros E. unfold sample_on. rewrite E. destruct (nth_error locks' m') as [l|] eqn:E'; [|cbn; now rewrite E]. destruct (run (repeat 0 fuel) ([c], l)) as (cs, l'). cbn [fst snd].
  split; [reflexivity|].
  assert (H : forall (k : nat) (ls : list (lock G)) v, nth_error ls k = Some v -> nth_error (set_nth k l' ls) k = Some l').
  { clear. induction k as [|k IH]; intros [|a ls] v Q; cbn in *; try discriminate; [reflexivity|]. eapply IH; eauto. }
  rewrite (H m locks l E), (H m' locks' l E'). reflexivity.
Qed.

(** Two methods made from equal generators give the same designs to the same requests, whatever is asked of other methods in between. *)
Theorem C155_twins_partial {G X} (fuel : nat) (ops : list (nat * call G X)) (m m' : nat) (locks locks' : list (lock G)) :
  nth_error locks m = nth_error locks' m' ->
  map snd (filter (fun q => fst q =? m) (combine (map fst ops) (session fuel ops locks))) =
  session fuel (map (fun q => (m', snd q)) (filter (fun q => fst q =? m) ops)) locks'.
Proof.
  revert locks locks'. induction ops as [|(k, c) ops IH]; intros locks locks' E; [reflexivity|]. cbn [session map fst].
  destruct (sample_on fuel c k locks) as (r, l1) eqn:S1. cbn [combine filter fst]. destruct (Nat.eqb_spec k m) as [->|Ne].
  - cbn [map snd session]. destruct (sample_same fuel c m m' locks locks' E) as (Ef & Es). rewrite S1 in Ef, Es. cbn [fst snd] in Ef, Es.
    destruct (sample_on fuel c m' locks') as (r', l2). cbn [fst snd] in Ef, Es. subst r'. f_equal. now apply IH.
  - apply IH. rewrite <- E. rewrite <- (sample_other fuel c k m locks Ne). now rewrite S1.
Qed.
Theorem C155_new_partial {G X} (fuel : nat) (g : G) (calls : list (call G X)) (locks : list (lock G)) :
  let (m1, locks1) := new_method g locks in
  let (m2, locks2) := new_method g locks1 in
  session fuel (map (fun c => (m1, c)) calls ++ map (fun c => (m2, c)) calls) locks2 =
  session fuel (map (fun c => (m1, c)) calls) locks1 ++ session fuel (map (fun c => (m1, c)) calls) locks1.
Proof.
  unfold new_method. cbn [fst snd]. set (m1 := length locks). set (m2 := length (locks ++ [Free g])).
  assert (M2 : m2 = S m1) by (unfold m2, m1; rewrite app_length; cbn; lia).
  assert (N1 : forall tl, nth_error ((locks ++ [Free g]) ++ tl) m1 = Some (Free g)).
  { intros tl. rewrite <- app_assoc. unfold m1. rewrite nth_error_app2 by lia. now rewrite Nat.sub_diag. }
  assert (N2 : nth_error ((locks ++ [Free g]) ++ [Free g]) m2 = Some (Free g)).
  { unfold m2. rewrite nth_error_app2 by lia. now rewrite Nat.sub_diag. }
  assert (Gen : forall cs l l', nth_error l m1 = nth_error l' m1 -> nth_error l m2 = Some (Free g) ->
    session fuel (map (fun c => (m1, c)) cs ++ map (fun c => (m2, c)) calls) l =
    session fuel (map (fun c => (m1, c)) cs) l' ++ session fuel (map (fun c => (m1, c)) calls) (locks ++ [Free g])).
  { induction cs as [|c cs IH]; intros l l' E1 E2.
    - cbn [map app session]. assert (E3 : nth_error l m2 = nth_error (locks ++ [Free g]) m1).
      { rewrite E2. specialize (N1 []). rewrite app_nil_r in N1. now rewrite N1. }
      pose proof (C155_twins_partial fuel (map (fun c => (m2, c)) calls) m2 m1 l (locks ++ [Free g]) E3) as T.
      assert (F : filter (fun q => fst q =? m2) (map (fun c => (m2, c)) calls) = map (fun c : call G X => (m2, c)) calls).
      { clear. induction calls as [|c cs IH]; cbn; [reflexivity|]. now rewrite Nat.eqb_refl, IH. }
      assert (F2 : map (fun q : nat * call G X => (m1, snd q)) (map (fun c => (m2, c)) calls) = map (fun c => (m1, c)) calls) by now rewrite map_map.
      rewrite F, F2 in T. rewrite <- T. clear.
      revert l. induction calls as [|c cs IH]; intros l; [reflexivity|]. cbn [map session]. destruct (sample_on fuel c m2 l) as (r, l1).
      cbn [combine map filter fst snd]. rewrite Nat.eqb_refl. cbn [map snd]. f_equal. apply IH.
    - cbn [map app session]. destruct (sample_same fuel c m1 m1 l l' E1) as (Ef & Es). pose proof (sample_other fuel c m1 m2 l ltac:(lia)) as So.
      destruct (sample_on fuel c m1 l) as (r, l1). destruct (sample_on fuel c m1 l') as (r', l1'). cbn [fst snd] in *. subst r'. cbn [app]. f_equal. apply IH; congruence. }
  apply Gen; [|exact N2]. rewrite N1. specialize (N1 []). rewrite app_nil_r in N1. now rewrite N1.
Qed.
Example C155_example :
  map (option_map (map (map (fun v => Btrunc (fmul (fofZ 32) v)))))
    (session 5 [(0, sample_call ar64 toy Maximin 2 1); (1, sample_call ar64 toy Maximin 2 1); (clone_method 0, sample_call ar64 toy Classic 2 1)] [Free 0; Free 0])
  = [Some [[0%Z]; [20%Z]]; Some [[0%Z]; [20%Z]]; Some [[0%Z]; [21%Z]]].
Proof. vm_compute. reflexivity. Qed.

Print Assumptions C154_threads_partial.
Print Assumptions C154_sequential_partial.
Print Assumptions C154_interleaved_refuted.
Print Assumptions C154_poison_refuted.
Print Assumptions C154_hang_refuted.
Print Assumptions C155_clone_refuted.
Print Assumptions C155_twins_partial.
Print Assumptions C155_new_partial.
