(** Designs of experiments drawn from Python: property C163. *)
From Coq Require Import ZArith Reals Lra Lia Arith.
From Flocq Require Import Core IEEE754.BinarySingleNaN.
From Coq Require Import List Bool.
From Verif Require Import Util F64 Mixint_Model Mixint_Spec Mixint_Proofs Entry_Model Py_Model Py_Proofs PySampling_Model.
From Verif Require Properties_Py Properties_Mixint.
Import ListNotations.
Local Open Scope nat_scope.
Local Notation row := (list f64).
Local Notation mat := (list (list f64)).

(** A description with finite limits and at least one value; sizes of enumerations up to 2^53. *)
Definition sound (s : xspec) : Prop :=
  well_described s /\ Forall finite (sp_limits s) /\ (exists v, spec_admits s v) /\ (Z.of_nat (sp_tags s) <= 2 ^ 53)%Z /\
  (sp_kind s = KEnum -> Forall (fun a => (B2R a <= IZR (2 ^ 53))%R) (sp_limits s)).

Lemma sound_usable s t : sound s -> xtype_of_spec s = Some t -> (forall v, type_admits t v <-> spec_admits s v) -> usable t.
Proof.
  intros (W & F & (v & Hv) & Ht & Hs) E A. apply A in Hv. unfold xtype_of_spec in E. destruct (sp_kind s) eqn:K.
  - destruct (sp_limits s) as [|a [|b l]]; try discriminate E. cbn in E. injection E as <-. inversion F as [|? ? Fa Fl]; subst. inversion Fl; subst. split; assumption.
  - destruct (sp_limits s) as [|a [|b l]]; try discriminate E. cbn in E. injection E as <-. destruct Hv as (k & _ & B). cbn.
    assert (I : forall c : f64, (-2147483648 <= as_i32 c <= 2147483647)%Z).
    { intros c. unfold as_i32, i32_min, i32_max. destruct c as [|[]| |]; lia. }
    pose proof (I a). pose proof (I b). lia.
  - injection E as <-. split; [|exact F]. intros N. rewrite N in Hv. exact Hv.
  - destruct (Nat.eqb_spec (sp_tags s) 0) as [Z0|Z0].
    + destruct (sp_limits s) as [|a l] eqn:El; [discriminate E|]. cbn [nth_error] in E. destruct (as_index a) as [n|] eqn:En; [|discriminate E].
      injection E as <-. destruct Hv as (k & _ & B). cbn. split; [lia|]. specialize (Hs eq_refl). inversion Hs as [|? ? Ha _]; subst. inversion F as [|? ? Fa _]; subst.
      assert (n = Z.to_nat (Btrunc a)) by (destruct a; try discriminate Fa; now apply (f_equal (fun o => match o with Some q => q | None => n end)) in En). subst n.
      assert (Btrunc a <= 2 ^ 53)%Z; [|lia]. rewrite trunc_correct. rewrite <- (Ztrunc_IZR (2 ^ 53)). now apply Ztrunc_le.
    + injection E as <-. cbn. lia.
Qed.

Lemma domain_not_nan ts x : Forall usable ts -> in_domain ts x -> Forall (fun v => fnan v = false) x.
Proof.
  intros U D. induction D as [|lo hi a ts x A B D IH|lo hi z a ts x A B D IH|v a ts x A D IH|n k m ts x A D IH]; inversion U as [|? ? Ut Us]; subst; [constructor| | | |].
  - constructor; [|now apply IH]. destruct a; try reflexivity. destruct lo as [[]|[]| |[]]; discriminate A.
  - constructor; [|now apply IH]. destruct A as [A _]. now apply finite_not_nan.
  - constructor; [|now apply IH]. destruct Ut as [_ Ut]. rewrite Forall_forall in Ut. now apply finite_not_nan, Ut.
  - apply Forall_app. split; [|now apply IH]. destruct A as (_ & L & M). apply Forall_forall. intros w Hw. apply In_nth_error in Hw. destruct Hw as [i Hi].
    assert (Li : i < n) by (rewrite <- L; apply nth_error_Some; congruence). rewrite (M i Li) in Hi.
    destruct (i =? k); injection Hi as <-; reflexivity.
Qed.

Lemma in_domain_length ts x : in_domain ts x -> length x = dimension ts.
Proof.
  induction 1 as [|lo hi a ts x A B D IH|lo hi z a ts x A B D IH|v a ts x A D IH|n k m ts x A D IH]; rewrite ?dimension_cons; cbn [width length] in *; try lia; [reflexivity|].
  destruct A as (_ & L & _). rewrite app_length. lia.
Qed.

(** Whatever the columns the levels are read at, the user's point has one admitted value per variable. *)
Lemma fold_admits ts : Forall usable ts -> forall j u x, j <= u -> Forall (fun v => fnan v = false) x -> in_domain ts (skipn u x) -> u <= length x ->
  exists y, fold_row_from j u ts x = Some y /\ Forall2 type_admits ts y.
Proof.
  induction ts as [|t ts IH]; intros U j u x Hj N D Lu; [exists []; split; [reflexivity|constructor]|].
  inversion U as [|? ? Ut Us]; subst. pose proof (in_domain_length _ _ D) as L. rewrite skipn_length, dimension_cons in L.
  assert (SC : forall a z, skipn u x = a :: z -> nth_error x u = Some a /\ skipn (S u) x = z).
  { clear. revert x. induction u as [|u IHu]; intros [|b x] a z E; cbn in *; try discriminate E; [injection E as <- <-; auto|]. now apply IHu. }
  destruct t as [lo hi|lo hi|v|n]; cbn [width] in L.
  - inversion D as [|? ? a ? z A B D' E1 E2| | | ]; subst. symmetry in E2. destruct (SC _ _ E2) as [Ea Ez]. rewrite <- Ez in D'.
    destruct (IH Us (S j) (S u) x ltac:(lia) N D' ltac:(lia)) as (y & Ey & Fy). exists (a :: y). cbn [fold_row_from]. rewrite Ea, Ey. split; [reflexivity|].
    constructor; [split; assumption|exact Fy].
  - inversion D as [| |? ? k a ? z A B D' E1 E2| | ]; subst. symmetry in E2. destruct (SC _ _ E2) as [Ea Ez]. rewrite <- Ez in D'.
    destruct (IH Us (S j) (S u) x ltac:(lia) N D' ltac:(lia)) as (y & Ey & Fy). exists (a :: y). cbn [fold_row_from]. rewrite Ea, Ey. split; [reflexivity|].
    constructor; [exists k; split; assumption|exact Fy].
  - inversion D as [| | |? a ? z A D' E1 E2| ]; subst. symmetry in E2. destruct (SC _ _ E2) as [Ea Ez]. rewrite <- Ez in D'.
    destruct (IH Us (S j) (S u) x ltac:(lia) N D' ltac:(lia)) as (y & Ey & Fy). exists (a :: y). cbn [fold_row_from]. rewrite Ea, Ey. split; [reflexivity|].
    constructor; [exact A|exact Fy].
  - inversion D as [| | | |? k m ? z A D' E1 E2]; subst. destruct Ut as [Un Ub]. assert (Lm : length m = n) by apply A.
    assert (Ez : skipn (u + n) x = z).
    { assert (SK : forall a b (l : row), skipn (a + b) l = skipn b (skipn a l)).
      { clear. induction a as [|a IHa]; intros b l; [reflexivity|]. destruct l; [now rewrite !skipn_nil|]. cbn. apply IHa. }
      rewrite SK, <- E2, skipn_app, Lm, Nat.sub_diag, skipn_all2 by lia. reflexivity. }
    rewrite <- Ez in D'.
    destruct (IH Us (S j) (u + n) x ltac:(lia) N D' ltac:(lia)) as (y & Ey & Fy). cbn [fold_row_from].
    destruct (Nat.ltb_spec (length x) (j + n)) as [Q|_]; [lia|].
    assert (Lg : length (firstn n (skipn j x)) = n) by (rewrite firstn_length, skipn_length; lia).
    destruct (fargmax_spec (firstn n (skipn j x))) as (i & b & Ei & Hi & _).
    { intros Z0. rewrite Z0 in Lg. cbn in Lg. lia. }
    { apply Forall_forall. intros w Hw. rewrite Forall_forall in N. apply N.
      rewrite <- (firstn_skipn j x), <- (firstn_skipn n (skipn j x)). apply in_or_app. right. apply in_or_app. now left. }
    assert (Li : i < n) by (rewrite <- Lg; apply nth_error_Some; congruence).
    exists (fofZ (Z.of_nat i) :: y). rewrite Ei, Ey. split; [reflexivity|]. constructor; [|exact Fy].
    exists i. split; [|exact Li]. apply (fofZ_correct (Z.of_nat i)). lia.
Qed.

(** A sampling function of the crates: in a box with at least one point, as many points as asked for, all in the box. *)
Definition samples_box (sample : method -> list (f64 * f64) -> nat -> mat) (m : method) (n : nat) : Prop :=
  forall lims, (exists x, within_limits lims x) -> length (sample m lims n) = n /\ Forall (within_limits lims) (sample m lims n).

Lemma domain_point ts : Forall usable ts -> Forall (fun t => exists v, type_admits t v) ts -> exists x, in_domain ts x.
Proof.
  intros U A. induction A as [|t ts (v & Hv) A IH]; [exists []; constructor|]. inversion U as [|? ? Ut Us]; subst. destruct (IH Us) as (x & Hx).
  destruct t as [lo hi|lo hi|l|n].
  - exists (v :: x). destruct Hv. now constructor.
  - exists (v :: x). destruct Hv as (k & Hk & B). now apply dom_int with k.
  - exists (v :: x). now constructor.
  - destruct Hv as (k & _ & Hk). exists (one_hot n k ++ x). apply dom_enum with k; [now apply one_hot_mask|exact Hx].
Qed.

(** Every method of sampling, from every list of descriptions: [n] rows, with one value per variable, which its description admits. *)
Theorem C163_sampling : forall sample method specs n seed,
  specs <> [] -> Forall sound specs -> samples_box sample (method_of method seed) n ->
  exists s, sampling sample method (Xspecs specs) n seed = Some s /\ length s = n /\ Forall (Forall2 spec_admits specs) s.
Proof.
  intros sample method specs n seed Hne Hs HB.
  destruct (Properties_Py.C132_domain_partial specs Hne) as (ts & Ets & Adm).
  { intros s Hs0. rewrite Forall_forall in Hs. now apply Hs. }
  assert (P : mapM xtype_of_spec specs = Some ts) by (unfold parse in Ets; destruct specs; [congruence|exact Ets]).
  apply mapM_inv in P.
  assert (U : Forall usable ts /\ Forall (fun t => exists v, type_admits t v) ts).
  { clear - Hs Adm P. revert Hs P. induction Adm as [|s t specs ts A Adm IH]; intros Hs P; [split; constructor|].
    inversion Hs as [|? ? S1 S2]; subst. inversion P as [|? ? ? ? P1 P2]; subst. destruct (IH S2 P2) as [U V]. split; constructor; trivial.
    - exact (sound_usable s t S1 P1 A).
    - destruct S1 as (_ & _ & (v & Hv) & _). exists v. now apply A. }
  destruct U as [U V]. destruct (domain_point ts U V) as (x & Hx). destruct (HB _ (ex_intro _ x (domain_within ts U x Hx))) as [L W].
  destruct (cast_matrix_domain ts _ U W) as (c & Ec & Dc & _).
  unfold sampling, context_sample, mixint_sample. rewrite Ets, Ec. unfold cast_to_discrete_values in Ec.
  assert (Lc : length c = n) by (rewrite (Properties_Py.mapM_len _ _ _ Ec); exact L). clear Ec L W HB.
  assert (G : forall c, Forall (in_domain ts) c -> exists s, fold_with_enum_index ts c = Some s /\ length s = length c /\ Forall (Forall2 spec_admits specs) s).
  { clear c Dc Lc. intros c Dc. induction Dc as [|r c Dr Dc (s & Es & Ls & Fs)]; [exists []; repeat split; constructor|].
    destruct (fold_admits ts U 0 0 r (le_n 0) (domain_not_nan ts r U Dr) Dr ltac:(lia)) as (y & Ey & Fy).
    exists (y :: s). unfold fold_with_enum_index in *. cbn [mapM]. unfold fold_row at 1. rewrite Ey, Es. split; [reflexivity|]. split; [cbn; now rewrite Ls|].
    constructor; [|exact Fs]. clear - Adm Fy. revert y Fy. induction Adm as [|s t specs ts A Adm IH]; intros y Fy; inversion Fy; subst; constructor; [now apply A|now apply IH]. }
  destruct (G c Dc) as (s & Es & Ls & Fs). exists s. split; [exact Es|]. split; [now rewrite Ls|exact Fs].
Qed.
Print Assumptions C163_sampling.

(** [lhs] is [sampling] with an optimized Latin hypercube; the method asked for is the one used, with the seed. *)
Theorem C163_methods : forall sample d n seed,
  lhs sample d n seed = sampling sample PyLhs d n seed /\
  (forall m ts, parse d = Some ts -> sampling sample m d n seed = context_sample ts (sample (match m with
     | PyFullFactorial => MFullFactorial | PyRandom => MRandom seed
     | PyLhs => MLhs Optimized seed | PyLhsClassic => MLhs Classic seed | PyLhsCentered => MLhs Centered seed
     | PyLhsMaximin => MLhs Maximin seed | PyLhsCenteredMaximin => MLhs CenteredMaximin seed end) (as_continuous_limits ts) n)) /\
  (forall seed', sampling sample PyFullFactorial d n seed = sampling sample PyFullFactorial d n seed').
Proof. intros sample d n seed. split; [reflexivity|]. split; [|reflexivity]. intros m ts E. unfold sampling. rewrite E. now destruct m. Qed.
Print Assumptions C163_methods.

(** ** C164: every combination of values can be drawn *)
Lemma mask_same n k m k' m' : is_mask n k m -> is_mask n k' m' -> same_numbers m m' -> k = k'.
Proof.
  intros (K & L & M) (K' & L' & M') F. destruct (Nat.eq_dec k k') as [Q|Q]; [exact Q|exfalso].
  pose proof (M k K) as A. pose proof (M' k K) as B. rewrite Nat.eqb_refl in A. rewrite (proj2 (Nat.eqb_neq k k') Q) in B.
  clear - F A B. revert k A B. induction F as [|a b m m' H F IH]; intros [|k] A B; cbn [nth_error] in *; try discriminate A; [|now apply (IH k)].
  assert (a = fone) by congruence. assert (b = fzero) by congruence. subst a b. vm_compute in H. discriminate H.
Qed.
Lemma folded_same ts : Forall usable ts -> forall x u, folded ts x u -> forall c, same_numbers x c -> in_domain ts c -> Forall finite u ->
  exists v, folded ts c v /\ Forall finite v /\ same_numbers u v.
Proof.
  intros U x u F. induction F as [|lo hi a ts x y F IH|lo hi a ts x y F IH|l a ts x y F IH|n k m a ts x y Hm Ha F IH]; intros c S D Fu; inversion U as [|? ? Ut Us]; subst.
  - inversion S; subst. exists []. split; [constructor|split; constructor].
  - inversion S as [|? b ? c' E S']; subst. inversion D; subst. inversion Fu; subst. destruct (IH Us c' S' ltac:(assumption) ltac:(assumption)) as (v & Fv & Gv & Sv).
    exists (b :: v). split; [now constructor|]. split; [|now constructor]. constructor; [|exact Gv].
    destruct a as [[]|[]| |[]], b as [[]|[]| |[]]; try discriminate E; try reflexivity; assumption.
  - inversion S as [|? b ? c' E S']; subst. inversion D; subst. inversion Fu; subst. destruct (IH Us c' S' ltac:(assumption) ltac:(assumption)) as (v & Fv & Gv & Sv).
    exists (b :: v). split; [now constructor|]. split; [|now constructor]. constructor; [|exact Gv].
    destruct a as [[]|[]| |[]], b as [[]|[]| |[]]; try discriminate E; try reflexivity; assumption.
  - inversion S as [|? b ? c' E S']; subst. inversion D; subst. inversion Fu; subst. destruct (IH Us c' S' ltac:(assumption) ltac:(assumption)) as (v & Fv & Gv & Sv).
    exists (b :: v). split; [now constructor|]. split; [|now constructor]. constructor; [|exact Gv].
    destruct a as [[]|[]| |[]], b as [[]|[]| |[]]; try discriminate E; try reflexivity; assumption.
  - inversion D as [| | | |? k' m' ? c' Hm' D' E1 E2]; subst. apply Forall2_app_inv_l in S. destruct S as (s1 & s2 & S1 & S2 & E).
    assert (L1 : length s1 = length m') by (rewrite (proj1 (proj2 Hm')), <- (proj1 (proj2 Hm)); symmetry; clear - S1; induction S1; cbn; congruence).
    assert (EE : m' = s1 /\ c' = s2).
    { clear - E L1. revert s1 E L1. induction m' as [|q m' IHm]; intros [|p s1] E L1; try discriminate L1; [split; [reflexivity|exact E]|]. cbn in *. injection E as -> E.
      injection L1 as L1. destruct (IHm s1 E L1) as [-> ->]. auto. }
    destruct EE as [<- <-]. inversion Fu; subst. destruct (IH Us c' S2 D' ltac:(assumption)) as (v & Fv & Gv & Sv).
    exists (a :: v). split; [|split; [now constructor|]].
    + apply fol_enum with k; [|exact Ha|exact Fv]. rewrite (mask_same _ _ _ _ _ Hm Hm' S1). exact Hm'.
    + constructor; [|exact Sv]. match goal with H : finite a |- _ => unfold feq; rewrite (Beqb_correct _ _ a a H H) end. now apply Req_bool_true.
Qed.

Lemma feq_finite (a b : f64) : feq a b = true -> finite a -> finite b /\ B2R a = B2R b.
Proof.
  intros E Fa. assert (Fb : finite b) by (destruct a as [[]|[]| |[]], b as [[]|[]| |[]]; try discriminate E; try reflexivity; discriminate Fa).
  split; [exact Fb|]. unfold feq in E. rewrite (Beqb_correct _ _ a b Fa Fb) in E. destruct (Req_bool_spec (B2R a) (B2R b)); [assumption|discriminate E].
Qed.
Lemma same_trans u w : same_numbers u w -> Forall finite u -> forall y, same_numbers w y -> same_numbers u y.
Proof.
  intros S. induction S as [|a b u w E S IH]; intros F y T; inversion T as [|? c ? y' E' T']; subst; [constructor|]. inversion F as [|? ? Fa F']; subst.
  constructor; [|now apply IH]. destruct (feq_finite a b E Fa) as [Fb Eb]. destruct (feq_finite b c E' Fb) as [Fc Ec].
  unfold feq. rewrite (Beqb_correct _ _ a c Fa Fc). apply Req_bool_true. congruence.
Qed.
Lemma domain_adm ts x : in_domain ts x -> admissible ts x.
Proof. induction 1; econstructor; eauto. Qed.

(** With at most one categorical variable of several levels, every list of admitted points is drawn from some continuous design
    within the limits. *)
Theorem C164_reachable_partial : forall ts x u, Forall usable ts -> one_wide ts ->
  Forall (in_domain ts) x -> Forall (Forall finite) x -> Forall2 (folded ts) x u -> Forall (Forall finite) u ->
  exists doe s, Forall (within_limits (as_continuous_limits ts)) doe /\ context_sample ts doe = Some s /\ Forall2 same_numbers u s.
Proof.
  intros ts x u U O D Fx F Fu.
  destruct (cast_matrix_admissible ts x U) as (c & Ec & Sc).
  { clear - D Fx. induction D; inversion Fx; subst; constructor; [split; [now apply domain_adm|assumption]|auto]. }
  assert (W : Forall (within_limits (as_continuous_limits ts)) x) by (eapply Forall_impl; [|exact D]; intros r Hr; now apply domain_within).
  destruct (cast_matrix_domain ts x U W) as (c' & Ec' & Dc & _). assert (c' = c) by congruence. subst c'.
  assert (G : exists w, Forall2 (folded ts) c w /\ Forall (Forall finite) w /\ Forall2 same_numbers u w).
  { clear - F Sc Dc Fu U. revert c Sc Dc. induction F as [|r v x u Hf F IH]; intros c Sc Dc; inversion Sc as [|? q ? c' S1 S2]; subst.
    - exists []. repeat split; constructor.
    - inversion Dc; subst. inversion Fu; subst. destruct (IH ltac:(assumption) c' S2 ltac:(assumption)) as (w & F1 & F2 & F3).
      destruct (folded_same ts U r v Hf q S1 ltac:(assumption) ltac:(assumption)) as (v' & A1 & A2 & A3).
      exists (v' :: w). repeat split; constructor; assumption. }
  destruct G as (w & Fw & Ffw & Sw). destruct (Properties_Mixint.C32_fold_partial ts c w U O Fw Ffw) as (s & Es & Ss).
  exists x, s. split; [exact W|]. unfold context_sample, mixint_sample. rewrite Ec, Es. split; [reflexivity|].
  clear - Sw Ss Fu. revert s Ss. induction Sw as [|v r u w E S IH]; intros s T; inversion T as [|? q ? s' E' T']; subst; [constructor|].
  inversion Fu; subst. constructor; [exact (same_trans v r E ltac:(assumption) q E')|now apply IH].
Qed.
Print Assumptions C164_reachable_partial.

(** Finding: with two variables of two tags, whatever the method, the number of points, the seed and the continuous design, no point
    has the second tag of both. *)
Theorem C164_levels_refuted : forall sample method n seed s r a b,
  sampling sample method (Xspecs [XSpec KEnum [] 2; XSpec KEnum [] 2]) n seed = Some s -> In r s -> r = [a; b] ->
  ~ (is_int a 1 /\ is_int b 1).
Proof.
  intros sample method n seed s r a b E Ir -> [Ia Ib]. unfold sampling in E. cbn [parse is_empty mapM xtype_of_spec sp_kind sp_tags Nat.eqb] in E.
  unfold context_sample, mixint_sample, cast_to_discrete_values, fold_with_enum_index in E.
  destruct (mapM (cast_row [Enum 2; Enum 2]) _) as [c|] eqn:Ec; [|discriminate E]. apply mapM_inv in Ec. apply mapM_inv in E.
  assert (Q : exists x y, cast_row [Enum 2; Enum 2] x = Some y /\ fold_row [Enum 2; Enum 2] y = Some [a; b]).
  { clear - Ec E Ir. revert E. generalize dependent s. induction Ec as [|x y xs ys H Ec IH]; intros s Ir E; inversion E as [|? ? ? ? H1 H2]; subst; [contradiction|].
    destruct Ir as [->|Ir]; [now exists x, y|]. exact (IH _ Ir H2). }
  clear - Q Ia Ib. destruct Q as (x & y & C & F). cbn [cast_row] in C.
  destruct (length x <? 2); [discriminate C|]. destruct (fargmax (firstn 2 x)) as [m|]; [|discriminate C].
  destruct (length (skipn 2 x) <? 2); [discriminate C|]. destruct (fargmax (firstn 2 (skipn 2 x))) as [m'|]; [|discriminate C]. injection C as <-.
  assert (N0 : forall q, is_int q 1 -> q <> fofZ 0).
  { intros q [_ Q] ->. assert (Z0 : B2R (fofZ 0) = 0%R) by reflexivity. rewrite Z0 in Q. lra. }
  unfold fold_row in F. cbn [fold_row_from] in F.
  assert (T0 : forall rest, fargmax (firstn 2 (skipn 0 (one_hot 2 m ++ one_hot 2 m' ++ rest))) = Some 0 \/
              fargmax (firstn 2 (skipn 1 (one_hot 2 m ++ one_hot 2 m' ++ rest))) = Some 0).
  { intros rest. destruct m as [|[|m]]; [left|right; destruct m' as [|[|m']]|left]; vm_compute; reflexivity. }
  destruct (length _ <? 0 + 2); [discriminate F|]. destruct (fargmax (firstn 2 (skipn 0 _))) as [k1|] eqn:E1; [|discriminate F].
  destruct (length _ <? 1 + 2); [discriminate F|]. destruct (fargmax (firstn 2 (skipn 1 _))) as [k2|] eqn:E2; [|discriminate F].
  apply (f_equal (fun o => match o with Some l => l | None => [] end)) in F. cbv beta iota in F. pose proof (f_equal (fun l => nth 0 l a) F) as Fa. pose proof (f_equal (fun l => nth 1 l a) F) as Fb. cbn [nth] in Fa, Fb.
  match type of E1 with context [one_hot 2 m' ++ ?r] => pose proof (T0 r) as T end.
  destruct T as [T|T]; [apply (N0 a Ia); rewrite <- Fa; pose proof (eq_trans (eq_sym E1) T) as K; assert (k1 = 0) by congruence|apply (N0 b Ib); rewrite <- Fb; pose proof (eq_trans (eq_sym E2) T) as K; assert (k2 = 0) by congruence]; subst; reflexivity.
Qed.
Print Assumptions C164_levels_refuted.


(** A real variable in [0, 1], an integer between 0 and 9, values 1, 4 and 16 and two tags; a sampling function giving the lower limits. *)
Definition specs_ex : list xspec := [XSpec KFloat [fofZ 0; fofZ 1] 0; XSpec KInt [fofZ 0; fofZ 9] 0; XSpec KOrd [fofZ 1; fofZ 4; fofZ 16] 0; XSpec KEnum [] 2].
Definition lower_corner (m : method) (lims : list (f64 * f64)) (n : nat) : mat := repeat (map fst lims) n.
Example C163_example : specs_ex <> [] /\ Forall sound specs_ex /\ (forall m n, samples_box lower_corner m n) /\
  (forall m n seed, exists s, sampling lower_corner m (Xspecs specs_ex) n seed = Some s /\ length s = n /\ Forall (Forall2 spec_admits specs_ex) s).
Proof.
  assert (V : forall z, (Z.abs z <= 2 ^ 53)%Z -> is_int (fofZ z) z) by (intros z Hz; apply (fofZ_correct z); lia).
  assert (F : forall z, (Z.abs z <= 2 ^ 53)%Z -> finite (fofZ z)) by (intros z Hz; apply (V z Hz)).
  assert (A : specs_ex <> []) by discriminate.
  assert (S : Forall sound specs_ex).
  { unfold specs_ex. repeat apply Forall_cons; [| | | |constructor]; (split; [|split; [|split; [|split; [cbn; lia|]]]]); cbn [sp_limits sp_kind];
      try (intros Q; discriminate Q); try (repeat (constructor; [apply F; lia|]); constructor).
    - exists (fofZ 0), (fofZ 1). reflexivity.
    - exists (fofZ 0), (fofZ 0), (fofZ 1). repeat split; vm_compute; reflexivity.
    - destruct (V 0%Z ltac:(lia)) as [F0 E0]. destruct (V 9%Z ltac:(lia)) as [F9 E9]. exists (fofZ 0), (fofZ 9). rewrite E0, E9.
      split; [reflexivity|]. split; [exact F0|]. split; [exact F9|]. repeat split; lra.
    - exists (fofZ 0), (fofZ 0), (fofZ 9), 0%Z. split; [reflexivity|]. split; [apply V; lia|]. split; vm_compute; reflexivity.
    - exists (fofZ 4). right. left. reflexivity.
    - cbn. lia.
    - exists (fofZ 1), 1. split; [apply V; lia|]. left. cbn. lia. }
  assert (B : forall m n, samples_box lower_corner m n).
  { intros m n lims (x & W). unfold lower_corner. split; [apply repeat_length|]. apply Forall_forall. intros r Hr. apply repeat_spec in Hr. subst r.
    induction W as [|[l u] a lims x [H1 H2] W IH]; cbn [map fst snd] in *; constructor; [|exact IH].
    assert (T : forall p q r : f64, fle p q = true -> fle q r = true -> fle p p = true /\ fle p r = true).
    { clear. intros p q r H K. assert (P : fle p p = true).
      { destruct p as [[]|[]| |s e b Hb]; try reflexivity; [destruct q as [[]|[]| |[]]; discriminate H|].
        unfold fle. rewrite (Bleb_correct _ _ (B754_finite s e b Hb) (B754_finite s e b Hb) eq_refl eq_refl). apply Rle_bool_true. lra. }
      split; [exact P|]. destruct p as [sp|[]| |sp mp ep Hp].
      all: destruct q as [sq|[]| |sq mq eq Hq]; try discriminate H; destruct r as [sr|[]| |sr mr er Hr]; try discriminate K; try reflexivity.
      all: try (destruct sr; first [discriminate K|reflexivity]); try (destruct sp; first [discriminate H|reflexivity]).
      all: unfold fle in *; rewrite Bleb_correct in * by reflexivity; apply Rle_bool_true;
        match goal with H1 : Rle_bool ?u ?v = true, K1 : Rle_bool ?v ?w = true |- _ => destruct (Rle_bool_spec u v) in H1; [|discriminate H1]; destruct (Rle_bool_spec v w) in K1; [|discriminate K1]; lra end. }
    exact (T l a u H1 H2). }
  split; [exact A|]. split; [exact S|]. split; [exact B|]. intros m n seed. apply C163_sampling; [exact A|exact S|apply B].
Qed.

(** The pair of second tags is admitted by the descriptions, never drawn; a categorical variable after a real one is. *)
Example C164_example :
  Forall2 spec_admits [XSpec KEnum [] 2; XSpec KEnum [] 2] [fofZ 1; fofZ 1] /\
  (let ts := [Float (fofZ 0) (fofZ 1); Enum 2] in let x := [[fofZ 1] ++ one_hot 2 1 ++ []] in let u := [[fofZ 1; fofZ 1]] in
   Forall usable ts /\ one_wide ts /\ Forall (in_domain ts) x /\ Forall (Forall finite) x /\ Forall2 (folded ts) x u /\ Forall (Forall finite) u).
Proof.
  assert (V : is_int (fofZ 1) 1) by (apply (fofZ_correct 1); lia). split.
  - repeat constructor; exists 1; (split; [exact V|left; cbn; lia]).
  - cbv zeta. split; [constructor; [split; reflexivity|constructor; [cbn; lia|constructor]]|]. split; [unfold one_wide; cbn; lia|].
    split; [constructor; [|constructor]; constructor; [reflexivity|reflexivity|apply dom_enum with 1; [apply one_hot_mask; lia|constructor]]|].
    split; [constructor; [|constructor]; repeat (constructor; [reflexivity|]); constructor|].
    split; [|constructor; [|constructor]; repeat (constructor; [reflexivity|]); constructor].
    constructor; [|constructor]. constructor. apply fol_enum with 1; [apply one_hot_mask; lia|exact V|constructor].
Qed.
