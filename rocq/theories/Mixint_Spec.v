(** Vocabulary for the properties of mixed-integer variables, independent of the code. *)
From Coq Require Import ZArith Reals List Bool.
From Flocq Require Import IEEE754.BinarySingleNaN.
From Verif Require Import F64 Mixint_Model.
Import ListNotations.
Local Open Scope nat_scope.

Local Notation row := (list f64).

Definition finite (a : f64) : Prop := is_finite a = true.

(** A usable variable: non-empty lists of finite values, at least one level, ordered integer bounds; sizes and integer bounds exactly
    representable in double precision (Rust's [i32] bounds are). *)
Definition usable (t : xtype) : Prop :=
  match t with
  | Float lo hi => finite lo /\ finite hi
  | Int lo hi => (- 2 ^ 53 <= lo /\ lo <= hi /\ hi <= 2 ^ 53)%Z
  | Ord v => v <> [] /\ Forall finite v
  | Enum n => 1 <= n /\ (Z.of_nat n <= 2 ^ 53)%Z
  end.

(** Number of relaxed columns. *)
Definition width (t : xtype) : nat := match t with Enum n => n | _ => 1 end.
Definition dimension (ts : list xtype) : nat := list_sum (map width ts).

(** A relaxed point: finite, of the right dimension. *)
Definition point_ok (ts : list xtype) (x : row) : Prop := Forall finite x /\ length x = dimension ts.

(** [a] is the integer [z], the real number [r]. *)
Definition is_integer (a : f64) (z : Z) : Prop := finite a /\ B2R a = IZR z.
Definition is_mask (n k : nat) (m : row) : Prop :=
  k < n /\ length m = n /\ forall i, i < n -> nth_error m i = Some (if i =? k then fone else fzero).

(** Relaxed points whose discrete variables have admissible values. *)
Inductive admissible : list xtype -> row -> Prop :=
| adm_nil : admissible [] []
| adm_float lo hi a ts x : admissible ts x -> admissible (Float lo hi :: ts) (a :: x)
| adm_int lo hi z a ts x : is_integer a z -> admissible ts x -> admissible (Int lo hi :: ts) (a :: x)
| adm_ord v a ts x : In a v -> admissible ts x -> admissible (Ord v :: ts) (a :: x)
| adm_enum n k m ts x : is_mask n k m -> admissible ts x -> admissible (Enum n :: ts) (m ++ x).

(** Same, also within the declared domain. *)
Inductive in_domain : list xtype -> row -> Prop :=
| dom_nil : in_domain [] []
| dom_float lo hi a ts x : fle lo a = true -> fle a hi = true -> in_domain ts x -> in_domain (Float lo hi :: ts) (a :: x)
| dom_int lo hi z a ts x : is_integer a z -> (lo <= z <= hi)%Z -> in_domain ts x -> in_domain (Int lo hi :: ts) (a :: x)
| dom_ord v a ts x : In a v -> in_domain ts x -> in_domain (Ord v :: ts) (a :: x)
| dom_enum n k m ts x : is_mask n k m -> in_domain ts x -> in_domain (Enum n :: ts) (m ++ x).

(** [y] is a nearest admissible point of [x], variable by variable: continuous variables are unchanged, the integer is
    within one half, the ordered value is at least as close as every other value of the list (distances computed in
    double precision) and the level has the largest weight. *)
Inductive nearest : list xtype -> row -> row -> Prop :=
| near_nil : nearest [] [] []
| near_float lo hi a ts x y : nearest ts x y -> nearest (Float lo hi :: ts) (a :: x) (a :: y)
| near_int lo hi z a b ts x y : is_integer b z -> (Rabs (B2R a - IZR z) <= / 2)%R ->
    nearest ts x y -> nearest (Int lo hi :: ts) (a :: x) (b :: y)
| near_ord v a b ts x y : In b v -> (forall r, In r v -> fle (fabs (fsub a b)) (fabs (fsub a r)) = true) ->
    nearest ts x y -> nearest (Ord v :: ts) (a :: x) (b :: y)
| near_enum n k w m ts x y : is_mask n k m -> length w = n ->
    (exists wk, nth_error w k = Some wk /\ forall wi, In wi w -> fle wi wk = true) ->
    nearest ts x y -> nearest (Enum n :: ts) (w ++ x) (m ++ y).

(** Points as the user sees them: one coordinate per variable, a categorical variable is the index of its level. *)
Inductive folded : list xtype -> row -> row -> Prop :=
| fol_nil : folded [] [] []
| fol_float lo hi a ts x y : folded ts x y -> folded (Float lo hi :: ts) (a :: x) (a :: y)
| fol_int lo hi a ts x y : folded ts x y -> folded (Int lo hi :: ts) (a :: x) (a :: y)
| fol_ord v a ts x y : folded ts x y -> folded (Ord v :: ts) (a :: x) (a :: y)
| fol_enum n k m a ts x y : is_mask n k m -> is_integer a (Z.of_nat k) ->
    folded ts x y -> folded (Enum n :: ts) (m ++ x) (a :: y).

(** Equality of numbers ([+0] and [-0] are equal). *)
Definition same_numbers (x y : row) : Prop := Forall2 (fun a b => feq a b = true) x y.

(** Within bounds, column by column. *)
Definition within_limits (lims : list (f64 * f64)) (x : row) : Prop :=
  Forall2 (fun l a => fle (fst l) a = true /\ fle a (snd l) = true) lims x.

(** Layouts for which the conversions are right: from relaxed to user space when at most one variable has several
    columns, in both directions when moreover this variable is the last one. *)
Definition one_wide (ts : list xtype) : Prop := length (filter (fun t => 1 <? width t) ts) <= 1.
Definition last_only (ts : list xtype) : Prop :=
  exists pre post, ts = pre ++ post /\ Forall (fun t => width t = 1) pre /\ length post <= 1.

(** Every variable is continuous. *)
Definition continuous (ts : list xtype) : Prop := Forall (fun t => exists lo hi, t = Float lo hi) ts.
