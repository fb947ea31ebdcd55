(** Properties C06-C08: the history update. *)
From Coq Require Import ZArith List Arith Bool.
From Verif Require Import F64 Util UpdateData_Model UpdateData_Spec UpdateData_Proofs.
Import ListNotations.

(** C06. The [k]-th appended proposal is not near any old row nor any proposal appended before it in the
    batch; a proposal that is not appended is near an old row or a proposal appended before it. *)
Theorem C06_accepted_points_keep_distance : forall wx wy wc x y c xn yn cn,
  1 <= wx -> length xn = length yn -> length xn = length cn ->
  width wx x -> width wx xn -> width wy yn -> width wc cn ->
  exists x' y' c' new, update_data wx wy wc x y c xn yn cn = Some (x', y', c', new) /\
    (forall k i, nth_error new k = Some i ->
       forall r, In r (x ++ rows_at xn (firstn k new)) -> ~ near r (nth i xn [])) /\
    (forall i, i < length xn -> ~ In i new ->
       exists r, In r (x ++ rows_at xn (filter (fun j => j <? i) new)) /\ near r (nth i xn [])).
Proof.
  intros wx wy wc x y c xn yn cn H1 H2 H3 H4 H5 H6 H7.
  destruct (update_data_spec wx wy wc x y c xn yn cn H1 H2 H3 H4 H5 H6 H7)
    as (x' & y' & c' & new & H & _ & _ & _ & _ & A & B).
  exact (ex_intro _ x' (ex_intro _ y' (ex_intro _ c' (ex_intro _ new (conj H (conj A B)))))).
Qed.
Print Assumptions C06_accepted_points_keep_distance.

(** C07. Existing rows are kept as a prefix, the rows appended to inputs, outputs and constraint values are
    those of the proposals at the returned positions, which are strictly increasing. *)
Theorem C07_append_only_and_aligned : forall wx wy wc x y c xn yn cn,
  1 <= wx -> length xn = length yn -> length xn = length cn ->
  width wx x -> width wx xn -> width wy yn -> width wc cn ->
  exists new, update_data wx wy wc x y c xn yn cn =
      Some (x ++ rows_at xn new, y ++ rows_at yn new, c ++ rows_at cn new, new) /\
    increasing_below (length xn) new.
Proof.
  intros wx wy wc x y c xn yn cn H1 H2 H3 H4 H5 H6 H7.
  destruct (update_data_spec wx wy wc x y c xn yn cn H1 H2 H3 H4 H5 H6 H7)
    as (x' & y' & c' & new & H & -> & -> & -> & A & _).
  exact (ex_intro _ new (conj H A)).
Qed.
Print Assumptions C07_append_only_and_aligned.

(** C08. A proposal with finite components equal to a stored row is never appended, and two equal
    proposals are never both appended. *)
Theorem C08_no_duplicates : forall wx wy wc x y c xn yn cn x' y' c' new,
  1 <= wx -> length xn = length yn -> length xn = length cn ->
  width wx x -> width wx xn -> width wy yn -> width wc cn ->
  update_data wx wy wc x y c xn yn cn = Some (x', y', c', new) ->
  (forall i, In i new -> finite_row (nth i xn []) -> ~ In (nth i xn []) x) /\
  (forall i j, In i new -> In j new -> finite_row (nth i xn []) -> nth i xn [] = nth j xn [] -> i = j).
Proof. exact no_duplicates. Qed.
Print Assumptions C08_no_duplicates.

(** A batch of four proposals: the first is a duplicate of a stored row, the third repeats the second up to
    2^-52. Only the second and the fourth are appended. *)
Definition ex_x := [[fofZ 0; fofZ 1]; [fofZ 2; fofZ 3]].
Definition ex_xn := [[fofZ 2; fofZ 3]; [fofZ 1; fofZ 1]; [fofZ 1; fmake (2 ^ 52 + 1) (-52)]; [fofZ 1; fofZ 2]].
Definition ex_o (l : list (list f64)) := map (fun r => [nth 0 r fNaN]) l.
Example C06_C07_C08_example :
  width 2 ex_x /\ width 2 ex_xn /\
  match update_data 2 1 0 ex_x (ex_o ex_x) [[]; []] ex_xn (ex_o ex_xn) [[]; []; []; []] with
  | Some (x', _, _, new) => Nat.eqb (length x') 4 = true /\ new = [1; 3]
  | None => False
  end.
Proof.
  split; [repeat constructor|]. split; [repeat constructor|].
  assert (E : option_map (fun r => (length (fst (fst (fst r))), snd r))
    (update_data 2 1 0 ex_x (ex_o ex_x) [[]; []] ex_xn (ex_o ex_xn) [[]; []; []; []]) = Some (4, [1; 3]))
    by (vm_compute; reflexivity).
  destruct (update_data 2 1 0 ex_x (ex_o ex_x) [[]; []] ex_xn (ex_o ex_xn) [[]; []; []; []])
    as [[[[x' y'] c'] new]|]; simpl in E; [|discriminate].
  injection E as -> ->. split; reflexivity.
Qed.
