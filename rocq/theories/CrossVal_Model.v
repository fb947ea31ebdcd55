(** Cross-validation: the folds made by linfa and the scores computed on them. *)
From Coq Require Import Reals List Arith Bool.
From Verif Require Import Util Misc_Model.
Import ListNotations.

(** ndarray, [axis_chunks_iter]: consecutive chunks of [s] rows, the last one may be shorter. [fuel] is at least the number of rows. *)
Fixpoint chunks {A} (fuel s : nat) (rows : list A) : list (list A) :=
  match fuel, rows with
  | S fuel', _ :: _ => firstn s rows :: chunks fuel' s (skipn s rows)
  | _, _ => []
  end.

(** [slice::swap(0, i + 1)]. *)
Definition swap_first {A} (i : nat) (l : list A) : list A :=
  match l with
  | a :: t => match nth_error t i with Some b => b :: set_nth i a t | None => l end
  | [] => l
  end.

(** linfa 0.8 (dataset/impl_dataset.rs), [Dataset::fold], called by crates/moe/src/metrics.rs:40, 65 and 91, crates/gp/src/metrics.rs:42 and
    crates/moe/src/clustering.rs:141: the first chunk is the validation set, the concatenation of the others the training set; the next chunk is then
    put first. [k = 0] divides by zero, chunks of no row and the concatenation of no array panic. *)
Fixpoint fold_loop {A} (todo i : nat) (cs : list (list A)) : option (list (list A * list A)) :=
  match todo with
  | 0 => Some []
  | S todo' =>
      match cs with
      | valid :: _ :: _ =>
          do rest <- fold_loop todo' (S i) (if todo' =? 0 then cs else swap_first i cs);
          Some ((concat (tl cs), valid) :: rest)
      | _ => None
      end
  end.
Definition linfa_fold {A} (k : nat) (rows : list A) : option (list (list A * list A)) :=
  if k =? 0 then None
  else let s := length rows / k in
       if s =? 0 then None else fold_loop k 0 (chunks (length rows) s rows).

(** linfa 0.8, [iter_fold] and [assist_swap_array2], called by crates/moe/src/expertise_macros.rs:32: the chunk [i] is exchanged with the first one, a
    model is trained on the rows after the first chunk, and the chunks are exchanged again. The models are then zipped with the chunks. *)
Definition swap_blocks {A} (i s : nat) (rows : list A) : list A :=
  if i =? 0 then rows
  else firstn s (skipn (i * s) rows) ++ firstn (i * s - s) (skipn s rows) ++ firstn s rows ++ skipn (i * s + s) rows.
Fixpoint iter_fold_loop {A} (todo i s : nat) (rows : list A) : list (list A) * list A :=
  match todo with
  | 0 => ([], rows)
  | S todo' =>
      let rows1 := swap_blocks i s rows in
      let (trains, rows2) := iter_fold_loop todo' (S i) s (swap_blocks i s rows1) in
      (skipn s rows1 :: trains, rows2)
  end.
(** The pairs (training rows, validation rows), and the dataset after the call, which is modified in place. *)
Definition iter_fold {A} (k : nat) (rows : list A) : option (list (list A * list A) * list A) :=
  if (k =? 0) || (length rows <? k) then None
  else let s := length rows / k in
       let (trains, rows') := iter_fold_loop k 0 s rows in
       Some (combine trains (chunks (length rows') s rows'), rows').

(** crates/moe/src/metrics.rs:32-50 [q2_k_score] and crates/gp/src/metrics.rs:34-52 [q2_score] with the folds above: [surrogate] trains a model on
    rows (input, output) and predicts at an input. [None]: panic, or a zero denominator. *)
Section Scores.
  Context {X : Type} (surrogate : list (X * R) -> X -> R).
  Definition scored (f : list (X * R) * list (X * R)) : Misc_Model.fold :=
    mkFold (map snd (snd f)) (map (fun r => surrogate (fst f) (fst r)) (snd f)) [].
  Definition q2_k (k : nat) (rows : list (X * R)) : option R :=
    do folds <- linfa_fold k rows; q2_score (map snd rows) (map scored folds).
End Scores.

(** crates/gpqa/src/main.rs:107-111: no number of folds means leave-one-out. *)
Definition gpqa_folds (kfold nrows : nat) : nat := if kfold =? 0 then nrows else kfold.
