(** Saved models: property C136. *)
From Coq Require Import ZArith Reals Lra Lia List Bool String.
From Flocq Require Import IEEE754.BinarySingleNaN.
From Verif Require Import Util F64 F64_Extra Persist_Model.
Import ListNotations.

(** ** C136: saved models are read back *)
Definition all_finite {B} (m : model B) : Prop := Forall (fun a => is_finite a = true) (m_numbers m).
(** The loading function documented for each sort of models. *)
Definition load_for {B} (t : model_type) (fmt : file_format) (f : file B) : option (model B) :=
  match t with DenseGp | SparseGp => load fmt f | Mixture => load_mixture fmt f | MixintMixture => load_mixint fmt f end.

Lemma same_type_refl t : same_type t t = true. Proof. now destruct t. Qed.
Lemma same_format_refl t : same_format t t = true. Proof. now destruct t. Qed.
Lemma numbers_back fmt l : (fmt = Json -> Forall (fun a => is_finite a = true) l) -> mapM (fun x : option f64 => x) (map (write_number fmt) l) = Some l.
Proof.
  intros H. induction l as [|a l IH]; cbn [map mapM]; [reflexivity|]. rewrite IH.
  - destruct fmt; cbn [write_number]; [|reflexivity]. specialize (H eq_refl). inversion H as [|? ? Ha _]; subst. now rewrite Ha.
  - intros E. specialize (H E). now inversion H.
Qed.
Lemma read_back {B} fmt tr (m : model B) : (fmt = Json -> all_finite m) -> read_fields fmt (m_type m) (write fmt tr m) = Some m.
Proof.
  intros H. unfold read_fields, write. cbn [f_format f_type f_numbers f_rest]. rewrite same_format_refl, same_type_refl. cbn [andb].
  rewrite numbers_back by exact H. now destruct m.
Qed.
(** Dense processes and mixtures are read back unchanged, hence predict the same: in binary format always, in JSON when their
    numbers are finite. *)
Theorem C136_round_trip_partial : forall (B : Type) fmt (m : model B), m_type m <> SparseGp -> (fmt = Json -> all_finite m) ->
  load_for (m_type m) fmt (save fmt m) = Some m.
Proof.
  intros B fmt m T F. unfold save. pose proof (fun tr => read_back fmt tr m F) as R. destruct (m_type m) eqn:E; [| |exact (R _)|exact (R _)].
  - unfold load_for, load, read_trait, write at 1. cbn [f_tag option_map]. rewrite E. cbn [same_tag]. exact (R _).
  - now elim T.
Qed.
Print Assumptions C136_round_trip_partial.
(** Whatever is read from a saved file, with any of the loading functions and in any format, is the saved model; in particular a
    file of another sort of model or in another format is refused. *)
Theorem C136_faithful : forall (B : Type) t fmt fmt' (m m' : model B), load_for t fmt (save fmt' m) = Some m' -> m' = m /\ fmt = fmt'.
Proof.
  intros B t fmt fmt' m m' H.
  assert (R : forall ty tr, read_fields fmt ty (write fmt' tr m) = Some m' -> m' = m /\ fmt = fmt').
  { intros ty tr E. unfold read_fields, write in E. cbn [f_format f_type f_numbers f_rest] in E.
    assert (F : fmt = fmt') by (destruct fmt, fmt'; (reflexivity || discriminate E)). subst fmt'. split; [|reflexivity].
    assert (T : ty = m_type m) by (destruct fmt, ty, (m_type m); (reflexivity || discriminate E)). subst ty.
    rewrite same_format_refl, same_type_refl in E. cbn [andb] in E.
    destruct (mapM _ _) as [l|] eqn:L; [|discriminate E]. injection E as E. subst m'.
    assert (K : forall l l', mapM (fun x : option f64 => x) (map (write_number fmt) l) = Some l' -> l' = l).
    { clear. induction l as [|a l IH]; intros l' E; cbn [map mapM] in E; [now injection E|].
      destruct (write_number fmt a) as [b|] eqn:W; [|discriminate E]. destruct (mapM _ (map _ l)) as [l2|] eqn:E2; [|discriminate E].
      injection E as <-. rewrite (IH _ eq_refl). f_equal. destruct fmt; cbn [write_number] in W; [destruct (is_finite a)|]; now inversion W. }
    rewrite (K _ _ L). now destruct m. }
  destruct t; unfold load_for, load, load_mixture, load_mixint, read_trait, save in H; try exact (R _ _ H); cbn [write f_tag] in H;
    (destruct (m_type m); cbn [option_map] in H; try discriminate H; cbn [same_tag] in H; try discriminate H; exact (R _ _ H)).
Qed.
Print Assumptions C136_faithful.
(** Finding: a saved sparse process is never read back: it is written as an object of another trait than the one read. *)
Theorem C136_sparse_refuted : forall (B : Type) fmt (m : model B), m_type m = SparseGp -> load fmt (save fmt m) = None.
Proof. intros B fmt m T. unfold load, read_trait, save, write. rewrite T. reflexivity. Qed.
Print Assumptions C136_sparse_refuted.
(** Finding: the general loading function reads no mixture, although a mixture is a surrogate. *)
Theorem C136_mixture_refuted : forall (B : Type) fmt (m : model B), m_type m = Mixture -> load fmt (save fmt m) = None.
Proof. intros B fmt m T. unfold load, read_trait, save, write. rewrite T. reflexivity. Qed.
Print Assumptions C136_mixture_refuted.
(** Finding: a model with an infinite number is not read back from JSON. *)
Theorem C136_infinite_refuted : forall (B : Type) (m : model B) t a, In a (m_numbers m) -> is_finite a = false -> load_for t Json (save Json m) = None.
Proof.
  intros B m t a I F.
  assert (N : mapM (fun x : option f64 => x) (map (write_number Json) (m_numbers m)) = None).
  { induction (m_numbers m) as [|b l IH]; [destruct I|]. cbn [map mapM]. destruct I as [->|I].
    - cbn [write_number]. now rewrite F.
    - rewrite (IH I). destruct (write_number Json b); reflexivity. }
  assert (R : forall t tr, read_fields Json t (write Json tr m) = None).
  { intros t' tr. unfold read_fields, write. cbn [f_format f_type f_numbers f_rest]. rewrite N. destruct (_ && _); reflexivity. }
  unfold save. destruct t; unfold load_for; try (apply R); unfold load, read_trait; cbn [write f_tag];
    destruct (m_type m); cbn [option_map]; try reflexivity; cbn [same_tag]; first [reflexivity|apply (R _ (Some type_gp))].
Qed.
Print Assumptions C136_infinite_refuted.
(** Such a model is obtained from outputs on which the trend fits exactly, for instance all equal to zero: with null residuals the
    reported likelihood, which is saved with the model, is infinite. *)
Lemma zero_squares rho : Forall (fun a => feq a fzero = true) rho -> fsum (map (fun v => fmul v v) rho) = fzero.
Proof.
  unfold fsum. induction rho as [|a l IH]; intros H; [reflexivity|]. inversion H as [|? ? Ha Hl]; subst. cbn [map fold_left].
  assert (Z : exists s, a = B754_zero s).
  { destruct a as [s|s| |s m e Hb]; [eexists; reflexivity| | |]; exfalso; unfold feq, Beqb, fzero in Ha; cbn in Ha; destruct s || idtac; discriminate Ha. }
  destruct Z as [s ->]. destruct s; cbn; exact (IH Hl).
Qed.
Theorem C136_zero_residuals : forall log10 n rho diag, (forall s, log10 (B754_zero s) = fninf) ->
  is_finite n = true -> flt fzero n = true ->
  Forall (fun a => feq a fzero = true) rho -> is_finite (fdiv (fmul (fsum (map log10 diag)) (fofZ 2)) n) = true ->
  likelihood_f64 log10 n rho diag = finf.
Proof.
  intros log10 n rho diag L0 Fn Pn Z Fd. unfold likelihood_f64. cbv zeta. rewrite zero_squares by exact Z.
  assert (N : exists m' e' Hb', n = B754_finite false m' e' Hb').
  { destruct n as [s'|s'| |s' m' e' Hb']; try discriminate Fn; [exfalso; destruct s'; discriminate Pn|].
    destruct s'; [exfalso; discriminate Pn|]. do 3 eexists. reflexivity. }
  assert (D : fdiv fzero n = B754_zero false) by (destruct N as (m' & e' & Hb' & ->); reflexivity).
  assert (A : forall d : f64, is_finite d = true -> fmul (fneg n) (fadd fninf d) = finf).
  { intros d F. destruct N as (m' & e' & Hb' & ->). destruct d as [s|s| |s m e Hb]; try discriminate F; reflexivity. }
  rewrite D, L0. exact (A _ Fd).
Qed.
Print Assumptions C136_zero_residuals.
(** Python: a name with an extension is written and read in the same format, so that what is saved is read back. *)
Theorem C136_python_partial : forall (B : Type) extension create name (m : model B) e, extension name = Some e -> create name = true ->
  m_type m = Mixture -> all_finite m -> exists f, gpx_save extension create name m = Some (true, f) /\ gpx_load extension name f = Some m.
Proof.
  intros B extension create name m e X C T F. unfold gpx_save, gpx_load, format_of. rewrite X, C. eexists. split; [reflexivity|].
  pose proof (C136_round_trip_partial B (if String.eqb e "json" then Json else Binary) m) as R. rewrite T in R. apply R; [discriminate|intros _; exact F].
Qed.
Print Assumptions C136_python_partial.
(** Finding: [save] is documented to return False when it fails, but never does: a file that cannot be created, or a name without
    extension, is a panic. *)
Theorem C136_python_refuted : forall (B : Type) extension create name (m : model B) f, gpx_save extension create name m <> Some (false, f).
Proof.
  intros B extension create name m f. unfold gpx_save. destruct (format_of extension name); [|discriminate]. destruct (create name); [|discriminate].
  intros H. injection H as H _. discriminate H.
Qed.
Print Assumptions C136_python_refuted.
(** A dense process with three numbers; the residuals of two null outputs. *)
Example C136_example : load Json (save Json (mkmodel DenseGp [fone; fzero; fofZ 7] tt)) = Some (mkmodel DenseGp [fone; fzero; fofZ 7] tt) /\
  all_finite (mkmodel DenseGp [fone; fzero; fofZ 7] tt) /\
  load Binary (save Binary (mkmodel SparseGp [fone] tt)) = None /\ load Json (save Json (mkmodel DenseGp [fone; finf] tt)) = None /\
  likelihood_f64 (fun a => match a with B754_zero _ => fninf | _ => fzero end) (fofZ 2) [fzero; fneg fzero] [fone; fone] = finf.
Proof.
  split; [reflexivity|]. split; [repeat constructor|]. split; [reflexivity|]. split; [reflexivity|].
  apply C136_zero_residuals; [reflexivity|vm_compute; reflexivity|vm_compute; reflexivity|repeat constructor|vm_compute; reflexivity].
Qed.
