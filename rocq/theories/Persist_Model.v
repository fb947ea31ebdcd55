(** Saving and loading trained models: crates/moe/src/surrogates.rs, crates/moe/src/algorithm.rs, crates/ego/src/gpmix/mixint.rs,
    python/src/gp_mix.rs. Files are modelled by their content: the entry naming the type of a trait object, if any, and the
    numbers. Simplifications: other data (type specifications, sizes) are in [m_rest], which reading gives back; a finite number
    is read as it was written (the JSON reader may be off by one unit in the last place); a model read in another format than the
    one written is refused. *)
From Coq Require Import ZArith List Bool String.
From Flocq Require Import IEEE754.BinarySingleNaN.
From Verif Require Import Util F64.
Import ListNotations.

(** types.rs, [GpFileFormat]. *)
Inductive file_format := Json | Binary.
(** The tags of the serializable traits, surrogates.rs:46, 67, 84, 97, 101. *)
Inductive trait_tag := type_gp | type_gpext | type_gpparam | type_fullgp | type_sgp.
(** The four sorts of trained models. *)
Inductive model_type := DenseGp | SparseGp | Mixture | MixintMixture.
Record model (B : Type) := mkmodel { m_type : model_type; m_numbers : list f64; m_rest : B }.
Arguments mkmodel {B}. Arguments m_type {B}. Arguments m_numbers {B}. Arguments m_rest {B}.
(** A number in a file; [None] is [null]. *)
Record file (B : Type) := mkfile { f_format : file_format; f_tag : option (trait_tag * model_type); f_type : model_type; f_numbers : list (option f64); f_rest : B }.
Arguments mkfile {B}. Arguments f_format {B}. Arguments f_tag {B}. Arguments f_type {B}. Arguments f_numbers {B}. Arguments f_rest {B}.

(** serde_json writes NaN and infinities as [null]; bincode writes the bits. *)
Definition write_number (fmt : file_format) (a : f64) : option f64 :=
  match fmt with Json => if is_finite a then Some a else None | Binary => Some a end.
(** Serialization of a model, as itself ([None]) or as an object of a trait, whose tag is then written first. *)
Definition write {B} (fmt : file_format) (as_trait : option trait_tag) (m : model B) : file B :=
  mkfile fmt (option_map (fun t => (t, m_type m)) as_trait) (m_type m) (map (write_number fmt) (m_numbers m)) (m_rest m).
Definition same_format (a b : file_format) : bool := match a, b with Json, Json | Binary, Binary => true | _, _ => false end.
Definition same_tag (a b : trait_tag) : bool :=
  match a, b with type_gp, type_gp | type_gpext, type_gpext | type_gpparam, type_gpparam | type_fullgp, type_fullgp | type_sgp, type_sgp => true | _, _ => false end.
Definition same_type (a b : model_type) : bool :=
  match a, b with DenseGp, DenseGp | SparseGp, SparseGp | Mixture, Mixture | MixintMixture, MixintMixture => true | _, _ => false end.
(** Deserialization of the fields: a [null] is not a number. [None] is an error. *)
Definition read_fields {B} (fmt : file_format) (t : model_type) (f : file B) : option (model B) :=
  if same_format fmt (f_format f) && same_type t (f_type f) then do l <- mapM (fun x => x) (f_numbers f); Some (mkmodel t l (f_rest f)) else None.
(** Deserialization of an object of a trait: the tag of this trait tells the type to read. *)
Definition read_trait {B} (fmt : file_format) (tr : trait_tag) (f : file B) : option (model B) :=
  match f_tag f with
  | Some (t, ty) => if same_tag tr t then read_fields fmt ty f else None
  | None => None
  end.

(** [GpSurrogate::save]: dense processes surrogates.rs:180-193, sparse ones 348-361, mixtures algorithm.rs:510-523, mixed-integer
    mixtures mixint.rs:623-636. The file system is not modelled. *)
Definition save {B} (fmt : file_format) (m : model B) : file B :=
  write fmt (match m_type m with DenseGp => Some type_gp | SparseGp => Some type_sgp | Mixture | MixintMixture => None end) m.
(** [load], surrogates.rs:424-441. *)
Definition load {B} (fmt : file_format) (f : file B) : option (model B) := read_trait fmt type_gp f.
(** [GpMixture::load], algorithm.rs:1094-1106; [MixintGpMixture::load], mixint.rs:638-651 (an error of the JSON reader panics). *)
Definition load_mixture {B} (fmt : file_format) (f : file B) : option (model B) := read_fields fmt Mixture f.
Definition load_mixint {B} (fmt : file_format) (f : file B) : option (model B) := read_fields fmt MixintMixture f.

(** python/src/gp_mix.rs:311-315 and 325-329, sparse_gp_mix.rs:290-294 and 305-309: the format of a file name. [extension] is the
    library function; [None] is a panic. *)
Definition format_of (extension : string -> option string) (name : string) : option file_format :=
  do e <- extension name; Some (if String.eqb e "json" then Json else Binary).
(** gp_mix.rs:311-317, [Gpx.save] where [create] tells whether the file can be created (surrogates and mixtures unwrap this result):
    [None] is a panic, otherwise the returned boolean and the file. *)
Definition gpx_save {B} (extension : string -> option string) (create : string -> bool) (name : string) (m : model B) : option (bool * file B) :=
  do fmt <- format_of extension name; if create name then Some (true, save fmt m) else None.
(** gp_mix.rs:325-331, [Gpx.load]. *)
Definition gpx_load {B} (extension : string -> option string) (name : string) (f : file B) : option (model B) :=
  do fmt <- format_of extension name; load_mixture fmt f.

(** gp/src/algorithm.rs:1112-1134, the end of [reduced_likelihood] in double precision, from the residuals rho and the diagonal of the
    Cholesky factor, with the library's decimal logarithm. *)
Definition fsum (l : list f64) : f64 := fold_left fadd l fzero.
Definition likelihood_f64 (log10 : f64 -> f64) (n : f64) (rho diag : list f64) : f64 :=
  let rho_sqr := fsum (map (fun v => fmul v v) rho) in
  let logdet := fdiv (fmul (fsum (map log10 diag)) (fofZ 2)) n in
  let sigma2 := fdiv rho_sqr n in
  fmul (fneg n) (fadd (log10 sigma2) logdet).
