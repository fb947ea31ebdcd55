(** The constants of LogEI in double precision (logei_helper.rs:4-6, misc.rs:7) and numerical facts on the exponential, by interval
    arithmetic. *)
From Coq Require Import ZArith Reals Lra Lia.
From Flocq Require Import Core.Core IEEE754.BinarySingleNaN.
From Interval Require Import Tactic.
From Verif Require Import F64 F64_Round CritF64_Model Properties_CritF64.
Local Open Scope R_scope.

Lemma bpow_m52 : bpow radix2 (-52) = / 4503599627370496. Proof. reflexivity. Qed.
Lemma bpow_m53 : bpow radix2 (-53) = / 9007199254740992. Proof. reflexivity. Qed.
Lemma bpow_m51 : bpow radix2 (-51) = / 2251799813685248. Proof. reflexivity. Qed.
Lemma bpow_m55 : bpow radix2 (-55) = / 36028797018963968. Proof. reflexivity. Qed.

(** The constants are, up to 2^-52, the numbers they are named after. *)
Definition denotes (c : f64) (x : R) : Prop := is_finite c = true /\ Rabs (B2R c - x) <= bpow radix2 (-52).
Lemma by_make m e y : (Z.abs m < 2 ^ 53)%Z -> (-1074 <= e <= 0)%Z -> Rabs (IZR m * bpow radix2 e - y) <= bpow radix2 (-52) -> denotes (fmake m e) y.
Proof. intros M E H. destruct (fmake_R m e M E) as [A B]. split; [exact A|]. now rewrite B. Qed.
Lemma constants :
  denotes INV_SQRT_2 (/ sqrt 2) /\ denotes SQRT_2 (sqrt 2) /\ denotes SQRT_2PI (sqrt (2 * PI)) /\
  denotes LOG_2PI_OVER_2 (ln (2 * PI) / 2) /\ denotes LOG_PI_OVER_2_ALL_OVER_2 (ln (PI / 2) / 2).
Proof.
  refine (conj _ (conj _ (conj _ (conj _ _)))); (apply by_make; [lia|lia|]); rewrite ?bpow_m52, ?bpow_m53, ?bpow_m51, ?bpow_m55; interval with (i_prec 100).
Qed.
