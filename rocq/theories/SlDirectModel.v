(* Model of the evaluation of Legendre coefficients that were recorded directly
   (/repo/src/postprocess.hpp, evaluate_selfenergy_measurement_legendre; the call and the
   recording are comments at this commit).  Simplifications as in SlModel.v. *)
From mathcomp Require Import all_ssreflect ssralg ssrnum ssrint rat.
From Verif Require Import Outcome GreenModel BinModel LegendreModel DensModel SlModel.

Set Implicit Arguments.
Unset Strict Implicit.
Unset Printing Implicit Defensive.

Local Open Scope ring_scope.
Import Num.Theory.

Section Direct.
Variable C : numClosedFieldType.
Variables (sqrt : C -> C) (bessel : nat -> nat -> C).

(* postprocess.hpp:17-72 — evaluate_selfenergy_measurement_legendre for one pair of sites and
   one flavor (the iterations of the loops over these are independent): Sl and Sw.  The
   constructor of LegendreTransformer (32) may fail; lines 47-49 are the loading, 57-67 the
   product with Tnl. *)
Definition evaluate_legendre (mean_real mean_imag : seq C) (sign : C) (n_matsubara n_legendre : nat)
    : outcome (seq C * seq C) :=
  obind (legendre_new sqrt n_legendre) (fun t =>
  obind (build (load_Stau mean_real mean_imag sign) n_legendre) (fun Sl =>
  Ok (Sl, [seq post_Sw (Tnl sqrt bessel n_matsubara n_legendre) Sl n_legendre w | w <- iota 0 n_matsubara]))).

(* measurement.ipp:159-176 — what one configuration with the coefficients S puts into the
   accumulators. *)
Definition record_Sl (n_legendre : nat) (sign : C) (S : table C) : stau_sample C :=
  StauSample ('Re sign) (fun z site1 site2 => [seq 'Re (S z site1 site2 l) | l <- iota 0 n_legendre])
    (fun z site1 site2 => [seq 'Im (S z site1 site2 l) | l <- iota 0 n_legendre]).

(* postprocess.hpp:17-72, 216 — Sl and Sw of one flavor and pair of sites from everything
   recorded. *)
Definition postprocess_direct (n_matsubara n_legendre : nat) (l : seq (stau_sample C)) (z site1 site2 : nat)
    : outcome (seq C * seq C) :=
  evaluate_legendre (mean_vec [seq ss_real s z site1 site2 | s <- l]) (mean_vec [seq ss_imag s z site1 site2 | s <- l])
    (mean [seq ss_sign s | s <- l]) n_matsubara n_legendre.
End Direct.
