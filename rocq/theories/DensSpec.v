(* What a density and a density correlation are: the weight of the configuration with extra
   operators over its weight (Wick's theorem in determinant form). *)
From mathcomp Require Import all_ssreflect ssralg ssrnum rat matrix.
From Verif Require Import MatSpec.

Set Implicit Arguments.
Unset Strict Implicit.
Unset Printing Implicit Defensive.

Local Open Scope ring_scope.

Section Wick.
Variable F : fieldType.
(* annihilation and creation operators (site, time) of one flavor, and the matrix whose
   determinant is the weight: rows are annihilation, columns creation operators *)
Record conf := Conf { cf_annih : seq (nat * rat); cf_creat : seq (nat * rat); cf_N : nat -> nat -> F }.

(* g t a b = G0(t) between the annihilation operator of site a and the creation operator of site b *)
Variables (g : rat -> nat -> nat -> F) (minus_zero tau : rat) (c : conf).

Let op (l : seq (nat * rat)) (i : nat) := nth (0%N, 0) l i.

(* the matrix with creators on the sites cs and annihilators on the sites as, at time tau *)
Definition with_extra (ans crs : seq nat) : nat -> nat -> F :=
  bordered (size (cf_annih c)) (cf_N c)
    (fun q b => g ((op (cf_annih c) q).2 - tau) (op (cf_annih c) q).1 (nth 0%N crs b))
    (fun a p => g (tau - (op (cf_creat c) p).2) (nth 0%N ans a) (op (cf_creat c) p).1)
    (fun a b => g minus_zero (nth 0%N ans a) (nth 0%N crs b)).

(* the expectation value of the densities of the given distinct sites *)
Definition density_product (sites : seq nat) : F :=
  det_of (size (cf_annih c) + size sites) (with_extra sites sites) / det_of (size (cf_annih c)) (cf_N c).

End Wick.

(* the correlation of the densities of (f1, i) and (f2, j): flavors factorise, and a density
   is its own square *)
Definition density_correlation (F : fieldType) (g : nat -> rat -> nat -> nat -> F) (minus_zero tau : rat)
    (c : nat -> conf F) (f1 i f2 j : nat) : F :=
  if f1 == f2 then
    if i == j then density_product (g f1) minus_zero tau (c f1) [:: i]
    else density_product (g f1) minus_zero tau (c f1) [:: i; j]
  else density_product (g f1) minus_zero tau (c f1) [:: i] * density_product (g f2) minus_zero tau (c f2) [:: j].

(* the time that stands for tau = -0, just before the creation operator *)
Definition sp_minus_zero (beta : rat) : rat := - (beta / 10%:R ^+ 10).
