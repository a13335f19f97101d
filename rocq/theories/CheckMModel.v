(* Model of the checks compute_M makes in the debug build, of compute_f_prod
   (/repo/src/submatrix_impl/invA.ipp, "invA.ipp") and of InvAMatrixFlavors::determinant
   (/repo/src/submatrix.hpp).
   Simplifications: a failing assertion is [false]; the tolerance 1E-5 is a parameter [eps]. *)
From mathcomp Require Import all_ssreflect ssralg ssrnum ssrint matrix.
From Verif Require Import Outcome MatLib SrcFormulaModel SubModel.

Set Implicit Arguments.
Unset Strict Implicit.
Unset Printing Implicit Defensive.

Import GRing.Theory Num.Theory.
Local Open Scope ring_scope.

Section CheckM.
Variables (F : numFieldType) (Tm : eqType) (ani : F).
Variable G0 : sop Tm -> sop Tm -> F.
Variable x0 : sop Tm.
Variable eps : F.

(* invA.ipp:349-357 — G0_M; G0 minus alpha on the diagonal is the matrix of common.ipp:372-377. *)
Definition ia_G0_M (m : inva F Tm) : fmat F := fmul (ia_n m) (ia_G0_alpha G0 x0 m) (ia_compute_M ani x0 m).
(* invA.ipp:333, 358-366 — the assertions; a matrix without rows is not checked. *)
Definition check_M (m : inva F Tm) : bool :=
  all (fun j => all (fun i =>
    if i == j then `|ia_G0_M m i j - 1| < eps else `|ia_G0_M m i j| < eps) (iota 0 (ia_n m))) (iota 0 (ia_n m)).
(* common.ipp:349-356 — compute_M for all flavors, with the assertions. *)
Definition check_M_all (s : sub F Tm) : bool := all check_M (su_A s).

(* invA.ipp:156-167 — compute_f_prod. *)
Definition f_prod (m : inva F Tm) : F :=
  if size (ia_rows m) == 0%N then 1
  else foldl (fun f i => f * (1 - eval_f ani (ar_alpha (ia_row x0 m i)))) 1 (iota 0 (size (ia_rows m))).

(* submatrix.hpp:227-233 — InvAMatrixFlavors::determinant. *)
Definition flavors_det (As : seq (inva F Tm)) : F :=
  foldl (fun det fl => det * fdet (ia_n (nth (inva_new F Tm) As fl)) (ia_mat (nth (inva_new F Tm) As fl))) 1 (iota 0 (size As)).
End CheckM.
