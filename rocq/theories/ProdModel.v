(* Model of the determinant returned as a list of factors by DeterminantMatrix and
   DeterminantMatrixPartitioned.
   Abbreviations: dm.hpp = include/alps/fastupdate/determinant_matrix.hpp,
   dmp.hpp = include/alps/fastupdate/determinant_matrix_partitioned.hpp.
   Simplifications:
   - exact arithmetic: no overflow of a factor;
   - Eigen::FullPivLU and std::sort are parameters: any factorisation and any sorting
     function that meets the specification of std::sort. *)
From mathcomp Require Import all_ssreflect ssralg ssrnum matrix order.
From Verif Require Import Outcome MatLib RmatModel DetMatModel PartModel.

Set Implicit Arguments.
Unset Strict Implicit.
Unset Printing Implicit Defensive.

Local Open Scope ring_scope.

Section Prod.
Variables (F : numFieldType) (disp : unit) (T : orderType disp) (CD C : eqType).
(* Eigen::FullPivLU of a square matrix, detail/util.hpp:198. *)
Variable lus : forall (n : nat) (a : 'M[F]_n), full_piv_lu a.
(* std::sort with lesser_by_abs (detail/util.hpp:208-211), dm.hpp:154 and dmp.hpp:213. *)
Variable srt : seq F -> seq F.

(* r[0] *= v, dm.hpp:151-153 and dmp.hpp:210-212: nothing for an empty vector. *)
Definition scale_head (v : F) (r : seq F) : seq F := if r is x :: r' then x * v :: r' else r.

(* dm.hpp:137-157 — compute_determinant_as_product. *)
Definition as_product (d : dm F T CD C) : outcome (seq F) :=
  if sz (co d) == 0%N then Ok [:: 1]
  else obind (lu_product (lus (mxof (sz (co d)) (sz (co d)) (inv (co d))))) (fun vec =>
       Ok (srt (scale_head (perm (co d)) [seq 1 / x | x <- vec]))).

(* dmp.hpp:206-209 — the loop over the sectors. *)
Fixpoint product_loop (ds : seq (dm F T CD C)) (r : seq F) : outcome (seq F) :=
  if ds is d :: ds' then obind (as_product d) (fun vec => product_loop ds' (r ++ vec)) else Ok r.

(* dmp.hpp:201-215 — compute_determinant_as_product; singular_ is never set. *)
Definition p_as_product (p : pdm F T CD C) : outcome (seq F) :=
  obind (product_loop (p_dets p) [::]) (fun r => Ok (srt (scale_head (p_perm p) r))).

End Prod.
