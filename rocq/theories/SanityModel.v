(* Model of the checks of the debug build: SubmatrixUpdate::sanity_check
   (/repo/src/submatrix_impl/common.ipp:51-72, "common.ipp"), InvGammaMatrix::sanity_check
   (/repo/src/submatrix_impl/gamma.ipp:43-71, "gamma.ipp"), InvAMatrix::sanity_check and
   InvAMatrixFlavors::sanity_check (/repo/src/submatrix_impl/invA.ipp:81-98, 552-600,
   "invA.ipp").
   Simplifications:
   - a failing assertion and the result false are the same: both are [false];
   - the tolerance 1E-5 of gamma.ipp:68 and common.ipp:67-68 is a parameter [eps];
   - the four vectors of InvAMatrix are one list of rows (SubModel), so that of the five
     comparisons of sizes at invA.ipp:86-90 one is left. *)
From mathcomp Require Import all_ssreflect ssralg ssrnum ssrint matrix.
From Verif Require Import Outcome MatLib SrcFormulaModel SubModel.

Set Implicit Arguments.
Unset Strict Implicit.
Unset Printing Implicit Defensive.

Import GRing.Theory Num.Theory.
Local Open Scope ring_scope.

Section Sanity.
Variables (F : numFieldType) (Tm : eqType) (ani : F).
Variable G0 : sop Tm -> sop Tm -> F.
Variable U : seq (vdef F).
Variable x0 : sop Tm.
Variable eps : F.

(* resizable_matrix.hpp:443-445 — norm_square of an n x n matrix. *)
Definition norm_square (n : nat) (a : fmat F) : F := \sum_(i < n) \sum_(j < n) `|a i j| ^+ 2.

(* util.h:245-247 — my_equal; std::max of two real numbers. *)
Definition my_equal (x y : F) : bool :=
  `|x - y| / (if `|x| < `|y| then `|y| else `|x|) < eps.

(* gamma.ipp:43-71 — InvGammaMatrix::sanity_check. *)
Definition gm_sane (m : inva F Tm) (g : gmat F) : bool :=
  let N := size (gm_info g) in
  if N == 0%N then true
  else
    [&& all (fun x => gi_a0 x == ar_alpha (ia_row x0 m (gi_pos x))) (gm_info g),
        gm_n g == N &
        norm_square N (fsub (finv N (eval_gamma ani m (gm_info g))) (gm_mat g)) / (N * N)%:R < eps].

(* invA.ipp:81-98 — InvAMatrix::sanity_check. *)
Definition ia_sane (m : inva F Tm) : bool := ia_n m == size (ia_rows m).

(* invA.ipp:567-581 — the rows of one flavor collected from the vertices. *)
Definition scr_rows (vs : seq (vertex Tm)) (fl : nat) : seq (arow F Tm) :=
  flatten [seq [seq vrow U v (vd_alpha (get_vertex U (v_type v)) (v_af v) r) r
               | r <- iota 0 (vd_rank (get_vertex U (v_type v))) & vflavor U v r == fl] | v <- vs].

(* invA.ipp:590-596 — one collected row is looked up and compared; a row that is not found
   has position -1. *)
Definition row_sane (m : inva F Tm) (r : arow F Tm) : outcome bool :=
  if find_row m (ar_uid r) (ar_rank r) is Some p then
    let x := ia_row x0 m p in
    Ok [&& ar_cre x == ar_cre r, ar_ann x == ar_ann r & ar_alpha x == ar_alpha r]
  else UB.

(* invA.ipp:584-597 — the checks of one flavor, in the order of the source. *)
Definition flavor_sane (m : inva F Tm) (scr : seq (arow F Tm)) : outcome bool :=
  if ~~ ia_sane m then Ok false
  else if size (ia_rows m) != size scr then Ok false
  else foldl (fun a r => obind a (fun b => if b then row_sane m r else Ok false)) (Ok true) scr.

(* invA.ipp:552-600 — InvAMatrixFlavors::sanity_check. *)
Definition flavors_sane (As : seq (inva F Tm)) (vs : seq (vertex Tm)) : outcome bool :=
  foldl (fun a fl => obind a (fun b =>
    if b then flavor_sane (nth (inva_new F Tm) As fl) (scr_rows vs fl) else Ok false))
    (Ok true) (iota 0 (size As)).

(* common.ipp:51-72 — SubmatrixUpdate::sanity_check: the result and the object. *)
Definition sub_sane (s : sub F Tm) : outcome (bool * sub F Tm) :=
  if ~~ all (fun fl => gm_sane (nth (inva_new F Tm) (su_A s) fl) (nth (gmat_new F) (su_G s) fl))
            (iota 0 (size (su_A s))) then Ok (false, s)
  else if su_trying s then Ok (true, s)
  else
    obind (flavors_sane (su_A s) (su_v s)) (fun b =>
    if ~~ b then Ok (false, s)
    else obind (recompute_matrix ani G0 U x0 s) (fun s2 =>
      Ok (my_equal (su_sign s) (su_sign s2) && my_equal (su_sdet s) (su_sdet s2), s2))).

End Sanity.
