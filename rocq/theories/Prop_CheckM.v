(* Property theorems: C97 (the checks of compute_M, compute_f_prod and determinant). *)
From mathcomp Require Import all_ssreflect order fingroup perm ssralg ssrnum ssrint rat matrix.
From mathcomp Require Import zify.
From Verif Require Import Outcome MatLib MatSpec BlockLib FormulaProofs SrcFormulaModel SrcFormulaProofs SubModel SubSpec SubMath SubRows SubFlavor SubConf SubProofs Prop_Sub SanityModel Prop_Sanity CheckMModel.

Set Implicit Arguments.
Unset Strict Implicit.
Unset Printing Implicit Defensive.

Import Order.TTheory GRing.Theory Num.Theory.
Local Open Scope ring_scope.

(* ------------------------------------------------------------------ C97 *)

(* Between sessions the assertions in compute_M never fail, whatever happened before. *)
Theorem C97_passes :
  forall (F : numFieldType) (Tm : eqType) (ani : F) (G0 : sop Tm -> sop Tm -> F) (U : seq (vdef F))
         (x0 : sop Tm) (nf : nat) (tm0 : Tm) (junk : fmat F) (eps : F) (s : sub F Tm),
    0 < eps -> sp_types_ok U ani nf -> reach ani G0 U x0 nf tm0 junk s -> ~~ su_trying s ->
    check_M_all ani G0 x0 eps s.
Proof.
move=> F Tm ani G0 U x0 nf tm0 junk eps s e0 tok re tr; have hi := reach_inv tok re.
apply/(all_nthP (inva_new F Tm)) => fl; rewrite (i_sA hi) => fll.
set m := nth _ _ _; have en : ia_n m = size (row_ops s fl) := rd_n hi fll.
have hM : inverse_of (ia_n m) (sp_mat G0 x0 (row_ops s fl)) (ia_compute_M ani x0 m).
  by rewrite en; apply: (rd_M tok hi tr fll).
have eG : feq (ia_n m) (ia_n m) (sp_mat G0 x0 (row_ops s fl)) (ia_G0_alpha G0 x0 m).
  by rewrite en size_map; apply: sp_mat_term.
have h := inverse_of_ext eG (@feq_refl _ _ _ _) hM.
apply/allP => j; rewrite mem_iota add0n => /andP[_ jl]; apply/allP => i; rewrite mem_iota add0n => /andP[_ il].
by rewrite /ia_G0_M /fmul h //; case: eqP => _; rewrite ?subrr ?normr0.
Qed.
Print Assumptions C97_passes.

(* Matrices that pass for every tolerance are inverses of G0 - alpha. *)
Theorem C97_finds :
  forall (F : numFieldType) (Tm : eqType) (ani : F) (G0 : sop Tm -> sop Tm -> F) (x0 : sop Tm) (s : sub F Tm) (fl : nat),
    (forall eps, 0 < eps -> check_M_all ani G0 x0 eps s) -> (fl < size (su_A s))%N ->
    let M := nth (0%N, fun _ _ => 0) (compute_M ani x0 s) fl in
    M.1 = size (row_ops s fl) -> inverse_of M.1 (sp_mat G0 x0 (row_ops s fl)) M.2.
Proof.
move=> F Tm ani G0 x0 s fl H fll M; rewrite /M (nth_map (inva_new F Tm)) //=.
set m := nth _ _ _ => en.
have eG : feq (ia_n m) (ia_n m) (ia_G0_alpha G0 x0 m) (sp_mat G0 x0 (row_ops s fl)).
  by apply: feq_sym; rewrite en size_map; apply: sp_mat_term.
apply: (inverse_of_ext eG (@feq_refl _ _ _ _)) => i j il jl.
apply/eqP; rewrite -subr_eq0 -normr_eq0; apply/negPn/negP => ne.
set d := `|_| in ne; have d0 : 0 < d by rewrite lt_def ne normr_ge0.
have /(all_nthP (inva_new F Tm)) /(_ fl fll) /allP /(_ j) := H d d0.
rewrite mem_iota add0n jl => /(_ isT) /allP /(_ i); rewrite mem_iota add0n il => /(_ isT).
by rewrite /d /ia_G0_M /fmul -/m; case: (i == j); rewrite ?subr0 ltxx.
Qed.
Print Assumptions C97_finds.

(* Between sessions compute_f_prod and determinant together are the inverse of the product of
   the determinants in the weight. *)
Theorem C97_weight :
  forall (F : numFieldType) (Tm : eqType) (ani : F) (G0 : sop Tm -> sop Tm -> F) (U : seq (vdef F))
         (x0 : sop Tm) (nf : nat) (tm0 : Tm) (junk : fmat F) (s : sub F Tm),
    sp_types_ok U ani nf -> reach ani G0 U x0 nf tm0 junk s -> ~~ su_trying s ->
    (forall fl, (fl < nf)%N ->
      f_prod ani x0 (nth (inva_new F Tm) (su_A s) fl) = \prod_(t <- sp_ops U fl (su_v s)) (1 - t.2)^-1) /\
    flavors_det (su_A s) * (\prod_(m <- su_A s) f_prod ani x0 m) * weight G0 U x0 nf (su_v s) =
      \prod_(v <- su_v s | ~~ v_non v) - vd_U (sp_def U v).
Proof.
move=> F Tm ani G0 U x0 nf tm0 junk s tok re tr; have hi := reach_inv tok re.
have fE fl : (fl < nf)%N -> f_prod ani x0 (nth (inva_new F Tm) (su_A s) fl) =
    \prod_(r <- ia_rows (nth (inva_new F Tm) (su_A s) fl)) (1 - eval_f ani (ar_alpha r)).
  move=> fll; rewrite /f_prod; set m := nth _ _ _; case: eqP => [/size0nil ->|_]; first by rewrite big_nil.
  rewrite (foldl_prod (fun i => 1 - eval_f ani (ar_alpha (ia_row x0 m i)))) mul1r.
  by rewrite [RHS](big_nth (row0 F x0)) /index_iota subn0.
have fP fl : (fl < nf)%N -> f_prod ani x0 (nth (inva_new F Tm) (su_A s) fl) = \prod_(t <- sp_ops U fl (su_v s)) (1 - t.2)^-1.
  move=> fll; rewrite fE // -(perm_big _ (rd_ops tok hi tr fll)) /= big_map big_seq [RHS]big_seq.
  apply: eq_bigr => r ri; rewrite /eval_f (negbTE (rd_int tok hi tr fll ri)).
  rewrite /term /=; have := rd_one tok hi tr fll ri; move: (ar_alpha r) => a a1.
  have n1 : a - 1 != 0 by rewrite subr_eq0.
  have e : 1 - a / (a - 1) = ((a - 1) - a) / (a - 1) by rewrite mulrBl divff.
  have e' : a - 1 - a = -1 by rewrite addrAC subrr add0r.
  by rewrite e e' mulN1r -invrN opprB.
split=> //; rewrite /weight mulrA.
rewrite -[RHS]mul1r; congr (_ * _).
rewrite /flavors_det (foldl_prod (fun fl => fdet (ia_n (nth (inva_new F Tm) (su_A s) fl)) (ia_mat (nth (inva_new F Tm) (su_A s) fl)))) mul1r.
rewrite (i_sA hi) -{1}[nf]subn0 -/(index_iota 0 nf) big_mkord (big_nth (inva_new F Tm)) (i_sA hi) big_mkord -!big_split /=.
apply: big1 => fl _; have fll := ltn_ord fl; set m := nth _ _ _.
have en : ia_n m = size (row_ops s fl) := rd_n hi fll.
have := inverse_of_det (rd_M tok hi tr fll).
rewrite -/(wdet G0 x0 _) (wdet_perm _ _ (rd_ops tok hi tr fll)) => <-.
rewrite mulrC; congr (_ * _); rewrite fE // -/m.
have er : size (row_ops s fl) = size (ia_rows m) by rewrite size_map.
rewrite -[size _]en det_ofE /fdet.
have -> : mxof (ia_n m) (ia_n m) (ia_compute_M ani x0 m) =
    diag_mx (\row_(i < ia_n m) (1 - eval_f ani (ar_alpha (ia_row x0 m i)))) *m mxof (ia_n m) (ia_n m) (ia_mat m).
  by apply/matrixP => i j; rewrite mul_diag_mx !mxE.
rewrite det_mulmx det_diag mulrC; congr (_ * _).
rewrite (big_nth (row0 F x0)) -er -en big_mkord; apply: eq_bigr => i _; by rewrite mxE.
Qed.
Print Assumptions C97_weight.

(* one vertex, one row per flavor: the assertions hold; with the stored inverses overwritten by
   zeros, which sanity_check does not notice (C87_inverse_refuted), they fail *)
Example C97_case : exists s, [/\ reachX s, ~~ su_trying s,
  forall eps : [numFieldType of rat], 0 < eps -> check_M_all aniX GX xX eps s,
  forall eps : [numFieldType of rat], 0 < eps -> eps <= 1 -> ~~ check_M_all aniX GX xX eps (with_mat (fun _ _ => 0) s) &
  flavors_det (su_A s) * (\prod_(m <- su_A s) f_prod aniX xX m) * weight GX UX xX 2 (su_v s) =
    \prod_(v <- su_v s | ~~ v_non v) - vd_U (sp_def UX v)].
Proof.
have [s [re tr sz ty]] := oneX; have hi := reach_inv tokX re; have o := one_row re tr sz ty.
exists s; split; [exact re | exact tr | | |].
- by move=> eps e0; apply: (C97_passes e0 tokX re tr).
- move=> eps e0 e1; apply/negP => /(all_nthP (inva_new _ _)) /(_ 0%N).
  rewrite size_map (i_sA hi) => /(_ isT); rewrite (nth_map (inva_new _ _)) ?(i_sA hi) // /check_M [ia_n _]/=.
  rewrite (st_n (fv_st (i_fl hi (isT : (0 < 2)%N)))) (o 0%N isT) => /andP[/andP[+ _] _].
  rewrite eqxx /ia_G0_M /fmul big1 => [|k _]; last by rewrite /ia_compute_M [ia_mat _]/= !mulr0.
  by rewrite sub0r normrN normr1 ltNge e1.
by have [_ h] := C97_weight tokX re tr.
Qed.
