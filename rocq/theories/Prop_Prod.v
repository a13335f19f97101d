(* Property theorem: C68 (the determinant as a list of factors). *)
From mathcomp Require Import all_ssreflect ssralg ssrnum ssrint rat fingroup perm matrix order zify.
From Verif Require Import Outcome MatLib MatSpec RmatModel RmatProofs ClusterModel ClusterSpec DetMatModel
  DetMatSpec PartModel PartSpec PartMain ProdModel Prop_DetMat Prop_Part.

Set Implicit Arguments.
Unset Strict Implicit.
Unset Printing Implicit Defensive.

Import Order.TTheory GRing.Theory Num.Theory.
Local Open Scope ring_scope.

(* ---- specification ---- *)

(* what std::sort with a comparison of absolute values guarantees: the same values, none
   followed by a smaller one *)
Definition ascending (F : numFieldType) (r : seq F) : bool := sorted (fun x y => ~~ (`|y| < `|x|)) r.
Definition sorts_by_abs (F : numFieldType) (srt : seq F -> seq F) : Prop :=
  forall r, perm_eq (srt r) r /\ ascending (srt r).

(* the list multiplies to v, in ascending order of absolute value *)
Definition factors_of (F : numFieldType) (v : F) (r : seq F) : Prop :=
  ascending r /\ \prod_(x <- r) x = v.

(* ---- proofs ---- *)
Section Proofs.
Variables (F : numFieldType) (disp : unit) (T : orderType disp) (CD C : eqType).
Variables (lus : forall (n : nat) (a : 'M[F]_n), full_piv_lu a) (srt : seq F -> seq F).
Hypothesis srt_ok : sorts_by_abs srt.

Lemma prod_scale v (r : seq F) : r != [::] -> \prod_(x <- scale_head v r) x = v * \prod_(x <- r) x.
Proof. by case: r => // x r _; rewrite /= !big_cons (mulrC x) mulrA. Qed.

Lemma prod_sort (r : seq F) : \prod_(x <- srt r) x = \prod_(x <- r) x.
Proof. by apply: perm_big; case: (srt_ok r). Qed.

Lemma as_product_ok (d : dm F T CD C) :
  (sz (co d) = 0%N -> perm (co d) = 1) ->
  exists r, [/\ as_product lus srt d = Ok r, factors_of (compute_determinant d) r & (0 < size r)%N].
Proof.
move=> p1; rewrite /as_product; case: eqP => [z|/eqP nz].
  exists [:: 1]; split=> //; split=> //.
  by rewrite /compute_determinant big_seq1 (p1 z) z /fdet det_mx00 divr1.
have n0 : (0 < sz (co d))%N by rewrite lt0n.
have [r [-> sr pr]] := lu_product_ok (lus (mxof (sz (co d)) (sz (co d)) (inv (co d)))) n0.
rewrite /=; eexists; split; first by []; last first.
  have [pm _] := srt_ok (scale_head (perm (co d)) [seq 1 / x | x <- r]).
  by rewrite (perm_size pm); case: r sr {pr pm} => //= e; move: n0; rewrite -e.
split; first by case: (srt_ok (scale_head (perm (co d)) [seq 1 / x | x <- r])).
rewrite prod_sort prod_scale; last by case: r sr {pr} => //= e; move: n0; rewrite -e.
rewrite /compute_determinant /fdet -pr; congr (_ * _).
elim: r {sr pr} => [|x r IH]; first by rewrite /= !big_nil invr1.
by rewrite /= !big_cons IH invfM div1r.
Qed.

Lemma product_loop_ok (ds : seq (dm F T CD C)) (r : seq F) :
  all (fun d => (sz (co d) == 0%N) ==> (perm (co d) == 1)) ds ->
  exists r2, [/\ product_loop lus srt ds r = Ok r2,
      \prod_(x <- r2) x = \prod_(x <- r) x * \prod_(d <- ds) compute_determinant d &
      ((0 < size ds)%N -> r2 != [::]) /\ (ds = [::] -> r2 = r)].
Proof.
elim: ds r => [|d ds IH] r /=; first by exists r; rewrite big_nil mulr1.
case/andP => /implyP hd hp; have [|v [-> [_ pv] sv]] := @as_product_ok d.
  by move=> z; apply/eqP/hd; rewrite z.
rewrite /=; have [r2 [e pr [h1 h2]]] := IH (r ++ v) hp.
exists r2; split=> //; first by rewrite pr big_cat pv big_cons mulrA.
split=> // _; case: ds {IH hp e pr} h1 h2 => [_ h2|x ds h1 _]; last by apply: h1.
by rewrite h2 //; case: r {h2} => //; case: v sv {pv}.
Qed.

Lemma holds_empty_perm (tcd : CD -> T) (tc : C -> T) (cd0 : CD) (c0 : C) (gf : C -> CD -> F)
  (d : dm F T CD C) (x : conf CD C) :
  holds tcd tc cd0 c0 gf d x -> sz (co d) = 0%N -> perm (co d) = 1.
Proof.
move=> [_ [_ [_ s]] _ _ w] z; move: w; rewrite /compute_determinant z /fdet det_mx00 divr1 => ->.
by rewrite /weight /det_of -s z det_mx00.
Qed.
End Proofs.

(* ---- C68 ---- *)

(* DeterminantMatrix: in every state that holds a configuration the factors multiply to its
   determinant in time order, whatever factorisation and sorting function are used. *)
Theorem C68_factors :
  forall (F : numFieldType) (disp : unit) (T : orderType disp) (CD C : eqType)
         (tcd : CD -> T) (tc : C -> T) (cd0 : CD) (c0 : C) (gf : C -> CD -> F)
         (lus : forall (n : nat) (a : 'M[F]_n), full_piv_lu a) (srt : seq F -> seq F)
         (d : dm F T CD C) (x : conf CD C),
    sorts_by_abs srt -> holds tcd tc cd0 c0 gf d x ->
    exists r, as_product lus srt d = Ok r /\ factors_of (weight tcd tc cd0 c0 gf x) r.
Proof.
move=> F disp T CD C tcd tc cd0 c0 gf lus srt d x so h.
have [_ _ _ _ w] := h.
have [|r [e f _]] := @as_product_ok F _ T CD C lus srt so d; last by exists r; rewrite -w.
exact: holds_empty_perm h.
Qed.
Print Assumptions C68_factors.

(* DeterminantMatrixPartitioned: the factors of all blocks, with the permutation sign of the
   regrouping, multiply to the determinant of the full matrix in time order. *)
Theorem C68_partitioned_factors :
  forall (F : numFieldType) (disp : unit) (T : orderType disp) (CD C : eqType)
         (tcd : CD -> T) (tc : C -> T) (cd0 : CD) (c0 : C) (fcd : CD -> nat) (fc : C -> nat)
         (gf : C -> CD -> F) (N : nat) (connected : nat -> nat -> bool)
         (lus : forall (n : nat) (a : 'M[F]_n), full_piv_lu a) (srt : seq F -> seq F)
         (p : pdm F T CD C) (x : conf CD C),
    sorts_by_abs srt -> p_ready tcd tc cd0 c0 fcd fc gf N connected p x ->
    exists r, p_as_product lus srt p = Ok r /\ factors_of (weight tcd tc cd0 c0 gf x) r.
Proof.
move=> F disp T CD C tcd tc cd0 c0 fcd fc gf N connected lus srt p x so rd.
have [[_ _ sd [eo _]] _ [_ _ [po _ _] hs w]] := rd.
have pr : \prod_(d <- p_dets p) compute_determinant d = foldl *%R 1 [seq compute_determinant d | d <- p_dets p].
  have g (l : seq F) z : foldl *%R z l = z * \prod_(y <- l) y.
    by elim: l z => [|y l IH] z /=; rewrite ?big_nil ?mulr1 // IH big_cons mulrA.
  by rewrite g mul1r big_map.
have [|r [e pe [h1 h2]]] := @product_loop_ok F _ T CD C lus srt so (p_dets p) [::].
  apply/(all_nthP (dm_new F T CD C)) => s; rewrite sd => /hs h; apply/implyP => /eqP z; apply/eqP.
  exact: holds_empty_perm h z.
rewrite /p_as_product e /=; eexists; split; first by [].
split; first by case: (so (scale_head (p_perm p) r)).
rewrite prod_sort //; case n : (size (p_dets p)) => [|m].
  have z := size0nil n; rewrite (h2 z) big_nil.
  move: po; rewrite eo z /= perm_sym => /perm_nilP x0.
  by rewrite /weight /det_of x0 /= det_mx00.
by rewrite prod_scale ?h1 ?n // pe big_nil mul1r -w /p_determinant -pr.
Qed.
Print Assumptions C68_partitioned_factors.

(* factorisations exist for every matrix (row exchanges only) *)
Lemma a_full_piv_lu (F : numFieldType) (n : nat) (a : 'M[F]_n) : full_piv_lu a.
Proof.
case: n a => [|n] a.
  by exists 1%g 1%g a 1%:M; [rewrite !perm_mx1 !mulmx1 mul1mx | case | case | case].
have pm := cormen_lup_perm a; set r := cormen_lup a in pm.
exists (xchoose (existsP pm)) 1%g r.1.2 r.2.
- rewrite -(eqP (xchooseP (existsP pm))) perm_mx1 mulmx1; move: (cormen_lup_correct a).
  by rewrite /r; case: (cormen_lup a) => - [].
- by move=> i j lt; rewrite cormen_lup_lower ?(ltnW lt) //; case: eqP lt => // ->; rewrite ltnn.
- by move=> i; rewrite cormen_lup_lower // eqxx.
- by move=> i j; apply: cormen_lup_upper.
Qed.

Definition sort0 (r : seq rat_numFieldType) : seq rat_numFieldType := sort (fun x y => `|x| <= `|y|) r.
Lemma sort0_ok : sorts_by_abs sort0.
Proof.
move=> r; split; first by rewrite /sort0 perm_sort.
rewrite /ascending (eq_sorted (e' := fun x y : rat_numFieldType => `|x| <= `|y|)).
  by apply: sort_sorted => x y; apply: le_total.
by move=> x y; rewrite -leNgt.
Qed.

(* the two alternating sectors of C18_case: the product is -1, although the factors of the
   two blocks alone are 1 and 1 *)
Example C68_case : exists (p : pdm0) r,
  [/\ readyp p ([:: 0; 2]%N, [:: 1; 3]%N), sorts_by_abs sort0,
      p_as_product (@a_full_piv_lu rat_numFieldType) sort0 p = Ok r & \prod_(x <- r) x = -1].
Proof.
have [p [e rd _ n]] := C18_case.
have [r [er [_ pr]]] := @C68_partitioned_factors rat_numFieldType _ T0 _ _ tm0 tm0 0%N 0%N fcd0 fc0 gS 2 alone
  (@a_full_piv_lu rat_numFieldType) sort0 p _ sort0_ok rd.
exists p, r; exact: And4 rd sort0_ok er (etrans pr weightS).
Qed.
