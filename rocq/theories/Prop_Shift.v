(* Property theorems: C84 (the weight does not depend on the origin of imaginary time). *)
From mathcomp Require Import all_ssreflect order ssralg ssrnum ssrint rat matrix algC zify.
From mathcomp.algebra_tactics Require Import ring.
From Verif Require Import Outcome MatLib MatSpec SubModel SubSpec SubProofs Prop_Sub.
From Verif Require Import GreenModel GreenProofs StartModel.

Set Implicit Arguments.
Unset Strict Implicit.
Unset Printing Implicit Defensive.

Local Open Scope ring_scope.
Import Order.TTheory GRing.Theory Num.Theory.

(* a time of [0, beta) moved by delta on the circle *)
Definition sp_later (beta delta t : rat) : rat := if t + delta < beta then t + delta else t + delta - beta.
(* every vertex moved by delta *)
Definition sp_moved (beta delta : rat) (vs : seq (vertex rat_eqType)) : seq (vertex rat_eqType) :=
  [seq (v_type v, v_af v, sp_later beta delta (v_time v), v_non v, v_uid v) | v <- vs].
(* the sites of all types exist *)
Definition sp_sites (F : numFieldType) (n_site : nat) (U : seq (vdef F)) : bool :=
  all (fun d : vdef F => all (fun x => x < n_site)%N (vd_sites d)) U.

Section Det.
Variable F : numFieldType.

Lemma det_signs n (a : nat -> nat -> F) (s : nat -> F) : (forall i, (i < n)%N -> s i * s i = 1) ->
  det_of n (fun i j => s i * s j * a i j) = det_of n a.
Proof.
move=> hs; rewrite /det_of.
pose D : 'rV[F]_n := \row_i s i.
have -> : \matrix_(i < n, j < n) (s i * s j * a i j) = diag_mx D *m (\matrix_(i < n, j < n) a i j) *m diag_mx D.
  apply/matrixP => i j; rewrite mul_mx_diag mul_diag_mx !mxE mulrAC -!mulrA.
  by congr (_ * _); rewrite mulrC.
rewrite !det_mulmx mulrC mulrA det_diag -big_split big1 ?mul1r // => i _.
by rewrite !mxE; exact: hs.
Qed.

End Det.

Section Lookup.
Variables (F : numFieldType) (V : lmodType [ringType of rat]) (val : {additive V -> F}).
Variables (beta : rat) (n nf ns : nat) (coeff : nat -> nat -> nat -> nat -> nat -> V) (m : nat).
Hypotheses (b0 : 0 < beta) (n1 : (1 < n)%N).
Let g := green_grid beta n nf ns coeff.

(* the value between times of [0, beta) *)
Lemma lookup_in f s s' t t' k k' : (f < nf)%N -> (s < ns)%N -> (s' < ns)%N -> 0 <= t < beta -> 0 <= t' < beta ->
  exists v, interpolate g f s s' (if t == t' then (if k' < k then 0 else beta) else if t' < t then t - t' else t - t' + beta) = Ok v /\
    green_ops m.+1 g (Gop f s t k) (Gop f s' t' k') = Ok (if (t' < t) || (t == t') && (k' < k) then v else - v).
Proof.
move=> fl sl sl' /andP[a0 a1] /andP[c0 c1]; rewrite /green_ops /= subr_eq0.
have ip tau : 0 <= tau <= beta -> exists v, interpolate g f s s' tau = Ok v.
  by move=> h; have [i [_ _ e]] := interpolate_ok coeff b0 n1 fl sl sl' h; eexists; exact: e.
have bb : 0 <= beta <= beta by rewrite lexx ltW.
have b1 : (0 : rat) <= 0 <= beta by exact: ltW.
case: eqP => [e|/eqP ne].
  rewrite e ltxx /=; case: ifP => _; first by have [v ->] := ip 0 b1; exists v.
  by have [v e'] := ip beta bb; exists v; rewrite e'.
have dl : t - t' < beta by rewrite ltr_subl_addr (lt_le_trans a1) // ler_addl.
have dg : - beta < t - t' by rewrite ltr_subr_addr addrC (lt_le_trans _ a0) // subr_lt0.
rewrite /fold_time /= leNgt dl /=; case: (ltgtP t' t) => [lt|lt|e]; last by rewrite e eqxx in ne.
  have d0 : 0 <= t - t' by rewrite subr_ge0 ltW.
  rewrite /fold_up ltNge d0 /=.
  have d1 : 0 <= t - t' <= beta by rewrite d0 ltW.
  by have [v ->] := ip _ d1; exists v; rewrite /= scale1r.
have d0 : t - t' < 0 by rewrite subr_lt0.
rewrite /= d0; have d1 : 0 <= t - t' + beta by rewrite -ler_subl_addr sub0r ltW.
have d2 : 0 <= t - t' + beta <= beta by rewrite d1 -ler_subr_addr subrr ltW.
have [v ev] := ip _ d2; exists v; split=> //.
by case: (m) => [|m'] /=; rewrite ltNge d1 /= ev /= mul1r scaleN1r.
Qed.

Variable delta : rat.
Hypothesis hd : 0 <= delta < beta.
Definition wrapped (t : rat) : F := if t + delta < beta then 1 else -1.

Lemma wrapped2 t : wrapped t * wrapped t = 1.
Proof. by rewrite /wrapped; case: ifP => _; rewrite ?mulrNN mulr1. Qed.

Lemma later_in t : 0 <= t < beta -> 0 <= sp_later beta delta t < beta.
Proof.
case/andP: hd => d0 d1 /andP[t0 t1]; rewrite /sp_later; case: (ltP (t + delta) beta) => h.
  by rewrite h addr_ge0.
by rewrite subr_ge0 h /= ltr_subl_addr ltr_add.
Qed.

Lemma lookup_later f s s' t t' k k' : (f < nf)%N -> (s < ns)%N -> (s' < ns)%N -> 0 <= t < beta -> 0 <= t' < beta ->
  lookup val m.+1 g (f, s, sp_later beta delta t, k) (f, s', sp_later beta delta t', k') =
  wrapped t * wrapped t' * lookup val m.+1 g (f, s, t, k) (f, s', t', k').
Proof.
move=> fl sl sl' ht ht'.
have [v [ev e]] := lookup_in k k' fl sl sl' ht ht'.
have [w [ew e']] := lookup_in k k' fl sl sl' (later_in ht) (later_in ht').
rewrite /lookup /= e e'; move: ew ev; rewrite /wrapped /sp_later.
case/andP: ht => a0 a1; case/andP: ht' => c0 c1; case/andP: (hd) => d0 d1.
case: (ltP (t + delta) beta) => h; case: (ltP (t' + delta) beta) => h'.
- rewrite (inj_eq (addIr delta)) ltr_add2r.
  have -> : t + delta - (t' + delta) = t - t' by rewrite opprD addrACA subrr addr0.
  by move=> -> [->]; rewrite mulr1 mul1r.
- have lt : t < t' by rewrite -(ltr_add2r delta); apply: lt_le_trans h'.
  have ge : t' + delta - beta < t + delta by rewrite ltr_subl_addr addrAC ltr_add2r (lt_le_trans c1) // ler_addr.
  have -> : (t == t') = false by apply/negbTE; rewrite lt_eqF.
  have -> : (t + delta == t' + delta - beta) = false by apply/negbTE; rewrite gt_eqF.
  rewrite ge (lt_gtF lt) /=.
  have -> : t + delta - (t' + delta - beta) = t - t' + beta by ring.
  by move=> -> [->]; rewrite raddfN mul1r mulN1r opprK.
- have lt : t' < t by rewrite -(ltr_add2r delta); apply: lt_le_trans h.
  have ge : t + delta - beta < t' + delta by rewrite ltr_subl_addr addrAC ltr_add2r (lt_le_trans a1) // ler_addr.
  have -> : (t == t') = false by apply/negbTE; rewrite gt_eqF.
  have -> : (t + delta - beta == t' + delta) = false by apply/negbTE; rewrite lt_eqF.
  rewrite (lt_gtF ge) lt /=.
  have -> : t + delta - beta - (t' + delta) + beta = t - t'.
    by ring.
  by move=> -> [->]; rewrite raddfN mulr1 mulN1r.
- rewrite (inj_eq (addIr (- beta))) (inj_eq (addIr delta)) !ltr_add2r.
  have -> : t + delta - beta - (t' + delta - beta) = t - t'.
    by ring.
  by move=> -> [->]; rewrite mulrNN mulr1 mul1r.
Qed.

Variables (U : seq (vdef F)) (ani : F) (x0 : sop rat_eqType).
Hypotheses (tok : sp_types_ok U ani nf) (sok : sp_sites ns U).

Definition term_later (x : sop rat_eqType * sop rat_eqType * F) : sop rat_eqType * sop rat_eqType * F :=
  ((x.1.1.1.1.1, x.1.1.1.1.2, sp_later beta delta x.1.1.1.2, x.1.1.2),
   (x.1.2.1.1.1, x.1.2.1.1.2, sp_later beta delta x.1.2.1.2, x.1.2.2), x.2).

Lemma ops_moved fl vs : sp_ops U fl (sp_moved beta delta vs) = map term_later (sp_ops U fl vs).
Proof.
rewrite /sp_ops /sp_moved filter_map map_flatten -!map_comp; congr flatten; apply: eq_map => v /=.
by rewrite -map_comp.
Qed.

(* the operators of a flavor *)
Definition term_ok (fl : nat) (x : sop rat_eqType * sop rat_eqType * F) : bool :=
  [&& x.1.1.1.1.1 == fl, x.1.2.1.1.1 == fl, (x.1.1.1.1.2 < ns)%N, (x.1.2.1.1.2 < ns)%N,
      x.1.1.1.2 == x.1.2.1.2 & 0 <= x.1.1.1.2 < beta].

Lemma ops_term_ok fl vs : all (sp_vertex_ok U) vs -> all (fun v => 0 <= v_time v < beta) vs ->
  all (term_ok fl) (sp_ops U fl vs).
Proof.
move=> ok ti; apply/allP => x /flatten_mapP[v]; rewrite mem_filter => /andP[_ vi] /mapP[r].
rewrite mem_filter mem_iota /= add0n => /andP[/eqP rf rl] ->.
have /andP[tv _] := allP ok v vi.
have /and5P[_ _ /eqP ss _ _] := all_nthP (vdef0 F) tok (v_type v) tv.
have /all_nthP h := all_nthP (vdef0 F) sok (v_type v) tv.
rewrite /term_ok /= rf !eqxx /= (allP ti v vi) andbT.
by rewrite !h // ss; move: rl; rewrite /sp_def; clear; lia.
Qed.

Lemma weight_moved vs : all (sp_vertex_ok U) vs -> all (fun v => 0 <= v_time v < beta) vs ->
  weight (lookup val m.+1 g) U x0 nf (sp_moved beta delta vs) = weight (lookup val m.+1 g) U x0 nf vs.
Proof.
move=> ok ti; rewrite /weight; congr (_ * _); last by rewrite big_map.
apply: eq_bigr => fl _; have fll := ltn_ord fl; rewrite ops_moved size_map.
have := ops_term_ok fl ok ti; move: (sp_ops U fl vs) => l lok.
pose t k := nth (term0 F x0) l k.
rewrite -[RHS](@det_signs F _ _ (fun i => wrapped (t i).1.1.1.2)); last by move=> i _; exact: wrapped2.
rewrite /det_of; congr (\det _); apply/matrixP => i j; rewrite !mxE /sp_mat.
rewrite !(nth_map (term0 F x0)) // -/(t i) -/(t j) mulrBr; congr (_ - _); last first.
  by case: eqP => [->|_]; rewrite ?mulr0 // wrapped2 mul1r.
have := all_nthP (term0 F x0) lok i (ltn_ord i); have := all_nthP (term0 F x0) lok j (ltn_ord j).
rewrite -/(t i) -/(t j); move: (t i) (t j) => [[[[[f s] ti'] k] [[[f2 s2] ti2] k2]] al] [[[[[f3 s3] tj] k3] [[[f4 s4] tj2] k4]] al'].
rewrite /term_ok /term_later /= => /and5P[_ /eqP-> _ s4l /andP[/eqP <- tjb]].
move=> /and5P[/eqP-> _ sl _ /andP[_ tib]].
exact: lookup_later.
Qed.

End Lookup.

(* Moving all vertices by the same time, modulo beta, leaves the weight unchanged; every Green
   function in it is defined. *)
Theorem C84_translation :
  forall (F : numFieldType) (V : lmodType [ringType of rat]) (val : {additive V -> F}) (beta : rat) (n nf ns : nat)
         (coeff : nat -> nat -> nat -> nat -> nat -> V) (m : nat) (delta : rat) (U : seq (vdef F)) (ani : F)
         (x0 : sop rat_eqType) (vs : seq (vertex rat_eqType)),
    0 < beta -> (1 < n)%N -> 0 <= delta < beta -> sp_types_ok U ani nf -> sp_sites ns U ->
    all (sp_vertex_ok U) vs -> all (fun v => 0 <= v_time v < beta) vs ->
    let g := green_grid beta n nf ns coeff in let G0 := lookup val m.+1 g in
    weight G0 U x0 nf (sp_moved beta delta vs) = weight G0 U x0 nf vs /\
    forall fl x y, (fl < nf)%N -> x \in sp_ops U fl vs -> y \in sp_ops U fl vs ->
      exists v, green_ops m.+1 g (Gop x.1.1.1.1.1 x.1.1.1.1.2 x.1.1.1.2 x.1.1.2)
                                 (Gop y.1.2.1.1.1 y.1.2.1.1.2 y.1.2.1.2 y.1.2.2) = Ok v.
Proof.
move=> F V val beta n nf ns coeff m delta U ani x0 vs b0 n1 hd tok sok ok ti g G0; split.
  exact: (weight_moved val coeff m b0 n1 hd x0 tok sok ok ti).
move=> fl [[[[[f s] t] k] [[[f2 s2] t2] k2]] al] [[[[[f3 s3] t3] k3] [[[f4 s4] t4] k4]] al'] fll.
have h := ops_term_ok tok sok fl ok ti; move=> /(allP h) + /(allP h); clear h.
rewrite /term_ok /= => /and5P[/eqP-> _ sl _ /andP[_ tib]] /and5P[_ /eqP-> _ s4l /andP[/eqP <- tjb]].
have [v [_ e]] := lookup_in coeff m b0 n1 k k4 fll sl s4l tib tjb.
by eexists; exact: e.
Qed.
Print Assumptions C84_translation.

(* Two walkers whose vertices differ by such a shift have the same sign. *)
Theorem C84_sign :
  forall (F : numFieldType) (V : lmodType [ringType of rat]) (val : {additive V -> F}) (beta : rat) (n nf ns : nat)
         (coeff : nat -> nat -> nat -> nat -> nat -> V) (m : nat) (delta : rat) (U : seq (vdef F)) (ani : F)
         (x0 : sop rat_eqType) (tm0 tm0' : rat_eqType) (junk junk' : fmat F) (s s' : sub F rat_eqType),
    0 < beta -> (1 < n)%N -> 0 <= delta < beta -> sp_types_ok U ani nf -> sp_sites ns U ->
    let G0 := lookup val m.+1 (green_grid beta n nf ns coeff) in
    reach ani G0 U x0 nf tm0 junk s -> reach ani G0 U x0 nf tm0' junk' s' ->
    all (fun v => 0 <= v_time v < beta) (su_v s) ->
    same_vertices (su_v s') (sp_moved beta delta (su_v s)) -> su_sign s' = su_sign s.
Proof.
move=> F V val beta n nf ns coeff m delta U ani x0 tm0 tm0' junk junk' s s' b0 n1 hd tok sok G0 re re' ti sv.
have [_ ->] := C57_running_sign tok re; have [_ ->] := C57_running_sign tok re'.
have [e _] := C84_translation val coeff m x0 b0 n1 hd tok sok (i_vo (reach_inv tok re)) ti.
have eq : weight G0 U x0 nf (su_v s') = weight G0 U x0 nf (sp_moved beta delta (su_v s)).
  apply: wt_data; have h (ws : seq (vertex rat_eqType)) : [seq v.1 | v <- ws] = map (@vdata rat_eqType) ws.
    by apply: eq_map => -[[[[a b] c] d] k].
  by rewrite -!h.
by rewrite eq e.
Qed.
Print Assumptions C84_sign.

(* one flavor, two sites; the Green function of the table with three points is 1 - tau between
   different sites and 1/2 on the same site; a density vertex and a vertex of two parts that
   moves a particle from one site to the other and back *)
Section Case.
Let coC (f s s2 k p : nat) : [lmodType rat of rat^o] :=
  if p == 0%N then (if s == s2 then 1 / 2%:R else 1 - k%:R / 2%:R) else if (p == 1%N) && (s != s2) then -1 else 0.
Let UC : seq (vdef [numFieldType of rat]) :=
  [:: VDef 1 [:: 0%N] [:: 0%N; 0%N] 1 2%:R (fun _ _ => 3%:R);
      VDef 2 [:: 0%N; 0%N] [:: 0%N; 1%N; 1%N; 0%N] 1 1 (fun _ _ => 5%:R)].
Let vsC : seq (vertex rat_eqType) := [:: (0%N, 0%N, 1 / 4%:R, false, 0%N); (1%N, 0%N, 3%:R / 4%:R, false, 1%N)].

Example C84_case :
  let G0 := lookup (F := [numFieldType of rat]) (fun v : rat^o => v) 1 (green_grid 1 3 1 2 coC) in
  [/\ sp_types_ok UC (7%:R : rat) 1, sp_sites 2 UC, all (sp_vertex_ok UC) vsC, all (fun v => 0 <= v_time v < 1) vsC &
    [seq v_time v | v <- sp_moved 1 (1 / 2%:R) vsC] = [:: 3%:R / 4%:R; 1 / 4%:R] /\
    G0 (0%N, 0%N, 1 / 4%:R, 0) (0%N, 1%N, 3%:R / 4%:R, 0) = - (1 / 2%:R) /\
    G0 (0%N, 0%N, 3%:R / 4%:R, 0) (0%N, 1%N, 1 / 4%:R, 0) = 1 / 2%:R].
Proof. by split; [vm_compute|vm_compute|vm_compute|vm_compute|split; [|split]; apply/eqP; vm_compute]. Qed.
End Case.
