(* Property theorems: C96 (evaluation of directly recorded Legendre coefficients). *)
From mathcomp Require Import all_ssreflect order ssralg ssrnum ssrint rat poly algC.
From mathcomp Require Import zify.
From mathcomp.algebra_tactics Require Import ring.
From Verif Require Import Outcome GreenModel BinModel Prop_Bin LegendreModel LegendreSpec LegendreProofs DensModel DensProofs SlModel SlProofs Prop_Sl SlDirectModel.

Set Implicit Arguments.
Unset Strict Implicit.
Unset Printing Implicit Defensive.

Local Open Scope ring_scope.
Import Order.TTheory GRing.Theory Num.Theory.

(* ------------------------------------------------------------------ C96 *)

(* Whatever coefficients were recorded, with a sum of the signs that is not zero, the
   evaluation gives the sum of the coefficients divided by the sum of the signs, and the values
   at the Matsubara frequencies belong to these. *)
Theorem C96_evaluate :
  forall (C : numClosedFieldType) (sqrt : C -> C) (bessel : nat -> nat -> C) (nm nl : nat) (cs : seq (C * table C)) (z s1 s2 : nat),
    (0 < nl)%N -> let T := \sum_(c <- cs) 'Re c.1 in T != 0 ->
    exists Sl Sw, [/\ postprocess_direct sqrt bessel nm nl [seq record_Sl nl c.1 c.2 | c <- cs] z s1 s2 = Ok (Sl, Sw),
      size Sl = nl, size Sw = nm,
      forall l, (l < nl)%N -> nth 0 Sl l = (\sum_(c <- cs) c.2 z s1 s2 l) / T &
      forall w, (w < nm)%N -> nth 0 Sw w =
        \sum_(0 <= l < nl) (-1) ^+ w * 'i ^+ l.+1 * sqrt (2 * l + 1)%N%:R * bessel l w * nth 0 Sl l].
Proof.
move=> C sqrt bessel nm nl cs z s1 s2 n0 T nz.
have cs0 : (0 < size cs)%N by move: nz; rewrite /T; case: (cs) => //; rewrite big_nil eqxx.
set meas := [seq record_Sl nl c.1 c.2 | c <- cs].
have hsz : size meas = size cs by rewrite size_map.
have ne f : [seq f s z s1 s2 | s <- meas] != [::] :> seq (seq C) by rewrite -size_eq0 size_map hsz -lt0n.
have aT (X : Type) (p : pred X) (r : seq X) : (forall x, p x) -> all p r by move=> h; elim: r => //= x r ->; rewrite h.
have a1 : all (fun v => size v == nl) [seq ss_real s z s1 s2 | s <- meas].
  by rewrite -map_comp all_map; apply: aT => c; rewrite /= size_map size_iota.
have a2 : all (fun v => size v == nl) [seq ss_imag s z s1 s2 | s <- meas].
  by rewrite -map_comp all_map; apply: aT => c; rewrite /= size_map size_iota.
have [z1 m1] := mean_vecE (ne _) a1; have [z2 m2] := mean_vecE (ne _) a2.
rewrite /postprocess_direct /evaluate_legendre.
have [t -> _] := legendre_newP sqrt n0; rewrite [obind (Ok _) _]/=.
set re := mean_vec _ in z1 m1 *; set im := mean_vec _ in z2 m2 *; set sg := mean _.
pose Sl l := (nth 0 re l + 'i * nth 0 im l) / sg.
rewrite (@buildP _ 0 _ Sl) /=; last by move=> k hk; rewrite /load_Stau (get_ok 0) ?z1 //= (get_ok 0) ?z2.
do 2 eexists; split; first reflexivity; rewrite ?size_map ?size_iota //.
- move=> l hl; rewrite (nth_map 0%N) ?size_iota // nth_iota // add0n /Sl m1 // m2 // /sg meanE !size_map !big_map /= -/T.
  have N0 : (size cs)%:R != 0 :> C by rewrite pnatr_eq0 -lt0n.
  have nr (f : C -> C) (c : C * table C) : nth 0 [seq f (c.2 z s1 s2 k) | k <- iota 0 nl] l = f (c.2 z s1 s2 l).
    by rewrite (nth_map 0%N) ?size_iota // nth_iota.
  rewrite (eq_bigr (fun c => 'Re (c.2 z s1 s2 l))) => [|c _]; last exact: (nr (fun x => 'Re x)).
  rewrite [\sum_(j <- cs) nth 0 _ l](eq_bigr (fun c => 'Im (c.2 z s1 s2 l))) => [|c _]; last exact: (nr (fun x => 'Im x)).
  have -> : \sum_(c <- cs) c.2 z s1 s2 l = \sum_(c <- cs) ('Re (c.2 z s1 s2 l) + 'i * 'Im (c.2 z s1 s2 l)).
    by apply: eq_bigr => c _; rewrite -Crect.
  rewrite big_split -mulr_sumr /=; move: N0 nz; clear; move: (_ %:R) T => N T' N0 nz.
  by move: (\sum_(_ <- _) _) (\sum_(_ <- _) _) 'i => A B I; field; rewrite N0 nz.
move=> w hw; rewrite (nth_map 0%N) ?size_iota // nth_iota // add0n /post_Sw.
by apply: eq_big_nat => l /andP[_ hl]; rewrite TnlE.
Qed.
Print Assumptions C96_evaluate.

(* With the coefficients of compute_Sl_optimized (or compute_Sl) recorded for every
   configuration of a run, the result is the average of the Legendre functions at the exact
   positions of the shifted times, where the evaluation of the bins (C67) has the centre of the
   bin. *)
Theorem C96_history :
  forall (C : numClosedFieldType) (sqrt : C -> C) (bessel : nat -> nat -> C) (g0 : rat -> nat -> nat -> nat -> C)
         (beta : rat) (n_site nm nl : nat) (cs : seq (config C)),
    0 < beta -> (0 < nl)%N -> sqrt 1 = 1 -> all (config_ok beta n_site) cs -> \sum_(c <- cs) 'Re c.1 != 0 ->
    exists2 t, legendre_new sqrt nl = Ok t &
    exists rec : seq (C * table C),
    [/\ [seq r.1 | r <- rec] = [seq c.1 | c <- cs],
        [seq compute_Sl_optimized g0 c.1 beta n_site t c.2.1 c.2.2 | c <- cs] = [seq Ok r.2 | r <- rec] &
    forall z s1 s2, exists Sl Sw,
    [/\ postprocess_direct sqrt bessel nm nl [seq record_Sl nl r.1 r.2 | r <- rec] z s1 s2 = Ok (Sl, Sw) &
    forall l, (l < nl)%N -> nth 0 Sl l =
      (\sum_(c <- cs) over_ops c z (fun d walks s q =>
         sl_term g0 c.1 beta n_site z d walks s q s1 s2 (phi sqrt l (x_of beta s d q)))) / (\sum_(c <- cs) 'Re c.1)]].
Proof.
move=> C sqrt bessel g0 beta n_site nm nl cs b0 n0 sq1 ok nz.
have [t et _] := legendre_newP sqrt n0; exists t => //.
have [rec [h1 h2 h3]] : exists rec : seq (C * table C), [/\ [seq r.1 | r <- rec] = [seq c.1 | c <- cs],
    [seq compute_Sl_optimized g0 c.1 beta n_site t c.2.1 c.2.2 | c <- cs] = [seq Ok r.2 | r <- rec] &
    forall z s1 s2 l, (l < nl)%N -> \sum_(r <- rec) r.2 z s1 s2 l = \sum_(c <- cs) over_ops c z (fun d walks s q =>
         sl_term g0 c.1 beta n_site z d walks s q s1 s2 (phi sqrt l (x_of beta s d q)))].
  elim: cs ok {nz} => [|c cs ih] /=; first by move=> _; exists [::]; split=> // z s1 s2 l _; rewrite !big_nil.
  case/andP=> /andP[hs hf] /ih [rec [h1 h2 h3]].
  have [t' et' [S [S' [_ e' hS]]]] := C66_Sl g0 c.1 b0 n0 sq1 hs hf.
  have ett : t' = t by move: et'; rewrite et => -[].
  rewrite ett in e'; exists ((c.1, S') :: rec); split; rewrite /= ?h1 ?h2 ?e' // => z s1 s2 l hl.
  rewrite !big_cons h3 // /=; congr (_ + _); have [<- ->] := hS z s1 s2 l; rewrite hl andbT /over_ops.
  case: ltnP => // hz; by rewrite [nth _ _ z]nth_default //= big1 // => s _; rewrite big_nil.
exists rec; split=> // z s1 s2.
have eT : \sum_(r <- rec) 'Re r.1 = \sum_(c <- cs) 'Re c.1.
  by rewrite -(big_map fst xpredT (fun x => 'Re x)) h1 big_map.
have [|Sl [Sw [e _ _ hl _]]] := @C96_evaluate C sqrt bessel nm nl rec z s1 s2 n0; first by rewrite eT.
by exists Sl, Sw; split=> // l ll; rewrite hl // h3 // eT.
Qed.
Print Assumptions C96_history.

(* two recorded coefficient tables with signs 1 and 1: the mean of 1 and 3 *)
Example C96_case : exists Sl Sw,
  postprocess_direct (C := [numClosedFieldType of algC]) sqrtC (fun l w => 1) 1 1
    [seq record_Sl 1 c.1 c.2 | c <- [:: (1, fun _ _ _ _ => 1); (1, fun _ _ _ _ => 3%:R)]] 0 0 0 = Ok (Sl, Sw) /\
  (nth 0 Sl 0 = 2%:R /\ nth 0 Sw 0 = 'i * 2%:R).
Proof.
have r1 : 'Re (1 : algC) = 1 by apply/Creal_ReP/real1.
have two : 2%:R != 0 :> algC by rewrite pnatr_eq0.
have eT : \sum_(c <- [:: (1, fun _ _ _ _ => 1); (1, fun _ _ _ _ => 3%:R)] : seq (algC * table [numClosedFieldType of algC])) 'Re c.1 = 2%:R.
  by rewrite !big_cons big_nil addr0 r1 -mulr2n.
have [||Sl [Sw [e _ _ h1 h2]]] := @C96_evaluate [numClosedFieldType of algC] sqrtC (fun l w => 1) 1 1
  [:: (1, fun _ _ _ _ => 1); (1, fun _ _ _ _ => 3%:R)] 0 0 0; first by [].
  by rewrite eT.
exists Sl, Sw; split; first exact: e.
have es : nth 0 Sl 0 = 2%:R.
  rewrite (h1 0%N isT) eT !big_cons big_nil addr0 /= -[1 + _]/(1%:R + 3%:R) -natrD -[(1 + 3)%N]/(2 * 2)%N natrM mulfK //.
split; first exact: es.
by rewrite (h2 0%N isT) big_nat1 es expr0 mul1r expr1 muln0 add0n sqrtC1 !mulr1.
Qed.

(* the run of C67_ex: the exact position is -1/2, so the coefficient is 3 sqrt 3, where the bins
   give 4 sqrt 3 *)
Example C96_ex : exists2 t, legendre_new sqrtC 2 = Ok t &
  exists S, compute_Sl_optimized (fun _ _ _ _ => 2%:R) ex_c.1 2%:R 2 t ex_c.2.1 ex_c.2.2 = Ok S /\
  exists Sl Sw, postprocess_direct sqrtC (fun l w => 1) 1 2 [:: record_Sl 2 1 S] 0 1 0 = Ok (Sl, Sw) /\
    nth 0 Sl 1 = 3%:R * sqrtC 3%:R.
Proof.
have [|||||t et [rec [h1 h2 h]]] := @C96_history [numClosedFieldType of algC] sqrtC (fun l w => 1) (fun _ _ _ _ => 2%:R) 2%:R 2 1 2 [:: ex_c].
- by vm_compute.
- by [].
- exact: sqrtC1.
- by vm_compute.
- by rewrite big_seq1 /= (Creal_ReP _ _) ?real1 // oner_eq0.
exists t; first exact: et.
case: rec h1 h2 h => [|[sg S] [|? ?]] // [e1] [e2] h; exists S; split; first exact: e2.
have [Sl [Sw [e hl]]] := h 0%N 1%N 0%N; exists Sl, Sw; split; first by move: e; rewrite /= e1.
clear e h e2 et.
have r1 : \sum_(c <- [:: ex_c]) 'Re c.1 = 1 by rewrite big_seq1; apply/Creal_ReP/real1.
have o1 : odd_period 2%:R (3%:R / 2%:R + 1) = true by vm_compute.
have x1 : x_of 2%:R 1 (ex_op [numClosedFieldType of algC]) 0 = - (1 / 2%:R).
  have q : forall x : rat, x = - (1 / 2%:R) -> ratr x = - (1 / 2%:R) :> algC.
    by move=> x ->; rewrite rmorphN fmorph_div /= rmorph1 ratr_nat.
  by apply: q; apply/eqP; vm_compute.
have two : 2%:R != 0 :> algC by rewrite pnatr_eq0.
rewrite (hl 1%N isT) r1 divr1 big_seq1 /over_ops [LHS]big_seq1.
rewrite [LHS](one_sl _ _ _ _ _ _ _ _ _ 0 1 1 1 0 (fun q => phi sqrtC 1 (x_of 2%:R 1 (ex_op [numClosedFieldType of algC]) q))).
rewrite [_ && _]/= o1 x1 /phi legendre1 hornerX /ex_c [(_ < _)%N]/= /=.
by move: two; move: (sqrtC _) => x two; field.
Qed.
