(* Detailed balance of the accepted moves, compute_weight, and the maps of global updates. *)
From mathcomp Require Import all_ssreflect ssralg ssrnum ssrint matrix zify.
From mathcomp.algebra_tactics Require Import ring.
From Verif Require Import Outcome MatLib MatSpec FormulaProofs SubModel SubSpec SubConf SubProofs Prop_Sub UMatModel UMatProofs ManModel ManSpec ManCount ManProofs.

Set Implicit Arguments.
Unset Strict Implicit.
Unset Printing Implicit Defensive.

Import Order.TTheory GRing.Theory Num.Theory.
Local Open Scope ring_scope.

(* ---- Metropolis acceptance ---- *)

Lemma metropolis (F : numFieldType) (a b x : F) : 0 < x -> a * x = b ->
  a * Num.min 1 x = b * Num.min 1 x^-1.
Proof.
move=> xp e; have xn : x != 0 by rewrite gt_eqF.
rewrite /Order.min; case h : (1 < x).
  have -> : (1 < x^-1) = false by rewrite -invr1 ltf_pinv ?posrE ?ltr01 // lt_gtF.
  by rewrite -e mulr1 mulfK.
have hx : x <= 1 by rewrite real_leNgt ?h // ?gtr0_real.
have -> : (if 1 < x^-1 then 1 else x^-1) = 1.
  case h2 : (1 < x^-1) => //; apply/eqP; rewrite invr_eq1 eq_le hx /=.
  move: h2; rewrite -{1}invr1 ltf_pinv ?posrE ?ltr01 // => /negbT.
  by rewrite -(real_leNgt (real1 F) (gtr0_real xp)).
by rewrite mulr1.
Qed.

Section Man.
Variables (F : numFieldType) (Tm : eqType).
Variable G0 : sop Tm -> sop Tm -> F.
Variable U : seq (vdef F).
Variables (x0 : sop Tm) (nf : nat) (tm0 : Tm).
Variables (beta us : F).
Notation vtx := (vertex Tm).
Notation d0 := (vertex0 tm0).
Notation wt := (weight G0 U x0 nf).
Notation naf v := (vd_naf (sp_def U v)).
Hypothesis bpos : 0 < beta.
Hypothesis upos : 0 < us.

Lemma balance_on (vs : seq vtx) p a : (p < size vs)%N -> v_non (nth d0 vs p) -> (0 < size U)%N ->
  wt vs != 0 ->
  let vs' := sp_flip d0 vs [:: (p, Some a)] in
  sp_target G0 U x0 nf us vs * sp_propose_ins U beta (nth d0 vs' p) * Num.min 1 (sp_ins_rate G0 U x0 nf beta us vs vs') =
  sp_target G0 U x0 nf us vs' * sp_propose_rem F vs' * Num.min 1 (sp_rem_rate G0 U x0 nf beta us vs' vs).
Proof.
move=> pl np Up w0 vs'.
have e : nth d0 vs' p = sp_set (nth d0 vs p) (Some a) by rewrite /vs' flip1_nth // eqxx.
rewrite /sp_target /sp_propose_ins /sp_propose_rem /sp_rem_rate /sp_ins_rate target_on // order_flip_on // e.
rewrite (_ : sp_def U (sp_set (nth d0 vs p) (Some a)) = sp_def U (nth d0 vs p)) //.
case: (altP (wt vs' =P 0)) => [->|w1].
  by rewrite mul0r normr0 !mul0r /Order.min ltr10 mulr0.
set n1 := (sp_order vs).+1%:R; set N := (size U)%:R; set q := (naf _)%:R^-1; set P := \prod_(v <- vs | _) _.
have n1p : 0 < n1 by rewrite ltr0n.
have Np : 0 < N by rewrite ltr0n.
have n1n : n1 != 0 by rewrite gt_eqF.
have Nn : N != 0 by rewrite gt_eqF.
have bn : beta != 0 by rewrite gt_eqF.
have un : us != 0 by rewrite gt_eqF.
have ap : 0 < `|wt vs| by rewrite normr_gt0.
have bp : 0 < `|wt vs'| by rewrite normr_gt0.
have an : `|wt vs| != 0 by rewrite gt_eqF.
have b'n : `|wt vs'| != 0 by rewrite gt_eqF.
rewrite !normf_div.
have -> : `|wt vs| / `|wt vs'| * (n1 / (beta * N)) / us = (`|wt vs'| / `|wt vs| * (beta * N / n1) * us)^-1.
  move: an b'n n1n Nn bn un; clear; move: `|wt vs| `|wt vs'| n1 N => A B n N An Bn nn Nn bn un.
  by field; rewrite An Bn nn Nn bn un.
apply: metropolis.
  by rewrite !mulr_gt0 ?invr_gt0.
rewrite exprS; move: an b'n n1n Nn bn un; clear.
move: `|wt vs| `|wt vs'| => A B; move: n1 N q P (us ^+ _) => n1 N q P X an bn0 n1n Nn bn un.
field; by rewrite an bn n1n Nn.
Qed.

Lemma balance_state (vs : seq vtx) p a : (p < size vs)%N -> ~~ v_non (nth d0 vs p) -> wt vs != 0 ->
  let vs' := sp_flip d0 vs [:: (p, Some a)] in
  sp_target G0 U x0 nf us vs * Num.min 1 `|wt vs' / wt vs| =
  sp_target G0 U x0 nf us vs' * Num.min 1 `|wt vs / wt vs'|.
Proof.
move=> pl np w0 vs'.
have es : vs' = set_nth d0 vs p (sp_set (nth d0 vs p) (Some a)).
  rewrite /vs' sp_flip_cons //=; apply: (@eq_from_nth _ d0); rewrite size_sp_flip // => i il.
  by rewrite nth_sp_flip.
have eo : sp_order vs' = sp_order vs.
  rewrite /sp_order !size_filter; have := count_set tm0 (sp_set (nth d0 vs p) (Some a)) pl.
  by rewrite -es np /= => /addIn.
have ep : \prod_(v <- vs' | ~~ v_non v) ((naf v)%:R : F)^-1 = \prod_(v <- vs | ~~ v_non v) ((naf v)%:R)^-1.
  rewrite es; move: pl np; clear; elim: vs p => [|v ws ih] [|q] //= pl np; first by rewrite !big_cons np.
  by rewrite !big_cons ih.
rewrite /sp_target eo ep.
case: (altP (wt vs' =P 0)) => [->|w1].
  by rewrite mul0r normr0 !mul0r /Order.min ltr10 mulr0.
rewrite (_ : `|wt vs / wt vs'| = `|wt vs' / wt vs|^-1); last by rewrite -normfV invf_div.
apply: metropolis; first by rewrite normr_gt0 mulf_neq0 // invr_eq0.
have an : `|wt vs| != 0 by rewrite normr_eq0.
by rewrite normf_div mulrC mulrA [_ * (_ * _)]mulrA mulfVK // mulrA.
Qed.

(* ---- compute_weight ---- *)

Lemma cw_weight ani (vs : seq vtx) : sp_types_ok U ani nf ->
  all (fun v => (v_type v < size U)%N && (v_af v < naf v)%N) vs -> all (fun v => ~~ v_non v) vs ->
  compute_weight G0 U x0 nf vs [seq vd_rank (sp_def U v) | v <- vs] = Ok (wt vs).
Proof.
move=> tok ok it; rewrite /compute_weight.
have za (T : Type) (g : vtx -> nat -> T) (l : seq vtx) :
    [seq g x.1 x.2 | x <- zip l [seq vd_rank (sp_def U v) | v <- l]] = [seq g v (vd_rank (sp_def U v)) | v <- l].
  by elim: l => //= v l ->.
have -> : all (fun x => cw_ok U nf x.1 x.2) (zip vs [seq vd_rank (sp_def U v) | v <- vs]).
  have -> : all (fun x => cw_ok U nf x.1 x.2) (zip vs [seq vd_rank (sp_def U v) | v <- vs])
     = all (fun v => cw_ok U nf v (vd_rank (sp_def U v))) vs by elim: (vs) => //= v l ->.
  apply: sub_all ok => v /andP[tv av]; rewrite /cw_ok tv.
  have := all_nthP (vdef0 F) tok _ tv; rewrite -/(sp_def U v) (_ : get_vertex U (v_type v) = sp_def U v) //.
  case/and5P=> _ /eqP sf /eqP ss fl _; rewrite sf ss !leqnn av andbT /= andbT.
  apply/allP => r; rewrite mem_iota add0n /= => rl.
  by apply: (allP fl); apply: mem_nth; rewrite sf.
congr Ok; rewrite /weight [RHS]mulrC; congr (_ * _).
  have fo l w : foldl (fun w v => w * - vd_U (get_vertex U (v_type v))) w l = w * \prod_(v <- l) - vd_U (sp_def U v).
    by elim: l w => [|y l ih] w /=; rewrite ?big_nil ?mulr1 // ih big_cons mulrA.
  rewrite fo mul1r; elim: (vs) it => [|v l ih] /=; first by rewrite !big_nil.
  by move=> /andP[nv /ih]; rewrite !big_cons nv => ->.
rewrite -(big_mkord xpredT (fun fl => det_of (size (sp_ops U fl vs)) (sp_mat G0 x0 (sp_ops U fl vs)))) /index_iota subn0.
have fo (g : nat -> F) l w : foldl (fun w fl => w * g fl) w l = w * \prod_(i <- l) g i.
  by elim: l w => [|y l ih] w /=; rewrite ?big_nil ?mulr1 // ih big_cons mulrA.
rewrite fo mul1r; apply: eq_bigr => fl _.
have -> : [seq x.2 | x <- flatten [seq [seq cw_term U x.1 r | r <- iota 0 x.2] | x <- zip vs [seq vd_rank (sp_def U v) | v <- vs]] & x.1 == fl]
   = [seq (y.1.2, y.1.1, y.2) | y <- sp_ops U fl vs].
  rewrite (za _ (fun v n => [seq cw_term U v r | r <- iota 0 n])).
  rewrite /sp_ops (all_filterP it); elim: (vs) => //= v l ih.
  rewrite filter_cat !map_cat ih; congr (_ ++ _); rewrite filter_map -!map_comp.
  by apply: eq_map => r /=; rewrite addn0.
rewrite size_map det_ofE; apply: fdet_ext => i j il jl.
rewrite !(nth_map (term0 F x0)) // /sp_mat; case: eqP => // -> //.
Qed.

End Man.

(* ---- maps of vertex types ---- *)

Lemma revmap_size n m l acc : size acc = n -> all (fun i => nth 0%N m i < n)%N l ->
  size (foldl (fun rev iv => set_nth 0%N rev (nth 0%N m iv) iv) acc l) = n.
Proof.
elim: l acc => //= i l ih acc sz /andP[il al]; apply: ih => //.
by rewrite size_set_nth sz; apply/maxn_idPr.
Qed.

Lemma revmap_nth m l acc i : uniq l ->
  {in l &, injective (nth 0%N m)} -> i \in l ->
  nth 0%N (foldl (fun rev iv => set_nth 0%N rev (nth 0%N m iv) iv) acc l) (nth 0%N m i) = i.
Proof.
have keep l' acc' k : all (fun j => nth 0%N m j != k) l' ->
   nth 0%N (foldl (fun rev iv => set_nth 0%N rev (nth 0%N m iv) iv) acc' l') k = nth 0%N acc' k.
  elim: l' acc' => //= j l' ih acc' /andP[nj al]; rewrite ih //.
  by rewrite nth_set_nth /= eq_sym (negbTE nj).
elim: l acc => //= j l ih acc /andP[nj ul] inj; rewrite inE => /orP[/eqP ->|il].
  rewrite keep; first by rewrite nth_set_nth /= eqxx.
  apply/allP => k kl; apply: contraNneq nj => e.
  by rewrite -(inj k j) // inE ?eqxx // kl orbT.
by apply: ih => // x y xl yl; apply: inj; rewrite inE ?xl ?yl orbT.
Qed.

Lemma perm_inj n m : is_permutation n m -> {in iota 0 n &, injective (nth 0%N m)}.
Proof.
move=> [sz pe] x y; rewrite !mem_iota !add0n /= => xl yl /eqP.
by rewrite nth_uniq ?sz //; [move/eqP | rewrite (perm_uniq pe) iota_uniq].
Qed.
Lemma perm_lt n m i : is_permutation n m -> (i < n)%N -> (nth 0%N m i < n)%N.
Proof.
move=> [sz pe] il; have : nth 0%N m i \in m by rewrite mem_nth ?sz.
by rewrite (perm_mem pe) mem_iota.
Qed.

Lemma reverse_undoes n m : is_permutation n m -> undoes n m (reverse_map n m).
Proof.
move=> pm i il; apply: revmap_nth; [exact: iota_uniq | exact: perm_inj | by rewrite mem_iota].
Qed.
Lemma reverse_size n m : is_permutation n m -> size (reverse_map n m) = n.
Proof.
move=> pm; apply: revmap_size; first by rewrite size_nseq.
by apply/allP => i; rewrite mem_iota => il; apply: perm_lt.
Qed.
Lemma reverse_perm n m : is_permutation n m -> is_permutation n (reverse_map n m).
Proof.
move=> pm; have sz := reverse_size pm; split=> //.
have [sm pe] := pm.
have su : {subset iota 0 n <= reverse_map n m}.
  move=> i; rewrite mem_iota add0n => il; rewrite -(reverse_undoes pm il).
  by apply: mem_nth; rewrite sz perm_lt.
rewrite perm_sym; apply: uniq_perm; [exact: iota_uniq | |].
  by apply: leq_size_uniq su _; rewrite ?iota_uniq // size_iota sz.
have le : (size (reverse_map n m) <= size (iota 0 n))%N by rewrite size_iota sz.
exact: (uniq_min_size (iota_uniq 0 n) su le).2.
Qed.
Lemma reverse_undoes2 n m : is_permutation n m -> undoes n (reverse_map n m) m.
Proof.
move=> pm i il; have [sm pe] := pm.
have : i \in m by rewrite (perm_mem pe) mem_iota.
case/(nthP 0%N) => k; rewrite sm => kl <-.
by rewrite (reverse_undoes pm).
Qed.

(* ---- the file ---- *)

Lemma read_map_enc n iv m src dst ts : all (fun d => d < n)%N m ->
  exists a b, read_map n iv (size m) src dst (sp_map_lines iv m ++ ts) = Ok (m, a, b, ts).
Proof.
elim: m iv src dst => [|d m ih] iv src dst /=; first by exists src, dst.
move=> /andP[dl al]; rewrite eqxx /= leqNgt dl /=.
by have [a [b ->]] := ih iv.+1 (Some (Posz iv)) (Some (Posz d)) al; exists a, b.
Qed.

Lemma read_map_range n iv k src dst ts m a b t : read_map n iv k src dst ts = Ok (m, a, b, t) ->
  size m = k /\ all (fun d => d < n)%N m.
Proof.
elim: k iv src dst ts m a b t => [|k ih] iv src dst ts m a b t /=; first by case=> <-.
case: (read_int src ts) => s1 t1; case: (read_int dst t1) => s2 t2.
case: s1 => // x; case: s2 => // -[d|d] //; case: ifP => // /negbT; rewrite negb_or => /andP[_ dl].
move=> /obI[[[[l sa] sb] t'] /ih [sz al] [<- _ _ _]] /=; rewrite sz; split=> //.
by rewrite ltnNge dl.
Qed.

(* every map of the list was read or is the reverse of one that was *)
Lemma read_maps_in n k src dst ts l : read_maps n k src dst ts = Ok l ->
  exists ms, l = flatten [seq [:: m; reverse_map n m] | m <- ms] /\ size ms = k /\
    all (fun m => (size m == n) && all (fun d => d < n)%N m) ms.
Proof.
elim: k src dst ts l => [|k ih] src dst ts l /=; first by case=> <-; exists [::].
move=> /obI[[[[m sa] sb] t] /read_map_range [sz al] /obI[l' /ih [ms [-> [sm am]]] [<-]]].
by exists (m :: ms); rewrite /= sm am sz eqxx al.
Qed.
Lemma read_maps_enc n ms src dst ts : all (fun m => (size m == n) && all (fun d => d < n)%N m) ms ->
  read_maps n (size ms) src dst (flatten [seq sp_map_lines 0 m | m <- ms] ++ ts) =
  Ok (flatten [seq [:: m; reverse_map n m] | m <- ms]).
Proof.
elim: ms src dst => //= m ms ih src dst /andP[/andP[/eqP sz al] am].
rewrite -catA; have [a [b e]] := @read_map_enc n 0 m src dst (flatten [seq sp_map_lines 0 m | m <- ms] ++ ts) al.
by rewrite sz in e; rewrite e /= ih.
Qed.
