(* Proofs about the partitioned determinant matrix. *)
From mathcomp Require Import all_ssreflect ssralg ssrint fingroup perm matrix mxalgebra order zify.
From Verif Require Import Outcome SortModel SortSpec SortProofs MatLib BlockLib MatSpec
  ClusterModel ClusterSpec FormulaModel FormulaProofs DetMatModel DetMatSpec DetMatSide DetMatProofs
  DetMatCycles DetMatMain PartModel PartSpec PartSide.

Set Implicit Arguments.
Unset Strict Implicit.
Unset Printing Implicit Defensive.

Local Open Scope ring_scope.
Import GRing.Theory Order.TTheory.

Section Weight.
Variables (F : fieldType) (disp : unit) (T : orderType disp).
Variables (CD C : eqType) (tcd : CD -> T) (tc : C -> T) (cd0 : CD) (c0 : C).
Variable gf : C -> CD -> F.
Variables (scd : CD -> nat) (sc : C -> nat).
Notation weight := (weight tcd tc cd0 c0 gf).
Notation gmat := (gmat cd0 c0 gf).
Implicit Types (a : seq CD) (b : seq C).

Lemma gmat_cat n1 n2 a1 a2 b1 b2 : size a1 = n1 -> size b1 = n1 -> size a2 = n2 -> size b2 = n2 ->
  (forall c cd, c \in b1 -> cd \in a2 -> gf c cd = 0) ->
  det_of (n1 + n2) (gmat (a1 ++ a2) (b1 ++ b2)) = det_of n1 (gmat a1 b1) * det_of n2 (gmat a2 b2).
Proof.
move=> za1 zb1 za2 zb2 z; rewrite /det_of.
set A := \matrix_(i < n1, j < n1) _; set D := \matrix_(i < n2, j < n2) _.
rewrite -(det_lblock A (\matrix_(i < n2, j < n1) gmat a1 b2 i j) D); congr (\det _).
apply/matrixP => i j; rewrite !mxE /gmat /DetMatProofs.gmat !nth_cat za1 zb1.
case: splitP => i' ei; rewrite !mxE; case: splitP => j' ej; rewrite !mxE /gmat ei ej.
- by [].
- by rewrite addKn; apply: z; apply: mem_nth; rewrite ?zb1 ?za2.
- by rewrite addKn.
- by rewrite !addKn.
Qed.

Lemma det_sectors (ks : seq nat) (A : nat -> seq CD) (B : nat -> seq C) : uniq ks ->
  (forall k, k \in ks -> size (A k) = size (B k)) ->
  (forall k k' c cd, k \in ks -> k' \in ks -> k != k' -> c \in B k -> cd \in A k' -> gf c cd = 0) ->
  det_of (size (flatten [seq A k | k <- ks])) (gmat (flatten [seq A k | k <- ks]) (flatten [seq B k | k <- ks]))
  = \prod_(k <- ks) det_of (size (A k)) (gmat (A k) (B k)).
Proof.
elim: ks => [|k ks IH] /=; first by rewrite big_nil /det_of det_mx00.
move=> /andP [nin u] sz z; rewrite big_cons size_cat.
have sz' j : j \in ks -> size (A j) = size (B j) by move=> h; apply: sz; rewrite inE h orbT.
rewrite gmat_cat //; last 2 first.
- rewrite !size_flatten /seq.shape -!map_comp; congr sumn; apply/eq_in_map => j jk /=.
  by rewrite sz'.
- move=> c cd cb /flattenP [s /mapP [j jk ->] cda]; apply: (z k j) => //; rewrite ?inE ?eqxx ?jk ?orbT //.
  by apply: contraNneq nin => ->.
- congr (_ * _); apply: IH => // i j c cd ik jk; apply: z; by rewrite inE ?ik ?jk orbT.
by rewrite sz // inE eqxx.
Qed.

Definition part (s : nat) (x : conf CD C) : conf CD C := (in_sector scd s x.1, in_sector sc s x.2).

Lemma weight_sectors ns (x : conf CD C) : uniq (map tcd x.1) -> uniq (map tc x.2) ->
  all (fun o => scd o < ns)%N x.1 -> all (fun o => sc o < ns)%N x.2 ->
  (forall c cd, c \in x.2 -> cd \in x.1 -> sc c != scd cd -> gf c cd = 0) ->
  (forall s, (s < ns)%N -> size (part s x).1 = size (part s x).2) ->
  weight x = (-1) ^+ pinv tcd scd x.1 * (-1) ^+ pinv tc sc x.2 * \prod_(s < ns) weight (part s x).
Proof.
case: x => a b /= ua ub ka kb z bal.
have pa := grouped_perm tcd ka; have pb := grouped_perm tc kb.
rewrite perm_sym in pa; rewrite perm_sym in pb.
rewrite (weight_perm cd0 c0 gf ua ub pa pb).
set ga := grouped _ _ _ _; set gb := grouped _ _ _ _.
have zab : size gb = size ga.
  rewrite !size_flatten /seq.shape -!map_comp; congr sumn; apply/eq_in_map => k /=.
  by rewrite mem_iota /= !size_order => kn; rewrite bal.
rewrite (@weight_storage _ _ _ _ _ _ _ _ _ _ (size ga)) -?(perm_uniq (perm_map tcd pa)) -?(perm_uniq (perm_map tc pb)) //.
rewrite /sgn2 exprD /inv_t (inv_pairwise (sec := scd)) ?(inv_pairwise (sec := sc)) ?grouped_pairwise // -(pinv_perm _ _ pa) -(pinv_perm _ _ pb).
congr (_ * _); rewrite det_sectors ?iota_uniq //.
- rewrite -[X in \prod_(_ <- iota 0 X) _]subn0 -/(index_iota 0 ns) big_mkord; apply: eq_bigr => k _.
  by rewrite /DetMatSpec.weight /= size_order.
- by move=> k; rewrite mem_iota /= !size_order => kn; rewrite bal.
move=> k k' c cd _ _ ne; rewrite !(perm_mem (order_perm _ _)) !mem_filter.
move=> /andP [/eqP e1 m1] /andP [/eqP e2 m2]; apply: z => //.
by rewrite e1 e2.
Qed.

(* a sector with more annihilation than creation operators *)
Lemma det_zero_block (r1 r2 m : nat) (M : 'M[F]_(r1 + r2)) : (m < r1)%N ->
  (forall (i : 'I_r1) (j : 'I_(r1 + r2)), (m <= j)%N -> M (lshift r2 i) j = 0) -> \det M = 0.
Proof.
move=> mr z; pose U := usubmx M.
have e : U = U *m pid_mx m.
  apply/matrixP => i j; rewrite !mxE (bigD1 j) //= big1 ?addr0 => [|k kj]; last first.
    by rewrite !mxE (val_eqE k j) (negbTE kj) mulr0.
  rewrite !mxE eqxx /=; case: ltnP => h; rewrite ?mulr1 // mulr0; exact: z.
have rk : (\rank U <= m)%N.
  rewrite e; apply: leq_trans (mxrankM_maxr _ _) _.
  have le : (m <= r1 + r2)%N by apply: leq_trans (ltnW mr) (leq_addr _ _).
  by rewrite rank_pid_mx.
have kz : kermx U != 0 by rewrite -mxrank_eq0 mxrank_ker -lt0n subn_gt0 (leq_ltn_trans rk mr).
apply/eqP/det0P; exists (row_mx (nz_row (kermx U)) 0).
  apply/eqP => /(congr1 lsubmx); rewrite row_mxKl linear0 => /eqP; rewrite nz_row_eq0.
  by rewrite (negbTE kz).
rewrite -[M]vsubmxK mul_row_col mul0mx addr0; apply/sub_kermxP.
exact: nz_row_sub.
Qed.

Lemma weight_unbalanced ns (x : conf CD C) : uniq (map tcd x.1) -> uniq (map tc x.2) ->
  all (fun o => scd o < ns)%N x.1 -> all (fun o => sc o < ns)%N x.2 ->
  (forall c cd, c \in x.2 -> cd \in x.1 -> sc c != scd cd -> gf c cd = 0) ->
  size x.1 = size x.2 ->
  (exists2 s, (s < ns)%N & size (part s x).1 != size (part s x).2) ->
  weight x = 0.
Proof.
case: x => a b /= ua ub ka kb z zz [s sn ne].
have sum_size (O : eqType) (f : O -> nat) (l : seq O) : all (fun o => f o < ns)%N l ->
    (\sum_(k < ns) size (in_sector f k l))%N = size l.
  move=> al; have := sum_sectors f 0 ns l; rewrite sumnE big_map.
  rewrite -[X in iota 0 X]subn0 -/(index_iota 0 ns) big_mkord => ->.
  by apply/eqP; rewrite -all_count; apply: sub_all al => o /=; rewrite add0n.
have [k kn lt] : exists2 k, (k < ns)%N & (size (in_sector scd k a) < size (in_sector sc k b))%N.
  have [k lt|h] := pickP (fun k : 'I_ns => (size (in_sector scd k a) < size (in_sector sc k b))%N).
    by exists k.
  have le (i : 'I_ns) : (size (in_sector sc i b) <= size (in_sector scd i a))%N.
    by rewrite leqNgt h.
  have : (size b < size a)%N.
    rewrite -(sum_size _ _ _ ka) -(sum_size _ _ _ kb) (bigD1 (Ordinal sn)) //= [X in (_ < X)%N](bigD1 (Ordinal sn)) //=.
    rewrite -addSn; apply: leq_add; last by apply: leq_sum.
    by move: (le (Ordinal sn)) => /=; rewrite leq_eqVlt eq_sym (negbTE ne).
  by rewrite zz ltnn.
have pa : perm_eq a (in_sector scd k a ++ [seq o <- a | scd o != k]).
  by rewrite perm_sym; apply/permPl; exact: perm_filterC.
have pb : perm_eq b (in_sector sc k b ++ [seq o <- b | sc o != k]).
  by rewrite perm_sym; apply/permPl; exact: perm_filterC.
rewrite (weight_perm cd0 c0 gf ua ub pa pb).
set a' := in_sector _ _ _ ++ _; set b' := in_sector _ _ _ ++ _.
set r1 := size (in_sector sc k b); set r2 := size [seq o <- b | sc o != k].
have zb' : size b' = (r1 + r2)%N by rewrite size_cat.
have za' : size a' = (r1 + r2)%N by rewrite -zb' -(perm_size pa) zz (perm_size pb).
rewrite (@weight_storage _ _ _ _ _ _ _ _ _ _ (r1 + r2)) -?(perm_uniq (perm_map tcd pa)) -?(perm_uniq (perm_map tc pb)) //.
rewrite /det_of (det_zero_block lt) ?mulr0 // => i j mj.
rewrite mxE /gmat /DetMatProofs.gmat /=; apply: z.
- by rewrite (perm_mem pb) mem_nth // zb' (leq_trans (ltn_ord i) (leq_addr _ _)).
- by rewrite (perm_mem pa) mem_nth // za'.
have m1 : nth c0 b' i \in in_sector sc k b by rewrite nth_cat ltn_ord mem_nth.
have m2 : nth cd0 a' j \in [seq o <- a | scd o != k].
  rewrite nth_cat ltnNge mj /= mem_nth //.
  by move: za'; rewrite size_cat => e; have := ltn_ord j; move: mj; move: e; set u := size _; set v := size _; lia.
move: m1 m2; rewrite !mem_filter => /andP [/eqP -> _] /andP [h _].
by rewrite eq_sym.
Qed.

End Weight.
