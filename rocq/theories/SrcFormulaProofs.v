(* Proofs about SrcFormulaModel. *)
From mathcomp Require Import all_ssreflect ssralg ssrint fingroup perm matrix mxalgebra ring zify.
From Verif Require Import Outcome SortModel SortSpec SortProofs MatLib BlockLib MatSpec.
From Verif Require Import FormulaModel FormulaProofs SrcFormulaModel.

Set Implicit Arguments.
Unset Strict Implicit.
Unset Printing Implicit Defensive.

Local Open Scope ring_scope.
Import GRing.Theory.

Section Sylvester.
Variable F : fieldType.

Lemma det_sylvester n m (U : 'M[F]_(n, m)) (V : 'M[F]_(m, n)) :
  \det (1%:M + U *m V) = \det (1%:M + V *m U).
Proof.
have e1 : \det (block_mx 1%:M (- U) V 1%:M) = \det (1%:M + V *m U).
  have h : (1%:M : 'M[F]_n) *m 1%:M = 1%:M by rewrite mulmx1.
  by rewrite (det_schur _ _ _ h) det1 mul1r mulmx1 mulmxN opprK.
have e2 : block_mx 1%:M (- U) V 1%:M *m block_mx 1%:M 0 (- V) 1%:M
        = block_mx (1%:M + U *m V) (- U) 0 1%:M.
  rewrite mulmx_block !mulmx1 !mul1mx !mulmx0 !add0r mulmxN mulNmx opprK subrr.
  by [].
have := congr1 determinant e2; rewrite det_mulmx det_lblock det_ublock !det1 !mulr1.
by rewrite e1 => ->.
Qed.

Lemma woodbury n k (A Ai : 'M[F]_n) (U : 'M[F]_(n, k)) (V : 'M[F]_(k, n)) (D Di C Ci : 'M[F]_k) :
  A *m Ai = 1%:M -> D *m Di = 1%:M -> C = V *m Ai *m U + Di -> C *m Ci = 1%:M ->
  (A + U *m D *m V) *m (Ai - Ai *m U *m (Ci *m (V *m Ai))) = 1%:M.
Proof.
move=> hA hD eC hC; rewrite mulmxBr !mulmxDl hA !mulmxA hA mul1mx.
have hX : V *m Ai *m U = C - Di by rewrite eC addrK.
have -> : U *m D *m V *m Ai *m U *m Ci *m V *m Ai = U *m (D *m (V *m Ai *m U) *m Ci) *m V *m Ai.
  by rewrite !mulmxA.
rewrite hX mulmxBr hD mulmxBl mul1mx -(mulmxA D) hC mulmx1 mulmxBr !mulmxBl.
by rewrite [U *m Ci *m V *m Ai + _]addrC subrK addrK.
Qed.

End Sylvester.

Section Proofs.
Variable F : fieldType.
Implicit Types (a b c d invA invG G A B C D Q R S Dr Dc : fmat F) (rc l rs : seq nat).

(* ---- enlarging ---- *)

Lemma src_det_ratio_up_ok N M A B C D invA : inverse_of N A invA ->
  det_of (N + M) (bordered N A B C D) = src_det_ratio_up N M B C D invA * det_of N A.
Proof. exact: det_ratio_up_ok. Qed.

Lemma src_inverse_up2_ok N M A B C D invA : (0 < M)%N -> inverse_of N A invA ->
  det_of (N + M) (bordered N A B C D) != 0 ->
  exists res r, [/\ src_inverse_up2 N M B C D invA = Ok ((N + M)%N, res, r),
    inverse_of (N + M) (bordered N A B C D) res &
    det_of (N + M) (bordered N A B C D) = r * det_of N A].
Proof. exact: inverse_up_ok. Qed.

Lemma src_inverse_up_ok N M A B C D invA : inverse_of N A invA ->
  det_of (N + M) (bordered N A B C D) != 0 ->
  let: (E, Fb, Gb, H, r) := src_inverse_up N M B C D invA in
  inverse_of (N + M) (bordered N A B C D) (bordered N E Fb Gb H) /\
  det_of (N + M) (bordered N A B C D) = r * det_of N A.
Proof.
move=> h nz; have e := src_det_ratio_up_ok M B C D h.
have rnz : src_det_ratio_up N M B C D invA != 0.
  by apply/eqP => r0; move: nz; rewrite e r0 mul0r eqxx.
rewrite /src_inverse_up; case: (eqVneq N 0%N) => [N0|N0]; move: rnz e;
  rewrite /src_det_ratio_up ?(negbTE N0) ?N0 /= => rnz e.
- split.
    apply: inverse_of_ext (finv_inverse rnz); exact/feq_sym/bordered0.
  by rewrite e /fdet mxof_inv det_inv div1r invrK.
- split; last by rewrite e /fdet mxof_inv det_inv div1r invrK.
  apply/inverse_ofP; rewrite !mxof_bordered.
  rewrite !(mxof_add, mxof_opp, mxof_mul).
  have hf := finv_ok rnz; rewrite mxof_sub !mxof_mul in hf.
  have /inverse_ofP h' := h.
  have := inv_up h' hf.
  by rewrite !(mulNmx, mulmxN) !opprK [X in _ *m block_mx X _ _ _ = _ -> _]addrC.
Qed.

(* ---- swaps ---- *)

Definition sig (ps : seq (nat * nat)) (i : nat) : nat :=
  foldr (fun pq i => swapi pq.1 pq.2 i) i ps.

Lemma swapsE ps a i j : foldl (@swap_both F) a ps i j = a (sig ps i) (sig ps j).
Proof. by elim: ps a i j => [|pq ps IH] a i j //=; rewrite IH. Qed.

Lemma sig_cat ps qs i : sig (ps ++ qs) i = sig ps (sig qs i).
Proof. by rewrite /sig foldr_cat. Qed.

Lemma sigK ps i : sig (rev ps) (sig ps i) = i.
Proof.
elim: ps i => [//|pq ps IH] i /=; rewrite rev_cons -cats1 sig_cat /= swapiK; exact: IH.
Qed.

Lemma sigK' ps i : sig ps (sig (rev ps) i) = i.
Proof. by rewrite -{1}(revK ps) sigK. Qed.

Definition swaps_lt n (ps : seq (nat * nat)) : bool :=
  all (fun pq => (pq.1 < n) && (pq.2 < n))%N ps.

Lemma sig_lt n ps i : swaps_lt n ps -> (i < n)%N -> (sig ps i < n)%N.
Proof.
elim: ps i => [//|pq ps IH] i /= /andP [/andP [p1 p2] h] il.
by apply: swapi_lt => //; apply: IH.
Qed.

Lemma swaps_lt_rev n ps : swaps_lt n (rev ps) = swaps_lt n ps.
Proof. by rewrite /swaps_lt all_rev. Qed.

Lemma sig_perm n ps : swaps_lt n ps -> perm_eq [seq sig ps i | i <- iota 0 n] (iota 0 n).
Proof.
move=> h; apply: uniq_perm; rewrite ?iota_uniq //.
  by rewrite map_inj_uniq ?iota_uniq //; apply: can_inj (sigK ps).
move=> x; rewrite mem_iota /= add0n; apply/mapP/idP => [[i]|xl].
  by rewrite mem_iota /= add0n => il ->; apply: sig_lt.
exists (sig (rev ps) x); last by rewrite sigK'.
by rewrite mem_iota /= add0n sig_lt // swaps_lt_rev.
Qed.

Lemma nth_sig n ps i : (i < n)%N -> nth 0%N [seq sig ps i | i <- iota 0 n] i = sig ps i.
Proof. by move=> il; rewrite (nth_map 0%N) ?size_iota // nth_iota. Qed.

Lemma inverse_of_swaps n ps a b : swaps_lt n ps -> inverse_of n a b ->
  inverse_of n (foldl (@swap_both F) a ps) (foldl (@swap_both F) b ps).
Proof.
move=> h ab; have pe := sig_perm h.
apply: inverse_of_ext (inverse_of_select pe pe ab) => i j il jl;
  by rewrite swapsE /select !nth_sig.
Qed.

Lemma det_of_swaps n ps a : swaps_lt n ps ->
  det_of n (foldl (@swap_both F) a ps) = det_of n a.
Proof.
move=> h; have pe := sig_perm h.
transitivity (det_of n (select a [seq sig ps i | i <- iota 0 n] [seq sig ps i | i <- iota 0 n])).
  by apply: fdet_ext => i j il jl; rewrite swapsE /select !nth_sig.
by rewrite (fdet_select _ pe pe) fsign_sqr mul1r.
Qed.

Lemma swaps_revK ps a i j :
  foldl (@swap_both F) (foldl (@swap_both F) a ps) (rev ps) i j = a i j.
Proof. by rewrite !swapsE !sigK'. Qed.

Lemma exchange_allE n ps l i : swaps_lt n ps -> size l = n -> (i < n)%N ->
  nth 0%N (exchange_all l ps) i = nth 0%N l (sig ps i).
Proof.
move=> h; elim: ps l h i => [//|pq ps IH] l /= /andP [/andP [p1 p2] h] i sz il.
by rewrite IH // ?size_exchange // nth_exchange // sz; apply: sig_lt.
Qed.

Lemma swap_list_lt n M rc : all (fun p => p < n)%N rc -> size rc = M ->
  swaps_lt n (swap_list n M rc).
Proof.
move=> /allP lt sz; apply/allP => pq /mapP [i]; rewrite mem_iota /= add0n => il -> /=.
have jl : (M - 1 - i < size rc)%N by lia.
have pl : (nth 0%N rc (M - 1 - i) < n)%N by apply: lt; apply: mem_nth.
by rewrite pl /=; lia.
Qed.

Lemma swap_listE n rc : swap_list n (size rc) rc = exchanges_to_end n rc. Proof. by []. Qed.

Lemma exchange_all_swaps n rc i : all (fun p => p < n)%N rc -> (i < n)%N ->
  nth 0%N (exchange_all (iota 0 n) (exchanges_to_end n rc)) i = sig (swap_list n (size rc) rc) i.
Proof.
move=> lt il; rewrite (@exchange_allE n) ?size_iota //; last exact: swap_list_lt.
by rewrite nth_iota ?add0n //; apply: sig_lt => //; apply: swap_list_lt.
Qed.

(* ---- removing ---- *)

Lemma src_det_ratio_down_ok n M rc G invG :
  uniq rc -> all (fun p => p < n)%N rc -> size rc = M -> inverse_of n G invG ->
  det_of (n - M) (select G (others n rc) (others n rc)) = src_det_ratio_down M rc invG * det_of n G.
Proof.
move=> u lt sz h; have pe := others_perm u lt.
have zo := size_others u lt; rewrite sz in zo.
have Mn : (M <= n)%N by rewrite -sz; apply: size_le.
have := det_ratio_down_last_ok Mn (inverse_of_select pe pe h).
rewrite (fdet_select _ pe pe) fsign_sqr mul1r => e.
transitivity (det_of (n - M) (select G (others n rc ++ rc) (others n rc ++ rc))).
  by apply: fdet_ext => i j il jl; rewrite /select !nth_cat zo il jl.
rewrite e; congr (_ * _); apply: fdet_ext => i j il jl.
by rewrite /select /fblock !nth_cat zo !ltnNge !leq_addr /= !addKn.
Qed.

Lemma fadd_sub n M a i j :
  fadd a (fmul M (fmul M (fopp (fblock 0 n a)) (finv M (fblock n n a))) (fblock n 0 a)) i j =
  fsub a (fmul M (fmul M (fblock 0 n a) (finv M (fblock n n a))) (fblock n 0 a)) i j.
Proof.
rewrite /fadd /fsub; congr (_ + _); rewrite /fmul -sumrN; apply: eq_bigr => k _.
rewrite -mulNr; congr (_ * _); rewrite -sumrN; apply: eq_bigr => l _.
by rewrite /fopp mulNr.
Qed.

Lemma src_inverse_down_ok n M rc G invG :
  (0 < M)%N -> all (fun p => p < n)%N rc -> uniq rc -> size rc = M ->
  inverse_of n G invG ->
  let o := take (n - M) (exchange_all (iota 0 n) (exchanges_to_end n rc)) in
  det_of (n - M) (select G o o) != 0 ->
  exists res r, [/\ src_inverse_down n M rc invG = Ok ((n - M)%N, res, exchanges_to_end n rc, r),
    inverse_of (n - M) (select G o o) res &
    det_of (n - M) (select G o o) = r * det_of n G].
Proof.
move=> M0 lt u sz h o nz.
have Mn : (M <= n)%N by rewrite -sz; apply: size_le.
rewrite /src_inverse_down ltnNge Mn (negbTE (lt0n_neq0 M0)) /= sz ltnn -{1}sz take_size lt /=.
have sl : swaps_lt n (swap_list n M rc) by apply: swap_list_lt.
have hs := inverse_of_swaps sl h.
have ex : feq (n - M) (n - M) (foldl (@swap_both F) G (swap_list n M rc)) (select G o o).
  move=> i j il jl; rewrite swapsE /select /o !nth_take // !exchange_all_swaps ?sz //; lia.
have dr := det_ratio_down_last_ok Mn hs; rewrite /det_ratio_down_last (det_of_swaps G sl) in dr.
have dx : det_of (n - M) (select G o o) =
  det_of (n - M) (foldl (@swap_both F) G (swap_list n M rc)) by apply/esym/fdet_ext.
rewrite dx in nz *.
have swE : swap_list n M rc = exchanges_to_end n rc by rewrite -swap_listE sz.
rewrite swE in sl hs ex dr dx nz *.
case: (eqVneq (n - M)%N 0%N) => [z|nz'].
  eexists; eexists; split; first by rewrite z.
  - by rewrite z => i j.
  - rewrite dr; congr (_ * _); have -> : n = M by lia.
    apply: fdet_ext => i j il jl.
    by rewrite /fblock subnn !add0n.
eexists; eexists; split; first by reflexivity.
- apply: (inverse_of_ext ex (feq_refl _)).
  have hs' : inverse_of (n - M + M) (foldl (@swap_both F) G (exchanges_to_end n rc))
      (foldl (@swap_both F) invG (exchanges_to_end n rc)) by rewrite subnK.
  apply: inverse_of_ext (downdate_ok hs' nz); first exact: feq_refl.
  move=> i j il jl; rewrite fadd_sub /downdate.
  by have -> : (0 < n - M)%N by lia.
- exact: dr.
Qed.

(* ---- one row ---- *)

Lemma src_replace_row_mul N m G invG (r : nat -> F) : (m < N)%N -> inverse_of N G invG ->
  forall i j, (i < N)%N -> (j < N)%N ->
  \sum_(k < N) with_row m G r i k * invG k j =
  with_row m (fun i j => (i == j)%:R) (fun j => \sum_(k < N) r k * invG k j) i j.
Proof.
by move=> mN h i j il jl; rewrite /with_row; case: eqP => // ni; apply: h.
Qed.

Lemma src_replace_row_ratio_ok N m G invG Dr : (m < N)%N -> inverse_of N G invG ->
  det_of N (with_row m G (Dr 0%N)) = src_ratio_replace_row N invG Dr m * det_of N G.
Proof.
move=> mN h; have N0 : (0 < N)%N by lia.
pose ps := [:: (m, (N - 1)%N)].
have sl : swaps_lt N ps by rewrite /= mN /=; lia.
have hs := inverse_of_swaps sl h.
rewrite -(det_of_swaps _ sl) -(det_of_swaps G sl).
have sm : sig ps (N - 1)%N = m.
  by rewrite /ps /= /swapi; case: eqP => // _; rewrite eqxx.
pose row : fmat F := fun _ j => Dr 0%N (sig ps j).
have := last_row_ratio_ok row N0 hs.
have -> : det_ratio_last_row N (foldl (@swap_both F) invG ps) row = src_ratio_replace_row N invG Dr m.
  rewrite /det_ratio_last_row /fmul /src_ratio_replace_row.
  rewrite -(sum_nth_perm (fun k => Dr 0%N k * invG k m) (sig_perm sl)).
  by apply: eq_bigr => k _; rewrite swapsE sm nth_sig.
move=> <-; apply: fdet_ext => i j il jl.
rewrite swapsE /with_row /with_last_row swapsE /row.
have -> : (sig ps i == m) = (i == (N - 1)%N).
  by rewrite -[X in _ == X]sm /ps /= swapi_eq.
by [].
Qed.

Lemma src_replace_row_entries_ok N m G invG Dr : (m < N)%N -> inverse_of N G invG ->
  src_ratio_replace_row N invG Dr m != 0 ->
  inverse_of N (with_row m G (Dr 0%N)) (src_replace_row_entries N invG Dr m).
Proof.
move=> mN h dnz i j il jl.
set d := src_ratio_replace_row N invG Dr m in dnz.
pose v (m : nat) : F := \sum_(k < N) Dr 0%N k * invG k m.
have dv : d = v m by [].
pose w (j : nat) : F := (v j - (j == m)%:R) / d.
have -> : \sum_(k < N) with_row m G (Dr 0%N) i k * src_replace_row_entries N invG Dr m k j =
   \sum_(k < N) with_row m G (Dr 0%N) i k * invG k j -
   (\sum_(k < N) with_row m G (Dr 0%N) i k * invG k m) * w j.
  rewrite big_distrl -sumrB; apply: eq_bigr => k _ /=.
  rewrite -mulrA -mulrBr; congr (_ * _); rewrite /src_replace_row_entries /w eqxx.
  case: (eqVneq j m) => [->|_].
    rewrite -/(v m) -dv mulrBl divff //= -[true%:R]/(1 : F); move: (d^-1) (invG k m) => e x; ring.
  rewrite subr0 /fmul -/(v j) -/(v m) -dv; move: (d^-1) (invG k m) (invG k j) (v j) => e x y z.
  ring.
rewrite !(src_replace_row_mul _ mN h) // /with_row -/(v j) -/(v m) -dv.
case: (eqVneq i m) => [->|ni].
  by rewrite /w mulrCA divff // mulr1 opprB addrC subrK eq_sym.
by rewrite mul0r subr0.
Qed.

(* ---- one row and one column ---- *)

Lemma det22 (A : 'M[F]_(1 + 1)) :
  let p := lshift 1 (ord0 : 'I_1) in let q := rshift 1 (ord0 : 'I_1) in
  \det A = A p p * A q q - A p q * A q p.
Proof.
move=> p q; rewrite (expand_det_row _ p) !big_ord_recl big_ord0 /cofactor !det_mx11 !mxE /=.
rewrite (_ : lift p _ = q); last exact/val_inj.
rewrite (_ : lift (lift ord0 ord0) _ = p); last exact/val_inj.
rewrite (_ : lift ord0 ord0 = q); last exact/val_inj.
rewrite (_ : ord0 = p); last exact/val_inj.
rewrite addn0 add0n expr0 [(-1) ^+ _]expr1 addr0 mul1r.
move: (A p p) (A p q) (A q p) (A q q) => x y z w; ring.
Qed.

Lemma det_block11 (a b c d : 'M[F]_1) :
  \det (block_mx a b c d) = a ord0 ord0 * d ord0 ord0 - b ord0 ord0 * c ord0 ord0.
Proof. by rewrite det22 /= block_mxEul block_mxEur block_mxEdl block_mxEdr. Qed.

(* the determinant ratio of replacing the last row and column, without any
   assumption on the corner of the inverse *)
Lemma det_last_row_col n (P tP : 'M[F]_n) (Qo Q tQ : 'cV[F]_n) (Ro R tR : 'rV[F]_n)
    (So S tS : 'M[F]_1) :
  block_mx P Qo Ro So *m block_mx tP tQ tR tS = 1%:M ->
  \det (block_mx P Q R S) =
   ((tS *m (S - R *m tP *m Q)) ord0 ord0 + ((R *m tQ) *m (tR *m Q)) ord0 ord0) * \det (block_mx P Qo Ro So).
Proof.
move=> h.
have h' := mulmx1C h.
have d1 := congr1 determinant h; rewrite det_mulmx det1 in d1.
move: h'; rewrite mulmx_block scalar_mx_block => /eq_block_mx [g1 g2 g3 g4].
move: (h); rewrite mulmx_block scalar_mx_block => /eq_block_mx [h1 h2 _ _].
pose q := Q - Qo.
pose U := block_mx q 0 0 (1%:M : 'M[F]_1).
pose V := block_mx tR tS (R *m tP + S *m tR) (R *m tQ + S *m tS - 1%:M).
have e : block_mx P Q R S *m block_mx tP tQ tR tS = 1%:M + U *m V.
  rewrite !mulmx_block !mul0mx !mul1mx !add0r !addr0 [1%:M in RHS]scalar_mx_block add_block_mx.
  congr block_mx.
  - by rewrite -h1 /q mulmxBl addrA [P *m tP + _ + _]addrAC addrK.
  - by rewrite -h2 /q mulmxBl addrA [P *m tQ + _ + _]addrAC addrK.
  - by rewrite add0r.
  - by rewrite addrCA subrr addr0.
have := congr1 determinant e; rewrite det_mulmx => e2.
have e3 : \det (block_mx P Q R S) = \det (1%:M + U *m V) * \det (block_mx P Qo Ro So).
  by rewrite -e2 -mulrA [\det (block_mx tP _ _ _) * _]mulrC d1 mulr1.
rewrite e3; congr (_ * _).
rewrite det_sylvester mulmx_block !mulmx0 !mulmx1 !addr0 !add0r.
have {}g2 : tP *m Qo = - (tQ *m So) by apply/eqP; rewrite -addr_eq0 g2.
have tRq : tR *m q = tR *m Q - (1%:M - tS *m So) by rewrite /q mulmxBr -g4 addrK.
have tPq : tP *m q = tP *m Q + tQ *m So by rewrite /q mulmxBr g2 opprK.
rewrite [1%:M in LHS](@scalar_mx_block _ 1 1) add_block_mx !add0r.
rewrite det_block11 mulmxDl -!mulmxA tRq tPq mulmxDr.
have m11 (X Y : 'M[F]_1) : (X *m Y) ord0 ord0 = X ord0 ord0 * Y ord0 ord0.
  by rewrite mxE big_ord_recl big_ord0 addr0.
have a11 (X Y : 'M[F]_1) : (X + Y) ord0 ord0 = X ord0 ord0 + Y ord0 ord0 by rewrite mxE.
have n11 (X : 'M[F]_1) : (- X) ord0 ord0 = - X ord0 ord0 by rewrite mxE.
have i11 : (1%:M : 'M[F]_1) ord0 ord0 = 1 by rewrite mxE.
rewrite [R *m (tQ *m So)]mulmxA [R *m (tQ *m (tR *m Q))]mulmxA.
move: (R *m (tP *m Q)) (R *m tQ) (tR *m Q) => x y z.
rewrite !(a11, n11, m11, i11).
move: (x ord0 ord0) (y ord0 ord0) (z ord0 ord0) (tS ord0 ord0) (S ord0 ord0) (So ord0 ord0).
move=> x0 y0 z0 t0 s0 o0; ring.
Qed.

Lemma mxof_scale n m (x : F) a : mxof n m (fun i j => x * a i j) = x *: mxof n m a.
Proof. by apply/matrixP => i j; rewrite !mxE. Qed.

Lemma mxof_scaler n m (x : F) a : mxof n m (fun i j => a i j * x) = x *: mxof n m a.
Proof. by apply/matrixP => i j; rewrite !mxE mulrC. Qed.

Lemma mxof_const (x : F) : mxof 1 1 (fun _ _ => x) = x%:M.
Proof. by apply/matrixP => i j; rewrite !mxE (ord1 i) (ord1 j) eqxx. Qed.

Lemma mx11 (X : 'M[F]_1) : X = (X ord0 ord0)%:M.
Proof. by apply/matrixP => i j; rewrite !mxE (ord1 i) (ord1 j) eqxx. Qed.

Lemma mxof11 a : mxof 1 1 a = (a 0%N 0%N)%:M.
Proof. by rewrite [LHS]mx11 mxE. Qed.

Lemma scalar_mx0 k : (0 : F)%:M = 0 :> 'M[F]_k.
Proof. by apply/matrixP => i j; rewrite !mxE mul0rn. Qed.

Section RowCol.
Variables (n : nat) (G invG Dr Dc : fmat F) (m : nat).
Hypotheses (mn : (m < n.+1)%N) (hG : inverse_of n.+1 G invG) (hd : Dr 0%N m = Dc m 0%N).

Let ps := [:: (m, n)].
Let g := foldl (@swap_both F) G ps.
Let a := rc_invG n.+1 invG m.
Let Q := rc_Q n.+1 Dc m.
Let R := rc_R n.+1 Dr m.
Let S : fmat F := fun _ _ => Dc m 0%N.
Let W := with_row_col m G (Dr 0%N) (fun i => Dc i 0%N).

Lemma rc_ps : swaps_lt n.+1 ps. Proof. by rewrite /= mn /= ltnSn. Qed.

Lemma rc_a : a = foldl (@swap_both F) invG ps.
Proof. by rewrite /a /rc_invG subn1. Qed.

Lemma rc_inv : inverse_of (n + 1) g a.
Proof. by rewrite addn1 rc_a; apply: inverse_of_swaps rc_ps hG. Qed.

Lemma rc_W : feq n.+1 n.+1 (foldl (@swap_both F) W ps) (bordered n g Q R S).
Proof.
move=> i j il jl; rewrite swapsE /bordered /W /with_row_col /g swapsE.
have e k : (k < n.+1)%N -> (sig ps k == m) = ~~ (k < n)%N.
  move=> kl; rewrite -leqNgt.
  have <- : sig ps n = m by rewrite /ps /= /swapi; case: eqP => // _; rewrite eqxx.
  by rewrite /ps /= swapi_eq; apply/eqP/idP; lia.
have sm : sig ps n = m by rewrite /ps /= /swapi; case: eqP => // _; rewrite eqxx.
rewrite !e //; case: ltnP => [iln|iln] /=; case: ltnP => [jln|jln] //=.
- have -> : (j - n = 0)%N by lia.
  by rewrite /Q /rc_Q /fswap_row subn1.
- have -> : (i - n = 0)%N by lia.
  by rewrite /R /rc_R /fswap_col subn1.
- have -> : j = n by lia.
  by rewrite (_ : swapi m n n = m) ?hd.
Qed.

Lemma rc_det : det_of n.+1 W = det_of (n + 1) (bordered n g Q R S).
Proof. by rewrite -(det_of_swaps W rc_ps) addn1; apply: fdet_ext rc_W. Qed.

Lemma rc_detG : det_of n.+1 G = det_of (n + 1) g.
Proof. by rewrite addn1 /g det_of_swaps // rc_ps. Qed.

Let tS := a n n.
Let lambda := tS * (Dc m 0%N - fmul n R (fmul n a Q) 0%N 0%N)
  + fmul 1 (fmul n R (fblock 0 n a)) (fmul n (fblock n 0 a) Q) 0%N 0%N.

Lemma rc_block11 k k2 b : mxof 1 1 (fblock k k2 b) = (b k k2)%:M.
Proof. by rewrite mxof11 /fblock !addn0. Qed.

Lemma rc_lambda : det_of n.+1 W = lambda * det_of n.+1 G.
Proof.
rewrite rc_det rc_detG !det_ofE /fdet mxof_bordered.
have /inverse_ofP := rc_inv; rewrite !mxof_split4 => h.
rewrite (det_last_row_col _ _ _ h); congr ((_ + _) * _).
- rewrite rc_block11 -/tS mul_scalar_mx mxE; congr (_ * _).
  by rewrite -mulmxA -!mxof_mul -mxof_sub mxE.
- by rewrite -!mxof_mul !mxE.
Qed.

(* undoing the exchange *)
Lemma rc_back b : inverse_of (n + 1) (bordered n g Q R S) b ->
  inverse_of n.+1 W (swap_both b (m, n)).
Proof.
rewrite addn1 => h.
have := inverse_of_swaps rc_ps (inverse_of_ext (feq_sym rc_W) (feq_refl _) h).
apply: inverse_of_ext; last exact: feq_refl.
by move=> i j il jl; have := swaps_revK ps W i j.
Qed.

Lemma rc_normal tiny : tS != 0 -> lambda != 0 ->
  ~~ tiny tS (tS / lambda) ->
  inverse_of n.+1 W (src_replace_row_col tiny n.+1 invG Dr Dc m false).1.
Proof.
move=> tnz lnz ntiny; rewrite /src_replace_row_col -/a -/Q -/R subn1 [_.-1]/= -/tS -/lambda.
rewrite /= (negbTE ntiny) /=; apply: rc_back.
have /inverse_ofP := rc_inv; rewrite !mxof_split4 => h.
have hH : mxof 1 1 (fblock n n a) *m (tS^-1)%:M = 1%:M.
  by rewrite rc_block11 -/tS -scalar_mxM divff.
have hM := inv_down h hH.
set Mm : fmat F := fun i j => _ + a i j.
have eM : mxof n n Mm = mxof n n a - mxof n 1 (fblock 0 n a) *m (tS^-1)%:M *m mxof 1 n (fblock n 0 a).
  rewrite /Mm mxof_add mxof_scaler mxof_mul mul_mx_scalar -scalemxAl div1r scaleNr.
  by rewrite addrC.
rewrite -eM in hM.
have el : lambda = tS * (Dc m 0%N - fmul n R (fmul n Mm Q) 0%N 0%N).
  have e1 : mxof 1 1 (fmul n R (fmul n Mm Q)) =
     mxof 1 1 (fmul n R (fmul n a Q)) - (tS^-1) *:
     mxof 1 1 (fmul 1 (fmul n R (fblock 0 n a)) (fmul n (fblock n 0 a) Q)).
    rewrite !mxof_mul eM mulmxBl mulmxBr; congr (_ - _).
    by rewrite mul_mx_scalar -!scalemxAl -!scalemxAr !mulmxA.
  have := congr1 (fun X : 'M[F]_1 => X ord0 ord0) e1; rewrite !mxE /= => ->.
  rewrite /lambda; move: (fmul n R _ _ _) (fmul 1 _ _ _ _) => x y.
  have r (t d e u w : F) : t * (d - (u - e * w)) = t * (d - u) + (t * e) * w by ring.
  by rewrite r divff // mul1r.
have hD : (mxof 1 1 S - mxof 1 n R *m mxof n n Mm *m mxof n 1 Q) *m (tS / lambda)%:M = 1%:M.
  rewrite -mulmxA -!mxof_mul -mxof_sub mxof11 -scalar_mxM /fsub /S.
  move: lnz; rewrite el; set s := Dc m 0%N - _ => lnz.
  have snz : s != 0 by apply: contraNneq lnz => ->; rewrite mulr0.
  by rewrite invfM mulrCA [s * _]mulrCA divff // mulr1 divff.
have := inv_up hM hD => ok.
apply/inverse_ofP; rewrite mxof_bordered mxof_blocks.
rewrite mxof_const mxof_add !mxof_scale !mxof_mul -/Mm.
move: ok; rewrite !(mulNmx, mulmxN) !mul_mx_scalar !mul_scalar_mx opprK.
by rewrite mulNr !scaleNr -!scalemxAr !mulmxA.
Qed.

Lemma rc_sing_inverse : tS = 0 -> Dc m 0%N = 0 -> lambda != 0 ->
  let tQ := fblock 0 n a in let tR := fblock n 0 a in
  let R_tQ := fmul n R tQ 0%N 0%N in let tR_Q := fmul n tR Q 0%N 0%N in
  let tQp : fmat F := fun i j => tQ i j / R_tQ in
  let tRp : fmat F := fun i j => tR i j / tR_Q in
  let tPp := fadd a (fadd (fsub (fopp (fmul 1 tQp (fmul n R a)))
                            (fmul 1 (fmul n a Q) tRp))
                   (fmul 1 (fmul 1 tQp (fmul n R (fmul n a Q))) tRp)) in
  inverse_of (n + 1) (bordered n g Q R S) (fblocks n n tPp tQp tRp (fun _ _ => tS / lambda)).
Proof.
move=> t0 s0 lnz tQ tR R_tQ tR_Q tQp tRp tPp.
have el : lambda = R_tQ * tR_Q.
  by rewrite /lambda t0 mul0r add0r {1}/fmul big_ord_recl big_ord0 addr0.
have [rnz knz] : R_tQ != 0 /\ tR_Q != 0.
  by move: lnz; rewrite el mulf_eq0 negb_or => /andP.
have /inverse_ofP h := rc_inv.
move: (h); rewrite !mxof_split4 mulmx_block scalar_mx_block rc_block11 -/tS t0 => /eq_block_mx.
rewrite scalar_mx0 !mulmx0 !addr0 => -[h1 h2 _ _].
have eR : mxof 1 n R *m mxof n 1 tQp = 1%:M.
  rewrite /tQp mxof_scaler -scalemxAr -mxof_mul mxof11 -/R_tQ.
  by rewrite -mul_scalar_mx -scalar_mxM mulVf.
have eK : mxof 1 n tR *m mxof n 1 Q = tR_Q%:M by rewrite -mxof_mul mxof11.
have eP : mxof n n g *m mxof n 1 tQp = 0.
  by rewrite /tQp mxof_scaler -scalemxAr h2 scaler0.
apply/inverse_ofP; rewrite mxof_bordered mxof_blocks.
have -> : mxof 1 1 S = 0 by rewrite mxof11 /S s0 scalar_mx0.
rewrite mxof_const mul0r scalar_mx0.
rewrite mulmx_block !mulmx0 !mul0mx !addr0 eP eR.
rewrite !(mxof_add, mxof_sub, mxof_opp, mxof_mul).
rewrite scalar_mx_block; congr block_mx.
- rewrite !mulmxDr !mulmxN !mulmxA eP !mul0mx oppr0 add0r addr0.
  have -> : mxof n n g *m mxof n n a = 1%:M - mxof n 1 (fblock 0 n g) *m mxof 1 n tR.
    by rewrite -h1 addrK.
  rewrite !mulmxBl !mul1mx -!mulmxA [mxof 1 n tR *m _]mulmxA eK.
  have -> : tR_Q%:M *m mxof 1 n tRp = mxof 1 n tR.
    rewrite /tRp mxof_scaler mul_scalar_mx scalerA divff // scale1r //.
  by rewrite opprB addrA subrK subrK.
- rewrite !mulmxDr !mulmxN !mulmxA eR !mul1mx.
  by rewrite subrK subrr.
Qed.


Lemma rc_sing1 tiny : tS = 0 -> Dc m 0%N = 0 -> lambda != 0 ->
  inverse_of n.+1 W (src_replace_row_col tiny n.+1 invG Dr Dc m true).1.
Proof.
move=> t0 s0 lnz; have := rc_back (rc_sing_inverse t0 s0 lnz).
by rewrite /src_replace_row_col -/a -/Q -/R subn1.
Qed.

Lemma rc_sing2 : tS = 0 -> Dc m 0%N = 0 -> lambda != 0 ->
  inverse_of n.+1 W (src_replace_row_col2 n.+1 invG Dr Dc m false).1.
Proof.
move=> t0 s0 lnz; have := rc_back (rc_sing_inverse t0 s0 lnz).
have <- : fmul n R (fblock 0 n a) 0%N 0%N * fmul n (fblock n 0 a) Q 0%N 0%N = lambda.
  by rewrite /lambda t0 mul0r add0r [RHS]big_ord_recl big_ord0 addr0.
by rewrite /src_replace_row_col2 -/a -/Q -/R subn1.
Qed.

Lemma rc_sing2_lambda only : tS = 0 ->
  det_of n.+1 W = (src_replace_row_col2 n.+1 invG Dr Dc m only).2 * det_of n.+1 G.
Proof.
move=> t0; rewrite rc_lambda; congr (_ * _).
rewrite /lambda t0 mul0r add0r {1}/fmul big_ord_recl big_ord0 addr0.
by rewrite /src_replace_row_col2 -/a -/Q -/R subn1; case: only.
Qed.

Lemma rc_lambdaE tiny s : (src_replace_row_col tiny n.+1 invG Dr Dc m s).2 = lambda.
Proof. by rewrite /src_replace_row_col -/a -/Q -/R subn1; case: ifP. Qed.

Lemma rc_corner : tS = invG m m.
Proof.
rewrite /tS rc_a swapsE.
by have -> : sig ps n = m by rewrite /ps /= /swapi; case: eqP => // _; rewrite eqxx.
Qed.

End RowCol.

(* one row and column, trailing position *)
Lemma src_ratio_replace_safe_ok N G invG Q R S : inverse_of (N + 1) G invG ->
  det_of (N + 1) (bordered N G Q R S) = src_ratio_replace_safe N invG Q R S * det_of (N + 1) G.
Proof.
move=> /inverse_ofP; rewrite !mxof_split4 => h.
rewrite !det_ofE /fdet mxof_bordered (det_last_row_col _ _ _ h) -mxof_split4; congr (_ * _).
rewrite /src_ratio_replace_safe /fadd; congr (_ + _).
- by rewrite -mulmxA -!mxof_mul -mxof_sub -mxof_mul mxE.
- by rewrite -!mxof_mul !mxE.
Qed.

(* ---- several rows and columns ---- *)

Lemma src_replace_rows_cols_ok NpM A Q R S rc : all (fun p => p < NpM)%N rc -> uniq rc ->
  let o := exchange_all (iota 0 NpM) (exchanges_to_end NpM rc) in
  let N := (NpM - size rc)%N in
  forall i j, (i < NpM)%N -> (j < NpM)%N ->
    src_replace_rows_cols NpM A Q R S rc (nth 0%N o i) (nth 0%N o j)
    = bordered N (select A o o) Q R S i j.
Proof.
move=> lt u o N i j il jl.
rewrite /src_replace_rows_cols swapsE /o !exchange_all_swaps // !sigK -/N.
rewrite /fblocks /bordered; case: ltnP => iN; case: ltnP => jN //.
by rewrite swapsE /select !exchange_all_swaps.
Qed.

Lemma nth_set_nth_bool (t : seq bool) p i :
  nth false (set_nth false t p true) i = (i == p) || nth false t i.
Proof. by rewrite nth_set_nth /=; case: eqP. Qed.

Lemma is_includedE n rc i : nth false (is_included n rc) i = (i \in rc).
Proof.
rewrite /is_included.
have h : forall t, nth false (foldl (fun t p => set_nth false t p true) t rc) i
   = (i \in rc) || nth false t i.
  elim: rc => [//|p rc IH] t /=; rewrite IH nth_set_nth_bool inE.
  by case: (i == p); case: (i \in rc).
by rewrite h nth_nseq; case: ifP; rewrite orbF.
Qed.

Lemma src_generate_indices_ok rc N M : uniq rc -> all (fun p => p < N + M)%N rc -> size rc = M ->
  src_generate_indices rc N M = Ok (others (N + M) rc).
Proof.
move=> u lt sz; have tk : take M rc = rc by rewrite -sz take_size.
rewrite /src_generate_indices sz ltnn tk lt /=.
have -> : [seq i <- iota 0 (N + M) | ~~ nth false (is_included (N + M) rc) i] = others (N + M) rc.
  by apply: eq_filter => i; rewrite is_includedE.
by rewrite (size_others u lt) sz addnK ltnn subnn cats0.
Qed.

Lemma src_generate_indices_dup rc N M : ~~ uniq rc -> all (fun p => p < N + M)%N rc ->
  size rc = M -> src_generate_indices rc N M = UB.
Proof.
move=> nu lt sz; have tk : take M rc = rc by rewrite -sz take_size.
rewrite /src_generate_indices sz ltnn tk lt /=.
have -> : [seq i <- iota 0 (N + M) | ~~ nth false (is_included (N + M) rc) i] = others (N + M) rc.
  by apply: eq_filter => i; rewrite is_includedE.
have -> : others (N + M) rc = others (N + M) (undup rc).
  by apply: eq_filter => i; rewrite mem_undup.
have lt' : all (fun p => p < N + M)%N (undup rc).
  by apply/allP => x; rewrite mem_undup; apply: (allP lt).
have zu : (size (undup rc) < M)%N by rewrite -sz -ltn_size_undup in nu *.
have e : (N < N + M - size (undup rc))%N by lia.
by rewrite (size_others (undup_uniq _) lt') e.
Qed.

Lemma index_filter_nth (p : pred nat) n i : (i < count p (iota 0 n))%N ->
  let s := [seq i <- iota 0 n | p i] in (nth 0%N s i \in s) /\ index (nth 0%N s i) s = i.
Proof.
move=> il s; have zs : (i < size s)%N by rewrite size_filter.
by split; [apply: mem_nth | apply: index_uniq => //; rewrite filter_uniq ?iota_uniq].
Qed.

Lemma src_replace_respect_ok NpM A Q R S rc : uniq rc -> all (fun p => p < NpM)%N rc ->
  sorted ltn rc ->
  let N := (NpM - size rc)%N in let o := others NpM rc in
  [/\ forall i j, (i < size rc)%N -> (j < size rc)%N ->
        src_replace_respect NpM A Q R S rc (nth 0%N rc i) (nth 0%N rc j) = S i j,
      forall i j, (i < N)%N -> (j < size rc)%N ->
        src_replace_respect NpM A Q R S rc (nth 0%N o i) (nth 0%N rc j) = Q i j,
      forall i j, (i < size rc)%N -> (j < N)%N ->
        src_replace_respect NpM A Q R S rc (nth 0%N rc i) (nth 0%N o j) = R i j &
      forall i j, (i < N)%N -> (j < N)%N ->
        src_replace_respect NpM A Q R S rc (nth 0%N o i) (nth 0%N o j)
          = A (nth 0%N o i) (nth 0%N o j)].
Proof.
move=> u lt so N o; rewrite /src_replace_respect.
have eM : [seq i <- iota 0 NpM | nth false (is_included NpM rc) i] = rc.
  apply: (irr_sorted_eq ltn_trans ltnn) => //.
    by apply: sorted_filter; [exact: ltn_trans | exact: iota_ltn_sorted].
  move=> x; rewrite mem_filter is_includedE mem_iota /= add0n.
  by case xr: (x \in rc) => //=; apply: (allP lt).
have eN : [seq i <- iota 0 NpM | ~~ nth false (is_included NpM rc) i] = o.
  by apply: eq_filter => i; rewrite is_includedE.
have zo : size o = N by rewrite size_others.
have uo : uniq o by rewrite filter_uniq ?iota_uniq.
have no i : (i < N)%N -> (nth 0%N o i \in rc) = false.
  move=> il; have : nth 0%N o i \in o by rewrite mem_nth ?zo.
  by rewrite mem_filter => /andP [/negbTE].
have io i : (i < N)%N -> nth 0%N o i \in o by move=> il; rewrite mem_nth ?zo.
rewrite eM eN; split=> i j il jl; rewrite ?(mem_nth 0%N il) ?(mem_nth 0%N jl) ?no ?io //.
- by rewrite !index_uniq.
- by rewrite !index_uniq ?zo.
- by rewrite !index_uniq ?zo.
Qed.

Lemma src_ratio_replace_rows_cols_ok N M Mo G invG Q R S : inverse_of (N + Mo) G invG ->
  det_of N G != 0 ->
  det_of (N + M) (bordered N G Q R S)
    = (src_ratio_replace_rows_cols N M Mo invG Q R S).1 * det_of (N + Mo) G.
Proof.
move=> h nz; have [-> _] := replace_ok M Q R S h nz; congr (_ * _).
rewrite /replace_det_ratio /src_ratio_replace_rows_cols.
case: (eqVneq N 0%N) => [//|N0].
have := det_ratio_down_last_ok (leq_addl N Mo) h; rewrite /det_ratio_down_last addnK => e.
have tnz : fdet Mo (fblock N N invG) != 0.
  by apply/eqP => z; move: nz; rewrite e z mul0r eqxx.
rewrite (negbTE tnz) /=; congr (_ * _).
set M1 := (if _ then _ else _); set M2 := fsub invG _.
have eM : mxof N N M1 = mxof N N M2.
  rewrite /M1; case: posnP => [Mo0|_]; last by rewrite !(mxof_sub, mxof_mul) mulmxA.
  by apply/matrixP => i j; rewrite !mxE /M2 /fsub {1}/fmul Mo0 big_ord0 subr0.
by rewrite /fdet !mxof_sub !mxof_mul eM.
Qed.

(* ---- diagonal elements ---- *)

Section Diag.
Variables (N k : nat) (pos : seq nat) (diff : seq F) (G invG : fmat F).
Hypotheses (u : uniq pos) (lt : all (fun p => p < N)%N pos) (zp : size pos = k).
Hypotheses (zd : size diff = k) (hG : inverse_of N G invG).

Let G' : fmat F := fun i j => G i j + (if (i == j) && (i \in pos) then nth 0 diff (index i pos) else 0).

Lemma diag_shift : with_diag pos diff G = G'. Proof. by []. Qed.

Let o := others N pos ++ pos.
Let dm : 'M[F]_k := diag_mx (\row_j nth 0 diff j).

Lemma diag_kN : (k <= N)%N. Proof. by rewrite -zp; apply: size_le. Qed.

Lemma diag_blocks (l : seq nat) : size l = N -> uniq l -> drop (N - k) l = pos ->
  mxof (N - k + k) (N - k + k) (select G' l l) =
  mxof (N - k + k) (N - k + k) (select G l l) + block_mx 0 0 0 dm.
Proof.
move=> zl ul dl; have kN := diag_kN.
have posE (j : nat) : (j < k)%N -> nth 0%N l (N - k + j) = nth 0%N pos j.
  by move=> jk; rewrite -dl nth_drop.
have npos (i : nat) : (i < N - k)%N -> (nth 0%N l i \in pos) = false.
  move=> ik; rewrite -dl; apply/negP => /(nthP 0%N) [j]; rewrite size_drop zl nth_drop => jl.
  move/eqP; rewrite nth_uniq ?zl //; lia.
rewrite -[mxof _ _ (select G l l)]submxK add_block_mx -[LHS]submxK.
congr block_mx; apply/matrixP => i j; rewrite !mxE /select /G' /= ?addr0.
- by rewrite npos // andbF addr0.
- by rewrite npos // andbF addr0.
- have -> : (nth 0%N l (N - k + i) == nth 0%N l j) = false.
    by rewrite nth_uniq ?zl; have := ltn_ord i; have := ltn_ord j; lia.
  by rewrite addr0.
- rewrite nth_uniq ?zl; try by have := ltn_ord i; have := ltn_ord j; lia.
  rewrite eqn_add2l posE // mem_nth ?zp // andbT; congr (_ + _).
  rewrite -val_eqE /=; case: ((i : nat) =P j) => _; last by rewrite mulr0n.
  by rewrite index_uniq ?zp // [_ *+ _]mulr1n.
Qed.

Lemma diag_ratio_ok only :
  det_of N G' = (src_diag N k pos diff invG only).2 * det_of N G.
Proof.
have kN := diag_kN; have pe := others_perm u lt.
have zo : size o = N by rewrite (perm_size pe) size_iota.
have uo : uniq o by rewrite (perm_uniq pe) iota_uniq.
have dl : drop (N - k) o = pos by rewrite /o drop_size_cat // size_others // zp.
have d1 (b : fmat F) : det_of N (select b o o) = det_of N b.
  by rewrite (fdet_select _ pe pe) fsign_sqr mul1r.
have dN (b : fmat F) : det_of N b = det_of (N - k + k) b by rewrite subnK.
rewrite -(d1 G') -(d1 G) !dN.
have /inverse_ofP hm : inverse_of (N - k + k) (select G o o) (select invG o o).
  by rewrite subnK //; apply: inverse_of_select.
rewrite [det_of _ (select G' o o)]/det_of -/(mxof _ _ _) (diag_blocks zo uo dl).
set A := mxof _ _ (select G o o) in hm *; set Ai := mxof _ _ (select invG o o) in hm.
rewrite -[det_of _ (select G o o)]/(\det A).
pose U : 'M[F]_(N - k + k, k) := col_mx 0 1%:M.
have e1 : block_mx 0 0 0 dm = U *m dm *m U^T.
  by rewrite /U tr_col_mx trmx0 trmx1 mul_col_mx mul0mx mul1mx mul_col_row !(mul0mx, mulmx0) mulmx1.
rewrite e1.
have -> : A + U *m dm *m U^T = A *m (1%:M + (Ai *m U *m dm) *m U^T).
  by rewrite mulmxDr mulmx1 !mulmxA hm mul1mx.
rewrite det_mulmx det_sylvester mulrC; congr (_ * _).
have -> : (src_diag N k pos diff invG only).2 = fdet k (src_diag_x k pos diff invG).
  by rewrite /src_diag; case: only.
rewrite /fdet; congr determinant; apply/matrixP => i j.
rewrite !mulmxA; have -> : U^T *m Ai *m U = drsubmx Ai.
  rewrite -{1}[Ai]submxK /U tr_col_mx trmx0 trmx1 mul_row_block !mul0mx !mul1mx !add0r.
  by rewrite mul_row_col mulmx0 mulmx1 add0r.
rewrite mul_mx_diag !mxE /src_diag_x addrC; congr (_ + _); last by rewrite -val_eqE /=; case: eqP.
rewrite /select /o !nth_cat size_others // zp /=.
by rewrite !ltnNge !leq_addr /= !addKn.
Qed.


Lemma diag_inverse_ok : sorted ltn pos -> all (fun x => x != 0) diff ->
  (src_diag N k pos diff invG false).2 != 0 ->
  inverse_of N G' (src_diag N k pos diff invG false).1.
Proof.
move=> so dnz rnz; have kN := diag_kN.
have dn j : (j < k)%N -> nth 0 diff j != 0 by move=> jk; apply: (allP dnz); rewrite mem_nth ?zd.
pose l := exchange_all (iota 0 N) (exchanges_to_end N pos).
have [pe dl _] := exchanges_to_end_ok so lt; rewrite -/l zp in pe dl.
have zl : size l = N by rewrite (perm_size pe) size_iota.
have ul : uniq l by rewrite (perm_uniq pe) iota_uniq.
have sl : swaps_lt N (swap_list N k pos) by apply: swap_list_lt.
have lE i : (i < N)%N -> nth 0%N l i = sig (swap_list N k pos) i.
  by move=> il; rewrite /l exchange_all_swaps // zp.
rewrite /src_diag /=; set a := foldl _ invG _; set c := (fun _ _ => _ : F).
set a' := fsub a _.
suff h : inverse_of N (select G' l l) a'.
  have hb : inverse_of N (foldl (@swap_both F) G' (swap_list N k pos)) a'.
    by apply: inverse_of_ext h; [move=> i j il jl; rewrite swapsE /select !lE | exact: feq_refl].
  have slr : swaps_lt N (rev (swap_list N k pos)) by rewrite swaps_lt_rev.
  apply: inverse_of_ext (inverse_of_swaps slr hb); last exact: feq_refl.
  by move=> i j il jl; rewrite swaps_revK.
have ha : feq N N (select invG l l) a by move=> i j il jl; rewrite /a swapsE /select !lE.
have /inverse_ofP hA : inverse_of (N - k + k) (select G l l) a.
  rewrite subnK //; apply: (inverse_of_ext (feq_refl _) ha); exact: inverse_of_select.
rewrite -(subnK kN); apply/inverse_ofP; rewrite (diag_blocks zl ul dl).
set A := mxof _ _ (select G l l) in hA *.
pose U : 'M[F]_(N - k + k, k) := col_mx 0 1%:M.
have e1 : block_mx 0 0 0 dm = U *m dm *m U^T.
  by rewrite /U tr_col_mx trmx0 trmx1 mul_col_mx mul0mx mul1mx mul_col_row !(mul0mx, mulmx0) mulmx1.
pose Di : 'M[F]_k := diag_mx (\row_j (nth 0 diff j)^-1).
have hD : dm *m Di = 1%:M.
  rewrite /dm /Di mul_diag_mx; apply/matrixP => i j; rewrite !mxE mulrnAr.
  case: eqP => [->|_]; last by rewrite mulr0n.
  by rewrite divff ?dn.
have eU : mxof (N - k + k) k (fblock 0 (N - k) a) = mxof _ _ a *m U.
  apply/matrixP => i j; rewrite -[mxof _ _ a]hsubmxK /U mul_row_col mulmx0 mulmx1 add0r !mxE.
  by [].
have eV : mxof k (N - k + k) (fblock (N - k) 0 a) = U^T *m mxof _ _ a.
  apply/matrixP => i j; rewrite -[mxof _ _ a]vsubmxK /U tr_col_mx trmx0 trmx1.
  by rewrite mul_row_col mul0mx mul1mx add0r !mxE.
have eC : mxof k k c = U^T *m mxof _ _ a *m U + Di.
  rewrite -eV; apply/matrixP => i j; rewrite -[mxof k _ (fblock _ 0 a)]hsubmxK /U.
  rewrite mul_row_col mulmx0 mulmx1 add0r !mxE /c /fblock /=; congr (_ + _).
  rewrite -val_eqE /=; case: ((i : nat) =P j) => _; last by rewrite mulr0n.
  by rewrite div1r [_ *+ _]mulr1n.
have cnz : fdet k c != 0.
  have ex : mxof k k (src_diag_x k pos diff invG) = mxof k k c *m dm.
    rewrite /dm mul_mx_diag; apply/matrixP => i j; rewrite !mxE /src_diag_x /c.
    rewrite /fblock -ha; try by have := ltn_ord i; have := ltn_ord j; lia.
    rewrite /select -!nth_drop dl mulrDl; congr (_ + _).
    by case: ((i : nat) =P j) => [->|_]; rewrite ?mul0r // div1r mulVf ?dn.
  by move: rnz; rewrite /src_diag /fdet /= ex det_mulmx mulf_eq0 negb_or => /andP [].
have := woodbury hA hD eC (finv_ok cnz).
by rewrite e1 /a' mxof_sub !mxof_mul eU eV.
Qed.

End Diag.

Lemma src_diag_inverse_ok N k (pos : seq nat) (diff : seq F) G invG :
  sorted ltn pos -> all (fun p => p < N)%N pos -> size pos = k -> size diff = k ->
  inverse_of N G invG -> all (fun x => x != 0) diff ->
  det_of N (with_diag pos diff G) != 0 ->
  inverse_of N (with_diag pos diff G) (src_diag N k pos diff invG false).1.
Proof.
move=> so lt zp zd h dn nz; have u := sorted_ltn_uniq so.
apply: (diag_inverse_ok u lt zp zd h so dn); apply: contraNneq nz => e.
by rewrite (diag_ratio_ok u lt zp zd h false) e mul0r.
Qed.

Lemma src_inverse_replace_none_kept (junk : fmat F) M A Q R S work : det_of M S != 0 ->
  exists res, src_inverse_replace_rows_cols junk 0 M Q R S work = Ok (M, res) /\
    inverse_of M (bordered 0 A Q R S) res.
Proof.
move=> nz; exists (finv M S); split=> //.
apply: (@inverse_of_ext _ _ S _ (finv M S)); last exact: finv_inverse.
- by move=> i j _ _; rewrite /bordered !ltn0 !subn0.
- exact: feq_refl.
Qed.

Lemma src_inverse_replace_shapes (junk : fmat F) N M Mo invG Q R S : (0 < N)%N -> N != M ->
  src_inverse_replace_rows_cols junk N M Q R S (src_ratio_replace_rows_cols N M Mo invG Q R S).2
  = UB.
Proof.
move=> n0 ne; rewrite /src_inverse_replace_rows_cols /src_ratio_replace_rows_cols.
by rewrite gtn_eqF //= ne.
Qed.

Lemma src_row_col_ratio_ok tiny n m G invG Dr Dc : (m < n.+1)%N -> inverse_of n.+1 G invG ->
  Dr 0%N m = Dc m 0%N -> forall singular,
  det_of n.+1 (with_row_col m G (Dr 0%N) (fun i => Dc i 0%N))
  = (src_replace_row_col tiny n.+1 invG Dr Dc m singular).2 * det_of n.+1 G.
Proof. by move=> mn h hd s; rewrite rc_lambdaE; apply: rc_lambda. Qed.

Lemma src_row_col_regular_ok (tiny : F -> F -> bool) n m G invG Dr Dc : (m < n.+1)%N -> inverse_of n.+1 G invG ->
  Dr 0%N m = Dc m 0%N ->
  let new := with_row_col m G (Dr 0%N) (fun i => Dc i 0%N) in
  invG m m != 0 -> det_of n.+1 new != 0 -> (forall x y, tiny x y -> x = 0) ->
  inverse_of n.+1 new (src_replace_row_col tiny n.+1 invG Dr Dc m false).1.
Proof.
move=> mn h hd new nz dz tn; have := nz; rewrite -(rc_corner n) => nz'.
apply: rc_normal => //; last by apply: contraNN nz' => /tn /eqP.
by apply: contraNneq dz => e; rewrite /new (rc_lambda mn h hd) e mul0r.
Qed.

Lemma src_row_col_singular_ok tiny n m G invG Dr Dc : (m < n.+1)%N -> inverse_of n.+1 G invG ->
  Dr 0%N m = Dc m 0%N ->
  let new := with_row_col m G (Dr 0%N) (fun i => Dc i 0%N) in
  invG m m = 0 -> Dc m 0%N = 0 -> det_of n.+1 new != 0 ->
  inverse_of n.+1 new (src_replace_row_col tiny n.+1 invG Dr Dc m true).1 /\
  inverse_of n.+1 new (src_replace_row_col2 n.+1 invG Dr Dc m false).1.
Proof.
move=> mn h hd new; rewrite -(rc_corner n) => z0 d0 dz.
split; [apply: rc_sing1 | apply: rc_sing2] => //;
  by apply: contraNneq dz => e; rewrite /new (rc_lambda mn h hd) e mul0r.
Qed.

Lemma src_row_col2_ratio_ok n m G invG Dr Dc : (m < n.+1)%N -> inverse_of n.+1 G invG ->
  Dr 0%N m = Dc m 0%N -> invG m m = 0 -> forall only,
  det_of n.+1 (with_row_col m G (Dr 0%N) (fun i => Dc i 0%N))
  = (src_replace_row_col2 n.+1 invG Dr Dc m only).2 * det_of n.+1 G.
Proof. by move=> mn h hd z0 only; apply: rc_sing2_lambda => //; rewrite rc_corner. Qed.

End Proofs.
