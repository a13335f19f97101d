(* Proofs about FormulaModel. *)
From mathcomp Require Import all_ssreflect ssralg ssrint fingroup perm matrix mxalgebra zify.
From Verif Require Import Outcome SortModel SortSpec SortProofs MatLib BlockLib MatSpec FormulaModel.

Set Implicit Arguments.
Unset Strict Implicit.
Unset Printing Implicit Defensive.

Local Open Scope ring_scope.
Import GRing.Theory.

Section Proofs.
Variable F : fieldType.
Implicit Types (a b c d invA invG G A B C D Q R S : fmat F) (rows cols rs cs l : seq nat).

Lemma inverse_ofP n a b : inverse_of n a b <-> mxof n n a *m mxof n n b = 1%:M.
Proof.
split=> [h|/matrixP h i j il jl].
- apply/matrixP => i j; rewrite !mxE -(h i j) //.
  by apply: eq_bigr => k _; rewrite !mxE.
- have := h (Ordinal il) (Ordinal jl); rewrite !mxE => <-.
  by apply: eq_bigr => k _; rewrite !mxE.
Qed.

Lemma inverse_of_sym n a b : inverse_of n a b -> inverse_of n b a.
Proof. by move/inverse_ofP/mulmx1C/inverse_ofP. Qed.

Lemma inverse_of_ext n a a' b b' : feq n n a a' -> feq n n b b' ->
  inverse_of n a b -> inverse_of n a' b'.
Proof. by move=> /mxofE e1 /mxofE e2 /inverse_ofP h; apply/inverse_ofP; rewrite -e1 -e2. Qed.

Lemma det_ofE n a : det_of n a = fdet n a. Proof. by []. Qed.

Lemma fdet_ext n a b : feq n n a b -> fdet n a = fdet n b.
Proof. by rewrite /fdet => /mxofE ->. Qed.

Lemma inverse_of_det n a b : inverse_of n a b -> det_of n a * det_of n b = 1.
Proof. by move=> /inverse_ofP h; rewrite !det_ofE /fdet -det_mulmx h det1. Qed.

Lemma inverse_of_unit n a b : inverse_of n a b -> det_of n a != 0.
Proof. by move/inverse_of_det => h; apply/eqP => e; move: h; rewrite e mul0r => /esym/eqP; rewrite oner_eq0. Qed.

Lemma finv_ok n a : fdet n a != 0 -> mxof n n a *m mxof n n (finv n a) = 1%:M.
Proof. by move=> h; rewrite mxof_inv mulmxV // unitmxE unitfE. Qed.

Lemma finv_inverse n a : det_of n a != 0 -> inverse_of n a (finv n a).
Proof. by move=> h; apply/inverse_ofP; apply: finv_ok. Qed.

Lemma mxof_bordered n m a b c d :
  mxof (n + m) (n + m) (bordered n a b c d) =
  block_mx (mxof n n a) (mxof n m b) (mxof m n c) (mxof m m d).
Proof. exact: mxof_blocks. Qed.

(* ---- append ---- *)

Lemma bordered0 m a b c d : feq m m (bordered 0 a b c d) d.
Proof. by move=> i j il jl; rewrite /bordered !subn0. Qed.

Lemma det_ratio_up_ok N M A B C D invA : inverse_of N A invA ->
  det_of (N + M) (bordered N A B C D) = det_ratio_up N M B C D invA * det_of N A.
Proof.
move=> h; rewrite /det_ratio_up; case: (eqVneq N 0%N) h => [->|_] h.
  rewrite add0n !det_ofE (fdet_ext (@bordered0 M A B C D)) [fdet 0 A]/fdet det_mx00.
  by rewrite mulr1.
have /inverse_ofP h' := inverse_of_sym h.
rewrite !det_ofE /fdet mxof_bordered (det_schur _ _ _ h') mulrC.
by rewrite mxof_sub !mxof_mul.
Qed.

Lemma inverse_up_ok N M A B C D invA : (0 < M)%N -> inverse_of N A invA ->
  det_of (N + M) (bordered N A B C D) != 0 ->
  exists res r, [/\ inverse_matrix_up N M B C D invA = Ok ((N + M)%N, res, r),
    inverse_of (N + M) (bordered N A B C D) res &
    det_of (N + M) (bordered N A B C D) = r * det_of N A].
Proof.
move=> M0 h nz; rewrite /inverse_matrix_up (negbTE (lt0n_neq0 M0)).
have e := det_ratio_up_ok M B C D h.
have rnz : det_ratio_up N M B C D invA != 0.
  by apply/eqP => r0; move: nz; rewrite e r0 mul0r eqxx.
case: (eqVneq N 0%N) => [N0|N0].
  exists (finv M D), (fdet M D); rewrite {1}N0 add0n; split => //.
    rewrite N0 add0n; apply: inverse_of_ext (finv_inverse _).
    - exact/feq_sym/bordered0.
    - exact: feq_refl.
    - by move: rnz; rewrite /det_ratio_up N0.
  by rewrite e /det_ratio_up {1}N0 eqxx.
move: rnz e; rewrite /det_ratio_up (negbTE N0) => rnz e.
set H := finv M _; eexists; eexists; split; first by reflexivity.
- apply/inverse_ofP; rewrite mxof_bordered mxof_blocks.
  rewrite !mxof_sub !mxof_mul !mxof_opp !mxof_mul.
  apply: inv_up; first exact/inverse_ofP.
  by have := finv_ok rnz; rewrite mxof_sub !mxof_mul.
- rewrite e; congr (_ * _); rewrite /H /fdet mxof_inv det_inv div1r invrK //.
Qed.

(* ---- rearrangements ---- *)

Lemma sum_nth_perm n (f : nat -> F) cs : perm_eq cs (iota 0 n) ->
  \sum_(k < n) f (nth 0%N cs k) = \sum_(k < n) f k.
Proof.
move=> pe; have sz : size cs = n by rewrite (perm_size pe) size_iota.
rewrite -(big_mkord xpredT f) /index_iota subn0 -(perm_big _ pe) /=.
by rewrite (big_nth 0%N) big_mkord sz.
Qed.

Lemma nth_perm_lt n rs i : perm_eq rs (iota 0 n) -> (i < n)%N -> (nth 0%N rs i < n)%N.
Proof.
move=> pe il; have sz : size rs = n by rewrite (perm_size pe) size_iota.
have := mem_nth 0%N (_ : (i < size rs)%N); rewrite sz => /(_ il).
by rewrite (perm_mem pe) mem_iota.
Qed.

Lemma inverse_of_select n a b rs cs :
  perm_eq rs (iota 0 n) -> perm_eq cs (iota 0 n) -> inverse_of n a b ->
  inverse_of n (select a rs cs) (select b cs rs).
Proof.
move=> pr pc h i j il jl; rewrite /select.
rewrite (sum_nth_perm (fun k => a (nth 0%N rs i) k * b k (nth 0%N rs j)) pc).
rewrite h ?(nth_perm_lt pr) // nth_uniq //.
- by rewrite (perm_size pr) size_iota.
- by rewrite (perm_size pr) size_iota.
- by rewrite (perm_uniq pr) iota_uniq.
Qed.

Lemma fdet_select n a rs cs : perm_eq rs (iota 0 n) -> perm_eq cs (iota 0 n) ->
  det_of n (select a rs cs) = fsign F rs * fsign F cs * det_of n a.
Proof. exact: fdet_sel. Qed.

Lemma others_perm n rows : uniq rows -> all (fun p => p < n)%N rows ->
  perm_eq (others n rows ++ rows) (iota 0 n).
Proof.
move=> u /allP lt; apply: uniq_perm; rewrite ?iota_uniq //.
- rewrite cat_uniq filter_uniq ?iota_uniq //= u andbT.
  by apply/hasPn => x xr /=; rewrite mem_filter xr.
- move=> x; rewrite mem_cat mem_filter mem_iota /= add0n.
  by case xr: (x \in rows) => /=; rewrite ?orbF // lt.
Qed.

Lemma size_le n rows : uniq rows -> all (fun p => p < n)%N rows -> (size rows <= n)%N.
Proof.
by move=> u lt; have := perm_size (others_perm u lt); rewrite size_cat size_iota => <-; rewrite leq_addl.
Qed.

Lemma size_others n rows : uniq rows -> all (fun p => p < n)%N rows ->
  size (others n rows) = (n - size rows)%N.
Proof.
move=> u lt; have h : (size (others n rows) + size rows = n)%N.
  by have := perm_size (others_perm u lt); rewrite size_cat size_iota.
lia.
Qed.

Lemma count_lt_iota r n : (r < n)%N -> count (fun x => r < x)%N (iota 0 n) = (n - 1 - r)%N.
Proof.
move=> rn; have -> : n = (r.+1 + (n - 1 - r))%N by lia.
rewrite iotaD count_cat add0n.
rewrite (@eq_in_count _ _ pred0 (iota 0 r.+1)); last first.
  by move=> x; rewrite mem_iota /=; lia.
rewrite count_pred0 (@eq_in_count _ _ predT (iota r.+1 _)); last first.
  by move=> x; rewrite mem_iota /=; lia.
by rewrite count_predT size_iota; lia.
Qed.

Lemma sorted_nth_lt rows p q : sorted ltn rows -> (p < size rows)%N -> (q < size rows)%N ->
  (nth 0%N rows p < nth 0%N rows q)%N = (p < q)%N.
Proof.
move=> so pl ql; have inc u v : (u < size rows)%N -> (v < size rows)%N -> (u < v)%N ->
    (nth 0%N rows u < nth 0%N rows v)%N.
  by move=> ul vl; apply: (sorted_ltn_nth ltn_trans).
case: (ltngtP p q) => [pq|qp|->]; last by rewrite ltnn.
- exact: inc.
- by have := inc _ _ ql pl qp; lia.
Qed.

Lemma count_lt_sorted rows j : sorted ltn rows -> (j < size rows)%N ->
  count (fun x => nth 0%N rows j < x)%N rows = (size rows - 1 - j)%N.
Proof.
move=> so jl; rewrite -{2}(mkseq_nth 0%N rows) /mkseq count_map.
rewrite -(count_lt_iota jl); apply: eq_in_count => k /=.
by rewrite mem_iota add0n /= => kl; rewrite sorted_nth_lt.
Qed.

Lemma sorted_ltn_uniq (rows : seq nat) : sorted ltn rows -> uniq rows.
Proof. by apply: sorted_uniq => [|x]; [exact: ltn_trans | exact: ltnn]. Qed.

(* position of the j-th removed index: at most n - M + j *)
Lemma sorted_nth_bound n rows j : sorted ltn rows -> all (fun p => p < n)%N rows ->
  (j < size rows)%N -> (nth 0%N rows j + (size rows - 1 - j) < n)%N.
Proof.
move=> so lt jl; have u := sorted_ltn_uniq so.
have pe := others_perm u lt.
have rn : (nth 0%N rows j < n)%N by move/allP: lt => /(_ _ (mem_nth 0%N jl)).
have h : (count (fun x => nth 0%N rows j < x) (others n rows) + (size rows - 1 - j)
          = n - 1 - nth 0%N rows j)%N.
  have := seq.permP pe (fun x => nth 0%N rows j < x)%N.
  by rewrite count_cat count_lt_sorted // count_lt_iota.
lia.
Qed.

Lemma count_others_lt n rows j : sorted ltn rows -> all (fun p => p < n)%N rows ->
  (j < size rows)%N ->
  count (fun x => nth 0%N rows j < x)%N (others n rows)
    = (n - size rows + j - nth 0%N rows j)%N.
Proof.
move=> so lt jl; have u := sorted_ltn_uniq so.
have rn : (nth 0%N rows j < n)%N by move/allP: lt => /(_ _ (mem_nth 0%N jl)).
have := sorted_nth_bound so lt jl; have := size_le u lt.
have h : (count (fun x => nth 0%N rows j < x) (others n rows) + (size rows - 1 - j)
          = n - 1 - nth 0%N rows j)%N.
  have := seq.permP (others_perm u lt) (fun x => nth 0%N rows j < x)%N.
  by rewrite count_cat count_lt_sorted // count_lt_iota.
lia.
Qed.

(* parity of the order (kept positions, removed positions) *)
Lemma inversions_others n rows : sorted ltn rows -> all (fun p => p < n)%N rows ->
  inversions ltn (others n rows ++ rows)
    = (\sum_(j < size rows) (n - size rows + j - nth 0%N rows j))%N.
Proof.
move=> so lt; case: ltn_strict_total => irr tr _.
rewrite inversions_cat !(inversions_sorted irr tr) //; last first.
  by apply: sorted_filter; [exact: ltn_trans | exact: iota_ltn_sorted].
rewrite !add0n /crossinv.
transitivity (\sum_(y <- rows) count (fun x => (y < x)%N) (others n rows))%N.
  elim: (others n rows) => [|x o IH]; first by rewrite big_nil /= big1.
  rewrite big_cons IH /= big_split /=; congr addn.
  by rewrite -sum1_count big_mkcond.
rewrite (big_nth 0%N) big_mkord; apply: eq_bigr => j _.
by rewrite count_others_lt.
Qed.

Lemma odd_sum n (f : 'I_n -> nat) :
  odd (\sum_(j < n) f j)%N = \big[addb/false]_(j < n) odd (f j).
Proof. exact: (big_morph odd oddD erefl). Qed.

Lemma fsign_others n rows cols :
  sorted ltn rows -> all (fun p => p < n)%N rows ->
  sorted ltn cols -> all (fun p => p < n)%N cols -> size rows = size cols ->
  fsign F (others n rows ++ rows) * fsign F (others n cols ++ cols) =
  (-1) ^+ odd (\sum_(j < size rows) absdiff (nth 0%N rows j) (nth 0%N cols j))%N.
Proof.
move=> sr lr sc lc sz; rewrite /fsign -exprD -signr_odd; congr (_ ^+ _); congr nat_of_bool.
rewrite !inversions_others // -sz -big_split /= !odd_sum; apply: eq_bigr => j _ /=.
have := sorted_nth_bound sr lr (ltn_ord j).
have jl : (j < size cols)%N by rewrite -sz.
have := sorted_nth_bound sc lc jl; rewrite /absdiff -sz.
move: (nth 0%N rows j) (nth 0%N cols j) => r c h1 h2.
by apply/idP/idP; lia.
Qed.

Lemma mxof_split4 n m a : mxof (n + m) (n + m) a =
  block_mx (mxof n n a) (mxof n m (fblock 0 n a)) (mxof m n (fblock n 0 a))
           (mxof m m (fblock n n a)).
Proof. exact: mxof_split. Qed.

Lemma det_ratio_down_last_ok NpM M G invG : (M <= NpM)%N -> inverse_of NpM G invG ->
  det_of (NpM - M) G = det_ratio_down_last NpM M invG * det_of NpM G.
Proof.
move=> le; rewrite /det_ratio_down_last; move: (NpM - M)%N (subnK le) => N <- {le NpM}.
move=> /inverse_ofP; rewrite !mxof_split4 => /det_compl.
by rewrite -mxof_split4 mulrC.
Qed.

Lemma det_ratio_down_ok n M rows cols G invG :
  sorted ltn rows -> all (fun p => p < n)%N rows -> size rows = M ->
  sorted ltn cols -> all (fun p => p < n)%N cols -> size cols = M ->
  inverse_of n G invG ->
  det_of (n - M) (select G (others n rows) (others n cols))
    = det_ratio_down M rows cols invG * det_of n G.
Proof.
move=> sr lr zr sc lc zc h.
have ur := sorted_ltn_uniq sr; have uc := sorted_ltn_uniq sc.
have pr := others_perm ur lr; have pc := others_perm uc lc.
have zo := size_others ur lr; have zo' := size_others uc lc.
rewrite zr in zo; rewrite zc in zo'.
have Mn : (M <= n)%N.
  by have := perm_size pr; rewrite size_cat size_iota zr zo; lia.
have := det_ratio_down_last_ok Mn (inverse_of_select pr pc h).
rewrite (fdet_select _ pr pc) fsign_others // ?zr ?zc // => e.
transitivity (det_of (n - M) (select G (others n rows ++ rows) (others n cols ++ cols))).
  apply: fdet_ext => i j il jl.
  by rewrite /select !nth_cat zo zo' il jl.
rewrite e /det_ratio_down /det_ratio_down_last.
have -> : fdet M (fblock (n - M) (n - M) (select invG (others n cols ++ cols) (others n rows ++ rows)))
   = fdet M (fun i j => invG (nth 0%N cols i) (nth 0%N rows j)).
  apply: fdet_ext => i j il jl; rewrite /select /fblock !nth_cat zo zo'.
  by rewrite !ltnNge !leq_addr /= !addKn.
by case: (odd _); rewrite /= ?expr1 ?expr0 ?mul1r // mulN1r mulrN mulNr.
Qed.

Lemma downdate_ok N M G invG : inverse_of (N + M) G invG -> det_of N G != 0 ->
  inverse_of N G (downdate N M invG).
Proof.
move=> h nz; rewrite /downdate; case: posnP => [-> i j //|N0].
have := h; move=> /inverse_ofP; rewrite !mxof_split4 => h'.
have := det_ratio_down_last_ok (leq_addl N M) h; rewrite /det_ratio_down_last addnK => e.
have hnz : fdet M (fblock N N invG) != 0.
  by apply/eqP => z; move: nz; rewrite e z mul0r eqxx.
have := inv_down h' (finv_ok hnz) => ok.
by apply/inverse_ofP; rewrite mxof_sub !mxof_mul.
Qed.

(* ---- exchanging positions ---- *)

Lemma size_exchange l p q : size (exchange l p q) = size l.
Proof. by rewrite size_map size_iota. Qed.

Lemma nth_exchange l p q i : (i < size l)%N ->
  nth 0%N (exchange l p q) i = nth 0%N l (swapi p q i).
Proof. by move=> il; rewrite (nth_map 0%N) ?size_iota // nth_iota. Qed.

Lemma swapi_lt n p q i : (p < n)%N -> (q < n)%N -> (i < n)%N -> (swapi p q i < n)%N.
Proof. by move=> pn qn iln; rewrite /swapi; case: eqP => // _; case: eqP. Qed.

Lemma swapiK p q i : swapi p q (swapi p q i) = i.
Proof.
rewrite /swapi; case: (eqVneq i p) => [->|ip].
  by rewrite eqxx; case: eqP => // ->.
by case: (eqVneq i q) => [->|iq]; rewrite ?eqxx // (negbTE ip) (negbTE iq).
Qed.

Lemma swapi_eq p q i j : (swapi p q i == swapi p q j) = (i == j).
Proof. by apply/eqP/eqP => [/(congr1 (swapi p q))|->] //; rewrite !swapiK. Qed.

Lemma exchange_perm l n p q : perm_eq l (iota 0 n) -> (p < n)%N -> (q < n)%N ->
  perm_eq (exchange l p q) (iota 0 n).
Proof.
move=> pe pn qn; have sz : size l = n by rewrite (perm_size pe) size_iota.
have ul : uniq l by rewrite (perm_uniq pe) iota_uniq.
have ue : uniq (exchange l p q).
  apply/(uniqP 0%N) => i j; rewrite !inE size_exchange sz => il jl.
  rewrite !nth_exchange ?sz // => /eqP; rewrite nth_uniq ?sz ?swapi_lt // swapi_eq => /eqP.
  by [].
apply: uniq_perm => //; first exact: iota_uniq.
have sub : {subset exchange l p q <= iota 0 n}.
  move=> x /(nthP 0%N) [i]; rewrite size_exchange sz => il <-.
  by rewrite nth_exchange ?sz // -(perm_mem pe) mem_nth // sz swapi_lt.
have [//|_ h] := uniq_min_size ue sub; last by move=> x; rewrite h.
by rewrite size_exchange sz size_iota.
Qed.

Lemma exchange_rows n G rs cs b p q : perm_eq rs (iota 0 n) -> (p < n)%N -> (q < n)%N ->
  inverse_of n (select G rs cs) b ->
  inverse_of n (select G (exchange rs p q) cs) (fswap_col p q b).
Proof.
move=> pe pn qn h i j il jl; have sz : size rs = n by rewrite (perm_size pe) size_iota.
have := h (swapi p q i) (swapi p q j) (swapi_lt pn qn il) (swapi_lt pn qn jl).
rewrite swapi_eq => <-; apply: eq_bigr => k _.
by rewrite /select nth_exchange ?sz.
Qed.

Lemma exchange_cols n G rs cs b p q : perm_eq cs (iota 0 n) -> (p < n)%N -> (q < n)%N ->
  inverse_of n (select G rs cs) b ->
  inverse_of n (select G rs (exchange cs p q)) (fswap_row p q b).
Proof.
move=> pe pn qn /inverse_of_sym h; apply: inverse_of_sym => i j il jl.
have sz : size cs = n by rewrite (perm_size pe) size_iota.
have := h (swapi p q i) (swapi p q j) (swapi_lt pn qn il) (swapi_lt pn qn jl).
rewrite swapi_eq => <-; apply: eq_bigr => k _.
by rewrite /select nth_exchange ?sz.
Qed.

Definition to_end (n : nat) (l : seq nat) (k : nat) : seq nat :=
  exchange_all (iota 0 n) [seq (nth 0%N l (size l - 1 - k)%N, (n - 1 - k)%N) | k <- iota 0 k].

Lemma iotaS0 n : iota 0 n.+1 = iota 0 n ++ [:: n].
Proof. by rewrite -addn1 iotaD. Qed.

Lemma to_endS n l k :
  to_end n l k.+1 = exchange (to_end n l k) (nth 0%N l (size l - 1 - k)) (n - 1 - k).
Proof. by rewrite /to_end iotaS0 map_cat /exchange_all foldl_cat. Qed.

Lemma to_end_all n l : exchange_all (iota 0 n) (exchanges_to_end n l) = to_end n l (size l).
Proof. by []. Qed.

Lemma to_end_perm n l k : all (fun p => p < n)%N l -> (k <= size l)%N ->
  perm_eq (to_end n l k) (iota 0 n).
Proof.
move=> /allP lt; elim: k => [|k IH] kl; first exact: perm_refl.
have jl : (size l - 1 - k < size l)%N by lia.
have pn : (nth 0%N l (size l - 1 - k) < n)%N by apply/lt/mem_nth.
by rewrite to_endS; apply: exchange_perm => //; [apply: IH; lia | lia].
Qed.

Lemma move_to_end_ok n M rows cols G invG :
  all (fun p => p < n)%N rows -> size rows = M ->
  all (fun p => p < n)%N cols -> size cols = M ->
  inverse_of n G invG ->
  inverse_of n (select G (to_end n rows M) (to_end n cols M)) (move_to_end n M rows cols invG).
Proof.
move=> lr zr lc zc h; rewrite /move_to_end.
suff : forall k, (k <= M)%N -> inverse_of n (select G (to_end n rows k) (to_end n cols k))
    (foldl (fun a idel =>
    fswap_row (nth 0%N cols (M - 1 - idel)) (n - 1 - idel)
      (fswap_col (nth 0%N rows (M - 1 - idel)) (n - 1 - idel) a)) invG (iota 0 k)).
  by apply.
elim=> [|k IH] kM.
  apply: inverse_of_ext h; last exact: feq_refl.
  by move=> i j il jl; rewrite /select /to_end /= !nth_iota.
have kM' : (k <= M)%N by lia.
rewrite iotaS0 foldl_cat /= !to_endS zr zc.
have jr : (M - 1 - k < size rows)%N by lia.
have jc : (M - 1 - k < size cols)%N by lia.
have pr : (nth 0%N rows (M - 1 - k) < n)%N by move/allP: lr; apply; apply: mem_nth.
have pc : (nth 0%N cols (M - 1 - k) < n)%N by move/allP: lc; apply; apply: mem_nth.
apply: exchange_cols => //; [apply: to_end_perm; rewrite ?zc // | lia |].
by apply: exchange_rows => //; [apply: to_end_perm; rewrite ?zr // | lia | exact: IH].
Qed.

Lemma inverse_down_ok n M rows cols G invG :
  (0 < M)%N -> sorted ltn rows -> all (fun p => p < n)%N rows -> size rows = M ->
  sorted ltn cols -> all (fun p => p < n)%N cols -> size cols = M ->
  inverse_of n G invG ->
  let rs := take (n - M) (exchange_all (iota 0 n) (exchanges_to_end n rows)) in
  let cs := take (n - M) (exchange_all (iota 0 n) (exchanges_to_end n cols)) in
  det_of (n - M) (select G rs cs) != 0 ->
  exists res, inverse_matrix_down n M rows cols invG = Ok ((n - M)%N, res) /\
    inverse_of (n - M) (select G rs cs) res.
Proof.
move=> M0 sr lr zr sc lc zc h rs cs nz.
have Mn : (M <= n)%N by rewrite -zr; apply: size_le => //; apply: sorted_ltn_uniq.
rewrite /inverse_matrix_down ltnNge Mn (negbTE (lt0n_neq0 M0)) /= zr zc ltnn /=.
rewrite -{1}zr -{1}zc !take_size lr lc /=.
eexists; split; first by reflexivity.
have ex : feq (n - M) (n - M) (select G (to_end n rows M) (to_end n cols M)) (select G rs cs).
  by move=> i j il jl; rewrite /select /rs /cs !to_end_all zr zc !nth_take.
apply: (inverse_of_ext ex (feq_refl _)); apply: downdate_ok.
  by rewrite subnK //; apply: move_to_end_ok.
by rewrite det_ofE (fdet_ext ex).
Qed.

(* the remaining positions after the exchanges are the positions not listed *)
Lemma to_end_drop n rows k : sorted ltn rows -> all (fun p => p < n)%N rows ->
  (k <= size rows)%N ->
  [/\ size (to_end n rows k) = n,
      forall p, (n - k <= p < n)%N ->
        nth 0%N (to_end n rows k) p = nth 0%N rows (size rows - (n - p)) &
      forall p, (p < n - k)%N -> p \notin drop (size rows - k) rows ->
        nth 0%N (to_end n rows k) p = p].
Proof.
move=> so lt; have u := sorted_ltn_uniq so; have le := size_le u lt.
elim: k => [|k IH] kl.
  split=> [|p|p pn _]; rewrite /to_end /= ?size_iota //; first lia.
  by rewrite nth_iota //; lia.
have [sz h1 h2] := IH (ltnW kl); rewrite to_endS size_exchange sz.
set r := nth 0%N rows _; set q := (n - 1 - k)%N.
have jl : (size rows - 1 - k < size rows)%N by lia.
have := sorted_nth_bound so lt jl; rewrite -/r => rb.
have nr : nth 0%N (to_end n rows k) r = r.
  apply: h2; first lia.
  apply/negP => /(nthP 0%N) [i]; rewrite size_drop nth_drop => il.
  move/eqP; rewrite /r nth_uniq //; lia.
split=> // p pl.
- rewrite nth_exchange ?sz; last by lia.
  rewrite /swapi; case: eqP => [pr|pr].
    have pq : p = q by rewrite /q; lia.
    by rewrite -pq pr nr /r; congr (nth _ _ _); lia.
  case: eqP => [pq|pq]; first by rewrite nr /r; congr (nth _ _ _); lia.
  by apply: h1; rewrite /q in pq; lia.
- move=> pnot; rewrite nth_exchange ?sz; last by lia.
  have pr : p != r.
    apply: contraNneq pnot => ->.
    by rewrite (drop_nth 0%N) ?inE; [rewrite /r; apply/orP; left; apply/eqP; congr (nth _ _ _); lia | lia].
  have pq : p != q by rewrite /q; lia.
  rewrite /swapi (negbTE pr) (negbTE pq); apply: h2; first lia.
  apply: contra pnot => pin; rewrite (drop_nth 0%N) ?inE; last lia.
  have -> : (size rows - k.+1).+1 = (size rows - k)%N by lia.
  by rewrite pin orbT.
Qed.

Lemma exchanges_to_end_ok n rows : sorted ltn rows -> all (fun p => p < n)%N rows ->
  let l := exchange_all (iota 0 n) (exchanges_to_end n rows) in
  [/\ perm_eq l (iota 0 n), drop (n - size rows) l = rows &
      perm_eq (take (n - size rows) l) (others n rows)].
Proof.
move=> so lt l; have u := sorted_ltn_uniq so; have le := size_le u lt.
have [sz h1 _] := to_end_drop so lt (leqnn _).
have pe := to_end_perm lt (leqnn (size rows)).
have e2 : drop (n - size rows) l = rows.
  apply: (@eq_from_nth _ 0%N) => [|i]; rewrite size_drop /l to_end_all sz; first lia.
  move=> il; rewrite nth_drop h1; last lia.
  by congr (nth _ _ _); lia.
split=> //.
have := others_perm u lt; rewrite perm_sym => /(perm_trans pe).
rewrite -(cat_take_drop (n - size rows) (to_end n rows (size rows))) -/l -to_end_all -/l e2.
by rewrite perm_cat2r.
Qed.

(* ---- ReplaceHelper ---- *)

Lemma replace_ok N M Mo G invG Q R S : inverse_of (N + Mo) G invG ->
  det_of N G != 0 ->
  let G' := bordered N G Q R S in
  let rw := replace_det_ratio N M Mo Q R S invG in
  det_of (N + M) G' = rw.1 * det_of (N + Mo) G /\
  (rw.1 != 0 -> exists res, replace_inverse_matrix N M Q R S rw.2 = Ok ((N + M)%N, res) /\
     inverse_of (N + M) G' res).
Proof.
move=> h nz G'; rewrite /replace_det_ratio /replace_inverse_matrix.
case: (eqVneq N 0%N) => [N0|] /=; last rewrite -lt0n => N0.
  have e : feq M M S G' by rewrite /G' N0; apply/feq_sym/bordered0.
  rewrite N0 !add0n; split.
    have := inverse_of_det h; rewrite N0 add0n !det_ofE -(fdet_ext e) => d.
    by rewrite -mulrA [_ * fdet Mo G]mulrC d mulr1.
  move=> r0; exists (finv M S); split => //.
  apply: (inverse_of_ext e (feq_refl _)); apply: finv_inverse.
  by apply: contraNneq r0; rewrite det_ofE => ->; rewrite mul0r.
have := det_ratio_down_last_ok (leq_addl N Mo) h; rewrite /det_ratio_down_last addnK => e.
have tnz : fdet Mo (fblock N N invG) != 0.
  by apply/eqP => z; move: nz; rewrite e z mul0r eqxx.
rewrite (negbTE tnz); set Mm := (if _ then _ else _).
have hM : inverse_of N G Mm.
  rewrite /Mm; have := downdate_ok h nz; rewrite /downdate N0.
  case: posnP => // Mo0; apply: inverse_of_ext; first exact: feq_refl.
  by move=> i j il jl; rewrite Mo0 /fsub /fmul big_ord0 subr0.
have dG : det_of (N + M) G' = det_of N G * fdet M (fsub S (fmul N R (fmul N Mm Q))).
  rewrite det_ofE /fdet mxof_bordered.
  have /inverse_ofP hs := inverse_of_sym hM.
  by rewrite (det_schur _ _ _ hs) mxof_sub !mxof_mul mulmxA.
split=> /=.
  by rewrite dG e -!mulrA; congr (_ * _); rewrite mulrC.
move=> rnz; have snz : fdet M (fsub S (fmul N R (fmul N Mm Q))) != 0.
  by apply: contraNneq rnz => ->; rewrite mulr0.
case: posnP => [M0|M0].
  exists Mm; rewrite M0 addn0; split => //.
  apply: inverse_of_ext hM; last exact: feq_refl.
  by move=> i j il jl; rewrite /G' /bordered il jl.
eexists; split; first by reflexivity.
apply/inverse_ofP; rewrite mxof_bordered mxof_blocks.
rewrite !(mxof_sub, mxof_mul, mxof_opp).
have /inverse_ofP hM' := hM.
have := finv_ok snz; rewrite mxof_sub !mxof_mul mulmxA => hf.
have := inv_up hM' hf.
by rewrite !(mulNmx, mulmxN) -!mulmxA.
Qed.

(* ---- last row and column ---- *)

Lemma det_last_row N (v : nat -> F) : (0 < N)%N ->
  det_of N (with_last_row N (fun i j => (i == j)%:R) v) = v (N - 1)%N.
Proof.
case: N => [//|n] _; rewrite subn1 /= -{1}addn1 det_ofE /fdet mxof_split4.
have -> : mxof n 1 (fblock 0 n (with_last_row n.+1 (fun i j => (i == j)%:R) v)) = 0.
  apply/matrixP => i j; rewrite !mxE /fblock /with_last_row subn1 /= add0n.
  have il := ltn_ord i; rewrite (negbTE (_ : (i : nat) != n)); last by lia.
  by rewrite (negbTE (_ : (i : nat) != (n + j)%N)) //; lia.
have -> : mxof n n (with_last_row n.+1 (fun i j => (i == j)%:R) v) = 1%:M.
  apply/matrixP => i j; rewrite !mxE /with_last_row subn1 /=.
  by have il := ltn_ord i; rewrite (negbTE (_ : (i : nat) != n)) //; lia.
by rewrite det_lblock det1 mul1r det_mx11 !mxE /fblock /with_last_row subn1 /= addn0 eqxx.
Qed.

Lemma with_last_row_mul N G invG (r : nat -> F) : (0 < N)%N -> inverse_of N G invG ->
  forall i j, (i < N)%N -> (j < N)%N ->
  \sum_(k < N) with_last_row N G r i k * invG k j =
  with_last_row N (fun i j => (i == j)%:R) (fun j => \sum_(k < N) r k * invG k j) i j.
Proof.
move=> N0 h i j il jl; rewrite /with_last_row; case: eqP => // ni.
exact: h.
Qed.

Lemma last_row_ratio_ok N G invG (row : fmat F) : (0 < N)%N -> inverse_of N G invG ->
  det_of N (with_last_row N G (row 0%N)) = det_ratio_last_row N invG row * det_of N G.
Proof.
move=> N0 h; have d := inverse_of_det h.
have e : mxof N N (with_last_row N G (row 0%N)) *m mxof N N invG =
  mxof N N (with_last_row N (fun i j => (i == j)%:R) (fun j => \sum_(k < N) row 0%N k * invG k j)).
  apply/matrixP => i j; rewrite !mxE -(with_last_row_mul _ N0 h) //.
  by apply: eq_bigr => k _; rewrite !mxE.
have := congr1 determinant e; rewrite det_mulmx => e'.
have {}e' := etrans e' (det_last_row (fun j => \sum_(k < N) row 0%N k * invG k j) N0).
rewrite /det_ratio_last_row /fmul -e' -mulrA.
by rewrite -/(fdet N invG) [fdet N invG * _]mulrC d mulr1.
Qed.

Lemma last_row_inverse_ok N G invG (row : fmat F) : (0 < N)%N -> inverse_of N G invG ->
  let d := det_ratio_last_row N invG row in
  d != 0 -> inverse_of N (with_last_row N G (row 0%N)) (inverse_last_row N invG row d).
Proof.
move=> N0 h d dnz i j il jl.
pose v (m : nat) : F := \sum_(k < N) row 0%N k * invG k m.
have dv : d = v (N - 1)%N by [].
pose w (m : nat) : F := (v m - (m == N - 1)%N%:R) / d.
have -> : \sum_(k < N) with_last_row N G (row 0%N) i k * inverse_last_row N invG row d k j =
   \sum_(k < N) with_last_row N G (row 0%N) i k * invG k j -
   (\sum_(k < N) with_last_row N G (row 0%N) i k * invG k (N - 1)%N) * w j.
  rewrite big_distrl -sumrB; apply: eq_bigr => k _ /=.
  rewrite -mulrA -mulrBr; congr (_ * _); rewrite /inverse_last_row /w.
  case: eqP => [->|_].
    by rewrite -dv mulrBl divff // mulrBr mulr1 div1r opprB addrC subrK.
  by rewrite subr0 -/(v j) div1r mulrA.
rewrite !(with_last_row_mul _ N0 h) //; last by lia.
rewrite /with_last_row -/(v j) -/(v (N - 1)%N) -dv.
case: (eqVneq i (N - 1)%N) => [->|ni].
  by rewrite /w mulrCA divff // mulr1 opprB addrC subrK eq_sym.
by rewrite mul0r subr0.
Qed.

Definition ftr (a : fmat F) : fmat F := fun i j => a j i.

Lemma inverse_of_tr n a b : inverse_of n a b -> inverse_of n (ftr a) (ftr b).
Proof.
move=> h; have h' := inverse_of_sym h => i j il jl.
rewrite eq_sym -(h' j i) //.
by apply: eq_bigr => k _; rewrite mulrC.
Qed.

Lemma det_of_tr n a : det_of n (ftr a) = det_of n a.
Proof. by rewrite /det_of -det_tr; congr determinant; apply/matrixP => i j; rewrite !mxE. Qed.

Lemma ratio_col_row N invG (col : fmat F) :
  det_ratio_last_col N invG col = det_ratio_last_row N (ftr invG) (ftr col).
Proof. by apply: eq_bigr => k _; rewrite mulrC. Qed.

Lemma last_col_ratio_ok N G invG (col : fmat F) : (0 < N)%N -> inverse_of N G invG ->
  det_of N (with_last_col N G (fun i => col i 0%N)) = det_ratio_last_col N invG col * det_of N G.
Proof.
move=> N0 /inverse_of_tr h; rewrite ratio_col_row -(det_of_tr N G) -(last_row_ratio_ok _ N0 h).
by rewrite -det_of_tr.
Qed.

Lemma last_col_inverse_ok N G invG (col : fmat F) : (0 < N)%N -> inverse_of N G invG ->
  let d := det_ratio_last_col N invG col in
  d != 0 -> inverse_of N (with_last_col N G (fun i => col i 0%N)) (inverse_last_col N invG col d).
Proof.
move=> N0 /inverse_of_tr h; rewrite /= ratio_col_row => dnz.
have := inverse_of_tr (last_row_inverse_ok N0 h dnz).
apply: inverse_of_ext; first exact: feq_refl.
move=> i j il jl; rewrite /ftr /inverse_last_row /inverse_last_col.
case: eqP => // _; congr (_ - _ * _ * _).
by apply: eq_bigr => k _; rewrite mulrC.
Qed.

End Proofs.
