(* Linear algebra behind the submatrix update. *)
From mathcomp Require Import all_ssreflect ssralg matrix ring zify.
From Verif Require Import MatLib MatSpec BlockLib FormulaProofs SrcFormulaProofs.

Set Implicit Arguments.
Unset Strict Implicit.
Unset Printing Implicit Defensive.

Import GRing.Theory.
Local Open Scope ring_scope.

Section SubMath.
Variable F : fieldType.

(* A = F - G (F - 1) for a diagonal matrix F = diag f *)
Definition amat (G : fmat F) (f : nat -> F) : fmat F := fun i j =>
  - G i j * (f j - 1) + (if i == j then f j else 0).

Lemma amat_ext n (G G' : fmat F) f f' : feq n n G G' -> (forall i, (i < n)%N -> f i = f' i) ->
  feq n n (amat G f) (amat G' f').
Proof. by move=> h hf i j il jl; rewrite /amat h // hf. Qed.

Lemma tG_fast n (G B : fmat F) f i j : inverse_of n (amat G f) B -> (i < n)%N -> (j < n)%N ->
  f j != 1 -> fmul n B G i j = (f j * B i j - (i == j)%:R) / (f j - 1).
Proof.
move=> h il jl fj; have fz : f j - 1 != 0 by rewrite subr_eq0.
have := inverse_of_sym h il jl.
have -> : \sum_(k < n) B i k * amat G f k j = - (f j - 1) * fmul n B G i j + f j * B i j.
  rewrite /amat /fmul mulr_sumr -[f j * B i j](_ : \sum_(k < n) (if val k == j then f j * B i k else 0) = _).
    rewrite -big_split /=; apply: eq_bigr => k _; case: eqP => _; ring.
  rewrite (bigD1 (Ordinal jl)) //= eqxx big1 ?addr0 // => k /eqP nk.
  by case: eqP => // e; case: nk; apply: val_inj.
by move=> <-; apply: (mulIf fz); rewrite mulfVK //; ring.
Qed.

Section Change.
Variables (n m : nat) (G A0i T : fmat F) (f0 f1 : nat -> F) (ps : seq nat).
Hypothesis (hinv : inverse_of n (amat G f0) A0i) (hT : feq n n T (fmul n A0i G)).
Hypothesis (ups : uniq ps) (lps : all (fun p => p < n)%N ps) (sps : size ps = m).
Hypothesis (same : forall i, (i < n)%N -> i \notin ps -> f1 i = f0 i).
Hypothesis (nz : forall p, p \in ps -> f0 p != 0).
Hypothesis (df : forall p, p \in ps -> f1 p != f0 p).

Let gam (p : nat) : F := (f1 p - f0 p) / f0 p.
Let Gam : fmat F := fun k l => T (nth 0%N ps k) (nth 0%N ps l)
  - (if k == l then (1 + gam (nth 0%N ps k)) / gam (nth 0%N ps k) else 0).
Let S : 'M[F]_(n, m) := \matrix_(i, k) (val i == nth 0%N ps k)%:R.
Let X := mxof n n (amat G f0).
Let Y := mxof n n A0i.
Let g := mxof n n G.
Let t := mxof n n T.
Let d1 : 'M[F]_m := diag_mx (\row_k gam (nth 0%N ps k)).
Let e1 : 'M[F]_m := diag_mx (\row_k ((1 + gam (nth 0%N ps k)) / gam (nth 0%N ps k))).

Lemma ch_ps k : (k < m)%N -> (nth 0%N ps k \in ps) /\ (nth 0%N ps k < n)%N.
Proof.
move=> km; have h : nth 0%N ps k \in ps by rewrite mem_nth ?sps.
by split=> //; apply: (allP lps).
Qed.

Lemma ch_gam p : p \in ps -> gam p != 0.
Proof. by move=> pp; rewrite mulf_neq0 ?invr_eq0 ?nz // subr_eq0 df. Qed.

Lemma ch_XY : X *m Y = 1%:M. Proof. by apply/inverse_ofP. Qed.
Lemma ch_YX : Y *m X = 1%:M. Proof. exact: mulmx1C ch_XY. Qed.
Lemma ch_t : t = Y *m g. Proof. by rewrite -mxof_mul; apply/mxofE. Qed.

Lemma ch_StS : S^T *m S = 1%:M.
Proof.
apply/matrixP => k l; rewrite !mxE.
have [_ kn] := ch_ps (ltn_ord k).
rewrite (bigD1 (Ordinal kn)) //= !mxE /= eqxx mul1r big1 ?addr0 => [|i ik].
  by rewrite nth_uniq ?sps.
by rewrite !mxE; case: eqP => e; rewrite ?mul0r //; case/eqP: ik; apply: val_inj.
Qed.

Lemma ch_StM q (M : 'M[F]_(n, q)) k j (kn : (nth 0%N ps k < n)%N) (km : (k < m)%N) :
  (S^T *m M) (Ordinal km) j = M (Ordinal kn) j.
Proof.
rewrite mxE (bigD1 (Ordinal kn)) //= !mxE /= eqxx mul1r big1 ?addr0 // => i ik.
by rewrite !mxE; case: eqP => e; rewrite ?mul0r //; case/eqP: ik; apply: val_inj.
Qed.

Lemma ch_MS q (M : 'M[F]_(q, n)) k j (kn : (nth 0%N ps k < n)%N) (km : (k < m)%N) :
  (M *m S) j (Ordinal km) = M j (Ordinal kn).
Proof.
rewrite mxE (bigD1 (Ordinal kn)) //= !mxE /= eqxx mulr1 big1 ?addr0 // => i ik.
by rewrite !mxE; case: eqP => e; rewrite ?mulr0 //; case/eqP: ik; apply: val_inj.
Qed.

Lemma ch_StMS (a : fmat F) : S^T *m mxof n n a *m S = mxof m m (fun k l => a (nth 0%N ps k) (nth 0%N ps l)).
Proof.
apply/matrixP => [[k km] [l lm]].
have [_ kn] := ch_ps km; have [_ ln] := ch_ps lm.
by rewrite (ch_MS _ _ ln) (ch_StM _ _ kn) !mxE.
Qed.

(* the diagonal matrix gamma on the whole space *)
Lemma ch_diag (h : nat -> F) :
  S *m diag_mx (\row_k h (nth 0%N ps k)) *m S^T =
  diag_mx (\row_(i < n) (if val i \in ps then h i else 0)).
Proof.
apply/matrixP => i j; rewrite !mxE.
under eq_bigr => k _ do rewrite mul_mx_diag !mxE.
case: (boolP (val i \in ps)) => ip; last first.
  rewrite mul0rn big1 // => k _; case: eqP => [e|_]; last by rewrite !mul0r.
  by have [] := ch_ps (ltn_ord k); rewrite -e (negbTE ip).
have kl : (index (val i) ps < m)%N by rewrite -sps index_mem.
rewrite (bigD1 (Ordinal kl)) //= nth_index // eqxx mul1r big1 ?addr0 => [|k ki]; last first.
  case: eqP => [e|_]; last by rewrite !mul0r.
  by case/eqP: ki; apply: val_inj; rewrite /= e index_uniq ?sps.
by rewrite eq_sym mulr_natr; congr (_ *+ nat_of_bool _).
Qed.

Lemma ch_A1 : mxof n n (amat G f1) = X *m (1%:M + (1%:M - t) *m (S *m d1 *m S^T)).
Proof.
rewrite (ch_diag gam).
pose D0 : 'M[F]_n := diag_mx (\row_i f0 i).
have eX : X = (1%:M - g) *m D0 + g.
  apply/matrixP => i j; rewrite mxE [RHS]mxE mul_mx_diag !mxE /amat.
  by rewrite mulrBl mulr_natl -val_eqE; case: eqP => e /=; rewrite ?mulr1n ?mulr0n; ring.
have e2 : (X - g) *m diag_mx (\row_(i < n) (if val i \in ps then gam i else 0)) =
          X *m ((1%:M - t) *m diag_mx (\row_(i < n) (if val i \in ps then gam i else 0))).
  by rewrite mulmxA mulmxBr mulmx1 ch_t mulmxA ch_XY mul1mx.
rewrite mulmxDr mulmx1 -e2 {2}eX addrK.
apply/matrixP => i j; rewrite mxE [RHS]mxE mul_mx_diag mul_mx_diag !mxE /amat.
case: (boolP (val j \in ps)) => jp; last by rewrite mulr0 addr0 same.
have := nz jp; rewrite /gam => z; rewrite -[in RHS]mulrA [f0 j * _]mulrC divfK //.
by rewrite mulrBl mulr_natl -val_eqE; case: eqP => e /=; rewrite ?mulr1n ?mulr0n; ring.
Qed.

Lemma ch_Gam : mxof m m Gam = S^T *m t *m S - e1.
Proof.
rewrite ch_StMS; apply/matrixP => k l; rewrite !mxE /Gam; congr (_ - _).
by rewrite -val_eqE; case: eqP.
Qed.

Lemma ch_e1d1 : e1 *m d1 = 1%:M + d1.
Proof.
apply/matrixP => k l; rewrite mul_mx_diag !mxE -val_eqE; case: eqP => [e|_]; last by rewrite !mulr0n mul0r addr0.
have [kp _] := ch_ps (ltn_ord k).
have -> : nth 0%N ps l = nth 0%N ps k by rewrite -e.
by rewrite !mulr1n divfK // ch_gam.
Qed.

Lemma det_change : det_of n (amat G f1) =
  (\prod_(p <- ps) - gam p) * det_of m Gam * det_of n (amat G f0).
Proof.
rewrite !det_ofE /fdet ch_A1 det_mulmx mulrC; congr (_ * _).
have -> : (1%:M - t) *m (S *m d1 *m S^T) = ((1%:M - t) *m S *m d1) *m S^T by rewrite !mulmxA.
rewrite det_sylvester.
have -> : 1%:M + S^T *m ((1%:M - t) *m S *m d1) = - (mxof m m Gam) *m d1.
  rewrite ch_Gam opprB [RHS]mulmxBl ch_e1d1 !mulmxA mulmxBr mulmx1 mulmxBl mulmxBl ch_StS mul1mx.
  by rewrite addrA.
rewrite mulNmx -mulmxN det_mulmx mulrC; congr (_ * _).
rewrite -[- d1]linearN det_diag (big_nth 0%N) big_mkord sps.
by apply: eq_bigr => k _; rewrite !mxE.
Qed.

Hypothesis nz1 : forall p, p \in ps -> f1 p != 0.
Variable Gi : fmat F.
Hypothesis hGi : inverse_of m Gam Gi.

Let k1 : 'M[F]_m := diag_mx (\row_k (gam (nth 0%N ps k) / (1 + gam (nth 0%N ps k)))).
Let Dinv : 'M[F]_n := diag_mx (\row_i (if nat_of_ord i \in ps then 1 / (1 + gam i) else 1)).

Lemma ch_gam1 p : p \in ps -> 1 + gam p != 0.
Proof.
move=> pp; have e : 1 + gam p = f1 p / f0 p.
  by rewrite /gam mulrBl divff ?nz // addrC subrK.
by rewrite e mulf_neq0 ?invr_eq0 ?nz ?nz1.
Qed.

Lemma ch_k1e1 : k1 *m e1 = 1%:M.
Proof.
apply/matrixP => k l; rewrite mul_mx_diag !mxE -val_eqE; case: eqP => [e|_]; last by rewrite !mulr0n mul0r.
have [kp _] := ch_ps (ltn_ord k).
have -> : nth 0%N ps l = nth 0%N ps k by rewrite -e.
rewrite !mulr1n; have := ch_gam kp; have := ch_gam1 kp.
by move: (gam _) => x x1 x0; rewrite mulrA divfK // divff.
Qed.

Lemma ch_D : (1%:M + (1%:M - t) *m (S *m d1 *m S^T)) *m Dinv = 1%:M - t *m (S *m k1 *m S^T).
Proof.
rewrite (ch_diag gam) (ch_diag (fun p => gam p / (1 + gam p))).
set P := diag_mx _; set K := diag_mx _.
have e1' : (1%:M + P) *m Dinv = 1%:M.
  apply/matrixP => i j; rewrite mul_mx_diag !mxE -val_eqE; case: eqP => [e|_]; last by rewrite !mulr0n addr0 mul0r.
  have -> : nat_of_ord j = nat_of_ord i by rewrite -[LHS]e.
  rewrite !mulr1n; case: ifP => ip; last by rewrite addr0 mulr1.
  by rewrite mul1r divff // ch_gam1.
have e2 : P *m Dinv = K.
  apply/matrixP => i j; rewrite mul_mx_diag !mxE -val_eqE; case: eqP => [e|_]; last by rewrite !mulr0n mul0r.
  have -> : nat_of_ord j = nat_of_ord i by rewrite -[LHS]e.
  by rewrite !mulr1n; case: ifP => ip; rewrite ?mul1r ?mul0r.
have -> : 1%:M + (1%:M - t) *m P = (1%:M + P) - t *m P by rewrite mulmxBl mul1mx addrA.
by rewrite mulmxBl e1' -mulmxA e2.
Qed.

(* what update_matrix leaves: rows ps of A0i - T[:,ps] Gi A0i[ps,:] divided by 1 + gamma *)
Definition changed : fmat F := fun i j =>
  (if i \in ps then 1 / (1 + gam i) else 1) *
  (A0i i j + fmul m (fmul m (fopp (fun i l => T i (nth 0%N ps l))) Gi) (fun l j => A0i (nth 0%N ps l) j) i j).

Lemma inv_change : inverse_of n (amat G f1) changed.
Proof.
apply/inverse_ofP; rewrite ch_A1.
have eS : S^T *m Y = mxof m n (fun l j => A0i (nth 0%N ps l) j).
  by apply/matrixP => [[k km] j]; have [_ kn] := ch_ps km; rewrite (ch_StM _ _ kn) !mxE.
have eT : t *m S = mxof n m (fun i l => T i (nth 0%N ps l)).
  by apply/matrixP => i [k km]; have [_ kn] := ch_ps km; rewrite (ch_MS _ _ kn) !mxE.
have -> : mxof n n changed = Dinv *m (Y - t *m S *m mxof m m Gi *m (S^T *m Y)).
  rewrite eS eT -mulNmx -mulNmx -mxof_opp -!mxof_mul -mxof_add.
  by apply/matrixP => i j; rewrite mul_diag_mx !mxE.
rewrite mulmxA -[X *m _ *m Dinv]mulmxA ch_D.
have eG : mxof m m Gam *m mxof m m Gi = 1%:M by apply/inverse_ofP.
have hk : k1 + mxof m m Gi = k1 *m (S^T *m t *m S) *m mxof m m Gi.
  have -> : S^T *m t *m S = mxof m m Gam + e1 by rewrite ch_Gam subrK.
  by rewrite mulmxDr ch_k1e1 mulmxDl -mulmxA eG mulmx1 mul1mx.
have -> : Y - t *m S *m mxof m m Gi *m (S^T *m Y) = (1%:M - t *m S *m mxof m m Gi *m S^T) *m Y.
  by rewrite mulmxBl mul1mx !mulmxA.
rewrite mulmxA -[X *m _ *m _]mulmxA.
suff -> : (1%:M - t *m (S *m k1 *m S^T)) *m (1%:M - t *m S *m mxof m m Gi *m S^T) = 1%:M.
  by rewrite mulmx1 ch_XY.
rewrite mulmxBr mulmx1 mulmxBl mul1mx !mulmxA.
have -> : t *m S *m k1 *m S^T *m t *m S *m mxof m m Gi *m S^T
   = t *m S *m (k1 *m (S^T *m t *m S) *m mxof m m Gi) *m S^T by rewrite !mulmxA.
rewrite -hk !(mulmxDr, mulmxDl).
by move: (t *m S *m k1 *m S^T) (t *m S *m mxof m m Gi *m S^T) => a b; rewrite opprB addrK subrK.
Qed.

End Change.

(* ---- rows with f = 1 at the end ---- *)

Lemma amat_low n k (G : fmat F) f : (forall j, (n <= j < n + k)%N -> f j = 1) ->
  mxof (n + k) (n + k) (amat G f) =
  block_mx (mxof n n (amat G f)) 0
           (mxof k n (fun i j => - G (i + n)%N j * (f j - 1))) 1%:M.
Proof.
move=> h; rewrite mxof_split.
congr block_mx; apply/matrixP => i j; rewrite !mxE /fblock /amat ?add0n //.
- rewrite h; last by have := ltn_ord j; lia.
  by rewrite subrr mulr0 add0r; case: eqP => // e; have := ltn_ord i; lia.
- by rewrite [(n + i)%N]addnC; case: eqP => [e|_]; rewrite ?addr0 //; have := ltn_ord j; lia.
- rewrite h; last by have := ltn_ord j; lia.
  rewrite subrr mulr0 add0r -[(i == j)%bool]val_eqE /= eqn_add2l.
  by case: eqP.
Qed.

Lemma det_low n k (G : fmat F) f : (forall j, (n <= j < n + k)%N -> f j = 1) ->
  det_of (n + k) (amat G f) = det_of n (amat G f).
Proof.
by move=> h; rewrite !det_ofE /fdet (amat_low G h) det_lblock det1 mulr1.
Qed.

Lemma inv_extend n k (G Ai : fmat F) f : (forall j, (n <= j < n + k)%N -> f j = 1) ->
  inverse_of n (amat G f) Ai ->
  inverse_of (n + k) (amat G f)
    (fblocks n n Ai (fun _ _ => 0) (fmul n (fopp (fun i j => - G (i + n)%N j * (f j - 1))) Ai) (@fid F)).
Proof.
move=> h /inverse_ofP hi; apply/inverse_ofP; rewrite (amat_low G h) mxof_blocks mulmx_block.
rewrite !(mul0mx, mulmx0, addr0, add0r, mxof_id, mulmx1, mul1mx) hi mxof_mul mxof_opp mulNmx subrr.
have -> : mxof n k (fun _ _ => 0) = 0 :> 'M[F]_(n, k) by apply/matrixP => i j; rewrite !mxE.
by rewrite !mulmx0 add0r -scalar_mx_block.
Qed.

Lemma inv_restrict n k (G Ai : fmat F) f : (forall j, (n <= j < n + k)%N -> f j = 1) ->
  inverse_of (n + k) (amat G f) Ai -> inverse_of n (amat G f) Ai.
Proof.
move=> h /inverse_ofP; rewrite (amat_low G h) mxof_split mulmx_block !(mul0mx, addr0).
rewrite (scalar_mx_block n k 1) => /eq_block_mx [e _ _ _].
by apply/inverse_ofP; rewrite -[RHS]e; congr (_ *m _); apply/matrixP => i j; rewrite !mxE.
Qed.

(* ---- the weight ---- *)

Definition gmina (G : fmat F) (a : nat -> F) : fmat F := fun i j => G i j - (if i == j then a j else 0).

Lemma amat_gmina n (G : fmat F) f a : (forall j, (j < n)%N -> a j != 1) ->
  (forall j, (j < n)%N -> f j = a j / (a j - 1)) ->
  mxof n n (amat G f) = mxof n n (gmina G a) *m diag_mx (\row_j (1 - f j)).
Proof.
move=> h1 hf; apply/matrixP => i j; rewrite mul_mx_diag !mxE /amat /gmina.
have jl := ltn_ord j; have nz : a j - 1 != 0 by rewrite subr_eq0 h1.
have ej : f j - 1 = 1 / (a j - 1).
  by rewrite hf //; apply: (mulIf nz); rewrite mulrBl !divfK // mul1r opprB addrC subrK.
have -> : 1 - f j = - (1 / (a j - 1)) by rewrite -opprB ej.
rewrite ej hf //; case: eqP => _; rewrite ?subr0 ?addr0 ?mulrN ?mulNr //.
by rewrite mulrBl opprB addrC !mul1r.
Qed.

Lemma det_gmina n (G : fmat F) f a : (forall j, (j < n)%N -> a j != 1) ->
  (forall j, (j < n)%N -> f j = a j / (a j - 1)) ->
  det_of n (amat G f) = det_of n (gmina G a) * \prod_(j < n) (1 - f j).
Proof.
move=> h1 hf; rewrite !det_ofE /fdet (amat_gmina G h1 hf) det_mulmx det_diag; congr (_ * _).
by apply: eq_bigr => j _; rewrite mxE.
Qed.

Lemma inv_gmina n (G Ai : fmat F) f a : (forall j, (j < n)%N -> a j != 1) ->
  (forall j, (j < n)%N -> f j = a j / (a j - 1)) ->
  inverse_of n (amat G f) Ai -> inverse_of n (gmina G a) (fun i j => (1 - f i) * Ai i j).
Proof.
move=> h1 hf /inverse_ofP; rewrite (amat_gmina G h1 hf) -mulmxA => e; apply/inverse_ofP.
by rewrite -[RHS]e; congr (_ *m _); apply/matrixP => i j; rewrite mul_diag_mx !mxE.
Qed.

End SubMath.
