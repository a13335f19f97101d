(* Block matrix algebra used by the fast-update proofs. *)
From mathcomp Require Import all_ssreflect ssralg ssrint fingroup perm matrix mxalgebra zify.
From Verif Require Import SortModel SortSpec SortProofs MatLib.

Set Implicit Arguments.
Unset Strict Implicit.
Unset Printing Implicit Defensive.

Local Open Scope ring_scope.
Import GRing.Theory.

Section Block.
Variable F : fieldType.
Variables n m : nat.
Implicit Types (A E : 'M[F]_n) (B : 'M[F]_(n, m)) (C : 'M[F]_(m, n)) (D H : 'M[F]_m).

Lemma det_schur A Ai B C D : Ai *m A = 1%:M ->
  \det (block_mx A B C D) = \det A * \det (D - C *m Ai *m B).
Proof.
move=> h.
have -> : block_mx A B C D =
   block_mx 1%:M 0 (C *m Ai) 1%:M *m block_mx A B 0 (D - C *m Ai *m B).
  rewrite mulmx_block !mul1mx ?mul0mx ?mulmx0 !addr0.
  by rewrite -(mulmxA C) h mulmx1 addrC subrK.
by rewrite det_mulmx det_lblock det_ublock !det1 !mul1r.
Qed.

Lemma inv_up A Ai B C D H : A *m Ai = 1%:M ->
  (D - C *m Ai *m B) *m H = 1%:M ->
  block_mx A B C D *m
  block_mx (Ai - (Ai *m B) *m (- H *m (C *m Ai))) (- (Ai *m B) *m H) (- H *m (C *m Ai)) H = 1%:M.
Proof.
move=> h1 h2; rewrite mulmx_block scalar_mx_block; congr block_mx.
- rewrite mulmxBr h1 !mulmxA h1 mul1mx subrK //.
- by rewrite !mulmxA mulmxN !mulmxA h1 mul1mx mulNmx addNr.
- rewrite mulmxBr !mulmxA -addrA [- _ + _]addrC -!mulmxA.
  have -> : D *m (- H *m (C *m Ai)) - C *m (Ai *m (B *m (- H *m (C *m Ai)))) =
            (D - C *m Ai *m B) *m H *m (- (C *m Ai)).
    by rewrite !mulmxBl !mulNmx !mulmxN !mulmxA.
  by rewrite h2 mul1mx addrN.
- rewrite mulmxA mulmxN mulNmx addrC -h2 mulmxBl.
  by rewrite !mulmxA.
Qed.

(* complementary minor of the inverse *)
Lemma det_compl A B C D E (P : 'M[F]_(n, m)) (G : 'M[F]_(m, n)) H :
  block_mx A B C D *m block_mx E P G H = 1%:M ->
  \det (block_mx A B C D) * \det H = \det A.
Proof.
rewrite mulmx_block scalar_mx_block => /eq_block_mx [_ h2 _ h4].
have e : block_mx A B C D *m block_mx 1%:M P 0 H = block_mx A 0 C 1%:M.
  by rewrite mulmx_block !mulmx1 !mulmx0 !addr0 h2 h4.
have := congr1 determinant e.
by rewrite det_mulmx det_ublock det_lblock !det1 mul1r mulr1.
Qed.

Lemma inv_down A B C D E (P : 'M[F]_(n, m)) (G : 'M[F]_(m, n)) H Hi :
  block_mx A B C D *m block_mx E P G H = 1%:M -> H *m Hi = 1%:M ->
  A *m (E - P *m Hi *m G) = 1%:M.
Proof.
rewrite mulmx_block scalar_mx_block => /eq_block_mx [h1 h2 _ h4] hh.
rewrite mulmxBr !mulmxA.
have -> : A *m P = - (B *m H) by apply/eqP; rewrite -addr_eq0; apply/eqP.
by rewrite !mulNmx opprK -(mulmxA B) hh mulmx1.
Qed.

End Block.

Section Sel.
Variable F : fieldType.
Implicit Types a : fmat F.

(* Determinant under a rearrangement of rows and columns. *)
Definition fsign (l : seq nat) : F := (-1) ^+ inversions ltn l.

Lemma fsign_sqr l : fsign l * fsign l = 1.
Proof. by rewrite /fsign -expr2 sqrr_sign. Qed.

Lemma nth_map_enum (T : Type) (x0 : T) n (f : 'I_n -> T) (i : 'I_n) :
  nth x0 [seq f j | j <- enum 'I_n] i = f i.
Proof. by rewrite (nth_map i) ?size_enum_ord // nth_ord_enum. Qed.

Lemma perm_of_seq n (rs : seq nat) : perm_eq rs (iota 0 n) ->
  exists s : 'S_n, rs = [seq val (s i) | i <- enum 'I_n].
Proof.
move=> pe.
have sz : size rs = n by rewrite (perm_size pe) size_iota.
have lt i : (i < n)%N -> (nth 0%N rs i < n)%N.
  move=> il; have := mem_nth 0%N (_ : (i < size rs)%N); rewrite sz => /(_ il).
  by rewrite (perm_mem pe) mem_iota.
pose f (i : 'I_n) := Ordinal (lt i (ltn_ord i)).
have fi : injective f.
  move=> i j [] /eqP; rewrite nth_uniq ?sz // ?(perm_uniq pe) ?iota_uniq // => /eqP.
  exact: val_inj.
exists (perm fi); apply: (@eq_from_nth _ 0%N); first by rewrite size_map size_enum_ord.
move=> i; rewrite sz => il; rewrite (nth_map (Ordinal il)) ?size_enum_ord //.
by rewrite permE /f /= nth_enum_ord.
Qed.

Lemma fdet_sel n a rs cs : perm_eq rs (iota 0 n) -> perm_eq cs (iota 0 n) ->
  fdet n (fsel a rs cs) = fsign rs * fsign cs * fdet n a.
Proof.
move=> /perm_of_seq [s ->] /perm_of_seq [t ->].
have sg (u : 'S_n) : fsign [seq val (u i) | i <- enum 'I_n] = (-1) ^+ u :> F.
  have [irr tr tot] := ltn_strict_total.
  have := sign_of_permute irr tr tot u (@val_inj _ _ (ordinal_subType n)).
  have -> : sign_of ltn (permute_seq val (1%g : 'S_n)) = 1.
    by rewrite /sign_of (sorted_permute1 ltn_strict_total).
  rewrite mulr1 /sign_of /permute_seq /fsign.
  move: (inversions _ _) => k; rewrite -(signr_odd _ k) -(signr_odd F k).
  by case: odd; case: odd_perm.
rewrite !sg /fdet.
have -> : mxof n n (fsel a [seq val (s i) | i <- enum 'I_n] [seq val (t i) | i <- enum 'I_n])
   = row_perm s (col_perm t (mxof n n a)).
  apply/matrixP => i j; rewrite !mxE /fsel.
  by rewrite !nth_map_enum.
rewrite row_permE col_permE !det_mulmx !det_perm odd_permV.
move: (\det _) ((-1) ^+ s) ((-1) ^+ t) => x y z.
by rewrite [x * z]mulrC mulrA.
Qed.

End Sel.
