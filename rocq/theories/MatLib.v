(* Matrices of variable size as a size plus an entry function, and their relation
   to mathcomp matrices.  The functions stand for the Eigen operations used all
   over /repo (block(), *, -, inverse(), determinant()); the C++ element type
   (double or std::complex<double>) is replaced by an arbitrary field, i.e.
   rounding is not modelled. *)
From mathcomp Require Import all_ssreflect ssralg ssrint fingroup perm matrix mxalgebra zify.
From Verif Require Import SortModel SortSpec SortProofs.

Set Implicit Arguments.
Unset Strict Implicit.
Unset Printing Implicit Defensive.

Local Open Scope ring_scope.
Import GRing.Theory.

Section Defs.
Variable F : fieldType.

(* Eigen::Matrix element access m(i,j). *)
Definition fmat := nat -> nat -> F.

(* The visible n x m block as a mathcomp matrix. *)
Definition mxof (n m : nat) (a : fmat) : 'M[F]_(n, m) := \matrix_(i, j) a i j.

(* A mathcomp matrix as an entry function (0 outside). *)
Definition fmof (n m : nat) (A : 'M[F]_(n, m)) : fmat := fun i j =>
  if insub i is Some i' then if insub j is Some j' then A i' j' else 0 else 0.

(* Eigen operator* with inner dimension k. *)
Definition fmul (k : nat) (a b : fmat) : fmat := fun i j => \sum_(l < k) a i l * b l j.
(* Eigen operators +, - and unary -. *)
Definition fadd (a b : fmat) : fmat := fun i j => a i j + b i j.
Definition fsub (a b : fmat) : fmat := fun i j => a i j - b i j.
Definition fopp (a : fmat) : fmat := fun i j => - a i j.
(* Eigen block(r, c, ., .): entries shifted by (r, c). *)
Definition fblock (r c : nat) (a : fmat) : fmat := fun i j => a (r + i)%N (c + j)%N.
(* Assembling a matrix from four blocks; the upper left block is n x m. *)
Definition fblocks (n m : nat) (a b c d : fmat) : fmat := fun i j =>
  if (i < n)%N then if (j < m)%N then a i j else b i (j - m)%N
  else if (j < m)%N then c (i - n)%N j else d (i - n)%N (j - m)%N.
(* Identity matrix. *)
Definition fid : fmat := fun i j => (i == j)%:R.
(* Eigen determinant(). *)
Definition fdet (n : nat) (a : fmat) : F := \det (mxof n n a).
(* Eigen inverse(); meaningful only for a non-zero determinant. *)
Definition finv (n : nat) (a : fmat) : fmat := fmof (invmx (mxof n n a)).
(* Sub-matrix with listed rows and columns. *)
Definition fsel (a : fmat) (rs cs : seq nat) : fmat :=
  fun i j => a (nth 0%N rs i) (nth 0%N cs j).
(* Swapping two indices. *)
Definition swapi (p q i : nat) : nat := if i == p then q else if i == q then p else i.
(* Eigen row(p).swap(row(q)) and col(p).swap(col(q)). *)
Definition fswap_row (p q : nat) (a : fmat) : fmat := fun i j => a (swapi p q i) j.
Definition fswap_col (p q : nat) (a : fmat) : fmat := fun i j => a i (swapi p q j).

(* Equality of the visible n x m blocks. *)
Definition feq (n m : nat) (a b : fmat) : Prop :=
  forall i j, (i < n)%N -> (j < m)%N -> a i j = b i j.

End Defs.

Section Lemmas.
Variable F : fieldType.
Implicit Types a b c d : fmat F.

Lemma mxofE n m a b : feq n m a b <-> mxof n m a = mxof n m b.
Proof.
split=> [h|h i j il jl].
- by apply/matrixP => i j; rewrite !mxE h.
- by have /matrixP/(_ (Ordinal il) (Ordinal jl)) := h; rewrite !mxE.
Qed.

Lemma feq_refl n m a : feq n m a a. Proof. by []. Qed.
Lemma feq_sym n m a b : feq n m a b -> feq n m b a.
Proof. by move=> h i j il jl; rewrite h. Qed.
Lemma feq_trans n m a b c : feq n m a b -> feq n m b c -> feq n m a c.
Proof. by move=> h1 h2 i j il jl; rewrite h1 // h2. Qed.

Lemma fmofE n m (A : 'M[F]_(n, m)) (i : 'I_n) (j : 'I_m) : fmof A i j = A i j.
Proof. by rewrite /fmof !valK. Qed.

Lemma fmofK n m (A : 'M[F]_(n, m)) : mxof n m (fmof A) = A.
Proof. by apply/matrixP => i j; rewrite mxE fmofE. Qed.

Lemma mxof_mul n k m a b : mxof n m (fmul k a b) = mxof n k a *m mxof k m b.
Proof.
apply/matrixP => i j; rewrite !mxE; apply: eq_bigr => l _; by rewrite !mxE.
Qed.

Lemma mxof_add n m a b : mxof n m (fadd a b) = mxof n m a + mxof n m b.
Proof. by apply/matrixP => i j; rewrite !mxE. Qed.
Lemma mxof_sub n m a b : mxof n m (fsub a b) = mxof n m a - mxof n m b.
Proof. by apply/matrixP => i j; rewrite !mxE. Qed.
Lemma mxof_opp n m a : mxof n m (fopp a) = - mxof n m a.
Proof. by apply/matrixP => i j; rewrite !mxE. Qed.
Lemma mxof_id n : mxof n n (fid F) = 1%:M.
Proof. by apply/matrixP => i j; rewrite !mxE. Qed.
Lemma mxof_inv n a : mxof n n (finv n a) = invmx (mxof n n a).
Proof. exact: fmofK. Qed.

Lemma mxof_blocks n n' m m' a b c d :
  mxof (n + n') (m + m') (fblocks n m a b c d) =
  block_mx (mxof n m a) (mxof n m' b) (mxof n' m c) (mxof n' m' d).
Proof.
apply/matrixP => i j; rewrite !mxE /fblocks.
case: (split_ordP i) => i' ->; rewrite !mxE ?lshift_subproof;
  case: (split_ordP j) => j' -> /=; rewrite ?mxE ?ltn_ord ?(ltnNge (_ + _)%N) ?leq_addr /= ?addKn //.
Qed.

Lemma mxof_split n n' m m' a :
  mxof (n + n') (m + m') a =
  block_mx (mxof n m a) (mxof n m' (fblock 0 m a))
           (mxof n' m (fblock n 0 a)) (mxof n' m' (fblock n m a)).
Proof.
apply/matrixP => i j; rewrite !mxE.
case: (split_ordP i) => i' ->; rewrite !mxE;
  case: (split_ordP j) => j' -> /=; by rewrite ?mxE.
Qed.

End Lemmas.
