(* Model of /repo/include/alps/fastupdate/resizable_matrix.hpp and of the scaled
   determinant and inverse of /repo/include/alps/fastupdate/detail/util.hpp.
   The element type is an arbitrary field (with absolute value where needed). *)
From mathcomp Require Import all_ssreflect ssralg ssrnum fingroup perm matrix.
From Verif Require Import Outcome MatLib.

Set Implicit Arguments.
Unset Strict Implicit.
Unset Printing Implicit Defensive.

Local Open Scope ring_scope.

Section Rmat.
Variable F : fieldType.

(* resizable_matrix.hpp:379-380 — data members: size1_, size2_ (None for the value
   -1 of a matrix that is not allocated) and values_ with its own numbers of rows and
   columns. *)
Record rmat := Rmat { rsize : option (nat * nat); mem1 : nat; mem2 : nat; vals : fmat F }.

(* resizable_matrix.hpp:26-31 — ResizableMatrix(size1, size2); [junk] is what the
   fresh memory holds. *)
Definition r_make (junk : fmat F) (n m : nat) : rmat := Rmat (Some (n, m)) n m junk.
(* resizable_matrix.hpp:33-39 — ResizableMatrix(size1, size2, initial_value). *)
Definition r_make_filled (n m : nat) (v : F) : rmat := Rmat (Some (n, m)) n m (fun _ _ => v).
(* resizable_matrix.hpp:41 — ResizableMatrix(). *)
Definition r_default (junk : fmat F) : rmat := Rmat None 0 0 junk.
(* resizable_matrix.hpp:43-52 — copy constructor. *)
Definition r_copy (junk : fmat F) (s : rmat) : rmat :=
  if rsize s is Some _ then s else r_default junk.

(* resizable_matrix.hpp:73-79 — size1(), size2(). *)
Definition r_size1 (s : rmat) : nat := if rsize s is Some (n, _) then n else 0%N.
(* resizable_matrix.hpp:77-79 — size2(). *)
Definition r_size2 (s : rmat) : nat := if rsize s is Some (_, m) then m else 0%N.

(* resizable_matrix.hpp:58-70 — element access.  The release build checks nothing;
   an index outside the memory is UB. *)
Definition in_mem (s : rmat) (i j : nat) : bool := (i < mem1 s)%N && (j < mem2 s)%N.
(* resizable_matrix.hpp:65-70 — reading. *)
Definition r_read (s : rmat) (i j : nat) : outcome F :=
  if in_mem s i j then Ok (vals s i j) else UB.
(* resizable_matrix.hpp:58-63 — writing. *)
Definition r_write (s : rmat) (i j : nat) (v : F) : outcome rmat :=
  if in_mem s i j then
    Ok (Rmat (rsize s) (mem1 s) (mem2 s)
          (fun i' j' => if (i' == i) && (j' == j) then v else vals s i' j'))
  else UB.

(* 1.2 * size + 1 converted to int (lines 120, 133): floor(12 n / 10) + 1.
   Simplification: exact instead of rounded product. *)
Definition enlarge (n : nat) : nat := ((12 * n) %/ 10 + 1)%N.

(* Eigen's conservativeResize: common part kept, the rest is what the new memory
   holds (resizable_matrix.hpp:114-125). *)
Definition keep (junk : fmat F) (n m : nat) (a : fmat F) : fmat F :=
  fun i j => if (i < n)%N && (j < m)%N then a i j else junk i j.

(* resizable_matrix.hpp:114-125 — conservative_resize. *)
Definition r_conservative (junk : fmat F) (s : rmat) (n m : nat) : rmat :=
  if rsize s is Some _ then
    if (mem1 s < n)%N || (mem2 s < m)%N
    then Rmat (Some (n, m)) (enlarge n) (enlarge m)
              (keep junk (minn (mem1 s) (enlarge n)) (minn (mem2 s) (enlarge m)) (vals s))
    else Rmat (Some (n, m)) (mem1 s) (mem2 s) (vals s)
  else Rmat (Some (n, m)) n m junk.

(* resizable_matrix.hpp:128-138 — destructive_resize. *)
Definition r_destructive (junk : fmat F) (s : rmat) (n m : nat) : rmat :=
  if rsize s is Some _ then
    if (mem1 s < n)%N || (mem2 s < m)%N
    then Rmat (Some (n, m)) (enlarge n) (enlarge m) junk
    else Rmat (Some (n, m)) (mem1 s) (mem2 s) (vals s)
  else Rmat (Some (n, m)) n m junk.

(* resizable_matrix.hpp:141-161 — remove_row_col_last, remove_row_last,
   remove_col_last.  Removing from a matrix without that row or column fails an
   assertion: UB. *)
Definition r_remove (s : rmat) (row col : bool) : outcome rmat :=
  if rsize s is Some (n, m) then
    if (row && (n == 0)%N) || (col && (m == 0)%N) then UB
    else Ok (Rmat (Some ((if row then n.-1 else n), (if col then m.-1 else m)))
                  (mem1 s) (mem2 s) (vals s))
  else UB.

(* resizable_matrix.hpp:164-177 — swap_row, swap_col: whole rows and columns of the
   memory, not only the visible part. *)
Definition r_swap_row (s : rmat) (p q : nat) : outcome rmat :=
  if (p < mem1 s)%N && (q < mem1 s)%N
  then Ok (Rmat (rsize s) (mem1 s) (mem2 s) (fswap_row p q (vals s))) else UB.
(* resizable_matrix.hpp:171-177 — swap_col. *)
Definition r_swap_col (s : rmat) (p q : nat) : outcome rmat :=
  if (p < mem2 s)%N && (q < mem2 s)%N
  then Ok (Rmat (rsize s) (mem1 s) (mem2 s) (fswap_col p q (vals s))) else UB.
(* resizable_matrix.hpp:180-183 — swap_row_col. *)
Definition r_swap_row_col (s : rmat) (p q : nat) : outcome rmat :=
  obind (r_swap_col s p q) (fun s' => r_swap_row s' p q).

(* values_.block(0, 0, size1_, size2_) overwritten with [a]
   (lines 318-329: block(); the memory outside is not touched). *)
Definition set_block (s : rmat) (n m : nat) (a : fmat F) : rmat :=
  Rmat (rsize s) (mem1 s) (mem2 s)
       (fun i j => if (i < n)%N && (j < m)%N then a i j else vals s i j).

(* resizable_matrix.hpp:194-200 — set_to_identity. *)
Definition r_identity (s : rmat) : outcome rmat :=
  if rsize s is Some (n, m) then
    if n == 0%N then Ok s else Ok (set_block s n m (fid F))
  else Ok s.
(* resizable_matrix.hpp:233-237 — clear. *)
Definition r_clear (s : rmat) : rmat :=
  if rsize s is Some (n, m) then set_block s n m (fun _ _ => 0) else s.

(* resizable_matrix.hpp:260-266 — operator= from an Eigen expression. *)
Definition r_assign (n m : nat) (a : fmat F) : rmat := Rmat (Some (n, m)) n m a.

(* resizable_matrix.hpp:239-258 — operator+ and operator-: a copy of *this whose
   visible block is changed. *)
Definition r_combine (f : F -> F -> F) (s t : rmat) : outcome rmat :=
  if rsize s is Some (n, m) then
    if (n <= mem1 t)%N && (m <= mem2 t)%N
    then Ok (set_block s n m (fun i j => f (vals s i j) (vals t i j))) else UB
  else UB.

(* resizable_matrix.hpp:294-301 — invert: values_ is replaced by a matrix of exactly
   the visible size. *)
Definition r_invert (s : rmat) : outcome rmat :=
  if rsize s is Some (n, m) then
    if (n * m)%N == 0%N then Ok s
    else Ok (Rmat (Some (n, m)) n m (finv n (vals s)))
  else Ok s.

(* resizable_matrix.hpp:203-215 — determinant (and 218-230 — safe_determinant,
   whose last line is the scaled determinant below). *)
Definition r_determinant (s : rmat) : outcome F :=
  if rsize s is Some (n, m) then
    if n == 0%N then Ok 1
    else if n == 1%N then r_read s 0 0
    else if n == 2%N then
      obind (r_read s 0 0) (fun a => obind (r_read s 1 1) (fun d =>
      obind (r_read s 0 1) (fun b => obind (r_read s 1 0) (fun c =>
        Ok (a * d - b * c)))))
    else Ok (fdet n (vals s))
  else UB.

(* resizable_matrix.hpp:398-402 — gemm(a, b, c). *)
Definition r_gemm (junk : fmat F) (a b c : rmat) : outcome rmat :=
  match rsize a, rsize b with
  | Some (n, k), Some (k', m) =>
      let c' := r_destructive junk c n m in
      Ok (set_block c' n m (fmul k (vals a) (vals b)))
  | _, _ => UB
  end.

(* resizable_matrix.hpp:455-460 — copy_block. *)
Definition r_copy_block (s d : rmat) (rs cs rd cd n m : nat) : outcome rmat :=
  if [&& (rs + n <= mem1 s)%N, (cs + m <= mem2 s)%N, (rd + n <= mem1 d)%N & (cd + m <= mem2 d)%N]
  then Ok (Rmat (rsize d) (mem1 d) (mem2 d)
         (fun i j => if [&& (rd <= i)%N, (i < rd + n)%N, (cd <= j)%N & (j < cd + m)%N]
                     then vals s (rs + (i - rd))%N (cs + (j - cd))%N else vals d i j))
  else UB.

(* One call on a matrix object; [junk] is the content of memory the call may
   allocate (resizable_matrix.hpp:114-301). *)
Inductive rcall :=
  | CWrite of nat & nat & F
  | CSwapRow of nat & nat
  | CSwapCol of nat & nat
  | CSwapRowCol of nat & nat
  | CConservative of fmat F & nat & nat
  | CDestructive of fmat F & nat & nat
  | CRemove of bool & bool
  | CIdentity
  | CClear
  | CAssign of nat & nat & fmat F
  | CInvert.

(* resizable_matrix.hpp:114-301 — dispatch of one call. *)
Definition r_call (s : rmat) (c : rcall) : outcome rmat :=
  match c with
  | CWrite i j v => r_write s i j v
  | CSwapRow p q => r_swap_row s p q
  | CSwapCol p q => r_swap_col s p q
  | CSwapRowCol p q => r_swap_row_col s p q
  | CConservative junk n m => Ok (r_conservative junk s n m)
  | CDestructive junk n m => Ok (r_destructive junk s n m)
  | CRemove row col => r_remove s row col
  | CIdentity => r_identity s
  | CClear => Ok (r_clear s)
  | CAssign n m a => Ok (r_assign n m a)
  | CInvert => r_invert s
  end.

(* A history of calls on one object (resizable_matrix.hpp:114-301). *)
Definition r_run (s : rmat) (cs : seq rcall) : outcome rmat :=
  foldl (fun o c => obind o (fun s => r_call s c)) (Ok s) cs.

End Rmat.

Section Safe.
Variable F : numFieldType.

(* detail/util.hpp:37-51 — max_abs_coeff; also what cwiseAbs().maxCoeff() computes on
   a non-empty matrix (lines 64, 86, 102, 116, 129, 142). *)
Definition max_abs (n m : nat) (a : fmat F) : F :=
  foldl (fun r v => Num.max r v) 0 [seq `|a p.1 p.2| | p <- [seq (i, j) | j <- iota 0 m, i <- iota 0 n]].

(* detail/util.hpp:55-71 and 75-92 — safe_determinant and
   safe_determinant_eigen_block. *)
Definition safe_det (n : nat) (a : fmat F) : F :=
  if n == 0%N then 1
  else
    let m := max_abs n n a in
    if m == 0 then 0
    else fdet n (fun i j => a i j / m) * m ^+ n.

(* detail/util.hpp:97-146 — safe_invert_in_place and safe_inverse (three overloads
   with the same body).  maxCoeff of an empty matrix is UB. *)
Definition safe_inverse (n : nat) (a : fmat F) : outcome (fmat F) :=
  if n == 0%N then UB
  else
    let m := max_abs n n a in
    Ok (fun i j => finv n (fun i j => a i j / m) i j / m).

(* What Eigen::FullPivLU guarantees: P A Q = L U with permutation matrices P, Q, unit
   lower triangular L and upper triangular U.  The sign of a permutation is what
   permutationP().determinant() returns (resizable_matrix.hpp:420-432). *)
Record full_piv_lu (n : nat) (a : 'M[F]_n) := FullPivLU {
  lu_P : {perm 'I_n}; lu_Q : {perm 'I_n}; lu_L : 'M[F]_n; lu_U : 'M[F]_n;
  lu_eq : perm_mx lu_P *m a *m perm_mx lu_Q = lu_L *m lu_U;
  lu_lower : forall i j : 'I_n, (i < j)%N -> lu_L i j = 0;
  lu_unit : forall i, lu_L i i = 1;
  lu_upper : forall i j : 'I_n, (j < i)%N -> lu_U i j = 0 }.

(* resizable_matrix.hpp:420-432 — phase_of_determinant. *)
Definition phase_of_determinant (n : nat) (a : 'M[F]_n) (lu : full_piv_lu a) : F :=
  let phase := foldl (fun ph i =>
      let v := lu_U lu i i in if v != 0 then ph * (v / `|v|) else 0) 1 (enum 'I_n) in
  phase * ((-1) ^+ (lu_P lu) * (-1) ^+ (lu_Q lu)).

(* detail/util.hpp:195-206 — lu_product: results[0] of an empty vector is UB. *)
Definition lu_product (n : nat) (a : 'M[F]_n) (lu : full_piv_lu a) : outcome (seq F) :=
  if [seq lu_U lu i i | i <- enum 'I_n] is x :: r
  then Ok (x * ((-1) ^+ (lu_P lu) * (-1) ^+ (lu_Q lu)) :: r)
  else UB.

End Safe.
