(* Property theorems: C06, C07, C54 (resizable matrix, scaled determinant and
   inverse, factorised determinant). *)
From mathcomp Require Import all_ssreflect ssralg ssrnum ssrint rat fingroup perm matrix ring.
From Verif Require Import Outcome MatLib MatSpec RmatModel RmatSpec RmatProofs Prop_Formula.

Set Implicit Arguments.
Unset Strict Implicit.
Unset Printing Implicit Defensive.

Local Open Scope ring_scope.

(* ------------------------------------------------------------------ C06 *)

Theorem C06_constructors :
  forall (F : fieldType) (junk : nat -> nat -> F) (n m : nat) (v : F),
    [/\ shows (r_make junk n m) (Plain n m (fun _ _ => None)),
        shows (r_make_filled n m v) (Plain n m (fun _ _ => Some v)) &
        shows (r_default junk) (Plain 0 0 (fun _ _ => None))].
Proof. by move=> F junk n m v; split; apply/repP; [|exact: r_make_filled_ok|]. Qed.
Print Assumptions C06_constructors.

(* Every history of calls, whatever fresh memory contains. *)
Theorem C06_histories :
  forall (F : fieldType) (s : rmat F) (p p' : plain F) (cs : seq (rcall F)),
    shows s p -> plain_run p cs p' ->
    exists s', r_run s cs = Ok s' /\ shows s' p'.
Proof. by move=> F s p p' cs /repP h /(r_run_ok h) [s' [e /repP r]]; exists s'. Qed.
Print Assumptions C06_histories.

(* Copies, sums and differences, products and block copies involve two or three
   objects. *)
Theorem C06_copy :
  forall (F : fieldType) (junk : nat -> nat -> F) (s : rmat F) (p : plain F),
    shows s p -> shows (r_copy junk s) p.
Proof. by move=> F junk s p /repP h; apply/repP/r_copy_ok. Qed.
Print Assumptions C06_copy.

Theorem C06_sum :
  forall (F : fieldType) (f : F -> F -> F) (s t : rmat F) (p q : plain F),
    shows s p -> shows t q -> rsize s <> None -> rows q = rows p -> cols q = cols p ->
    exists u, r_combine f s t = Ok u /\
      shows u (Plain (rows p) (cols p) (fun i j =>
        if ent p i j is Some x then if ent q i j is Some y then Some (f x y) else None else None)).
Proof.
move=> F f s t p q /repP hs /repP ht al er ec.
by have [u [e /repP r]] := r_combine_ok f hs ht al er ec; exists u.
Qed.
Print Assumptions C06_sum.

Theorem C06_product :
  forall (F : fieldType) (junk : nat -> nat -> F) (a b c : rmat F) (p q r : plain F)
         (x y : nat -> nat -> F),
    shows a p -> shows b q -> shows c r -> rsize a <> None -> rsize b <> None ->
    (forall i j, (i < rows p)%N -> (j < cols p)%N -> ent p i j = Some (x i j)) ->
    (forall i j, (i < rows q)%N -> (j < cols q)%N -> ent q i j = Some (y i j)) ->
    cols p = rows q ->
    exists u, r_gemm junk a b c = Ok u /\
      shows u (Plain (rows p) (cols q) (fun i j => Some (\sum_(k < cols p) x i k * y k j))).
Proof.
move=> F junk a b c p q r x y /repP ha /repP hb /repP hc na nb hx hy e.
by have [u [e' /repP h]] := r_gemm_ok junk ha hb hc na nb hx hy e; exists u.
Qed.
Print Assumptions C06_product.

Theorem C06_block_copy :
  forall (F : fieldType) (s d : rmat F) (p q : plain F) (rs cs rd cd n m : nat),
    shows s p -> shows d q ->
    (rs + n <= rows p)%N -> (cs + m <= cols p)%N -> (rd + n <= rows q)%N -> (cd + m <= cols q)%N ->
    exists u, r_copy_block s d rs cs rd cd n m = Ok u /\
      shows u (Plain (rows q) (cols q) (fun i j =>
        if [&& (rd <= i)%N, (i < rd + n)%N, (cd <= j)%N & (j < cd + m)%N]
        then ent p (rs + (i - rd))%N (cs + (j - cd))%N else ent q i j)).
Proof.
move=> F s d p q rs cs rd cd n m /repP hs /repP hd l1 l2 l3 l4.
by have [u [e /repP h]] := r_copy_block_ok hs hd l1 l2 l3 l4; exists u.
Qed.
Print Assumptions C06_block_copy.

Theorem C06_determinant :
  forall (F : fieldType) (s : rmat F) (p : plain F) (a : nat -> nat -> F),
    shows s p -> rsize s <> None -> rows p = cols p ->
    (forall i j, (i < rows p)%N -> (j < cols p)%N -> ent p i j = Some (a i j)) ->
    r_determinant s = Ok (det_of (rows p) a).
Proof. by move=> F s p a /repP; apply: r_determinant_ok. Qed.
Print Assumptions C06_determinant.

(* 2x2, one row and column dropped, grown to 3x3 past the memory, a row swap, a
   write, an inversion: the plain run exists and ends in a known matrix. *)
Example C06_case : forall junk : nat -> nat -> rat,
  exists p', plain_run (Plain 2 2 (fun _ _ => Some (2%:R : rat_fieldType)))
    [:: CRemove rat_fieldType true true; CConservative junk 2 2; CWrite 0 1 1; CWrite 1 0 1;
        CWrite 1 1 0; CSwapRow rat_fieldType 0 1; CInvert rat_fieldType] p'
  /\ ent p' 1 0 = Some (- 2%:R).
Proof.
have hi : inverse_of 2 (lit [:: [:: 1; 0]; [:: 2%:R; 1]]) (lit [:: [:: 1; 0]; [:: -2%:R; 1]]).
  by move=> [|[|?]] [|[|?]] // _ _; rewrite !big_ord_recl !big_ord0 /lit /=.
move=> junk; eexists; split.
- eexists; split; first by do 3 (split; first by []); reflexivity.
  eexists; split; first by reflexivity.
  do 3 (eexists; split; first by split; [| |reflexivity]).
  eexists; split; first by split; [| |reflexivity].
  eexists; split; last by reflexivity.
  exists (lit [:: [:: 1; 0]; [:: 2%:R; 1]]), (lit [:: [:: 1; 0]; [:: -2%:R; 1]]).
  split; [by [] | by move=> [|[|?]] [|[|?]] | exact: hi | by reflexivity].
- by [].
Qed.

(* ------------------------------------------------------------------ C07 *)

Theorem C07_safe_determinant :
  forall (F : numFieldType) (n : nat) (a : nat -> nat -> F), safe_det n a = det_of n a.
Proof. by move=> F n a; apply: safe_det_ok. Qed.
Print Assumptions C07_safe_determinant.

Theorem C07_safe_inverse :
  forall (F : numFieldType) (n : nat) (a : nat -> nat -> F),
    (0 < n)%N -> det_of n a != 0 ->
    exists b, safe_inverse n a = Ok b /\ inverse_of n a b.
Proof. by move=> F n a; apply: safe_inverse_ok. Qed.
Print Assumptions C07_safe_inverse.

(* The scale factor is the largest modulus: no element of the scaled matrix exceeds
   1, which is what prevents overflow. *)
Theorem C07_scaled_elements_at_most_one :
  forall (F : numFieldType) (n m : nat) (a : nat -> nat -> F) (i j : nat),
    (i < n)%N -> (j < m)%N -> `|a i j| <= max_abs n m a.
Proof. by move=> F n m a i j; apply: max_abs_ge. Qed.
Print Assumptions C07_scaled_elements_at_most_one.

(* Inverting an empty matrix takes the maximum of nothing. *)
Theorem C07_empty_inverse_refuted :
  exists (F : numFieldType) (n : nat) (a : nat -> nat -> F),
    det_of n a != 0 /\ safe_inverse n a = UB.
Proof. by exists rat_numFieldType, 0%N, (fun _ _ => 0); rewrite /det_of det_mx00. Qed.
Print Assumptions C07_empty_inverse_refuted.

Example C07_case :
  [/\ det_of 2 (lit [:: [:: 0; -4%:R]; [:: 1; 2%:R]]) = 4%:R,
      max_abs 2 2 (lit [:: [:: 0; -4%:R]; [:: 1; 2%:R]]) = 4%:R &
      safe_det 2 (lit [:: [:: 0; -4%:R]; [:: 1; 2%:R]]) = 4%:R].
Proof.
have d : det_of 2 (lit [:: [:: 0; -4%:R]; [:: 1; 2%:R]]) = 4%:R.
  by rewrite /det_of (expand_det_row _ ord0) !big_ord_recl big_ord0 /cofactor !det_mx11 !mxE /=.
by split=> //; rewrite safe_det_ok.
Qed.

(* ------------------------------------------------------------------ C54 *)

Theorem C54_lu_product :
  forall (F : numFieldType) (n : nat) (a : 'M[F]_n) (lu : full_piv_lu a), (0 < n)%N ->
    exists r, [/\ lu_product lu = Ok r, size r = n & \prod_(x <- r) x = \det a].
Proof. by move=> F n a lu; apply: lu_product_ok. Qed.
Print Assumptions C54_lu_product.

Theorem C54_phase :
  forall (F : numFieldType) (n : nat) (a : 'M[F]_n) (lu : full_piv_lu a),
    phase_of_determinant lu = if \det a == 0 then 0 else \det a / `|\det a|.
Proof. by move=> F n a lu; apply: phase_ok. Qed.
Print Assumptions C54_phase.

Theorem C54_lu_product_empty_refuted :
  exists (F : numFieldType) (a : 'M[F]_0) (lu : full_piv_lu a), lu_product lu = UB.
Proof.
exists rat_numFieldType, 1%:M.
unshelve eexists (@FullPivLU _ _ _ 1%g 1%g 1%:M 1%:M _ _ _ _).
- by rewrite !perm_mx1 !mulmx1.
- by case.
- by case.
- by case.
- rewrite /lu_product /=; case E: (enum 'I_0) => [//|x ?]; by case: x E.
Qed.
Print Assumptions C54_lu_product_empty_refuted.

(* a 2x2 matrix whose pivoting exchanges the rows: det = -6 *)
Example C54_case : exists lu : full_piv_lu (\matrix_(i < 2, j < 2)
    lit [:: [:: 0; 3%:R]; [:: 2%:R; 0]] i j : 'M[rat]_2),
  lu_U lu ord0 ord0 = 2%:R.
Proof.
unshelve eexists (@FullPivLU _ _ _ (tperm ord0 (lift ord0 ord0)) 1%g 1%:M
  (\matrix_(i, j) lit [:: [:: 2%:R; 0]; [:: 0; 3%:R]] i j) _ _ _ _).
- rewrite perm_mx1 mulmx1 mul1mx -row_permE; apply/matrixP => i j; rewrite !mxE.
  case: (tpermP ord0 (lift ord0 ord0) i) => [->|->|]; rewrite /lit /=.
  + by case: j => [[|[|?]]].
  + by case: j => [[|[|?]]].
  + by case: i => [[|[|?]] ?] //= h1 h2; exfalso; [apply: h1 | apply: h2]; apply: val_inj.
- by move=> [[|[|?]] ?] [[|[|?]] ?] //=; rewrite !mxE.
- by move=> i; rewrite mxE eqxx.
- by move=> [[|[|?]] ?] [[|[|?]] ?] //=; rewrite !mxE /lit.
- by rewrite /= mxE.
Qed.
