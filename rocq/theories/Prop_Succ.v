(* Property theorems: C85 (replacing several rows and columns one after the other). *)
From mathcomp Require Import all_ssreflect ssralg ssrnum ssrint rat matrix zify.
From mathcomp.algebra_tactics Require Import ring.
From Verif Require Import Outcome MatLib MatSpec FormulaModel FormulaProofs SrcFormulaModel SrcFormulaProofs Prop_Formula Prop_SrcFormula Prop_DetMat SuccModel.

Set Implicit Arguments.
Unset Strict Implicit.
Unset Printing Implicit Defensive.

Local Open Scope ring_scope.
Import GRing.Theory.

(* G with the rows and columns rc replaced: S holds the entries between them, R those of the new
   rows in the other columns, Q those of the new columns in the other rows *)
Definition with_rows_cols (F : fieldType) (N : nat) (rc : seq nat) (G Q R S : nat -> nat -> F) (i j : nat) : F :=
  if i \in rc then (if j \in rc then S (index i rc) (index j rc) else R (index i rc) (index j (others N rc)))
  else if j \in rc then Q (index i (others N rc)) (index j rc) else G i j.
(* G with the first k of them replaced *)
Definition first_replaced (F : fieldType) (N : nat) (rc : seq nat) (G Q R S : nat -> nat -> F) (k i j : nat) : F :=
  if (i \in take k rc) || (j \in take k rc) then with_rows_cols N rc G Q R S i j else G i j.

Section Scatter.
Variables (F : fieldType) (N : nat) (rc : seq nat) (Q R S : nat -> nat -> F) (im : nat).
Hypotheses (srt : sorted ltn rc) (bnd : all (fun p => p < N)%N rc).

Lemma index_filter_iota (P : pred nat) i : (i < N)%N -> P i -> index i [seq k <- iota 0 N | P k] = count P (iota 0 i).
Proof.
move=> il Pi; have -> : iota 0 N = iota 0 i ++ i :: iota i.+1 (N - i.+1).
  by rewrite -[i :: _]/(iota i (N - i.+1).+1) -{2}[i]add0n -iotaD; congr (iota _ _); lia.
rewrite filter_cat /= Pi index_cat mem_filter Pi mem_iota /= add0n ltnn /= eqxx addn0.
by rewrite size_filter.
Qed.

Lemma rc_filter : rc = [seq k <- iota 0 N | k \in rc].
Proof.
apply: (irr_sorted_eq ltn_trans ltnn) => //.
  by apply: sorted_filter; [exact: ltn_trans|exact: iota_ltn_sorted].
by move=> x; rewrite mem_filter mem_iota /= add0n; case: (boolP (x \in rc)) => //= /(allP bnd).
Qed.

Definition row_at (i : nat) : F := if i \in rc then S im (index i rc) else R im (index i (others N rc)).
Definition col_at (i : nat) : F := if i \in rc then S (index i rc) im else Q (index i (others N rc)) im.

Lemma scatterE Dr Dc : forall i, (i < N)%N ->
  (scatter N rc Q R S im Dr Dc).1 0%N i = row_at i /\ (scatter N rc Q R S im Dr Dc).2 i 0%N = col_at i.
Proof.
have h n : (n <= N)%N -> let st := foldl (scatter_step rc Q R S im) (Dr, Dc, 0%N, 0%N) (iota 0 n) in
    [/\ st.1.2 = count (fun k => k \notin rc) (iota 0 n), st.2 = count (mem rc) (iota 0 n) &
        forall i, (i < n)%N -> st.1.1.1 0%N i = row_at i /\ st.1.1.2 i 0%N = col_at i].
  elim: n => [|n IH] nN; first by split.
  have := IH (ltnW nN); rewrite -[n.+1]addn1 iotaD add0n foldl_cat !count_cat [iota n 1]/= /= !addn0.
  case: (foldl _ _ _) => [[[A B] x] y] /= [e1 e2 e3]; rewrite /scatter_step; case: (boolP (n \in rc)) => hn /=.
    have en : index n rc = y by rewrite e2 {1}rc_filter index_filter_iota.
    rewrite e1 e2 addn0 addn1; split=> // i; rewrite addn1 ltnS leq_eqVlt => /orP[/eqP->|il].
      by rewrite /set_at !eqxx /= /row_at /col_at hn en e2.
    by rewrite /set_at (ltn_eqF il) /=; apply: e3.
  have en : index n (others N rc) = x by rewrite e1 /others index_filter_iota.
  rewrite e1 e2 addn0 addn1; split=> // i; rewrite addn1 ltnS leq_eqVlt => /orP[/eqP->|il].
    by rewrite /set_at !eqxx /= /row_at /col_at (negbTE hn) en e1.
  by rewrite /set_at (ltn_eqF il) /=; apply: e3.
by move=> i il; have [_ _ e] := h N (leqnn N); apply: e.
Qed.

End Scatter.

Section Main.
Variables (F : fieldType) (n : nat) (rc : seq nat) (G Q R S : nat -> nat -> F).
Let N := n.+1.
Hypotheses (srt : sorted ltn rc) (bnd : all (fun p => p < N)%N rc).
Notation Gk := (first_replaced N rc G Q R S).

Lemma step_matrix k Dr Dc : (k < size rc)%N ->
  let D := scatter N rc Q R S k Dr Dc in
  feq N N (with_row_col (nth 0%N rc k) (Gk k) (D.1 0%N) (fun i => D.2 i 0%N)) (Gk k.+1).
Proof.
move=> kl D i j il jl; have un := sorted_ltn_uniq srt.
set m := nth 0%N rc k.
have mr : m \in rc by rewrite mem_nth.
have im : index m rc = k by rewrite index_uniq.
have tk x : (x \in take k.+1 rc) = (x \in take k rc) || (x == m).
  by rewrite (take_nth 0%N) // mem_rcons inE orbC.
rewrite /with_row_col /first_replaced !tk.
have [e1 _] := scatterE Q R S k srt bnd Dr Dc jl; have [_ e2] := scatterE Q R S k srt bnd Dr Dc il.
case: (eqVneq i m) => [->|ne].
  by rewrite orbT /= e1 /row_at /with_rows_cols mr im.
case: (eqVneq j m) => [->|ne']; last by rewrite !orbF.
by rewrite !orbT e2 /col_at /with_rows_cols mr im.
Qed.

Lemma step_corner k Dr Dc : (k < size rc)%N ->
  let D := scatter N rc Q R S k Dr Dc in D.1 0%N (nth 0%N rc k) = D.2 (nth 0%N rc k) 0%N.
Proof.
move=> kl D; have un := sorted_ltn_uniq srt.
have ml : (nth 0%N rc k < N)%N by apply: (all_nthP 0%N bnd).
have [-> ->] := scatterE Q R S k srt bnd Dr Dc ml.
by rewrite /row_at /col_at mem_nth // index_uniq.
Qed.

End Main.

(* Every step replaces one row and one column.  If no matrix on the way is singular, with the
   replaced position or without it, the result is the inverse of the matrix with all of them
   replaced and the factor is the ratio of the determinants. *)
Theorem C85_successive :
  forall (F : fieldType) (tiny : F -> F -> bool) (n : nat) (rc : seq nat) (G invG Q R S junk : nat -> nat -> F),
    sorted ltn rc -> all (fun p => p < n.+1)%N rc -> inverse_of n.+1 G invG -> (forall x y, tiny x y -> x = 0) ->
    (forall k, (k < size rc)%N -> det_of n.+1 (first_replaced n.+1 rc G Q R S k.+1) != 0 /\
       let o := others n.+1 [:: nth 0%N rc k] in det_of n (select (first_replaced n.+1 rc G Q R S k) o o) != 0) ->
    exists invG' lambda, [/\ src_succesive tiny n.+1 invG Q R S rc false junk = Ok (invG', lambda),
      inverse_of n.+1 (with_rows_cols n.+1 rc G Q R S) invG' &
      det_of n.+1 (with_rows_cols n.+1 rc G Q R S) = lambda * det_of n.+1 G].
Proof.
move=> F tiny n rc G invG Q R S junk srt bnd h0 tn hk.
pose Gk := first_replaced n.+1 rc G Q R S.
pose run k := foldl (succ_step tiny n.+1 rc Q R S false) (invG, junk, junk, 1) (iota 0 k).
have main k : (k <= size rc)%N -> inverse_of n.+1 (Gk k) (run k).1.1.1 /\ det_of n.+1 (Gk k) = (run k).2 * det_of n.+1 G.
  elim: k => [|k IH] kl.
    have e : feq n.+1 n.+1 G (Gk 0%N) by move=> i j _ _; rewrite /Gk /first_replaced take0.
    split; first by apply: inverse_of_ext h0 => //; exact: feq_refl.
    by rewrite /run /= mul1r; apply: (congr1 determinant); apply/matrixP => i j; rewrite !mxE /Gk /first_replaced take0.
  have [ih1 ih2] := IH (ltnW kl); have [d1 d2] := hk k kl.
  have -> : run k.+1 = succ_step tiny n.+1 rc Q R S false (run k) k by rewrite /run -[k.+1]addn1 iotaD foldl_cat.
  case E : (run k) ih1 ih2 => [[[inv Dr] Dc] lam] /= ih1 ih2.
  have sm := step_matrix G Q R S srt bnd Dr Dc kl; have sc := step_corner Q R S srt bnd Dr Dc kl.
  rewrite /=; case ES : (scatter _ _ _ _ _ _ _ _) sm sc => [A B] /= sm sc.
  set m := nth 0%N rc k in sm sc d2 *; have ml : (m < n.+1)%N by apply: (all_nthP 0%N bnd).
  have edet : det_of n.+1 (with_row_col m (Gk k) (A 0%N) (B^~ 0%N)) = det_of n.+1 (Gk k.+1).
    by apply: (congr1 determinant); apply/matrixP => i j; rewrite !mxE; apply: sm.
  have nz : inv m m != 0.
    apply: contraNneq d2 => e; have := @C09_removal_det_ratio F n.+1 1 [:: m] [:: m] (Gk k) inv.
    rewrite subn1 /= ml => -> //.
    have -> : det_ratio_down 1 [:: m] [:: m] inv = inv m m by rewrite /det_ratio_down !big_ord_recl big_ord0 /absdiff /= subnn /= /fdet det_mx11 mxE.
    by rewrite e mul0r.
  have := @src_row_col_regular_ok F tiny n m (Gk k) inv A B ml ih1 sc nz; rewrite edet => /(_ d1 tn).
  have := @src_row_col_ratio_ok F tiny n m (Gk k) inv A B ml ih1 sc false; rewrite edet.
  case: (src_replace_row_col _ _ _ _ _ _ _) => a l /= el ea.
  split; first by apply: inverse_of_ext ea => //; exact: feq_refl.
  by rewrite el ih2 mulrA [l * _]mulrC.
have [m1 m2] := main _ (leqnn _).
have e : feq n.+1 n.+1 (Gk (size rc)) (with_rows_cols n.+1 rc G Q R S).
  move=> i j _ _; rewrite /Gk /first_replaced take_size /with_rows_cols.
  by case: (i \in rc) => //; case: (j \in rc).
rewrite /src_succesive bnd -/(run (size rc)); case: (run _) m1 m2 => [[[inv Dr] Dc] lam] /= m1 m2.
exists inv, lam; split=> //; first by apply: inverse_of_ext m1 => //; exact: feq_refl.
by rewrite -m2; apply: (congr1 determinant); apply/matrixP => i j; rewrite !mxE; symmetry; apply: e.
Qed.
Print Assumptions C85_successive.

(* The variant for one row and column. *)
Theorem C85_single :
  forall (F : fieldType) (n : nat) (rc : seq nat) (G invG Q R S junk : nat -> nat -> F) (only : bool),
    (size rc <> 1%N -> src_single n.+1 invG Q R S rc only junk = Throw) /\
    (forall m, rc = [:: m] -> (m < n.+1)%N -> inverse_of n.+1 G invG -> invG m m = 0 ->
       exists invG' lambda, [/\ src_single n.+1 invG Q R S rc only junk = Ok (invG', lambda),
         det_of n.+1 (with_rows_cols n.+1 rc G Q R S) = lambda * det_of n.+1 G &
         only -> forall i j, (i < n.+1)%N -> (j < n.+1)%N -> invG' i j = invG i j]).
Proof.
move=> F n rc G invG Q R S junk only; split=> [|m er ml h z]; first by rewrite /src_single => /eqP ->.
have srt : sorted ltn rc by rewrite er.
have bnd : all (fun p => p < n.+1)%N rc by rewrite er /= ml.
have kl : (0 < size rc)%N by rewrite er.
have sm := step_matrix G Q R S srt bnd junk junk kl; have sc := step_corner Q R S srt bnd junk junk kl.
rewrite /src_single {1}er /= bnd; case ES : (scatter _ _ _ _ _ _ _ _) sm sc => [A B] /=; rewrite er /= => sm sc.
have := @C52_row_col2_ratio F n m G invG A B ml h sc z only.
case ER : (src_replace_row_col2 _ _ _ _ _ _) => [a l] /= el.
exists a, (1 * l); split=> //.
  rewrite mul1r -el; apply: (congr1 determinant); apply/matrixP => i j; rewrite !mxE.
  have := sm i j (ltn_ord i) (ltn_ord j); rewrite /first_replaced /= !inE /with_row_col /with_rows_cols !inE.
  by case: (eqVneq (i : nat) m) => [_ ->|_] //=; case: (eqVneq (j : nat) m) => [_ ->|_].
move=> ho i j il jl; move: ER; rewrite /src_replace_row_col2 ho => -[<- _].
by apply: (swaps_revK [:: (m, (n.+1 - 1)%N)]).
Qed.
Print Assumptions C85_single.

(* positions 0 and 2 of a 3 x 3 identity matrix *)
Definition I3 : nat -> nat -> rat := fun i j => (i == j)%:R.
Definition Q3 := lit [:: [:: 0; 2%:R]].
Definition R3 := lit [:: [:: 1]; [:: 0]].
Definition S3 := lit [:: [:: 3%:R; 1]; [:: 1; 4%:R]].

Lemma det3 (a : nat -> nat -> rat) : det_of 3 a = a 0%N 0%N * (a 1%N 1%N * a 2%N 2%N - a 1%N 2%N * a 2%N 1%N)
      - a 0%N 1%N * (a 1%N 0%N * a 2%N 2%N - a 1%N 2%N * a 2%N 0%N) + a 0%N 2%N * (a 1%N 0%N * a 2%N 1%N - a 1%N 1%N * a 2%N 0%N).
Proof.
rewrite /det_of (expand_det_row _ ord0) !big_ord_recl big_ord0 /cofactor !(expand_det_row _ ord0) !big_ord_recl !big_ord0 /cofactor !det_mx11 !mxE /=.
rewrite /bump /= ?addn0 ?add0n ?addn1 ?add1n.
have -> : (-1 : rat) ^+ 0 = 1 by []. 
rewrite expr1 -signr_odd /= expr0.
ring.
Qed.

Example C85_case :
  exists invG' lambda, [/\ src_succesive (fun x _ => x == 0) 3 I3 Q3 R3 S3 [:: 0; 2]%N false (fun _ _ => 0) = Ok (invG', lambda),
      inverse_of 3 (lit [:: [:: 3%:R; 1; 1]; [:: 0; 1; 2%:R]; [:: 1; 0; 4%:R]]) invG' & lambda = 13%:R].
Proof.
have eN i j : (i < 3)%N -> (j < 3)%N -> with_rows_cols 3 [:: 0; 2]%N I3 Q3 R3 S3 i j = lit [:: [:: 3%:R; 1; 1]; [:: 0; 1; 2%:R]; [:: 1; 0; 4%:R]] i j.
  by case: i => [|[|[|]]] //; case: j => [|[|[|]]].
have h0 : inverse_of 3 I3 I3 by move=> [|[|[|?]]] [|[|[|?]]] // _ _; rewrite !big_ord_recl !big_ord0 /I3 /=.
have [||inv [lam [e1 e2 e3]]] := @C85_successive [fieldType of rat] (fun x _ => x == 0) 2 [:: 0; 2]%N I3 I3 Q3 R3 S3 (fun _ _ => 0) isT isT h0.
- by move=> x y /eqP.
- move=> [|[|]] // _; (split; [rewrite det3; by vm_compute|cbv zeta; rewrite det2; by vm_compute]).
exists inv, lam; split=> //.
  by apply: inverse_of_ext e2 => //; exact: feq_refl.
move: e3; rewrite (_ : det_of 3 I3 = 1); last first.
  by rewrite -(det1 _ 3); apply: (congr1 determinant); apply/matrixP => i j; rewrite !mxE.
rewrite mulr1 => <-.
by rewrite det3; apply/eqP; vm_compute.
Qed.

(* position 0 of the exchange of two orbitals, whose inverse has no entry there *)
Definition X2 := lit [:: [:: 0; 1]; [:: 1; 0]].

Example C85_single_case :
  exists invG' lambda, [/\ src_single 2 X2 (lit [:: [:: 5%:R]]) (lit [:: [:: 2%:R]]) (lit [:: [:: 3%:R]]) [:: 0]%N true (fun _ _ => 0) = Ok (invG', lambda),
      lambda = 10%:R & forall i j, (i < 2)%N -> (j < 2)%N -> invG' i j = X2 i j].
Proof.
have h0 : inverse_of 2 X2 X2 by move=> [|[|?]] [|[|?]] // _ _; rewrite !big_ord_recl !big_ord0 /=.
have [_ /(_ 0%N erefl isT h0 erefl) [a [l [e1 e2 e3]]]] := @C85_single [fieldType of rat] 1 [:: 0]%N X2 X2 (lit [:: [:: 5%:R]]) (lit [:: [:: 2%:R]]) (lit [:: [:: 3%:R]]) (fun _ _ => 0) true.
exists a, l; split=> //; last exact: e3.
move: e2; rewrite !det2 => /eqP; rewrite eq_sym.
have -> : X2 0%N 0%N * X2 1%N 1%N - X2 0%N 1%N * X2 1%N 0%N = -1 by apply/eqP; vm_compute.
rewrite mulrN1 eqr_oppLR => /eqP ->; apply/eqP; vm_compute; reflexivity.
Qed.
