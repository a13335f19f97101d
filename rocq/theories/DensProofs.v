(* Proofs for the density measurement. *)
From mathcomp Require Import all_ssreflect order ssralg ssrnum ssrint rat matrix.
From mathcomp Require Import zify.
From mathcomp.algebra_tactics Require Import ring.
From Verif Require Import Outcome MatLib MatSpec BlockLib FormulaProofs SrcFormulaProofs BinModel LegendreModel LegendreProofs DensModel DensSpec.

Set Implicit Arguments.
Unset Strict Implicit.
Unset Printing Implicit Defensive.

Local Open Scope ring_scope.
Import Order.TTheory GRing.Theory Num.Theory.

(* ------------------------------------------------------------ the flattened index *)

Definition idx4 (nf ns f1 i f2 j : nat) : nat := (((f1 * ns + i) * nf + f2) * ns + j)%N.

Lemma loop4P (S : Type) nf ns (body : nat -> nat -> nat -> nat -> S -> outcome S) (Inv : nat -> S -> Prop) s :
  Inv 0%N s ->
  (forall f1 i f2 j s, (f1 < nf)%N -> (i < ns)%N -> (f2 < nf)%N -> (j < ns)%N -> Inv (idx4 nf ns f1 i f2 j) s ->
     exists2 s', body f1 i f2 j s = Ok s' & Inv (idx4 nf ns f1 i f2 j).+1 s') ->
  exists2 s', loop4 nf ns body s = Ok s' & Inv (nf * ns * nf * ns)%N s'.
Proof.
move=> h0 hs; rewrite /loop4.
apply: (oloopP (Inv := fun f1 => Inv (f1 * ns * nf * ns)%N)); first by rewrite !mul0n.
move=> f1 s1; rewrite add0n => /andP[_ l1] i1.
have [||s1' e1 v1] := @oloopP _ (fun i => oloop (fun f2 => oloop (fun j => body f1 i f2 j) 0 ns) 0 nf)
  (fun i => Inv ((f1 * ns + i) * nf * ns)%N) 0 ns s1; first by rewrite addn0.
- move=> i s2; rewrite add0n => /andP[_ l2] i2.
  have [||s2' e2 v2] := @oloopP _ (fun f2 => oloop (fun j => body f1 i f2 j) 0 ns)
    (fun f2 => Inv (((f1 * ns + i) * nf + f2) * ns)%N) 0 nf s2; first by rewrite addn0.
  + move=> f2 s3; rewrite add0n => /andP[_ l3] i3.
    have [||s3' e3 v3] := @oloopP _ (fun j => body f1 i f2 j)
      (fun j => Inv (((f1 * ns + i) * nf + f2) * ns + j)%N) 0 ns s3; first by rewrite addn0.
    * move=> j s4; rewrite add0n => /andP[_ l4] i4.
      by have [s5 e5 v5] := hs _ _ _ _ _ l1 l2 l3 l4 i4; exists s5 => //; rewrite addnS.
    exists s3' => //; move: v3; rewrite add0n.
    by have -> : (((f1 * ns + i) * nf + f2) * ns + ns = ((f1 * ns + i) * nf + f2.+1) * ns)%N by rewrite addnS mulSn addnC.
  exists s2' => //; move: v2; rewrite add0n.
  by have -> : (((f1 * ns + i) * nf + nf) * ns = (f1 * ns + i.+1) * nf * ns)%N by rewrite addnS mulSn addnC.
exists s1' => //; move: v1; rewrite add0n.
by have -> : ((f1 * ns + ns) * nf * ns = f1.+1 * ns * nf * ns)%N by rewrite mulSn addnC.
Qed.

Lemma digit_inj n a b a' b' : (b < n)%N -> (b' < n)%N -> (a * n + b = a' * n + b')%N -> a = a' /\ b = b'.
Proof.
move=> l l' e; have n0 : (0 < n)%N by apply: leq_ltn_trans l.
split.
  by move: (congr1 (divn^~ n) e); rewrite !divnMDl // !divn_small // !addn0.
by move: (congr1 (modn^~ n) e); rewrite !modnMDl !modn_small.
Qed.

Lemma idx4_inj nf ns f1 i f2 j f1' i' f2' j' :
  (i < ns)%N -> (f2 < nf)%N -> (j < ns)%N -> (i' < ns)%N -> (f2' < nf)%N -> (j' < ns)%N ->
  (idx4 nf ns f1 i f2 j == idx4 nf ns f1' i' f2' j') = [&& f1 == f1', i == i', f2 == f2' & j == j'].
Proof.
move=> l1 l2 l3 l1' l2' l3'; apply/eqP/and4P => [|[/eqP-> /eqP-> /eqP-> /eqP->] //].
by rewrite /idx4 => /(digit_inj l3 l3')[/(digit_inj l2 l2')[/(digit_inj l1 l1')[-> ->] ->] ->].
Qed.

Lemma idx4_lt nf ns f1 i f2 j : (f1 < nf)%N -> (i < ns)%N -> (f2 < nf)%N -> (j < ns)%N ->
  (idx4 nf ns f1 i f2 j < nf * ns * nf * ns)%N.
Proof.
have H a b n m : (a < n)%N -> (b < m)%N -> (a * m + b < n * m)%N.
  by move=> h1 h2; apply: leq_trans (_ : a.+1 * m <= _)%N; [rewrite mulSn addnC ltn_add2r|rewrite leq_mul2r h1 orbT].
by move=> h1 h2 h3 h4; rewrite /idx4; do 3! (apply: (H) => //).
Qed.

(* ------------------------------------------------------------ the accumulating loops *)

Section Dens.
Variable C : numClosedFieldType.
Implicit Types (d : flavor_data C).

Lemma foldl_inc (S T : Type) (p : S -> C) (step : S -> T -> S) (inc : T -> C) l s :
  (forall s x, p (step s x) = p s + inc x) -> p (foldl step s l) = p s + \sum_(x <- l) inc x.
Proof. by move=> h; elim: l s => [|x l ih] s /=; rewrite ?big_nil ?addr0 // ih h big_cons addrA. Qed.

Lemma sum_delta n k (F : nat -> C) : \sum_(s <- iota 0 n) (if k == s then F s else 0) = if (k < n)%N then F k else 0.
Proof.
have [h|h] := ltnP k n.
  rewrite (bigD1_seq k) ?iota_uniq ?mem_iota //= eqxx big1 ?addr0 // => s ne.
  by rewrite eq_sym (negbTE ne).
rewrite big_seq big1 // => s; rewrite mem_iota /= add0n => l.
by case: eqP => // e; move: h; rewrite e leqNgt l.
Qed.

Variables (cplx : bool) (g0 : rat -> nat -> nat -> nat -> C) (beta : rat) (n_site : nat).

(* the value dense_mat[z][s][s2] *)
Definition dval (tau : rat) (z : nat) d (s s2 : nat) : C :=
  'Re (g0 (minus_zero beta) z s2 s) -
  \sum_(q <- iota 0 (size (fd_annih d))) 'Re (g0_taup cplx g0 tau z d s2 q * M_g0_tauq cplx g0 tau z d s q).

Lemma pair_dens tau z d s st s2 z' s' : ds_dens (pair_step cplx g0 beta tau z d s st s2) z' s' =
  ds_dens st z' s' + (if [&& z' == z, s' == s & s == s2] then dval tau z d s s else 0).
Proof.
rewrite /pair_step /=; case: (s =P s2) => [<-|_]; last by rewrite !andbF addr0.
rewrite (@foldl_inc _ _ (fun f => f z' s') _ (fun q => if (z' == z) && (s' == s) then
   - 'Re (g0_taup cplx g0 tau z d s q * M_g0_tauq cplx g0 tau z d s q) else 0)).
  rewrite /add2 andbT /dval; case: (_ && _); last by rewrite big1 // addr0.
  by rewrite sumrN addrA.
by move=> f q; rewrite /add2; case: (_ && _); rewrite ?addr0.
Qed.

Lemma pair_mat tau z d s st s2 z' s' s2' : ds_mat (pair_step cplx g0 beta tau z d s st s2) z' s' s2' =
  ds_mat st z' s' s2' + (if [&& z' == z, s' == s & s2' == s2] then dval tau z d s s2 else 0).
Proof.
rewrite /pair_step /=.
rewrite (@foldl_inc _ _ (fun f => f z' s' s2') _ (fun q => if [&& z' == z, s' == s & s2' == s2] then
   - 'Re (g0_taup cplx g0 tau z d s2 q * M_g0_tauq cplx g0 tau z d s q) else 0)).
  rewrite /add3 /dval; case: ifP => _; last by rewrite big1 // addr0.
  by rewrite sumrN addrA.
by move=> f q; rewrite /add3; case: ifP; rewrite ?addr0.
Qed.

Lemma flavor_dens tau z d st z' s' : ds_dens (flavor_step cplx g0 beta n_site tau z d st) z' s' =
  ds_dens st z' s' + (if (z' == z) && (s' < n_site)%N then dval tau z d s' s' else 0).
Proof.
rewrite /flavor_step (@foldl_inc _ _ (fun st => ds_dens st z' s') _
  (fun s => if s' == s then (if (z' == z) && (s < n_site)%N then dval tau z d s s else 0) else 0)).
  by rewrite sum_delta andbC; case: (s' < n_site)%N; rewrite ?andbF ?andbT.
move=> st1 s; rewrite (@foldl_inc _ _ (fun st => ds_dens st z' s') _
  (fun s2 => if s == s2 then (if (z' == z) && (s' == s) then dval tau z d s s else 0) else 0)).
  rewrite sum_delta; congr (_ + _); case: (s' == s); rewrite ?andbF ?andbT; last by case: ifP.
  by case: (s < n_site)%N; case: (z' == z).
by move=> st2 s2; rewrite pair_dens; case: (s == s2); rewrite ?andbF ?andbT.
Qed.

Lemma flavor_mat tau z d st z' s' s2' : ds_mat (flavor_step cplx g0 beta n_site tau z d st) z' s' s2' =
  ds_mat st z' s' s2' + (if [&& z' == z, (s' < n_site)%N & (s2' < n_site)%N] then dval tau z d s' s2' else 0).
Proof.
rewrite /flavor_step (@foldl_inc _ _ (fun st => ds_mat st z' s' s2') _
  (fun s => if s' == s then (if (z' == z) && (s2' < n_site)%N then dval tau z d s s2' else 0) else 0)).
  by rewrite sum_delta; case: (s' < n_site)%N; rewrite ?andbF ?andbT.
move=> st1 s; rewrite (@foldl_inc _ _ (fun st => ds_mat st z' s' s2') _
  (fun s2 => if s2' == s2 then (if (z' == z) && (s' == s) then dval tau z d s s2 else 0) else 0)).
  by rewrite sum_delta; congr (_ + _); case: (s' == s); case: (z' == z); case: (s2' < n_site)%N.
by move=> st2 s2; rewrite pair_mat; case: (s2' == s2); rewrite ?andbF ?andbT.
Qed.

Local Notation noflavor := (FlavorData [::] [::] (fun _ _ => 0 : C)).

Lemma matricesP tau flavors z : (z < size flavors)%N ->
  let st := density_matrices cplx g0 beta n_site tau flavors in
  (forall s, (s < n_site)%N -> ds_dens st z s = dval tau z (nth noflavor flavors z) s s) /\
  (forall s s2, (s < n_site)%N -> (s2 < n_site)%N -> ds_mat st z s s2 = dval tau z (nth noflavor flavors z) s s2).
Proof.
move=> hz; rewrite /density_matrices.
have S (F : nat -> flavor_data C -> C) (fl : seq (flavor_data C)) k :
  \sum_(x <- zip (iota k (size fl)) fl) (if z == x.1 then F x.1 x.2 else 0) =
  if (k <= z < k + size fl)%N then F z (nth noflavor fl (z - k)) else 0.
  elim: fl k => [|d fl ih] k /=; first by rewrite big_nil addn0; case: ifP => //; lia.
  rewrite big_cons ih /= addSnnS; case: (ltngtP k z) => [lt|gt|->].
  - by rewrite add0r; have -> : (z - k = (z - k.+1).+1)%N by move: lt; clear; lia.
  - by rewrite addr0.
  - have -> : (z < z + (size fl).+1)%N by clear; lia.
    by rewrite subnn /= addr0.
split=> [s ls|s s2 ls ls2].
  rewrite (@foldl_inc _ _ (fun st => ds_dens st z s) _ (fun zd => if z == zd.1 then dval tau zd.1 zd.2 s s else 0)).
    by rewrite /= add0r (S (fun a b => dval tau a b s s)) subn0 add0n hz.
  by move=> st zd; rewrite flavor_dens ls andbT.
rewrite (@foldl_inc _ _ (fun st => ds_mat st z s s2) _ (fun zd => if z == zd.1 then dval tau zd.1 zd.2 s s2 else 0)).
  by rewrite /= add0r (S (fun a b => dval tau a b s s2)) subn0 add0n hz.
by move=> st zd; rewrite flavor_mat ls ls2 !andbT.
Qed.

(* ------------------------------------------------------------ against Wick's theorem *)

Lemma det_bordered n m (N M B Cc Dd : nat -> nat -> C) : inverse_of n N M ->
  det_of (n + m) (bordered n N B Cc Dd) / det_of n N =
  det_of m (fun a b => Dd a b - \sum_(p < n) Cc a p * \sum_(q < n) M p q * B q b).
Proof.
move=> h; have u := inverse_of_unit h; have /inverse_ofP h' := inverse_of_sym h.
rewrite !det_ofE /fdet mxof_bordered (det_schur _ _ _ h') mulrC mulKf //.
rewrite -mulmxA; congr (\det _); apply/matrixP => a b; rewrite !mxE; congr (_ - _).
by apply: eq_bigr => p _; rewrite !mxE; congr (_ * _); apply: eq_bigr => q _; rewrite !mxE.
Qed.

Lemma det_of1 (a : nat -> nat -> C) : det_of 1 a = a 0%N 0%N.
Proof. by rewrite /det_of det_mx11 mxE. Qed.
Lemma det_of2 (a : nat -> nat -> C) : det_of 2 a = a 0%N 0%N * a 1%N 1%N - a 0%N 1%N * a 1%N 0%N.
Proof. by rewrite /det_of det22 !mxE. Qed.

(* the exact one-particle density matrix of a flavor *)
Definition wickm (g : rat -> nat -> nat -> C) (mz tau : rat) d (s s2 : nat) : C :=
  g mz s2 s - \sum_(p < size (fd_annih d))
     g (tau - (nth (0%N, 0) (fd_creat d) p).2) s2 (nth (0%N, 0) (fd_creat d) p).1 *
     \sum_(q < size (fd_annih d)) fd_M d p q *
       g ((nth (0%N, 0) (fd_annih d) q).2 - tau) (nth (0%N, 0) (fd_annih d) q).1 s.

Lemma wick1 g mz tau d N i : inverse_of (size (fd_annih d)) N (fd_M d) ->
  density_product g mz tau (Conf (fd_annih d) (fd_creat d) N) [:: i] = wickm g mz tau d i i.
Proof. by move=> h; rewrite /density_product /= (det_bordered _ _ _ _ h) det_of1. Qed.

Lemma wick2 g mz tau d N i j : inverse_of (size (fd_annih d)) N (fd_M d) ->
  density_product g mz tau (Conf (fd_annih d) (fd_creat d) N) [:: i; j] =
  wickm g mz tau d i i * wickm g mz tau d j j - wickm g mz tau d i j * wickm g mz tau d j i.
Proof.
move=> h; rewrite /density_product /= (det_bordered _ _ _ _ h) det_of2 /=.
by congr (_ - _); rewrite mulrC.
Qed.

Lemma M_g0E tau z d s p : M_g0_tauq cplx g0 tau z d s p =
  \sum_(q < size (fd_annih d)) fd_M d p q * g0_tauq cplx g0 tau z d s q.
Proof.
rewrite /M_g0_tauq (@foldl_inc _ _ id _ (fun q => fd_M d p q * g0_tauq cplx g0 tau z d s q)) // add0r.
by rewrite -{1}[size (fd_annih d)]subn0 -/(index_iota _ _) big_mkord.
Qed.

(* the measured matrix is the real part of the exact one *)
Lemma dvalE tau z d s s2 :
  dval tau z d s s2 = 'Re (wickm (fun t a b => castM cplx (g0 t z a b)) (minus_zero beta) tau d s s2).
Proof.
rewrite /dval /wickm raddfB /=; congr (_ - _).
  by rewrite /castM; case: cplx => //; apply/esym/Creal_ReP; exact: Creal_Re.
rewrite -{1}[size (fd_annih d)]subn0 -/(index_iota _ _) big_mkord raddf_sum.
by apply: eq_bigr => p _; rewrite /= /g0_taup M_g0E.
Qed.

Lemma wick_real (g : rat -> nat -> nat -> C) mz tau d s s2 :
  (forall t a b, g t a b \is Num.real) ->
  (forall p q, (p < size (fd_annih d))%N -> (q < size (fd_annih d))%N -> fd_M d p q \is Num.real) ->
  wickm g mz tau d s s2 \is Num.real.
Proof.
move=> hg hM; rewrite /wickm rpredB ?hg // rpred_sum // => p _; rewrite rpredM ?hg //.
by rewrite rpred_sum // => q _; rewrite rpredM ?hM.
Qed.

(* ------------------------------------------------------------ one configuration *)

Definition dcorr tau (flavors : seq (flavor_data C)) (f1 i f2 j : nat) : C :=
  let D z := dval tau z (nth noflavor flavors z) in
  if f1 == f2 then (if i == j then D f1 i i else D f1 i i * D f1 j j - D f1 i j * D f1 j i)
  else D f1 i i * D f2 j j.

Lemma dval_in tau z d s s2 : dval tau z d s s2 \is Num.real.
Proof. by rewrite dvalE Creal_Re. Qed.

Lemma dcorr_real tau flavors f1 i f2 j : dcorr tau flavors f1 i f2 j \is Num.real.
Proof.
rewrite /dcorr; case: ifP => _; [case: ifP => _|]; first exact: dval_in.
  by apply: rpredB; apply: rpredM; exact: dval_in.
by apply: rpredM; exact: dval_in.
Qed.

Lemma ninjE tau flavors f1 i f2 j : (f1 < size flavors)%N -> (i < n_site)%N -> (f2 < size flavors)%N -> (j < n_site)%N ->
  ninj (density_matrices cplx g0 beta n_site tau flavors) f1 i f2 j = dcorr tau flavors f1 i f2 j.
Proof.
move=> l1 l2 l3 l4; have [a1 b1] := matricesP tau l1; have [a2 b2] := matricesP tau l3.
by rewrite /ninj /dcorr !a1 // !a2 // !b1.
Qed.

Lemma fillP tau flavors (nf := size flavors) (n := (nf * n_site * nf * n_site)%N) :
  exists2 x, fill_ninj n_site (density_matrices cplx g0 beta n_site tau flavors) nf = Ok x &
  [/\ size x.2.1 = n, size x.2.2 = n &
    forall f1 i f2 j, (f1 < nf)%N -> (i < n_site)%N -> (f2 < nf)%N -> (j < n_site)%N ->
      nth 0 x.2.1 (idx4 nf n_site f1 i f2 j) = dcorr tau flavors f1 i f2 j /\
      nth 0 x.2.2 (idx4 nf n_site f1 i f2 j) = 0].
Proof.
rewrite /fill_ninj; set st := density_matrices _ _ _ _ _ _.
have en : (n_site * n_site * nf * nf = n)%N by rewrite /n; clear; lia.
rewrite en.
have [||x e [h1 h2 h3 h4]] := @loop4P _ nf n_site (fun flavor1 i flavor2 j (x : nat * (seq C * seq C)) =>
      let v := ninj st flavor1 i flavor2 j in
      obind (put x.2.1 x.1 ('Re v)) (fun re =>
      obind (put x.2.2 x.1 ('Im v)) (fun im => Ok (x.1.+1, (re, im)))))
  (fun p x => [/\ x.1 = p, size x.2.1 = n, size x.2.2 = n & forall f1 i f2 j,
     (f1 < nf)%N -> (i < n_site)%N -> (f2 < nf)%N -> (j < n_site)%N -> (idx4 nf n_site f1 i f2 j < p)%N ->
     nth 0 x.2.1 (idx4 nf n_site f1 i f2 j) = dcorr tau flavors f1 i f2 j /\ nth 0 x.2.2 (idx4 nf n_site f1 i f2 j) = 0])
  (0%N, (nseq n 0, nseq n 0)).
- by split; rewrite ?size_nseq.
- move=> f1 i f2 j [p [re im]] l1 l2 l3 l4 /= [-> s1 s2 h].
  have lp := idx4_lt l1 l2 l3 l4.
  have [|re' -> [r1 r2]] := @put_ok _ 0 re (idx4 nf n_site f1 i f2 j) ('Re (ninj st f1 i f2 j)); first by rewrite s1.
  have [|im' /= -> [i1 i2]] := @put_ok _ 0 im (idx4 nf n_site f1 i f2 j) ('Im (ninj st f1 i f2 j)); first by rewrite s2.
  eexists; first reflexivity; split; rewrite /= ?r1 ?i1 // => f1' i' f2' j' k1 k2 k3 k4.
  rewrite ltnS leq_eqVlt r2 i2 (idx4_inj _ _ k2 k3 k4 l2 l3 l4).
  case: and4P => [[/eqP-> /eqP-> /eqP-> /eqP->] _|_ /= lt]; last exact: h.
  rewrite ninjE //; split; first by apply/Creal_ReP/dcorr_real.
  by apply/Creal_ImP/dcorr_real.
exists x; first exact: e.
by split=> // f1 i f2 j l1 l2 l3 l4; apply: h4 => //; exact: idx4_lt.
Qed.

Lemma measureP tau sign flavors (nf := size flavors) (n := (nf * n_site * nf * n_site)%N) :
  exists2 sm, measure_densities cplx g0 beta n_site tau sign flavors = Ok sm &
  [/\ sm_sign sm = 'Re sign, size (sm_dens sm) = nf, size (sm_real sm) = n /\ size (sm_imag sm) = n,
    (forall z, (z < nf)%N -> nth 0 (sm_dens sm) z =
       'Re sign * ((\sum_(s < n_site) dval tau z (nth noflavor flavors z) s s) / n_site%:R)) &
    forall f1 i f2 j, (f1 < nf)%N -> (i < n_site)%N -> (f2 < nf)%N -> (j < n_site)%N ->
      nth 0 (sm_real sm) (idx4 nf n_site f1 i f2 j) = 'Re sign * dcorr tau flavors f1 i f2 j /\
      nth 0 (sm_imag sm) (idx4 nf n_site f1 i f2 j) = 0].
Proof.
rewrite /measure_densities; have [x -> [h1 h2 h3]] := fillP tau flavors; rewrite /=.
eexists; first reflexivity; rewrite /= !size_map size_iota; split=> //.
  move=> z lz; rewrite (nth_map 0%N) ?size_iota // nth_iota // add0n; congr (_ * (_ / _)).
  rewrite (@foldl_inc _ _ id _ (fun s => ds_dens (density_matrices cplx g0 beta n_site tau flavors) z s)) // add0r.
  rewrite -{1}[n_site]subn0 -/(index_iota _ _) big_mkord; apply: eq_bigr => s _.
  by have [-> //] := matricesP tau lz.
move=> f1 i f2 j l1 l2 l3 l4; have lt := idx4_lt l1 l2 l3 l4.
have [e1 e2] := h3 _ _ _ _ l1 l2 l3 l4.
by rewrite !(nth_map 0) ?h1 ?h2 // e1 e2 mulr0.
Qed.

(* ------------------------------------------------------------ the evaluation *)

Lemma meanE (l : seq C) : mean l = (\sum_(x <- l) x) / (size l)%:R.
Proof. by rewrite /mean (@foldl_inc _ _ id _ id) // add0r. Qed.

Lemma mean_vecE n (l : seq (seq C)) : l != [::] -> all (fun v => size v == n) l ->
  size (mean_vec l) = n /\ forall i, (i < n)%N -> nth 0 (mean_vec l) i = (\sum_(v <- l) nth 0 v i) / (size l)%:R.
Proof.
move=> nl hl; have e : size (head [::] l) = n by case: l nl hl => // v l _ /= /andP[/eqP].
rewrite /mean_vec e size_map size_iota; split=> // i li.
by rewrite (nth_map 0%N) ?size_iota // nth_iota // add0n meanE size_map big_map.
Qed.

Lemma postP (nf : nat) (cs : seq (rat * (C * seq (flavor_data C)))) :
  (0 < size cs)%N -> all (fun c => size c.2.2 == nf) cs -> \sum_(c <- cs) 'Re c.2.1 != 0 ->
  exists2 l, measure_all cplx g0 beta n_site cs = Ok l &
  exists dens ni_nj, [/\ postprocess_densities n_site nf l = Ok (dens, ni_nj), size dens = nf,
    (forall z, (z < nf)%N -> nth 0 dens z =
       (\sum_(c <- cs) 'Re c.2.1 * ((\sum_(s < n_site) dval c.1 z (nth noflavor c.2.2 z) s s) / n_site%:R)) /
       \sum_(c <- cs) 'Re c.2.1) &
    forall f1 i f2 j, (f1 < nf)%N -> (i < n_site)%N -> (f2 < nf)%N -> (j < n_site)%N ->
      ni_nj f1 i f2 j = (\sum_(c <- cs) 'Re c.2.1 * dcorr c.1 c.2.2 f1 i f2 j) / \sum_(c <- cs) 'Re c.2.1].
Proof.
move=> ncs hsz nz; set n := (nf * n_site * nf * n_site)%N.
have [l -> [szl h1 [h2 h3] h4 h5]] : exists2 l, measure_all cplx g0 beta n_site cs = Ok l &
  [/\ size l = size cs, \sum_(s <- l) sm_sign s = \sum_(c <- cs) 'Re c.2.1,
   all (fun s => size (sm_dens s) == nf) l /\ all (fun s => (size (sm_real s) == n) && (size (sm_imag s) == n)) l,
   (forall z, (z < nf)%N -> \sum_(s <- l) nth 0 (sm_dens s) z =
     \sum_(c <- cs) 'Re c.2.1 * ((\sum_(s < n_site) dval c.1 z (nth noflavor c.2.2 z) s s) / n_site%:R)) &
   forall f1 i f2 j, (f1 < nf)%N -> (i < n_site)%N -> (f2 < nf)%N -> (j < n_site)%N ->
     \sum_(s <- l) nth 0 (sm_real s) (idx4 nf n_site f1 i f2 j) = \sum_(c <- cs) 'Re c.2.1 * dcorr c.1 c.2.2 f1 i f2 j /\
     \sum_(s <- l) nth 0 (sm_imag s) (idx4 nf n_site f1 i f2 j) = 0].
  elim: cs hsz {ncs nz} => [|c cs ih] /=.
    by exists [::] => //; split; rewrite ?big_nil // => *; rewrite ?big_nil.
  case/andP=> /eqP hc hcs; have [sm] := measureP c.1 c.2.1 c.2.2; rewrite hc => -> [a1 a2 [a3 a4] a5 a6].
  have [l /= -> [szl h1 [h2 h3] h4 h5]] := ih hcs; exists (sm :: l) => //; split; rewrite /= ?szl //.
  - by rewrite !big_cons a1 h1.
  - by rewrite a2 a3 a4 !eqxx.
  - by move=> z lz; rewrite !big_cons a5 // h4.
  move=> f1 i f2 j l1 l2 l3 l4; have [b1 b2] := a6 _ _ _ _ l1 l2 l3 l4; have [c1 c2] := h5 _ _ _ _ l1 l2 l3 l4.
  by rewrite !big_cons b1 b2 c1 c2 addr0.
exists l => //; rewrite /postprocess_densities.
have cnt : (size cs)%:R != 0 :> C by rewrite pnatr_eq0 -lt0n.
set sg := mean _; have esg : sg = (\sum_(c <- cs) 'Re c.2.1) / (size cs)%:R by rewrite /sg meanE big_map h1 size_map szl.
have div (x : C) : x / (size cs)%:R / sg = x / \sum_(c <- cs) 'Re c.2.1.
  by rewrite esg invfM invrK mulrACA mulrC mulrA mulVf ?mul1r // mulrA mulrAC -mulrA divff ?mulr1.
have ntm (T : eqType) (f : sample C -> T) : [seq f s | s <- l] != [::] by rewrite -size_eq0 size_map szl -lt0n.
have [|d1 d2] := @mean_vecE nf [seq sm_dens s | s <- l] (ntm _ _); first by rewrite all_map.
have [|r1 r2] := @mean_vecE n [seq sm_real s | s <- l] (ntm _ _).
  by rewrite all_map; apply: sub_all h3 => s /andP[].
have [|i1 i2] := @mean_vecE n [seq sm_imag s | s <- l] (ntm _ _).
  by rewrite all_map; apply: sub_all h3 => s /andP[].
have [||x e [e1 e2]] := @loop4P _ nf n_site (fun f1 s1 f2 s2 (x : nat * (nat -> nat -> nat -> nat -> C)) =>
      obind (get (mean_vec [seq sm_real s | s <- l]) x.1) (fun r => obind (get (mean_vec [seq sm_imag s | s <- l]) x.1) (fun i =>
      Ok (x.1.+1, set4 x.2 f1 s1 f2 s2 ((r + 'i * i) / sg)))))
  (fun p x => x.1 = p /\ forall f1 i f2 j,
     (f1 < nf)%N -> (i < n_site)%N -> (f2 < nf)%N -> (j < n_site)%N -> (idx4 nf n_site f1 i f2 j < p)%N ->
     x.2 f1 i f2 j = (\sum_(c <- cs) 'Re c.2.1 * dcorr c.1 c.2.2 f1 i f2 j) / \sum_(c <- cs) 'Re c.2.1)
  (0%N, fun _ _ _ _ => 0).
- by split.
- move=> f1 i f2 j [p f] l1 l2 l3 l4 /= [-> h]; have lp := idx4_lt l1 l2 l3 l4.
  rewrite (get_ok 0) ?r1 //= (get_ok 0) ?i1 //=; eexists; first reflexivity.
  split=> //= f1' i' f2' j' k1 k2 k3 k4.
  rewrite ltnS leq_eqVlt (idx4_inj _ _ k2 k3 k4 l2 l3 l4) /set4.
  case: and4P => [[/eqP-> /eqP-> /eqP-> /eqP->] _|_ /= lt]; last exact: h.
  have [q1 q2] := h5 _ _ _ _ l1 l2 l3 l4.
  by rewrite r2 // i2 // !big_map q1 q2 mul0r mulr0 addr0 size_map szl div.
rewrite e; exists [seq x / sg | x <- mean_vec [seq sm_dens s | s <- l]], x.2; split=> //.
- by rewrite size_map d1.
- by move=> z lz; rewrite (nth_map 0) ?d1 // d2 // big_map h4 // size_map szl div.
- by move=> f1 i f2 j l1 l2 l3 l4; apply: e2 => //; exact: idx4_lt.
Qed.
End Dens.
