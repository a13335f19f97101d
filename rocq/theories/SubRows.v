(* Determinants and inverses over lists of rows: they do not depend on the order, rows
   of non-interacting vertices drop out, and what remains is the weight. *)
From mathcomp Require Import all_ssreflect ssralg ssrnum ssrint matrix ring zify.
From Verif Require Import Outcome MatLib MatSpec BlockLib FormulaProofs SrcFormulaModel SrcFormulaProofs
  SubModel SubSpec SubMath.

Set Implicit Arguments.
Unset Strict Implicit.
Unset Printing Implicit Defensive.

Import GRing.Theory.
Local Open Scope ring_scope.

Section Rows.
Variables (F : numFieldType) (Tm : eqType) (ani : F).
Variable G0 : sop Tm -> sop Tm -> F.
Variable x0 : sop Tm.
Notation row := (arow F Tm).
Notation f := (eval_f ani).
Let r0 : row := row0 F x0.
Implicit Types (rs : seq row).

Definition rG rs : fmat F := fun i j => G0 (ar_ann (nth r0 rs i)) (ar_cre (nth r0 rs j)).
Definition rf rs (j : nat) : F := f (ar_alpha (nth r0 rs j)).
Definition rA rs : fmat F := amat (rG rs) (rf rs).
Definition rdet rs : F := det_of (size rs) (rA rs).

Lemma rA_sel rs Is i j : uniq Is -> (i < size Is)%N -> (j < size Is)%N ->
  rA [seq nth r0 rs k | k <- Is] i j = select (rA rs) Is Is i j.
Proof.
move=> u il jl; rewrite /rA /amat /rG /rf /select !(nth_map 0%N) //.
by rewrite nth_uniq.
Qed.

Lemma perm_Is (T : eqType) (d : T) (s t : seq T) : perm_eq s t ->
  exists2 Is, perm_eq Is (iota 0 (size t)) & s = [seq nth d t k | k <- Is].
Proof. by move/(perm_iotaP d). Qed.

Lemma rdet_perm rs rs' : perm_eq rs rs' -> rdet rs = rdet rs'.
Proof.
move=> /(perm_Is r0) [Is pI ->]; rewrite /rdet size_map.
have sz : size Is = size rs' by rewrite (perm_size pI) size_iota.
have u : uniq Is by rewrite (perm_uniq pI) iota_uniq.
transitivity (det_of (size Is) (select (rA rs') Is Is)).
  by apply: fdet_ext => i j il jl; apply: rA_sel.
by rewrite sz (fdet_select _ pI pI) fsign_sqr mul1r.
Qed.

Lemma rA_cat rs rs' : feq (size rs) (size rs) (rA (rs ++ rs')) (rA rs).
Proof. by move=> i j il jl; rewrite /rA /amat /rG /rf !nth_cat il jl. Qed.

Lemma rf_cat_non rs rs' : all (fun r => ar_alpha r == ani) rs' ->
  forall j, (size rs <= j < size rs + size rs')%N -> rf (rs ++ rs') j = 1.
Proof.
move=> /allP h j jb; rewrite /rf nth_cat ifF; last by apply/negbTE; rewrite -leqNgt; case/andP: jb.
have /h /eqP -> : nth r0 rs' (j - size rs)%N \in rs'.
  by case/andP: jb => j1 j2; apply: mem_nth; rewrite -(ltn_add2l (size rs)) subnKC.
by rewrite /eval_f eqxx.
Qed.

Lemma rdet_cat_non rs rs' : all (fun r => ar_alpha r == ani) rs' -> rdet (rs ++ rs') = rdet rs.
Proof.
move=> h; rewrite /rdet size_cat /rA (det_low _ (rf_cat_non h)).
exact: (fdet_ext (@rA_cat rs rs')).
Qed.

Definition ints rs := [seq r <- rs | ar_alpha r != ani].

Lemma rdet_ints rs : rdet rs = rdet (ints rs).
Proof.
have pe : perm_eq rs (ints rs ++ [seq r <- rs | ~~ (ar_alpha r != ani)]).
  by rewrite perm_sym; apply/permPl; apply: perm_filterC.
rewrite (rdet_perm pe) rdet_cat_non //.
by apply/allP => r; rewrite mem_filter negbK => /andP [].
Qed.

(* ---- the alphas ---- *)

Definition good (a : F) : bool := (a == ani) || ((a != 0) && (a != 1)).

Lemma f_ani : f ani = 1. Proof. by rewrite /eval_f eqxx. Qed.

Lemma f_ne1 a : a != ani -> a != 1 -> f a != 1.
Proof.
move=> h h1; rewrite /eval_f (negbTE h); apply/eqP => e.
have nz : a - 1 != 0 by rewrite subr_eq0.
have : a = a - 1 by rewrite -[LHS](divfK nz) e mul1r.
by move/eqP; rewrite -subr_eq0 opprB addrC subrK oner_eq0.
Qed.

Lemma f_ne0 a : good a -> f a != 0.
Proof.
rewrite /good /eval_f; case: eqP => [_ _|_ /= /andP [a0 a1]]; first exact: oner_neq0.
by rewrite mulf_neq0 // invr_eq0 subr_eq0.
Qed.

Lemma f_inj a b : good a -> good b -> a != b -> f a != f b.
Proof.
have h1 c d : good c -> good d -> c != d -> c = ani -> f c != f d.
  move=> _; rewrite /good => gd cd ec; rewrite ec f_ani eq_sym.
  have dn : d != ani by rewrite -ec eq_sym.
  by move: gd; rewrite (negbTE dn) /= => /andP [_ d1]; apply: f_ne1.
move=> ga gb ab; case: (eqVneq a ani) => [e|an]; first exact: h1.
case: (eqVneq b ani) => [e|bn]; first by rewrite eq_sym; apply: h1 => //; rewrite eq_sym.
move: ga gb; rewrite /good (negbTE an) (negbTE bn) /= => /andP [_ a1] /andP [_ b1].
apply: contra_neq ab; rewrite /eval_f (negbTE an) (negbTE bn) => e.
have na : a - 1 != 0 by rewrite subr_eq0.
have nb : b - 1 != 0 by rewrite subr_eq0.
have : a * (b - 1) = b * (a - 1).
  by apply/eqP; rewrite -eqr_div // e.
by rewrite !mulrBr !mulr1 [b * a]mulrC => /addrI /oppr_inj.
Qed.

(* ---- the weight ---- *)

Definition term (r : row) : sop Tm * sop Tm * F := (ar_ann r, ar_cre r, ar_alpha r).
Definition gfac (a : F) : F := if a == ani then 1 else 1 - f a.
Definition wdet (l : seq (sop Tm * sop Tm * F)) : F := det_of (size l) (sp_mat G0 x0 l).

Lemma gfac_ne0 a : good a -> gfac a != 0.
Proof.
rewrite /gfac; case: (a =P ani) => [_ _|/eqP h /orP [|/andP [_ a1]]]; first exact: oner_neq0.
  by rewrite (negbTE h).
by rewrite subr_eq0 eq_sym f_ne1.
Qed.

Lemma sp_mat_term rs : feq (size rs) (size rs) (sp_mat G0 x0 (map term rs))
  (gmina (rG rs) (fun j => ar_alpha (nth r0 rs j))).
Proof.
move=> i j il jl; rewrite /sp_mat /gmina /rG.
by rewrite !(nth_map r0) //=; case: eqP => [->|].
Qed.

Lemma rdet_weight rs : all (fun r => good (ar_alpha r)) rs ->
  rdet rs = wdet (map term (ints rs)) * \prod_(r <- rs) gfac (ar_alpha r).
Proof.
move=> /allP g; rewrite rdet_ints.
have gi r : r \in ints rs -> (ar_alpha r != ani) && (ar_alpha r != 1).
  rewrite mem_filter => /andP [h /g]; rewrite /good (negbTE h) /=; by case/andP.
have gn j : (j < size (ints rs))%N ->
    (ar_alpha (nth r0 (ints rs) j) != ani) && (ar_alpha (nth r0 (ints rs) j) != 1).
  by move=> jl; apply: gi; apply: mem_nth.
rewrite /rdet /rA (@det_gmina _ _ _ _ (fun j => ar_alpha (nth r0 (ints rs) j))); first last.
- by move=> j /gn /andP [h _]; rewrite /rf /eval_f (negbTE h).
- by move=> j /gn /andP [].
rewrite /wdet size_map; congr (_ * _).
  by apply: esym; apply: fdet_ext; apply: sp_mat_term.
have -> : \prod_(r <- rs) gfac (ar_alpha r) = \prod_(r <- ints rs) (1 - f (ar_alpha r)).
  rewrite big_filter [RHS]big_mkcond; apply: eq_bigr => r _.
  by rewrite /gfac; case: eqP.
by rewrite (big_nth r0) big_mkord.
Qed.

Lemma wdet_perm l l' : perm_eq l l' -> wdet l = wdet l'.
Proof.
move=> /(perm_Is (term0 F x0)) [Is pI ->]; rewrite /wdet size_map.
have sz : size Is = size l' by rewrite (perm_size pI) size_iota.
have u : uniq Is by rewrite (perm_uniq pI) iota_uniq.
transitivity (det_of (size Is) (select (sp_mat G0 x0 l') Is Is)).
  apply: fdet_ext => i j il jl; rewrite /sp_mat /select !(nth_map 0%N) //.
  by rewrite nth_uniq.
by rewrite sz (fdet_select _ pI pI) fsign_sqr mul1r.
Qed.

End Rows.
