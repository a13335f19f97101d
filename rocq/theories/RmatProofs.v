(* Proofs about the resizable matrix and the scaled determinant and inverse. *)
From mathcomp Require Import all_ssreflect order ssralg ssrnum fingroup perm matrix mxalgebra zify.
From Verif Require Import Outcome MatLib MatSpec FormulaProofs RmatModel RmatSpec.

Set Implicit Arguments.
Unset Strict Implicit.
Unset Printing Implicit Defensive.

Local Open Scope ring_scope.
Import Order.TTheory GRing.Theory Num.Theory.

Section Rmat.
Variable F : fieldType.
Implicit Types (s : rmat F) (p : plain F) (junk a b : fmat F).

(* working form of [shows] *)
Definition rep s p : Prop :=
  [/\ match rsize s with Some nm => nm = (rows p, cols p) | None => rows p = 0%N /\ cols p = 0%N end,
      (rows p <= mem1 s)%N, (cols p <= mem2 s)%N &
      forall i j v, (i < rows p)%N -> (j < cols p)%N -> ent p i j = Some v -> vals s i j = v].

Lemma repP s p : rep s p <-> shows s p.
Proof.
split.
- case=> z m1 m2 h; split=> //.
  + by rewrite /r_size1; case: (rsize s) z => [[n m] [-> _]|[-> _]].
  + by rewrite /r_size2; case: (rsize s) z => [[n m] [_ ->]|[_ ->]].
  + move=> i j il jl; exists (vals s i j); split; last by move=> v /h ->.
    by rewrite /r_read /in_mem (leq_trans il) // (leq_trans jl).
- case=> z1 z2 m1 m2 h; split=> //.
  + move: z1 z2; rewrite /r_size1 /r_size2; case: (rsize s) => [[n m] -> -> //|<- <- //].
  + move=> i j v il jl e; have [w [r1 /(_ v e) <-]] := h _ _ il jl; move: r1.
    by rewrite /r_read; case: ifP => // _ [].
Qed.

Lemma enlarge_le n : (n <= enlarge n)%N. Proof. rewrite /enlarge; lia. Qed.

Lemma exch_lt n k l i : (k < n)%N -> (l < n)%N -> (i < n)%N -> (exch k l i < n)%N.
Proof. by move=> kn ln il; rewrite /exch; case: eqP => // _; case: eqP. Qed.

Lemma inverse_unique n a b c : inverse_of n a b -> inverse_of n a c -> feq n n b c.
Proof.
move=> hb hc; have hc' := inverse_of_sym hc; move: hb hc'.
move=> /inverse_ofP h1 /inverse_ofP h2; apply/mxofE.
by rewrite -[mxof n n b]mul1mx -h2 -mulmxA h1 mulmx1.
Qed.

Lemma r_call_ok s p c p' : rep s p -> plain_call p c p' ->
  exists s', r_call s c = Ok s' /\ rep s' p'.
Proof.
case=> z m1 m2 h; case: c => [i j v|a b|a b|a b|junk n m|junk n m|r c|||n m a|] /=.
- case=> il jl ->; rewrite /r_write /in_mem (leq_trans il) // (leq_trans jl) //=.
  eexists; split; first by []; split=> // i' j' w /= il' jl'.
  by case: ifP => [_ []|_ /h ->].
- case=> al bl ->; rewrite /r_swap_row (leq_trans al) // (leq_trans bl) //=.
  eexists; split; first by []; split=> // i j w /= il jl; rewrite /fswap_row /swapi.
  by apply: h => //; apply: exch_lt.
- case=> al bl ->; rewrite /r_swap_col (leq_trans al) // (leq_trans bl) //=.
  eexists; split; first by []; split=> // i j w /= il jl; rewrite /fswap_col /swapi.
  by apply: h => //; apply: exch_lt.
- case=> ar [br [ac [bc ->]]].
  rewrite /r_swap_row_col /r_swap_col (leq_trans ac) // (leq_trans bc) //=.
  rewrite /r_swap_row /= (leq_trans ar) // (leq_trans br) //=.
  eexists; split; first by []; split=> // i j w /= il jl; rewrite /fswap_row /fswap_col /swapi.
  by apply: h; apply: exch_lt.
- move=> ->; eexists; split; first by [].
  rewrite /r_conservative; case: (rsize s) z => [nm z|[z1 z2]].
  + case: ifP => [_|hm]; (split=> /=; rewrite ?enlarge_le //; try by lia).
    * move=> i j w il jl; case: ifP => // /andP [ir jc] e.
      have := enlarge_le n; have := enlarge_le m => e1 e2.
      rewrite /keep ifT; first exact: h.
      by rewrite !leq_min; apply/andP; split; apply/andP; split; lia.
    * by move=> i j w il jl; case: ifP => // /andP [ir jc]; apply: h.
  + split=> //= i j w il jl; rewrite z1 ltn0 //.
- move=> ->; eexists; split; first by [].
  rewrite /r_destructive; case: (rsize s) z => [nm z|[z1 z2]]; last by split.
  by case: ifP => [_|hm]; split=> //=; rewrite ?enlarge_le //; lia.
- case=> rc [hr [hc ->]]; rewrite /r_remove; case: (rsize s) z => [nm ->|[z1 z2]].
  + rewrite !eqn0Ngt; case: r hr {rc} => /= hr; case: c hc => /= hc; rewrite ?hr ?hc /=;
    (eexists; split; first by []; split=> /=; rewrite ?subn0 ?subn1 //; try by lia);
    move=> i j v il jl; apply: h; lia.
  + by case: r c rc hr hc => [] []; rewrite ?z1 ?z2.
- case=> sq ->; rewrite /r_identity; case E: (rsize s) z => [nm|].
  + move=> z; rewrite z; case: eqP => [r0|_].
      by eexists; split; first by []; split; rewrite ?E //= => i j v; rewrite r0.
    eexists; split; first by []; split; rewrite ?E //= => i j v il jl [<-].
    by rewrite il jl /= /fid.
  + by case=> z1 z2; eexists; split; first by []; split; rewrite ?E //= => i j v; rewrite z1.
- move=> ->; eexists; split; first by [].
  rewrite /r_clear; case E: (rsize s) z => [nm|]; last first.
    by case=> z1 z2; split=> //=; rewrite ?E // => i j v; rewrite z1.
  move=> z; rewrite z; split; rewrite ?E ?z //= => i j v il jl [<-].
  by rewrite il jl.
- by move=> ->; eexists; split; first by []; split=> //= i j v il jl [].
- case=> a [b [sq ea hab ->]]; rewrite /r_invert; case E: (rsize s) z => [nm|].
  + move=> z; rewrite z; case: eqP => [r0|_].
      eexists; split; first by []; split; rewrite ?E ?z //= => i j v il jl.
      by move/eqP: r0; rewrite muln_eq0 => /orP [] /eqP r0; move: il jl; rewrite ?r0.
    eexists; split; first by []; split=> //= i j v il jl [<-].
    have ev : feq (rows p) (rows p) a (vals s).
      by move=> i' j' il' jl'; rewrite (h i' j' (a i' j')) // ?ea // -?sq.
    have hb : inverse_of (rows p) (vals s) b by apply: inverse_of_ext hab.
    have hf : inverse_of (rows p) (vals s) (finv (rows p) (vals s)).
      by apply: finv_inverse; exact: (inverse_of_unit hb).
    by apply: (inverse_unique hf hb) => //; rewrite sq.
  + by case=> z1 z2; eexists; split; first by []; split; rewrite ?E //= => i j v; rewrite z1.
Qed.

Lemma r_run_ok s p cs p' : rep s p -> plain_run p cs p' ->
  exists s', r_run s cs = Ok s' /\ rep s' p'.
Proof.
elim: cs s p => [|c cs IH] s p hr /=; first by move=> ->; exists s.
case=> q [/(r_call_ok hr) [s1 [e1 r1]] /(IH _ _ r1) [s2 [e2 r2]]].
by exists s2; split=> //; rewrite /r_run /= e1.
Qed.

Lemma r_make_ok junk n m : rep (r_make junk n m) (Plain n m (fun _ _ => None)).
Proof. by []. Qed.
Lemma r_make_filled_ok n m (v : F) : rep (r_make_filled n m v) (Plain n m (fun _ _ => Some v)).
Proof. by split=> //= i j w _ _ []. Qed.
Lemma r_default_ok junk : rep (r_default junk) (Plain 0 0 (fun _ _ => None)).
Proof. by []. Qed.

Lemma r_copy_ok junk s p : rep s p -> rep (r_copy junk s) p.
Proof.
move=> rp; rewrite /r_copy; case E: (rsize s) => [//|]; case: rp; rewrite E => [[z1 z2]] m1 m2 h.
by split=> //=; rewrite ?z1 ?z2.
Qed.

Lemma r_combine_ok (f : F -> F -> F) s t p q : rep s p -> rep t q -> rsize s <> None ->
  rows q = rows p -> cols q = cols p ->
  exists u, r_combine f s t = Ok u /\
    rep u (Plain (rows p) (cols p) (fun i j =>
      if ent p i j is Some x then if ent q i j is Some y then Some (f x y) else None else None)).
Proof.
move=> [z m1 m2 h] [z' m1' m2' h'] al er ec; rewrite /r_combine.
case E: (rsize s) z al => [nm|//] z _; rewrite z -er -ec m1' m2' /=.
eexists; split; first by []; split; rewrite /= ?E ?z ?er ?ec // => i j v il jl.
case e1: (ent p i j) => [x|//]; case e2: (ent q i j) => [y|//] [<-].
by rewrite il jl /= (h _ _ _ il jl e1) (h' i j y) ?er ?ec.
Qed.

Lemma r_gemm_ok junk (a b c : rmat F) p q r x y : rep a p -> rep b q -> rep c r ->
  rsize a <> None -> rsize b <> None ->
  (forall i j, (i < rows p)%N -> (j < cols p)%N -> ent p i j = Some (x i j)) ->
  (forall i j, (i < rows q)%N -> (j < cols q)%N -> ent q i j = Some (y i j)) ->
  cols p = rows q ->
  exists u, r_gemm junk a b c = Ok u /\
    rep u (Plain (rows p) (cols q) (fun i j => Some (\sum_(k < cols p) x i k * y k j))).
Proof.
move=> ra rb rc na nb hx hy e; rewrite /r_gemm.
case: ra; case Ea: (rsize a) na => [nm|//] _ -> ma1 ma2 ha.
case: rb; case Eb: (rsize b) nb => [nm'|//] _ -> mb1 mb2 hb.
eexists; split; first by [].
have [s' [[<-] [z1 m1 m2 _]]] := @r_call_ok c r (CDestructive junk (rows p) (cols q)) _ rc erefl.
split=> //= i j v il jl [<-]; rewrite il jl /= /fmul; apply: eq_bigr => k _.
by rewrite (ha i k (x i k)) ?hx // (hb k j (y k j)) ?hy // -e.
Qed.

Lemma r_copy_block_ok s d p q rs cs rd cd n m : rep s p -> rep d q ->
  (rs + n <= rows p)%N -> (cs + m <= cols p)%N -> (rd + n <= rows q)%N -> (cd + m <= cols q)%N ->
  exists u, r_copy_block s d rs cs rd cd n m = Ok u /\
    rep u (Plain (rows q) (cols q) (fun i j =>
      if [&& (rd <= i)%N, (i < rd + n)%N, (cd <= j)%N & (j < cd + m)%N]
      then ent p (rs + (i - rd))%N (cs + (j - cd))%N else ent q i j)).
Proof.
move=> [z m1 m2 h] [z' m1' m2' h'] l1 l2 l3 l4; rewrite /r_copy_block.
rewrite !(leq_trans _ m1, leq_trans _ m2, leq_trans _ m1', leq_trans _ m2') //=.
eexists; split; first by []; split=> //= i j v il jl.
case: ifP => [/and4P [a b c e]|_]; last exact: h'.
by apply: h; lia.
Qed.

Lemma r_determinant_ok s p a : rep s p -> rsize s <> None -> rows p = cols p ->
  (forall i j, (i < rows p)%N -> (j < cols p)%N -> ent p i j = Some (a i j)) ->
  r_determinant s = Ok (det_of (rows p) a).
Proof.
case=> z m1 m2 h al sq hx; rewrite /r_determinant; case E: (rsize s) z al => [nm|//] -> _.
have rd i j : (i < rows p)%N -> (j < cols p)%N -> r_read s i j = Ok (a i j).
  move=> il jl; rewrite /r_read /in_mem (leq_trans il m1) (leq_trans jl m2) /=.
  by rewrite (h i j (a i j)) // hx.
have -> : det_of (rows p) a = fdet (rows p) (vals s).
  by apply: fdet_ext => i j il jl; rewrite (h i j (a i j)) ?hx // -?sq.
rewrite /fdet; case: eqP => [->|n0]; first by rewrite det_mx00.
have vE i j : (i < rows p)%N -> (j < cols p)%N -> vals s i j = a i j.
  by move=> il jl; rewrite (h i j (a i j)) // hx.
case: eqP => [n1|n1]; first by rewrite rd -?sq ?n1 // det_mx11 mxE vE -?sq ?n1.
case: eqP => [n2|//]; rewrite !rd -?sq ?n2 //=.
rewrite (expand_det_row _ ord0) !big_ord_recl big_ord0 /cofactor !det_mx11 !mxE /=.
by rewrite !vE -?sq ?n2 //= !expr0 !mul1r /bump /= expr1 mulN1r mulrN addr0.
Qed.

End Rmat.

Section Safe.
Variable F : numFieldType.
Implicit Types a b : fmat F.

Lemma foldl_max_ge (l : seq F) x : 0 <= x -> all (fun v => 0 <= v) l ->
  let r := foldl (fun r v => Num.max r v) x l in
  [/\ x <= r, all (fun v => v <= r) l & r \in x :: l].
Proof.
elim: l x => [|v l IH] x x0 /=; first by rewrite lexx inE eqxx.
case/andP=> v0 hl; have cxv : x >=< v by rewrite real_comparable ?ger0_real.
have m0 : 0 <= Num.max x v by case: (comparable_leP cxv).
have [h1 h2 h3] := IH _ m0 hl.
have [xm vm] : x <= Num.max x v /\ v <= Num.max x v.
  by case: (comparable_leP cxv) => // /ltW.
split; first exact: le_trans h1.
- by rewrite h2 (le_trans vm).
- move: h3; rewrite !inE; case/orP => [/eqP ->|->]; last by rewrite !orbT.
  by case: (comparable_leP cxv) => _; rewrite eqxx ?orbT.
Qed.

Lemma max_abs_ge n m a i j : (i < n)%N -> (j < m)%N -> `|a i j| <= max_abs n m a.
Proof.
move=> il jl; rewrite /max_abs; set l := map _ _.
have pl : all (fun v => 0 <= v) l by apply/allP => v /mapP [q _ ->].
have [_ /allP h _] := foldl_max_ge (lexx 0) pl; apply: h.
apply/mapP; exists (i, j) => //; apply/allpairsP; exists (j, i).
by rewrite !mem_iota.
Qed.

Lemma max_abs0 n m a : max_abs n m a = 0 -> feq n m a (fun _ _ => 0).
Proof.
move=> e i j il jl; have := max_abs_ge a il jl; rewrite e normr_le0 => /eqP //.
Qed.

Lemma safe_det_ok n a : safe_det n a = det_of n a.
Proof.
rewrite /safe_det /det_of -/(mxof n n a); case: eqP => [->|n0]; first by rewrite det_mx00.
case: eqP => [m0|/eqP m0].
  case: n n0 m0 => [//|n] _ m0; rewrite (_ : mxof _ _ a = 0) ?det0 //.
  by apply/matrixP => i j; rewrite !mxE (max_abs0 m0).
rewrite /fdet (_ : mxof n n _ = (max_abs n n a)^-1 *: mxof n n a); last first.
  by apply/matrixP => i j; rewrite !mxE mulrC.
by rewrite detZ mulrAC -exprMn mulVf // expr1n mul1r.
Qed.

Lemma safe_inverse_ok n a : (0 < n)%N -> det_of n a != 0 ->
  exists b, safe_inverse n a = Ok b /\ inverse_of n a b.
Proof.
case: n => [//|n] _ dn; eexists; split; first by [].
set m := max_abs _ _ a.
have m0 : m != 0.
  apply: contraNneq dn => /max_abs0 e; rewrite /det_of -/(mxof _ _ a).
  by move/mxofE: e => ->; rewrite (_ : mxof _ _ _ = 0) ?det0 //; apply/matrixP => i j; rewrite !mxE.
have e : mxof n.+1 n.+1 (fun i j => a i j / m) = m^-1 *: mxof n.+1 n.+1 a.
  by apply/matrixP => i j; rewrite !mxE mulrC.
have dz : fdet n.+1 (fun i j => a i j / m) != 0.
  by rewrite /fdet e detZ mulf_neq0 // expf_neq0 // invr_neq0.
apply/inverse_ofP; rewrite (_ : mxof _ _ (fun i j => _ / m) =
    m^-1 *: mxof n.+1 n.+1 (finv n.+1 (fun i j => a i j / m))); last first.
  by apply/matrixP => i j; rewrite !mxE mulrC.
by rewrite -scalemxAr scalemxAl -e; apply: finv_ok.
Qed.

Lemma lu_det n (a : 'M[F]_n) (lu : full_piv_lu a) :
  \det a = (-1) ^+ (lu_P lu) * (-1) ^+ (lu_Q lu) * \prod_i lu_U lu i i.
Proof.
have := congr1 determinant (lu_eq lu); rewrite !det_mulmx !det_perm.
have -> : \det (lu_L lu) = 1.
  rewrite det_trig; last by apply/is_trig_mxP; exact: lu_lower.
  by rewrite big1 // => i _; rewrite lu_unit.
have -> : \det (lu_U lu) = \prod_i lu_U lu i i.
  rewrite -det_tr det_trig; last by apply/is_trig_mxP => i j; rewrite mxE; apply: lu_upper.
  by apply: eq_bigr => i _; rewrite mxE.
rewrite mul1r => <-.
move: (odd_perm (lu_P lu)) (odd_perm (lu_Q lu)) => [] [];
  by rewrite /= ?expr0 ?expr1 ?mulrN ?mulNr ?mulN1r ?mulrN1 ?mulr1 ?mul1r ?opprK.
Qed.

Lemma lu_product_ok n (a : 'M[F]_n) (lu : full_piv_lu a) : (0 < n)%N ->
  exists r, [/\ lu_product lu = Ok r, size r = n & \prod_(x <- r) x = \det a].
Proof.
move=> n0; rewrite /lu_product; have := lu_det lu.
have -> : \prod_i lu_U lu i i = \prod_(x <- [seq lu_U lu i i | i <- enum 'I_n]) x.
  by rewrite big_map big_enum.
have : size [seq lu_U lu i i | i <- enum 'I_n] = n by rewrite size_map size_enum_ord.
case: map => [sz|x r sz e]; first by exfalso; rewrite /= in sz; lia.
eexists; split; first by []; first by [].
by rewrite e !big_cons [in RHS]mulrA [in RHS](mulrC _ x).
Qed.

Lemma phase_ok n (a : 'M[F]_n) (lu : full_piv_lu a) :
  phase_of_determinant lu = if \det a == 0 then 0 else \det a / `|\det a|.
Proof.
have fE (l : seq 'I_n) x : foldl (fun ph i =>
      let v := lu_U lu i i in if v != 0 then ph * (v / `|v|) else 0) x l
    = x * \prod_(i <- l) (lu_U lu i i / `|lu_U lu i i|).
  elim: l x => [|i l IH] x /=; first by rewrite big_nil mulr1.
  rewrite IH big_cons; case: (lu_U lu i i =P 0) => [->|_] /=; last by rewrite -mulrA.
  by rewrite !mul0r mulr0.
rewrite /phase_of_determinant fE mul1r big_enum /= prodf_div.
set P := \prod_i lu_U lu i i; set Q := \prod_i `|_|.
have -> : Q = `|P| by rewrite normr_prod.
rewrite (lu_det lu) -/P !normrM !normrX normrN1 !expr1n !mul1r.
case: (P =P 0) => [->|/eqP p0]; first by rewrite mulr0 eqxx !mul0r.
rewrite ifF; first by rewrite mulrC mulrA.
by apply/negbTE; rewrite !mulf_neq0 // expf_neq0 // oppr_eq0 oner_eq0.
Qed.

End Safe.
