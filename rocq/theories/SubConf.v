(* Configurations of vertices: the rows they stand for, the weight as a product over
   flavors, and the effect of a request. *)
From mathcomp Require Import all_ssreflect ssralg ssrnum ssrint matrix ring zify.
From Verif Require Import Outcome MatLib MatSpec BlockLib FormulaProofs SrcFormulaModel SrcFormulaProofs
  SubModel SubSpec SubMath SubRows SubFlavor.

Set Implicit Arguments.
Unset Strict Implicit.
Unset Printing Implicit Defensive.

Import GRing.Theory.
Local Open Scope ring_scope.

Section Conf.
Variables (F : numFieldType) (Tm : eqType) (ani : F).
Variable G0 : sop Tm -> sop Tm -> F.
Variable U : seq (vdef F).
Variable x0 : sop Tm.
Variable nf : nat.
Hypothesis tok : sp_types_ok U ani nf.
Notation row := (arow F Tm).
Notation vtx := (vertex Tm).
Notation rdet := (rdet ani G0 x0).
Notation good := (good ani).
Implicit Types (v : vtx) (vs : seq vtx).

Definition rank_of v : nat := vd_rank (sp_def U v).
Definition alp v (st : option nat) (r : nat) : F := alpha_of ani (sp_def U v) st r.
(* the row of part r of a vertex *)
Definition vr v (r : nat) : row := vrow U v (alp v (v_state v) r) r.
Definition vrow1 (fl : nat) v : seq row := [seq vr v r | r <- iota 0 (rank_of v) & sp_flavor U v r == fl].
Definition vrows (fl : nat) vs : seq row := flatten [seq vrow1 fl v | v <- vs].

Lemma vrows_cat fl vs vs' : vrows fl (vs ++ vs') = vrows fl vs ++ vrows fl vs'.
Proof. by rewrite /vrows map_cat flatten_cat. Qed.

Lemma type_okP v : (v_type v < size U)%N -> sp_type_ok ani nf (sp_def U v).
Proof. by move=> h; apply: (all_nthP (vdef0 F) tok). Qed.

Lemma rank_gt0 v : (v_type v < size U)%N -> (0 < rank_of v)%N.
Proof. by move/type_okP; case/and5P. Qed.

Lemma flavor_lt v r : (v_type v < size U)%N -> (r < rank_of v)%N -> (sp_flavor U v r < nf)%N.
Proof.
move/type_okP; case/and5P => _ /eqP e _ /allP h _ rl; apply: h; apply: mem_nth; by rewrite e.
Qed.

Lemma U_ne0 v : (v_type v < size U)%N -> vd_U (sp_def U v) != 0.
Proof. by move/type_okP; case/and5P => _ _ _ _ /andP []. Qed.

Lemma alpha_ok v a r : (v_type v < size U)%N -> (a < vd_naf (sp_def U v))%N -> (r < rank_of v)%N ->
  [/\ vd_alpha (sp_def U v) a r != 0, vd_alpha (sp_def U v) a r != 1 & vd_alpha (sp_def U v) a r != ani].
Proof.
move/type_okP; case/and5P => _ _ _ _ /andP [_ /allP h] al rl.
by have := h a; rewrite mem_iota add0n al => /(_ isT) /allP /(_ r); rewrite mem_iota add0n rl => /(_ isT) /and3P.
Qed.

Definition st_ok v (st : option nat) : bool := if st is Some a then (a < vd_naf (sp_def U v))%N else true.

Lemma vertex_okE v : sp_vertex_ok U v = (v_type v < size U)%N && st_ok v (v_state v).
Proof. by rewrite /sp_vertex_ok /v_state; case: (v_non v). Qed.

Lemma alp_good v st r : (v_type v < size U)%N -> st_ok v st -> (r < rank_of v)%N -> good (alp v st r).
Proof.
rewrite /alp /alpha_of /SubRows.good => tv; case: st => [a|] sv rl; last by rewrite eqxx.
by have [-> -> _] := alpha_ok tv sv rl; rewrite orbT.
Qed.

Lemma alp_ani v st r : (v_type v < size U)%N -> st_ok v st -> (r < rank_of v)%N ->
  (alp v st r == ani) = (st == None).
Proof.
rewrite /alp /alpha_of => tv; case: st => [a|] sv rl; last by rewrite !eqxx.
by have [_ _ /negbTE ->] := alpha_ok tv sv rl.
Qed.

Lemma vrowsP fl vs (x : row) : reflect (exists v r, [/\ v \in vs, (r < rank_of v)%N, sp_flavor U v r = fl & x = vr v r])
  (x \in vrows fl vs).
Proof.
apply: (iffP flatten_mapP) => [[v vi /mapP [r]]|[v [r [vi rl rf ->]]]].
  by rewrite mem_filter mem_iota add0n => /and3P [/eqP h _ rl] ->; exists v, r.
by exists v => //; apply/mapP; exists r => //; rewrite mem_filter mem_iota add0n rl rf eqxx.
Qed.

Lemma vrows_good fl vs : all (sp_vertex_ok U) vs -> all (fun r => good (ar_alpha r)) (vrows fl vs).
Proof.
move=> /allP h; apply/allP => x /vrowsP [v [r [vi rl _ ->]]].
by have := h _ vi; rewrite vertex_okE => /andP [tv sv]; apply: alp_good.
Qed.

Lemma vr_alpha v r : ar_alpha (vr v r) = alp v (v_state v) r. Proof. by []. Qed.

(* ---- the weight ---- *)

Lemma ints_vrow1 fl v : sp_vertex_ok U v ->
  map (@term F Tm) (ints ani (vrow1 fl v)) =
  if v_non v then [::] else [seq sp_term U v r | r <- iota 0 (rank_of v) & sp_flavor U v r == fl].
Proof.
rewrite vertex_okE => /andP [tv sv].
have st : (v_state v == None) = v_non v by rewrite /v_state; case: (v_non v).
have e : ints ani (vrow1 fl v) = if v_non v then [::] else vrow1 fl v.
  rewrite /ints /vrow1 filter_map /=.
  have -> : [seq x <- [seq r <- iota 0 (rank_of v) | sp_flavor U v r == fl] | (fun x => alp v (v_state v) x != ani) x]
    = [seq x <- [seq r <- iota 0 (rank_of v) | sp_flavor U v r == fl] | ~~ v_non v].
    apply: eq_in_filter => r; rewrite mem_filter mem_iota add0n => /and3P [_ _ rl].
    by rewrite alp_ani // st.
  by case: (v_non v); rewrite ?filter_pred0 ?filter_predT.
rewrite e; case nv : (v_non v) => //.
rewrite -map_comp; apply/eq_in_map => r; rewrite mem_filter mem_iota add0n => /and3P [_ _ rl].
rewrite /= /term /vr /vrow /sp_term /ar_ann /ar_cre /ar_alpha /= /alp /alpha_of /v_state nv.
by rewrite addn0.
Qed.

Lemma ints_vrows fl vs : all (sp_vertex_ok U) vs ->
  map (@term F Tm) (ints ani (vrows fl vs)) = sp_ops U fl vs.
Proof.
elim: vs => [//|v vs IH] /= /andP [vo vso].
rewrite /vrows /= /ints filter_cat map_cat -/(ints ani (vrow1 fl v)) -/(vrows fl vs) -/(ints ani _) IH //.
by rewrite ints_vrow1 // /sp_ops /=; case: (v_non v).
Qed.

(* product of the factors 1 - f of a vertex *)
Definition hf v : F := \prod_(r <- iota 0 (rank_of v)) gfac ani (alp v (v_state v) r).
Definition hU v : F := if v_non v then 1 else - vd_U (sp_def U v).

Lemma prod_gfac vs : all (sp_vertex_ok U) vs ->
  \prod_(fl < nf) \prod_(r <- vrows fl vs) gfac ani (ar_alpha r) = \prod_(v <- vs) hf v.
Proof.
elim: vs => [_|v vs IH] /=.
  by rewrite big_nil big1 // => fl _; rewrite big_nil.
case/andP => vo vso; rewrite big_cons -IH //.
have e fl : \prod_(r <- vrows fl (v :: vs)) gfac ani (ar_alpha r) =
   \prod_(r <- vrow1 fl v) gfac ani (ar_alpha r) * \prod_(r <- vrows fl vs) gfac ani (ar_alpha r).
  by rewrite /vrows /= big_cat.
under eq_bigr => fl _ do rewrite e.
rewrite big_split /=; congr (_ * _).
under eq_bigr => fl _ do rewrite big_map big_filter.
rewrite /hf; move: vo; rewrite vertex_okE => /andP [tv _].
rewrite (exchange_big_dep xpredT) //=.
rewrite big_seq [RHS]big_seq; apply: eq_bigr => r; rewrite mem_iota add0n => /andP [_ rl].
have fl := flavor_lt tv rl.
rewrite (big_pred1 (Ordinal fl)) // => k; by rewrite /= -val_eqE /= eq_sym.
Qed.

Definition wd vs : F := \prod_(fl < nf) wdet G0 x0 (sp_ops U fl vs).
Lemma weightE vs : weight G0 U x0 nf vs = wd vs * \prod_(v <- vs) hU v.
Proof.
rewrite /weight; congr (_ * _); rewrite big_mkcond; apply: eq_bigr => v _.
by rewrite /hU; case: (v_non v).
Qed.

Definition Dall vs : F := \prod_(fl < nf) rdet (vrows fl vs).
Lemma DallE vs : all (sp_vertex_ok U) vs -> Dall vs = wd vs * \prod_(v <- vs) hf v.
Proof.
move=> ok; rewrite -prod_gfac // -big_split /=; apply: eq_bigr => fl _.
by rewrite rdet_weight ?vrows_good // ints_vrows.
Qed.

Lemma hf_ne0 v : sp_vertex_ok U v -> hf v != 0.
Proof.
rewrite vertex_okE => /andP [tv sv]; rewrite /hf prodf_seq_neq0; apply/allP => r.
rewrite mem_iota add0n => /andP [_ rl] /=; apply: gfac_ne0; exact: alp_good.
Qed.
Lemma hU_ne0 v : sp_vertex_ok U v -> hU v != 0.
Proof.
rewrite vertex_okE => /andP [tv _]; rewrite /hU; case: (v_non v); first exact: oner_neq0.
by rewrite oppr_eq0 U_ne0.
Qed.

Lemma prod_ne0 (h : vtx -> F) vs : (forall v, v \in vs -> h v != 0) -> \prod_(v <- vs) h v != 0.
Proof. by move=> hv; rewrite prodf_seq_neq0; apply/allP => v vi /=; apply: hv. Qed.

(* ---- requests ---- *)

Variable tm0 : Tm.
Let d0 : vtx := vertex0 tm0.
Implicit Types (req : request).
Notation rpos req := [seq x.1 | x <- req].

Lemma valid_cons vs x req : valid_req U d0 vs (x :: req) ->
  [/\ x.1 \notin rpos req, (x.1 < size vs)%N, st_ok (nth d0 vs x.1) x.2 & valid_req U d0 vs req].
Proof.
rewrite /valid_req /= => /andP [/andP [xn u] /andP [/andP [xl xs] h]].
by split=> //; rewrite u h.
Qed.

Lemma size_sp_flip vs req : size (sp_flip d0 vs req) = size vs.
Proof. by rewrite size_map size_iota. Qed.

Lemma nth_sp_flip vs req i : (i < size vs)%N -> nth d0 (sp_flip d0 vs req) i =
  if i \in rpos req then sp_set (nth d0 vs i) (nth (0%N, None) req (index i (rpos req))).2 else nth d0 vs i.
Proof. by move=> il; rewrite (nth_map 0%N) ?size_iota // nth_iota. Qed.

Lemma sp_flip_cons vs x req : x.1 \notin rpos req -> (x.1 < size vs)%N ->
  sp_flip d0 vs (x :: req) = sp_flip d0 (set_nth d0 vs x.1 (sp_set (nth d0 vs x.1) x.2)) req.
Proof.
move=> xn xl; set vs' := set_nth _ _ _ _.
have sz : size vs' = size vs by rewrite size_set_nth (maxn_idPr xl).
apply: (@eq_from_nth _ d0); rewrite !size_sp_flip // => i il.
rewrite !nth_sp_flip ?sz // /= inE nth_set_nth /=; case: (eqVneq i x.1) => [->|ix] /=.
  by rewrite (negbTE xn).
by [].
Qed.

Lemma flip_verticesE vs req : uniq (rpos req) -> all (fun x => x.1 < size vs)%N req ->
  flip_vertices tm0 vs req = sp_flip d0 vs req.
Proof.
elim: req vs => [|x req IH] vs /=.
  move=> _ _; apply: (@eq_from_nth _ d0); rewrite ?size_sp_flip // => i il.
  by rewrite nth_sp_flip.
case/andP => xn u /andP [xl al]; rewrite sp_flip_cons // -IH //.
by rewrite size_set_nth (maxn_idPr xl).
Qed.

Lemma sp_set_type v st : v_type (sp_set v st) = v_type v. Proof. by case: st. Qed.
Lemma sp_set_def v st : sp_def U (sp_set v st) = sp_def U v.
Proof. by rewrite /sp_def sp_set_type. Qed.
Lemma sp_set_state v st : v_state (sp_set v st) = st. Proof. by case: st. Qed.
Lemma sp_set_ok v st : (v_type v < size U)%N -> st_ok v st -> sp_vertex_ok U (sp_set v st).
Proof. by move=> tv sv; rewrite vertex_okE sp_set_type tv sp_set_state /st_ok sp_set_def. Qed.

Lemma set_nth_ok vs i v : all (sp_vertex_ok U) vs -> sp_vertex_ok U v -> (i < size vs)%N ->
  all (sp_vertex_ok U) (set_nth d0 vs i v).
Proof.
move=> /(all_nthP d0) h vo il; apply/(all_nthP d0) => j.
by rewrite size_set_nth (maxn_idPr il) nth_set_nth /= => jl; case: eqP => // _; apply: h.
Qed.

Lemma valid_set vs i v req : (i < size vs)%N -> v_type v = v_type (nth d0 vs i) ->
  valid_req U d0 vs req -> valid_req U d0 (set_nth d0 vs i v) req.
Proof.
move=> il tv /andP [u /allP h]; rewrite /valid_req u /=; apply/allP => x /h /andP [xl xs].
rewrite size_set_nth (maxn_idPr il) xl /=; move: xs; case: (x.2) => // a.
by rewrite nth_set_nth /=; case: eqP => [->|//]; rewrite /sp_def tv.
Qed.

Lemma flip_ok_all vs req : all (sp_vertex_ok U) vs -> valid_req U d0 vs req -> all (sp_vertex_ok U) (sp_flip d0 vs req).
Proof.
elim: req vs => [|x req IH] vs vo.
  move=> _; apply/(all_nthP d0) => i; rewrite size_sp_flip => il; rewrite nth_sp_flip //.
  exact: (all_nthP d0 vo).
case/valid_cons => xn xl xs vr'; rewrite sp_flip_cons //; apply: IH.
  apply: set_nth_ok => //; apply: sp_set_ok => //.
  by have := all_nthP d0 vo _ xl; rewrite vertex_okE => /andP [].
by apply: valid_set => //; rewrite sp_set_type.
Qed.

Lemma prod_set_nth (h : vtx -> F) vs i v : (i < size vs)%N -> h (nth d0 vs i) != 0 ->
  \prod_(x <- set_nth d0 vs i v) h x = \prod_(x <- vs) h x * (h v / h (nth d0 vs i)).
Proof.
elim: vs i => [//|w vs IH] [|i] /= il nz; rewrite !big_cons.
  by move: nz; move: (h v) (h w) (\prod_(_ <- _) _) => a b c nz; field.
by rewrite IH // mulrA.
Qed.

Lemma prod_flip (h : vtx -> F) vs req : valid_req U d0 vs req ->
  (forall v, v \in vs -> h v != 0) ->
  (forall x, x \in req -> h (sp_set (nth d0 vs x.1) x.2) != 0) ->
  \prod_(v <- sp_flip d0 vs req) h v =
  \prod_(v <- vs) h v * \prod_(x <- req) (h (sp_set (nth d0 vs x.1) x.2) / h (nth d0 vs x.1)).
Proof.
elim: req vs => [|x req IH] vs.
  move=> _ _ _; rewrite big_nil mulr1 -flip_verticesE //.
case/valid_cons => xn xl xs vr' nz nz'; rewrite sp_flip_cons //; set vs' := set_nth _ _ _ _.
have same y : y \in req -> nth d0 vs' y.1 = nth d0 vs y.1.
  move=> yi; rewrite nth_set_nth /=; case: eqP => // e; case/negP: xn; rewrite -e; exact: map_f.
rewrite IH.
- rewrite prod_set_nth ?nz ?mem_nth // big_cons -[LHS]mulrA; congr (_ * (_ * _)).
  by rewrite big_seq [RHS]big_seq; apply: eq_bigr => y yi; rewrite same.
- by apply: valid_set => //; rewrite sp_set_type.
- move=> v /(nthP d0) [i]; rewrite size_set_nth (maxn_idPr xl) => il <-.
  rewrite nth_set_nth /=; case: (i =P x.1) => _; last by apply: nz; apply: mem_nth.
  by apply: nz'; rewrite mem_head.
- by move=> y yi; rewrite same // nz' // inE yi orbT.
Qed.

End Conf.
