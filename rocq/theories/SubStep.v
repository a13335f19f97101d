(* A request on the rows of one flavor: which operators it touches and which rows it
   asks for. *)
From mathcomp Require Import all_ssreflect ssralg ssrnum ssrint matrix ring zify.
From Verif Require Import Outcome MatLib MatSpec BlockLib FormulaProofs SrcFormulaModel SrcFormulaProofs
  SubModel SubSpec SubMath SubRows SubFlavor SubConf.

Set Implicit Arguments.
Unset Strict Implicit.
Unset Printing Implicit Defensive.

Import GRing.Theory.
Local Open Scope ring_scope.

Section Keys.
Variables (F : numFieldType) (Tm : eqType) (ani : F).
Variable U : seq (vdef F).
Variable nf : nat.
Hypothesis tok : sp_types_ok U ani nf.
Notation row := (arow F Tm).
Notation vtx := (vertex Tm).
Notation vrows := (vrows ani U).
Notation vrow1 := (vrow1 ani U).
Notation vr := (vr ani U).
Notation alp := (alp ani U).
Notation rank_of := (rank_of U).
Variables (x0 : sop Tm) (tm0 : Tm).
Let d0 : vtx := vertex0 tm0.
Let r0 : row := row0 F x0.
Implicit Types (v : vtx) (vs : seq vtx) (rs : seq row).

Definition uidkey (r : row) : nat * nat := (ar_uid r, ar_rank r).
Definition vkey v := (v_type v, v_time v, v_uid v).

Lemma key_vr v r : uidkey (vr v r) = (v_uid v, r). Proof. by []. Qed.

Lemma keys_vrow1 fl v : [seq uidkey x | x <- vrow1 fl v] =
  [seq (v_uid v, r) | r <- iota 0 (rank_of v) & sp_flavor U v r == fl].
Proof. by rewrite -map_comp. Qed.

Lemma keys_uniq fl vs : uniq [seq v_uid v | v <- vs] -> uniq [seq uidkey x | x <- vrows fl vs].
Proof.
elim: vs => [//|v vs IH] /= /andP [vn u].
rewrite /SubConf.vrows /= map_cat cat_uniq IH // andbT keys_vrow1; apply/andP; split.
  by rewrite map_inj_uniq ?filter_uniq ?iota_uniq // => r r' [].
apply/hasPn => k /mapP [x /vrowsP [w [r [wi _ _ ->]]] ->] /=.
rewrite key_vr; apply/negP => /mapP [r' _ [e _]].
by case/negP: vn; rewrite -e; apply: map_f.
Qed.

Lemma uid_inj vs v w : uniq [seq v_uid v | v <- vs] -> v \in vs -> w \in vs -> v_uid v = v_uid w -> v = w.
Proof.
move=> u vi wi e.
have i1 : (index v vs < size vs)%N by rewrite index_mem.
have i2 : (index w vs < size vs)%N by rewrite index_mem.
suff ei : index v vs = index w vs by rewrite -(nth_index d0 vi) ei nth_index.
by apply/eqP; rewrite -(nth_uniq 0%N _ _ u) ?size_map // !(nth_map d0) // !nth_index // e.
Qed.

Lemma row_of_key fl vs x v r : uniq [seq v_uid v | v <- vs] -> x \in vrows fl vs -> v \in vs ->
  uidkey x = (v_uid v, r) -> [/\ x = vr v r, (r < rank_of v)%N & sp_flavor U v r = fl].
Proof.
move=> u /vrowsP [w [r' [wi rl rf ->]]] vi; rewrite key_vr => [[e1 e2]].
by have := uid_inj u wi vi e1 => e; rewrite -e -e2.
Qed.

(* vertices that differ in their state only *)
Lemma vkey_nth vs vs' i : map vkey vs = map vkey vs' -> (i < size vs)%N ->
  vkey (nth d0 vs i) = vkey (nth d0 vs' i).
Proof.
move=> e il; have sz : size vs = size vs' by rewrite -(size_map vkey) e size_map.
by rewrite -!(nth_map d0 (vkey d0) vkey) -?sz // e.
Qed.

Lemma vkey_def v w : vkey v = vkey w -> sp_def U v = sp_def U w.
Proof. by rewrite /vkey => [[e _ _]]; rewrite /sp_def e. Qed.
Lemma vkey_uids vs vs' : map vkey vs = map vkey vs' -> [seq v_uid v | v <- vs] = [seq v_uid v | v <- vs'].
Proof.
by move=> e; have := congr1 (map (fun k : nat * Tm * nat => k.2)) e; rewrite -!map_comp.
Qed.

Lemma key_set (x : row) a : uidkey (set_alpha x a) = uidkey x. Proof. by []. Qed.
Lemma keys_crows rs info : [seq uidkey x | x <- crows x0 rs info] = [seq uidkey x | x <- rs].
Proof.
rewrite /crows -map_comp.
transitivity [seq uidkey (nth r0 rs p) | p <- iota 0 (size rs)]; first by apply: eq_map.
by rewrite (map_comp uidkey (nth r0 rs)) -/(mkseq _ _) mkseq_nth.
Qed.

Lemma vrows_nth fl vs : vrows fl vs = flatten [seq vrow1 fl (nth d0 vs i) | i <- iota 0 (size vs)].
Proof.
by rewrite /SubConf.vrows -[vs in LHS](mkseq_nth d0) -map_comp.
Qed.

Section OneFlavor.
Variables (vs0 vs : seq vtx) (rs : seq row) (info : seq (ginfo F)) (fl : nat) (req : request).
Hypothesis ek : map vkey vs0 = map vkey vs.
Hypothesis uu : uniq [seq v_uid v | v <- vs].
Hypothesis (vo0 : all (sp_vertex_ok U) vs0) (vo : all (sp_vertex_ok U) vs).
Hypothesis pe0 : perm_eq rs (vrows fl vs0).
Hypothesis pe : perm_eq (crows x0 rs info) (vrows fl vs).
Hypothesis val : valid_req U d0 vs req.
Let keys := [seq uidkey x | x <- rs].

Lemma one_size : size vs0 = size vs. Proof. by rewrite -(size_map vkey) ek size_map. Qed.
Lemma one_uu0 : uniq [seq v_uid v | v <- vs0]. Proof. by rewrite (vkey_uids ek). Qed.
Lemma one_keys : uniq keys.
Proof. by rewrite (perm_uniq (perm_map _ pe0)) keys_uniq // one_uu0. Qed.

Definition vpos v r : nat := index (v_uid v, r) keys.

Lemma key_mem v r : v \in vs -> (r < rank_of v)%N -> sp_flavor U v r = fl -> (v_uid v, r) \in keys.
Proof.
move=> vi rl rf; rewrite /keys -(keys_crows rs info) (perm_mem (perm_map _ pe)).
by rewrite -(key_vr v r) map_f //; apply/vrowsP; exists v, r.
Qed.

Lemma vpos_lt v r : v \in vs -> (r < rank_of v)%N -> sp_flavor U v r = fl -> (vpos v r < size rs)%N.
Proof. by move=> vi rl rf; rewrite /vpos -(size_map uidkey) index_mem key_mem. Qed.

Lemma vpos_key v r : v \in vs -> (r < rank_of v)%N -> sp_flavor U v r = fl ->
  uidkey (nth r0 rs (vpos v r)) = (v_uid v, r).
Proof.
move=> vi rl rf; rewrite -(nth_map r0 (0%N, 0%N) uidkey) ?vpos_lt //.
by rewrite nth_index // key_mem.
Qed.

(* the operators of this flavor touched by the request *)
Definition opx (x : nat * option nat) (r : nat) : opu F :=
  let v := nth d0 vs x.1 in
  Opu (vpos v r) (alp v (v_state (nth d0 vs0 x.1)) r) (alp v (v_state v) r) (alp v x.2 r).
Definition opsx (x : nat * option nat) : seq (opu F) :=
  [seq opx x r | r <- iota 0 (rank_of (nth d0 vs x.1)) & sp_flavor U (nth d0 vs x.1) r == fl].
Definition opsl : seq (opu F) := flatten [seq opsx x | x <- req].

Lemma opslP o : reflect (exists x r, [/\ x \in req, (r < rank_of (nth d0 vs x.1))%N,
    sp_flavor U (nth d0 vs x.1) r = fl & o = opx x r]) (o \in opsl).
Proof.
apply: (iffP flatten_mapP) => [[x xi /mapP [r]]|[x [r [xi rl rf ->]]]].
  by rewrite mem_filter mem_iota add0n => /and3P [/eqP h _ rl] ->; exists x, r.
by exists x => //; apply/mapP; exists r => //; rewrite mem_filter mem_iota add0n rl rf eqxx.
Qed.

Lemma req_lt x : x \in req -> (x.1 < size vs)%N.
Proof. by move=> xi; case/andP: val => _ /allP /(_ _ xi) /andP []. Qed.
Lemma req_st x : x \in req -> st_ok U (nth d0 vs x.1) x.2.
Proof. by move=> xi; case/andP: val => _ /allP /(_ _ xi) /andP []. Qed.
Lemma req_mem x : x \in req -> nth d0 vs x.1 \in vs.
Proof. by move=> xi; apply: mem_nth; apply: req_lt. Qed.
Lemma req_type x : x \in req -> (v_type (nth d0 vs x.1) < size U)%N.
Proof. by move=> xi; have := allP vo _ (req_mem xi) => /andP []. Qed.

Lemma opsl_pos : [seq op_pos o | o <- opsl] =
  [seq index (uidkey x) keys | x <- vrows fl [seq nth d0 vs x.1 | x <- req]].
Proof.
rewrite /opsl /SubConf.vrows !map_flatten -!map_comp; congr flatten; apply: eq_map => x /=.
by rewrite /opsx /SubConf.vrow1 -!map_comp.
Qed.

Lemma req_uids : uniq [seq v_uid v | v <- [seq nth d0 vs x.1 | x <- req]].
Proof.
have -> : [seq v_uid v | v <- [seq nth d0 vs x.1 | x <- req]] =
    [seq nth 0%N [seq v_uid v | v <- vs] p | p <- [seq x.1 | x <- req]].
  rewrite -!map_comp; apply/eq_in_map => x xi /=.
  by rewrite (nth_map d0) // req_lt.
rewrite map_inj_in_uniq; first by case/andP: val.
move=> p q /mapP [x xi ->] /mapP [y yi ->] /eqP.
by rewrite nth_uniq ?size_map ?req_lt // => /eqP.
Qed.

Lemma opsl_ok : ops_ok ani x0 rs info opsl.
Proof.
split.
- rewrite opsl_pos map_inj_in_uniq.
    have := keys_uniq fl req_uids; apply: map_uniq.
  move=> a b /vrowsP [v [r [vi rl rf ->]]] /vrowsP [w [r' [wi rl' rf' ->]]].
  rewrite !key_vr => /(congr1 (nth (0%N, 0%N) keys)).
  have vm : v \in vs by case/mapP: vi => x xi ->; apply: req_mem.
  have wm : w \in vs by case/mapP: wi => x xi ->; apply: req_mem.
  rewrite !nth_index ?key_mem // => [[e ->]].
  by have -> := uid_inj uu vm wm e.
- by move=> o /opslP [x [r [xi rl rf ->]]]; apply: vpos_lt => //; apply: req_mem.
- move=> o /opslP [x [r [xi rl rf ->]]] /=.
  set v := nth d0 vs x.1; set p := vpos v r.
  have vi : v \in vs by apply: req_mem.
  have pl : (p < size rs)%N by apply: vpos_lt.
  have ix : (x.1 < size vs0)%N by rewrite one_size req_lt.
  have kk : vkey (nth d0 vs0 x.1) = vkey v by apply: vkey_nth.
  have ku : v_uid (nth d0 vs0 x.1) = v_uid v by case: kk.
  have xm : nth r0 rs p \in vrows fl vs0 by rewrite -(perm_mem pe0) mem_nth.
  have [|-> _ _] := row_of_key one_uu0 xm (mem_nth d0 ix) (_ : _ = (_, r)).
    by rewrite vpos_key // ku.
  by rewrite vr_alpha /SubConf.alp (vkey_def kk).
- move=> o /opslP [x [r [xi rl rf ->]]] /=.
  set v := nth d0 vs x.1; set p := vpos v r.
  have vi : v \in vs by apply: req_mem.
  have pl : (p < size rs)%N by apply: vpos_lt.
  have xm : nth r0 (crows x0 rs info) p \in vrows fl vs by rewrite -(perm_mem pe) mem_nth ?size_crows.
  have ck : uidkey (nth r0 (crows x0 rs info) p) = (v_uid v, r) by rewrite nth_crows // key_set vpos_key.
  have [e _ _] := row_of_key uu xm vi ck.
  by have := congr1 (@ar_alpha F Tm) e; rewrite nth_crows // vr_alpha.
- move=> o /opslP [x [r [xi rl rf ->]]] /=.
  by apply: (alp_good tok) => //; [apply: req_type | apply: req_st].
Qed.

(* the rows asked for *)
Definition upd (x : row) : row :=
  let l := [seq v_uid (nth d0 vs y.1) | y <- req] in
  let y := nth (0%N, None) req (index (ar_uid x) l) in
  if ar_uid x \in l then set_alpha x (alp (nth d0 vs y.1) y.2 (ar_rank x)) else x.

Lemma upd_in x y : y \in req -> ar_uid x = v_uid (nth d0 vs y.1) ->
  upd x = set_alpha x (alp (nth d0 vs y.1) y.2 (ar_rank x)).
Proof.
move=> yi e; rewrite /upd e.
have h : v_uid (nth d0 vs y.1) \in [seq v_uid (nth d0 vs y.1) | y <- req] by apply: (map_f (fun y => v_uid (nth d0 vs y.1))).
rewrite h; have il : (index y req < size req)%N by rewrite index_mem.
have u := req_uids; rewrite -map_comp in u.
have -> : v_uid (nth d0 vs y.1) = nth 0%N [seq v_uid (nth d0 vs y.1) | y <- req] (index y req).
  by rewrite (nth_map (0%N, None)) // nth_index.
by rewrite index_uniq ?size_map // nth_index.
Qed.

Lemma upd_out x : ar_uid x \notin [seq v_uid (nth d0 vs y.1) | y <- req] -> upd x = x.
Proof. by rewrite /upd => /negbTE ->. Qed.

Lemma vr_set v st r : vr (sp_set v st) r = set_alpha (vr v r) (alp v st r).
Proof.
rewrite /SubConf.vr /SubConf.alp sp_set_def sp_set_state /vrow /set_alpha /vflavor /= sp_set_type.
by case: st.
Qed.

Lemma vrow1_set v st : vrow1 fl (sp_set v st) = [seq set_alpha (vr v r) (alp v st r) | r <- iota 0 (rank_of v) & sp_flavor U v r == fl].
Proof.
rewrite /SubConf.vrow1 /SubConf.rank_of sp_set_def.
have -> : [seq r <- iota 0 (vd_rank (sp_def U v)) | sp_flavor U (sp_set v st) r == fl] =
  [seq r <- iota 0 (vd_rank (sp_def U v)) | sp_flavor U v r == fl].
  by apply: eq_filter => r; rewrite /sp_flavor sp_set_def.
by apply: eq_map => r; rewrite vr_set.
Qed.

Lemma vrows_flip : vrows fl (sp_flip d0 vs req) = map upd (vrows fl vs).
Proof.
rewrite !vrows_nth size_sp_flip map_flatten -map_comp; congr flatten.
apply/eq_in_map => i; rewrite mem_iota add0n => /andP [_ il] /=.
rewrite nth_sp_flip //; set v := nth d0 vs i.
have vi : v \in vs by apply: mem_nth.
case: ifP => [ip|/negbT inp].
  set y := nth _ _ _.
  have jl : (index i [seq x.1 | x <- req] < size req)%N by rewrite -(size_map fst) index_mem.
  have yi : y \in req by apply: mem_nth.
  have y1 : y.1 = i by rewrite -[LHS](nth_map _ 0%N fst) // nth_index.
  rewrite vrow1_set /SubConf.vrow1 -map_comp; apply: eq_map => r /=.
  by rewrite (@upd_in _ y) // y1.
rewrite -[LHS]map_id; apply/eq_in_map => x xi; rewrite upd_out //.
have -> : ar_uid x = v_uid v by case/mapP: xi => r _ ->.
apply/mapP => [[y yi e]]; case/negP: inp.
have := uid_inj uu vi (req_mem yi) e => ev.
have iu : (i < size [seq v_uid v | v <- vs])%N by rewrite size_map.
have yu : (y.1 < size [seq v_uid v | v <- vs])%N by rewrite size_map req_lt.
have -> : i = y.1.
  apply/eqP; rewrite -(nth_uniq 0%N iu yu uu) !(nth_map d0) ?req_lt //.
  by rewrite -/v ev.
exact: map_f.
Qed.

Lemma target_upd : target x0 rs info opsl = map upd (crows x0 rs info).
Proof.
apply: (@eq_from_nth _ r0); first by rewrite !size_map !size_iota.
move=> p; rewrite size_map size_iota => pl.
rewrite (nth_map 0%N) ?size_iota // nth_iota // add0n (nth_map r0) ?size_crows // nth_crows //.
have oo := opsl_ok.
case: (boolP (p \in [seq op_pos o | o <- opsl])) => [/mapP [o oi e]|pn].
  rewrite e (tgt_in _ _ _ (oo_u oo) oi); case/opslP: oi => x [r [xi rl rf oe]].
  have vi := req_mem xi.
  have k : uidkey (nth r0 rs (op_pos o)) = (v_uid (nth d0 vs x.1), r) by rewrite oe vpos_key.
  case: k => k1 k2.
  have an : op_an o = alp (nth d0 vs x.1) x.2 r by rewrite oe.
  by rewrite (upd_in xi) // an -k2.
rewrite tgt_out // upd_out //; apply/negP => /mapP [x xi ux].
case/negP: pn; have xm : nth r0 rs p \in vrows fl vs0 by rewrite -(perm_mem pe0) mem_nth.
have ix : (x.1 < size vs0)%N by rewrite one_size req_lt.
have kk : vkey (nth d0 vs0 x.1) = vkey (nth d0 vs x.1) by apply: vkey_nth.
have ku : v_uid (nth d0 vs0 x.1) = v_uid (nth d0 vs x.1) by case: kk.
have ek' : uidkey (nth r0 rs p) = (v_uid (nth d0 vs0 x.1), ar_rank (nth r0 rs p)) by rewrite ku -ux.
have [_ rl rf] := row_of_key one_uu0 xm (mem_nth d0 ix) ek'.
have oi : opx x (ar_rank (nth r0 rs p)) \in opsl.
  apply/opslP; exists x, (ar_rank (nth r0 rs p)); split=> //.
    by rewrite /SubConf.rank_of -(vkey_def kk).
  by rewrite /sp_flavor -(vkey_def kk).
suff -> : p = op_pos (opx x (ar_rank (nth r0 rs p))) by apply: map_f.
rewrite /= /vpos -ku -ek' -(nth_map r0 (0%N, 0%N) uidkey) // index_uniq ?size_map //; exact: one_keys.
Qed.

Lemma target_perm : perm_eq (target x0 rs info opsl) (vrows fl (sp_flip d0 vs req)).
Proof. by rewrite target_upd vrows_flip; apply: perm_map. Qed.

Lemma alp_eq v st st' r : (v_type v < size U)%N -> (r < rank_of v)%N -> st_ok U v st -> st_ok U v st' ->
  (alp v st r == alp v st' r) = (sp_alpha U v st r == sp_alpha U v st' r).
Proof.
move=> tv rl; rewrite /SubConf.alp /alpha_of /sp_alpha.
case: st => [a|] sa; case: st' => [b|] sb.
- by apply/eqP/eqP => [->//|[]].
- by have [_ _ /negbTE ->] := alpha_ok tok tv sa rl.
- by have [_ _ /negbTE] := alpha_ok tok tv sb rl; rewrite eq_sym.
- by rewrite !eqxx.
Qed.

Lemma one_dir :
  (all (fun c => c.1.1 == c.1.2) (sp_changes U d0 vs0 vs req fl) ->
   [seq o <- opsl | goes_rep o] = [::] /\ [seq o <- opsl | goes_rem o] = [::]) /\
  (all (fun c => c.1.1 == c.2) (sp_changes U d0 vs0 vs req fl) ->
   [seq o <- opsl | goes_rep o] = [::] /\ [seq o <- opsl | goes_ins o] = [::]).
Proof.
have nilP (P : pred (opu F)) : (forall o, o \in opsl -> ~~ P o) -> [seq o <- opsl | P o] = [::].
  by move=> h; rewrite -(filter_pred0 opsl); apply: eq_in_filter => o oi; apply/negbTE; apply: h.
have ch o : o \in opsl -> op_ac o != op_an o -> exists c, [/\ c \in sp_changes U d0 vs0 vs req fl,
   (op_a0 o == op_ac o) = (c.1.1 == c.1.2) & (op_a0 o == op_an o) = (c.1.1 == c.2)].
  move=> /opslP [x [r [xi rl rf ->]]] /=; set v := nth d0 vs x.1.
  have tv : (v_type v < size U)%N by apply: req_type.
  have s1 : st_ok U v (v_state v) by have := allP vo _ (req_mem xi); rewrite vertex_okE => /andP [].
  have ix : (x.1 < size vs0)%N by rewrite one_size req_lt.
  have kk : vkey (nth d0 vs0 x.1) = vkey v by apply: vkey_nth.
  have s0 : st_ok U v (v_state (nth d0 vs0 x.1)).
    have := allP vo0 _ (mem_nth d0 ix); rewrite vertex_okE /st_ok (vkey_def kk); by case/andP.
  have s2 : st_ok U v x.2 by apply: req_st.
  rewrite !alp_eq // => ne; exists (sp_alpha U v (v_state (nth d0 vs0 x.1)) r, sp_alpha U v (v_state v) r, sp_alpha U v x.2 r).
  split=> //; rewrite mem_filter ne /=; apply/flatten_mapP; exists x => //; apply/mapP; exists r => //.
  by rewrite mem_filter mem_iota add0n rl rf eqxx.
split=> /allP h; split.
- apply: nilP => o oi; apply/negP => /and3P [n1 n2 n3].
  by have [c [ci e1 e2]] := ch o oi n3; move: n1; rewrite e1 h.
- apply: nilP => o oi; apply/negP => /andP [n1 /eqP n2].
  have n3 : op_ac o != op_an o by rewrite -n2 eq_sym.
  by have [c [ci e1 e2]] := ch o oi n3; move: n1; rewrite e1 h.
- apply: nilP => o oi; apply/negP => /and3P [n1 n2 n3].
  by have [c [ci e1 e2]] := ch o oi n3; move: n2; rewrite e2 h.
- apply: nilP => o oi; apply/negP => /andP [/eqP n1 n2].
  have n3 : op_ac o != op_an o by rewrite -n1.
  by have [c [ci e1 e2]] := ch o oi n3; move: n2; rewrite e2 h.
Qed.

Lemma one_simple :
  all (fun c => c.1.1 == c.1.2) (sp_changes U d0 vs0 vs req fl) ||
  all (fun c => c.1.1 == c.2) (sp_changes U d0 vs0 vs req fl) ->
  [seq o <- opsl | goes_rep o] = [::] /\
  ([seq o <- opsl | goes_rem o] = [::] \/ [seq o <- opsl | goes_ins o] = [::]).
Proof.
have [h1 h2] := one_dir.
by case/orP => [/h1 [-> ->]|/h2 [-> ->]]; split=> //; [left | right].
Qed.

End OneFlavor.
End Keys.
