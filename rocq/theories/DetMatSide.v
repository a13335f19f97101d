(* Proofs about the containers of one kind of operators. *)
From mathcomp Require Import all_ssreflect ssralg ssrint fingroup perm matrix order zify.
From Verif Require Import Outcome SortModel SortSpec SortProofs MatLib BlockLib MatSpec
  FormulaModel FormulaProofs DetMatModel DetMatSpec.

Set Implicit Arguments.
Unset Strict Implicit.
Unset Printing Implicit Defensive.

Local Open Scope ring_scope.
Import GRing.Theory Order.TTheory.

Lemma o_strict_total (disp : unit) (T : orderType disp) : strict_total (<%O : rel T).
Proof. by split=> [x|y x z|x y]; [exact: ltxx | exact: lt_trans | exact: lt_total]. Qed.

Section Side.
Variables (disp : unit) (T : orderType disp) (O : eqType) (tm : O -> T) (o0 : O).
Implicit Types (s : side T O) (l : seq O) (m : tmap T).

Definition side_ok (n : nat) s : Prop :=
  [/\ size (ops s) = n, uniq (map tm (ops s)), perm_eq (oset s) (ops s) &
      perm_eq (pos s) (zip (map tm (ops s)) (iota 0 n))].

Lemma side0_ok : side_ok 0 (side0 T O). Proof. by []. Qed.

Lemma side_keys n s : side_ok n s -> perm_eq (unzip1 (pos s)) (map tm (ops s)).
Proof.
case=> sz _ _ /(perm_map fst) h; apply: perm_trans h _.
by rewrite -/unzip1 unzip1_zip // size_iota size_map sz.
Qed.

Lemma side_uniq n s : side_ok n s -> uniq (ops s).
Proof. by case=> _ /map_uniq. Qed.

Lemma side_mlower n s t : side_ok n s -> mlower t (pos s) = count (fun o => ~~ (tm o < t)%O) (ops s).
Proof.
move=> ok; have := side_keys ok => /seq.permP /(_ (fun k => ~~ (k < t)%O)).
by rewrite !count_map.
Qed.

Lemma mfind_mem m t k : uniq (unzip1 m) -> (mfind t m == Some k) = ((t, k) \in m).
Proof.
rewrite /mfind; elim: m => [|[t' k'] m IH] //= /andP [nin u].
rewrite inE xpair_eqE (eq_sym t); case: (eqVneq t' t) => [e|ne] /=; last by rewrite IH.
rewrite -[Some _ == Some _]/(k' == k) eq_sym; case: (k == k') => //=.
by apply/esym/negP => /(map_f fst) /=; rewrite -e (negbTE nin).
Qed.

Lemma mem_zip_iota (l : seq T) n t k : size l = n ->
  ((t, k) \in zip l (iota 0 n)) = (k < n)%N && (nth t l k == t).
Proof.
move=> sz; apply/idP/andP => [|[kn /eqP e]].
  case/(nthP (t, 0%N)) => i; rewrite size_zip sz size_iota minnn => il.
  by rewrite nth_zip ?size_iota // nth_iota // add0n => -[<- <-]; rewrite (set_nth_default t) ?sz //.
apply/(nthP (t, 0%N)); exists k; first by rewrite size_zip sz size_iota minnn.
by rewrite nth_zip ?size_iota // nth_iota // add0n e.
Qed.

Lemma side_points n s t k : side_ok n s ->
  mfind t (pos s) = Some k <-> ((k < size (ops s))%N /\ tm (nth o0 (ops s) k) = t).
Proof.
move=> ok; have ke := side_keys ok; case: ok => sz u _ pe.
have uk : uniq (unzip1 (pos s)) by rewrite (perm_uniq ke).
have -> : mfind t (pos s) = Some k <-> (t, k) \in pos s.
  by rewrite -(mfind_mem t k uk); split=> /eqP.
rewrite (perm_mem pe) mem_zip_iota ?size_map // sz.
split=> [/andP [kn /eqP e]|[kn e]]; last first.
  by rewrite kn /= (nth_map o0) ?sz // e.
by split=> //; rewrite -e (nth_map o0) ?sz.
Qed.

Lemma points_ok s : uniq (map tm (ops s)) -> perm_eq (oset s) (ops s) ->
  map_points tm o0 s -> side_ok (size (ops s)) s.
Proof.
move=> u pe [uk h]; split=> //.
apply: uniq_perm; first exact: (map_uniq uk).
  apply: (@map_uniq _ _ fst); rewrite -/unzip1 unzip1_zip ?size_iota ?size_map //.
case=> t k; rewrite mem_zip_iota ?size_map // -(mfind_mem t k uk).
apply/eqP/andP => [/h [kl e]|[kl /eqP]]; first by rewrite kl (nth_map o0) // e.
by rewrite (nth_map o0) // => e; apply/h.
Qed.

Lemma ok_points n s : side_ok n s -> map_points tm o0 s.
Proof.
move=> ok; split; last by move=> t k; exact: side_points ok.
by rewrite (perm_uniq (side_keys ok)); case: ok.
Qed.

Lemma side_find n s o : side_ok n s -> o \in ops s -> mfind (tm o) (pos s) = Some (index o (ops s)).
Proof. by move=> ok oin; apply/(side_points _ _ ok); rewrite index_mem nth_index. Qed.

(* parity of the time order *)
Definition inv_t l : nat := inversions <%O (map tm l).

Lemma inv_t_rcons l o : tm o \notin map tm l ->
  inv_t (rcons l o) = (inv_t l + count (fun x => ~~ (tm x < tm o)%O) l)%N.
Proof.
move=> nin; rewrite /inv_t map_rcons -cats1 inversions_cat /= !addn0; congr (_ + _)%N.
rewrite /crossinv big_map -sum1_count [RHS]big_mkcond /=.
rewrite big_seq [RHS]big_seq; apply: eq_bigr => x xl; rewrite addn0.
rewrite -leNgt le_eqVlt; case: eqP => [e|_] /=; last by case: (_ < _)%O.
by move: nin; rewrite e map_f.
Qed.

Lemma push_ok n s o : side_ok n s -> tm o \notin map tm (ops s) ->
  exists k s', [/\ side_push tm n o s = (k, s', true), side_ok n.+1 s', ops s' = rcons (ops s) o &
    inv_t (ops s') = (inv_t (ops s) + k)%N].
Proof.
move=> ok nin; have ke := side_keys ok; have lo := side_mlower (tm o) ok.
have nk : tm o \notin unzip1 (pos s) by rewrite (perm_mem ke).
case: (ok) => sz u po pp.
exists (mlower (tm o) (pos s)), (Side (rcons (ops s) o) (o :: oset s) ((tm o, n) :: pos s)).
have no : o \notin oset s.
  by rewrite (perm_mem po); apply: contra nin => /(map_f tm).
split=> //=.
- by rewrite /side_push /minsert /sinsert (negbTE nk) (negbTE no).
- split; rewrite -?[ops (Side _ _ _)]/(rcons (ops s) o) ?size_rcons ?sz ?map_rcons ?rcons_uniq ?nin //.
  + by rewrite perm_sym perm_rcons perm_cons perm_sym.
  + have -> : zip (rcons (map tm (ops s)) (tm o)) (iota 0 n.+1) =
        rcons (zip (map tm (ops s)) (iota 0 n)) (tm o, n).
      by rewrite -addn1 iotaD -!cats1 zip_cat ?size_map ?size_iota.
    by rewrite perm_sym perm_rcons perm_cons perm_sym.
- by rewrite inv_t_rcons // lo.
Qed.

Lemma side_pop_rcons s l o : ops s = rcons l o ->
  side_pop tm s = Some (mlower (tm o) (pos s),
    Side l (serase o (oset s)) (merase (tm o) (pos s))).
Proof.
rewrite /side_pop; case: l => [|x l] -> /=; first by [].
by rewrite last_rcons belast_rcons.
Qed.

(* the sets may already have lost the operator *)
Definition side_ok' (n : nat) s (gone : seq O) : Prop :=
  [/\ size (ops s) = n, uniq (map tm (ops s)),
      perm_eq (oset s) [seq o <- ops s | o \notin gone] &
      perm_eq (pos s) (zip (map tm (ops s)) (iota 0 n))].

Lemma side_ok_nil n s : side_ok' n s [::] <-> side_ok n s.
Proof.
rewrite /side_ok' /side_ok (@eq_filter _ _ predT); last by [].
by rewrite filter_predT.
Qed.

Lemma pop_ok n s l o gone : side_ok' n.+1 s gone -> ops s = rcons l o ->
  exists k s', [/\ side_pop tm s = Some (k, s'), side_ok' n s' gone, ops s' = l &
    odd (inv_t (ops s)) (+) odd k = ~~ odd (inv_t l)].
Proof.
case=> sz u po pp e; rewrite (side_pop_rcons e).
have ke : perm_eq (unzip1 (pos s)) (map tm (ops s)).
  by apply: perm_trans (perm_map fst pp) _; rewrite -/unzip1 unzip1_zip // size_iota size_map sz.
move: sz u; rewrite e size_rcons map_rcons rcons_uniq => -[sz] /andP [nin u].
eexists _, _; split; first by [].
- split=> //=.
  + rewrite /serase (perm_trans (perm_filter _ po)) // e filter_rcons.
    have nol : o \notin l by apply: contra nin => /(map_f tm).
    have E : [seq x <- [seq x <- l | x \notin gone] | x != o] = [seq x <- l | x \notin gone].
      apply/all_filterP/allP => x; rewrite mem_filter => /andP [_ xl].
      by apply: contra nol => /eqP <-.
    by case: ifP => _; rewrite ?filter_rcons /= ?eqxx /= E.
  + have := perm_filter (fun kv : T * nat => kv.1 != tm o) pp; rewrite -/(merase _ _) => h.
    apply: perm_trans h _; rewrite e map_rcons -addn1 iotaD -cats1 zip_cat ?size_map ?size_iota //.
    rewrite filter_cat /= eqxx cats0.
    rewrite (_ : [seq _ <- _ | _] = zip (map tm l) (iota 0 n)) //.
    apply/all_filterP/allP => -[t k] /(map_f fst); rewrite -/unzip1 unzip1_zip ?size_map ?size_iota ?sz //= => tl.
    by apply: contra nin => /eqP <-.
- by [].
- have -> : mlower (tm o) (pos s) = (count (fun x => ~~ (tm x < tm o)%O) l).+1.
    have := ke => /seq.permP /(_ (fun k => ~~ (k < tm o)%O)); rewrite !count_map => h.
    by rewrite /mlower h e -cats1 count_cat /= ltxx /= addn0 addn1.
  by rewrite inv_t_rcons // oddD /= addbN -addbA addbb addbF.
Qed.

(* exchanging two operators *)
Lemma size_swap_at (A : Type) (a0 : A) i j (l : seq A) : (i < size l)%N -> (j < size l)%N ->
  size (swap_at a0 i j l) = size l.
Proof. by move=> il jl; rewrite /swap_at !size_set_nth; lia. Qed.

Lemma nth_swap_at (A : Type) (a0 : A) i j (l : seq A) k : i != j ->
  nth a0 (swap_at a0 i j l) k = nth a0 l (swapi i j k).
Proof.
move=> ij; rewrite /swap_at /swapi !nth_set_nth /= nth_set_nth /=.
have [->|kj] := eqVneq k j; first by rewrite eq_sym (negbTE ij).
by have [|] := eqVneq k i.
Qed.

Lemma swap_at_sym (A : Type) (a0 : A) i j (l : seq A) : (i < size l)%N -> (j < size l)%N ->
  i != j -> swap_at a0 i j l = swap_at a0 j i l.
Proof.
move=> il jl ij; apply: (@eq_from_nth _ a0); rewrite ?size_swap_at // => k _.
rewrite !nth_swap_at // 1?eq_sym // /swapi.
by case: (eqVneq k i) => [->|ki]; rewrite ?(negbTE ij) //.
Qed.

Lemma map_swap_at (A B : Type) (f : A -> B) a0 i j (l : seq A) : (i < size l)%N -> (j < size l)%N ->
  i != j -> map f (swap_at a0 i j l) = swap_at (f a0) i j (map f l).
Proof.
move=> il jl ij; apply: (@eq_from_nth _ (f a0)); rewrite ?size_map ?size_swap_at ?size_map // => k kl.
rewrite (nth_map a0) ?size_swap_at // !nth_swap_at // (nth_map a0) //.
by apply: swapi_lt.
Qed.

Lemma perm_swap_at (A : eqType) (a0 : A) i j (l : seq A) : (i < size l)%N -> (j < size l)%N ->
  i != j -> perm_eq (swap_at a0 i j l) l.
Proof.
move=> il jl; rewrite neq_ltn => /orP [ij|ji]; first exact: swap_at_perm.
by rewrite swap_at_sym // ?swap_at_perm // neq_ltn ji orbT.
Qed.

Lemma inv_t_swap l i j : uniq (map tm l) -> (i < size l)%N -> (j < size l)%N -> i != j ->
  odd (inv_t (swap_at o0 i j l)) = ~~ odd (inv_t l).
Proof.
move=> u il jl ij; rewrite /inv_t map_swap_at //.
have [irr tr tot] := o_strict_total T.
move: ij; rewrite neq_ltn => /orP [ij|ji].
  by rewrite swap_at_odd // size_map.
rewrite swap_at_sym ?size_map //; last by rewrite neq_ltn ji orbT.
by rewrite swap_at_odd // size_map.
Qed.

Lemma mem_massign m t k t' k' : uniq (unzip1 m) ->
  ((t', k') \in massign t k m) = if t' == t then k' == k else (t', k') \in m.
Proof.
rewrite /massign => u; case: ifP => tin; last first.
  rewrite inE xpair_eqE; case: (eqVneq t' t) => [->|ne] //=.
  case: eqP => //= _; apply/negP => /(map_f fst) /=; by rewrite tin.
case: (eqVneq t' t) => [->|ne].
  apply/mapP/eqP => [[[a b] ab] /=|->].
    by case: eqP => [_ [->]|ne' [/esym]].
  by case/mapP: tin => -[a b] ab /= e; exists (a, b) => //=; rewrite e eqxx.
apply/mapP/idP => [[[a b] ab] /=|h].
  by case: eqP => [_ [e]|_ ->] //; rewrite e eqxx in ne.
by exists (t', k') => //=; rewrite (negbTE ne).
Qed.

Lemma unzip1_massign m t k : unzip1 (massign t k m) = if t \in unzip1 m then unzip1 m else t :: unzip1 m.
Proof.
rewrite /massign; case: ifP => // _; rewrite /unzip1 -map_comp; apply: eq_map => -[a b] /=.
by case: eqP.
Qed.

Lemma swap_ok n s i j : side_ok n s -> (i < n)%N -> (j < n)%N -> i != j ->
  side_ok n (side_swap tm o0 i j s).
Proof.
move=> ok il jl ij; have pts := ok_points ok; have ke := side_keys ok; case: ok => sz u po pp.
have pe : perm_eq (swap_at o0 i j (ops s)) (ops s) by rewrite perm_swap_at ?sz.
have ze : size (swap_at o0 i j (ops s)) = n by rewrite size_swap_at ?sz.
rewrite -[n in side_ok n _]ze; apply: points_ok => /=.
- by rewrite (perm_uniq (perm_map tm pe)).
- by rewrite (perm_trans po) // perm_sym.
case: pts => uk h.
rewrite /side_swap; set t1 := tm (nth _ _ i); set t2 := tm (nth _ _ j).
have inm k : (k < n)%N -> tm (nth o0 (ops s) k) \in unzip1 (pos s).
  by move=> kn; rewrite (perm_mem ke) map_f // mem_nth ?sz.
have k1 : t1 \in unzip1 (pos s) by apply: inm.
have k2 : t2 \in unzip1 (pos s) by apply: inm.
have U1 : unzip1 (massign t1 j (pos s)) = unzip1 (pos s) by rewrite unzip1_massign k1.
have U2 : unzip1 (massign t2 i (massign t1 j (pos s))) = unzip1 (pos s).
  by rewrite unzip1_massign U1 k2.
split; first by rewrite U2.
move=> t k; rewrite /= ze.
have -> : mfind t (massign t2 i (massign t1 j (pos s))) = Some k <->
  (t, k) \in massign t2 i (massign t1 j (pos s)).
  by rewrite -mfind_mem ?U2 //; split=> /eqP.
rewrite mem_massign ?U1 // mem_massign //.
have inj a b : (a < n)%N -> (b < n)%N -> tm (nth o0 (ops s) a) = tm (nth o0 (ops s) b) -> a = b.
  move=> an bn; rewrite -!(nth_map o0 (tm o0)) ?sz // => /eqP.
  by rewrite nth_uniq ?size_map ?sz // => /eqP.
have pk : (t, k) \in pos s <-> (k < n)%N /\ tm (nth o0 (ops s) k) = t.
  rewrite -sz; split=> [|/h /eqP]; last by rewrite mfind_mem.
  by move=> h'; apply/h/eqP; rewrite mfind_mem.
rewrite nth_swap_at // /swapi.
case: (eqVneq t t2) => [->|n2].
  split=> [/eqP ->|[kn]]; first by rewrite eqxx.
  case: (eqVneq k i) => // ki; case: (eqVneq k j) => kj e.
    by move: (inj _ _ il jl e) => e'; rewrite e' eqxx in ij.
  by move: (inj _ _ kn jl e) => e'; rewrite e' eqxx in kj.
case: (eqVneq t t1) => [->|n1].
  split=> [/eqP ->|[kn]]; first by rewrite eq_sym (negbTE ij) eqxx.
  case: (eqVneq k i) => ki; last case: (eqVneq k j) => // kj.
    by move=> e; move: (inj _ _ jl il e) => e'; rewrite e' eqxx in ij.
  by move=> e; move: (inj _ _ kn il e) => e'; rewrite e' eqxx in ki.
rewrite pk; split=> -[kn e]; split=> //; move: e.
  case: (eqVneq k i) => [->|ki]; last case: (eqVneq k j) => [->|kj] //.
    by move=> e; rewrite -e eqxx in n1.
  by move=> e; rewrite -e eqxx in n2.
case: (eqVneq k i) => [->|ki]; last case: (eqVneq k j) => [->|kj] //.
  by move=> e; rewrite -e eqxx in n2.
by move=> e; rewrite -e eqxx in n1.
Qed.

(* dropping the excess operators *)
Lemma foldl_serase (st ex : seq O) :
  foldl (fun r o => serase o r) st ex = [seq x <- st | x \notin ex].
Proof.
elim: ex st => [|o ex IH] st /=; first by rewrite filter_predT.
rewrite IH -filter_predI; apply: eq_filter => x /=.
by rewrite inE negb_or andbC.
Qed.

Lemma foldl_merase m (ex : seq O) :
  foldl (fun m o => merase (tm o) m) m ex = [seq kv <- m | kv.1 \notin map tm ex].
Proof.
elim: ex m => [|o ex IH] m /=; first by rewrite filter_predT.
rewrite IH -filter_predI; apply: eq_filter => x /=.
by rewrite inE negb_or andbC.
Qed.

Lemma excess_ok n k s l : side_ok (n + k) s -> size l = n ->
  (exists l', ops s = l ++ l') ->
  side_ok n (side_excess tm o0 n k s) /\ ops (side_excess tm o0 n k s) = l.
Proof.
move=> ok zl [l' e]; case: ok => sz u po pp.
have zl' : size l' = k by move: sz; rewrite e size_cat zl; lia.
have tk : take n (ops s) ++ nseq (n - size (ops s)) o0 = l.
  by rewrite sz (_ : (n - (n + k) = 0)%N) ?cats0 ?e -?zl ?take_size_cat //; lia.
have ex : [seq nth o0 (ops s) (i + n) | i <- iota 0 k] = l'.
  apply: (@eq_from_nth _ o0); rewrite size_map size_iota // => i il.
  by rewrite (nth_map 0%N) ?size_iota // nth_iota // add0n e nth_cat zl ltnNge leq_addl addnK.
move: u; rewrite e map_cat cat_uniq => /and3P [u1 dis u2].
have nin x : x \in l -> tm x \notin map tm l'.
  by move=> xl; apply: contra dis => h; apply/hasP; exists (tm x) => //; exact: map_f.
rewrite /side_excess tk ex; split=> //; split=> //=.
- rewrite foldl_serase (perm_trans (perm_filter _ po)) // e filter_cat.
  have -> : [seq x <- l | x \notin l'] = l.
    by apply/all_filterP/allP => x /nin; apply: contra => /(map_f tm).
  have -> : [seq x <- l' | x \notin l'] = [::].
    by apply/eqP; rewrite -(negbK (_ == _)) -has_filter; apply/hasPn => x ->.
  by rewrite cats0.
- rewrite foldl_merase (perm_trans (perm_filter _ pp)) // e map_cat iotaD zip_cat ?size_map ?size_iota // filter_cat.
  have -> : [seq kv <- zip (map tm l) (iota 0 n) | kv.1 \notin map tm l'] = zip (map tm l) (iota 0 n).
    apply/all_filterP/allP => -[t a] /(map_f fst); rewrite -/unzip1 unzip1_zip ?size_map ?size_iota ?zl //=.
    by case/mapP => x xl ->; exact: nin.
  have -> : [seq kv <- zip (map tm l') (iota (0 + n) k) | kv.1 \notin map tm l'] = [::].
    apply/eqP; rewrite -(negbK (_ == _)) -has_filter; apply/hasPn => -[t a] /(map_f fst).
    by rewrite -/unzip1 unzip1_zip ?size_map ?size_iota ?zl' //= => ->.
  by rewrite cats0.
Qed.

(* replacing the last operator *)
Lemma set_last (l : seq O) o x : set_nth o0 (rcons l o) (size l) x = rcons l x.
Proof. by elim: l => //= y l ->. Qed.

Lemma replace_side_ok n s l old new : side_ok n.+1 s -> ops s = rcons l old ->
  tm new \notin map tm l ->
  side_ok n.+1 (side_replace tm o0 n.+1 old new s) /\
  ops (side_replace tm o0 n.+1 old new s) = rcons l new.
Proof.
move=> ok e nin; have ok0 := proj2 (side_ok_nil _ _) ok.
have [k [s' [ep /side_ok_nil ok' el _]]] := pop_ok ok0 e.
have nin' : tm new \notin map tm (ops s') by rewrite el.
have [k' [s2 [eq ok2 e2 _]]] := push_ok ok' nin'.
have zl : size l = n by case: ok; rewrite e size_rcons => -[].
suff -> : side_replace tm o0 n.+1 old new s = s2 by rewrite e2 el.
move: ep; rewrite (side_pop_rcons e) => -[_ es']; move: eq; rewrite -es' /side_push /= => -[_ <- _].
by rewrite /side_replace e subn1 /= -zl set_last zl.
Qed.

Lemma inv_t_replace l old new : tm old \notin map tm l -> tm new \notin map tm l ->
  let c x := count (fun o => ~~ (tm o < x)%O) (rcons l old) in
  odd (inv_t (rcons l new)) =
  odd (inv_t (rcons l old)) (+) odd (c (tm old) - c (tm new) + (c (tm new) - c (tm old)))
    (+) (tm old < tm new)%O.
Proof.
move=> no nn c; rewrite !inv_t_rcons //.
have -> : odd (c (tm old) - c (tm new) + (c (tm new) - c (tm old))) =
  odd (c (tm old)) (+) odd (c (tm new)) by lia.
rewrite ![odd (inv_t l + _)]oddD.
have -> : c (tm old) = (count (fun x => ~~ (tm x < tm old)%O) l).+1.
  by rewrite /c -cats1 count_cat /= ltxx addn0 addn1.
have -> : c (tm new) = (count (fun x => ~~ (tm x < tm new)%O) l + ~~ (tm old < tm new)%O)%N.
  by rewrite /c -cats1 count_cat /= addn0.
rewrite oddD /= oddb; move: (odd (inv_t l)) (odd (count _ _)) (odd (count _ _)) (tm old < tm new)%O.
by do 4!case.
Qed.

End Side.
