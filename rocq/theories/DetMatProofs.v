(* Proofs about the determinant matrix. *)
From mathcomp Require Import all_ssreflect ssralg ssrint fingroup perm matrix order zify.
From Verif Require Import Outcome SortModel SortSpec SortProofs MatLib BlockLib MatSpec
  FormulaModel FormulaProofs RmatProofs DetMatModel DetMatSpec DetMatSide.

Set Implicit Arguments.
Unset Strict Implicit.
Unset Printing Implicit Defensive.

Local Open Scope ring_scope.
Import GRing.Theory Order.TTheory.

Lemma uniq_map_inj (A B : eqType) (f : A -> B) (l : seq A) :
  uniq (map f l) -> {in l &, injective f}.
Proof.
move=> u x y xl yl e.
have : nth (f x) (map f l) (index x l) = nth (f x) (map f l) (index y l).
  by rewrite !(nth_map x) ?index_mem // !nth_index.
move/eqP; rewrite nth_uniq ?size_map ?index_mem // => /eqP e'.
by rewrite -(nth_index x xl) e' nth_index.
Qed.

Section TimeOrder.
Variables (disp : unit) (T : orderType disp) (O : eqType) (tm : O -> T) (o0 : O).
Implicit Types l : seq O.

Let le := (fun x y : O => (tm x <= tm y)%O).

Lemma order_perm l : perm_eq (in_time_order tm l) l.
Proof. by rewrite perm_sort. Qed.

Lemma size_order l : size (in_time_order tm l) = size l.
Proof. exact: size_sort. Qed.

Lemma order_sorted l : uniq (map tm l) -> sorted (<%O) (map tm (in_time_order tm l)).
Proof.
move=> u; rewrite lt_sorted_uniq_le (perm_uniq (perm_map tm (order_perm l))) u /=.
rewrite sorted_map; apply: (sort_sorted (leT := le)) => x y; exact: le_total.
Qed.

Lemma order_eq l l' : uniq (map tm l) -> perm_eq l l' ->
  in_time_order tm l = in_time_order tm l'.
Proof.
move=> u; move/(perm_sort_inP (leT := le)); apply.
- by move=> x y _ _; exact: le_total.
- by move=> y x z _ _ _; rewrite /le; exact: le_trans.
- by move=> x y xl yl; rewrite /le => /le_anti; apply: uniq_map_inj u _ _ xl yl.
Qed.

(* storage order as a selection of the time order *)
Lemma order_select l : uniq (map tm l) -> exists2 rs : seq nat,
  perm_eq rs (iota 0 (size l)) &
  l = [seq nth o0 (in_time_order tm l) i | i <- rs] /\ inv_t tm l = inversions ltn rs.
Proof.
move=> u; have := order_perm l; rewrite perm_sym => /(perm_iotaP o0) [rs pr e].
rewrite size_order in pr; exists rs => //; split=> //.
have so := order_sorted u.
rewrite /inv_t {1}e -map_comp; set g := (tm \o _).
have mono : {in rs &, {mono g : i j / (i < j)%N >-> (i < j)%O}}.
  move=> i j; rewrite !(perm_mem pr) !mem_iota !add0n => /andP [_ il] /andP [_ jl].
  have zo : size (map tm (in_time_order tm l)) = size l by rewrite size_map size_order.
  rewrite /g /= -!(nth_map o0 (tm o0)) ?size_order //.
  by rewrite (lt_sorted_ltn_nth (tm o0) so) // inE zo.
elim: rs mono {pr e} => [|i rs IH] mono //=; rewrite IH; last first.
  by move=> a b ia ib; apply: mono; rewrite inE ?ia ?ib orbT.
congr (_ + _)%N; rewrite count_map; apply: eq_in_count => j jr /=.
by apply: mono; rewrite inE ?eqxx ?jr ?orbT.
Qed.

End TimeOrder.

Section DM.
Variables (F : fieldType) (disp : unit) (T : orderType disp).
Variables (CD C : eqType) (tcd : CD -> T) (tc : C -> T) (cd0 : CD) (c0 : C).
Variable gf : C -> CD -> F.
Notation core := (core F T CD C).
Notation dm := (dm F T CD C).
Notation weight := (weight tcd tc cd0 c0 gf).
Notation compute_g := (compute_g cd0 c0 gf).
Notation distinct_times := (@distinct_times _ T CD C tcd tc).
Implicit Types (c : core) (d : dm) (a : seq CD) (b : seq C) (ps : seq (CD * C)).

Definition sgn2 a b : F := (-1) ^+ (inv_t tcd a + inv_t tc b).

Lemma sgn2_sqr a b : sgn2 a b * sgn2 a b = 1.
Proof. by rewrite /sgn2 -expr2 sqrr_sign. Qed.

Lemma sgn2_neq0 a b : sgn2 a b != 0.
Proof. by rewrite /sgn2 signr_eq0. Qed.

Lemma sgn2_odd a b a' b' k :
  odd (inv_t tcd a' + inv_t tc b') = odd (inv_t tcd a + inv_t tc b) (+) odd k ->
  sgn2 a' b' = sgn2 a b * (-1) ^+ k.
Proof.
by move=> e; rewrite /sgn2 -signr_odd e -(signr_odd _ (_ + _)) -(signr_odd _ k) signr_addb.
Qed.

Lemma sign_of_diffE k : sign_of_diff F k = (-1) ^+ k.
Proof. by rewrite /sign_of_diff -signr_odd; case: odd. Qed.

Definition gmat a b : fmat F := fun i j => gf (nth c0 b i) (nth cd0 a j).

Lemma storage_weight n a b : size a = n -> size b = n -> uniq (map tcd a) -> uniq (map tc b) ->
  det_of n (gmat a b) = sgn2 a b * weight (a, b).
Proof.
move=> za zb ua ub.
have [rs pr [ea ia]] := order_select cd0 ua; have [qs pq [eb ib]] := order_select c0 ub.
rewrite za in pr; rewrite zb in pq.
rewrite /weight /= za /sgn2 ia ib addnC exprD -(fdet_select _ pq pr) !det_ofE.
have zr : size rs = n by rewrite (perm_size pr) size_iota.
have zq : size qs = n by rewrite (perm_size pq) size_iota.
apply: fdet_ext => i j il jl; rewrite /gmat /select.
by rewrite {1}eb {1}ea !(nth_map 0%N) ?zr ?zq.
Qed.

Lemma weight_storage n a b : size a = n -> size b = n -> uniq (map tcd a) -> uniq (map tc b) ->
  weight (a, b) = sgn2 a b * det_of n (gmat a b).
Proof. by move=> za zb ua ub; rewrite (storage_weight za zb) // mulrA sgn2_sqr mul1r. Qed.

Lemma weight_perm a b a' b' : uniq (map tcd a) -> uniq (map tc b) ->
  perm_eq a a' -> perm_eq b b' -> weight (a, b) = weight (a', b').
Proof.
move=> ua ub pa pb; rewrite /weight /= (perm_size pa).
by rewrite (order_eq ua pa) (order_eq ub pb).
Qed.

Lemma distinct_split a b : distinct_times (a, b) ->
  [/\ uniq (map tcd a), uniq (map tc b) & forall x y, x \in a -> y \in b -> tcd x != tc y].
Proof.
rewrite /distinct_times /= cat_uniq => /and3P [ua /hasPn h ub]; split=> // x y xa yb.
by apply: contraTneq (map_f tcd xa) => ->; apply: h; rewrite map_f.
Qed.

Lemma distinct_perm a b a' b' : perm_eq a a' -> perm_eq b b' ->
  distinct_times (a, b) = distinct_times (a', b').
Proof.
move=> pa pb; rewrite /distinct_times /=; apply: perm_uniq.
by apply: perm_cat; apply: perm_map.
Qed.

Record ok_core (n : nat) c : Prop := OkCore {
  ok_sz : sz c = n;
  ok_cd : side_ok tcd n (cds c);
  ok_an : side_ok tc n (ans c);
  ok_dis : distinct_times (ops (cds c), ops (ans c));
  ok_inv : inverse_of n (compute_g c) (inv c);
  ok_perm : perm c = sgn2 (ops (cds c)) (ops (ans c)) }.

Lemma ok_weight n c : ok_core n c ->
  weight (ops (cds c), ops (ans c)) = perm c * det_of n (compute_g c).
Proof.
case=> _ [za ua _ _] [zb ub _ _] _ _ ->; exact: weight_storage.
Qed.

Lemma ok_det n c st w : ok_core n c ->
  compute_determinant (DM st c w) = weight (ops (cds c), ops (ans c)).
Proof.
move=> ok; rewrite (ok_weight ok) /compute_determinant /= (ok_sz ok).
have := inverse_of_det (ok_inv ok); rewrite -det_ofE.
move=> h; have nz := inverse_of_unit (inverse_of_sym (ok_inv ok)).
by apply: canLR (mulfK nz) _; rewrite -mulrA h mulr1.
Qed.

(* ---- swaps ---- *)

Lemma swap_cd_ok n c i j : ok_core n c -> (i < n)%N -> (j < n)%N ->
  [/\ ok_core n (swap_cdagg_op tcd cd0 i j c), ans (swap_cdagg_op tcd cd0 i j c) = ans c &
      ops (cds (swap_cdagg_op tcd cd0 i j c)) =
        [seq nth cd0 (ops (cds c)) (swapi i j k) | k <- iota 0 n]].
Proof.
move=> ok il jl; have zc : size (ops (cds c)) = n by case: (ok_cd ok).
have uc : uniq (map tcd (ops (cds c))) by case: (ok_cd ok).
rewrite /swap_cdagg_op; case: eqVneq => [e|ij].
  split=> //; apply: (@eq_from_nth _ cd0); rewrite ?size_map ?size_iota zc // => k kn.
  by rewrite (nth_map 0%N) ?size_iota // nth_iota // add0n e /swapi; case: eqP => // ->.
have eo : swap_at cd0 i j (ops (cds c)) = [seq nth cd0 (ops (cds c)) (swapi i j k) | k <- iota 0 n].
  apply: (@eq_from_nth _ cd0); rewrite size_swap_at ?zc // ?size_map ?size_iota // => k kn.
  by rewrite nth_swap_at // (nth_map 0%N) ?size_iota // nth_iota.
split=> //; case: ok => z ocd oan dis iv pe; split=> //=.
- exact: swap_ok.
- by rewrite (@distinct_perm _ _ (ops (cds c)) (ops (ans c))) // perm_swap_at ?zc.
- apply: inverse_of_sym; move/inverse_of_sym: iv => iv p q pl ql.
  have := iv (swapi i j p) (swapi i j q) (swapi_lt il jl pl) (swapi_lt il jl ql).
  rewrite swapi_eq => <-; apply: eq_bigr => k _; congr (_ * _).
  by rewrite /compute_g /= nth_swap_at.
- rewrite pe; apply/esym; rewrite (@sgn2_odd (ops (cds c)) (ops (ans c)) _ _ 1%N) ?expr1 ?mulrN1 //.
  by rewrite !oddD inv_t_swap ?zc //=; case: odd; case: odd.
Qed.

Lemma swap_c_ok n c i j : ok_core n c -> (i < n)%N -> (j < n)%N ->
  [/\ ok_core n (swap_c_op tc c0 i j c), cds (swap_c_op tc c0 i j c) = cds c &
      ops (ans (swap_c_op tc c0 i j c)) =
        [seq nth c0 (ops (ans c)) (swapi i j k) | k <- iota 0 n]].
Proof.
move=> ok il jl; have zc : size (ops (ans c)) = n by case: (ok_an ok).
have uc : uniq (map tc (ops (ans c))) by case: (ok_an ok).
rewrite /swap_c_op; case: eqVneq => [e|ij].
  split=> //; apply: (@eq_from_nth _ c0); rewrite ?size_map ?size_iota zc // => k kn.
  by rewrite (nth_map 0%N) ?size_iota // nth_iota // add0n e /swapi; case: eqP => // ->.
have eo : swap_at c0 i j (ops (ans c)) = [seq nth c0 (ops (ans c)) (swapi i j k) | k <- iota 0 n].
  apply: (@eq_from_nth _ c0); rewrite size_swap_at ?zc // ?size_map ?size_iota // => k kn.
  by rewrite nth_swap_at // (nth_map 0%N) ?size_iota // nth_iota.
split=> //; case: ok => z ocd oan dis iv pe; split=> //=.
- exact: swap_ok.
- by rewrite (@distinct_perm _ _ (ops (cds c)) (ops (ans c))) // perm_swap_at ?zc.
- move=> p q pl ql.
  have := iv (swapi i j p) (swapi i j q) (swapi_lt il jl pl) (swapi_lt il jl ql).
  rewrite swapi_eq => <-; apply: eq_bigr => k _; congr (_ * _).
  by rewrite /compute_g /= nth_swap_at.
- rewrite pe; apply/esym; rewrite (@sgn2_odd (ops (cds c)) (ops (ans c)) _ _ 1%N) ?expr1 ?mulrN1 //.
  by rewrite !oddD inv_t_swap ?zc //=; case: odd; case: odd.
Qed.

Lemma map_exchange (A : Type) (x0 : A) (l : seq A) n rs i j : perm_eq rs (iota 0 n) ->
  (i < n)%N -> (j < n)%N ->
  [seq nth x0 [seq nth x0 l r | r <- rs] (swapi i j k) | k <- iota 0 n] =
  [seq nth x0 l r | r <- exchange rs i j].
Proof.
move=> pe il jl; have zr : size rs = n by rewrite (perm_size pe) size_iota.
apply: (@eq_from_nth _ x0); rewrite !size_map !size_iota ?size_exchange ?zr // => k kn.
by rewrite !(nth_map 0%N) ?size_iota ?size_exchange ?zr // ?swapi_lt // ?nth_iota.
Qed.

Lemma swap_loop_ok n c rc rr : ok_core n c -> size rc = size rr ->
  all (fun p => p < n)%N rc -> all (fun p => p < n)%N rr ->
  let c1 := swap_loop tcd tc cd0 c0 n rc rr c in
  [/\ ok_core n c1,
      ops (cds c1) = [seq nth cd0 (ops (cds c)) r | r <- exchange_all (iota 0 n) (exchanges_to_end n rc)] &
      ops (ans c1) = [seq nth c0 (ops (ans c)) r | r <- exchange_all (iota 0 n) (exchanges_to_end n rr)]].
Proof.
move=> ok zz lc lr /=; rewrite !to_end_all /swap_loop -zz.
suff : forall k, (k <= size rc)%N ->
  let c1 := foldl (fun c s =>
     swap_c_op tc c0 (nth 0%N rr (size rc - 1 - s)) (n - 1 - s)
       (swap_cdagg_op tcd cd0 (nth 0%N rc (size rc - 1 - s)) (n - 1 - s) c)) c (iota 0 k) in
  [/\ ok_core n c1, ops (cds c1) = [seq nth cd0 (ops (cds c)) r | r <- to_end n rc k] &
      ops (ans c1) = [seq nth c0 (ops (ans c)) r | r <- to_end n rr k]] by apply.
have za : size (ops (cds c)) = n by case: (ok_cd ok).
have zb : size (ops (ans c)) = n by case: (ok_an ok).
elim=> [|k IH] kl.
  split=> //=; rewrite /to_end /=.
    by rewrite -[n in iota 0 n]za -/(mkseq _ _) mkseq_nth.
  by rewrite -[n in iota 0 n]zb -/(mkseq _ _) mkseq_nth.
have [ok1 e1 e2] := IH (ltnW kl); rewrite iotaS0 foldl_cat /=.
set c1 := foldl _ _ _ in ok1 e1 e2 *.
have kk : (size rc - 1 - k < size rc)%N by lia.
have p1 : (nth 0%N rc (size rc - 1 - k) < n)%N by move/allP: lc; apply; apply: mem_nth.
have p2 : (nth 0%N rr (size rc - 1 - k) < n)%N by move/allP: lr; apply; apply: mem_nth; rewrite -zz.
have q : (n - 1 - k < n)%N by lia.
have [ok2 e3 e4] := swap_cd_ok ok1 p1 q.
have [ok3 e5 e6] := swap_c_ok ok2 p2 q.
split=> //.
  rewrite e5 e4 e1 map_exchange // ?to_endS //; apply: to_end_perm => //; exact: ltnW.
rewrite e6 e3 e2 map_exchange // ?to_endS -?zz //; apply: to_end_perm; rewrite -?zz //; exact: ltnW.
Qed.

(* ---- adding and removing at the end ---- *)

Lemma add_loop_cons p ps k0 s : add_loop tcd tc (p :: ps) k0 s =
    let: (d1, scd, ok1) := side_push tcd (size (ops s.1)) p.1 s.1 in
    if ~~ ok1 then (k0, (scd, s.2), false)
    else
      let: (d2, sc, ok2) := side_push tc (size (ops s.1)) p.2 s.2 in
      if ~~ ok2 then (k0, (scd, sc), false)
      else add_loop tcd tc ps (k0 + d1 + d2)%N (scd, sc).
Proof. by []. Qed.

Lemma remove_loopS k k0 s : remove_loop tcd tc k.+1 k0 s =
    if side_pop tc s.2 is Some (d1, sc) then
      if side_pop tcd s.1 is Some (d2, scd) then remove_loop tcd tc k (k0 + d1 + d2)%N (scd, sc)
      else None
    else None.
Proof. by []. Qed.

Lemma add_loop_ok n ps k0 (s : side T CD * side T C) :
  side_ok tcd n s.1 -> side_ok tc n s.2 ->
  uniq (map tcd (ops s.1 ++ unzip1 ps)) -> uniq (map tc (ops s.2 ++ unzip2 ps)) ->
  exists k s', [/\ add_loop tcd tc ps k0 s = ((k0 + k)%N, s', true),
    side_ok tcd (n + size ps) s'.1, side_ok tc (n + size ps) s'.2,
    ops s'.1 = ops s.1 ++ unzip1 ps /\ ops s'.2 = ops s.2 ++ unzip2 ps &
    (inv_t tcd (ops s'.1) + inv_t tc (ops s'.2) = inv_t tcd (ops s.1) + inv_t tc (ops s.2) + k)%N].
Proof.
elim: ps n k0 s => [|p ps IH] n k0 s ok1 ok2 u1 u2.
  by exists 0%N, s; split=> //=; rewrite ?addn0 ?cats0.
have n1 : tcd p.1 \notin map tcd (ops s.1).
  by move: u1; rewrite /= map_cat cat_uniq /= negb_or => /and3P [_ /andP []].
have n2 : tc p.2 \notin map tc (ops s.2).
  by move: u2; rewrite /= map_cat cat_uniq /= negb_or => /and3P [_ /andP []].
have [k1 [s1 [e1 ok1' o1 i1]]] := push_ok ok1 n1.
have [k2 [s2 [e2 ok2' o2 i2]]] := push_ok ok2 n2.
have [k3 [s3 [e3 ok3 ok4 [o3 o4] i3]]] := IH n.+1 (k0 + k1 + k2)%N (s1, s2) ok1' ok2'
  (ltac:(by rewrite /= o1 cat_rcons)) (ltac:(by rewrite /= o2 cat_rcons)).
exists (k1 + k2 + k3)%N, s3.
have zn : size (ops s.1) = n by case: ok1.
split.
- by rewrite add_loop_cons zn e1 e2 e3; congr (_, _, _); lia.
- by rewrite /= addnS -addSn.
- by rewrite /= addnS -addSn.
- by rewrite o3 o4 /= o1 o2 !cat_rcons.
- by rewrite i3 /= i1 i2; lia.
Qed.

Lemma remove_loop_ok n k k0 (s : side T CD * side T C) (g1 : seq CD) (g2 : seq C) a b :
  side_ok' tcd (n + k) s.1 g1 -> side_ok' tc (n + k) s.2 g2 ->
  size a = n -> size b = n ->
  (exists a', ops s.1 = a ++ a') -> (exists b', ops s.2 = b ++ b') ->
  exists m s', [/\ remove_loop tcd tc k k0 s = Some ((k0 + m)%N, s'),
    side_ok' tcd n s'.1 g1, side_ok' tc n s'.2 g2,
    ops s'.1 = a /\ ops s'.2 = b &
    odd (inv_t tcd a + inv_t tc b) = odd (inv_t tcd (ops s.1) + inv_t tc (ops s.2)) (+) odd m].
Proof.
move=> ok1 ok2 za zb; elim: k k0 s ok1 ok2 => [|k IH] k0 s ok1 ok2 [a' ea] [b' eb].
  have z1 : size (ops s.1) = n by case: ok1; rewrite addn0.
  have z2 : size (ops s.2) = n by case: ok2; rewrite addn0.
  have ea' : ops s.1 = a by move: z1; rewrite ea size_cat za; case: (a') => [|? ?] /=; rewrite ?cats0 //; lia.
  have eb' : ops s.2 = b by move: z2; rewrite eb size_cat zb; case: (b') => [|? ?] /=; rewrite ?cats0 //; lia.
  by exists 0%N, s; move: ok1 ok2; rewrite !addn0 => ok1 ok2; split=> //; rewrite ea' eb' /= addbF.
have z1 : size (ops s.1) = (n + k).+1 by case: ok1; rewrite addnS.
have z2 : size (ops s.2) = (n + k).+1 by case: ok2; rewrite addnS.
rewrite !addnS in ok1 ok2.
case/lastP: a' ea z1 => [|a' x] ea z1; first by move: z1; rewrite ea cats0 za; lia.
case/lastP: b' eb z2 => [|b' y] eb z2; first by move: z2; rewrite eb cats0 zb; lia.
rewrite -rcons_cat in ea; rewrite -rcons_cat in eb.
have [k1 [s1 [e1 ok1' o1 i1]]] := pop_ok ok1 ea.
have [k2 [s2 [e2 ok2' o2 i2]]] := pop_ok ok2 eb.
have [m [s3 [e3 ok3 ok4 [o3 o4] i3]]] := IH (k0 + k2 + k1)%N (s1, s2) ok1' ok2'
  (ex_intro _ _ o1) (ex_intro _ _ o2).
exists (k2 + k1 + m)%N, s3; split=> //.
- by rewrite remove_loopS e2 e1 e3; congr (Some (_, _)); lia.
- rewrite i3 /= o1 o2 !oddD.
  have -> : odd (inv_t tcd (a ++ a')) = ~~ (odd (inv_t tcd (ops s.1)) (+) odd k1) by rewrite i1 negbK.
  have -> : odd (inv_t tc (b ++ b')) = ~~ (odd (inv_t tc (ops s.2)) (+) odd k2) by rewrite i2 negbK.
  move: (odd (inv_t tcd _)) (odd (inv_t tc _)) (odd k1) (odd k2) (odd m); by do 5!case.
Qed.

Lemma foldl_serase1 (A B : eqType) (f : B -> A) (r : seq A) (ps : seq B) :
  foldl (fun s p => serase (f p) s) r ps = [seq x <- r | x \notin map f ps].
Proof.
elim: ps r => [|p ps IH] r /=; first by rewrite filter_predT.
rewrite IH -filter_predI; apply: eq_filter => x /=.
by rewrite inE negb_or andbC.
Qed.

Lemma pair_times_perm ps :
  perm_eq (pair_times tcd tc ps) (map tcd (unzip1 ps) ++ map tc (unzip2 ps)).
Proof.
elim: ps => [|p ps IH] //=; rewrite /pair_times /= -/(pair_times tcd tc ps) perm_cons.
rewrite perm_sym -cat1s perm_catCA /= perm_cons perm_sym; exact: IH.
Qed.

End DM.
