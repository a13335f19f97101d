From Coq Require Import ZArith NArith.
From mathcomp Require Import all_ssreflect fingroup perm ssralg ssrnum ssrint.
From mathcomp Require Import zify.
From Verif Require Import Outcome SubModel UMatModel UMatSpec.

Set Implicit Arguments.
Unset Strict Implicit.
Unset Printing Implicit Defensive.

Local Open Scope ring_scope.

Lemma size_vresize (A : Type) (x0 : A) n l : size (vresize x0 n l) = n.
Proof. rewrite /vresize size_cat size_take size_nseq; case: ltnP; lia. Qed.

Section P.
Variable F : numFieldType.

Definition onsite_def (nf : nat) (u delta : F) (site : nat) (d : vdef F) : Prop :=
  [/\ vd_rank d = 2%N /\ vd_naf d = 2%N,
      vd_flavors d = (if nf == 1%N then [:: 0; 0] else [:: 0; 1])%N,
      vd_sites d = (if nf == 1%N then [:: 2 * site; 2 * site; (2 * site).+1; (2 * site).+1]
                    else nseq 4 site)%N, vd_U d = u &
      forall a r, (a < 2)%N -> (r < 2)%N -> vd_alpha d a r = if a == r then 1 + delta else - delta].

Lemma onsite_step1 nf u delta sites flavors al vl x :
  size sites = 4%N -> size flavors = 2%N ->
  exists s1 f1 a1 d, [/\ @onsite_step F nf u delta (sites, flavors, al, vl) x = (s1, f1, a1, rcons vl (d, x)),
    size s1 = 4%N, size f1 = 2%N & onsite_def nf u delta x d].
Proof.
case: sites => [|a [|b [|c [|d []]]]] //= _.
case: flavors => [|e [|f []]] //= _.
eexists; eexists; eexists; eexists; split; [reflexivity | by case: (nf == 1%N) | by case: (nf == 1%N) |].
split=> /=; try by case: (nf == 1%N).
by move=> [|[|a']] [|[|r]].
Qed.

Lemma onsite_loop nf u delta (l : seq nat) sites flavors al vl :
  size sites = 4%N -> size flavors = 2%N ->
  let r := (foldl (@onsite_step F nf u delta) (sites, flavors, al, vl) l).2 in
  exists ds, [/\ r = vl ++ ds, size ds = size l, [seq x.2 | x <- ds] = l &
    forall i, (i < size l)%N -> onsite_def nf u delta (nth 0%N l i) (nth (vdef0 F, 0%N) ds i).1].
Proof.
elim: l sites flavors al vl => [|x l ih] sites flavors al vl hs hf /=.
  by exists [::]; rewrite cats0.
have [s1 [f1 [a1 [d1 [e h1 h2 h3]]]]] := onsite_step1 nf u delta al vl x hs hf.
rewrite -/(onsite_step nf u delta (sites, flavors, al, vl) x) e.
have [ds [k1 k2 k3 k4]] := ih s1 f1 a1 (rcons vl (d1, x)) h1 h2.
rewrite k1; exists ((d1, x) :: ds); split; rewrite ?cat_rcons //= ?k2 ?k3 //.
by case=> [_|i hi] //=; apply: k4.
Qed.

Lemma onsite_ok ns nf u delta : (nf == 1%N) || (nf == 2%N) ->
  exists vl, [/\ set_onsite_U ns nf u delta = Ok vl, size vl = (if nf == 1%N then ns %/ 2 else ns)%N,
    [seq x.2 | x <- vl] = iota 0 (size vl) &
    forall i, (i < size vl)%N -> onsite_def nf u delta i (nth (vdef0 F, 0%N) vl i).1].
Proof.
move=> h; rewrite /set_onsite_U; have -> : (nf != 1%N) && (nf != 2%N) = false.
  by rewrite -negb_or h.
set n := if nf == 2%N then _ else _.
have [ds [h1 h2 h3 h4]] := @onsite_loop nf u delta (iota 0 n) (nseq 4 0%N) (nseq 2 0%N)
  (fun _ _ => 0) [::] erefl erefl.
rewrite size_iota in h2; exists ds; split; first by rewrite h1.
- by rewrite h2 /n; case/orP: h => /eqP->.
- by rewrite h3 h2.
by move=> i hi; move: (h4 i); rewrite size_iota -h2 nth_iota ?h2 -?h2 // => /(_ hi).
Qed.

Lemma split_densityE (vl : seq (udef F)) :
  split_density vl = ([seq v <- vl | ~~ is_density v.1], [seq v <- vl | is_density v.1]).
Proof.
rewrite /split_density.
suff h l (a b : seq (udef F)) : foldl (fun acc v => if ~~ is_density v.1 then (rcons acc.1 v, acc.2) else (acc.1, rcons acc.2 v)) (a, b) l
   = (a ++ [seq v <- l | ~~ is_density v.1], b ++ [seq v <- l | is_density v.1]) by apply: h.
elim: l a b => [|v l ih] a b /=; first by rewrite !cats0.
by case: (is_density v.1) => /=; rewrite ih cat_rcons.
Qed.

(* -------- loading -------- *)
Variables (C : Type) (cast : C -> F) (ofint : int -> C) (c0 : C) (maxel w64 w32 : nat).

Lemma read_nat w (n : nat) r old : (n < w)%N ->
  read_uint w (true, TInt C n :: r) old = (Some n, (true, r)).
Proof. by move=> h; rewrite /read_uint /= ?absz_nat h. Qed.

Lemma read_checked_ok w lim (l : seq nat) k v (xs : seq nat) r :
  size xs = size l -> l = iota k (size xs) -> all (fun x => x < w)%N xs ->
  all (fun x => x < lim)%N xs -> size v = (k + size xs)%N ->
  read_checked w lim l v (true, nums C xs ++ r) = Ok (take k v ++ xs, (true, r)).
Proof.
elim: xs l k v => [|x xs ih] [|i l] k v //= => [_ _ _ _|].
  by rewrite addn0 cats0 => <-; rewrite take_size.
move=> [hs] [-> el] /andP[h1 h2] /andP[h3 h4] sv.
rewrite read_nat // leqNgt h3 /=.
have kv : (k < size v)%N by rewrite sv; lia.
rewrite (ih l k.+1) ?size_set_nth //; last first.
  by move: sv kv; lia.
congr (Ok (_, _)).
rewrite -cat_rcons; congr (_ ++ _).
rewrite set_nthE kv -cat_rcons take_cat size_rcons size_take kv ltnn subnn take0 cats0.
by [].
Qed.

Lemma read_checked_bad w lim (l : seq nat) k v (xs : seq nat) r :
  size xs = size l -> l = iota k (size xs) -> all (fun x => x < w)%N xs ->
  ~~ all (fun x => x < lim)%N xs -> read_checked w lim l v (true, nums C xs ++ r) = Throw.
Proof.
elim: xs l k v => [|x xs ih] [|i l] k v //=.
move=> [hs] [-> el] /andP[h1 h2].
rewrite read_nat // negb_and -leqNgt; case: leqP => //= _ h.
exact: (ih l k.+1).
Qed.

Lemma read_checked_range w lim l v s v' s' :
  read_checked (C := C) w lim l v s = Ok (v', s') -> all (fun i => i < size v)%N l ->
  size v' = size v /\ (forall i, i < size v -> (i \in l) || (nth 0 v i < lim) -> nth 0 v' i < lim)%N.
Proof.
elim: l v s => [|i l ih] v s /=; first by move=> [<- _]; split.
case: (read_uint _ _ _) => -[x|] s1 //; case: (leqP lim x) => // hx e /andP[iv al].
have [|e1 e2] := ih _ _ e.
  apply/allP => j /(allP al); rewrite size_set_nth; lia.
have es : size (set_nth 0%N v i x) = size v by rewrite size_set_nth; move: iv; lia.
split; first by rewrite e1.
move=> j jv; rewrite inE => h; apply: e2; first by rewrite es.
rewrite nth_set_nth /=; case: eqP h => [->|ne]; by rewrite ?hx ?orbT.
Qed.

Lemma read_cplxs (xs : seq (nat * nat)) (cs : seq C) al r : uniq xs -> size cs = size xs ->
  exists al', [/\ foldl (read_alpha_step ofint) (al, (true, [seq TCplx c | c <- cs] ++ r)) xs = (al', (true, r)) &
    forall a b, al' a b = if (a, b) \in xs then nth c0 cs (index (a, b) xs) else al a b].
Proof.
elim: xs cs al => [|x xs ih] [|c cs] al //=; first by move=> _ _; exists al.
move=> /andP[nx ux] [es].
pose al1 := fun a r0 => if (a == x.1) && (r0 == x.2) then c else al a r0.
have [al' [h1 h2]] := ih cs al1 ux es.
exists al'; split=> // a b; rewrite h2 inE /al1.
case: x nx {ih h1 h2 al1} => x1 x2 /= nx; rewrite !xpair_eqE ?(eq_sym x1) ?(eq_sym x2).
case: (boolP ((a == x1) && (b == x2))) => [/andP[/eqP ea /eqP eb]|_] /=; last by case: ifP.
by move: nx; rewrite -ea -eb => /negbTE->.
Qed.

Lemma mem_grid rank naf a r :
  ((a, r) \in flatten [seq [seq (iaf, r) | iaf <- iota 0 naf] | r <- iota 0 rank]) = (a < naf)%N && (r < rank)%N.
Proof.
apply/flattenP/idP => [[l /mapP[x] hx -> /mapP[y hy [-> ->]]]|/andP[ha hr]].
  by move: hx hy; rewrite !mem_iota => /andP[_ ->] /andP[_ ->].
exists [seq (iaf, r) | iaf <- iota 0 naf].
  by apply/mapP; exists r; rewrite // mem_iota.
by apply/mapP; exists a; rewrite // mem_iota.
Qed.

Lemma uniq_grid rank naf :
  uniq (flatten [seq [seq (iaf, r) | iaf <- iota 0 naf] | r <- iota 0 rank]).
Proof.
have := allpairs_uniq (f := fun r a : nat => (a, r)) (iota_uniq 0 rank) (iota_uniq 0 naf).
by rewrite /allpairs; apply => -[a b] [c d] _ _ /= [-> ->].
Qed.

Lemma size_grid rank naf :
  size (flatten [seq [seq (iaf, r) | iaf <- iota 0 naf] | r <- iota 0 rank]) = (rank * naf)%N.
Proof. by rewrite (size_allpairs (fun r a => (a, r))) !size_iota. Qed.

Lemma nth_flatten_reg (T : Type) (x0 : T) n (ll : seq (seq T)) r a :
  all (fun l => size l == n) ll -> (r < size ll)%N -> (a < n)%N ->
  nth x0 (flatten ll) (r * n + a) = nth x0 (nth [::] ll r) a.
Proof.
elim: ll r => [|l ll ih] [|r] //= /andP[/eqP sl h] hr ha; rewrite nth_cat sl.
  by rewrite mul0n add0n ha.
by rewrite mulSn -addnA ltnNge leq_addr /= addKn ih.
Qed.

Lemma size_flatten_reg (T : Type) n (ll : seq (seq T)) :
  all (fun l => size l == n) ll -> size (flatten ll) = (size ll * n)%N.
Proof. by elim: ll => [|l ll ih] //= /andP[/eqP sl /ih e]; rewrite size_cat sl e mulSn. Qed.

Lemma index_grid rank naf a r : (a < naf)%N -> (r < rank)%N ->
  index (a, r) (flatten [seq [seq (iaf, r) | iaf <- iota 0 naf] | r <- iota 0 rank]) = (r * naf + a)%N.
Proof.
move=> ha hr; set l := flatten _.
have : nth (0%N, 0%N) l (r * naf + a) = (a, r).
  rewrite /l (@nth_flatten_reg _ _ naf) ?size_map ?size_iota //; last first.
    by apply/allP => x /mapP[y _ ->]; rewrite size_map size_iota.
  by rewrite (nth_map 0%N) ?size_iota // nth_iota // (nth_map 0%N) ?size_iota // nth_iota.
move=> <-; rewrite index_uniq ?uniq_grid // size_grid.
by rewrite -addn1 in hr; nia.
Qed.

Variables (ns nf : nat).

Definition lok (st : lstate C) := True.

Lemma load_one_ok st (t : term C) r idx : wf_term w64 w32 maxel t -> in_range ns nf t ->
  exists st' d, [/\ load_one cast ofint c0 maxel w64 w32 ns nf st (true, term_text t ++ r) idx = Ok (st', (d, idx), (true, r)) &
    describes cast c0 d t].
Proof.
move=> /and5P[/eqP ss /eqP sa al /= /and4P[b1 b2 b3 bs] /andP[bf /and3P[m1 m2 m3]]] /andP[rs rf].
rewrite /load_one /term_text /= !read_nat //.
rewrite ltnNge m1 /= ltnNge m2 leqNgt m3 /= -!catA.
rewrite (@read_checked_ok _ _ _ 0) ?size_iota ?size_map ?ss //=; last by rewrite size_vresize.
rewrite (@read_checked_ok _ _ _ 0) ?size_iota ?size_map //=; last by rewrite size_vresize.
rewrite !take0 /= /read_alphas.
set al0 := resize_alpha _ _ _ _ _ _.
have [|al' [-> h]] := @read_cplxs (flatten [seq [seq (iaf, r) | iaf <- iota 0 (t_naf t)] | r <- iota 0 (t_rank t)])
   (flatten (t_alpha t)) al0 r (uniq_grid _ _).
  by rewrite size_grid (size_flatten_reg al) sa.
eexists; eexists; split; first by reflexivity.
split=> //= a p ha hp; rewrite h mem_grid ha hp index_grid //= (@nth_flatten_reg _ _ (t_naf t)) //.
by rewrite sa.
Qed.

Lemma load_one_bad st (t : term C) r idx : wf_term w64 w32 maxel t -> ~~ in_range ns nf t ->
  load_one cast ofint c0 maxel w64 w32 ns nf st (true, term_text t ++ r) idx = Throw.
Proof.
move=> /and5P[/eqP ss /eqP sa al /= /and4P[b1 b2 b3 bs] /andP[bf /and3P[m1 m2 m3]]].
rewrite /in_range negb_and /load_one /term_text /= !read_nat //.
rewrite ltnNge m1 /= ltnNge m2 leqNgt m3 /= -!catA => h.
case: (boolP (all (fun x => x < ns)%N (t_sites t))) h => rs h; last first.
  by rewrite (@read_checked_bad _ _ _ 0) ?size_iota ?ss.
rewrite (@read_checked_ok _ _ _ 0) ?size_iota ?size_map ?ss //=; last by rewrite size_vresize.
by rewrite (@read_checked_bad _ _ _ 0) ?size_iota.
Qed.

Lemma load_loop_ok st (ts : seq (term C)) r idxs vl : size idxs = size ts ->
  all (wf_term w64 w32 maxel) ts ->
  if all (in_range ns nf) ts then
    exists ds, [/\ load_loop cast ofint c0 maxel w64 w32 ns nf st (true, flatten (map (@term_text C) ts) ++ r) idxs vl = Ok (vl ++ ds),
      size ds = size ts, [seq x.2 | x <- ds] = idxs &
      forall i t0, (i < size ts)%N -> describes cast c0 (nth (vdef0 F, 0%N) ds i).1 (nth t0 ts i)]
  else load_loop cast ofint c0 maxel w64 w32 ns nf st (true, flatten (map (@term_text C) ts) ++ r) idxs vl = Throw.
Proof.
elim: ts st idxs vl => [|t ts ih] st [|idx idxs] vl //=.
  by move=> _ _; exists [::]; rewrite cats0.
move=> [es] /andP[w ws]; rewrite -catA.
case: (boolP (in_range ns nf t)) => hr /=; last by rewrite load_one_bad.
have [st' [d [-> hd]]] := load_one_ok st (flatten (map (@term_text C) ts) ++ r) idx w hr.
move: (ih st' idxs (rcons vl (d, idx)) es ws) => /=.
case: ifP => _ //= -[ds [-> h1 h2 h3]].
exists ((d, idx) :: ds); split; rewrite /= ?h1 ?h2 ?cat_rcons //.
by case=> [|i] t0 //= hi; apply: h3.
Qed.

Lemma load_ok (ts : seq (term C)) r : (size ts < w32)%N -> all (wf_term w64 w32 maxel) ts ->
  all (in_range ns nf) ts ->
  exists vl, [/\ load_vertices cast ofint c0 maxel w64 w32 ns nf (file_text ts ++ r) = Ok vl, size vl = size ts,
    [seq x.2 | x <- vl] = iota 0 (size ts) &
    forall i t0, (i < size ts)%N -> describes cast c0 (nth (vdef0 F, 0%N) vl i).1 (nth t0 ts i)].
Proof.
move=> h w hr; rewrite /load_vertices /file_text /= read_nat //.
have := load_loop_ok (LState None None c0 [::] [::] (fun _ _ => c0)) r [::] (size_iota 0 (size ts)) w.
by rewrite hr.
Qed.

Lemma load_bad (ts : seq (term C)) r : (size ts < w32)%N -> all (wf_term w64 w32 maxel) ts ->
  ~~ all (in_range ns nf) ts ->
  load_vertices cast ofint c0 maxel w64 w32 ns nf (file_text ts ++ r) = Throw.
Proof.
move=> h w hr; rewrite /load_vertices /file_text /= read_nat //.
have := load_loop_ok (LState None None c0 [::] [::] (fun _ _ => c0)) r [::] (size_iota 0 (size ts)) w.
by rewrite (negbTE hr).
Qed.

(* whatever the file, an accepted one gives usable indices *)
Lemma checked_all w lim n v s v' s' :
  read_checked (C := C) w lim (iota 0 n) (vresize 0%N n v) s = Ok (v', s') ->
  size v' = n /\ all (fun x => x < lim)%N v'.
Proof.
have sv : size (vresize 0%N n v) = n by rewrite size_vresize.
move=> /read_checked_range [|e h].
  by apply/allP => i; rewrite mem_iota sv.
rewrite sv in e h; split=> //; apply/(all_nthP 0%N) => i; rewrite e => hi.
by apply: h; rewrite // mem_iota hi.
Qed.

Lemma load_one_range st s idx st' d i s' :
  load_one cast ofint c0 maxel w64 w32 ns nf st s idx = Ok (st', (d, i), s') -> indices_ok ns nf d /\ i = idx.
Proof.
rewrite /load_one; case: (read_uint _ s _) => _ s1.
case: (read_uint _ s1 _) => -[rank|] s2; last first.
  by case: (read_uint _ s2 _) => _ s3; case: (read_cplx _ _ _).
case: (read_uint _ s2 _) => -[naf|] s3; last by case: (read_cplx _ _ _).
case: (read_cplx _ _ _) => u s4; case: ifP => // _; case: ifP => // _; case: ifP => // _.
case e1: (read_checked _ _ _ _ _) => [[sites s5]| | |] //=.
case e2: (read_checked _ _ _ _ _) => [[flavors s6]| | |] //=.
case: (read_alphas _ _ _ _ _) => al s7 [_ <- <- _]; split=> //.
by have [h1 h2] := checked_all e1; have [h3 h4] := checked_all e2; split.
Qed.

Lemma load_range file vl : load_vertices cast ofint c0 maxel w64 w32 ns nf file = Ok vl ->
  [seq x.2 | x <- vl] = iota 0 (size vl) /\
  forall i, (i < size vl)%N -> indices_ok ns nf (nth (vdef0 F, 0%N) vl i).1.
Proof.
rewrite /load_vertices; case: (read_uint _ _ _) => -[n|] s //.
suff h k l st s1 (v0 : seq (udef F)) : l = iota (size v0) k ->
  [seq x.2 | x <- v0] = iota 0 (size v0) ->
  (forall i, (i < size v0)%N -> indices_ok ns nf (nth (vdef0 F, 0%N) v0 i).1) ->
  load_loop cast ofint c0 maxel w64 w32 ns nf st s1 l v0 = Ok vl ->
  [seq x.2 | x <- vl] = iota 0 (size vl) /\
  forall i, (i < size vl)%N -> indices_ok ns nf (nth (vdef0 F, 0%N) vl i).1.
  by apply: (h n).
elim: k l st s1 v0 => [|k ih] l st s1 v0 -> e1 e2 /=; first by move=> [<-].
case e: (load_one _ _ _ _ _ _ _ _ _) => [[[st' [d i]] s2]| | |] //=.
have [hd ei] := load_one_range e; rewrite {}ei.
apply: ih; rewrite ?size_rcons //.
  by rewrite map_rcons e1 -addn1 iotaD cats1.
move=> j; rewrite ltnS nth_rcons; case: ltnP => [/e2 //|h1 h2].
by have -> : j == size v0 by rewrite eqn_leq h1 h2.
Qed.

End P.

Lemma remove_elements_fromE (A : Type) (x0 : A) k (l : seq A) rem :
  remove_elements_from k l rem = [seq nth x0 l (i - k) | i <- iota k (size l) & i \notin rem].
Proof.
elim: l k => [|x l ih] k //=.
rewrite ih; have e : [seq nth x0 l (i - k.+1) | i <- iota k.+1 (size l) & i \notin rem]
  = [seq nth x0 (x :: l) (i - k) | i <- iota k.+1 (size l) & i \notin rem].
  apply/eq_in_map => i; rewrite mem_filter mem_iota => /andP[_ /andP[ki _]].
  by rewrite -(@subnSK k i) //.
by case: (k \in rem); rewrite /= ?subnn -e.
Qed.

Lemma num_interactingE (Tm : eqType) (l : seq (vertex Tm)) :
  num_interacting l = count (fun v => ~~ v_non v) l.
Proof.
rewrite /num_interacting -[RHS]add0n; move: (0%N).
by elim: l => [|v l ih] c /=; rewrite ?addn0 // ih; case: (v_non v); rewrite /= ?add0n // addnA addn1.
Qed.

(* ---- random selection ---- *)
Section Pick.

(* the values in the order of their first occurrence *)
Fixpoint firsts (seen draws : seq nat) : seq nat :=
  if draws is x :: r then
    if x \in seen then firsts seen r else x :: firsts (x :: seen) r
  else [::].

Lemma firsts_mem seen draws x : (x \in firsts seen draws) = (x \notin seen) && (x \in draws).
Proof.
elim: draws seen => [|d ds ih] seen /=; first by rewrite andbF.
case: ifP => h; rewrite ?inE ih ?inE.
  by case: (x =P d) => [->|] //=; rewrite h.
by case: (x =P d) => [->|] //=; rewrite h.
Qed.

Lemma firsts_uniq seen draws : uniq (firsts seen draws).
Proof.
elim: draws seen => [|d ds ih] seen //=; case: ifP => //= _.
by rewrite ih firsts_mem inE eqxx.
Qed.

Lemma firsts_map f seen draws (D : seq nat) : {in D &, injective f} ->
  {subset seen <= D} -> {subset draws <= D} ->
  firsts (map f seen) (map f draws) = map f (firsts seen draws).
Proof.
move=> fi; elim: draws seen => [|d ds ih] seen hs hd //=.
have dD : d \in D by apply: hd; rewrite inE eqxx.
have hd' : {subset ds <= D} by move=> x xd; apply: hd; rewrite inE xd orbT.
have -> : (f d \in map f seen) = (d \in seen).
  apply/mapP/idP => [[y ys e]|h]; last by exists d.
  by rewrite (fi _ _ dD (hs _ ys) e).
case: ifP => _; first exact: ih.
rewrite /= -(ih (d :: seen)) // => x; rewrite inE => /orP[/eqP-> //|]; exact: hs.
Qed.

Lemma pickup_loopE N flag l n draws seen : size flag = N -> all (fun d => d < N)%N draws ->
  (forall i, (i < N)%N -> nth false flag i = (i \in seen)) ->
  if (n <= size (firsts seen draws))%N then
    exists rest, pickup_loop flag l n draws = Ok (l ++ take n (firsts seen draws), rest)
  else pickup_loop flag l n draws = Diverge.
Proof.
elim: n flag l draws seen => [|n ih] flag l draws seen hf hd hs /=.
  by exists draws; rewrite take0 cats0.
elim: draws hd => [|d ds ihd] //= /andP[dN dsN].
have -> : (size flag <= d)%N = false by rewrite hf leqNgt dN.
rewrite hs //.
case: (boolP (d \in seen)) => sd /=; first exact: ihd.
have hf' : size (set_nth false flag d true) = N by rewrite size_set_nth hf; apply/maxn_idPr.
have hs' i : (i < N)%N -> nth false (set_nth false flag d true) i = (i \in d :: seen).
  by move=> iN; rewrite nth_set_nth /= inE; case: eqP => //= _; apply: hs.
move: (ih _ (rcons l d) ds (d :: seen) hf' dsN hs').
by rewrite cat_rcons.
Qed.

Lemma pickupE N n draws : all (fun d => d < N)%N draws ->
  if (n <= size (firsts [::] draws))%N then
    exists rest, pickup_a_few_numbers N n draws = Ok (take n (firsts [::] draws), rest)
  else pickup_a_few_numbers N n draws = Diverge.
Proof.
move=> h; apply: (@pickup_loopE N) => //; first by rewrite size_nseq.
by move=> i iN; rewrite nth_nseq iN.
Qed.

Lemma pickup_sound N n draws l rest : all (fun d => d < N)%N draws ->
  pickup_a_few_numbers N n draws = Ok (l, rest) ->
  [/\ size l = n, uniq l & all (fun i => i < N)%N l].
Proof.
move=> h e; move: (@pickupE N n draws h); rewrite e; case: leqP => // hn [r [-> _]]; split.
- by rewrite size_takel.
- exact: take_uniq (firsts_uniq _ _).
apply/allP => x /mem_take; rewrite firsts_mem /= => /(allP h); exact.
Qed.

Lemma pickup_too_many N n draws : all (fun d => d < N)%N draws -> (N < n)%N ->
  pickup_a_few_numbers N n draws = Diverge.
Proof.
move=> h nN; move: (@pickupE N n draws h); case: leqP => // hn _; exfalso.
have : (size (firsts [::] draws) <= size (iota 0 N))%N.
  apply: uniq_leq_size (firsts_uniq _ _) _ => x.
  by rewrite firsts_mem mem_iota /= => /(allP h).
by rewrite size_iota leqNgt (leq_trans nN hn).
Qed.

(* a permutation carrying one selection to another *)
Lemma carry N (s t : seq nat) : size s = size t -> uniq s -> uniq t ->
  all (fun i => i < N)%N s -> all (fun i => i < N)%N t ->
  exists p : {perm 'I_N}, forall f : nat -> nat,
    (forall i : 'I_N, f i = p i) -> map f s = t.
Proof.
move=> est us ut hs ht.
pose ext (l : seq nat) := l ++ [seq i <- iota 0 N | i \notin l].
have ext_perm l : uniq l -> all (fun i => i < N)%N l -> perm_eq (ext l) (iota 0 N).
  move=> ul hl; apply: uniq_perm; rewrite ?iota_uniq //.
    rewrite cat_uniq ul filter_uniq ?iota_uniq // andbT.
    by apply/hasPn => x; rewrite mem_filter => /andP[].
  move=> x; rewrite mem_cat mem_filter mem_iota /=.
  by case: (boolP (x \in l)) => //= /(allP hl) ->.
have ps := ext_perm s us hs; have pt := ext_perm t ut ht.
have ss : size (ext s) = N by rewrite (perm_size ps) size_iota.
have st : size (ext t) = N by rewrite (perm_size pt) size_iota.
have uxs : uniq (ext s) by rewrite (perm_uniq ps) iota_uniq.
have uxt : uniq (ext t) by rewrite (perm_uniq pt) iota_uniq.
have ms (i : 'I_N) : (i : nat) \in ext s by rewrite (perm_mem ps) mem_iota ltn_ord.
pose g (i : 'I_N) := nth 0%N (ext t) (index (i : nat) (ext s)).
have gN i : (g i < N)%N.
  have : g i \in ext t by apply: mem_nth; rewrite st -[X in (_ < X)%N]ss index_mem.
  by rewrite (perm_mem pt) mem_iota.
have gi : injective (fun i => Ordinal (gN i)).
  have mN (k : 'I_N) : (index (k : nat) (ext s) < N)%N by rewrite -[X in (_ < X)%N]ss index_mem.
  move=> i j /(congr1 val) /= /eqP; rewrite nth_uniq // ?st //.
  move=> /eqP e; apply: val_inj.
  by move: (nth_index 0%N (ms i)); rewrite e nth_index // => ->.
exists (perm gi) => f hf; apply: (@eq_from_nth _ 0%N); rewrite size_map // => k hk.
have sN : (nth 0%N s k < N)%N by apply: (allP hs); apply: mem_nth.
rewrite (nth_map 0%N) // (hf (Ordinal sN)) permE /= /g /=.
have -> : index (nth 0%N s k) (ext s) = k.
  have e : nth 0%N s k = nth 0%N (ext s) k by rewrite nth_cat hk.
  by rewrite e index_uniq // size_cat ltn_addr.
by rewrite nth_cat -est hk.
Qed.

Lemma tuple_lt N L (x : L.-tuple 'I_N) : all (fun d => d < N)%N [seq val i | i <- x].
Proof. by apply/allP => d /mapP[i _ ->]; apply: ltn_ord. Qed.

Lemma pickup_eq N n draws s : all (fun d => d < N)%N draws ->
  (if pickup_a_few_numbers N n draws is Ok (l, _) then l == s else false) =
  (n <= size (firsts [::] draws))%N && (take n (firsts [::] draws) == s).
Proof. by move=> h; move: (@pickupE N n draws h); case: leqP => _ /= => [[r ->]|->]. Qed.

Lemma outcomes_le N n L s t : size s = n -> size t = n -> uniq s -> uniq t ->
  all (fun i => i < N)%N s -> all (fun i => i < N)%N t -> (outcomes N n L s <= outcomes N n L t)%N.
Proof.
move=> es et us ut hs ht.
have [p hp] := @carry N s t (etrans es (esym et)) us ut hs ht.
pose f (i : nat) : nat := if insub i is Some j then val (p j) else i.
have fE (i : 'I_N) : f i = p i by rewrite /f insubT //= => h; congr (val (p _)); apply: val_inj.
have fi : {in iota 0 N &, injective f}.
  move=> i j; rewrite !mem_iota /= => hi hj.
  rewrite (fE (Ordinal hi)) (fE (Ordinal hj)) => /val_inj /perm_inj e.
  by move: (congr1 val e).
have st := hp f fE.
pose P (x : L.-tuple 'I_N) := [tuple of map p x].
have Pinj : injective P.
  move=> x y /(congr1 val) /= e; apply: val_inj => /=.
  exact: (inj_map (@perm_inj _ p)) e.
rewrite /outcomes -(card_imset _ Pinj); apply: subset_leq_card.
apply/subsetP => y /imsetP[x]; rewrite !inE => hx ->.
have hP := tuple_lt (P x).
rewrite pickup_eq //; move: hx; rewrite pickup_eq ?tuple_lt // => /andP[h1 h2].
have -> : [seq val i | i <- P x] = map f [seq val i | i <- x].
  by rewrite /= -!map_comp; apply: eq_map => i /=; rewrite fE.
have e := @firsts_map f [::] [seq val i | i <- x] (iota 0 N) fi.
rewrite /= in e; rewrite e //; last first.
  by move=> d /(allP (tuple_lt x)) /=; rewrite mem_iota.
by rewrite size_map h1 /= -map_take (eqP h2) st.
Qed.

Lemma outcomes_uniform N n L s t : size s = n -> size t = n -> uniq s -> uniq t ->
  all (fun i => i < N)%N s -> all (fun i => i < N)%N t -> outcomes N n L s = outcomes N n L t.
Proof. by move=> es et us ut hs ht; apply/eqP; rewrite eqn_leq !outcomes_le. Qed.

Lemma firsts_uniq_id seen s : uniq s -> all (fun x => x \notin seen) s -> firsts seen s = s.
Proof.
elim: s seen => [|x s ih] seen //= /andP[xs us] /andP[/negbTE-> hs].
congr (_ :: _); apply: ih => //; apply/allP => y ys.
by rewrite inE negb_or (allP hs) // andbT; apply: contraNneq xs => <-.
Qed.

Lemma pickup_reach N s : uniq s -> all (fun i => i < N)%N s ->
  exists rest, pickup_a_few_numbers N (size s) s = Ok (s, rest).
Proof.
move=> us hs; move: (@pickupE N (size s) s hs).
rewrite (@firsts_uniq_id [::]) //; last by apply/allP.
by rewrite leqnn take_size.
Qed.

(* -- vertices -- *)
Variables (V : Type) (v0 : V) (vs : seq V) (p : pred V).

Lemma posE : foldl (fun ps iv => if p (nth v0 vs iv) then rcons ps iv else ps) [::] (iota 0 (size vs))
  = [seq i <- iota 0 (size vs) | p (nth v0 vs i)].
Proof.
rewrite -[RHS]cat0s; move: [::] (iota 0 (size vs)) => ps l.
elim: l ps => [|i l ih] ps /=; first by rewrite cats0.
by rewrite ih; case: ifP => //= _; rewrite cat_rcons.
Qed.

Let pos := [seq i <- iota 0 (size vs) | p (nth v0 vs i)].

Lemma size_pos : size pos = count p vs.
Proof.
rewrite /pos size_filter -[in RHS](mkseq_nth v0 vs) count_map.
by apply: eq_count.
Qed.
Lemma uniq_pos : uniq pos. Proof. by rewrite filter_uniq ?iota_uniq. Qed.

Lemma pick_sound n draws l rest : all (fun d => d < count p vs)%N draws -> (n <= count p vs)%N ->
  pick_up_itime_vertices v0 vs p n draws = Ok (l, rest) -> selection v0 vs p n l.
Proof.
move=> hd hn; rewrite /pick_up_itime_vertices ltnNge hn /= posE -/pos.
case e: (pickup_a_few_numbers _ _ _) => [[l' r']| | |] //= [<- _].
have [s1 s2 s3] := pickup_sound hd e.
rewrite /selection size_map s1 eqxx /= map_inj_in_uniq ?s2 /=; last first.
  move=> i j /(allP s3) hi /(allP s3) hj /eqP; rewrite nth_uniq ?size_pos ?uniq_pos //.
  by move/eqP.
apply/allP => x /mapP[i /(allP s3) hi ->].
have := mem_nth 0%N (_ : (i < size pos)%N); rewrite size_pos => /(_ hi).
by rewrite mem_filter mem_iota /= andbC.
Qed.

Lemma pick_eq n draws s : all (fun d => d < count p vs)%N draws -> selection v0 vs p n s -> (n <= count p vs)%N ->
  (if pick_up_itime_vertices v0 vs p n draws is Ok (l, _) then l == s else false) =
  (if pickup_a_few_numbers (count p vs) n draws is Ok (l, _) then l == [seq index i pos | i <- s] else false).
Proof.
move=> hd /and3P[/eqP ss us hs] hn; rewrite /pick_up_itime_vertices ltnNge hn /= posE -/pos.
case e: (pickup_a_few_numbers _ _ _) => [[l' r']| | |] //=.
have [s1 s2 s3] := pickup_sound hd e.
have sp : {subset s <= pos}.
  by move=> x /(allP hs) /andP[h1 h2]; rewrite mem_filter h2 mem_iota.
apply/eqP/eqP => [<-|->].
  rewrite -map_comp -[LHS]map_id; apply/eq_in_map => i /(allP s3) hi /=.
  by rewrite index_uniq ?size_pos ?uniq_pos.
rewrite -map_comp -[RHS]map_id; apply/eq_in_map => i /sp hi /=.
by rewrite nth_index.
Qed.

Lemma outcomes_v_uniform n L s t : (n <= count p vs)%N ->
  selection v0 vs p n s -> selection v0 vs p n t ->
  outcomes_v v0 vs p n L s = outcomes_v v0 vs p n L t.
Proof.
move=> hn hs ht.
suff h u : selection v0 vs p n u ->
   outcomes_v v0 vs p n L u = outcomes (count p vs) n L [seq index i pos | i <- u] /\
   [/\ size [seq index i pos | i <- u] = n, uniq [seq index i pos | i <- u] &
       all (fun i => i < count p vs)%N [seq index i pos | i <- u]].
  have [-> [s1 s2 s3]] := h _ hs; have [-> [t1 t2 t3]] := h _ ht.
  exact: outcomes_uniform.
move=> hu; have /and3P[/eqP ss us hall] := hu.
have sp : {subset u <= pos}.
  by move=> x /(allP hall) /andP[h1 h2]; rewrite mem_filter h2 mem_iota.
split; last first.
  split; rewrite ?size_map //.
    rewrite map_inj_in_uniq // => i j /sp hi /sp hj e.
    by rewrite -(nth_index 0%N hi) -(nth_index 0%N hj) e.
  by apply/allP => x /mapP[i /sp hi ->]; rewrite -size_pos index_mem.
apply: eq_card => x; rewrite !inE; apply: pick_eq => //; exact: tuple_lt.
Qed.
End Pick.

(* ---- configuration files ---- *)
Section Cfg.
Variables (F : numFieldType) (Tm : eqType) (Dec : Type).
Variables (print : Tm -> Dec) (parse : Dec -> Tm) (U : seq (vdef F)).

Definition row_text (k : nat) (v : vertex Tm) : seq (ctok Dec) :=
  [:: CInt _ k; CInt _ (v_type v); CInt _ (v_af v); CDec (print (v_time v))].

Lemma dumpE vs : dump print vs =
  CInt _ (size vs) :: flatten [seq row_text x.1 x.2 | x <- zip (iota 0 (size vs)) vs].
Proof.
rewrite /dump; congr (_ :: _).
suff h l acc k : (foldl (fun acc v => (acc.1 ++ [:: CInt _ acc.2; CInt _ (v_type v); CInt _ (v_af v); CDec (print (v_time v))],
   acc.2.+1)) (acc, k) l).1 = acc ++ flatten [seq row_text x.1 x.2 | x <- zip (iota k (size l)) l].
  exact: (h vs [::] 0%N).
by elim: l acc k => [|v l ih] acc k /=; rewrite ?cats0 // ih -catA.
Qed.

Lemma load_rowsE k l acc : all (fun v => v_type v < size U)%N l ->
  load_rows parse U (size l) (flatten [seq row_text x.1 x.2 | x <- zip (iota k (size l)) l]) acc =
  Ok (acc ++ [seq (v_type v, v_af v, parse (print (v_time v)), false, 0%N) | v <- l]).
Proof.
elim: l k acc => [|v l ih] k acc /=; first by rewrite cats0.
move=> /andP[-> h]; rewrite /cont_push_back if_same /= ih //.
by rewrite cat_rcons.
Qed.

Lemma load_dump vs : all (fun v => v_type v < size U)%N vs ->
  load_config parse U (dump print vs) =
  Ok [seq (v_type v, v_af v, parse (print (v_time v)), false, 0%N) | v <- vs].
Proof.
move=> h; rewrite dumpE /load_config; case: eqP => [/size0nil->|_] //.
exact: load_rowsE.
Qed.
End Cfg.
