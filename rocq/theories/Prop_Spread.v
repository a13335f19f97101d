(* Property theorems: C91 (order of operator times), C92 (distance from the identity),
   C93 (spread of vertices in imaginary time), C94 (relative difference). *)
From mathcomp Require Import all_ssreflect order ssralg ssrnum ssrint rat zify.
From mathcomp.algebra_tactics Require Import ring.
From Verif Require Import Outcome SpreadModel.

Set Implicit Arguments.
Unset Strict Implicit.
Unset Printing Implicit Defensive.

Local Open Scope ring_scope.
Import Order.TTheory GRing.Theory Num.Theory.

(* ------------------------------------------------------------------ C91 *)

(* Of two operator times exactly one is earlier, or they are equal in both parts; "earlier" is
   transitive; a larger time is later whatever the small index; two operators are equal only
   if they have the same flavor, site, time and small index. *)
Theorem C91_times :
  forall (F : realFieldType) (a b c : op_time F),
    [/\ ot_eq a b = (a == b),
        [|| ot_lt a b, ot_lt b a | a == b] /\ ~~ (ot_lt a b && ot_lt b a) /\ (a == b -> ~~ ot_lt a b),
        ot_lt a b -> ot_lt b c -> ot_lt a c,
        a.1 < b.1 -> ot_lt a b &
        a.1 = b.1 -> ot_lt a b = (a.2 < b.2)].
Proof.
move=> F [t1 i1] [t2 i2] [t3 i3]; rewrite /ot_lt /ot_eq /= -pair_eqE /pair_eq /=; split=> //.
- rewrite [t2 == t1]eq_sym; case: (ltgtP t1 t2) => //= _; case: (ltgtP i1 i2) => //=.
- case: (ltgtP t1 t2) => // [l1 _|e12 l1].
    case: (ltgtP t2 t3) => // [l2 _|e23 _]; first by have l := lt_trans l1 l2; rewrite (lt_eqF l).
    by rewrite -e23 (lt_eqF l1).
  rewrite e12; case: (ltgtP t2 t3) => // e23; exact: lt_trans.
- by move=> l; rewrite (lt_eqF l).
- by move=> ->; rewrite eqxx.
Qed.
Print Assumptions C91_times.

Theorem C91_operators : forall (F : realFieldType) (a b : oper F), oper_eq a b = (a == b).
Proof.
move=> F [[f1 s1] [t1 i1]] [[f2 s2] [t2 i2]]; rewrite /oper_eq /ot_eq /= -!pair_eqE /pair_eq /= -!pair_eqE /pair_eq /=.
by case: (f1 == f2); case: (s1 == s2); case: (t1 == t2); case: (i1 == i2).
Qed.
Print Assumptions C91_operators.

(* the operators of one vertex, with small index minus the rank: rank 1 before rank 0, and a
   vertex at a later time after both *)
Example C91_case :
  [/\ ot_lt (1 : rat, -1 : int) (1, 0), ~~ ot_lt (1 : rat, 0 : int) (1, -1) & ot_lt (1 : rat, 0 : int) (2%:R, -1)].
Proof. by []. Qed.
Example C91_operators_case :
  oper_eq (F := [realFieldType of rat]) (0%N, 1%N, (1, 0)) (0%N, 1%N, (1, 0)) /\
  ~~ oper_eq (F := [realFieldType of rat]) (0%N, 1%N, (1, 0)) (0%N, 1%N, (1, -1)).
Proof. by []. Qed.

(* ------------------------------------------------------------------ C92 *)

Lemma fold_max (F : realFieldType) (T : eqType) (f : T -> F) d l :
  let r := foldl (fun d x => Num.max d (f x)) d l in
  [/\ d <= r, forall x, x \in l -> f x <= r & r = d \/ exists2 x, x \in l & r = f x].
Proof.
elim: l d => [|x l ih] d /=; first by split=> //; left.
have [h1 h2 h3] := ih (Num.max d (f x)); split.
- by apply: le_trans h1; rewrite le_maxr lexx.
- move=> y; rewrite inE => /orP[/eqP ->|/h2 //]; by apply: le_trans h1; rewrite le_maxr lexx orbT.
case: h3 => [->|[y yl ->]]; last by right; exists y => //; rewrite inE yl orbT.
case: (leP d (f x)) => _; [right; exists x => //; rewrite inE eqxx // | by left].
Qed.

(* A matrix that is not square is refused.  Otherwise the result is the largest deviation of
   an element from the identity: no element deviates by more, and one deviates by as much. *)
Theorem C92_identity :
  forall (F : realFieldType) (nr nc : nat) (M : nat -> nat -> F),
    (nr != nc -> is_identity nr nc M = Throw) /\
    (nr = nc -> exists2 d, is_identity nr nc M = Ok d &
      [/\ 0 <= d,
          forall p q, (p < nr)%N -> (q < nc)%N -> `|M p q - (p == q)%:R| <= d,
          (0 < nr)%N -> exists p q, [/\ (p < nr)%N, (q < nc)%N & d = `|M p q - (p == q)%:R|] &
          d = 0 <-> forall p q, (p < nr)%N -> (q < nc)%N -> M p q = (p == q)%:R]).
Proof.
move=> F nr nc M; split=> [|->]; rewrite /is_identity; first by rewrite eq_sym => ->.
rewrite eqxx /=; have dv p q : id_dev M p q = `|M p q - (p == q)%:R| by rewrite /id_dev; case: eqP; rewrite ?subr0.
set d := foldl _ _ _; exists d => //.
pose col d q := foldl (fun d p => Num.max d (id_dev M p q)) d (iota 0 nc).
have h (l : seq nat) (d0 : F) :
    let r := foldl col d0 l in [/\ d0 <= r, forall p q, (p < nc)%N -> q \in l -> id_dev M p q <= r &
    r = d0 \/ exists p q, [/\ (p < nc)%N, q \in l & r = id_dev M p q]].
  elim: l d0 => [|q l ih] d0 /=; first by split=> //; left.
  have [a1 a2 a3] := ih (col d0 q).
  have [b1 b2 b3] := fold_max (fun p => id_dev M p q) d0 (iota 0 nc).
  split; first exact: le_trans b1 a1.
    move=> p q' pl; rewrite inE => /orP[/eqP ->|ql]; last exact: a2.
    by apply: le_trans a1; apply: b2; rewrite mem_iota.
  case: a3 => [->|[p [q' [pl ql ->]]]].
    case: b3 => [e|[p pl e]]; first by left.
    by right; exists p, q; rewrite inE eqxx; split=> //; move: pl; rewrite mem_iota.
  by right; exists p, q'; rewrite inE ql orbT.
have [d0 up at_] := h (iota 0 nc) 0; rewrite -/d in d0 up at_.
have up' p q : (p < nc)%N -> (q < nc)%N -> `|M p q - (p == q)%:R| <= d.
  by move=> pl ql; rewrite -dv; apply: up => //; rewrite mem_iota.
split=> //.
- move=> n0; case: at_ => [e|[p [q [pl]]]].
    exists 0%N, 0%N; split=> //; apply/eqP; rewrite e eq_sym -normr_le0 normr_id.
    by have := up' 0%N 0%N n0 n0; rewrite e.
  by rewrite mem_iota dv => ql ->; exists p, q.
split=> [e p q pl ql|e].
  by apply/eqP; rewrite -subr_eq0 -normr_le0; have := up' p q pl ql; rewrite e.
case: at_ => // -[p [q [pl]]]; rewrite mem_iota dv => ql ->.
by rewrite e // subrr normr0.
Qed.
Print Assumptions C92_identity.

Example C92_identity_case :
  is_identity 2 2 (fun p q => if p == q then 1 else 1 / 3%:R : rat) = Ok (1 / 3%:R) /\
  is_identity 2 3 (fun p q => 0 : rat) = Throw.
Proof. by split; [congr Ok; apply/eqP; vm_compute | ]. Qed.

(* ---------------------------------------------------------- C94 *)

(* my_rdiff has the return type bool: it tells the numbers apart (and holds for two zeros), but
   it does not return their relative difference. *)
Theorem C94_rdiff : forall (F : realFieldType) (x y : F), my_rdiff x y = (x != y) || (x == 0).
Proof.
move=> F x y; rewrite /my_rdiff; case: (eqVneq x y) => [->|ne] /=.
  rewrite subrr normr0 mul0r eqxx /=; case: ifP => [/eqP e|h].
    by apply/esym; rewrite -normr_le0 -[X in _ <= X]e le_maxr lexx.
  by apply/esym; apply: contraFF h => /eqP ->; rewrite normr0 maxxx.
case: ifP => // /negbT m0; rewrite mulf_neq0 ?invr_eq0 //.
by rewrite normr_eq0 subr_eq0.
Qed.
Print Assumptions C94_rdiff.

Theorem C94_rdiff_refuted :
  exists x y : rat, (x != 0) && (y != 0) /\ (my_rdiff x y)%:R != `|x - y| / Num.max `|x| `|y|.
Proof. by exists 1, 2%:R; split; vm_compute. Qed.
Print Assumptions C94_rdiff_refuted.
Example C94_rdiff_case : my_rdiff (1 : rat) 2%:R /\ ~~ my_rdiff (2%:R : rat) 2%:R.
Proof. by split; vm_compute. Qed.

(* ------------------------------------------------------------------ C93 *)

(* For times of [0, beta) and a centre of [-pi, pi] the assertion holds, the spread lies
   between 0 and beta, and the centre and the times lie on an arc of the circle of that length:
   every one has a distance of [0, spread] from the time t0, up to multiples of beta.  The arc
   is not longer than needed: one of them is at its beginning and one at its end. *)
Theorem C93_spread :
  forall (F : realFieldType) (pi beta theta_c : F) (times : seq F),
    0 < pi -> 0 < beta -> - pi <= theta_c <= pi -> all (fun t => 0 <= t < beta) times ->
    let pts := theta_c * beta / (2%:R * pi) :: times in
    exists2 w, compute_spread pi beta theta_c times = Ok w &
      [/\ 0 <= w <= beta,
          exists t0, let at_ t x := t = t0 + x \/ t = t0 + x + beta in
            [/\ forall t, t \in pts -> exists2 x, 0 <= x <= w & at_ t x,
                exists2 t, t \in pts & at_ t 0 & exists2 t, t \in pts & at_ t w] &
          forall t, times = [:: t] -> theta_c = t * (2%:R * pi / beta) -> w = 0].
Proof.
move=> F pi beta th times p0 b0 /andP[th1 th2] ht pts.
have k0 : 0 < 2%:R * pi by rewrite mulr_gt0 // ltr0n.
have kn : 2%:R * pi != 0 by rewrite gt_eqF.
have bn : beta != 0 by rewrite gt_eqF.
have ab t : 0 <= t < beta -> 0 <= t * (2%:R * pi / beta) < 2%:R * pi.
  move=> /andP[t0 tb]; rewrite mulr_ge0 ?divr_ge0 ?(ltW k0) ?(ltW b0) //=.
  by rewrite mulrCA -{2}[2%:R * pi]mulr1 ltr_pmul2l // ltr_pdivr_mulr // mul1r.
have rg a : 0 <= a < 2%:R * pi -> - pi <= from_center pi th a <= pi /\ from_center pi th a < pi.
  move=> /andP[a0 a1]; rewrite /from_center; case: (leP pi (a - th)) => h.
    have l1 : - pi <= a - th - 2%:R * pi.
      by rewrite ler_subr_addr; have -> : - pi + 2%:R * pi = pi by ring.
    have l2 : a - th - 2%:R * pi < pi.
      rewrite ltr_subl_addr; apply: (@lt_le_trans _ _ (2%:R * pi - th)); first by rewrite ltr_add2r.
      by rewrite addrC ler_add2r ler_oppl.
    by rewrite l1 (ltW l2).
  rewrite h (ltW h) andbT; split=> //.
  by rewrite -[- pi]add0r ler_sub.
have main l d1 d2 : all (fun t => 0 <= t < beta) l -> 0 <= d1 <= pi -> 0 <= d2 <= pi ->
    exists e1 e2, [/\ foldl (spread_step pi th) (Ok (d1, d2)) (angles pi beta l) = Ok (e1, e2),
      d1 <= e1 <= pi, d2 <= e2 <= pi,
      forall t, t \in l -> - e2 <= from_center pi th (t * (2%:R * pi / beta)) <= e1 &
      (e1 = d1 \/ exists2 t, t \in l & from_center pi th (t * (2%:R * pi / beta)) = e1) /\
      (e2 = d2 \/ exists2 t, t \in l & from_center pi th (t * (2%:R * pi / beta)) = - e2)].
  elim: l d1 d2 => [|t l ih] d1 d2 /=; first by move=> _ /andP[_ h1] /andP[_ h2]; exists d1, d2; rewrite !lexx; split=> //; split; left.
  move=> /andP[tt al] /andP[a1 a2] /andP[c1 c2].
  have [r12 r3] := rg _ (ab _ tt); have /andP[r1 r2] := r12.
  rewrite /spread_step /= r2 r1 /=; case: leP => s0.
    have [||e1 [e2 [f1 f2 f3 f4 [f5 f6]]]] := ih (Num.max d1 `|from_center pi th (t * (2%:R * pi / beta))|) d2 al.
    - by rewrite le_maxr a1 /= le_maxl a2 ger0_norm.
    - by rewrite c1.
    exists e1, e2; have /andP[g1 g2] := f2; move: g1; rewrite le_maxl => /andP[g1 g3].
    rewrite g1 g2 f3; split=> //.
      move=> x; rewrite inE => /orP[/eqP ->|/f4 //].
      have /andP[m1 _] := f3; rewrite (le_trans _ s0) ?oppr_le0 ?(le_trans c1 m1) //=.
      by move: g3; rewrite ger0_norm.
    split; last by case: f6 => [->|[x xl ex]]; [left | right; exists x => //; rewrite inE xl orbT].
    case: f5 => [->|[x xl ex]]; last by right; exists x => //; rewrite inE xl orbT.
    rewrite ger0_norm //; case: (leP d1 _) => _; [right; exists t => //; by rewrite inE eqxx | by left].
  have [||e1 [e2 [f1 f2 f3 f4 [f5 f6]]]] := ih d1 (Num.max d2 `|from_center pi th (t * (2%:R * pi / beta))|) al.
  - by rewrite a1.
  - by rewrite le_maxr c1 /= le_maxl c2 ltr0_norm //= ler_oppl.
  exists e1, e2; have /andP[g1 g2] := f3; move: g1; rewrite le_maxl => /andP[g1 g3].
  rewrite g1 g2 f2; split=> //.
    move=> x; rewrite inE => /orP[/eqP ->|/f4 //].
    have /andP[m1 _] := f2; rewrite (le_trans (ltW s0)) ?(le_trans a1 m1) // andbT.
    by move: g3; rewrite ltr0_norm // ler_oppl.
  split; first by case: f5 => [->|[x xl ex]]; [left | right; exists x => //; rewrite inE xl orbT].
  case: f6 => [->|[x xl ex]]; last by right; exists x => //; rewrite inE xl orbT.
  rewrite ltr0_norm //; case: (leP d2 _) => _; [right; exists t; by rewrite ?inE ?eqxx ?opprK | by left].
have z : 0 <= (0 : F) <= pi by rewrite lexx ltW.
have [e1 [e2 [f1 /andP[f2 f3] /andP[f4 f5] f6 [f7 f8]]]] := main times 0 0 ht z z.
exists ((e1 + e2) * beta / (2%:R * pi)); first by rewrite /compute_spread f1.
have w0 : 0 <= e1 + e2 by rewrite addr_ge0.
have sc (x y : F) : x <= y -> x * beta / (2%:R * pi) <= y * beta / (2%:R * pi).
  by move=> h; rewrite ler_pmul2r ?invr_gt0 // ler_pmul2r.
split.
- rewrite divr_ge0 ?(ltW k0) ?mulr_ge0 ?(ltW b0) //=.
  have -> : beta = (2%:R * pi) * beta / (2%:R * pi) by rewrite mulrAC divff ?mul1r.
  have -> : (e1 + e2) * (2%:R * pi * beta / (2%:R * pi)) / (2%:R * pi) = (e1 + e2) * beta / (2%:R * pi).
    by rewrite [2%:R * pi * beta]mulrC mulfK.
  by apply: sc; rewrite mulr_natl mulr2n ler_add.
- exists ((th - e2) * beta / (2%:R * pi)) => at_.
  have at_t t : at_ t ((from_center pi th (t * (2%:R * pi / beta)) + e2) * beta / (2%:R * pi)).
    rewrite /at_; set a := t * _.
    have et : t = a * beta / (2%:R * pi) by rewrite /a -[t * _ * beta]mulrA mulfVK // mulfK.
    rewrite /from_center; case: leP => _; [right | left].
    + rewrite {1}et; field; by rewrite ?kn // gt_eqF.
    + rewrite {1}et; field; by rewrite ?kn // gt_eqF.
  have at_c : at_ (th * beta / (2%:R * pi)) (e2 * beta / (2%:R * pi)).
    by left; field; rewrite gt_eqF.
  split.
  + move=> t; rewrite inE => /orP[/eqP ->|tl].
      exists (e2 * beta / (2%:R * pi)) => //.
      rewrite divr_ge0 ?(ltW k0) ?mulr_ge0 ?(ltW b0) //=.
      by apply: sc; rewrite ler_addr.
    have /andP[u1 u2] := f6 t tl.
    exists ((from_center pi th (t * (2%:R * pi / beta)) + e2) * beta / (2%:R * pi)) => //.
    rewrite divr_ge0 ?(ltW k0) ?mulr_ge0 ?(ltW b0) //=; last by rewrite -ler_subl_addr sub0r.
    by apply: sc; rewrite ler_add2r.
  + case: f8 => [e|[t tl e]].
      by exists (th * beta / (2%:R * pi)); [rewrite inE eqxx | move: at_c; rewrite e !mul0r].
    by exists t; [rewrite inE tl orbT | have := at_t t; rewrite e addNr !mul0r].
  + case: f7 => [e|[t tl e]].
      by exists (th * beta / (2%:R * pi)); [rewrite inE eqxx | rewrite e add0r].
    by exists t; [rewrite inE tl orbT | have := at_t t; rewrite e].
move=> t et eth; move: f1; rewrite et /= /spread_step /= /from_center -eth subrr [pi <= 0]leNgt p0 /=.
rewrite (ltW p0) oppr_le0 (ltW p0) /= lexx normr0 maxxx => -[<- <-].
by rewrite addr0 !mul0r.
Qed.
Print Assumptions C93_spread.

Lemma ok_eq (x : outcome rat) v : (if x is Ok w then w == v else false) = true -> x = Ok v.
Proof. by case: x => // w /eqP ->. Qed.

(* two vertices on both sides of the time 0, with pi replaced by 3: the centre is at the time 0,
   the spread is a fifth of the circle *)
Example C93_case :
  compute_spread (3%:R : rat) 10%:R 0 [:: 1; 9%:R] = Ok 2%:R /\
  compute_spread (3%:R : rat) 10%:R (-3%:R) [:: 9%:R; 5%:R] = Ok 4%:R.
Proof. split; apply: ok_eq; vm_compute; reflexivity. Qed.
