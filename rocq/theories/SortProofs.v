(* Proofs about the sign routines of SortModel. *)
From mathcomp Require Import all_ssreflect ssralg ssrint fingroup perm zify.
From Verif Require Import Outcome SortModel SortSpec.

Set Implicit Arguments.
Unset Strict Implicit.
Unset Printing Implicit Defensive.

Local Open Scope ring_scope.
Import GRing.Theory.

Section Inversions.

Variables (T : eqType) (lt : rel T).
Hypothesis lt_irr : irreflexive lt.
Hypothesis lt_trans : transitive lt.
Hypothesis lt_total : forall x y, x != y -> lt x y || lt y x.

Lemma lt_asym x y : lt x y -> lt y x = false.
Proof. by move=> h; apply/negP => h'; move: (lt_trans h h'); rewrite lt_irr. Qed.

Lemma lt_neg x y : x != y -> lt y x = ~~ lt x y.
Proof.
move=> ne; move: (lt_total ne); case h: (lt x y) => /=; last by [].
by rewrite (lt_asym h).
Qed.

(* inversions across two consecutive parts *)
Definition crossinv (s t : seq T) : nat :=
  (\sum_(x <- s) count (fun y => lt y x) t)%N.

Lemma inversions_cat s t :
  inversions lt (s ++ t) = (inversions lt s + inversions lt t + crossinv s t)%N.
Proof.
rewrite /crossinv; elim: s => [|x s IH] /=; first by rewrite big_nil addn0.
by rewrite big_cons IH count_cat; lia.
Qed.

Lemma crossinv_perm s s' t t' :
  perm_eq s s' -> perm_eq t t' -> crossinv s t = crossinv s' t'.
Proof.
move=> ps pt; rewrite /crossinv (perm_big _ ps) /=.
by apply: eq_bigr => x _; apply: (seq.permP pt).
Qed.

(* exchanging two neighbours: exact change of the inversion count *)
Lemma inversions_swap_lt s x y t :
  lt y x ->
  inversions lt (s ++ x :: y :: t) = (inversions lt (s ++ y :: x :: t)).+1.
Proof.
move=> lyx; rewrite !inversions_cat /=.
have -> : crossinv s [:: x, y & t] = crossinv s [:: y, x & t].
  apply: crossinv_perm => //.
  by apply/seq.permP => p /=; lia.
by rewrite lyx (lt_asym lyx); lia.
Qed.

Lemma inversions_swap_adj s x y t :
  lt x y = false -> x != y ->
  inversions lt (s ++ x :: y :: t) = (inversions lt (s ++ y :: x :: t)).+1.
Proof.
by move=> nxy ne; apply: inversions_swap_lt; rewrite (lt_neg ne) nxy.
Qed.

(* exchanging two arbitrary distinct elements flips the parity *)
Lemma odd_inversions_swap s x b y t :
  uniq (s ++ x :: b ++ y :: t) ->
  odd (inversions lt (s ++ x :: b ++ y :: t)) =
  ~~ odd (inversions lt (s ++ y :: b ++ x :: t)).
Proof.
move=> u.
have: uniq (x :: b ++ y :: t) by move: u; rewrite cat_uniq => /and3P [].
rewrite /= mem_cat inE cat_uniq !negb_or => /andP [] /andP [] xb /andP [] xy xt.
move=> /and3P [] ub /andP [yb _] _.
have pe: perm_eq (x :: b ++ y :: t) (y :: b ++ x :: t).
  by apply/seq.permP => p; rewrite /= !count_cat /=; lia.
rewrite !inversions_cat /= !inversions_cat (crossinv_perm (perm_refl s) pe) /=.
rewrite !count_cat /=.
have cr z : crossinv b (z :: t) = (count (fun w => lt z w) b + crossinv b t)%N.
  rewrite /crossinv; elim: (b) => [|w l IH] /=; first by rewrite !big_nil.
  by rewrite !big_cons IH; lia.
have cb z : z \notin b -> (count (fun w => lt z w) b + count (fun w => lt w z) b)%N = size b.
  move=> zb; rewrite -(count_predC (fun w => lt z w) b); congr (_ + _)%N.
  apply: eq_in_count => w wb /=; apply: lt_neg; apply: contra zb => /eqP -> //.
rewrite !cr (lt_neg xy).
have := cb x xb; have := cb y yb.
by case: (lt x y) => /=; lia.
Qed.

Lemma sign_of_swap s x b y t :
  uniq (s ++ x :: b ++ y :: t) ->
  sign_of lt (s ++ x :: b ++ y :: t) = - sign_of lt (s ++ y :: b ++ x :: t).
Proof.
move=> u; rewrite /sign_of -signr_odd (odd_inversions_swap u) signrN.
by rewrite signr_odd.
Qed.

(* ---- bubble sort ---- *)

Lemma bubble_from_perm x l : perm_eq (bubble_from lt x l).1 (x :: l).
Proof.
elim: l x => [|y l IH] x //=; case: ifP => _.
- have := IH x; case: bubble_from => r k /= h.
  by apply/seq.permP => p /=; rewrite (seq.permP h) /=; lia.
- have := IH y; case: bubble_from => r k /= h.
  by rewrite perm_cons.
Qed.

Lemma bubble_pass_perm l : perm_eq (bubble_pass lt l).1 l.
Proof. by case: l => [|x l] //=; apply: bubble_from_perm. Qed.

Lemma bubble_from_inv s x l : uniq (x :: l) ->
  inversions lt (s ++ x :: l) =
  (inversions lt (s ++ (bubble_from lt x l).1) + (bubble_from lt x l).2)%N.
Proof.
elim: l s x => [|y l IH] s x /=; first by rewrite addn0.
rewrite inE negb_or => /andP [] /andP [] xy xl /andP [] yl ul.
case: ifP => [nlt|/negbFE llt].
- have u: uniq (x :: l) by rewrite /= xl ul.
  have := IH (rcons s y) x u; case: bubble_from => r k /=; rewrite !cat_rcons => h.
  by rewrite (inversions_swap_adj _ _ (negbTE nlt) xy) h addnS.
- have u: uniq (y :: l) by rewrite /= yl ul.
  have := IH (rcons s x) y u; case: bubble_from => r k /=; rewrite !cat_rcons => h.
  exact: h.
Qed.

Lemma bubble_pass_inv l : uniq l ->
  inversions lt l = (inversions lt (bubble_pass lt l).1 + (bubble_pass lt l).2)%N.
Proof. by case: l => [|x l] //= u; apply: (bubble_from_inv [::]). Qed.

Lemma bubble_from_nil x l : (bubble_from lt x l).2 = 0%N -> path lt x l.
Proof.
elim: l x => [|y l IH] x //=; case: ifP => [_|/negbFE xy].
- by case: bubble_from.
- by case e: bubble_from => [r k] /= k0; rewrite xy /= IH // e.
Qed.

Lemma bubble_pass_nil l : (bubble_pass lt l).2 = 0%N -> sorted lt l.
Proof. by case: l => [|x l] //=; apply: bubble_from_nil. Qed.

Lemma inversions_sorted l : sorted lt l -> inversions lt l = 0%N.
Proof.
elim: l => [|x l IH] //= p; rewrite IH ?(path_sorted p) // addn0.
apply/eqP; rewrite -leqn0 leqNgt -has_count -all_predC.
have /allP h := order_path_min lt_trans p.
by apply/allP => y yl /=; rewrite (lt_asym (h _ yl)).
Qed.

Lemma sorted_lt_uniq l : sorted lt l -> uniq l.
Proof. exact: sorted_uniq lt_trans lt_irr l. Qed.

Lemma bubble_loop_ok fuel perm l : uniq l -> (inversions lt l < fuel)%N ->
  bubble_loop lt fuel perm l = Ok (perm * (-1) ^+ inversions lt l).
Proof.
elim: fuel perm l => [|fuel IH] perm l u //= h.
have e := bubble_pass_inv u; have pe := bubble_pass_perm l.
have nil := @bubble_pass_nil l.
case: bubble_pass e pe nil => l' k /= e pe nil.
case: eqP => [k0|/eqP k0]; first by rewrite (inversions_sorted (nil k0)) k0.
rewrite IH; first by rewrite -mulrA -exprD e addnC.
- by rewrite (perm_uniq pe).
- by rewrite e in h; lia.
Qed.

Theorem permutation_sign_ok fuel l : uniq l -> (inversions lt l < fuel)%N ->
  permutation_sign lt fuel l = Ok (sign_of lt l).
Proof. by move=> u h; rewrite /permutation_sign bubble_loop_ok // mul1r. Qed.

Lemma bubble_loop_dup fuel perm l : ~~ uniq l -> bubble_loop lt fuel perm l = Diverge.
Proof.
elim: fuel perm l => [|fuel IH] perm l nu //=.
have pe := bubble_pass_perm l; have nil := @bubble_pass_nil l.
case: bubble_pass pe nil => l' k /= pe nil.
case: eqP => [k0|_]; first by rewrite (sorted_lt_uniq (nil k0)) in nu.
by apply: IH; rewrite (perm_uniq pe).
Qed.

(* ---- comb sort ---- *)

Lemma swap_at_cat (x0 : T) s x b y t :
  swap_at x0 (size s) (size s + (size b).+1) (s ++ x :: b ++ y :: t) =
  s ++ y :: b ++ x :: t.
Proof.
rewrite /swap_at; elim: s => [|z s IH] /=; last by rewrite IH.
by congr (_ :: _); elim: b => [|z b IH] //=; rewrite IH.
Qed.

Lemma split2 (l : seq T) i j : (i < j)%N -> (j < size l)%N ->
  exists s x b y t,
    [/\ l = s ++ x :: b ++ y :: t, size s = i & j = (i + (size b).+1)%N].
Proof.
elim: l i j => [|z l IH] [|i] [|j] //= ij jl.
- have: (j < size l)%N by lia.
  move: {IH ij jl} j; elim: l => [|w l IH] [|j] //= jl.
  + by exists [::], z, [::], w, l.
  + have [s [x [b [y [t [e0 s0 e1]]]]]] := IH _ jl.
    case: s e0 s0 => // -[_ el] _; exists [::], z, (w :: b), y, t; split => //=.
    * by rewrite el; case: (b) e1.
    * by move: e1; lia.
- have [s [x [b [y [t [e0 s0 e1]]]]]] := IH i j ij jl.
  by exists (z :: s), x, b, y, t; split; rewrite /= ?e0 ?s0 //; lia.
Qed.

Lemma swap_at_perm (x0 : T) i j l : (i < j)%N -> (j < size l)%N ->
  perm_eq (swap_at x0 i j l) l.
Proof.
move=> ij jl; have [s [x [b [y [t [-> <- ->]]]]]] := split2 ij jl.
rewrite swap_at_cat; apply/seq.permP => p; rewrite !count_cat /= !count_cat /=; lia.
Qed.

Lemma swap_at_odd (x0 : T) i j l : uniq l -> (i < j)%N -> (j < size l)%N ->
  odd (inversions lt (swap_at x0 i j l)) = ~~ odd (inversions lt l).
Proof.
move=> u ij jl; move: u; have [s [x [b [y [t [-> <- ->]]]]]] := split2 ij jl.
by move=> u; rewrite swap_at_cat (odd_inversions_swap u) negbK.
Qed.

Lemma swap_at_adj (x0 : T) i l : (i.+1 < size l)%N ->
  lt (nth x0 l i.+1) (nth x0 l i) ->
  inversions lt l = (inversions lt (swap_at x0 i i.+1 l)).+1.
Proof.
move=> il; have [s [x [b [y [t [-> <- e]]]]]] := split2 (ltnSn i) il.
have b0: b = [::] by apply/nilP; rewrite /nilp; apply/eqP; lia.
rewrite b0 /= !nth_cat ltnn subnn subSnn ltnNge leqnSn /=.
by move=> /= h; have := swap_at_cat x0 s x [::] y t; rewrite /= addn1 => ->; apply: inversions_swap_lt.
Qed.

Section Pass.
Variables (x0 : T) (gap : nat).

Lemma comb_pass_gen k m l c sw l' c' sw' :
  (m + k + gap <= size l)%N ->
  foldl (comb_step lt x0 gap) (l, c, sw) (iota m k) = (l', c', sw') ->
  [/\ perm_eq l' l,
      uniq l -> (0 < gap)%N ->
        odd (inversions lt l') (+) odd c' = odd (inversions lt l) (+) odd c,
      gap = 1%N -> (inversions lt l' + c' = inversions lt l + c)%N /\ (c <= c')%N
        /\ (sw' -> sw || (c < c'))%N
    & sw' = false -> [/\ sw = false, l' = l, c' = c &
        forall i, (m <= i < m + k)%N -> lt (nth x0 l (i + gap)) (nth x0 l i) = false]].
Proof.
elim: k m l c sw => [|k IH] m l c sw hs /=.
  case=> <- <- <-; split => // [h|->]; last by split => // i; lia.
  by split=> //; split => // ->.
case: ifP => h.
- move=> e.
  have g0 : (0 < gap)%N.
    by case: gap h => //; rewrite addn0 lt_irr.
  have mg: (m < m + gap)%N by lia.
  have mgs: (m + gap < size l)%N by lia.
  have pe := swap_at_perm x0 mg mgs.
  have hs' : (m.+1 + k + gap <= size (swap_at x0 m (m + gap) l))%N.
    by rewrite (perm_size pe); lia.
  have [pe' od inv1 fin] := IH _ _ _ _ hs' e.
  split.
  + exact: perm_trans pe' pe.
  + move=> u _; rewrite od ?(perm_uniq pe) // swap_at_odd //=.
    by rewrite addNb addbN negbK.
  + move=> g1; have [i1 [i2 i3]] := inv1 g1.
    move: h i1; rewrite g1 addn1 => h i1.
    have := swap_at_adj (_ : m.+1 < size l)%N h; rewrite g1 addn1 in mgs => /(_ mgs) ee.
    split; [lia | split; [lia | by move=> _; apply/orP; right; lia]].
  + by move=> /fin [].
- move=> e; have hs' : (m.+1 + k + gap <= size l)%N by lia.
  have [pe' od inv1 fin] := IH _ _ _ _ hs' e.
  split => // /fin [-> -> -> fin']; split => // i /andP [mi ik].
  case: (eqVneq m i) => [<-|ne]; first by [].
  by apply: fin'; lia.
Qed.

End Pass.

Lemma shrink_lt n : (1 < n)%N -> (maxn (shrink n) 1 < n)%N.
Proof. by rewrite /shrink => n1; rewrite gtn_max; lia. Qed.

Definition le_of (x y : T) := ~~ lt y x.

Lemma inversions_le l : (inversions lt l <= size l * size l)%N.
Proof.
elim: l => [|x l IH] //=; have := count_size (fun y => lt y x) l; nia.
Qed.

Lemma comb_loop1_ok fuel x0 l c :
  (0 < size l)%N -> (inversions lt l < fuel)%N ->
  exists l' c', [/\ comb_loop lt fuel x0 1 l c = Ok (l', c'), perm_eq l' l,
    sorted le_of l' &
    uniq l -> odd (inversions lt l') (+) odd c' = odd (inversions lt l) (+) odd c].
Proof.
elim: fuel l c => [|fuel IH] l c // s0 fu /=.
have -> : (size l < 1)%N = false by lia.
rewrite /comb_pass; case e: foldl => [[l' c'] sw'].
have hs: (0 + (size l - 1) + 1 <= size l)%N by lia.
have [pe od inv1 fin] := comb_pass_gen hs e.
have [i1 [i2 i3]] := inv1 erefl.
clear inv1; case: sw' e i3 fin => /= e i3 fin; last first.
  have [_ -> -> srt] := fin erefl; exists l, c; split => //.
  apply/(sortedP x0) => i il; rewrite /le_of.
  by have := srt i; rewrite addn1 => ->; last by lia.
have hm : maxn (shrink 1) 1 = 1%N by [].
rewrite hm.
have s0': (0 < size l')%N by rewrite (perm_size pe).
have fu' : (inversions lt l' < fuel)%N by have := i3 erefl; lia.
have [l2 [c2 [e2 pe2 so2 od2]]] := IH l' c' s0' fu'.
exists l2, c2; split => //; first exact: perm_trans pe2 pe.
by move=> u; rewrite od2 ?(perm_uniq pe) // od.
Qed.

Lemma comb_loop_ok fuel x0 gap l c :
  (0 < gap <= size l)%N -> (gap + size l * size l < fuel)%N ->
  exists l' c', [/\ comb_loop lt fuel x0 gap l c = Ok (l', c'), perm_eq l' l,
    sorted le_of l' &
    uniq l -> odd (inversions lt l') (+) odd c' = odd (inversions lt l) (+) odd c].
Proof.
elim: fuel gap l c => [|fuel IH] gap l c // gs fu.
case: (eqVneq gap 1%N) => [->|g1].
  by apply: comb_loop1_ok; [lia | have := inversions_le l; lia].
have gl : (1 < gap)%N by lia.
rewrite /=; have -> : (size l < gap)%N = false by lia.
rewrite /comb_pass; case e: foldl => [[l' c'] sw'].
have hs: (0 + (size l - gap) + gap <= size l)%N by lia.
have [pe od _ fin] := comb_pass_gen hs e.
rewrite (negbTE g1) andbF.
have sh := shrink_lt gl; have sp : (0 < maxn (shrink gap) 1)%N by rewrite leq_max orbT.
have gs' : (0 < maxn (shrink gap) 1 <= size l')%N.
  by rewrite (perm_size pe) sp /=; lia.
have fu' : (maxn (shrink gap) 1 + size l' * size l' < fuel)%N.
  by rewrite (perm_size pe); lia.
have [l2 [c2 [e2 pe2 so2 od2]]] := IH _ _ c' gs' fu'.
exists l2, c2; split => //; first exact: perm_trans pe2 pe.
by move=> u; rewrite od2 ?(perm_uniq pe) // od //; lia.
Qed.

Lemma le_sorted_uniq_inv l : uniq l -> sorted le_of l -> inversions lt l = 0%N.
Proof.
move=> u so; apply: inversions_sorted.
case: l u so => // x l; elim: l x => [|y l IH] x //= /andP [xl u] /andP [ley p].
rewrite (IH y u p : path lt y l) andbT; move: ley; rewrite /le_of; have: y != x.
  by move: xl; rewrite inE negb_or eq_sym => /andP [].
by move=> ne; rewrite (lt_neg ne) => ->.
Qed.

Theorem comb_sort_ok fuel x0 l :
  (0 < size l)%N -> (size l + size l * size l + 1 < fuel)%N ->
  exists l' sg, [/\ comb_sort lt fuel x0 l = Ok (l', sg), perm_eq l' l,
    sorted le_of l' & uniq l -> sg = sign_of lt l].
Proof.
move=> s0 fu; rewrite /comb_sort.
suff [l' [c' [-> pe so od]]] : exists l' c',
  [/\ comb_loop lt fuel x0 (shrink (size l)) l 0 = Ok (l', c'), perm_eq l' l,
    sorted le_of l' &
    uniq l -> odd (inversions lt l') (+) odd c' = odd (inversions lt l)].
  exists l', (if ~~ odd c' then 1 else -1); split => // u.
  have := od u; rewrite le_sorted_uniq_inv ?(perm_uniq pe) //= /sign_of => e.
  by rewrite -signr_odd -e; case: odd.
case: (ltnP 1 (size l)) => s1.
  have shl : (shrink (size l) <= size l)%N by rewrite /shrink; lia.
  have sh0 : (0 < shrink (size l))%N by rewrite /shrink; lia.
  have sb : (0 < shrink (size l) <= size l)%N by rewrite sh0 shl.
  have fb : (shrink (size l) + size l * size l < fuel)%N by lia.
  have [l' [c' [e1 e2 e3 e4]]] := comb_loop_ok x0 0 sb fb.
  by exists l', c'; split => // u; rewrite e4 //= addbF.
have: size l = 1%N by lia.
case: l {s0 s1} fu => [|x [|? ?]] //= fu _.
have -> : shrink 1 = 0%N by [].
case: fuel fu => [|[|fuel]] //= _; rewrite /comb_pass /= lt_irr /=.
by exists [:: x], 0%N.
Qed.

Theorem comb_sort_empty fuel x0 : (1 < fuel)%N -> comb_sort lt fuel x0 [::] = UB.
Proof. by case: fuel => [|[|fuel]]. Qed.

End Inversions.

(* ---- relation with the sign of a permutation ---- *)
Section PermSign.

Variables (T : eqType) (lt : rel T).
Hypothesis lt_irr : irreflexive lt.
Hypothesis lt_trans : transitive lt.
Hypothesis lt_total : forall x y, x != y -> lt x y || lt y x.

Definition permute_seq (n : nat) (f : 'I_n -> T) (s : 'S_n) : seq T :=
  [seq f (s i) | i <- enum 'I_n].

Lemma nth_permute_seq n (f : 'I_n -> T) s x0 (i : 'I_n) :
  nth x0 (permute_seq f s) i = f (s i).
Proof. by rewrite (nth_map i) ?size_enum_ord ?ltn_ord // nth_ord_enum. Qed.

Lemma size_permute_seq n (f : 'I_n -> T) s : size (permute_seq f s) = n.
Proof. by rewrite size_map size_enum_ord. Qed.

Lemma permute_seq_uniq n (f : 'I_n -> T) s : injective f -> uniq (permute_seq f s).
Proof.
move=> fi; rewrite map_inj_uniq ?enum_uniq // => i j /fi /perm_inj //.
Qed.

Lemma permute_seq_tperm n (f : 'I_n -> T) (s : 'S_n) (i j : 'I_n) x0 :
  permute_seq f (tperm i j * s)%g = swap_at x0 i j (permute_seq f s).
Proof.
apply: (@eq_from_nth _ x0) => [|k]; rewrite /swap_at.
  rewrite !size_set_nth !size_permute_seq.
  by have := ltn_ord i; have := ltn_ord j; lia.
rewrite size_permute_seq => kn; pose k' := Ordinal kn.
rewrite (nth_permute_seq f _ x0 k') permM !nth_set_nth /= !nth_set_nth /=.
rewrite !nth_permute_seq.
case: tpermP => [e|e|ki kj].
- have -> : k = i :> nat by rewrite -e.
  by case: eqP => [/val_inj ->|_] //; rewrite eqxx.
- have -> : k = j :> nat by rewrite -e.
  by rewrite eqxx.
- have -> : (k == j :> nat) = false by apply/negP => /eqP h; apply: kj; apply: val_inj.
  have -> : (k == i :> nat) = false by apply/negP => /eqP h; apply: ki; apply: val_inj.
  by rewrite (nth_permute_seq f _ x0 k').
Qed.

Theorem sign_of_permute n (f : 'I_n -> T) (s : 'S_n) : injective f ->
  sign_of lt (permute_seq f s) = (-1) ^+ s * sign_of lt (permute_seq f 1%g).
Proof.
move=> fi; have [ts -> dp] := prod_tpermP s.
elim: ts dp => [|[i j] ts IH] /=.
  by rewrite big_nil odd_perm1 expr0 mul1r.
move=> /andP [ij dp]; rewrite big_cons odd_mul_tperm /=.
set s' := (\prod_(t <- ts) _)%g in IH *.
rewrite /dpair /= in ij; rewrite ij.
wlog {ij} ij : i j / (i < j)%N.
  move=> W; move: (ij); rewrite neq_ltn => /orP [h|h]; first exact: W.
  by rewrite tpermC; apply: W.
have jl : (j < size (permute_seq f s'))%N by rewrite size_permute_seq ltn_ord.
rewrite (permute_seq_tperm f s' i j (f i)) /sign_of.
rewrite -signr_odd (swap_at_odd lt_irr lt_trans lt_total) ?permute_seq_uniq //.
rewrite signrN signr_odd -/(sign_of _ _) IH // signr_addb /=.
by rewrite expr1 mulN1r mulNr.
Qed.

End PermSign.

Lemma ltn_strict_total : strict_total ltn.
Proof. by split; [exact: ltnn | exact: ltn_trans | move=> x y; rewrite neq_ltn]. Qed.

Lemma sorted_permute1 (T : eqType) (lt : rel T) n (f : 'I_n -> T) :
  strict_total lt -> (forall i j : 'I_n, (i < j)%N -> lt (f i) (f j)) ->
  inversions lt (permute_seq f 1%g) = 0%N.
Proof.
case=> irr tr tot inc; apply: (inversions_sorted irr tr).
rewrite /permute_seq; case: n f inc => [|n] f inc.
  by rewrite (size0nil (size_enum_ord 0)).
apply/(sortedP (f ord0)) => i; rewrite size_map size_enum_ord => il.
have il' : (i < n.+1)%N by lia.
rewrite (nth_permute_seq f 1%g (f ord0) (Ordinal il')).
rewrite (nth_permute_seq f 1%g (f ord0) (Ordinal il)).
by rewrite !perm1; apply: inc.
Qed.

Lemma permutation_sign_group (T : eqType) (lt : rel T) :
  strict_total lt -> forall (n : nat) (f : 'I_n -> T) (s : 'S_n),
    (forall i j : 'I_n, (i < j)%N -> lt (f i) (f j)) ->
    exists fuel0, forall fuel, (fuel0 <= fuel)%N ->
      permutation_sign lt fuel [seq f (s i) | i <- enum 'I_n] = Ok ((-1) ^+ s).
Proof.
move=> st n f s inc; have [irr tr tot] := st.
have fi : injective f.
  move=> i j e; case: (ltngtP i j) => [h|h|/val_inj //].
  - by have := inc _ _ h; rewrite e irr.
  - by have := inc _ _ h; rewrite e irr.
exists (inversions lt (permute_seq f s)).+1 => fuel fu.
rewrite -/(permute_seq f s) (permutation_sign_ok irr tr tot) ?permute_seq_uniq //.
rewrite (sign_of_permute irr tr tot s fi) /sign_of.
by rewrite (sorted_permute1 st inc) expr0 mulr1.
Qed.
