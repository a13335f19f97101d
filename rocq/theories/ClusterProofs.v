(* Proofs about ClusterModel. *)
From mathcomp Require Import all_ssreflect zify.
From Verif Require Import Outcome ClusterModel ClusterSpec.

Set Implicit Arguments.
Unset Strict Implicit.
Unset Printing Implicit Defensive.

Definition wf (al : seq nat) := forall i, i < size al -> nth 0 al i <= i.

Definition root (al : seq nat) (i : nat) := iter i (fun k => nth 0 al k) i.

Lemma iter_stable al i n : wf al -> i < size al -> i <= n ->
  [/\ iter n (fun k => nth 0 al k) i = root al i, root al i <= i
    & nth 0 al (root al i) = root al i].
Proof.
move=> w; rewrite /root.
elim/ltn_ind: i n => i IH n il ni.
set f := fun k => nth 0 al k.
have fi := w i il.
case: (eqVneq (f i) i) => [e|ne].
  have fx m : iter m f i = i by elim: m => //= m ->.
  by rewrite !fx; split.
have lt: f i < i by rewrite /f in ne *; lia.
have ls : f i < size al by lia.
case: n ni => [|n] ni; first by lia.
rewrite iterSr; have [-> le fx] := IH _ lt n ls (ltac:(lia)).
have -> : iter i f i = iter (f i) f (f i).
  case: i IH il ni fi ne lt ls le fx => [|i] IH il ni fi ne lt ls le fx //.
  by rewrite iterSr; have [-> _ _] := IH _ lt i ls (ltac:(lia)).
by split => //; exact: leq_trans le (ltnW lt).
Qed.

Lemma root_le al i : wf al -> i < size al -> root al i <= i.
Proof. by move=> w il; have [] := iter_stable w il (leqnn i). Qed.

Lemma root_fix al i : wf al -> i < size al -> nth 0 al (root al i) = root al i.
Proof. by move=> w il; have [] := iter_stable w il (leqnn i). Qed.

Lemma root_lt al i : wf al -> i < size al -> root al i < size al.
Proof. by move=> w il; have := root_le w il; lia. Qed.

Lemma root_alias al i : wf al -> i < size al -> root al (nth 0 al i) = root al i.
Proof.
move=> w il; have fi := w i il; have ls: nth 0 al i < size al by lia.
have [<- _ _] := iter_stable w ls fi; rewrite -iterSr.
by have [-> _ _] := iter_stable w il (leqnSn i).
Qed.

Lemma root_self al i : nth 0 al i = i -> root al i = i.
Proof. by move=> e; rewrite /root; elim: {1}i => //= m ->. Qed.

Lemma chase_ok fuel al c vis : wf al -> c < size al -> c < fuel ->
  exists vis', chase fuel al c vis = Ok (root al c, vis ++ vis') /\
    (forall v, v \in vis' -> v < size al /\ root al v = root al c).
Proof.
move=> w; elim: fuel c vis => [|fuel IH] c vis cl cf //=.
have -> : size al <= c = false by lia.
case: eqP => [e|/eqP ne].
  by exists [::]; rewrite cats0 (root_self (esym e)).
have fc := w c cl.
have [v' [-> hv]] := IH (nth 0 al c) (rcons vis c) (ltac:(lia)) (ltac:(lia)).
exists (c :: v'); rewrite (root_alias w cl) cat_rcons; split => // v.
rewrite inE => /orP [/eqP ->|/hv [vl ->]]; first by split.
by rewrite (root_alias w cl).
Qed.

(* pointing an element directly to its root changes nothing *)
Lemma set_root al k r : wf al -> k < size al -> root al k = r ->
  [/\ wf (set_nth 0 al k r), size (set_nth 0 al k r) = size al &
      forall i, i < size al -> root (set_nth 0 al k r) i = root al i].
Proof.
move=> w kl rk; set al' := set_nth 0 al k r.
have sz : size al' = size al by rewrite size_set_nth; lia.
have rlek := root_le w kl.
have w' : wf al'.
  move=> i; rewrite sz nth_set_nth /= => il.
  by case: eqP => [->|_]; [rewrite -rk | apply: w].
split => //; elim/ltn_ind => i IH il.
have il' : i < size al' by rewrite sz.
case: (eqVneq i k) => [ik|ik].
- have ai : nth 0 al' i = r by rewrite nth_set_nth /= ik eqxx.
  rewrite -(root_alias w' il') ai.
  have rfix : nth 0 al r = r by rewrite -rk root_fix.
  rewrite root_self; first by rewrite ik rk.
  by rewrite nth_set_nth /=; case: eqP.
- have ai : nth 0 al' i = nth 0 al i by rewrite nth_set_nth /= (negbTE ik).
  have le := w i il.
  case: (eqVneq (nth 0 al i) i) => [fx|ne]; first by rewrite !root_self // ai.
  rewrite -(root_alias w' il') ai IH; [exact: root_alias | lia | lia].
Qed.

Lemma compress_ok al vis r : wf al ->
  (forall v, v \in vis -> v < size al /\ root al v = r) ->
  let al' := foldl (fun a h => set_nth 0 a h r) al vis in
  [/\ wf al', size al' = size al, forall i, i < size al -> root al' i = root al i &
    forall i, i < size al -> nth 0 al' i = nth 0 al i \/ nth 0 al' i = root al i].
Proof.
elim: vis al => [|k vis IH] al w hv /=; first by split => // i _; left.
have [kl rk] := hv k (mem_head _ _).
have [w1 s1 r1] := set_root w kl rk.
have [|w2 s2 r2 n2] := IH _ w1.
  move=> v vv; have [vl rv] := hv v (ltac:(by rewrite inE vv orbT)).
  by rewrite s1 r1.
split => //; rewrite ?s2 // => i il; first by rewrite r2 ?s1 // r1.
have := n2 i; rewrite s1 r1 // => /(_ il) [->|->]; last by right.
by rewrite nth_set_nth /=; case: eqP => [->|_]; [right | left].
Qed.

Lemma get_true_label_ok al c : wf al -> c < size al ->
  exists al', [/\ get_true_label al c = Ok (root al c, al'), wf al',
    size al' = size al,  forall i, i < size al -> root al' i = root al i &
    forall i, i < size al -> nth 0 al' i = nth 0 al i \/ nth 0 al' i = root al i]. 
Proof.
move=> w cl; rewrite /get_true_label.
have [vis [-> hv]] := chase_ok [::] w cl (ltac:(lia) : c < (size al).+1).
rewrite /= ; have [w' s' r' n'] := compress_ok w hv.
by eexists; split; first by reflexivity.
Qed.

(* pointing a root to a smaller root merges the two classes *)
Lemma merge_ok al a b : wf al -> a < b -> b < size al ->
  nth 0 al a = a -> nth 0 al b = b ->
  [/\ wf (set_nth 0 al b a), size (set_nth 0 al b a) = size al &
      forall i, i < size al -> root (set_nth 0 al b a) i =
        if root al i == b then a else root al i].
Proof.
move=> w ab bl fa fb; set al' := set_nth 0 al b a.
have sz : size al' = size al by rewrite size_set_nth; lia.
have w' : wf al'.
  move=> i; rewrite sz nth_set_nth /= => il.
  by case: eqP => [->|_]; [lia | apply: w].
split => //; elim/ltn_ind => i IH il.
have il' : i < size al' by rewrite sz.
case: (eqVneq i b) => [ib|ib].
- have ai : nth 0 al' i = a by rewrite nth_set_nth /= ib eqxx.
  rewrite -(root_alias w' il') ai root_self; last first.
    by rewrite nth_set_nth /=; case: eqP => // h; move: ab; rewrite h ltnn.
  by rewrite ib (root_self fb) eqxx.
- have ai : nth 0 al' i = nth 0 al i by rewrite nth_set_nth /= (negbTE ib).
  have le := w i il.
  case: (eqVneq (nth 0 al i) i) => [fx|ne].
    by rewrite (root_self fx) (negbTE ib) root_self // ai.
  by rewrite -(root_alias w' il') ai IH ?(root_alias w il) //; lia.
Qed.

Lemma connect_ok al v1 v2 : wf al -> v1 < size al -> v2 < size al ->
  exists al', [/\ connect_vertices al v1 v2 = Ok al', wf al', size al' = size al &
    exists a b, [/\ (a = root al v1 /\ b = root al v2) \/ (a = root al v2 /\ b = root al v1)
      & forall i, i < size al -> root al' i = if root al i == b then a else root al i]].
Proof.
move=> w l1 l2; rewrite /connect_vertices leqNgt l1 /=.
have a1 : nth 0 al v1 < size al by have := w _ l1; lia.
have [al1 [-> w1 s1 r1 _]] := get_true_label_ok w a1; rewrite /= s1 leqNgt l2 /=.
have a2 : nth 0 al1 v2 < size al1 by have := w1 v2; rewrite s1 => /(_ l2); lia.
have [al2 [-> w2 s2 r2 _]] := get_true_label_ok w1 a2; rewrite /=.
rewrite (root_alias w l1) (root_alias w1) ?s1 // r1 //.
rewrite s1 in r2 s2.
have rr i : i < size al -> root al2 i = root al i by move=> il; rewrite r2 // r1.
have fx v : v < size al -> nth 0 al2 (root al v) = root al v.
  by move=> vl; rewrite -(rr v vl) root_fix // s2.
case: eqP => [e|/eqP ne].
  exists al2; split => //; exists (root al v1), (root al v2); split; first by left.
  by move=> i il; rewrite rr //; case: eqP => // ->.
case: ltnP => h.
- have bl : root al v2 < size al2 by rewrite s2 root_lt.
  have [w3 s3 r3] := merge_ok w2 h bl (fx _ l1) (fx _ l2).
  eexists; split; [reflexivity | by [] | by rewrite s3 |].
  exists (root al v1), (root al v2); split; first by left.
  by move=> i il; rewrite r3 ?s2 // rr.
- have h' : root al v2 < root al v1 by lia.
  have bl : root al v1 < size al2 by rewrite s2 root_lt.
  have [w3 s3 r3] := merge_ok w2 h' bl (fx _ l2) (fx _ l1).
  eexists; split; [reflexivity | by [] | by rewrite s3 |].
  exists (root al v2), (root al v1); split; first by right.
  by move=> i il; rewrite r3 ?s2 // rr.
Qed.

Lemma linked_mono ops ops' i j : {subset ops <= ops'} -> linked ops i j -> linked ops' i j.
Proof.
move=> sub; elim=> [v|v w /sub h|v w _ IH|u v w _ IH1 _ IH2].
- exact: linked_refl.
- exact: linked_op.
- exact: linked_sym.
- exact: linked_trans IH1 IH2.
Qed.

Definition in_range (N : nat) (ops : seq (nat * nat)) :=
  all (fun p => (p.1 < N) && (p.2 < N)) ops.

Lemma linked_range N ops i j : in_range N ops -> linked ops i j -> i < N <-> j < N.
Proof.
move=> /allP r; elim=> [v|v w /r /andP [/= a b]|v w _ IH|u v w _ IH1 _ IH2].
- by [].
- by rewrite a b.
- by split => /IH.
- by split => [/IH1 /IH2|/IH2 /IH1].
Qed.

Lemma connects_ok N ops : in_range N ops ->
  exists al, [/\ foldl (fun st p => obind st (fun al => connect_vertices al p.1 p.2))
               (Ok (clus_init N)) ops = Ok al, wf al, size al = N &
    forall i j, i < N -> j < N -> (root al i = root al j <-> linked ops i j)].
Proof.
elim/last_ind: ops => [|ops [v1 v2] IH] r /=.
  exists (clus_init N); rewrite size_iota; split => //.
  - by move=> i; rewrite size_iota => il; rewrite nth_iota.
  - move=> i j il jl; rewrite !root_self ?nth_iota //.
    split => [->|]; first exact: linked_refl.
    by elim => [v|v w|v w _ ->|u v w _ -> _ ->].
move: r; rewrite /in_range all_rcons /= => /andP [/andP [l1 l2] r].
have [al [e w sz eqv]] := IH r; rewrite foldl_rcons e /=.
have l1' : v1 < size al by rewrite sz.
have l2' : v2 < size al by rewrite sz.
have [al' [-> w' sz' [a [b [ab rt]]]]] := connect_ok w l1' l2'.
exists al'; split => //; first by rewrite sz' sz.
move=> i j il jl; rewrite sz in rt; rewrite !rt //.
have sub : {subset ops <= rcons ops (v1, v2)} by move=> x; rewrite mem_rcons inE => ->; rewrite orbT.
have l12 : linked (rcons ops (v1, v2)) v1 v2 by apply: linked_op; rewrite mem_rcons mem_head.
have lk x y : x < N -> y < N -> root al x = root al y -> linked (rcons ops (v1, v2)) x y.
  by move=> xl yl /(eqv _ _ xl yl) /(linked_mono sub).
have lab : forall x y, x < N -> y < N -> root al x = a -> root al y = b -> linked (rcons ops (v1, v2)) x y.
  move=> x y xl yl xa yb; case: ab => -[ea eb].
  - apply: (linked_trans (v:=v1)); first by apply: lk => //; rewrite xa ea.
    apply: (linked_trans l12); apply: lk => //; by rewrite yb eb.
  - apply: (linked_trans (v:=v2)); first by apply: lk => //; rewrite xa ea.
    apply: (linked_trans (linked_sym l12)); apply: lk => //; by rewrite yb eb.
split.
- case: eqP => [ib|nib]; case: eqP => [jb|njb] h.
  + by apply: lk => //; rewrite ib jb.
  + by apply: linked_sym; apply: lab => //.
  + by apply: lab.
  + exact: lk.
- move=> L; move: L il jl; elim => {i j} [x|x y|x y _ IHl|x y z L1 IH1 L2 IH2] //.
  + rewrite mem_rcons inE => /orP [/eqP [-> ->]|xy] xl yl.
      by case: ab => -[-> ->]; rewrite !eqxx; case: eqP => //; case: eqP => //.
    have /(eqv _ _ xl yl) -> // : linked ops x y by apply: linked_op.
  + by move=> yl xl; rewrite IHl.
  + have rr : in_range N (rcons ops (v1, v2)) by rewrite /in_range all_rcons /= l1 l2.
    move=> xl zl; have yl : y < N by apply/(linked_range rr L1).
    by rewrite IH1 // IH2.
Qed.

Lemma resolve_ok N al m : wf al -> size al = N -> m <= N ->
  exists al', [/\ foldl resolve_step (Ok (al, [::])) (iota 0 m) =
      Ok (al', [seq i <- iota 0 m | root al i == i]), wf al', size al' = N,
      forall i, i < N -> root al' i = root al i &
      forall i, i < m -> nth 0 al' i = root al i].
Proof.
move=> w sz; elim: m => [|m IH] mN; first by exists al; split.
have [al1 [e w1 s1 r1 n1]] := IH (ltnW mN).
rewrite -[m.+1]addn1 iotaD foldl_cat e /= filter_cat /= add0n.
have ml : m < size al1 by rewrite s1.
have [al2 [-> w2 s2 r2 n2]] := get_true_label_ok w1 ml; rewrite /= r1 //.
rewrite s1 in s2 r2 n2.
have ml2 : m < size al2 by rewrite s2.
have rm : root al2 m = root al m by rewrite r2 // r1.
have [w3 s3 r3] := set_root w2 ml2 rm; rewrite s2 in s3 r3.
have mal : m < size al by rewrite sz.
exists (set_nth 0 al2 m (root al m)); split => //.
- rewrite mem_filter mem_iota /= add0n.
  have le := root_le w mal.
  have -> : root al (root al m) == root al m by apply/eqP; apply: root_self; apply: root_fix.
  case: (eqVneq (root al m) m) => [rme|ne] /=; last first.
    have -> : root al m < m by lia.
    by rewrite cats0.
  by rewrite rme ltnn cats1.
- by move=> i il; rewrite r3 // r2 // r1.
- move=> i im; rewrite nth_set_nth /=; case: eqP => [-> //|/eqP ne].
  have il : i < N by lia.
  have im' : i < m by lia.
  by case: (n2 i il) => ->; [apply: n1 | apply: r1].
Qed.

Lemma members_ok (labels : seq nat) k m :
  (forall i, i < m -> nth 0 labels i < k) ->
  let ms := foldl (fun ms i => let l := nth 0 labels i in
       set_nth [::] ms l (rcons (nth [::] ms l) i)) (nseq k [::]) (iota 0 m) in
  size ms = k /\
  forall c, c < k -> nth [::] ms c = [seq i <- iota 0 m | nth 0 labels i == c].
Proof.
elim: m => [|m IH] h.
  by rewrite /= size_nseq; split => // c ck; rewrite nth_nseq ck.
have [sz nt] := IH (fun i im => h i (ltnW im)).
rewrite -[m.+1]addn1 iotaD foldl_cat /= add0n.
set ms := foldl _ _ _ in sz nt *.
have lk := h m (leqnn _).
split; first by rewrite size_set_nth sz; lia.
move=> c ck; rewrite nth_set_nth /= filter_cat /=.
case: (eqVneq c (nth 0 labels m)) => [ce|ne]; last first.
  by rewrite nt // cats0.
by rewrite -ce nt // cats1.
Qed.

Theorem clustering_ok N ops : in_range N ops ->
  exists labels members, clustering N ops = Ok (labels, members) /\
    good_clustering N ops labels members.
Proof.
move=> r; rewrite /clustering.
have [al [-> w sz eqv]] := connects_ok r.
rewrite /= /finalize_labeling.
have [al' [-> w' sz' r' n']] := resolve_ok w sz (leqnn N); rewrite /=.
set firsts := [seq i <- iota 0 N | root al i == i].
set labels := [seq index _ _ | i <- _].
have nl i : i < N -> nth 0 labels i = index (root al i) firsts.
  by move=> il; rewrite (nth_map 0) ?size_iota // nth_iota // n'.
have rf i : i < N -> root al i \in firsts.
  move=> il; have il' : i < size al by rewrite sz.
  rewrite mem_filter mem_iota /= add0n; have := root_lt w il'; rewrite sz => ->.
  by rewrite andbT; apply/eqP; apply: root_self; apply: root_fix.
have lk i : i < N -> nth 0 labels i < size firsts by move=> il; rewrite nl // index_mem rf.
have [sm nm] := members_ok lk.
have uf : uniq firsts by rewrite filter_uniq // iota_uniq.
eexists; eexists; split; [reflexivity | split].
- by rewrite size_map size_iota.
- move=> i j il jl; rewrite !nl // -eqv //; split => [h|-> //].
  by rewrite -(nth_index 0 (rf i il)) h nth_index // rf.
- exists firsts; split => //.
  + by apply: sorted_filter; [exact: ltn_trans | exact: iota_ltn_sorted].
  + move=> v; rewrite mem_filter mem_iota /= add0n; split.
    * move=> /andP [/eqP rv vN]; split => // x L.
      have xN : x < N by apply/(linked_range r L).
      have /(eqv _ _ vN xN) : linked ops v x by [].
      by rewrite rv => ->; apply: root_le => //; rewrite sz.
    * case=> vN h; rewrite vN andbT.
      have vl : v < size al by rewrite sz.
      have rl := root_lt w vl; rewrite sz in rl.
      have L : linked ops v (root al v).
        apply/(eqv _ _ vN rl); rewrite [RHS]root_self //; exact: root_fix.
      by rewrite eqn_leq h // root_le.
  + move=> c ck; have cm := mem_nth 0 ck.
    have : nth 0 firsts c \in firsts by [].
    rewrite {1}/firsts mem_filter mem_iota /= add0n => /andP [/eqP rv vN].
    by rewrite nl // rv index_uniq.
- by move=> i il; rewrite sm lk.
- by move=> c; rewrite sm => ck; rewrite nm.
Qed.
