(* Proofs about GroupModel. *)
From mathcomp Require Import all_ssreflect zify.
From Verif Require Import Outcome GroupModel GroupSpec.

Set Implicit Arguments.
Unset Strict Implicit.
Unset Printing Implicit Defensive.

Lemma filter_head_cons (p : pred nat) m s l :
  [seq x <- iota 0 m | p x] = s :: l -> p s /\ s < m.
Proof.
move=> e; have : s \in [seq x <- iota 0 m | p x] by rewrite e mem_head.
by rewrite mem_filter mem_iota => /andP [-> /=].
Qed.

Lemma map_filter_ext N (map map' : seq nat) g : (forall i, i < N -> nth 0 map i = nth 0 map' i) ->
  [seq i <- iota 0 N | nth 0 map i == g] = [seq i <- iota 0 N | nth 0 map' i == g].
Proof.
by move=> e; apply: eq_in_filter => i; rewrite mem_iota => /andP [_ il]; rewrite e.
Qed.

Lemma make_groups_partition N connected :
  let: (groups, map) := make_groups N connected in partition_of N groups map.
Proof.
rewrite /make_groups; elim: N => [|N]; first by split.
have -> : iota 0 N.+1 = iota 0 N ++ [:: N] by rewrite -addn1 iotaD.
rewrite foldl_cat.
case: foldl => groups map /= [sz lt gr].
have ext i g : i < N -> nth 0 (rcons map g) i = nth 0 map i.
  by move=> il; rewrite nth_rcons sz il.
have new g : nth 0 (rcons map g) N = g by rewrite nth_rcons sz ltnn eqxx.
have iN i : i < N.+1 -> i = N \/ i < N by lia.
have fl g g0 : [seq i <- iota 0 N.+1 | nth 0 (rcons map g) i == g0] =
   [seq i <- iota 0 N | nth 0 map i == g0] ++ (if g == g0 then [:: N] else [::]).
  rewrite -[N.+1]addn1 iotaD filter_cat /= add0n new.
  by congr (_ ++ _); apply: map_filter_ext => i il; rewrite ext.
rewrite /connected_to_where.
case e: [seq _ <- _ | _] => [|s l].
- split; first by rewrite size_rcons sz.
  + move=> i /iN [->|il]; rewrite ?new ?ext // size_rcons //.
    by have := lt i il; lia.
  + move=> g; rewrite size_rcons => gl; rewrite fl nth_rcons.
    case: ltnP => h; first by rewrite gr // (_ : size groups == g = false) ?cats0 //; lia.
    have -> : g = size groups by lia.
    rewrite eqxx.
    rewrite (_ : [seq i <- iota 0 N | nth 0 map i == size groups] = [::]) //.
    apply/eqP; rewrite -size_eq0 size_filter -leqn0 leqNgt -has_count.
    apply/hasPn => i; rewrite mem_iota => /andP [_ il].
    by have := lt i il; lia.
- have [cs sN] := filter_head_cons e.
  have gl := lt s sN; set g := nth 0 map s in gl *.
  have szs : size (set_nth [::] groups g (rcons (nth [::] groups g) N)) = size groups.
    by rewrite size_set_nth; lia.
  split; first by rewrite size_rcons sz.
  + by move=> i /iN [->|il]; rewrite ?new ?ext // szs //; apply: lt.
  + move=> g0; rewrite szs => g0l; rewrite fl nth_set_nth /=.
    case: (eqVneq g0 g) => [ge|ne]; first by rewrite ge gr // cats1.
    by rewrite gr // cats0.
Qed.

Lemma make_groups_decoupled N (connected : nat -> nat -> bool) :
  (forall i j, i < N -> j < N -> connected i j = connected j i) ->
  (forall i j k, i < N -> j < N -> k < N ->
     connected i j -> connected j k -> connected i k) ->
  decoupled N connected (make_groups N connected).2.
Proof.
have P := make_groups_partition.
move=> sy tr; rewrite /decoupled /make_groups.
suff H n : n <= N -> forall i j, i < n -> j < n -> connected i j ->
     nth 0 (foldl (group_step connected) ([::], [::]) (iota 0 n)).2 i =
     nth 0 (foldl (group_step connected) ([::], [::]) (iota 0 n)).2 j by exact: (H N).
elim: n => [|n IH] // nN.
have := P n connected; rewrite /make_groups.
have -> : iota 0 n.+1 = iota 0 n ++ [:: n] by rewrite -addn1 iotaD.
rewrite foldl_cat.
have := IH (ltnW nN); case: foldl => groups map /= {}IH [sz lt gr].
have ext i g : i < n -> nth 0 (rcons map g) i = nth 0 map i.
  by move=> il; rewrite nth_rcons sz il.
have new g : nth 0 (rcons map g) n = g by rewrite nth_rcons sz ltnn eqxx.
have iN i : i < n.+1 -> i = n \/ i < n by lia.
(* the new site against an earlier one *)
have key i : i < n -> connected n i ->
  nth 0 map i = nth 0 (if connected_to_where connected map n is Some g then rcons map g
                       else rcons map (size groups)) n.
  move=> il cni; rewrite /connected_to_where; case e: [seq _ <- _ | _] => [|s l].
    have : i \in [seq x <- iota 0 n | connected n x] by rewrite mem_filter cni mem_iota.
    by rewrite e.
  have [cs sn] := filter_head_cons e; rewrite new; apply: IH => //.
  by apply: (tr i n s); try lia; rewrite // sy //; lia.
have mp : (if connected_to_where connected map n is Some g
   then (set_nth [::] groups g (rcons (nth [::] groups g) n), rcons map g)
   else (rcons groups [:: n], rcons map (size groups))).2 =
  (if connected_to_where connected map n is Some g then rcons map g
                       else rcons map (size groups)) by case: connected_to_where.
rewrite mp => i j /iN [->|il] /iN [->|jl] c //.
- by rewrite -(key j jl c); case: connected_to_where => [g|]; rewrite ext.
- have cn : connected n i by rewrite sy //; lia.
  by rewrite -(key i il cn); case: connected_to_where => [g|]; rewrite ext.
- by have := IH i j il jl c; case: connected_to_where => [g|]; rewrite !ext.
Qed.
