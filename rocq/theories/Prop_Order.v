(* Property theorem: C69 (the recorded expansion orders). *)
From mathcomp Require Import all_ssreflect ssralg ssrnum ssrint rat matrix zify.
From Verif Require Import Outcome MatLib MatSpec SubModel SubSpec SubProofs OrderModel Prop_Sub.

Set Implicit Arguments.
Unset Strict Implicit.
Unset Printing Implicit Defensive.

Import GRing.Theory.
Local Open Scope ring_scope.

(* ---- specification ---- *)
Section Spec.
Variables (F : numFieldType) (Tm : eqType) (U : seq (vdef F)).
(* number of parts of a vertex type that act on a flavor *)
Definition parts_on (d : vdef F) (fl : nat) : nat :=
  count (fun r => nth 0%N (vd_flavors d) r == fl) (iota 0 (vd_rank d)).
(* number of vertices of a type *)
Definition of_type (t : nat) (vs : seq (vertex Tm)) : nat := count (fun v => v_type v == t) vs.
End Spec.

(* ---- proofs ---- *)
Section Proofs.
Variables (F : numFieldType) (Tm : eqType) (U : seq (vdef F)).

Lemma pert_order_loopE (Ms : seq (nat * fmat F)) n i : (i + n <= size Ms)%N ->
  pert_order_loop Ms i n = Ok [seq (nth (0%N, fun _ _ => 0) Ms (i + k)%N).1 | k <- iota 0 n].
Proof.
elim: n i => [|n IH] i le //=; have -> : (i < size Ms)%N by lia.
rewrite IH /=; last by lia.
rewrite addn0 -[in RHS](addn0 1%N) iotaDl -map_comp; congr (Ok (_ :: _)).
by apply: eq_map => k /=; rewrite addSnnS.
Qed.

Lemma pert_vertex_loopE (vs : seq (vertex Tm)) (r : seq nat) :
  all (fun v => v_type v < size r)%N vs ->
  exists r', [/\ pert_vertex_loop vs r = Ok r', size r' = size r &
    forall t, (nth 0%N r' t = nth 0%N r t + of_type t vs)%N].
Proof.
elim: vs r => [|v vs IH] r /=; first by exists r; split=> // t; rewrite addn0.
case/andP => vt h; rewrite vt.
have sz : size (set_nth 0%N r (v_type v) (nth 0%N r (v_type v)).+1) = size r.
  by rewrite size_set_nth; apply/maxn_idPr.
have [|r' [e s n]] := IH (set_nth 0%N r (v_type v) (nth 0%N r (v_type v)).+1); first by rewrite sz.
exists r'; split=> //; first by rewrite s sz.
move=> t; rewrite n nth_set_nth /= eq_sym; case: eqP => [->|_]; rewrite /of_type /=; last by [].
by rewrite addSnnS.
Qed.

Lemma size_sp_ops fl (vs : seq (vertex Tm)) : all (fun v => ~~ v_non v) vs ->
  size (sp_ops U fl vs) = (\sum_(v <- vs) parts_on (sp_def U v) fl)%N.
Proof.
move=> h; rewrite /sp_ops (all_filterP h) size_flatten /shape -map_comp sumnE big_map.
by apply: eq_bigr => v _; rewrite /= size_map size_filter.
Qed.

Lemma sum_by_type (f : vdef F -> nat) (vs : seq (vertex Tm)) : all (fun v => v_type v < size U)%N vs ->
  (\sum_(v <- vs) f (sp_def U v) = \sum_(t < size U) of_type t vs * f (nth (vdef0 F) U t))%N.
Proof.
elim: vs => [_|v vs IH /= /andP [vt h]].
  by rewrite big_nil big1 // => t _; rewrite /of_type.
rewrite big_cons IH // /of_type /=.
under [RHS]eq_bigr => t _ do rewrite mulnDl.
rewrite big_split /=; congr (_ + _)%N.
rewrite (bigD1 (Ordinal vt)) //= eqxx mul1n big1 ?addn0 // => t ne.
by case: (v_type v =P t :> nat) ne => [e|_ _]; [rewrite -val_eqE /= e eqxx | rewrite mul0n].
Qed.
End Proofs.

(* ---- C69 ---- *)

(* However the walker was reached, between sessions PertOrder has for every flavor the
   number of operators of the flavor, PerturbationOrderVertex for every type the number of
   vertices of the type, the latter sum to the perturbation order, and the former follow
   from the latter. *)
Theorem C69_orders :
  forall (F : numFieldType) (Tm : eqType) (ani : F) (G0 : sop Tm -> sop Tm -> F) (U : seq (vdef F))
         (x0 : sop Tm) (nf : nat) (tm0 : Tm) (junk : fmat F) (s : sub F Tm),
    sp_types_ok U ani nf -> reach ani G0 U x0 nf tm0 junk s -> ~~ su_trying s ->
    exists po pv, [/\ pert_order ani x0 nf s = Ok po, pert_vertex U s = Ok pv,
      size po = nf /\ forall fl, (fl < nf)%N ->
        nth 0%N po fl = size (sp_ops U fl (su_v s)) /\
        nth 0%N po fl = (\sum_(t < size U) nth 0 pv t * parts_on (nth (vdef0 F) U t) fl)%N,
      size pv = size U /\ forall t, nth 0%N pv t = of_type t (su_v s) &
      sumn pv = size (su_v s)].
Proof.
move=> F Tm ani G0 U x0 nf tm0 junk s tok re tr; have hi := reach_inv tok re.
have ty : all (fun v => v_type v < size U)%N (su_v s).
  by apply: sub_all (i_vo hi) => v /andP [].
have [sM hM] := C29_compute_M tok re tr.
have [|pv [ev sv nv]] := @pert_vertex_loopE Tm (su_v s) (nseq (size U) 0%N); first by rewrite size_nseq.
rewrite size_nseq in sv; have {}nv t : nth 0%N pv t = of_type t (su_v s).
  by rewrite nv nth_nseq; case: ifP.
eexists; exists pv; split; first by rewrite /pert_order pert_order_loopE //= ?sM.
- exact: ev.
- rewrite size_map size_iota; split=> // fl fll.
  rewrite (nth_map 0%N) ?size_iota // nth_iota // add0n.
  have [pe -> _] := hM fl fll; rewrite (perm_size pe); split=> //.
  rewrite size_sp_ops ?(i_ready hi) // (sum_by_type (fun d => parts_on d fl) ty).
  by apply: eq_bigr => t _; rewrite nv.
- by split.
rewrite sumnE (big_nth 0%N) sv big_mkord.
under eq_bigr => t _ do rewrite nv -[of_type _ _]muln1.
by rewrite -(@sum_by_type F Tm U (fun _ => 1%N) (su_v s) ty) sum1_size.
Qed.
Print Assumptions C69_orders.

(* one vertex with a part on each of two flavors *)
Example C69_case : exists s po pv,
  [/\ reachX s, ~~ su_trying s, pert_order aniX xX 2 s = Ok po /\ po = [:: 1; 1]%N &
      pert_vertex UX s = Ok pv /\ pv = [:: 1]%N].
Proof.
have [s [re tr v]] := C27_case.
have [po [pv [e1 e2 [s1 n1] [s2 n2] _]]] := C69_orders tokX re tr.
exists s, po, pv; split; [exact: re | exact: tr | split; first exact: e1 | split; first exact: e2].
- apply: (@eq_from_nth _ 0%N) => [|fl]; first by rewrite s1.
  by rewrite s1 => fll; have [-> _] := n1 fl fll; rewrite v; case: fl fll => [|[|]].
- apply: (@eq_from_nth _ 0%N) => [|t]; first by rewrite s2.
  by rewrite s2 => tt; rewrite n2 v; case: t tt.
Qed.
