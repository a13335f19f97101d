(* Property theorems: C88 (number of ordered selections). *)
From mathcomp Require Import all_ssreflect.
From Verif Require Import Outcome PermModel.

Set Implicit Arguments.
Unset Strict Implicit.
Unset Printing Implicit Defensive.

(* the ordered selections of k of N things, without repetition *)
Definition selections (N k : nat) : nat := #|[set f : {ffun 'I_k -> 'I_N} | injectiveb f]|.

Lemma selectionsE N k : selections N k = N ^_ k.
Proof. by rewrite /selections card_inj_ffuns !card_ord. Qed.

Lemma loopE W (N : nat) : (N.+1 < W)%N -> forall m f i r, (i + m = N.+1)%N -> (m <= f)%N ->
  perm_loop W f i N r = Ok (r * \prod_(i <= j < N.+1) j)%N.
Proof.
move=> NW; elim=> [|m IH] f i r e mf.
  have -> : i = N.+1 by rewrite -e addn0.
  by rewrite big_geq // muln1; case: f mf => [|f] _ /=; rewrite ltnn.
have iN : (i <= N)%N by rewrite -ltnS -e addnS ltnS leq_addr.
case: f mf => // f mf; rewrite /= iN modn_small; last by apply: leq_ltn_trans NW.
rewrite IH; [|by rewrite addSnnS|by []]; rewrite (@big_ltn _ _ _ i) ?mulnA //; exact: iN.
Qed.

Lemma prod_ffact k N : (k <= N)%N -> (\prod_((N - k).+1 <= j < N.+1) j = N ^_ k)%N.
Proof.
elim: k N => [|k IH] [|N] // kN; first by rewrite big_geq // ?ffactn0.
  by rewrite big_geq.
by rewrite subSS big_nat_recr ?ltnS ?leq_subr //= IH // ffactSS mulnC.
Qed.

(* ------------------------------------------------------------------ C88 *)

(* The result is the number of ordered selections of k of N things, as long as k is at most
   N + 1 and N + 1 is representable. *)
Theorem C88_counts :
  forall W N k fuel, (N.+1 < W)%N -> (k <= N.+1)%N -> (k <= fuel)%N ->
    permutation W fuel N k = Ok (selections N k).
Proof.
move=> W N k fuel NW kN kf; rewrite selectionsE /permutation.
have kW : (k <= W)%N by apply: leq_trans kN (ltnW NW).
have -> : ((N + (W - k) + 1) %% W = N.+1 - k)%N.
  rewrite addn1 -addSn addnBA // -addnBAC // modnDr modn_small //.
  exact: leq_ltn_trans (leq_subr _ _) NW.
rewrite (loopE NW (m := k)) ?subnK // mul1n.
move: kN; rewrite leq_eqVlt => /orP[/eqP ->|]; last by rewrite ltnS => kN; rewrite subSn // prod_ffact.
by rewrite subnn big_ltn // mul0n ffact_small.
Qed.
Print Assumptions C88_counts.

Example C88_case : permutation (2 ^ 5) 10 5 3 = Ok 60 /\ selections 5 3 = 60.
Proof. by rewrite selectionsE. Qed.
Example C88_all_case : permutation (2 ^ 5) 10 4 4 = Ok 24 /\ permutation (2 ^ 5) 10 4 5 = Ok 0.
Proof. by []. Qed.

(* For every k of at least N + 2 the difference wraps and the result is 1, although there is
   no such selection. *)
Theorem C88_wraps :
  forall W N k fuel, (N.+2 <= k)%N -> (k < W)%N ->
    permutation W fuel N k = Ok 1 /\ selections N k = 0.
Proof.
move=> W N k fuel Nk kW; split; last by rewrite selectionsE ffact_small // ltnW.
rewrite /permutation modn_small; last first.
  by rewrite addn1 -addSn addnBA ?(ltnW kW) // ltn_subLR ?ltn_add2r // (leq_trans (ltnW kW)) // leq_addl.
have lt : (N < N + (W - k) + 1)%N by rewrite addn1 ltnS leq_addr.
by case: fuel => [|f] /=; rewrite leqNgt lt.
Qed.
Print Assumptions C88_wraps.

Theorem C88_counts_refuted : exists W N k fuel, (k < W)%N /\ permutation W fuel N k <> Ok (selections N k).
Proof.
exists 8, 1, 3, 10; split=> //.
by have [||-> ->] := @C88_wraps 8 1 3 10.
Qed.
Print Assumptions C88_counts_refuted.

(* With the largest N the loop never ends. *)
Theorem C88_endless :
  forall W k fuel, (0 < k < W)%N -> permutation W fuel W.-1 k = Diverge.
Proof.
move=> W k fuel /andP[k0 kW]; have W0 : (0 < W)%N by apply: leq_ltn_trans kW.
rewrite /permutation; set i := (_ %% W)%N.
have : (i < W)%N by rewrite ltn_mod.
elim: fuel i 1%N => [|f IH] i r iW /=; rewrite -ltnS prednK // iW //.
by apply: IH; rewrite ltn_mod.
Qed.
Print Assumptions C88_endless.

Theorem C88_ends_refuted : exists W N k, [/\ (0 < k)%N, (k <= N)%N, (N < W)%N & forall fuel, permutation W fuel N k = Diverge].
Proof. by exists 4, 3, 2; split=> // fuel; apply: (@C88_endless 4 2 fuel). Qed.
Print Assumptions C88_ends_refuted.
