(* Property theorems: C89 (setup of the updates). *)
From mathcomp Require Import all_ssreflect ssralg ssrnum ssrint.
From Verif Require Import Outcome SetupModel.

Set Implicit Arguments.
Unset Strict Implicit.
Unset Printing Implicit Defensive.

(* ------------------------------------------------------------------ C89 *)

(* The constructor succeeds exactly without rates or with one rate, whatever number of vertices
   per move is asked for. *)
Theorem C89_accepts :
  forall (R : Type) (one : R) (o : options R) (dens : seq bool),
    (exists m, setup one o dens = Ok m) <-> (op_rates o = None \/ exists r, op_rates o = Some [:: r]).
Proof.
move=> R one o dens; rewrite /setup /proposal; case: (op_rates o) => [l|] /=; last by split=> // _; [left | eexists].
case: l => [|r [|r' l]] /=.
- by split=> [[m]|[|[r]]].
- by split=> [_|_]; [right; exists r | eexists].
- by split=> [[m]|[|[q]]].
Qed.
Print Assumptions C89_accepts.

(* Every vertex type, of density type or not, takes part in moves of one vertex exactly once,
   and every move that can be drawn has one vertex. *)
Theorem C89_types :
  forall (R : Type) (one : R) (o : options R) (dens : seq bool) (m : manager R),
    setup one o dens = Ok m ->
    [/\ uniq (mg_sv m), forall t, (t \in mg_sv m) = (t < size dens)%N,
        forall t, (t < size dens)%N -> nth false (mg_flag m) t,
        size (mg_flag m) = size dens &
        forall d n, move_size m d = Ok n -> n = 1%N].
Proof.
move=> R one o dens m; rewrite /setup; case e : (proposal _ _ _) => [p|||] //= [<-] /=.
have sp : size p = 1%N.
  by move: e; rewrite /proposal; case: (op_rates o) => [l|[<-]] //; case: eqP => // h [<-].
split; first exact: iota_uniq.
- by move=> t; rewrite mem_iota.
- by move=> t tl; rewrite nth_nseq tl.
- by rewrite size_nseq.
by move=> d n; rewrite /move_size /= sp; case: d => [|d] //= [<-].
Qed.
Print Assumptions C89_types.

Example C89_case : exists m, [/\ setup 1%N (Options 3 1 (Some [:: 2%N])) [:: true; false] = Ok m,
  mg_sv m = [:: 0; 1]%N & move_size m 0 = Ok 1%N].
Proof. by eexists; split. Qed.

(* Moves of several vertices cannot be had: asking for two with a rate for each is refused, and
   asking without rates gives moves of one vertex. *)
Theorem C89_multi_refuted : exists (o o' : options nat) dens m,
  [/\ op_multi o = Posz 2, omap size (op_rates o) = Some 2%N, setup 1%N o dens = Throw,
      op_multi o' = Posz 2 /\ setup 1%N o' dens = Ok m & forall d n, move_size m d = Ok n -> n <> 2%N].
Proof.
exists (Options 0 2 (Some [:: 1; 1]%N)), (Options 0 2 None), [:: true]; eexists; split; [by []|by []|by []|by split|].
by move=> [|d] n //= [<-].
Qed.
Print Assumptions C89_multi_refuted.

(* The list of vertex types announced for shifts is empty, also when shifts are asked for and made
   (interaction_expansion.ipp:111-113 makes them regardless of the list). *)
Theorem C89_shift_refuted :
  exists (o : options nat) dens m, [/\ (0 < op_shift o)%R, size dens != 0%N, setup 1%N o dens = Ok m & mg_nshift m = 0%N].
Proof. by exists (Options 1 1 None), [:: true]; eexists; split. Qed.
Print Assumptions C89_shift_refuted.

Theorem C89_shift_empty :
  forall (R : Type) (one : R) (o : options R) (dens : seq bool) (m : manager R),
    setup one o dens = Ok m -> mg_nshift m = 0%N /\ ~~ has id (mg_shift m).
Proof.
move=> R one o dens m; rewrite /setup; case e : (proposal _ _ _) => [p|||] //= [<-] /=.
rewrite /shift_types; case: (0 < op_shift o)%R => /=; elim: (size dens) => //= n [h1 h2]; split=> //.
Qed.
Print Assumptions C89_shift_empty.
