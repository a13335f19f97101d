(* Model of the part of the constructor of VertexUpdateManager
   (/repo/src/update_manager.hpp:149-345, "update_manager.hpp") that chooses the vertex types
   and the sizes of the moves.  The file of global updates is in ManModel, the valid pairs in
   PairModel and the quantum numbers in QnModel.
   Simplifications: a vertex type is its flag is_density_type; the rates are exact numbers;
   boost::random::discrete_distribution is a choice of a position in the list of rates. *)
From mathcomp Require Import all_ssreflect ssralg ssrnum ssrint.
From Verif Require Import Outcome.

Set Implicit Arguments.
Unset Strict Implicit.
Unset Printing Implicit Defensive.

Section Setup.
Variable R : Type.

(* program_options.hpp:27-31, update_manager.hpp:288 — the parameters update.n_vertex_shift,
   update.n_multi_vertex_update and update.multi_vertex_update_proposal_rate. *)
Record options := Options { op_shift : int; op_multi : int; op_rates : option (seq R) }.

(* update_manager.hpp:104, 108-109, 131-132, 287 — n_multi_vertex_update, sv_update_vertices,
   sv_update_vertices_flag, shift_update_valid, num_shift_valid_vertex_types and the rates. *)
Record manager := Manager {
  mg_multi : nat; mg_sv : seq nat; mg_flag : seq bool; mg_shift : seq bool; mg_nshift : nat;
  mg_rates : seq R }.

(* update_manager.hpp:172-189 — the vertex types of moves of one vertex. *)
Definition single_types (multi : nat) (dens : seq bool) : seq nat * seq bool :=
  if (multi == 1)%N then (iota 0 (size dens), nseq (size dens) true)
  else ([seq i <- iota 0 (size dens) | nth false dens i], dens).

(* update_manager.hpp:224-232 — shift_update_valid and its sum. *)
Definition shift_types (n_shift : int) (flag : seq bool) : seq bool * nat :=
  let l := if (0 < n_shift)%R then [seq ~~ b | b <- flag] else nseq (size flag) false in
  (l, if (0 < n_shift)%R then count id l else 0).

(* update_manager.hpp:287-298 — the rates of the sizes of the moves. *)
Definition proposal (one : R) (multi : nat) (rates : option (seq R)) : outcome (seq R) :=
  if rates is Some l then if (size l == multi)%N then Ok l else Throw else Ok (nseq multi one).

(* update_manager.hpp:149-345 — the constructor; line 157 fixes n_multi_vertex_update to 1. *)
Definition setup (one : R) (o : options) (dens : seq bool) : outcome manager :=
  let multi := 1%N in
  let sv := single_types multi dens in
  let sh := shift_types (op_shift o) sv.2 in
  obind (proposal one multi (op_rates o)) (fun p => Ok (Manager multi sv.1 sv.2 sh.1 sh.2 p)).

(* update_manager.hpp:547, 617 — the number of vertices of a move, Nv_m1_dist(random01) + 1,
   when the distribution answers [d]. *)
Definition move_size (m : manager) (d : nat) : outcome nat :=
  if (d < size (mg_rates m))%N then Ok d.+1 else UB.

End Setup.
