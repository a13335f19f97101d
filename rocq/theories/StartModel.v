(* Model of the start of the program: the constructor of InteractionExpansion
   (/repo/src/interaction_expansion.ipp:9-80) and that of general_U_matrix
   (/repo/src/U_matrix.h:136-146), composed of the models of the parts.
   Simplifications:
   - parameters are given by their values; a parameter without value (other than the ones of
     the interaction, of the configuration and of the Green function) is not modelled;
   - model.sites and model.spins are not negative;
   - a file is given by its numbers, None if it cannot be opened;
   - the objects that only keep parameters, the histograms, timers and the initialisation of
     the accumulators are left out; so is the constructor of VertexUpdateManager (its tables
     are modelled in ManModel.v, PairModel.v and QnModel.v);
   - a finite double is a rational number; numbers of the program are those of F, by [val]. *)
From mathcomp Require Import all_ssreflect ssralg ssrnum ssrint rat.
From Verif Require Import Outcome SubModel UMatModel GreenModel GreenTableModel.

Set Implicit Arguments.
Unset Strict Implicit.
Unset Printing Implicit Defensive.

Local Open Scope ring_scope.
Import GRing.Theory Num.Theory.

(* green_function.h:128-158 — the Green function of two operators, as read from the table; the
   values are numbers of the program by [val] (mycast, util.h:20-30). *)
Definition lookup (F : numFieldType) (V : lmodType [ringType of rat]) (val : V -> F) (fuel : nat) (g : green V)
    (x y : sop rat_eqType) : F :=
  let gop_of (z : sop rat_eqType) := Gop z.1.1.1 z.1.1.2 z.1.2 z.2 in
  if green_ops fuel g (gop_of x) (gop_of y) is Ok v then val v else 0.

Section Start.
Variables (F : numFieldType) (val : cnum -> F) (ofint : int -> cnum) (c0 : cnum).
Variables (maxel w64 w32 fuel : nat) (cplx : bool).
Variables (Dec : Type) (parse : Dec -> rat_eqType).
Variables (ani junk : F) (x0 : sop rat_eqType).

(* interaction_expansion.ipp:10-32, 40-43, 50, 56-60; U_matrix.h:137-145 — the parameters and
   files the constructor looks at. *)
Record input := Input {
  in_sites : nat;                               (* model.sites *)
  in_spins : nat;                               (* model.spins *)
  in_beta : rat;                                (* model.beta *)
  in_period : int;                              (* measurement_period *)
  in_U : option F;                              (* model.U, if supplied *)
  in_Ufile : option (option (seq (token cnum)));(* model.U_matrix_file, if supplied *)
  in_G0 : option (option (header * seq row));   (* model.G0_tau_file, None for "" *)
  in_config : option (seq (ctok Dec)) }.        (* PREFIX_LOAD_CONFIG, if defined *)

(* U_matrix.h:214 — the default delta = 1e-2. *)
Definition delta0 : F := 1 / 100%:R.

(* U_matrix.h:136-156 — the constructor of general_U_matrix. *)
Definition interaction (i : input) : outcome (seq (udef F)) :=
  match in_Ufile i, in_U i with
  | Some file, None =>
      if file is Some text then load_vertices val ofint c0 maxel w64 w32 (in_sites i) (in_spins i) text else Throw
  | None, Some u => set_onsite_U (in_sites i) (in_spins i) u delta0
  | _, _ => Throw
  end.

(* interaction_expansion.ipp:40-44; green_function.h:31-34 — the Green function. *)
Definition noninteracting (i : input) : outcome (green cnum) :=
  match in_G0 i with
  | Some (Some (h, rows)) => read_itime_data cplx h rows (in_beta i) (in_spins i) (in_sites i)
  | _ => Throw
  end.

(* interaction_expansion.ipp:55-61 — the initial vertices. *)
Definition initial_vertices (i : input) (U : seq (udef F)) : outcome (seq (vertex rat_eqType)) :=
  if in_config i is Some l then load_config parse [seq d.1 | d <- U] l else Ok [::].

(* interaction_expansion.hpp:302, 306, 360 — Uijkl, g0_intpl and submatrix_update. *)
Record started := Started { st_U : seq (udef F); st_green : green cnum; st_walker : sub F rat_eqType }.

(* interaction_expansion.ipp:9-80 — the constructor. *)
Definition start (i : input) : outcome started :=
  obind (interaction i) (fun U =>
  obind (noninteracting i) (fun g =>
  if in_period i <= 0 then Throw else
  obind (initial_vertices i U) (fun vs =>
  obind (sub_from ani (lookup val fuel g) [seq d.1 | d <- U] x0 (in_spins i) junk vs) (fun s =>
  Ok (Started U g s))))).
End Start.
