(* Model of the expansion orders recorded by measure_observables (src/measurement.ipp).
   Simplifications: the accumulators are not modelled, the values handed to them are;
   counts are natural numbers, not double. *)
From mathcomp Require Import all_ssreflect ssralg ssrnum matrix.
From Verif Require Import Outcome MatLib SubModel.

Set Implicit Arguments.
Unset Strict Implicit.
Unset Printing Implicit Defensive.

Section Order.
Variables (F : numFieldType) (Tm : eqType) (ani : F) (U : seq (vdef F)) (x0 : sop Tm).

(* measurement.ipp:76, 93-97 — the sizes of the matrices M_flavors filled by compute_M; an
   index beyond M_flavors is UB. *)
Fixpoint pert_order_loop (Ms : seq (nat * fmat F)) (i n : nat) : outcome (seq nat) :=
  if n is n'.+1 then
    if (i < size Ms)%N
    then obind (pert_order_loop Ms i.+1 n') (fun r => Ok ((nth (0%N, fun _ _ => 0%R) Ms i).1 :: r))
    else UB
  else Ok [::].
(* measurement.ipp:76, 93-97 — PertOrder. *)
Definition pert_order (n_flavors : nat) (s : sub F Tm) : outcome (seq nat) :=
  pert_order_loop (compute_M ani x0 s) 0 n_flavors.

(* measurement.ipp:109-114 — ++pert_vertex[it->type()]; an unknown type is UB (the check is
   an assertion). *)
Fixpoint pert_vertex_loop (vs : seq (vertex Tm)) (r : seq nat) : outcome (seq nat) :=
  if vs is v :: vs' then
    if (v_type v < size r)%N
    then pert_vertex_loop vs' (set_nth 0%N r (v_type v) (nth 0%N r (v_type v)).+1)
    else UB
  else Ok r.
(* measurement.ipp:108-115 — PerturbationOrderVertex. *)
Definition pert_vertex (s : sub F Tm) : outcome (seq nat) :=
  pert_vertex_loop (su_v s) (nseq (size U) 0%N).

End Order.
