(* Model of measure_observables (/repo/src/measurement.ipp): one measurement of a walker, from
   the matrices kept by the submatrix update to the values handed to the accumulators.
   Simplifications: those of SubModel, BinModel, SlModel, DensModel and OrderModel, whose
   functions are put together here; the random numbers (time shifts, tau) are given. *)
From mathcomp Require Import all_ssreflect ssralg ssrnum ssrint rat matrix.
From Verif Require Import Outcome MatLib SubModel BinModel LegendreModel DensModel SlModel OrderModel.

Set Implicit Arguments.
Unset Strict Implicit.
Unset Printing Implicit Defensive.

Local Open Scope ring_scope.

(* operator.hpp:44-84 — s() and t().time() of an operator. *)
Definition site_time (x : sop rat_eqType) : nat * rat := (x.1.1.2, x.1.2).

Section Meas.
Variable C : numClosedFieldType.
Variables (cplx : bool) (ani : C) (U : seq (vdef C)) (x0 : sop rat_eqType).
Variables (g0 : rat -> nat -> nat -> nat -> C) (beta : rat) (n_site n_bin n_flavors : nat).

(* measurement.ipp:76, 446-456, 509-511 — M_flavors[z] filled by compute_M, and
   submatrix_update->invA()[z].annihilators() and .creators(). *)
Definition measured_flavor (s : sub C rat_eqType) (z : nat) : flavor_data C :=
  let rows := ia_rows (nth (inva_new C rat_eqType) (su_A s) z) in
  FlavorData [seq site_time (ar_ann r) | r <- rows] [seq site_time (ar_cre r) | r <- rows]
    (nth (0%N, fun _ _ => 0) (compute_M ani x0 s) z).2.
(* the flavors the loops for (z = 0; z < n_flavors; ++z) run over; UB beyond invA()
   (measurement.ipp:446, 508). *)
Definition measured_flavors (s : sub C rat_eqType) : outcome (seq (flavor_data C)) :=
  if (n_flavors <= size (su_A s))%N then Ok [seq measured_flavor s z | z <- iota 0 n_flavors] else UB.

(* what one measurement hands to the accumulators: Sign and Stau_*, Sign and the densities,
   PertOrder, PerturbationOrderVertex (measurement.ipp:79, 93-115, 178-199, 557-589) *)
Record observed := Observed {
  ob_stau : stau_sample C; ob_dens : sample C; ob_order : seq nat; ob_vertex : seq nat }.

(* measurement.ipp:74-115 — measure_observables; time_shifts are drawn in lines 122-125, tau in
   line 506; mycast<M_TYPE> is applied to g0_intpl in line 470. *)
Definition measure_observables (time_shifts : seq rat) (tau : rat) (s : sub C rat_eqType) : outcome observed :=
  let sign := su_sign s in
  obind (measured_flavors s) (fun flavors =>
  obind (measure_Sl (fun t z a b => castM cplx (g0 t z a b)) beta n_site n_bin sign time_shifts flavors) (fun stau =>
  obind (measure_densities cplx g0 beta n_site tau sign flavors) (fun dens =>
  obind (pert_order ani x0 n_flavors s) (fun order =>
  obind (pert_vertex U s) (fun vertex =>
  Ok (Observed stau dens order vertex)))))).

(* interaction_expansion.ipp:156-174 — the measurements of a run: the drawn shifts and tau, and
   the walker at the time of the measurement. *)
Fixpoint measure_run (ms : seq (seq rat * rat * sub C rat_eqType)) : outcome (seq observed) :=
  if ms is m :: ms' then
    obind (measure_observables m.1.1 m.1.2 m.2) (fun o => obind (measure_run ms') (fun l => Ok (o :: l)))
  else Ok [::].

End Meas.
