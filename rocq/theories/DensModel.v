(* Model of the density measurement (measure_densities, /repo/src/measurement.ipp) and of
   its evaluation (postprocess_densities, /repo/src/postprocess.hpp).
   Simplifications:
   - double and std::complex<double> are elements of a closed field with conjugation, a double
     being a real element; arithmetic is exact; cplx tells whether M_TYPE is complex;
   - dens and dense_mat are functions of their indices; the vectors filled through a running
     position are lists and access outside them is UB;
   - g0_intpl is a parameter; the random time tau is given;
   - mean() of an accumulator is the arithmetic mean of what was put in;
   - the observables densities_<z> (measurement.ipp:557), which nothing reads, are left out,
     as is the HDF5 archive: what is stored is returned. *)
From mathcomp Require Import all_ssreflect ssralg ssrnum ssrint rat.
From Verif Require Import Outcome BinModel LegendreModel.

Set Implicit Arguments.
Unset Strict Implicit.
Unset Printing Implicit Defensive.

Local Open Scope ring_scope.
Import Num.Theory.

(* the four nested loops of measurement.ipp:567-570 and postprocess.hpp:180-183 *)
Definition loop4 (S : Type) (n_flavors n_site : nat) (body : nat -> nat -> nat -> nat -> S -> outcome S) (s : S) : outcome S :=
  oloop (fun f1 => oloop (fun i => oloop (fun f2 => oloop (fun j => body f1 i f2 j) 0 n_site) 0 n_flavors) 0 n_site) 0 n_flavors s.

(* measurement.ipp:529 — the factor 1E-10 that stands for tau = -0. *)
Definition tiny : rat := 1 / 10%:R ^+ 10.

Section Dens.
Variable C : numClosedFieldType.
Variables (cplx : bool) (g0 : rat -> nat -> nat -> nat -> C) (beta : rat) (n_site : nat).

(* util.h:20-30 — mycast<M_TYPE>; mycast<double> is 'Re. *)
Definition castM (x : C) : C := if cplx then x else 'Re x.

(* measurement.ipp:530, 536 — the argument of g0_intpl. *)
Definition minus_zero : rat := - beta * tiny.

Section Flavor.
Variables (tau : rat) (z : nat) (d : flavor_data C).
(* measurement.ipp:509 — Nv; M is square. *)
Let Nv := size (fd_annih d).

(* measurement.ipp:517-520 — g0_tauq. *)
Definition g0_tauq (s q : nat) : C :=
  let a := nth (0%N, 0) (fd_annih d) q in castM (g0 (a.2 - tau) z a.1 s).
(* measurement.ipp:522-524 — g0_taup. *)
Definition g0_taup (s2 p : nat) : C :=
  let c := nth (0%N, 0) (fd_creat d) p in castM (g0 (tau - c.2) z s2 c.1).
(* measurement.ipp:525-527 — M_g0_tauq. *)
Definition M_g0_tauq (s p : nat) : C :=
  foldl (fun acc q => acc + fd_M d p q * g0_tauq s q) 0 (iota 0 Nv).

(* dens and dense_mat (measurement.ipp:499-505) *)
Record dstate := DState { ds_dens : nat -> nat -> C; ds_mat : nat -> nat -> nat -> C }.

(* dens[z][s] += v (measurement.ipp:530, 532) *)
Definition add2 (f : nat -> nat -> C) (s : nat) (v : C) : nat -> nat -> C :=
  fun z' s' => if (z' == z) && (s' == s) then f z' s' + v else f z' s'.
(* dense_mat[z][s][s2] += v (measurement.ipp:536, 538) *)
Definition add3 (f : nat -> nat -> nat -> C) (s s2 : nat) (v : C) : nat -> nat -> nat -> C :=
  fun z' s' s2' => if [&& z' == z, s' == s & s2' == s2] then f z' s' s2' + v else f z' s' s2'.

(* measurement.ipp:529-539 — the body of the loops over s and s2. *)
Definition pair_step (s : nat) (st : dstate) (s2 : nat) : dstate :=
  let corr q := 'Re (g0_taup s2 q * M_g0_tauq s q) in
  DState
    (if s == s2 then
       foldl (fun f q => add2 f s (- corr q)) (add2 (ds_dens st) s ('Re (g0 minus_zero z s s))) (iota 0 Nv)
     else ds_dens st)
    (foldl (fun f q => add3 f s s2 (- corr q)) (add3 (ds_mat st) s s2 ('Re (g0 minus_zero z s2 s))) (iota 0 Nv)).

(* measurement.ipp:516-542 *)
Definition flavor_step (st : dstate) : dstate :=
  foldl (fun st s => foldl (pair_step s) st (iota 0 n_site)) st (iota 0 n_site).
End Flavor.

(* measurement.ipp:499-543 — dens and dense_mat of one configuration. *)
Definition density_matrices (tau : rat) (flavors : seq (flavor_data C)) : dstate :=
  foldl (fun st zd => flavor_step tau zd.1 zd.2 st) (DState (fun _ _ => 0) (fun _ _ _ => 0))
    (zip (iota 0 (size flavors)) flavors).

(* measurement.ipp:571-580 — ninj_. *)
Definition ninj (st : dstate) (flavor1 i flavor2 j : nat) : C :=
  if flavor1 == flavor2 then
    if i == j then ds_dens st flavor1 i
    else ds_dens st flavor1 i * ds_dens st flavor1 j - ds_mat st flavor1 i j * ds_mat st flavor1 j i
  else ds_dens st flavor1 i * ds_dens st flavor2 j.

(* measurement.ipp:564-587 — ninj_real and ninj_imag. *)
Definition fill_ninj (st : dstate) (n_flavors : nat) : outcome (nat * (seq C * seq C)) :=
  let zeros := nseq (n_site * n_site * n_flavors * n_flavors) 0 in
  loop4 n_flavors n_site (fun flavor1 i flavor2 j (x : nat * (seq C * seq C)) =>
      let v := ninj st flavor1 i flavor2 j in
      obind (put x.2.1 x.1 ('Re v)) (fun re =>
      obind (put x.2.2 x.1 ('Im v)) (fun im => Ok (x.1.+1, (re, im))))) (0%N, (zeros, zeros)).

(* measurement.ipp:544-560 — densities: the average over the sites. *)
Definition mean_density (st : dstate) (z : nat) : C :=
  foldl (fun acc i => acc + ds_dens st z i) 0 (iota 0 n_site) / n_site%:R.

(* what one configuration puts into the accumulators Sign, densities, n_i_n_j_real, n_i_n_j_imag
   (measurement.ipp:79, 557, 561, 588-589) *)
Record sample := Sample { sm_sign : C; sm_dens : seq C; sm_real : seq C; sm_imag : seq C }.

(* measurement.ipp:79, 495-591 — Sign and measure_densities. *)
Definition measure_densities (tau : rat) (sign : C) (flavors : seq (flavor_data C)) : outcome sample :=
  let st := density_matrices tau flavors in
  let sign_real := 'Re sign in
  obind (fill_ninj st (size flavors)) (fun x =>
  Ok (Sample sign_real [seq sign_real * mean_density st z | z <- iota 0 (size flavors)]
        [seq sign_real * v | v <- x.2.1] [seq sign_real * v | v <- x.2.2])).

(* measurement.ipp:495-591 — all measurements of a run. *)
Fixpoint measure_all (cs : seq (rat * (C * seq (flavor_data C)))) : outcome (seq sample) :=
  if cs is c :: cs' then
    obind (measure_densities c.1 c.2.1 c.2.2) (fun s => obind (measure_all cs') (fun l => Ok (s :: l)))
  else Ok [::].

(* mean() of a scalar and of a vector accumulator (postprocess.hpp:165, 171, 175-176) *)
Definition mean (l : seq C) : C := foldl (fun a x => a + x) 0 l / (size l)%:R.
(* postprocess.hpp:165, 171, 175-176 — of a vector. *)
Definition mean_vec (l : seq (seq C)) : seq C :=
  [seq mean [seq nth 0 v i | v <- l] | i <- iota 0 (size (head [::] l))].

(* ni_nj[f1][s1][f2][s2] = v (postprocess.hpp:184) *)
Definition set4 (f : nat -> nat -> nat -> nat -> C) (f1 s1 f2 s2 : nat) (v : C) : nat -> nat -> nat -> nat -> C :=
  fun f1' s1' f2' s2' => if [&& f1' == f1, s1' == s1, f2' == f2 & s2' == s2] then v else f f1' s1' f2' s2'.

(* postprocess.hpp:161-192 — postprocess_densities: the entries /densities and /ni_nj. *)
Definition postprocess_densities (n_flavors : nat) (l : seq sample) : outcome (seq C * (nat -> nat -> nat -> nat -> C)) :=
  let sign := mean [seq sm_sign s | s <- l] in
  let densities := [seq x / sign | x <- mean_vec [seq sm_dens s | s <- l]] in
  let re := mean_vec [seq sm_real s | s <- l] in
  let im := mean_vec [seq sm_imag s | s <- l] in
  obind (loop4 n_flavors n_site (fun f1 s1 f2 s2 (x : nat * (nat -> nat -> nat -> nat -> C)) =>
      obind (get re x.1) (fun r => obind (get im x.1) (fun i =>
      Ok (x.1.+1, set4 x.2 f1 s1 f2 s2 ((r + 'i * i) / sign))))) (0%N, fun _ _ _ _ => 0)) (fun x =>
  Ok (densities, x.2)).

End Dens.
