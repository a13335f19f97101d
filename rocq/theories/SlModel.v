(* Model of the Legendre measurement compute_Sl and compute_Sl_optimized
   (/repo/src/measurement.ipp) and of the evaluation of the measured function
   (/repo/src/postprocess.hpp).
   Simplifications:
   - times are rational, values lie in a field K containing them, arithmetic is exact;
   - g0_intpl and the matrices M_flavors are parameters, std::sqrt and the spherical Bessel
     functions too;
   - an Eigen product is its mathematical result, a three-dimensional work array a function of
     its flattened indices;
   - results are the mean values handed over by ALPSCore;
   - timing code and output on the terminal are left out. *)
From mathcomp Require Import all_ssreflect ssralg ssrnum ssrint rat.
From Verif Require Import Outcome GreenModel BinModel LegendreModel DensModel.

Set Implicit Arguments.
Unset Strict Implicit.
Unset Printing Implicit Defensive.

Local Open Scope ring_scope.
Import Num.Theory.

Section Sl.
Variable K : numFieldType.
Variables (g0 : rat -> nat -> nat -> nat -> K) (sign : K) (beta : rat) (n_site : nat) (t : legendre K).

(* measurement.ipp:382-384 (and 262-268) — x_vals. *)
Definition x_val (time time_shift : rat) : K :=
  let temperature := 1 / beta in
  ratr (2%:R * @shifted exact beta time time_shift * temperature - 1).

(* measurement.ipp:392-394 (and 281-282) — coeff. *)
Definition sl_coeff (num_random_walk : nat) (time time_shift : rat) : K :=
  (if @bin_sign exact beta time time_shift then -1 else 1) * (sign / num_random_walk%:R).

(* measurement.ipp:389-402 — one creation operator for one shift; vals are the values of the
   polynomials. *)
Definition sl_creator (z : nat) (d : flavor_data K) (num_random_walk : nat) (time_shift : rat) (vals : seq (seq K))
    (S : table K) (q : nat) : outcome (table K) :=
  let c := nth (0%N, 0) (fd_creat d) q in
  let coeff := sl_coeff num_random_walk c.2 time_shift in
  if (c.1 < n_site)%N then
    obfold (fun S site_B =>
      obfold (fun S l =>
        obind (get (lg_sqrt t) l) (fun sq => obind (get2 vals l q) (fun v =>
        Ok (tadd S z c.1 site_B l (coeff * sq * v * M_gR g0 z d time_shift q site_B)))))
        S (iota 0 (lg_n t))) S (iota 0 n_site)
  else UB.

(* measurement.ipp:361-409 — one shift: the values of the polynomials, then all creation
   operators. *)
Definition sl_walk (z : nat) (d : flavor_data K) (num_random_walk : nat) (S : table K) (time_shift : rat) : outcome (table K) :=
  let Nv := size (fd_creat d) in
  obind (compute_legendre_vec t [seq x_val c.2 time_shift | c <- fd_creat d] (nseq (lg_n t) (nseq Nv 0))) (fun vals =>
  obfold (sl_creator z d num_random_walk time_shift vals) S (iota 0 Nv)).

(* measurement.ipp:345-410 — one flavor; flavors without operators are skipped (348-350). *)
Definition sl_flavor (time_shifts : seq rat) (S : table K) (zd : nat * flavor_data K) : outcome (table K) :=
  if fd_creat zd.2 is [::] then Ok S else obfold (sl_walk zd.1 zd.2 (size time_shifts)) S time_shifts.

(* measurement.ipp:321-411 — compute_Sl. *)
Definition compute_Sl (time_shifts : seq rat) (flavors : seq (flavor_data K)) : outcome (table K) :=
  obfold (sl_flavor time_shifts) (fun _ _ _ _ => 0) (zip (iota 0 (size flavors)) flavors).

(* measurement.ipp:239-248 — gR[p][site_B][random_walk], row-major, as the column
   site_B * num_random_walk + random_walk of row p. *)
Definition gR_flat (z : nat) (d : flavor_data K) (time_shifts : seq rat) (p col : nat) : K :=
  let walks := size time_shifts in
  let a := nth (0%N, 0) (fd_annih d) p in
  g0 (a.2 + nth 0 time_shifts (col %% walks)) z a.1 (col %/ walks).
(* measurement.ipp:252-255 — M_gR_map = M * gR_map. *)
Definition M_gR_flat (z : nat) (d : flavor_data K) (time_shifts : seq rat) (q col : nat) : K :=
  \sum_(0 <= p < size (fd_annih d)) fd_M d q p * gR_flat z d time_shifts p col.

(* measurement.ipp:277-308 — one creation operator for all shifts; vals are the values of the
   polynomials, column random_walk * Nv + q. *)
Definition opt_creator (z : nat) (d : flavor_data K) (time_shifts : seq rat) (vals : seq (seq K))
    (S : table K) (q : nat) : outcome (table K) :=
  let c := nth (0%N, 0) (fd_creat d) q in
  let walks := size time_shifts in
  let Nv := size (fd_creat d) in
  let M_gR_tmp w site_B := sl_coeff walks c.2 (nth 0 time_shifts w) * M_gR_flat z d time_shifts q (site_B * walks + w)%N in
  (* lines 288-291: sqrt_vals and legendre_vals_all are read for all orders and shifts *)
  obind (obfold (fun (m : nat -> nat -> K) w =>
           obfold (fun m l => obind (get (lg_sqrt t) l) (fun sq => obind (get2 vals l (w * Nv + q)%N) (fun v =>
             Ok (fun l' w' => if (l' == l) && (w' == w) then sq * v else m l' w'))))
             m (iota 0 (lg_n t))) (fun _ _ => 0) (iota 0 walks)) (fun legendre_tmp =>
  if (c.1 < n_site)%N then
    (* lines 305-306: rows 0..n_site-1 and columns 0..n_legendre-1 of Sl[z][site_c] *)
    Ok (fun z' s1 s2 l => if [&& z' == z, s1 == c.1, (s2 < n_site)%N & (l < lg_n t)%N]
        then S z' s1 s2 l + \sum_(0 <= w < walks) legendre_tmp l w * M_gR_tmp w s2 else S z' s1 s2 l)
  else UB).

(* measurement.ipp:230-318 — one flavor. *)
Definition opt_flavor (time_shifts : seq rat) (S : table K) (zd : nat * flavor_data K) : outcome (table K) :=
  let (z, d) := zd in
  if fd_creat d is [::] then Ok S else
  let Nv := size (fd_creat d) in
  (* lines 258-271 *)
  let x_vals := flatten [seq [seq x_val c.2 s | c <- fd_creat d] | s <- time_shifts] in
  obind (compute_legendre_vec t x_vals (nseq (lg_n t) (nseq (size time_shifts * Nv) 0))) (fun vals =>
  obfold (opt_creator z d time_shifts vals) S (iota 0 Nv)).

(* measurement.ipp:206-319 — compute_Sl_optimized. *)
Definition compute_Sl_optimized (time_shifts : seq rat) (flavors : seq (flavor_data K)) : outcome (table K) :=
  obfold (opt_flavor time_shifts) (fun _ _ _ _ => 0) (zip (iota 0 (size flavors)) flavors).

End Sl.

Section Post.
Variable C : numClosedFieldType.
Variables (sqrt : C -> C) (bessel : nat -> nat -> C).

(* what one configuration puts into the accumulators: Sign (measurement.ipp:79) and the vectors
   Stau_real_z_site1_site2, Stau_imag_z_site1_site2 (measurement.ipp:178-199). *)
Record stau_sample := StauSample { ss_sign : C; ss_real : nat -> nat -> nat -> seq C; ss_imag : nat -> nat -> nat -> seq C }.

(* measurement.ipp:118-199 — measure_Sl; the shifts are drawn in lines 122-125. *)
Definition measure_Sl (g0 : rat -> nat -> nat -> nat -> C) (beta : rat) (n_site n_bin : nat)
    (sign : C) (time_shifts : seq rat) (flavors : seq (flavor_data C)) : outcome stau_sample :=
  obind (compute_Stau g0 sign beta n_site n_bin time_shifts flavors) (fun Stau =>
  Ok (StauSample ('Re sign)
        (fun z site1 site2 => [seq 'Re (Stau z site1 site2 b) | b <- iota 0 n_bin])
        (fun z site1 site2 => [seq 'Im (Stau z site1 site2 b) | b <- iota 0 n_bin]))).

(* all measurements of a run: (sign, (shifts, flavors)) (measurement.ipp:118-199) *)
Fixpoint measure_Sl_all (g0 : rat -> nat -> nat -> nat -> C) (beta : rat) (n_site n_bin : nat)
    (cs : seq (C * (seq rat * seq (flavor_data C)))) : outcome (seq stau_sample) :=
  if cs is c :: cs' then
    obind (measure_Sl g0 beta n_site n_bin c.1 c.2.1 c.2.2) (fun s =>
    obind (measure_Sl_all g0 beta n_site n_bin cs') (fun l => Ok (s :: l)))
  else Ok [::].

(* legendre.h:25-34 — Tnl_; bessel l m is the spherical Bessel function of order l at
   0.5 * (2 * m + 1) * pi.  The loops carry sign_tmp and ztmp. *)
Definition Tnl_row (sign_tmp : C) (im n_legendre : nat) : seq C :=
  (foldl (fun (s : C * seq C) il =>
     (s.1 * 'i, rcons s.2 (sign_tmp * s.1 * sqrt (2 * il + 1)%N%:R * bessel il im))) ('i, [::]) (iota 0 n_legendre)).2.
(* legendre.h:25-34 — Tnl_. *)
Definition Tnl (n_matsubara n_legendre : nat) : seq (seq C) :=
  (foldl (fun (s : C * seq (seq C)) im => (s.1 * -1, rcons s.2 (Tnl_row s.1 im n_legendre)))
     (1, [::]) (iota 0 n_matsubara)).2.

(* postprocess.hpp:93-109 — Stau[ib][site1][site2][flavor1] from the mean values. *)
Definition load_Stau (mean_real mean_imag : seq C) (sign : C) (ib : nat) : outcome C :=
  obind (get mean_real ib) (fun re => obind (get mean_imag ib) (fun im => Ok ((re + 'i * im) / sign))).

(* postprocess.hpp:116-120 — x_vals. *)
Definition bin_x (n_bin ib : nat) : C := (ib%:R + 1 / 2%:R) * (2%:R / n_bin%:R) - 1.

(* postprocess.hpp:133-135 — Sl[i_l][site1][site2][flavor1]: the sum over the bins. *)
Definition post_Sl (sq : seq C) (Plx : seq (seq C)) (Stau : seq C) (dtau : C) (n_bin l : nat) : outcome C :=
  obfold (fun acc ib => obind (get sq l) (fun s => obind (get2 Plx l ib) (fun v => obind (get Stau ib) (fun x =>
    Ok (acc + s * v * x * dtau))))) 0 (iota 0 n_bin).

(* postprocess.hpp:149-155 — Sw_vec = Tnl * Sl_vec. *)
Definition post_Sw (T : seq (seq C)) (Sl : seq C) (n_legendre w : nat) : C :=
  \sum_(0 <= l < n_legendre) nth 0 (nth [::] T w) l * nth 0 Sl l.

(* filling a vector entry by entry (postprocess.hpp:104-107, 133-137) *)
Definition build (T : Type) (f : nat -> outcome T) (n : nat) : outcome (seq T) :=
  obfold (fun s k => obind (f k) (fun x => Ok (rcons s x))) [::] (iota 0 n).

(* postprocess.hpp:75-159 — evaluate_selfenergy_measurement_binning for one pair of sites and
   one flavor (the iterations of the loops over these are independent): Stau, Sl, Sw. *)
Definition evaluate_binning (mean_real mean_imag : seq C) (sign : C) (beta : rat)
    (n_matsubara n_legendre n_bin : nat) : outcome (seq C * seq C * seq C) :=
  obind (build (load_Stau mean_real mean_imag sign) n_bin) (fun Stau =>
  obind (legendre_new sqrt n_legendre) (fun t =>
  obind (compute_legendre_vec t [seq bin_x n_bin ib | ib <- iota 0 n_bin] (nseq n_legendre (nseq n_bin 0))) (fun Plx =>
  obind (build (post_Sl (lg_sqrt t) Plx Stau (ratr (beta / n_bin%:R)) n_bin) n_legendre) (fun Sl =>
  Ok (Stau, Sl, [seq post_Sw (Tnl n_matsubara n_legendre) Sl n_legendre w | w <- iota 0 n_matsubara]))))).

(* postprocess.hpp:212-219 — the entries /SigmaG_tau, /SigmaG_legendre and /SigmaG_omega for one
   flavor and pair of sites, from everything measured. *)
Definition postprocess_Sl (beta : rat) (n_matsubara n_legendre n_bin : nat) (l : seq stau_sample) (z site1 site2 : nat)
    : outcome (seq C * seq C * seq C) :=
  evaluate_binning (mean_vec [seq ss_real s z site1 site2 | s <- l]) (mean_vec [seq ss_imag s z site1 site2 | s <- l])
    (mean [seq ss_sign s | s <- l]) beta n_matsubara n_legendre n_bin.

End Post.
