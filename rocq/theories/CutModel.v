(* Model of update_cutoff and update_proposer of /repo/src/update_statistics.h
   ("update_statistics.h").  The program at the pinned commit does not use them.
   Simplifications: as in HistModel.v (exact rationals, no assertions, no printing); the number
   of bins of scalar_histogram_flavors is positive, the vector of proposal rates has Nv
   elements. *)
From mathcomp Require Import all_ssreflect ssralg ssrnum ssrint rat.
From Verif Require Import Outcome GreenModel LegendreModel HistModel.

Set Implicit Arguments.
Unset Strict Implicit.
Unset Printing Implicit Defensive.

Local Open Scope ring_scope.

(* std::max(a, b) and std::min(a, b) of doubles (update_statistics.h:305, 407, 410) *)
Definition dmax (a b : rat) : rat := if a < b then b else a.
(* update_statistics.h:305, 407, 410 *)
Definition dmin (a b : rat) : rat := if b < a then b else a.

(* update_statistics.h:298-306 — the loop of update_cutoff over (counter_tmp[i],
   sumval_tmp[i]), left by the break: (flag, maxval). *)
Fixpoint cut_loop (l : seq (rat * rat)) (maxval : rat) : bool * rat :=
  if l is (c, s) :: l' then if c < 100%:R then (true, maxval) else cut_loop l' (dmax maxval (s / c))
  else (false, maxval).

(* update_statistics.h:284-319 — update_cutoff of scalar_histogram.  A division by maxval = 0
   gives nan for a zero numerator (no comparison holds) and -inf for a negative one. *)
Definition update_cutoff (h : shist) (cutoff_ratio maxdist mag : rat) : outcome (bool * rat) :=
  obind (rebin2 (sh_counter h) (sh_max h) maxdist 4) (fun c =>
  obind (rebin2 (sh_sum h) (sh_max h) maxdist 4) (fun s =>
  let: (flag, maxval) := cut_loop (zip c s) (-1) in
  if flag || (maxval < 0) then Ok (false, maxdist)
  else
    let last := nth 0 s 3 / nth 0 c 3 in
    if maxval == 0 then Ok (true, if last < 0 then maxdist / mag else maxdist)
    else
      let ratio := last / maxval in
      Ok (true, if cutoff_ratio < ratio then maxdist * mag
                else if ratio < cutoff_ratio then maxdist / mag else maxdist))).

(* update_statistics.h:403-411 — update_cutoff of scalar_histogram_flavors. *)
Definition fupdate_cutoff (num_bins : nat) (max_val : rat) (hs : seq shist) (cutoff_ratio maxdist mag : rat) : outcome rat :=
  obind (foldl (fun o h => obind o (fun m => obind (update_cutoff h cutoff_ratio maxdist mag) (fun r => Ok (dmax m r.2))))
           (Ok (-1)) hs) (fun m =>
  Ok (dmax (dmin max_val m) (max_val / num_bins%:R))).

(* update_statistics.h:85-88 — the members of update_proposer: Nv_, mode_, hist_valid_,
   hist_invalid_, proposal_rate_Nv_. *)
Record prop := Prop_ { pr_Nv : nat; pr_mode : nat; pr_valid : seq rat; pr_invalid : seq rat; pr_rates : seq rat }.
(* update_statistics.h:21-29 — the constructor. *)
Definition prop_new (Nv : nat) (rates : seq rat) : prop := Prop_ Nv 0 (nseq Nv 1) (nseq Nv 1) rates.

(* update_statistics.h:31-43 — generated_valid_update, generated_invalid_update. *)
Inductive prop_op := GenValid of nat | GenInvalid of nat.
(* update_statistics.h:35, 42 — the increment. *)
Definition bump_at (v : seq rat) (n : nat) : outcome (seq rat) :=
  if n is k.+1 then obind (get v k) (fun x => put v k (x + 1)) else UB.
(* update_statistics.h:31-43, 46-73 — one call. *)
Definition prop_step (p : prop) (o : prop_op) : outcome prop :=
  if pr_mode p != 0%N then Ok p else
  match o with
  | GenValid n => obind (bump_at (pr_valid p) n) (fun v => Ok (Prop_ (pr_Nv p) (pr_mode p) v (pr_invalid p) (pr_rates p)))
  | GenInvalid n => obind (bump_at (pr_invalid p) n) (fun v => Ok (Prop_ (pr_Nv p) (pr_mode p) (pr_valid p) v (pr_rates p)))
  end.
(* update_statistics.h:31-73 — a sequence of calls. *)
Fixpoint prop_run (p : prop) (os : seq prop_op) : outcome prop :=
  if os is o :: os' then obind (prop_step p o) (fun p' => prop_run p' os') else Ok p.

(* update_statistics.h:60-62 — the loop that changes the rates. *)
Definition rate_step (v : seq rat) (i : nat) (r : seq rat) : outcome (seq rat) :=
  obind (get r i) (fun ri => obind (get r 0) (fun r0 => obind (get v i) (fun vi => obind (get v 0) (fun v0 =>
  put r i (ri * (ri / r0 / (vi / v0))))))).
(* update_statistics.h:63-66 — the normalisation. *)
Definition norm_step (sum : rat) (i : nat) (r : seq rat) : outcome (seq rat) :=
  obind (get r i) (fun ri => put r i (ri / sum)).
(* update_statistics.h:46-73 — finish_learning. *)
Definition finish_learning (p : prop) : outcome prop :=
  if pr_mode p != 0%N then Throw else
  obind (oloop (rate_step (pr_valid p)) 1 (pr_Nv p - 1) (pr_rates p)) (fun r =>
  let sum := foldl +%R 0 r in
  obind (oloop (norm_step sum) 0 (pr_Nv p) r) (fun r' =>
  Ok (Prop_ (pr_Nv p) 1 (pr_valid p) (pr_invalid p) r'))).
