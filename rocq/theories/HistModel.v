(* Model of the histograms and counters (/repo/src/interaction_expansion.hpp:81-157,
   /repo/src/update_statistics.h:94-152, 193-427).
   Simplifications:
   - doubles are rationals, arithmetic is exact; a division 0/0 or x/0 (nan, inf) is None;
   - counters do not overflow; assertions are compiled out (release build). *)
From mathcomp Require Import all_ssreflect ssralg ssrnum ssrint rat intdiv.
From Verif Require Import Outcome GreenModel LegendreModel.

Set Implicit Arguments.
Unset Strict Implicit.
Unset Printing Implicit Defensive.

Local Open Scope ring_scope.

(* ------------------------------------------------------------ class histogram *)

(* interaction_expansion.hpp:84 — histogram(N). *)
Definition hist_new (N : nat) : seq nat := nseq N 0%N.
(* interaction_expansion.hpp:92-96 — count. *)
Definition hist_count (h : seq nat) (k : nat) : seq nat :=
  if (k < size h)%N then set_nth 0%N h k (nth 0%N h k).+1 else h.
(* interaction_expansion.hpp:98-108 — max_index; the state is (max, max_index). *)
Definition max_index (h : seq nat) : nat :=
  (foldl (fun (s : nat * nat) i => if (s.1 < nth 0%N h i)%N then (nth 0%N h i, i) else s) (0%N, 0%N) (iota 0 (size h))).2.
(* interaction_expansion.hpp:110-118 — top_index. *)
Definition top_index (h : seq nat) : nat :=
  foldl (fun t i => if nth 0%N h i != 0%N then i else t) 0%N (iota 0 (size h)).
(* interaction_expansion.hpp:120-128 — max(index); reading past the end is UB. *)
Definition hist_max (h : seq nat) (index : nat) : outcome nat :=
  oloop (fun i m => obind (get h i) (fun v => Ok (if (m < v)%N then v else m))) 0 index 0%N.
(* interaction_expansion.hpp:130-136 — average(index); None is 0/0. *)
Definition hist_average (h : seq nat) (index : nat) : outcome (option rat) :=
  obind (oloop (fun i (a : rat) => obind (get h i) (fun v => Ok (a + v%:R))) 0 index 0)
    (fun a => Ok (if index == 0%N then None else Some (a / index%:R))).
(* interaction_expansion.hpp:138 — is_flat; a comparison with nan is false. *)
Definition is_flat (h : seq nat) (index : nat) : outcome bool :=
  obind (hist_max h index) (fun m => obind (hist_average h index) (fun a =>
  Ok (if a is Some a then m%:R * (8%:R / 10%:R) < a else false))).
(* interaction_expansion.hpp:140-144 — clear. *)
Definition hist_clear (h : seq nat) : seq nat :=
  foldl (fun h i => set_nth 0%N h i 0%N) h (iota 0 (size h)).

(* a call that changes a histogram (interaction_expansion.hpp:92-96, 140-144) *)
Inductive hist_op := Count of nat | Clear.
(* interaction_expansion.hpp:92-96, 140-144 — one call. *)
Definition hist_step (h : seq nat) (o : hist_op) : seq nat :=
  match o with Count k => hist_count h k | Clear => hist_clear h end.

(* ------------------------------------------------------------ acc_rate_statistics *)

(* update_statistics.h:94-118 — counter_; accepted, rejected, reset, get_result. *)
Inductive acc_op := Accepted | Rejected | AccReset.
(* update_statistics.h:100-106, 113-115 — accepted, rejected, reset. *)
Definition acc_step (c : nat * nat) (o : acc_op) : nat * nat :=
  match o with Accepted => (c.1.+1, c.2) | Rejected => (c.1, c.2.+1) | AccReset => (0%N, 0%N) end.
(* update_statistics.h:108-111 — get_result. *)
Definition acc_result (c : nat * nat) : option (rat * rat) :=
  if (c.1 + c.2)%N == 0%N then None else Some (c.1%:R / (c.1 + c.2)%:R, c.2%:R / (c.1 + c.2)%:R).

(* ------------------------------------------------------------ simple_update_statistcs *)

(* update_statistics.h:120-126 — the constructor. *)
Definition simple_new (Nv : nat) : seq (seq rat) := nseq Nv (nseq 4 0).
(* update_statistics.h:127-142 — not_valid_state, reducible, accepted, rejected: the column
   0..3 of line iv is increased; outside the table is UB. *)
Definition simple_event (c : seq (seq rat)) (iv k : nat) : outcome (seq (seq rat)) :=
  obind (get c iv) (fun r => obind (get r k) (fun v => obind (put r k (v + 1)) (fun r' => put c iv r'))).
(* update_statistics.h:144-148 — reset. *)
Definition simple_reset (Nv : nat) (c : seq (seq rat)) : outcome (seq (seq rat)) :=
  oloop (fun iv c => obind (get c iv) (fun r => put c iv (nseq (size r) 0))) 0 Nv c.
(* update_statistics.h:143 — get_result. *)
Definition simple_result (c : seq (seq rat)) (iv : nat) : outcome (seq rat) := get c iv.

(* ------------------------------------------------------------ rebin *)

(* update_statistics.h:193-208 — rebin(org_array, nrebin). *)
Definition rebin (org : seq rat) (nrebin : nat) : outcome (seq rat) :=
  if nrebin == 0%N then UB else
  let new_len := (size org %/ nrebin)%N in
  obind (oloop (fun i (x : nat * seq rat) =>
      obind (oloop (fun _ (y : nat * rat) => obind (get org y.1) (fun v => Ok (y.1.+1, y.2 + v))) 0 nrebin (x.1, 0)) (fun y =>
      obind (put x.2 i y.2) (fun new => Ok (y.1, new)))) 0 new_len (0%N, nseq new_len 0)) (fun x => Ok x.2).

(* update_statistics.h:219, 255 — std::floor. *)
Definition floorq (x : rat) : int := (numq x %/ denq x)%Z.

(* update_statistics.h:210-229 — rebin(org_array, maxval, maxval_new, new_len); the loop is
   left by the break on line 223. *)
Fixpoint rebin2_loop (org : seq rat) (maxval maxval_new : rat) (new_len old_len : nat) (i : nat) (new : seq rat) : outcome (seq rat) :=
  if org is v :: org' then
    let cent := (i%:R + 1 / 2%:R) * (maxval / old_len%:R) in
    let pos := floorq (new_len%:R * cent / maxval_new) in
    if is_int32 pos then
      obind (if (0 <= pos) && (pos < new_len%:Z) then
               obind (get new `|pos|%N) (fun w => put new `|pos|%N (w + v)) else Ok new) (fun new' =>
      if new_len%:Z < pos then Ok new' else rebin2_loop org' maxval maxval_new new_len old_len i.+1 new')
    else UB
  else Ok new.
(* update_statistics.h:210-229 — rebin(org_array, maxval, maxval_new, new_len). *)
Definition rebin2 (org : seq rat) (maxval maxval_new : rat) (new_len : nat) : outcome (seq rat) :=
  rebin2_loop org maxval maxval_new new_len (size org) 0 (nseq new_len 0).

(* ------------------------------------------------------------ scalar_histogram *)

(* update_statistics.h:338-342 — the members. *)
Record shist := SHist { sh_bins : nat; sh_samples : nat; sh_max : rat; sh_sum : seq rat; sh_sum2 : seq rat; sh_counter : seq rat }.

(* update_statistics.h:234-239 — the default constructor: std::vector(0.0, 0) is empty. *)
Definition shist_default : shist := SHist 0 0 0 [::] [::] [::].
(* update_statistics.h:240 — scalar_histogram(num_bins_, max_val): std::vector(0.0, num_bins_)
   is zero copies of num_bins_. *)
Definition shist_new (bins : nat) (max_val : rat) : shist :=
  SHist bins 0 max_val (nseq 0 bins%:R) (nseq 0 bins%:R) (nseq 0 bins%:R).
(* update_statistics.h:242-252 — init. *)
Definition shist_init (bins : nat) (max_val : rat) (h : shist) : shist :=
  let zeroed (v : seq rat) := nseq (size (take bins v ++ nseq (bins - size v) 0)) 0 in
  SHist bins 0 max_val (zeroed (sh_sum h)) (zeroed (sh_sum2 h)) (zeroed (sh_counter h)).

(* v[pos] += x (update_statistics.h:258-260) *)
Definition vadd (v : seq rat) (pos : nat) (x : rat) : outcome (seq rat) := obind (get v pos) (fun w => put v pos (w + x)).

(* update_statistics.h:254-265 — add_sample. *)
Definition add_sample (h : shist) (distance value : rat) : outcome (shist * bool) :=
  let pos := floorq ((sh_bins h)%:R * distance / sh_max h) in
  if is_int32 pos then
    if (0 <= pos) && (pos < (sh_bins h)%:Z) then
      let p := `|pos|%N in
      obind (vadd (sh_sum h) p value) (fun s =>
      obind (vadd (sh_sum2 h) p (value * value)) (fun s2 =>
      obind (vadd (sh_counter h) p 1) (fun c =>
      Ok (SHist (sh_bins h) (sh_samples h).+1 (sh_max h) s s2 c, true))))
    else Ok (h, false)
  else UB.

(* update_statistics.h:267-273 — get_mean. *)
Definition get_mean (h : shist) : outcome (seq (option rat)) :=
  oloop (fun i (m : seq (option rat)) =>
      obind (get m i) (fun x => obind (get (sh_counter h) i) (fun c =>
      put m i (if c == 0 then None else omap (fun x => x / c) x)))) 0 (sh_bins h) [seq Some x | x <- sh_sum h].

(* update_statistics.h:321-328 — reset. *)
Definition shist_reset (h : shist) : outcome shist :=
  obind (oloop (fun i (x : seq rat * (seq rat * seq rat)) =>
      obind (put x.1 i 0) (fun a => obind (put x.2.1 i 0) (fun b => obind (put x.2.2 i 0) (fun c => Ok (a, (b, c))))))
    0 (sh_bins h) (sh_sum h, (sh_sum2 h, sh_counter h))) (fun x =>
  Ok (SHist (sh_bins h) 0 (sh_max h) x.1 x.2.1 x.2.2)).

(* a call that changes a scalar histogram (update_statistics.h:254, 321) *)
Inductive shist_op := AddSample of rat & rat | SReset.
(* update_statistics.h:254-265, 321-328 — one call. *)
Definition shist_step (h : shist) (o : shist_op) : outcome shist :=
  match o with
  | AddSample d v => obind (add_sample h d v) (fun x => Ok x.1)
  | SReset => shist_reset h
  end.
(* update_statistics.h:254-265, 321-328 — a sequence of calls. *)
Fixpoint shist_run (h : shist) (os : seq shist_op) : outcome shist :=
  if os is o :: os' then obind (shist_step h o) (fun h' => shist_run h' os') else Ok h.

(* ------------------------------------------------------------ scalar_histogram_flavors *)

(* update_statistics.h:348-357 — the constructor. *)
Definition fhist_new (bins : nat) (max_val : rat) (flavors : nat) : seq shist :=
  nseq flavors (shist_init bins max_val shist_default).
(* update_statistics.h:359-362 — add_sample. *)
Definition fhist_add (hs : seq shist) (distance value : rat) (flavor : nat) : outcome (seq shist) :=
  obind (get hs flavor) (fun h => obind (add_sample h distance value) (fun x => put hs flavor x.1)).
(* update_statistics.h:364-375, 377-388, 390-401 — get_mean, get_counter, get_sumval: the
   vectors of the flavors one after the other. *)
Definition flatten_flavors (T : Type) (d : T) (f : shist -> outcome (seq T)) (num_bins : nat) (hs : seq shist) : outcome (seq T) :=
  oloop (fun iflavor (out : seq T) =>
    obind (get hs iflavor) (fun h => obind (f h) (fun v =>
    oloop (fun ibin out => obind (get v ibin) (fun x => put out (ibin + iflavor * num_bins) x)) 0 num_bins out)))
    0 (size hs) (nseq (num_bins * size hs) d).
