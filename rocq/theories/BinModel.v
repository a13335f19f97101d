(* Model of the binning measurement compute_Stau (/repo/src/measurement.ipp).
   Simplifications:
   - the arithmetic of times is a parameter: exact rationals or binary64 (Coq.Floats.SpecFloat);
   - in the whole measurement times are rational and the values lie in a field K containing
     them, arithmetic is exact;
   - g0_intpl and the matrices M_flavors are parameters;
   - timing code is left out. *)
From Coq Require Import ZArith SpecFloat.
From mathcomp Require Import all_ssreflect ssralg ssrnum ssrint rat.
From Verif Require Import Outcome GreenModel.

Set Implicit Arguments.
Unset Strict Implicit.
Unset Printing Implicit Defensive.

Local Open Scope ring_scope.

(* the operations on doubles that the binning uses; ar_trunc is static_cast<int>, None where
   it is undefined (measurement.ipp:432-433, 478-480). *)
Record arith := Arith {
  ar_num : Type;
  ar_add : ar_num -> ar_num -> ar_num;
  ar_sub : ar_num -> ar_num -> ar_num;
  ar_mul : ar_num -> ar_num -> ar_num;
  ar_div : ar_num -> ar_num -> ar_num;
  ar_lt : ar_num -> ar_num -> bool;
  ar_N : N -> ar_num;
  ar_trunc : ar_num -> option int }.

(* exact arithmetic (measurement.ipp:478-480) *)
Definition exact : arith :=
  @Arith rat (fun a b => a + b) (fun a b => a - b) (fun a b => a * b) (fun a b => a / b)
    (fun a b => a < b) (fun n => (N.to_nat n)%:R)
    (fun a => if is_int32 (truncq a) then Some (truncq a) else None).

(* static_cast<int> of a binary64 number: m * 2^e towards zero (measurement.ipp:480). *)
Definition sf_trunc (f : spec_float) : option int :=
  match f with
  | S754_zero _ => Some 0
  | S754_finite s m e =>
      let k := (if Z.leb 0 e then Z.shiftl (Zpos m) e else Z.div (Zpos m) (Z.pow 2 (Z.opp e)))%Z in
      if Z.ltb k (Z.pow 2 31) then
        let n := (Z.to_nat k)%:Z in Some (if s then - n else n)
      else None
  | _ => None
  end.

(* IEEE 754 binary64, round to nearest even (measurement.ipp:478-480) *)
Definition binary64 : arith :=
  @Arith spec_float (SFadd 53 1024) (SFsub 53 1024) (SFmul 53 1024) (SFdiv 53 1024)
    SFltb (fun n => binary_normalize 53 1024 (Z.of_N n) 0 false) sf_trunc.

(* measurement.ipp:432-433 — dtau. *)
Definition bin_width (A : arith) (beta : ar_num A) (n_bins : nat) : ar_num A := ar_div beta (ar_N A (N.of_nat n_bins)).

(* measurement.ipp:478-480 — the shifted time of a creation operator and its bin. *)
Definition shifted (A : arith) (beta time time_shift : ar_num A) : ar_num A :=
  let tmp := ar_add time time_shift in
  if ar_lt tmp beta then tmp else ar_sub tmp beta.
(* measurement.ipp:478-480 — ibin. *)
Definition bin_index (A : arith) (beta : ar_num A) (n_bins : nat) (time time_shift : ar_num A) : option int :=
  ar_trunc (ar_div (shifted beta time time_shift) (bin_width beta n_bins)).
(* measurement.ipp:482 — the sign of the coefficient: true is -1. *)
Definition bin_sign (A : arith) (beta time time_shift : ar_num A) : bool := ~~ ar_lt (ar_add time time_shift) beta.

(* measurement.ipp:125 (shifts), U_matrix.h and update_manager.hpp (vertices) — times are drawn
   as beta * random() with random() a multiple of 2^-32 below 1. *)
Definition drawn_time (A : arith) (beta : ar_num A) (k : N) : ar_num A :=
  ar_mul beta (ar_div (ar_N A k) (ar_N A (N.pow 2 32))).

Section Stau.
Variable K : numFieldType.

(* creators and annihilators of one flavor as (site, time) (operator.hpp:44-84) *)
Definition oper := (nat * rat)%type.

(* measurement.ipp:446-456 — the operators and the matrix of one flavor. *)
Record flavor_data := FlavorData {
  fd_annih : seq oper; fd_creat : seq oper; fd_M : nat -> nat -> K }.

Variables (g0 : rat -> nat -> nat -> nat -> K) (sign : K) (beta : rat) (n_site n_bins : nat).

(* measurement.ipp:465-472 — gR. *)
Definition gR (z : nat) (d : flavor_data) (time_shift : rat) (p site_B : nat) : K :=
  let a := nth (0%N, 0) (fd_annih d) p in g0 (a.2 + time_shift) z a.1 site_B.
(* measurement.ipp:474 — gemm(M_flavors[z], gR, M_gR). *)
Definition M_gR (z : nat) (d : flavor_data) (time_shift : rat) (q site_B : nat) : K :=
  foldl (fun acc p => acc + fd_M d q p * gR z d time_shift p site_B) 0 (iota 0 (size (fd_annih d))).

(* measurement.ipp:422-426 — Stau. *)
Definition table := nat -> nat -> nat -> nat -> K.
(* measurement.ipp:486 — Stau[z][s1][s2][b] += v. *)
Definition tadd (S : table) (z s1 s2 b : nat) (v : K) : table :=
  fun z' s1' s2' b' => if [&& z' == z, s1' == s1, s2' == s2 & b' == b] then S z' s1' s2' b' + v else S z' s1' s2' b'.

(* measurement.ipp:476-488 — the body of the loop over creation operators. *)
Definition bin_creator (z : nat) (d : flavor_data) (num_random_walk : nat) (time_shift : rat) (S : table) (q : nat) : outcome table :=
  let c := nth (0%N, 0) (fd_creat d) q in
  let dtau := @bin_width exact beta n_bins in
  let coeff := (if @bin_sign exact beta c.2 time_shift then -1 else 1) * (sign / ratr (dtau * num_random_walk%:R)) in
  if @bin_index exact beta n_bins c.2 time_shift is Some i then
    if (c.1 < n_site)%N && (0 <= i) && (i < n_bins%:Z) then
      Ok (foldl (fun S site_B => tadd S z c.1 site_B `|i|%N (coeff * M_gR z d time_shift q site_B)) S (iota 0 n_site))
    else UB
  else UB.

(* measurement.ipp:446, 459, 465, 476, 485 — the loops, any turn of which may fail. *)
Fixpoint obfold (T S : Type) (f : S -> T -> outcome S) (s : S) (l : seq T) : outcome S :=
  if l is x :: l' then obind (f s x) (fun s' => obfold f s' l') else Ok s.

(* measurement.ipp:446-491 — one flavor; flavors without operators are skipped (449-451). *)
Definition bin_flavor (time_shifts : seq rat) (S : table) (zd : nat * flavor_data) : outcome table :=
  if fd_creat zd.2 is [::] then Ok S
  else obfold (fun S time_shift =>
         obfold (bin_creator zd.1 zd.2 (size time_shifts) time_shift) S (iota 0 (size (fd_creat zd.2)))) S time_shifts.

(* measurement.ipp:422-492 — compute_Stau; the flavors are the positions of the list. *)
Definition compute_Stau (time_shifts : seq rat) (flavors : seq flavor_data) : outcome table :=
  obfold (bin_flavor time_shifts) (fun _ _ _ _ => 0) (zip (iota 0 (size flavors)) flavors).

End Stau.
