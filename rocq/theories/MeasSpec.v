(* What one measurement should report, as a function of the vertices alone: quotients of
   determinants of the matrix G0 - alpha of the vertices, with operators replaced or added. *)
From mathcomp Require Import all_ssreflect ssralg ssrnum ssrint rat matrix.
From Verif Require Import MatSpec DensSpec SubModel SubSpec Prop_Bin.

Set Implicit Arguments.
Unset Strict Implicit.
Unset Printing Implicit Defensive.

Local Open Scope ring_scope.
Import Num.Theory.

Section MeasSpec.
Variable C : numClosedFieldType.
Variables (G0 : sop rat_eqType -> sop rat_eqType -> C) (U : seq (vdef C)) (x0 : sop rat_eqType).

(* site and time of an operator *)
Definition place (x : sop rat_eqType) : nat * rat := (x.1.1.2, x.1.2).

(* the operators of a list of terms (annihilator, creator, alpha) and their matrix *)
Definition conf_of (ops : seq (sop rat_eqType * sop rat_eqType * C)) : conf C :=
  Conf [seq place t.1.1 | t <- ops] [seq place t.1.2 | t <- ops] (sp_mat G0 x0 ops).
(* the operators of one flavor of a list of vertices *)
Definition conf_at (vs : seq (vertex rat_eqType)) (z : nat) : conf C := conf_of (sp_ops U z vs).

(* the bare Green function of one flavor: g t a b, annihilator on a, creator on b *)
Variable g : rat -> nat -> nat -> C.
Let op (l : seq (nat * rat)) (i : nat) := nth (0%N, 0) l i.

(* a matrix with column q replaced *)
Definition with_column (q : nat) (a : nat -> nat -> C) (c : nat -> C) (i j : nat) : C :=
  if j == q then c i else a i j.

(* the weight with the q-th creation operator moved to site b and time - shift, over the
   weight *)
Definition sp_moved (c : conf C) (shift : rat) (b q : nat) : C :=
  let n := size (cf_annih c) in
  det_of n (with_column q (cf_N c) (fun p => g ((op (cf_annih c) p).2 + shift) (op (cf_annih c) p).1 b)) /
  det_of n (cf_N c).

(* bin k of the self-energy function of sites s1 and s2: the average over the shifts *)
Definition sp_stau (beta : rat) (n_bin : nat) (sign : C) (shifts : seq rat) (c : conf C) (s1 s2 k : nat) : C :=
  \sum_(s <- shifts) \sum_(0 <= q < size (cf_creat c))
    (if ((op (cf_creat c) q).1 == s1) && in_bin beta n_bin k ((op (cf_creat c) q).2 + s) then
       (-1) ^+ odd_period beta ((op (cf_creat c) q).2 + s) *
       (sign / ratr (beta / n_bin%:R * (size shifts)%:R)) * sp_moved c s s2 q
     else 0).

(* the weight with a creation operator on site i and an annihilation operator on site j added
   at time tau, over the weight *)
Definition sp_pair_added (mz tau : rat) (c : conf C) (i j : nat) : C :=
  det_of (size (cf_annih c) + 1) (with_extra g mz tau c [:: j] [:: i]) / det_of (size (cf_annih c)) (cf_N c).

End MeasSpec.

(* the correlation reported for complex weights (C63): products of real parts *)
Definition sp_nij (C : numClosedFieldType) (g : nat -> rat -> nat -> nat -> C) (mz tau : rat) (c : nat -> conf C)
    (f1 i f2 j : nat) : C :=
  let W z a b := 'Re (sp_pair_added (g z) mz tau (c z) a b) in
  if f1 == f2 then (if i == j then W f1 i i else W f1 i i * W f1 j j - W f1 i j * W f1 j i)
  else W f1 i i * W f2 j j.
