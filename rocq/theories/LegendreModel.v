(* Model of LegendreTransformer (/repo/src/legendre.h).
   Simplifications:
   - doubles are elements of a field, arithmetic is exact; std::sqrt is a parameter;
   - Tnl_, which needs Bessel functions, is left out;
   - the vector arguments are lists, the two-dimensional array a list of rows; access outside
     them is UB (the asserts on lines 60 and 78 are compiled out in release builds). *)
From mathcomp Require Import all_ssreflect ssralg.
From Verif Require Import Outcome.

Set Implicit Arguments.
Unset Strict Implicit.
Unset Printing Implicit Defensive.

Local Open Scope ring_scope.

Section Legendre.
Variable F : fieldType.

(* legendre.h:44, 104 — n_legendre_, inv_l_, sqrt_2l_1. *)
Record legendre := Legendre { lg_n : nat; lg_inv : seq F; lg_sqrt : seq F }.

(* std::vector: v[i] = x; out of range is UB (legendre.h:36-39, 60-65). *)
Definition put (T : Type) (v : seq T) (i : nat) (x : T) : outcome (seq T) :=
  if (i < size v)%N then Ok (set_nth x v i x) else UB.
(* std::vector: v[i] (legendre.h:65, 91). *)
Definition get (T : Type) (v : seq T) (i : nat) : outcome T :=
  if drop i v is x :: _ then Ok x else UB.

(* the loop for (l = a; l < a + k; ++l) { s = body(l, s); } (legendre.h:37, 58, 76, 79, 84, 93) *)
Fixpoint oloop (S : Type) (body : nat -> S -> outcome S) (a k : nat) (s : S) : outcome S :=
  if k is k'.+1 then obind (body a s) (oloop body a.+1 k') else Ok s.

(* legendre.h:22-41 — the constructor. *)
Definition legendre_new (sqrt : F -> F) (n_legendre : nat) : outcome legendre :=
  let inv := nseq n_legendre 0 in
  obind (put (nseq n_legendre 0) 0 1) (fun sq =>
  obind (oloop (fun l (s : seq F * seq F) =>
           obind (put s.1 l (1 / l%:R)) (fun inv =>
           obind (put s.2 l (sqrt (2%:R * l%:R + 1))) (fun sq => Ok (inv, sq)))) 1 n_legendre.-1 (inv, sq)) (fun s =>
  Ok (Legendre n_legendre s.1 s.2))).

(* legendre.h:55-68 — compute_legendre(x, val). *)
Definition compute_legendre (t : legendre) (x : F) (val : seq F) : outcome (seq F) :=
  oloop (fun l val =>
    if l == 0%N then put val l 1
    else if l == 1%N then put val l x
    else obind (get val l.-1) (fun v1 => obind (get val l.-2) (fun v2 => obind (get (lg_inv t) l) (fun inv =>
         put val l (((2 * l - 1)%N%:R * x * v1 - (l - 1)%N%:R * v2) * inv)))))
    0 (lg_n t) val.

(* val[l][ix] = v of a two-dimensional array (legendre.h:80, 85, 94) *)
Definition put2 (val : seq (seq F)) (l ix : nat) (v : F) : outcome (seq (seq F)) :=
  obind (get val l) (fun r => obind (put r ix v) (fun r' => put val l r')).
(* legendre.h:94 — val[l][ix]. *)
Definition get2 (val : seq (seq F)) (l ix : nat) : outcome F := obind (get val l) (fun r => get r ix).

(* legendre.h:70-98 — compute_legendre(xval, val). *)
Definition compute_legendre_vec (t : legendre) (xval : seq F) (val : seq (seq F)) : outcome (seq (seq F)) :=
  let nx := size xval in
  oloop (fun l val =>
    if l == 0%N then oloop (fun ix val => put2 val l ix 1) 0 nx val
    else if l == 1%N then oloop (fun ix val => obind (get xval ix) (fun x => put2 val l ix x)) 0 nx val
    else obind (get (lg_inv t) l) (fun inv =>
         oloop (fun ix val =>
           obind (get xval ix) (fun x => obind (get2 val l.-1 ix) (fun v1 => obind (get2 val l.-2 ix) (fun v2 =>
           put2 val l ix (((2 * l - 1)%N%:R * x * v1 - (l - 1)%N%:R * v2) * inv))))) 0 nx val))
    0 (lg_n t) val.

End Legendre.
