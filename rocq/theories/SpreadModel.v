(* Model of small helpers: the order of operator times (operator.hpp), is_identity and
   my_rdiff (util.h) and compute_spread (update_statistics.h).
   Simplifications: exact arithmetic; the flavor and site of an operator are natural numbers;
   the result of atan2 in compute_spread is a parameter, an angle of [-pi, pi] (the value 0,
   taken when the centre is the origin, is one of them). *)
From mathcomp Require Import all_ssreflect order ssralg ssrnum ssrint rat.
From Verif Require Import Outcome.

Set Implicit Arguments.
Unset Strict Implicit.
Unset Printing Implicit Defensive.

Local Open Scope ring_scope.
Import Order.TTheory GRing.Theory Num.Theory.

Section Times.
Variable F : realFieldType.
(* operator.hpp:8-23 — operator_time: the time and the small index. *)
Definition op_time : Type := (F * int)%type.
(* operator.hpp:27-34 — operator<. *)
Definition ot_lt (t1 t2 : op_time) : bool :=
  if t1.1 == t2.1 then t1.2 < t2.2 else t1.1 < t2.1.
(* operator.hpp:36-39 — operator==. *)
Definition ot_eq (t1 t2 : op_time) : bool := (t1.1 == t2.1) && (t1.2 == t2.2).
(* operator.hpp:42-69 — an operator: flavor, site and time. *)
Definition oper : Type := (nat * nat * op_time)%type.
(* operator.hpp:95-103 — operator== of creators and of annihilators. *)
Definition oper_eq (a b : oper) : bool := [&& a.1.2 == b.1.2, ot_eq a.2 b.2 & a.1.1 == b.1.1].
End Times.

Section Helpers.
Variable F : realFieldType.
(* util.h:204-208 — the deviation of one element. *)
Definition id_dev (M : nat -> nat -> F) (p q : nat) : F :=
  if p == q then `|M p q - 1| else `|M p q|.
(* util.h:194-212 — is_identity of a matrix with nr rows and nc columns. *)
Definition is_identity (nr nc : nat) (M : nat -> nat -> F) : outcome F :=
  if nc != nr then Throw
  else Ok (foldl (fun d q => foldl (fun d p => Num.max d (id_dev M p q)) d (iota 0 nc)) 0 (iota 0 nc)).
(* util.h:249-252 — my_rdiff: the quotient is converted to bool; 0/0 is not a number, which
   converts to true. *)
Definition my_rdiff (x y : F) : bool :=
  let m := Num.max `|x| `|y| in
  if m == 0 then true else `|x - y| / m != 0.
End Helpers.

Section Spread.
Variables (F : realFieldType) (pi : F).
(* update_statistics.h:157-169 — the angles of the times. *)
Definition angles (beta : F) (times : seq F) : seq F := [seq t * (2%:R * pi / beta) | t <- times].
(* update_statistics.h:180-181 — the angle from the centre. *)
Definition from_center (theta_c a : F) : F :=
  let angle := a - theta_c in if pi <= angle then angle - 2%:R * pi else angle.
(* update_statistics.h:179-188 — one turn of the loop; the assertion is kept (UB if false). *)
Definition spread_step (theta_c : F) (d : outcome (F * F)) (a : F) : outcome (F * F) :=
  obind d (fun d =>
  let angle := from_center theta_c a in
  if ~~ ((angle <= pi) && (- pi <= angle)) then UB
  else if 0 <= angle then Ok (Num.max d.1 `|angle|, d.2) else Ok (d.1, Num.max d.2 `|angle|)).
(* update_statistics.h:155-191 — compute_spread. *)
Definition compute_spread (beta theta_c : F) (times : seq F) : outcome F :=
  obind (foldl (spread_step theta_c) (Ok (0, 0)) (angles beta times)) (fun d =>
  Ok ((d.1 + d.2) * beta / (2%:R * pi))).
End Spread.
