(* Model of the spline library /repo/src/spline.h ("spline.h").
   Simplifications:
   - double is an ordered field without rounding;
   - the arrays m_upper[k][i] and m_lower[k][i] are functions of k and i; the accesses of the
     modelled loops stay inside the bands, and set_points with fewer than two points, or fewer
     ordinates than abscissas, reads outside its vectors: UB;
   - assertions are not executed (release build, -DNDEBUG);
   - std::lower_bound is the position of the first element that is not smaller. *)
From mathcomp Require Import all_ssreflect ssralg ssrnum.
From Verif Require Import Outcome.

Set Implicit Arguments.
Unset Strict Implicit.
Unset Printing Implicit Defensive.

Local Open Scope ring_scope.
Import GRing.Theory Num.Theory.

Section Spline.
Variable F : realFieldType.

(* v[i] = x (spline.h:302-309, 342-352) *)
Definition upd (v : nat -> F) (i : nat) (x : F) : nat -> F := fun j => if j == i then x else v j.

(* spline.h:44-75 — band_matrix: the dimension, num_upper, num_lower and the bands. *)
Record band := Band { bd_n : nat; bd_nu : nat; bd_nl : nat; bd_up : nat -> nat -> F; bd_lo : nat -> nat -> F }.

(* spline.h:128-145 — the constructor: all entries are zero. *)
Definition band_new (n nu nl : nat) : band := Band n nu nl (fun _ _ => 0) (fun _ _ => 0).

(* spline.h:158-175 — operator(), reading. *)
Definition bget (A : band) (i j : nat) : F := if (i <= j)%N then bd_up A (j - i) i else bd_lo A (i - j) i.
(* spline.h:158-166 — operator(), writing. *)
Definition bset (A : band) (i j : nat) (x : F) : band :=
  if (i <= j)%N then
    Band (bd_n A) (bd_nu A) (bd_nl A) (fun k i' => if (k == j - i)%N && (i' == i) then x else bd_up A k i') (bd_lo A)
  else
    Band (bd_n A) (bd_nu A) (bd_nl A) (bd_up A) (fun k i' => if (k == i - j)%N && (i' == i) then x else bd_lo A k i').
(* spline.h:177-186 — saved_diag. *)
Definition sget (A : band) (i : nat) : F := bd_lo A 0 i.
(* spline.h:183-186 — saved_diag, writing. *)
Definition sset (A : band) (i : nat) (x : F) : band :=
  Band (bd_n A) (bd_nu A) (bd_nl A) (bd_up A) (fun k i' => if (k == 0%N) && (i' == i) then x else bd_lo A k i').

(* spline.h:197-206 — preconditioning of row i. *)
Definition norm_row (A : band) (i : nat) : band :=
  let A1 := sset A i (1 / bget A i i) in
  let A2 := foldl (fun A j => bset A i j (bget A i j * sget A i)) A1
                  (index_iota (i - bd_nl A) (minn (bd_n A) (i + bd_nu A).+1)) in
  bset A2 i i 1.

(* spline.h:211-220 — elimination in row i with pivot k. *)
Definition elim_row (k : nat) (A : band) (i : nat) : band :=
  let x := - bget A i k / bget A k k in
  let A1 := bset A i k (- x) in
  foldl (fun A j => bset A i j (bget A i j + x * bget A k j)) A1
        (index_iota k.+1 (minn (bd_n A) (k + bd_nu A).+1)).
(* spline.h:208-221 — elimination with pivot k. *)
Definition elim_col (A : band) (k : nat) : band :=
  foldl (elim_row k) A (index_iota k.+1 (minn (bd_n A) (k + bd_nl A).+1)).

(* spline.h:189-222 — lu_decompose. *)
Definition lu_decompose (A : band) : band :=
  let A1 := foldl norm_row A (iota 0 (bd_n A)) in
  foldl elim_col A1 (iota 0 (bd_n A)).

(* spline.h:224-237 — l_solve. *)
Definition l_solve (A : band) (b : nat -> F) : nat -> F :=
  foldl (fun x i =>
    let sum := foldl (fun s j => s + bget A i j * x j) 0 (index_iota (i - bd_nl A) i) in
    upd x i (b i * sget A i - sum)) (fun _ => 0) (iota 0 (bd_n A)).

(* spline.h:239-252 — r_solve. *)
Definition r_solve (A : band) (b : nat -> F) : nat -> F :=
  foldl (fun x i =>
    let sum := foldl (fun s j => s + bget A i j * x j) 0 (index_iota i.+1 (minn (bd_n A) (i + bd_nu A).+1)) in
    upd x i ((b i - sum) / bget A i i)) (fun _ => 0) (rev (iota 0 (bd_n A))).

(* spline.h:254-265 — lu_solve. *)
Definition lu_solve (A : band) (b : nat -> F) : nat -> F :=
  let D := lu_decompose A in r_solve D (l_solve D b).

(* spline.h:82-85 — bd_type. *)
Inductive bd_type := first_deriv | second_deriv.

(* spline.h:87-95 — the members. *)
Record spline := Spline {
  sp_x : seq F; sp_y : seq F; sp_a : nat -> F; sp_b : nat -> F; sp_c : nat -> F;
  sp_b0 : F; sp_c0 : F;
  sp_left : bd_type; sp_right : bd_type; sp_lv : F; sp_rv : F; sp_lin : bool }.
(* spline.h:98-104 — the constructor. *)
Definition spline_new : spline :=
  Spline [::] [::] (fun _ => 0) (fun _ => 0) (fun _ => 0) 0 0 second_deriv second_deriv 0 0 false.
(* spline.h:273-283 — set_boundary. *)
Definition set_boundary (s : spline) (l : bd_type) (lv : F) (r : bd_type) (rv : F) (lin : bool) : spline :=
  Spline (sp_x s) (sp_y s) (sp_a s) (sp_b s) (sp_c s) (sp_b0 s) (sp_c0 s) l r lv rv lin.

(* spline.h:302-309 — the matrix and the right hand side of the inner points. *)
Definition inner_rows (n : nat) (x y : nat -> F) : band * (nat -> F) :=
  foldl (fun (p : band * (nat -> F)) i =>
    let: (A, rhs) := p in
    let A1 := bset A i i.-1 (1 / 3%:R * (x i - x i.-1)) in
    let A2 := bset A1 i i (2%:R / 3%:R * (x i.+1 - x i.-1)) in
    let A3 := bset A2 i i.+1 (1 / 3%:R * (x i.+1 - x i)) in
    (A3, upd rhs i ((y i.+1 - y i) / (x i.+1 - x i) - (y i - y i.-1) / (x i - x i.-1))))
  (band_new n 1 1, fun _ => 0) (index_iota 1 n.-1).

(* spline.h:311-339 — the boundary conditions. *)
Definition left_row (s : spline) (x y : nat -> F) (p : band * (nat -> F)) : band * (nat -> F) :=
  let: (A, rhs) := p in
  match sp_left s with
  | second_deriv => (bset (bset A 0 0 2%:R) 0 1 0, upd rhs 0 (sp_lv s))
  | first_deriv =>
      (bset (bset A 0 0 (2%:R * (x 1%N - x 0%N))) 0 1 (1 * (x 1%N - x 0%N)),
       upd rhs 0 (3%:R * ((y 1%N - y 0%N) / (x 1%N - x 0%N) - sp_lv s)))
  end.
(* spline.h:325-339 — the condition at the right end. *)
Definition right_row (s : spline) (n : nat) (x y : nat -> F) (p : band * (nat -> F)) : band * (nat -> F) :=
  let: (A, rhs) := p in
  let e := n.-1 in let e' := n.-2 in
  match sp_right s with
  | second_deriv => (bset (bset A e e 2%:R) e e' 0, upd rhs e (sp_rv s))
  | first_deriv =>
      (bset (bset A e e (2%:R * (x e - x e'))) e e' (1 * (x e - x e')),
       upd rhs e (3%:R * (sp_rv s - (y e - y e') / (x e - x e'))))
  end.

(* spline.h:286-375 — set_points. *)
Definition set_points (s : spline) (xs ys : seq F) (cubic : bool) : outcome spline :=
  let n := size xs in
  if (n < 2)%N || (size ys < n)%N then UB
  else
  let x := nth 0 xs in let y := nth 0 ys in
  let: (a, b, c) :=
    if cubic then
      let: (A, rhs) := right_row s n x y (left_row s x y (inner_rows n x y)) in
      let b := lu_solve A rhs in
      (fun i => 1 / 3%:R * (b i.+1 - b i) / (x i.+1 - x i), b,
       fun i => (y i.+1 - y i) / (x i.+1 - x i) - 1 / 3%:R * (2%:R * b i + b i.+1) * (x i.+1 - x i))
    else
      (fun _ => 0, fun i => if (i < n.-1)%N || (size (sp_x s) <= i)%N then 0 else sp_b s i,  (* resize keeps entries *)
       fun i => (y i.+1 - y i) / (x i.+1 - x i)) in
  let b0 := if ~~ sp_lin s then b 0%N else 0 in
  let c0 := c 0%N in
  let h := x n.-1 - x n.-2 in
  let a1 := upd a n.-1 0 in
  let c1 := upd c n.-1 (3%:R * a1 n.-2 * h * h + 2%:R * b n.-2 * h + c n.-2) in
  let b1 := if sp_lin s then upd b n.-1 0 else b in
  Ok (Spline xs ys a1 b1 c1 b0 c0 (sp_left s) (sp_right s) (sp_lv s) (sp_rv s) (sp_lin s)).

(* std::lower_bound(m_x.begin(), m_x.end(), x) - m_x.begin() (spline.h:380-383) *)
Definition lower_bound (xs : seq F) (x : F) : nat := find (fun z => ~~ (z < x)) xs.

(* spline.h:377-398 — operator(); the spline has points. *)
Definition spline_at (s : spline) (x : F) : F :=
  let n := size (sp_x s) in
  let idx := (lower_bound (sp_x s) x).-1 in
  let h := x - nth 0 (sp_x s) idx in
  if x < nth 0 (sp_x s) 0 then (sp_b0 s * h + sp_c0 s) * h + nth 0 (sp_y s) 0
  else if x > nth 0 (sp_x s) n.-1 then (sp_b s n.-1 * h + sp_c s n.-1) * h + nth 0 (sp_y s) n.-1
  else ((sp_a s idx * h + sp_b s idx) * h + sp_c s idx) * h + nth 0 (sp_y s) idx.

(* spline.h:400-414 — get_coeff. *)
Definition get_coeff (s : spline) (idx power : nat) : outcome F :=
  if (size (sp_y s) <= idx)%N then UB
  else match power with
  | 0 => Ok (nth 0 (sp_y s) idx)
  | 1 => Ok (sp_c s idx)
  | 2 => Ok (sp_b s idx)
  | 3 => Ok (sp_a s idx)
  | _ => Throw
  end.

(* spline.h:416-472 — deriv. *)
Definition spline_deriv (s : spline) (order : nat) (x : F) : F :=
  let n := size (sp_x s) in
  let idx := (lower_bound (sp_x s) x).-1 in
  let h := x - nth 0 (sp_x s) idx in
  if x < nth 0 (sp_x s) 0 then
    match order with
    | 1 => 2%:R * sp_b0 s * h + sp_c0 s
    | 2 => 2%:R * sp_b0 s * h
    | _ => 0
    end
  else if x > nth 0 (sp_x s) n.-1 then
    match order with
    | 1 => 2%:R * sp_b s n.-1 * h + sp_c s n.-1
    | 2 => 2%:R * sp_b s n.-1
    | _ => 0
    end
  else
    match order with
    | 1 => (3%:R * sp_a s idx * h + 2%:R * sp_b s idx) * h + sp_c s idx
    | 2 => 6%:R * sp_a s idx * h + 2%:R * sp_b s idx
    | 3 => 6%:R * sp_a s idx
    | _ => 0
    end.

End Spline.
