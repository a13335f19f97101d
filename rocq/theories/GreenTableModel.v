(* Model of green_function::read_itime_data (/repo/src/green_function.h).
   Simplifications:
   - the file is given by its parsed numbers: the header and one record per line; at the end
     of the file the extractions fail and leave the variables of the previous line (UB if
     there is none: they are not initialised);
   - a finite double is a rational number, arithmetic is exact; the field of complex numbers
     is represented by pairs (re, im); mycast<T> is kept by the flag [cplx]: for T = double
     the imaginary part is dropped;
   - the counters flavors, sites and n_tau are not negative;
   - the text of the errors is left out. *)
From mathcomp Require Import all_ssreflect ssralg ssrnum ssrint rat.
From Verif Require Import Outcome SplineModel GreenModel.

Set Implicit Arguments.
Unset Strict Implicit.
Unset Printing Implicit Defensive.

Local Open Scope ring_scope.
Import GRing.Theory Num.Theory.

(* std::complex<double> as a vector space (green_function.h:90) *)
Definition cnum : lmodType [ringType of rat] := [lmodType [ringType of rat] of (rat^o * rat^o)%type].
(* green_function.h:90 — std::complex<double>(re, im). *)
Definition cmk (re im : rat) : cnum := (re, im).
(* green_function.h:91 — std::real. *)
Definition cre (z : cnum) : rat := z.1.
(* green_function.h:92 — std::imag. *)
Definition cim (z : cnum) : rat := z.2.

(* green_function.h:36-37 — the header. *)
Record header := Header { h_flavor : nat; h_site : nat; h_tau : nat; h_beta : rat }.
(* green_function.h:60-68 — one line of the table: the four indices and the value. *)
Record row := Row { r_flavor : int; r_site1 : int; r_site2 : int; r_tau : int; r_re : rat; r_im : rat }.

(* green_function.h:68 — what the extraction leaves in the variables. *)
Definition read_row (prev : option row) (rows : seq row) : option row :=
  if rows is r :: _ then Some r else prev.

(* green_function.h:67-94 — the lines of one pair of sites. *)
Fixpoint read_lines (flavor site1 site2 : nat) (ts : seq nat) (prev : option row) (rows : seq row) :
    outcome (option row * seq row * seq (rat * rat)) :=
  if ts is itau :: ts' then
    if read_row prev rows is Some r then
      if (r_flavor r != flavor%:Z) || (r_site1 r != site1%:Z) || (r_site2 r != site2%:Z) || (r_tau r != itau%:Z) then Throw
      else obind (read_lines flavor site1 site2 ts' (Some r) (behead rows)) (fun q =>
           Ok (q.1, (r_re r, r_im r) :: q.2))
    else UB
  else Ok (prev, rows, [::]).

(* green_function.h:90-92 — data_, y_re and y_im. *)
Definition cast_data (cplx : bool) (d : rat * rat) : rat * rat := (d.1, if cplx then d.2 else 0).

Notation spl := (spline [realFieldType of rat]).

(* green_function.h:97-106 — the splines and their coefficients. *)
Definition pair_coeff (taus : seq rat) (data : seq (rat * rat)) : outcome (nat -> nat -> cnum) :=
  obind (set_points (spline_new [realFieldType of rat]) taus [seq d.1 | d <- data] true) (fun sre =>
  obind (set_points (spline_new [realFieldType of rat]) taus [seq d.2 | d <- data] true) (fun sim =>
  Ok (fun t p => cmk (if get_coeff sre t p is Ok v then v else 0) (if get_coeff sim t p is Ok v then v else 0)))).

(* green_function.h:64-110 — the loops over flavors and pairs of sites; [ts] lists the triples
   in loop order. *)
Fixpoint read_pairs (cplx : bool) (n_tau : nat) (taus : seq rat) (ts : seq (nat * nat * nat))
    (prev : option row) (rows : seq row) (table : nat -> nat -> nat -> nat -> nat -> cnum) :
    outcome (nat -> nat -> nat -> nat -> nat -> cnum) :=
  if ts is (f, s1, s2) :: ts' then
    obind (read_lines f s1 s2 (iota 0 n_tau) prev rows) (fun q =>
    obind (pair_coeff taus [seq cast_data cplx d | d <- q.2]) (fun c =>
    read_pairs cplx n_tau taus ts' q.1.1 q.1.2
      (fun f' s1' s2' => if (f', s1', s2') == (f, s1, s2) then c else table f' s1' s2')))
  else Ok table.

(* green_function.h:64-66, 112-114 — the order of the loops. *)
Definition triples (nf ns : nat) : seq (nat * nat * nat) :=
  [seq (p, s2) | p <- [seq (f, s1) | f <- iota 0 nf, s1 <- iota 0 ns], s2 <- iota 0 ns].

(* green_function.h:41, 116 — 1e-8, as the rational 10^-8. *)
Definition eps8 : rat := 1 / 10%:R ^+ 8.

(* green_function.h:116 — |z - conj(w)| > 1e-8, by squares. *)
Definition not_conj (z w : cnum) : bool :=
  eps8 ^+ 2 < (cre z - cre w) ^+ 2 + (cim z + cim w) ^+ 2.

(* green_function.h:112-122 — the check of the table. *)
Fixpoint check_points (g : green cnum) (ps : seq (nat * nat * nat * rat)) : outcome unit :=
  if ps is (f, s, s2, tau) :: ps' then
    obind (interpolate g f s s2 tau) (fun z =>
    obind (interpolate g f s2 s tau) (fun w =>
    if not_conj z w then Throw else check_points g ps'))
  else Ok tt.

(* green_function.h:28-123 — read_itime_data(input_file, beta, flavors, sites). *)
Definition read_itime_data (cplx : bool) (h : header) (rows : seq row) (beta : rat) (flavors sites : nat) : outcome (green cnum) :=
  if (flavors != h_flavor h) || (sites != h_site h) then Throw
  else if eps8 < `|h_beta h - beta| then Throw
  else
  let n_tau := h_tau h in
  let taus := [seq grid_point beta n_tau t | t <- iota 0 n_tau] in
  obind (read_pairs cplx n_tau taus (triples (h_flavor h) (h_site h)) None rows (fun _ _ _ _ _ => 0)) (fun table =>
  let g := green_grid beta n_tau (h_flavor h) (h_site h) table in
  obind (check_points g [seq (t, tau) | t <- triples (h_flavor h) (h_site h), tau <- [:: 0; 1 / 2%:R * beta; beta]]) (fun _ =>
  Ok g)).
