(* Model of the interaction and the vertex list: /repo/src/U_matrix.h ("U_matrix.h") and
   the list helpers of /repo/src/util.h ("util.h").
   Simplifications:
   - T is an arbitrary field, complex input numbers an arbitrary type C with mycast a
     parameter;
   - an input file is a list of tokens: integers, numbers in the form (re,im), and
     words.  Numbers with a decimal point are not tokens of the model (an integer
     extraction would stop inside of them);
   - the numbers of values 2^64 and 2^32 of size_t and unsigned int are parameters [w64]
     and [w32];
   - a resize to more than [maxel] elements throws (std::length_error or std::bad_alloc);
   - a random number r in [0,1) used as static_cast<int>(r*N) is the integer itself. *)
From Coq Require Import ZArith NArith.
From mathcomp Require Import all_ssreflect ssralg ssrnum ssrint.
From Verif Require Import Outcome SubModel.

Set Implicit Arguments.
Unset Strict Implicit.
Unset Printing Implicit Defensive.

Local Open Scope ring_scope.

Section UMat.
Variable F : numFieldType.

(* U_matrix.h:28-105 — a vertex definition together with its id. *)
Definition udef := (vdef F * nat)%type.

(* U_matrix.h:74-83 — is_density_type. *)
Definition is_density (d : vdef F) : bool :=
  all (fun r => nth 0%N (vd_sites d) (2 * r) == nth 0%N (vd_sites d) (2 * r).+1)
      (iota 0 (vd_rank d)).
(* U_matrix.h:87-93 — is_truely_non_density_type. *)
Definition is_truely_non_density (d : vdef F) : bool :=
  foldl (fun fl r => fl && (nth 0%N (vd_sites d) (2 * r) != nth 0%N (vd_sites d) (2 * r).+1)) true
      (iota 0 (vd_rank d)).

(* U_matrix.h:343-356 — find_non_density_vertices: (non_density_vertices,
   density_vertices). *)
Definition split_density (vl : seq udef) : seq udef * seq udef :=
  foldl (fun acc v => if ~~ is_density v.1 then (rcons acc.1 v, acc.2) else (acc.1, rcons acc.2 v))
        ([::], [::]) vl.

(* boost::multi_array assignment alpha_[a][r] = x (U_matrix.h:194, 199, 246-251) *)
Definition set2 (al : nat -> nat -> F) (a r : nat) (x : F) : nat -> nat -> F :=
  fun a' r' => if (a' == a) && (r' == r) then x else al a' r'.

(* U_matrix.h:232-266 — one pass of the loop over sites. *)
Definition onsite_step (nf : nat) (u delta : F)
    (st : seq nat * seq nat * (nat -> nat -> F) * seq udef) (site : nat)
    : seq nat * seq nat * (nat -> nat -> F) * seq udef :=
  let: (sites, flavors, al, vl) := st in
  let sites' :=
    if nf == 1%N then
      foldl (fun s i => set_nth 0%N s i (2 * site).+1) (foldl (fun s i => set_nth 0%N s i (2 * site)%N) sites (iota 0 2)) (iota 2 2)
    else foldl (fun s i => set_nth 0%N s i site) sites (iota 0 4) in
  let flavors' := if nf == 1%N then set_nth 0%N (set_nth 0%N flavors 0 0%N) 1 0%N
                  else set_nth 0%N (set_nth 0%N flavors 0 0%N) 1 1%N in
  let al1 := set2 (set2 al 0 0 (1 + delta)) 0 1 (- delta) in
  let al' := set2 (set2 al1 1 0 (- delta)) 1 1 (1 + delta) in
  (sites', flavors', al', rcons vl (VDef 2 flavors' sites' 2 u al', site)).

(* U_matrix.h:214-273 — set_onsite_U. *)
Definition set_onsite_U (ns nf : nat) (u delta : F) : outcome (seq udef) :=
  if (nf != 1%N) && (nf != 2%N) then Throw
  else
    let n := if nf == 2%N then ns else (ns %/ 2)%N in
    Ok (foldl (onsite_step nf u delta) (nseq 4 0%N, nseq 2 0%N, (fun _ _ => 0), [::]) (iota 0 n)).2.

(* ---- load_vertex_from_file ---- *)
Variables (C : Type) (cast : C -> F) (ofint : int -> C) (c0 : C).
Variables maxel w64 w32 : nat.

(* U_matrix.h:170-194 — what the file holds between white space. *)
Inductive token := TInt of int | TCplx of C | TWord.
(* a stream: not failed, rest of the file (U_matrix.h:153-157) *)
Definition stream := (bool * seq token)%type.

(* std::istream >> unsigned type with the given number of values (2^32 or 2^64): a negative
   number is wrapped, one too large gives the largest value and a failed stream; a failed
   stream, and a stream at its end, leave the variable as it is (U_matrix.h:157, 170, 181, 187). *)
Definition read_uint (w : nat) (s : stream) (old : option nat) : option nat * stream :=
  if ~~ s.1 then (old, s) else
  match s.2 with
  | [::] => (old, (false, [::]))
  | TInt z :: r =>
      if (`|z| < w)%N then (Some (if 0 <= z then `|z|%N else (w - `|z|)%N), (true, r))
      else (Some w.-1, (false, s.2))
  | _ => (Some 0%N, (false, s.2))
  end.
(* std::istream >> std::complex<double>: unchanged if it cannot be read (U_matrix.h:170, 194). *)
Definition read_cplx (s : stream) (old : C) : C * stream :=
  if ~~ s.1 then (old, s) else
  match s.2 with
  | [::] => (old, (false, [::]))
  | TInt z :: r => (ofint z, (true, r))
  | TCplx c :: r => (c, (true, r))
  | TWord :: _ => (old, (false, s.2))
  end.

(* U_matrix.h:180-185, 186-191 — read the entries of a vector and check each. *)
Fixpoint read_checked (w lim : nat) (l : seq nat) (v : seq nat) (s : stream) : outcome (seq nat * stream) :=
  if l is i :: l' then
    let: (x, s') := read_uint w s (Some (nth 0%N v i)) in
    if x is Some x then
      if (lim <= x)%N then Throw else read_checked w lim l' (set_nth 0%N v i x) s'
    else UB
  else Ok (v, s).

(* U_matrix.h:192-196 — read the alphas. *)
Definition read_alpha_step (st : (nat -> nat -> C) * stream) (x : nat * nat) :=
  let: (al, s) := st in
  let: (c, s') := read_cplx s (al x.1 x.2) in
  ((fun a r => if (a == x.1) && (r == x.2) then c else al a r), s').
(* U_matrix.h:192-196 — the loop over the ranks. *)
Definition read_alphas (rank naf : nat) (al : nat -> nat -> C) (s : stream) :=
  foldl read_alpha_step (al, s)
    (flatten [seq [seq (iaf, r) | iaf <- iota 0 naf] | r <- iota 0 rank]).

(* the variables that live across the passes of the loop (U_matrix.h:160-166) *)
Record lstate := LState {
  l_rank : option nat; l_naf : option nat; l_U : C;
  l_sites : seq nat; l_flavors : seq nat; l_alpha : nat -> nat -> C }.

(* boost::multi_array::resize keeps the old elements that still exist and sets the others
   to zero (U_matrix.h:177-178). *)
Definition resize_alpha (naf0 rank0 naf rank : nat) (al : nat -> nat -> C) : nat -> nat -> C :=
  fun a r => if [&& a < naf0, r < rank0, a < naf & r < rank]%N then al a r else c0.

(* U_matrix.h:168-203 — one pass of the loop over vertices. *)
Definition load_one (ns nf : nat) (st : lstate) (s : stream) (idx : nat) : outcome (lstate * udef * stream) :=
  let: (_, s1) := read_uint w64 s (Some 0%N) in
  let: (rank', s2) := read_uint w64 s1 (l_rank st) in
  let: (naf', s3) := read_uint w64 s2 (l_naf st) in
  let: (u, s4) := read_cplx s3 (l_U st) in
  match rank', naf' with
  | Some rank, Some naf =>
    if (maxel < rank)%N then Throw
    else if (w64 <= naf * rank)%N then UB
    else if (maxel < naf * rank)%N then Throw
    else
    let rank0 := odflt 0%N (l_rank st) in let naf0 := odflt 0%N (l_naf st) in
    obind (read_checked w64 ns (iota 0 (2 * rank)) (vresize 0%N (2 * rank) (l_sites st)) s4) (fun x =>
    let: (sites, s5) := x in
    obind (read_checked w32 nf (iota 0 rank) (vresize 0%N rank (l_flavors st)) s5) (fun y =>
    let: (flavors, s6) := y in
    let: (al, s7) := read_alphas rank naf (resize_alpha naf0 rank0 naf rank (l_alpha st)) s6 in
    Ok (LState (Some rank) (Some naf) u sites flavors al,
        (VDef rank flavors sites naf (cast u) (fun a r => cast (al a r)), idx), s7)))
  | _, _ => UB
  end.
(* U_matrix.h:168-204 — the loop over the vertices. *)
Fixpoint load_loop (ns nf : nat) (st : lstate) (s : stream) (l : seq nat) (vl : seq udef) : outcome (seq udef) :=
  if l is idx :: l' then
    obind (load_one ns nf st s idx) (fun x => load_loop ns nf x.1.1 x.2 l' (rcons vl x.1.2))
  else Ok vl.
(* U_matrix.h:148-207 — load_vertex_from_file, for a file that can be opened. *)
Definition load_vertices (ns nf : nat) (file : seq token) : outcome (seq udef) :=
  let: (n, s) := read_uint w32 (true, file) None in
  if n is Some n then load_loop ns nf (LState None None c0 [::] [::] (fun _ _ => c0)) s (iota 0 n) [::]
  else UB.

End UMat.

(* ---- the vertex list ---- *)
Section Container.
Variable Tm : eqType.
Notation vx := (vertex Tm).

(* U_matrix.h:443-455 — push_back: the error object is built but not thrown. *)
Definition cont_push_back (l : seq vx) (x : vx) : outcome (seq vx) :=
  let equal_time := has (fun v => v_time v == v_time x) l in
  if equal_time then Ok (rcons l x) else Ok (rcons l x).
(* U_matrix.h:420-426 — num_interacting. *)
Definition num_interacting (l : seq vx) : nat :=
  foldl (fun c v => if ~~ v_non v then c.+1 else c) 0%N l.
End Container.

(* util.h:83-95 — remove_elements_from_vector: [ipos] counts the original elements, the
   rest of the vector from the iterator on is the list. *)
Fixpoint remove_elements_from (A : Type) (ipos : nat) (l : seq A) (rem : seq nat) : seq A :=
  if l is x :: l' then
    if ipos \in rem then remove_elements_from ipos.+1 l' rem
    else x :: remove_elements_from ipos.+1 l' rem
  else [::].
(* util.h:82-95 — remove_elements_from_vector. *)
Definition remove_elements (A : Type) (l : seq A) (rem : seq nat) : seq A := remove_elements_from 0 l rem.

(* util.h:60-79 — pickup_a_few_numbers; [draws] are the values static_cast<int>(r*N) of the
   successive random numbers.  The inner loop: next value whose flag is not set. *)
Fixpoint draw_free (flag : seq bool) (draws : seq nat) : outcome (nat * seq nat) :=
  if draws is d :: ds then
    if (size flag <= d)%N then UB
    else if nth false flag d then draw_free flag ds else Ok (d, ds)
  else Diverge.
(* util.h:64-77 — the loop over i. *)
Fixpoint pickup_loop (flag : seq bool) (l : seq nat) (n : nat) (draws : seq nat) : outcome (seq nat * seq nat) :=
  if n is n'.+1 then
    obind (draw_free flag draws) (fun x =>
    pickup_loop (set_nth false flag x.1 true) (rcons l x.1) n' x.2)
  else Ok (l, draws).
(* util.h:60-79 — pickup_a_few_numbers. *)
Definition pickup_a_few_numbers (N n : nat) (draws : seq nat) : outcome (seq nat * seq nat) :=
  pickup_loop (nseq N false) [::] n draws.

(* U_matrix.h:779-814 — pick_up_itime_vertices: positions of n of the vertices that satisfy
   the predicate. *)
Definition pick_up_itime_vertices (V : Type) (v0 : V) (vs : seq V) (p : pred V) (n : nat) (draws : seq nat)
  : outcome (seq nat * seq nat) :=
  let na := count p vs in
  if (na < n)%N then Ok ([::], draws)
  else
    let pos := foldl (fun ps iv => if p (nth v0 vs iv) then rcons ps iv else ps) [::] (iota 0 (size vs)) in
    obind (pickup_a_few_numbers na n draws) (fun x => Ok ([seq nth 0%N pos i | i <- x.1], x.2)).

(* ---- dump and load of a configuration ---- *)

(* A time is a non-negative double m / 2^k, given as (m, k) (U_matrix.h:386, 399). *)
Definition dbl := (N * N)%type.
(* std::ostream << double with the default precision of six significant digits (%g): the
   decimal q * 10^e, q rounded to nearest, ties to even.  Trailing zeros and the choice
   between fixed and scientific notation do not matter for the value (U_matrix.h:889). *)
Fixpoint scale_up (fuel : nat) (num den : N) (e : BinNums.Z) : N * BinNums.Z :=
  if fuel is f.+1 then
    if (num <? 100000 * den)%num then scale_up f (10 * num) den (Z.sub e (Zpos xH)) else (num, e)
  else (num, e).
(* U_matrix.h:889 — the exponent of a number below one. *)
Fixpoint scale_down (fuel : nat) (num den : N) (e : BinNums.Z) : N * BinNums.Z :=
  if fuel is f.+1 then
    if (1000000 * den <=? num)%num then scale_down f num (10 * den) (Z.add e (Zpos xH)) else (den, e)
  else (den, e).
(* U_matrix.h:889 — to six digits. *)
Definition round_even (num den : N) : N :=
  let q := (num / den)%num in
  let r2 := (2 * (num mod den))%num in
  if (den <? r2)%num || ((den =? r2)%num && N.odd q) then (q + 1)%num else q.
(* U_matrix.h:889 — os << it->time(). *)
Definition print6 (t : dbl) : N * BinNums.Z :=
  if (t.1 =? 0)%num then (0%num, Z0)
  else
    let den0 := (2 ^ t.2)%num in
    let: (num, e) := scale_up 400 t.1 den0 Z0 in
    let: (den, e') := scale_down 400 num den0 e in
    let q := round_even num den in
    if (1000000 <=? q)%num then (100000%num, Z.add e' (Zpos xH)) else (q, e').

Section Config.
Variables (F : numFieldType) (Tm : eqType) (Dec : Type).
Variables (print : Tm -> Dec) (parse : Dec -> Tm).
Variable U : seq (vdef F).
(* what dump writes between white space: integers and a number in decimal form (U_matrix.h:886-889) *)
Inductive ctok := CInt of nat | CDec of Dec.

(* U_matrix.h:882-892 — dump (the message to std::cout is left out). *)
Definition dump (vs : seq (vertex Tm)) : seq ctok :=
  CInt (size vs) ::
  (foldl (fun acc v => (acc.1 ++ [:: CInt acc.2; CInt (v_type v); CInt (v_af v); CDec (print (v_time v))],
                        acc.2.+1)) ([::], 0%N) vs).1.

(* U_matrix.h:855-871 — load_config.  A file of another shape leaves uninitialised
   variables and is not distinguished further. *)
Fixpoint load_rows (n : nat) (l : seq ctok) (vs : seq (vertex Tm)) : outcome (seq (vertex Tm)) :=
  if n is n'.+1 then
    match l with
    | CInt _ :: CInt ty :: CInt af :: CDec t :: l' =>
        if (ty < size U)%N then
          obind (cont_push_back vs (ty, af, parse t, false, 0%N)) (fun vs' => load_rows n' l' vs')
        else UB
    | _ => UB
    end
  else Ok vs.
(* U_matrix.h:855-871 — load_config. *)
Definition load_config (l : seq ctok) : outcome (seq (vertex Tm)) :=
  if l is CInt n :: l' then if n == 0%N then Ok [::] else load_rows n l' [::] else UB.
End Config.
