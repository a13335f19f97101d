(* Property theorems: C47 (binning in imaginary time). *)
From Coq Require Import ZArith SpecFloat.
From mathcomp Require Import all_ssreflect order ssralg ssrnum ssrint rat intdiv.
From mathcomp Require Import zify.
From mathcomp.algebra_tactics Require Import ring.
From Verif Require Import Outcome GreenModel GreenProofs BinModel.

Set Implicit Arguments.
Unset Strict Implicit.
Unset Printing Implicit Defensive.

Local Open Scope ring_scope.
Import Order.TTheory GRing.Theory Num.Theory.

(* ------------------------------------------------------------ specification *)

(* whole periods in a time, the time within its period, the sign of the antiperiodic function *)
Definition periods (beta t : rat) : int := (numq (t / beta) %/ denq (t / beta))%Z.
Definition wrapped (beta t : rat) : rat := t - beta * (periods beta t)%:~R.
Definition odd_period (beta t : rat) : bool := odd `|periods beta t|.
Definition in_bin (beta : rat) (n b : nat) (t : rat) : bool :=
  (b%:R * (beta / n%:R) <= wrapped beta t) && (wrapped beta t < b.+1%:R * (beta / n%:R)).

Lemma periods_image (beta t : rat) (k : int) : 0 < beta -> 0 <= t - beta * k%:~R < beta -> periods beta t = k.
Proof.
move=> b0 /andP[h1 h2]; have := floor_ok (t / beta); rewrite -/(periods beta t) => /andP[h3 h4].
rewrite ler_pdivl_mulr // in h3; rewrite ltr_pdivr_mulr // in h4.
have k1 : beta * k%:~R < beta * (periods beta t + 1)%:~R.
  by apply: le_lt_trans (_ : t < _); [rewrite -subr_ge0|rewrite mulrC].
have k2 : beta * (periods beta t)%:~R < beta * (k + 1)%:~R.
  rewrite mulrC; apply: le_lt_trans h3 _.
  by rewrite rmorphD /= mulrDr mulr1 -ltr_subl_addl.
move: k1 k2; rewrite !ltr_pmul2l // !ltr_int; move: (periods beta t) => m; clear; lia.
Qed.

Lemma int32_le (b n : nat) : (b <= n)%N -> is_int32 n -> is_int32 b.
Proof.
move=> h; have h' : (b%:Z <= n%:Z) by rewrite lez_nat.
rewrite /is_int32; move: two31 => m /andP[h1 h2]; rewrite (le_lt_trans h' h2) andbT.
have m0 : 0 <= m by apply: le_trans (ltW h2).
by apply: le_trans (_ : - m <= 0) _; rewrite ?oppr_le0.
Qed.

Section Exact.
Variables (beta : rat) (n : nat) (time shift : rat).
Hypotheses (b0 : 0 < beta) (n0 : (0 < n)%N) (t0 : 0 <= time < beta) (s0 : 0 <= shift < beta).

Lemma shifted_exact : @shifted exact beta time shift = wrapped beta (time + shift) /\
  @bin_sign exact beta time shift = odd_period beta (time + shift) /\ 0 <= wrapped beta (time + shift) < beta.
Proof.
rewrite /shifted /bin_sign /= /wrapped /odd_period.
case/andP: t0 => h1 h2; case/andP: s0 => h3 h4.
case: ltP => h.
  have r : 0 <= time + shift - beta * 0%:~R < beta by rewrite mulr0 subr0 addr_ge0.
  by rewrite (periods_image b0 r); move: r; rewrite mulr0 subr0.
have r : 0 <= time + shift - beta * 1%:~R < beta.
  by rewrite mulr1 subr_ge0 h /= ltr_subl_addl ltr_add.
by rewrite (periods_image b0 r); move: r; rewrite mulr1.
Qed.

Lemma bin_exact : is_int32 n -> exists b, [/\ @bin_index exact beta n time shift = Some b%:Z, (b < n)%N &
  forall b', in_bin beta n b' (time + shift) = (b' == b)].
Proof.
move=> n31; have [e [_ /andP[h1 h2]]] := shifted_exact.
rewrite /bin_index e /bin_width /= Nnat.Nat2N.id /in_bin.
set w := wrapped _ _ in e h1 h2 *; set d := beta / n%:R.
have nr : 0 < n%:R :> rat by rewrite ltr0n.
have d0 : 0 < d by rewrite divr_gt0.
have q0 : 0 <= w / d by rewrite divr_ge0 // ltW.
have [k0 k1 k2] := trunc_pos q0.
case ek: (truncq (w / d)) k0 k1 k2 => [b|//] _ k1 k2.
rewrite ler_pdivl_mulr // in k1; rewrite ltr_pdivr_mulr // in k2.
have bn : (b < n)%N.
  rewrite -(ltr_nat [numDomainType of rat]) -(ltr_pmul2r d0); apply: le_lt_trans k1 _.
  by rewrite /d mulrCA divff ?mulr1 // lt0r_neq0.
have -> : is_int32 b.
  exact: int32_le (ltnW bn) n31.
exists b; split=> // b'; apply/andP/eqP => [[j1 j2]|->].
  have l1 : (b' < b.+1)%N.
    rewrite -(ltr_nat [numDomainType of rat]) -(ltr_pmul2r d0); apply: le_lt_trans j1 _.
    by move: k2; rewrite -[Posz b + 1]/(Posz (b + 1)) addn1.
  have l2 : (b < b'.+1)%N.
    by rewrite -(ltr_nat [numDomainType of rat]) -(ltr_pmul2r d0); apply: le_lt_trans k1 _.
  by move: l1 l2; clear; lia.
split; first exact: k1.
by move: k2; rewrite -[Posz b + 1]/(Posz (b + 1)) addn1.
Qed.
End Exact.

(* ------------------------------------------------------------------ C47 *)

(* In exact arithmetic the bin is inside the histogram; it is the one bin that holds the
   shifted time within its period. *)
Theorem C47_exact_partial :
  forall (beta : rat) (n : nat) (time shift : rat),
    0 < beta -> (0 < n)%N -> is_int32 n -> 0 <= time < beta -> 0 <= shift < beta ->
    exists b, [/\ @bin_index exact beta n time shift = Some b%:Z, (b < n)%N &
      forall b', in_bin beta n b' (time + shift) = (b' == b)].
Proof. by move=> beta n time shift b0 n0 n31 t0 s0; exact: bin_exact. Qed.
Print Assumptions C47_exact_partial.

(* With binary64 arithmetic it is not: for beta = 1.7 and the default number of 10000 bins,
   two drawn times below beta lead to bin 10000, one past the end. *)
Theorem C47_refuted :
  exists (beta : ar_num binary64) (k1 k2 : N),
    let time := drawn_time beta k1 in
    let shift := drawn_time beta k2 in
    [/\ beta = SFdiv 53 1024 (binary_normalize 53 1024 17 0 false) (binary_normalize 53 1024 10 0 false),
        N.ltb k1 (N.pow 2 32) && N.ltb k2 (N.pow 2 32),
        @ar_lt binary64 time beta && @ar_lt binary64 shift beta,
        @ar_lt binary64 (shifted beta time shift) beta &
        @bin_index binary64 beta 10000 time shift = Some 10000%N%:Z].
Proof.
exists (SFdiv 53 1024 (binary_normalize 53 1024 17 0 false) (binary_normalize 53 1024 10 0 false)),
  1520433558%num, 2774533738%num.
by split; vm_compute.
Qed.
Print Assumptions C47_refuted.

(* ------------------------------------------------------------ the whole measurement *)

Section Stau.
Variable K : numFieldType.
Variables (g0 : rat -> nat -> nat -> nat -> K) (sign : K) (beta : rat) (n_site n_bins : nat).
Local Notation table := (nat -> nat -> nat -> nat -> K).

(* the contribution of the q-th creation operator of one flavor for one shift *)
Definition contribution (z : nat) (d : flavor_data K) (walks : nat) (shift : rat) (q : nat) (s1 s2 b : nat) : K :=
  let c := nth (0%N, 0) (fd_creat d) q in
  if [&& c.1 == s1, (s2 < n_site)%N & in_bin beta n_bins b (c.2 + shift)] then
    (-1) ^+ odd_period beta (c.2 + shift) * (sign / ratr (beta / n_bins%:R * walks%:R)) *
    \sum_(0 <= p < size (fd_annih d)) fd_M d q p *
      g0 ((nth (0%N, 0) (fd_annih d) p).2 + shift) z (nth (0%N, 0) (fd_annih d) p).1 s2
  else 0.

Lemma foldl_add (F : nat -> K) l a : foldl (fun acc p => acc + F p) a l = a + \sum_(p <- l) F p.
Proof. by elim: l a => [|x l ih] a /=; rewrite ?big_nil ?addr0 // ih big_cons addrA. Qed.

Lemma M_gRE z (d : flavor_data K) shift q s2 : M_gR g0 z d shift q s2 =
  \sum_(0 <= p < size (fd_annih d)) fd_M d q p *
      g0 ((nth (0%N, 0) (fd_annih d) p).2 + shift) z (nth (0%N, 0) (fd_annih d) p).1 s2.
Proof. by rewrite /M_gR foldl_add add0r /index_iota subn0. Qed.

Lemma foldl_tadd (S : table) z s1 b (F : nat -> K) l z' s1' s2' b' : uniq l ->
  foldl (fun S s2 => tadd S z s1 s2 b (F s2)) S l z' s1' s2' b' =
  S z' s1' s2' b' + (if [&& z' == z, s1' == s1, s2' \in l & b' == b] then F s2' else 0).
Proof.
elim: l S => [|x l ih] S /=; first by rewrite ?in_nil !andbF addr0.
case/andP=> nin ul; rewrite ih // /tadd in_cons.
case: (z' =P z) => [_|_] /=; last by rewrite !addr0.
case: (s1' =P s1) => [_|_] /=; last by rewrite !addr0.
case: (b' =P b) => [_|_]; rewrite ?andbF ?andbT /= ?addr0 //.
by case: (eqVneq s2' x) => [->|_] //=; rewrite (negbTE nin) addr0.
Qed.

Lemma obfold_sum (T : eqType) (f : table -> T -> outcome table) (D : T -> table) l S :
  (forall S x, x \in l -> exists2 S', f S x = Ok S' & forall a b c d, S' a b c d = S a b c d + D x a b c d) ->
  exists2 S', obfold f S l = Ok S' & forall a b c d, S' a b c d = S a b c d + \sum_(x <- l) D x a b c d.
Proof.
elim: l S => [|x l ih] S h /=; first by exists S => // a b c d; rewrite big_nil addr0.
have [S1 -> h1] := h S x (mem_head _ _).
have [|S2 /= -> h2] := ih S1; first by move=> S3 y hy; apply: h; rewrite in_cons hy orbT.
by exists S2 => // a b c d; rewrite h2 h1 big_cons addrA.
Qed.

Hypotheses (b0 : 0 < beta) (n0 : (0 < n_bins)%N) (n31 : is_int32 n_bins).

Definition op_ok (c : nat * rat) : bool := (c.1 < n_site)%N && (0 <= c.2 < beta).

Lemma bin_creator_ok z d walks shift S q : all op_ok (fd_creat d) -> (q < size (fd_creat d))%N -> 0 <= shift < beta ->
  exists2 S', bin_creator g0 sign beta n_site n_bins z d walks shift S q = Ok S' &
  forall z' s1 s2 b, S' z' s1 s2 b = S z' s1 s2 b + (if z' == z then contribution z d walks shift q s1 s2 b else 0).
Proof.
move=> hc lq hs; have /andP[c1 c2] := all_nthP (0%N, 0) hc q lq.
rewrite /bin_creator /contribution; set c := nth (0%N, 0) (fd_creat d) q in c1 c2 *.
have [_ [esg _]] := shifted_exact b0 c2 hs.
have [b [-> bn hb]] := bin_exact b0 n0 c2 hs n31; rewrite c1 ltz_nat bn /=.
eexists; first reflexivity; move=> z' s1 s2 b'.
rewrite foldl_tadd ?iota_uniq // mem_iota /= add0n M_gRE hb esg; congr (_ + _).
rewrite [s1 == _]eq_sym /bin_width /= Nnat.Nat2N.id.
case: (z' =P z) => [_|_] //=; case: ifP => // _.
by case: (odd_period _ _); rewrite ?expr1 ?expr0.
Qed.

Lemma bin_flavor_ok z d shifts S : all op_ok (fd_creat d) -> all (fun s => 0 <= s < beta) shifts ->
  exists2 S', bin_flavor g0 sign beta n_site n_bins shifts S (z, d) = Ok S' &
  forall z' s1 s2 b, S' z' s1 s2 b = S z' s1 s2 b + (if z' == z then
    \sum_(s <- shifts) \sum_(0 <= q < size (fd_creat d)) contribution z d (size shifts) s q s1 s2 b else 0).
Proof.
move=> hc hs; rewrite /bin_flavor /=.
case ec: (fd_creat d) => [|c0 cs].
  exists S => // z' s1 s2 b; case: eqP => _; rewrite ?addr0 //.
  by rewrite big1 ?addr0 // => s _; rewrite big_nil.
rewrite -ec.
have [|S' -> h] := @obfold_sum _ (fun S shift => obfold (bin_creator g0 sign beta n_site n_bins z d (size shifts) shift) S (iota 0 (size (fd_creat d))))
  (fun s z' s1 s2 b => if z' == z then \sum_(0 <= q < size (fd_creat d)) contribution z d (size shifts) s q s1 s2 b else 0) shifts S.
- move=> S1 s hin; have s0 := allP hs s hin.
  have [|S2 -> h] := @obfold_sum _ (bin_creator g0 sign beta n_site n_bins z d (size shifts) s)
    (fun q z' s1 s2 b => if z' == z then contribution z d (size shifts) s q s1 s2 b else 0) (iota 0 (size (fd_creat d))) S1.
  + by move=> S3 q; rewrite mem_iota /= add0n => lq; exact: bin_creator_ok.
  exists S2 => // z' s1 s2 b; rewrite h /index_iota subn0; case: eqP => // _.
  by rewrite big1.
exists S' => // z' s1 s2 b; rewrite h; case: eqP => // _; by rewrite big1.
Qed.

End Stau.

(* compute_Stau adds every creation operator, for every shift, to exactly one bin of its
   site: the one that holds its shifted time within the period, with the sign of the
   antiperiodic continuation; all other entries stay 0. *)
Theorem C47_Stau :
  forall (K : numFieldType) (g0 : rat -> nat -> nat -> nat -> K) (sign : K) (beta : rat) (n_site n_bins : nat)
    (shifts : seq rat) (flavors : seq (flavor_data K)),
    0 < beta -> (0 < n_bins)%N -> is_int32 n_bins ->
    all (fun s => 0 <= s < beta) shifts ->
    all (fun d => all (op_ok beta n_site) (fd_creat d)) flavors ->
    exists2 S, compute_Stau g0 sign beta n_site n_bins shifts flavors = Ok S &
    forall z s1 s2 b, S z s1 s2 b =
      if (z < size flavors)%N then
        let d := nth (FlavorData [::] [::] (fun _ _ => 0)) flavors z in
        \sum_(s <- shifts) \sum_(0 <= q < size (fd_creat d))
          contribution g0 sign beta n_site n_bins z d (size shifts) s q s1 s2 b
      else 0.
Proof.
move=> K g0 sign beta n_site n_bins shifts flavors b0 n0 n31 hs hf.
have H (l : seq (flavor_data K)) k S : all (fun d => all (op_ok beta n_site) (fd_creat d)) l ->
  exists2 S', obfold (bin_flavor g0 sign beta n_site n_bins shifts) S (zip (iota k (size l)) l) = Ok S' &
  forall z s1 s2 b, S' z s1 s2 b = S z s1 s2 b +
    (if (k <= z < k + size l)%N then
        let d := nth (FlavorData [::] [::] (fun _ _ => 0)) l (z - k) in
        \sum_(s <- shifts) \sum_(0 <= q < size (fd_creat d))
          contribution g0 sign beta n_site n_bins z d (size shifts) s q s1 s2 b else 0).
  elim: l k S => [|d l ih] k S /=.
    move=> _; exists S => // z s1 s2 b; rewrite addn0 ltnNge andbN addr0 //.
  case/andP=> hd hl; have [S1 -> h1] := bin_flavor_ok g0 sign b0 n0 n31 k S hd hs.
  have [S2 /= -> h2] := ih k.+1 S1 hl; exists S2 => // z s1 s2 b.
  rewrite h2 h1 -addrA addSnnS; congr (_ + _); case: (ltngtP k z) => [lt|gt|->].
  - by rewrite /= add0r; have -> : (z - k = (z - k.+1).+1)%N by lia.
  - by rewrite /= addr0.
  - have e1 : (z < z + (size l).+1)%N by lia.
    by rewrite e1 /= subnn addr0.
have [S e h] := H flavors 0%N (fun _ _ _ _ => 0) hf.
by exists S => // z s1 s2 b; rewrite h add0r add0n subn0.
Qed.
Print Assumptions C47_Stau.

(* ------------------------------------------------------------------ examples *)

Lemma int32_three : is_int32 3%N.
Proof. by rewrite /is_int32; move: two31_gt3; move: two31 => t; clear; lia. Qed.

(* beta = 2, three bins: time 3/2 shifted by 1 wraps to 1/2, in bin 0 of an odd period *)
Example C47_ex : @bin_index exact 2%:R 3 (3%:R / 2%:R) 1 = Some 0%N%:Z /\
  @bin_sign exact 2%:R (3%:R / 2%:R) 1 && odd_period 2%:R (3%:R / 2%:R + 1).
Proof.
split; last by rewrite /bin_sign /=; vm_compute.
have [||||b [-> _ h]] := @C47_exact_partial 2%:R 3 (3%:R / 2%:R) 1 _ _ int32_three; try by vm_compute.
have e : in_bin 2%:R 3 0 (3%:R / 2%:R + 1) by vm_compute.
by move: (h 0%N); rewrite e => /esym/eqP <-.
Qed.

(* one flavor, two sites, one creation operator at site 1 and time 3/2, shifts 0 and 1 *)
Definition ex_d : flavor_data [numFieldType of rat] :=
  FlavorData [:: (0%N, 1 / 2%:R)] [:: (1%N, 3%:R / 2%:R)] (fun _ _ => 3%:R).
Example C47_ex_Stau :
  exists2 S, compute_Stau (fun _ _ _ s => s.+1%:R : rat) 1 2%:R 2 3 [:: 0; 1] [:: ex_d] = Ok S &
  [/\ S 0%N 1%N 0%N 2%N = 9%:R / 4%:R, S 0%N 1%N 1%N 2%N = 9%:R / 2%:R,
      S 0%N 1%N 1%N 0%N = - (9%:R / 2%:R), S 0%N 1%N 1%N 1%N = 0 & S 0%N 0%N 1%N 0%N = 0].
Proof.
have [||||S e h] := @C47_Stau [numFieldType of rat] (fun _ _ _ s => s.+1%:R : rat) 1 2%:R 2 3 [:: 0; 1] [:: ex_d] _ _ int32_three.
1-4: by vm_compute.
exists S; first exact: e.
split; rewrite h; clear; rewrite /contribution unlock; apply/eqP; by vm_compute.
Qed.
