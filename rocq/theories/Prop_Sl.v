(* Property theorems: C66 (the Legendre measurement) and C67 (from the measured bins to the
   stored Legendre coefficients and Matsubara values). *)
From mathcomp Require Import all_ssreflect order ssralg ssrnum ssrint rat poly algC.
From mathcomp Require Import zify.
From mathcomp.algebra_tactics Require Import ring.
From Verif Require Import Outcome GreenModel BinModel Prop_Bin LegendreModel LegendreSpec LegendreProofs DensModel DensProofs SlModel SlProofs.

Set Implicit Arguments.
Unset Strict Implicit.
Unset Printing Implicit Defensive.

Local Open Scope ring_scope.
Import Order.TTheory GRing.Theory Num.Theory.

(* C66.  Both versions of the Legendre measurement add, for every shift and creation operator,
   the antiperiodic sign times the normalized polynomial at the wrapped time times (M G0) to
   the entry of the operator's site, and nothing else.  In particular they agree. *)
Theorem C66_Sl :
  forall (K : numFieldType) (g0 : rat -> nat -> nat -> nat -> K) (sign : K) (beta : rat) (n_site n : nat)
    (sqrt : K -> K) (shifts : seq rat) (flavors : seq (flavor_data K)),
    0 < beta -> (0 < n)%N -> sqrt 1 = 1 ->
    all (fun s => 0 <= s < beta) shifts ->
    all (fun d => all (op_ok beta n_site) (fd_creat d)) flavors ->
    exists2 t, legendre_new sqrt n = Ok t &
    exists S S', [/\ compute_Sl g0 sign beta n_site t shifts flavors = Ok S,
      compute_Sl_optimized g0 sign beta n_site t shifts flavors = Ok S' &
    forall z s1 s2 l, S z s1 s2 l = S' z s1 s2 l /\ S z s1 s2 l =
      if (z < size flavors)%N && (l < n)%N then
        let d := nth (FlavorData [::] [::] (fun _ _ => 0)) flavors z in
        \sum_(s <- shifts) \sum_(0 <= q < size (fd_creat d))
          sl_term g0 sign beta n_site z d (size shifts) s q s1 s2 (phi sqrt l (x_of beta s d q))
      else 0].
Proof.
move=> K g0 sign beta n_site n sqrt shifts flavors b0 n0 s1 hs hf.
have [t et [h1 h2 h3 h4 h5]] := legendre_newP sqrt n0; exists t => //.
have hsq l : (l < n)%N -> nth 0 (lg_sqrt t) l = sqrt (2 * l + 1)%N%:R.
  move=> hl; rewrite h5 //; case: eqP => [->|_]; first by rewrite muln0 add0n s1.
  by rewrite natrD natrM.
pose fd0 : flavor_data K := FlavorData [::] [::] (fun _ _ => 0).
have hP z : (z < size flavors)%N -> all (op_ok beta n_site) (fd_creat (nth fd0 flavors z)).
  by move=> hz; apply: (all_nthP fd0 hf).
pose D z d s1 s2 l := if (l < n)%N then \sum_(s <- shifts) \sum_(0 <= q < size (fd_creat d))
          sl_term g0 sign beta n_site z d (size shifts) s q s1 s2 (phi sqrt l (x_of beta s d q)) else 0.
have [|S eS hS] := @flavors_fold K (fun d => all (op_ok beta n_site) (fd_creat d)) (sl_flavor g0 sign beta n_site t shifts) D flavors _ hP.
  by move=> z d S hd; exact: (sl_flavor_ok g0 sign b0 h1 h2 h3 h4 hsq).
have [|S' eS' hS'] := @flavors_fold K (fun d => all (op_ok beta n_site) (fd_creat d)) (opt_flavor g0 sign beta n_site t shifts) D flavors _ hP.
  by move=> z d S' hd; exact: (opt_flavor_ok g0 sign b0 h1 h2 h3 h4 hsq).
exists S, S'; split=> // z a b l; rewrite hS hS'; split=> //.
by rewrite /D; case: (z < _)%N.
Qed.
Print Assumptions C66_Sl.

(* ------------------------------------------------------------ the evaluation *)

(* the centre of the bin that holds a time, on the interval from -1 to 1 *)
Definition bin_of (beta : rat) (n : nat) (t : rat) : nat := find (fun b => in_bin beta n b t) (iota 0 n).
Definition center (beta : rat) (n : nat) (t : rat) : rat := (2 * bin_of beta n t + 1)%N%:R / n%:R - 1.

Lemma bin_ofE beta n t b : (b < n)%N -> (forall b', in_bin beta n b' t = (b' == b)) -> bin_of beta n t = b.
Proof.
move=> hb h; rewrite /bin_of (@eq_find _ _ (pred1 b)); last by move=> x; rewrite h.
have e : nth 0%N (iota 0 n) b = b by rewrite nth_iota.
by rewrite -/(index b _) -{1}e index_uniq ?size_iota ?iota_uniq.
Qed.

(* The centre is off by at most half a bin. *)
Theorem C67_center :
  forall (beta : rat) (n : nat) (time shift : rat), 0 < beta -> (0 < n)%N -> is_int32 n ->
    0 <= time < beta -> 0 <= shift < beta ->
    `|center beta n (time + shift) - (2%:R * wrapped beta (time + shift) / beta - 1)| <= 1 / n%:R.
Proof.
move=> beta n time shift b0 n0 n31 t0 s0.
have [b [_ bn hb]] := bin_exact b0 n0 t0 s0 n31.
rewrite /center (bin_ofE bn hb); have := hb b; rewrite eqxx /in_bin => /andP[].
set w := wrapped _ _; have nr : 0 < n%:R :> rat by rewrite ltr0n.
have e1 : b.+1%:R = b%:R + 1 :> rat by rewrite -addn1 natrD.
have e2 : (2 * b + 1)%N%:R = 2%:R * b%:R + 1 :> rat by rewrite natrD natrM.
rewrite e1 e2 !mulrA ler_pdivr_mulr // ltr_pdivl_mulr // => l1 l2.
set x : rat := w * n%:R / beta.
have l1' : b%:R <= x by rewrite /x ler_pdivl_mulr.
have l2' : x < b%:R + 1 by rewrite /x ltr_pdivr_mulr.
have -> : (2%:R * b%:R + 1) / n%:R - 1 - (2%:R * w / beta - 1) = (2%:R * (b%:R - x) + 1) / n%:R.
  have bne : beta != 0 by rewrite gt_eqF.
  have nne : n%:R != 0 :> rat by rewrite gt_eqF.
  by rewrite /x; move: n%:R nne b%:R => N nne B; field; rewrite nne bne.
rewrite normrM [`|n%:R^-1|]gtr0_norm ?invr_gt0 // ler_pmul2r ?invr_gt0 //.
rewrite ler_norml; apply/andP; split.
  have e3 (y : rat) : 2%:R * y + 1 - -1 = 2%:R * (y + 1) by ring.
  rewrite -subr_ge0 e3 pmulr_rge0 // addrAC subr_ge0; exact: ltW.
by rewrite -[X in _ <= X]add0r ler_add2r pmulr_rle0 // subr_le0.
Qed.
Print Assumptions C67_center.

Section Evaluate.
Variable C : numClosedFieldType.
Variables (sqrt : C -> C) (bessel : nat -> nat -> C).

Lemma iota_rcons n : iota 0 n.+1 = rcons (iota 0 n) n.
Proof. by rewrite -[n.+1]addn1 iotaD cats1. Qed.

Lemma buildP (T : Type) (d : T) (f : nat -> outcome T) (g : nat -> T) n : (forall k, (k < n)%N -> f k = Ok (g k)) ->
  build f n = Ok [seq g k | k <- iota 0 n].
Proof.
move=> h; rewrite /build.
have [||s -> ->] := @obfoldP (seq T) (fun s k => obind (f k) (fun x => Ok (rcons s x)))
  (fun k s => s = [seq g j | j <- iota 0 k]) n [::] => //.
by move=> k s hk ->; rewrite (h k hk) [obind _ _]/=; eexists; first reflexivity; rewrite iota_rcons map_rcons.
Qed.

Lemma Tnl_rowE sg im n l : (l < n)%N -> nth 0 (Tnl_row sqrt bessel sg im n) l = sg * 'i ^+ l.+1 * sqrt (2 * l + 1)%N%:R * bessel l im.
Proof.
move=> hl; rewrite /Tnl_row.
have -> : foldl (fun (s : C * seq C) il => (s.1 * 'i, rcons s.2 (sg * s.1 * sqrt (2 * il + 1)%N%:R * bessel il im))) ('i, [::]) (iota 0 n)
  = ('i ^+ n.+1, [seq sg * 'i ^+ l.+1 * sqrt (2 * l + 1)%N%:R * bessel l im | l <- iota 0 n]).
  elim: (n) => [|k ih]; first by rewrite expr1.
  by rewrite iota_rcons -cats1 foldl_cat ih [foldl _ _ _]/= cats1 map_rcons -exprSr.
by rewrite (nth_map 0%N) ?size_iota // nth_iota.
Qed.

Lemma TnlE m n w l : (w < m)%N -> (l < n)%N ->
  nth 0 (nth [::] (Tnl sqrt bessel m n) w) l = (-1) ^+ w * 'i ^+ l.+1 * sqrt (2 * l + 1)%N%:R * bessel l w.
Proof.
move=> hw hl; rewrite /Tnl.
have -> : foldl (fun (s : C * seq (seq C)) im => (s.1 * -1, rcons s.2 (Tnl_row sqrt bessel s.1 im n))) (1, [::]) (iota 0 m)
  = ((-1) ^+ m, [seq Tnl_row sqrt bessel ((-1) ^+ w) w n | w <- iota 0 m]).
  elim: (m) => [|k ih]; first by rewrite expr0.
  by rewrite iota_rcons -cats1 foldl_cat ih [foldl _ _ _]/= cats1 map_rcons -exprSr.
by rewrite (nth_map 0%N) ?size_iota // nth_iota // add0n Tnl_rowE.
Qed.

(* the evaluation of given mean values *)
Lemma evaluateP (re im : seq C) (sg : C) beta nm nl nb : (0 < nl)%N -> sqrt 1 = 1 -> size re = nb -> size im = nb ->
  let Stau b := (nth 0 re b + 'i * nth 0 im b) / sg in
  let Sl l := \sum_(0 <= b < nb) phi sqrt l (bin_x C nb b) * Stau b * ratr (beta / nb%:R) in
  evaluate_binning sqrt bessel re im sg beta nm nl nb =
  Ok ([seq Stau b | b <- iota 0 nb], [seq Sl l | l <- iota 0 nl],
      [seq \sum_(0 <= l < nl) (-1) ^+ w * 'i ^+ l.+1 * sqrt (2 * l + 1)%N%:R * bessel l w * Sl l | w <- iota 0 nm]).
Proof.
move=> n0 sq1 hre him Stau Sl; rewrite /evaluate_binning.
rewrite (@buildP _ 0 _ Stau) /=; last by move=> k hk; rewrite /load_Stau (get_ok 0) ?hre //= (get_ok 0) ?him.
have [t -> [h1 h2 h3 h4 h5]] := legendre_newP sqrt n0; rewrite /=.
have hsq l : (l < nl)%N -> nth 0 (lg_sqrt t) l = sqrt (2 * l + 1)%N%:R.
  move=> hl; rewrite h5 //; case: eqP => [->|_]; first by rewrite muln0 add0n sq1.
  by rewrite natrD natrM.
have [vals e [v1 v2]] := legendre_values h1 h2 h4 [seq bin_x C nb ib | ib <- iota 0 nb].
rewrite size_map size_iota in e v1 v2; rewrite h1 in e; rewrite e /=.
rewrite (@buildP _ 0 _ Sl) /=.
  congr (Ok (_, _, _)); apply/eq_in_map => w; rewrite mem_iota /= add0n => hw.
  rewrite /post_Sw; apply: eq_big_nat => l /andP[_ hl].
  by rewrite TnlE // (nth_map 0%N) ?size_iota // nth_iota.
move=> l hl; rewrite /post_Sl.
have [||s -> ->] := @obfoldP C (fun acc ib => obind (get (lg_sqrt t) l) (fun s => obind (get2 vals l ib) (fun v => obind (get [seq Stau b | b <- iota 0 nb] ib) (fun x =>
    Ok (acc + s * v * x * ratr (beta / nb%:R))))))
  (fun k a => a = \sum_(0 <= b < k) phi sqrt l (bin_x C nb b) * Stau b * ratr (beta / nb%:R)) nb 0 => //.
  by rewrite big_nil.
move=> k a hk ->; rewrite (get_ok 0) ?h3 //= (get2_ok v1) //= (get_ok 0) ?size_map ?size_iota //=.
eexists; first reflexivity; rewrite big_nat_recr //= v2 // (nth_map 0%N) ?size_iota // nth_iota //.
by rewrite (nth_map 0%N) ?size_iota // nth_iota // add0n hsq.
Qed.

End Evaluate.

Section History.
Variable C : numClosedFieldType.
Variables (sqrt : C -> C) (bessel : nat -> nat -> C) (g0 : rat -> nat -> nat -> nat -> C) (beta : rat) (n_site nb : nat).
Local Notation fd0 := (FlavorData [::] [::] (fun _ _ => 0 : C)).

(* a measured configuration: sign, drawn shifts, flavors *)
Definition config := (C * (seq rat * seq (flavor_data C)))%type.
Definition config_ok (c : config) : bool :=
  all (fun s => 0 <= s < beta) c.2.1 && all (fun d => all (op_ok beta n_site) (fd_creat d)) c.2.2.

(* sum over the shifts and creation operators of one flavor of a configuration *)
Definition over_ops (c : config) (z : nat) (f : flavor_data C -> nat -> rat -> nat -> C) : C :=
  let d := nth fd0 c.2.2 z in
  \sum_(s <- c.2.1) \sum_(0 <= q < size (fd_creat d)) f d (size c.2.1) s q.

Definition stau_of (c : config) (z s1 s2 b : nat) : C :=
  over_ops c z (fun d walks s q => contribution g0 c.1 beta n_site nb z d walks s q s1 s2 b).

Hypotheses (b0 : 0 < beta) (n0 : (0 < nb)%N) (n31 : is_int32 nb).

Lemma measure_SlP c : config_ok c -> exists2 s, measure_Sl g0 beta n_site nb c.1 c.2.1 c.2.2 = Ok s &
  ss_sign s = 'Re c.1 /\ forall z s1 s2,
    ss_real s z s1 s2 = [seq 'Re (stau_of c z s1 s2 b) | b <- iota 0 nb] /\
    ss_imag s z s1 s2 = [seq 'Im (stau_of c z s1 s2 b) | b <- iota 0 nb].
Proof.
case/andP=> hs hf; rewrite /measure_Sl.
have [S -> h] := C47_Stau g0 c.1 b0 n0 n31 hs hf; eexists; first reflexivity.
have e z s1 s2 b : S z s1 s2 b = stau_of c z s1 s2 b.
  rewrite h /stau_of /over_ops; case: ltnP => // hz.
  by rewrite [nth fd0 _ _]nth_default //= big1 // => s _; rewrite big_nil.
by split=> // z s1 s2; split; apply: eq_map => b; rewrite e.
Qed.

Lemma measure_allP cs : all config_ok cs -> exists2 l, measure_Sl_all g0 beta n_site nb cs = Ok l &
  [/\ size l = size cs, \sum_(s <- l) ss_sign s = \sum_(c <- cs) 'Re c.1 &
  forall z s1 s2, [/\ all (fun v => size v == nb) [seq ss_real s z s1 s2 | s <- l],
    all (fun v => size v == nb) [seq ss_imag s z s1 s2 | s <- l] &
    forall b, (b < nb)%N -> \sum_(s <- l) nth 0 (ss_real s z s1 s2) b = \sum_(c <- cs) 'Re (stau_of c z s1 s2 b) /\
      \sum_(s <- l) nth 0 (ss_imag s z s1 s2) b = \sum_(c <- cs) 'Im (stau_of c z s1 s2 b)]].
Proof.
elim: cs => [|c cs ih] /=.
  by move=> _; exists [::] => //; split=> //; rewrite ?big_nil // => z s1 s2; split=> // b hb; rewrite !big_nil.
case/andP=> hc /ih [l -> [h1 h2 h3]]; have [s -> [e1 e2]] := measure_SlP hc.
exists (s :: l) => //; split; rewrite /= ?h1 // ?big_cons ?h2 ?e1 //.
move=> z s1 s2; have [a1 a2 a3] := h3 z s1 s2; have [r1 r2] := e2 z s1 s2.
rewrite a1 a2 r1 r2 !size_map size_iota eqxx; split=> // b hb; have [t1 t2] := a3 b hb.
by rewrite !big_cons t1 t2 r1 r2 !(nth_map 0%N) ?size_iota // nth_iota.
Qed.

Lemma bin_xE b : bin_x C nb b = ratr ((2 * b + 1)%N%:R / nb%:R - 1).
Proof.
have nne : (nb%:R : C) != 0 by rewrite pnatr_eq0 -lt0n.
rewrite rmorphB rmorph1 fmorph_div /= !ratr_nat /bin_x; congr (_ - 1).
have e2 : (2 * b + 1)%N%:R = 2%:R * b%:R + 1 :> C by rewrite natrD natrM.
rewrite e2; have two : 2%:R != 0 :> C by rewrite pnatr_eq0.
by move: two nne; move: (nb%:R : C) (b%:R : C) => N B two nne; field; rewrite nne.
Qed.

Lemma cancel_width (D W ph sg k M : C) : D != 0 -> ph * (sg * (k * (D^-1 * W)) * M) * D = sg * (k * W) * ph * M.
Proof. by move=> dne; field. Qed.

Lemma term_bins (c : config) z s q l s1 s2 : config_ok c -> s \in c.2.1 -> (q < size (fd_creat (nth fd0 c.2.2 z)))%N ->
  \sum_(0 <= b < nb) phi sqrt l (bin_x C nb b) * contribution g0 c.1 beta n_site nb z (nth fd0 c.2.2 z) (size c.2.1) s q s1 s2 b * ratr (beta / nb%:R) =
  sl_term g0 c.1 beta n_site z (nth fd0 c.2.2 z) (size c.2.1) s q s1 s2
    (phi sqrt l (ratr (center beta nb ((nth (0%N, 0) (fd_creat (nth fd0 c.2.2 z)) q).2 + s)))).
Proof.
case/andP=> hs hf hin; set d := nth fd0 _ _ => hq.
have s0 := allP hs s hin.
have hz : (z < size c.2.2)%N.
  by rewrite ltnNge; apply/negP => hz; move: hq; rewrite /d nth_default.
have /andP[_ c2] := all_nthP (0%N, 0) (all_nthP fd0 hf z hz) q hq.
have [b [_ bn hb]] := bin_exact b0 n0 c2 s0 n31.
rewrite (big_cat_nat _ _ _ (leq0n b) (ltnW bn)) /= (big_ltn bn) /=.
rewrite [X in X + _]big_nat_cond [X in X + _]big1; last first.
  move=> i; rewrite andbT => /andP[_ hi]; rewrite /contribution hb (ltn_eqF hi) !andbF.
  by rewrite mulr0 mul0r.
rewrite [X in _ + (_ + X)]big_nat_cond [X in _ + (_ + X)]big1; last first.
  move=> i; rewrite andbT => /andP[hi _]; rewrite /contribution hb (gtn_eqF hi) !andbF.
  by rewrite mulr0 mul0r.
rewrite add0r addr0 /contribution /sl_term hb eqxx andbT; case: ifP => _; last by rewrite mulr0 mul0r.
rewrite bin_xE /center (bin_ofE bn hb).
have dne : ratr (beta / nb%:R) != 0 :> C.
  by rewrite fmorph_eq0 mulf_neq0 ?invr_eq0 ?pnatr_eq0 -?lt0n // gt_eqF.
rewrite (rmorphM _ (beta / nb%:R)) /= ratr_nat invfM.
set M := \sum_(_ <= _ < _) _; set ph := phi _ _ _; set sg := (-1) ^+ _; set k := _^-1 in dne *.
move: dne; move: (ratr _) => D dne; move: (_ %:R^-1 : C) => W.
by rewrite cancel_width.
Qed.

Theorem C67_history nm nl (cs : seq config) : (0 < nl)%N -> sqrt 1 = 1 -> all config_ok cs ->
  \sum_(c <- cs) 'Re c.1 != 0 ->
  exists2 meas, measure_Sl_all g0 beta n_site nb cs = Ok meas & forall z s1 s2,
  exists Stau Sl Sw, [/\ postprocess_Sl sqrt bessel beta nm nl nb meas z s1 s2 = Ok (Stau, Sl, Sw),
    [/\ size Stau = nb, size Sl = nl & size Sw = nm],
    forall b, (b < nb)%N -> nth 0 Stau b =
      (\sum_(c <- cs) over_ops c z (fun d walks s q =>
         contribution g0 c.1 beta n_site nb z d walks s q s1 s2 b)) / (\sum_(c <- cs) 'Re c.1),
    forall l, (l < nl)%N -> nth 0 Sl l =
      (\sum_(c <- cs) over_ops c z (fun d walks s q =>
         sl_term g0 c.1 beta n_site z d walks s q s1 s2
           (phi sqrt l (ratr (center beta nb ((nth (0%N, 0) (fd_creat d) q).2 + s)))))) / (\sum_(c <- cs) 'Re c.1) &
    forall w, (w < nm)%N -> nth 0 Sw w =
      \sum_(0 <= l < nl) (-1) ^+ w * 'i ^+ l.+1 * sqrt (2 * l + 1)%N%:R * bessel l w * nth 0 Sl l].
Proof.
move=> hl sq1 ok nz; have [meas e [hsz hsg hz]] := measure_allP ok.
exists meas => // z s1 s2; have [a1 a2 a3] := hz z s1 s2.
set T := \sum_(c <- cs) _ in nz hsg *.
have cs0 : (0 < size cs)%N by move: nz; rewrite /T; case: (cs) => //; rewrite big_nil eqxx.
have ne f : [seq f s z s1 s2 | s <- meas] != [::] :> seq (seq C) by rewrite -size_eq0 size_map hsz -lt0n.
have [z1 m1] := mean_vecE (ne _) a1; have [z2 m2] := mean_vecE (ne _) a2.
rewrite /postprocess_Sl (evaluateP _ _ _ _ hl sq1 z1 z2) meanE size_map big_map hsg hsz.
have N0 : (size cs)%:R != 0 :> C by rewrite pnatr_eq0 -lt0n.
set Stau := fun b : nat => (nth 0 _ b + 'i * nth 0 _ b) / (T / _).
have eS b : (b < nb)%N -> Stau b = (\sum_(c <- cs) stau_of c z s1 s2 b) / T.
  move=> hb; rewrite /Stau m1 // m2 // !size_map !big_map hsz; have [-> ->] := a3 b hb.
  have -> : \sum_(c <- cs) stau_of c z s1 s2 b = \sum_(c <- cs) ('Re (stau_of c z s1 s2 b) + 'i * 'Im (stau_of c z s1 s2 b)).
    by apply: eq_bigr => c _; rewrite -Crect.
  rewrite big_split -mulr_sumr /=; move: N0 nz; clear; move: (_ %:R) T => N T' N0 nz.
  by move: (\sum_(_ <- _) _) (\sum_(_ <- _) _) 'i => A B I; field; rewrite N0 nz.
do 3 eexists; split; first reflexivity; rewrite ?size_map ?size_iota //.
- by move=> b hb; rewrite (nth_map 0%N) ?size_iota // nth_iota // add0n eS.
- move=> l hll; rewrite (nth_map 0%N) ?size_iota // nth_iota // add0n.
  rewrite (eq_big_nat _ _ (F2 := fun b => (\sum_(c <- cs) phi sqrt l (bin_x C nb b) * stau_of c z s1 s2 b * ratr (beta / nb%:R)) / T)); last first.
    move=> b /andP[_ hb]; rewrite -/(Stau b) eS // -mulr_suml -mulr_sumr; move: (\sum_(_ <- _) _) => A.
    by move: (phi _ _ _) (ratr _) T^-1 => a b' c; ring.
  rewrite -mulr_suml exchange_big /=; congr (_ / _); rewrite !(big_nth (0, ([::], [::]))); apply: eq_big_nat => i /andP[_ hi].
  set c := nth _ cs i; have cok : config_ok c := all_nthP _ ok i hi.
  rewrite /stau_of /over_ops.
  rewrite (eq_bigr (fun b => \sum_(s <- c.2.1) \sum_(0 <= q < size (fd_creat (nth fd0 c.2.2 z)))
     phi sqrt l (bin_x C nb b) * contribution g0 c.1 beta n_site nb z (nth fd0 c.2.2 z) (size c.2.1) s q s1 s2 b * ratr (beta / nb%:R))); last first.
    by move=> b _; rewrite mulr_sumr mulr_suml; apply: eq_bigr => s _; rewrite mulr_sumr mulr_suml.
  rewrite exchange_big /= big_seq [RHS]big_seq; apply: eq_bigr => s hs.
  by rewrite exchange_big /=; apply: eq_big_nat => q /andP[_ hq]; rewrite term_bins.
move=> w hw; rewrite (nth_map 0%N) ?size_iota // nth_iota //; apply: eq_big_nat => l /andP[_ hll].
by rewrite (nth_map 0%N) ?size_iota // nth_iota.
Qed.
End History.
Print Assumptions C67_history.

(* ------------------------------------------------------------------ examples *)

Section One.
Variables (K : numFieldType) (g m sign : K) (beta : rat) (n_site nb : nat) (ta tc : rat) (sa sc : nat).
Definition one_op : flavor_data K := FlavorData [:: (sa, ta)] [:: (sc, tc)] (fun _ _ => m).
Lemma one_sl z walks s s1 s2 (w : nat -> K) :
  \sum_(0 <= q < size (fd_creat one_op)) sl_term (fun _ _ _ _ => g) sign beta n_site z one_op walks s q s1 s2 (w q) =
  if (sc == s1) && (s2 < n_site)%N then (-1) ^+ odd_period beta (tc + s) * (sign / walks%:R) * w 0%N * (m * g) else 0.
Proof. by rewrite /= big_nat1 /sl_term /= big_nat1. Qed.
Lemma one_bin z walks s s1 s2 b :
  \sum_(0 <= q < size (fd_creat one_op)) contribution (fun _ _ _ _ => g) sign beta n_site nb z one_op walks s q s1 s2 b =
  if [&& sc == s1, (s2 < n_site)%N & in_bin beta nb b (tc + s)] then
    (-1) ^+ odd_period beta (tc + s) * (sign / ratr (beta / nb%:R * walks%:R)) * (m * g) else 0.
Proof. by rewrite /= big_nat1 /contribution /= big_nat1. Qed.
Lemma one_two n l (a b : rat) s1 s2 (w : rat -> nat -> K) :
  (if (0 < size [:: one_op])%N && (l < n)%N then
     let d := nth (FlavorData [::] [::] (fun _ _ => 0)) [:: one_op] 0 in
     \sum_(s <- [:: a; b]) \sum_(0 <= q < size (fd_creat d))
       sl_term (fun _ _ _ _ => g) sign beta n_site 0 d (size [:: a; b]) s q s1 s2 (w s q)
   else 0) =
  if (l < n)%N then if (sc == s1) && (s2 < n_site)%N then
    (-1) ^+ odd_period beta (tc + a) * (sign / 2%:R) * w a 0%N * (m * g) +
    (-1) ^+ odd_period beta (tc + b) * (sign / 2%:R) * w b 0%N * (m * g) else 0 else 0.
Proof.
rewrite [(0 < _)%N]/= andTb; case: (l < n)%N => //; cbv zeta.
have -> : nth (FlavorData [::] [::] (fun _ _ => 0)) [:: one_op] 0 = one_op by [].
rewrite [LHS]big_cons [X in _ + X]big_seq1 (one_sl _ _ _ _ _ (w a)) (one_sl _ _ _ _ _ (w b)).
by case: ifP => // _; rewrite addr0.
Qed.
End One.

(* the operators of C47_ex_Stau; the two shifts cancel at order 0 and add up at order 1 *)
Definition ex_op (K : numFieldType) : flavor_data K := one_op 3%:R (1 / 2%:R) (3%:R / 2%:R) 0 1.
Example C66_ex : exists2 t, legendre_new (fun x : rat => x) 2 = Ok t &
  exists S S', [/\ compute_Sl (fun _ _ _ _ => 1 : rat) 1 2%:R 2 t [:: 0; 1] [:: ex_op _] = Ok S,
    compute_Sl_optimized (fun _ _ _ _ => 1 : rat) 1 2%:R 2 t [:: 0; 1] [:: ex_op _] = Ok S' &
    [/\ S 0%N 1%N 0%N 0%N = 0, S 0%N 1%N 0%N 1%N = 9%:R / 2%:R, S' 0%N 1%N 0%N 1%N = 9%:R / 2%:R & S 0%N 0%N 0%N 1%N = 0]].
Proof.
have [|||||t et [S [S' [e e' h]]]] := @C66_Sl [numFieldType of rat] (fun _ _ _ _ => 1 : rat) 1 2%:R 2 2 id [:: 0; 1] [:: ex_op _].
1-5: by vm_compute.
exists t; first exact: et.
exists S, S'; split; [exact: e | exact: e' |].
have [<- _] := h 0%N 1%N 0%N 1%N.
have o0 : odd_period 2%:R (3%:R / 2%:R + 0) = false by vm_compute.
have o1 : odd_period 2%:R (3%:R / 2%:R + 1) = true by vm_compute.
have x0 : x_of 2%:R 0 (ex_op [numFieldType of rat]) 0 = 1 / 2%:R by apply/eqP; vm_compute.
have x1 : x_of 2%:R 1 (ex_op [numFieldType of rat]) 0 = - (1 / 2%:R) by apply/eqP; vm_compute.
have v s1 l : S 0%N s1 0%N l = if (l < 2)%N then if 1%N == s1 then 3%:R / 2%:R * (phi id l (1 / 2%:R) - phi id l (- (1 / 2%:R))) else 0 else 0.
  have [_ ->] := h 0%N s1 0%N l; rewrite [LHS](one_two _ _ _ _ _ _ _ _ _ 2 l 0 1 s1 0 (fun s q => phi id l (x_of 2%:R s (ex_op [numFieldType of rat]) q))).
  rewrite o0 o1 x0 x1 andbT; move: (phi _ _ _) (phi _ _ _); clear => a b.
  by case: (l < 2)%N; [case: (1%N == s1); [field |] |].
move: v; clear => v; split; rewrite v [(_ < _)%N]/= [_ == _]/= // /phi ?legendre0 ?legendre1 ?hornerC ?hornerX; by apply/eqP; vm_compute.
Qed.

(* beta = 2, three bins, one operator at time 3/2 shifted by 1: bin 0 of an odd period, whose
   centre is -2/3 (the exact position is -1/2) *)
Definition ex_c : config [numClosedFieldType of algC] := (1, ([:: 1], [:: ex_op _])).
Example C67_ex : exists2 meas, measure_Sl_all (fun _ _ _ _ => 2%:R) 2%:R 2 3 [:: ex_c] = Ok meas &
  exists Stau Sl Sw, postprocess_Sl sqrtC (fun l w => (l + w)%N%:R) 2%:R 1 2 3 meas 0 1 0 = Ok (Stau, Sl, Sw) /\
    [/\ nth 0 Stau 0 = - 9%:R, nth 0 Stau 1 = 0, nth 0 Sl 1 = 4%:R * sqrtC 3%:R & nth 0 Sw 0 = - 12%:R].
Proof.
have [||||meas e h] := @C67_history [numClosedFieldType of algC] sqrtC (fun l w => (l + w)%N%:R) (fun _ _ _ _ => 2%:R) 2%:R 2 3 _ isT int32_three 1 2 [:: ex_c] isT.
- by vm_compute.
- exact: sqrtC1.
- by vm_compute.
- by rewrite big_seq1 /= (Creal_ReP _ _) ?real1 // oner_eq0.
exists meas; first exact: e.
have [Stau [Sl [Sw [e1 _ h1 h2 h3]]]] := h 0%N 1%N 0%N.
exists Stau, Sl, Sw; split; first exact: e1.
clear e e1 h.
have r1 : \sum_(c <- [:: ex_c]) 'Re c.1 = 1 by rewrite big_seq1; apply/Creal_ReP/real1.
have o1 : odd_period 2%:R (3%:R / 2%:R + 1) = true by vm_compute.
have i0 : in_bin 2%:R 3 0 (3%:R / 2%:R + 1) = true by vm_compute.
have i1 : in_bin 2%:R 3 1 (3%:R / 2%:R + 1) = false by vm_compute.
have w : ratr (center 2%:R 3 (3%:R / 2%:R + 1)) = - (2%:R / 3%:R) :> algC.
  have -> : center 2%:R 3 (3%:R / 2%:R + 1) = - (2%:R / 3%:R) by apply/eqP; vm_compute.
  by rewrite rmorphN fmorph_div /= !ratr_nat.
have three : 3%:R != 0 :> algC by rewrite pnatr_eq0.
have two : 2%:R != 0 :> algC by rewrite pnatr_eq0.
have sl1 : nth 0 Sl 1 = 4%:R * sqrtC 3%:R.
  rewrite (h2 1%N isT) r1 divr1 big_seq1 /over_ops [LHS]big_seq1.
  rewrite [LHS](one_sl _ _ _ _ _ _ _ _ _ 0 1 1 1 0 (fun q => phi sqrtC 1 (ratr (center 2%:R 3 ((nth (0%N, 0) (fd_creat (nth (FlavorData [::] [::] (fun _ _ => 0 : algC)) ex_c.2.2 0)) q).2 + 1))))).
  rewrite [_ && _]/= o1 [nth _ _ _]/= [_.2]/= w /phi legendre1 hornerX.
  rewrite /ex_c [(_ < _)%N]/= /=.
  by move: three; move: (sqrtC _) => x three; field.
split; [| | exact: sl1 |].
- rewrite (h1 0%N isT) r1 divr1 big_seq1 /over_ops [LHS]big_seq1 [LHS](one_bin _ _ _ _ _ _ _ _ _ _ 0 1 1 1 0 0).
  rewrite i0 o1 [_ && _]/= mulr1 fmorph_div /ex_c /= !ratr_nat; field; rewrite ?three ?two ?pnatr_eq0 //.
- rewrite (h1 1%N isT) r1 divr1 big_seq1 /over_ops [LHS]big_seq1 [LHS](one_bin _ _ _ _ _ _ _ _ _ _ 0 1 1 1 0 1).
  by rewrite i1 !andbF.
rewrite (h3 0%N isT); move: sl1; clear => sl1.
rewrite big_ltn // big_nat1 sl1 addn0 mulr0 mul0r sqrCi.
have e := sqrtCK (3%:R : algC); move: e; move: (sqrtC _) => x e.
have -> : - 12%:R = - 4%:R * x ^+ 2 by rewrite e; ring.
by ring.
Qed.
