(* Property theorems: C49 (histograms, counters, rebinning). *)
From mathcomp Require Import all_ssreflect order ssralg ssrnum ssrint rat intdiv.
From mathcomp Require Import zify.
From mathcomp.algebra_tactics Require Import ring.
From Verif Require Import Outcome GreenModel GreenProofs LegendreModel LegendreProofs BinModel HistModel HistProofs.

Set Implicit Arguments.
Unset Strict Implicit.
Unset Printing Implicit Defensive.

Local Open Scope ring_scope.
Import Order.TTheory GRing.Theory Num.Theory.

(* ------------------------------------------------------------------ the order histogram *)

(* what was counted since the last clear *)
Definition counted (os : seq hist_op) : seq nat :=
  foldl (fun l o => match o with Count k => rcons l k | Clear => [::] end) [::] os.

(* Every entry is the number of times its order was counted since the last clear. *)
Theorem C49_histogram :
  forall (N : nat) (os : seq hist_op),
    let h := foldl hist_step (hist_new N) os in
    size h = N /\ forall k, nth 0%N h k = if (k < N)%N then count_mem k (counted os) else 0%N.
Proof.
move=> N os; elim/last_ind: os => [|os o [s1 h1]] /=.
  by rewrite size_nseq; split=> // k; rewrite nth_nseq; case: ifP.
rewrite /counted !foldl_rcons -/(counted os); move: (foldl hist_step _ _) s1 h1 => h s1 h1.
case: o => [k|] /=.
  rewrite size_count; split=> // i; rewrite nth_count h1 s1; case: (i < N)%N; rewrite ?andbF ?addn0 //.
  by rewrite -cats1 count_cat /= addn0 andbT eq_sym.
by rewrite clearP size_nseq; split=> // k; rewrite nth_nseq s1; case: ifP.
Qed.
Print Assumptions C49_histogram.

(* max_index is the first position of the largest entry; top_index the last non-zero one, or
   0 when all entries are 0. *)
Theorem C49_extremes :
  forall h : seq nat,
    [/\ forall i, (nth 0%N h i <= nth 0%N h (max_index h))%N,
        forall i, (i < max_index h)%N -> (nth 0%N h i < nth 0%N h (max_index h))%N,
        h <> [::] -> (max_index h < size h)%N,
        forall i, (top_index h < i)%N -> nth 0%N h i = 0%N &
        nth 0%N h (top_index h) <> 0%N \/ (top_index h = 0%N)].
Proof.
move=> h; have [a b c] := maxP h; have [d e] := topP h; split=> //.
  by move=> /eqP; exact: c.
by case: e => [/eqP|]; [left|right].
Qed.
Print Assumptions C49_extremes.

(* max, average and is_flat look at the entries below the given index; average(0) is 0/0. *)
Theorem C49_flatness :
  forall (h : seq nat) (n : nat), (n <= size h)%N ->
    [/\ exists2 m, hist_max h n = Ok m & (forall i, (i < n)%N -> (nth 0%N h i <= m)%N) /\
           ((exists2 i, (i < n)%N & m = nth 0%N h i) \/ m = 0%N),
        hist_average h n = Ok (if n == 0%N then None else Some ((\sum_(i < n) (nth 0%N h i)%:R) / n%:R)) &
        exists2 m, hist_max h n = Ok m & is_flat h n =
          Ok ((0 < n)%N && (4%:R / 5%:R * m%:R < (\sum_(i < n) (nth 0%N h i)%:R : rat) / n%:R))].
Proof.
move=> h n hn; split; last 1 first.
- rewrite /is_flat hist_maxP // hist_averageP //=; eexists; first reflexivity.
  case: n hn => [|n] hn //=; congr (Ok (_ < _)); rewrite mulrC; congr (_ * _).
- rewrite hist_maxP //; eexists; first reflexivity; split=> [i hi|].
    exact: (@leq_bigmax _ (fun i : 'I_n => nth 0%N h i) (Ordinal hi)).
  case: n hn => [|n] hn; first by right; rewrite big_ord0.
  have [|i ->] := @eq_bigmax _ (fun i : 'I_n.+1 => nth 0%N h i); first by rewrite card_ord.
  by left; exists i.
- exact: hist_averageP.
Qed.
Print Assumptions C49_flatness.

(* ------------------------------------------------------------------ counters *)

Definition acc_since (os : seq acc_op) : seq bool :=
  foldl (fun l o => match o with Accepted => rcons l true | Rejected => rcons l false | AccReset => [::] end) [::] os.

(* the rates are the fractions of accepted and rejected moves since the last reset, and 0/0
   when there was none *)
Theorem C49_rates :
  forall os : seq acc_op,
    let l := acc_since os in
    acc_result (foldl acc_step (0%N, 0%N) os) =
    if l is [::] then None
    else Some ((count_mem true l)%:R / (size l)%:R, (count_mem false l)%:R / (size l)%:R).
Proof.
move=> os /=; have -> : foldl acc_step (0%N, 0%N) os = (count_mem true (acc_since os), count_mem false (acc_since os)).
  elim/last_ind: os => [|os o ih] //; rewrite /acc_since !foldl_rcons -/(acc_since os) ih.
  by case: o => //=; rewrite -cats1 !count_cat /= ?addn0 ?addn1.
rewrite /acc_result /=; have -> : (count_mem true (acc_since os) + count_mem false (acc_since os) = size (acc_since os))%N.
  by rewrite -(count_predC (pred1 true)); congr (_ + _)%N; apply: eq_count; case.
by case: (acc_since os).
Qed.
Print Assumptions C49_rates.

(* an event of simple_update_statistcs, or None for reset *)
Definition simple_step (Nv : nat) (c : seq (seq rat)) (o : option (nat * nat)) : outcome (seq (seq rat)) :=
  match o with Some (iv, k) => simple_event c iv k | None => simple_reset Nv c end.
Fixpoint simple_run (Nv : nat) (c : seq (seq rat)) (os : seq (option (nat * nat))) : outcome (seq (seq rat)) :=
  if os is o :: os' then obind (simple_step Nv c o) (fun c' => simple_run Nv c' os') else Ok c.
Definition simple_since (os : seq (option (nat * nat))) : seq (nat * nat) :=
  foldl (fun l o => if o is Some e then rcons l e else [::]) [::] os.

Lemma simple_run_rcons Nv c os o : simple_run Nv c (rcons os o) = obind (simple_run Nv c os) (fun c' => simple_step Nv c' o).
Proof.
elim: os c => [|x os ih] c /=; first by case: (simple_step _ _ _).
by case: (simple_step _ _ _) => //= c'; rewrite ih.
Qed.

(* each of the four counters of each line holds the number of its events since the last reset *)
Theorem C49_simple :
  forall (Nv : nat) (os : seq (option (nat * nat))),
    all (fun o => if o is Some e then (e.1 < Nv)%N && (e.2 < 4)%N else true) os ->
    exists2 c, simple_run Nv (simple_new Nv) os = Ok c &
    forall iv, (iv < Nv)%N -> exists2 r, simple_result c iv = Ok r &
      size r = 4%N /\ forall k, (k < 4)%N -> nth 0 r k = (count_mem (iv, k) (simple_since os))%:R.
Proof.
move=> Nv os hos.
have [c -> [sc hc]] : exists2 c, simple_run Nv (simple_new Nv) os = Ok c & size c = Nv /\
    forall iv, (iv < Nv)%N -> size (nth [::] c iv) = 4%N /\ forall k, (k < 4)%N -> nth 0 (nth [::] c iv) k = (count_mem (iv, k) (simple_since os))%:R.
  elim/last_ind: os hos => [|os o ih] /=.
    move=> _; exists (simple_new Nv) => //; rewrite size_nseq; split=> // iv hiv.
    by rewrite nth_nseq hiv size_nseq; split=> // k hk; rewrite nth_nseq hk.
  rewrite all_rcons => /andP[ho hos]; have [c e [sc hc]] := ih hos.
  rewrite simple_run_rcons e /= /simple_since foldl_rcons -/(simple_since os).
  case: o ho => [[iv k]|] /=.
    case/andP=> hiv hk; have [s4 h4] := hc iv hiv.
    rewrite /simple_event (get_ok [::]) ?sc //= (get_ok 0) ?s4 //=.
    have [|r -> [r1 r2]] := @put_ok _ 0 (nth [::] c iv) k (nth 0 (nth [::] c iv) k + 1); first by rewrite s4.
    have [|c' /= -> [c1 c2]] := @put_ok _ [::] c iv r; first by rewrite sc.
    exists c' => //; rewrite c1; split=> // iv' hiv'; rewrite c2.
    have cnt k' : count_mem (iv', k') (rcons (simple_since os) (iv, k)) =
        (count_mem (iv', k') (simple_since os) + ((iv == iv') && (k == k')))%N.
      by rewrite -cats1 count_cat /= addn0.
    case: eqP => [e'|ne].
      rewrite r1 s4; split=> // k' hk'; rewrite cnt e' eqxx r2 [k == k']eq_sym; case: eqP => [->|_]; rewrite h4 ?addn0 //.
      by rewrite natrD.
    have [s5 h5] := hc iv' hiv'; split=> // k' hk'; rewrite cnt h5 //.
    have -> : (iv == iv') = false by apply/eqP => e'; apply: ne.
    by rewrite /= addn0.
  move=> _; rewrite /simple_reset.
  have [||c' -> [c1 c2 c3]] := @oloopP _ (fun iv c => obind (get c iv) (fun r => put c iv (nseq (size r) (0 : rat))))
    (fun i c' => [/\ size c' = Nv, (forall iv, (iv < i)%N -> (iv < Nv)%N -> nth [::] c' iv = nseq 4 0) & forall iv, (iv < Nv)%N -> size (nth [::] c' iv) = 4%N]) 0 Nv c.
  - by split=> // iv hiv; have [] := hc iv hiv.
  - move=> i c'; rewrite add0n => /andP[_ hi] [c1 c2 c3].
    rewrite (get_ok [::]) ?c1 //=; have [|c'' -> [d1 d2]] := @put_ok _ [::] c' i (nseq (size (nth [::] c' i)) 0); first by rewrite c1.
    exists c'' => //; rewrite d1; split=> // iv; rewrite d2 c3 //.
      by rewrite ltnS leq_eqVlt; case: eqP => [//|_ /=]; exact: c2.
    by move=> hiv; case: eqP => [_|_]; rewrite ?size_nseq // c3.
  exists c' => //; split=> // iv hiv; rewrite c2 ?add0n //; split=> // k hk; by rewrite nth_nseq hk.
exists c => // iv hiv; rewrite /simple_result (get_ok [::]) ?sc //; eexists; first reflexivity; exact: hc.
Qed.
Print Assumptions C49_simple.

(* ------------------------------------------------------------------ scalar histogram *)

Definition samples_since (os : seq shist_op) : seq (rat * rat) :=
  foldl (fun l o => match o with AddSample d v => rcons l (d, v) | SReset => [::] end) [::] os.
Definition position_fits (n : nat) (M : rat) (o : shist_op) : bool :=
  if o is AddSample d _ then is_int32 (floorq (n%:R * d / M)) else true.

Lemma shist_run_rcons h os o : shist_run h (rcons os o) = obind (shist_run h os) (fun h' => shist_step h' o).
Proof.
elim: os h => [|x os ih] h /=; first by case: (shist_step _ _).
by case: (shist_step _ _) => //= h'; rewrite ih.
Qed.

(* After init, every sample inside [0, M) is counted once, in the bin that holds it, with its
   value and its square; get_mean is the mean of the values of each bin. *)
Theorem C49_scalar :
  forall (n : nat) (M : rat) (h0 : shist) (os : seq shist_op),
    (0 < n)%N -> 0 < M -> all (position_fits n M) os ->
    let l := samples_since os in
    exists2 h, shist_run (shist_init n M h0) os = Ok h &
    [/\ sh_samples h = count (fun x => 0 <= x.1 < M) l,
        (forall b, (b < n)%N ->
          [/\ nth 0 (sh_sum h) b = \sum_(x <- l | in_sbin n M b x.1) x.2,
              nth 0 (sh_sum2 h) b = \sum_(x <- l | in_sbin n M b x.1) x.2 ^+ 2 &
              nth 0 (sh_counter h) b = (count (fun x => in_sbin n M b x.1) l)%:R]) &
        exists2 m, get_mean h = Ok m & size m = n /\ forall b, (b < n)%N -> nth None m b =
          let c := count (fun x => in_sbin n M b x.1) l in
          if c == 0%N then None else Some ((\sum_(x <- l | in_sbin n M b x.1) x.2) / c%:R)].
Proof.
move=> n M h0 os n0 M0 hos /=.
have [h -> [w hs hb]] : exists2 h, shist_run (shist_init n M h0) os = Ok h & [/\ wf n M h,
   sh_samples h = count (fun x => 0 <= x.1 < M) (samples_since os) &
   forall b, (b < n)%N -> [/\ nth 0 (sh_sum h) b = \sum_(x <- samples_since os | in_sbin n M b x.1) x.2,
              nth 0 (sh_sum2 h) b = \sum_(x <- samples_since os | in_sbin n M b x.1) x.2 ^+ 2 &
              nth 0 (sh_counter h) b = (count (fun x => in_sbin n M b x.1) (samples_since os))%:R]].
  elim/last_ind: os hos => [|os o ih].
    have [w e0 e] := initP n M h0; exists (shist_init n M h0) => //; split=> // b hb.
    by have [-> -> ->] := e b; rewrite !big_nil.
  rewrite all_rcons => /andP[ho hos]; have [h e [w hs hb]] := ih hos.
  rewrite shist_run_rcons e /= /samples_since foldl_rcons -/(samples_since os).
  case: o ho => [d v|_] /=.
    move=> i32; have [x -> [w' e1 _ e2]] := add_sampleP v M0 n0 w i32; exists x.1 => //; split=> //.
      by rewrite e1 hs -cats1 count_cat /= addn0.
    move=> b lb; have [-> -> ->] := e2 b lb; have [-> -> ->] := hb b lb.
    rewrite -cats1 !big_cat count_cat /= !big_cons !big_nil /= natrD addn0 !addr0 expr2.
    by case: (in_sbin _ _ _ _).
  have [h' -> [w' e1 e2]] := resetP w; exists h' => //; split=> // b lb.
  by have [-> -> ->] := e2 b; rewrite !big_nil.
exists h => //; split=> //; have [m -> [s1 h1]] := meanP w; exists m => //; split=> // b lb.
by rewrite h1 //; have [-> _ ->] := hb b lb; rewrite pnatr_eq0.
Qed.
Print Assumptions C49_scalar.

(* add_sample tells whether the sample was inside *)
Theorem C49_add_sample :
  forall (n : nat) (M : rat) (h0 : shist) (os : seq shist_op) (h : shist) (d v : rat),
    (0 < n)%N -> 0 < M -> all (position_fits n M) os -> is_int32 (floorq (n%:R * d / M)) ->
    shist_run (shist_init n M h0) os = Ok h ->
    exists h', add_sample h d v = Ok (h', 0 <= d < M).
Proof.
move=> n M h0 os h d v n0 M0 hos i32 e.
have w : wf n M h.
  elim/last_ind: os h hos e => [|os o ih] h.
    by move=> _ [<-]; have [] := initP n M h0.
  rewrite all_rcons => /andP[ho hos]; rewrite shist_run_rcons; case ee: (shist_run _ _) => [h1|||] //=.
  have w := ih _ hos ee; case: o ho => [d1 v1|_] /=.
    by move=> i1; have [x -> [w' _ _ _]] := add_sampleP v1 M0 n0 w i1; move=> [<-].
  by have [h' -> [w' _ _]] := resetP w; move=> [<-].
by have [[h' b] e1 [_ _ /= e2 _]] := add_sampleP v M0 n0 w i32; exists h'; rewrite e1 e2.
Qed.
Print Assumptions C49_add_sample.

(* The constructor with two arguments leaves the vectors empty: every sample inside the range
   is written past their end. *)
Theorem C49_constructor :
  forall (n : nat) (M d v : rat), (0 < n)%N -> 0 < M -> 0 <= d < M -> add_sample (shist_new n M) d v = UB.
Proof.
move=> n M d v n0 M0 hd; rewrite /add_sample /= sbin_range // hd; by case: ifP.
Qed.
Print Assumptions C49_constructor.

Theorem C49_constructor_refuted :
  exists (n : nat) (M d v : rat), [/\ (0 < n)%N, 0 < M, 0 <= d < M & add_sample (shist_new n M) d v = UB].
Proof.
exists 3%N, 2%:R, 1, 5%:R; have h := @C49_constructor 3 2%:R 1 5%:R isT isT isT.
split; [by []|by []|by []|exact h].
Qed.
Print Assumptions C49_constructor_refuted.

(* ------------------------------------------------------------------ several flavors *)

Definition fhist_run (hs : seq shist) (l : seq ((rat * rat) * nat)) : outcome (seq shist) :=
  obfold (fun hs x => fhist_add hs x.1.1 x.1.2 x.2) hs l.

Lemma fhist_run_cons hs x l : fhist_run hs (x :: l) = obind (fhist_add hs x.1.1 x.1.2 x.2) (fun hs' => fhist_run hs' l).
Proof. reflexivity. Qed.

(* scalar_histogram_flavors keeps the flavors apart: entry b + k * n of the vectors it
   returns belongs to bin b of flavor k. *)
Theorem C49_flavors :
  forall (n : nat) (M : rat) (flavors : nat) (l : seq ((rat * rat) * nat)),
    (0 < n)%N -> 0 < M -> all (fun x => is_int32 (floorq (n%:R * x.1.1 / M)) && (x.2 < flavors)%N) l ->
    let of_bin k b := [seq x.1 | x <- l & (x.2 == k) && in_sbin n M b x.1.1] in
    exists2 hs, fhist_run (fhist_new n M flavors) l = Ok hs &
    exists mean counter sumval,
      [/\ flatten_flavors None get_mean n hs = Ok mean, flatten_flavors 0 (fun h => Ok (sh_counter h)) n hs = Ok counter,
          flatten_flavors 0 (fun h => Ok (sh_sum h)) n hs = Ok sumval &
      forall k b, (k < flavors)%N -> (b < n)%N ->
        [/\ nth 0 counter (b + k * n) = (size (of_bin k b))%:R,
            nth 0 sumval (b + k * n) = \sum_(x <- of_bin k b) x.2 &
            nth None mean (b + k * n) = if size (of_bin k b) == 0%N then None
              else Some ((\sum_(x <- of_bin k b) x.2) / (size (of_bin k b))%:R)]].
Proof.
move=> n M fl l n0 M0 hl /=.
have [hs -> [sz hw hb]] : exists2 hs, fhist_run (fhist_new n M fl) l = Ok hs & [/\ size hs = fl,
   forall k, (k < fl)%N -> wf n M (nth shist_default hs k) &
   forall k b, (k < fl)%N -> (b < n)%N ->
     nth 0 (sh_sum (nth shist_default hs k)) b = \sum_(x <- [seq x.1 | x <- l & (x.2 == k) && in_sbin n M b x.1.1]) x.2 /\
     nth 0 (sh_counter (nth shist_default hs k)) b = (size [seq x.1 | x <- l & (x.2 == k) && in_sbin n M b x.1.1])%:R].
  have H : forall (l : seq ((rat * rat) * nat)) hs (S C : nat -> nat -> rat), size hs = fl ->
     all (fun x => is_int32 (floorq (n%:R * x.1.1 / M)) && (x.2 < fl)%N) l ->
     (forall k, (k < fl)%N -> wf n M (nth shist_default hs k)) ->
     (forall k b, (k < fl)%N -> (b < n)%N -> nth 0 (sh_sum (nth shist_default hs k)) b = S k b /\
        nth 0 (sh_counter (nth shist_default hs k)) b = C k b) ->
     exists2 hs', fhist_run hs l = Ok hs' & [/\ size hs' = fl, forall k, (k < fl)%N -> wf n M (nth shist_default hs' k) &
     forall k b, (k < fl)%N -> (b < n)%N ->
       nth 0 (sh_sum (nth shist_default hs' k)) b = S k b + \sum_(x <- [seq x.1 | x <- l & (x.2 == k) && in_sbin n M b x.1.1]) x.2 /\
       nth 0 (sh_counter (nth shist_default hs' k)) b = C k b + (size [seq x.1 | x <- l & (x.2 == k) && in_sbin n M b x.1.1])%:R].
    elim=> [|[[d v] f] l' ih] hs S C sz /=.
      by move=> _ hw hb; exists hs => //; split=> // k b hk hb'; rewrite big_nil !addr0; exact: hb.
    case/andP=> /andP[i32 hf] hl' hw hb; rewrite fhist_run_cons /fhist_add (get_ok shist_default) ?sz //=.
    have [x -> [w' _ _ e2]] := add_sampleP v M0 n0 (hw f hf) i32.
    have [|hs' /= -> [p1 p2]] := @put_ok _ shist_default hs f x.1; first by rewrite sz.
    pose S' k b := S k b + (if (f == k) && in_sbin n M b d then v else 0).
    pose C' k b := C k b + ((f == k) && in_sbin n M b d)%:R.
    rewrite /=; have [||||hs2 -> [q1 q2 q3]] := ih hs' S' C'; rewrite ?p1 //.
    - by move=> k hk; rewrite p2; case: eqP => // _; exact: hw.
    - move=> k b hk hb'; rewrite p2 /S' /C' [f == k]eq_sym; have [<- <-] := hb k b hk hb'.
      case: eqP => [->|_] /=; last by rewrite !addr0.
      by have [-> _ ->] := e2 b hb'.
    exists hs2 => //; split=> // k b hk hb'; have [-> ->] := q3 k b hk hb'; rewrite /S' /C'.
    case: (_ && _); rewrite /= ?addr0 //; split; first by rewrite big_cons addrA.
    by rewrite -addrA -[in RHS]addn1 natrD [1 + _]addrC.
  have [||||hs -> [q1 q2 q3]] := H l (fhist_new n M fl) (fun _ _ => 0) (fun _ _ => 0) => //; first by rewrite size_nseq.
  - by move=> k hk; rewrite nth_nseq hk; have [] := initP n M shist_default.
  - move=> k b hk hb; rewrite nth_nseq hk; have [_ _ e] := initP n M shist_default; by have [h1 _ h2] := e b.
  exists hs => //; split=> // k b hk hb; have [-> ->] := q3 k b hk hb; by rewrite !add0r.
exists hs => //.
pose g k := if get_mean (nth shist_default hs k) is Ok m then m else [::].
have hg k : (k < fl)%N -> [/\ get_mean (nth shist_default hs k) = Ok (g k), size (g k) = n & forall b, (b < n)%N -> nth None (g k) b =
    if nth 0 (sh_counter (nth shist_default hs k)) b == 0 then None
    else Some (nth 0 (sh_sum (nth shist_default hs k)) b / nth 0 (sh_counter (nth shist_default hs k)) b)].
  by move=> hk; rewrite /g; have [m -> [s1 h1]] := meanP (hw k hk).
have [|mean -> [_ m2]] := @flattenP _ None get_mean g n hs.
  by rewrite sz => k hk; have [] := hg k hk.
have [|counter -> [_ c2]] := @flattenP _ 0 (fun h => Ok (sh_counter h)) (fun k => sh_counter (nth shist_default hs k)) n hs.
  by rewrite sz => k hk; have [] := hw k hk.
have [|sumval -> [_ s2]] := @flattenP _ 0 (fun h => Ok (sh_sum h)) (fun k => sh_sum (nth shist_default hs k)) n hs.
  by rewrite sz => k hk; have [] := hw k hk.
exists mean, counter, sumval; split=> // k b hk hb'; have [e1 e2] := hb k b hk hb'.
rewrite m2 ?sz // c2 ?sz // s2 ?sz // e1 e2; split=> //.
by have [_ _ ->] := hg k hk; rewrite // e1 e2 pnatr_eq0.
Qed.
Print Assumptions C49_flavors.

(* ------------------------------------------------------------------ rebinning *)

(* rebin adds up groups of n neighbours and drops an incomplete last group *)
Theorem C49_rebin :
  forall (org : seq rat) (n : nat), (0 < n)%N ->
    exists2 new, rebin org n = Ok new & size new = (size org %/ n)%N /\
    forall i, (i < size org %/ n)%N -> nth 0 new i = \sum_(j < n) nth 0 org (i * n + j).
Proof. exact: rebinP. Qed.
Print Assumptions C49_rebin.

(* rebin to another range: each new bin gets the old bins whose centres it holds *)
Theorem C49_rebin_range :
  forall (org : seq rat) (maxval maxval_new : rat) (n : nat),
    0 < maxval -> 0 < maxval_new -> is_int32 (floorq (n%:R * maxval / maxval_new)) ->
    let centre (i : nat) := (i%:R + 1 / 2%:R) * (maxval / (size org)%:R) in
    exists2 new, rebin2 org maxval maxval_new n = Ok new & size new = n /\
    forall b, (b < n)%N -> nth 0 new b = \sum_(i < size org | in_sbin n maxval_new b (centre i)) nth 0 org i.
Proof.
move=> org m m' n m0 m0' i32 /=; have [new -> [s1 h1]] := rebin2P org m0 m0' i32; exists new => //; split=> // b hb.
rewrite h1 //; apply: eq_bigl => i; have n0 : (0 < n)%N by apply: leq_ltn_trans hb.
rewrite -sbinP //; apply/idP/eqP => [h|/floorqP]; [apply/floorqP|]; by rewrite -[b%:Z + 1]/((b + 1)%N%:Z) addn1.
Qed.
Print Assumptions C49_rebin_range.

(* ------------------------------------------------------------------ examples *)

Example C49_ex_hist :
  foldl hist_step (hist_new 4) [:: Count 1; Clear; Count 2; Count 7; Count 2; Count 0] = [:: 1; 0; 2; 0]%N /\
  (max_index [:: 1; 0; 2; 0]%N = 2%N /\ top_index [:: 1; 0; 2; 0]%N = 2%N).
Proof. by []. Qed.

Example C49_ex_rebin : rebin [:: 1; 2%:R; 3%:R; 4%:R; 5%:R] 2 = Ok [:: 3%:R; 7%:R].
Proof. by vm_compute. Qed.

Example C49_ex_rates : acc_result (foldl acc_step (0%N, 0%N) [:: Rejected; AccReset; Accepted; Rejected; Accepted]) = Some (2%:R / 3%:R, 1 / 3%:R).
Proof. by []. Qed.

Lemma int32_small (k : int) : 0 <= k <= 3%:Z -> is_int32 k.
Proof. by rewrite /is_int32; move: two31_gt3; move: two31 => t; clear; lia. Qed.

(* two bins over [0, 2): 1/2 and 1/4 fall into bin 0, 3/2 into bin 1, 3 outside *)
Example C49_ex_scalar :
  exists2 h, shist_run (shist_init 2 2%:R shist_default)
    [:: AddSample (1 / 2%:R) 3%:R; AddSample (3%:R / 2%:R) 7%:R; AddSample 3%:R 1; AddSample (1 / 4%:R) 5%:R] = Ok h &
  sh_samples h = 3%N /\ get_mean h = Ok [:: Some 4%:R; Some 7%:R].
Proof.
have [||| h -> [e1 _ [m em [s1 h1]]]] := @C49_scalar 2 2%:R shist_default
  [:: AddSample (1 / 2%:R) 3%:R; AddSample (3%:R / 2%:R) 7%:R; AddSample 3%:R 1; AddSample (1 / 4%:R) 5%:R].
- by [].
- by [].
- by rewrite /all /position_fits !int32_small.
exists h; first reflexivity; split; first by rewrite e1.
rewrite em; case: m {em} s1 h1 => [|a [|b [|//]]] //= _ h1; congr Ok.
rewrite (h1 0%N isT : a = _) (h1 1%N isT : b = _).
rewrite unlock; congr [:: Some _; Some _]; by apply/eqP.
Qed.
