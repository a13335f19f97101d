(* Specification for C06: a plain matrix whose entries are either known or
   indeterminate.  There is no capacity. *)
From mathcomp Require Import all_ssreflect ssralg matrix.
From Verif Require Import MatSpec RmatModel.

Set Implicit Arguments.
Unset Strict Implicit.
Unset Printing Implicit Defensive.

Local Open Scope ring_scope.

Section Plain.
Variable F : fieldType.

(* rows, columns, entries; None: never written since it became visible *)
Record plain := Plain { rows : nat; cols : nat; ent : nat -> nat -> option F }.

Definition exch (p q i : nat) : nat := if i == p then q else if i == q then p else i.

(* One call: p before, p' after.  The index conditions are the declared ranges. *)
Definition plain_call (p : plain) (c : rcall F) (p' : plain) : Prop :=
  match c with
  | CWrite i j v =>
      [/\ (i < rows p)%N, (j < cols p)%N &
          p' = Plain (rows p) (cols p)
                 (fun i' j' => if (i' == i) && (j' == j) then Some v else ent p i' j')]
  | CSwapRow a b =>
      [/\ (a < rows p)%N, (b < rows p)%N &
          p' = Plain (rows p) (cols p) (fun i j => ent p (exch a b i) j)]
  | CSwapCol a b =>
      [/\ (a < cols p)%N, (b < cols p)%N &
          p' = Plain (rows p) (cols p) (fun i j => ent p i (exch a b j))]
  | CSwapRowCol a b =>
      (a < rows p)%N /\ (b < rows p)%N /\ (a < cols p)%N /\ (b < cols p)%N /\
      p' = Plain (rows p) (cols p) (fun i j => ent p (exch a b i) (exch a b j))
  | CConservative _ n m =>
      p' = Plain n m (fun i j => if (i < rows p)%N && (j < cols p)%N then ent p i j else None)
  | CDestructive _ n m => p' = Plain n m (fun _ _ => None)
  | CRemove r c =>
      r || c /\ (r ==> (0 < rows p)%N) /\ (c ==> (0 < cols p)%N) /\
      p' = Plain (rows p - r) (cols p - c) (ent p)
  | CIdentity => rows p = cols p /\ p' = Plain (rows p) (cols p) (fun i j => Some (i == j)%:R)
  | CClear => p' = Plain (rows p) (cols p) (fun _ _ => Some 0)
  | CAssign n m a => p' = Plain n m (fun i j => Some (a i j))
  | CInvert =>
      exists a b, [/\ rows p = cols p,
        forall i j, (i < rows p)%N -> (j < cols p)%N -> ent p i j = Some (a i j),
        inverse_of (rows p) a b &
        p' = Plain (rows p) (cols p) (fun i j => Some (b i j))]
  end.

(* A history of calls. *)
Fixpoint plain_run (p : plain) (cs : seq (rcall F)) (p' : plain) : Prop :=
  if cs is c :: cs' then exists q, plain_call p c q /\ plain_run q cs' p' else p' = p.

(* The object shows the plain matrix: its size, every visible entry can be read, and
   every visible entry that is known has its value.  The memory covers the size. *)
Record shows (s : rmat F) (p : plain) : Prop := Shows {
  shows_size1 : r_size1 s = rows p;
  shows_size2 : r_size2 s = cols p;
  shows_mem1 : (rows p <= mem1 s)%N;
  shows_mem2 : (cols p <= mem2 s)%N;
  shows_read : forall i j, (i < rows p)%N -> (j < cols p)%N ->
    exists w, r_read s i j = Outcome.Ok w /\ (forall v, ent p i j = Some v -> w = v) }.

End Plain.
