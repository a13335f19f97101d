(* Outcomes shared by all model files.  Nothing here corresponds to a line of
   /repo; it fixes how exceptions, undefined behaviour and non-termination of the
   C++ code are represented. *)

(* The result of running a piece of C++ code.
   Simplification: an exception carries no payload. *)
Inductive outcome (A : Type) : Type :=
  | Ok : A -> outcome A          (* normal return *)
  | Throw : outcome A            (* a C++ exception leaves the function *)
  | UB : outcome A               (* undefined behaviour was executed *)
  | Diverge : outcome A.         (* the given fuel was not enough *)

Arguments Ok {A} _.
Arguments Throw {A}.
Arguments UB {A}.
Arguments Diverge {A}.

(* Sequential composition of two pieces of code. *)
Definition obind {A B : Type} (x : outcome A) (f : A -> outcome B) : outcome B :=
  match x with
  | Ok a => f a
  | Throw => Throw
  | UB => UB
  | Diverge => Diverge
  end.
