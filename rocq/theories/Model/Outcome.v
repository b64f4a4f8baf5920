(** * Result of code that may panic ([assert!], [assert_eq!], [panic!]). *)
Inductive outcome (A : Type) := Ret (a : A) | Panic.
Arguments Ret {A}. Arguments Panic {A}.
Definition obind {A B} (x : outcome A) (k : A -> outcome B) : outcome B :=
  match x with Ret a => k a | Panic => Panic end.
Notation "'let!' x ':=' e 'in' k" := (obind e (fun x => k)) (at level 200, x pattern, right associativity).
(** [assert!(c); k] *)
Definition oassert {A} (c : bool) (k : outcome A) : outcome A := if c then k else Panic.
