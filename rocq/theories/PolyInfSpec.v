(** Specification for C59: the value of a polynomial on the extended real line is its limit. *)
From Coq Require Import List Reals.
From Verif Require Import Base Num Poly.
Local Open Scope R_scope.

(** far out in the direction of +oo or of -oo *)
Definition side (up : bool) (x : R) : R := if up then x else - x.
(** f tends to v as its argument goes to +oo ([up]) or to -oo *)
Definition limit_at (f : R -> R) (up : bool) (v : ext R) : Prop :=
  match v with
  | Fin y => forall eps, 0 < eps -> exists A, forall x, A < side up x -> Rabs (f x - y) < eps
  | PInf => forall M, exists A, forall x, A < side up x -> M < f x
  | NInf => forall M, exists A, forall x, A < side up x -> f x < M
  end.
Definition value (f : R -> R) (e v : ext R) : Prop :=
  match e with
  | Fin x => v = Fin (f x)
  | PInf => limit_at f true v
  | NInf => limit_at f false v
  end.
Definition constant (f : R -> R) : Prop := forall x y, f x = f y.
