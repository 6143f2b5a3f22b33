(** Specification for C38 with functions of variables: events that compare a function of a variable
    with a number, or a nominal variable with values. *)
From Coq Require Import List Bool String Reals.
From Verif Require Import Base Num Sets SetSpec Poly Trans TransSpec SolveSpec.
Import ListNotations.

Section Spec.
  Context {N : numsys} (po : polyoracle N).
  Notation tr := (tr N).
  Context (nominal : string -> bool) (cuts : string -> R -> Prop).

  (** t < c, t <= c, t > c or t >= c *)
  Definition threshold (t : tr) (c : num N) (e : tr) : Prop :=
    exists o, e = EBasic KInt t (PB (BInt (mkIv NInf (Fin c) true o))) \/ e = EBasic KInt t (PB (BInt (mkIv (Fin c) PInf o true))).
  (** a threshold of a chain of functions of the numeric variable x *)
  Definition step (x : string) (e : tr) : Prop :=
    exists t c, threshold t c e /\ chain po One t /\ calm One t /\ symbols t = [x] /\ nominal x = false /\ forall r, cuts x r.
  (** x << {...} or its negation, for a nominal variable x *)
  Definition values (x : string) (e : tr) : Prop :=
    exists vs f, e = EBasic KNom (TId x) (PB (BNom vs f)) /\ vs <> [] /\ nominal x = true.
  (** a function that is defined for every number: no root, logarithm or reciprocal *)
  Fixpoint everywhere (t : tr) : Prop :=
    match t with
    | TId _ => True
    | TExp u _ | TAbs u | TPoly u _ => everywhere u
    | _ => False
    end.
  Definition compares (x : string) (e : tr) : Prop := step x e \/ values x e.
End Spec.
