(** Specification for C56: combinations of comparisons of functions of one variable. *)
From Coq Require Import List Bool String Reals.
From Verif Require Import Base Num Sets SetSpec Poly Trans TransSpec Spe SpeSpec SolveSpec AskSpec.
Import ListNotations.

Section Spec.
  Context {N : numsys} (po : polyoracle N) (x : string).
  Notation tr := (tr N).
  (** conjunctions, nested to any depth, of comparisons of one-to-one functions of x *)
  Fixpoint pinned (e : tr) : Prop :=
    match e with
    | EBasic _ t _ => chained po e /\ symbols e = [x] /\ narrow t
    | EAnd l => l <> [] /\ All pinned l
    | _ => False
    end.
  (** disjunctions, nested to any depth, of these and of comparisons of any chain of functions *)
  Fixpoint settled (e : tr) : Prop :=
    pinned e \/
    match e with
    | EBasic _ _ _ => chained po e /\ symbols e = [x]
    | EOr l => l <> [] /\ All settled l
    | _ => False
    end.
End Spec.
