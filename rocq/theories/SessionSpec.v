(** A session: observations made one after another, each on the expression that the one before
    returned (the way the examples of the project use spe.condition, src/spe.py:167-182, 635-643). *)
From Coq Require Import List Bool String Reals.
From Verif Require Import Base Num Trans TransSpec Logs Spe SpeSpec.
Import ListNotations.
Local Open Scope R_scope.

Section Spec.
  Context {N : numsys} {S : logsys} {D : distsys N S}.
  Notation spe := (spe D).
  Notation tr := (tr N).
  (** s = s.condition(e) for each e in es *)
  Fixpoint observe (condition : spe -> tr -> res spe) (es : list tr) (s : spe) : res spe :=
    match es with
    | [] => Ok s
    | e :: es => do t <- condition s e; observe condition es t
    end.
  (** the outcomes that all observations allow *)
  Definition all_hold (es : list tr) (w : asg) : Prop := forall e, In e es -> holds e w.
End Spec.
