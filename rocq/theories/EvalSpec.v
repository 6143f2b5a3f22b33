(** When evaluating a transform or an event at given values is claimed to work (C50). *)
From Coq Require Import List Bool String Reals.
From Verif Require Import Base Num Sets SetSpec Trans TransSpec Sample SampleSpec.
Import ListNotations.

Section Eval.
  Context {N : numsys}.
  (** the dictionary gives the variables the values of the assignment *)
  Definition records (m : sdict) (w : asg) (xs : list string) : Prop :=
    forall x, In x xs -> exists v, sget m x = Some v /\ fval_of v = Some (w x).
  (** numbers are compared with numbers and strings with strings *)
  Fixpoint apt (t : tr N) (w : asg) : Prop :=
    match t with
    | TId _ => True
    | TRadical u _ | TExp u _ | TLog u _ | TAbs u | TRecip u | TPoly u _ => apt u w
    | TPiece l => All (fun p => apt (fst p) w /\ apt (snd p) w) l
    | EBasic k u _ => apt u w /\
      match teval u w with Some (FNum _) => k <> KNom | Some (FStr _) => k = KNom | None => True end
    | EOr l | EAnd l => All (fun e => apt e w) l
    end.
  (** every part of the event has a value *)
  Fixpoint defined (t : tr N) (w : asg) : Prop :=
    match t with
    | EBasic _ u _ => teval t w <> None
    | EOr l | EAnd l => All (fun e => defined e w) l
    | _ => teval t w <> None
    end.
End Eval.
