(** Specification for C58: events that compare functions of variables. *)
From Coq Require Import List Bool String Reals.
From Verif Require Import Base Num Sets SetSpec Poly Trans TransSpec Dnf DnfSpec Logs Spe SpeSpec TotalSpec SolveSpec AskSpec.
Import ListNotations.

Section Spec.
  Context {N : numsys} (po : polyoracle N).
  Notation tr := (tr N).
  Context (nominal : string -> bool) (cuts points : string -> R -> Prop).

  (** A comparison of a chain of functions of a numeric variable, which no infinite number meets.
      The solution may have any ends: all numbers are cuts of the variable. *)
  Definition curve (a : tr) : Prop :=
    exists j t v x, a = EBasic j t v /\ chained po a /\ calm One t /\ symbols t = [x] /\ nominal x = false /\ forall r, cuts x r.
  (** no two members of a conjunction mention x *)
  Fixpoint single (x : string) (e : tr) : Prop :=
    match e with
    | EOr l => All (single x) l
    | EAnd l => All (single x) l /\ ForallOrdPairs (fun a b => ~ (In x (symbols a) /\ In x (symbols b))) l
    | _ => True
    end.
  (** the comparison is one of a one-to-one function *)
  Definition thin (a : tr) : Prop := match a with EBasic _ t _ => narrow t | _ => True end.
  (** Any combination of comparisons of variables and of functions; a variable that is compared
      through a function occurs once in each conjunction, or all functions of it are one-to-one. *)
  Definition posed (e : tr) : Prop :=
    gev e /\ Forall (fun a => comparison nominal cuts points a \/ curve a) (lits e) /\
    forall a x, In a (lits e) -> In x (symbols a) ->
      comparison nominal cuts points a \/ single x e \/ forall b, In b (lits e) -> In x (symbols b) -> thin b.
End Spec.
