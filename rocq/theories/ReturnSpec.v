(** When IfElse and Switch give a result: conditions, and cases that can be told apart. *)
From Coq Require Import List Bool String Reals.
From Verif Require Import Base Num Sets SetSpec Trans TransSpec Logs Spe SpeSpec Prog ProgSpec CondTypes TotalSpec.
Import ListNotations.
Local Open Scope R_scope.

Section Spec.
  Context {N : numsys} (nominal : string -> bool) (cuts : string -> R -> Prop).
  (** the conditions of an IfElse are events, the last one may be True *)
  Definition conditions_ok (es : list (tr N)) (conditions : list (option (tr N))) : Prop :=
    es <> [] /\ (conditions = map Some es \/ conditions = map Some es ++ [None]).
  (** A case of a Switch over x: for a nominal x, a string or a nonempty set of strings; for a
      numeric x, a number or an interval, with ends among the cuts. *)
  Definition plain_case (x : string) (v : sval (N:=N)) : Prop :=
    case_ok nominal x v /\
    (nominal x = false ->
     match v with
     | VReal c => cuts x (toR c)
     | VSet (PB (BInt i)) => iv_ends (cuts x) i
     | _ => False
     end).
  (** Taking the earlier cases away leaves at most one piece: a number has one piece, and so has
      an interval without a number of the earlier cases. *)
  Definition separate (x : string) (u v : sval (N:=N)) : Prop :=
    nominal x = false -> (exists c, v = VReal c) \/ forall w, matches x u w -> matches x v w -> False.
End Spec.

Section Branch.
  Context {N : numsys} {S : logsys} {D : distsys N S} (dlaw : dist D -> (fval -> R) -> R) (no_simplify : bool) (nominal : string -> bool).
  Notation spe := (spe D).
  Definition summands (s : spe) : list spe := match s with SumSPE l => map fst l | _ => [s] end.
  (** What a branch leaves: an expression over the variables V.  Unless simplification is off,
      its summands are leaves in every branch or products in every branch. *)
  Definition joinable (envof : string -> tenv (N:=N)) (V : string -> Prop) (leaves : bool) (d : spe) : Prop :=
    wf_spe dlaw d /\ typed nominal envof d /\ (forall x, vars d x <-> V x) /\
    (no_simplify = true \/ Forall (fun c => (if leaves then is_leaf c else is_product c) = true) (summands d)).
End Branch.
