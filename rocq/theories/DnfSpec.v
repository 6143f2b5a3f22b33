(** Specification of the operations on disjunctive normal forms: what a factored event says,
    and the sorts of variables. *)
From Coq Require Import List Bool String.
From Verif Require Import Base Num Sets SetSpec Poly Trans TransSpec Dnf.
Import ListNotations.

Section Spec.
  Context {N : numsys}.
  Notation tr := (tr N).

  (** every conjunct of the clause is true; some clause is true *)
  Definition clause_holds (c : clause (N:=N)) (w : asg) : Prop := forall k e, In (k, e) c -> holds e w.
  Definition factor_holds (f : factor (N:=N)) (w : asg) : Prop := exists c, In c f /\ clause_holds c w.

  (** the basic events inside an event *)
  Fixpoint lits (e : tr) : list tr :=
    match e with
    | EOr l | EAnd l => List.concat (map lits l)
    | _ => [e]
    end.
  (** the basic event constrains a variable directly *)
  Definition on_var (e : tr) : Prop := exists k x v, e = EBasic k (TId x) v.
  Definition on_vars (e : tr) : Prop := Forall on_var (lits e).

  (** Sorts: [nominal x] says that the variable x takes strings.  A literal with the empty
      set has no sort. *)
  Definition sorted_lit (nominal : string -> bool) (e : tr) : Prop :=
    exists k x v, e = EBasic k (TId x) v /\ v <> PEmpty /\ (k = KNom <-> nominal x = true).
  Definition sorted (nominal : string -> bool) (e : tr) : Prop := Forall (sorted_lit nominal) (lits e).
  Definition sorted_asg (nominal : string -> bool) (w : asg) : Prop :=
    forall x, match w x with FStr _ => nominal x = true | FNum _ => nominal x = false end.

  (** the clauses of an event in disjunctive normal form *)
  Definition clauses (e : tr) : list tr := match e with EOr l => l | _ => [e] end.
  Definition never_both (a b : tr) : Prop := forall w, ~ (holds a w /\ holds b w).
  Definition disjoint_clauses (e : tr) : Prop := ForallOrdPairs never_both (clauses e).
End Spec.
