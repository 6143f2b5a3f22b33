(** Specification of sets: what it means for a value to be a member, and which
    set objects a program can build.  Independent of the set operations. *)
From Coq Require Import List Bool String Reals.
From Verif Require Import Base Num Sets.
Import ListNotations.

(** A mathematical value: an extended real number or a string. *)
Inductive rval := RNum (x : ext R) | RStr (s : string).

(** Values random variables take: finite reals and strings. *)
Definition finite_val (v : rval) : Prop :=
  match v with RNum (Fin _) => True | RNum _ => False | RStr _ => True end.

Section Spec.
  Context {N : numsys}.

  Definition iv_mem (x : ext R) (i : interval N) : Prop :=
    (if iv_lo i then elt (eR (iv_a i)) x else ele (eR (iv_a i)) x) /\
    (if iv_ro i then elt x (eR (iv_b i)) else ele x (eR (iv_b i))).

  Definition bmem (v : rval) (b : bset N) : Prop :=
    match b, v with
    | BNom vs f, RStr s => if truthy f then ~ In s vs else In s vs
    | BReal vs, RNum x => exists y, In y vs /\ eR y = x
    | BInt i, RNum x => iv_mem x i
    | _, _ => False
    end.

  Definition mem (v : rval) (s : pset N) : Prop :=
    match s with
    | PEmpty => False
    | PB b => bmem v b
    | PUnion u => exists b, In b u /\ bmem v b
    end.

  (** An interval a user can hold: a < b and infinite ends are open. *)
  Definition wf_iv (i : interval N) : Prop :=
    elt (eR (iv_a i)) (eR (iv_b i)) /\
    (iv_a i = NInf -> iv_lo i = true) /\ (iv_b i = PInf -> iv_ro i = true).

  Definition wf_b (b : bset N) : Prop :=
    match b with
    | BNom vs f => NoDup vs /\ (vs <> [] \/ truthy f = true)
    | BReal vs => NoDup (map eR vs) /\ vs <> []
    | BInt i => wf_iv i
    end.

  Definition disjoint_b (b c : bset N) : Prop := forall v, bmem v b -> bmem v c -> False.

  (** A union: at least two pieces, pairwise disjoint, at most one nominal and at
      most one finite-real piece. *)
  Definition wf (s : pset N) : Prop :=
    match s with
    | PEmpty => True
    | PB b => wf_b b
    | PUnion u =>
      Forall wf_b u /\ (2 <= List.length u)%nat /\
      (List.length (filter is_nom u) <= 1)%nat /\
      (List.length (filter is_real u) <= 1)%nat /\
      ForallOrdPairs disjoint_b u
    end.

  (** Sets of numbers only, sets of strings only. *)
  Definition real_b (b : bset N) : Prop := match b with BNom _ _ => False | _ => True end.
  Definition real_set (s : pset N) : Prop :=
    match s with PEmpty => True | PB b => real_b b | PUnion u => Forall real_b u end.
  Definition nominal_set (s : pset N) : Prop :=
    match s with PB (BNom _ _) => True | _ => False end.
End Spec.
