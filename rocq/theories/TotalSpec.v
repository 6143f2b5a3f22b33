(** Specification for C54: the questions that the solver can be relied on to answer.  The event
    compares variables directly, and no derived ones. *)
From Coq Require Import List Bool String Reals.
From Verif Require Import Base Num Sets SetSpec Poly Trans TransSpec Dnf DnfSpec Logs Spe SpeSpec.
Import ListNotations.

(** a number that has no member of P near it, except perhaps itself *)
Definition alone (r : R) (P : R -> Prop) : Prop := (exists eps, 0 < eps /\ forall q, Rabs (q - r) < eps -> q <> r -> ~ P q)%R.
(** a region without isolated values of the variable x *)
Definition no_isolated (x : string) (P : asg -> Prop) : Prop := forall w r, P (upd w x (FNum r)) -> ~ alone r (fun q => P (upd w x (FNum q))).

Section Spec.
  Context {N : numsys} {S : logsys} {D : distsys N S}.
  Notation tr := (tr N).
  Notation spe := (spe D).
  (** the variables that take strings *)
  Context (nominal : string -> bool).
  (** the numbers that the event may compare a variable with by <, <=, > or >=, and the other
      ones that it may name, by == or <<  *)
  Context (cuts points : string -> R -> Prop).

  (** the finite end points of the intervals of a set, and the numbers of its finite part *)
  Definition iv_ends (P : R -> Prop) (i : interval N) : Prop :=
    forall r, eR (iv_a i) = Fin r \/ eR (iv_b i) = Fin r -> P r.
  Definition parts (v : pset N) : list (bset N) :=
    match v with PEmpty => [] | PB b => [b] | PUnion u => u end.
  Definition ends (P Q : R -> Prop) (v : pset N) : Prop :=
    (forall i, In (BInt i) (parts v) -> iv_ends P i) /\
    (forall vs y r, In (BReal vs) (parts v) -> In y vs -> eR y = Fin r -> P r \/ Q r).

  (** A basic event that compares a variable itself: with a set of strings if the variable
      takes strings, else with a set of finite numbers; either set may be empty.  The ends of an
      interval are among the cuts, other numbers among the cuts and points. *)
  Definition comparison (e : tr) : Prop :=
    exists k x v, e = EBasic k (TId x) v /\
      if nominal x then v = PEmpty \/ nominal_set v else k <> KNom /\ real_set v /\ hasinf v = false /\ ends (cuts x) (points x) v.
  (** any combination of them with & and | *)
  Definition direct (e : tr) : Prop := gev e /\ Forall comparison (lits e).

  (** a conjunction: no | anywhere *)
  Fixpoint conjunctive (e : tr) : Prop :=
    match e with
    | EBasic _ _ _ => True
    | EAnd l => All conjunctive l
    | _ => False
    end.

  (** The variables that an expression has from its distributions and not by transforming others. *)
  Fixpoint own (s : spe) (x : string) : Prop :=
    match s with
    | RealLeaf _ y _ _ _ _ | AtomicLeaf y _ _ | NominalLeaf y _ => y = x
    | SumSPE l => All (fun c => own (fst c) x) l
    | ProductSPE l => Any (fun c => own c x) l
    end.
  (** Leaves, with any derived variables.  A numeric leaf that may be asked about a disjunction
      ([many]) has a support without its ends, or its ends are no cuts; the children of a product
      are asked about conjunctions only. *)
  Definition clear_support (x : string) (supp : interval N) : Prop :=
    (iv_lo supp = true \/ forall r, eR (iv_a supp) = Fin r -> ~ cuts x r) /\
    (iv_ro supp = true \/ forall r, eR (iv_b supp) = Fin r -> ~ cuts x r).
  Fixpoint open_leaves (many : bool) (s : spe) : Prop :=
    match s with
    | RealLeaf _ x _ supp _ env => nominal x = false /\ (many = true -> clear_support x supp)
    | AtomicLeaf x _ env => nominal x = false /\ forall y, In y (map fst env) -> nominal y = false
    | NominalLeaf x _ => nominal x = true
    | SumSPE l => All (fun c => open_leaves many (fst c)) l
    | ProductSPE l => All (open_leaves false) l
    end.
  (** discrete leaves are compared with integers only *)
  Fixpoint steady (s : spe) : Prop :=
    match s with
    | RealLeaf disc x _ _ _ _ => disc = true -> forall r, cuts x r \/ points x r -> exists z, r = IZR z
    | SumSPE l => All (fun c => steady (fst c)) l
    | ProductSPE l => All steady l
    | _ => True
    end.
  (** no leaf outside products is continuous *)
  Fixpoint lumpy (s : spe) : Prop :=
    match s with
    | RealLeaf disc _ _ _ _ _ => disc = true
    | SumSPE l => All (fun c => lumpy (fst c)) l
    | _ => True
    end.
  (** a mixture of continuous leaves *)
  Fixpoint diffuse (s : spe) : Prop :=
    match s with
    | RealLeaf disc _ _ _ _ _ => disc = false
    | SumSPE l => All (fun c => diffuse (fst c)) l
    | _ => False
    end.
  (** What a continuous leaf can be conditioned on: it cannot split off isolated numbers.  Sums
      drop the clauses of probability zero first. *)
  Definition even (P : asg -> Prop) (s : spe) : Prop :=
    match s with
    | RealLeaf disc x _ _ _ _ => disc = false -> no_isolated x P
    | SumSPE _ => lumpy s \/ diffuse s
    | _ => True
    end.
  (** A leaf solves the event as it is given: a basic event or a disjunction of them.  Sums and
      products normalise it first. *)
  Definition leaf_form (s : spe) (e : tr) : Prop :=
    is_leaf s = true -> is_basic e = true \/ exists l, e = EOr l /\ Forall (fun a => is_basic a = true) l.
End Spec.
