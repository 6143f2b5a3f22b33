(** Specification for C57: the questions about derived variables that are claimed to be answered. *)
From Coq Require Import List Bool String Reals.
From Verif Require Import Base Num Sets SetSpec Poly Trans TransSpec Dnf DnfSpec Logs Spe SpeSpec TotalSpec SolveSpec.
Import ListNotations.
Local Open Scope R_scope.

Section Spec.
  Context {N : numsys} {S : logsys} {D : distsys N S} (po : polyoracle N).
  Notation tr := (tr N).
  Notation spe := (spe D).
  Context (nominal : string -> bool) (cuts points : string -> R -> Prop).
  (** the variables that the event mentions *)
  Context (asked : string -> Prop).

  (** the function t of one variable, with u in the place of the variable *)
  Fixpoint put (u t : tr) : tr :=
    match t with
    | TId _ => u
    | TRadical s d => TRadical (put u s) d
    | TExp s b => TExp (put u s) b
    | TLog s b => TLog (put u s) b
    | TAbs s => TAbs (put u s)
    | TRecip s => TRecip (put u s)
    | TPoly s cs => TPoly (put u s) cs
    | _ => t
    end.
  (** Which function of the leaf's own variable a derived variable is: the definitions put into
      each other. *)
  Inductive means (env : list (string * tr)) : string -> tr -> Prop :=
  | means_self : forall x, moved env x = false -> means env x (TId x)
  | means_step : forall z t y u, moved env z = true -> lookup z env = Some t -> symbols t = [y] -> means env y u -> means env z (put u t).

  (** The function is a chain that can be inverted at the sets that the variable is compared with:
      at single numbers and intervals, and if the event names more than one number, also at
      several numbers. *)
  Definition named (z : string) (r : R) : Prop := cuts z r \/ points z r.
  Definition through (env : list (string * tr)) (z : string) (t : tr) : Prop :=
    means env z t /\ chain po One t /\ (chain po Few t \/ forall r q, named z r -> named z q -> r = q).

  (** a chain of one-to-one functions *)
  Fixpoint narrow (t : tr) : Prop :=
    match t with
    | TId _ => True
    | TRadical u _ | TExp u _ | TLog u _ | TPoly u [_; _] => narrow u
    | _ => False
    end.

  (** A leaf is asked about at most one of its variables: about its own variable; or about a
      derived one, if the support of the leaf does not contain its ends, or if the function is
      one-to-one and the event no disjunction. *)
  Definition lone (env : list (string * tr)) : Prop :=
    forall y z, asked y -> asked z -> In y (map fst env) -> In z (map fst env) -> y = z.
  Fixpoint prepared (many : bool) (s : spe) : Prop :=
    match s with
    | RealLeaf _ x _ supp _ env => lone env /\ forall z, asked z -> In z (map fst env) -> nominal z = false /\
        (z = x /\ (many = true -> clear_support cuts x supp) \/
         exists t, through env z t /\ (iv_lo supp = true /\ iv_ro supp = true \/ many = false /\ narrow t))
    | AtomicLeaf x _ env => (forall y, In y (map fst env) -> nominal y = false) /\ lone env /\
        forall z, asked z -> In z (map fst env) -> z = x \/ exists t, through env z t
    | NominalLeaf x _ => nominal x = true
    | SumSPE l => All (fun c => prepared many (fst c)) l
    | ProductSPE l => All (prepared false) l
    end.
End Spec.
