(** Specification of render_sppl (src/compilers/spe_to_sppl.py): the expressions whose program is
    claimed to mean the expression again. *)
From Coq Require Import List Bool String Reals ZArith QArith Qreals.
From Verif Require Import Base Num Sets SetSpec Poly Trans TransSpec Dnf DnfSpec Logs Spe SpeSpec SpeOps Prog ProgSpec TotalSpec Source Render.
Import ListNotations.
Local Open Scope R_scope.

Section Spec.
  Context {N : numsys} {S : logsys} {D : distsys N S} (io : iterorder N) (po : polyoracle N) (fuel : nat).
  Notation tr := (tr N).
  Notation spe := (spe D).
  Notation env := (env (N:=N)).
  Context (isdist : string -> bool) (call : string -> list (pyval (N:=N)) -> list (string * pyval (N:=N)) -> res (pyval (N:=N))).
  Context (deval : env -> expr N -> res (distribution (N:=N) (D:=D))) (dlaw : dist D -> (fval -> R) -> R).
  Context (is_e : num N -> bool) (num_text : num N -> string) (dist_name : dist D -> string) (dist_kwds : dist D -> list (string * num N)).

  (** not an element of an array, not the name of a branch *)
  Definition plain_name (x : string) : Prop := String.index 0 "[" x = None /\ forall n, x <> branch_var n.
  (** t' is a transform of one variable, of t, that takes the values of t *)
  Definition same_tr (t t' : tr) : Prop :=
    good t' /\ realv t' /\ (exists x, only x t') /\ (forall w, regular true t' w) /\ (forall w, teval t' w = teval t w) /\
    symbols t' <> [] /\ forall x, In x (symbols t') -> In x (symbols t).
  (** the text of t is read as the definition of a variable, and has the values of t *)
  Definition shows (t : tr) : Prop := exists p t',
    show is_e num_text t = Ok p /\
    (array_args (tree p) = None /\ (forall a b c, tree p <> XIf a b c) /\ filter isdist (names (tree p)) = [] /\ exists x, In x (symbols t) /\ In x (names (tree p))) /\
    (forall g, (forall x, In x (symbols t) -> Source.lookup g x = Ok (PTr (TId x))) -> peval io po fuel call g (rewrite (tree p)) = Ok (PTr t')) /\
    same_tr t t'.
  (** the text of a distribution is read as that distribution, with a support it never leaves *)
  Definition dist_reads (disc : bool) (d : dist D) : Prop :=
    isdist (dist_name d) = true /\ dist_name d <> "array"%string /\
    exists supp, wf_iv supp /\ (disc = true -> disc_supp dlaw d supp) /\ dlaw d (ind (in_iv supp)) = 1 /\
      forall g, deval g (dist_expr dist_name dist_kwds d) = Ok (real_dist disc d supp).
  (** one side of the support is bounded *)
  Definition bounded (i : interval N) : Prop := iv_a i <> NInf \/ iv_b i <> PInf.
  (** Expressions that can be written: no atoms, no elements of arrays, derived variables whose
      definitions are shown well. *)
  Fixpoint renderable (s : spe) : Prop :=
    match s with
    | NominalLeaf x _ => plain_name x
    | RealLeaf disc x d supp cond env =>
      (forall y, In y (map fst env) -> plain_name y) /\ dist_reads disc d /\ (cond = true -> bounded supp) /\ Forall (fun p => shows (snd p)) (tl env)
    | AtomicLeaf _ _ _ => False
    | SumSPE l => All (fun c => renderable (fst c)) l
    | ProductSPE l => All renderable l
    end.

  (** Expressions whose program is claimed to run: the derived variables are not sampled elsewhere; for a variable with a
      discrete leaf, its conditioned leaves have integers as ends.  The finite ends are among the cuts. *)
  Context (derived : string -> bool) (cuts : string -> R -> Prop).
  Fixpoint flat (s : spe) : Prop :=
    match s with
    | NominalLeaf x _ => derived x = false
    | RealLeaf disc x _ supp cond env =>
      derived x = false /\ (forall y, In y (map fst (tl env)) -> derived y = true) /\ (cond = true -> iv_ends (cuts x) supp) /\ (disc = true -> forall r, cuts x r -> exists z, r = IZR z)
    | AtomicLeaf _ _ _ => False
    | SumSPE l => All (fun c => flat (fst c)) l
    | ProductSPE l => All flat l
    end.
End Spec.
