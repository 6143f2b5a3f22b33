(** Model of src/compilers/ast_to_spe.py: the commands of a program and their interpretation,
    and of the calls X >> distribution in src/distributions.py.

    Simplifications.  An enumerate object is the list of its items; Python can read it once only.
    The symbol of Switch is a variable.  A distribution is the function that makes its leaf.
    [ids s] gives the identities of the objects in a call on the expression s. *)
From Coq Require Import List Bool String ZArith QArith Permutation.
From Verif Require Import Base Num Sets Poly Trans Dnf Logs Spe SpeOps.
Import ListNotations.
Local Open Scope list_scope.

(** functools.reduce(lambda S, c: f(c, S), l, S) *)
Section Runs.
  Context {A S : Type} (f : A -> S -> res S).
  Fixpoint runs (l : list A) (s : S) : res S :=
    match l with [] => Ok s | a :: l => do s' <- f a s; runs l s' end.
End Runs.
(** range(n0, n1) *)
Definition range (n0 n1 : Z) : list Z := map (fun k => (n0 + Z.of_nat k)%Z) (seq 0 (Z.to_nat (n1 - n0))).

Section Prog.
  Context {N : numsys} (io : iterorder N) (so : strorder) (po : polyoracle N) (fuel : nat).
  Context {S : logsys} {D : distsys N S}.
  Notation pset := (pset N).
  Notation tr := (tr N).
  Notation lg := (lg S).
  Notation spe := (spe D).
  Notation assignment := (assignment (N:=N)).

  (** ** Distributions: called on a symbol by Id.__rshift__, src/transforms.py:395-397 *)
  Definition distribution := string -> res spe.
  (** src/distributions.py:18-23 NominalDistribution (choice) *)
  Definition choice (ws : list (string * Q)) : distribution := fun x => mk_NominalLeaf x ws.
  (** src/distributions.py:31-45 RealDistribution *)
  Definition real_dist (disc : bool) (d : dist D) (supp : interval N) : distribution :=
    fun x => mk_RealLeaf disc x d supp false (base_env x).

  (** ** Commands *)

  (** the values of a Switch: sets, strings, numbers *)
  Inductive sval := VSet (v : pset) | VText (s : string) | VReal (c : num N).
  (** src/compilers/ast_to_spe.py:30-134.  The condition True is None. *)
  Inductive command :=
  | Skip
  | Sample (x : string) (d : distribution)
  | Transform (y : string) (t : tr)
  | Condition (e : tr)
  | Constrain (a : assignment)
  | IfElse (branches : list (option tr * command))
  | For (n0 n1 : Z) (f : Z -> command)
  | Switch (x : string) (values : list sval) (f : nat -> sval -> command)
  | Sequence (cs : list command).

  (** src/compilers/ast_to_spe.py:119-124 value_to_set *)
  Definition value_to_set (v : sval) : res pset :=
    match v with
    | VSet v => Ok v
    | VText s => FiniteNominal [s] None
    | VReal c => FiniteReal [Fin c]
    end.
  (** sets[i] & ~sets[0] & ... & ~sets[i-1], for each i: src/compilers/ast_to_spe.py:114-116 *)
  Fixpoint disjoint_sets (seen : list pset) (l : list pset) : res (list pset) :=
    match l with
    | [] => Ok []
    | v :: l =>
      do d <- foldM (fun x s => do n <- pinv io s; pand io x n) seen v;
      do ds <- disjoint_sets (seen ++ [v]) l;
      Ok (d :: ds)
    end.
  (** src/compilers/ast_to_spe.py:105-117: the events of a Switch *)
  Definition switch_events (x : string) (values : list sval) : res (list (option tr)) :=
    do sets <- mapM value_to_set values;
    do ds <- disjoint_sets [] sets;
    mapM (fun v => do e <- t_in io (TId x) v; Ok (Some e)) ds.

  (** conditions[i] & ~conditions[0] & ... & ~conditions[i-1], for each i.
      True among them is not an event: & and ~ raise, or dnf_normalize does. *)
  Fixpoint first_events (seen : list tr) (l : list (option tr)) : res (list tr) :=
    match l with
    | [] => Ok []
    | None :: _ => Raise TypeError
    | Some e :: l =>
      do d <- cascade io (e, seen);
      do ds <- first_events (seen ++ [e]) l;
      Ok (d :: ds)
    end.
  (** src/compilers/ast_to_spe.py:71-92: the events of an IfElse *)
  Definition if_events (conditions : list (option tr)) : res (list (option tr)) :=
    do events <-
      match rev conditions with
      | [] => Raise IndexError
      | None :: front =>
        do es <- first_events [] (rev front);
        do u <- reduceM (ev_or io) (somes (rev front));
        do n <- ev_not io u;
        Ok (es ++ [n])
      | _ => first_events [] conditions
      end;
    mapM (dnf_normalize io po fuel) events.

  Context (hash : spe -> Z) (ids : spe -> spe -> nat) (no_simplify : bool).

  (** src/compilers/ast_to_spe.py:138-168 interpret_if_block: the weights and the conditioned
      expressions, through one memo table *)
  Definition if_branches (s : spe) (events : list (option tr)) (subs : list (spe -> res (option spe)))
    : res (list (spe * (spe -> res (option spe)) * lg)) :=
    fst (mbind (mmap (fun e => match e with
                               | Some e => logprob io po fuel (ids s) s e
                               | None => mret lninf
                               end) events) (fun ws =>
         let ps := positive (combine (combine events subs) ws) in
         mbind (lift (passert (negb (is_nil ps)))) (fun _ =>
         mmap (fun p => match fst (fst p) with
                        | Some e => mbind (condition io so po fuel (ids s) hash s e) (fun t => mret (t, snd (fst p), snd p))
                        | None => lift (Raise TypeError)
                        end) ps)) (Memo (N:=N) (D:=D))).
  Definition if_block (o : option spe) (events : list (option tr)) (subs : list (spe -> res (option spe))) : res (option spe) :=
    do _ <- passert (Nat.eqb (List.length events) (List.length subs));
    match o with
    | None => Raise AttributeError
    | Some s =>
      do bs <- if_branches s events subs;
      do t <- lse (map snd bs);
      do _ <- passert (lclose t lzero);
      do children <- mapM (fun b => do c <- snd (fst b) (fst (fst b)); match c with Some c => Ok c | None => Raise AttributeError end) bs;
      match children with
      | [c] => Ok (Some c)
      | _ =>
        do s' <- mk_Sum children (map snd bs);
        if no_simplify then Ok (Some s') else do s'' <- simplify hash s'; Ok (Some s'')
      end
    end.

  (** the interpret methods: src/compilers/ast_to_spe.py:34-132.  None is the absence of an
      expression (spe=None). *)
  Definition on {A} (o : option spe) (k : spe -> res A) : res A :=
    match o with Some s => k s | None => Raise AssertionError end.
  Fixpoint interpret (c : command) (o : option spe) {struct c} : res (option spe) :=
    match c with
    | Skip => Ok o
    | Sample x d =>
      do l <- d x;
      match o with None => Ok (Some l) | Some s => do t <- spe_and s l; Ok (Some t) end
    | Transform y t => on o (fun s => do s' <- transform s y t; Ok (Some s'))
    | Condition e => on o (fun s => do s' <- fst (condition io so po fuel (ids s) hash s e (Memo (N:=N) (D:=D))); Ok (Some s'))
    | Constrain a => on o (fun s => do s' <- fst (constrain so (ids s) s a (Memo (N:=N) (D:=D))); Ok (Some s'))
    | IfElse bs =>
      on o (fun s =>
      do events <- if_events (map fst bs);
      if_block o events (map (fun b s => interpret (snd b) (Some s)) bs))
    | For n0 n1 f => runs (fun i s => interpret (f i) s) (range n0 n1) o
    | Switch x vs f =>
      do events <- switch_events x vs;
      if_block o events (map (fun p s => interpret (f (fst p) (snd p)) (Some s)) (combine (seq 0 (List.length vs)) vs))
    | Sequence cs => runs interpret cs o
    end.
End Prog.
