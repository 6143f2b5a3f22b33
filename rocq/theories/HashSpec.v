(** When equal objects are claimed to have equal hashes (C52). *)
From Coq Require Import List Bool String.
From Verif Require Import Base Num Sets SetSpec Trans TransSpec Logs Spe Hash.
Import ListNotations.

Section Spec.
  Context {N : numsys} {S : logsys} {D : distsys N S} (O : objhash N S D).
  (** the flag b of a FiniteNominal was left out or is True; ~~x and x | y store False *)
  Definition unflagged_b (b : bset N) : Prop := match b with BNom _ (Some false) => False | _ => True end.
  Definition unflagged (s : pset N) : Prop := match s with PEmpty => True | PB b => unflagged_b b | PUnion u => Forall unflagged_b u end.
  Fixpoint hashable (t : tr N) : Prop :=
    match t with
    | TId _ => True
    | TRadical u _ | TExp u _ | TLog u _ | TAbs u | TRecip u | TPoly u _ => hashable u
    | TPiece l => All (fun p => hashable (fst p) /\ hashable (snd p)) l
    | EBasic _ u v => hashable u /\ wf v /\ unflagged v
    | EOr l | EAnd l => All hashable l
    end.
  Fixpoint shashable (s : spe D) : Prop :=
    match s with
    | RealLeaf _ _ _ _ _ env => All (fun p => hashable (snd p)) env
    | AtomicLeaf _ _ _ => True
    | NominalLeaf _ ws => NoDup (map fst ws)
    | SumSPE l => All (fun p => shashable (fst p)) l
    | ProductSPE l => All shashable l
    end.
  (** the dictionaries of corresponding leaves were filled in the same order *)
  Inductive alike : spe D -> spe D -> Prop :=
  | alike_real disc x d i c env disc' x' d' i' c' env' : map fst (d_kwds O d) = map fst (d_kwds O d') ->
      alike (RealLeaf disc x d i c env) (RealLeaf disc' x' d' i' c' env')
  | alike_atomic x v env x' v' env' : alike (AtomicLeaf x v env) (AtomicLeaf x' v' env')
  | alike_nominal x ws x' ws' : map fst ws = map fst ws' -> alike (NominalLeaf x ws) (NominalLeaf x' ws')
  | alike_sum l m : Forall2 (fun p q => alike (fst p) (fst q)) l m -> alike (SumSPE l) (SumSPE m)
  | alike_product l m : Forall2 alike l m -> alike (ProductSPE l) (ProductSPE m).
End Spec.
