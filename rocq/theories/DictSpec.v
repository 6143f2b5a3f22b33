(** Which expressions are claimed to survive the way to a dictionary and back (C39). *)
From Coq Require Import List Bool String Reals ZArith QArith.
From Verif Require Import Base Num Sets SetSpec Poly Trans TransSpec Logs Spe SpeSpec.
Import ListNotations.
Local Open Scope R_scope.

Section Spec.
  Context {N : numsys} (io : iterorder N) (po : polyoracle N) (fuel : nat).
  Context {S : logsys} {D : distsys N S}.
  (** the numbers that survive being printed and read *)
  Context (exact : ext (num N) -> Prop).

  (** intervals and finite sets as their constructors make them *)
  Definition made_interval (i : interval N) : Prop := exact (iv_a i) /\ exact (iv_b i) /\ wf_iv i.
  Definition made_set (k : ekind) (s : pset N) : Prop :=
    match k, s with
    | KInt, PB (BInt i) => made_interval i
    | (KReal | KNom), PEmpty => True
    | KReal, PB (BReal vs) => Forall exact vs /\ vs <> [] /\ dedup eeqb vs = vs
    | KNom, PB (BNom vs b) => vs <> [] /\ NoDup vs
    | _, _ => False
    end.
  (** transforms and events as their constructors make them *)
  Fixpoint made (t : tr N) : Prop :=
    match t with
    | TId _ => True
    | TRadical u _ | TAbs u | TRecip u => made u
    | TExp u b => made u /\ exact (Fin b) /\ 0 < toR b
    | TLog u b => made u /\ exact (Fin b) /\ 1 < toR b
    | TPoly u cs => made u /\ Forall (fun c => exact (Fin c)) cs /\ (2 <= List.length cs)%nat
    | TPiece l => All (fun p => made (fst p) /\ made (snd p)) l /\ Piecewise io po fuel (map fst l) (map snd l) = Ok (TPiece l)
    | EBasic k u v => made u /\ made_set k v
    | EOr l | EAnd l => l <> [] /\ All (fun e => made e /\ is_event e = true) l
    end.
  Definition made_env (env : tenv (N:=N)) : Prop := forall p, In p env -> made (snd p).
  (** Expressions as their constructors make them: sums have no sums and products no products as
      children, and fractions are in lowest terms. *)
  Fixpoint made_spe (s : spe D) : Prop :=
    match s with
    | RealLeaf _ _ _ supp _ env => made_interval supp /\ made_env env
    | AtomicLeaf _ v env => exact (Fin v) /\ made_env env
    | NominalLeaf _ ws => ws <> [] /\ Forall (fun p => Qred (snd p) = snd p) ws
    | SumSPE l => All (fun c => made_spe (fst c) /\ match fst c with SumSPE _ => False | _ => True end) l
    | ProductSPE l => All (fun c => made_spe c /\ match c with ProductSPE _ => False | _ => True end) l
    end.
End Spec.
