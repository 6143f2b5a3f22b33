(** For which events solving is claimed to succeed. *)
From Coq Require Import List Bool String Reals ZArith.
From Verif Require Import Base Num Sets SetSpec Poly Trans TransSpec.
Import ListNotations.
Local Open Scope R_scope.

(** What a transform is asked to invert: an interval or one finite number; an interval or one
    number, perhaps infinite; an interval or finitely many finite numbers; any set of finite
    numbers. *)
Inductive kind := One | Ext | Few | Many.

Section Spec.
  Context {N : numsys} (po : polyoracle N).
  Notation tr := (tr N).

  (** powers and logarithms of numbers are numbers *)
  Definition powers : Prop := forall b x : num N, 1 < toR b -> exists y, npow b x = Some y.
  Definition logs : Prop := forall b y : num N, 1 < toR b -> 0 < toR y -> exists x, nlog b y = Some x.

  (** SymPy solves c0 + c1*x = b, and c0 + c1*x < b and <= b by a half-line, and knows that the
      range is the whole line. *)
  Definition half_line (up : bool) (c : num N) (strict : bool) : pset N :=
    PB (BInt (if up then mkIv NInf (Fin c) true strict else mkIv (Fin c) PInf strict true)).
  Definition linear (c0 c1 : num N) : Prop :=
    toR c1 <> 0 /\ po_range po [c0; c1] = Some (PRIv NInf PInf true true) /\
    forall b, exists c, po_eq po [c0; c1] b = Some (PB (BReal [Fin c])) /\
      forall strict, po_ineq po [c0; c1] b strict = Some (half_line (nltb (nint 0) c1) c strict).

  (** SymPy solves the quadratic equation and inequality, and knows the range: with extreme value m
      at v, it finds the two solutions of p(x) = b for b inside the range. *)
  Definition between (r s : num N) (strict : bool) : pset N := PB (BInt (mkIv (Fin r) (Fin s) strict strict)).
  Definition outside (r s : num N) (strict : bool) : pset N :=
    PUnion [BInt (mkIv NInf (Fin r) true strict); BInt (mkIv (Fin s) PInf strict true)].
  Definition parabola (c0 c1 c2 : num N) : Prop :=
    let cs := [c0; c1; c2] in
    exists m v, toR m = Rpoly cs (toR v) /\
    (forall b, toR b = toR m -> po_eq po cs b = Some (PB (BReal [Fin v]))) /\
    if nltb (nint 0) c2 then
      po_range po cs = Some (PRIv (Fin m) PInf false true) /\
      (forall b, toR b = toR m -> po_ineq po cs b true = Some PEmpty /\ po_ineq po cs b false = Some (PB (BReal [Fin v]))) /\
      forall b, toR m < toR b -> exists r s, toR r < toR s /\
        po_eq po cs b = Some (PB (BReal [Fin r; Fin s])) /\
        forall strict, po_ineq po cs b strict = Some (between r s strict)
    else
      po_range po cs = Some (PRIv NInf (Fin m) true false) /\
      (forall b, toR b = toR m -> po_ineq po cs b true = Some (outside v v true) /\ po_ineq po cs b false = Some Reals) /\
      forall b, toR b < toR m -> exists r s, toR r < toR s /\
        po_eq po cs b = Some (PB (BReal [Fin r; Fin s])) /\
        forall strict, po_ineq po cs b strict = Some (outside r s strict).

  (** Transforms that can be inverted at such sets: a chain of functions of one variable.  On a set
      of any shape there is no exponential, no reciprocal and no quadratic polynomial, and on
      several numbers no exponential and no reciprocal; directly below an exponential there is no
      absolute value. *)
  Definition lower (k : kind) : kind := match k with Ext => One | _ => k end.
  Fixpoint chain (k : kind) (t : tr) : Prop :=
    match t with
    | TId _ => True
    | TRadical u _ => chain k u
    | TLog u b => 1 < toR b /\ powers /\ chain k u
    | TExp u b => 1 < toR b /\ logs /\ (k = One \/ k = Ext) /\ chain Ext u
    | TAbs u => k <> Ext /\ chain Many u
    | TRecip u => (k = One \/ k = Ext) /\ chain One u
    | TPoly u [c0; c1] => linear c0 c1 /\ chain (lower k) u
    | TPoly u [c0; c1; c2] => parabola c0 c1 c2 /\ k <> Many /\ chain Many u
    | _ => False
    end.

  (** The inverse images hold no infinite number: exp(X) == 0 has the solution -oo, exp(1 + X) == 0
      has none. *)
  Fixpoint calm (k : kind) (t : tr) : Prop :=
    match t with
    | TId _ => k <> Ext
    | TRadical u _ | TLog u _ => calm k u
    | TExp u _ => calm Ext u
    | TAbs u => calm Many u
    | TRecip u => calm One u
    | TPoly u [_; _] => calm (lower k) u
    | TPoly u _ => calm Many u
    | _ => False
    end.

  (** a comparison of a chain with a number, with the ends of an interval, or with several numbers *)
  Definition chained (e : tr) : Prop :=
    match e with
    | EBasic KInt t (PB (BInt i)) => wf_iv i /\ chain One t
    | EBasic KReal t (PB (BReal [Fin _])) => chain One t
    | EBasic KReal t (PB (BReal vs)) => wf_b (BReal vs) /\ inffree (PB (BReal vs)) /\ chain Few t
    | _ => False
    end.
  (** such a comparison, or a disjunction of them that is about one variable *)
  Definition solvable (e : tr) : Prop :=
    match e with
    | EOr l => l <> [] /\ Forall chained l /\ exists x, Forall (fun e => symbols e = [x]) l
    | _ => chained e
    end.
End Spec.
