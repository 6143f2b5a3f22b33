(** Polynomials and their solver: model of src/poly.py.
    SymPy's [solveset], [function_range] and [nroots] are oracles with a contract. *)
From Coq Require Import List Bool String Reals ZArith.
From Verif Require Import Base Num Sets SetSpec.
Import ListNotations.

Section PolyEval.
  Context {N : numsys}.
  (** src/transforms.py:1221-1223 make_sympy_polynomial followed by .subs(symX, x);
      coefficients are listed from degree 0 up. *)
  Fixpoint peval (cs : list (num N)) (x : num N) : num N :=
    match cs with
    | [] => nint 0
    | c :: cs => nadd c (nmul x (peval cs x))
    end.
  (** Specification: the value of the polynomial on the reals. *)
  Fixpoint Rpoly (cs : list (num N)) (x : R) : R :=
    match cs with
    | [] => 0%R
    | c :: cs => (toR c + x * Rpoly cs x)%R
    end.
End PolyEval.

(** Result of sympy.calculus.util.function_range on a polynomial over the reals:
    a finite set or an interval. *)
Inductive prange (N : numsys) :=
| PRFin (l : list (num N))
| PRIv (a b : ext (num N)) (lo ro : bool).
Arguments PRFin {_} _.
Arguments PRIv {_} _ _ _ _.

Section Spec.
  Context {N : numsys}.
  Definition prange_mem (y : R) (r : prange N) : Prop :=
    match r with
    | PRFin l => exists c, In c l /\ toR c = y
    | PRIv a b lo ro =>
      (if lo then elt (eR a) (Fin y) else ele (eR a) (Fin y)) /\
      (if ro then elt (Fin y) (eR b) else ele (Fin y) (eR b))
    end.
  Fixpoint Rprod (rs : list R) (x : R) : R :=
    match rs with [] => 1%R | r :: rs => ((x - r) * Rprod rs x)%R end.
  (** [rs] are the real roots of the function f, repeated by multiplicity: the cofactor
      has no root, hence constant sign. *)
  Definition roots_of (f : R -> R) (rs : list R) : Prop :=
    exists q : R -> R, (forall x, f x = (Rprod rs x * q x)%R) /\
      ((forall x, 0 < q x)%R \/ (forall x, q x < 0)%R).
End Spec.

(** What SymPy is trusted to do.  Each symbolic call may decline ([None]): a time-out, a
    ConditionSet, or the environment variable SPPL_NO_SYMBOLIC. *)
Record polyoracle (N : numsys) := {
  po_range : list (num N) -> option (prange N);
  po_range_ok : forall cs r, po_range cs = Some r ->
    (forall y, prange_mem y r <-> exists x, Rpoly cs x = y);
  po_ineq : list (num N) -> num N -> bool -> option (pset N);
  po_ineq_ok : forall cs b strict s, po_ineq cs b strict = Some s ->
    wf s /\ real_set s /\
    (forall v, mem v s <-> exists x, v = RNum (Fin x) /\
       if strict then (Rpoly cs x < toR b)%R else (Rpoly cs x <= toR b)%R);
  po_eq : list (num N) -> num N -> option (pset N);
  po_eq_ok : forall cs b s, po_eq cs b = Some s ->
    wf s /\ real_set s /\
    (forall v, mem v s <-> exists x, v = RNum (Fin x) /\ Rpoly cs x = toR b);
  (** the real elements of sympy.nroots(expr - b); it raises on the zero polynomial *)
  po_nroots : list (num N) -> num N -> option (list (num N));
  po_nroots_ok : forall cs b rs, po_nroots cs b = Some rs ->
    roots_of (fun x => (Rpoly cs x - toR b)%R) (map toR rs)
}.
Arguments po_range {_} _ _.
Arguments po_ineq {_} _ _ _ _.
Arguments po_eq {_} _ _ _.
Arguments po_nroots {_} _ _ _.

Section Solver.
  Context {N : numsys} (io : iterorder N) (po : polyoracle N).
  Notation enum := (ext (num N)).
  Notation num := (num N).

  Definition nhalf : num := ninv (nint 2).

  (** src/poly.py:64-69: intervals around the zeros *)
  Fixpoint mids (strict : bool) (x : num) (l : list num) : res (list (interval N)) :=
    match l with
    | [] => do i <- Interval_ (Fin x) PInf strict strict; Ok [i]
    | y :: l =>
      do i <- Interval_ (Fin x) (Fin y) strict strict;
      do r <- mids strict y l; Ok (i :: r)
    end.
  (** src/poly.py:71-75: a probe point in each interval *)
  Fixpoint probes (x : num) (l : list num) : list num :=
    match l with
    | [] => [nadd x nhalf]
    | y :: l => nmul (nadd x y) nhalf :: probes y l
    end.
  Definition nroots (cs : list num) (b : num) : res (list num) :=
    match po_nroots po cs b with Some rs => Ok rs | None => Raise ValueError end.
  (** src/poly.py:57-82 solve_poly_inequality_numerically.  With no real root the code
      returns SymPy's EmptySet, which no SPPL set operation accepts: TypeError. *)
  Definition solve_ineq_num (cs : list num) (b : num) (strict : bool) : res (pset N) :=
    do roots <- nroots cs b;
    match sort nleb roots with
    | [] => Raise TypeError
    | z :: zs =>
      do i <- Interval_ NInf (Fin z) strict strict;
      do r <- mids strict z zs;
      let xs := nsub z nhalf :: probes z zs in
      let keep := filter (fun p => nltb (peval cs (snd p)) b) (combine (i :: r) xs) in
      make_union io (map (fun p => PB (BInt (fst p))) keep)
    end.

  (** src/poly.py:84-99 solve_poly_inequality_inf with extended=False, the only use *)
  Definition solve_ineq_inf (b : enum) : pset N :=
    match b with NInf => PEmpty | _ => Reals end.

  (** src/poly.py:34-51 solve_poly_inequality(expr, b, strict, extended=False) *)
  Definition solve_ineq (cs : list num) (b : enum) (strict : bool) : res (pset N) :=
    match b with
    | Fin b =>
      match po_ineq po cs b strict with
      | Some s => Ok s
      | None => solve_ineq_num cs b strict
      end
    | _ => Ok (solve_ineq_inf b)
    end.

  (** src/poly.py:104-129 solve_poly_equality for a finite b; below for an infinite one *)
  Definition solve_eq (cs : list num) (b : num) : res (pset N) :=
    match po_eq po cs b with
    | Some s => Ok s
    | None => do roots <- nroots cs b; FiniteReal (map Fin roots)
    end.

  (** the degree of the polynomial and its leading coefficient; None for the zero polynomial *)
  Fixpoint leading (cs : list num) : option (nat * num) :=
    match cs with
    | [] => None
    | c :: cs =>
      match leading cs with
      | Some (d, a) => Some (S d, a)
      | None => if neqb c (nint 0) then None else Some (O, c)
      end
    end.
  (** the sign of the limit at +oo and at -oo, src/poly.py:133-134 *)
  Definition limit_signs (cs : list num) : option (bool * bool) :=
    match leading cs with
    | Some (S d, a) => let up := nltb (nint 0) a in Some (up, if Nat.even (S d) then up else negb up)
    | _ => None
    end.
  (** src/poly.py:130-142 solve_poly_equality_inf; get_poly_symbol (:26-29) asserts that the
      polynomial is not constant *)
  Definition solve_eq_inf (cs : list num) (positive : bool) : res (pset N) :=
    match limit_signs cs with
    | None => Raise AssertionError
    | Some (at_pos, at_neg) =>
      if Bool.eqb at_pos positive && Bool.eqb at_neg positive then FiniteReal [PInf; NInf]
      else if Bool.eqb at_pos positive then FiniteReal [PInf]
      else if Bool.eqb at_neg positive then FiniteReal [NInf]
      else Ok PEmpty
    end.

  (** src/transforms.py:638-644 Poly.range *)
  Definition poly_range (cs : list num) : res (pset N) :=
    match po_range po cs with
    | None => Raise NotImplementedError
    | Some (PRFin l) => FiniteReal (map Fin l)
    | Some (PRIv a b lo ro) =>
      do i <- Interval_ a b lo ro;
      do pinf <- (if is_pinf b then FiniteReal [PInf] else Ok PEmpty);
      do ninf <- (if is_ninf a then FiniteReal [NInf] else Ok PEmpty);
      make_union io [PB (BInt i); pinf; ninf]
    end.
End Solver.
