(** Model of the comparison of polynomials with infinite bounds, and of their values at infinite
    arguments (C59).  Simplification: sympy's limit of a polynomial is modelled by its sign, from
    the degree and the leading coefficient (Poly.v [limit_signs]). *)
From Coq Require Import List Bool ZArith.
From Verif Require Import Base Num Sets Poly.
Import ListNotations.

Section PolyInf.
  Context {N : numsys} (io : iterorder N).
  Notation enum := (ext (num N)).
  Notation num := (num N).

  (** src/poly.py:84-99 solve_poly_inequality_inf; [ext] is false for extended=False *)
  Definition inequality_inf (cs : list num) (b : enum) (strict ext : bool) : res (pset N) :=
    match b with
    | Fin _ => Raise AssertionError
    | NInf => if strict || negb ext then Ok PEmpty else solve_eq_inf cs false
    | PInf =>
      if strict then
        do xinf <- (if ext then solve_eq_inf cs false else Ok PEmpty);
        por io Reals xinf
      else Ok (if ext then ExtReals else Reals)
    end.
  (** src/poly.py:130-142 solve_poly_equality_inf *)
  Definition equality_inf (cs : list num) (b : enum) : res (pset N) :=
    match b with
    | Fin _ => Raise AssertionError
    | PInf => solve_eq_inf cs true
    | NInf => solve_eq_inf cs false
    end.
  (** src/transforms.py:653-656 Poly.ffwd; the domain ExtReals has every number *)
  Definition ffwd_poly (cs : list num) (x : enum) : enum :=
    let at_inf (b : bool) : enum := if b then PInf else NInf in
    match x, limit_signs cs with
    | Fin x, _ => Fin (peval cs x)
    | PInf, Some (p, _) => at_inf p
    | NInf, Some (_, n) => at_inf n
    | _, None => Fin (peval cs (nint 0%Z))
    end.
End PolyInf.
