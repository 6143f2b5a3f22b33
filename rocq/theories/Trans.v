(** Model of src/transforms.py: transforms, events, their inversion and operators. *)
From Coq Require Import List Bool String ZArith.
From Verif Require Import Base Num Sets Poly.
Import ListNotations.
Local Open Scope list_scope.

(** The three subclasses of EventBasic, src/transforms.py:912, 1000, 1030 *)
Inductive ekind := KInt | KReal | KNom.
Definition ekind_eqb (j k : ekind) : bool :=
  match j, k with KInt, KInt | KReal, KReal | KNom, KNom => true | _, _ => false end.

(** Transforms and events, src/transforms.py:357 Identity, 403 Radical, 442 Exponential,
    485 Logarithm, 531 Abs, 575 Reciprocal, 629 Poly, 703 Piecewise (pairs of subexpr and
    event), 830 EventBasic, 1093 EventOr, 1143 EventAnd.  The degree of a Radical is a
    positive integer, as ** and Sqrt build it. *)
Inductive tr (N : numsys) :=
| TId (x : string)
| TRadical (t : tr N) (degree : positive)
| TExp (t : tr N) (base : num N)
| TLog (t : tr N) (base : num N)
| TAbs (t : tr N)
| TRecip (t : tr N)
| TPoly (t : tr N) (coeffs : list (num N))
| TPiece (l : list (tr N * tr N))
| EBasic (k : ekind) (t : tr N) (values : pset N)
| EOr (l : list (tr N))
| EAnd (l : list (tr N)).
Arguments TId {_} _.
Arguments TRadical {_} _ _.
Arguments TExp {_} _ _.
Arguments TLog {_} _ _.
Arguments TAbs {_} _.
Arguments TRecip {_} _.
Arguments TPoly {_} _ _.
Arguments TPiece {_} _.
Arguments EBasic {_} _ _ _.
Arguments EOr {_} _.
Arguments EAnd {_} _.

Section Trans.
  Context {N : numsys} (io : iterorder N) (po : polyoracle N).
  Notation enum := (ext (num N)).
  Notation num := (num N).
  Notation tr := (tr N).
  Notation pset := (pset N).
  Notation interval := (interval N).

  (** ** Structure *)

  (** frozenset.union as lists without duplicates *)
  Definition sunion (l1 l2 : list string) : list string := dedup String.eqb (l1 ++ l2).
  Definition sunions (l : list (list string)) : list string := dedup String.eqb (List.concat l).

  (** get_symbols(): src/transforms.py:47, 363, 761-772 (Piecewise), 1081 (compound), 1225-1231 *)
  Fixpoint symbols (t : tr) : list string :=
    match t with
    | TId x => [x]
    | TRadical t _ | TExp t _ | TLog t _ | TAbs t | TRecip t | TPoly t _ | EBasic _ t _ => symbols t
    | TPiece l => sunions (map (fun p => symbols (fst p)) l)
    | EOr l | EAnd l => sunions (map symbols l)
    end.

  Definition is_event (t : tr) : bool :=
    match t with EBasic _ _ _ | EOr _ | EAnd _ => true | _ => false end.
  Definition is_basic (t : tr) : bool := match t with EBasic _ _ _ => true | _ => false end.
  Definition is_or (t : tr) : bool := match t with EOr _ => true | _ => false end.
  Definition is_and (t : tr) : bool := match t with EAnd _ => true | _ => false end.
  Definition is_id (t : tr) : bool := match t with TId _ => true | _ => false end.

  Fixpoint list_eqb {A} (eqb : A -> A -> bool) (l1 l2 : list A) : bool :=
    match l1, l2 with
    | [], [] => true
    | x :: l1, y :: l2 => eqb x y && list_eqb eqb l1 l2
    | _, _ => false
    end.
  (** __eq__: src/transforms.py:387, 429, 470, 511, 563, 618, 672, 744, 904, 1129, 1182 *)
  Fixpoint teqb (s t : tr) : bool :=
    match s, t with
    | TId x, TId y => String.eqb x y
    | TRadical s d, TRadical t e => teqb s t && Pos.eqb d e
    | TExp s b, TExp t c => teqb s t && neqb b c
    | TLog s b, TLog t c => teqb s t && neqb b c
    | TAbs s, TAbs t => teqb s t
    | TRecip s, TRecip t => teqb s t
    | TPoly s cs, TPoly t ds => teqb s t && list_eqb neqb cs ds
    | TPiece l, TPiece m =>
      (fix go (l m : list (tr * tr)) : bool :=
         match l, m with
         | [], [] => true
         | (a, e) :: l, (b, f) :: m => teqb a b && teqb e f && go l m
         | _, _ => false
         end) l m
    | EBasic k s v, EBasic j t w => ekind_eqb k j && peqb v w && teqb s t
    | EOr l, EOr m | EAnd l, EAnd m =>
      (fix go (l m : list tr) : bool :=
         match l, m with
         | [], [] => true
         | a :: l, b :: m => teqb a b && go l m
         | _, _ => false
         end) l m
    | _, _ => false
    end.

  (** ** Constructors of events *)

  (** src/transforms.py:912-916, 1000-1003, 1030-1036: __init__ of the basic events.
      EventFiniteReal rebuilds FiniteReal(values...), which changes nothing. *)
  Definition EventInterval (t : tr) (v : pset) : res tr :=
    match v with PB (BInt _) => Ok (EBasic KInt t v) | _ => Raise AssertionError end.
  Definition EventFiniteReal (t : tr) (v : pset) : res tr :=
    match v with PEmpty | PB (BReal _) => Ok (EBasic KReal t v) | _ => Raise TypeError end.
  Definition EventFiniteNominal (t : tr) (v : pset) : res tr :=
    match v with PEmpty | PB (BNom _ _) => Ok (EBasic KNom t v) | _ => Raise AssertionError end.
  (** src/transforms.py:1077-1081 EventCompound.__init__; get_union fails on no operand *)
  Definition compound_ok (l : list tr) : res unit :=
    do _ <- passert (forallb is_event l);
    match l with [] => Raise IndexError | _ => Ok tt end.
  Definition EventOr (l : list tr) : res tr := do _ <- compound_ok l; Ok (EOr l).
  Definition EventAnd (l : list tr) : res tr := do _ <- compound_ok l; Ok (EAnd l).

  (** ** Inversion *)

  Definition eneg (x : enum) : enum :=
    match x with NInf => PInf | Fin a => Fin (nopp a) | PInf => NInf end.

  (** src/transforms.py:423-428 Radical.finv; the values are checked to be in the range *)
  Definition finv_radical (d : positive) (y : enum) : res pset :=
    do b <- contains io (VNum y) ExtRealsPos;
    if negb b then Ok PEmpty else
    match y with
    | PInf => FiniteReal [PInf]
    | Fin a => FiniteReal [Fin (npow_nat a (Pos.to_nat d))]
    | NInf => Ok PEmpty
    end.
  (** src/transforms.py:462-469 Exponential.finv.  A logarithm that the number system
      cannot express raises. With base 1 SymPy's log(y, 1) is not a number. *)
  Definition finv_exp (base : num) (y : enum) : res pset :=
    do b <- contains io (VNum y) ExtRealsPos;
    if negb b then Ok PEmpty else
    match y with
    | PInf => FiniteReal [PInf]
    | NInf => FiniteReal [NInf]
    | Fin a =>
      if nleb a (nint 0) then FiniteReal [NInf]
      else if neqb base (nint 1) then Raise TypeError
      else match nlog base a with Some z => FiniteReal [Fin z] | None => Raise ValueError end
    end.
  (** src/transforms.py:505-510 Logarithm.finv; base > 1, so base**(-oo) = 0 *)
  Definition finv_log (base : num) (y : enum) : res pset :=
    do b <- contains io (VNum y) ExtReals;
    if negb b then Ok PEmpty else
    match y with
    | PInf => FiniteReal [PInf]
    | NInf => FiniteReal [Fin (nint 0)]
    | Fin a => match npow base a with Some z => FiniteReal [Fin z] | None => Raise ValueError end
    end.
  (** src/transforms.py:549-552 Abs.finv *)
  Definition finv_abs (y : enum) : res pset :=
    do b <- contains io (VNum y) ExtRealsPos;
    if negb b then Ok PEmpty else FiniteReal [y; eneg y].
  (** src/transforms.py:581-582 Reciprocal.range *)
  Definition range_recip : res pset :=
    do l <- Ropen NInf (Fin (nint 0));
    do r <- Lopen (Fin (nint 0)) PInf;
    por io (PB (BInt l)) (PB (BInt r)).
  (** src/transforms.py:594-599 Reciprocal.finv; 0 and infinite y are not in the range *)
  Definition finv_recip (y : enum) : res pset :=
    do r <- range_recip;
    do b <- contains io (VNum y) r;
    if negb b then Ok PEmpty else
    match y with
    | Fin a => if neqb a (nint 0) then FiniteReal [NInf; PInf] else FiniteReal [Fin (ninv a)]
    | _ => FiniteReal [Fin (nint 0)]
    end.
  (** src/transforms.py:657-660 Poly.finv; no infinite value is in the range *)
  Definition finv_poly (cs : list num) (y : enum) : res pset :=
    do r <- poly_range io po cs;
    do b <- contains io (VNum y) r;
    if negb b then Ok PEmpty else
    match y with Fin a => solve_eq po cs a | PInf => solve_eq_inf cs true | NInf => solve_eq_inf cs false end.

  (** make_union of finv(y) for y in ys: src/transforms.py:347, 554, 601, 662, 925, 1012 *)
  Definition finv_all (finv : enum -> res pset) (ys : list enum) : res pset :=
    do l <- mapM finv ys; make_union io l.

  (** next(iter(S)): the only element of a FiniteReal; iterating EmptySet raises *)
  Definition the_element (s : pset) : res enum :=
    match s with PB (BReal (x :: _)) => Ok x | _ => Raise TypeError end.

  (** src/transforms.py:1215-1219 transform_interval *)
  Definition transform_interval (i : interval) (a b : enum) (flip : bool) : res interval :=
    if flip then Interval_ a b (iv_ro i) (iv_lo i) else Interval_ a b (iv_lo i) (iv_ro i).

  (** src/transforms.py:349-355 Injective.invert_interval, up to the recursive call *)
  Definition inj_interval (finv : enum -> res pset) (i : interval) : res pset :=
    do a <- finv (iv_a i); do a' <- the_element a;
    do b <- finv (iv_b i); do b' <- the_element b;
    do j <- transform_interval i a' b' false;
    Ok (PB (BInt j)).
  (** src/transforms.py:556-562 Abs.invert_interval *)
  Definition abs_interval (i : interval) : res pset :=
    do p <- transform_interval i (iv_a i) (iv_b i) false;
    do q <- transform_interval i (eneg (iv_b i)) (eneg (iv_a i)) true;
    por io (PB (BInt p)) (PB (BInt q)).
  (** src/transforms.py:603-617 Reciprocal.invert_interval *)
  Definition e0 : enum := Fin (nint 0).
  Definition einv (x : enum) : enum := match x with Fin a => Fin (ninv a) | _ => e0 end.
  Definition recip_interval (i : interval) : res pset :=
    let '(a, b) := (iv_a i, iv_b i) in
    if eleb e0 a && eltb a b then
      do _ <- passert (eltb e0 a || iv_lo i);
      let a_inv := if eltb e0 a then einv a else PInf in
      let b_inv := einv b in
      do j <- transform_interval i b_inv a_inv true; Ok (PB (BInt j))
    else if eltb a b && eleb b e0 then
      do _ <- passert (eltb b e0 || iv_ro i);
      let a_inv := einv a in
      let b_inv := if eltb b e0 then einv b else NInf in
      do j <- transform_interval i b_inv a_inv true; Ok (PB (BInt j))
    else Raise AssertionError.
  (** src/transforms.py:664-671 Poly.invert_interval *)
  Definition poly_interval (cs : list num) (i : interval) : res pset :=
    do a <- solve_ineq io po cs (iv_a i) (negb (iv_lo i));
    do b <- solve_ineq io po cs (iv_b i) (iv_ro i);
    do na <- pinv io a;
    pand io b na.

  (** FiniteReal(0, 1), the range of every event: src/transforms.py:795-796 *)
  Definition bit (b : bool) : enum := Fin (nint (if b then 1 else 0)).
  Definition bits : pset := PB (BReal [bit false; bit true]).
  (** finv of EventInterval and EventFiniteReal: src/transforms.py:917-923, 1004-1010 *)
  Definition finv_event (v : pset) (y : enum) : res pset :=
    if eeqb y (bit true) then Ok v
    else if eeqb y (bit false) then pinv io v
    else Ok PEmpty.
  (** EventFiniteNominal.finv: src/transforms.py:1038-1058 *)
  Definition complemented (v : pset) : bool :=
    match v with PB (BNom _ b) => truthy b | _ => false end.
  Definition finv_nominal (transformed : bool) (v : pset) (y : enum) : res pset :=
    if eeqb y (bit true) then
      (if is_empty v then Ok PEmpty
       else if transformed then Ok (if complemented v then Strings else PEmpty)
       else Ok v)
    else if eeqb y (bit false) then
      (if is_empty v then Ok Strings
       else if transformed then Ok (if complemented v then PEmpty else Strings)
       else pinv io v)
    else Ok PEmpty.
  (** EventFiniteNominal.invert_finite: src/transforms.py:1060-1066; falling through
      returns None, on which every caller fails *)
  Definition invert_nominal (transformed : bool) (v : pset) (ys : list enum) : res pset :=
    if set_eqb eeqb ys [bit false] then finv_nominal transformed v (bit false)
    else if set_eqb eeqb ys [bit true] then finv_nominal transformed v (bit true)
    else if set_eqb eeqb ys [bit true; Fin (nint 2)] then Ok Strings
    else Raise TypeError.

  (** range(): src/transforms.py:366, 410, 449, 492, 536, 581, 638, 711, 795 *)
  Fixpoint range (t : tr) : res pset :=
    match t with
    | TId _ | TLog _ _ => Ok ExtReals
    | TRadical _ _ | TExp _ _ | TAbs _ => Ok ExtRealsPos
    | TRecip _ => range_recip
    | TPoly _ cs => poly_range io po cs
    | TPiece l => do rs <- mapM (fun p => range (fst p)) l; make_union io rs
    | EBasic _ _ _ | EOr _ | EAnd _ => Ok bits
    end.

  (** src/transforms.py:72-83 Transform.invert, with invert_finite and invert_interval as
      arguments.  Python recurses on the same transform for each piece of a union; [fuel]
      bounds the depth of that recursion. *)
  Fixpoint dispatch (fuel : nat) (rng : res pset) (fin : list enum -> res pset)
    (int : interval -> res pset) (ys : pset) : res pset :=
    match fuel with
    | O => Raise OutOfFuel
    | S fuel =>
      do r <- rng;
      do inter <- pand io r ys;
      match inter with
      | PEmpty => Ok PEmpty
      | PB (BReal vs) => fin vs
      | PB (BInt i) => int i
      | PB (BNom _ _) => Raise AssertionError
      | PUnion args =>
        do xs <- mapM (dispatch fuel rng fin int) (map PB args);
        make_union io xs
      end
    end.

  (** src/transforms.py:837-838: the values of a basic event on a symbol *)
  Definition id_values (e : tr) : option pset :=
    match e with EBasic _ (TId _) v => Some v | _ => None end.

  Context (fuel : nat).

  Fixpoint invert (t : tr) (ys : pset) {struct t} : res pset :=
    let inj u finv :=
      dispatch fuel (range t)
        (fun vs => do zs <- finv_all finv vs; invert u zs)
        (fun i => do zs <- inj_interval finv i; invert u zs) ys in
    let noninj u finv int :=
      dispatch fuel (range t)
        (fun vs => do zs <- finv_all finv vs; invert u zs)
        (fun i => do zs <- int i; invert u zs) ys in
    match t with
    | TId _ => dispatch fuel (range t) (fun vs => Ok (PB (BReal vs))) (fun i => Ok (PB (BInt i))) ys
    | TRadical u d => inj u (finv_radical d)
    | TExp u b => inj u (finv_exp b)
    | TLog u b => inj u (finv_log b)
    | TAbs u => noninj u finv_abs abs_interval
    | TRecip u => noninj u finv_recip recip_interval
    | TPoly u cs => noninj u (finv_poly cs) (poly_interval cs)
    | TPiece l =>
      (** src/transforms.py:730-737, 774-790; the domains were solved by __init__ *)
      let go zs :=
        do xs <- mapM (fun p =>
          do i <- invert (fst p) zs;
          do d <- (match id_values (snd p) with
                   | Some v => Ok v
                   | None => invert (snd p) (PB (BReal [bit true]))
                   end);
          pand io i d) l;
        make_union io xs in
      dispatch fuel (range t) (fun vs => go (PB (BReal vs))) (fun i => go (PB (BInt i))) ys
    | EBasic KNom u v =>
      dispatch fuel (range t) (invert_nominal (negb (is_id u)) v)
        (fun _ => Raise NotImplementedError) ys
    | EBasic _ u v => noninj u (finv_event v) (fun _ => Raise NotImplementedError)
    | EOr l =>
      dispatch fuel (range t)
        (fun vs => do xs <- mapM (fun e => invert e (PB (BReal vs))) l; make_union io xs)
        (fun _ => Raise NotImplementedError) ys
    | EAnd l =>
      dispatch fuel (range t)
        (fun vs => do xs <- mapM (fun e => invert e (PB (BReal vs))) l; make_intersection io xs)
        (fun _ => Raise NotImplementedError) ys
    end.

  (** src/transforms.py:804-807 Event.solve, 836-839 EventBasic.solve *)
  Definition solve (e : tr) : res pset :=
    match id_values e with
    | Some v => Ok v
    | None =>
      if Nat.ltb 1 (List.length (symbols e)) then Raise ValueError
      else invert e (PB (BReal [bit true]))
    end.

  (** src/transforms.py:703-708, 761-784 Piecewise.__init__ *)
  Definition same_symbols (l m : list string) : bool := set_eqb String.eqb l m.
  Fixpoint pairwise_disjoint (l : list pset) : res unit :=
    match l with
    | [] => Ok tt
    | d :: l =>
      do is <- mapM (fun c => do x <- pand io d c; do y <- pand io c d;
                              Ok (is_empty x && is_empty y)) l;
      if forallb (fun b => b) is then pairwise_disjoint l else Raise ValueError
    end.
  Definition Piecewise (subexprs events : list tr) : res tr :=
    if forallb is_event events then
      if Nat.eqb (List.length subexprs) (List.length events) then
        match subexprs with
        | [] => Raise IndexError
        | _ =>
          let ss := sunions (map symbols subexprs) in
          let es := sunions (map symbols events) in
          if Nat.ltb 1 (List.length ss) then Raise ValueError
          else if negb (same_symbols ss es) then Raise ValueError
          else
            do ds <- mapM solve events;
            do _ <- pairwise_disjoint ds;
            Ok (TPiece (combine subexprs events))
        end
      else Raise ValueError
    else Raise TypeError.

  (** ** Operators on events *)

  (** src/transforms.py:864-883 EventBasic.__and__, :884-903 __or__: the basic event for a
      set of values, if it is basic *)
  Definition event_of_set (t : tr) (v : pset) : option tr :=
    match v with
    | PEmpty => Some (EBasic KReal t PEmpty)
    | PB (BReal _) => Some (EBasic KReal t v)
    | PB (BNom _ _) => Some (EBasic KNom t v)
    | PB (BInt _) => Some (EBasic KInt t v)
    | PUnion _ => None
    end.

  (** a & b: src/transforms.py:864-883, 1113-1120, 1166-1173 *)
  Definition ev_and (a b : tr) : res tr :=
    match a, b with
    | EBasic _ s v, EBasic _ t w =>
      if teqb t s then
        do i <- pand io v w;
        match event_of_set s i with Some e => Ok e | None => EventAnd [a; b] end
      else EventAnd [a; b]
    | (EBasic _ _ _ | EOr _), EAnd l => EventAnd (a :: l)
    | EBasic _ _ _, EOr _ | EOr _, (EBasic _ _ _ | EOr _) => EventAnd [a; b]
    | EAnd l, EAnd m => EventAnd (l ++ m)
    | EAnd l, (EBasic _ _ _ | EOr _) => EventAnd (l ++ [b])
    | _, _ => Raise TypeError
    end.
  (** a | b: src/transforms.py:884-903, 1121-1128, 1174-1181 *)
  Definition ev_or (a b : tr) : res tr :=
    match a, b with
    | EBasic _ s v, EBasic _ t w =>
      if teqb t s then
        do i <- por io v w;
        match event_of_set s i with Some e => Ok e | None => EventOr [a; b] end
      else EventOr [a; b]
    | (EBasic _ _ _ | EAnd _), EOr l => EventOr (a :: l)
    | EBasic _ _ _, EAnd _ | EAnd _, (EBasic _ _ _ | EAnd _) => EventOr [a; b]
    | EOr l, EOr m => EventOr (l ++ m)
    | EOr l, (EBasic _ _ _ | EAnd _) => EventOr (l ++ [b])
    | _, _ => Raise TypeError
    end.

  (** ~e: src/transforms.py:970-981, 1022-1028, 1073-1075, 1131-1133, 1184-1186 *)
  Definition inv_basic (k : ekind) (t : tr) (v : pset) : res tr :=
    do nv <- pinv io v;
    match k with
    | KInt =>
      match nv with
      | PEmpty => EventFiniteReal t nv
      | PB (BInt _) => EventInterval t nv
      | PUnion [a; b] =>
        do l <- EventInterval t (PB a);
        do r <- EventInterval t (PB b);
        EventOr [l; r]
      | _ => Raise AssertionError
      end
    | KReal =>
      if peqb nv Reals then EventInterval t Reals
      else match nv with
           | PUnion args => do es <- mapM (fun a => EventInterval t (PB a)) args; EventOr es
           | _ => Raise AssertionError
           end
    | KNom => EventFiniteNominal t nv
    end.
  Fixpoint ev_not (e : tr) : res tr :=
    match e with
    | EBasic k t v => inv_basic k t v
    | EOr l => do ns <- mapM ev_not l; reduceM ev_and ns
    | EAnd l => do ns <- mapM ev_not l; reduceM ev_or ns
    | _ => Raise TypeError
    end.
  (** a ^ b: src/transforms.py:825-828 *)
  Definition ev_xor (a b : tr) : res tr :=
    if is_event b then
      do nb <- ev_not b; do l <- ev_and a nb;
      do na <- ev_not a; do r <- ev_and na b;
      ev_or l r
    else Raise TypeError.

  (** to_dnf_list: src/transforms.py:862-863, 1110-1112, 1160-1165 *)
  Fixpoint product {A} (l : list (list A)) : list (list A) :=
    match l with
    | [] => [[]]
    | xs :: l => flat_map (fun x => map (cons x) (product l)) xs
    end.
  Fixpoint to_dnf_list (e : tr) : list (list tr) :=
    match e with
    | EOr l => List.concat (map to_dnf_list l)
    | EAnd l => map (@List.concat tr) (product (map to_dnf_list l))
    | _ => [[e]]
    end.
  (** to_dnf: src/transforms.py:808-812 *)
  Definition simplify_event (mk : list tr -> res tr) (l : list tr) : res tr :=
    match l with [x] => Ok x | _ => mk l end.
  Definition to_dnf (e : tr) : res tr :=
    do es <- mapM (simplify_event EventAnd) (to_dnf_list e);
    simplify_event EventOr es.

  (** ** Comparisons *)

  (** src/transforms.py:281-312: <=, <, >=, > of a transform with a number *)
  Definition t_le (t : tr) (x : enum) : res tr := do i <- Interval_ NInf x false false; EventInterval t (PB (BInt i)).
  Definition t_lt (t : tr) (x : enum) : res tr := do i <- Interval_ NInf x false true; EventInterval t (PB (BInt i)).
  Definition t_ge (t : tr) (x : enum) : res tr := do i <- Interval_ x PInf false false; EventInterval t (PB (BInt i)).
  Definition t_gt (t : tr) (x : enum) : res tr := do i <- Interval_ x PInf true false; EventInterval t (PB (BInt i)).

  (** sympy.Interval followed by convert_sympy (src/sets.py:425-439): a degenerate interval
      is a point or empty *)
  Definition sympy_interval (a b : enum) (lo ro : bool) : res pset :=
    let lo := lo || is_inf a in
    let ro := ro || is_inf b in
    if eltb a b then do i <- Interval_ a b lo ro; Ok (PB (BInt i))
    else if eeqb a b && negb lo && negb ro then FiniteReal [a]
    else Ok PEmpty.
  Definition event_of_interval (t : tr) (v : pset) : res tr :=
    match v with
    | PB (BInt _) => EventInterval t v
    | PB (BReal _) | PEmpty => EventFiniteReal t v
    | _ => Raise AssertionError
    end.
  (** src/transforms.py:930-945 __compute_gte__, 946-961 __compute_lte__: comparing the
      event of an interval again; other events refuse (:852-859) *)
  Definition compute_gte (e : tr) (x : enum) (lo : bool) : res tr :=
    match e with
    | EBasic KInt t (PB (BInt i)) =>
      if is_ninf (iv_a i) then
        do v <- sympy_interval x (iv_b i) lo (iv_ro i); event_of_interval t v
      else Raise ValueError
    | _ => Raise TypeError
    end.
  Definition compute_lte (e : tr) (x : enum) (ro : bool) : res tr :=
    match e with
    | EBasic KInt t (PB (BInt i)) =>
      if is_pinf (iv_b i) then
        do v <- sympy_interval (iv_a i) x (iv_lo i) ro; event_of_interval t v
      else Raise ValueError
    | _ => Raise TypeError
    end.

  (** t << S: src/transforms.py:315-340 *)
  Definition t_in_basic (t : tr) (v : pset) : res tr :=
    match v with
    | PEmpty | PB (BReal _) => EventFiniteReal t v
    | PB (BNom _ _) => EventFiniteNominal t v
    | PB (BInt _) => EventInterval t v
    | PUnion _ => Raise TypeError
    end.
  Definition t_in (t : tr) (v : pset) : res tr :=
    match v with
    | PUnion args => do es <- mapM (fun b => t_in_basic t (PB b)) args; reduceM ev_or es
    | _ => t_in_basic t v
    end.
  (** t << collection of numbers and strings: src/transforms.py:324-336 *)
  Definition val_num (v : val N) : list enum := match v with VNum x => [x] | VStr _ => [] end.
  Definition val_str (v : val N) : list string := match v with VNum _ => [] | VStr s => [s] end.
  Definition t_in_list (t : tr) (vs : list (val N)) : res tr :=
    match flat_map val_num vs, flat_map val_str vs with
    | [], [] => EventFiniteReal t PEmpty
    | xs, [] => do v <- FiniteReal xs; EventFiniteReal t v
    | [], ss => do v <- FiniteNominal ss None; EventFiniteNominal t v
    | xs, ss =>
      do v <- FiniteReal xs; do a <- EventFiniteReal t v;
      do w <- FiniteNominal ss None; do b <- EventFiniteNominal t w;
      EventOr [a; b]
    end.

  (** ** Substitution *)

  (** an environment: symbol -> transform, in insertion order *)
  Definition tenv := list (string * tr).
  Fixpoint lookup {A} (x : string) (l : list (string * A)) : option A :=
    match l with
    | [] => None
    | (y, t) :: l => if String.eqb x y then Some t else lookup x l
    end.
  (** env.get(s, s) != s *)
  Definition moved (env : tenv) (x : string) : bool :=
    match lookup x env with Some t => negb (teqb t (TId x)) | None => false end.
  (** src/transforms.py:1212-1213 expr_in_env *)
  Definition expr_in_env (t : tr) (env : tenv) : bool := existsb (moved env) (symbols t).
  (** subs: src/transforms.py:368, 412, 451, 494, 538, 583, 645, 714, 840, 1087 *)
  Fixpoint subs (env : tenv) (t : tr) : res tr :=
    if negb (expr_in_env t env) then Ok t else
    match t with
    | TId x => match lookup x env with Some u => Ok u | None => Ok t end
    | TRadical u d => do u' <- subs env u; Ok (TRadical u' d)
    | TExp u b => do u' <- subs env u; Ok (TExp u' b)
    | TLog u b => do u' <- subs env u; Ok (TLog u' b)
    | TAbs u => do u' <- subs env u; Ok (TAbs u')
    | TRecip u => do u' <- subs env u; Ok (TRecip u')
    | TPoly u cs => do u' <- subs env u; Ok (TPoly u' cs)
    | TPiece l =>
      do ss <- mapM (fun p => subs env (fst p)) l;
      do es <- mapM (fun p => subs env (snd p)) l;
      Piecewise ss es
    | EBasic k u v => do u' <- subs env u; Ok (EBasic k u' v)
    | EOr l => do l' <- mapM (subs env) l; EventOr l'
    | EAnd l => do l' <- mapM (subs env) l; EventAnd l'
    end.
  (** src/transforms.py:54-61 substitute: repeat subs until no symbol is in env *)
  Fixpoint substitute (n : nat) (env : tenv) (t : tr) : res tr :=
    if expr_in_env t env then
      match n with
      | O => Raise OutOfFuel
      | S n => do t' <- subs env t; substitute n env t'
      end
    else Ok t.

  (** ** Arithmetic on transforms *)

  (** src/transforms.py:1239-1242 polyify *)
  Definition polyify (t : tr) : tr * list num :=
    match t with TPoly u cs => (u, cs) | _ => (t, [nint 0; nint 1]) end.
  (** src/transforms.py:629-635 Poly.__init__ *)
  Definition Poly_ (t : tr) (cs : list num) : res tr :=
    do _ <- passert (Nat.ltb 1 (List.length cs)); Ok (TPoly t cs).
  (** src/transforms.py:91-96 __add__number *)
  Definition add_num (t : tr) (x : num) : res tr :=
    match polyify t with
    | (u, c :: cs) => Poly_ u (nadd c x :: cs)
    | (u, []) => Raise IndexError
    end.
  Fixpoint padd (cs ds : list num) : list num :=
    match cs, ds with
    | [], _ => ds
    | _, [] => cs
    | c :: cs, d :: ds => nadd c d :: padd cs ds
    end.
  Fixpoint pmul (cs ds : list num) : list num :=
    match cs with
    | [] => []
    | c :: cs => padd (map (nmul c) ds) (nint 0 :: pmul cs ds)
    end.
  (** sympy.Poly(..).all_coeffs()[::-1]: leading zeros removed, the zero polynomial is [0] *)
  Fixpoint ptrim (cs : list num) : list num :=
    match cs with
    | [] => []
    | c :: cs => match ptrim cs with
                 | [] => if neqb c (nint 0) then [] else [c]
                 | ds => c :: ds
                 end
    end.
  Definition all_coeffs (cs : list num) : list num :=
    match ptrim cs with [] => [nint 0] | ds => ds end.
  (** src/transforms.py:97-109 __add__poly; sympy.Poly without a generator refuses constants *)
  Definition is_const (cs : list num) : bool := Nat.leb (List.length (ptrim cs)) 1.
  Definition add_poly (t u : tr) : res tr :=
    let '(s, cs) := polyify t in
    let '(s', ds) := polyify u in
    if negb (teqb s' s) then Raise ValueError
    else if is_const cs || is_const ds then Raise ValueError
    else Poly_ s (all_coeffs (padd cs ds)).
  (** src/transforms.py:130-134 __mul__number *)
  Definition mul_num (t : tr) (x : num) : res tr :=
    let '(u, cs) := polyify t in Poly_ u (map (nmul x) cs).
  (** src/transforms.py:139-151 __mul__poly *)
  Definition mul_poly (t u : tr) : res tr :=
    let '(s, cs) := polyify t in
    let '(s', ds) := polyify u in
    if negb (teqb s' s) then Raise ValueError
    else Poly_ s (all_coeffs (pmul cs ds)).
  (** src/transforms.py:110-125, 738-743 __add__ with a transform; Piecewise overrides *)
  Definition t_add (t u : tr) : res tr :=
    match t, u with
    | TPiece l, TPiece m => Piecewise (map fst l ++ map fst m) (map snd l ++ map snd m)
    | _, _ => add_poly t u
    end.
  (** src/transforms.py:152-169, 798-801 __mul__ with a transform or an event *)
  Definition t_mul (t u : tr) : res tr :=
    if is_event t then Piecewise [u] [t]
    else if is_event u then Piecewise [t] [u]
    else mul_poly t u.
  (** src/transforms.py:177-187 __truediv__; dividing by zero gives SymPy's zoo *)
  Definition div_num (t : tr) (x : num) : res tr :=
    if neqb x (nint 0) then Raise ValueError else mul_num t (ninv x).
  (** src/transforms.py:190-200 __rtruediv__ *)
  Definition rdiv_num (x : num) (t : tr) : res tr :=
    if neqb x (nint 1) then Ok (TRecip t) else mul_num (TRecip t) x.
  (** src/transforms.py:208-209, 676-677 __neg__ *)
  Definition t_neg (t : tr) : res tr :=
    match t with
    | TPoly u cs => Poly_ u (map nopp cs)
    | _ => mul_num t (nint (-1))
    end.
  (** src/transforms.py:203-204 __sub__ with a number, with a transform *)
  Definition sub_num (t : tr) (x : num) : res tr := add_num t (nmul (nint (-1)) x).
  Definition t_sub (t u : tr) : res tr := do v <- mul_num u (nint (-1)); t_add t v.
  (** src/transforms.py:205-206 __rsub__: x - t *)
  Definition rsub_num (x : num) (t : tr) : res tr := sub_num t x.
  (** src/transforms.py:211-212, 572-573 __abs__ *)
  Definition t_abs (t : tr) : tr := match t with TAbs u => TAbs u | _ => TAbs t end.
  (** src/transforms.py:1207-1210 Pow *)
  Definition Pow_ (t : tr) (n : nat) : res tr := Poly_ t (repeat (nint 0) n ++ [nint 1]).
  (** src/transforms.py:215-220 __pow__integer *)
  Definition pow_int (t : tr) (z : Z) : res tr :=
    match z with
    | Z0 => Raise ValueError
    | Zpos p => Pow_ t (Pos.to_nat p)
    | Zneg p => do u <- Pow_ t (Pos.to_nat p); Ok (TRecip u)
    end.
  (** src/transforms.py:221-230 __pow__rational, numerator and denominator in lowest terms *)
  Definition pow_rat (t : tr) (numer : Z) (denom : positive) : res tr :=
    if Z.eqb numer 1 then Ok (TRadical t denom)
    else if Z.eqb numer (-1) then Ok (TRecip (TRadical t denom))
    else if Pos.eqb denom 1 then pow_int t numer
    else Raise ValueError.
  (** src/transforms.py:265-269, 442-446 __rpow__, Exponential.__init__ *)
  Definition rpow_num (base : num) (t : tr) : res tr :=
    if nleb base (nint 0) then Raise ValueError else Ok (TExp t base).
  (** src/transforms.py:485-489 Logarithm.__init__ *)
  Definition Logarithm (t : tr) (base : num) : res tr :=
    do _ <- passert (nltb (nint 1) base); Ok (TLog t base).
End Trans.
