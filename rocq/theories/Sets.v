(** Model of src/sets.py. *)
From Coq Require Import List Bool String Permutation ZArith.
From Verif Require Import Base Num.
Import ListNotations.
Local Open Scope list_scope.

(** A Python flag that is None, False or True; [truthy] is bool(). *)
Definition pyflag := option bool.
Definition truthy (b : pyflag) : bool := match b with Some true => true | _ => false end.

Section Sets.
  Context {N : numsys}.
  Notation enum := (ext (num N)).

  (** src/sets.py:176-184 class Interval, fields.  left_open and right_open are
      Python booleans after construction ([x or isinf(..)] is a bool). *)
  Record interval := mkIv { iv_a : enum; iv_b : enum; iv_lo : bool; iv_ro : bool }.

  (** The non-union, non-empty sets: src/sets.py:46 FiniteNominal(values, b),
      :107 FiniteReal(values), :176 Interval. frozenset values are lists without
      duplicates. *)
  Inductive bset :=
  | BNom (vs : list string) (b : pyflag)
  | BReal (vs : list enum)
  | BInt (i : interval).

  (** All sets: EmptySet (:19), the basic sets, Union (:279).  A Union keeps [args], the
      ordered list of non-empty constructor arguments (:304); nominals, atoms,
      intervals and values are derived from it as in :281-302. *)
  Inductive pset :=
  | PEmpty
  | PB (b : bset)
  | PUnion (args : list bset).

  (** Values a user can test for membership. *)
  Inductive val := VNum (x : enum) | VStr (s : string).

  (** Order in which Python iterates over a frozenset: unspecified. *)
  Record iterorder := {
    it_iv : list interval -> list interval;
    it_iv_perm : forall l, Permutation l (it_iv l);
    it_bs : list bset -> list bset;
    it_bs_perm : forall l, Permutation l (it_bs l)
  }.
  Context (io : iterorder).

  (** ** Constructors *)

  (** src/sets.py:177-184 Interval.__init__ *)
  Definition Interval_ (a b : enum) (lo ro : bool) : res interval :=
    do _ <- passert (eltb a b);
    Ok (mkIv a b (lo || is_ninf a) (ro || is_pinf b)).
  (** src/sets.py:268-276 Lopen, Ropen, open *)
  Definition Lopen a b := Interval_ a b true false.
  Definition Ropen a b := Interval_ a b false true.
  Definition open_ a b := Interval_ a b true true.

  (** src/sets.py:47-50 FiniteNominal.__init__ *)
  Definition FiniteNominal (vs : list string) (b : pyflag) : res pset :=
    do _ <- passert (negb (is_nil vs) || truthy b);
    Ok (PB (BNom (dedup String.eqb vs) b)).

  (** src/sets.py:108-110 FiniteReal.__init__ *)
  Definition FiniteReal (vs : list enum) : res pset :=
    do _ <- passert (negb (is_nil vs));
    Ok (PB (BReal (dedup eeqb vs))).

  (** [FiniteReal(values...) if values else EmptySet], e.g. src/sets.py:130 *)
  Definition freal_or_empty (vs : list enum) : pset :=
    match dedup eeqb vs with [] => PEmpty | ws => PB (BReal ws) end.
  (** [FiniteNominal(values...) if values else EmptySet], e.g. src/sets.py:65 *)
  Definition fnom_or_empty (vs : list string) : pset :=
    match dedup String.eqb vs with [] => PEmpty | ws => PB (BNom ws None) end.

  (** ** Membership and equality *)

  (** src/sets.py:51-54 FiniteNominal.__contains__ on a string *)
  Definition nom_contains (s : string) (vs : list string) (b : pyflag) : bool :=
    if truthy b then negb (inb String.eqb s vs) else inb String.eqb s vs.
  (** src/sets.py:111-113 FiniteReal.__contains__ *)
  Definition real_contains (x : enum) (vs : list enum) : bool := inb eeqb x vs.
  (** src/sets.py:185-194 Interval.__contains__ on a number *)
  Definition iv_contains (x : enum) (i : interval) : bool :=
    (if iv_lo i then eltb (iv_a i) x else eleb (iv_a i) x) &&
    (if iv_ro i then eltb x (iv_b i) else eleb x (iv_b i)).

  (** [x in S] for a basic S.  A string compared with a number raises TypeError
      (Interval); a number is never equal to a string, so it is "not in values" of a
      FiniteNominal. *)
  Definition bcontains (v : val) (b : bset) : res bool :=
    match v, b with
    | VStr s, BNom vs f => Ok (nom_contains s vs f)
    | VNum _, BNom _ f => Ok (truthy f)
    | VStr _, BReal _ => Ok false
    | VNum x, BReal vs => Ok (real_contains x vs)
    | VStr _, BInt _ => Raise TypeError
    | VNum x, BInt i => Ok (iv_contains x i)
    end.

  (** src/sets.py:253-258 Interval.__eq__ *)
  Definition iv_eqb (i j : interval) : bool :=
    eeqb (iv_a i) (iv_a j) && eeqb (iv_b i) (iv_b j) &&
    Bool.eqb (iv_lo i) (iv_lo j) && Bool.eqb (iv_ro i) (iv_ro j).

  (** equality of frozensets: mutual inclusion *)
  Definition set_eqb {A} (eqb : A -> A -> bool) (l1 l2 : list A) : bool :=
    forallb (fun x => inb eqb x l2) l1 && forallb (fun x => inb eqb x l1) l2.

  (** src/sets.py:85-88, 157-159, 253-258: __eq__ of basic sets *)
  Definition beqb (b c : bset) : bool :=
    match b, c with
    | BNom vs f, BNom ws g => Bool.eqb (truthy f) (truthy g) && set_eqb String.eqb vs ws
    | BReal vs, BReal ws => set_eqb eeqb vs ws
    | BInt i, BInt j => iv_eqb i j
    | _, _ => false
    end.

  (** src/sets.py:307-309 Union.__eq__, :35-36 EmptySetC.__eq__ *)
  Definition peqb (s t : pset) : bool :=
    match s, t with
    | PEmpty, PEmpty => true
    | PB b, PB c => beqb b c
    | PUnion u, PUnion w => set_eqb beqb u w
    | _, _ => false
    end.

  Definition is_empty (s : pset) : bool := match s with PEmpty => true | _ => false end.

  (** ** Parts of a Union (src/sets.py:280-304) *)
  Definition is_nom (b : bset) := match b with BNom _ _ => true | _ => false end.
  Definition is_real (b : bset) := match b with BReal _ => true | _ => false end.
  Definition get_iv (b : bset) : list interval := match b with BInt i => [i] | _ => [] end.
  Definition u_nominals (u : list bset) : pset :=
    match find is_nom u with Some b => PB b | None => PEmpty end.
  Definition u_atoms (u : list bset) : pset :=
    match find is_real u with Some b => PB b | None => PEmpty end.
  Definition u_intervals (u : list bset) : list interval :=
    it_iv io (dedup iv_eqb (flat_map get_iv u)).
  Definition opt_list (s : pset) : list bset := match s with PB b => [b] | _ => [] end.
  (** the frozenset [values], in iteration order *)
  Definition u_values (u : list bset) : list bset :=
    it_bs io (opt_list (u_nominals u) ++ opt_list (u_atoms u) ++ map BInt (u_intervals u)).

  (** [x in S], src/sets.py:22-23, 305-306; any() stops at the first True *)
  Fixpoint anyM (f : bset -> res bool) (l : list bset) : res bool :=
    match l with
    | [] => Ok false
    | x :: l => do b <- f x; if b then Ok true else anyM f l
    end.
  Definition contains (v : val) (s : pset) : res bool :=
    match s with
    | PEmpty => Ok false
    | PB b => bcontains v b
    | PUnion u => anyM (bcontains v) (u_values u)
    end.

  (** src/sets.py:280-304 Union.__init__ *)
  Definition Union_ (values : list pset) : res pset :=
    do _ <- passert (forallb (fun s => match s with PUnion _ => false | _ => true end) values);
    let valuesne := flat_map opt_list values in
    do _ <- passert (negb (is_nil valuesne));
    do _ <- passert (Nat.leb (List.length (filter is_nom valuesne)) 1);
    do _ <- passert (Nat.leb (List.length (filter is_real valuesne)) 1);
    do _ <- passert (Nat.leb 2 (List.length (dedup beqb (u_values valuesne))));
    Ok (PUnion valuesne).

  (** ** Intersection *)

  (** src/sets.py:60-71 FiniteNominal.__and__ with a FiniteNominal *)
  Definition and_nom (vs : list string) (b : pyflag) (ws : list string) (c : pyflag) : pset :=
    if negb (truthy b) then fnom_or_empty (filter (fun v => nom_contains v ws c) vs)
    else if negb (truthy c) then fnom_or_empty (filter (fun v => nom_contains v vs b) ws)
    else PB (BNom (dedup String.eqb (vs ++ ws)) (Some true)).

  (** src/sets.py:205-227 Interval.__and__ with an Interval; [s] is self *)
  Definition iv_and (s x : interval) : res pset :=
    if iv_eqb x s then Ok (PB (BInt x))
    else if iv_contains (iv_a x) s && iv_contains (iv_b x) s then Ok (PB (BInt x))
    else if iv_contains (iv_a s) x && iv_contains (iv_b s) x then Ok (PB (BInt s))
    else if iv_contains (iv_a x) s then
      (if eeqb (iv_b s) (iv_a x) then
         Ok (if iv_contains (iv_a x) x then PB (BReal [iv_a x]) else PEmpty)
       else do i <- Interval_ (iv_a x) (iv_b s) (iv_lo x) (iv_ro s); Ok (PB (BInt i)))
    else if iv_contains (iv_b x) s then
      (if eeqb (iv_a s) (iv_b x) then
         Ok (if iv_contains (iv_b x) x then PB (BReal [iv_b x]) else PEmpty)
       else do i <- Interval_ (iv_a s) (iv_b x) (iv_lo s) (iv_ro x); Ok (PB (BInt i)))
    else if eeqb (iv_a s) (iv_a x) then
      do i <- Interval_ (iv_a s) (iv_b s) (iv_lo s || iv_lo x) (iv_ro s); Ok (PB (BInt i))
    else if eeqb (iv_b s) (iv_b x) then
      do i <- Interval_ (iv_a s) (iv_b s) (iv_lo s) (iv_ro s || iv_ro x); Ok (PB (BInt i))
    else Ok PEmpty.

  (** src/sets.py:125-133 FiniteReal.__and__ with a FiniteReal, an Interval *)
  Definition and_real_real (vs ws : list enum) : pset :=
    freal_or_empty (filter (fun v => inb eeqb v ws) vs).
  Definition and_real_iv (vs : list enum) (i : interval) : pset :=
    freal_or_empty (filter (fun v => iv_contains v i) vs).

  (** basic & basic: src/sets.py:60-75 (nominal), 125-140 (finite), 205-230 (interval).
      Interval & other calls other & Interval (:228-229). *)
  Definition and_bb (s x : bset) : res pset :=
    match s, x with
    | BNom vs b, BNom ws c => Ok (and_nom vs b ws c)
    | BNom _ _, (BReal _ | BInt _) => Ok PEmpty
    | BReal vs, BReal ws => Ok (and_real_real vs ws)
    | BReal vs, BInt i => Ok (and_real_iv vs i)
    | BReal _, BNom _ _ => Ok PEmpty
    | BInt i, BInt j => iv_and i j
    | BInt i, BReal vs => Ok (and_real_iv vs i)
    | BInt _, BNom _ _ => Ok PEmpty
    end.

  (** EmptySet & x, basic & x where the left operand may be EmptySet
      (src/sets.py:27-30) *)
  Definition and_pb (s : pset) (x : bset) : res pset :=
    match s with PB b => and_bb b x | _ => Ok PEmpty end.

  (** src/sets.py:320-333 Union.__and__ with a basic set *)
  Definition and_ub (u : list bset) (x : bset) : res pset :=
    match x with
    | BNom _ _ => and_pb (u_nominals u) x
    | _ =>
      do atoms <- and_pb (u_atoms u) x;
      do ivs <- mapM (fun i => and_bb (BInt i) x) (u_intervals u);
      let ivsne := filter (fun s => negb (is_empty s)) ivs in
      match is_empty atoms, ivsne with
      | true, [] => Ok PEmpty
      | true, [i] => Ok i
      | false, [] => Ok atoms
      | _, _ => Union_ (atoms :: ivsne)
      end
    end.

  (** ** Union *)

  (** src/sets.py:76-84 FiniteNominal.__or__ with a FiniteNominal *)
  Definition or_nom (vs : list string) (b : pyflag) (ws : list string) (c : pyflag) : res pset :=
    if truthy b then FiniteNominal (filter (fun v => negb (nom_contains v ws c)) vs) b
    else if truthy c then FiniteNominal (filter (fun v => negb (nom_contains v vs b)) ws) c
    else FiniteNominal (vs ++ ws) (Some false).

  (** tuples (endpoint, open flag) compared lexicographically, False < True *)
  Definition ep_leb (p q : enum * bool) : bool :=
    eltb (fst p) (fst q) || (eeqb (fst p) (fst q) && implb (snd p) (snd q)).

  (** src/sets.py:231-249 Interval.__or__ with an Interval *)
  Definition iv_or (s x : interval) : res pset :=
    if iv_eqb s x then Ok (PB (BInt s))
    else
      do inter <- iv_and x s;
      if is_empty inter
         && negb (iv_contains (iv_a s) x) && negb (iv_contains (iv_b s) x)
         && negb (iv_contains (iv_a x) s) && negb (iv_contains (iv_b x) s)
      then Union_ [PB (BInt s); PB (BInt x)]
      else
        match sort ep_leb [(iv_a s, iv_lo s); (iv_b s, iv_ro s); (iv_a x, iv_lo x); (iv_b x, iv_ro x)] with
        | [al; am; bm; br] =>
          let lo := if eltb (fst al) (fst am) then snd al else snd al && snd am in
          let ro := if eltb (fst bm) (fst br) then snd br else snd bm && snd br in
          do i <- Interval_ (fst al) (fst br) lo ro; Ok (PB (BInt i))
        | _ => Raise AssertionError (* unreachable: four elements *)
        end.

  Definition remove_num (x : enum) (vs : list enum) := filter (fun v => negb (eeqb x v)) vs.

  (** src/sets.py:141-157 FiniteReal.__or__ with an Interval *)
  Definition or_real_iv (vs : list enum) (i : interval) : res pset :=
    do st <- (if inb eeqb (iv_a i) vs && iv_lo i then
                do j <- Interval_ (iv_a i) (iv_b i) false (iv_ro i);
                Ok (remove_num (iv_a i) vs, j)
              else Ok (vs, i));
    let '(vs, i) := st in
    do st <- (if inb eeqb (iv_b i) vs && iv_ro i then
                do j <- Interval_ (iv_a i) (iv_b i) (iv_lo i) false;
                Ok (remove_num (iv_b i) vs, j)
              else Ok (vs, i));
    let '(vs, i) := st in
    match filter (fun v => negb (iv_contains v i)) vs with
    | [] => Ok (PB (BInt i))
    | ws => do f <- FiniteReal ws; Union_ [f; PB (BInt i)]
    end.

  (** basic | basic: src/sets.py:76-90 (nominal), 141-163 (finite), 231-252 (interval) *)
  Definition or_bb (s x : bset) : res pset :=
    match s, x with
    | BNom vs b, BNom ws c => or_nom vs b ws c
    | BNom _ _, (BReal _ | BInt _) => Union_ [PB s; PB x]
    | BReal vs, BReal ws => FiniteReal (vs ++ ws)
    | BReal vs, BInt i => or_real_iv vs i
    | BReal _, BNom _ _ => Union_ [PB s; PB x]
    | BInt i, BInt j => iv_or i j
    | BInt i, BReal vs => or_real_iv vs i
    | BInt _, BNom _ _ => Union_ [PB x; PB s]
    end.

  (** EmptySet | x and basic | x (src/sets.py:31-34) *)
  Definition or_pb (s : pset) (x : bset) : res pset :=
    match s with PB b => or_bb b x | _ => Ok (PB x) end.

  (** src/sets.py:366-377 union_intervals: sort by left end, merge with last block.
      Blocks are kept with the last one in front and reversed at the end. *)
  Definition iv_leb (i j : interval) : bool := eleb (iv_a i) (iv_a j).
  Fixpoint merge_blocks (last : interval) (done : list interval) (l : list interval)
    : res (list interval) :=
    match l with
    | [] => Ok (rev (last :: done))
    | i :: l =>
      do u <- iv_or last i;
      match u with
      | PB (BInt j) => merge_blocks j done l
      | PUnion _ => merge_blocks i (last :: done) l
      | _ => Raise AssertionError
      end
    end.
  Definition union_intervals (l : list interval) : res (list interval) :=
    match sort iv_leb l with
    | [] => Raise IndexError
    | i :: l => merge_blocks i [] l
    end.

  (** src/sets.py:379-400 union_intervals_finite.  finite is EmptySet (None) or the
      values of a FiniteReal. *)
  Definition iv_or_finite (i : interval) (fin : option (list enum)) : res pset :=
    match fin with None => Ok (PB (BInt i)) | Some vs => or_real_iv vs i end.
  Fixpoint absorb (l : list interval) (fin : option (list enum))
    : res (list interval * option (list enum)) :=
    match l with
    | [] => Ok ([], fin)
    | i :: l =>
      do u <- iv_or_finite i fin;
      match u with
      | PB (BInt j) =>
        do r <- absorb l None; Ok (j :: fst r, snd r)
      | PUnion w =>
        match u_atoms w, u_intervals w with
        | PB (BReal vs), [j] => do r <- absorb l (Some vs); Ok (j :: fst r, snd r)
        | _, _ => Raise AssertionError
        end
      | _ => Raise AssertionError
      end
    end.
  Definition union_intervals_finite (l : list interval) (fin : option (list enum))
    : res (list bset) :=
    match fin with
    | None => do bs <- union_intervals l; Ok (map BInt bs)
    | Some _ =>
      do r <- absorb l fin;
      do bs <- union_intervals (fst r);
      Ok (map BInt bs ++ match snd r with Some vs => [BReal vs] | None => [] end)
    end.
  Definition as_finite (s : pset) : option (list enum) :=
    match s with PB (BReal vs) => Some vs | _ => None end.

  (** src/sets.py:337-359 Union.__or__ with a basic set *)
  Definition or_ub_finish (u : list bset) (blocks : list bset) : res pset :=
    do _ <- passert (negb (is_nil blocks));
    match blocks, u_nominals u with
    | [b], PEmpty => Ok (PB b)
    | _, noms => Union_ (noms :: map PB blocks)
    end.
  Definition or_ub (u : list bset) (x : bset) : res pset :=
    match x with
    | BNom _ _ =>
      do noms <- or_pb (u_nominals u) x;
      Union_ (noms :: u_atoms u :: map (fun i => PB (BInt i)) (u_intervals u))
    | BReal _ =>
      do atoms <- or_pb (u_atoms u) x;
      do blocks <- union_intervals_finite (u_intervals u) (as_finite atoms);
      or_ub_finish u blocks
    | BInt i =>
      do blocks <- union_intervals_finite (u_intervals u ++ [i]) (as_finite (u_atoms u));
      or_ub_finish u blocks
    end.

  (** A | B for every pair of sets.  basic | Union calls Union | basic
      (src/sets.py:86-88, 160-162, 250-251). *)
  Definition por_b (s : pset) (x : bset) : res pset :=
    match s with
    | PEmpty => Ok (PB x)
    | PB b => or_bb b x
    | PUnion u => or_ub u x
    end.
  Definition por (s t : pset) : res pset :=
    match s, t with
    | PEmpty, _ => Ok t
    | PB b, PEmpty => Ok s
    | PB b, PB c => or_bb b c
    | PB b, PUnion u => or_ub u b
    | PUnion u, PEmpty => Ok s
    | PUnion u, PB c => or_ub u c
    | PUnion u, PUnion w => foldM por_b (u_values w) s
    end.

  (** A & B for every pair of sets (src/sets.py:27-30, 60-75, 125-140, 205-230, 317-336) *)
  Definition pand (s t : pset) : res pset :=
    match s, t with
    | PEmpty, _ => Ok PEmpty
    | PB b, PEmpty => Ok PEmpty
    | PB b, PB c => and_bb b c
    | PB b, PUnion u => and_ub u b
    | PUnion u, PEmpty => Ok PEmpty
    | PUnion u, PB c => and_ub u c
    | PUnion u, PUnion w =>
      do terms <- mapM (and_ub u) (u_values w);
      reduceM por terms
    end.

  (** ** Complement *)

  (** src/sets.py:195-204 Interval.__invert__ *)
  Definition inv_iv (i : interval) : res pset :=
    if is_ninf (iv_a i) then
      if is_pinf (iv_b i) then Ok PEmpty
      else do r <- Interval_ (iv_b i) PInf (negb (iv_ro i)) false; Ok (PB (BInt r))
    else if is_pinf (iv_b i) then
      do l <- Interval_ NInf (iv_a i) false (negb (iv_lo i)); Ok (PB (BInt l))
    else
      do l <- Interval_ NInf (iv_a i) false (negb (iv_lo i));
      do r <- Interval_ (iv_b i) PInf (negb (iv_ro i)) false;
      Union_ [PB (BInt l); PB (BInt r)].

  (** src/sets.py:114-124 FiniteReal.__invert__ *)
  Fixpoint gaps (x : enum) (l : list enum) : res (list interval) :=
    match l with
    | [] => do r <- Lopen x PInf; Ok [r]
    | y :: l => do i <- open_ x y; do r <- gaps y l; Ok (i :: r)
    end.
  Definition inv_real (vs : list enum) : res pset :=
    match sort eleb vs with
    | [] => Raise IndexError (* a FiniteReal is never empty *)
    | x :: l =>
      do i <- Ropen NInf x;
      do r <- gaps x l;
      Union_ (map (fun i => PB (BInt i)) (i :: r))
    end.

  (** src/sets.py:55-59 FiniteNominal.__invert__ *)
  Definition inv_nom (vs : list string) (b : pyflag) : res pset :=
    match vs with
    | [] => do _ <- passert (truthy b); Ok PEmpty
    | _ => FiniteNominal vs (Some (negb (truthy b)))
    end.

  Definition inv_b (b : bset) : res pset :=
    match b with
    | BNom vs f => inv_nom vs f
    | BReal vs => inv_real vs
    | BInt i => inv_iv i
    end.

  (** src/sets.py:24-26 EmptySet.__invert__, :360-362 Union.__invert__ *)
  Definition pinv (s : pset) : res pset :=
    match s with
    | PEmpty => do i <- Interval_ NInf PInf false false; Ok (PB (BInt i))
    | PB b => inv_b b
    | PUnion u => do inversions <- mapM inv_b (u_values u); reduceM pand inversions
    end.

  (** src/sets.py:402-405 make_union, make_intersection *)
  Definition make_union (l : list pset) : res pset := reduceM por l.
  Definition make_intersection (l : list pset) : res pset := reduceM pand l.

  (** src/sets.py:407-418 constants *)
  Definition n0 : enum := Fin (nint 0).
  Definition Reals : pset := PB (BInt (mkIv NInf PInf true true)).
  Definition RealsPos : pset := PB (BInt (mkIv n0 PInf false true)).
  Definition RealsNeg : pset := PB (BInt (mkIv NInf n0 true false)).
  Definition ExtReals : pset := PUnion [BReal [NInf; PInf]; BInt (mkIv NInf PInf true true)].
  Definition ExtRealsPos : pset := PUnion [BReal [PInf]; BInt (mkIv n0 PInf false true)].
  Definition Strings : pset := PB (BNom [] (Some true)).

  (** src/math_util.py:53-54 int_or_isinf_neg, int_or_isinf_pos *)
  Definition is_int (x : num N) : bool := neqb x (nint (nfloor x)).
  Definition int_or_isinf_neg (x : enum) : res bool :=
    match x with NInf => Ok true | Fin a => Ok (is_int a) | PInf => Raise ValueError (* int(inf): OverflowError *) end.
  Definition int_or_isinf_pos (x : enum) : res bool :=
    match x with PInf => Ok true | Fin a => Ok (is_int a) | NInf => Raise ValueError end.
  Definition eadd_bool (x : enum) (b : bool) : enum :=
    if b then match x with Fin a => Fin (nadd a (nint 1)) | _ => x end else x.
  (** src/sets.py:419-423 Range *)
  Definition Range (start stop : enum) : res interval :=
    do b1 <- int_or_isinf_neg start;
    do _ <- passert b1;
    do b2 <- int_or_isinf_pos stop;
    do _ <- passert b2;
    let ro := eeqb start stop in
    Interval_ start (eadd_bool stop ro) false ro.
End Sets.
Arguments pset : clear implicits.
Arguments bset : clear implicits.
Arguments interval : clear implicits.
Arguments val : clear implicits.
Arguments iterorder : clear implicits.
