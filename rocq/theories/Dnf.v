(** Model of src/dnf.py: factoring, normalisation and disjoint union of events in
    disjunctive normal form. *)
From Coq Require Import List Bool String.
From Verif Require Import Base Num Sets Poly Trans.
Import ListNotations.

Section Dnf.
  Context {N : numsys} (io : iterorder N) (po : polyoracle N) (fuel : nat).
  Notation tr := (tr N).
  Notation pset := (pset N).

  (** the dictionaries of src/dnf.py:14-64 in insertion order: key -> conjunction.  Keys are
      the values of [lookup]; they are strings here. *)
  Definition clause := list (string * tr).
  (** the tuple of dictionaries returned by src/dnf.py:14-64 *)
  Definition factor := list clause.

  (** src/dnf.py:53-56: events[key] = ev or events[key] &= ev *)
  Fixpoint add_key (c : clause) (key : string) (ev : tr) : res clause :=
    match c with
    | [] => Ok [(key, ev)]
    | (k, e) :: c =>
      if String.eqb key k then do e' <- ev_and io e ev; Ok ((k, e') :: c)
      else do c' <- add_key c key ev; Ok ((k, e) :: c')
    end.

  (** src/dnf.py:37-43: a literal *)
  Definition factor_lit (lookup_ : list (string * string)) (e : tr) : res (string * tr) :=
    match symbols e with
    | [s] => match lookup s lookup_ with Some k => Ok (k, e) | None => Raise KeyError end
    | _ => Raise AssertionError
    end.
  (** src/dnf.py:45-57: a conjunction of literals *)
  Definition factor_and (lookup_ : list (string * string)) (l : list tr) : res clause :=
    do _ <- passert (forallb is_basic l);
    foldM (fun c e => do ke <- factor_lit lookup_ e; add_key c (fst ke) (snd ke)) l [].
  (** src/dnf.py:37-57: a clause *)
  Definition factor_clause (lookup_ : list (string * string)) (e : tr) : res clause :=
    match e with
    | EBasic _ _ _ => do ke <- factor_lit lookup_ e; Ok [ke]
    | EAnd l => factor_and lookup_ l
    | _ => Raise AssertionError
    end.
  (** src/dnf.py:14-64 dnf_factor(event, lookup) *)
  Definition dnf_factor_with (lookup_ : list (string * string)) (e : tr) : res factor :=
    match e with
    | EBasic _ _ _ | EAnd _ => do c <- factor_clause lookup_ e; Ok [c]
    | EOr l =>
      do _ <- passert (forallb (fun e => is_and e || is_basic e) l);
      mapM (factor_clause lookup_) l
    | _ => Raise AssertionError
    end.
  (** src/dnf.py:34-35: the default lookup maps every symbol to itself *)
  Definition dnf_factor (e : tr) : res factor :=
    dnf_factor_with (map (fun s => (s, s)) (symbols e)) e.

  (** src/dnf.py:75-76: the solutions of one clause *)
  Definition solve_clause (c : clause) : res (list (string * pset)) :=
    mapM (fun p => do v <- solve io po fuel (snd p); Ok (fst p, v)) c.
  (** src/dnf.py:74: all(y[1] is not EmptySet for y in x) *)
  Definition all_nonempty (c : list (string * pset)) : bool :=
    forallb (fun p => negb (is_empty (snd p))) c.
  (** list and tuple equality, src/dnf.py:82 [clause not in solutions[:i]] *)
  Definition sol_eqb (c d : list (string * pset)) : bool :=
    list_eqb (fun p q => String.eqb (fst p) (fst q) && peqb (snd p) (snd q)) c d.
  (** src/dnf.py:82: the clauses not seen before; [seen] is solutions[:i] *)
  Fixpoint unseen (seen l : list (list (string * pset))) : list (list (string * pset)) :=
    match l with
    | [] => []
    | c :: l =>
      if inb sol_eqb c seen then unseen (seen ++ [c]) l else c :: unseen (seen ++ [c]) l
    end.
  (** src/dnf.py:81 reduce(lambda x, e: x & e, [(symbol << S) for symbol, S in clause]) *)
  Definition conj_of (c : list (string * pset)) : res tr :=
    do es <- mapM (fun p => t_in io (TId (fst p)) (snd p)) c;
    reduceM (ev_and io) es.

  (** src/dnf.py:66-86 dnf_normalize; None is Python's None *)
  Definition dnf_normalize (e : tr) : res (option tr) :=
    match e with
    | EBasic _ (TId _) _ => Ok (Some e)
    | _ =>
      do d <- to_dnf e;
      do f <- dnf_factor d;
      do sols <- mapM solve_clause f;
      match filter all_nonempty sols with
      | [] => Ok None
      | solutions =>
        do cs <- mapM conj_of (unseen [] solutions);
        do d <- reduceM (ev_or io) cs;
        do d' <- to_dnf d; Ok (Some d')
      end
    end.

  (** src/dnf.py:101-106: solutions[i][symbol] & solutions[j][symbol], symbol in solutions[i].
      any() stops at the first empty one, and the generator is evaluated no further. *)
  Fixpoint overlap_any (ci cj : list (string * pset)) : res bool :=
    match ci with
    | [] => Ok false
    | (s, v) :: ci =>
      do x <- match lookup s cj with Some w => pand io v w | None => Ok v end;
      if is_empty x then Ok true else overlap_any ci cj
    end.
  (** src/dnf.py:88-117 dnf_non_disjoint_clauses: for clause j, the earlier clauses i that
      overlap it, in increasing order.  The test at lines 110-111 compares a dictionary with
      EmptySet and never succeeds. *)
  Fixpoint overlaps (earlier : list (list (string * pset) * tr)) (cj : list (string * pset)) : res (list tr) :=
    match earlier with
    | [] => Ok []
    | (ci, e) :: earlier =>
      do disj <- overlap_any ci cj;
      do r <- overlaps earlier cj;
      Ok (if disj then r else e :: r)
    end.
  (** src/dnf.py:95-115: for every clause of the event, itself and the earlier clauses it
      overlaps.  The combinations are visited for each j instead of for each i. *)
  Fixpoint overlap_table (earlier : list (list (string * pset) * tr)) (l : list (list (string * pset) * tr))
    : res (list (tr * list tr)) :=
    match l with
    | [] => Ok []
    | (c, e) :: l =>
      do o <- overlaps earlier c;
      do r <- overlap_table (earlier ++ [(c, e)]) l;
      Ok ((e, o) :: r)
    end.
  (** src/dnf.py:88-117 dnf_non_disjoint_clauses on the clauses [l] of an EventOr *)
  Definition non_disjoint (l : list tr) : res (list (tr * list tr)) :=
    do f <- dnf_factor (EOr l);
    do sols <- mapM solve_clause f;
    overlap_table [] (combine sols l).

  (** src/dnf.py:131-137: state & ~event for the overlapping clauses *)
  Definition cascade (p : tr * list tr) : res tr :=
    foldM (fun state e => do n <- ev_not io e; ev_and io state n) (snd p) (fst p).
  Definition somes {A} (l : list (option A)) : list A :=
    flat_map (fun o => match o with Some a => [a] | None => [] end) l.

  (** src/dnf.py:119-143 dnf_to_disjoint_union; [n] bounds the depth of the recursion *)
  Fixpoint disjoint_union (n : nat) (e : tr) : res tr :=
    match e with
    | EBasic _ _ _ | EAnd _ => Ok e
    | EOr l =>
      do t <- non_disjoint l;
      if forallb (fun p => is_nil (snd p)) t then Ok e
      else
        match n with
        | O => Raise OutOfFuel
        | S n =>
          do cs <- mapM cascade t;
          do ns <- mapM dnf_normalize cs;
          do sols <- mapM (disjoint_union n) (somes ns);
          reduceM (ev_or io) sols
        end
    | _ => Raise AttributeError
    end.
End Dnf.
