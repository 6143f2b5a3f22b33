(** Model of src/compilers/spe_to_dict.py: expressions as dictionaries and back.

    The dictionaries hold the texts that repr() gives for the supports and the environments, and
    eval() reads them.  The model has the syntax trees of these texts.  Simplifications: the
    values of a finite set are printed in the order of the list that stands for the frozenset
    (sets are equal whatever the order); eval(repr(c)) of a number c is an oracle, and so is
    getattr(scipy.stats, name)( *args, **kwds ) for the name, args and kwds of a distribution. *)
From Coq Require Import List Bool String ZArith QArith.
From Verif Require Import Base Num Sets Poly Trans Logs Spe.
Import ListNotations.
Local Open Scope list_scope.
Local Open Scope string_scope.

Section Dict.
  Context {N : numsys} (io : iterorder N) (po : polyoracle N) (fuel : nat).
  Context {S : logsys} {D : distsys N S}.
  Notation enum := (ext (num N)).
  Notation num := (num N).
  Notation tr := (tr N).
  Notation pset := (pset N).
  Notation spe := (spe D).

  (** ** The texts *)
  (** Python expressions as repr prints them; [RBad] is text that does not parse *)
  Inductive rexp :=
  | RName (s : string)
  | RNum (c : enum)
  | RInt (z : Z)
  | RText (s : string)
  | RBool (b : bool)
  | RNone
  | RSeq (l : list rexp)
  | RCall (f : string) (args : list rexp) (kws : list (string * rexp))
  | RBad.

  Definition repr_flag (b : pyflag) : rexp := match b with Some b => RBool b | None => RNone end.
  (** src/sets.py:262-264 Interval.__repr__ *)
  Definition repr_interval (i : interval N) : rexp :=
    RCall "Interval" [RNum (iv_a i); RNum (iv_b i)] [("left_open", RBool (iv_lo i)); ("right_open", RBool (iv_ro i))].
  (** src/sets.py:97-99, 167-168 __repr__: FiniteNominal(, b=True) is no Python *)
  Definition repr_basic (b : bset N) : rexp :=
    match b with
    | BNom [] _ => RBad
    | BNom vs f => RCall "FiniteNominal" (map RText vs) [("b", repr_flag f)]
    | BReal vs => RCall "FiniteReal" (map RNum vs) []
    | BInt i => repr_interval i
    end.
  (** src/sets.py:41-42, 313-314 __repr__ *)
  Definition repr_set (s : pset) : rexp :=
    match s with
    | PEmpty => RName "EmptySet"
    | PB b => repr_basic b
    | PUnion l => RCall "Union" (map repr_basic l) []
    end.
  Definition event_class (k : ekind) : string :=
    match k with KInt => "EventInterval" | KReal => "EventFiniteReal" | KNom => "EventFiniteNominal" end.
  (** src/transforms.py:389, 433, 474, 515, 565, 621, 678, 748, 982, 1015, 1068, 1134, 1187 __repr__ *)
  Fixpoint repr_tr (t : tr) : rexp :=
    match t with
    | TId x => RCall "Identity" [RText x] []
    | TRadical u d => RCall "Radical" [repr_tr u] [("degree", RInt (Zpos d))]
    | TExp u b => RCall "Exponential" [repr_tr u] [("base", RNum (Fin b))]
    | TLog u b => RCall "Logarithm" [repr_tr u] [("base", RNum (Fin b))]
    | TAbs u => RCall "Abs" [repr_tr u] []
    | TRecip u => RCall "Reciprocal" [repr_tr u] []
    | TPoly u cs => RCall "Poly" [repr_tr u] [("coeffs", RSeq (map (fun c => RNum (Fin c)) cs))]
    | TPiece l => RCall "Piecewise" [RSeq (map (fun p => repr_tr (fst p)) l)] [("events", RSeq (map (fun p => repr_tr (snd p)) l))]
    | EBasic k u v => RCall (event_class k) [repr_tr u] [("values", repr_set v)]
    | EOr l => RCall "EventOr" [RSeq (map repr_tr l)] []
    | EAnd l => RCall "EventAnd" [RSeq (map repr_tr l)] []
    end.

  (** ** eval *)
  (** what the expressions evaluate to; tuples and lists are not distinguished *)
  Inductive rval := RvTr (t : tr) | RvSet (s : pset) | RvNum (c : enum) | RvInt (z : Z) | RvText (s : string) | RvFlag (b : pyflag) | RvSeq (l : list rval).
  Definition as_tr (v : rval) : res tr := match v with RvTr t => Ok t | _ => Raise TypeError end.
  Definition as_set (v : rval) : res pset := match v with RvSet s => Ok s | _ => Raise TypeError end.
  Definition as_num (v : rval) : res enum := match v with RvNum c => Ok c | _ => Raise TypeError end.
  Definition as_fin (v : rval) : res num := match v with RvNum (Fin c) => Ok c | _ => Raise TypeError end.
  Definition as_text (v : rval) : res string := match v with RvText s => Ok s | _ => Raise TypeError end.
  Definition as_flag (v : rval) : res pyflag := match v with RvFlag b => Ok b | _ => Raise TypeError end.
  Definition as_seq (v : rval) : res (list rval) := match v with RvSeq l => Ok l | _ => Raise TypeError end.
  (** the calls of the constructors: src/sets.py:47, 108, 177, 280; src/transforms.py:358, 404, 443, 486,
      532, 576, 630, 704, 913, 1001, 1031, 1078 __init__ *)
  Definition construct (f : string) (args : list rval) (kws : list (string * rval)) : res rval :=
    let one := match args with [v] => Ok v | _ => Raise TypeError end in
    let key k := match kws with [(k', v)] => if String.eqb k' k then Ok v else Raise TypeError | _ => Raise TypeError end in
    if String.eqb f "Identity" then do v <- one; do x <- as_text v; Ok (RvTr (TId x))
    else if String.eqb f "Radical" then
      do v <- one; do u <- as_tr v; do d <- key "degree";
      match d with RvInt (Zpos p) => Ok (RvTr (TRadical u p)) | _ => Raise AssertionError end
    else if String.eqb f "Exponential" then
      do v <- one; do u <- as_tr v; do w <- key "base"; do b <- as_fin w;
      do _ <- passert (nltb (nint 0) b); Ok (RvTr (TExp u b))
    else if String.eqb f "Logarithm" then
      do v <- one; do u <- as_tr v; do w <- key "base"; do b <- as_fin w; do t <- Logarithm u b; Ok (RvTr t)
    else if String.eqb f "Abs" then do v <- one; do u <- as_tr v; Ok (RvTr (TAbs u))
    else if String.eqb f "Reciprocal" then do v <- one; do u <- as_tr v; Ok (RvTr (TRecip u))
    else if String.eqb f "Poly" then
      do v <- one; do u <- as_tr v; do w <- key "coeffs"; do l <- as_seq w; do cs <- mapM as_fin l; do t <- Poly_ u cs; Ok (RvTr t)
    else if String.eqb f "Piecewise" then
      do v <- one; do l <- as_seq v; do ss <- mapM as_tr l; do w <- key "events"; do m <- as_seq w; do es <- mapM as_tr m;
      do t <- Piecewise io po fuel ss es; Ok (RvTr t)
    else if String.eqb f "EventInterval" then
      do v <- one; do u <- as_tr v; do w <- key "values"; do s <- as_set w; do t <- EventInterval u s; Ok (RvTr t)
    else if String.eqb f "EventFiniteReal" then
      do v <- one; do u <- as_tr v; do w <- key "values"; do s <- as_set w; do t <- EventFiniteReal u s; Ok (RvTr t)
    else if String.eqb f "EventFiniteNominal" then
      do v <- one; do u <- as_tr v; do w <- key "values"; do s <- as_set w; do t <- EventFiniteNominal u s; Ok (RvTr t)
    else if String.eqb f "EventOr" then do v <- one; do l <- as_seq v; do es <- mapM as_tr l; do t <- EventOr es; Ok (RvTr t)
    else if String.eqb f "EventAnd" then do v <- one; do l <- as_seq v; do es <- mapM as_tr l; do t <- EventAnd es; Ok (RvTr t)
    else if String.eqb f "FiniteNominal" then
      do vs <- mapM as_text args; do w <- key "b"; do b <- as_flag w; do s <- FiniteNominal vs b; Ok (RvSet s)
    else if String.eqb f "FiniteReal" then do vs <- mapM as_num args; do s <- FiniteReal vs; Ok (RvSet s)
    else if String.eqb f "Interval" then
      match args, kws with
      | [a; b], [(k, l); (k', r)] =>
        if String.eqb k "left_open" && String.eqb k' "right_open" then
          do a <- as_num a; do b <- as_num b; do l <- as_flag l; do r <- as_flag r;
          do i <- Interval_ a b (truthy l) (truthy r); Ok (RvSet (PB (BInt i)))
        else Raise TypeError
      | _, _ => Raise TypeError
      end
    else if String.eqb f "Union" then do ss <- mapM as_set args; do s <- Union_ io ss; Ok (RvSet s)
    else Raise ValueError.

  (** eval(repr(c)) for a number: an exact SymPy number such as 1/3 becomes a float, and a name that is not imported raises *)
  Context (reparse : enum -> res enum).
  Fixpoint eval (e : rexp) : res rval :=
    match e with
    | RName s => if String.eqb s "EmptySet" then Ok (RvSet PEmpty) else Raise ValueError
    | RNum c => do c <- reparse c; Ok (RvNum c)
    | RInt z => Ok (RvInt z)
    | RText s => Ok (RvText s)
    | RBool b => Ok (RvFlag (Some b))
    | RNone => Ok (RvFlag None)
    | RSeq l => do vs <- mapM eval l; Ok (RvSeq vs)
    | RCall f args kws =>
      do vs <- mapM eval args;
      do ks <- mapM (fun p => do v <- eval (snd p); Ok (fst p, v)) kws;
      construct f vs ks
    | RBad => Raise ValueError
    end.
  Definition eval_tr (e : rexp) : res tr := do v <- eval e; as_tr v.
  Definition eval_interval (e : rexp) : res (interval N) :=
    do v <- eval e; match v with RvSet (PB (BInt i)) => Ok i | _ => Raise AssertionError end.

  (** ** Dictionaries *)
  (** src/compilers/spe_to_dict.py:92-140: the dictionaries of the six classes *)
  Definition denv := option (list (rexp * rexp)).
  Inductive dict :=
  | DNominal (x : string) (ws : list (string * (Z * BinNums.positive))) (env : denv)
  | DAtomic (x : string) (v : num) (env : denv)
  | DReal (disc : bool) (x : string) (d : dist D) (supp : rexp) (cond : bool) (env : denv)
  | DSum (l : list dict) (ws : list (lg S))
  | DProduct (l : list dict).
  (** src/compilers/spe_to_dict.py:42-45 env_to_dict *)
  Definition env_to_dict (env : tenv (N:=N)) : denv :=
    if Nat.eqb (List.length env) 1 then None else Some (map (fun p => (repr_tr (TId (fst p)), repr_tr (snd p))) env).
  (** src/compilers/spe_to_dict.py:36-40 env_from_dict *)
  Definition env_from_dict (env : denv) : res (option (tenv (N:=N))) :=
    match env with
    | None => Ok None
    | Some l =>
      do m <- mapM (fun p => do k <- eval_tr (fst p); do v <- eval_tr (snd p); match k with TId x => Ok (x, v) | _ => Raise TypeError end) l;
      Ok (Some m)
    end.
  (** src/compilers/spe_to_dict.py:92-141 spe_to_dict *)
  Fixpoint spe_to_dict (s : spe) : dict :=
    match s with
    | NominalLeaf x ws => DNominal x (map (fun p => (fst p, (Qnum (snd p), Qden (snd p)))) ws) (env_to_dict (base_env x))
    | AtomicLeaf x v env => DAtomic x v (env_to_dict env)
    | RealLeaf disc x d supp cond env => DReal disc x d (repr_interval supp) cond (env_to_dict env)
    | SumSPE l => DSum (map (fun c => spe_to_dict (fst c)) l) (map snd l)
    | ProductSPE l => DProduct (map spe_to_dict l)
    end.

  (** env or OrderedDict([(symbol, symbol)]): src/spe.py:708, 939 *)
  Definition env_or (x : string) (env : option (tenv (N:=N))) : tenv := match env with Some (p :: l) => p :: l | _ => base_env x end.
  (** src/compilers/spe_to_dict.py:47-49 scipy_dist_from_dict, and float(v) of line 65 *)
  Context (redist : dist D -> res (dist D)) (tofloat : num -> num).
  (** src/compilers/spe_to_dict.py:58-90 spe_from_dict; Fraction(n, d) is in lowest terms *)
  Fixpoint spe_from_dict (m : dict) : res spe :=
    match m with
    | DNominal x ws _ => mk_NominalLeaf (N:=N) x (map (fun p => (fst p, Qred (fst (snd p) # snd (snd p)))) ws)
    | DAtomic x v env => do e <- env_from_dict env; Ok (AtomicLeaf x (tofloat v) (env_or x e))
    | DReal disc x d supp cond env =>
      do d <- redist d; do i <- eval_interval supp; do e <- env_from_dict env;
      mk_RealLeaf disc x d i cond (env_or x e)
    | DSum l ws => do cs <- mapM spe_from_dict l; mk_Sum cs ws
    | DProduct l => do cs <- mapM spe_from_dict l; mk_Product cs
    end.
End Dict.
