(** Model of src/spe.py: sum-product expressions, their probabilities, conditioning,
    densities, and of the helpers of src/sym_util.py they use.

    Simplifications.  A sum-product expression is a tree; Python's object identity, which is
    part of the memo keys, is an oracle [ident] on trees.  Python's [hash] is an oracle.
    SciPy's frozen distributions are names with functions logcdf and logpdf.  Attributes that
    Python computes in __init__ are recomputed from the others.  The order in which Python
    iterates over the set of child indices (src/spe.py:531) and over the integer keys of a
    dictionary is the order of insertion; over a set of symbols (src/spe.py:556) it is
    arbitrary.  Arithmetic is exact, see Num.v and Logs.v. *)
From Coq Require Import List Bool String ZArith QArith Permutation.
From Verif Require Import Base Num Sets Poly Trans Dnf Logs.
Import ListNotations.
Local Open Scope list_scope.

(** SciPy's frozen distributions: equality compares name, args and kwds (src/spe.py:831-833);
    [logpdf] is logpdf for continuous and logpmf for discrete distributions. *)
Record distsys (N : numsys) (S : logsys) := Distsys {
  dist : Type;
  deqb : dist -> dist -> bool;
  logcdf : dist -> ext (num N) -> lg S;
  logpdf : dist -> ext (num N) -> lg S
}.
Arguments dist {_ _} _.
Arguments deqb {_ _ _} _ _.
Arguments logcdf {_ _ _} _ _.
Arguments logpdf {_ _ _} _ _.

(** Order in which Python iterates over a set of symbols. *)
Record strorder := Strorder {
  it_str : list string -> list string;
  it_str_perm : forall l, Permutation l (it_str l)
}.

Section Syntax.
  Context (N : numsys) (S : logsys) (D : distsys N S).
  (** src/spe.py:698-716 RealLeaf with its classes ContinuousLeaf and DiscreteLeaf ([disc]);
      [cond] is the attribute conditioned, None or True.  :931-939 AtomicLeaf.
      :968-981 NominalLeaf.  :203-226 SumSPE with its weights.  :421-435 ProductSPE. *)
  Inductive spe :=
  | RealLeaf (disc : bool) (x : string) (d : dist D) (supp : interval N) (cond : bool) (env : tenv (N:=N))
  | AtomicLeaf (x : string) (v : num N) (env : tenv (N:=N))
  | NominalLeaf (x : string) (ws : list (string * Q))
  | SumSPE (l : list (spe * lg S))
  | ProductSPE (l : list spe).

  Section Ind.
    Variable P : spe -> Prop.
    Hypothesis HR : forall disc x d supp cond env, P (RealLeaf disc x d supp cond env).
    Hypothesis HA : forall x v env, P (AtomicLeaf x v env).
    Hypothesis HN : forall x ws, P (NominalLeaf x ws).
    Hypothesis HS : forall l, (forall c, In c l -> P (fst c)) -> P (SumSPE l).
    Hypothesis HP : forall l, (forall c, In c l -> P c) -> P (ProductSPE l).
    Fixpoint spe_ind' (s : spe) : P s :=
      match s with
      | RealLeaf disc x d supp cond env => HR disc x d supp cond env
      | AtomicLeaf x v env => HA x v env
      | NominalLeaf x ws => HN x ws
      | SumSPE l => HS l ((fix go (l : list (spe * lg S)) : forall c, In c l -> P (fst c) :=
          match l with
          | [] => fun _ H => match H with end
          | a :: l => fun c H =>
            match H with
            | or_introl E => match E in _ = z return P (fst z) with eq_refl => spe_ind' (fst a) end
            | or_intror H => go l c H
            end
          end) l)
      | ProductSPE l => HP l ((fix go (l : list spe) : forall c, In c l -> P c :=
          match l with
          | [] => fun _ H => match H with end
          | a :: l => fun c H =>
            match H with
            | or_introl E => match E in _ = z return P z with eq_refl => spe_ind' a end
            | or_intror H => go l c H
            end
          end) l)
      end.
  End Ind.
End Syntax.
Arguments RealLeaf {N S D} disc x d supp cond env.
Arguments AtomicLeaf {N S D} x v env.
Arguments NominalLeaf {N S D} x ws.
Arguments SumSPE {N S D} l.
Arguments ProductSPE {N S D} l.
Arguments spe {N S} D.

Section Spe.
  Context {N : numsys} (io : iterorder N) (so : strorder) (po : polyoracle N) (fuel : nat).
  Context {S : logsys} {D : distsys N S}.
  Notation enum := (ext (num N)).
  Notation tr := (tr N).
  Notation pset := (pset N).
  Notation interval := (interval N).
  Notation lg := (lg S).
  Notation spe := (spe D).
  Notation factor := (factor (N:=N)).
  Notation clause := (clause (N:=N)).

  (** [isinstance(x, LeafSPE)], [isinstance(x, ProductSPE)] *)
  Definition is_leaf (s : spe) : bool := match s with SumSPE _ | ProductSPE _ => false | _ => true end.
  Definition is_product (s : spe) : bool := match s with ProductSPE _ => true | _ => false end.

  (** get_symbols: src/spe.py:155-156 with :226, :435, and :602-603 *)
  Fixpoint get_symbols (s : spe) : list string :=
    match s with
    | RealLeaf _ _ _ _ _ env | AtomicLeaf _ _ env => map fst env
    | NominalLeaf x _ => [x]
    | SumSPE [] => []
    | SumSPE (c :: _) => get_symbols (fst c)
    | ProductSPE l => sunions (map get_symbols l)
    end.
  (** src/spe.py:157-158, 604-605 size *)
  Fixpoint size (s : spe) : nat :=
    match s with
    | SumSPE l => 1 + list_sum (map (fun c => size (fst c)) l)
    | ProductSPE l => 1 + list_sum (map size l)
    | _ => 1
    end.

  (** ** src/sym_util.py *)

  (** src/sym_util.py:20-21, 26-28 get_union, are_disjoint: sets[0] raises IndexError *)
  Definition are_disjoint (l : list (list string)) : res bool :=
    match l with
    | [] => Raise IndexError
    | _ => Ok (Nat.eqb (List.length (sunions l)) (list_sum (map (@List.length string) l)))
    end.
  (** src/sym_util.py:23-24, 30-32 get_intersection, are_identical *)
  Definition are_identical (l : list (list string)) : res bool :=
    match l with
    | [] => Raise IndexError
    | a :: m =>
      let i := filter (fun x => forallb (inb String.eqb x) m) a in
      Ok (forallb (fun s => Nat.eqb (List.length s) (List.length i)) l)
    end.
  (** src/sym_util.py:44-51 partition_list_blocks: group the indices by hash.  The groups are
      given here as the lists of elements. *)
  Fixpoint add_block {A} (h : Z) (a : A) (p : list (Z * list A)) : list (Z * list A) :=
    match p with
    | [] => [(h, [a])]
    | (k, l) :: p => if Z.eqb h k then (k, l ++ [a]) :: p else (k, l) :: add_block h a p
    end.
  Definition partition_list_blocks {A} (hash : A -> Z) (l : list A) : list (list A) :=
    map snd (fold_left (fun p a => add_block (hash a) a p) l []).
  (** src/sym_util.py:53-65 partition_finite_real_contiguous on the sorted values; [cur] is
      blocks[-1] in reverse *)
  Fixpoint contiguous (last : enum) (cur : list enum) (l : list enum) : list (list enum) :=
    match l with
    | [] => [rev cur]
    | y :: l =>
      if eeqb y (eadd_bool last true) then contiguous y (y :: cur) l
      else rev cur :: contiguous y [y] l
    end.
  Definition partition_finite_real_contiguous (vs : list enum) : list (list enum) :=
    match sort eleb vs with [] => [] | y :: l => contiguous y [y] l end.

  (** ** Constructors *)

  (** src/spe.py:206-226 SumSPE.__init__.  isinstance(spe, type(self)) flattens sums. *)
  Definition sum_terms (c : spe) (w : lg) : list (spe * lg) :=
    match c with SumSPE l => map (fun d => (fst d, ladd w (snd d))) l | _ => [(c, w)] end.
  Definition mk_Sum (children : list spe) (weights : list lg) : res spe :=
    do _ <- passert (Nat.eqb (List.length children) (List.length weights));
    let l := List.concat (map (fun p => sum_terms (fst p) (snd p)) (combine children weights)) in
    do t <- lse weights;
    do _ <- passert (lclose t lzero);
    do b <- are_identical (map (fun c => get_symbols (fst c)) l);
    if b then Ok (SumSPE l) else Raise ValueError.
  (** src/spe.py:424-435 ProductSPE.__init__ *)
  Definition prod_terms (c : spe) : list spe :=
    match c with ProductSPE l => l | _ => [c] end.
  Definition mk_Product (children : list spe) : res spe :=
    let l := List.concat (map prod_terms children) in
    do b <- are_disjoint (map get_symbols l);
    if b then Ok (ProductSPE l) else Raise ValueError.
  (** src/spe.py:434 lookup: the index of the child that has the symbol.  The dictionary is
      filled in order, so the last child would win; they are disjoint. *)
  Fixpoint child_of (x : string) (i : nat) (l : list (list string)) : option nat :=
    match l with
    | [] => None
    | s :: l => match child_of x (1 + i) l with
                | Some j => Some j
                | None => if inb String.eqb x s then Some i else None
                end
    end.

  (** src/math_util.py:55 float_to_int: int() rounds towards 0 *)
  Definition ntrunc (a : num N) : Z := if nltb a (nint 0) then (- nfloor (nopp a))%Z else nfloor a.
  Definition float_to_int (x : enum) : enum := match x with Fin a => Fin (nint (ntrunc a)) | _ => x end.
  (** Python's x - b for a Boolean b *)
  Definition esub_bool (x : enum) (b : bool) : enum :=
    if b then match x with Fin a => Fin (nadd a (nint (-1))) | _ => x end else x.

  (** src/spe.py:846-847, 891-892 xl and xu *)
  Definition leaf_xl (disc : bool) (supp : interval) : enum :=
    if disc then eadd_bool (float_to_int (iv_a supp)) (iv_lo supp) else iv_a supp.
  Definition leaf_xu (disc : bool) (supp : interval) : enum :=
    if disc then esub_bool (float_to_int (iv_b supp)) (iv_ro supp) else iv_b supp.
  (** src/spe.py:851-853, 896-898 logFl, logFu, logZ of a conditioned leaf *)
  Definition leaf_logFl (disc : bool) (d : dist D) (supp : interval) : lg :=
    logcdf d (esub_bool (leaf_xl disc supp) disc).
  Definition leaf_logZ (disc : bool) (d : dist D) (supp : interval) : res lg :=
    ldiff (logcdf d (leaf_xu disc supp)) (leaf_logFl disc d supp).
  (** src/spe.py:701-716, 844-859, 887-904 RealLeaf.__init__ with that of the two classes;
      [env] is never None here *)
  Definition mk_RealLeaf (disc : bool) (x : string) (d : dist D) (supp : interval) (cond : bool) (env : tenv) : res spe :=
    do _ <- (if disc then
               do b <- int_or_isinf_neg (iv_a supp); do _ <- passert b;
               do c <- int_or_isinf_pos (iv_b supp); passert c
             else Ok tt);
    do _ <- (if cond then do _ <- leaf_logZ disc d supp; Ok tt else Ok tt);
    Ok (RealLeaf disc x d supp cond env).
  (** env or OrderedDict([(symbol, symbol)]): src/spe.py:709, 939 *)
  Definition base_env (x : string) : tenv (N:=N) := [(x, TId x)].
  (** src/spe.py:971-981 NominalLeaf.__init__; the dictionary has no duplicate keys.  The
      check that the weights total 1 is exact here. *)
  Definition Qsum (l : list Q) : Q := fold_right Qplus 0%Q l.
  Definition mk_NominalLeaf (x : string) (ws : list (string * Q)) : res spe :=
    do _ <- FiniteNominal (N:=N) (map fst ws) None;
    do _ <- passert (Qeq_bool (Qsum (map snd ws)) 1);
    Ok (NominalLeaf x ws).

  (** ** Leaves *)

  (** src/spe.py:741-749 RealLeaf.logcdf *)
  Definition leaf_logcdf (disc : bool) (d : dist D) (supp : interval) (cond : bool) (x : enum) : res lg :=
    if negb cond then Ok (logcdf d x)
    else if eltb (leaf_xu disc supp) x then Ok lzero
    else if eltb x (leaf_xl disc supp) then Ok lninf
    else
      do p <- ldiff (logcdf d x) (leaf_logFl disc d supp);
      do z <- leaf_logZ disc d supp;
      Ok (lsub p z).
  (** src/spe.py:861-869, 906-914 logpdf__ of the two classes, on numbers *)
  Definition leaf_logpdf (disc : bool) (d : dist D) (supp : interval) (cond : bool) (x : enum) : res lg :=
    if negb cond then Ok (logpdf d x)
    else if (if disc then eltb x (leaf_xl disc supp) || eltb (leaf_xu disc supp) x
             else negb (iv_contains x supp)) then Ok lninf
    else do z <- leaf_logZ disc d supp; Ok (lsub (logpdf d x) z).
  (** src/spe.py:871-872, 916-918 logprob_finite__ *)
  Definition leaf_logprob_finite (disc : bool) (d : dist D) (supp : interval) (cond : bool) (vs : list enum) : res lg :=
    if disc then
      do ps <- mapM (leaf_logpdf disc d supp cond) (sort eleb vs);
      match ps with [p] => Ok p | _ => lse ps end
    else Ok lninf.
  (** src/spe.py:874-879, 919-926 logprob_interval__ *)
  Definition leaf_logprob_interval (disc : bool) (d : dist D) (supp : interval) (cond : bool) (v : interval) : res lg :=
    do xs <- (if disc then
                do ol <- (if negb (iv_lo v) then int_or_isinf_neg (iv_a v) else Ok false);
                do or_ <- (if iv_ro v then int_or_isinf_pos (iv_b v) else Ok false);
                Ok (esub_bool (float_to_int (iv_a v)) ol, esub_bool (float_to_int (iv_b v)) or_)
              else Ok (iv_a v, iv_b v));
    do fl <- leaf_logcdf disc d supp cond (fst xs);
    do fu <- leaf_logcdf disc d supp cond (snd xs);
    ldiff fu fl.
  (** src/spe.py:756-766 logprob_values__ *)
  Definition leaf_logprob_basic (disc : bool) (d : dist D) (supp : interval) (cond : bool) (b : bset N) : res lg :=
    match b with
    | BReal vs => leaf_logprob_finite disc d supp cond vs
    | BInt i => leaf_logprob_interval disc d supp cond i
    | BNom _ _ => Raise AssertionError
    end.
  Definition leaf_logprob_values (disc : bool) (d : dist D) (supp : interval) (cond : bool) (v : pset) : res lg :=
    match v with
    | PEmpty => Ok lninf
    | PB b => leaf_logprob_basic disc d supp cond b
    | PUnion u => do ps <- mapM (leaf_logprob_basic disc d supp cond) u; lse ps
    end.
  (** src/spe.py:773-783 flatten_values_contiguous *)
  Definition flatten_basic (disc : bool) (b : bset N) : res (list interval) :=
    match b with
    | BInt i => Ok [i]
    | BReal vs =>
      do _ <- passert disc;
      mapM (fun c => match c with
                     | [] => Raise ValueError
                     | y :: _ => Range y (last c y)
                     end) (partition_finite_real_contiguous vs)
    | BNom _ _ => Raise AssertionError
    end.
  Definition flatten_values (disc : bool) (v : pset) : res (list interval) :=
    match v with
    | PEmpty => Raise AssertionError
    | PB b => flatten_basic disc b
    | PUnion u => do ls <- mapM (flatten_basic disc) u; Ok (List.concat ls)
    end.
  (** keep the elements whose log-probability is not -oo, with it: src/spe.py:804, 176, 262, 515 *)
  Definition positive {A} (l : list (A * lg)) : list (A * lg) := filter (fun p => negb (lisninf (snd p))) l.
  (** one child stands for itself, several form a sum: src/spe.py:815, 267, 521-526 *)
  Definition sum_or_one (children : list spe) (weights : list lg) : res spe :=
    match children with [c] => Ok c | _ => mk_Sum children weights end.

  (** src/spe.py:626-628, 636-638: the event in terms of the base variable *)
  Definition leaf_event (x : string) (env : tenv) (e : tr) : res tr :=
    do e' <- substitute io po fuel (List.length env) env e;
    do _ <- passert (forallb (fun z => inb String.eqb z (map fst env)) (symbols e));
    do _ <- passert (same_symbols (symbols e') [x]);
    Ok e'.
  (** the values of self.dist for the strings of a set: src/spe.py:1004, 1012 *)
  Definition nom_prob (ws : list (string * Q)) (vs : list string) : res Q :=
    do ps <- mapM (fun x => match lookup x ws with Some q => Ok q | None => Raise KeyError end) vs;
    Ok (Qsum ps).
  (** logprob__: src/spe.py:751-754, 949-951, 997-1005 *)
  Definition leaf_solved_logprob (s : spe) (v : pset) : res lg :=
    match s with
    | RealLeaf disc x d supp cond _ =>
      do values <- pand io (PB (BInt supp)) v;
      leaf_logprob_values disc d supp cond values
    | AtomicLeaf _ a _ =>
      do b <- contains io (VNum (Fin a)) v;
      Ok (if b then lzero else lninf)
    | NominalLeaf _ ws =>
      do support <- FiniteNominal (map fst ws) None;
      do values <- pand io support v;
      if is_empty values then Ok lninf
      else if peqb values Strings then Ok lzero
      else match values with
           | PB (BNom vs _) => do p <- nom_prob ws vs; Ok (if Qeq_bool p 0 then lninf else lofQ p)
           | _ => Raise KeyError
           end
    | _ => Raise NotImplementedError
    end.
  (** condition__: src/spe.py:785-817, 952-955, 1007-1021 *)
  Definition leaf_solved_condition (s : spe) (v : pset) : res spe :=
    match s with
    | RealLeaf disc x d supp cond env =>
      do values <- pand io (PB (BInt supp)) v;
      do weight <- leaf_logprob_values disc d supp cond values;
      if lisninf weight then Raise ValueError
      else if peqb values (PB (BInt supp)) then Ok s
      else
        do l <- flatten_values disc values;
        match l with
        | [] => Raise IndexError
        | _ =>
          do ps <- mapM (fun i => do p <- leaf_logprob_interval disc d supp cond i; Ok (i, p)) l;
          match positive ps with
          | [] => Raise ValueError
          | qs =>
            do weights <- lognorm (map snd qs);
            do children <- mapM (fun q => mk_RealLeaf disc x d (fst q) true env) qs;
            sum_or_one children weights
          end
        end
    | AtomicLeaf _ a _ =>
      do b <- contains io (VNum (Fin a)) v;
      do _ <- passert b;
      Ok s
    | NominalLeaf x ws =>
      do support <- FiniteNominal (map fst ws) None;
      do values <- pand io support v;
      match values with
      | PEmpty => Raise ValueError
      | PB (BNom vs b) =>
        do p <- nom_prob ws vs;
        if Qeq_bool p 0 then Raise ValueError
        else if Qeq_bool p 1 then Ok s
        else mk_NominalLeaf x
               (map (fun c => (fst c, if nom_contains (fst c) vs b then (snd c / p)%Q else 0%Q)) ws)
      | _ => Raise KeyError
      end
    | _ => Raise NotImplementedError
    end.
  (** the base variable and the environment of a leaf *)
  Definition leaf_env (s : spe) : string * tenv (N:=N) :=
    match s with
    | RealLeaf _ x _ _ _ env | AtomicLeaf x _ env => (x, env)
    | NominalLeaf x _ => (x, base_env x)
    | _ => (EmptyString, [])
    end.
  (** LeafSPE.logprob and condition without memo: src/spe.py:625-630, 635-640 *)
  Definition leaf_logprob (s : spe) (e : tr) : res lg :=
    do e' <- leaf_event (fst (leaf_env s)) (snd (leaf_env s)) e;
    do v <- solve io po fuel e';
    leaf_solved_logprob s v.
  Definition leaf_condition (s : spe) (e : tr) : res spe :=
    do e' <- leaf_event (fst (leaf_env s)) (snd (leaf_env s)) e;
    do v <- solve io po fuel e';
    leaf_solved_condition s v.

  (** src/spe.py:1079-1084 event_factor_to_event *)
  Definition event_factor_to_event (f : factor) : res tr :=
    do cs <- mapM (fun c : clause => reduceM (ev_and io) (map snd c)) f;
    reduceM (ev_or io) cs.

  (** ** Memo tables *)

  (** assignments of values to variables: src/spe.py:183-191 *)
  Definition assignment := list (string * val N).
  (** src/spe.py:1038-1043 Memo; the keys are those of src/spe.py:142-147 get_memo_key *)
  Record memo := mkMemo {
    m_logprob : list ((nat * factor) * lg);
    m_condition : list ((nat * factor) * spe);
    m_logpdf : list ((nat * assignment) * (nat * lg));
    m_constrain : list ((nat * assignment) * spe)
  }.
  Definition Memo : memo := mkMemo [] [] [] [].
  (** == on the keys: identities, and tuples of items *)
  Definition clause_eqb (c d : clause) : bool :=
    list_eqb (fun p q => String.eqb (fst p) (fst q) && teqb (snd p) (snd q)) c d.
  Definition factor_key_eqb (p q : nat * factor) : bool :=
    Nat.eqb (fst p) (fst q) && list_eqb clause_eqb (snd p) (snd q).
  Definition val_eqb (a b : val N) : bool :=
    match a, b with VNum x, VNum y => eeqb x y | VStr x, VStr y => String.eqb x y | _, _ => false end.
  Definition asg_key_eqb (p q : nat * assignment) : bool :=
    Nat.eqb (fst p) (fst q) && list_eqb (fun a b => String.eqb (fst a) (fst b) && val_eqb (snd a) (snd b)) (snd p) (snd q).
  Fixpoint find_key {K V} (eqb : K -> K -> bool) (k : K) (l : list (K * V)) : option V :=
    match l with
    | [] => None
    | (k', v) :: l => if eqb k' k then Some v else find_key eqb k l
    end.

  (** id() of an expression *)
  Context (ident : spe -> nat).

  (** computations that use the memo: it survives exceptions *)
  Definition M (A : Type) := memo -> res A * memo.
  Definition mret {A} (a : A) : M A := fun m => (Ok a, m).
  Definition lift {A} (r : res A) : M A := fun m => (r, m).
  Definition mbind {A B} (x : M A) (k : A -> M B) : M B :=
    fun m => match x m with (Ok a, m') => k a m' | (Raise e, m') => (Raise e, m') end.
  Section MMap.
    Context {A B : Type} (f : A -> M B).
    Fixpoint mmap (l : list A) : M (list B) :=
      match l with
      | [] => mret []
      | x :: l => mbind (f x) (fun y => mbind (mmap l) (fun ys => mret (y :: ys)))
      end.
  End MMap.
  (** src/spe.py:49-60 memoize, 653-670: look the key up, else compute and store *)
  Definition memo_logprob (s : spe) (f : factor) (x : M lg) : M lg := fun m =>
    match find_key factor_key_eqb (ident s, f) (m_logprob m) with
    | Some r => (Ok r, m)
    | None =>
      match x m with
      | (Ok r, m') => (Ok r, mkMemo (((ident s, f), r) :: m_logprob m') (m_condition m') (m_logpdf m') (m_constrain m'))
      | (Raise e, m') => (Raise e, m')
      end
    end.
  Definition memo_condition (s : spe) (f : factor) (x : M spe) : M spe := fun m =>
    match find_key factor_key_eqb (ident s, f) (m_condition m) with
    | Some r => (Ok r, m)
    | None =>
      match x m with
      | (Ok r, m') => (Ok r, mkMemo (m_logprob m') (((ident s, f), r) :: m_condition m') (m_logpdf m') (m_constrain m'))
      | (Raise e, m') => (Raise e, m')
      end
    end.
  Definition memo_logpdf (s : spe) (a : assignment) (x : M (nat * lg)) : M (nat * lg) := fun m =>
    match find_key asg_key_eqb (ident s, a) (m_logpdf m) with
    | Some r => (Ok r, m)
    | None =>
      match x m with
      | (Ok r, m') => (Ok r, mkMemo (m_logprob m') (m_condition m') (((ident s, a), r) :: m_logpdf m') (m_constrain m'))
      | (Raise e, m') => (Raise e, m')
      end
    end.
  Definition memo_constrain (s : spe) (a : assignment) (x : M spe) : M spe := fun m =>
    match find_key asg_key_eqb (ident s, a) (m_constrain m) with
    | Some r => (Ok r, m)
    | None =>
      match x m with
      | (Ok r, m') => (Ok r, mkMemo (m_logprob m') (m_condition m') (m_logpdf m') (((ident s, a), r) :: m_constrain m'))
      | (Raise e, m') => (Raise e, m')
      end
    end.

  (** ** Probability *)

  (** the children of a product: symbols and logprob_mem *)
  Definition kid := (list string * (factor -> M lg))%type.
  Definition lookup_child (cs : list kid) (x : string) : res nat :=
    match child_of x 0 (map fst cs) with Some i => Ok i | None => Raise KeyError end.
  (** src/spe.py:537-549 logprob_conjunction_key; [J] are the clauses event_factor[j] *)
  Definition conj_items (J : list clause) : list (string * tr) := List.concat J.
  Definition conjunction_clause (cs : list kid) (J : list clause) (key : nat) : res clause :=
    foldM (fun c p => do i <- lookup_child cs (fst p);
                      if Nat.eqb i key then add_key io c (fst p) (snd p) else Ok c) (conj_items J) [].
  Definition logprob_conjunction_key (cs : list kid) (J : list clause) (key : nat) : M lg :=
    mbind (lift (conjunction_clause cs J key)) (fun c =>
      match c with
      | [] => mret lninf
      | _ => match nth_error cs key with
             | Some k => snd k [c]
             | None => lift (Raise IndexError)
             end
      end).
  (** src/spe.py:529-535 logprob_conjunction *)
  Definition logprob_conjunction (cs : list kid) (J : list clause) : M lg :=
    mbind (lift (mapM (fun p => lookup_child cs (fst p)) (conj_items J))) (fun keys =>
    mbind (mmap (logprob_conjunction_key cs J) (dedup Nat.eqb keys)) (fun ps =>
    mret (fold_left ladd ps lzero))).
  (** src/spe.py:482-502: the loop over subsets of clauses; [n] bounds the iterations *)
  Fixpoint ie_loop (cs : list kid) (f : factor) (n : nat) (stack : list (list nat * nat)) (avoid : list (list nat))
      (pos neg : list lg) : M (list lg * list lg) :=
    match stack with
    | [] => mret (pos, neg)
    | (subset, index) :: stack =>
      match n with
      | O => lift (Raise OutOfFuel)
      | Datatypes.S n =>
        if existsb (fun b => Nat.leb (List.length b) (List.length subset) && forallb (fun z => inb Nat.eqb z subset) b) avoid
        then ie_loop cs f n stack avoid pos neg
        else
          mbind (logprob_conjunction cs (map (fun j => nth j f []) subset)) (fun p =>
          let (pos, neg) := if Nat.odd (List.length subset) then (pos ++ [p], neg) else (pos, neg ++ [p]) in
          let avoid := if lisninf p then avoid ++ [subset] else avoid in
          ie_loop cs f n (stack ++ map (fun i => (subset ++ [i], i)) (seq (1 + index) (List.length f - (1 + index))))
            avoid pos neg)
      end
    end.
  (** src/spe.py:479-509 ProductSPE.logprob_mem *)
  Definition product_logprob (cs : list kid) (f : factor) : M lg :=
    mbind (ie_loop cs f (2 ^ List.length f) (map (fun i => ([i], i)) (seq 0 (List.length f))) [] [] []) (fun pn =>
    mbind (lift (lse (fst pn))) (fun p =>
      if lisninf p || is_nil (snd pn) then mret p
      else mbind (lift (lse (snd pn))) (fun q => lift (ldiff p q)))).
  (** logprob_mem: src/spe.py:253-256, 479-509, 653-661 *)
  Fixpoint logprob_mem (s : spe) (f : factor) {struct s} : M lg :=
    memo_logprob s f
      (match s with
       | SumSPE l =>
         mbind (mmap (fun c => mbind (logprob_mem (fst c) f) (fun p => mret (ladd p (snd c)))) l) (fun ps =>
         lift (lse ps))
       | ProductSPE l => product_logprob (map (fun c => (get_symbols c, logprob_mem c)) l) f
       | _ => lift (do e <- event_factor_to_event f; leaf_logprob s e)
       end).
  (** logprob: src/spe.py:159-166, 625-634.  A leaf called with a memo also stores the result
      under the event in terms of the base variable. *)
  Definition logprob (s : spe) (e : tr) : M lg :=
    if is_leaf s then
      mbind (lift (leaf_event (fst (leaf_env s)) (snd (leaf_env s)) e)) (fun e' =>
      memo_logprob s [[(fst (leaf_env s), e')]] (lift (do v <- solve io po fuel e'; leaf_solved_logprob s v)))
    else
      mbind (lift (dnf_normalize io po fuel e)) (fun o =>
        match o with
        | None => mret lninf
        | Some d => mbind (lift (dnf_factor io d)) (fun f => logprob_mem s f)
        end).

  (** ** Simplification *)

  (** == : src/spe.py:291-294, 586-588, 828-836, 960-963, 1030-1033.  Dictionaries compare
      without order, OrderedDict with order. *)
  Definition Qdict_eqb (a b : list (string * Q)) : bool :=
    Nat.eqb (List.length a) (List.length b) &&
    forallb (fun p => match lookup (fst p) b with Some q => Qeq_bool (snd p) q | None => false end) a.
  Definition env_eqb (a b : tenv (N:=N)) : bool :=
    list_eqb (fun p q => String.eqb (fst p) (fst q) && teqb (snd p) (snd q)) a b.
  Fixpoint speqb (s t : spe) {struct s} : bool :=
    match s, t with
    | RealLeaf disc x d supp cond env, RealLeaf disc' x' d' supp' cond' env' =>
      Bool.eqb disc disc' && String.eqb x x' && deqb d d' && iv_eqb supp supp' && Bool.eqb cond cond' && env_eqb env env'
    | AtomicLeaf x v _, AtomicLeaf x' v' _ => String.eqb x x' && neqb v v'
    | NominalLeaf x ws, NominalLeaf x' ws' => String.eqb x x' && Qdict_eqb ws ws'
    | SumSPE l, SumSPE m =>
      (fix go (l m : list (spe * lg)) : bool :=
         match l, m with
         | [], [] => true
         | a :: l, b :: m => speqb (fst a) (fst b) && leqb (snd a) (snd b) && go l m
         | _, _ => false
         end) l m
    | ProductSPE l, ProductSPE m =>
      (fix go (l m : list spe) : bool :=
         match l, m with
         | [], [] => true
         | a :: l, b :: m => speqb a b && go l m
         | _, _ => false
         end) l m
    | _, _ => false
    end.

  (** hash() of an expression: src/spe.py:295-297, 589-591, 823-827, 957-959, 1027-1029 *)
  Context (hash : spe -> Z).

  (** src/spe.py:593-594 spe_list_to_product *)
  Definition spe_list_to_product (l : list spe) : res spe :=
    match l with [c] => Ok c | _ => mk_Product l end.
  (** src/spe.py:366-375 spe_simplify_sum_leaf *)
  Definition simplify_sum_leaf (l : list (spe * lg)) : res spe :=
    do _ <- passert (forallb (fun c => is_leaf (fst c)) l);
    let p := partition_list_blocks (fun c : spe * lg => hash (fst c)) l in
    if Nat.eqb (List.length p) (List.length l) then Ok (SumSPE l)
    else match p with
         | [b] => match b with c :: _ => Ok (fst c) | [] => Raise IndexError end
         | _ =>
           do cs <- mapM (fun b => match b with c :: _ => Ok (fst c) | [] => Raise IndexError end) p;
           do ws <- mapM (fun b => lse (map snd b)) p;
           mk_Sum cs ws
         end.
  (** src/spe.py:391-416 spe_simplify_sum_product_helper *)
  Definition simplify_helper (state : list spe * lg) (b : list spe) (wb : lg) : res (list spe * lg) :=
    let (a, wa) := state in
    do ws <- lognorm [wa; wb];
    do w <- lse [wa; wb];
    let overlap := List.length (List.concat (map (fun cb => filter (fun ca => speqb ca cb) a) b)) in
    if Nat.eqb overlap 0 then
      do pa <- spe_list_to_product a;
      do pb <- spe_list_to_product b;
      do s <- mk_Sum [pa; pb] ws;
      Ok ([s], w)
    else if Nat.eqb overlap (List.length a) then Ok (a, w)
    else
      let dup_a ca := existsb (fun cb => speqb ca cb) b in
      let dup_b cb := existsb (fun ca => speqb ca cb) a in
      do pa <- spe_list_to_product (filter (fun c => negb (dup_a c)) a);
      do pb <- spe_list_to_product (filter (fun c => negb (dup_b c)) b);
      do s <- mk_Sum [pa; pb] ws;
      Ok (s :: filter dup_a a, w).
  (** src/spe.py:377-389 spe_simplify_sum_product *)
  Definition product_children (s : spe) : list spe := match s with ProductSPE l => l | _ => [] end.
  Definition simplify_sum_product (l : list (spe * lg)) : res spe :=
    if forallb (fun c => is_product (fst c)) l then
      match l with
      | [] => Raise IndexError
      | c :: l =>
        do st <- foldM (fun st c => simplify_helper st (product_children (fst c)) (snd c)) l
                   (product_children (fst c), snd c);
        do t <- lse [snd st];
        do _ <- passert (lclose t lzero);
        spe_list_to_product (fst st)
      end
    else Ok (SumSPE l).
  (** src/spe.py:359-364 spe_simplify_sum *)
  Definition simplify_sum (l : list (spe * lg)) : res spe :=
    match l with
    | [] => Raise IndexError
    | (c, _) :: _ =>
      if is_leaf c then simplify_sum_leaf l
      else if is_product c then simplify_sum_product l
      else Raise AssertionError
    end.
  (** the children of a sum, for the callers of spe_simplify_sum *)
  Definition simplify (s : spe) : res spe :=
    match s with SumSPE l => simplify_sum l | _ => Raise AttributeError end.

  (** ** Conditioning *)

  (** src/spe.py:551-561 condition_clause *)
  Definition condition_clause (cs : list (spe * (factor -> M spe))) (c : clause) : M (list spe) :=
    mmap (fun k =>
      match filter (fun x => inb String.eqb x (map fst c)) (get_symbols (fst k)) with
      | [] => mret (fst k)
      | syms =>
        mbind (lift (mapM (fun x => match lookup x c with Some e => Ok (x, e) | None => Raise KeyError end) (it_str so syms)))
          (fun sc => snd k [sc])
      end) cs.
  (** src/spe.py:512-527 ProductSPE.condition_mem; [self] is self.logprob_mem *)
  Definition product_condition (kids : list kid) (cs : list (spe * (factor -> M spe))) (self : factor -> M lg) (f : factor) : M spe :=
    mbind (mmap (fun c => mbind (logprob_conjunction kids [c]) (fun p => mret (c, p))) f) (fun ps =>
    mbind (lift (lse (map snd ps))) (fun t =>
    mbind (self f) (fun p =>
    mbind (lift (passert (lclose t p))) (fun _ =>
      match positive ps with
      | [] => lift (Raise ValueError)
      | qs =>
        mbind (lift (lognorm (map snd qs))) (fun weights =>
        mbind (mmap (fun q => condition_clause cs (fst q)) qs) (fun childrens =>
        lift (do products <- mapM mk_Product childrens;
              match products with
              | [s] => Ok s
              | _ => do s <- mk_Sum products weights; simplify s
              end)))
      end)))).
  (** src/spe.py:259-267 SumSPE.condition_mem; the children come with their functions *)
  Definition sum_condition (cs : list ((factor -> M lg) * (factor -> M spe) * lg)) (f : factor) : M spe :=
    mbind (mmap (fun c => mbind (fst (fst c) f) (fun p => mret (c, p))) cs) (fun ps =>
      match positive ps with
      | [] => lift (Raise ValueError)
      | qs =>
        mbind (mmap (fun q => snd (fst (fst q)) f) qs) (fun children =>
        lift (do weights <- lognorm (map (fun q => ladd (snd q) (snd (fst q))) qs);
              sum_or_one children weights))
      end).
  (** condition_mem: src/spe.py:259-267, 512-527, 662-670 *)
  Fixpoint condition_mem (s : spe) (f : factor) {struct s} : M spe :=
    memo_condition s f
      (match s with
       | SumSPE l => sum_condition (map (fun c => (logprob_mem (fst c), condition_mem (fst c), snd c)) l) f
       | ProductSPE l =>
         product_condition (map (fun c => (get_symbols c, logprob_mem c)) l) (map (fun c => (c, condition_mem c)) l)
           (logprob_mem s) f
       | _ => lift (do e <- event_factor_to_event f; leaf_condition s e)
       end).
  (** src/spe.py:173-179: drop the clauses of probability zero *)
  Definition nonzero_clauses (s : spe) (d : tr) : M tr :=
    match d with
    | EOr l =>
      mbind (lift (mapM (dnf_factor io) l)) (fun fs =>
      mbind (mmap (logprob_mem s) fs) (fun ps =>
        match positive (combine l ps) with
        | [] => lift (Raise ValueError)
        | qs => lift (EventOr (map fst qs))
        end))
    | _ => mret d
    end.
  (** condition: src/spe.py:167-182, 635-644 *)
  Definition condition (s : spe) (e : tr) : M spe :=
    if is_leaf s then
      mbind (lift (leaf_event (fst (leaf_env s)) (snd (leaf_env s)) e)) (fun e' =>
      memo_condition s [[(fst (leaf_env s), e')]] (lift (do v <- solve io po fuel e'; leaf_solved_condition s v)))
    else
      mbind (lift (dnf_normalize io po fuel e)) (fun o =>
        match o with
        | None => lift (Raise ValueError)
        | Some d =>
          mbind (nonzero_clauses s d) (fun d =>
          mbind (lift (disjoint_union io po fuel fuel d)) (fun d =>
          mbind (lift (dnf_factor io d)) (fun f => condition_mem s f)))
        end).
End Spe.
