(** Model of sampling: src/spe.py sample, sample_subset, sample_func and what they call.

    A sampler is a tree of requests to the random source; what the source answers is decided by
    the handlers in SampleSpec.v.  Samples hold real numbers: floats are taken to be exact.
    Python's True and False are the numbers 1 and 0.  A dictionary is a list of pairs, of which
    the first with a given key counts. *)
From Coq Require Import List Bool String Reals ZArith QArith Qreals.
From Verif Require Import Base Num Sets SetSpec Poly Trans TransSpec Logs Spe.
Import ListNotations.
Local Open Scope list_scope.
Local Open Scope R_scope.

(** ** Values *)
(** numbers, strings, and the set {x} that the logarithm returns (None is {-oo}) *)
Inductive sv := SNum (x : R) | SStr (s : string) | SSet (x : option R).
Definition sdict := list (string * sv).
Fixpoint sget (m : sdict) (x : string) : option sv :=
  match m with [] => None | (y, v) :: m => if String.eqb x y then Some v else sget m x end.

Section Evaluate.
  Context {N : numsys}.
  (** x in s for a set s: src/sets.py:30-31, 51-54, 111-113, 185-194, 305-306 __contains__;
      comparing a string or a set with the end of an interval raises *)
  Definition bcontains_v (v : sv) (b : bset N) : res bool :=
    match v, b with
    | SNum x, BNom _ f => Ok (truthy f)
    | SNum x, BReal vs => Ok (if dec (bmem (RNum (Fin x)) (BReal vs)) then true else false)
    | SNum x, BInt i => Ok (if dec (bmem (RNum (Fin x)) (BInt i)) then true else false)
    | SStr s, BNom vs f => Ok (nom_contains s vs f)
    | SStr _, BReal _ => Ok false
    | SStr _, BInt _ => Raise TypeError
    | SSet _, BReal _ => Ok false
    | SSet _, _ => Raise TypeError
    end.
  Fixpoint any_contains (v : sv) (l : list (bset N)) : res bool :=
    match l with [] => Ok false | b :: l => do c <- bcontains_v v b; if c then Ok true else any_contains v l end.
  Definition contains_v (v : sv) (s : pset N) : res bool :=
    match s with PEmpty => Ok false | PB b => bcontains_v v b | PUnion l => any_contains v l end.
  (** assert x in self.domain(), and the number x: src/transforms.py:421, 460, 503, 547, 592, 654 *)
  Definition in_domain (dom : R -> bool) (v : sv) : res R :=
    match v with SNum x => if dom x then Ok x else Raise AssertionError | _ => Raise TypeError end.
  Definition anywhere (x : R) : bool := true.
  Definition nonnegative (x : R) : bool := if Rlt_dec x 0 then false else true.
  Definition nonzero (x : R) : bool := if Req_EM_T x 0 then false else true.
  Definition truth_v (b : bool) : sv := SNum (if b then 1 else 0).
  (** bool(v), as any() and all() use it *)
  Definition truthy_v (v : sv) : bool := match v with SNum x => nonzero x | SStr s => negb (String.eqb s "") | SSet _ => true end.
  (** src/transforms.py:372-378, 417-422, 456-461, 499-504, 543-548, 588-593, 650-656, 721-722, 845-849,
      1094-1096, 1144-1146 evaluate and ffwd *)
  Fixpoint evaluate (t : tr N) (m : sdict) : res sv :=
    match t with
    | TId x => match sget m x with Some v => Ok v | None => Raise ValueError end
    | TRadical u d => do v <- evaluate u m; do x <- in_domain nonnegative v; Ok (SNum (if Req_EM_T x 0 then 0 else Rpower x (/ INR (Pos.to_nat d))))
    | TExp u b => do v <- evaluate u m; do x <- in_domain anywhere v; Ok (SNum (Rpower (toR b) x))
    | TLog u b => do v <- evaluate u m; do x <- in_domain nonnegative v; Ok (SSet (if Rlt_dec 0 x then Some (ln x / ln (toR b)) else None))
    | TAbs u => do v <- evaluate u m; do x <- in_domain anywhere v; Ok (SNum (if Rlt_dec 0 x then x else - x))
    | TRecip u => do v <- evaluate u m; do x <- in_domain nonzero v; Ok (SNum (/ x))
    | TPoly u cs => do v <- evaluate u m; do x <- in_domain anywhere v; Ok (SNum (Rpoly cs x))
    | TPiece _ => Raise NotImplementedError
    | EBasic _ u s => do v <- evaluate u m; do b <- contains_v v s; Ok (truth_v b)
    | EOr l => do ys <- mapM (fun e => evaluate e m) l; Ok (truth_v (existsb truthy_v ys))
    | EAnd l => do ys <- mapM (fun e => evaluate e m) l; Ok (truth_v (forallb truthy_v ys))
    end.
End Evaluate.

(** ** Samplers *)
Section Sample.
  Context {N : numsys} {S : logsys} {D : distsys N S}.
  Notation spe := (spe D).
  (** [Flip p n]: random(prng).choice(range(len(p)), size=n, p=p); [Shuffle m]: the order that
      random(prng).shuffle puts a list of m elements in; [Rvs d n]: d.rvs(size=n); [Unif n]:
      random(prng).uniform(size=n) *)
  Inductive gen (A : Type) :=
  | Ret (a : A)
  | Fail (e : exn)
  | Flip (p : list R) (n : nat) (k : list nat -> gen A)
  | Shuffle (m : nat) (k : list nat -> gen A)
  | Rvs (d : dist D) (n : nat) (k : list R -> gen A)
  | Unif (n : nat) (k : list R -> gen A).
  Arguments Ret {A}. Arguments Fail {A}. Arguments Flip {A}. Arguments Shuffle {A}. Arguments Rvs {A}. Arguments Unif {A}.
  Fixpoint gbind {A B} (g : gen A) (f : A -> gen B) : gen B :=
    match g with
    | Ret a => f a
    | Fail e => Fail e
    | Flip p n k => Flip p n (fun l => gbind (k l) f)
    | Shuffle m k => Shuffle m (fun l => gbind (k l) f)
    | Rvs d n k => Rvs d n (fun l => gbind (k l) f)
    | Unif n k => Unif n (fun l => gbind (k l) f)
    end.
  Definition lift {A} (r : res A) : gen A := match r with Ok a => Ret a | Raise e => Fail e end.
  (** [f(a) for a in l] *)
  Fixpoint gmapM {A B} (f : A -> gen B) (l : list A) : gen (list B) :=
    match l with [] => Ret [] | a :: l => gbind (f a) (fun b => gbind (gmapM f l) (fun bs => Ret (b :: bs))) end.

  (** src/math_util.py:37-39 normalize *)
  Definition normalize (p : list R) : list R := map (fun x => x / sumR p) p.
  (** the quantile functions of the distributions (scipy's ppf) *)
  Context (ppf : dist D -> R -> R).

  (** ** Leaves *)
  (** src/spe.py:851-852, 896-897 Fl and Fu of a conditioned leaf *)
  Definition leaf_Fl (disc : bool) (d : dist D) (supp : interval N) : R := toP (leaf_logFl disc d supp).
  Definition leaf_Fu (disc : bool) (d : dist D) (supp : interval N) : R := toP (logcdf d (leaf_xu disc supp)).
  (** src/spe.py:726-739, 946-947, 993-996 sample__: the values of the leaf's own variable *)
  Definition draws (s : spe) (n : nat) : gen (list sv) :=
    match s with
    | RealLeaf disc _ d supp true _ =>
      Unif n (fun us => Ret (map (fun u => SNum (ppf d (u * leaf_Fl disc d supp + (1 - u) * leaf_Fu disc d supp))) us))
    | RealLeaf _ _ d _ false _ => Rvs d n (fun xs => Ret (map SNum xs))
    | AtomicLeaf _ v _ => Ret (repeat (SNum (toR v)) n)
    | NominalLeaf _ ws => Flip (normalize (map (fun p => Q2R (snd p)) ws)) n (fun l => Ret (map (fun i => SStr (fst (nth i ws (EmptyString, 0%Q)))) l))
    | _ => Fail AttributeError
    end.
  (** the symbol and the environment of a leaf *)
  Definition leaf_sym (s : spe) : string := match s with RealLeaf _ x _ _ _ _ => x | AtomicLeaf x _ _ => x | NominalLeaf x _ => x | _ => EmptyString end.
  Definition leaf_tenv (s : spe) : tenv (N:=N) :=
    match s with RealLeaf _ _ _ _ _ env => env | AtomicLeaf _ _ env => env | NominalLeaf x _ => base_env x | _ => [] end.
  (** src/spe.py:612-616: the loop over the environment; [m] is [sample] *)
  Fixpoint simulate (env : tenv (N:=N)) (xs : list string) (m : sdict) : res sdict :=
    match env with
    | [] => Ok []
    | (y, t) :: env =>
      do v <- evaluate t m;
      do r <- simulate env xs ((y, v) :: m);
      Ok (if existsb (String.eqb y) xs then (y, v) :: r else r)
    end.
  (** symbols == {self.symbol}: a list is never equal to a set *)
  Definition just (isset : bool) (xs : list string) (x : string) : bool := isset && negb (is_nil xs) && forallb (String.eqb x) xs.
  (** src/spe.py:606-617 LeafSPE.sample_subset *)
  Definition leaf_subset (s : spe) (isset : bool) (xs : list string) (n : nat) : gen (list sdict) :=
    if forallb (fun x => existsb (String.eqb x) (map fst (leaf_tenv s))) xs then
      gbind (draws s n) (fun vs =>
        if just isset xs (leaf_sym s) then Ret (map (fun v => [(leaf_sym s, v)]) vs)
        else lift (mapM (fun v => simulate (leaf_tenv s) xs [(leaf_sym s, v)]) vs))
    else Fail AssertionError.
  (** src/spe.py:604-605 LeafSPE.sample *)
  Definition leaf_sample (s : spe) (n : nat) : gen (list sdict) := leaf_subset s true (map fst (leaf_tenv s)) n.

  (** ** Sums and products *)
  (** the keys of a dictionary, in order of first occurrence *)
  Definition keys_of (l : list nat) : list nat := rev (dedup Nat.eqb (rev l)).
  (** src/spe.py:241-246 SumSPE.sample_many, with src/math_util.py:29-35 logflip, flip *)
  Definition sample_many {A} (ws : list (lg S)) (n : nat) (f : nat -> nat -> gen (list A)) : gen (list A) :=
    Flip (normalize (map (fun w => toP w / sumR (map toP ws)) ws)) n (fun sel =>
      gbind (gmapM (fun i => f i (count_occ Nat.eq_dec sel i)) (keys_of sel)) (fun blocks =>
        Shuffle (List.length blocks) (fun perm => Ret (List.concat (map (fun j => nth j blocks []) perm))))).
  (** zip( *samples ) *)
  Fixpoint zip2 (a b : list sdict) : list sdict :=
    match a, b with x :: a, y :: b => (x ++ y) :: zip2 a b | _, _ => [] end.
  (** src/spe.py:1075-1078 merge_samples; zip of nothing is empty *)
  Fixpoint merge_samples (l : list (list sdict)) : list sdict :=
    match l with [] => [] | [a] => a | a :: l => zip2 a (merge_samples l) end.
  Definition child {A} (l : list (nat -> gen A)) (i n : nat) : gen A := nth i l (fun _ => Fail IndexError) n.
  (** src/spe.py:228-230, 437-439 sample *)
  Fixpoint sample (s : spe) (n : nat) : gen (list sdict) :=
    match s with
    | SumSPE l => sample_many (map snd l) n (child (map (fun c => sample (fst c)) l))
    | ProductSPE l => gbind (gmapM (fun f => f n) (map sample l)) (fun ls => Ret (merge_samples ls))
    | _ => leaf_sample s n
    end.
  (** src/spe.py:435 self.lookup *)
  Fixpoint owner (l : list spe) (x : string) : option nat :=
    match l with
    | [] => None
    | c :: l => match owner l x with Some i => Some (Datatypes.S i) | None => if existsb (String.eqb x) (get_symbols c) then Some 0%nat else None end
    end.
  Fixpoint owners (l : list spe) (xs : list string) : res (list nat) :=
    match xs with [] => Ok [] | x :: xs => match owner l x with Some i => do r <- owners l xs; Ok (i :: r) | None => Raise KeyError end end.
  Definition mine (l : list spe) (xs : list string) (i : nat) : list string :=
    filter (fun x => match owner l x with Some j => Nat.eqb i j | None => false end) xs.
  (** src/spe.py:232-235, 441-455 sample_subset *)
  Fixpoint sample_subset (s : spe) (isset : bool) (xs : list string) (n : nat) : gen (list sdict) :=
    match s with
    | SumSPE l => sample_many (map snd l) n (child (map (fun c => sample_subset (fst c) isset xs) l))
    | ProductSPE l =>
      gbind (lift (owners l xs)) (fun is_ =>
        gbind (gmapM (fun i => nth i (map (fun c => sample_subset c) l) (fun _ _ _ => Fail IndexError) false (mine l xs i) n) (keys_of is_)) (fun ls =>
          Ret (merge_samples ls)))
    | _ => leaf_subset s isset xs n
    end.
  (** src/spe.py:1059-1073 func_symbols and func_evaluate, for a function with the named arguments *)
  Definition func_symbols (s : spe) (args : list string) : res unit :=
    if forallb (fun x => existsb (String.eqb x) (get_symbols s)) args then Ok tt else Raise ValueError.
  Definition func_evaluate {A} (s : spe) (args : list string) (f : list sv -> A) (samples : list sdict) : res (list A) :=
    do _ <- func_symbols s args;
    mapM (fun m => do vs <- mapM (fun x => match sget m x with Some v => Ok v | None => Raise KeyError end) args; Ok (f vs)) samples.
  (** src/spe.py:237-239, 457-460, 618-620 sample_func *)
  Fixpoint sample_func {A} (s : spe) (args : list string) (f : list sv -> A) (n : nat) : gen (list A) :=
    match s with
    | SumSPE l => sample_many (map snd l) n (child (map (fun c => sample_func (fst c) args f) l))
    | ProductSPE l =>
      gbind (lift (func_symbols s args)) (fun _ =>
        gbind (sample_subset s false args n) (fun ms => lift (func_evaluate s args f ms)))
    | _ => gbind (leaf_sample s n) (fun ms => lift (func_evaluate s args f ms))
    end.
End Sample.
Arguments Ret {N S D A}. Arguments Fail {N S D A}. Arguments Flip {N S D A}. Arguments Shuffle {N S D A}. Arguments Rvs {N S D A}. Arguments Unif {N S D A}.
