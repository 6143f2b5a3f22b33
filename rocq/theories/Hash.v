(** Model of the methods __hash__ of transforms, events and expressions (C52).

    Python's hash of numbers, strings and tuples is an arbitrary function that respects ==
    of numbers and is a function of the hashes of the parts of a tuple.  hash() of sets is
    [phash] of SetBuilt.v. *)
From Coq Require Import List Bool String ZArith QArith Permutation Reals.
From Verif Require Import Base Num Sets SetBuilt Trans Logs Spe.
Import ListNotations.
Local Open Scope list_scope.

Record objhash (N : numsys) (S : logsys) (D : distsys N S) := {
  (** a tuple that starts with a class, or a tuple of values ("") *)
  oh_tuple : string -> list Z -> Z;
  oh_text : string -> Z;
  oh_bool : bool -> Z;
  oh_num : num N -> Z;
  oh_num_ok : forall x y, toR x = toR y -> oh_num x = oh_num y;
  oh_pos : BinNums.positive -> Z;
  oh_Q : Q -> Z;
  oh_Q_ok : forall p q, (p == q)%Q -> oh_Q p = oh_Q q;
  oh_weight : lg S -> Z;
  oh_weight_ok : forall a b, leqb a b = true -> oh_weight a = oh_weight b;
  (** dist.dist.name, dist.args, dist.kwds.items() of a frozen SciPy distribution *)
  d_name : dist D -> string;
  d_args : dist D -> list (num N);
  d_kwds : dist D -> list (string * num N);
  d_keys : forall d, NoDup (map fst (d_kwds d))
}.
Arguments oh_tuple {_ _ _} _ _ _.
Arguments oh_text {_ _ _} _ _.
Arguments oh_bool {_ _ _} _ _.
Arguments oh_num {_ _ _} _ _.
Arguments oh_pos {_ _ _} _ _.
Arguments oh_Q {_ _ _} _ _.
Arguments oh_weight {_ _ _} _ _.
Arguments d_name {_ _ _} _ _.
Arguments d_args {_ _ _} _ _.
Arguments d_kwds {_ _ _} _ _.

Section Hash.
  Context {N : numsys} (io : iterorder N) (H : pyhash N) {S : logsys} {D : distsys N S} (O : objhash N S D).
  Notation tr := (tr N).
  Notation spe := (spe D).
  Notation tup := (oh_tuple O).
  (** class names of src/transforms.py:912, 1000, 1025 *)
  Definition kind_name (k : ekind) : string :=
    match k with KInt => "EventInterval" | KReal => "EventFiniteReal" | KNom => "EventFiniteNominal" end.
  (** src/transforms.py:362 and 393-394 Identity; 438-440, 481-483, 524-526, 569-571, 625-627, 696-698,
      757-759, 908-910, 1139-1141, 1192-1194 *)
  Fixpoint thash (t : tr) : Z :=
    match t with
    | TId x => tup "Identity" [oh_text O x]
    | TRadical s d => tup "Radical" [thash s; oh_pos O d]
    | TExp s b => tup "Exponential" [thash s; oh_num O b]
    | TLog s b => tup "Logarithm" [thash s; oh_num O b]
    | TAbs s => tup "Abs" [thash s]
    | TRecip s => tup "Reciprocal" [thash s]
    | TPoly s cs => tup "Poly" [thash s; tup "" (map (oh_num O) cs)]
    | TPiece l => tup "Piecewise" [tup "" (map (fun p => thash (fst p)) l); tup "" (map (fun p => thash (snd p)) l)]
    | EBasic k s v => tup (kind_name k) [thash s; phash io H v]
    | EOr l => tup "EventOr" [tup "" (map thash l)]
    | EAnd l => tup "EventAnd" [tup "" (map thash l)]
    end.
  (** tuple(env.items()) *)
  Definition env_hash (env : tenv (N:=N)) : Z := tup "" (map (fun p => tup "" [oh_text O (fst p); thash (snd p)]) env).
  (** src/spe.py:824: (dist.dist.name, dist.args, tuple(dist.kwds.items())) *)
  Definition dist_hash (d : dist D) : Z :=
    tup "" [oh_text O (d_name O d); tup "" (map (oh_num O) (d_args O d)); tup "" (map (fun p => tup "" [oh_text O (fst p); oh_num O (snd p)]) (d_kwds O d))].
  (** src/spe.py:828-836: == of the distributions of two leaves; kwds are dictionaries *)
  Definition kwds_eqb (a b : list (string * num N)) : bool :=
    Nat.eqb (List.length a) (List.length b) &&
    forallb (fun p => match lookup (fst p) b with Some q => neqb (snd p) q | None => false end) a.
  Definition dist_eqb (d e : dist D) : bool :=
    String.eqb (d_name O d) (d_name O e) && list_eqb neqb (d_args O d) (d_args O e) && kwds_eqb (d_kwds O d) (d_kwds O e).
  (** src/spe.py:295-297, 589-591, 823-827, 957-959, 1027-1029 *)
  Fixpoint shash (s : spe) : Z :=
    match s with
    | RealLeaf disc x d supp cond env =>
      tup (if disc then "DiscreteLeaf" else "ContinuousLeaf") [oh_text O x; dist_hash d; phash io H (PB (BInt supp)); oh_bool O cond; env_hash env]
    | AtomicLeaf x v _ => tup "AtomicLeaf" [oh_text O x; oh_num O v]
    | NominalLeaf x ws => tup "NominalLeaf" [oh_text O x; tup "" (map (fun p => tup "" [oh_text O (fst p); oh_Q O (snd p)]) ws)]
    | SumSPE l => tup "SumSPE" [tup "" (map (fun p => shash (fst p)) l); tup "" (map (fun p => oh_weight O (snd p)) l)]
    | ProductSPE l => tup "ProductSPE" [tup "" (map shash l)]
    end.
End Hash.
