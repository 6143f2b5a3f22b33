(** Model of src/compilers/spe_to_sppl.py: sum-product expressions written as SPPL programs, and
    of the methods __str__ of src/transforms.py that it uses.

    Simplifications.  The code writes text; here it builds the trees that Python parses the text
    to (see Source.v), and raises SyntaxError where the text does not parse.  Numbers are written
    as literals and read back exactly: there is no rounding to fwidth digits.  Outcomes of nominal
    variables contain no quotes and no backslashes.  Definitions that are piecewise or
    events are not modelled and raise NotImplementedError.  The name and the keyword arguments of a
    SciPy distribution, math.exp, the text of a number and the comparison with sympy.E are
    oracles. *)
From Coq Require Import List Bool String ZArith QArith DecimalString DecimalNat.
From Verif Require Import Base Num Sets Poly Trans Dnf Logs Spe SpeOps Prog Source.
Import ListNotations.
Local Open Scope nat_scope.
Local Open Scope list_scope.

(** str(i) for a natural number: Python *)
Definition nat_text (n : nat) : string := NilEmpty.string_of_uint (Nat.to_uint n).

Section Text.
  Context {N : numsys}.
  Notation num := (num N).
  Notation tr := (tr N).
  Notation expr := (expr N).
  Context (is_e : num -> bool) (num_text : num -> string).

  (** The tree of a text that has not been put in brackets yet: an operand, or an operation
      whose operands may still be claimed by an operator on the left. *)
  Inductive piece := Whole (e : expr) | Op (op : binop) (a b : piece).
  Fixpoint tree (p : piece) : expr :=
    match p with Whole e => e | Op op a b => XBin op (tree a) (tree b) end.
  (** '(%s)' *)
  Definition brackets (p : piece) : piece := Whole (tree p).
  (** '1/%s': the division claims the first operand of a sum or of a product, not of a power *)
  Fixpoint over (p : piece) : piece :=
    match p with
    | Op ((BAdd | BSub | BMul | BDiv) as op) a b => Op op (over a) b
    | _ => Op BDiv (Whole (XNum (nint 1))) p
    end.
  (** '%s + %s': additions are read from the left *)
  Fixpoint joined (a b : piece) : piece :=
    match b with
    | Op ((BAdd | BSub) as op) b1 b2 => Op op (joined a b1) b2
    | _ => Op BAdd a b
    end.

  (** the token of a variable; X[0] is an element of an array: src/compilers/ast_to_spe.py:26-27 *)
  Definition token (x : string) : expr :=
    match String.index 0 "[" x with
    | Some n =>
      match NilEmpty.uint_of_string (String.substring (S n) (String.length x - n - 2) x) with
      | Some u => XItem (XName (String.substring 0 n x)) (XNum (nint (Z.of_nat (Nat.of_uint u))))
      | None => XName x
      end
    | None => XName x
    end.
  (** src/transforms.py:683-693 term_to_str, for the coefficient c of degree i; nothing if it is 0 *)
  Definition term_text (u : piece) (i : nat) (c : num) : list piece :=
    if neqb c (nint 0) then []
    else match i with
         | 0 => [Whole (XNum c)]
         | 1 => [if neqb c (nint 1) then u else Whole (XCall (num_text c) [tree u] [])]
         | _ =>
           let p := Op BPow (brackets u) (Whole (XNum (nint (Z.of_nat i)))) in
           [if neqb c (nint 1) then p else Op BMul (Whole (XNum c)) p]
         end.
  Fixpoint terms_text (u : piece) (i : nat) (cs : list num) : list piece :=
    match cs with [] => [] | c :: cs => term_text u i c ++ terms_text u (S i) cs end.
  (** the methods __str__: src/transforms.py:391-392 Identity, 436-437 Radical, 477-480
      Exponential, 518-523 Logarithm, 567-568 Abs, 623-624 Reciprocal, 681-695 Poly, 751-756
      Piecewise.  '|X|' and 'log(X; b)' do not parse; nor does an empty text. *)
  Fixpoint show (t : tr) : res piece :=
    match t with
    | TId x => Ok (Whole (token x))
    | TRadical u d => do p <- show u; Ok (Op BPow (brackets p) (Whole (XSeq [XNum (nint 1); XNum (nint (Zpos d))])))
    | TExp u b => do p <- show u; Ok (if is_e b then Whole (XCall "exp" [tree p] []) else Op BPow (Whole (XNum b)) (brackets p))
    | TLog u b =>
      do p <- show u;
      if is_e b then Ok (Whole (XCall "ln" [tree p] []))
      else if neqb b (nint 2) then Ok (Whole (XCall "log2" [tree p] []))
      else Raise SyntaxError
    | TAbs _ => Raise SyntaxError
    | TRecip u => do p <- show u; Ok (brackets (over p))
    | TPoly u cs =>
      do p <- show u;
      match terms_text p 0 cs with [] => Raise SyntaxError | q :: qs => Ok (fold_left joined qs q) end
    | TPiece _ | EBasic _ _ _ | EOr _ | EAnd _ => Raise NotImplementedError
    end.

  (** src/transforms.py:985-998 EventInterval.__str__, on a variable *)
  Definition bound (a : ext num) : expr :=
    match a with Fin c => XNum c | PInf => XName "inf" | NInf => XUn UNeg (XName "inf") end.
  Definition show_interval (x : string) (i : interval N) : expr :=
    let l := if iv_lo i then CLt else CLe in
    let r := if iv_ro i then CLt else CLe in
    if is_ninf (iv_a i) then XCmp (token x) [(r, bound (iv_b i))]
    else if is_pinf (iv_b i) then XCmp (bound (iv_a i)) [(l, token x)]
    else XCmp (XCmp (bound (iv_a i)) [(l, token x)]) [(r, bound (iv_b i))].

  (** src/compilers/spe_to_sppl.py:23-43 render_sppl_choice; str() of a Fraction is p/q *)
  Definition show_q (q : Q) : expr := XBin BDiv (XNum (nint (Qnum q))) (XNum (nint (Zpos (Qden q)))).
  Definition choice_expr (ws : list (string * Q)) : expr :=
    XCall "choice" [XCall "dict" [] (map (fun p => (fst p, show_q (snd p))) ws)] [].
  Definition render_sppl_choice (x : expr) (ws : list (string * Q)) : stmt N := SAssign [x] (choice_expr ws).
  (** if ...: elif ...: ... *)
  Fixpoint if_chain (v : string) (i : nat) (l : list (list (stmt N))) : list (stmt N) :=
    match l with
    | [] => []
    | b :: l => [SIf (XCmp (XName v) [(CEq, XText (nat_text i))]) b (if_chain v (S i) l)]
    end.
End Text.

Section Render.
  Context {N : numsys} {S : logsys} {D : distsys N S}.
  Notation stmt := (stmt N).
  Notation spe := (spe D).
  Context (is_e : num N -> bool) (num_text : num N -> string).
  Context (dist_name : dist D -> string) (dist_kwds : dist D -> list (string * num N)) (lexp : lg S -> Q).

  (** state.branches: src/compilers/spe_to_sppl.py:16-22 *)
  Definition branch_list := list (string * list (string * Q)).
  Definition branch_var (n : nat) : string := ("branch_var_" ++ nat_text n)%string.
  (** {k: exp(w) for k, w in zip(branch_idxs, spe.weights)}: :83-84 *)
  Definition branch_dist (ws : list (lg S)) : list (string * Q) := combine (map nat_text (seq 0 (List.length ws))) (map lexp ws).
  (** src/compilers/spe_to_sppl.py:55-61: only the keyword arguments are written *)
  Definition dist_expr (d : dist D) : expr N := XCall (dist_name d) [] (map (fun p => (fst p, XNum (snd p))) (dist_kwds d)).
  (** 'var ~= expr': :68-71 *)
  Definition render_derived (p : string * tr N) : res stmt := do e <- show is_e num_text (snd p); Ok (SAssign [token (fst p)] (tree e)).

  (** for child in ...: state = render_sppl_helper(child, state) *)
  Section Each.
    Context {A B : Type} (f : A -> branch_list -> res (B * branch_list)).
    Fixpoint rendered (l : list A) (bs : branch_list) : res (list B * branch_list) :=
      match l with
      | [] => Ok ([], bs)
      | a :: l => do (b, bs1) <- f a bs; do (r, bs2) <- rendered l bs1; Ok (b :: r, bs2)
      end.
  End Each.
  (** src/compilers/spe_to_sppl.py:44-98 render_sppl_helper.  A branch without statements does
      not parse. *)
  Fixpoint render_sppl_helper (s : spe) (bs : branch_list) {struct s} : res (list stmt * branch_list) :=
    match s with
    | NominalLeaf x ws => Ok ([render_sppl_choice (token x) ws], bs)
    | RealLeaf disc x d supp cond env =>
      do ds <- mapM render_derived (tl env);
      Ok (SAssign [token x] (dist_expr d) :: (if cond then [SCall "condition" [show_interval x supp]] else []) ++ ds, bs)
    | ProductSPE l => do (r, bs') <- rendered render_sppl_helper l bs; Ok (List.concat r, bs')
    | SumSPE [] => Ok ([], bs)
    | SumSPE [c] => render_sppl_helper (fst c) bs
    | SumSPE l =>
      let v := branch_var (List.length bs) in
      do (r, bs') <- rendered (fun c => render_sppl_helper (fst c)) l (bs ++ [(v, branch_dist (map snd l))]);
      do _ <- (if existsb is_nil r then Raise SyntaxError else Ok tt);
      Ok (if_chain v 0 r, bs')
    | AtomicLeaf _ _ _ => Raise AssertionError
    end.
  (** src/compilers/spe_to_sppl.py:100-116 render_sppl *)
  Definition render_sppl (s : spe) : res (list stmt) :=
    do (body, bs) <- render_sppl_helper s [];
    Ok (SImport "from sppl.distributions import *" :: map (fun b => render_sppl_choice (XName (fst b)) (snd b)) bs ++ body).
End Render.
