(** Model of src/compilers/sppl_to_python.py: the translation of a parsed SPPL program into
    commands, and of what Python does with the translation.

    Simplifications.  A program is its syntax tree: parsing, preprocess (which rewrites ~= and
    switch/cases as text) and unparsing are outside.  The translator writes Python text; here it
    builds the trees ([item]) of that text.  A dictionary display is a call of dict.  The function
    of a call is a name.  Python's evaluation of a call, of a distribution and of an assignment
    for constrain are oracles ([call], [deval], [aeval]).  An error in the body of a lambda is a
    command that raises when it is interpreted.  Other statements of Python write nothing or
    raise; they are not in the syntax, except those that write nothing ([SNone]). *)
From Coq Require Import List Bool String ZArith DecimalString DecimalNat.
From Verif Require Import Base Num Sets Poly Trans Dnf Logs Spe SpeOps Prog.
Import ListNotations.
Local Open Scope list_scope.

Section Syntax.
  Context {N : numsys}.
  Notation num := (num N).

  (** ** Python's abstract syntax (module ast), as far as SPPL programs use it *)
  Inductive cmpop := CLt | CLe | CGt | CGe | CEq | CNe | CIn | CNotIn.
  Inductive binop := BAdd | BSub | BMul | BDiv | BPow | BAnd | BOr | BShift.
  Inductive unop := UNeg | UInv | UNot.
  Inductive expr :=
  | XName (x : string)
  | XNum (c : num)
  | XText (s : string)
  | XBool (b : bool)
  | XBin (op : binop) (a b : expr)
  | XUn (op : unop) (a : expr)
  | XBoolOp (all : bool) (l : list expr)
  | XCmp (a : expr) (l : list (cmpop * expr))
  | XSet (l : list expr)
  | XSeq (l : list expr)
  | XItem (a i : expr)
  | XCall (f : string) (args : list expr) (kws : list (string * expr))
  | XIf (test a b : expr).
  (** The iterator of a for is a call f(args), as visit_For asserts
      (src/compilers/sppl_to_python.py:161); a target with several names is a tuple. *)
  Inductive stmt :=
  | SImport (s : string)
  | SAssign (targets : list expr) (v : expr)
  | SIf (test : expr) (body orelse : list stmt)
  | SFor (target : list string) (f : string) (args : list expr) (body : list stmt)
  | SCall (f : string) (args : list expr)
  | SNone.

  (** ** Comparisons: src/compilers/sppl_to_python.py:295-322 SPPL_Transformer_Compare *)
  Definition visit_Compare (a : expr) (l : list (cmpop * expr)) : expr :=
    match l with
    | [(CIn, b)] => XBin BShift a b
    | [(CEq, b)] => XBin BShift a (XSet [b])
    | [(CNotIn, b)] => XUn UInv (XBin BShift a b)
    | [(CNe, b)] => XUn UInv (XBin BShift a (XSet [b]))
    | _ => XCmp a l
    end.
  Fixpoint rewrite (e : expr) : expr :=
    match e with
    | XCmp a l => visit_Compare a l
    | XBin op a b => XBin op (rewrite a) (rewrite b)
    | XUn op a => XUn op (rewrite a)
    | XBoolOp c l => XBoolOp c (map rewrite l)
    | XSet l => XSet (map rewrite l)
    | XSeq l => XSeq (map rewrite l)
    | XItem a i => XItem (rewrite a) (rewrite i)
    | XCall f args kws => XCall f (map rewrite args) (map (fun p => (fst p, rewrite (snd p))) kws)
    | XIf t a b => XIf (rewrite t) (rewrite a) (rewrite b)
    | XName _ | XNum _ | XText _ | XBool _ => e
    end.

  (** the names in an expression: src/compilers/sppl_to_python.py:324-334 SPPL_Visitor_Name *)
  Fixpoint names (e : expr) : list string :=
    match e with
    | XName x => [x]
    | XNum _ | XText _ | XBool _ => []
    | XBin _ a b => names a ++ names b
    | XUn _ a => names a
    | XBoolOp _ l | XSet l | XSeq l => flat_map names l
    | XCmp a l => names a ++ flat_map (fun p => names (snd p)) l
    | XItem a i => names a ++ names i
    | XCall f args kws => f :: flat_map names args ++ flat_map (fun p => names (snd p)) kws
    | XIf t a b => names t ++ names a ++ names b
    end.

  (** src/compilers/sppl_to_python.py:272-284 unroll_if *)
  Fixpoint unroll_if (s : stmt) : list (expr * list stmt) :=
    match s with
    | SIf test body orelse =>
      (test, body) ::
      match orelse with
      | [] => []
      | [s'] => match s' with SIf _ _ _ => unroll_if s' | _ => [(XBool true, orelse)] end
      | _ => [(XBool true, orelse)]
      end
    | _ => []
    end.
  (** src/compilers/sppl_to_python.py:286-293 unroll_ifexp.  The code gives the body as a statement, not a list
      of one; generic_visit treats the two alike once the outermost block is open. *)
  Fixpoint unroll_ifexp (targets : list expr) (v : expr) : stmt :=
    match v with
    | XIf test a b => SIf test [SAssign targets a] [match b with XIf _ _ _ => unroll_ifexp targets b | _ => SAssign targets b end]
    | _ => SAssign targets v
    end.

  (** ** The trees of the text written to visitor.command *)
  Inductive item :=
  | IExpr (e : expr)
  | ISample (t v : expr)
  | ITransform (t v : expr)
  | ICondition (e : expr)
  | IConstrain (e : expr)
  | IIfElse (args : list item)
  | IFor (n0 n1 : expr) (idx : string) (body : list item)
  | ISwitch (symbol values : expr) (idx : list string) (body : list item)
  | ISequence (l : list item).

  (** ** The visitor: src/compilers/sppl_to_python.py:48-270 SPPL_Visitor *)
  Inductive ctx := CGlobal | CIf | CElif | CFor | CSwitch.
  Definition ctx_eqb (a b : ctx) : bool :=
    match a, b with
    | CGlobal, CGlobal | CIf, CIf | CElif, CElif | CFor, CFor | CSwitch, CSwitch => true
    | _, _ => false
    end.
  (** src/compilers/sppl_to_python.py:49-57 the fields.  variables: None for a variable, Some n for an array of n;
      constants: the statements, kept once for each text. *)
  Record vstate := VState {
    vs_first : bool;
    vs_context : list ctx;
    vs_imports : list string;
    vs_constants : list (expr * expr);
    vs_variables : list (string * option expr);
    vs_distributions : list string
  }.
  Definition vs_init : vstate := VState true [CGlobal] [] [] [] [].
  Definition vs_with_first (b : bool) (st : vstate) : vstate :=
    VState b (vs_context st) (vs_imports st) (vs_constants st) (vs_variables st) (vs_distributions st).
  Definition vs_with_context (c : list ctx) (st : vstate) : vstate :=
    VState (vs_first st) c (vs_imports st) (vs_constants st) (vs_variables st) (vs_distributions st).
  Definition vs_with_import (s : string) (st : vstate) : vstate :=
    VState (vs_first st) (vs_context st) (vs_imports st ++ [s]) (vs_constants st) (vs_variables st) (vs_distributions st).
  Definition vs_with_constants (l : list (expr * expr)) (st : vstate) : vstate :=
    VState (vs_first st) (vs_context st) (vs_imports st) l (vs_variables st) (vs_distributions st).
  Definition vs_with_variable (x : string) (o : option expr) (st : vstate) : vstate :=
    VState (vs_first st) (vs_context st) (vs_imports st) (vs_constants st) (vs_variables st ++ [(x, o)]) (vs_distributions st).
  Definition vs_with_distributions (l : list string) (st : vstate) : vstate :=
    VState (vs_first st) (vs_context st) (vs_imports st) (vs_constants st) (vs_variables st) l.
  Definition known (st : vstate) (x : string) : bool := inb String.eqb x (map fst (vs_variables st)).
  Definition in_context (c : ctx) (st : vstate) : bool := existsb (ctx_eqb c) (vs_context st).
  Definition global_only (st : vstate) : bool := match vs_context st with [CGlobal] => true | _ => false end.

  (** DISTRIBUTIONS (line 25), and the text of a constant declaration (lines 79, 157) *)
  Context (isdist : string -> bool) (unparse : expr -> expr -> string).

  Definition visitor := vstate -> res (vstate * list item).
  (** for item in value: self.visit(item) *)
  Section Each.
    Context {A : Type} (v : A -> visitor).
    Fixpoint each (l : list A) : visitor := fun st =>
      match l with
      | [] => Ok (st, [])
      | s :: l => do (st1, i) <- v s st; do (st2, j) <- each l st1; Ok (st2, i ++ j)
      end.
  End Each.
  (** src/compilers/sppl_to_python.py:29-46 maybe_sequence_block, 59-69 generic_visit, on a list of statements *)
  Definition block (v : stmt -> visitor) (l : list stmt) : visitor := fun st =>
    let active := Nat.ltb 1 (List.length l) || vs_first st in
    do (st', i) <- each v l (vs_with_first false st);
    Ok (st', if active then [ISequence i] else i).

  (** src/compilers/sppl_to_python.py:116-127 visit_Assign_array *)
  Definition visit_Assign_array (target : expr) (args : list expr) : visitor := fun st =>
    do _ <- passert (global_only st);
    match target, args with
    | XName x, [n] => do _ <- passert (negb (known st x)); Ok (vs_with_variable x (Some n) st, [])
    | _, _ => Raise AssertionError
    end.
  (** src/compilers/sppl_to_python.py:129-150 visit_Assign_sample_or_transform *)
  Definition visit_Assign_sample_or_transform (target value : expr) (sample : bool) : visitor := fun st =>
    do st' <-
      match target with
      | XName x =>
        do _ <- passert (negb (in_context CFor st));
        if in_context CElif st then do _ <- passert (known st x); Ok st
        else do _ <- passert (negb (known st x)); Ok (vs_with_variable x None st)
      | XItem (XName x) _ =>
        do _ <- passert (existsb (fun p => String.eqb x (fst p) && match snd p with Some _ => true | None => false end) (vs_variables st));
        Ok st
      | XItem _ _ => Raise AttributeError
      | _ => Raise AssertionError
      end;
    Ok (st', [if sample then ISample target (rewrite value) else ITransform target (rewrite value)]).
  (** src/compilers/sppl_to_python.py:152-158 visit_Assign_py *)
  Definition visit_Assign_py (target value : expr) : visitor := fun st =>
    do _ <- passert (global_only st);
    do _ <- passert (is_nil (vs_distributions st));
    let seen := existsb (fun p => String.eqb (unparse target value) (unparse (fst p) (snd p))) (vs_constants st) in
    Ok (if seen then st else vs_with_constants (vs_constants st ++ [(target, value)]) st, []).
  (** src/compilers/sppl_to_python.py:99: the arguments of a call of array *)
  Definition array_args (v : expr) : option (list expr) :=
    match v with XCall f args _ => if String.eqb f "array" then Some args else None | _ => None end.
  (** src/compilers/sppl_to_python.py:78-114 visit_Assign, for a value that is not an IfExp *)
  Definition visit_Assign (targets : list expr) (value : expr) : visitor := fun st =>
    match targets with
    | [target] =>
      let ds := filter isdist (names value) in
      let st := vs_with_distributions (vs_distributions st ++ filter (fun d => negb (inb String.eqb d (vs_distributions st))) ds) st in
      match array_args value with
      | Some args => visit_Assign_array target args st
      | None =>
        if negb (is_nil ds) then
          match value with
          | XCall f _ _ => if isdist f then visit_Assign_sample_or_transform target value true st else Raise AssertionError
          | XBin BOr _ _ => visit_Assign_sample_or_transform target value true st
          | _ => Raise AssertionError
          end
        else if existsb (known st) (names value) then visit_Assign_sample_or_transform target value false st
        else visit_Assign_py target value st
      end
    | _ => Raise AssertionError
    end.

  (** in a context opened by self.context.append(c) and closed by self.context.pop() *)
  Definition within (c : ctx) (v : visitor) : visitor := fun st =>
    do (st', i) <- v (vs_with_context (vs_context st ++ [c]) st);
    Ok (vs_with_context (vs_context st) st', i).
  (** the branches of src/compilers/sppl_to_python.py:232-246 *)
  Fixpoint branches (v : stmt -> visitor) (first : bool) (l : list (expr * list stmt)) : visitor := fun st =>
    match l with
    | [] => Ok (st, [])
    | (test, body) :: l =>
      do (st1, i) <- (if first then block v body else within CElif (block v body)) st;
      do (st2, j) <- branches v false l st1;
      Ok (st2, IExpr (rewrite test) :: i ++ j)
    end.
  (** src/compilers/sppl_to_python.py:221-252 visit_If *)
  Definition visit_If (v : stmt -> visitor) (s : stmt) : visitor := fun st =>
    let unrolled := unroll_if s in
    do _ <- passert (Nat.leb 2 (List.length unrolled));
    do (st', i) <- within CIf (branches v true unrolled) st;
    Ok (st', [IIfElse i]).
  (** src/compilers/sppl_to_python.py:194-219 visit_For_vanilla *)
  Definition visit_For_vanilla (v : stmt -> visitor) (target : list string) (args : list expr) (body : list stmt) : visitor := fun st =>
    match target with
    | [x] =>
      do (n0, n1) <- match args with [n1] => Ok (XNum (nint 0), n1) | [n0; n1] => Ok (n0, n1) | _ => Raise AssertionError end;
      do (st', i) <- within CFor (block v body) st;
      Ok (st', [IFor n0 n1 x i])
    | _ => Raise AssertionError
    end.
  (** src/compilers/sppl_to_python.py:168-192 visit_For_switch *)
  Definition visit_For_switch (v : stmt -> visitor) (target : list string) (args : list expr) (body : list stmt) : visitor := fun st =>
    match args with
    | [symbol; values] =>
      do _ <- passert (match symbol with XName _ | XItem _ _ => true | _ => false end);
      do (st', i) <- within CSwitch (block v body) st;
      Ok (st', [ISwitch symbol values target i])
    | _ => Raise AssertionError
    end.
  (** src/compilers/sppl_to_python.py:160-166 visit_For *)
  Definition visit_For (v : stmt -> visitor) (target : list string) (f : string) (args : list expr) (body : list stmt) : visitor :=
    if String.eqb f "range" then visit_For_vanilla v target args body
    else if String.eqb f "switch" then visit_For_switch v target args body
    else fun _ => Raise AssertionError.
  (** src/compilers/sppl_to_python.py:254-270 visit_Call *)
  Definition visit_Call (f : string) (args : list expr) : visitor := fun st =>
    if String.eqb f "condition" then
      match args with [e] => Ok (st, [ICondition (rewrite e)]) | _ => Raise AssertionError end
    else if String.eqb f "constrain" then
      match args with [e] => Ok (st, [IConstrain e]) | _ => Raise AssertionError end
    else Ok (st, []).
  (** visit: dispatch on the statement.  visit_Assign visits the If made from an IfExp
      (lines 82-84), which is not a part of the statement: hence the fuel. *)
  Fixpoint visit (n : nat) (s : stmt) : visitor :=
    match n with
    | O => fun _ => Raise OutOfFuel
    | S n => fun st =>
      match s with
      | SImport i => Ok (vs_with_import i st, [])
      | SAssign ts v => match v with XIf _ _ _ => visit n (unroll_ifexp ts v) st | _ => visit_Assign ts v st end
      | SIf _ _ _ => visit_If (visit n) s st
      | SFor x f args body => visit_For (visit n) x f args body st
      | SCall f args => visit_Call f args st
      | SNone => Ok (st, [])
      end
    end.
  (** src/compilers/sppl_to_python.py:357-362: the visitor on a whole program *)
  Definition translate (n : nat) (p : list stmt) : res (vstate * list item) := block (visit n) p vs_init.
End Syntax.
Arguments expr : clear implicits.
Arguments stmt : clear implicits.
Arguments item : clear implicits.
Arguments vstate : clear implicits.

(** ** What Python does with the translation: src/compilers/sppl_to_python.py:376-420 *)
Section Python.
  Context {N : numsys} (io : iterorder N) (po : polyoracle N) (fuel : nat).
  Context {S : logsys} {D : distsys N S}.
  Notation num := (num N).
  Notation tr := (tr N).
  Notation expr := (expr N).
  Notation item := (item N).
  Notation command := (command (N:=N) (D:=D)).
  Notation distribution := (distribution (N:=N) (D:=D)).

  (** the values of Python expressions; lists, tuples and sets are not distinguished *)
  Inductive pyval :=
  | PTr (t : tr) | PNum (c : num) | PText (s : string) | PBool (b : bool)
  | PColl (l : list pyval) | PEnum (l : list pyval) | PSet (v : pset N).
  Definition env := list (string * pyval).
  Definition lookup (g : env) (x : string) : res pyval :=
    match find (fun p => String.eqb x (fst p)) g with Some p => Ok (snd p) | None => Raise KeyError end.

  (** bool(v): Python *)
  Definition truthy (v : pyval) : bool :=
    match v with
    | PTr _ | PSet _ | PEnum _ => true
    | PNum c => negb (neqb c (nint 0))
    | PText s => negb (String.eqb s "")
    | PBool b => b
    | PColl l => negb (is_nil l)
    end.
  (** the integer c, if it is one *)
  Definition to_int (c : num) : option Z := if neqb c (nint (nfloor c)) then Some (nfloor c) else None.
  Definition int_or (e : exn) (v : pyval) : res Z :=
    match v with PNum c => match to_int c with Some z => Ok z | None => Raise e end | _ => Raise e end.
  (** elements of a collection on the right of <<: src/transforms.py:324-336 *)
  Definition as_val (v : pyval) : res (val N) :=
    match v with PNum c => Ok (VNum (Fin c)) | PText s => Ok (VStr s) | _ => Raise TypeError end.

  (** a ** b for numbers: Python *)
  Definition num_pow (a b : num) : res pyval :=
    match to_int b with
    | Some z =>
      if (0 <=? z)%Z then Ok (PNum (npow_nat a (Z.to_nat z)))
      else if neqb a (nint 0) then Raise ValueError
      else Ok (PNum (ninv (npow_nat a (Z.to_nat (- z)))))
    | None => match npow a b with Some c => Ok (PNum c) | None => Raise NotImplementedError end
    end.
  Definition ptr (m : res tr) : res pyval := do t <- m; Ok (PTr t).
  (** Python's binary operators, which call the methods of src/transforms.py:88-273, 324-340,
      815-822 and 864-910.  Rational powers that are not integers are not modelled here. *)
  Definition py_bin (op : binop) (a b : pyval) : res pyval :=
    match op, a, b with
    | BAdd, PNum x, PNum y => Ok (PNum (nadd x y))
    | BAdd, PTr t, PNum x | BAdd, PNum x, PTr t => ptr (add_num t x)
    | BAdd, PTr t, PTr u => ptr (t_add io po fuel t u)
    | BSub, PNum x, PNum y => Ok (PNum (nsub x y))
    | BSub, PTr t, PNum x => ptr (sub_num t x)
    | BSub, PNum x, PTr t => ptr (rsub_num x t)
    | BSub, PTr t, PTr u => ptr (t_sub io po fuel t u)
    | BMul, PNum x, PNum y => Ok (PNum (nmul x y))
    | BMul, PTr t, PNum x | BMul, PNum x, PTr t => ptr (mul_num t x)
    | BMul, PTr t, PTr u => ptr (t_mul io po fuel t u)
    | BDiv, PNum x, PNum y => if neqb y (nint 0) then Raise ValueError else Ok (PNum (nmul x (ninv y)))
    | BDiv, PTr t, PNum x => ptr (div_num t x)
    | BDiv, PNum x, PTr t => ptr (rdiv_num x t)
    | BPow, PNum x, PNum y => num_pow x y
    | BPow, PTr t, PNum x => match to_int x with Some z => ptr (pow_int t z) | None => Raise ValueError end
    | BPow, PNum x, PTr t => ptr (rpow_num x t)
    | BAnd, PTr t, PTr u => ptr (ev_and io t u)
    | BOr, PTr t, PTr u => ptr (ev_or io t u)
    | BShift, PTr t, PColl l => do vs <- mapM as_val l; ptr (t_in_list t vs)
    | BShift, PTr t, PSet v => ptr (t_in io t v)
    | _, _, _ => Raise TypeError
    end.
  (** -a, ~a, not a *)
  Definition py_un (op : unop) (a : pyval) : res pyval :=
    match op, a with
    | UNeg, PNum x => Ok (PNum (nopp x))
    | UNeg, PTr t => ptr (t_neg t)
    | UInv, PTr t => ptr (ev_not io t)
    | UNot, _ => Ok (PBool (negb (truthy a)))
    | _, _ => Raise TypeError
    end.
  (** a == b, which for transforms compares their structure *)
  Fixpoint py_eq (a b : pyval) : bool :=
    match a, b with
    | PTr t, PTr u => teqb t u
    | PNum x, PNum y => neqb x y
    | PText x, PText y => String.eqb x y
    | PBool x, PBool y => Bool.eqb x y
    | PColl l, PColl m => (fix go l m := match l, m with [], [] => true | x :: l, y :: m => py_eq x y && go l m | _, _ => false end) l m
    | PSet v, PSet w => peqb v w
    | _, _ => false
    end.
  (** a < b and the like: src/transforms.py:278-299 on transforms, 928-1000 on events; a number on the
      left calls the reflected method *)
  Definition py_order (op : cmpop) (a b : pyval) : res pyval :=
    match op, a, b with
    | CLt, PTr t, PNum x | CGt, PNum x, PTr t => ptr (if is_event t then compute_lte t (Fin x) true else t_lt t (Fin x))
    | CLe, PTr t, PNum x | CGe, PNum x, PTr t => ptr (if is_event t then compute_lte t (Fin x) false else t_le t (Fin x))
    | CGt, PTr t, PNum x | CLt, PNum x, PTr t => ptr (if is_event t then compute_gte t (Fin x) true else t_gt t (Fin x))
    | CGe, PTr t, PNum x | CLe, PNum x, PTr t => ptr (if is_event t then compute_gte t (Fin x) false else t_ge t (Fin x))
    | CLt, PNum x, PNum y | CGt, PNum y, PNum x => Ok (PBool (nltb x y))
    | CLe, PNum x, PNum y | CGe, PNum y, PNum x => Ok (PBool (nleb x y))
    | _, _, _ => Raise TypeError
    end.
  Definition py_cmp (op : cmpop) (a b : pyval) : res pyval :=
    match op with
    | CEq => Ok (PBool (py_eq a b))
    | CNe => Ok (PBool (negb (py_eq a b)))
    | CIn => match b with PColl l => Ok (PBool (existsb (py_eq a) l)) | _ => Raise TypeError end
    | CNotIn => match b with PColl l => Ok (PBool (negb (existsb (py_eq a) l))) | _ => Raise TypeError end
    | _ => py_order op a b
    end.
  (** a[i] on a list *)
  Definition py_item (a i : pyval) : res pyval :=
    match a with
    | PColl l =>
      do z <- int_or TypeError i;
      let z := if (z <? 0)%Z then (z + Z.of_nat (List.length l))%Z else z in
      if (z <? 0)%Z then Raise IndexError
      else match nth_error l (Z.to_nat z) with Some v => Ok v | None => Raise IndexError end
    | _ => Raise TypeError
    end.

  (** Python's evaluation of f( *args, **kws ), of a distribution (src/distributions.py) and of the
      dictionary given to constrain *)
  Context (call : string -> list pyval -> list (string * pyval) -> res pyval).

  (** Python's evaluation of an expression.  A chain a < b < c is (a < b) and (b < c), and
      x and y is y whenever x is true. *)
  Fixpoint peval (g : env) (e : expr) {struct e} : res pyval :=
    match e with
    | XName x => lookup g x
    | XNum c => Ok (PNum c)
    | XText s => Ok (PText s)
    | XBool b => Ok (PBool b)
    | XBin op a b => do x <- peval g a; do y <- peval g b; py_bin op x y
    | XUn op a => do x <- peval g a; py_un op x
    | XBoolOp all l =>
      (fix go (l : list expr) : res pyval :=
         match l with
         | [] => Raise TypeError
         | [e] => peval g e
         | e :: l => do x <- peval g e; if Bool.eqb (truthy x) all then go l else Ok x
         end) l
    | XCmp a l =>
      do x <- peval g a;
      (fix go (x : pyval) (l : list (cmpop * expr)) : res pyval :=
         match l with
         | [] => Raise TypeError
         | [(op, b)] => do y <- peval g b; py_cmp op x y
         | (op, b) :: l => do y <- peval g b; do r <- py_cmp op x y; if truthy r then go y l else Ok r
         end) x l
    | XSet l | XSeq l => do vs <- mapM (peval g) l; Ok (PColl vs)
    | XItem a i => do x <- peval g a; do y <- peval g i; py_item x y
    | XCall f args kws =>
      do vs <- mapM (peval g) args;
      do ks <- mapM (fun p => do v <- peval g (snd p); Ok (fst p, v)) kws;
      call f vs ks
    | XIf t a b => do x <- peval g t; if truthy x then peval g a else peval g b
    end.

  Context (deval : env -> expr -> res distribution) (aeval : env -> expr -> res (assignment (N:=N))).

  (** a command that raises when it is interpreted *)
  Definition bad (e : exn) : command := Sample "" (fun _ => Raise e).
  (** the variable that an assignment or a Switch is about: an Id *)
  Definition the_var (g : env) (t : expr) : res string :=
    do v <- peval g t; match v with PTr (TId x) => Ok x | _ => Raise AttributeError end.
  Definition the_event (g : env) (e : expr) : res tr :=
    do v <- peval g e; match v with PTr t => if is_event t then Ok t else Raise AttributeError | _ => Raise AttributeError end.
  (** the values of a Switch: src/compilers/ast_to_spe.py:105-112 *)
  Definition as_sval (v : pyval) : res (sval (N:=N)) :=
    match v with PSet s => Ok (VSet s) | PText s => Ok (VText s) | PNum c => Ok (VReal c) | _ => Raise TypeError end.
  Definition of_sval (v : sval (N:=N)) : pyval :=
    match v with VSet s => PSet s | VText s => PText s | VReal c => PNum c end.
  (** the arguments of the lambda of a Switch: f( *v ) for an enumeration, f(v) otherwise *)
  Definition switch_args (enumerated : bool) (idx : list string) (n : nat) (v : sval (N:=N)) : option env :=
    match enumerated, idx with
    | true, [i; x] => Some [(x, of_sval v); (i, PNum (nint (Z.of_nat n)))]
    | false, [x] => Some [(x, of_sval v)]
    | _, _ => None
    end.
  (** an argument of IfElse *)
  Inductive arg := AValue (v : pyval) | ACommand (c : command).
  (** src/compilers/ast_to_spe.py:67-75: conditions and subcommands alternate.  What is neither an event nor True raises when the
      condition is used; what is not a command raises when the branch is taken. *)
  Fixpoint pair_up (l : list arg) : res (list (option tr * command)) :=
    match l with
    | [] => Ok []
    | [_] => Raise AssertionError
    | c :: s :: l =>
      do o <- match c with AValue (PTr t) => Ok (Some t) | AValue (PBool true) => Ok None | _ => Raise TypeError end;
      do bs <- pair_up l;
      Ok ((o, match s with ACommand k => k | AValue _ => bad AttributeError end) :: bs)
    end.

  (** the command of an item: the constructors of src/compilers/ast_to_spe.py:30-132 *)
  Fixpoint command_of (g : env) (i : item) {struct i} : res command :=
    match i with
    | IExpr e => do _ <- peval g e; Raise AttributeError
    | ISample t v => do x <- the_var g t; do d <- deval g v; Ok (Sample x d)
    | ITransform t v => do x <- the_var g t; do r <- peval g v; match r with PTr u => Ok (Transform x u) | _ => Raise AttributeError end
    | ICondition e => do u <- the_event g e; Ok (Condition u)
    | IConstrain e => do a <- aeval g e; Ok (Constrain a)
    | IIfElse args =>
      do l <- mapM (fun i => match i with IExpr e => do v <- peval g e; Ok (AValue v) | _ => do c <- command_of g i; Ok (ACommand c) end) args;
      do bs <- pair_up l; Ok (IfElse bs)
    | IFor n0 n1 x body =>
      do a <- peval g n0; do z0 <- int_or TypeError a;
      do b <- peval g n1; do z1 <- int_or TypeError b;
      match body with
      | [i] => Ok (For z0 z1 (fun z => match command_of ((x, PNum (nint z)) :: g) i with Ok c => c | Raise e => bad e end))
      | _ => Raise ValueError
      end
    | ISwitch symbol values idx body =>
      do x <- the_var g symbol;
      do v <- peval g values;
      do (enumerated, l) <- match v with PColl l => Ok (false, l) | PEnum l => Ok (true, l) | _ => Raise TypeError end;
      do vs <- mapM as_sval l;
      match body with
      | [i] => Ok (Switch x vs (fun n v =>
          match switch_args enumerated idx n v with
          | Some h => match command_of (h ++ g) i with Ok c => c | Raise e => bad e end
          | None => bad TypeError
          end))
      | _ => Raise ValueError
      end
    | ISequence l => do cs <- mapM (command_of g) l; Ok (Sequence cs)
    end.

  (** the constants, in the order of the dictionary; the target of a constant is a name *)
  Fixpoint run_constants (l : list (expr * expr)) (g : env) : res env :=
    match l with
    | [] => Ok g
    | (XName x, v) :: l => do r <- peval g v; run_constants l ((x, r) :: g)
    | _ => Raise NotImplementedError
    end.
  (** src/compilers/ast_to_spe.py:26-27 IdArray *)
  Definition element (x : string) (k : nat) : string := (x ++ "[" ++ NilEmpty.string_of_uint (Nat.to_uint k) ++ "]")%string.
  Definition IdArray (x : string) (n : Z) : pyval := PColl (map (fun k => PTr (TId (element x k))) (seq 0 (Z.to_nat n))).
  (** the namespace in which the command is evaluated: constants, then variables, then arrays *)
  Definition module_env (st : vstate N) : res env :=
    do g <- run_constants (vs_constants st) [];
    let vars := flat_map (fun p => match snd p with None => [(fst p, PTr (TId (fst p)))] | Some _ => [] end) (vs_variables st) in
    foldM (fun g p => match snd p with
                      | None => Ok g
                      | Some n => do v <- peval g n; do z <- int_or TypeError v; Ok ((fst p, IdArray (fst p) z) :: g)
                      end) (vs_variables st) (rev vars ++ g).
  (** src/compilers/sppl_to_python.py:398-420: the command of a program *)
  Definition the_command (g : env) (is : list item) : res command :=
    match is with [i] => command_of g i | _ => Raise ValueError end.
End Python.
