(** Specification of SPPL source programs: what an expression, a condition and a statement of
    the source mean, read as Python would read them on the values of the variables, and what
    they do to the joint distribution.  This file uses the syntax, none of the algorithms of
    the translation.

    Python evaluates names, array elements, calls, loop bounds, the collections of "in" and
    the values of a switch before any variable has a value: they are given by [pv]. *)
From Coq Require Import List Bool String Reals ZArith.
From Verif Require Import Base Num Sets SetSpec Poly Trans TransSpec Dnf DnfSpec Logs Spe SpeSpec SpeOps Prog ProgSpec Source.
Import ListNotations.
Local Open Scope R_scope.

(** true or false *)
Definition bool_of (P : Prop) : bool := if dec P then true else false.

Section Spec.
  Context {N : numsys} {S : logsys} {D : distsys N S}.
  Notation expr := (expr N).
  Notation stmt := (stmt N).
  Notation env := (env (N:=N)).
  Notation pyval := (pyval (N:=N)).
  Notation pset := (pset N).
  Context (pv : env -> expr -> res pyval).

  (** ** Expressions *)
  (** a value of the source: of a variable or constant, or a truth value *)
  Inductive sv := SV (v : fval) | SB (b : bool).
  Definition const (v : pyval) : option fval :=
    match v with PNum c => Some (FNum (toR c)) | PText s => Some (FStr s) | _ => None end.
  Definition atom (r : res pyval) (w : asg) : option sv :=
    match r with
    | Ok (PTr (TId x)) => Some (SV (w x))
    | Ok v => option_map SV (const v)
    | Raise _ => None
    end.
  Definition arith (op : binop) (x y : R) : option R :=
    match op with
    | BAdd => Some (x + y)
    | BSub => Some (x - y)
    | BMul => Some (x * y)
    | BDiv => if Req_EM_T y 0 then None else Some (x / y)
    | BPow =>
      let z := Int_part y in
      if Req_EM_T y (IZR z) then if Req_EM_T x 0 then if Z_lt_dec z 0 then None else Some (powerRZ x z) else Some (powerRZ x z) else None
    | _ => None
    end.
  Definition sbin (op : binop) (a b : option sv) : option sv :=
    match op, a, b with
    | BAnd, Some (SB x), Some (SB y) => Some (SB (x && y))
    | BOr, Some (SB x), Some (SB y) => Some (SB (x || y))
    | _, Some (SV (FNum x)), Some (SV (FNum y)) => option_map (fun r => SV (FNum r)) (arith op x y)
    | _, _, _ => None
    end.
  Definition sun (op : unop) (a : option sv) : option sv :=
    match op, a with
    | UNeg, Some (SV (FNum x)) => Some (SV (FNum (- x)))
    | (UInv | UNot), Some (SB b) => Some (SB (negb b))
    | _, _ => None
    end.
  (** a number is not compared with a string *)
  Definition alike (x y : fval) : bool :=
    match x, y with FNum _, FNum _ | FStr _, FStr _ => true | _, _ => false end.
  Fixpoint consts (l : list pyval) : option (list fval) :=
    match l with
    | [] => Some []
    | v :: l => match const v, consts l with Some x, Some xs => Some (x :: xs) | _, _ => None end
    end.
  (** a set of strings, a set of numbers *)
  Definition of_strings (s : pset) : bool := match s with PB (BNom _ _) => true | _ => false end.
  Definition of_numbers (s : pset) : bool :=
    match s with
    | PEmpty => true
    | PB (BNom _ _) => false
    | PB _ => true
    | PUnion l => forallb (fun b => match b with BNom _ _ => false | _ => true end) l
    end.
  Definition suits (v : fval) (s : pset) : bool := match v with FStr _ => of_strings s | FNum _ => of_numbers s end.
  Definition member (v : fval) (c : res pyval) : option bool :=
    match c with
    | Ok (PColl l) => match consts l with Some vs => if forallb (alike v) vs then Some (bool_of (In v vs)) else None | None => None end
    | Ok (PSet s) => if suits v s then Some (bool_of (fm v s)) else None
    | _ => None
    end.
  (** x op y, where c is what Python evaluates the right hand side to *)
  Definition scmp (op : cmpop) (x y : option sv) (c : res pyval) : option bool :=
    match op, x, y with
    | CLt, Some (SV (FNum x)), Some (SV (FNum y)) => Some (bool_of (x < y))
    | CLe, Some (SV (FNum x)), Some (SV (FNum y)) => Some (bool_of (x <= y))
    | CGt, Some (SV (FNum x)), Some (SV (FNum y)) => Some (bool_of (x > y))
    | CGe, Some (SV (FNum x)), Some (SV (FNum y)) => Some (bool_of (x >= y))
    | CEq, Some (SV x), Some (SV y) => if alike x y then Some (bool_of (x = y)) else None
    | CNe, Some (SV x), Some (SV y) => if alike x y then Some (bool_of (x <> y)) else None
    | CIn, Some (SV x), _ => member x c
    | CNotIn, Some (SV x), _ => option_map negb (member x c)
    | _, _, _ => None
    end.
  (** the value of an expression when the variables have the values w; None if it has none *)
  Fixpoint seval (g : env) (e : expr) (w : asg) {struct e} : option sv :=
    match e with
    | XNum c => Some (SV (FNum (toR c)))
    | XText s => Some (SV (FStr s))
    | XBool b => Some (SB b)
    | XName _ | XItem _ _ | XCall _ _ _ => atom (pv g e) w
    | XBin op a b => sbin op (seval g a w) (seval g b w)
    | XUn op a => sun op (seval g a w)
    | XBoolOp all l =>
      (fix go (l : list expr) : option sv :=
         match l with
         | [] => Some (SB all)
         | e :: l => match seval g e w, go l with
                     | Some (SB x), Some (SB y) => Some (SB (if all then x && y else x || y))
                     | _, _ => None
                     end
         end) l
    | XCmp a l =>
      (fix go (x : option sv) (l : list (cmpop * expr)) : option sv :=
         match l with
         | [] => Some (SB true)
         | (op, b) :: l =>
           let y := seval g b w in
           match scmp op x y (pv g b), go y l with
           | Some p, Some (SB q) => Some (SB (p && q))
           | _, _ => None
           end
         end) (seval g a w) l
    | XIf t a b => match seval g t w with Some (SB true) => seval g a w | Some (SB false) => seval g b w | _ => None end
    | XSet _ | XSeq _ => None
    end.
  (** the condition e is true *)
  Definition true_at (g : env) (e : expr) (w : asg) : Prop := seval g e w = Some (SB true).

  (** ** The conditions and terms for which the translation is claimed *)
  Definition is_tr (r : res pyval) : Prop := exists t, r = Ok (PTr t).
  Definition is_num (r : res pyval) : Prop := exists c, r = Ok (PNum c).
  Definition is_text (r : res pyval) : Prop := exists s, r = Ok (PText s).
  (** Arithmetic on variables and constants.  Not: a number minus a variable, a number to the
      power of a variable. *)
  Fixpoint term (g : env) (e : expr) : Prop :=
    match e with
    | XNum _ | XText _ => True
    | XName _ | XItem _ _ | XCall _ _ _ => rewrite e = e /\ forall t, pv g e = Ok (PTr t) -> exists x, t = TId x
    | XBin (BAdd | BMul | BDiv) a b => term g a /\ term g b
    | XBin BSub a b => term g a /\ term g b /\ ~ (is_num (pv g a) /\ is_tr (pv g b))
    | XBin BPow a b => term g a /\ term g b /\ ~ is_tr (pv g b)
    | XUn UNeg a => term g a
    | _ => False
    end.
  (** the right hand side of "in": nonempty, of numbers only or of strings only *)
  Definition numbers (r : res pyval) : Prop :=
    match r with
    | Ok (PColl l) => l <> [] /\ Forall (fun v => is_num (Ok v)) l
    | Ok (PSet s) => wf s /\ s <> PEmpty /\ of_numbers s = true
    | _ => False
    end.
  Definition strings (r : res pyval) : Prop :=
    match r with
    | Ok (PColl l) => l <> [] /\ Forall (fun v => is_text (Ok v)) l
    | Ok (PSet s) => wf s /\ s <> PEmpty /\ of_strings s = true
    | _ => False
    end.
  (** conditions about numbers only *)
  Fixpoint numeric (g : env) (e : expr) : Prop :=
    match e with
    | XBool _ => True
    | XCmp a [((CLt | CLe | CGt | CGe), b)] => True
    | XCmp a [((CEq | CNe), b)] => is_num (pv g b)
    | XCmp a [((CIn | CNotIn), b)] => numbers (pv g b)
    | XBin (BAnd | BOr) a b => numeric g a /\ numeric g b
    | XUn UInv a => numeric g a
    | _ => False
    end.
  (** comparisons other than "not in", joined by | only *)
  Fixpoint disjunctive (e : expr) : Prop :=
    match e with
    | XCmp _ [(CNotIn, _)] => False
    | XCmp _ _ => True
    | XBin BOr a b => disjunctive a /\ disjunctive b
    | _ => False
    end.
  (** Single comparisons joined by &, | and ~.  Under ~ stands a condition about numbers only,
      or one without &, ~ and "not in". *)
  Fixpoint cond (g : env) (e : expr) : Prop :=
    match e with
    | XBool _ => True
    | XCmp a [((CLt | CLe | CGt | CGe), b)] => term g a /\ term g b
    | XCmp a [((CEq | CNe), b)] => term g a /\ term g b /\ (is_num (pv g b) \/ is_text (pv g b))
    | XCmp a [((CIn | CNotIn), b)] => term g a /\ (numbers (pv g b) \/ strings (pv g b))
    | XBin (BAnd | BOr) a b => cond g a /\ cond g b
    | XUn UInv a => cond g a /\ (numeric g a \/ disjunctive a)
    | _ => False
    end.

  (** ** Statements *)
  Context (isdist : string -> bool) (deval : env -> expr -> res (distribution (N:=N) (D:=D))) (dlaw : dist D -> (fval -> R) -> R).

  (** A name is random from its first random assignment in the text on. *)
  Definition scope := string -> bool.
  Definition is_array (v : expr) : bool := match v with XCall f _ _ => String.eqb f "array" | _ => false end.
  Fixpoint random (k : scope) (v : expr) : bool :=
    match v with
    | XIf _ a b => random k a || random k b
    | _ => is_array v || existsb (fun x => isdist x || k x) (names v)
    end.
  Fixpoint grow (k : scope) (s : stmt) : scope :=
    match s with
    | SAssign [XName x] v => if random k v then fun y => String.eqb y x || k y else k
    | SIf _ b o => fold_left grow o (fold_left grow b k)
    | SFor _ _ _ b => fold_left grow b k
    | _ => k
    end.
  (** one statement after the other *)
  Section Thread.
    Context (m : scope -> stmt -> kernel -> kernel).
    Fixpoint thread (k : scope) (l : list stmt) (K : kernel) : kernel :=
      match l with [] => K | s :: l => thread (grow k s) l (m k s K) end.
  End Thread.

  (** the two ways of an if *)
  Definition either (K : kernel) (P : asg -> Prop) (yes no : kernel -> kernel) : kernel := fun f w =>
    K (ind P) w * yes (restrict K P) f w + K (ind (fun a => ~ P a)) w * no (restrict K (fun a => ~ P a)) f w.
  (** an if without else: the cases that no branch covers are lost *)
  Definition only_if (K : kernel) (P : asg -> Prop) (yes : kernel -> kernel) : kernel := fun f w =>
    K (ind P) w * yes (restrict K P) f w.
  (** a new variable with a distribution, with a value *)
  Definition draw (x : string) (d : distribution (N:=N) (D:=D)) (K : kernel) : kernel := fun f =>
    K (match d x with Ok l => den dlaw l f | Raise _ => f end).
  Definition sval_or (o : option sv) : fval := match o with Some (SV v) => v | _ => FNum 0 end.
  Definition put (x : string) (v : asg -> option sv) (K : kernel) : kernel := fun f =>
    K (fun a => f (upd a x (sval_or (v a)))).
  (** the variable on the left of an assignment *)
  Definition target (g : env) (t : expr) : option string := match pv g t with Ok (PTr (TId x)) => Some x | _ => None end.
  (** t ~= v *)
  Fixpoint sassign (g : env) (k : scope) (t v : expr) (K : kernel) {struct v} : kernel :=
    match v with
    | XIf c a b => either K (true_at g c) (sassign g k t a) (sassign g (grow k (SAssign [t] a)) t b)
    | _ =>
      if is_array v then K
      else if existsb isdist (names v) then
        match target g t, deval g v with Some x, Ok d => draw x d K | _, _ => K end
      else if existsb k (names v) then
        match target g t with Some x => put x (seval g v) K | None => K end
      else K
    end.
  (** the bounds of for ... in range(...) *)
  Definition integer (r : res pyval) : option Z := match r with Ok v => match int_or TypeError v with Ok z => Some z | Raise _ => None end | Raise _ => None end.
  Definition bounds (g : env) (args : list expr) : option (Z * Z) :=
    match args with
    | [b] => option_map (pair 0%Z) (integer (pv g b))
    | [a; b] => match integer (pv g a), integer (pv g b) with Some x, Some y => Some (x, y) | _, _ => None end
    | _ => None
    end.
  (** the cases of a switch, with the values of its names *)
  Definition cases (g : env) (values : expr) (idx : list string) : list (sval (N:=N) * env) :=
    match pv g values, idx with
    | Ok (PColl l), [x] =>
      match mapM as_sval l with
      | Ok vs => map (fun v => (v, [(x, of_sval v)])) vs
      | Raise _ => []
      end
    | Ok (PEnum l), [i; x] =>
      match mapM as_sval l with
      | Ok vs => map (fun p => (snd p, [(x, of_sval (snd p)); (i, PNum (nint (Z.of_nat (fst p))))])) (numbered vs)
      | Raise _ => []
      end
    | _, _ => []
    end.
  Fixpoint smean (g : env) (k : scope) (s : stmt) (K : kernel) {struct s} : kernel :=
    match s with
    | SAssign [t] v => sassign g k t v K
    | SIf c b [] => only_if K (true_at g c) (thread (smean g) k b)
    | SIf c b o => either K (true_at g c) (thread (smean g) k b) (thread (smean g) (fold_left grow b k) o)
    | SFor xs f args b =>
      if String.eqb f "range" then
        match xs, bounds g args with
        | [x], Some (z0, z1) => fold_left (fun K z => thread (smean ((x, PNum (nint z)) :: g)) k b K) (range z0 z1) K
        | _, _ => K
        end
      else
        match args with
        | [symbol; values] =>
          match target g symbol with
          | Some x => total K (map (fun p => (matches x (fst p), thread (smean (snd p ++ g)) k b)) (cases g values xs))
          | None => K
          end
        | _ => K
        end
    | SCall f [e] => if String.eqb f "condition" then restrict K (true_at g e) else K
    | _ => K
    end.
  (** the meaning of a program, in the namespace g *)
  Definition source_meaning (g : env) (p : list stmt) (K : kernel) : kernel := thread (smean g) (fun _ => false) p K.

  (** The names of a program that are not random: a statement x = v outside if and for, where v
      has nothing random in it, binds x.  [named k l g] runs those of l after g. *)
  Definition fixes (k : scope) (s : stmt) : option (expr * expr) :=
    match s with SAssign [t] v => if random k v then None else Some (t, v) | _ => None end.
  Fixpoint named (k : scope) (l : list stmt) (g : env) : res env :=
    match l with
    | [] => Ok g
    | s :: l =>
      match fixes k s with
      | Some (XName x, v) => do r <- pv g v; named k l ((x, r) :: g)
      | Some _ => Raise NotImplementedError
      | None => named (grow k s) l g
      end
    end.
  Fixpoint fixed (k : scope) (l : list stmt) : list (expr * expr) :=
    match l with
    | [] => []
    | s :: l => match fixes k s with Some p => p :: fixed k l | None => fixed (grow k s) l end
    end.

  (** ** Programs for which the translation is claimed *)
  (** a test is a condition that almost surely is true or false *)
  Definition test_ok (g : env) (e : expr) (K : kernel) (w : asg) : Prop :=
    cond g e /\ K (ind (fun a => seval g e a = None)) w = 0.
  (** what is asked of an assignment, a statement, or a block where it has a chance to be run:
      tests are conditions, distributions have no comparisons in them, transforms are terms
      that almost surely have a value.  constrain is not here. *)
  Fixpoint sane_assign (g : env) (k : scope) (t v : expr) (K : kernel) (w : asg) {struct v} : Prop :=
    match v with
    | XIf c a b =>
      test_ok g c K w /\
      (K (ind (true_at g c)) w <> 0 -> sane_assign g k t a (restrict K (true_at g c)) w) /\
      (K (ind (fun x => ~ true_at g c x)) w <> 0 -> sane_assign g (grow k (SAssign [t] a)) t b (restrict K (fun x => ~ true_at g c x)) w)
    | _ =>
      if is_array v then True
      else if existsb isdist (names v) then rewrite v = v
      else if existsb k (names v) then term g v /\ K (ind (fun a => seval g v a = None)) w = 0
      else True
    end.
  Section Sanes.
    Context (m : scope -> stmt -> kernel -> kernel) (ok : scope -> stmt -> kernel -> Prop).
    Fixpoint sanes (k : scope) (l : list stmt) (K : kernel) : Prop :=
      match l with [] => True | s :: l => ok k s K /\ sanes (grow k s) l (m k s K) end.
  End Sanes.
  Section Loop.
    Context (m : Z -> kernel -> kernel) (ok : Z -> kernel -> Prop).
    Fixpoint loop_ok (l : list Z) (K : kernel) : Prop :=
      match l with [] => True | z :: l => ok z K /\ loop_ok l (m z K) end.
  End Loop.
  Fixpoint sane (w : asg) (g : env) (k : scope) (s : stmt) (K : kernel) {struct s} : Prop :=
    match s with
    | SAssign [t] v => sane_assign g k t v K w
    | SIf c b o =>
      test_ok g c K w /\
      (K (ind (true_at g c)) w <> 0 -> sanes (smean g) (sane w g) k b (restrict K (true_at g c))) /\
      (K (ind (fun x => ~ true_at g c x)) w <> 0 -> sanes (smean g) (sane w g) (fold_left grow b k) o (restrict K (fun x => ~ true_at g c x)))
    | SFor xs f args b =>
      if String.eqb f "range" then
        match xs, bounds g args with
        | [x], Some (z0, z1) =>
          loop_ok (fun z => thread (smean ((x, PNum (nint z)) :: g)) k b)
                  (fun z => sanes (smean ((x, PNum (nint z)) :: g)) (sane w ((x, PNum (nint z)) :: g)) k b) (range z0 z1) K
        | _, _ => True
        end
      else
        match args with
        | [symbol; values] =>
          match target g symbol with
          | Some x => forall Q h, In (Q, h) (firsts (map (fun p => (matches x (fst p), snd p)) (cases g values xs))) -> K (ind Q) w <> 0 ->
                      sanes (smean (h ++ g)) (sane w (h ++ g)) k b (restrict K Q)
          | None => True
          end
        | _ => True
        end
    | SCall f [e] => if String.eqb f "condition" then test_ok g e K w else if String.eqb f "constrain" then False else True
    | _ => True
    end.
  Definition sane_program (g : env) (p : list stmt) : Prop := forall w, sanes (smean g) (sane w g) (fun _ => false) p start.

  (** A branch of an if is not empty, and is not a single statement that does nothing in a
      command: pass, import, a call of something other than condition and constrain. *)
  Definition writes (s : stmt) : Prop :=
    match s with
    | SImport _ | SNone => False
    | SCall f _ => f = "condition"%string \/ f = "constrain"%string
    | _ => True
    end.
  Definition branch_ok (l : list stmt) : Prop := match l with [] => False | [s] => writes s | _ => True end.
  Fixpoint solid (s : stmt) : Prop :=
    match s with
    | SIf _ b o => branch_ok b /\ All solid b /\ (o = [] \/ branch_ok o) /\ All solid o
    | SFor _ _ _ b => All solid b
    | _ => True
    end.
End Spec.
