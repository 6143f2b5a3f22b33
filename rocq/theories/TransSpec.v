(** Specification of transforms and events: the value of a transform, and the truth of an
    event, at an assignment of finite reals and strings to variables.  This file uses the
    syntax of transforms and the membership relation, none of the algorithms. *)
From Coq Require Import List Bool String Reals Lra Lia ZArith Classical ClassicalDedekindReals.
From Verif Require Import Base Num Sets SetSpec Poly Trans.
Import ListNotations.
Local Open Scope R_scope.

(** Every proposition can be decided, in the classical logic of the reals. *)
Definition dec (P : Prop) : {P} + {~ P} :=
  match sig_not_dec P with left h => left (NNPP _ h) | right h => right h end.

(** Values of random variables: finite reals and strings. *)
Inductive fval := FNum (x : R) | FStr (s : string).
Definition inj (v : fval) : rval := match v with FNum x => RNum (Fin x) | FStr s => RStr s end.
Definition fm {N} (v : fval) (s : pset N) : Prop := mem (inj v) s.
Definition asg := string -> fval.
Definition upd {A} (w : string -> A) (x : string) (v : A) : string -> A :=
  fun y => if String.eqb x y then v else w y.

Definition one : option fval := Some (FNum 1).
Definition zero : option fval := Some (FNum 0).
Definition truth (P : Prop) : option fval := if dec P then one else zero.

(** Real functions.  Roots are defined on [0, oo), logarithms on (0, oo). *)
Definition f_root (d : positive) (x : R) : option R :=
  if Rlt_dec x 0 then None
  else if Req_EM_T x 0 then Some 0 else Some (Rpower x (/ INR (Pos.to_nat d))).
Definition f_exp (b x : R) : option R := Some (Rpower b x).
Definition f_log (b x : R) : option R := if Rlt_dec 0 x then Some (ln x / ln b) else None.
Definition f_recip (x : R) : option R := if Req_EM_T x 0 then None else Some (/ x).

Definition num_op (f : R -> option R) (v : option fval) : option fval :=
  match v with
  | Some (FNum x) => match f x with Some y => Some (FNum y) | None => None end
  | _ => None
  end.
(** A disjunction is true when some disjunct is true, false when all are false. *)
Definition kor (l : list (option fval)) : option fval :=
  if dec (In one l) then one else if dec (forall o, In o l -> o = zero) then zero else None.
Definition kand (l : list (option fval)) : option fval :=
  if dec (In zero l) then zero else if dec (forall o, In o l -> o = one) then one else None.
(** The value of the first piece whose event is true. *)
Fixpoint pick (l : list (option fval * option fval)) : option fval :=
  match l with
  | [] => None
  | (v, e) :: l => if dec (e = one) then v else pick l
  end.

Section Spec.
  Context {N : numsys}.
  Notation tr := (tr N).

  (** Comparing a number with strings, or a string with numbers, gives neither truth value,
      so that an event and its negation both fail to hold. *)
  Fixpoint teval (t : tr) (w : asg) : option fval :=
    match t with
    | TId x => Some (w x)
    | TRadical u d => num_op (f_root d) (teval u w)
    | TExp u b => num_op (f_exp (toR b)) (teval u w)
    | TLog u b => num_op (f_log (toR b)) (teval u w)
    | TAbs u => num_op (fun x => Some (Rabs x)) (teval u w)
    | TRecip u => num_op f_recip (teval u w)
    | TPoly u cs => num_op (fun x => Some (Rpoly cs x)) (teval u w)
    | TPiece l => pick (map (fun p => (teval (fst p) w, teval (snd p) w)) l)
    | EBasic k u s =>
      match k, teval u w with
      | KNom, Some (FStr x) => truth (fm (FStr x) s)
      | (KInt | KReal), Some (FNum x) => truth (fm (FNum x) s)
      | _, _ => None
      end
    | EOr l => kor (map (fun e => teval e w) l)
    | EAnd l => kand (map (fun e => teval e w) l)
    end.

  (** The event is true. *)
  Definition holds (e : tr) (w : asg) : Prop := teval e w = one.

  Section All.
    Context {A : Type} (P : A -> Prop).
    Fixpoint All (l : list A) : Prop :=
      match l with [] => True | a :: l => P a /\ All l end.
  End All.

  (** Transforms whose value is a number wherever the variable is a number: everything
      except compound and nominal events. *)
  Definition realv (t : tr) : Prop :=
    match t with EOr _ | EAnd _ | EBasic KNom _ _ => False | _ => True end.

  (** Transforms that never take a string for value. *)
  Fixpoint numv (t : tr) : Prop :=
    match t with TId _ => False | TPiece l => All (fun p => numv (fst p)) l | _ => True end.

  (** Transforms and events that the solver is claimed to handle: well-formed sets, bases
      greater than 1 and no nominal or compound event used as a number.  The events of a
      Piecewise use its symbol only. *)
  Fixpoint good (t : tr) : Prop :=
    match t with
    | TId _ => True
    | TRadical u _ | TAbs u | TRecip u | TPoly u _ => good u /\ realv u
    | TExp u b | TLog u b => good u /\ realv u /\ 1 < toR b
    | TPiece l =>
      l <> [] /\ All (fun p => good (fst p) /\ realv (fst p) /\ good (snd p) /\ is_event (snd p) = true /\
        incl (symbols (snd p)) (symbols (TPiece l))) l
    | EBasic KNom u s =>
      good u /\ realv u /\ wf s /\ (s = PEmpty \/ nominal_set s)
    | EBasic KInt u s => good u /\ realv u /\ wf s /\ exists i, s = PB (BInt i)
    | EBasic KReal u s => good u /\ realv u /\ wf s /\ (s = PEmpty \/ exists vs, s = PB (BReal vs))
    | EOr l | EAnd l => l <> [] /\ All (fun e => good e /\ is_event e = true) l
    end.

  Definition hasinf (s : pset N) : bool :=
    match s with PB (BReal vs) => existsb is_inf vs | _ => false end.

  (** The assignment is not a singular point: wherever the solver may be asked for
      log(..) = -oo (the flag says so), the argument of the logarithm is not 0; and the
      events of a Piecewise are disjoint there; and a nominal event on a transform, like
      X**2 << {'a'}, is only used on numbers unless it can never be true. *)
  Fixpoint regular (inf : bool) (t : tr) (w : asg) : Prop :=
    match t with
    | TId _ => True
    | TRadical u _ | TAbs u => regular inf u w
    | TExp u _ => regular true u w
    | TLog u _ => regular inf u w /\ (inf = true -> teval u w <> zero)
    | TRecip u | TPoly u _ => regular false u w
    | TPiece l =>
      All (fun p => regular inf (fst p) w /\ regular inf (snd p) w) l /\
      ForallOrdPairs (fun p q => ~ (holds (snd p) w /\ holds (snd q) w)) l
    | EBasic k u s =>
      regular (hasinf s) u w /\
      (k = KNom -> is_id u = true \/ (complemented s = false /\ numv u) \/
         forall x, In x (symbols u) -> exists r, w x = FNum r)
    | EOr l | EAnd l => All (fun e => regular inf e w) l
    end.

  (** No logarithm, no Piecewise and no nominal event on a transform inside: regular everywhere. *)
  Fixpoint plain (t : tr) : Prop :=
    match t with
    | TId _ => True
    | TLog _ _ | TPiece _ => False
    | TRadical u _ | TAbs u | TExp u _ | TRecip u | TPoly u _ => plain u
    | EBasic k u _ => plain u /\ (k = KNom -> is_id u = true)
    | EOr l | EAnd l => All plain l
    end.

  (** The event is false. *)
  Definition fails (e : tr) (w : asg) : Prop := teval e w = zero.
  (** The transform takes the number x for value. *)
  Definition value (t : tr) (w : asg) (x : R) : Prop := teval t w = Some (FNum x).
  (** The events for which the operators are claimed to work. *)
  Definition gev (e : tr) : Prop := good e /\ is_event e = true.
  (** Not a basic event on the empty set, which has forgotten its sort. *)
  Definition nonvoid (e : tr) : Prop := match e with EBasic _ _ PEmpty => False | _ => True end.
  (** Two basic events are both nominal or both numeric. *)
  Definition same_sort (a b : tr) : Prop :=
    match a, b with EBasic k _ _, EBasic j _ _ => k = KNom <-> j = KNom | _, _ => True end.

  (** Bounds by an extended number, strict or not. *)
  Definition above (a : ext (num N)) (o : bool) (x : R) : Prop :=
    match a with NInf => True | Fin c => if o then toR c < x else toR c <= x | PInf => False end.
  Definition below (b : ext (num N)) (o : bool) (x : R) : Prop :=
    match b with PInf => True | Fin c => if o then x < toR c else x <= toR c | NInf => False end.

  (** A set without infinite points. *)
  Definition inffree (s : pset N) : Prop := forall x, mem (RNum x) s -> exists r, x = Fin r.
  (** A transform of the variable X. *)
  Definition only (X : string) (t : tr) : Prop := forall x, In x (symbols t) -> x = X.

  (** A literal of the program denotes the value y. *)
  Definition val_is (v : val N) (y : fval) : Prop :=
    match v, y with VNum a, FNum x => eR a = Fin x | VStr s, FStr s' => s = s' | _, _ => False end.

  (** the shape to_dnf gives: a basic event, a conjunction of those, or a disjunction of these *)
  Definition is_lit (e : tr) : Prop := is_basic e = true.
  Definition is_clause (e : tr) : Prop := is_lit e \/ exists l, e = EAnd l /\ l <> [] /\ Forall is_lit l.
  Definition is_dnf (e : tr) : Prop := is_clause e \/ exists l, e = EOr l /\ l <> [] /\ Forall is_clause l.

  (** sum over the pieces of value times indicator; nothing true gives 0 *)
  Definition ind_val (t e : tr) w (y : R) : Prop := (holds e w /\ value t w y) \/ (~ holds e w /\ y = 0).
  Fixpoint sum_val (l : list (tr * tr)) w (y : R) : Prop :=
    match l with
    | [] => y = 0
    | p :: l => exists a b, ind_val (fst p) (snd p) w a /\ sum_val l w b /\ y = a + b
    end.

  (** The derived variables have the values of their definitions. *)
  Definition consistent (env : tenv (N:=N)) (w : asg) : Prop :=
    forall x t, lookup x env = Some t -> teval t w = Some (w x).
  Definition env_good (env : tenv (N:=N)) : Prop := forall x t, lookup x env = Some t -> good t /\ realv t.
  (** without Piecewise, substitution succeeds *)
  Fixpoint nopiece (t : tr) : Prop :=
    match t with
    | TId _ => True
    | TRadical u _ | TExp u _ | TLog u _ | TAbs u | TRecip u | TPoly u _ | EBasic _ u _ => nopiece u
    | TPiece _ => False
    | EOr l | EAnd l => All nopiece l
    end.
  (** Environments of a leaf: the base variable maps to itself; transform() adds a fresh symbol
      whose definition uses symbols already there. *)
  Inductive env_built (X : string) : tenv (N:=N) -> Prop :=
  | built_base : env_built X [(X, TId X)]
  | built_ext : forall env y t, env_built X env -> ~ In y (map fst env) -> (forall s, In s (symbols t) -> In s (map fst env)) ->
      env_built X (env ++ [(y, t)]).
End Spec.
