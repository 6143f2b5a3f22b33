(** Specification of programs: what the commands of src/compilers/ast_to_spe.py mean, as
    operations on joint distributions.  This file uses the syntax of commands, none of the
    algorithms.

    A state is a kernel: [K f w] is the expected value of f at the assignment obtained from w
    by running the program so far.  A branch is run on the distribution given that its
    condition holds and no earlier one does; the branches are mixed by the probabilities of
    these events. *)
From Coq Require Import List Bool String Reals ZArith QArith Qreals.
From Verif Require Import Base Num Sets SetSpec Poly Trans TransSpec Dnf DnfSpec Logs Spe SpeSpec SpeOps Prog NormSorts SpeEq CondTypes PropSpe.
Import ListNotations.
Local Open Scope R_scope.

Definition kernel := (asg -> R) -> asg -> R.
(** before the first command *)
Definition start : kernel := fun f w => f w.
(** the distribution given P *)
Definition restrict (K : kernel) (P : asg -> Prop) : kernel := fun f w => K (fun a => f a * ind P a) w / K (ind P) w.
(** what is almost sure, what has a chance *)
Definition sure (K : kernel) (P : asg -> Prop) : Prop := forall w, K (ind (fun a => ~ P a)) w = 0.
Definition chance (K : kernel) (P : asg -> Prop) : Prop := exists w, K (ind P) w <> 0.

(** f depends on the variables V only *)
Definition reads (V : string -> Prop) (f : asg -> R) : Prop := forall a b, (forall x, V x -> a x = b x) -> f a = f b.

(** each case, with the condition that it is the first to apply *)
Fixpoint firsts {B} (l : list ((asg -> Prop) * B)) : list ((asg -> Prop) * B) :=
  match l with
  | [] => []
  | p :: l => p :: map (fun q => (fun a => ~ fst p a /\ fst q a, snd q)) (firsts l)
  end.
(** the law of total probability *)
Definition total (K : kernel) (cases : list ((asg -> Prop) * (kernel -> kernel))) : kernel :=
  fun f w => sumR (map (fun p => K (ind (fst p)) w * snd p (restrict K (fst p)) f w) (firsts cases)).

Section Meaning.
  Context {N : numsys} {S : logsys} {D : distsys N S}.
  Notation tr := (tr N).
  Notation spe := (spe D).
  Notation command := (command (N:=N) (D:=D)).
  Context (dlaw : dist D -> (fval -> R) -> R).

  (** the condition of a branch; None is True *)
  Definition test (c : option tr) (a : asg) : Prop := match c with Some e => holds e a | None => True end.
  (** the value of x is one of the values of a case *)
  Definition matches (x : string) (v : sval (N:=N)) (a : asg) : Prop :=
    match v with
    | VSet s => fm (a x) s
    | VText s => a x = FStr s
    | VReal c => a x = FNum (toR c)
    end.
  Definition numbered {A} (l : list A) : list (nat * A) := combine (seq 0 (List.length l)) l.

  Fixpoint meaning (c : command) (K : kernel) {struct c} : kernel :=
    match c with
    | Skip => K
    | Sample x d => fun f => K (match d x with Ok l => den dlaw l f | Raise _ => f end)
    | Transform y t => fun f => K (fun a => f (upd a y (value_or (teval t a))))
    | Condition e => restrict K (holds e)
    | Constrain _ => K
    | IfElse bs => total K (map (fun b => (test (fst b), meaning (snd b))) bs)
    | For n0 n1 f => fold_left (fun K i => meaning (f i) K) (range n0 n1) K
    | Switch x vs f => total K (map (fun p => (matches x (snd p), meaning (f (fst p) (snd p)))) (numbered vs))
    | Sequence cs => fold_left (fun K c => meaning c K) cs K
    end.

  (** programs that only add variables *)
  Fixpoint calm (c : command) : Prop :=
    match c with
    | Skip | Sample _ _ | Transform _ _ => True
    | Condition _ | Constrain _ => False
    | IfElse bs => All (fun b => calm (snd b)) bs
    | For _ _ f => forall i, calm (f i)
    | Switch _ _ f => forall n v, calm (f n v)
    | Sequence cs => All calm cs
    end.

  (** ** Programs for which the interpreter is claimed to work *)
  (** [fits c V K W]: the command c can be run on the variables V with the joint distribution
      K, and the variables are then W.  Transforms are almost surely defined and used inside
      their domains; string sets are used for nominal variables; the conditions of a branching
      are almost surely true or false, and almost surely one of them is true.  Constrain is
      not here. *)
  Context (nominal : string -> bool).
  (** an event that can be conditioned on *)
  Definition ask_ok (V : string -> Prop) (e : tr) : Prop :=
    gev e /\ univariate e /\ event_sorts nominal e /\ forall x, In x (symbols e) -> V x.
  (** a condition of IfElse: none of its parts is about the empty set *)
  Definition guard (V : string -> Prop) (e : tr) : Prop := ask_ok V e /\ Forall nonvoid (lits e).
  (** the values of a case have the sort of the variable *)
  Definition case_ok (x : string) (v : sval (N:=N)) : Prop :=
    match v with
    | VSet s => wf s /\ s <> PEmpty /\ sort_set nominal x s
    | VText _ => nominal x = true
    | VReal _ => nominal x = false
    end.
  (** the leaf of a Sample *)
  Definition no_env : string -> tenv (N:=N) := fun _ => [].
  Definition sample_ok (x : string) (l : spe) : Prop :=
    wf_spe dlaw l /\ typed nominal no_env l /\ forall z, vars l z <-> z = x.
  Inductive fits : command -> (string -> Prop) -> kernel -> (string -> Prop) -> Prop :=
  | fits_skip : forall V K, fits Skip V K V
  | fits_sample : forall x d l (V W : string -> Prop) K, d x = Ok l -> sample_ok x l -> (forall z, W z <-> V z \/ z = x) -> fits (Sample x d) V K W
  | fits_transform : forall y t (V W : string -> Prop) K, good t -> realv t -> nominal y = false -> (exists x, only x t) ->
      sure K (fun a => teval t a <> None) -> sure K (regular true t) -> (forall z, W z <-> V z \/ z = y) -> fits (Transform y t) V K W
  | fits_condition : forall e V K, ask_ok V e -> sure K (regular true e) -> fits (Condition e) V K V
  | fits_if : forall bs V K W,
      (forall e, In (Some e) (map fst bs) -> guard V e /\ sure K (regular true e) /\ sure K (fun a => teval e a <> None)) ->
      sure K (fun a => exists b, In b bs /\ test (fst b) a) ->
      (forall P c, In (P, c) (firsts (map (fun b => (test (fst b), snd b)) bs)) -> chance K P -> fits c V (restrict K P) W) ->
      fits (IfElse bs) V K W
  | fits_switch : forall x vs f (V : string -> Prop) K W, V x -> Forall (case_ok x) vs ->
      sure K (fun a => exists v, In v vs /\ matches x v a) ->
      (forall P c, In (P, c) (firsts (map (fun p => (matches x (snd p), f (fst p) (snd p))) (numbered vs))) -> chance K P -> fits c V (restrict K P) W) ->
      fits (Switch x vs f) V K W
  | fits_for : forall n0 n1 f V K W, fits (Sequence (map f (range n0 n1))) V K W -> fits (For n0 n1 f) V K W
  | fits_nil : forall V K, fits (Sequence []) V K V
  | fits_cons : forall c cs V K V' W, fits c V K V' -> fits (Sequence cs) V' (meaning c K) W -> fits (Sequence (c :: cs)) V K W.
End Meaning.
