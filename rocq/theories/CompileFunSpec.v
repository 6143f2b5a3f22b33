(** A larger class of programs whose compilation is claimed to succeed: Conditions may compare
    functions of variables. *)
From Coq Require Import List Bool String Reals.
From Verif Require Import Base Num Sets SetSpec Poly Trans TransSpec Dnf DnfSpec Logs Spe SpeSpec Prog ProgSpec CondTypes TotalSpec ReturnSpec SolveSpec AskSpec FunSpec CompileSpec.
Import ListNotations.
Local Open Scope R_scope.

Section Spec.
  Context {N : numsys} {S : logsys} {D : distsys N S} (po : polyoracle N) (dlaw : dist D -> (fval -> R) -> R).
  Context (nominal derived : string -> bool) (cuts : string -> R -> Prop).
  Notation spe := (spe D).
  Notation tr := (tr N).
  Notation command := (command (N:=N) (D:=D)).
  Notation none := (fun (_ : string) (_ : R) => False).
  Notation base := (base derived).
  Notation compiles := (compiles dlaw nominal derived cuts).

  (** [admits c V K made W made']: as [compiles] in CompileSpec.v; besides the commands of that class,
      a Condition may be a conjunction of comparisons of sampled variables and of one-to-one functions
      of them, if at least two variables are sampled before it and the functions are almost surely
      used inside their domains.  Such Conditions may stand in branches and loops. *)
  Inductive admits : command -> (string -> Prop) -> kernel -> option spe -> (string -> Prop) -> option spe -> Prop :=
  | admits_plain : forall c V K m W m', compiles c V K m W m' -> admits c V K m W m'
  | admits_condition : forall e (V : string -> Prop) K m, two (base V) -> posed po nominal cuts none e -> conjunctive e -> Forall thin (lits e) ->
      (forall x, In x (symbols e) -> base V x) -> sure K (regular true e) -> chance K (holds e) ->
      admits (Condition e) V K m V None
  | admits_if : forall es bs (V : string -> Prop) K m W, (exists z, V z) -> conditions_ok es (map fst bs) -> (forall e, In e es -> plain_event nominal derived cuts V e /\ Forall nonvoid (lits e)) ->
      sure K (fun a => exists b, In b bs /\ test (fst b) a) ->
      (forall P c, In (P, c) (firsts (map (fun b => (test (fst b), snd b)) bs)) -> chance K P -> divisible nominal derived cuts V m P) ->
      (forall P c, In (P, c) (firsts (map (fun b => (test (fst b), snd b)) bs)) -> chance K P -> admits c V (restrict K P) None W None) ->
      admits (IfElse bs) V K m W None
  | admits_switch : forall x vs f (V : string -> Prop) K m W, base V x -> Forall (plain_case nominal cuts x) vs -> ForallOrdPairs (separate nominal x) vs ->
      sure K (fun a => exists v, In v vs /\ matches x v a) ->
      (forall P c, In (P, c) (firsts (map (fun p => (matches x (snd p), f (fst p) (snd p))) (numbered vs))) -> chance K P -> divisible nominal derived cuts V m P) ->
      (forall P c, In (P, c) (firsts (map (fun p => (matches x (snd p), f (fst p) (snd p))) (numbered vs))) -> chance K P -> admits c V (restrict K P) None W None) ->
      admits (Switch x vs f) V K m W None
  | admits_for : forall n0 n1 f V K m W m', admits (Sequence (map f (range n0 n1))) V K m W m' -> admits (For n0 n1 f) V K m W m'
  | admits_cons : forall c cs V K m V' m' W m'', admits c V K m V' m' -> admits (Sequence cs) V' (meaning dlaw c K) m' W m'' -> admits (Sequence (c :: cs)) V K m W m''.
End Spec.
