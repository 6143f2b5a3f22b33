(** A class of programs whose compilation is claimed to succeed. *)
From Coq Require Import List Bool String Reals.
From Verif Require Import Base Num Sets SetSpec Trans TransSpec Dnf DnfSpec Logs Spe SpeSpec Prog ProgSpec CondTypes TotalSpec ReturnSpec.
Import ListNotations.
Local Open Scope R_scope.

Section Spec.
  Context {N : numsys} {S : logsys} {D : distsys N S} (dlaw : dist D -> (fval -> R) -> R).
  (** the variables that take strings, the ones that the program defines by a Transform, and the
      numbers that the program compares each of the other variables with *)
  Context (nominal derived : string -> bool) (cuts : string -> R -> Prop).
  Notation spe := (spe D).
  Notation tr := (tr N).
  Notation command := (command (N:=N) (D:=D)).
  Notation meaning := (meaning dlaw).
  Notation none := (fun (_ : string) (_ : R) => False).

  (** the variables that are sampled *)
  Definition base (V : string -> Prop) (z : string) : Prop := V z /\ derived z = false.
  Definition two (V : string -> Prop) : Prop := exists x y, V x /\ V y /\ x <> y.
  (** a leaf, or a mixture of leaves *)
  Definition leafy (l : spe) : Prop :=
    is_leaf l = true \/ exists cs, l = SumSPE cs /\ Forall (fun c => is_leaf (fst c) = true) cs.
  (** a distribution to sample from; a discrete leaf is compared with integers only *)
  Definition plain_leaf (x : string) (l : spe) : Prop :=
    sample_ok dlaw nominal x l /\ derived x = false /\ leafy l /\ open_leaves nominal cuts false l /\ steady cuts none l.
  (** comparisons of sampled variables with numbers, intervals and strings, combined with & and | *)
  Definition plain_event (V : string -> Prop) (e : tr) : Prop :=
    direct nominal cuts none e /\ forall x, In x (symbols e) -> base V x.
  (** a comparison, or a disjunction of comparisons *)
  Definition level (e : tr) : Prop := is_basic e = true \/ exists l, e = EOr l /\ Forall (fun a => is_basic a = true) l.
  (** The program can restrict the variables V to P: at least two of them are sampled; or all
      sampled ones take strings; or the only one has just been sampled from l ([made] is Some l), the cuts are
      inside the supports of its leaves, and P has no isolated numbers if l is a continuous leaf;
      a mixture has only continuous leaves or none. *)
  Definition divisible (V : string -> Prop) (made : option spe) (P : asg -> Prop) : Prop :=
    two (base V) \/ (forall x, base V x -> nominal x = true) \/ exists l, made = Some l /\ open_leaves nominal cuts true l /\ even P l.

  (** [compiles c V K made W made']: on the variables V with the joint distribution K, the command
      c can be compiled, and the variables are then W.  A conjunction needs no pieces to restrict
      the variables to.  Transform defines a function of one variable
      that is almost surely defined and used inside its domain.  Constrain is not here. *)
  Inductive compiles : command -> (string -> Prop) -> kernel -> option spe -> (string -> Prop) -> option spe -> Prop :=
  | compiles_skip : forall V K m, compiles Skip V K m V m
  | compiles_first : forall x d l (V W : string -> Prop) K m, (forall z, ~ V z) -> d x = Ok l -> plain_leaf x l -> (forall z, W z <-> z = x) ->
      compiles (Sample x d) V K m W (Some l)
  | compiles_sample : forall x d l (V W : string -> Prop) K m, (exists z, V z) -> ~ V x -> d x = Ok l -> plain_leaf x l -> (forall z, W z <-> V z \/ z = x) ->
      compiles (Sample x d) V K m W None
  | compiles_transform : forall y t x (V W : string -> Prop) K m, derived y = true -> nominal y = false -> ~ V y -> V x -> nominal x = false ->
      good t -> realv t -> only x t -> symbols t <> [] -> sure K (fun a => teval t a <> None) -> sure K (regular true t) -> (forall z, W z <-> V z \/ z = y) ->
      compiles (Transform y t) V K m W m
  | compiles_condition : forall e (V : string -> Prop) K m, (exists z, V z) -> plain_event V e -> (two (base V) \/ level e) -> (conjunctive e \/ divisible V m (holds e)) -> chance K (holds e) ->
      compiles (Condition e) V K m V None
  | compiles_if : forall es bs (V : string -> Prop) K m W, (exists z, V z) -> conditions_ok es (map fst bs) -> (forall e, In e es -> plain_event V e /\ Forall nonvoid (lits e)) ->
      sure K (fun a => exists b, In b bs /\ test (fst b) a) ->
      (forall P c, In (P, c) (firsts (map (fun b => (test (fst b), snd b)) bs)) -> chance K P -> divisible V m P) ->
      (forall P c, In (P, c) (firsts (map (fun b => (test (fst b), snd b)) bs)) -> chance K P -> compiles c V (restrict K P) None W None) ->
      compiles (IfElse bs) V K m W None
  | compiles_switch : forall x vs f (V : string -> Prop) K m W, base V x -> Forall (plain_case nominal cuts x) vs -> ForallOrdPairs (separate nominal x) vs ->
      sure K (fun a => exists v, In v vs /\ matches x v a) ->
      (forall P c, In (P, c) (firsts (map (fun p => (matches x (snd p), f (fst p) (snd p))) (numbered vs))) -> chance K P -> divisible V m P) ->
      (forall P c, In (P, c) (firsts (map (fun p => (matches x (snd p), f (fst p) (snd p))) (numbered vs))) -> chance K P -> compiles c V (restrict K P) None W None) ->
      compiles (Switch x vs f) V K m W None
  | compiles_for : forall n0 n1 f V K m W m', compiles (Sequence (map f (range n0 n1))) V K m W m' -> compiles (For n0 n1 f) V K m W m'
  | compiles_nil : forall V K m, compiles (Sequence []) V K m V m
  | compiles_cons : forall c cs V K m V' m' W m'', compiles c V K m V' m' -> compiles (Sequence cs) V' (meaning c K) m' W m'' -> compiles (Sequence (c :: cs)) V K m W m''.
End Spec.
