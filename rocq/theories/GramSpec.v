(** The programs of the language: what a program may assign, and where (C51).  This is written
    from the language's rules, without the translator's visitor, stack of contexts or unrolling. *)
From Coq Require Import List Bool String.
From Verif Require Import Base Num Source.
Import ListNotations.

Section Gram.
  Context {N : numsys} (isdist : string -> bool).
  Notation expr := (expr N).
  Notation stmt := (stmt N).

  (** an expression is a part of another *)
  Inductive part (e : expr) : expr -> Prop :=
  | part_self : part e e
  | part_bin_l op a b : part e a -> part e (XBin op a b)
  | part_bin_r op a b : part e b -> part e (XBin op a b)
  | part_un op a : part e a -> part e (XUn op a)
  | part_boolop c l a : In a l -> part e a -> part e (XBoolOp c l)
  | part_cmp_l a l : part e a -> part e (XCmp a l)
  | part_cmp_r a l op b : In (op, b) l -> part e b -> part e (XCmp a l)
  | part_set l a : In a l -> part e a -> part e (XSet l)
  | part_seq l a : In a l -> part e a -> part e (XSeq l)
  | part_item_l a i : part e a -> part e (XItem a i)
  | part_item_r a i : part e i -> part e (XItem a i)
  | part_arg f args kws a : In a args -> part e a -> part e (XCall f args kws)
  | part_kw f args kws k a : In (k, a) kws -> part e a -> part e (XCall f args kws)
  | part_if_t t a b : part e t -> part e (XIf t a b)
  | part_if_a t a b : part e a -> part e (XIf t a b)
  | part_if_b t a b : part e b -> part e (XIf t a b).
  (** a name is used in an expression, as a value or as a function *)
  Definition mentions (v : expr) (x : string) : Prop :=
    part (XName x) v \/ exists args kws, part (XCall x args kws) v.
  Definition random (v : expr) : Prop := exists d, isdist d = true /\ mentions v d.

  (** where a statement stands: at the top level, in the body of a for over a range, in an
      alternative of an if other than the first *)
  Record place := Place { top : bool; loop : bool; alt : bool }.
  Definition outside : place := Place true false false.
  Definition inner (pl : place) : place := Place false (loop pl) (alt pl).
  Definition looped (pl : place) : place := Place false true (alt pl).
  Definition other (pl : place) : place := Place false (loop pl) true.
  (** the random names declared so far, true for arrays; whether a distribution has been used *)
  Record scope := Scope { declared : list (string * bool); sampled : bool }.
  Definition start : scope := Scope [] false.
  Definition is_declared (G : scope) (x : string) : Prop := exists b, In (x, b) (declared G).
  Definition declare (x : string) (b : bool) (G : scope) : scope := Scope (declared G ++ [(x, b)]) (sampled G).
  (** after the value has been looked at *)
  Definition looked (v : expr) (G G' : scope) : Prop :=
    declared G' = declared G /\ (sampled G' = true <-> sampled G = true \/ random v).

  (** what may be sampled or defined: a fresh name, outside the loops; in an alternative, a name
      that is declared; an element of a declared array, everywhere *)
  Inductive assigns (pl : place) (G : scope) : expr -> scope -> Prop :=
  | assigns_fresh x : loop pl = false -> alt pl = false -> ~ is_declared G x -> assigns pl G (XName x) (declare x false G)
  | assigns_again x : loop pl = false -> alt pl = true -> is_declared G x -> assigns pl G (XName x) G
  | assigns_item x i : In (x, true) (declared G) -> assigns pl G (XItem (XName x) i) G.
  Definition not_array (v : expr) : Prop := forall args kws, v <> XCall "array" args kws.
  Inductive assignment (pl : place) (G : scope) : expr -> expr -> scope -> Prop :=
  (* x = array(n) *)
  | assign_array x n kws G' : top pl = true -> ~ is_declared G x -> looked (XCall "array" [n] kws) G G' ->
      assignment pl G (XName x) (XCall "array" [n] kws) (declare x true G')
  (* t = d(...) for a distribution d *)
  | assign_sample t d args kws G1 G2 : isdist d = true -> d <> "array"%string -> looked (XCall d args kws) G G1 -> assigns pl G1 t G2 ->
      assignment pl G t (XCall d args kws) G2
  (* t = a | b with a distribution in it *)
  | assign_mixture t a b G1 G2 : random (XBin BOr a b) -> looked (XBin BOr a b) G G1 -> assigns pl G1 t G2 ->
      assignment pl G t (XBin BOr a b) G2
  (* t = a function of random variables *)
  | assign_transform t v G2 : not_array v -> ~ random v -> (exists x, mentions v x /\ is_declared G x) -> assigns pl G t G2 ->
      assignment pl G t v G2
  (* a constant, at the top level and before any sampling *)
  | assign_constant t v : not_array v -> ~ random v -> (forall x, mentions v x -> ~ is_declared G x) -> top pl = true -> sampled G = false ->
      assignment pl G t v G.

  Inductive legal (pl : place) (G : scope) : stmt -> scope -> Prop :=
  | legal_import i : legal pl G (SImport i) G
  | legal_none : legal pl G SNone G
  | legal_assign t v G' : (forall c a b, v <> XIf c a b) -> assignment pl G t v G' -> legal pl G (SAssign [t] v) G'
  (* ts = a if c else b means: if c: ts = a else: ts = b *)
  | legal_choice ts c a b G' : legal pl G (SIf c [SAssign ts a] [SAssign ts b]) G' -> legal pl G (SAssign ts (XIf c a b)) G'
  (* an if needs an elif or an else *)
  | legal_if c body orelse G1 G2 : orelse <> [] -> legals (inner pl) G body G1 -> alternative (other pl) G1 orelse G2 ->
      legal pl G (SIf c body orelse) G2
  | legal_range x args body G' : List.length args = 1 \/ List.length args = 2 -> legals (looped pl) G body G' ->
      legal pl G (SFor [x] "range" args body) G'
  | legal_switch xs t vs body G' : (exists x, t = XName x) \/ (exists a i, t = XItem a i) -> legals (inner pl) G body G' ->
      legal pl G (SFor xs "switch" [t; vs] body) G'
  | legal_event f e : f = "condition"%string \/ f = "constrain"%string -> legal pl G (SCall f [e]) G
  | legal_call f args : f <> "condition"%string -> f <> "constrain"%string -> legal pl G (SCall f args) G
  with legals (pl : place) (G : scope) : list stmt -> scope -> Prop :=
  | legals_nil : legals pl G [] G
  | legals_cons s l G1 G2 : legal pl G s G1 -> legals pl G1 l G2 -> legals pl G (s :: l) G2
  (* what follows the first body: an else, an elif with its own alternatives, or a last elif *)
  with alternative (pl : place) (G : scope) : list stmt -> scope -> Prop :=
  | alternative_else l G' : legals pl G l G' -> alternative pl G l G'
  | alternative_last c body G' : legals pl G body G' -> alternative pl G [SIf c body []] G'.
End Gram.
