(** Specification of sum-product expressions: the joint distribution of the variables that an
    expression stands for.  This file uses the syntax of expressions, none of the algorithms.

    A distribution on a set of outcomes is given by the expected values of all bounded
    functions: a positive, linear, normalised functional.  Sums are mixtures.  In a product
    the children are drawn one after the other, each independently of those before. *)
From Coq Require Import List Bool String Reals Lra Lia ZArith QArith Qreals.
From Verif Require Import Base Num Sets SetSpec Poly Trans TransSpec Logs Spe.
Import ListNotations.
Local Open Scope R_scope.

Definition bnd {A} (f : A -> R) : Prop := exists M, forall a, Rabs (f a) <= M.
(** the indicator of a set of outcomes *)
Definition ind {A} (P : A -> Prop) (a : A) : R := if dec (P a) then 1 else 0.

(** Distributions. *)
Record law {A} (I : (A -> R) -> R) : Prop := {
  law_plus : forall f g, bnd f -> bnd g -> I (fun a => f a + g a) = I f + I g;
  law_scale : forall c f, bnd f -> I (fun a => c * f a) = c * I f;
  law_pos : forall f, bnd f -> (forall a, 0 <= f a) -> 0 <= I f;
  law_one : I (fun _ => 1) = 1
}.
Arguments law_plus {A I} _ f g.
Arguments law_scale {A I} _ c f.
Arguments law_pos {A I} _ f.
Arguments law_one {A I} _.

Definition is_num (v : fval) : Prop := exists r, v = FNum r.
Definition is_integer (v : fval) : Prop := exists z : Z, v = FNum (IZR z).
(** the value is a number at most x *)
Definition at_most (x : ext R) (v : fval) : Prop := exists r, v = FNum r /\ ele (Fin r) x.

Section Spec.
  Context {N : numsys} {S : logsys} {D : distsys N S}.
  Notation tr := (tr N).
  Notation spe := (spe D).
  (** the distribution that a SciPy distribution stands for *)
  Context (dlaw : dist D -> (fval -> R) -> R).

  (** What is assumed of a SciPy distribution: logcdf is the logarithm of the cumulative
      distribution function; a continuous one gives no point a positive probability; a
      discrete one is concentrated on the integers and logpmf gives the probability of a point. *)
  Record dist_ok (disc : bool) (d : dist D) : Prop := {
    d_law : law (dlaw d);
    d_num : dlaw d (ind is_num) = 1;
    d_cdf : forall x, toP (logcdf d x) = dlaw d (ind (at_most (eR x)));
    d_cont : disc = false -> forall r, dlaw d (ind (eq (FNum r))) = 0;
    d_int : disc = true -> dlaw d (ind is_integer) = 1;
    d_pmf : disc = true -> forall a, toP (logpdf d (Fin a)) = dlaw d (ind (eq (FNum (toR a))))
  }.

  (** the value of a leaf's base variable: conditioned leaves are restricted to the support *)
  Definition in_iv (i : interval N) (v : fval) : Prop := fm v (PB (BInt i)).
  Definition real_law (d : dist D) (supp : interval N) (cond : bool) (f : fval -> R) : R :=
    if cond then dlaw d (fun v => f v * ind (in_iv supp) v) / dlaw d (ind (in_iv supp)) else dlaw d f.
  Definition nom_law (ws : list (string * Q)) (f : fval -> R) : R :=
    sumR (map (fun p => f (FStr (fst p)) * Q2R (snd p)) ws).
  (** the derived variables of a leaf get the values of their definitions *)
  Definition value_or (o : option fval) : fval := match o with Some v => v | None => FNum 0 end.
  Fixpoint derive (env : tenv (N:=N)) (w : asg) : asg :=
    match env with
    | [] => w
    | (y, t) :: env => derive env (upd w y (value_or (teval t w)))
    end.
  Definition place (x : string) (env : tenv (N:=N)) (w : asg) (v : fval) : asg := derive env (upd w x v).

  (** [den s f w]: the expected value of f at the assignment obtained from w by drawing the
      variables of s *)
  Section Prods.
    Context (den : spe -> (asg -> R) -> asg -> R).
    Fixpoint den_prod (l : list spe) (f : asg -> R) : asg -> R :=
      match l with [] => f | c :: l => den c (den_prod l f) end.
  End Prods.
  Fixpoint den (s : spe) (f : asg -> R) (w : asg) {struct s} : R :=
    match s with
    | RealLeaf _ x d supp cond env => real_law d supp cond (fun v => f (place x env w v))
    | AtomicLeaf x a env => f (place x env w (FNum (toR a)))
    | NominalLeaf x ws => nom_law ws (fun v => f (upd w x v))
    | SumSPE l => sumR (map (fun c => toP (snd c) * den (fst c) f w) l)
    | ProductSPE l => den_prod den l f w
    end.
  (** the probability of a set of assignments, of an event; almost sure truth *)
  Definition w0 : asg := fun _ => FNum 0.
  Definition Pr (s : spe) (P : asg -> Prop) : R := den s (ind P) w0.
  Definition prob (s : spe) (e : tr) : R := Pr s (holds e).
  Definition surely (s : spe) (P : asg -> Prop) : Prop := forall w, den s (ind (fun w => ~ P w)) w = 0.

  (** the variables *)
  Section Any.
    Context {A : Type} (P : A -> Prop).
    Fixpoint Any (l : list A) : Prop := match l with [] => False | a :: l => P a \/ Any l end.
  End Any.
  Fixpoint vars (s : spe) (x : string) : Prop :=
    match s with
    | RealLeaf _ _ _ _ _ env | AtomicLeaf _ _ env => In x (map fst env)
    | NominalLeaf y _ => y = x
    | SumSPE [] => False
    | SumSPE (c :: _) => vars (fst c) x
    | ProductSPE l => Any (fun c => vars c x) l
    end.

  (** Leaves.  The transforms of the derived variables are almost surely defined and regular
      (see [regular] in TransSpec.v).  The support of an unconditioned leaf has probability 1.
      Discrete leaves have supports with integer ends, and either the support is nonnegative or the
      distribution takes positive values only. *)
  Definition env_fine (env : tenv (N:=N)) (w : asg) : Prop :=
    consistent env w /\ forall y t, lookup y env = Some t -> regular true t w.
  Definition env_ok (x : string) (env : tenv (N:=N)) : Prop := env_built x env /\ env_good env.
  Definition integer_end (a : ext (num N)) : Prop := match a with Fin c => exists z : Z, toR c = IZR z | _ => True end.
  Definition int_supp (i : interval N) : Prop := integer_end (iv_a i) /\ integer_end (iv_b i).
  Definition above_zero (v : fval) : Prop := exists r, v = FNum r /\ 0 < r.
  Definition disc_supp (d : dist D) (i : interval N) : Prop :=
    integer_end (iv_a i) /\ integer_end (iv_b i) /\ (ele (Fin 0) (eR (iv_a i)) \/ dlaw d (ind above_zero) = 1).
  Definition wf_leaf (s : spe) : Prop :=
    match s with
    | RealLeaf disc x d supp cond env =>
      wf_iv supp /\ (disc = true -> disc_supp d supp) /\ dist_ok disc d /\
      (if cond then 0 < dlaw d (ind (in_iv supp)) else dlaw d (ind (in_iv supp)) = 1) /\
      env_ok x env /\ surely s (env_fine env)
    | AtomicLeaf x a env => env_ok x env /\ surely s (env_fine env)
    | NominalLeaf x ws => NoDup (map fst ws) /\ Forall (fun p => 0 <= snd p)%Q ws /\ (Qsum (map snd ws) == 1)%Q
    | _ => False
    end.
  (** Sums have weights that total 1 and children with the same variables; the children of a
      product have no variable in common. *)
  Definition apart (s t : spe) : Prop := forall x, vars s x -> vars t x -> False.
  Fixpoint wf_spe (s : spe) : Prop :=
    match s with
    | SumSPE l =>
      All (fun c => wf_spe (fst c)) l /\ sumR (map (fun c => toP (snd c)) l) = 1 /\
      forall c d, In c l -> In d l -> forall x, vars (fst c) x -> vars (fst d) x
    | ProductSPE l => l <> [] /\ All wf_spe l /\ ForallOrdPairs apart l
    | _ => wf_leaf s
    end.

  (** Functions of the variables that are built from bounded functions of one variable. *)
  Inductive simple : (asg -> R) -> Prop :=
  | simple_const : forall c, simple (fun _ => c)
  | simple_var : forall x g, bnd g -> simple (fun w => g (w x))
  | simple_plus : forall f g, simple f -> simple g -> simple (fun w => f w + g w)
  | simple_mult : forall f g, simple f -> simple g -> simple (fun w => f w * g w)
  | simple_ext : forall f g, (forall w, f w = g w) -> simple f -> simple g.
  (** two expressions give the same joint distribution *)
  Definition same_law (s t : spe) : Prop := forall f, simple f -> forall w, den s f w = den t f w.
  (** t is the distribution of s given P *)
  Definition given (s : spe) (P : asg -> Prop) (t : spe) : Prop :=
    forall f, simple f -> forall w, den t f w * den s (ind P) w = den s (fun w => f w * ind P w) w.
End Spec.
