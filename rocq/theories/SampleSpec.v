(** What samples ought to be (C41).

    Two readings of a sampler: [outcome] says which results are possible, given what each request
    may return; [expect] computes the expected value of a function of the result, given the
    distributions of what the requests return. *)
From Coq Require Import List Bool String Reals ZArith QArith Qreals Permutation.
From Verif Require Import Base Num Sets SetSpec Poly Trans TransSpec Logs Spe SpeSpec Sample.
Import ListNotations.
Local Open Scope list_scope.
Local Open Scope R_scope.

(** n independent draws *)
Fixpoint iid {A} (I : (A -> R) -> R) (n : nat) (f : list A -> R) : R :=
  match n with O => f [] | Datatypes.S n => I (fun a => iid I n (fun l => f (a :: l))) end.
(** a number below the length of the list, with the given probabilities *)
Definition index_law (p : list R) (f : nat -> R) : R := sumR (map (fun i => nth i p 0 * f i) (seq 0 (List.length p))).
Fixpoint pairs {A} (fs : list (A -> R)) (l : list A) : R :=
  match fs, l with [], [] => 1 | f :: fs, a :: l => f a * pairs fs l | _, _ => 0 end.
Fixpoint upto {A} (f : A -> R) (n : nat) (l : list A) : R :=
  match n, l with Datatypes.S n, a :: l => f a + upto f n l | _, _ => 0 end.

Section Spec.
  Context {N : numsys} {S : logsys} {D : distsys N S}.
  Notation spe := (spe D).
  Notation gen := (gen (D:=D)).

  (** ** Possible results *)
  (** [drawn d x]: d.rvs may return x; [uniform u]: uniform() may return u *)
  Context (drawn : dist D -> R -> Prop) (uniform : R -> Prop).
  Inductive outcome {A} : gen A -> res A -> Prop :=
  | out_ret : forall a, outcome (Ret a) (Ok a)
  | out_fail : forall e, outcome (Fail e) (Raise e)
  | out_flip : forall p n k l r, List.length l = n -> Forall (fun i => (i < List.length p)%nat /\ 0 < nth i p 0) l -> outcome (k l) r -> outcome (Flip p n k) r
  | out_shuffle : forall m k l r, Permutation (seq 0 m) l -> outcome (k l) r -> outcome (Shuffle m k) r
  | out_rvs : forall d n k l r, List.length l = n -> Forall (drawn d) l -> outcome (k l) r -> outcome (Rvs d n k) r
  | out_unif : forall n k l r, List.length l = n -> Forall uniform l -> outcome (k l) r -> outcome (Unif n k) r.

  (** the assignment that a sample stands for, on top of another one; [SSet] stands for no value *)
  Definition fval_of (v : sv) : option fval := match v with SNum x => Some (FNum x) | SStr s => Some (FStr s) | SSet _ => None end.
  Definition sv_of (v : fval) : sv := match v with FNum x => SNum x | FStr s => SStr s end.
  Definition onto (m : sdict) (w : asg) : asg := fun x => match sget m x with Some v => value_or (fval_of v) | None => w x end.
  (** the sample has a proper value for exactly the given variables *)
  Definition complete (m : sdict) (V : string -> Prop) : Prop := forall x, V x <-> exists v u, sget m x = Some v /\ fval_of v = Some u.
  Definition only_keys (m : sdict) (V : string -> Prop) : Prop := forall x, sget m x <> None -> V x.

  (** the assignments in the support of an expression: the derived variables have the values of
      their definitions, and branches of weight 0 do not count *)
  Definition leaf_point (s : spe) (v : fval) : Prop :=
    match s with
    | RealLeaf _ _ _ supp _ _ => in_iv supp v
    | AtomicLeaf _ a _ => v = FNum (toR a)
    | NominalLeaf _ ws => exists p, In p ws /\ v = FStr (fst p) /\ (0 < snd p)%Q
    | _ => False
    end.
  Definition spread (s : spe) (w : asg) (v : fval) : asg :=
    match s with
    | RealLeaf _ x _ _ _ env | AtomicLeaf x _ env => place x env w v
    | NominalLeaf x _ => upd w x v
    | _ => w
    end.
  Fixpoint possible (s : spe) (w : asg) : Prop :=
    match s with
    | SumSPE l => Any (fun c => 0 < toP (snd c) /\ possible (fst c) w) l
    | ProductSPE l => All (fun c => possible c w) l
    | _ => exists v, leaf_point s v /\ forall x, vars s x -> w x = spread s w v x
    end.

  (** ** Which expressions are claimed to be sampled well *)
  (** transforms without logarithms and pieces: the code returns a set for the former and raises for the latter *)
  Fixpoint smooth (t : tr N) : Prop :=
    match t with
    | TId _ => True
    | TRadical u _ | TExp u _ | TAbs u | TRecip u | TPoly u _ | EBasic _ u _ => smooth u
    | TLog _ _ | TPiece _ => False
    | EOr l | EAnd l => All smooth l
    end.
  (** the derived variables are smooth and have values at all points of the support *)
  Definition settled_env (s : spe) (env : tenv (N:=N)) : Prop :=
    (forall p, In p env -> smooth (snd p)) /\ forall w v, leaf_point s v -> consistent env (spread s w v).
  Fixpoint settled (s : spe) : Prop :=
    match s with
    | RealLeaf _ _ _ _ _ env | AtomicLeaf _ _ env => settled_env s env
    | NominalLeaf _ _ => True
    | SumSPE l => All (fun c => settled (fst c)) l
    | ProductSPE l => All settled l
    end.

  (** ** Expected values *)
  (** [dlaw d], [ulaw]: the distributions of the numbers that rvs and uniform return; [slaw m]: that
      of the order after a shuffle *)
  Context (dlaw : dist D -> (fval -> R) -> R) (ulaw : (R -> R) -> R) (slaw : nat -> (list nat -> R) -> R).
  Definition num_law (d : dist D) (f : R -> R) : R := dlaw d (fun v => match v with FNum x => f x | FStr _ => 0 end).
  Fixpoint expect {A} (g : gen A) (f : res A -> R) : R :=
    match g with
    | Ret a => f (Ok a)
    | Fail e => f (Raise e)
    | Flip p n k => iid (index_law p) n (fun l => expect (k l) f)
    | Shuffle m k => slaw m (fun l => expect (k l) f)
    | Rvs d n k => iid (num_law d) n (fun l => expect (k l) f)
    | Unif n k => iid ulaw n (fun l => expect (k l) f)
    end.
  (** the chance that the result has a property *)
  Definition chance {A} (g : gen A) (P : A -> Prop) : R := expect g (fun r => match r with Ok a => ind P a | Raise _ => 0 end).

  (** the quantile function: for 0 < q < 1, the least x with q <= F(x); integers for discrete distributions;
      for continuous ones F is continuous *)
  Definition cdf (d : dist D) (x : R) : R := dlaw d (ind (at_most (Fin x))).
  Record quantile (disc : bool) (d : dist D) (q : R -> R) : Prop := {
    q_least : forall p x, 0 < p < 1 -> (q p <= x <-> p <= cdf d x);
    q_int : disc = true -> forall p, 0 < p < 1 -> exists z : Z, q p = IZR z;
    q_cont : disc = false -> forall x e, 0 < e -> exists y, y < x /\ cdf d x - e < cdf d y
  }.
  (** a uniform number: between 0 and 1, not beyond x with probability x *)
  Record uniform_law : Prop := {
    u_law : law ulaw;
    u_in : ulaw (ind (fun u => 0 < u < 1)) = 1;
    u_cdf : forall x, 0 <= x <= 1 -> ulaw (ind (fun u => u <= x)) = x
  }.
  (** a shuffle gives some order of the list *)
  Definition shuffle_law : Prop := forall m, law (slaw m) /\ forall f g, (forall l, Permutation (seq 0 m) l -> f l = g l) -> slaw m f = slaw m g.

  (** rvs returns numbers in the support of the leaf, and ppf is the quantile function *)
  Fixpoint sourced (ppf : dist D -> R -> R) (s : spe) : Prop :=
    match s with
    | RealLeaf disc _ d supp cond _ => if cond then quantile disc d (ppf d) else forall x, drawn d x -> in_iv supp (FNum x)
    | AtomicLeaf _ _ _ | NominalLeaf _ _ => True
    | SumSPE l => All (fun c => sourced ppf (fst c)) l
    | ProductSPE l => All (sourced ppf) l
    end.

  (** for expected values only the second matters *)
  Fixpoint inverted (ppf : dist D -> R -> R) (s : spe) : Prop :=
    match s with
    | RealLeaf disc _ d supp cond _ => cond = true -> quantile disc d (ppf d)
    | AtomicLeaf _ _ _ | NominalLeaf _ _ => True
    | SumSPE l => All (fun c => inverted ppf (fst c)) l
    | ProductSPE l => All (inverted ppf) l
    end.
  (** functions of one number that are constant on finitely many intervals *)
  Inductive step : (fval -> R) -> Prop :=
  | step_const : forall c, step (fun _ => c)
  | step_le : forall x, step (ind (fun v => exists r, v = FNum r /\ r <= x))
  | step_lt : forall x, step (ind (fun v => exists r, v = FNum r /\ r < x))
  | step_plus : forall f g, step f -> step g -> step (fun v => f v + g v)
  | step_mult : forall f g, step f -> step g -> step (fun v => f v * g v)
  | step_ext : forall f g, bnd g -> (forall v, is_num v -> f v = g v) -> step f -> step g.
  (** g is a bounded function of the variable x; where a conditioned leaf decides x, it is a step
      function of the number drawn there (for other functions, the expected value is not determined
      by the distribution function of the uniform numbers) *)
  Fixpoint fair (s : spe) (x : string) (g : fval -> R) : Prop :=
    bnd g /\
    match s with
    | RealLeaf _ y _ _ cond env => cond = true -> In x (map fst env) -> forall w, step (fun v => g (place y env w v x))
    | AtomicLeaf _ _ _ | NominalLeaf _ _ => True
    | SumSPE l => All (fun c => fair (fst c) x g) l
    | ProductSPE l => All (fun c => fair c x g) l
    end.
  Inductive fair_fun (s : spe) : (asg -> R) -> Prop :=
  | fair_const : forall c, fair_fun s (fun _ => c)
  | fair_var : forall x g, fair s x g -> fair_fun s (fun w => g (w x))
  | fair_plus : forall f g, fair_fun s f -> fair_fun s g -> fair_fun s (fun w => f w + g w)
  | fair_mult : forall f g, fair_fun s f -> fair_fun s g -> fair_fun s (fun w => f w * g w)
  | fair_ext : forall f g, (forall w, f w = g w) -> fair_fun s f -> fair_fun s g.

  (** expressions without sums, and those with sums at the top only *)
  Fixpoint sumfree (s : spe) : Prop :=
    match s with SumSPE _ => False | ProductSPE l => All sumfree l | _ => True end.
  Fixpoint flat (s : spe) : Prop :=
    match s with SumSPE l => All (fun c => flat (fst c)) l | ProductSPE l => All sumfree l | _ => True end.
  (** the value of the j-th function at the j-th sample, multiplied; the function at the first n samples, added *)
  Definition together (fs : list (asg -> R)) (w : asg) (r : res (list sdict)) : R :=
    match r with Ok l => pairs (map (fun f m => f (onto m w)) fs) l | Raise _ => 0 end.
  Definition total (f : asg -> R) (n : nat) (w : asg) (r : res (list sdict)) : R :=
    match r with Ok l => upto (fun m => f (onto m w)) n l | Raise _ => 0 end.
End Spec.
