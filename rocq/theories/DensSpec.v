(** Specification of densities and of constraining: what SPE.logpdf and SPE.constrain of
    src/spe.py stand for.  This file uses the syntax of expressions, none of the algorithms.

    A density comes with a dimension: the number of continuous variables among those assigned.
    Densities are compared lexicographically: a smaller dimension outweighs any density of a
    larger one.  [density_limit] says what this means in terms of probabilities. *)
From Coq Require Import List Bool String Reals ZArith QArith Qreals Rlimit.
From Verif Require Import Base Num Sets SetSpec Poly Trans TransSpec Logs Spe SpeSpec.
Import ListNotations.
Local Open Scope R_scope.

(** An assignment of values to variables. *)
Definition values := list (string * rval).
(** the value of a random variable; infinite values are never taken *)
Definition taken (v : rval) : fval := match v with RNum (Fin r) => FNum r | RNum _ => FNum 0 | RStr s => FStr s end.
Definition finite_values (a : values) : Prop := Forall (fun p => finite_val (snd p)) a.
(** u is v, up to h *)
Definition close (h : R) (v : rval) (u : fval) : Prop :=
  match v, u with
  | RNum (Fin r), FNum q => Rabs (q - r) <= h
  | RStr s, FStr t => s = t
  | _, _ => False
  end.
Definition near (h : R) (a : values) (w : asg) : Prop := forall p, In p a -> close h (snd p) (w (fst p)).
(** the variables have their assigned values *)
Definition agrees (a : values) (w : asg) : Prop := forall p, In p a -> w (fst p) = taken (snd p).
(** limits as h tends to 0 from above *)
Definition lim0 (f : R -> R) (l : R) : Prop := forall e, 0 < e -> exists d, 0 < d /\ forall h, 0 < h < d -> Rabs (f h - l) < e.
Definition soon (P : R -> Prop) : Prop := exists d, 0 < d /\ forall h, 0 < h < d -> P h.

(** the assignment of some of the variables *)
Definition portion (V : string -> Prop) (a : values) : values := filter (fun p => if dec (V (fst p)) then true else false) a.
(** the least dimension with a positive density *)
Fixpoint least (l : list (nat * R)) : option nat :=
  match l with
  | [] => None
  | q :: l => if dec (0 < snd q) then Some (match least l with Some m => Nat.min (fst q) m | None => fst q end) else least l
  end.

Section Density.
  Context {N : numsys} {S : logsys} {D : distsys N S}.
  Notation spe := (spe D).
  Context (dlaw : dist D -> (fval -> R) -> R).
  (** the density function of a continuous distribution *)
  Context (dpdf : dist D -> R -> R).
  Definition pdf_ok : Prop := (forall d c, toP (logpdf d (Fin c)) = dpdf d (toR c)) /\ forall d r, 0 <= dpdf d r.

  (** the values of the variables in an assignment *)
  Definition val_of (v : val N) : rval := match v with VNum x => RNum (eR x) | VStr s => RStr s end.
  Definition values_of (a : assignment (N:=N)) : values := map (fun p => (fst p, val_of (snd p))) a.

  (** the base variable of a leaf *)
  Definition base (s : spe) : string :=
    match s with RealLeaf _ x _ _ _ _ | AtomicLeaf x _ _ | NominalLeaf x _ => x | _ => EmptyString end.
  (** a leaf: the density of a continuous one, restricted to its support; else the probability *)
  Definition leaf_density (s : spe) (v : rval) : nat * R :=
    match s with
    | RealLeaf true _ d supp cond _ => (0%nat, real_law dlaw d supp cond (ind (eq (taken v))))
    | RealLeaf false _ d supp cond _ =>
      (1%nat, match v with
              | RNum (Fin r) =>
                if cond then ind (in_iv supp) (FNum r) * dpdf d r / dlaw d (ind (in_iv supp)) else dpdf d r
              | _ => 0
              end)
    | AtomicLeaf _ c _ => (0%nat, ind (eq (taken v)) (FNum (toR c)))
    | NominalLeaf _ ws => (0%nat, nom_law ws (ind (eq (taken v))))
    | _ => (0%nat, 0)
    end.
  (** mixtures: only the terms of the least dimension count *)
  Definition mix_density (qs : list ((nat * R) * R)) : nat * R :=
    match least (map fst qs) with
    | None => (0%nat, 0)
    | Some d => (d, sumR (map (fun q => snd q * snd (fst q)) (filter (fun q => Nat.eqb (fst (fst q)) d) qs)))
    end.
  Fixpoint density (s : spe) (a : values) {struct s} : nat * R :=
    match s with
    | SumSPE l => mix_density (map (fun c => (density (fst c) a, toP (snd c))) l)
    | ProductSPE l =>
      let qs := map (fun c => match portion (vars c) a with [] => (0%nat, 1) | b => density c b end) l in
      (list_sum (map fst qs), fold_right Rmult 1 (map snd qs))
    | _ => match a with [(_, v)] => leaf_density s v | _ => (0%nat, 0) end
    end.

  (** the distribution given an assignment: assigned leaves are replaced by their values, and the
      terms of a mixture are weighted by their densities *)
  Section Prods.
    Context (op : spe -> (asg -> R) -> asg -> R).
    Fixpoint op_prod (l : list spe) (f : asg -> R) : asg -> R :=
      match l with [] => f | c :: l => op c (op_prod l f) end.
  End Prods.
  Fixpoint fixed (s : spe) (a : values) (f : asg -> R) (w : asg) {struct s} : R :=
    match s with
    | SumSPE l =>
      let d := fst (density (SumSPE l) a) in
      sumR (map (fun c => if Nat.eqb (fst (density (fst c) a)) d
                          then toP (snd c) * snd (density (fst c) a) / snd (density (SumSPE l) a) * fixed (fst c) a f w
                          else 0) l)
    | ProductSPE l => op_prod (fun c => match portion (vars c) a with [] => den dlaw c | b => fixed c b end) l f w
    | _ => match a with [(_, v)] => f (upd w (base s) (taken v)) | _ => f w end
    end.

  (** ** Densities as limits *)
  (** the probability of a small interval around r is its length times the density; if the density
      is 0, small intervals have probability 0 *)
  Definition smooth (d : dist D) (r : R) : Prop :=
    lim0 (fun h => dlaw d (ind (close h (RNum (Fin r)))) / (2 * h)) (dpdf d r) /\
    (dpdf d r = 0 -> soon (fun h => dlaw d (ind (close h (RNum (Fin r)))) = 0)).
  Definition off_ends (supp : interval N) (r : R) : Prop := eR (iv_a supp) <> Fin r /\ eR (iv_b supp) <> Fin r.
  (** the continuous leaves are smooth where they are assigned, and not assigned the ends of their
      supports *)
  Definition smooth_at (a : values) (s : spe) : Prop :=
    match s with
    | RealLeaf false x d supp cond _ => forall r, In (x, RNum (Fin r)) a -> smooth d r /\ (cond = true -> off_ends supp r)
    | _ => True
    end.
  (** assigned leaves have no continuous distribution *)
  Definition atomic_at (a : values) (s : spe) : Prop :=
    match s with RealLeaf false x _ _ _ _ => ~ In x (map fst a) | _ => True end.
  (** assigned leaves have no derived variables *)
  Definition plain_at (a : values) (s : spe) : Prop :=
    match s with
    | RealLeaf _ x _ _ _ env | AtomicLeaf x _ env => In x (map fst a) -> forall y, In y (map fst env) -> y = x
    | _ => True
    end.
  (** the variables X are none of those of assigned leaves *)
  Definition clear_of (X : list string) (a : values) (s : spe) : Prop :=
    match s with SumSPE _ | ProductSPE _ => True | _ => In (base s) (map fst a) -> forall x, In x X -> ~ vars s x end.
  (** the weights of sums are positive *)
  Definition heavy (s : spe) : Prop :=
    match s with SumSPE l => Forall (fun c => 0 < toP (snd c)) l | _ => True end.
  (** The assignments that have a density: the variables are base variables of leaves, and for each
      sum the same variables are assigned in all its terms. *)
  Fixpoint asked (s : spe) (a : values) {struct s} : Prop :=
    match s with
    | SumSPE l => All (fun c => asked (fst c) a) l
    | ProductSPE l =>
      (forall p, In p a -> vars (ProductSPE l) (fst p)) /\
      All (fun c => portion (vars c) a = [] \/ asked c (portion (vars c) a)) l
    | _ => exists v, a = [(base s, v)]
    end.
  (** the probability that the variables are within h of the values is p (2h)^d, for small h *)
  Definition density_limit (s : spe) (a : values) (d : nat) (p : R) : Prop :=
    lim0 (fun h => Pr dlaw s (near h a) / (2 * h) ^ d) p.
End Density.
