(** Python-level plumbing shared by every model file: exceptions as values,
    [reduce], list helpers.  Nothing here is specific to SPPL. *)
From Coq Require Import List Bool.
Import ListNotations.

(** The exceptions that the modelled code can raise.  [OutOfFuel] is not a
    Python exception: it marks that a fuel-bounded recursion was cut short, and
    every theorem is about calls that return [Ok], so it never hides a result. *)
Inductive exn :=
| AssertionError | ValueError | TypeError | KeyError | IndexError | NotImplementedError
| AttributeError | SyntaxError | OutOfFuel.

Inductive res (A : Type) := Ok (a : A) | Raise (e : exn).
Arguments Ok {A} a.
Arguments Raise {A} e.

Definition bind {A B} (m : res A) (k : A -> res B) : res B :=
  match m with Ok a => k a | Raise e => Raise e end.
Notation "'do' x <- m ; k" := (bind m (fun x => k))
  (at level 200, x pattern, m at level 100, k at level 200, right associativity).

(** Python [assert]. *)
Definition passert (b : bool) : res unit :=
  if b then Ok tt else Raise AssertionError.

(** List comprehension whose body may raise. *)
Section MapM.
  Context {A B : Type} (f : A -> res B).
  Fixpoint mapM (l : list A) : res (list B) :=
    match l with
    | [] => Ok []
    | x :: l => do y <- f x; do ys <- mapM l; Ok (y :: ys)
    end.
End MapM.

(** [functools.reduce(f, l, init)]. *)
Fixpoint foldM {A B} (f : A -> B -> res A) (l : list B) (a : A) : res A :=
  match l with
  | [] => Ok a
  | x :: l => do a' <- f a x; foldM f l a'
  end.

(** [functools.reduce(f, l)]: a TypeError on an empty sequence. *)
Definition reduceM {A} (f : A -> A -> res A) (l : list A) : res A :=
  match l with
  | [] => Raise TypeError
  | x :: l => foldM f l x
  end.

(** Insertion sort; stable, like Python's [sorted]. *)
Section Sort.
  Context {A : Type} (leb : A -> A -> bool).
  Fixpoint insert (x : A) (l : list A) : list A :=
    match l with
    | [] => [x]
    | y :: l' => if leb x y then x :: l else y :: insert x l'
    end.
  Definition sort (l : list A) : list A := fold_right insert [] l.
End Sort.

(** Removing duplicates with respect to a boolean equality, as building a
    Python set or frozenset does. *)
Section Dedup.
  Context {A : Type} (eqb : A -> A -> bool).
  Definition inb (x : A) (l : list A) : bool := existsb (eqb x) l.
  Fixpoint dedup (l : list A) : list A :=
    match l with
    | [] => []
    | x :: l => if inb x l then dedup l else x :: dedup l
    end.
End Dedup.

Definition is_nil {A} (l : list A) : bool :=
  match l with [] => true | _ => false end.

(** ** Facts *)

Lemma bind_Ok : forall A B (m : res A) (k : A -> res B) b,
  bind m k = Ok b -> exists a, m = Ok a /\ k a = Ok b.
Proof. intros A B [a|e] k b H; simpl in H; [eauto|discriminate]. Qed.

Lemma passert_Ok : forall b u, passert b = Ok u -> b = true.
Proof. intros [] u H; [reflexivity|discriminate]. Qed.

Ltac inv_bind H :=
  lazymatch type of H with
  | bind ?m ?k = Ok ?b =>
      let x := fresh "r" in let Hx := fresh "E" in
      apply bind_Ok in H; destruct H as (x & Hx & H)
  end.

Lemma mapM_Forall2 : forall A B (f : A -> res B) l l',
  mapM f l = Ok l' -> Forall2 (fun x y => f x = Ok y) l l'.
Proof.
  induction l as [|x l IH]; simpl; intros l' H.
  - injection H as <-. constructor.
  - inv_bind H. inv_bind H. injection H as <-. constructor; auto.
Qed.

From Coq Require Import Permutation.

Section SortFacts.
  Context {A : Type} (leb : A -> A -> bool).
  Lemma insert_perm : forall x l, Permutation (x :: l) (insert leb x l).
  Proof.
    induction l as [|y l IH]; simpl; [reflexivity|].
    destruct (leb x y); [reflexivity|].
    rewrite perm_swap. now apply perm_skip.
  Qed.
  Lemma sort_perm : forall l, Permutation l (sort leb l).
  Proof.
    induction l as [|x l IH]; simpl; [reflexivity|].
    rewrite <- insert_perm. now apply perm_skip.
  Qed.
  Lemma sort_In : forall l x, In x (sort leb l) <-> In x l.
  Proof.
    intros l x; split; apply Permutation_in; [symmetry|]; apply sort_perm.
  Qed.

  Context (total : forall x y, leb x y = true \/ leb y x = true).
  Context (trans : forall x y z, leb x y = true -> leb y z = true -> leb x z = true).
  Inductive sorted : list A -> Prop :=
  | sorted_nil : sorted []
  | sorted_cons : forall x l, Forall (fun y => leb x y = true) l -> sorted l -> sorted (x :: l).
  Lemma insert_sorted : forall x l, sorted l -> sorted (insert leb x l).
  Proof.
    induction 1 as [|y l Hy Hl IH]; simpl.
    - repeat constructor.
    - destruct (leb x y) eqn:E.
      + constructor; [|now constructor].
        constructor; [assumption|].
        eapply Forall_impl; [|exact Hy]. eauto.
      + constructor; [|assumption].
        eapply Permutation_Forall; [apply insert_perm|].
        constructor; [|assumption]. destruct (total x y); congruence.
  Qed.
  Lemma sort_sorted : forall l, sorted (sort leb l).
  Proof. induction l; simpl; [constructor|now apply insert_sorted]. Qed.
End SortFacts.

Section DedupFacts.
  Context {A : Type} (eqb : A -> A -> bool).
  Lemma dedup_In : forall l x, In x (dedup eqb l) -> In x l.
  Proof.
    induction l as [|y l IH]; simpl; [auto|]. intros x.
    destruct (inb eqb y l); simpl; intuition.
  Qed.
  Lemma inb_true : forall x l, inb eqb x l = true <-> exists y, In y l /\ eqb x y = true.
  Proof. intros; unfold inb; apply existsb_exists. Qed.
  Context (eqb_refl : forall x, eqb x x = true).
  Context (eqb_trans : forall x y z, eqb x y = true -> eqb y z = true -> eqb x z = true).
  Lemma dedup_In_eq : forall l x, In x l -> exists y, In y (dedup eqb l) /\ eqb x y = true.
  Proof.
    induction l as [|y l IH]; simpl; intros x H; [tauto|].
    destruct H as [<-|H].
    - destruct (inb eqb y l) eqn:E.
      + apply inb_true in E. destruct E as (z & Hz & E).
        destruct (IH _ Hz) as (w & Hw & E'). eauto.
      + exists y; simpl; auto.
    - destruct (IH _ H) as (z & Hz & E).
      destruct (inb eqb y l); simpl; eauto.
  Qed.
End DedupFacts.
