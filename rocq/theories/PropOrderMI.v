(** Property C61, continued: the mutual information that is computed is the same in every process:
    for every order of the elements of a set, every numbering of the objects and every oracle for
    polynomials. *)
From Coq Require Import List Bool String Reals Lra Lia ZArith QArith Qreals PeanoNat.
From Verif Require Import Base Num Sets SetSpec Poly Trans TransSpec Dnf DnfSpec Logs Spe SpeSpec SpeFacts MemoProofs CondTypes PropSpe SpeOps MISpec PropMI TotalSpec TotalProofs PropTotal PropMITotal SolveSpec AskSpec FunSpec MIFunSpec PropMIFun.
Import ListNotations.
Local Open Scope R_scope.

Section Properties.
  Context {N : numsys} {S : logsys} {D : distsys N S} (io io' : iterorder N) (po po' : polyoracle N) (fuel fuel' : nat).
  Context (dlaw : dist D -> (fval -> R) -> R).
  Context (ident ident' : spe D -> nat) (hash : spe D -> Z) (nominal : string -> bool) (cuts points : string -> R -> Prop) (envof : string -> tenv (N:=N)).
  Notation none := (fun (_ : string) (_ : R) => False).
  Notation about s e := (forall x, In x (symbols e) -> own s x).
  Notation returns_both s a b := (exists r, mutual_information io po fuel ident s a b = Ok r /\ mutual_information io' po' fuel' ident' s a b = Ok r).

  (** combinations of comparisons of variables *)
  Theorem C61_information_partial : forall s a b, (1 <= fuel)%nat -> (1 <= fuel')%nat -> wf_spe dlaw s -> typed nominal envof s -> distinct ident s -> distinct ident' s ->
    open_leaves nominal cuts true s -> is_leaf s = false -> direct nominal cuts none a -> direct nominal cuts none b -> Forall nonvoid (lits a) -> Forall nonvoid (lits b) -> about s a -> about s b ->
    returns_both s a b.
  Proof.
    intros s a b Hf Hf' W T Ds Ds' O Nl Da Db Na Nb Va Vb.
    destruct (C38_answers io po fuel dlaw ident hash nominal cuts envof Hf s a b W T Ds O Nl Da Db Na Nb Va Vb) as (r & E & Hr).
    destruct (C38_answers io' po' fuel' dlaw ident' hash nominal cuts envof Hf' s a b W T Ds' O Nl Da Db Na Nb Va Vb) as (r' & E' & Hr').
    exists r. split; [exact E|]. rewrite E', Hr, Hr'. reflexivity.
  Qed.
  (** comparisons of functions of two variables *)
  Theorem C61_function_information_partial : forall s x y a b, (2 <= fuel)%nat -> (2 <= fuel')%nat -> wf_spe dlaw s -> distinct ident s -> distinct ident' s -> is_leaf s = false -> x <> y -> vars s x -> vars s y ->
    prepared po nominal cuts points (fun z => z = x \/ z = y) true s -> prepared po' nominal cuts points (fun z => z = x \/ z = y) true s -> gev a -> gev b ->
    compares po nominal cuts x a -> compares po nominal cuts y b -> compares po' nominal cuts x a -> compares po' nominal cuts y b ->
    surely dlaw s (fun w => regular true a w /\ teval a w <> None) -> surely dlaw s (fun w => regular true b w /\ teval b w <> None) -> returns_both s a b.
  Proof.
    intros s x y a b Hf Hf' W Ds Ds' Nl Ne Vx Vy P P' Ga Gb Ca Cb Ca' Cb' Ra Rb.
    destruct (C38_function_answers io po fuel dlaw ident hash nominal cuts points Hf s x y a b W Ds Nl Ne Vx Vy P Ga Gb Ca Cb Ra Rb) as (r & E & Hr).
    destruct (C38_function_answers io' po' fuel' dlaw ident' hash nominal cuts points Hf' s x y a b W Ds' Nl Ne Vx Vy P' Ga Gb Ca' Cb' Ra Rb) as (r' & E' & Hr').
    exists r. split; [exact E|]. rewrite E', Hr, Hr'. reflexivity.
  Qed.
End Properties.

Definition all_order_mi_properties := (@C61_information_partial, @C61_function_information_partial).
Print Assumptions all_order_mi_properties.
